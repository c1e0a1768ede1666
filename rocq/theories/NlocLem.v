(** Lemmas on the model of [GetInfluencingAtoms_nloc] (Nloc.v). *)
From Coq Require Import ZArith QArith Qround Lqa List Lia Bool Permutation.
From Verif Require Import CBase Nloc NlocSpec.
Import ListNotations.
Local Open Scope Z_scope.

(** ** Loops *)
Lemma oflat_ok {A B} (f : A -> outcome (list B)) (g : A -> list B) l :
  (forall x, In x l -> f x = Ok (g x)) -> oflat f l = Ok (flat_map g l).
Proof.
  induction l as [|x l IH]; intros H; cbn [oflat flat_map]; [reflexivity|].
  rewrite (H x) by now left. cbn [obind].
  rewrite IH by (intros y Hy; apply H; now right). reflexivity.
Qed.

Lemma omap_ok {A B} (f : A -> outcome B) (P : A -> B -> Prop) l :
  (forall x, In x l -> exists y, f x = Ok y /\ P x y) ->
  exists ys, omap f l = Ok ys /\ Forall2 P l ys.
Proof.
  induction l as [|x l IH]; intros H; cbn [omap].
  - exists []. split; constructor.
  - destruct (H x (or_introl eq_refl)) as (y & E & HP). rewrite E. cbn [obind].
    destruct IH as (ys & E2 & HF); [intros z Hz; apply H; now right|].
    rewrite E2. cbn [obind]. exists (y :: ys). split; [reflexivity|now constructor].
Qed.

Lemma in_zrange a b x : In x (zrange a b) <-> a <= x <= b.
Proof. unfold zrange. rewrite in_zseq. lia. Qed.

Lemma NoDup_zrange a b : NoDup (zrange a b).
Proof. apply NoDup_zseq. Qed.

Lemma zrange_split a b s e : a <= s -> s <= e + 1 -> e <= b ->
  zrange a b = zrange a (s - 1) ++ zrange s e ++ zrange (e + 1) b.
Proof.
  intros H1 H2 H3. unfold zrange.
  replace (Z.to_nat (b - a + 1)) with
    (Z.to_nat (s - 1 - a + 1) + (Z.to_nat (e - s + 1) + Z.to_nat (b - (e + 1) + 1)))%nat by lia.
  rewrite zseq_app. f_equal. rewrite zseq_app.
  replace (a + Z.of_nat (Z.to_nat (s - 1 - a + 1))) with s by lia.
  replace (s + Z.of_nat (Z.to_nat (e - s + 1))) with (e + 1) by lia. reflexivity.
Qed.

Lemma flat_map_nil {A B} (g : A -> list B) l :
  (forall x, In x l -> g x = []) -> flat_map g l = [].
Proof.
  induction l as [|x l IH]; intros H; cbn [flat_map]; [reflexivity|].
  rewrite (H x) by now left. apply IH. intros y Hy. apply H. now right.
Qed.

Lemma flat_map_sub {B} (g : Z -> list B) a b s e : a <= s -> s <= e + 1 -> e <= b ->
  (forall k, a <= k <= b -> ~ (s <= k <= e) -> g k = []) ->
  flat_map g (zrange a b) = flat_map g (zrange s e).
Proof.
  intros H1 H2 H3 H. rewrite (zrange_split a b s e) by assumption.
  rewrite !flat_map_app.
  rewrite (flat_map_nil g (zrange a (s - 1))), (flat_map_nil g (zrange (e + 1) b)).
  - now rewrite app_nil_r.
  - intros x Hx. apply in_zrange in Hx. apply H; lia.
  - intros x Hx. apply in_zrange in Hx. apply H; lia.
Qed.

Lemma flat_map_ext_in {A B} (f g : A -> list B) l :
  (forall x, In x l -> f x = g x) -> flat_map f l = flat_map g l.
Proof.
  induction l as [|x l IH]; intros H; cbn [flat_map]; [reflexivity|].
  rewrite (H x) by now left. f_equal. apply IH. intros y Hy. apply H. now right.
Qed.

Lemma filter_flat_map {A B} (P : B -> bool) (g : A -> list B) l :
  filter P (flat_map g l) = flat_map (fun x => filter P (g x)) l.
Proof.
  induction l as [|x l IH]; cbn [flat_map]; [reflexivity|].
  rewrite filter_app, IH. reflexivity.
Qed.

Lemma map_flat_map {A B C} (h : B -> C) (g : A -> list B) l :
  map h (flat_map g l) = flat_map (fun x => map h (g x)) l.
Proof.
  induction l as [|x l IH]; cbn [flat_map]; [reflexivity|].
  rewrite map_app, IH. reflexivity.
Qed.

Lemma NoDup_app_disjoint {A} (l m : list A) :
  NoDup l -> NoDup m -> (forall x, In x l -> ~ In x m) -> NoDup (l ++ m).
Proof.
  intros Hl Hm Hd. induction Hl as [|x l Hx Hl IH]; cbn [app]; [exact Hm|].
  constructor.
  - rewrite in_app_iff. intros [K|K]; [now apply Hx|]. apply (Hd x); [now left|exact K].
  - apply IH. intros y Hy. apply Hd. now right.
Qed.

Lemma NoDup_flat_map {A B} (g : A -> list B) l :
  NoDup l -> (forall x, In x l -> NoDup (g x)) ->
  (forall x y b, In x l -> In y l -> In b (g x) -> In b (g y) -> x = y) ->
  NoDup (flat_map g l).
Proof.
  intros Hl. induction Hl as [|x l Hx Hl IH]; intros H1 H2; cbn [flat_map]; [constructor|].
  assert (Hr : NoDup (flat_map g l)).
  { apply IH; [intros y Hy; apply H1; now right|].
    intros y z b Hy Hz. apply H2; now right. }
  assert (H0 : NoDup (g x)) by (apply H1; now left).
  assert (Hd : forall b, In b (g x) -> ~ In b (flat_map g l)).
  { intros b Hb Hc. apply in_flat_map in Hc. destruct Hc as (y & Hy & Hby).
    apply Hx. rewrite (H2 x y b); auto; [now left|now right]. }
  clear - Hr H0 Hd. induction H0 as [|b g' Hb H0 IH]; cbn [app]; [exact Hr|].
  constructor.
  - rewrite in_app_iff. intros [K|K]; [now apply Hb|]. apply (Hd b); [now left|exact K].
  - apply IH. intros b' Hb'. apply Hd. now right.
Qed.

Lemma filter_length_le' {A} (P : A -> bool) l : (length (filter P l) <= length l)%nat.
Proof. induction l as [|x l IH]; cbn; [lia|]. destruct (P x); cbn; lia. Qed.

(** ** Rational floor and ceiling *)
Lemma to_int_ok z : -2147483648 <= z -> z <= INT_MAX -> to_int z = Ok z.
Proof.
  intros H1 H2. unfold to_int.
  destruct (Z.leb_spec (-2147483648) z); destruct (Z.leb_spec z INT_MAX); cbn; try lia; reflexivity.
Qed.

Lemma le_floor p x : (inject_Z p <= x)%Q -> p <= Qfloor x.
Proof. intros H. rewrite <- (Qfloor_Z p). now apply Qfloor_resp_le. Qed.

Lemma ceiling_le p x : (x <= inject_Z p)%Q -> Qceiling x <= p.
Proof. intros H. rewrite <- (Qceiling_Z p). now apply Qceiling_resp_le. Qed.

Lemma floor_le p x : (x <= inject_Z p)%Q -> Qfloor x <= p.
Proof.
  intros H. rewrite <- (Qfloor_Z p). now apply Qfloor_resp_le.
Qed.

Lemma le_ceiling p x : (inject_Z p <= x)%Q -> p <= Qceiling x.
Proof. intros H. rewrite <- (Qceiling_Z p). now apply Qceiling_resp_le. Qed.

Lemma inject_le a b : a <= b -> (inject_Z a <= inject_Z b)%Q.
Proof. intros H. now rewrite <- Zle_Qle. Qed.

Lemma Qle_div_iff a b d : (0 < d)%Q -> (a <= b / d)%Q <-> (a * d <= b)%Q.
Proof.
  intros Hd. split; intros H.
  - assert (E : (b == b / d * d)%Q) by (field; lra). rewrite E.
    apply Qmult_le_compat_r; lra.
  - now apply Qle_shift_div_l.
Qed.

Lemma Qdiv_le_iff a b d : (0 < d)%Q -> (b / d <= a)%Q <-> (b <= a * d)%Q.
Proof.
  intros Hd. split; intros H.
  - assert (E : (b == b / d * d)%Q) by (field; lra). rewrite E.
    apply Qmult_le_compat_r; lra.
  - now apply Qle_shift_div_r.
Qed.

Lemma Qdiv_lt_iff a b d : (0 < d)%Q -> (b / d < a)%Q <-> (b < a * d)%Q.
Proof.
  intros Hd. split; intros H; apply Qnot_le_lt; intros K; apply (Qlt_not_le _ _ H).
  - now apply Qle_div_iff.
  - now apply Qle_div_iff in K.
Qed.

Lemma Qle_bool_false a b : Qle_bool a b = false <-> (b < a)%Q.
Proof.
  split; intros H.
  - apply Qnot_le_lt. intros K. apply Qle_bool_iff in K. congruence.
  - destruct (Qle_bool a b) eqn:E; [|reflexivity].
    apply Qle_bool_iff in E. apply Qlt_not_le in H. contradiction.
Qed.

(** ** One direction *)
Lemma skipped_false a d0 d1 rcb xi : skipped a d0 d1 rcb xi = false <->
  (a_org a + inject_Z d0 * a_del a - rcb <= xi /\
   xi < a_org a + inject_Z d1 * a_del a + rcb)%Q.
Proof.
  unfold skipped. rewrite orb_false_iff, negb_false_iff, Qle_bool_iff, Qle_bool_false.
  reflexivity.
Qed.

Definition rcut (sq : bool) (a : axis) : Q :=
  if sq then (inject_Z (a_nloc a) * a_del a)%Q else 0%Q.

Lemma rcut_nonneg sq a : (0 < a_del a)%Q -> 0 <= a_nloc a -> (0 <= rcut sq a)%Q.
Proof.
  intros H1 H2. unfold rcut. destruct sq; [|lra].
  apply Qmult_le_0_compat; [|lra]. now apply (inject_le 0).
Qed.

Lemma tol_bounds : (0 < TEMP_TOL /\ TEMP_TOL < 1)%Q.
Proof. split; reflexivity. Qed.

Lemma range_bounds a u (m := Qfloor (u / a_len a + TEMP_TOL)) :
  (0 < a_len a)%Q -> (0 <= u)%Q -> (u <= inject_Z 2000000001 * a_len a)%Q ->
  0 <= m <= 2000000002 /\ (forall p, (inject_Z p * a_len a <= u)%Q -> p <= m).
Proof.
  intros HL H0 H1. destruct tol_bounds as [T0 T1].
  assert (E0 : (0 <= u / a_len a)%Q) by (apply Qle_div_iff; [assumption|lra]).
  assert (E1 : (u / a_len a <= inject_Z 2000000001)%Q) by now apply Qdiv_le_iff.
  subst m. set (v := (u / a_len a)%Q) in *.
  split; [split|].
  - apply le_floor. change (inject_Z 0) with 0%Q. lra.
  - apply floor_le. change (inject_Z 2000000001) with (2000000001 # 1)%Q in E1.
    change (inject_Z 2000000002) with (2000000002 # 1)%Q. lra.
  - intros p Hp. apply le_floor. apply (Qle_div_iff _ _ _ HL) in Hp. fold v in Hp. lra.
Qed.

Lemma image_range_ok sq a d0 d1 rcb x0 :
  axis_ok sq a d0 d1 rcb -> (a_bc a = 0 -> (0 <= x0 <= a_len a)%Q) ->
  exists pmin pmax, image_range sq a rcb x0 = Ok (pmin, pmax) /\
    (a_bc a <> 0 -> pmin = 0 /\ pmax = 0) /\
    (forall p, (a_bc a <> 0 -> p = 0) -> skipped a d0 d1 rcb (img a x0 p) = false ->
       pmin <= p <= pmax).
Proof.
  intros [Hd HL Hr HD Hn Hp Hi] Hx.
  destruct (Z.eq_dec (a_bc a) 0) as [E|E].
  2:{ exists 0, 0. split; [unfold image_range; now rewrite (proj2 (Z.eqb_neq _ _) E)|]. split; [auto|]. intros p H _. rewrite (H E). lia. }
  destruct (Hp E) as (Ho & H1 & H2 & H3). specialize (Hx E). clear Hp.
  pose proof (rcut_nonneg sq a Hd Hn) as Hc.
  set (umax := (rcb + a_len a - x0 + rcut sq a)%Q).
  set (umin := (rcb + x0 + rcut sq a)%Q).
  change (if sq then inject_Z (a_nloc a) * a_del a else 0)%Q with (rcut sq a) in *.
  cbv zeta in H1, H2, H3.
  assert (E2 : (inject_Z 2000000001 * a_len a == inject_Z 2000000000 * a_len a + a_len a)%Q).
  { change (inject_Z 2000000001) with (2000000001 # 1)%Q.
    change (inject_Z 2000000000) with (2000000000 # 1)%Q. ring. }
  destruct (range_bounds a umax) as [B1 C1]; [assumption|unfold umax; lra|rewrite E2; unfold umax; lra|].
  destruct (range_bounds a umin) as [B2 C2]; [assumption|unfold umin; lra|rewrite E2; unfold umin; lra|].
  assert (EE : image_range sq a rcb x0 =
    do pmax <- to_int (Qfloor (umax / a_len a + TEMP_TOL)) ;
    do pmin <- to_int (- Qfloor (umin / a_len a + TEMP_TOL)) ;
    Ok (pmin, pmax)).
  { unfold image_range, umax, umin, rcut. rewrite E. cbn [Z.eqb]. destruct sq; [reflexivity|].
    rewrite (Qfloor_comp ((rcb + a_len a - x0) / a_len a + TEMP_TOL)
                         ((rcb + a_len a - x0 + 0) / a_len a + TEMP_TOL)) by (apply Qplus_comp; [apply Qdiv_comp; [ring|reflexivity]|reflexivity]).
    rewrite (Qfloor_comp ((rcb + x0) / a_len a + TEMP_TOL)
                         ((rcb + x0 + 0) / a_len a + TEMP_TOL)) by (apply Qplus_comp; [apply Qdiv_comp; [ring|reflexivity]|reflexivity]).
    reflexivity. }
  rewrite EE. clear EE.
  set (M := Qfloor (umax / a_len a + TEMP_TOL)) in *.
  set (m := Qfloor (umin / a_len a + TEMP_TOL)) in *.
  rewrite (to_int_ok M) by (unfold INT_MAX; lia). cbn [obind].
  rewrite (to_int_ok (- m)) by (unfold INT_MAX; lia). cbn [obind].
  exists (- m), M. split; [reflexivity|]. split; [contradiction|].
  intros p _ Hs. apply skipped_false in Hs. unfold img in Hs. destruct Hs as [S1 S2].
  split.
  - assert (- p <= m); [|lia]. apply C2. rewrite inject_Z_opp. unfold umin. lra.
  - apply C1. unfold umax. lra.
Qed.

Lemma rc_box_ok sq a d0 d1 rcb xi :
  axis_ok sq a d0 d1 rcb -> skipped a d0 d1 rcb xi = false ->
  exists s e, rc_box a d0 d1 rcb xi = Ok (s, e) /\ d0 <= s /\ s <= e + 1 /\ e <= d1 /\
    (forall i, d0 <= i <= d1 ->
       (- rcb <= a_org a + inject_Z i * a_del a - xi <= rcb)%Q -> s <= i <= e).
Proof.
  intros [Hd HL Hr HD Hn _ (I1 & I2 & I3)] Hs. apply skipped_false in Hs. destruct Hs as [S1 S2].
  unfold rc_box.
  set (u := ((xi - a_org a - rcb) / a_del a)%Q).
  set (v := ((xi - a_org a + rcb) / a_del a)%Q).
  (* bounds of u and v *)
  assert (U1 : (u < inject_Z d1)%Q) by (apply Qdiv_lt_iff; [assumption|lra]).
  assert (V1 : (inject_Z d0 <= v)%Q) by (apply Qle_div_iff; [assumption|lra]).
  set (K := 1000000000) in *.
  assert (U2 : (inject_Z (d0 - K) <= u)%Q).
  { apply Qle_div_iff; [assumption|].
    replace (d0 - K) with (d0 + - K) by lia. rewrite inject_Z_plus, inject_Z_opp. lra. }
  assert (V2 : (v <= inject_Z (d1 + K))%Q).
  { apply Qdiv_le_iff; [assumption|]. rewrite inject_Z_plus. lra. }
  assert (UV : (u <= v)%Q).
  { apply Qle_div_iff; [assumption|]. unfold u.
    rewrite Qmult_comm, Qmult_div_r by lra. lra. }
  assert (P1 : Qceiling u <= d1) by (apply ceiling_le; lra).
  assert (P2 : d0 - K <= Qceiling u) by now apply le_ceiling.
  assert (P3 : d0 <= Qfloor v) by now apply le_floor.
  assert (P4 : Qfloor v <= d1 + K) by now apply floor_le.
  assert (P5 : Qceiling u <= Qfloor v + 1).
  { apply ceiling_le. pose proof (Qlt_floor v). apply Qlt_le_weak.
    apply Qle_lt_trans with v; assumption. }
  rewrite (to_int_ok (Qceiling u)) by (unfold INT_MAX; lia). cbn [obind].
  rewrite (to_int_ok (Qfloor v)) by (unfold INT_MAX; lia). cbn [obind].
  exists (Z.max d0 (Qceiling u)), (Z.min d1 (Qfloor v)).
  split; [reflexivity|]. split; [lia|]. split; [lia|]. split; [lia|].
  intros i Hi [N1 N2].
  assert (Qceiling u <= i).
  { apply ceiling_le. apply Qdiv_le_iff; [assumption|]. lra. }
  assert (i <= Qfloor v).
  { apply le_floor. apply Qle_div_iff; [assumption|]. lra. }
  lia.
Qed.

(** ** The images of an atom *)
Definition kept_image (c : cell) (D : dom) (rb p0 : Q * Q * Q) (im : tri) : Prop :=
  let '(bx, by_, bz) := rb in let '(x0, y0, z0) := p0 in let '(p, q, r) := im in
  is_image c im /\
  skipped (ax c) (xs_ D) (xe_ D) bx (img (ax c) x0 p) = false /\
  skipped (ay c) (ys_ D) (ye_ D) by_ (img (ay c) y0 q) = false /\
  skipped (az c) (zs_ D) (ze_ D) bz (img (az c) z0 r) = false.

Lemma images_ok c D rb p0 : box_ok c D rb -> in_cell c p0 ->
  exists l, images c D rb p0 = Ok l /\ NoDup l /\
    (forall im, In im l <-> kept_image c D rb p0 im).
Proof.
  destruct rb as [[bx by_] bz]. destruct p0 as [[x0 y0] z0].
  intros (OX & OY & OZ & _) (IX & IY & IZ). unfold images.
  destruct (image_range_ok _ _ _ _ _ _ OX IX) as (px & Px & EX & NX & CX).
  destruct (image_range_ok _ _ _ _ _ _ OY IY) as (py & Py & EY & NY & CY).
  destruct (image_range_ok _ _ _ _ _ _ OZ IZ) as (pz & Pz & EZ & NZ & CZ).
  rewrite EX, EY, EZ. cbn [obind fst snd].
  eexists. split; [reflexivity|]. split.
  - apply NoDup_flat_map; [apply NoDup_zrange| |].
    + intros r Hr. destruct (skipped (az c) _ _ _ _); [constructor|].
      apply NoDup_flat_map; [apply NoDup_zrange| |].
      * intros q Hq. destruct (skipped (ay c) _ _ _ _); [constructor|].
        apply NoDup_flat_map; [apply NoDup_zrange| |].
        -- intros p Hp. destruct (skipped (ax c) _ _ _ _); [constructor|].
           constructor; [intros []|constructor].
        -- intros p p' b _ _ H1 H2.
           destruct (skipped (ax c) _ _ _ (img (ax c) x0 p)); [easy|].
           destruct (skipped (ax c) _ _ _ (img (ax c) x0 p')); [easy|].
           destruct H1 as [<-|[]]. destruct H2 as [H2|[]]. congruence.
      * intros q q' b _ _ H1 H2.
        destruct (skipped (ay c) _ _ _ (img (ay c) y0 q)); [easy|].
        destruct (skipped (ay c) _ _ _ (img (ay c) y0 q')); [easy|].
        apply in_flat_map in H1. destruct H1 as (p1 & _ & H1).
        apply in_flat_map in H2. destruct H2 as (p2 & _ & H2).
        destruct (skipped (ax c) _ _ _ (img (ax c) x0 p1)); [easy|].
        destruct (skipped (ax c) _ _ _ (img (ax c) x0 p2)); [easy|].
        destruct H1 as [<-|[]]. destruct H2 as [H2|[]]. congruence.
    + intros r r' b _ _ H1 H2.
      destruct (skipped (az c) _ _ _ (img (az c) z0 r)); [easy|].
      destruct (skipped (az c) _ _ _ (img (az c) z0 r')); [easy|].
      apply in_flat_map in H1. destruct H1 as (q1 & _ & H1).
      apply in_flat_map in H2. destruct H2 as (q2 & _ & H2).
      destruct (skipped (ay c) _ _ _ (img (ay c) y0 q1)); [easy|].
      destruct (skipped (ay c) _ _ _ (img (ay c) y0 q2)); [easy|].
      apply in_flat_map in H1. destruct H1 as (p1 & _ & H1).
      apply in_flat_map in H2. destruct H2 as (p2 & _ & H2).
      destruct (skipped (ax c) _ _ _ (img (ax c) x0 p1)); [easy|].
      destruct (skipped (ax c) _ _ _ (img (ax c) x0 p2)); [easy|].
      destruct H1 as [<-|[]]. destruct H2 as [H2|[]]. congruence.
  - intros [[p q] r]. unfold kept_image, is_image. split.
    + intros H. apply in_flat_map in H. destruct H as (r1 & Hr & H).
      destruct (skipped (az c) _ _ _ _) eqn:SZ; [easy|].
      apply in_flat_map in H. destruct H as (q1 & Hq & H).
      destruct (skipped (ay c) _ _ _ _) eqn:SY; [easy|].
      apply in_flat_map in H. destruct H as (p1 & Hp & H).
      destruct (skipped (ax c) _ _ _ _) eqn:SX; [easy|].
      destruct H as [H|[]]. injection H as <- <- <-.
      apply in_zrange in Hr, Hq, Hp.
      split; [|auto]. split; [|split]; intros E.
      * specialize (NX E). lia.
      * specialize (NY E). lia.
      * specialize (NZ E). lia.
    + intros ((E1 & E2 & E3) & SX & SY & SZ).
      apply in_flat_map. exists r. split; [apply in_zrange; now apply CZ|].
      rewrite SZ. apply in_flat_map. exists q. split; [apply in_zrange; now apply CY|].
      rewrite SY. apply in_flat_map. exists p. split; [apply in_zrange; now apply CX|].
      rewrite SX. now left.
Qed.

(** ** The nodes of an image *)
Lemma zrange_nodes D : nodes D =
  flat_map (fun k => flat_map (fun j => flat_map (fun i => [(i, j, k)])
    (zrange (xs_ D) (xe_ D))) (zrange (ys_ D) (ye_ D))) (zrange (zs_ D) (ze_ D)).
Proof.
  unfold nodes. apply flat_map_ext_in. intros k _. apply flat_map_ext_in. intros j _.
  unfold zrange. generalize (zseq (xs_ D) (Z.to_nat (xe_ D - xs_ D + 1))).
  intros l. induction l as [|i l IH]; cbn; [reflexivity|]. now rewrite IH.
Qed.

Lemma in_nodes D i j k : In (i, j, k) (nodes D) <->
  xs_ D <= i <= xe_ D /\ ys_ D <= j <= ye_ D /\ zs_ D <= k <= ze_ D.
Proof.
  rewrite zrange_nodes. rewrite in_flat_map. split.
  - intros (k' & Hk & H). apply in_flat_map in H. destruct H as (j' & Hj & H).
    apply in_flat_map in H. destruct H as (i' & Hi & H). destruct H as [H|[]].
    injection H as <- <- <-. apply in_zrange in Hi, Hj, Hk. auto.
  - intros (Hi & Hj & Hk). exists k. split; [now apply in_zrange|].
    apply in_flat_map. exists j. split; [now apply in_zrange|].
    apply in_flat_map. exists i. split; [now apply in_zrange|]. now left.
Qed.

Definition typ_ok (c : cell) : Prop := c_typ c = 0 \/ 10 < c_typ c < 20.

Lemma calc_r2_ok c x y z xr yr zr : typ_ok c ->
  calc_r2 c x y z xr yr zr = Ok (norm2 c ((x - xr)%Q, (y - yr)%Q, (z - zr)%Q)).
Proof.
  intros H. unfold calc_r2, norm2, typ_ok in *.
  destruct (Z.eqb_spec (c_typ c) 0); [reflexivity|].
  destruct (Z.ltb_spec 10 (c_typ c)); [|lia]. destruct (Z.ltb_spec (c_typ c) 20); [|lia].
  reflexivity.
Qed.

Lemma local_bound D i j k : In (i, j, k) (nodes D) ->
  0 <= local_index D (i, j, k) < DMnx D * DMny D * (ze_ D - zs_ D + 1).
Proof.
  intros H. apply in_nodes in H. destruct H as (Hi & Hj & Hk).
  unfold local_index.
  assert (A : 0 <= i - xs_ D < DMnx D) by (unfold DMnx; lia).
  assert (B : 0 <= j - ys_ D < DMny D) by (unfold DMny; lia).
  assert (C : 0 <= k - zs_ D <= ze_ D - zs_ D) by lia.
  generalize dependent (i - xs_ D). generalize dependent (j - ys_ D).
  generalize dependent (k - zs_ D). generalize (ze_ D - zs_ D). generalize (DMnx D), (DMny D).
  intros m n d c C b B a A.
  assert (0 <= b + n * c <= n * d + n - 1) by nia.
  assert (0 <= m * (b + n * c) <= m * (n * d + n - 1)) by nia. nia.
Qed.

Lemma flat_len {A} (g : A -> list Z) l m :
  (forall x, In x l -> Z.of_nat (length (g x)) <= m) -> 
  Z.of_nat (length (flat_map g l)) <= Z.of_nat (length l) * m.
Proof.
  induction l as [|x l IH]; intros H; cbn [flat_map]; [cbn; lia|].
  rewrite app_length. pose proof (H x (or_introl eq_refl)).
  assert (Z.of_nat (length (flat_map g l)) <= Z.of_nat (length l) * m).
  { apply IH. intros y Hy. apply H. now right. }
  cbn [length]. lia.
Qed.

Lemma zrange_len s e : s <= e + 1 -> Z.of_nat (length (zrange s e)) = e - s + 1.
Proof. intros. unfold zrange. rewrite zseq_length. lia. Qed.

Lemma fill_entry_ok c D rb rc p0 a im : typ_ok c -> box_ok c D rb -> covers c rb rc ->
  kept_image c D rb p0 im ->
  exists e, fill_entry c D rb (rc * rc) p0 a im = Ok e /\ good_entry c D p0 rc a im e.
Proof.
  destruct rb as [[bx by_] bz]. destruct p0 as [[x0 y0] z0]. destruct im as [[p q] r].
  intros HT (OX & OY & OZ & HN) HC (_ & SX & SY & SZ). unfold fill_entry.
  set (xi := img (ax c) x0 p) in *. set (yi := img (ay c) y0 q) in *.
  set (zi := img (az c) z0 r) in *.
  destruct (rc_box_ok _ _ _ _ _ _ OX SX) as (sx & ex & EX & X1 & X2 & X3 & X4).
  destruct (rc_box_ok _ _ _ _ _ _ OY SY) as (sy & ey & EY & Y1 & Y2 & Y3 & Y4).
  destruct (rc_box_ok _ _ _ _ _ _ OZ SZ) as (sz & ez & EZ & Z1 & Z2 & Z3 & Z4).
  rewrite EX, EY, EZ. cbn [obind fst snd].
  assert (Dx : 1 <= DMnx D) by (unfold DMnx; pose proof (ok_dom _ _ _ _ _ OX); lia).
  assert (Dy : 1 <= DMny D) by (unfold DMny; pose proof (ok_dom _ _ _ _ _ OY); lia).
  assert (Dz : 1 <= ze_ D - zs_ D + 1) by (pose proof (ok_dom _ _ _ _ _ OZ); lia).
  set (fx := ex - sx + 1). set (fy := ey - sy + 1). set (fz := ez - sz + 1).
  assert (Fx : 0 <= fx <= DMnx D) by (unfold fx, DMnx; lia).
  assert (Fy : 0 <= fy <= DMny D) by (unfold fy, DMny; lia).
  assert (Fz : 0 <= fz <= ze_ D - zs_ D + 1) by (unfold fz; lia).
  assert (B1 : 0 <= fx * fy <= DMnx D * DMny D) by nia.
  assert (B1' : DMnx D * DMny D <= INT_MAX) by nia.
  assert (B2 : 0 <= fx * fy * fz <= DMnx D * DMny D * (ze_ D - zs_ D + 1)) by nia.
  rewrite (to_int_ok (fx * fy)) by lia. cbn [obind].
  rewrite (to_int_ok (fx * fy * fz)) by lia. cbn [obind].
  set (nrm := fun i j k => norm2 c (disp c (x0, y0, z0) (p, q, r) (i, j, k))).
  set (g3 := fun j k i => if Qle_bool (nrm i j k) (rc * rc) then [local_index D (i, j, k)] else []).
  assert (EO : oflat (fun k => oflat (fun j => oflat (fun i =>
        do r2 <- calc_r2 c (a_org (ax c) + inject_Z i * a_del (ax c))
                           (a_org (ay c) + inject_Z j * a_del (ay c))
                           (a_org (az c) + inject_Z k * a_del (az c)) xi yi zi ;
        if Qle_bool r2 (rc * rc) then
          do s <- to_int ((k - zs_ D) * (DMnx D * DMny D)
                          + (j - ys_ D) * DMnx D + (i - xs_ D)) ; Ok [s]
        else Ok []) (zrange sx ex)) (zrange sy ey)) (zrange sz ez) =
    Ok (flat_map (fun k => flat_map (fun j => flat_map (g3 j k) (zrange sx ex)) (zrange sy ey))
       (zrange sz ez))).
  { apply oflat_ok. intros k Hk. apply in_zrange in Hk.
    apply oflat_ok. intros j Hj. apply in_zrange in Hj.
    apply oflat_ok. intros i Hi. apply in_zrange in Hi.
    rewrite calc_r2_ok by assumption. cbn [obind].
    unfold g3, nrm, disp. change (x0 + a_len (ax c) * inject_Z p)%Q with xi.
    change (y0 + a_len (ay c) * inject_Z q)%Q with yi.
    change (z0 + a_len (az c) * inject_Z r)%Q with zi.
    destruct (Qle_bool _ _); [|reflexivity].
    assert (HL : In (i, j, k) (nodes D)) by (apply in_nodes; lia).
    apply local_bound in HL. 
    replace ((k - zs_ D) * (DMnx D * DMny D) + (j - ys_ D) * DMnx D + (i - xs_ D))
      with (local_index D (i, j, k)) by (unfold local_index; ring).
    rewrite to_int_ok by lia. reflexivity. }
  rewrite EO. cbn [obind]. clear EO.
  assert (EL : flat_map (fun k => flat_map (fun j => flat_map (g3 j k) (zrange sx ex)) (zrange sy ey))
       (zrange sz ez) =
     map (local_index D) (filter (fun n => Qle_bool (norm2 c (disp c (x0, y0, z0) (p, q, r) n)) (rc * rc)) (nodes D))).
  { rewrite zrange_nodes, filter_flat_map, map_flat_map.
    assert (CC : forall i j k, Qle_bool (nrm i j k) (rc * rc) = true ->
      xs_ D <= i <= xe_ D -> ys_ D <= j <= ye_ D -> zs_ D <= k <= ze_ D ->
      (sx <= i <= ex) /\ (sy <= j <= ey) /\ (sz <= k <= ez)).
    { intros i j k H Hi Hj Hk. apply Qle_bool_iff in H. unfold nrm, disp in H.
      change (x0 + a_len (ax c) * inject_Z p)%Q with xi in H.
      change (y0 + a_len (ay c) * inject_Z q)%Q with yi in H.
      change (z0 + a_len (az c) * inject_Z r)%Q with zi in H.
      apply HC in H. destruct H as (H1 & H2 & H3). auto. }
    symmetry. rewrite (flat_map_sub _ _ _ sz ez) by (first [assumption |
      intros k Hk Hn; rewrite filter_flat_map, map_flat_map; apply flat_map_nil; intros j Hj;
      rewrite filter_flat_map, map_flat_map; apply flat_map_nil; intros i Hi;
      apply in_zrange in Hj, Hi; cbn [filter];
      fold (nrm i j k); destruct (Qle_bool (nrm i j k) (rc * rc)) eqn:Q; [|reflexivity];
      exfalso; apply Hn; now apply (CC i j k)]).
    apply flat_map_ext_in. intros k Hk. apply in_zrange in Hk.
    rewrite filter_flat_map, map_flat_map.
    rewrite (flat_map_sub _ _ _ sy ey) by (first [assumption |
      intros j Hj Hn; rewrite filter_flat_map, map_flat_map; apply flat_map_nil; intros i Hi;
      apply in_zrange in Hi; cbn [filter];
      fold (nrm i j k); destruct (Qle_bool (nrm i j k) (rc * rc)) eqn:Q; [|reflexivity];
      exfalso; apply Hn; apply (CC i j k); auto; lia]).
    apply flat_map_ext_in. intros j Hj. apply in_zrange in Hj.
    rewrite filter_flat_map, map_flat_map.
    rewrite (flat_map_sub _ _ _ sx ex) by (first [assumption |
      intros i Hi Hn; cbn [filter];
      fold (nrm i j k); destruct (Qle_bool (nrm i j k) (rc * rc)) eqn:Q; [|reflexivity];
      exfalso; apply Hn; apply (CC i j k); auto; lia]).
    apply flat_map_ext_in. intros i Hi. cbn [filter]. fold (nrm i j k). unfold g3.
    destruct (Qle_bool (nrm i j k) (rc * rc)); reflexivity. }
  assert (LN : Z.of_nat (length (flat_map (fun k => flat_map (fun j => flat_map (g3 j k) (zrange sx ex)) (zrange sy ey))
       (zrange sz ez))) <= fx * fy * fz).
  { apply Z.le_trans with (Z.of_nat (length (zrange sz ez)) * (fx * fy)).
    - apply flat_len. intros k _. 
      apply Z.le_trans with (Z.of_nat (length (zrange sy ey)) * fx).
      + apply flat_len. intros j _.
        apply Z.le_trans with (Z.of_nat (length (zrange sx ex)) * 1).
        * apply flat_len. intros i _. unfold g3. destruct (Qle_bool _ _); cbn; lia.
        * rewrite zrange_len by lia. unfold fx. lia.
      + rewrite zrange_len by lia. unfold fy. lia.
    - rewrite zrange_len by lia. unfold fz. lia. }
  set (ps := flat_map _ (zrange sz ez)) in *.
  destruct (Z.ltb_spec (fx * fy * fz) (Z.of_nat (length ps))); [lia|].
  rewrite andb_false_r.
  eexists. split; [reflexivity|]. unfold good_entry. cbn [e_x e_y e_z e_atom e_ndc e_pos].
  split; [reflexivity|]. split; [reflexivity|]. split; [reflexivity|exact EL].
Qed.

(** The search box of a kept image: an image with a node strictly inside the
    ball is kept. *)
Lemma near_kept c D rb rc p0 im n : covers c rb rc -> is_image c im -> box_ok c D rb ->
  In n (nodes D) -> (norm2 c (disp c p0 im n) < rc * rc)%Q -> kept_image c D rb p0 im.
Proof.
  destruct rb as [[bx by_] bz]. destruct p0 as [[x0 y0] z0]. destruct im as [[p q] r].
  destruct n as [[i j] k].
  intros HC HI (OX & OY & OZ & _) HN H. apply in_nodes in HN. destruct HN as (Hi & Hj & Hk).
  unfold disp in H. apply HC in H. destruct H as ((X1 & X2) & (Y1 & Y2) & (Z1 & Z2)).
  unfold kept_image. split; [exact HI|].
  assert (M : forall d0 i d1 del, d0 <= i <= d1 -> (0 < del)%Q ->
    (inject_Z d0 * del <= inject_Z i * del)%Q /\ (inject_Z i * del <= inject_Z d1 * del)%Q).
  { intros d0 i' d1 del [A B] C0. split; apply Qmult_le_compat_r; try lra; now apply inject_le. }
  unfold img.
  destruct (M _ _ _ _ Hi (ok_del _ _ _ _ _ OX)). destruct (M _ _ _ _ Hj (ok_del _ _ _ _ _ OY)).
  destruct (M _ _ _ _ Hk (ok_del _ _ _ _ _ OZ)).
  split; [|split]; apply skipped_false; split; lra.
Qed.

(** ** The passes over the atoms of a type *)
Definition row (c : cell) (D : dom) (pos : list (Q * Q * Q)) (rc : Q) (ai : Z * tri) (e : entry)
  : Prop :=
  0 <= fst ai /\
  exists p0, nth_error pos (Z.to_nat (fst ai)) = Some p0 /\ good_entry c D p0 rc (fst ai) (snd ai) e.

Lemma ld_ok {A} (l : list A) i v : 0 <= i -> nth_error l (Z.to_nat i) = Some v -> ld l i = Ok v.
Proof.
  intros H E. unfold ld. destruct (Z.ltb_spec i 0); [lia|]. now rewrite E.
Qed.

Lemma Forall2_map_l {A B C} (R : A -> B -> Prop) (S : C -> B -> Prop) (g : A -> C) l m :
  (forall x y, R x y -> S (g x) y) -> Forall2 R l m -> Forall2 S (map g l) m.
Proof. intros H F. induction F; cbn [map]; constructor; auto. Qed.

Lemma Forall2_app' {A B} (R : A -> B -> Prop) l l' m m' :
  Forall2 R l m -> Forall2 R l' m' -> Forall2 R (l ++ l') (m ++ m').
Proof. intros F G. induction F; cbn [app]; [exact G|now constructor]. Qed.

Lemma Forall2_len {A B} (R : A -> B -> Prop) l m : Forall2 R l m -> length l = length m.
Proof. intros F. induction F; cbn; congruence. Qed.

Lemma passes_ok c D rb rc pos : typ_ok c -> box_ok c D rb -> covers c rb rc -> forall n k,
  0 <= k -> (Z.to_nat k + n <= length pos)%nat -> Forall (in_cell c) pos ->
  exists ims es, count_pass c D rb pos n k = Ok (Z.of_nat (length es)) /\
    fill_pass c D rb (rc * rc) pos n k = Ok es /\
    NoDup ims /\ Forall2 (row c D pos rc) ims es /\
    (forall a im, In (a, im) ims <-> k <= a < k + Z.of_nat n /\
       exists p0, nth_error pos (Z.to_nat a) = Some p0 /\ kept_image c D rb p0 im).
Proof.
  intros HT HB HC. induction n as [|n IH]; intros k Hk HL HP.
  - exists [], []. cbn. repeat split; try constructor; try easy; lia.
  - destruct (nth_error pos (Z.to_nat k)) as [p0|] eqn:E.
    2:{ apply nth_error_None in E. lia. }
    destruct (IH (k + 1)) as (ims & es & E1 & E2 & ND & F & HI); [lia|lia|assumption|].
    assert (IC : in_cell c p0).
    { rewrite Forall_forall in HP. apply HP. eapply nth_error_In. exact E. }
    destruct (images_ok c D rb p0 HB IC) as (l & EI & NI & CI).
    destruct (omap_ok (fill_entry c D rb (rc * rc) p0 k) (fun im e => good_entry c D p0 rc k im e) l)
      as (ys & EY & FY).
    { intros im Him. apply fill_entry_ok; auto. now apply CI. }
    exists (map (fun im => (k, im)) l ++ ims), (ys ++ es).
    cbn [count_pass fill_pass]. rewrite (ld_ok pos k p0) by assumption. cbn [obind].
    rewrite EI. cbn [obind]. rewrite E1, EY. cbn [obind]. rewrite E2. cbn [obind].
    split. { f_equal. rewrite app_length, <- (Forall2_len _ _ _ FY). lia. }
    split; [reflexivity|]. split; [|split].
    + apply NoDup_app_disjoint.
      * apply NoDup_map_inj; [|exact NI]. intros x y _ _ H. congruence.
      * exact ND.
      * intros [a im] H1 H2. apply in_map_iff in H1. destruct H1 as (im' & H1 & _).
        injection H1 as <- <-. apply HI in H2. lia.
    + apply Forall2_app'; [|exact F].
      apply (Forall2_map_l (fun im e => good_entry c D p0 rc k im e)); [|exact FY].
      intros im e Hg. split; [exact Hk|]. exists p0. auto.
    + intros a im. rewrite in_app_iff, in_map_iff, HI. split.
      * intros [(im' & H & Hi)|[H1 H2]].
        -- injection H as <- <-. split; [lia|]. exists p0. split; [exact E|]. now apply CI.
        -- split; [lia|exact H2].
      * intros [H1 (q0 & H2 & H3)]. destruct (Z.eq_dec a k) as [->|N].
        -- left. exists im. split; [reflexivity|]. apply CI. congruence.
        -- right. split; [lia|]. exists q0. auto.
Qed.

Definition has_node (c : cell) (D : dom) (pos : list (Q * Q * Q)) (rc : Q) (ai : Z * tri) : bool :=
  match nth_error pos (Z.to_nat (fst ai)) with
  | Some p0 => existsb (fun n => Qle_bool (norm2 c (disp c p0 (snd ai) n)) (rc * rc)) (nodes D)
  | None => false
  end.

Lemma Forall2_filter {A B} (R : A -> B -> Prop) (P : A -> bool) (S : B -> bool) l m :
  (forall x y, R x y -> P x = S y) -> Forall2 R l m -> Forall2 R (filter P l) (filter S m).
Proof.
  intros H F. induction F as [|x y l m HR F IH]; cbn [filter]; [constructor|].
  rewrite <- (H x y HR). destruct (P x); [now constructor|exact IH].
Qed.

Lemma existsb_filter {A} (P : A -> bool) l : existsb P l = (0 <? Z.of_nat (length (filter P l))).
Proof.
  induction l as [|x l IH]; cbn [existsb filter]; [reflexivity|].
  destruct (P x); cbn [orb length]; [lia|exact IH].
Qed.

Lemma row_has_node c D pos rc ai e : row c D pos rc ai e ->
  has_node c D pos rc ai = (0 <? e_ndc e).
Proof.
  intros (_ & p0 & E & G1 & G2 & G3 & G4). unfold has_node. rewrite E.
  rewrite existsb_filter. rewrite G3, G4, map_length. reflexivity.
Qed.

Lemma type_turn_ok c D pos t k : typ_ok c -> box_ok c D (rcbox c t) ->
  covers c (rcbox c t) (max_rc t) -> 0 <= k -> 0 <= t_n t ->
  k + t_n t <= Z.of_nat (length pos) -> Forall (in_cell c) pos ->
  exists ims es, type_turn c D pos (k, k) t = Ok ((k + t_n t, k + t_n t), es) /\
    NoDup ims /\ Forall2 (row c D pos (max_rc t)) ims es /\
    (forall a im, In (a, im) ims <-> k <= a < k + t_n t /\
       exists p0, nth_error pos (Z.to_nat a) = Some p0 /\
         kept_image c D (rcbox c t) p0 im /\
         exists n, In n (nodes D) /\ (norm2 c (disp c p0 im n) <= max_rc t * max_rc t)%Q).
Proof.
  intros HT HB HC Hk Hn HL HP.
  destruct (passes_ok c D (rcbox c t) (max_rc t) pos HT HB HC (Z.to_nat (t_n t)) k)
    as (ims & es & E1 & E2 & ND & F & HI); [lia|lia|assumption|].
  exists (filter (has_node c D pos (max_rc t)) ims), (filter (fun e => 0 <? e_ndc e) es).
  assert (FF : Forall2 (row c D pos (max_rc t)) (filter (has_node c D pos (max_rc t)) ims)
     (filter (fun e => 0 <? e_ndc e) es)).
  { apply Forall2_filter; [|exact F]. apply row_has_node. }
  split.
  { unfold type_turn. cbn [fst snd]. rewrite E1. cbn [obind].
    replace (k + Z.of_nat (Z.to_nat (t_n t))) with (k + t_n t) by lia.
    destruct (Z.eqb_spec (Z.of_nat (length es)) 0) as [Z0|Z0].
    - destruct es; [|cbn in Z0; lia]. reflexivity.
    - rewrite E2. cbn [obind]. rewrite Z.ltb_irrefl.
      destruct (Z.eqb_spec (Z.of_nat (length (filter (fun e => 0 <? e_ndc e) es))) 0) as [Z1|Z1];
        [|reflexivity].
      destruct (filter _ es); [reflexivity|cbn in Z1; lia]. }
  split; [now apply NoDup_filter|]. split; [exact FF|].
  intros a im. rewrite filter_In, HI. unfold has_node. cbn [fst snd].
  replace (Z.of_nat (Z.to_nat (t_n t))) with (t_n t) by lia.
  split.
  - intros [(H1 & p0 & H2 & H3) H4]. split; [exact H1|]. exists p0. split; [exact H2|].
    split; [exact H3|]. rewrite H2 in H4. apply existsb_exists in H4.
    destruct H4 as (n & Hn1 & Hn2). exists n. split; [exact Hn1|]. now apply Qle_bool_iff.
  - intros (H1 & p0 & H2 & H3 & n & Hn1 & Hn2). split; [split; [exact H1|exists p0; auto]|].
    rewrite H2. apply existsb_exists. exists n. split; [exact Hn1|]. now apply Qle_bool_iff.
Qed.

Lemma type_loop_ok c D pos : typ_ok c -> Forall (in_cell c) pos -> forall ts k,
  Forall (fun t => box_ok c D (rcbox c t) /\ covers c (rcbox c t) (max_rc t) /\ 0 <= t_n t) ts ->
  0 <= k -> k + zsum (map t_n ts) <= Z.of_nat (length pos) ->
  exists L, type_loop c D pos (k, k) ts = Ok L /\ length L = length ts /\
    forall ty t es, nth_error ts ty = Some t -> nth_error L ty = Some es ->
      let f := k + first_atom ts ty in
      exists ims, NoDup ims /\ Forall2 (row c D pos (max_rc t)) ims es /\
        (forall a im, In (a, im) ims <-> f <= a < f + t_n t /\
           exists p0, nth_error pos (Z.to_nat a) = Some p0 /\
             kept_image c D (rcbox c t) p0 im /\
             exists n, In n (nodes D) /\ (norm2 c (disp c p0 im n) <= max_rc t * max_rc t)%Q).
Proof.
  intros HT HP. induction ts as [|t ts IH]; intros k HF Hk HL.
  - exists []. repeat split; intros [|?] ? ? H; discriminate H.
  - inversion HF as [|? ? (HB & HC & HN) HF']; subst. cbn [map zsum fold_right] in HL.
    fold (zsum (map t_n ts)) in HL.
    assert (S0 : 0 <= zsum (map t_n ts)).
    { clear - HF'. induction HF' as [|t' ts' (_ & _ & H) _ IH]; cbn; [lia|].
      unfold zsum in IH. lia. }
    destruct (type_turn_ok c D pos t k) as (ims & es & E & ND & F & HI); try assumption; [lia|].
    destruct (IH (k + t_n t)) as (L & EL & LL & H); [assumption|lia|lia|].
    exists (es :: L). cbn [type_loop]. rewrite E. cbn [obind fst snd]. rewrite EL. cbn [obind].
    split; [reflexivity|]. split; [cbn; congruence|].
    intros [|ty] t' es' H1 H2; cbn [nth_error] in H1, H2.
    + injection H1 as <-. injection H2 as <-.
      unfold first_atom. cbn [firstn map zsum fold_right]. rewrite Z.add_0_r.
      exists ims. auto.
    + destruct (H ty t' es' H1 H2) as (ims' & A & B & C0). exists ims'.
      split; [exact A|]. split; [exact B|]. intros a im. rewrite C0.
      unfold first_atom. cbn [firstn map zsum fold_right].
      replace (k + (t_n t + fold_right Z.add 0 (map t_n (firstn ty ts))))
        with (k + t_n t + zsum (map t_n (firstn ty ts))) by (unfold zsum; lia).
      reflexivity.
Qed.
