(** Lemmas on Halo.v: boxes, neighbours, the exchange. *)
From Coq Require Import ZArith List Bool Lia FinFun.
From Coq Require Import ZifyBool.
From Verif Require Import CBase BlockDecomp Text Collect P_Collect Halo.
Import ListNotations.
Local Open Scope Z_scope.

(** ** Points *)
Lemma pt_ext p q : (forall d, (d < 3)%nat -> at_ p d = at_ q d) -> p = q.
Proof.
  intros H. destruct p as [[a b] c], q as [[a' b'] c'].
  pose proof (H 0%nat ltac:(lia)). pose proof (H 1%nat ltac:(lia)). pose proof (H 2%nat ltac:(lia)). cbn in *. congruence.
Qed.
Lemma at_vec f d : (d < 3)%nat -> at_ (vec f) d = f d.
Proof. intros H. unfold vec. destruct d as [|[|[|]]]; cbn; try reflexivity; lia. Qed.
Lemma at_set p d v d' : (d < 3)%nat -> (d' < 3)%nat -> at_ (set_ p d v) d' = if Nat.eqb d' d then v else at_ p d'.
Proof. intros H H'. destruct p as [[a b] c]. destruct d as [|[|[|]]], d' as [|[|[|]]]; cbn; try reflexivity; lia. Qed.
Lemma pt_eqb_eq p q : pt_eqb p q = true <-> p = q.
Proof.
  unfold pt_eqb. split; intros H.
  - apply pt_ext. intros d Hd. apply andb_prop in H as [H H2]. apply andb_prop in H as [H0 H1].
    destruct d as [|[|[|]]]; try lia.
  - subst. rewrite !Z.eqb_refl. reflexivity.
Qed.

(** ** Boxes *)
Lemma zr_in a b x : In x (zr a b) <-> a <= x < b.
Proof. unfold zr. rewrite zrange_in. lia. Qed.
Lemma box_in lo hi q : In q (box lo hi) <-> forall d, (d < 3)%nat -> at_ lo d <= at_ q d < at_ hi d.
Proof.
  unfold box. rewrite in_flat_map. split.
  - intros [k [Hk H]]. apply in_flat_map in H as [j [Hj H]]. apply in_map_iff in H as [i [<- Hi]].
    apply zr_in in Hk, Hj, Hi. intros d Hd. destruct d as [|[|[|]]]; cbn [at_] in *; lia.
  - intros H. destruct q as [[i j] k].
    pose proof (H 0%nat ltac:(lia)) as H0. pose proof (H 1%nat ltac:(lia)) as H1. pose proof (H 2%nat ltac:(lia)) as H2. cbn [at_] in H0, H1, H2.
    exists k. split; [apply zr_in; exact H2|]. apply in_flat_map. exists j. split; [apply zr_in; exact H1|].
    apply in_map_iff. exists i. split; [reflexivity|apply zr_in; exact H0].
Qed.
Lemma zr_shift a b t : zr (a + t) (b + t) = map (fun x => x + t) (zr a b).
Proof. unfold zr, zrange. rewrite map_map. replace (b + t - (a + t)) with (b - a) by lia. apply map_ext. intros; lia. Qed.
Lemma flat_map_map {A B C} (f : B -> list C) (g : A -> B) l : flat_map f (map g l) = flat_map (fun x => f (g x)) l.
Proof. induction l as [|x l IH]; [reflexivity|]. cbn. rewrite IH. reflexivity. Qed.
Lemma map_flat_map {A B C} (f : B -> C) (g : A -> list B) l : map f (flat_map g l) = flat_map (fun x => map f (g x)) l.
Proof. induction l as [|x l IH]; [reflexivity|]. cbn. rewrite map_app, IH. reflexivity. Qed.
Definition addp (p t : pt) : pt := vec (fun d => at_ p d + at_ t d).
Lemma box_shift lo hi t : box (addp lo t) (addp hi t) = map (fun q => addp q t) (box lo hi).
Proof.
  unfold box. unfold addp at 1 2 3 4 5 6. rewrite !at_vec by lia. rewrite !zr_shift, map_flat_map, flat_map_map.
  apply flat_map_ext. intros k. rewrite map_flat_map, flat_map_map. apply flat_map_ext. intros j.
  rewrite !map_map. apply map_ext. intros i. reflexivity.
Qed.
(** two boxes of the same shape are enumerated in the same order *)
Lemma box_same lo hi lo' hi' : (forall d, (d < 3)%nat -> at_ hi' d - at_ lo' d = at_ hi d - at_ lo d) ->
  box lo' hi' = map (fun q => vec (fun d => at_ q d - at_ lo d + at_ lo' d)) (box lo hi).
Proof.
  intros H. set (t := vec (fun d => at_ lo' d - at_ lo d)).
  replace lo' with (addp lo t) at 1.
  2:{ apply pt_ext. intros d Hd. unfold addp, t. rewrite !at_vec by exact Hd. lia. }
  replace hi' with (addp hi t).
  2:{ apply pt_ext. intros d Hd. unfold addp, t. rewrite !at_vec by exact Hd. pose proof (H d Hd). lia. }
  rewrite box_shift. apply map_ext. intros q. apply pt_ext. intros d Hd. unfold addp, t. rewrite !at_vec by exact Hd. lia.
Qed.
Lemma zr_len a b : length (zr a b) = Z.to_nat (b - a).
Proof. unfold zr, zrange. rewrite map_length, seq_length. reflexivity. Qed.
Lemma flat_map_len {A B} (f : A -> list B) c l : (forall x, length (f x) = c) -> length (flat_map f l) = (length l * c)%nat.
Proof. intros H. induction l as [|x l IH]; [reflexivity|]. cbn. rewrite app_length, IH, H. reflexivity. Qed.
Lemma box_len lo hi : (forall d, (d < 3)%nat -> at_ lo d <= at_ hi d) ->
  Z.of_nat (length (box lo hi)) = (at_ hi 0 - at_ lo 0) * (at_ hi 1 - at_ lo 1) * (at_ hi 2 - at_ lo 2).
Proof.
  intros H. unfold box.
  rewrite (flat_map_len _ (Z.to_nat (at_ hi 1 - at_ lo 1) * Z.to_nat (at_ hi 0 - at_ lo 0))).
  2:{ intros k. rewrite (flat_map_len _ (Z.to_nat (at_ hi 0 - at_ lo 0))). 2:{ intros j. rewrite map_length, zr_len. reflexivity. } rewrite zr_len. reflexivity. }
  rewrite zr_len. pose proof (H 0%nat ltac:(lia)). pose proof (H 1%nat ltac:(lia)). pose proof (H 2%nat ltac:(lia)).
  rewrite !Nat2Z.inj_mul, !Z2Nat.id by lia. ring.
Qed.
Lemma zrange_S a n : zrange a (S n) = a :: zrange (a + 1) n.
Proof. replace (S n) with (1 + n)%nat by lia. rewrite zrange_app. change (zrange a 1) with [a + 0]. rewrite Z.add_0_r. reflexivity. Qed.
(** consecutive intervals of length n *)
Lemma zrange_mul n : 0 <= n -> forall m a, 0 <= m ->
  flat_map (fun j => map (fun i => a + j * n + i) (zr 0 n)) (zr 0 m) = zrange a (Z.to_nat (m * n)).
Proof.
  intros Hn m a Hm. unfold zr at 2. rewrite Z.sub_0_r. rewrite <- (Z2Nat.id m Hm) at 2.
  generalize (Z.to_nat m) as k. intros k.
  enough (H : forall k b, flat_map (fun j => map (fun i => a + j * n + i) (zr 0 n)) (zrange b k) = zrange (a + b * n) (Z.to_nat (Z.of_nat k * n))).
  { rewrite H. f_equal. lia. }
  clear k. induction k as [|k IH]; intros b; [reflexivity|].
  rewrite zrange_S. cbn [flat_map]. rewrite IH.
  replace (Z.to_nat (Z.of_nat (S k) * n)) with (Z.to_nat n + Z.to_nat (Z.of_nat k * n))%nat by nia.
  rewrite zrange_app. f_equal.
  - unfold zr, zrange. rewrite map_map, Z.sub_0_r. apply map_ext. intros; lia.
  - f_equal. nia.
Qed.
(** the loop order over a whole block is the order of its addresses *)
Lemma lin_box n : (forall d, (d < 3)%nat -> 0 <= at_ n d) ->
  map (lin n) (box (vec (fun _ => 0)) n) = zrange 0 (Z.to_nat (nd n)).
Proof.
  intros H. pose proof (H 0%nat ltac:(lia)) as H0. pose proof (H 1%nat ltac:(lia)) as H1. pose proof (H 2%nat ltac:(lia)) as H2.
  unfold box. rewrite !at_vec by lia. rewrite map_flat_map.
  replace (nd n) with (at_ n 2 * (at_ n 0 * at_ n 1)) by (unfold nd; ring).
  rewrite <- (zrange_mul (at_ n 0 * at_ n 1) ltac:(nia) (at_ n 2) 0 H2).
  apply flat_map_ext. intros k. rewrite map_flat_map. cbn [Z.add].
  transitivity (flat_map (fun j => map (fun i => k * (at_ n 0 * at_ n 1) + j * at_ n 0 + i) (zr 0 (at_ n 0))) (zr 0 (at_ n 1))).
  - apply flat_map_ext. intros j. rewrite map_map. apply map_ext. intros i. reflexivity.
  - rewrite (zrange_mul (at_ n 0) H0 (at_ n 1) (k * (at_ n 0 * at_ n 1)) H1). unfold zr, zrange. rewrite map_map, Z.sub_0_r, (Z.mul_comm (at_ n 0)). apply map_ext. intros; lia.
Qed.
(** the address determines the point *)
Definition inblk (n q : pt) : Prop := forall d, (d < 3)%nat -> 0 <= at_ q d < at_ n d.
Definition unlin (n : pt) (a : Z) : pt :=
  (a mod at_ n 0, (a / at_ n 0) mod at_ n 1, a / (at_ n 0 * at_ n 1)).
Lemma unlin_lin n q : inblk n q -> unlin n (lin n q) = q.
Proof.
  intros H. pose proof (H 0%nat ltac:(lia)) as H0. pose proof (H 1%nat ltac:(lia)) as H1. pose proof (H 2%nat ltac:(lia)) as H2.
  destruct q as [[i j] k]. unfold unlin, lin. cbn [at_] in *. set (a := match n with (x, _, _) => x end) in *. set (b := match n with (_, y, _) => y end) in *.
  unfold lin in *.
  assert (E0 : (k * (at_ n 0 * at_ n 1) + j * at_ n 0 + i) mod at_ n 0 = i).
  { replace (k * (at_ n 0 * at_ n 1) + j * at_ n 0 + i) with (i + (k * at_ n 1 + j) * at_ n 0) by ring. rewrite Z.mod_add, Z.mod_small by lia. reflexivity. }
  assert (E1 : (k * (at_ n 0 * at_ n 1) + j * at_ n 0 + i) / at_ n 0 = k * at_ n 1 + j).
  { replace (k * (at_ n 0 * at_ n 1) + j * at_ n 0 + i) with (i + (k * at_ n 1 + j) * at_ n 0) by ring. rewrite Z.div_add, Z.div_small by lia. reflexivity. }
  assert (E2 : (k * (at_ n 0 * at_ n 1) + j * at_ n 0 + i) / (at_ n 0 * at_ n 1) = k).
  { rewrite <- Z.div_div by lia. rewrite E1. rewrite Z.div_add_l, Z.div_small by lia. lia. }
  rewrite E0, E1, E2. rewrite (Z.add_comm (k * _)), Z.mod_add, Z.mod_small by lia. reflexivity.
Qed.
Lemma lin_bound n q : inblk n q -> 0 <= lin n q < nd n.
Proof.
  intros H. pose proof (H 0%nat ltac:(lia)) as H0. pose proof (H 1%nat ltac:(lia)) as H1. pose proof (H 2%nat ltac:(lia)) as H2.
  unfold lin, nd. set (a := at_ n 0) in *. set (b := at_ n 1) in *. set (c := at_ n 2) in *. set (i := at_ q 0) in *. set (j := at_ q 1) in *. set (k := at_ q 2) in *.
  clearbody a b c i j k. clear H. assert (0 <= a * b) by (apply Z.mul_nonneg_nonneg; lia). assert (0 <= k * (a * b)) by (apply Z.mul_nonneg_nonneg; lia). assert (0 <= j * a) by (apply Z.mul_nonneg_nonneg; lia). split; [lia|].
  assert (k * (a * b) <= (c - 1) * (a * b)) by (apply Z.mul_le_mono_nonneg_r; nia).
  assert (j * a <= (b - 1) * a) by (apply Z.mul_le_mono_nonneg_r; nia). nia.
Qed.

Lemma omap_ok {A B} (f : A -> outcome B) (g : A -> B) l : (forall x, In x l -> f x = Ok (g x)) -> omap f l = Ok (map g l).
Proof.
  induction l as [|x l IH]; intros H; [reflexivity|]. cbn [omap map]. rewrite (H x (or_introl eq_refl)). cbn [obind].
  rewrite IH by (intros; apply H; right; assumption). reflexivity.
Qed.
Lemma combine_map {A B} (g : A -> B) l : combine l (map g l) = map (fun x => (x, g x)) l.
Proof. induction l as [|x l IH]; [reflexivity|]. cbn. rewrite IH. reflexivity. Qed.

(** ** Writes whose value depends on the address only *)
Section Mem.
  Variable K : Type.
  Lemma wr_all_fun size (f : Z -> K) : forall l m,
    (forall a v, In (a, v) l -> 0 <= a < size /\ v = f a) ->
    exists m', wr_all K size m l = Ok m' /\
      forall a, (In a (map fst l) -> m' a = Some (f a)) /\ (m a = Some (f a) -> m' a = Some (f a)).
  Proof.
    induction l as [|[a v] l IH]; intros m H.
    - exists m. split; [reflexivity|]. intros a. split; [intros []|auto].
    - destruct (H a v (or_introl eq_refl)) as [Ha Hv]. cbn [wr_all]. unfold wr.
      replace ((0 <=? a) && (a <? size)) with true by lia. cbn [obind].
      destruct (IH (fun b => if b =? a then Some v else m b)) as [m' [E1 E2]].
      { intros b u Hb. apply H. right. exact Hb. }
      exists m'. split; [exact E1|]. intros b. destruct (E2 b) as [F1 F2]. split.
      + cbn [map fst]. intros [Hb|Hb]; [|auto]. subst b. apply F2. rewrite Z.eqb_refl. congruence.
      + intros Hb. apply F2. destruct (b =? a) eqn:E; [|exact Hb]. apply Z.eqb_eq in E. congruence.
  Qed.
  Lemma sweep_fun n (f : pt -> outcome K) (h : pt -> K) : forall l y,
    (forall q, In q l -> inblk n q /\ f q = Ok (h q)) ->
    exists y', sweep K n f l y = Ok y' /\
      forall q, inblk n q -> (In q l -> y' (lin n q) = Some (h q)) /\ (y (lin n q) = Some (h q) -> y' (lin n q) = Some (h q)).
  Proof.
    induction l as [|q l IH]; intros y H.
    - exists y. split; [reflexivity|]. intros q _. split; [intros []|auto].
    - destruct (H q (or_introl eq_refl)) as [Hq Hf]. cbn [sweep]. rewrite Hf. cbn [obind]. unfold wr.
      pose proof (lin_bound n q Hq). replace ((0 <=? lin n q) && (lin n q <? nd n)) with true by lia. cbn [obind].
      destruct (IH (fun b => if b =? lin n q then Some (h q) else y b)) as [y' [E1 E2]].
      { intros b Hb. apply H. right. exact Hb. }
      exists y'. split; [exact E1|]. intros b Hb. destruct (E2 b Hb) as [F1 F2]. split.
      + intros [<-|Hb']; [|auto]. apply F2. rewrite Z.eqb_refl. reflexivity.
      + intros Hy. apply F2. destruct (lin n b =? lin n q) eqn:E; [|exact Hy]. apply Z.eqb_eq in E.
        rewrite <- (unlin_lin n b Hb), E, (unlin_lin n q Hq). reflexivity.
  Qed.
End Mem.
