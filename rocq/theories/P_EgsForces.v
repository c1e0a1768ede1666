(** C83: the assembled forces. *)
From Coq Require Import Reals Lra Lia ZArith List Bool.
From Verif Require Import CBase BandK Lattice P_Lattice EgsForces.
Import ListNotations.
Local Open Scope R_scope.

(** ** Specification *)
(** component [k] of atom [i]; sum over the atoms *)
Definition comp (f : list R) (i k : nat) : R := nth (3 * i + k) f 0.
Fixpoint over (n : nat) (g : nat -> R) : R := match n with O => 0 | S m => over m g + g m end.
(** [c] is the Cartesian form of the force [f] of an atom given along the unit lattice vectors: its projections on them *)
Definition cartesian (L : mat) (t : lattice) (f c : vec) : Prop :=
  if ((10 <? typ t) && (typ t <? 20))%Z
  then dot c (unit_row L 0) = vx f /\ dot c (unit_row L 1) = vy f /\ dot c (unit_row L 2) = vz f
  else c = f.
Definition opt (o : option (list R)) (j : nat) : R := match o with Some x => nth j x 0 | None => 0 end.
Definition sized {A} (n : nat) (o : option (list A)) : Prop := match o with Some x => length x = (3 * n)%nat | None => True end.
(** force before symmetrizing: [c] the Cartesian forces *)
Definition raw (c : nat -> vec) (xc d3 : option (list R)) (i k : nat) : R :=
  (match k with 0%nat => vx (c i) | 1%nat => vy (c i) | _ => vz (c i) end) + opt xc (3 * i + k) - opt d3 (3 * i + k).

(** ** Lemmas *)
Lemma get_ok {A} (a : list A) i d : (i < length a)%nat -> get a i = Ok (nth i a d).
Proof. intros H. unfold get. rewrite (nth_error_nth' a d H). reflexivity. Qed.
Lemma fill_ok {A} (g : nat -> outcome A) (h : nat -> A) l : (forall i, In i l -> g i = Ok (h i)) -> fill g l = Ok (map h l).
Proof.
  induction l as [|i l IH]; intros H; [reflexivity|]. cbn [fill map]. rewrite (H i) by (left; reflexivity). cbn [obind].
  rewrite IH by (intros; apply H; now right). reflexivity.
Qed.
Lemma map_seq_nth {A} (h : nat -> A) n j d : (j < n)%nat -> nth j (map h (seq 0 n)) d = h j.
Proof.
  intros H. rewrite (nth_indep _ d (h 0%nat)) by (rewrite map_length, seq_length; exact H). rewrite map_nth, seq_nth by exact H. reflexivity.
Qed.
Lemma over_ext n g h : (forall i, (i < n)%nat -> g i = h i) -> over n g = over n h.
Proof. induction n as [|n IH]; intros H; [reflexivity|]. cbn [over]. rewrite IH, H by (intros; try apply H; lia). reflexivity. Qed.
Lemma over_lin n a b g h : over n (fun i => a * g i + b * h i) = a * over n g + b * over n h.
Proof. induction n as [|n IH]; cbn [over]; [ring|]. rewrite IH. ring. Qed.
Lemma over_const n c : over n (fun _ => c) = INR n * c.
Proof. induction n as [|n IH]; [cbn; ring|]. cbn [over]. rewrite IH, S_INR. ring. Qed.
Lemma over_pos n g : (forall i, 0 <= g i) -> 0 <= over n g.
Proof. intros H. induction n as [|n IH]; cbn [over]; [lra|]. pose proof (H n). lra. Qed.
Lemma shift_ok n f k : length f = (3 * n)%nat -> (k < 3)%nat -> shift_of n f k = Ok (over n (fun i => comp f i k) / INR n).
Proof.
  intros Hf Hk. unfold shift_of.
  assert (Q : forall m, (m <= n)%nat -> fold_left (fun acc i => do s <- acc ; do x <- get f (3 * i + k) ; Ok (s + x)) (seq 0 m) (Ok 0) = Ok (over m (fun i => comp f i k))).
  { induction m as [|m IH]; intros Hm; [reflexivity|]. rewrite seq_S, fold_left_app, IH by lia. cbn [fold_left Nat.add obind over].
    rewrite (get_ok f _ 0) by lia. reflexivity. }
  rewrite Q by lia. reflexivity.
Qed.
Lemma concat_len (h : nat -> list R) n : (forall i, length (h i) = 3%nat) -> length (concat (map h (seq 0 n))) = (3 * n)%nat.
Proof.
  intros H. induction n as [|n IH]; [reflexivity|]. rewrite seq_S, map_app, concat_app, app_length, IH. cbn [map concat]. rewrite app_nil_r, H. lia.
Qed.
Lemma concat_nth (h : nat -> list R) n i k : (forall i, length (h i) = 3%nat) -> (i < n)%nat -> (k < 3)%nat -> nth (3 * i + k) (concat (map h (seq 0 n))) 0 = nth k (h i) 0.
Proof.
  intros H. induction n as [|n IH]; intros Hi Hk; [lia|]. rewrite seq_S, map_app, concat_app. cbn [map concat]. rewrite app_nil_r. cbn [Nat.add].
  destruct (Nat.eq_dec i n) as [->|N].
  - rewrite app_nth2; rewrite (concat_len h n H); [|lia]. f_equal. lia.
  - rewrite app_nth1 by (rewrite (concat_len h n H); lia). apply IH; lia.
Qed.
Ltac lincomb a b c H0 H1 H2 :=
  match type of H0 with ?e0 = _ => match type of H1 with ?e1 = _ => match type of H2 with ?e2 = _ =>
    transitivity (a * e0 + b * e1 + c * e2); [ring|rewrite H0, H1, H2; ring] end end end.
Lemma to_cart_ok L t n f : setup L = Ok t -> length f = (3 * n)%nat ->
  exists g, to_cart t n f = Ok g /\ length g = (3 * n)%nat /\
    forall i, (i < n)%nat -> cartesian L t (V (comp f i 0) (comp f i 1) (comp f i 2)) (V (comp g i 0) (comp g i 1) (comp g i 2)).
Proof.
  intros Ht Hf. unfold to_cart, cartesian. destruct ((10 <? typ t) && (typ t <? 20))%Z.
  - set (h := fun i => let w := nonCart2Cart_grad t (V (comp f i 0) (comp f i 1) (comp f i 2)) in [vx w; vy w; vz w]).
    rewrite (fill_ok _ h).
    2:{ intros i Hi. apply in_seq in Hi. unfold atom. rewrite (get_ok f (3 * i) 0), (get_ok f (3 * i + 1) 0), (get_ok f (3 * i + 2) 0) by lia.
      cbn [obind]. unfold h, comp. rewrite Nat.add_0_r. reflexivity. }
    cbn [obind]. exists (concat (map h (seq 0 n))). split; [reflexivity|].
    assert (HL : forall i, length (h i) = 3%nat) by reflexivity. split; [now apply concat_len|].
    intros i Hi. assert (CG : forall k, (k < 3)%nat -> comp (concat (map h (seq 0 n))) i k = nth k (h i) 0) by (intros k Hk; exact (concat_nth h n i k HL Hi Hk)).
    rewrite !CG by lia. unfold h. cbn [nth]. rewrite <- !(lu_row L t Ht) by lia.
    set (a := comp f i 0). set (b := comp f i 1). set (c := comp f i 2).
    pose proof (grd_dual L t Ht) as D. unfold dot, row in D; cbn in D.
    pose proof (D 0 0 ltac:(lia) ltac:(lia))%nat as D00. pose proof (D 0 1 ltac:(lia) ltac:(lia))%nat as D01. pose proof (D 0 2 ltac:(lia) ltac:(lia))%nat as D02.
    pose proof (D 1 0 ltac:(lia) ltac:(lia))%nat as D10. pose proof (D 1 1 ltac:(lia) ltac:(lia))%nat as D11. pose proof (D 1 2 ltac:(lia) ltac:(lia))%nat as D12.
    pose proof (D 2 0 ltac:(lia) ltac:(lia))%nat as D20. pose proof (D 2 1 ltac:(lia) ltac:(lia))%nat as D21. pose proof (D 2 2 ltac:(lia) ltac:(lia))%nat as D22.
    clear D. cbn in *. unfold dot, row, nonCart2Cart_grad. cbn [vx vy vz]. repeat split.
    + lincomb a b c D00 D10 D20.
    + lincomb a b c D01 D11 D21.
    + lincomb a b c D02 D12 D22.
  - exists f. split; [reflexivity|]. split; [exact Hf|]. reflexivity.
Qed.
Lemma div3 i k : (k < 3)%nat -> ((3 * i + k) mod 3 = k)%nat.
Proof. intros H. rewrite Nat.add_comm, Nat.mul_comm, Nat.mod_add by lia. now apply Nat.mod_small. Qed.

Definition kept_xy (cyclix : bool) (range_y : R) : Prop := cyclix = true /\ range_y < 2 * PI.

(** ** The formula *)
(** The result is the Cartesian force plus the core term minus the gradient of the dispersion energy, minus the mean over
    the atoms (not in x and y of a helical cell that is a part of the circle), times the flag when atoms move. *)
Theorem C83_formula : forall L t n xc d3 cyclix range_y RelaxFlag MDFlag flags f,
  setup L = Ok t -> (1 <= n)%nat -> length f = (3 * n)%nat -> sized n xc -> sized n d3 -> length flags = (3 * n)%nat ->
  exists g c, egs_forces t n xc d3 cyclix range_y RelaxFlag MDFlag flags f = Ok g /\ length g = (3 * n)%nat /\
    (forall i, (i < n)%nat -> cartesian L t (V (comp f i 0) (comp f i 1) (comp f i 2)) (c i)) /\
    forall i k, (i < n)%nat -> (k < 3)%nat ->
      let moved := (RelaxFlag = 1 \/ MDFlag = 1)%Z in
      let r := raw c xc d3 in
      let mean := over n (fun a => r a k) / INR n in
      exists shift, (kept_xy cyclix range_y -> (k < 2)%nat -> shift = 0) /\ (~ kept_xy cyclix range_y \/ k = 2%nat -> shift = mean) /\
        (~ moved -> comp g i k = r i k - shift) /\ (moved -> comp g i k = (r i k - shift) * IZR (nth (3 * i + k) flags 0%Z)).
Proof.
  intros L t n xc d3 cyc ry RF MF flags f Ht Hn Hf Hxc Hd3 Hfl. unfold egs_forces.
  destruct (to_cart_ok L t n f Ht Hf) as (g0 & -> & L0 & C0). cbn [obind].
  assert (E1 : exists g1, match xc with Some x => add_xc n g0 x | None => Ok g0 end = Ok g1 /\ length g1 = (3 * n)%nat /\ forall j, (j < 3 * n)%nat -> nth j g1 0 = nth j g0 0 + opt xc j).
  { destruct xc as [x|]; cbn [sized opt] in *.
    - exists (map (fun j => nth j g0 0 + nth j x 0) (seq 0 (3 * n))). split; [|split].
      + apply fill_ok. intros j Hj. apply in_seq in Hj. rewrite (get_ok g0 j 0), (get_ok x j 0) by lia. reflexivity.
      + now rewrite map_length, seq_length.
      + intros j Hj. now rewrite map_seq_nth.
    - exists g0. split; [reflexivity|]. split; [exact L0|]. intros. ring. }
  destruct E1 as (g1 & -> & L1 & V1). cbn [obind].
  assert (E2 : exists g2, match d3 with Some x => add_d3 n g1 x | None => Ok g1 end = Ok g2 /\ length g2 = (3 * n)%nat /\ forall j, (j < 3 * n)%nat -> nth j g2 0 = nth j g1 0 - opt d3 j).
  { destruct d3 as [x|]; cbn [sized opt] in *.
    - exists (map (fun j => nth j g1 0 - nth j x 0) (seq 0 (3 * n))). split; [|split].
      + apply fill_ok. intros j Hj. apply in_seq in Hj. rewrite (get_ok g1 j 0), (get_ok x j 0) by lia. reflexivity.
      + now rewrite map_length, seq_length.
      + intros j Hj. now rewrite map_seq_nth.
    - exists g1. split; [reflexivity|]. split; [exact L1|]. intros. ring. }
  destruct E2 as (g2 & -> & L2 & V2). cbn [obind].
  set (c := fun i => V (comp g0 i 0) (comp g0 i 1) (comp g0 i 2)).
  assert (RW : forall i k, (i < n)%nat -> (k < 3)%nat -> comp g2 i k = raw c xc d3 i k).
  { intros i k Hi Hk. unfold raw, comp. rewrite V2, V1 by lia. unfold c. cbn [vx vy vz]. destruct k as [|[|[|k]]]; unfold comp; try reflexivity. lia. }
  unfold symmetrize. destruct (Nat.eqb_spec n 0) as [|_]; [lia|]. rewrite !(shift_ok n g2) by (assumption || lia). cbn [obind].
  set (keep := (cyc && _)%bool). set (mn := fun k => over n (fun i => comp g2 i k) / INR n).
  set (sh := fun k => match k with 0%nat => if keep then 0 else mn 0%nat | 1%nat => if keep then 0 else mn 1%nat | _ => mn 2%nat end).
  assert (KP : keep = true <-> kept_xy cyc ry).
  { unfold keep, kept_xy. destruct cyc, (Rlt_dec ry (2 * PI)); cbn; split; intros H; try discriminate H; try (destruct H as [H H']; try discriminate H; contradiction); auto. }
  set (g3 := map (fun j => nth j g2 0 - sh (j mod 3)%nat) (seq 0 (3 * n))).
  assert (F3 : fill (fun j => do a <- get g2 j ; Ok (a - match (j mod 3)%nat with 0%nat => if keep then 0 else over n (fun i => comp g2 i 0) / INR n
      | 1%nat => if keep then 0 else over n (fun i => comp g2 i 1) / INR n | _ => over n (fun i => comp g2 i 2) / INR n end)) (seq 0 (3 * n)) = Ok g3).
  { apply fill_ok. intros j Hj. apply in_seq in Hj. rewrite (get_ok g2 j 0) by lia. reflexivity. }
  rewrite F3. cbn [obind]. assert (L3 : length g3 = (3 * n)%nat) by (unfold g3; now rewrite map_length, seq_length).
  assert (V3 : forall i k, (i < n)%nat -> (k < 3)%nat -> comp g3 i k = raw c xc d3 i k - sh k).
  { intros i k Hi Hk. rewrite <- RW by assumption. unfold comp, g3. rewrite map_seq_nth by lia. now rewrite div3. }
  assert (SH : forall k, (k < 3)%nat -> (kept_xy cyc ry -> (k < 2)%nat -> sh k = 0) /\ (~ kept_xy cyc ry \/ k = 2%nat -> sh k = over n (fun a => raw c xc d3 a k) / INR n)).
  { intros k Hk. assert (M : mn k = over n (fun a => raw c xc d3 a k) / INR n) by (unfold mn; f_equal; apply over_ext; intros; now apply RW).
    split.
    - intros K K2. apply KP in K. unfold sh. rewrite K. destruct k as [|[|k]]; [reflexivity|reflexivity|lia].
    - rewrite <- M. intros [K|K].
      + assert (K' : keep = false) by (destruct keep; [exfalso; apply K; now apply KP|reflexivity]). unfold sh. rewrite K'. destruct k as [|[|[|k]]]; try reflexivity. lia.
      + subst k. reflexivity. }
  unfold constrain. destruct ((RF =? 1) || (MF =? 1))%Z eqn:EM.
  - set (g4 := map (fun j => nth j g3 0 * IZR (nth j flags 0%Z)) (seq 0 (3 * n))).
    assert (F4 : fill (fun i => do a <- get g3 i ; do q <- get flags i ; Ok (a * IZR q)) (seq 0 (3 * n)) = Ok g4).
    { apply fill_ok. intros j Hj. apply in_seq in Hj. rewrite (get_ok g3 j 0), (get_ok flags j 0%Z) by lia. reflexivity. }
    rewrite F4. exists g4, c. split; [reflexivity|]. split; [unfold g4; now rewrite map_length, seq_length|]. split; [intros; now apply C0|].
    intros i k Hi Hk. cbv zeta. exists (sh k). split; [apply SH; exact Hk|]. split; [apply SH; exact Hk|]. split.
    + intros NM. exfalso. apply NM. lia.
    + intros _. unfold comp, g4. rewrite map_seq_nth by lia. change (nth (3 * i + k) g3 0) with (comp g3 i k). rewrite V3 by assumption. reflexivity.
  - exists g3, c. split; [reflexivity|]. split; [exact L3|]. split; [intros; now apply C0|].
    intros i k Hi Hk. cbv zeta. exists (sh k). split; [apply SH; exact Hk|]. split; [apply SH; exact Hk|]. split.
    + intros _. now apply V3.
    + intros M. exfalso. lia.
Qed.
Print Assumptions C83_formula.

(** ** Symmetrizing: no net force, the differences kept, and the closest such set of forces *)
Theorem C83_symmetrize : forall cyclix range_y n f, length f = (3 * n)%nat -> ~ kept_xy cyclix range_y ->
  exists g, symmetrize cyclix range_y n f = Ok g /\ length g = (3 * n)%nat /\
    (forall k, (k < 3)%nat -> over n (fun i => comp g i k) = 0) /\
    (forall i j k, (i < n)%nat -> (j < n)%nat -> (k < 3)%nat -> comp g i k - comp g j k = comp f i k - comp f j k) /\
    (forall h : nat -> nat -> R, (forall k, (k < 3)%nat -> over n (fun i => h i k) = 0) -> forall k, (k < 3)%nat ->
       over n (fun i => (comp g i k - comp f i k)²) <= over n (fun i => (h i k - comp f i k)²)) /\
    ((forall k, (k < 3)%nat -> over n (fun i => comp f i k) = 0) -> forall i k, (i < n)%nat -> (k < 3)%nat -> comp g i k = comp f i k).
Proof.
  intros cyc ry n f Hf NK. destruct (Nat.eq_dec n 0) as [->|N0].
  { exists f. split; [reflexivity|]. split; [exact Hf|]. repeat split; intros; try lia; cbn; try reflexivity; lra. }
  unfold symmetrize. destruct (Nat.eqb_spec n 0) as [|_]; [lia|]. rewrite !(shift_ok n f) by (assumption || lia). cbn [obind].
  assert (K' : (cyc && if Rlt_dec ry (2 * PI) then true else false)%bool = false).
  { unfold kept_xy in NK. destruct cyc, (Rlt_dec ry (2 * PI)); cbn; try reflexivity. exfalso. apply NK. auto. }
  rewrite K'. set (mn := fun k => over n (fun i => comp f i k) / INR n).
  set (g := map (fun j => nth j f 0 - mn (j mod 3)%nat) (seq 0 (3 * n))).
  assert (HN : INR n <> 0) by (apply not_0_INR; lia).
  assert (F : fill (fun j => do a <- get f j ; Ok (a - match (j mod 3)%nat with 0%nat => over n (fun i => comp f i 0) / INR n
      | 1%nat => over n (fun i => comp f i 1) / INR n | _ => over n (fun i => comp f i 2) / INR n end)) (seq 0 (3 * n)) = Ok g).
  { apply fill_ok. intros j Hj. apply in_seq in Hj. rewrite (get_ok f j 0) by lia. cbn [obind]. do 2 f_equal.
    pose proof (Nat.mod_upper_bound j 3 ltac:(lia)). destruct (j mod 3)%nat as [|[|[|q]]]; try reflexivity. lia. }
  assert (VG : forall i k, (i < n)%nat -> (k < 3)%nat -> comp g i k = comp f i k - mn k).
  { intros i k Hi Hk. unfold comp, g. rewrite map_seq_nth by lia. now rewrite div3. }
  assert (S0 : forall k, (k < 3)%nat -> over n (fun i => comp g i k) = 0).
  { intros k Hk. rewrite (over_ext n _ (fun i => 1 * comp f i k + (-1) * mn k)) by (intros; rewrite VG by assumption; ring).
    rewrite (over_lin n 1 (-1) (fun i => comp f i k) (fun _ => mn k)), over_const. unfold mn. field. exact HN. }
  exists g. split; [exact F|]. split; [unfold g; now rewrite map_length, seq_length|]. split; [exact S0|]. split; [|split].
  - intros i j k Hi Hj Hk. rewrite !VG by assumption. ring.
  - intros h Hh k Hk.
    assert (A : over n (fun i => (h i k - comp f i k)²) = over n (fun i => (comp g i k - comp f i k)²) + over n (fun i => (h i k - comp g i k)²)).
    { rewrite (over_ext n (fun i => (h i k - comp f i k)²) (fun i => 1 * ((comp g i k - comp f i k)² + (h i k - comp g i k)²) + (-2 * mn k) * (1 * h i k + (-1) * comp g i k))).
      - rewrite (over_lin n 1 (-2 * mn k)). rewrite (over_lin n 1 (-1) (fun i => h i k) (fun i => comp g i k)). rewrite (Hh k Hk), (S0 k Hk).
        rewrite (over_ext n (fun i => (comp g i k - comp f i k)² + (h i k - comp g i k)²) (fun i => 1 * (comp g i k - comp f i k)² + 1 * (h i k - comp g i k)²)) by (intros; ring).
        rewrite over_lin. ring.
      - intros i Hi. rewrite VG by assumption. unfold Rsqr. ring. }
    rewrite A. pose proof (over_pos n (fun i => (h i k - comp g i k)²) (fun i => Rle_0_sqr _)). lra.
  - intros Z0 i k Hi Hk. rewrite VG by assumption. unfold mn. rewrite Z0 by assumption. field. exact HN.
Qed.
Print Assumptions C83_symmetrize.

(** The conversion keeps the work done along every displacement, and determines the Cartesian force. *)
Theorem C83_work : forall L t f c, setup L = Ok t -> (10 < typ t < 20)%Z -> cartesian L t f c ->
  (forall d, dot c (cart L d) = vx f * vx d + vy f * vy d + vz f * vz d) /\ (forall c', cartesian L t f c' -> c' = c).
Proof.
  intros L t f c Ht HT Hc. assert (B : ((10 <? typ t) && (typ t <? 20))%Z = true) by lia.
  assert (W : forall c, cartesian L t f c -> forall d, dot c (cart L d) = vx f * vx d + vy f * vy d + vz f * vz d).
  { clear c Hc. intros c Hc d. unfold cartesian in Hc. rewrite B in Hc. destruct Hc as (H0 & H1 & H2). rewrite <- H0, <- H1, <- H2. unfold dot, cart. cbn. ring. }
  split; [now apply W|]. intros c' Hc'.
  assert (D : forall v, dot c' v = dot c v).
  { intros v. destruct (C48_inverse L t (Cart2nonCart_coord t v) Ht) as (E & _ & _). destruct (C48_inverse L t v Ht) as (_ & _ & I).
    rewrite <- I, E. now rewrite !W. }
  pose proof (D (V 1 0 0)) as A0. pose proof (D (V 0 1 0)) as A1. pose proof (D (V 0 0 1)) as A2. unfold dot in *. cbn in *.
  apply vec_eq; lra.
Qed.
Print Assumptions C83_work.

(** An array that is too short is read out of bounds. *)
Lemma fold_get f k l : forall acc : outcome R, acc <> Exit -> fold_left (fun acc i => do s <- acc ; do x <- get f (3 * i + k) ; Ok (s + x)) l acc <> Exit.
Proof.
  induction l as [|i l IH]; intros acc H; [exact H|]. cbn [fold_left]. apply IH. destruct acc as [s| |]; cbn [obind]; try assumption.
  unfold get. destruct (nth_error f (3 * i + k)); discriminate.
Qed.
Lemma shift_noexit n f k : shift_of n f k <> Exit.
Proof.
  unfold shift_of. pose proof (fold_get f k (seq 0 n) (Ok 0) ltac:(discriminate)) as H.
  destruct (fold_left _ _ _) as [s| |]; cbn [obind]; [discriminate|discriminate|contradiction].
Qed.
Lemma shift_short n f k : (1 <= n)%nat -> (length f <= 3 * (n - 1) + k)%nat -> shift_of n f k = UB.
Proof.
  intros Hn Hf. unfold shift_of. destruct n as [|m]; [lia|]. rewrite seq_S, fold_left_app. cbn [fold_left Nat.add].
  pose proof (fold_get f k (seq 0 m) (Ok 0) ltac:(discriminate)) as H. destruct (fold_left _ (seq 0 m) _) as [s| |]; [|reflexivity|contradiction].
  cbn [obind]. unfold get. replace (nth_error f (3 * m + k)) with (@None R) by (symmetry; apply nth_error_None; lia). reflexivity.
Qed.
Theorem C83_short : forall cyclix range_y n f, (length f < 3 * n)%nat -> symmetrize cyclix range_y n f = UB.
Proof.
  intros cyc ry n f H. unfold symmetrize. destruct (Nat.eqb_spec n 0); [lia|].
  pose proof (shift_noexit n f 0). pose proof (shift_noexit n f 1).
  destruct (shift_of n f 0); cbn [obind]; [|reflexivity|contradiction]. destruct (shift_of n f 1); cbn [obind]; [|reflexivity|contradiction].
  rewrite shift_short by lia. reflexivity.
Qed.
Print Assumptions C83_short.

(** ** What is false *)
(** the unit cube *)
Definition cube : mat := fun i j => if (i =? j)%nat then 1 else 0.
Lemma cube_setup : exists t, setup cube = Ok t /\ typ t = 0%Z.
Proof.
  assert (M : forall i, (i < 3)%nat -> mag cube i = 1).
  { intros i Hi. unfold mag, cube. replace (_ + _ + _) with 1; [apply sqrt_1|]. destruct i as [|[|[|i]]]; cbn; try ring. lia. }
  assert (U : forall i k, (i < 3)%nat -> LatUVec cube i k = cube i k) by (intros i k Hi; unfold LatUVec; rewrite M by exact Hi; field).
  assert (J : Jacbdet (LatUVec cube) = 1).
  { rewrite Jacbdet_det. unfold det, dot, Cross_Product, row. cbn [vx vy vz]. rewrite !U by lia. unfold cube. cbn. ring. }
  assert (T : Rltb TOL 0 = false) by (unfold Rltb, TOL; destruct (Rlt_dec _ 0); [lra|reflexivity]).
  unfold setup. rewrite !M by lia. destruct (Req_EM_T 1 0); [lra|]. cbv zeta. rewrite J. destruct (Rle_dec 1 0); [lra|].
  eexists. split; [reflexivity|]. cbn [typ]. unfold cell_typ1.
  assert (Z : forall i j, (i < 3)%nat -> (j < 3)%nat -> i <> j -> big (lapcT (LatUVec cube) i j) = false).
  { intros i j Hi Hj N. unfold big. replace (lapcT (LatUVec cube) i j) with 0; [rewrite Rabs_R0; exact T|].
    unfold lapcT, sum3, gradT. rewrite J. rewrite !U by (apply Nat.mod_upper_bound; lia). unfold cube.
    destruct i as [|[|[|i]]]; [| | |lia]; (destruct j as [|[|[|j]]]; [| | |lia]); try contradiction; cbn; field. }
  rewrite !Z by lia. cbn [andb]. rewrite !andb_false_r. cbn [andb].
  assert (O : oblique cube = false). { unfold oblique, dotL, cube. cbn. replace (1 * 0 + 0 * 1 + 0 * 0) with 0 by ring. replace (1 * 0 + 0 * 0 + 0 * 1) with 0 by ring.
    replace (0 * 0 + 1 * 0 + 0 * 1) with 0 by ring. rewrite Rabs_R0, T. reflexivity. }
  unfold cell_typ0. rewrite O. unfold misaligned. cbn [existsb fst snd]. unfold cube. cbn. rewrite Rabs_R0, T. reflexivity.
Qed.
(** The comment "make the sum of the forces zero" does not hold when atoms are held: the flags are applied afterwards. *)
Theorem C83_held_refuted : exists t g, setup cube = Ok t /\ egs_forces t 2 None None false 1 1 0 [0; 0; 0; 1; 1; 1]%Z [1; 0; 0; -1; 0; 0] = Ok g /\
  over 2 (fun i => comp g i 0) <> 0.
Proof.
  destruct cube_setup as (t & Ht & Tt). eexists t, _. split; [exact Ht|]. unfold egs_forces, to_cart. rewrite Tt. cbn. split; [reflexivity|].
  cbn. lra.
Qed.
Print Assumptions C83_held_refuted.
(** The flags are read without a check (readfiles.c:1679-1690): 2 doubles a force, -1 reverses it. *)
Theorem C83_flags_refuted : exists t g, setup cube = Ok t /\ egs_forces t 2 None None false 1 1 0 [2; 1; 1; -1; 1; 1]%Z [1; 0; 0; -1; 0; 0] = Ok g /\
  comp g 0 0 = 2 /\ comp g 1 0 = 1.
Proof.
  destruct cube_setup as (t & Ht & Tt). eexists t, _. split; [exact Ht|]. unfold egs_forces, to_cart. rewrite Tt. cbn. split; [reflexivity|].
  unfold comp. cbn. lra.
Qed.
Print Assumptions C83_flags_refuted.

(** ** Cases that meet the hypotheses *)
Example C83_formula_case : exists t, setup cube = Ok t /\ length [1; 2; 3; 4; 5; 7] = (3 * 2)%nat /\ sized 2 (Some [0; 1; 0; 1; 0; 1]) /\ @sized R 2 None.
Proof. destruct cube_setup as (t & Ht & _). exists t. repeat split; auto. Qed.
Example C83_symmetrize_case : ~ kept_xy false 1 /\ ~ kept_xy true (2 * PI) /\ kept_xy true 1.
Proof. unfold kept_xy. pose proof PI2_1. unfold PI2 in *. repeat split; try (intros [? ?]; discriminate || lra); try reflexivity. lra. Qed.
Example C83_work_case : exists t, setup ex_lat = Ok t /\ typ t = 11%Z.
Proof.
  assert (M0 : mag ex_lat 0 = 1) by (unfold mag, ex_lat; cbn; replace (1 * (1 * 1) + 0 * (0 * 1) + 0 * (0 * 1)) with (1 * 1) by ring; apply sqrt_square; lra).
  assert (M1 : mag ex_lat 1 = 5) by (unfold mag, ex_lat; cbn; replace (3 * (3 * 1) + 4 * (4 * 1) + 0 * (0 * 1)) with (5 * 5) by ring; apply sqrt_square; lra).
  assert (M2 : mag ex_lat 2 = 2) by (unfold mag, ex_lat; cbn; replace (0 * (0 * 1) + 0 * (0 * 1) + 2 * (2 * 1)) with (2 * 2) by ring; apply sqrt_square; lra).
  assert (U0 : forall k, LatUVec ex_lat 0%nat k = ex_lat 0%nat k) by (intros k; unfold LatUVec; rewrite M0; field).
  assert (U1 : forall k, LatUVec ex_lat 1%nat k = ex_lat 1%nat k / 5) by (intros k; unfold LatUVec; now rewrite M1).
  assert (U2 : forall k, LatUVec ex_lat 2%nat k = ex_lat 2%nat k / 2) by (intros k; unfold LatUVec; now rewrite M2).
  assert (J : Jacbdet (LatUVec ex_lat) = 4 / 5).
  { rewrite Jacbdet_det. unfold det, dot, Cross_Product, row. cbn [vx vy vz]. rewrite !U0, !U1, !U2. unfold ex_lat. cbn. field. }
  assert (A : lapcT (LatUVec ex_lat) 0%nat 1%nat = - (15 / 16)).
  { unfold lapcT, sum3, gradT. rewrite J. cbn [Nat.add Nat.modulo Nat.divmod Nat.sub fst snd]. rewrite ?U0, ?U1, ?U2. unfold ex_lat. cbn. field. }
  assert (B : lapcT (LatUVec ex_lat) 0%nat 2%nat = 0).
  { unfold lapcT, sum3, gradT. rewrite J. cbn [Nat.add Nat.modulo Nat.divmod Nat.sub fst snd]. rewrite ?U0, ?U1, ?U2. unfold ex_lat. cbn. field. }
  assert (C : lapcT (LatUVec ex_lat) 1%nat 2%nat = 0).
  { unfold lapcT, sum3, gradT. rewrite J. cbn [Nat.add Nat.modulo Nat.divmod Nat.sub fst snd]. rewrite ?U0, ?U1, ?U2. unfold ex_lat. cbn. field. }
  unfold setup. rewrite M0, M1, M2. destruct (Req_EM_T 1 0); [lra|]. destruct (Req_EM_T 5 0); [lra|]. destruct (Req_EM_T 2 0); [lra|]. cbv zeta. rewrite J. destruct (Rle_dec (4 / 5) 0); [lra|].
  eexists. split; [reflexivity|]. cbn [typ]. unfold cell_typ1. rewrite A, B, C. unfold big, small, Rltb, TOL. rewrite Rabs_R0, Rabs_Ropp, Rabs_pos_eq by lra.
  destruct (Rlt_dec _ (15 / 16)); [|lra]. destruct (Rlt_dec 0 _); [|lra]. reflexivity.
Qed.
