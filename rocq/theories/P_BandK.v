(** C49: band-structure k-points. *)
From Coq Require Import Reals List Lia Lra ZArith Bool.
From Verif Require Import CBase BandK.
Import ListNotations.
Local Open Scope R_scope.

(** ** Specification *)
(** point [j] of [n] equally spaced points from [s] to [e] *)
Definition on_line (s e : vec) (n j : nat) : vec := vadd s (vscale (INR j / (INR n - 1)) (vsub e s)).

(** The reciprocal vectors are dual to the lattice vectors, so the Cartesian
    vector of reduced coordinates [k] satisfies k.a_i = 2 pi k_i. *)
Theorem C49_reciprocal a1 a2 a3 k : volume a1 a2 a3 <> 0 ->
  dot (to_cart a1 a2 a3 k) a1 = 2 * PI * vx k /\
  dot (to_cart a1 a2 a3 k) a2 = 2 * PI * vy k /\
  dot (to_cart a1 a2 a3 k) a3 = 2 * PI * vz k.
Proof.
  intros H. destruct a1, a2, a3, k. unfold to_cart, b1, b2, b3, recip, volume, Cross_Product, dot, vadd, vscale in *. cbn in *.
  repeat split; field; exact H.
Qed.

Lemma vec_eq a b : vx a = vx b -> vy a = vy b -> vz a = vz b -> a = b.
Proof. destruct a, b; cbn; intros; subst; reflexivity. Qed.

Section Safe.
  Variables (a1 a2 a3 : vec) (n kppl : nat) (kred : nat -> vec).
  Hypothesis Hn : (1 <= n)%nat.
  Hypothesis Hk : (2 <= kppl)%nat.
  Hypothesis Hb : (n * kppl <= L_kpoint)%nat.
  Let put := put a1 a2 a3 (n * kppl).
  Let rd := rd kred.
  Let pt i j := on_line (kred (2 * i)) (kred (2 * i + 1)) kppl j.
  (** cells below [b] hold their points *)
  Definition filled (b : nat) (st : kmem) : Prop :=
    forall i j, (j < kppl)%nat -> (i * kppl + j < b)%nat ->
      ki st (i * kppl + j) = Some (pt i j) /\ kc st (i * kppl + j) = Some (to_cart a1 a2 a3 (pt i j)).
  Definition holds (st : kmem) (x : nat) (v : vec) : Prop :=
    ki st x = Some v /\ kc st x = Some (to_cart a1 a2 a3 v).
  Lemma put_ok st i r : (i < n * kppl)%nat ->
    exists st', put st i r = Ok st' /\ holds st' i r /\
      (forall x, x <> i -> ki st' x = ki st x /\ kc st' x = kc st x).
  Proof.
    intros Hi. unfold put, BandK.put.
    replace ((i <? n * kppl)%nat && (i <? L_kpoint)%nat) with true.
    2:{ symmetry. apply andb_true_iff. split; apply Nat.ltb_lt; lia. }
    eexists. split; [reflexivity|]. unfold holds, upd; cbn. rewrite Nat.eqb_refl. split; [auto|].
    intros x Hx. replace (x =? i)%nat with false by (symmetry; apply Nat.eqb_neq; exact Hx). auto.
  Qed.
  Lemma rd_ok i : (i < 2 * n)%nat -> rd i = Ok (kred i).
  Proof. intros Hi. unfold rd, BandK.rd. replace (i <? L_kpoint)%nat with true; [reflexivity|]. symmetry; apply Nat.ltb_lt. nia. Qed.
  Lemma inr_pos : INR kppl - 1 <> 0.
  Proof. assert (2 <= INR kppl) by (apply (le_INR 2); exact Hk). lra. Qed.
  Lemma loop1_ok st : exists st', loop1 a1 a2 a3 (n * kppl) kred n st = Ok st'.
  Proof.
    unfold loop1. destruct (oloop_inv (fun s i => do r <- BandK.rd kred i ; BandK.put a1 a2 a3 (n * kppl) s i r) (fun _ _ => True) 0 (2 * n) st I) as [t [E _]].
    - intros i t Hi _. fold rd. rewrite rd_ok by lia. cbn [obind]. destruct (put_ok t i (kred i)) as [t' [E _]]; [nia|]. exists t'. split; [exact E|exact I].
    - exists t. exact E.
  Qed.
  Lemma line_ok i st : (i < n)%nat -> filled (i * kppl) st ->
    exists st', line a1 a2 a3 (n * kppl) kred kppl st i = Ok st' /\ filled (S i * kppl) st'.
  Proof.
    intros Hi F. unfold line. fold rd. rewrite (rd_ok (i * 2)) by lia. cbn [obind]. fold put.
    assert (Hi' : (i * kppl + kppl <= n * kppl)%nat) by nia.
    destruct (put_ok st (i * kppl) (kred (i * 2))) as [s1 [E1 [H1 O1]]]; [lia|]. rewrite E1. cbn [obind].
    rewrite rd_ok by lia. cbn [obind].
    destruct (put_ok s1 ((i + 1) * kppl - 1) (kred (i * 2 + 1))) as [s2 [E2 [H2 O2]]]; [nia|]. rewrite E2. cbn [obind].
    unfold inner.
    destruct (oloop_inv (fun t j => BandK.put a1 a2 a3 (n * kppl) t j
        (V (vx (kred (i * 2)) + vx (vsub (kred (i * 2 + 1)) (kred (i * 2))) * (1 / (INR kppl - 1)) * INR (j - i * kppl))
           (vy (kred (i * 2)) + vy (vsub (kred (i * 2 + 1)) (kred (i * 2))) * (1 / (INR kppl - 1)) * INR (j - i * kppl))
           (vz (kred (i * 2)) + vz (vsub (kred (i * 2 + 1)) (kred (i * 2))) * (1 / (INR kppl - 1)) * INR (j - i * kppl))))
      (fun x t => filled (i * kppl) t /\ holds t ((i + 1) * kppl - 1) (kred (i * 2 + 1)) /\
         forall j, (i * kppl + j < x)%nat -> (j < kppl)%nat -> holds t (i * kppl + j) (pt i j))
      (i * kppl + 1) (kppl - 2) s2) as [s3 [E3 [F3 [H3 P3]]]].
    - split; [|split].
      + intros i' j Hj Hlt. destruct (F i' j Hj Hlt) as [Fa Fb].
        destruct (O1 (i' * kppl + j)%nat) as [Oa Ob]; [lia|]. destruct (O2 (i' * kppl + j)%nat) as [Oc Od]; [nia|].
        rewrite Oc, Od, Oa, Ob. auto.
      + exact H2.
      + intros j Hj Hjk. assert (j = 0%nat) as -> by lia. rewrite Nat.add_0_r.
        destruct (O2 (i * kppl)%nat) as [Oc Od]; [nia|]. unfold holds. rewrite Oc, Od.
        replace (pt i 0) with (kred (i * 2)); [exact H1|].
        unfold pt, on_line. replace (2 * i)%nat with (i * 2)%nat by lia. pose proof inr_pos.
        apply vec_eq; cbn; field; assumption.
    - intros x t Hx [Ft [Ht Pt]]. fold put.
      destruct (put_ok t x (V (vx (kred (i * 2)) + vx (vsub (kred (i * 2 + 1)) (kred (i * 2))) * (1 / (INR kppl - 1)) * INR (x - i * kppl))
           (vy (kred (i * 2)) + vy (vsub (kred (i * 2 + 1)) (kred (i * 2))) * (1 / (INR kppl - 1)) * INR (x - i * kppl))
           (vz (kred (i * 2)) + vz (vsub (kred (i * 2 + 1)) (kred (i * 2))) * (1 / (INR kppl - 1)) * INR (x - i * kppl)))) as [t' [Et [Ht' Ot]]]; [lia|].
      exists t'. split; [exact Et|]. split; [|split].
      + intros i' j Hj Hlt. destruct (Ot (i' * kppl + j)%nat) as [Oa Ob]; [lia|]. rewrite Oa, Ob. apply Ft; assumption.
      + destruct (Ot ((i + 1) * kppl - 1)%nat) as [Oa Ob]; [nia|]. unfold holds. rewrite Oa, Ob. exact Ht.
      + intros j Hj Hjk. destruct (Nat.eq_dec (i * kppl + j) x) as [Ex|Nx].
        * rewrite Ex. replace (pt i j) with (V (vx (kred (i * 2)) + vx (vsub (kred (i * 2 + 1)) (kred (i * 2))) * (1 / (INR kppl - 1)) * INR (x - i * kppl))
           (vy (kred (i * 2)) + vy (vsub (kred (i * 2 + 1)) (kred (i * 2))) * (1 / (INR kppl - 1)) * INR (x - i * kppl))
           (vz (kred (i * 2)) + vz (vsub (kred (i * 2 + 1)) (kred (i * 2))) * (1 / (INR kppl - 1)) * INR (x - i * kppl))); [exact Ht'|].
          replace (x - i * kppl)%nat with j by lia. unfold pt, on_line.
          replace (2 * i)%nat with (i * 2)%nat by lia. pose proof inr_pos. apply vec_eq; cbn; field; assumption.
        * destruct (Ot (i * kppl + j)%nat Nx) as [Oa Ob]. unfold holds. rewrite Oa, Ob. apply Pt; lia.
    - exists s3. split; [exact E3|]. intros i' j Hj Hlt.
      destruct (Nat.eq_dec i' i) as [->|Ni].
      + destruct (Nat.eq_dec j (kppl - 1)) as [->|Nj].
        * replace (i * kppl + (kppl - 1))%nat with ((i + 1) * kppl - 1)%nat by nia.
          replace (pt i (kppl - 1)) with (kred (i * 2 + 1)); [exact H3|].
          unfold pt, on_line. replace (2 * i)%nat with (i * 2)%nat by lia. rewrite minus_INR by lia. pose proof inr_pos.
          apply vec_eq; cbn; field; assumption.
        * apply P3; lia.
      + apply F3; [exact Hj|]. assert (i' < i)%nat by nia. nia.
  Qed.
End Safe.

(** For at least two points per line and no more than L_kpoint points in all,
    nothing is written out of bounds, every point is where the path says, and
    its Cartesian vector belongs to it. *)
Theorem C49_points a1 a2 a3 n kppl kred : (0 < n)%Z -> (2 <= kppl)%Z -> (n * kppl <= 512)%Z ->
  exists st, calculate_kpts_bandstruct a1 a2 a3 n kppl kred = Ok st /\
    forall i j, (i < Z.to_nat n)%nat -> (j < Z.to_nat kppl)%nat ->
      let p := on_line (kred (2 * i)%nat) (kred (2 * i + 1)%nat) (Z.to_nat kppl) j in
      ki st (i * Z.to_nat kppl + j) = Some p /\ kc st (i * Z.to_nat kppl + j) = Some (to_cart a1 a2 a3 p).
Proof.
  intros Hn Hk Hb. unfold calculate_kpts_bandstruct.
  replace (n <=? 0)%Z with false by (symmetry; apply Z.leb_gt; lia).
  replace (kppl <? 0)%Z with false by (symmetry; apply Z.ltb_ge; lia).
  replace (INT_MAX <? kppl * n)%Z with false by (symmetry; apply Z.ltb_ge; unfold INT_MAX; lia).
  replace (Z.to_nat (kppl * n)) with (Z.to_nat n * Z.to_nat kppl)%nat by (rewrite Z2Nat.inj_mul by lia; lia).
  assert (B : (Z.to_nat n * Z.to_nat kppl <= L_kpoint)%nat).
  { unfold L_kpoint. rewrite <- Z2Nat.inj_mul by lia. change 512%nat with (Z.to_nat 512). apply Z2Nat.inj_le; lia. }
  destruct (loop1_ok a1 a2 a3 (Z.to_nat n) (Z.to_nat kppl) kred ltac:(lia) ltac:(lia) B (KM (fun _ => None) (fun _ => None))) as [st E].
  cbv zeta. rewrite E. cbn [obind].
  destruct (oloop_inv (line a1 a2 a3 (Z.to_nat n * Z.to_nat kppl) kred (Z.to_nat kppl))
     (fun i t => filled a1 a2 a3 (Z.to_nat kppl) kred (i * Z.to_nat kppl) t) 0 (Z.to_nat n) st) as [t [Et Ft]].
  - intros i j _ H. cbn in H. lia.
  - intros i t Hi F. apply line_ok; try assumption; lia.
  - exists t. split; [exact Et|]. intros i j Hi Hj. apply Ft; [exact Hj|]. cbn. nia.
Qed.

(** ** Out of bounds otherwise *)
Lemma oloop_noexit {S} (f : S -> nat -> outcome S) l s : (forall i t, f t i <> Exit) -> oloop f l s <> Exit.
Proof.
  intros H. revert s. induction l as [|i l IH]; intros s; cbn; [discriminate|].
  destruct (f s i) eqn:E; cbn; [apply IH|discriminate|destruct (H i s E)].
Qed.
Lemma rd_cases kred i : (i < 512)%nat /\ rd kred i = Ok (kred i) \/ (512 <= i)%nat /\ rd kred i = UB.
Proof. unfold rd, L_kpoint. destruct (Nat.ltb_spec i 512); auto. Qed.
Lemma put_cases a1 a2 a3 cap st i r :
  (exists st', put a1 a2 a3 cap st i r = Ok st') \/ put a1 a2 a3 cap st i r = UB.
Proof. unfold put. destruct (_ && _); eauto. Qed.
Lemma put_ub a1 a2 a3 cap st i r : (cap <= i \/ 512 <= i)%nat -> put a1 a2 a3 cap st i r = UB.
Proof.
  intros H. unfold put, L_kpoint. destruct (Nat.ltb_spec i cap); destruct (Nat.ltb_spec i 512); cbn; try reflexivity. lia.
Qed.
Lemma inner_noexit a1 a2 a3 cap kppl start s e st : inner a1 a2 a3 cap kppl start s e st <> Exit.
Proof.
  unfold inner. apply oloop_noexit. intros i t. match goal with |- put _ _ _ _ _ _ ?r <> _ => destruct (put_cases a1 a2 a3 cap t i r) as [[x ->]| ->] end; discriminate.
Qed.
Lemma line_noexit a1 a2 a3 cap kred kppl t i : line a1 a2 a3 cap kred kppl t i <> Exit.
Proof.
  unfold line. destruct (rd_cases kred (i * 2)) as [[_ ->]|[_ ->]]; cbn [obind]; [|discriminate].
  destruct (put_cases a1 a2 a3 cap t (i * kppl) (kred (i * 2)%nat)) as [[x ->]| ->]; cbn [obind]; [|discriminate].
  destruct (rd_cases kred (i * 2 + 1)) as [[_ ->]|[_ ->]]; cbn [obind]; [|discriminate].
  destruct (put_cases a1 a2 a3 cap x ((i + 1) * kppl - 1) (kred (i * 2 + 1)%nat)) as [[y ->]| ->]; cbn [obind]; [|discriminate].
  apply inner_noexit.
Qed.
Lemma line_ub a1 a2 a3 cap kred kppl t i : (512 <= (i + 1) * kppl - 1)%nat -> line a1 a2 a3 cap kred kppl t i = UB.
Proof.
  intros H. unfold line. destruct (rd_cases kred (i * 2)) as [[_ ->]|[_ ->]]; cbn [obind]; [|reflexivity].
  destruct (put_cases a1 a2 a3 cap t (i * kppl) (kred (i * 2)%nat)) as [[x ->]| ->]; cbn [obind]; [|reflexivity].
  destruct (rd_cases kred (i * 2 + 1)) as [[_ ->]|[_ ->]]; cbn [obind]; [|reflexivity].
  rewrite put_ub by lia. reflexivity.
Qed.

(** ... and only then: fewer than two points per line, or more than L_kpoint
    points in all, always write outside an array. Neither is rejected by the
    input reader, so the unconditional form of the claim is false. *)
Theorem C49_out_of_bounds a1 a2 a3 n kppl kred : (0 < n)%Z -> (kppl < 2 \/ 512 < n * kppl)%Z ->
  calculate_kpts_bandstruct a1 a2 a3 n kppl kred = UB.
Proof.
  intros Hn H. unfold calculate_kpts_bandstruct.
  replace (n <=? 0)%Z with false by (symmetry; apply Z.leb_gt; lia).
  destruct (Z.ltb_spec kppl 0) as [Hk|Hk]; [reflexivity|].
  destruct (Z.ltb_spec INT_MAX (kppl * n)) as [Ho|Ho]; [reflexivity|]. cbv zeta.
  set (f := fun s i => do r <- rd kred i; put a1 a2 a3 (Z.to_nat (kppl * n)) s i r).
  assert (NE : forall i t, f t i <> Exit).
  { intros i t. unfold f. destruct (rd_cases kred i) as [[_ ->]|[_ ->]]; cbn [obind]; [|discriminate].
    destruct (put_cases a1 a2 a3 (Z.to_nat (kppl * n)) t i (kred i)) as [[x ->]| ->]; discriminate. }
  unfold loop1. fold f.
  destruct (Z.lt_ge_cases kppl 2) as [H2|H2].
  - rewrite (oloop_ub f); [reflexivity| |exact NE].
    exists (Z.to_nat (kppl * n)). split; [nia|]. intros t. unfold f.
    destruct (rd_cases kred (Z.to_nat (kppl * n))) as [[_ ->]|[_ ->]]; cbn [obind]; [|reflexivity]. apply put_ub. lia.
  - assert (H5 : (512 < n * kppl)%Z) by lia. clear H.
    destruct (oloop f (seq 0 (2 * Z.to_nat n)) _) as [st| |] eqn:E; cbn [obind]; [|reflexivity|].
    + apply oloop_ub; [|intros; apply line_noexit]. exists (Z.to_nat n - 1)%nat. split; [lia|].
      intros t. apply line_ub. replace (Z.to_nat n - 1 + 1)%nat with (Z.to_nat n) by lia.
      rewrite <- Z2Nat.inj_mul by lia. change 512%nat with (Z.to_nat 512).
      assert (X : (Z.to_nat 512 < Z.to_nat (n * kppl))%nat) by (apply Z2Nat.inj_lt; lia). lia.
    + exfalso. revert E. apply oloop_noexit. exact NE.
Qed.

(** Two lines of three points in a cubic cell. *)
Definition ex_path (i : nat) : vec :=
  match i with 0%nat => V 0 0 0 | 1%nat => V (1/2) 0 0 | 2%nat => V (1/2) 0 0 | _ => V (1/2) (1/2) 0 end.
Example C49_ex : exists st,
  calculate_kpts_bandstruct (V 10 0 0) (V 0 10 0) (V 0 0 10) 2 3 ex_path = Ok st /\ ki st 4%nat = Some (V (1/2) (1/4) 0).
Proof.
  destruct (C49_points (V 10 0 0) (V 0 10 0) (V 0 0 10) 2 3 ex_path) as [st [E H]]; try lia.
  exists st. split; [exact E|]. specialize (H 1%nat 1%nat ltac:(lia) ltac:(lia)).
  change (1 * Z.to_nat 3 + 1)%nat with 4%nat in H. cbv zeta in H. rewrite (proj1 H). f_equal.
  change (Z.to_nat 3) with 3%nat. unfold on_line, ex_path. apply vec_eq; cbn; field.
Qed.
Example C49_ex_volume : volume (V 10 0 0) (V 0 10 0) (V 0 0 10) <> 0.
Proof. unfold volume, Cross_Product, dot. cbn. lra. Qed.
(** one point per line; the default of 10 points per line with 52 lines *)
Theorem C49_always_in_bounds_refuted : exists n kppl n' kppl', (0 < n /\ 0 < kppl /\ n * kppl <= 512 /\ 2 <= kppl' /\ 2 * n' <= 512)%Z /\
  forall a1 a2 a3 kred, calculate_kpts_bandstruct a1 a2 a3 n kppl kred = UB /\
                        calculate_kpts_bandstruct a1 a2 a3 n' kppl' kred = UB.
Proof.
  exists 1%Z, 1%Z, 52%Z, 10%Z. split; [lia|]. intros. split; apply C49_out_of_bounds; lia.
Qed.

Print Assumptions C49_reciprocal.
Print Assumptions C49_points.
Print Assumptions C49_out_of_bounds.
Print Assumptions C49_always_in_bounds_refuted.
