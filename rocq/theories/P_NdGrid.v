(** Property C07: n-d grid enumeration. *)
From Coq Require Import ZArith List Lia Bool.
From Coq Require Import ZifyBool ZifyNat.
From Verif Require Import CBase Mem NdGrid.
Import ListNotations.
Local Open Scope Z_scope.

(** ** Specification *)
(** Number of multi-indices of the first [d] dimensions. *)
Fixpoint volume (d : nat) (lo hi : nat -> Z) : Z :=
  match d with O => 1 | S e => volume e lo hi * (hi e - lo e + 1) end.
(** Column-major position of multi-index [v]: first dimension fastest. *)
Fixpoint colmajor (d : nat) (lo hi v : nat -> Z) : Z :=
  match d with O => 0 | S e => colmajor e lo hi v + (v e - lo e) * volume e lo hi end.
Definition in_range (d : nat) (lo hi v : nat -> Z) : Prop :=
  forall e, (e < d)%nat -> lo e <= v e <= hi e.

Lemma volume_total d lo hi : volume d lo hi = nd_total d lo hi.
Proof. induction d; cbn [volume nd_total]; congruence. Qed.
Lemma volume_pos d lo hi : (forall e, (e < d)%nat -> lo e <= hi e) -> 0 < volume d lo hi.
Proof. intros H. rewrite <- (eq_sym (volume_total d lo hi)). now apply nd_total_pos. Qed.

Lemma colmajor_bound d lo hi v : in_range d lo hi v -> 0 <= colmajor d lo hi v < volume d lo hi.
Proof.
  intros H. induction d; cbn [colmajor volume]; [lia|].
  assert (B : 0 <= colmajor d lo hi v < volume d lo hi) by (apply IHd; intros e He; apply H; lia).
  assert (L := H d ltac:(lia)).
  set (V := volume d lo hi) in *. set (c := colmajor d lo hi v) in *. clearbody V c.
  set (w := v d - lo d). set (n := hi d - lo d + 1). assert (0 <= w < n) by lia.
  clearbody w n. nia.
Qed.

Lemma colmajor_inj d lo hi v w : in_range d lo hi v -> in_range d lo hi w ->
  colmajor d lo hi v = colmajor d lo hi w -> forall e, (e < d)%nat -> v e = w e.
Proof.
  induction d; intros Hv Hw E e He; [lia|]. cbn [colmajor] in E.
  assert (Bv := colmajor_bound d lo hi v (fun e H => Hv e ltac:(lia))).
  assert (Bw := colmajor_bound d lo hi w (fun e H => Hw e ltac:(lia))).
  destruct (radix_inj (volume d lo hi) (v d - lo d) (colmajor d lo hi v)
              (w d - lo d) (colmajor d lo hi w) Bv Bw) as [E1 E2]; [lia|].
  destruct (Nat.eq_dec e d) as [->|Ne]; [lia|].
  apply IHd; auto; try lia; intros x Hx; [apply Hv | apply Hw]; lia.
Qed.

Lemma digits_colmajor d lo hi t : (forall e, (e < d)%nat -> lo e <= hi e) ->
  colmajor d lo hi (fun e => lo e + (t / volume e lo hi) mod (hi e - lo e + 1))
  = t mod volume d lo hi.
Proof.
  intros H. induction d; cbn [colmajor volume]; [now rewrite Z.mod_1_r|].
  rewrite IHd by (intros; apply H; lia).
  assert (P : 0 < volume d lo hi) by (apply volume_pos; intros; apply H; lia).
  specialize (H d ltac:(lia)).
  rewrite Z.rem_mul_r by lia. lia.
Qed.

Theorem C07_ndgrid_enumerates : forall d lo hi X,
  (1 <= d)%nat -> (forall e, (e < d)%nat -> lo e <= hi e) ->
  let N := volume d lo hi in
  exists X', c_ndgrid d lo hi X = Ok X' /\
    (* row t of the output is a legal multi-index *)
    (forall t, 0 <= t < N -> in_range d lo hi (fun e => X' (Z.of_nat e * N + t))) /\
    (* each multi-index occurs in exactly one row, the column-major one *)
    (forall v, in_range d lo hi v ->
       forall t, 0 <= t < N ->
         ((forall e, (e < d)%nat -> X' (Z.of_nat e * N + t) = v e) <-> t = colmajor d lo hi v)) /\
    (forall v, in_range d lo hi v -> 0 <= colmajor d lo hi v < N) /\
    (* nothing outside the d*N output entries is written *)
    (forall i, i < 0 \/ Z.of_nat d * N <= i -> X' i = X i).
Proof.
  intros d lo hi X Hd H N.
  assert (Hpos : 0 < N) by (unfold N; now apply volume_pos).
  destruct (c_ndgrid_rec_spec d lo hi 1 (nd_total d lo hi) X N H eq_refl ltac:(lia))
    as (X' & E & V & O); [unfold N; pose proof (volume_total d lo hi); lia|].
  exists X'. split; [destruct d; [lia|exact E]|].
  assert (Vd : forall e t, (e < d)%nat -> 0 <= t < N ->
      X' (Z.of_nat e * N + t) = lo e + (t / volume e lo hi) mod (hi e - lo e + 1)).
  { intros. pose proof (volume_total e lo hi) as Ev. rewrite Ev. now apply V. }
  assert (R : forall t, in_range d lo hi
       (fun e => lo e + (t / volume e lo hi) mod (hi e - lo e + 1))).
  { intros t e He. specialize (H e He).
    pose proof (Z.mod_pos_bound (t / volume e lo hi) (hi e - lo e + 1) ltac:(lia)). lia. }
  repeat split.
  - rewrite Vd by assumption. apply R; assumption.
  - rewrite Vd by assumption. apply R; assumption.
  - intros Hv. rewrite <- (Z.mod_small t N) by assumption. unfold N.
    rewrite <- digits_colmajor by assumption.
    assert (Ec : forall k, (k <= d)%nat -> colmajor k lo hi
        (fun e => lo e + (t / volume e lo hi) mod (hi e - lo e + 1)) = colmajor k lo hi v).
    { induction k; intros Hk; [reflexivity|]. cbn [colmajor]. rewrite IHk by lia.
      rewrite <- (Vd k t) by (assumption || lia). rewrite Hv by lia. reflexivity. }
    apply Ec. lia.
  - intros Et e He. rewrite Vd by assumption.
    apply (colmajor_inj d lo hi _ v (R t)); try assumption.
    rewrite digits_colmajor by assumption. fold N. rewrite Z.mod_small by assumption. exact Et.
  - now apply colmajor_bound.
  - apply colmajor_bound; assumption.
  - assumption.
Qed.
Print Assumptions C07_ndgrid_enumerates.

(** The precondition lo <= hi is needed: an empty range (a process with no
    grid points) makes the routine divide by zero. *)
Theorem C07_ndgrid_empty_range_refuted :
  exists d lo hi, (1 <= d)%nat /\ (forall e, (e < d)%nat -> lo e <= hi e + 1) /\
    forall X, c_ndgrid d lo hi X = UB.
Proof.
  exists 3%nat, (fun e => if Nat.eqb e 0 then 1 else 0), (fun _ => 0).
  split; [lia|]. split; [|reflexivity].
  intros [|e] He; cbn; lia.
Qed.
Print Assumptions C07_ndgrid_empty_range_refuted.

Example C07_example :
  let lo := fun e => nth e [0; 3] 0 in let hi := fun e => nth e [1; 5] 0 in
  (forall e, (e < 2)%nat -> lo e <= hi e) /\
  exists X', c_ndgrid 2 lo hi (fun _ => -7) = Ok X' /\
   map X' (zseq 0 13) = [0;1;0;1;0;1; 3;3;4;4;5;5; -7].
Proof.
  cbv zeta. split.
  - intros [|[|e]] He; cbn; lia.
  - eexists. split; [vm_compute; reflexivity|vm_compute; reflexivity].
Qed.
