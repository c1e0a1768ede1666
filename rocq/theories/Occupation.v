(** Model of src/occupation.c:31-37 [smearing_function], 84-95 (occupations
    in [Calculate_occupation]) and 445-465 [local_occ_constraint], over the
    real numbers (rounding is abstracted; see the refutations over binary64
    in P_Fermi.v). *)
From Coq Require Import Reals Lra Lia List Arith Ranalysis.
Import ListNotations.
Local Open Scope R_scope.

Fixpoint rsum (n : nat) (f : nat -> R) : R :=
  match n with O => 0 | S n' => rsum n' f + f n' end.

Section Occ.
  (** libm's [erf]. *)
  Variable erf : R -> R.

  (** src/occupation.c:31-37; [typ] is [type != 0] *)
  Definition smearing_function (beta lambda lambda_f : R) (typ : bool) : R :=
    if typ then 0.5 * (1.0 - erf (beta * (lambda - lambda_f)))
    else 1.0 / (1.0 + exp (beta * (lambda - lambda_f))).

  (** src/occupation.c:445-465: three nested loops with a running index
      [count] into the gathered eigenvalues; the state is (g, count). *)
  Definition occ_n (beta lf woccfac : R) (typ : bool) (lam : nat -> R) (st : R * nat) (n : nat) : R * nat :=
    (fst st + woccfac * smearing_function beta (lam (snd st)) lf typ, S (snd st)).
  Definition occ_k (beta lf occfac : R) (typ : bool) (Ns : nat) (kptWts lam : nat -> R) (st : R * nat) (k : nat) : R * nat :=
    fold_left (occ_n beta lf (occfac * kptWts k) typ lam) (seq 0 Ns) st.
  Definition occ_s (beta lf occfac : R) (typ : bool) (Ns Nk : nat) (kptWts lam : nat -> R) (st : R * nat) (s : nat) : R * nat :=
    fold_left (occ_k beta lf occfac typ Ns kptWts lam) (seq 0 Nk) st.
  Definition local_occ_constraint (beta occfac Nkpts Ne : R) (typ : bool) (Nspin Nk Ns : nat)
    (kptWts lam : nat -> R) (lf : R) : R :=
    let g := fst (fold_left (occ_s beta lf occfac typ Ns Nk kptWts lam) (seq 0 Nspin) (0, 0%nat)) in
    g * (1.0 / Nkpts) + Ne.

  (** src/occupation.c:84-95: the occupation of each local state. *)
  Definition occupation (beta : R) (typ : bool) (lambda : nat -> R) (Efermi : R) (i : nat) : R :=
    smearing_function beta (lambda i) Efermi typ.

  (** ** Closed form *)
  Lemma occ_n_sum beta lf w typ lam : forall Ns g c,
    fold_left (occ_n beta lf w typ lam) (seq 0 Ns) (g, c)
    = (g + rsum Ns (fun n => w * smearing_function beta (lam (c + n)%nat) lf typ), (c + Ns)%nat).
  Proof.
    induction Ns as [|Ns IH]; intros g c.
    - cbn [seq fold_left rsum]. f_equal; [ring | lia].
    - rewrite seq_S, fold_left_app, IH. cbn [fold_left]. unfold occ_n. cbn [fst snd Nat.add rsum].
      f_equal; [ring | lia].
  Qed.
  Lemma occ_k_sum beta lf occfac typ Ns w lam : forall Nk g c,
    fold_left (occ_k beta lf occfac typ Ns w lam) (seq 0 Nk) (g, c)
    = (g + rsum Nk (fun k => rsum Ns (fun n => (occfac * w k) * smearing_function beta (lam (c + k * Ns + n)%nat) lf typ)),
       (c + Nk * Ns)%nat).
  Proof.
    induction Nk as [|Nk IH]; intros g c.
    - cbn [seq fold_left rsum]. f_equal; [ring | lia].
    - rewrite seq_S, fold_left_app, IH. cbn [fold_left]. unfold occ_k. rewrite occ_n_sum.
      cbn [Nat.add rsum]. f_equal; [ring | lia].
  Qed.
  Lemma occ_s_sum beta lf occfac typ Ns Nk w lam : forall Nspin g c,
    fold_left (occ_s beta lf occfac typ Ns Nk w lam) (seq 0 Nspin) (g, c)
    = (g + rsum Nspin (fun s => rsum Nk (fun k => rsum Ns (fun n =>
         (occfac * w k) * smearing_function beta (lam (c + s * (Nk * Ns) + k * Ns + n)%nat) lf typ))),
       (c + Nspin * (Nk * Ns))%nat).
  Proof.
    induction Nspin as [|Nspin IH]; intros g c.
    - cbn [seq fold_left rsum]. f_equal; [ring | lia].
    - rewrite seq_S, fold_left_app, IH. cbn [fold_left]. unfold occ_s. rewrite occ_k_sum.
      cbn [Nat.add rsum]. f_equal; [ring | lia].
  Qed.

  Lemma constraint_sum beta occfac Nkpts Ne typ Nspin Nk Ns w lam lf :
    local_occ_constraint beta occfac Nkpts Ne typ Nspin Nk Ns w lam lf
    = rsum Nspin (fun s => rsum Nk (fun k => rsum Ns (fun n =>
        (occfac * w k) * smearing_function beta (lam (s * (Nk * Ns) + k * Ns + n)%nat) lf typ))) * (1.0 / Nkpts) + Ne.
  Proof.
    unfold local_occ_constraint. rewrite occ_s_sum. cbn [fst Nat.add]. f_equal. f_equal. ring.
  Qed.
End Occ.

(** ** Sums *)
Lemma rsum_le n f g : (forall i, (i < n)%nat -> f i <= g i) -> rsum n f <= rsum n g.
Proof.
  induction n as [|n IH]; intros H; cbn [rsum]; [lra|].
  apply Rplus_le_compat; [apply IH; intros; apply H; lia | apply H; lia].
Qed.
Lemma rsum_lt n f g : (0 < n)%nat -> (forall i, (i < n)%nat -> f i < g i) -> rsum n f < rsum n g.
Proof.
  intros Hn H. destruct n as [|n]; [lia|]. cbn [rsum].
  apply Rplus_le_lt_compat; [apply rsum_le; intros; left; apply H; lia | apply H; lia].
Qed.
Lemma rsum_ext n f g : (forall i, (i < n)%nat -> f i = g i) -> rsum n f = rsum n g.
Proof.
  induction n as [|n IH]; intros H; cbn [rsum]; [reflexivity|].
  rewrite IH by (intros; apply H; lia). rewrite H by lia. reflexivity.
Qed.
Lemma rsum_const n c : rsum n (fun _ => c) = INR n * c.
Proof.
  induction n as [|n IH]; [cbn; ring|]. cbn [rsum]. rewrite IH, S_INR. ring.
Qed.
Lemma rsum_scale n c f : rsum n (fun i => c * f i) = c * rsum n f.
Proof. induction n as [|n IH]; cbn [rsum]; [ring|]. rewrite IH. ring. Qed.
Lemma rsum_continuity n (F : nat -> R -> R) : (forall i, (i < n)%nat -> continuity (F i)) ->
  continuity (fun x => rsum n (fun i => F i x)).
Proof.
  induction n as [|n IH]; intros H; cbn [rsum].
  - apply continuity_const. intros x y. reflexivity.
  - apply (continuity_plus (fun x => rsum n (fun i => F i x)) (F n)); [apply IH; intros; apply H; lia | apply H; lia].
Qed.

(** ** Fermi-Dirac *)
Definition fd (beta l lf : R) : R := 1.0 / (1.0 + exp (beta * (l - lf))).
Lemma fd_range beta l lf : 0 < fd beta l lf < 1.
Proof.
  unfold fd. pose proof (exp_pos (beta * (l - lf))) as E.
  replace (1.0) with 1 by lra. unfold Rdiv. rewrite Rmult_1_l. split.
  - apply Rinv_0_lt_compat. lra.
  - rewrite <- Rinv_1. apply Rinv_lt_contravar; lra.
Qed.
Lemma fd_strict_lf beta l lf lf' : 0 < beta -> lf < lf' -> fd beta l lf < fd beta l lf'.
Proof.
  intros Hb H. unfold fd. replace (1.0) with 1 by lra. unfold Rdiv. rewrite !Rmult_1_l.
  pose proof (exp_pos (beta * (l - lf))). pose proof (exp_pos (beta * (l - lf'))).
  apply Rinv_lt_contravar; [apply Rmult_lt_0_compat; lra|].
  apply Rplus_lt_compat_l, exp_increasing, Rmult_lt_compat_l; lra.
Qed.
Lemma fd_strict_l beta l l' lf : 0 < beta -> l < l' -> fd beta l' lf < fd beta l lf.
Proof.
  intros Hb H. unfold fd. replace (1.0) with 1 by lra. unfold Rdiv. rewrite !Rmult_1_l.
  pose proof (exp_pos (beta * (l - lf))). pose proof (exp_pos (beta * (l' - lf))).
  apply Rinv_lt_contravar; [apply Rmult_lt_0_compat; lra|].
  apply Rplus_lt_compat_l, exp_increasing, Rmult_lt_compat_l; lra.
Qed.
Lemma fd_continuity beta l : continuity (fd beta l).
Proof.
  assert (C : continuity (fun lf => 1.0 + exp (beta * (l - lf)))).
  { apply continuity_plus; [apply continuity_const; intros x y; reflexivity|].
    apply (continuity_comp (fun lf => beta * (l - lf)) exp); [|apply derivable_continuous, derivable_exp].
    apply continuity_mult; [apply continuity_const; intros x y; reflexivity|].
    apply continuity_minus; [apply continuity_const; intros x y; reflexivity | apply derivable_continuous, derivable_id]. }
  unfold fd. apply (continuity_div (fun _ => 1.0)); [apply continuity_const; intros x y; reflexivity | exact C |].
  intros x. pose proof (exp_pos (beta * (l - x))). lra.
Qed.
Lemma fd_small beta l d : 0 < beta -> 0 < d -> forall lf, lf <= l - / (d * beta) -> fd beta l lf < d.
Proof.
  intros Hb Hd lf H. unfold fd. replace (1.0) with 1 by lra. unfold Rdiv. rewrite Rmult_1_l.
  assert (E : / d <= beta * (l - lf)).
  { replace (/ d) with (beta * / (d * beta)) by (field; lra). apply Rmult_le_compat_l; lra. }
  assert (X : / d < 1 + exp (beta * (l - lf))).
  { assert (0 < / d) by (apply Rinv_0_lt_compat; exact Hd).
    assert (1 + / d < exp (/ d)) by (apply exp_ineq1; lra).
    assert (exp (/ d) <= exp (beta * (l - lf))).
    { destruct E as [E|E]; [left; apply exp_increasing, E | rewrite <- E; right; reflexivity]. }
    lra. }
  rewrite <- (Rinv_inv d). apply Rinv_lt_contravar; [|exact X].
  apply Rmult_lt_0_compat; [apply Rinv_0_lt_compat; exact Hd|]. pose proof (exp_pos (beta * (l - lf))). lra.
Qed.
Lemma fd_symm beta l lf : fd beta l lf = 1 - fd beta (- l) (- lf).
Proof.
  unfold fd. replace (beta * (- l - - lf)) with (- (beta * (l - lf))) by ring. rewrite exp_Ropp.
  pose proof (exp_pos (beta * (l - lf))). replace (1.0) with 1 by lra. field. lra.
Qed.
Lemma fd_large beta l d : 0 < beta -> 0 < d -> forall lf, l + / (d * beta) <= lf -> 1 - d < fd beta l lf.
Proof.
  intros Hb Hd lf H. rewrite fd_symm.
  pose proof (fd_small beta (- l) d Hb Hd (- lf) ltac:(lra)). lra.
Qed.

(** A bound valid for finitely many states at once. *)
Lemma finite_lower (n : nat) (lam : nat -> R) : exists m, forall i, (i < n)%nat -> m <= lam i.
Proof.
  induction n as [|n (m & IH)]; [exists 0; intros; lia|].
  exists (Rmin m (lam n)). intros i Hi. destruct (Nat.eq_dec i n) as [-> | N].
  - apply Rmin_r.
  - apply Rle_trans with m; [apply Rmin_l | apply IH; lia].
Qed.
Lemma finite_upper (n : nat) (lam : nat -> R) : exists m, forall i, (i < n)%nat -> lam i <= m.
Proof.
  destruct (finite_lower n (fun i => - lam i)) as (m & H). exists (- m). intros i Hi. specialize (H i Hi). cbn in H. lra.
Qed.
