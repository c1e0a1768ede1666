(** C24: occupations. *)
From Coq Require Import Reals Lra Lia List Arith Ranalysis ZArith.
From Coq Require Import Floats.SpecFloat.
From Verif Require Import Occupation.
Import ListNotations.
Local Open Scope R_scope.

(** Fermi-Dirac occupations are strictly between 0 and 1 and strictly
    decrease with the energy. *)
Theorem C24_fermi_dirac_range : forall erf beta l lf, 0 < smearing_function erf beta l lf false < 1.
Proof. intros. apply fd_range. Qed.
Print Assumptions C24_fermi_dirac_range.
Theorem C24_fermi_dirac_decreasing : forall erf beta (lambda : nat -> R) Ef i j,
  0 < beta -> lambda i < lambda j ->
  occupation erf beta false lambda Ef j < occupation erf beta false lambda Ef i.
Proof. intros. apply fd_strict_l; assumption. Qed.
Print Assumptions C24_fermi_dirac_decreasing.

(** Gaussian smearing, for any strictly increasing [erf] with values in
    (-1, 1). *)
Theorem C24_gaussian : forall erf beta,
  (forall x y, x < y -> erf x < erf y) -> (forall x, -1 < erf x < 1) -> 0 < beta ->
  forall l l' lf, 0 < smearing_function erf beta l lf true < 1 /\
    (l < l' -> smearing_function erf beta l' lf true < smearing_function erf beta l lf true).
Proof.
  intros erf beta Hm Hr Hb l l' lf. unfold smearing_function.
  pose proof (Hr (beta * (l - lf))). split; [lra|]. intros H1.
  assert (X : beta * (l - lf) < beta * (l' - lf)) by (apply Rmult_lt_compat_l; lra).
  specialize (Hm _ _ X). lra.
Qed.
Print Assumptions C24_gaussian.

(** The electron-count constraint is strictly increasing in the Fermi level
    (both smearings), so at most one Fermi level satisfies it. *)
Theorem C24_constraint_increasing : forall erf beta occfac Nkpts Ne typ Nspin Nk Ns kptWts lam lf lf',
  (typ = true -> forall x y, x < y -> erf x < erf y) ->
  0 < beta -> 0 < occfac -> 0 < Nkpts -> (forall k, (k < Nk)%nat -> 0 < kptWts k) ->
  (0 < Nspin)%nat -> (0 < Nk)%nat -> (0 < Ns)%nat ->
  lf < lf' ->
  local_occ_constraint erf beta occfac Nkpts Ne typ Nspin Nk Ns kptWts lam lf
  < local_occ_constraint erf beta occfac Nkpts Ne typ Nspin Nk Ns kptWts lam lf'.
Proof.
  intros erf beta occfac Nkpts Ne typ Nspin Nk Ns w lam lf lf' He Hb Ho HN Hw H1 H2 H3 Hl.
  rewrite !constraint_sum. apply Rplus_lt_compat_r, Rmult_lt_compat_r.
  - apply Rmult_lt_0_compat; [lra | apply Rinv_0_lt_compat, HN].
  - apply rsum_lt; [exact H1|]. intros s Hs. apply rsum_lt; [exact H2|]. intros k Hk.
    apply rsum_lt; [exact H3|]. intros n Hn. apply Rmult_lt_compat_l.
    + apply Rmult_lt_0_compat; [exact Ho | apply Hw, Hk].
    + destruct typ; unfold smearing_function.
      * set (l := lam _). assert (X : beta * (l - lf') < beta * (l - lf)) by (apply Rmult_lt_compat_l; lra).
        specialize (He eq_refl _ _ X). lra.
      * apply fd_strict_lf; assumption.
Qed.
Print Assumptions C24_constraint_increasing.

Theorem C24_fermi_level_unique : forall erf beta occfac Nkpts Ne typ Nspin Nk Ns kptWts lam lf lf',
  (typ = true -> forall x y, x < y -> erf x < erf y) ->
  0 < beta -> 0 < occfac -> 0 < Nkpts -> (forall k, (k < Nk)%nat -> 0 < kptWts k) ->
  (0 < Nspin)%nat -> (0 < Nk)%nat -> (0 < Ns)%nat ->
  local_occ_constraint erf beta occfac Nkpts Ne typ Nspin Nk Ns kptWts lam lf = 0 ->
  local_occ_constraint erf beta occfac Nkpts Ne typ Nspin Nk Ns kptWts lam lf' = 0 -> lf = lf'.
Proof.
  intros erf beta occfac Nkpts Ne typ Nspin Nk Ns w lam lf lf' He Hb Ho HN Hw H1 H2 H3 E1 E2.
  destruct (Rtotal_order lf lf') as [L|[L|L]]; [|exact L|]; exfalso.
  - pose proof (C24_constraint_increasing erf beta occfac Nkpts Ne typ Nspin Nk Ns w lam _ _ He Hb Ho HN Hw H1 H2 H3 L). lra.
  - pose proof (C24_constraint_increasing erf beta occfac Nkpts Ne typ Nspin Nk Ns w lam _ _ He Hb Ho HN Hw H1 H2 H3 L). lra.
Qed.
Print Assumptions C24_fermi_level_unique.

(** The number of electrons in a set of occupations f(spin, k-point, band):
    each state holds occfac electrons, weighted by the k-point's share. *)
Definition electrons (occfac Nkpts : R) (Nspin Nk Ns : nat) (kptWts : nat -> R) (f : nat -> nat -> nat -> R) : R :=
  rsum Nspin (fun s => rsum Nk (fun k => occfac * (kptWts k / Nkpts) * rsum Ns (fun n => f s k n))).

(** At a Fermi level the occupations written by Calculate_occupation hold
    exactly the electrons of the system ([- Ne], [Ne] being NegCharge), the
    eigenvalue of spin s, k-point k, band n being entry (s Nk + k) Ns + n. *)
Theorem C24_electron_count : forall erf beta occfac Nkpts Ne typ Nspin Nk Ns kptWts lam lf,
  0 < Nkpts ->
  (local_occ_constraint erf beta occfac Nkpts Ne typ Nspin Nk Ns kptWts lam lf = 0 <->
   electrons occfac Nkpts Nspin Nk Ns kptWts (fun s k n => occupation erf beta typ lam lf ((s * Nk + k) * Ns + n)) = - Ne).
Proof.
  intros erf beta occfac Nkpts Ne typ Nspin Nk Ns w lam lf HN. rewrite constraint_sum.
  assert (X : forall n f g, (forall i, (i < n)%nat -> f i = g i) -> rsum n f = rsum n g).
  { induction n as [|n IH]; intros f g H; [reflexivity|]. cbn [rsum]. rewrite (IH f g), (H n) by (auto with arith). reflexivity. }
  assert (S : forall n c f, rsum n (fun i => c * f i) = c * rsum n f).
  { induction n as [|n IH]; intros c f; cbn [rsum]; [ring|]. rewrite IH. ring. }
  assert (E : rsum Nspin (fun s => rsum Nk (fun k => rsum Ns (fun n =>
      (occfac * w k) * smearing_function erf beta (lam (s * (Nk * Ns) + k * Ns + n)%nat) lf typ))) * (1.0 / Nkpts)
    = electrons occfac Nkpts Nspin Nk Ns w (fun s k n => occupation erf beta typ lam lf ((s * Nk + k) * Ns + n))).
  { unfold electrons. rewrite Rmult_comm, <- S. apply X. intros s _. rewrite <- S. apply X. intros k _. rewrite S.
    replace (rsum Ns (fun n => occupation erf beta typ lam lf ((s * Nk + k) * Ns + n)))
       with (rsum Ns (fun n => smearing_function erf beta (lam (s * (Nk * Ns) + k * Ns + n)%nat) lf typ)).
    - replace 1.0 with 1 by lra. field. lra.
    - apply X. intros n _. unfold occupation. do 2 f_equal. lia. }
  rewrite E. split; lra.
Qed.
Print Assumptions C24_electron_count.

(** The number of electrons the states can hold. *)
Definition capacity_of (occfac Nkpts : R) (Nspin Nk Ns : nat) (kptWts : nat -> R) : R :=
  INR Nspin * INR Ns * occfac * rsum Nk kptWts / Nkpts.

(** A Fermi level exists exactly when the number of electrons ([- Ne], [Ne]
    being NegCharge) is positive and below that capacity. *)
Theorem C24_fermi_level_exists : forall erf beta occfac Nkpts Ne Nspin Nk Ns kptWts lam,
  0 < beta -> 0 < occfac -> 0 < Nkpts -> (forall k, (k < Nk)%nat -> 0 < kptWts k) ->
  (0 < Nspin)%nat -> (0 < Nk)%nat -> (0 < Ns)%nat ->
  ((exists lf, local_occ_constraint erf beta occfac Nkpts Ne false Nspin Nk Ns kptWts lam lf = 0) <->
   0 < - Ne < capacity_of occfac Nkpts Nspin Nk Ns kptWts).
Proof.
  intros erf beta occfac Nkpts Ne Nspin Nk Ns w lam Hb Ho HN Hw H1 H2 H3.
  set (S := fun lf => rsum Nspin (fun s => rsum Nk (fun k => rsum Ns (fun n =>
        (occfac * w k) * fd beta (lam (s * (Nk * Ns) + k * Ns + n)%nat) lf)))).
  assert (F : forall lf, local_occ_constraint erf beta occfac Nkpts Ne false Nspin Nk Ns w lam lf = S lf / Nkpts + Ne).
  { intros lf. rewrite constraint_sum. unfold S, smearing_function, fd. cbv iota. unfold Rdiv at 2. rewrite Rmult_comm. unfold Rdiv. replace (1.0 * / Nkpts) with (/ Nkpts) by lra. f_equal. apply Rmult_comm. }
  assert (Const : forall c, rsum Nspin (fun s => rsum Nk (fun k => rsum Ns (fun n => (occfac * w k) * c)))
                  = capacity_of occfac Nkpts Nspin Nk Ns w * Nkpts * c).
  { intros c. unfold capacity_of.
    transitivity (rsum Nspin (fun s : nat => INR Ns * occfac * c * rsum Nk w)).
    - apply rsum_ext. intros s Hs. rewrite <- rsum_scale. apply rsum_ext. intros k Hk. rewrite rsum_const. ring.
    - rewrite rsum_const. field. lra. }
  assert (Bound : forall lf c d, (forall i, (i < Nspin * (Nk * Ns))%nat -> c < fd beta (lam i) lf < d) ->
            capacity_of occfac Nkpts Nspin Nk Ns w * Nkpts * c < S lf < capacity_of occfac Nkpts Nspin Nk Ns w * Nkpts * d).
  { intros lf c d H. rewrite <- !Const. unfold S.
    assert (I : forall s k n, (s < Nspin)%nat -> (k < Nk)%nat -> (n < Ns)%nat -> (s * (Nk * Ns) + k * Ns + n < Nspin * (Nk * Ns))%nat).
    { intros s k n Hs Hk Hn. assert (k * Ns + n < Nk * Ns)%nat by nia. nia. }
    split; (apply rsum_lt; [exact H1|]; intros s Hs; apply rsum_lt; [exact H2|]; intros k Hk;
      apply rsum_lt; [exact H3|]; intros n Hn; apply Rmult_lt_compat_l;
      [apply Rmult_lt_0_compat; [exact Ho | apply Hw, Hk] | apply H, I; assumption]). }
  set (C := capacity_of occfac Nkpts Nspin Nk Ns w) in *.
  assert (Cpos : 0 < C).
  { unfold C, capacity_of. apply Rmult_lt_0_compat; [|apply Rinv_0_lt_compat, HN].
    apply Rmult_lt_0_compat; [apply Rmult_lt_0_compat; [apply Rmult_lt_0_compat|exact Ho]|]; try (apply lt_0_INR; assumption).
    assert (0 * INR Nk = 0) by ring. replace 0 with (rsum Nk (fun _ => 0)) by (rewrite rsum_const; ring).
    apply rsum_lt; [exact H2 | exact Hw]. }
  clearbody C.
  split.
  - intros (lf & E). rewrite F in E.
    destruct (Bound lf 0 1 ltac:(intros; apply fd_range)) as [B1 B2].
    assert (X : S lf = - Ne * Nkpts) by (apply (Rmult_eq_reg_r (/ Nkpts)); [field_simplify; [unfold Rdiv in *; lra | lra | lra] | apply Rinv_neq_0_compat; lra]).
    rewrite X in *. split.
    + apply (Rmult_lt_reg_r Nkpts); [exact HN|]. lra.
    + apply (Rmult_lt_reg_r Nkpts); [exact HN|]. lra.
  - intros [L U].
    assert (CN : 0 < C * Nkpts) by (apply Rmult_lt_0_compat; assumption).
    set (d1 := - Ne / C). set (d2 := 1 - - Ne / C).
    assert (D1 : 0 < d1) by (apply Rmult_lt_0_compat; [exact L | apply Rinv_0_lt_compat, Cpos]).
    assert (D2 : 0 < d2).
    { unfold d2. assert (- Ne / C < 1); [|lra]. apply (Rmult_lt_reg_r C); [exact Cpos|].
      unfold Rdiv. rewrite Rmult_assoc, Rinv_l by lra. lra. }
    destruct (finite_lower (Nspin * (Nk * Ns)) lam) as (m & Hm).
    destruct (finite_upper (Nspin * (Nk * Ns)) lam) as (M & HM).
    set (lf1 := m - / (d1 * beta)). set (lf2 := M + / (d2 * beta)).
    assert (G1 : S lf1 / Nkpts + Ne < 0).
    { destruct (Bound lf1 0 d1) as [_ B].
      - intros i Hi. split; [apply fd_range|]. apply fd_small; [exact Hb | exact D1|]. unfold lf1. specialize (Hm i Hi). lra.
      - assert (S lf1 / Nkpts < - Ne); [|lra]. apply (Rmult_lt_reg_r Nkpts); [exact HN|].
        unfold Rdiv. rewrite Rmult_assoc, Rinv_l by lra. rewrite Rmult_1_r.
        replace (- Ne * Nkpts) with (C * Nkpts * d1) by (unfold d1; field; lra). exact B. }
    assert (G2 : 0 < S lf2 / Nkpts + Ne).
    { destruct (Bound lf2 (1 - d2) 1) as [B _].
      - intros i Hi. split; [|apply fd_range]. apply fd_large; [exact Hb | exact D2|]. unfold lf2. specialize (HM i Hi). lra.
      - assert (- Ne < S lf2 / Nkpts); [|lra]. apply (Rmult_lt_reg_r Nkpts); [exact HN|].
        unfold Rdiv. rewrite Rmult_assoc, Rinv_l by lra. rewrite Rmult_1_r.
        replace (- Ne * Nkpts) with (C * Nkpts * (1 - d2)) by (unfold d2; field; lra). exact B. }
    assert (O : lf1 < lf2).
    { destruct (Rlt_le_dec lf1 lf2) as [X|X]; [exact X|]. exfalso.
      assert (S lf2 <= S lf1); [|unfold Rdiv in *; assert (S lf2 * / Nkpts <= S lf1 * / Nkpts); [apply Rmult_le_compat_r; [left; apply Rinv_0_lt_compat, HN | assumption] | lra]].
      unfold S. apply rsum_le; intros s Hs. apply rsum_le; intros k Hk. apply rsum_le; intros n Hn.
      apply Rmult_le_compat_l; [left; apply Rmult_lt_0_compat; [exact Ho | apply Hw, Hk]|].
      destruct X as [X|X]; [left; apply fd_strict_lf; assumption | rewrite X; right; reflexivity]. }
    assert (Cont : continuity (fun lf => S lf / Nkpts + Ne)).
    { apply continuity_plus; [|apply continuity_const; intros x y; reflexivity].
      apply continuity_mult; [|apply continuity_const; intros x y; reflexivity].
      unfold S. apply (rsum_continuity Nspin (fun s lf => rsum Nk (fun k => rsum Ns (fun n => occfac * w k * fd beta (lam (s * (Nk * Ns) + k * Ns + n)%nat) lf)))).
      intros s Hs. apply (rsum_continuity Nk (fun k lf => rsum Ns (fun n => occfac * w k * fd beta (lam (s * (Nk * Ns) + k * Ns + n)%nat) lf))).
      intros k Hk. apply (rsum_continuity Ns (fun n lf => occfac * w k * fd beta (lam (s * (Nk * Ns) + k * Ns + n)%nat) lf)).
      intros n Hn. apply continuity_mult; [apply continuity_const; intros x y; reflexivity | apply fd_continuity]. }
    destruct (IVT (fun lf => S lf / Nkpts + Ne) lf1 lf2 Cont O G1 G2) as (z & _ & Hz).
    exists z. rewrite F. exact Hz.
Qed.
Print Assumptions C24_fermi_level_exists.

(** Two electrons in two doubly occupied states: the conditions are met. *)
Example C24_example : 0 < - (-2) < capacity_of 2 1 1 1 2 (fun _ => 1).
Proof. unfold capacity_of. cbn [rsum INR]. lra. Qed.
Example C24_example_level : local_occ_constraint (fun _ => 0) 1 2 1 (-2) false 1 1 2 (fun _ => 1)
  (fun i => if Nat.eqb i 0 then -1 else 1) 0 = 0.
Proof.
  rewrite constraint_sum. cbn [rsum Nat.mul Nat.add Nat.eqb]. unfold smearing_function.
  replace (1 * (-1 - 0)) with (- (1 * (1 - 0))) by ring. rewrite exp_Ropp.
  set (e := exp (1 * (1 - 0))). assert (0 < e) by apply exp_pos. replace (1.0) with 1 by lra. field. lra.
Qed.

(** In binary64 "strictly" fails: 1/(1+x) is exactly 0 when exp overflows to
    infinity and exactly 1 when exp is below half an ulp of 1. *)
Definition f64_one : spec_float := S754_finite false 4503599627370496 (-52).
(** src/occupation.c:35 in binary64, [ex] the value of [exp] *)
Definition fd64 (ex : spec_float) : spec_float := SFdiv 53 1024 f64_one (SFadd 53 1024 f64_one ex).
Theorem C24_float_refuted :
  (exists ex, SFltb (S754_zero false) ex = true /\ fd64 ex = S754_zero false) /\
  (exists ex, SFltb (S754_zero false) ex = true /\ ex <> S754_infinity false /\ fd64 ex = f64_one).
Proof.
  split.
  - exists (S754_infinity false). split; vm_compute; reflexivity.
  - exists (S754_finite false 4503599627370496 (-112)).
    split; [|split]; try (vm_compute; reflexivity). discriminate.
Qed.
Print Assumptions C24_float_refuted.
