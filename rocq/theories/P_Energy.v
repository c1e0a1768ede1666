(** C72: the free energy. *)
From Coq Require Import ZArith Reals List Bool Lia Lra Psatz Permutation.
From Coquelicot Require Import Coquelicot.
From Verif Require Import CBase Nloc NlocSpec NlocLem VnlOp VnlLem VnlMain DensSpec DensLem DensMain Energy EnergySpec EnergyLem EnergyMain.
From Verif Require Occupation.
Import ListNotations.
Local Open Scope R_scope.

(** ** Band energy and entropy on any division *)
Theorem C72_band occfac Nkpts Ns sgs ks wt occ lam ps pk P kl sp0 nsp :
  sdivided Ns sgs ks ps pk kl sp0 nsp ->
  (forall s k, (0 <= s < ps)%Z -> (0 <= k < pk)%Z -> sholds Ns wt occ lam kl sp0 nsp s k (P s k)) ->
  forall s k, (0 <= s < ps)%Z -> (0 <= k < pk)%Z ->
  Calculate_Eband occfac Nkpts Ns ps pk P s k =
    Ok (state_sum sgs ks (zrange 0 (Ns - 1)) occfac Nkpts wt (fun sg k n => occ sg k n * lam sg k n)).
Proof. intros HV HP s k. eapply eband_ok; eassumption. Qed.

Lemma ln_le_sub x : 0 < x -> ln x <= x - 1.
Proof.
  intros H. destruct (Req_dec (ln x) 0) as [E|NE]; [|].
  - rewrite E. assert (x = 1) by (rewrite <- (exp_ln x H), E; apply exp_0). lra.
  - pose proof (exp_ineq1 (ln x) NE). rewrite exp_ln in H0 by exact H. lra.
Qed.

Lemma ln10_le : ln 10 <= 4.
Proof.
  rewrite <- (ln_exp 4). apply Rcomplements.ln_le; [lra|].
  pose proof (exp_ineq1 1 ltac:(lra)) as E1. replace (exp 4) with (exp 1 * exp 1 * (exp 1 * exp 1)) by (rewrite <- !exp_plus; f_equal; ring).
  assert (4 <= exp 1 * exp 1) by nra. nra.
Qed.

Lemma xlnx_small f : 0 <= f <= TEMP_TOL -> 0 <= - (f * ln f) <= 56 * TEMP_TOL.
Proof.
  intros [H0 H1]. assert (T0 : 0 < TEMP_TOL) by (unfold TEMP_TOL; apply Rinv_0_lt_compat; apply pow_lt; lra).
  destruct (Req_dec f 0) as [->|NE]; [split; [rewrite Rmult_0_l|]; lra|].
  assert (P0 : 0 < f) by lra.
  assert (LT : ln TEMP_TOL = - (14 * ln 10)).
  { unfold TEMP_TOL. rewrite ln_Rinv by (apply pow_lt; lra). rewrite ln_pow by lra. rewrite INR_IZR_INZ. reflexivity. }
  pose proof ln10_le. assert (L1 : ln f <= ln TEMP_TOL) by (apply Rcomplements.ln_le; assumption).
  assert (L10 : 0 < ln 10) by (rewrite <- ln_1; apply ln_increasing; lra).
  split.
  - nra.
  - pose proof (ln_le_sub (TEMP_TOL / f) ltac:(now apply Rdiv_lt_0_compat)) as L2.
    unfold Rdiv in L2. rewrite ln_mult, ln_Rinv in L2; try assumption; [|now apply Rinv_0_lt_compat].
    assert (E : f * (TEMP_TOL * / f - 1) = TEMP_TOL - f) by (field; lra).
    assert (f * (ln TEMP_TOL + - ln f) <= f * (TEMP_TOL * / f - 1)) by (apply Rmult_le_compat_l; lra).
    rewrite E in H2. rewrite LT in H2.
    assert (f * (14 * ln 10) <= TEMP_TOL * 56) by (apply Rmult_le_compat; nra). 
    assert (f * (14 * ln 10) <= f * 56) by (apply Rmult_le_compat_l; nra). nra.
Qed.

Lemma one_minus_small f : 0 <= f <= TEMP_TOL -> 0 <= - ((1 - f) * ln (1 - f)) <= TEMP_TOL.
Proof.
  intros [H0 H1]. assert (T1 : TEMP_TOL < / 2).
  { unfold TEMP_TOL. apply Rinv_lt_contravar; [|simpl; lra]. simpl; lra. }
  assert (P0 : 0 < 1 - f) by lra. split.
  - pose proof (ln_le_sub (1 - f) P0). nra.
  - pose proof (ln_le_sub (/ (1 - f)) ltac:(now apply Rinv_0_lt_compat)) as L. rewrite ln_Rinv in L by exact P0.
    assert ((1 - f) * - ln (1 - f) <= (1 - f) * (/ (1 - f) - 1)) by (apply Rmult_le_compat_l; lra).
    replace ((1 - f) * (/ (1 - f) - 1)) with f in H by (field; lra). lra.
Qed.

Lemma entropy1_sym f : entropy1 (1 - f) = entropy1 f.
Proof. unfold entropy1. replace (1 - (1 - f)) with f by ring. ring. Qed.

Lemma fd_term_close f : 0 <= f <= 1 -> 0 <= entropy1 f - fd_term f <= 57 * TEMP_TOL.
Proof.
  intros [H0 H1]. unfold fd_term.
  assert (T0 : 0 < TEMP_TOL) by (unfold TEMP_TOL; apply Rinv_0_lt_compat; apply pow_lt; lra).
  destruct (Rlt_dec TEMP_TOL f) as [A|A]; [destruct (Rlt_dec TEMP_TOL (1 - f)) as [B|B]|].
  - unfold entropy1. lra.
  - rewrite <- entropy1_sym. unfold entropy1. replace (1 - (1 - f)) with f by ring.
    pose proof (xlnx_small (1 - f) ltac:(lra)). pose proof (one_minus_small (1 - f) ltac:(lra)).
    replace (1 - (1 - f)) with f in * by ring. lra.
  - unfold entropy1. pose proof (xlnx_small f ltac:(lra)). pose proof (one_minus_small f ltac:(lra)). lra.
Qed.

Lemma state_sum_le sgs ks ns occfac Nkpts wt f g : 0 <= occfac -> 0 < Nkpts -> (forall k, In k ks -> 0 <= wt k) ->
  (forall sg k n, In sg sgs -> In k ks -> In n ns -> f sg k n <= g sg k n) ->
  state_sum sgs ks ns occfac Nkpts wt f <= state_sum sgs ks ns occfac Nkpts wt g.
Proof.
  intros H1 H2 H3 H. 
  assert (L : forall (B : Type) (u v : B -> R) l, (forall x, In x l -> u x <= v x) -> rsum u l <= rsum v l).
  { intros B u v l. unfold rsum. induction l as [|x l IH]; intros HL; cbn [map ksum]; [lra|].
    apply Rplus_le_compat; [apply HL; now left|]. apply IH. intros y Hy. apply HL. now right. }
  unfold state_sum. apply L. intros sg Hsg. apply L. intros k Hk. apply L. intros n Hn.
  apply Rmult_le_compat_l; [|now apply H]. unfold Rdiv.
  apply Rmult_le_pos; [|left; now apply Rinv_0_lt_compat]. apply Rmult_le_pos; auto.
Qed.
Lemma state_sum_lin sgs ks ns occfac Nkpts wt c f g :
  state_sum sgs ks ns occfac Nkpts wt (fun sg k n => f sg k n + c * g sg k n) =
  state_sum sgs ks ns occfac Nkpts wt f + c * state_sum sgs ks ns occfac Nkpts wt g.
Proof.
  unfold state_sum. rewrite <- rsum_scal, <- rsum_plus. apply rsum_ext. intros sg _.
  rewrite <- rsum_scal, <- rsum_plus. apply rsum_ext. intros k _.
  rewrite <- rsum_scal, <- rsum_plus. apply rsum_ext. intros n _. ring.
Qed.
Lemma state_sum_ext sgs ks ns occfac Nkpts wt f g : 
  (forall sg k n, In sg sgs -> In k ks -> In n ns -> f sg k n = g sg k n) ->
  state_sum sgs ks ns occfac Nkpts wt f = state_sum sgs ks ns occfac Nkpts wt g.
Proof.
  intros H. unfold state_sum. apply rsum_ext. intros sg Hs. apply rsum_ext. intros k Hk. apply rsum_ext. intros n Hn.
  now rewrite H.
Qed.

(** Fermi-Dirac: minus temperature times entropy up to 5.7e-13 per state;
    Gaussian: exactly its formula. *)
Theorem C72_entropy occfac Nkpts Ns sgs ks wt occ lam ps pk P kl sp0 nsp Efermi beta :
  sdivided Ns sgs ks ps pk kl sp0 nsp ->
  (forall s k, (0 <= s < ps)%Z -> (0 <= k < pk)%Z -> sholds Ns wt occ lam kl sp0 nsp s k (P s k)) ->
  forall s k, (0 <= s < ps)%Z -> (0 <= k < pk)%Z ->
  let total := state_sum sgs ks (zrange 0 (Ns - 1)) occfac Nkpts wt in
  (0 <= occfac -> 0 < Nkpts -> 0 < beta -> (forall k, In k ks -> 0 <= wt k) ->
   (forall sg k n, In sg sgs -> In k ks -> In n (zrange 0 (Ns - 1)) -> 0 <= occ sg k n <= 1) ->
   exists e, Calculate_electronicEntropy occfac Nkpts Ns Efermi beta 0 ps pk P s k = Ok e /\
     0 <= e - - (1 / beta) * total (fun sg k n => entropy1 (occ sg k n)) <= (1 / beta) * total (fun _ _ _ => 57 / 10 ^ 14)) /\
  Calculate_electronicEntropy occfac Nkpts Ns Efermi beta 1 ps pk P s k =
    Ok (- (1 / beta) * total (fun sg k n => exp (- (beta * (lam sg k n - Efermi)) ^ 2) / (2 * sqrt PI))).
Proof.
  intros HV HP s k Hs Hk total. split.
  - intros H1 H2 H3 H4 H5. eexists. split; [eapply entropy_ok; eassumption|].
    fold total. set (tm := term occ lam Efermi beta 0) in *.
    assert (B : 0 < 1 / beta) by (unfold Rdiv; rewrite Rmult_1_l; now apply Rinv_0_lt_compat).
    assert (E : - (1 / beta) * total tm - - (1 / beta) * total (fun sg k n => entropy1 (occ sg k n))
      = (1 / beta) * total (fun sg k n => entropy1 (occ sg k n) + -1 * tm sg k n)).
    { unfold total. rewrite state_sum_lin. ring. }
    rewrite E. split.
    + apply Rmult_le_pos; [lra|]. replace 0 with (total (fun _ _ _ => 0)).
      * apply state_sum_le; try assumption. intros sg kk n A1 A2 A3. pose proof (fd_term_close _ (H5 sg kk n A1 A2 A3)).
        unfold tm, term. cbn [Z.eqb]. lra.
      * unfold total. rewrite (state_sum_ext _ _ _ _ _ _ (fun _ _ _ => 0) (fun _ _ _ => 0 + -1 * 0)) by (intros; ring).
        rewrite state_sum_lin. ring.
    + apply Rmult_le_compat_l; [lra|]. apply state_sum_le; try assumption. intros sg kk n A1 A2 A3. 
      pose proof (fd_term_close _ (H5 sg kk n A1 A2 A3)). unfold tm, term. cbn [Z.eqb]. unfold TEMP_TOL in H. lra.
  - rewrite (entropy_ok occfac Nkpts Ns sgs ks wt occ lam ps pk P kl sp0 nsp HV HP Efermi beta 1 s k Hs Hk). f_equal. f_equal.
    apply state_sum_ext. intros sg kk n _ _ _. unfold term, gauss_term. cbn [Z.eqb Pos.eqb]. cbv zeta.
    pose proof (sqrt_lt_R0 _ PI_RGT_0). replace (- (beta * (lam sg kk n - Efermi)) * (beta * (lam sg kk n - Efermi))) with
      (- (beta * (lam sg kk n - Efermi)) ^ 2) by ring. replace 0.5 with (/ 2) by lra. field. lra.
Qed.

(** ** The occupations and the entropy belong together *)
(** With the occupations of either smearing, the derivative of the free energy
    of a state with respect to its eigenvalue is its occupation. *)
Theorem C72_derivative (erf : R -> R) (beta mu l : R) : 0 < beta ->
  (forall x, is_derive erf x (2 / sqrt PI * exp (- x ^ 2))) ->
  is_derive (fun l => (l - mu) * Occupation.smearing_function erf beta l mu false
               - entropy1 (Occupation.smearing_function erf beta l mu false) / beta) l
    (Occupation.smearing_function erf beta l mu false) /\
  is_derive (fun l => (l - mu) * Occupation.smearing_function erf beta l mu true - gauss_term beta l mu / beta) l
    (Occupation.smearing_function erf beta l mu true).
Proof.
  intros Hb He. split.
  - apply (is_derive_ext (fun l => (l - mu) - ln (1 + exp (beta * (l - mu))) / beta)).
    + intros t. match goal with |- @eq _ ?u ?v => change (@eq R u v) end. unfold Occupation.smearing_function, entropy1. replace 1.0 with 1 by lra. set (x := beta * (t - mu)).
      assert (X : 0 < exp x) by apply exp_pos.
      assert (L1 : ln (1 / (1 + exp x)) = - ln (1 + exp x)).
      { replace (1 / (1 + exp x)) with (/ (1 + exp x)) by (field; lra). apply ln_Rinv. lra. }
      assert (L2 : ln (1 - 1 / (1 + exp x)) = x - ln (1 + exp x)).
      { replace (1 - 1 / (1 + exp x)) with (exp x / (1 + exp x)) by (field; lra).
        unfold Rdiv. rewrite ln_mult, ln_exp, ln_Rinv; try lra. apply Rinv_0_lt_compat. lra. }
      rewrite L1, L2. replace (t - mu) with (x / beta) by (unfold x; field; lra). field. split; lra.
    + unfold Occupation.smearing_function. replace 1.0 with 1 by lra. auto_derive.
      * pose proof (exp_pos (beta * (l + - mu))). lra.
      * replace (beta * (l + - mu)) with (beta * (l - mu)) by ring.
        pose proof (exp_pos (beta * (l - mu))). field. split; lra.
  - unfold Occupation.smearing_function, gauss_term. cbv zeta. replace 0.5 with (/ 2) by lra. replace 1.0 with 1 by lra.
    assert (S : 0 < sqrt PI) by apply (sqrt_lt_R0 _ PI_RGT_0).
    assert (D1 : is_derive (fun l => erf (beta * (l - mu))) l (beta * (2 / sqrt PI * exp (- (beta * (l - mu)) ^ 2)))).
    { apply (is_derive_comp erf (fun l => beta * (l - mu))); [apply He|]. auto_derive; [easy|ring]. }
    assert (D2 : is_derive (fun l => l - mu) l 1) by (auto_derive; [easy|ring]).
    assert (D3 : is_derive (fun l => / 2 * (1 - erf (beta * (l - mu)))) l (/ 2 * (0 - beta * (2 / sqrt PI * exp (- (beta * (l - mu)) ^ 2))))).
    { apply is_derive_scal. apply (is_derive_minus (fun _ => 1)); [auto_derive; [easy|reflexivity]|exact D1]. }
    assert (D4 : is_derive (fun l => / 2 / sqrt PI * exp (- (beta * (l - mu)) * (beta * (l - mu))) / beta) l
      (- (l - mu) * beta / sqrt PI * exp (- (beta * (l - mu)) ^ 2))).
    { auto_derive; [easy|]. replace (- (beta * (l + - mu)) * (beta * (l + - mu))) with (- (beta * (l - mu)) ^ 2) by ring.
      field. split; lra. }
    pose proof (is_derive_minus _ _ _ _ _ (is_derive_mult _ _ _ _ _ D2 D3 Rmult_comm) D4) as D.
    unfold minus, plus, opp, mult in D. cbn in D.
    match type of D with is_derive _ _ ?v => replace (/ 2 * (1 - erf (beta * (l - mu)))) with v; [exact D|] end.
    field. lra.
Qed.

(** Fermi-Dirac occupations have the lowest free energy among all occupations
    with the same number of electrons. *)
Lemma gibbs beta x g : 0 < beta -> 0 <= g <= 1 ->
  let f := 1 / (1 + exp x) in f * x - entropy1 f <= g * x - entropy1 g.
Proof.
  intros Hb [G0 G1] f. assert (X : 0 < exp x) by apply exp_pos.
  assert (F : 0 < f) by (unfold f; apply Rdiv_lt_0_compat; lra).
  assert (F1 : 1 - f = exp x / (1 + exp x)) by (unfold f; field; lra).
  assert (F2 : 0 < 1 - f) by (rewrite F1; apply Rdiv_lt_0_compat; lra).
  assert (L1 : ln f = - ln (1 + exp x)).
  { unfold f. unfold Rdiv. rewrite Rmult_1_l. apply ln_Rinv. lra. }
  assert (L2 : ln (1 - f) = x - ln (1 + exp x)).
  { rewrite F1. unfold Rdiv. rewrite ln_mult, ln_exp, ln_Rinv; try lra. apply Rinv_0_lt_compat. lra. }
  assert (KL : forall u v, 0 <= u -> 0 < v -> u * ln u - u * ln v >= u - v).
  { intros u v Hu Hv. destruct (Req_dec u 0) as [->|NE]; [rewrite !Rmult_0_l; lra|].
    assert (U : 0 < u) by lra. pose proof (ln_le_sub (v / u) ltac:(now apply Rdiv_lt_0_compat)) as L.
    unfold Rdiv in L. rewrite ln_mult, ln_Rinv in L; try lra; [|now apply Rinv_0_lt_compat].
    assert (u * (ln v + - ln u) <= u * (v * / u - 1)) by (apply Rmult_le_compat_l; lra).
    replace (u * (v * / u - 1)) with (v - u) in H by (field; lra). lra. }
  pose proof (KL g f G0 F) as K1. pose proof (KL (1 - g) (1 - f) ltac:(lra) F2) as K2.
  rewrite L1 in K1. rewrite L2 in K2. unfold entropy1. rewrite L1, L2. nra.
Qed.

Theorem C72_minimum sgs ks ns occfac Nkpts wt lam erf beta mu g :
  0 <= occfac -> 0 < Nkpts -> 0 < beta -> (forall k, In k ks -> 0 <= wt k) ->
  let f := fun sg k n => Occupation.smearing_function erf beta (lam sg k n) mu false in
  let total := state_sum sgs ks ns occfac Nkpts wt in
  let free o := total (fun sg k n => o sg k n * lam sg k n) - 1 / beta * total (fun sg k n => entropy1 (o sg k n)) in
  (forall sg k n, In sg sgs -> In k ks -> In n ns -> 0 <= g sg k n <= 1) ->
  total g = total f -> free f <= free g.
Proof.
  intros H1 H2 H3 H4 f total free Hg HN.
  assert (B : 0 < 1 / beta) by (unfold Rdiv; rewrite Rmult_1_l; now apply Rinv_0_lt_compat).
  assert (E : forall o, free o = total (fun sg k n => (1 / beta) * (o sg k n * (beta * (lam sg k n - mu)) - entropy1 (o sg k n))) + mu * total o).
  { intros o. unfold free, total. rewrite <- state_sum_lin. rewrite <- (Rplus_0_r (state_sum _ _ _ _ _ _ (fun sg k n => o sg k n * lam sg k n) - _)).
    replace (state_sum sgs ks ns occfac Nkpts wt (fun sg k n => o sg k n * lam sg k n) - 1 / beta * state_sum sgs ks ns occfac Nkpts wt (fun sg k n => entropy1 (o sg k n)) + 0)
      with (state_sum sgs ks ns occfac Nkpts wt (fun sg k n => o sg k n * lam sg k n) + - (1 / beta) * state_sum sgs ks ns occfac Nkpts wt (fun sg k n => entropy1 (o sg k n))) by ring.
    rewrite <- state_sum_lin. apply state_sum_ext. intros sg k n _ _ _. field. lra. }
  rewrite !E, HN. apply Rplus_le_compat_r. unfold total. apply state_sum_le; try assumption.
  intros sg k n A1 A2 A3. apply Rmult_le_compat_l; [lra|].
  pose proof (gibbs beta (beta * (lam sg k n - mu)) (g sg k n) H3 (Hg sg k n A1 A2 A3)) as G. cbv zeta in G.
  unfold f, Occupation.smearing_function. replace 1.0 with 1 by lra. exact G.
Qed.

(** ** The total energy *)
Section TOTAL.
Context {A : Type}.
Variables (spin_typ : Z) (dV : R) (mgga : bool) (usefock : Z).
Variables (nodes : list A) (np : Z) (F : Z -> fproc) (nod : Z -> Z -> A).
Variables (b phi : A -> R) (vxc tau v3 vin : Z -> A -> R).
Variables (occfac Nkpts : R) (Ns : Z) (ks : list Z) (wt : Z -> R) (occ lam : Z -> Z -> Z -> R).
Variables (ps pk : Z) (P : Z -> Z -> eproc) (kl : Z -> list Z) (sp0 nsp : Z -> Z).
Variables (psi : Z -> Z -> Z -> A -> C) (t x : Z -> Z -> Z -> R).

(** Sum over the states of all spins. *)
Definition states := state_sum (sigs spin_typ) ks (zrange 0 (Ns - 1)) occfac Nkpts wt.
(** Density of the new orbitals (the formula of C71). *)
Definition rho_out := dens ks (zrange 0 (Ns - 1)) wt occ psi occfac Nkpts dV.
(** Sum of an integral over the spins. *)
Definition over_spins (f : Z -> A -> R) : R := rsum (fun sg => integral dV nodes (f sg)) (sigs spin_typ).

Hypothesis HS : spin_typ = 0%Z \/ spin_typ = 1%Z.
Hypothesis HdV : dV <> 0.
Hypothesis HV : sdivided Ns (sigs spin_typ) ks ps pk kl sp0 nsp.
Hypothesis HE : forall s k, (0 <= s < ps)%Z -> (0 <= k < pk)%Z -> sholds Ns wt occ lam kl sp0 nsp s k (P s k).
Hypothesis HN : on_grid nodes np F nod.

Lemma pot_energy (v : Z -> A -> R) :
  states (fun sg k n => occ sg k n * rsum (fun a => v sg a * Cmod (psi k n sg a) ^ 2) nodes) = over_spins (fun sg a => rho_out sg a * v sg a).
Proof.
  unfold states, over_spins, state_sum. apply rsum_ext. intros sg _. unfold integral, rho_out, dens.
  rewrite <- rsum_scal.
  transitivity (rsum (fun a => rsum (fun k => rsum (fun n => weight wt occ occfac Nkpts sg k n * (v sg a * Cmod (psi k n sg a) ^ 2)) (zrange 0 (Ns - 1))) ks) nodes).
  - rewrite <- (rsum_swap (fun k a => rsum (fun n => weight wt occ occfac Nkpts sg k n * (v sg a * Cmod (psi k n sg a) ^ 2)) (zrange 0 (Ns - 1)))).
    apply rsum_ext. intros k _.
    rewrite <- (rsum_swap (fun n a => weight wt occ occfac Nkpts sg k n * (v sg a * Cmod (psi k n sg a) ^ 2))).
    apply rsum_ext. intros n _. rewrite rsum_scal. unfold weight. ring.
  - apply rsum_ext. intros a _.
    set (S := rsum (fun k => rsum (fun n => weight wt occ occfac Nkpts sg k n * (Cmod (psi k n sg a) * Cmod (psi k n sg a))) (zrange 0 (Ns - 1))) ks).
    transitivity (v sg a * S); [|field; exact HdV]. unfold S. rewrite <- rsum_scal. apply rsum_ext. intros k _.
    rewrite <- rsum_scal. apply rsum_ext. intros n _. ring.
Qed.

(** With potential mixing the energy does not depend on the potential of the
    iteration: eigenvalues = [t] (kinetic, nonlocal) + expectation of the
    input potential + [x] (further operators). *)
Theorem C72_total Entropy EHub Exc Esc Eexx :
  (forall d, (0 <= d < np)%Z -> gholds spin_typ mgga nod b phi vxc rho_out tau v3 vin d (F d)) ->
  (forall sg k n, lam sg k n = t sg k n + rsum (fun a => vin sg a * Cmod (psi k n sg a) ^ 2) nodes + x sg k n) ->
  forall s k, (0 <= s < ps)%Z -> (0 <= k < pk)%Z ->
  scf_energy spin_typ dV mgga usefock np F true (Calculate_Eband occfac Nkpts Ns ps pk P s k) (Ok Entropy) (Ok EHub) Exc Esc Eexx =
  Ok (states (fun sg k n => occ sg k n * t sg k n)
      + 1 / 2 * integral dV nodes (fun a => (rho_tot spin_typ rho_out a + b a) * phi a) + Exc + Esc + Entropy
      + (states (fun sg k n => occ sg k n * x sg k n) - (if mgga then over_spins (fun sg a => tau sg a * v3 sg a) else 0))
      + (if ((usefock =? 0) || (usefock mod 2 =? 1))%Z then EHub else - Eexx)).
Proof.
  intros HP HL s k Hs Hk. assert (HS0 : (0 <= spin_typ)%Z) by lia. unfold scf_energy, Calculate_Free_Energy.
  rewrite (C72_band occfac Nkpts Ns (sigs spin_typ) ks wt occ lam ps pk P kl sp0 nsp HV HE s k Hs Hk). cbn [obind].
  rewrite (E1_ok spin_typ dV mgga nodes np F nod b phi vxc rho_out tau v3 vin HN HP). cbn [obind].
  rewrite (E2_ok spin_typ dV mgga nodes np F nod b phi vxc rho_out tau v3 vin HN HP). cbn [obind].
  rewrite (E3_ok spin_typ dV mgga nodes np F nod b phi vxc rho_out tau v3 vin HN HP HS0). cbn [obind].
  rewrite (Escc_ok spin_typ dV mgga nodes np F nod b phi vxc rho_out tau v3 vin HN HP HS0). cbn [obind]. f_equal.
  fold states. fold (over_spins (fun sg a => rho_out sg a * vxc sg a)).
  fold (over_spins (fun sg a => tau sg a * v3 sg a)). fold (over_spins (fun sg a => rho_out sg a * (vxc sg a + phi a - vin sg a))).
  assert (EB : states (fun sg k n => occ sg k n * lam sg k n) =
     states (fun sg k n => occ sg k n * t sg k n) + over_spins (fun sg a => rho_out sg a * vin sg a) + states (fun sg k n => occ sg k n * x sg k n)).
  { rewrite <- pot_energy. unfold states.
    rewrite <- (Rmult_1_l (state_sum _ _ _ _ _ _ (fun sg k n => occ sg k n * rsum _ _))).
    rewrite <- state_sum_lin. rewrite <- (Rmult_1_l (state_sum _ _ _ _ _ _ (fun sg k n => occ sg k n * x sg k n))).
    rewrite <- state_sum_lin. apply state_sum_ext. intros sg kk n _ _ _. rewrite HL. ring. }
  assert (SC : over_spins (fun sg a => rho_out sg a * (vxc sg a + phi a - vin sg a)) =
     over_spins (fun sg a => rho_out sg a * vxc sg a) + integral dV nodes (fun a => rho_tot spin_typ rho_out a * phi a)
     - over_spins (fun sg a => rho_out sg a * vin sg a)).
  { unfold over_spins, integral. rewrite !rsum_scal. 
    assert (PH : rsum (fun a => rho_tot spin_typ rho_out a * phi a) nodes = rsum (fun sg => rsum (fun a => rho_out sg a * phi a) nodes) (sigs spin_typ)).
    { rewrite rsum_swap. apply rsum_ext. intros a _. unfold rho_tot. rewrite Rmult_comm, <- rsum_scal. apply rsum_ext. intros sg _. ring. }
    rewrite PH, <- !Rmult_plus_distr_l, <- Rmult_minus_distr_l. f_equal. rewrite <- rsum_plus, <- rsum_minus. apply rsum_ext. intros sg _.
    rewrite <- rsum_plus, <- rsum_minus. apply rsum_ext. intros a _. ring. }
  assert (PB : integral dV nodes (fun a => (rho_tot spin_typ rho_out a + b a) * phi a) =
     integral dV nodes (fun a => rho_tot spin_typ rho_out a * phi a) + integral dV nodes (fun a => b a * phi a)).
  { unfold integral. rewrite <- Rmult_plus_distr_l. f_equal. rewrite <- rsum_plus. apply rsum_ext. intros a _. ring. }
  rewrite EB, SC, PB. unfold assemble. destruct ((usefock =? 0) || (usefock mod 2 =? 1))%bool%Z; destruct mgga; lra.
Qed.

(** Without exact exchange, meta-GGA and Hubbard terms: the Kohn-Sham energy of
    the new orbitals. *)
Theorem C72_kohn_sham Entropy Exc Esc Eexx :
  (forall d, (0 <= d < np)%Z -> gholds spin_typ false nod b phi vxc rho_out tau v3 vin d (F d)) ->
  (forall sg k n, lam sg k n = t sg k n + rsum (fun a => vin sg a * Cmod (psi k n sg a) ^ 2) nodes) ->
  forall s k, (0 <= s < ps)%Z -> (0 <= k < pk)%Z ->
  mgga = false -> usefock = 0%Z -> (forall sg k n, x sg k n = 0) ->
  scf_energy spin_typ dV mgga usefock np F true (Calculate_Eband occfac Nkpts Ns ps pk P s k) (Ok Entropy) (Ok 0) Exc Esc Eexx =
  Ok (states (fun sg k n => occ sg k n * t sg k n)
      + 1 / 2 * integral dV nodes (fun a => (rho_tot spin_typ rho_out a + b a) * phi a) + Exc + Esc + Entropy).
Proof.
  intros HP HL s k Hs Hk M U X. rewrite C72_total; try assumption.
  - rewrite M, U. cbn [Z.eqb orb]. f_equal.
    replace (states (fun sg k n => occ sg k n * x sg k n)) with 0; [ring|]. unfold states.
    rewrite (state_sum_ext _ _ _ _ _ _ _ (fun _ _ _ => 0 + -1 * 0)) by (intros; rewrite X; ring). rewrite state_sum_lin. ring.
  - now rewrite M.
  - intros sg kk n. rewrite HL, X. ring.
Qed.

(** Hybrid phase: the band energy holds twice the exact exchange energy of the
    orbitals; the energy holds it once. *)
Theorem C72_exact_exchange Entropy EHub Exc Esc Eexx :
  (forall d, (0 <= d < np)%Z -> gholds spin_typ false nod b phi vxc rho_out tau v3 vin d (F d)) ->
  (forall sg k n, lam sg k n = t sg k n + rsum (fun a => vin sg a * Cmod (psi k n sg a) ^ 2) nodes + x sg k n) ->
  forall s k, (0 <= s < ps)%Z -> (0 <= k < pk)%Z ->
  mgga = false -> usefock <> 0%Z -> Z.even usefock = true -> states (fun sg k n => occ sg k n * x sg k n) = 2 * Eexx ->
  scf_energy spin_typ dV mgga usefock np F true (Calculate_Eband occfac Nkpts Ns ps pk P s k) (Ok Entropy) (Ok EHub) Exc Esc Eexx =
  Ok (states (fun sg k n => occ sg k n * t sg k n)
      + 1 / 2 * integral dV nodes (fun a => (rho_tot spin_typ rho_out a + b a) * phi a) + Exc + Esc + Entropy + Eexx).
Proof.
  intros HP HL s k Hs Hk M U V X. rewrite C72_total; try assumption; [|now rewrite M].
  rewrite X, M. destruct (Z.eqb_spec usefock 0) as [|_]; [easy|]. rewrite Zmod_even, V. cbn [Z.eqb orb]. f_equal. ring.
Qed.

(** With density mixing (the density passed, [rho], is the one the potentials
    come from): the same energy at [rho] plus the integral of the potential
    times the change of the density (Harris-Foulkes). *)
Theorem C72_harris rho Entropy EHub Exc Esc Eexx :
  (forall d, (0 <= d < np)%Z -> gholds spin_typ false nod b phi vxc rho tau v3 vin d (F d)) ->
  mgga = false -> usefock = 0%Z ->
  (forall sg k n, lam sg k n = t sg k n + rsum (fun a => (vxc sg a + phi a) * Cmod (psi k n sg a) ^ 2) nodes) ->
  forall s k, (0 <= s < ps)%Z -> (0 <= k < pk)%Z ->
  scf_energy spin_typ dV mgga usefock np F false (Calculate_Eband occfac Nkpts Ns ps pk P s k) (Ok Entropy) (Ok EHub) Exc Esc Eexx =
  Ok (states (fun sg k n => occ sg k n * t sg k n)
      + 1 / 2 * integral dV nodes (fun a => (rho_tot spin_typ rho a + b a) * phi a) + Exc + Esc + Entropy + EHub
      + over_spins (fun sg a => (rho_out sg a - rho sg a) * (vxc sg a + phi a))).
Proof.
  intros HP M U HL s k Hs Hk. assert (HS0 : (0 <= spin_typ)%Z) by lia. unfold scf_energy, Calculate_Free_Energy.
  rewrite (C72_band occfac Nkpts Ns (sigs spin_typ) ks wt occ lam ps pk P kl sp0 nsp HV HE s k Hs Hk). cbn [obind].
  rewrite M, U.
  rewrite (E1_ok spin_typ dV false nodes np F nod b phi vxc rho tau v3 vin HN HP). cbn [obind].
  rewrite (E2_ok spin_typ dV false nodes np F nod b phi vxc rho tau v3 vin HN HP). cbn [obind].
  rewrite (E3_ok spin_typ dV false nodes np F nod b phi vxc rho tau v3 vin HN HP HS0). cbn [obind]. f_equal.
  fold states. fold (over_spins (fun sg a => rho sg a * vxc sg a)).
  assert (EB : states (fun sg k n => occ sg k n * lam sg k n) =
     states (fun sg k n => occ sg k n * t sg k n) + over_spins (fun sg a => rho_out sg a * (vxc sg a + phi a))).
  { rewrite <- pot_energy. unfold states.
    rewrite <- (Rmult_1_l (state_sum _ _ _ _ _ _ (fun sg k n => occ sg k n * rsum _ _))).
    rewrite <- state_sum_lin. apply state_sum_ext. intros sg kk n _ _ _. rewrite HL. ring. }
  assert (SC : over_spins (fun sg a => (rho_out sg a - rho sg a) * (vxc sg a + phi a)) =
     over_spins (fun sg a => rho_out sg a * (vxc sg a + phi a)) - over_spins (fun sg a => rho sg a * vxc sg a)
     - integral dV nodes (fun a => rho_tot spin_typ rho a * phi a)).
  { unfold over_spins, integral. rewrite !rsum_scal. 
    assert (PH : rsum (fun a => rho_tot spin_typ rho a * phi a) nodes = rsum (fun sg => rsum (fun a => rho sg a * phi a) nodes) (sigs spin_typ)).
    { rewrite rsum_swap. apply rsum_ext. intros a _. unfold rho_tot. rewrite Rmult_comm, <- rsum_scal. apply rsum_ext. intros sg _. ring. }
    rewrite PH, <- !Rmult_minus_distr_l. f_equal. rewrite <- !rsum_minus. apply rsum_ext. intros sg _.
    rewrite <- !rsum_minus. apply rsum_ext. intros a _. ring. }
  assert (PB : integral dV nodes (fun a => (rho_tot spin_typ rho a + b a) * phi a) =
     integral dV nodes (fun a => rho_tot spin_typ rho a * phi a) + integral dV nodes (fun a => b a * phi a)).
  { unfold integral. rewrite <- Rmult_plus_distr_l. f_equal. rewrite <- rsum_plus. apply rsum_ext. intros a _. ring. }
  rewrite EB, SC, PB. unfold assemble. cbn [Z.eqb orb]. lra.
Qed.
End TOTAL.

(** ** Further terms *)
(** Atoms of all types in order, numbered from [c]. *)
Fixpoint atoms_from (c : Z) (ts : list hubtyp) : list (hubtyp * Z) :=
  match ts with
  | [] => []
  | t :: ts => map (fun i => (t, (c + i)%Z)) (zrange 0 (h_nat t - 1)) ++ atoms_from (c + h_nat t) ts
  end.
(** Entry of the occupation matrix of an atom and a spin. *)
Definition nmat (rho_mn : Z -> Z -> arr R) (at_sp : (hubtyp * Z) * Z) (r c : Z) : R :=
  at_ (rho_mn (snd (fst at_sp)) (snd at_sp)) (c * h_ang (fst (fst at_sp)) + r).
(** Sum over corrected atoms, spins and local orbitals. *)
Definition hub_sum (ts : list hubtyp) (Nspinor : Z) (f : (hubtyp * Z) * Z -> Z -> R) : R :=
  rsum (fun a => if h_solve (fst a) then rsum (fun sp => rsum (f (a, sp)) (zrange 0 (h_ang (fst a) - 1))) (zrange 0 (Nspinor - 1)) else 0) (atoms_from 0 ts).

Lemma ofold_const {B} (f : B * Z -> Z -> outcome (B * Z)) (g : Z -> B -> B) n c e :
  (0 <= n)%Z -> (forall e d i, (0 <= i < n)%Z -> d = (c + i)%Z -> f (e, d) i = Ok (g d e, (d + 1)%Z)) ->
  ofold f (e, c) (zrange 0 (n - 1)) = Ok (fold_left (fun e d => g d e) (map (fun i => (c + i)%Z) (zrange 0 (n - 1))) e, (c + n)%Z).
Proof.
  intros Hn H. unfold zrange. replace (n - 1 - 0 + 1)%Z with n by lia.
  assert (G : forall m s e, (0 <= s)%Z -> (s + Z.of_nat m = n)%Z ->
    ofold f (e, (c + s)%Z) (zseq s m) = Ok (fold_left (fun e d => g d e) (map (fun i => (c + i)%Z) (zseq s m)) e, (c + n)%Z)).
  { induction m as [|m IH]; intros s e0 Hs Hm; cbn [zseq map fold_left ofold].
    - do 2 f_equal. lia.
    - rewrite (H e0 (c + s)%Z s) by lia. cbn [obind]. replace (c + s + 1)%Z with (c + (s + 1))%Z by ring.
      apply IH; lia. }
  specialize (G (Z.to_nat n) 0%Z e ltac:(lia) ltac:(lia)). rewrite Z.add_0_r in G. exact G.
Qed.
Lemma fold_sum (l : list Z) (h : Z -> R) e : fold_left (fun e d => e + h d) l e = e + rsum h l.
Proof.
  revert e. induction l as [|y l IH]; intros e; cbn [fold_left]; [unfold rsum; cbn; ring|].
  rewrite IH. unfold rsum. cbn [map ksum]. ring.
Qed.
Lemma rsum_app {B} (f : B -> R) l m : rsum f (l ++ m) = rsum f l + rsum f m.
Proof. unfold rsum. rewrite map_app. apply (ksum_app _ _ _ _ _ _ Rth). Qed.
Lemma rsum_map {B D} (f : D -> R) (g : B -> D) l : rsum f (map g l) = rsum (fun y => f (g y)) l.
Proof. unfold rsum. now rewrite map_map. Qed.

(** The correction is half the trace of U n n. *)
Theorem C72_hubbard occfac Nspinor rho_mn ts :
  (forall t, In t ts -> (0 <= h_nat t)%Z) ->
  (forall a sp, In a (atoms_from 0 ts) -> h_solve (fst a) = true -> (0 <= sp < Nspinor)%Z ->
     (h_ang (fst a) <= sz (h_U (fst a)))%Z /\ (h_ang (fst a) * h_ang (fst a) <= sz (rho_mn (snd a) sp))%Z) ->
  hub_types occfac Nspinor rho_mn ts =
  Ok (occfac * hub_sum ts Nspinor (fun a c => 1 / 2 * at_ (h_U (fst (fst a))) c *
       rsum (fun j => nmat rho_mn a c j * nmat rho_mn a j c) (zrange 0 (h_ang (fst (fst a)) - 1)))).
Proof.
  intros Hnat Hsz. unfold hub_types, hub_sum.
  set (val := fun a : hubtyp * Z => if h_solve (fst a) then rsum (fun sp => rsum (fun c => 1 / 2 * at_ (h_U (fst a)) c *
     rsum (fun j => nmat rho_mn (a, sp) c j * nmat rho_mn (a, sp) j c) (zrange 0 (h_ang (fst a) - 1))) (zrange 0 (h_ang (fst a) - 1))) (zrange 0 (Nspinor - 1)) else 0).
  assert (ONE : forall t d sp, (h_ang t <= sz (h_U t))%Z -> (h_ang t * h_ang t <= sz (rho_mn d sp))%Z ->
    hub_matrix t (rho_mn d sp) = Ok (rsum (fun c => 1 / 2 * at_ (h_U t) c *
     rsum (fun j => nmat rho_mn ((t, d), sp) c j * nmat rho_mn ((t, d), sp) j c) (zrange 0 (h_ang t - 1))) (zrange 0 (h_ang t - 1)))).
  { intros t d sp H1 H2. unfold hub_matrix.
    rewrite (ofold_sum _ (fun c => 1 / 2 * at_ (h_U t) c * rsum (fun j => nmat rho_mn ((t, d), sp) c j * nmat rho_mn ((t, d), sp) j c) (zrange 0 (h_ang t - 1)))).
    - f_equal. unfold rsum. ring.
    - intros e c Hc. apply in_zrange in Hc. rewrite rd_ok by lia. cbn [obind]. unfold sq_diag.
      rewrite (ofold_sum _ (fun j => nmat rho_mn ((t, d), sp) c j * nmat rho_mn ((t, d), sp) j c)).
      + cbn [obind]. f_equal. unfold rsum. lra.
      + intros e1 j Hj. apply in_zrange in Hj. rewrite rd_ok by nia. cbn [obind]. rewrite rd_ok by nia. reflexivity. }
  assert (G : forall ts' c e, (forall t, In t ts' -> (0 <= h_nat t)%Z) -> (forall a, In a (atoms_from c ts') -> In a (atoms_from 0 ts)) ->
     exists c', ofold (fun st t => if negb (h_solve t) then Ok (fst st, (snd st + h_nat t)%Z) else
      ofold (fun st _ =>
        do e <- ofold (fun e sp => do s <- hub_matrix t (rho_mn (snd st) sp) ; Ok (e + occfac * s)) (fst st) (zrange 0 (Nspinor - 1)) ;
        Ok (e, (snd st + 1)%Z)) st (zrange 0 (h_nat t - 1))) (e, c) ts' = Ok (e + occfac * rsum val (atoms_from c ts'), c')).
  { induction ts' as [|t ts' IH]; intros c e HN0 Hin; cbn [ofold atoms_from].
    - exists c. unfold rsum. cbn. do 2 f_equal. ring.
    - assert (Ht : (0 <= h_nat t)%Z) by (apply HN0; now left).
      assert (Hin' : forall a, In a (atoms_from (c + h_nat t) ts') -> In a (atoms_from 0 ts)).
      { intros a Ha. apply Hin. cbn [atoms_from]. apply in_or_app. now right. }
      destruct (h_solve t) eqn:ES; cbn [negb].
      + rewrite (ofold_const _ (fun d e => e + occfac * val (t, d)) (h_nat t) c e Ht).
        * cbn [obind]. destruct (IH (c + h_nat t)%Z (e + occfac * rsum (fun i => val (t, (c + i)%Z)) (zrange 0 (h_nat t - 1))) (fun u Hu => HN0 u (or_intror Hu)) Hin') as [c' E].
          exists c'. rewrite (fold_sum _ (fun d => occfac * val (t, d))), rsum_map, rsum_scal. rewrite E. 
          do 2 f_equal. rewrite rsum_app, rsum_map. ring.
        * intros e1 d i Hi ->. cbn [fst snd].
          rewrite (ofold_sum _ (fun sp => occfac * rsum (fun c0 => 1 / 2 * at_ (h_U t) c0 *
             rsum (fun j => nmat rho_mn ((t, (c + i)%Z), sp) c0 j * nmat rho_mn ((t, (c + i)%Z), sp) j c0) (zrange 0 (h_ang t - 1))) (zrange 0 (h_ang t - 1)))).
          -- cbn [obind]. do 2 f_equal. f_equal. unfold val. cbn [fst snd]. rewrite ES. rewrite <- rsum_scal. reflexivity.
          -- intros e2 sp Hsp. apply in_zrange in Hsp.
             assert (IN : In (t, (c + i)%Z) (atoms_from 0 ts)).
             { apply Hin. cbn [atoms_from]. apply in_or_app. left. apply in_map_iff. exists i. split; [reflexivity|]. apply in_zrange. lia. }
             destruct (Hsz _ sp IN ES ltac:(lia)) as [S1 S2]. cbn [fst snd] in S1, S2. rewrite (ONE t _ sp S1 S2). reflexivity.
      + cbn [obind fst snd]. destruct (IH (c + h_nat t)%Z e (fun u Hu => HN0 u (or_intror Hu)) Hin') as [c' E].
        exists c'. rewrite E. do 2 f_equal. rewrite rsum_app, rsum_map.
        rewrite (rsum_ext (fun i => val (t, (c + i)%Z)) (fun i => 0 * 1)); [rewrite rsum_scal; ring|].
        intros i _. unfold val. cbn [fst]. rewrite ES. ring. }
  destruct (G ts 0%Z 0 Hnat (fun a Ha => Ha)) as [c' E]. rewrite E. cbn [obind fst]. f_equal.
  rewrite Rplus_0_l. f_equal.
Qed.

(** What the band energy holds of the Hubbard operator U (1/2 - n) plus the
    correction is the Hubbard energy sum of U/2 (n - n n). *)
Theorem C72_hubbard_sum ts Nspinor rho_mn occfac :
  let U := fun a c => at_ (h_U (fst (fst a))) c in
  let tr a c := rsum (fun j => nmat rho_mn a c j * nmat rho_mn a j c) (zrange 0 (h_ang (fst (fst a)) - 1)) in
  occfac * hub_sum ts Nspinor (fun a c => rsum (fun j => U a c * ((if Z.eqb c j then 1 / 2 else 0) - nmat rho_mn a c j) * nmat rho_mn a j c)
                                             (zrange 0 (h_ang (fst (fst a)) - 1)))
  + occfac * hub_sum ts Nspinor (fun a c => 1 / 2 * U a c * tr a c)
  = occfac * hub_sum ts Nspinor (fun a c => U a c / 2 * (nmat rho_mn a c c - tr a c)).
Proof.
  intros U tr. rewrite <- Rmult_plus_distr_l. f_equal. unfold hub_sum. rewrite <- rsum_plus. apply rsum_ext. intros a _.
  destruct (h_solve (fst a)); [|ring]. rewrite <- rsum_plus. apply rsum_ext. intros sp _. rewrite <- rsum_plus. apply rsum_ext.
  intros c Hc. unfold tr. cbn [fst].
  rewrite (rsum_ext (fun j => U (a, sp) c * ((if Z.eqb c j then 1 / 2 else 0) - nmat rho_mn (a, sp) c j) * nmat rho_mn (a, sp) j c)
    (fun j => U (a, sp) c * ((if Z.eqb c j then 1 / 2 * nmat rho_mn (a, sp) c c else 0) - nmat rho_mn (a, sp) c j * nmat rho_mn (a, sp) j c))).
  2:{ intros j _. destruct (Z.eqb_spec c j) as [->|]; ring. }
  rewrite rsum_scal, rsum_minus.
  assert (D : forall l, NoDup l -> In c l -> rsum (fun j => if Z.eqb c j then 1 / 2 * nmat rho_mn (a, sp) c c else 0) l = 1 / 2 * nmat rho_mn (a, sp) c c).
  { induction l as [|y l IH]; intros ND Hin; [easy|]. inversion ND as [|? ? N1 N2]; subst. unfold rsum in *. cbn [map ksum].
    destruct Hin as [->|Hin].
    - rewrite Z.eqb_refl. assert (Z0 : ksum 0 Rplus (map (fun j => if Z.eqb c j then 1 / 2 * nmat rho_mn (a, sp) c c else 0) l) = 0).
      { clear -N1. induction l as [|z l IH]; cbn [map ksum]; [reflexivity|]. destruct (Z.eqb_spec c z) as [->|]; [exfalso; apply N1; now left|].
        rewrite IH; [ring|]. intros H. apply N1. now right. }
      rewrite Z0. ring.
    - destruct (Z.eqb_spec c y) as [->|]; [easy|]. rewrite IH by assumption. ring. }
  rewrite D; [field| |exact Hc]. apply NoDup_zrange.
Qed.

(** ** Instances and refutations *)
Lemma c72_ksum1 (y : R) : ksum 0 Rplus [y] = y.
Proof. cbn. ring. Qed.

Ltac red1 := cbn; change (Pos.to_nat 1) with 1%nat; change (Pos.to_nat 2) with 2%nat; cbn.

(** One node, one state, two electrons. *)
Definition one (y : R) : arr R := Arr 1 (fun _ => y).
Definition F1 (mg : R) : Z -> fproc := fun _ => Fproc 1 (one (-1)) (one 2) (one (-1 / 2)) (one 2) (one mg) (one 0) (one 3).
Definition P1 (l : R) : Z -> Z -> eproc := fun _ _ => Eproc 1 1 (one 1) (one 1) (one l).

Lemma c72_div : sdivided 1 (sigs 0) [0%Z] 1 1 (fun _ => [0%Z]) (fun _ => 0%Z) (fun _ => 1%Z).
Proof. constructor; try lia; apply Permutation_refl. Qed.
Lemma c72_holds l s k : (0 <= s < 1)%Z -> (0 <= k < 1)%Z ->
  sholds 1 (fun _ => 1) (fun _ _ _ => 1) (fun _ _ _ => l) (fun _ => [0%Z]) (fun _ => 0%Z) (fun _ => 1%Z) s k (P1 l s k).
Proof. intros _ _. constructor; cbn; try lia; reflexivity. Qed.
Lemma c72_grid mg : on_grid [0%Z] 1 (F1 mg) (fun _ i => i).
Proof. apply Permutation_refl. Qed.
Lemma c72_gholds mgga mg d : (0 <= d < 1)%Z ->
  gholds 0 mgga (fun _ i => i) (fun _ => -1) (fun _ => 2) (fun _ _ => -1 / 2)
    (rho_out 1 2 1 1 [0%Z] (fun _ => 1) (fun _ _ _ => 1) (fun _ _ _ (_ : Z) => RtoC 1)) (fun _ _ => mg) (fun _ _ => 0) (fun _ _ => 3) d (F1 mg d).
Proof.
  intros _. constructor; cbn; try lia; try reflexivity.
  - intros i _. unfold rho_out, dens, weight, rsum. red1. rewrite Cmod_1. field.
  - intros i _ _. unfold rsum. red1. ring.
Qed.

Example C72_example : scf_energy 0 1 false 0 1 (F1 0) true (Calculate_Eband 2 1 1 1 1 (P1 4) 0 0) (Ok (-1 / 4)) (Ok 0) (-1) (-2) 0 = Ok (- (1 / 4)).
Proof.
  rewrite (C72_kohn_sham 0 1 false 0 [0%Z] 1 (F1 0) (fun _ i => i) (fun _ => -1) (fun _ => 2) (fun _ _ => -1 / 2) (fun _ _ => 0) (fun _ _ => 0) (fun _ _ => 3)
    2 1 1 [0%Z] (fun _ => 1) (fun _ _ _ => 1) (fun _ _ _ => 4) 1 1 (P1 4) (fun _ => [0%Z]) (fun _ => 0%Z) (fun _ => 1%Z)
    (fun _ _ _ _ => RtoC 1) (fun _ _ _ => 1) (fun _ _ _ => 0)).
  - f_equal. unfold states, state_sum, integral, rho_tot, rsum, rho_out, dens, rsum, weight. red1. rewrite Cmod_1. field.
  - now left.
  - lra.
  - apply c72_div.
  - apply c72_holds.
  - apply c72_grid.
  - apply c72_gholds.
  - intros _ _ _. unfold rsum. cbn. rewrite Cmod_1. ring.
  - lia.
  - lia.
  - reflexivity.
  - reflexivity.
  - reflexivity.
Qed.

(** The Fermi-Dirac and Gaussian entropy at the Fermi level. *)
Example C72_entropy_example : fd_term (/ 2) = ln 2 /\ gauss_term 1 0 0 = 1 / (2 * sqrt PI).
Proof.
  split.
  - unfold fd_term. assert (T : TEMP_TOL < / 2). { unfold TEMP_TOL. apply Rinv_lt_contravar; simpl; lra. }
    destruct (Rlt_dec TEMP_TOL (/ 2)); [|lra]. destruct (Rlt_dec TEMP_TOL (1 - / 2)); [|lra].
    replace (1 - / 2) with (/ 2) by field. rewrite ln_Rinv by lra. field.
  - unfold gauss_term. replace (- (1 * (0 - 0)) * (1 * (0 - 0))) with 0 by ring. rewrite exp_0.
    pose proof (sqrt_lt_R0 _ PI_RGT_0). replace 0.5 with (/ 2) by lra. field. lra.
Qed.

(** Two types, the second with one corrected atom and n = ((1, 2), (3, 4)). *)
Example C72_hubbard_example :
  hub_types 1 1 (fun a _ => if Z.eqb a 2 then Arr 4 (fun i => IZR (i + 1)) else Arr 0 (fun _ => 0))
    [Hubtyp false 2 0 (Arr 0 (fun _ => 0)); Hubtyp true 1 2 (one 2)] = UB /\
  hub_types 1 1 (fun a _ => if Z.eqb a 2 then Arr 4 (fun i => IZR (i + 1)) else Arr 0 (fun _ => 0))
    [Hubtyp false 2 0 (Arr 0 (fun _ => 0)); Hubtyp true 1 2 (Arr 2 (fun _ => 2))] = Ok 29.
Proof.
  split; [reflexivity|]. rewrite C72_hubbard.
  - f_equal. unfold hub_sum, rsum, nmat. red1. unfold one. red1. lra.
  - intros t [<-|[<-|[]]]; cbn; lia.
  - intros a sp. change (atoms_from 0 [Hubtyp false 2 0 (Arr 0 (fun _ => 0)); Hubtyp true 1 2 (Arr 2 (fun _ => 2))]) with
      [(Hubtyp false 2 0 (Arr 0 (fun _ => 0)), 0%Z); (Hubtyp false 2 0 (Arr 0 (fun _ => 0)), 1%Z); (Hubtyp true 1 2 (Arr 2 (fun _ => 2)), 2%Z)].
    intros [<-|[<-|[<-|[]]]]; cbn; intros; try discriminate; lia.
Qed.

(** In the hybrid phase (usefock even, not 0) the Hubbard correction is not
    part of the energy although the Hubbard operator is part of the Hamiltonian. *)
Theorem C72_hybrid_hubbard_refuted : exists e0 e1 : R, e0 <> e1 /\
  scf_energy 0 1 false 2 1 (F1 0) true (Calculate_Eband 2 1 1 1 1 (P1 4) 0 0) (Ok (-1 / 4)) (Ok e0) (-1) (-2) 0 =
  scf_energy 0 1 false 2 1 (F1 0) true (Calculate_Eband 2 1 1 1 1 (P1 4) 0 0) (Ok (-1 / 4)) (Ok e1) (-1) (-2) 0.
Proof. exists 0, 1. split; [lra|reflexivity]. Qed.

(** Meta-GGA with potential mixing: the eigenvalue holds the old potential
    v3 (here v3 in = 1 and v3 out = 0 with tau = 2, so 1 per electron) but the
    energy subtracts the new one and no correction is added, so the energy
    differs from the Kohn-Sham energy of the orbitals by tau (v3 in - v3 out). *)
Theorem C72_meta_refuted : exists v3in tau1 l e : R,
  gholds 0 true (fun _ i => i) (fun _ => -1) (fun _ => 2) (fun _ _ => -1 / 2)
    (rho_out 1 2 1 1 [0%Z] (fun _ => 1) (fun _ _ _ => 1) (fun _ _ _ (_ : Z) => RtoC 1)) (fun _ _ => tau1) (fun _ _ => 0) (fun _ _ => 3) 0 (F1 tau1 0%Z) /\
  2 * (l - 1 - 3) = v3in * tau1 /\
  scf_energy 0 1 true 0 1 (F1 tau1) true (Calculate_Eband 2 1 1 1 1 (P1 l) 0 0) (Ok (-1 / 4)) (Ok 0) (-1) (-2) 0 = Ok e /\
  e <> 2 * 1 + 1 / 2 * ((2 + -1) * 2) + -1 + -2 + -1 / 4.
Proof.
  exists 1, 2, 5, (7 / 4). split; [apply c72_gholds; lia|]. split; [ring|]. split; [|lra].
  rewrite (C72_total 0 1 true 0 [0%Z] 1 (F1 2) (fun _ i => i) (fun _ => -1) (fun _ => 2) (fun _ _ => -1 / 2) (fun _ _ => 2) (fun _ _ => 0) (fun _ _ => 3)
    2 1 1 [0%Z] (fun _ => 1) (fun _ _ _ => 1) (fun _ _ _ => 5) 1 1 (P1 5) (fun _ => [0%Z]) (fun _ => 0%Z) (fun _ => 1%Z)
    (fun _ _ _ _ => RtoC 1) (fun _ _ _ => 1) (fun _ _ _ => 1)).
  - f_equal. unfold states, over_spins, state_sum, integral, rho_tot, rsum, rho_out, dens, rsum, weight. red1. rewrite Cmod_1. field.
  - now left.
  - lra.
  - apply c72_div.
  - apply c72_holds.
  - apply c72_grid.
  - apply c72_gholds.
  - intros _ _ _. unfold rsum. cbn. rewrite Cmod_1. ring.
  - lia.
  - lia.
Qed.

(** Spinors with potential mixing: the correction compares the potentials in
    the frames of their own magnetisations.  One node, one spinor along x in
    the input potential diag(1, 0); new potentials and all other terms are 0,
    so the Kohn-Sham energy of the spinor is 0, but the result is -1/2. *)
Definition F2 (up dn : R) : Z -> fproc := fun _ =>
  Fproc 1 (one 0) (one 0) (Arr 2 (fun _ => 0)) (Arr 3 (fun i => if Z.eqb i 0 then up + dn else if Z.eqb i 1 then up else dn)) (one 0) (one 0)
    (Arr 2 (fun i => if Z.eqb i 0 then 1 else 0)).
Theorem C72_spinor_refuted : exists (y : C) (l up dn e : R),
  RtoC l = expect ((RtoC 1, RtoC 0), (RtoC 0, RtoC 0)) y y /\
  up + dn = Cmod y ^ 2 + Cmod y ^ 2 /\
  (up - dn) ^ 2 = Re (expect (pauli 1) y y) ^ 2 + Re (expect (pauli 2) y y) ^ 2 + Re (expect (pauli 3) y y) ^ 2 /\
  scf_energy 2 1 false 0 1 (F2 up dn) true (Calculate_Eband 1 1 1 1 1 (P1 l) 0 0) (Ok 0) (Ok 0) 0 0 0 = Ok e /\ e <> 0.
Proof.
  exists (RtoC (sqrt (/ 2))), (/ 2), 1, 0, (- / 2).
  assert (S : sqrt (/ 2) * sqrt (/ 2) = / 2) by (apply sqrt_sqrt; lra).
  assert (S0 : 0 <= sqrt (/ 2)) by apply sqrt_pos.
  split; [|split; [|split; [|split]]].
  - apply injective_projections; cbn; nra.
  - rewrite Cmod_R, Rabs_pos_eq by exact S0. nra.
  - assert (E1 : Re (expect (pauli 1) (RtoC (sqrt (/ 2))) (RtoC (sqrt (/ 2)))) = 1) by (cbn; nra).
    assert (E2 : Re (expect (pauli 2) (RtoC (sqrt (/ 2))) (RtoC (sqrt (/ 2)))) = 0) by (cbn; nra).
    assert (E3 : Re (expect (pauli 3) (RtoC (sqrt (/ 2))) (RtoC (sqrt (/ 2)))) = 0) by (cbn; nra).
    rewrite E1, E2, E3. ring.
  - unfold scf_energy, Calculate_Free_Energy, Calculate_Eband, Calculate_Escc, energy_E1, energy_E2, energy_E3, VectorDotProduct, local_dot, assemble.
    red1. unfold local_Eband. red1. f_equal. lra.
  - lra.
Qed.

Print Assumptions C72_band.
Print Assumptions C72_entropy.
Print Assumptions C72_derivative.
Print Assumptions C72_minimum.
Print Assumptions C72_total.
Print Assumptions C72_harris.
Print Assumptions C72_hubbard.
