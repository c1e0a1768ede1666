(** C77: orbital-free DFT (OfDft.v). *)
From Coq Require Import ZArith Reals List Lia Lra Bool.
From Coquelicot Require Import Coquelicot.
From Verif Require Import CBase Nloc SqSpec SqMain OfDft OfDftLem OfGrad.
Import ListNotations.
Local Open Scope R_scope.

(** ** Spec *)
(** A square root of a density with [Ne] electrons. *)
Definition admissible (N : Z) (dV Ne : R) (u : vec) : Prop :=
  (forall i, (0 <= i < N)%Z -> 0 <= u i) /\ sumn N (fun i => u i * u i) * dV = Ne.

(** The Thomas-Fermi-Weizsaecker functional of a positive density rho = u^2:
    E_xc + 1/2 int (rho + b) phi + 3/10 (3 pi^2)^(2/3) int rho^(5/3)
    - lambda/2 int u Lap u + E_sc. *)
Definition tfw (N : Z) (dV lambda esc : R) (b phi lapu : vec) (ex : R) (u : vec) : R :=
  ex + dV * sumn N (fun i => / 2 * (u i ^ 2 + b i) * phi i
    + 3 / 10 * Rpower (3 * PI ^ 2) (2 / 3) * Rpower (u i ^ 2) (5 / 3) - lambda / 2 * (u i * lapu i)) + esc.

(** ** Brent's search *)
(** Every point evaluated lies at least 1e-10 inside (0, 1); there are at most
    100; the point returned is one of them and none of them is lower.  When the
    loop is left by its test the bracket around the point is within twice the
    tolerance; its ends are 0, 1 or evaluated points. *)
Theorem C77_brent tol f r c : 0 <= tol -> brent tol f = Ok (r, c) ->
  (length (b_tr r) <= 100)%nat /\
  (forall t ft, In (t, ft) (b_tr r) -> / 10 ^ 10 <= t <= 1 - / 10 ^ 10 /\ f t = Ok ft /\ b_fx r <= ft) /\
  In (b_x r, b_fx r) (b_tr r) /\ (exists f0, In (/ 2, f0) (b_tr r)) /\
  (c = true -> b_x r - b_a r <= 2 * (tol * b_x r + / 10 ^ 10) /\ b_b r - b_x r <= 2 * (tol * b_x r + / 10 ^ 10)) /\
  b_a r <= b_x r <= b_b r /\ (b_a r = 0 \/ exists fa, In (b_a r, fa) (b_tr r)) /\ (b_b r = 1 \/ exists fb, In (b_b r, fb) (b_tr r)).
Proof.
  intros Ht E0. destruct (brent_gen tol f (fun s => exists f0, In (/ 2, f0) (b_tr s)) Ht) with (3 := E0) as (I & P & S & L).
  - intros f0 _. exists f0. now left.
  - intros s e d u fu _ [f0 H0] _ _ _. exists f0. rewrite account_tr. now right.
  - split; [exact L|]. split; [apply (bi_all _ _ I)|]. split; [apply (bi_tr _ _ I)|]. split; [exact P|]. split.
    + intros C. destruct (brent_stop_ge f tol r (S C) I) as [B A]. destruct (bi_all _ _ I _ _ (bi_tr _ _ I)) as (X & _). pose proof zeps_pos.
      rewrite (Rabs_right (b_x r)) in * by lra. unfold zeps in *. split; lra.
    + split; [apply (bi_x _ _ I)|]. split; [apply (bi_a _ _ I)|apply (bi_b _ _ I)].
Qed.

(** No step divides by zero: the search fails only where the energy does. *)
Theorem C77_brent_total tol f : 0 <= tol -> (forall s, 0 < s < 1 -> exists e, f s = Ok e) -> exists r, brent tol f = Ok r.
Proof. apply brent_ub. Qed.

(** For a strictly unimodal energy the minimiser stays in the bracket, and a
    search left by its test returns it within twice the tolerance. *)
Theorem C77_unimodal tol (g : R -> R) m r c : 0 <= tol -> 0 <= m <= 1 ->
  (forall s t, 0 <= s < t -> t <= m -> g t < g s) -> (forall s t, m <= s < t -> t <= 1 -> g s < g t) ->
  brent tol (fun s => Ok (g s)) = Ok (r, c) ->
  b_a r <= m <= b_b r /\ (c = true -> Rabs (b_x r - m) <= 2 * (tol * b_x r + / 10 ^ 10)).
Proof.
  intros Ht Hm G1 G2 E0. destruct (brent_gen tol (fun s => Ok (g s)) (fun s => b_a s <= m <= b_b s) Ht) with (3 := E0) as (I & P & S & L).
  - intros f0 _. exact Hm.
  - intros s e d u fu I P U1 U2 Ef. injection Ef as Ef. subst fu. pose proof (account_ab s e d u (g u)) as AB.
    destruct (bi_all _ _ I _ _ (bi_tr _ _ I)) as (X & Fx & _). injection Fx as Fx. pose proof zeps_pos. pose proof (bi_01 _ _ I). pose proof (bi_x _ _ I).
    assert (Hne : u <> b_x s) by (intros ->; replace (b_x s - b_x s) with 0 in U2 by ring; rewrite Rabs_R0 in U2; lra).
    rewrite <- Fx in AB. set (t := account s e d u (g u)) in *. destruct (Rle_dec (g u) (g (b_x s))) as [C|C].
    + destruct (Rle_dec (b_x s) u); injection AB as -> ->; split; try lra.
      * destruct (Rle_lt_dec (b_x s) m) as [|K]; [assumption|]. assert (g (b_x s) < g u) by (apply G2; lra). lra.
      * destruct (Rle_lt_dec m (b_x s)) as [|K]; [assumption|]. assert (g (b_x s) < g u) by (apply G1; lra). lra.
    + destruct (Rlt_dec u (b_x s)); injection AB as -> ->; split; try lra.
      * destruct (Rle_lt_dec u m) as [|K]; [assumption|]. assert (g u < g (b_x s)) by (apply G2; lra). lra.
      * destruct (Rle_lt_dec m u) as [|K]; [assumption|]. assert (g u < g (b_x s)) by (apply G1; lra). lra.
  - split; [exact P|]. intros C. destruct (brent_stop_ge _ tol r (S C) I) as [B A].
    destruct (bi_all _ _ I _ _ (bi_tr _ _ I)) as (X & _). pose proof zeps_pos. rewrite (Rabs_right (b_x r)) in * by lra.
    unfold zeps in *. unfold Rabs. destruct (Rcase_abs _); lra.
Qed.
Example C77_unimodal_applies : exists r c, brent (/ 100) (fun s => Ok ((s - / 3) * (s - / 3))) = Ok (r, c) /\ b_a r <= / 3 <= b_b r.
Proof.
  destruct (C77_brent_total (/ 100) (fun s => Ok ((s - / 3) * (s - / 3))) ltac:(lra)) as [[r c] E0]; [intros; eexists; reflexivity|].
  exists r, c. split; [exact E0|]. refine (proj1 (C77_unimodal (/ 100) (fun s => (s - / 3) * (s - / 3)) (/ 3) r c ltac:(lra) ltac:(lra) _ _ E0)); intros s t H1 H2; nra.
Qed.

(** The search does not look at step 0: even for a convex energy that falls at 0
    the step returned can raise it. *)
Theorem C77_descent_refuted : exists g : R -> R, is_derive g 0 (- (2 / 10 ^ 11)) /\
  (forall s t l, 0 <= l <= 1 -> g (l * s + (1 - l) * t) <= l * g s + (1 - l) * g t) /\
  exists r c, brent (/ 100) (fun s => Ok (g s)) = Ok (r, c) /\ g 0 < g (b_x r).
Proof.
  set (m := / 10 ^ 11). exists (fun s => (s - m) * (s - m)). split; [|split].
  - auto_derive; [trivial|]. unfold m. field.
  - intros s t l Hl. assert (0 <= l * (1 - l) * ((s - t) * (s - t))) by (apply Rmult_le_pos; [nra|apply Rle_0_sqr]). nra.
  - destruct (C77_brent_total (/ 100) (fun s => Ok ((s - m) * (s - m))) ltac:(lra)) as [[r c] E0]; [intros; eexists; reflexivity|].
    exists r, c. split; [exact E0|]. destruct (C77_brent (/ 100) _ r c ltac:(lra) E0) as (_ & A & B & _). destruct (A _ _ B) as (X & _).
    assert (M : / 10 ^ 10 = 10 * m) by (unfold m; simpl; field). assert (0 < m) by (apply Rinv_0_lt_compat, pow_lt; lra). rewrite M in X. nra.
Qed.

(** ** Energy, gradient, loop *)
Section Main.
Variable N : Z.
Variables (dV Ne lambda natom esc oftol : R).
Variable b : vec.
Variables (poisson vxc : vec -> vec) (exc : vec -> R) (lap : vec -> vec).
Notation energy := (energy N dV lambda esc b poisson exc lap).
Notation hamil := (hamil lambda poisson vxc lap).
Notation residual := (residual N dV Ne lambda poisson vxc lap).
Notation econ := (econ N dV Ne lambda natom esc b poisson exc lap).
Notation extend := (extend N dV Ne).
Notation search := (search N dV Ne lambda natom esc b poisson exc lap).
Notation nlcg := (nlcg N dV Ne lambda natom esc oftol b poisson vxc exc lap).
Notation nlcg_loop := (nlcg_loop N dV Ne lambda natom esc oftol b poisson vxc exc lap).
Notation admissible := (admissible N dV Ne).
Notation E u := (energy (square u) u).

(** The energy is the Thomas-Fermi-Weizsaecker one. *)
Theorem C77_energy u : (forall i, (0 <= i < N)%Z -> 0 < u i) ->
  E u = tfw N dV lambda esc b (poisson (square u)) (lap u) (exc (square u)) u.
Proof.
  intros Hu. unfold OfDft.energy, tfw. cbv zeta. unfold inner.
  rewrite (sumn_ext N (fun i => / 2 * (u i ^ 2 + b i) * poisson (square u) i + _ - _)
    (fun i => / 2 * (b i * poisson (square u) i) + (/ 2 * (square u i * poisson (square u) i) + (Cf * cpow (square u i) (5 / 3) + (- (lambda / 2)) * (u i * lap u i))))).
  - rewrite !sumn_add, !sumn_mul. field.
  - intros i Hi. specialize (Hu i Hi). unfold Cf, square. rewrite !cpow_pos by (pose proof PI_RGT_0; nra). simpl. rewrite !Rmult_1_r, <- Rmult_assoc. field.
Qed.

(** At a positive normalised u the energy per atom of the normalised line
    u + s d has slope - dV <r, d> / natom, r the residual: the first direction
    r is the one of steepest descent.  The electrostatic solve is a symmetric
    linear operator on rho + b, the Laplacian is symmetric, and Vxc is the
    derivative of Exc. *)
Theorem C77_gradient (G : vec -> vec) u d : 0 < dV -> 0 < Ne ->
  (forall rho i, (0 <= i < N)%Z -> poisson rho i = G (fun j => rho j + b j) i) -> symmetric_op N G -> symmetric_op N lap ->
  (forall rho rho', (forall i, (0 <= i < N)%Z -> 0 < rho 0 i) -> (forall i, (0 <= i < N)%Z -> is_derive (fun s : R => rho s i) 0 (rho' i)) ->
     is_derive (fun s : R => exc (rho s)) 0 (dV * sumn N (fun i => vxc (rho 0) i * rho' i))) ->
  (forall rho rho' : vec, (forall i, (0 <= i < N)%Z -> rho i = rho' i) -> forall i, (0 <= i < N)%Z -> vxc rho i = vxc rho' i) ->
  (forall i, (0 <= i < N)%Z -> 0 < u i) -> sumn N (fun i => u i * u i) * dV = Ne ->
  is_derive (fun s => match econ u d s with Ok e => e | _ => 0 end) 0 (- dV * sumn N (fun i => residual u i * d i) / natom).
Proof. intros HV HE HP HG HL HX HVX Hp Hq. apply (econ_derive N dV Ne lambda natom esc b poisson vxc exc lap G HV HE HP HG HL HX HVX u d Hp Hq). Qed.

(** The residual vanishes exactly at solutions of the Euler-Lagrange equation. *)
Theorem C77_stationary u : 0 < dV -> 0 < Ne -> sumn N (fun i => u i * u i) * dV = Ne ->
  (forall i, (0 <= i < N)%Z -> residual u i = 0) <->
  exists eta, forall i, (0 <= i < N)%Z ->
    - (lambda / 2) * lap u i + (poisson (square u) i + vxc (square u) i + 5 / 3 * Cf * cpow (square u i) (2 / 3)) * u i = eta * u i.
Proof.
  intros HV HE Hq. assert (U : inner N u u = Ne / dV) by (rewrite <- Hq; unfold inner; field; lra). split.
  - intros Hr. exists (inner N (hamil u) u * (dV / Ne)). intros i Hi. specialize (Hr i Hi). unfold OfDft.residual in Hr. cbv zeta in Hr.
    assert (F : hamil u i = inner N (hamil u) u * (dV / Ne) * u i) by lra. rewrite <- F. unfold OfDft.hamil. cbv zeta. field.
  - intros [eta He] i Hi. unfold OfDft.residual. cbv zeta.
    assert (F : forall i, (0 <= i < N)%Z -> hamil u i = eta * u i) by (intros j Hj; rewrite <- (He j Hj); unfold OfDft.hamil; cbv zeta; field).
    assert (A : inner N (hamil u) u = eta * inner N u u) by (unfold inner; rewrite <- sumn_mul; apply sumn_ext; intros j Hj; rewrite F by exact Hj; ring).
    rewrite A, U, F by exact Hi. field. lra.
Qed.

Lemma search_inv u d un dens etot : 0 < dV -> 0 < Ne -> search u d = Ok (un, dens, etot) ->
  exists s sl nu e0 e e1, / 10 ^ 10 <= s <= 1 - / 10 ^ 10 /\ extend u d s = Ok un /\ extend u d sl = Ok nu /\ dens = square nu /\ etot = E nu /\
    econ u d (/ 2) = Ok e0 /\ econ u d s = Ok e /\ econ u d sl = Ok e1 /\ e <= e0 /\ e <= e1.
Proof.
  intros HV HE H. unfold OfDft.search in H. destruct (brent _ _) as [[r c]| |] eqn:EB; cbn [obind] in H; try discriminate. cbn [fst] in H.
  apply C77_brent in EB; [|lra]. destruct EB as (_ & A & B & [f0 C] & _).
  destruct (extend u d (b_x r)) as [u1| |] eqn:EU; cbn [obind] in H; try discriminate.
  destruct (b_tr r) as [|[sl fl] tl] eqn:ET; [discriminate|].
  destruct (extend u d sl) as [nu| |] eqn:EN; cbn [obind] in H; try discriminate. injection H as <- <- <-.
  destruct (A _ _ B) as (X & FX & _). destruct (A _ _ C) as (_ & F0 & M0). destruct (A sl fl (or_introl eq_refl)) as (_ & FL & ML).
  exists (b_x r), sl, nu, f0, (b_fx r), fl. repeat split; auto; lra.
Qed.

(** One search: the point taken is a normalised step strictly inside (0, 1),
    never above the energy of the half step.  Density and energy left in pSPARC
    are those of a trial point that is not below it. *)
Theorem C77_search u d un dens etot : 0 < dV -> 0 < Ne -> 0 < natom -> search u d = Ok (un, dens, etot) ->
  admissible un /\ (exists s c, 0 < s < 1 /\ 0 < c /\ forall i, un i = Rabs (c * (u i + s * d i))) /\
  (exists uh, extend u d (/ 2) = Ok uh /\ E un <= E uh) /\
  (exists nu, admissible nu /\ dens = square nu /\ etot = E nu /\ E un <= etot).
Proof.
  intros HV HE Hn H. apply search_inv in H; try assumption. destruct H as (s & sl & nu & e0 & e & e1 & Hs & EU & EN & -> & -> & E0 & ES & EL & M0 & M1).
  assert (Ad : forall s v, extend u d s = Ok v -> admissible v).
  { intros s' v Ev. destruct (extend_norm N dV Ne HV HE _ _ _ _ Ev) as [P Q]. split; [intros; apply P|exact Q]. }
  assert (Le : forall x y, x / natom <= y / natom -> x <= y) by (intros x y Q; apply (Rmult_le_reg_r (/ natom)); [now apply Rinv_0_lt_compat|exact Q]).
  assert (Z0 : 0 < / 10 ^ 10) by (apply Rinv_0_lt_compat, pow_lt; lra).
  unfold OfDft.econ in E0, ES, EL. rewrite EU in ES. rewrite EN in EL. cbn [obind] in ES, EL. injection ES as <-. injection EL as <-.
  split; [eapply Ad; eassumption|]. split; [|split].
  - destruct (extend_inv N dV Ne _ _ _ _ EU) as (P & _ & ->). exists s, (cst dV Ne / sqrt (inner N (fun i => u i + s * d i) (fun i => u i + s * d i))).
    split; [lra|]. split; [apply Rdiv_lt_0_compat; [now apply cst_pos|exact P]|]. intros i. f_equal. ring.
  - destruct (extend u d (/ 2)) as [uh| |] eqn:EH; cbn [obind] in E0; try discriminate. injection E0 as <-. exists uh. split; [reflexivity|now apply Le].
  - exists nu. split; [eapply Ad; eassumption|]. split; [reflexivity|]. split; [reflexivity|now apply Le].
Qed.

Lemma loop_inv k : forall st pr r, 0 < dV -> 0 < Ne -> 0 < natom -> 
  admissible (s_u st) -> (exists nu, admissible nu /\ s_dens st = square nu /\ s_etot st = E nu) ->
  (forall e, In e pr -> exists nu, admissible nu /\ e = E nu / natom) ->
  nlcg_loop k st pr = Ok r ->
  admissible (r_u r) /\ (exists nu, admissible nu /\ r_dens r = square nu) /\ r_etot r = energy (r_dens r) (r_u r) /\
  (forall e, In e (r_prints r) -> exists nu, admissible nu /\ e = E nu / natom) /\
  (length (r_prints r) <= k + length pr)%nat /\
  (r_conv r = true -> r_dens r = square (r_u r) /\ sumn N (fun i => residual (r_u r) i * residual (r_u r) i) < oftol * oftol * IZR N).
Proof.
  induction k as [|k IH]; intros st pr r HV HE Hn Hu Hd Hp H; cbn [OfDft.nlcg_loop] in H.
  - injection H as <-. cbn [r_u r_dens r_etot r_prints r_conv]. destruct Hd as (nu & A & B & C). split; [exact Hu|]. split; [exists nu; now split|]. split; [reflexivity|]. split; [exact Hp|]. split; [lia|discriminate].
  - assert (Hp' : forall e, In e (pr ++ [s_etot st / natom]) -> exists nu, admissible nu /\ e = E nu / natom).
    { intros e I. apply in_app_or in I. destruct I as [I|[<-|[]]]; [now apply Hp|]. destruct Hd as (nu & A & B & ->). exists nu. now split. }
    cbv zeta in H. destruct (Rlt_dec _ _) as [C|C].
    + injection H as <-. cbn [r_u r_dens r_etot r_prints r_conv]. split; [exact Hu|]. split; [exists (s_u st); now split|]. split; [reflexivity|]. split; [exact Hp'|]. split; [rewrite app_length; cbn; lia|]. intros _. split; [reflexivity|exact C].
    + destruct (Req_EM_T _ 0); [discriminate|].
      match type of H with obind (OfDft.search _ _ _ _ _ _ _ _ _ _ ?uu ?dd) _ = _ => destruct (search uu dd) as [[[un dens] etot]| |] eqn:ES end; cbn [obind] in H; try discriminate.
      apply C77_search in ES; try assumption. destruct ES as (A1 & _ & _ & (nu & A2 & A3 & A4 & _)).
      apply IH in H; try assumption; cbn [s_u s_dens s_etot].
      * destruct H as (Q1 & Q2 & Q3 & Q4 & Q5 & Q6). rewrite app_length in Q5. cbn in Q5. split; [exact Q1|]. split; [exact Q2|]. split; [exact Q3|]. split; [exact Q4|]. split; [lia|exact Q6].
      * exists nu. repeat split; try assumption; apply A2.
Qed.

(** A turn that does not end the run searches along r + beta d_old with the
    Polak-Ribiere beta = <r - r_old, r> / <r_old, r_old> cut off at 0, set to 0
    after 30 turns without a restart, and continues from the point found with
    this residual and direction. *)
Theorem C77_direction k st pr r : nlcg_loop (S k) st pr = Ok r ->
  let q := residual (s_u st) in
  let g2 := sumn N (fun i => s_rold st i ^ 2) in
  sumn N (fun i => q i ^ 2) < oftol * oftol * IZR N \/
  exists beta d it2 un dens etot, 0 <= beta /\ (forall i, d i = q i + beta * s_d st i) /\
    (beta = 0 /\ (s_it2 st = 30%Z \/ sumn N (fun i => (q i - s_rold st i) * q i) / g2 <= 0) /\ it2 = 1%Z \/
     beta = sumn N (fun i => (q i - s_rold st i) * q i) / g2 /\ s_it2 st <> 30%Z /\ it2 = (s_it2 st + 1)%Z) /\
    search (s_u st) d = Ok (un, dens, etot) /\
    nlcg_loop k (mkO un q d it2 dens etot) (pr ++ [s_etot st / natom]) = Ok r.
Proof.
  intros H q g2. cbn [OfDft.nlcg_loop] in H. cbv zeta in H. fold q in H.
  assert (Q2 : sumn N (fun i => q i ^ 2) = inner N q q) by (apply sumn_ext; intros; ring).
  destruct (Rlt_dec _ _) as [C|C]; [left; rewrite Q2; exact C|right].
  destruct (Req_EM_T _ 0) as [|Z]; [discriminate|].
  assert (EX : (inner N q q - inner N (s_rold st) q) / inner N (s_rold st) (s_rold st) = sumn N (fun i => (q i - s_rold st i) * q i) / g2).
  { f_equal.
    - unfold inner. rewrite (sumn_ext N (fun i => (q i - s_rold st i) * q i) (fun i => q i * q i + -1 * (s_rold st i * q i))) by (intros; ring). rewrite sumn_add, sumn_mul. ring.
    - f_equal. apply sumn_ext. intros; ring. }
  rewrite EX in H. set (xi := sumn N _ / g2) in *.
  destruct (s_it2 st =? 30)%Z eqn:E30; [|destruct (Rle_dec xi 0) as [X|X]]; cbn [orb] in H;
  (match type of H with obind (OfDft.search _ _ _ _ _ _ _ _ _ _ ?uu ?dd) _ = _ => destruct (search uu dd) as [[[un dens] etot]| |] eqn:ES end; cbn [obind] in H; try discriminate).
  - apply Z.eqb_eq in E30. exists 0, q, 1%Z, un, dens, etot. split; [lra|]. split; [intros; ring|]. split; [left; auto|]. split; [exact ES|exact H].
  - exists 0, q, 1%Z, un, dens, etot. split; [lra|]. split; [intros; ring|]. split; [left; auto|]. split; [exact ES|exact H].
  - apply Z.eqb_neq in E30. exists xi, (fun i => xi * s_d st i + q i), (s_it2 st + 1)%Z, un, dens, etot. split; [lra|]. split; [intros; ring|]. split; [right; auto|]. split; [exact ES|exact H].
Qed.

Local Opaque OfDft.nlcg_loop.
Lemma nlcg_inv rho0 r : nlcg rho0 = Ok r -> exists u1 dens etot,
  search (fun i => sqrt (Rabs (rho0 i))) (residual (fun i => sqrt (Rabs (rho0 i)))) = Ok (u1, dens, etot) /\
  nlcg_loop 1500 (mkO u1 (residual (fun i => sqrt (Rabs (rho0 i)))) (fun _ => 0) 0 dens etot) [] = Ok r.
Proof.
  unfold OfDft.nlcg. cbv zeta. destruct (search _ _) as [[[u1 dens] etot]| |] eqn:ES; cbn [obind]; intros H; [|discriminate H|discriminate H].
  exists u1, dens, etot. split; [reflexivity|exact H].
Qed.

(** Whatever the start: the density returned is non-negative and has [Ne]
    electrons, so does u^2; every energy printed is the energy per atom of such
    a point; at most 1500 lines are printed.  A run that ends by its test
    returns the density u^2 with the energy of u and a residual below the
    tolerance. *)
Theorem C77_result rho0 r : 0 < dV -> 0 < Ne -> 0 < natom -> nlcg rho0 = Ok r ->
  (forall i, (0 <= i < N)%Z -> 0 <= r_dens r i) /\ sumn N (r_dens r) * dV = Ne /\ admissible (r_u r) /\
  (forall e, In e (r_prints r) -> exists nu, admissible nu /\ e = E nu / natom) /\ (length (r_prints r) <= 1500)%nat /\
  (r_conv r = true -> (forall i, r_dens r i = r_u r i ^ 2) /\ r_etot r = E (r_u r) /\
    sqrt (sumn N (fun i => residual (r_u r) i ^ 2) / IZR N) < Rabs oftol).
Proof.
  intros HV HE Hn H. apply nlcg_inv in H. destruct H as (u1 & dens & etot & ES & H).
  apply C77_search in ES; try assumption. destruct ES as (A1 & _ & _ & (nu & A2 & A3 & A4 & _)).
  apply (loop_inv 1500) in H; try assumption; cbn [s_u s_dens s_etot].
  2:{ exists nu. repeat split; try assumption; apply A2. }
  2:{ intros e []. }
  destruct H as (Q1 & (nd & D1 & D2) & Q3 & Q4 & Q5 & Q6).
  split; [intros i Hi; rewrite D2; unfold square; apply Rle_0_sqr|]. split; [rewrite D2; apply D1|]. split; [exact Q1|]. split; [exact Q4|]. split; [exact Q5|].
  intros C. destruct (Q6 C) as [B1 B2]. split; [intros i; rewrite B1; unfold square; ring|]. split; [rewrite Q3, B1; reflexivity|].
  pose proof (nsum_sq_nonneg N (residual (r_u r))) as Q.
  rewrite (sumn_ext N _ (fun i => residual (r_u r) i * residual (r_u r) i)) by (intros; ring). set (S := sumn _ _) in *.
  assert (PN : 0 < IZR N).
  { destruct (Rlt_le_dec 0 (IZR N)) as [|K]; [assumption|]. pose proof (Rle_0_sqr oftol) as Sq. unfold Rsqr in Sq. nra. }
  rewrite <- sqrt_Rsqr_abs. apply sqrt_lt_1; [apply Rdiv_le_0_compat; assumption|apply Rle_0_sqr|]. unfold Rsqr.
  apply (Rmult_lt_reg_r (IZR N)); [exact PN|]. unfold Rdiv. rewrite Rmult_assoc, Rinv_l by lra. lra.
Qed.

(** The loop stopped by its count reports the energy of u with the density (and
    potential) of a trial point. *)
Theorem C77_unconverged rho0 r : 0 < dV -> 0 < Ne -> 0 < natom -> nlcg rho0 = Ok r -> r_conv r = false ->
  r_etot r = energy (r_dens r) (r_u r).
Proof.
  intros HV HE Hn H _. apply nlcg_inv in H. destruct H as (u1 & dens & etot & ES & H).
  apply C77_search in ES; try assumption. destruct ES as (A1 & _ & _ & (nu & A2 & A3 & A4 & _)).
  apply (loop_inv 1500) in H; try assumption; cbn [s_u s_dens s_etot]; [apply H| |intros e []].
  exists nu. repeat split; try assumption; apply A2.
Qed.

Lemma search_def u d : (exists w, search u d = Ok w) \/ (search u d = UB /\ exists s, 0 < s < 1 /\ forall i, (0 <= i < N)%Z -> u i + s * d i = 0).
Proof.
  assert (EC : forall s, econ u d s = UB -> extend u d s = UB) by (intros s; unfold OfDft.econ; destruct (extend u d s); cbn [obind]; congruence).
  assert (EX : forall s, econ u d s <> Exit) by (intros s; unfold OfDft.econ; destruct (extend_def N dV Ne u d s) as [[nu ->]|[-> _]]; cbn [obind]; discriminate).
  unfold OfDft.search. pose proof (brent_fail (/ 100) (econ u d) ltac:(lra)) as K. destruct (brent _ _) as [[r c]| |] eqn:EB; cbn [obind fst].
  - apply C77_brent in EB; [|lra]. destruct EB as (_ & A & B & _). assert (Z0 : 0 < / 10 ^ 10) by (apply Rinv_0_lt_compat, pow_lt; lra).
    destruct (A _ _ B) as (X & FX & _). destruct (extend_def N dV Ne u d (b_x r)) as [[nu EN]|[EN _]].
    2:{ unfold OfDft.econ in FX. rewrite EN in FX. discriminate. }
    rewrite EN. cbn [obind]. destruct (b_tr r) as [|[sl fl] tl]; [destruct B|]. destruct (A _ _ (or_introl eq_refl)) as (_ & FL & _).
    destruct (extend_def N dV Ne u d sl) as [[nl EL]|[EL _]]; [|unfold OfDft.econ in FL; rewrite EL in FL; discriminate].
    rewrite EL. cbn [obind]. left. eexists. reflexivity.
  - right. split; [reflexivity|]. destruct K as (s & Hs & E0). apply EC in E0. exists s. split; [exact Hs|].
    destruct (extend_def N dV Ne u d s) as [[nu E1]|[_ E1]]; [congruence|exact E1].
  - destruct K as (s & _ & E0). now destruct (EX s).
Qed.

Definition local (op : vec -> vec) : Prop :=
  forall u v : vec, (forall i, (0 <= i < N)%Z -> u i = v i) -> forall i, (0 <= i < N)%Z -> op u i = op v i.

Lemma residual_local : local poisson -> local vxc -> local lap -> local residual.
Proof.
  intros LP LX LL u v Huv.
  assert (H : forall i, (0 <= i < N)%Z -> hamil u i = hamil v i).
  { intros i Hi. unfold OfDft.hamil. cbv zeta. assert (S : forall j, (0 <= j < N)%Z -> square u j = square v j) by (intros j Hj; unfold square; now rewrite Huv).
    rewrite (LP _ _ S i Hi), (LX _ _ S i Hi), (LL _ _ Huv i Hi), S, Huv by exact Hi. reflexivity. }
  intros i Hi. unfold OfDft.residual. cbv zeta. rewrite H, Huv, (inner_ext N (hamil u) u (hamil v) v H Huv) by exact Hi. reflexivity.
Qed.

Local Transparent OfDft.nlcg_loop.
Lemma loop_def k : forall st pr, 0 < dV -> 0 < Ne -> 0 < natom -> (0 < N)%Z -> oftol <> 0 -> admissible (s_u st) ->
  sumn N (fun i => s_rold st i * s_rold st i) <> 0 \/ (forall i, (0 <= i < N)%Z -> residual (s_u st) i = 0) ->
  (exists r, nlcg_loop k st pr = Ok r) \/
  (nlcg_loop k st pr = UB /\ exists u d s, admissible u /\ 0 < s < 1 /\ forall i, (0 <= i < N)%Z -> u i = - s * d i).
Proof.
  induction k as [|k IH]; intros st pr HV HE Hn HN Ho Hu Hr; cbn [OfDft.nlcg_loop]; [left; eexists; reflexivity|]. cbv zeta.
  assert (P : 0 < oftol * oftol * IZR N). { apply Rmult_lt_0_compat; [|apply (IZR_lt 0); lia]. destruct (Rdichotomy _ _ Ho); nra. }
  destruct (Rlt_dec _ _) as [C|C]; [left; eexists; reflexivity|].
  destruct (Req_EM_T _ 0) as [Z|Z].
  { exfalso. destruct Hr as [Hr|Hr]; [now apply Hr|]. apply C. unfold inner. rewrite sumn_zero; [exact P|]. intros i Hi. rewrite Hr by exact Hi. ring. }
  match goal with |- context [obind (OfDft.search _ _ _ _ _ _ _ _ _ _ ?uu ?dd)] => set (dir := dd); destruct (search_def (s_u st) dir) as [[[[un dens] etot] ES]|[ES (s & Hs & E0)]]; rewrite ES end; cbn [obind].
  - apply IH; try assumption; cbn [s_u s_rold].
    + apply C77_search in ES; try assumption. apply ES.
    + left. apply Rnot_lt_le in C. unfold inner in C. lra.
  - right. split; [reflexivity|]. exists (s_u st), dir, s. split; [exact Hu|]. split; [exact Hs|]. intros i Hi. specialize (E0 i Hi). lra.
Qed.
Local Opaque OfDft.nlcg_loop.

(** From a density with [Ne] electrons the run is defined, unless a conjugate
    direction points to - u: the first search cannot fail, because the residual
    is orthogonal to u, and the denominator <r_old, r_old> is never 0, because
    a zero residual ends the run before it is used. *)
Theorem C77_defined rho0 : 0 < dV -> 0 < Ne -> 0 < natom -> (0 < N)%Z -> oftol <> 0 -> local poisson -> local vxc -> local lap ->
  sumn N (fun i => Rabs (rho0 i)) * dV = Ne ->
  (exists r, nlcg rho0 = Ok r) \/
  (nlcg rho0 = UB /\ exists u d s, admissible u /\ 0 < s < 1 /\ forall i, (0 <= i < N)%Z -> u i = - s * d i).
Proof.
  intros HV HE Hn HN Ho LP LX LL H0. unfold OfDft.nlcg. cbv zeta. set (u0 := fun i => sqrt (Rabs (rho0 i))). set (r0 := residual u0).
  assert (Hu : inner N u0 u0 * dV = Ne).
  { rewrite <- H0. f_equal. apply sumn_ext. intros i _. unfold u0. apply sqrt_sqrt, Rabs_pos. }
  assert (Or : inner N u0 r0 = 0) by (apply residual_orth; assumption).
  assert (DF : exists w, search u0 r0 = Ok w).
  { destruct (search_def u0 r0) as [|[_ (s & Hs & E0)]]; [assumption|]. exfalso.
    assert (Q : inner N (fun i => u0 i + s * r0 i) (fun i => u0 i + s * r0 i) = 0) by (apply sumn_zero; intros i Hi; rewrite E0 by exact Hi; ring).
    rewrite inner_line, Or in Q. pose proof (nsum_sq_nonneg N r0) as Q1. fold (inner N r0 r0) in Q1.
    assert (0 < inner N u0 u0) by (apply (Rmult_lt_reg_r dV); lra). nra. }
  destruct DF as [[[u1 dens] etot] ES]. rewrite ES. cbn [obind].
  pose proof (search_inv _ _ _ _ _ HV HE ES) as (s & _ & _ & _ & _ & _ & _ & EU & _).
  apply C77_search in ES; try assumption. apply loop_def; try assumption; cbn [s_u s_rold]; [apply ES|].
  destruct (Req_EM_T (sumn N (fun i => r0 i * r0 i)) 0) as [Z|Z]; [right|now left].
  assert (R0 : forall i, (0 <= i < N)%Z -> r0 i = 0) by (apply sumn_sq_0; exact Z).
  assert (U1 : forall i, (0 <= i < N)%Z -> u1 i = u0 i).
  { destruct (extend_inv N dV Ne _ _ _ _ EU) as (P & Q & ->). intros i Hi. set (n := sqrt _) in *.
    assert (C : n = cst dV Ne).
    { unfold n, cst. f_equal. rewrite inner_line, Or. replace (inner N u0 u0) with (Ne / dV) by (rewrite <- Hu; field; lra). unfold inner. rewrite Z. ring. }
    rewrite C, R0 by exact Hi. pose proof (cst_pos dV Ne HV HE). replace ((u0 i + s * 0) * (cst dV Ne / cst dV Ne)) with (u0 i) by (field; lra).
    apply Rabs_right. unfold u0. apply Rle_ge, sqrt_pos. }
  intros i Hi. rewrite (residual_local LP LX LL u1 u0 U1 i Hi). now apply R0.
Qed.
End Main.

(** ** Witnesses *)
(** Two grid points, u = (1, 0), residual (0, 1), energy (rho(0) - 4/5)^2: least
    at the half step. *)
Section Witness.
Definition w_lap (u : vec) : vec := fun i => if (i =? 0)%Z then u 1%Z else u 0%Z.
Definition w_exc (rho : vec) : R := (rho 0%Z - 4 / 5) * (rho 0%Z - 4 / 5)
  - Cf * (cpow (rho 0%Z) (5 / 3) + cpow (rho 1%Z) (5 / 3)) + sqrt (rho 0%Z) * sqrt (rho 1%Z).
Definition w_zero (rho : vec) : vec := fun _ => 0.
Definition w_rho : vec := fun i => if (i =? 0)%Z then 1 else 0.
Notation wE u := (energy 2 1 1 0 (fun _ => 0) w_zero w_exc w_lap (square u) u).
Notation wres := (residual 2 1 1 1 w_zero w_zero w_lap).
Lemma sumn2 f : sumn 2 f = f 0%Z + f 1%Z.
Proof. unfold sumn. change (Z.to_nat 2) with 2%nat. cbn [nsum]. change (Z.of_nat 0) with 0%Z. change (Z.of_nat 1) with 1%Z. ring. Qed.
Lemma w_energy u : 0 <= u 0%Z -> 0 <= u 1%Z -> wE u = (u 0%Z * u 0%Z - 4 / 5) * (u 0%Z * u 0%Z - 4 / 5).
Proof.
  intros H0 H1. unfold energy, inner. cbv zeta. rewrite !sumn2. unfold w_exc, square, w_zero, w_lap. cbn [Z.eqb].
  rewrite !sqrt_square by assumption. field.
Qed.
Lemma w_u0 i : sqrt (Rabs (w_rho i)) = if (i =? 0)%Z then 1 else 0.
Proof. unfold w_rho. destruct (i =? 0)%Z; [rewrite Rabs_R1; apply sqrt_1|rewrite Rabs_R0; apply sqrt_0]. Qed.
Notation u0 := (fun i => sqrt (Rabs (w_rho i))).
Lemma w_r : wres u0 0%Z = 0 /\ wres u0 1%Z = 1.
Proof.
  unfold residual, hamil, inner, w_zero, w_lap. cbv zeta. rewrite !sumn2. unfold square. rewrite !w_u0. cbn [Z.eqb]. split; [field|].
  field.
Qed.
Lemma w_extend s : exists nu, extend 2 1 1 u0 (wres u0) s = Ok nu /\ nu 0%Z * nu 0%Z = / (1 + s * s) /\ 0 <= nu 0%Z /\ 0 <= nu 1%Z.
Proof.
  destruct w_r as [R0 R1]. assert (I0 : inner 2 (fun i => u0 i + s * wres u0 i) (fun i => u0 i + s * wres u0 i) = 1 + s * s).
  { unfold inner. rewrite sumn2, R0, R1. rewrite !w_u0. cbn [Z.eqb]. ring. }
  assert (P : 0 < 1 + s * s) by nra. pose proof (sqrt_lt_R0 _ P) as Q.
  destruct (extend_def 2 1 1 u0 (wres u0) s) as [[nu EN]|[_ Z]].
  - exists nu. split; [exact EN|]. destruct (extend_inv 2 1 1 _ _ _ _ EN) as (A & B & ->). rewrite I0 in *. rewrite R0. rewrite !w_u0. cbn [Z.eqb].
    split; [|split; apply Rabs_pos]. rewrite <- Rabs_mult, Rabs_right by (apply Rle_ge, Rle_0_sqr).
    unfold cst. replace (1 / 1) with 1 by field. rewrite sqrt_1. replace ((1 + s * 0) * (1 / sqrt (1 + s * s)) * ((1 + s * 0) * (1 / sqrt (1 + s * s)))) with (/ (sqrt (1 + s * s) * sqrt (1 + s * s))) by (field; lra).
    now rewrite sqrt_sqrt by lra.
  - exfalso. specialize (Z 0%Z ltac:(lia)). rewrite R0, w_u0 in Z. cbn [Z.eqb] in Z. lra.
Qed.
Lemma w_econ s : econ 2 1 1 1 1 0 (fun _ => 0) w_zero w_exc w_lap u0 (wres u0) s = Ok ((/ (1 + s * s) - 4 / 5) * (/ (1 + s * s) - 4 / 5)).
Proof.
  unfold econ. destruct (w_extend s) as (nu & -> & A & B & C). cbn [obind]. rewrite w_energy by assumption. rewrite A. f_equal. field. nra.
Qed.
Local Opaque nlcg_loop.
Lemma w_search : exists un dens etot, search 2 1 1 1 1 0 (fun _ => 0) w_zero w_exc w_lap u0 (wres u0) = Ok (un, dens, etot) /\ wE un = 0 /\ 0 < etot.
Proof.
  unfold search. destruct (brent_half (/ 100) (econ 2 1 1 1 1 0 (fun _ => 0) w_zero w_exc w_lap u0 (wres u0)) 0) as (r & c & sl & fl & tl & EB & X & T & FL & L); [lra| | |].
  - rewrite w_econ. f_equal. field.
  - intros s Hs Hne. rewrite w_econ. eexists. split; [reflexivity|]. assert (K : / (1 + s * s) - 4 / 5 <> 0).
    { intros K. assert (D : 1 = (/ (1 + s * s) - 4 / 5 + 4 / 5) * (1 + s * s)) by (field; nra). rewrite K in D. apply Hne. nra. }
    set (y := / (1 + s * s) - 4 / 5) in *. destruct (Rdichotomy _ _ K); nra.
  - rewrite EB. cbn [obind fst]. rewrite X, T. destruct (w_extend (/ 2)) as (un & -> & A & B & C). cbn [obind].
    destruct (w_extend sl) as (nu & EN & A' & B' & C'). rewrite EN. cbn [obind]. exists un, (square nu), (wE nu). split; [reflexivity|]. split.
    + rewrite w_energy by assumption. rewrite A. field.
    + rewrite w_energy by assumption. rewrite w_econ in FL. injection FL as FL. rewrite A', FL. exact L.
Qed.
Local Transparent nlcg_loop.
Lemma w_nlcg : exists oftol r, nlcg 2 1 1 1 1 0 oftol (fun _ => 0) w_zero w_zero w_exc w_lap w_rho = Ok r /\ r_conv r = true /\ r_etot r = 0 /\
  exists e, r_prints r = [e] /\ 0 < e.
Proof.
  destruct w_search as (un & dens & etot & ES & E0 & Ep). set (D := inner 2 (wres un) (wres un)). exists (1 + D).
  unfold nlcg. cbv zeta. rewrite ES. cbn [obind]. change 1500%nat with (S 1499). generalize 1499%nat. intros k. cbn [nlcg_loop]. cbv zeta. cbn [s_u s_etot]. fold D.
  assert (P : 0 <= D) by apply nsum_sq_nonneg.
  destruct (Rlt_dec D ((1 + D) * (1 + D) * 2)) as [_|C]; [|nra]. eexists. split; [reflexivity|]. cbn [r_conv r_etot r_prints]. split; [reflexivity|]. split; [exact E0|].
  exists (etot / 1). split; [reflexivity|lra].
Qed.
End Witness.

(** The energy printed with an iteration is not that of the point whose residual
    stands beside it: a run whose last printed energy per atom exceeds the one
    it reports. *)
Theorem C77_printed_refuted : exists N dV Ne lambda natom esc oftol b poisson vxc exc lap rho0 r,
  0 < dV /\ 0 < Ne /\ nlcg N dV Ne lambda natom esc oftol b poisson vxc exc lap rho0 = Ok r /\ r_conv r = true /\
  r_etot r / natom < last (r_prints r) 0.
Proof.
  destruct w_nlcg as (ot & r & E0 & C & T & e & P & L).
  exists 2%Z, 1, 1, 1, 1, 0, ot, (fun _ => 0), w_zero, w_zero, w_exc, w_lap, w_rho, r. rewrite P, T. cbn [last].
  split; [lra|]. split; [lra|]. split; [exact E0|]. split; [exact C|lra].
Qed.
Example C77_result_applies : exists oftol r, nlcg 2 1 1 1 1 0 oftol (fun _ => 0) w_zero w_zero w_exc w_lap w_rho = Ok r /\
  r_dens r 0%Z + r_dens r 1%Z = 1.
Proof.
  destruct w_nlcg as (ot & r & E0 & _). exists ot, r. split; [exact E0|].
  destruct (C77_result 2 1 1 1 1 0 ot (fun _ => 0) w_zero w_zero w_exc w_lap w_rho r ltac:(lra) ltac:(lra) ltac:(lra) E0) as (_ & Q & _). rewrite sumn2 in Q. lra.
Qed.
Example C77_defined_applies : exists rho0 : vec, sumn 2 (fun i => Rabs (rho0 i)) * 1 = 1 /\ local 2 w_zero /\ local 2 w_lap.
Proof.
  exists w_rho. split; [rewrite sumn2; unfold w_rho; cbn [Z.eqb]; rewrite Rabs_R1, Rabs_R0; lra|]. split; [intros u v H i Hi; reflexivity|].
  intros u v H i Hi. unfold w_lap. destruct (i =? 0)%Z; apply H; lia.
Qed.

(** The hypotheses of C77_gradient with E_xc = - int rho^2 / 2. *)
Lemma zero_sym N : symmetric_op N w_zero.
Proof. constructor; unfold w_zero; intros; try reflexivity; [ring|]. unfold inner. apply sumn_ext. intros; ring. Qed.
Lemma lap_sym : symmetric_op 2 w_lap.
Proof.
  constructor.
  - intros u v H i Hi. unfold w_lap. destruct (i =? 0)%Z; apply H; lia.
  - intros a b u v i _. unfold w_lap. destruct (i =? 0)%Z; ring.
  - intros u v. unfold inner. rewrite !sumn2. unfold w_lap. cbn [Z.eqb]. ring.
Qed.
Example C77_gradient_applies u d : 0 < u 0%Z -> 0 < u 1%Z -> u 0%Z * u 0%Z + u 1%Z * u 1%Z = 1 ->
  is_derive (fun s => match econ 2 1 1 1 1 0 (fun _ => 0) w_zero (fun rho => - / 2 * sumn 2 (fun i => rho i * rho i)) w_lap u d s with Ok e => e | _ => 0 end) 0
    (- sumn 2 (fun i => residual 2 1 1 1 w_zero (fun rho i => - rho i) w_lap u i * d i)).
Proof.
  intros U0 U1 Hq.
  replace (- sumn 2 (fun i => residual 2 1 1 1 w_zero (fun rho i => - rho i) w_lap u i * d i)) with (- (1) * sumn 2 (fun i => residual 2 1 1 1 w_zero (fun rho i => - rho i) w_lap u i * d i) / 1) by field.
  apply (C77_gradient 2 1 1 1 1 0 (fun _ => 0) w_zero (fun rho i => - rho i) (fun rho => - / 2 * sumn 2 (fun i => rho i * rho i)) w_lap w_zero u d); try lra.
  - intros; reflexivity.
  - apply zero_sym.
  - apply lap_sym.
  - intros rho rho' _ H. eapply der_eq; [apply (mul_derive (fun _ => - / 2) (fun s => sumn 2 (fun i => rho s i * rho s i)) 0 0 (inner 2 rho' (rho 0) + inner 2 (rho 0) rho') (const_derive _ _) (inner_derive 2 rho rho rho' rho' H H))|].
    unfold inner. rewrite !sumn2. field.
  - intros rho rho' H i Hi. now rewrite H.
  - intros i Hi. assert (i = 0 \/ i = 1)%Z as [->| ->] by lia; assumption.
  - rewrite sumn2. lra.
Qed.

Print Assumptions C77_brent.
Print Assumptions C77_brent_total.
Print Assumptions C77_unimodal.
Print Assumptions C77_descent_refuted.
Print Assumptions C77_energy.
Print Assumptions C77_gradient.
Print Assumptions C77_stationary.
Print Assumptions C77_search.
Print Assumptions C77_direction.
Print Assumptions C77_result.
Print Assumptions C77_unconverged.
Print Assumptions C77_defined.
Print Assumptions C77_printed_refuted.
(** ** The parabolic step *)
(** A step of the search is golden, of the least length towards the middle, or
    leads to the vertex of every parabola through the three best points. *)
Theorem C77_parabola : forall s xm tol1 tol2,
  newstep s xm tol1 tol2 = golden s xm \/
  newstep s xm tol1 tol2 = (b_d s, if Rle_dec 0 (xm - b_x s) then Rabs tol1 else - Rabs tol1) \/
  exists d, newstep s xm tol1 tol2 = (b_d s, d) /\ b_a s + tol2 <= b_x s + d <= b_b s - tol2 /\
    forall al be ga, let P t := al * (t * t) + be * t + ga in
      b_fx s = P (b_x s) -> b_fw s = P (b_w s) -> b_fv s = P (b_v s) ->
      2 * al * (b_x s + d) + be = 0.
Proof.
  intros [a b d e x w v fx fw fv tr] xm tol1 tol2. unfold newstep.
  cbn [b_d b_x b_a b_b b_fx b_fw b_fv b_w b_v].
  destruct (Rlt_dec tol1 (Rabs e)) as [_|]; [|now left]. cbv zeta.
  set (r := (x - w) * (fx - fv)). set (q := (x - v) * (fx - fw)).
  set (p := (x - v) * q - (x - w) * r). set (q2 := 2 * (q - r)).
  set (p' := if Rlt_dec 0 q2 then - p else p).
  destruct (Rle_dec (Rabs (/ 2 * Rabs q2 * e)) (Rabs p')) as [|N1]; [now left|].
  destruct (Rle_dec p' (Rabs q2 * (a - x))) as [|N2]; [now left|].
  destruct (Rle_dec (Rabs q2 * (b - x)) p') as [|N3]; [now left|].
  destruct (Rlt_dec (x + p' / Rabs q2 - a) tol2) as [|N4]; [right; now left|].
  destruct (Rlt_dec (b - (x + p' / Rabs q2)) tol2) as [|N5]; [right; now left|].
  right; right. exists (p' / Rabs q2). split; [reflexivity|]. split; [lra|].
  assert (Q0 : q2 <> 0).
  { intros E. apply N1. rewrite E, Rabs_R0. replace (/ 2 * 0 * e) with 0 by ring. rewrite Rabs_R0. apply Rabs_pos. }
  assert (ED : p' / Rabs q2 = - p / q2).
  { unfold p'. destruct (Rlt_dec 0 q2) as [L|L].
    - rewrite Rabs_pos_eq by lra. reflexivity.
    - rewrite Rabs_left by lra. field. exact Q0. }
  rewrite ED. intros al be ga Hx Hw Hv.
  assert (X : q2 * (2 * al * x + be) = 2 * al * p).
  { unfold p, q2, q, r. rewrite Hx, Hw, Hv. ring. }
  apply (Rmult_eq_reg_l q2); [|exact Q0].
  replace (q2 * (2 * al * (x + - p / q2) + be)) with (q2 * (2 * al * x + be) - 2 * al * p) by (field; exact Q0).
  rewrite X. ring.
Qed.
Print Assumptions C77_parabola.

(** Points 1/2, 1/4, 1 of the parabola (t - 3/8)^2: the step leads to 3/8. *)
Example C77_parabola_example :
  exists d, newstep (mkB 0 1 0 1 (/ 2) (/ 4) 1 (/ 64) (/ 64) (25 / 64) []) (/ 2) (/ 100) (/ 50) = (0, d) /\ / 2 + d = 3 / 8.
Proof.
  exists (- / 8). split; [|lra]. unfold newstep.
  rewrite Rabs_R1. destruct (Rlt_dec (/ 100) 1) as [_|G]; [|lra]. cbv zeta.
  replace ((/ 2 - 1) * (/ 64 - / 64)) with 0 by lra.
  replace ((/ 2 - / 4) * (/ 64 - 25 / 64)) with (- (3 / 32)) by lra.
  replace (2 * (0 - - (3 / 32))) with (3 / 16) by lra.
  replace ((/ 2 - 1) * 0 - (/ 2 - / 4) * - (3 / 32)) with (3 / 128) by lra.
  destruct (Rlt_dec 0 (3 / 16)) as [_|G]; [|lra].
  replace (Rabs (3 / 16)) with (3 / 16) by (rewrite Rabs_pos_eq; lra).
  replace (Rabs (/ 2 * (3 / 16) * 1)) with (3 / 32) by (rewrite Rabs_pos_eq; lra).
  replace (Rabs (- (3 / 128))) with (3 / 128) by (rewrite Rabs_left; lra).
  destruct (Rle_dec (3 / 32) (3 / 128)) as [G|_]; [lra|].
  destruct (Rle_dec (- (3 / 128)) (3 / 16 * (0 - / 2))) as [G|_]; [lra|].
  destruct (Rle_dec (3 / 16 * (1 - / 2)) (- (3 / 128))) as [G|_]; [lra|].
  replace (- (3 / 128) / (3 / 16)) with (- / 8) by lra.
  destruct (Rlt_dec (/ 2 + - / 8 - 0) (/ 50)) as [G|_]; [lra|].
  destruct (Rlt_dec (1 - (/ 2 + - / 8)) (/ 50)) as [G|_]; [lra|]. reflexivity.
Qed.
