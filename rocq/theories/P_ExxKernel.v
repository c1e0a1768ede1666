(** C62: the exact-exchange Poisson constants are the Coulomb kernels they stand for, and the stress and
    pressure constants are their derivatives. *)
From Coq Require Import Reals ZArith List Bool Lra Lia.
From Coquelicot Require Import Coquelicot.
From Verif Require Import CBase Lattice ExxKernel.
Import ListNotations.
Open Scope R_scope.

(** ** Specification *)

(** Radial Fourier integrand of a potential u at wave number G: a shell of radius r contributes its area times
    u(r) times the mean of exp(-iG.r) over the shell, sin(Gr)/(Gr). *)
Definition shell (u : R -> R) (G r : R) : R := 4 * PI * r ^ 2 * u r * (sin (G * r) / (G * r)).
(** The same for G = 0, where the mean is 1. *)
Definition shell0 (u : R -> R) (r : R) : R := 4 * PI * r ^ 2 * u r.
(** The bare Coulomb potential. *)
Definition coulomb (r : R) : R := / r.
(** Transform of erfc(omega r)/r written as a superposition of Gaussians exp(-G2 t), t up to 1/(4 omega^2). *)
Definition gauss (G2 t : R) : R := 4 * PI * exp (- (G2 * t)).
(** Same inputs with the stress or the pressure requested. *)
Definition for_stress (e : exx) : exx := Exx (divflag e) (omega e) (const_aux e) (vol e) (nk_hf e) true false.
Definition for_pressure (e : exx) : exx := Exx (divflag e) (omega e) (const_aux e) (vol e) (nk_hf e) false true.

(** ** Calculus *)
Ltac reqn := match goal with |- @eq _ ?a ?b => change (@eq R a b) end.
Lemma rltb_t a b : a < b -> Rltb a b = true.
Proof. unfold Rltb. destruct (Rlt_dec a b); tauto. Qed.
Lemma rltb_f a b : ~ a < b -> Rltb a b = false.
Proof. unfold Rltb. destruct (Rlt_dec a b); tauto. Qed.

Lemma nonneg_from_derive (f f' : R -> R) :
  (forall x, 0 <= x -> is_derive f x (f' x)) -> (forall x, 0 <= x -> 0 <= f' x) -> 0 <= f 0 -> forall x, 0 <= x -> 0 <= f x.
Proof.
  intros D P Z x Hx. destruct (Rle_lt_or_eq_dec _ _ Hx) as [H|H]; [|subst; exact Z].
  destruct (MVT_gen f 0 x f') as [c [Hc E]].
  - intros y Hy. rewrite Rmin_left in Hy by lra. apply D. lra.
  - intros y Hy. rewrite Rmin_left, Rmax_right in Hy by lra.
    apply continuity_pt_filterlim. apply (ex_derive_continuous (V := R_NormedModule)). exists (f' y). apply D. lra.
  - rewrite Rmin_left, Rmax_right in Hc by lra.
    pose proof (P c ltac:(lra)). assert (0 <= f' c * (x - 0)) by (apply Rmult_le_pos; lra). lra.
Qed.

Lemma cos_upper0 x : 0 <= x -> 0 <= x - sin x.
Proof.
  intros Hx. apply (nonneg_from_derive (fun x => x - sin x) (fun x => 1 - cos x)); auto.
  - intros. auto_derive; auto. ring.
  - intros. pose proof (COS_bound x0). lra.
  - rewrite sin_0. lra.
Qed.
Lemma cos_lo2 x : 0 <= x -> 0 <= cos x - (1 - x ^ 2 / 2).
Proof.
  intros Hx. apply (nonneg_from_derive (fun x => cos x - (1 - x ^ 2 / 2)) (fun x => x - sin x)); auto.
  - intros. auto_derive; auto. field.
  - intros. apply cos_upper0; auto.
  - rewrite cos_0. lra.
Qed.
Lemma sin_lo3 x : 0 <= x -> 0 <= sin x - (x - x ^ 3 / 6).
Proof.
  intros Hx. apply (nonneg_from_derive (fun x => sin x - (x - x ^ 3 / 6)) (fun x => cos x - (1 - x ^ 2 / 2))); auto.
  - intros. auto_derive; auto. field.
  - intros. apply cos_lo2; auto.
  - rewrite sin_0. lra.
Qed.
Lemma cos_up4 x : 0 <= x -> 0 <= (1 - x ^ 2 / 2 + x ^ 4 / 24) - cos x.
Proof.
  intros Hx. apply (nonneg_from_derive (fun x => (1 - x ^ 2 / 2 + x ^ 4 / 24) - cos x) (fun x => sin x - (x - x ^ 3 / 6))); auto.
  - intros. auto_derive; auto. field.
  - intros. apply sin_lo3; auto.
  - rewrite cos_0. lra.
Qed.
Lemma sin_up5 x : 0 <= x -> 0 <= (x - x ^ 3 / 6 + x ^ 5 / 120) - sin x.
Proof.
  intros Hx. apply (nonneg_from_derive (fun x => (x - x ^ 3 / 6 + x ^ 5 / 120) - sin x) (fun x => (1 - x ^ 2 / 2 + x ^ 4 / 24) - cos x)); auto.
  - intros. auto_derive; auto. field.
  - intros. apply cos_up4; auto.
  - rewrite sin_0. lra.
Qed.
Lemma cos_lo6 x : 0 <= x -> 0 <= cos x - (1 - x ^ 2 / 2 + x ^ 4 / 24 - x ^ 6 / 720).
Proof.
  intros Hx. apply (nonneg_from_derive (fun x => cos x - (1 - x ^ 2 / 2 + x ^ 4 / 24 - x ^ 6 / 720)) (fun x => (x - x ^ 3 / 6 + x ^ 5 / 120) - sin x)); auto.
  - intros. auto_derive; auto. field.
  - intros. apply sin_up5; auto.
  - rewrite cos_0. lra.
Qed.

Lemma R_c_pos e : 0 < R_c e.
Proof. apply exp_pos. Qed.

Lemma big_t G2 : G2TOL < G2 -> Rltb G2TOL (Rabs G2) = true.
Proof. intros H. apply rltb_t. rewrite Rabs_pos_eq; auto. unfold G2TOL in H. lra. Qed.
Lemma big_f G2 : 0 <= G2 <= G2TOL -> Rltb G2TOL (Rabs G2) = false.
Proof. intros H. apply rltb_f. rewrite Rabs_pos_eq; lra. Qed.

Lemma int_by (F f : R -> R) a b v : (forall x, is_derive F x (f x)) -> (forall x, ex_derive f x) -> F b - F a = v -> is_RInt f a b v.
Proof.
  intros D C <-. change (is_RInt f a b (minus (F b) (F a))). apply (is_RInt_derive (V := R_CompleteNormedModule)).
  - intros x _. apply D.
  - intros x _. apply (ex_derive_continuous (V := R_NormedModule)). apply C.
Qed.

(** ** The cut-off sphere *)

(** The truncation sphere has the volume of the k-point supercell. *)
Theorem C62_sphere e : 0 < vol e -> 0 < nk_hf e -> 0 < R_c e /\ 4 / 3 * PI * R_c e ^ 3 = vol e * nk_hf e.
Proof.
  intros Hv Hn. split; [apply R_c_pos|].
  assert (P := PI_RGT_0). assert (Q : 0 < 3 * Vtot e / (4 * PI)).
  { unfold Vtot. apply Rdiv_lt_0_compat; [|lra]. apply Rmult_lt_0_compat; [lra|]. apply Rmult_lt_0_compat; auto. }
  rewrite <- (Rpower_pow 3 (R_c e)) by apply R_c_pos. unfold R_c. rewrite Rpower_mult.
  replace (1 / 3 * INR 3) with 1 by (simpl; lra). rewrite Rpower_1 by auto. unfold Vtot. field. lra.
Qed.

(** ** Kernels *)

Lemma shell_int G R : 0 < G -> 0 < R -> is_RInt (shell coulomb G) 0 R (4 * PI * (1 - cos (R * G)) / G ^ 2).
Proof.
  intros HG HR.
  apply (is_RInt_ext (fun r => 4 * PI * sin (G * r) / G)).
  { intros r Hr. rewrite Rmin_left in Hr by lra. unfold shell, coulomb; reqn. field. lra. }
  apply (int_by (fun r => - (4 * PI * cos (G * r)) / G ^ 2)).
  - intros r. auto_derive; auto. field. lra.
  - intros r. auto_derive. auto.
  - replace (G * 0) with 0 by ring. rewrite cos_0, (Rmult_comm R G). field. lra.
Qed.

(** Spherical truncation (flag 0): above the threshold the constant is the Fourier transform of the Coulomb
    potential cut at R_c; at G = 0 it is the integral of that potential. *)
Theorem C62_truncated e : divflag e = 0%Z ->
  (forall G, 0 < G -> G2TOL < G ^ 2 -> is_RInt (shell coulomb G) 0 (R_c e) (kval e (G ^ 2))) /\
  is_RInt (shell0 coulomb) 0 (R_c e) (kval e 0).
Proof.
  intros F. pose proof (R_c_pos e) as HR. split.
  - intros G HG HT. unfold kval, singularity_remooval_const. rewrite F, (big_t (G ^ 2) HT). cbn [Z.eqb Pos.eqb].
    replace (sqrt (G ^ 2)) with G by (symmetry; apply sqrt_pow2; lra). cbn [ek]. apply shell_int; auto.
  - unfold kval, singularity_remooval_const. rewrite F, (big_f 0). 2:{ unfold G2TOL; lra. } cbn [Z.eqb Pos.eqb ek].
    apply (is_RInt_ext (fun r => 4 * PI * r)).
    { intros r Hr. rewrite Rmin_left in Hr by lra. unfold shell0, coulomb; reqn. field. lra. }
    apply (int_by (fun r => 2 * PI * r ^ 2)).
    + intros r. auto_derive; auto. ring.
    + intros r. auto_derive. auto.
    + ring.
Qed.

(** Between 0 and the threshold the stored constant exceeds the transform by at most pi/6 R_c^4 G^2. *)
Theorem C62_truncated_small e G : divflag e = 0%Z -> 0 < G -> G ^ 2 <= G2TOL ->
  exists w, is_RInt (shell coulomb G) 0 (R_c e) w /\ 0 <= kval e (G ^ 2) - w <= PI / 6 * R_c e ^ 4 * G ^ 2.
Proof.
  intros F HG HT. pose proof (R_c_pos e) as HR. eexists. split; [apply shell_int; auto|].
  unfold kval, singularity_remooval_const. rewrite F, big_f. 2:{ split; auto. apply pow2_ge_0. } cbn [Z.eqb Pos.eqb ek].
  set (R := R_c e) in *. set (x := R * G). assert (Hx : 0 < x) by (apply Rmult_lt_0_compat; auto).
  pose proof (cos_lo2 x ltac:(lra)) as C1. pose proof (cos_up4 x ltac:(lra)) as C2. assert (P := PI_RGT_0).
  replace (2 * PI * (R * R) - 4 * PI * (1 - cos x) / G ^ 2) with (4 * PI * (cos x - (1 - x ^ 2 / 2)) / G ^ 2) by (unfold x; field; lra).
  assert (HG2 : 0 < G ^ 2) by (apply pow_lt; auto).
  split.
  - apply Rmult_le_pos; [|left; apply Rinv_0_lt_compat; auto]. apply Rmult_le_pos; lra.
  - replace (PI / 6 * R ^ 4 * G ^ 2) with (4 * PI * (x ^ 4 / 24) / G ^ 2) by (unfold x; field; lra).
    apply Rmult_le_compat_r; [left; apply Rinv_0_lt_compat; auto|]. apply Rmult_le_compat_l; lra.
Qed.

Lemma gauss_int G2 T : 0 < G2 -> is_RInt (gauss G2) 0 T (4 * PI * (1 - exp (- (G2 * T))) / G2).
Proof.
  intros HG.
  apply (int_by (fun t => - (4 * PI * exp (- (G2 * t))) / G2)).
  - intros t. unfold gauss. auto_derive; auto. field. lra.
  - intros t. unfold gauss. auto_derive. auto.
  - replace (G2 * 0) with 0 by ring. rewrite Ropp_0, exp_0. field. lra.
Qed.

(** Screened exchange: the constant is the transform of erfc(omega r)/r, for ERFC at every resolved wave vector
    and at 0, for the auxiliary-function method (omega > 0) at every resolved wave vector. *)
Theorem C62_screened e : omega e <> 0 ->
  (divflag e = 2%Z -> is_RInt (gauss 0) 0 (/ (4 * omega e ^ 2)) (kval e 0)) /\
  (forall G2, G2TOL < G2 -> divflag e = 2%Z \/ (divflag e = 1%Z /\ 0 < omega e) ->
     is_RInt (gauss G2) 0 (/ (4 * omega e ^ 2)) (kval e G2)).
Proof.
  intros W. split.
  - intros F. unfold kval, singularity_remooval_const. rewrite F, (big_f 0). 2:{ unfold G2TOL; lra. } cbn [Z.eqb Pos.eqb ek].
    apply (is_RInt_ext (fun _ => 4 * PI)).
    { intros r _. unfold gauss; reqn. rewrite Rmult_0_l, Ropp_0, exp_0. ring. }
    replace (PI / omega2 e) with (scal (/ (4 * omega e ^ 2) - 0) (4 * PI)).
    2:{ unfold scal; simpl; unfold mult; simpl; reqn. unfold omega2. field. auto. }
    apply (is_RInt_const (V := R_NormedModule)).
  - intros G2 HT H. assert (HG : 0 < G2) by (unfold G2TOL in HT; lra).
    assert (A : - / 4 / omega2 e * G2 = - (G2 * / (4 * omega e ^ 2))) by (unfold omega2; field; auto).
    replace (kval e G2) with (4 * PI * (1 - exp (- (G2 * / (4 * omega e ^ 2)))) / G2); [apply gauss_int; auto|].
    unfold kval, singularity_remooval_const. rewrite (big_t G2 HT), A.
    destruct H as [-> | [-> P]]; cbn [Z.eqb Pos.eqb ek].
    + reflexivity.
    + rewrite (rltb_t _ _ P). cbv zeta. cbn [ek]. set (y := exp _). field. lra.
Qed.

(** Unscreened exchange with the auxiliary function: 4 pi / G^2 at every resolved wave vector, so that the
    constant solves the Poisson equation  -lap v = 4 pi rho. *)
Theorem C62_bare e G2 : divflag e = 1%Z -> omega e <= 0 -> G2TOL < G2 -> G2 * kval e G2 = 4 * PI.
Proof.
  intros F W HT. unfold kval, singularity_remooval_const. rewrite F, (big_t G2 HT), rltb_f by lra. cbn [Z.eqb Pos.eqb ek].
  field. unfold G2TOL in HT. lra.
Qed.

(** ** Derivatives *)

Lemma near_big G2 : G2TOL < G2 -> locally G2 (fun g => G2TOL < g).
Proof. intros H. apply (locally_interval _ G2 G2TOL p_infty); simpl; auto. Qed.

(** The stress constants are minus the derivative of the kernel with respect to the squared wave vector, at
    fixed cut-off: flags 0 (truncation) and 2 (ERFC). *)
Theorem C62_stress e G2 : divflag e = 0%Z \/ divflag e = 2%Z -> omega e <> 0 -> cstress e = true -> G2TOL < G2 ->
  exists s, est (singularity_remooval_const e G2) = Some s /\ is_derive (kval e) G2 (- s).
Proof.
  intros F W S HT. assert (HG : 0 < G2) by (unfold G2TOL in HT; lra).
  destruct F as [F | F].
  - exists (4 * PI * (1 - cos (R_c e * sqrt G2) - R_c e * sqrt G2 / 2 * sin (R_c e * sqrt G2)) / (G2 * G2)). split.
    + unfold singularity_remooval_const. rewrite F, (big_t G2 HT), S. reflexivity.
    + apply (is_derive_ext_loc (fun g => 4 * PI * (1 - cos (R_c e * sqrt g)) / g)).
      { eapply filter_imp; [|apply (near_big G2 HT)]. intros g Hg. unfold kval, singularity_remooval_const.
        rewrite F, (big_t g Hg). reflexivity. }
      auto_derive; [split; [auto|split; [lra|auto]]|].
      assert (Q : 0 < sqrt G2) by (apply sqrt_lt_R0; auto).
      assert (E : sqrt G2 * sqrt G2 = G2) by (apply sqrt_sqrt; lra).
      set (q := sqrt G2) in *. set (c := cos _). set (sn := sin _). rewrite <- E. field. lra.
  - exists (4 * PI * (1 - exp (- / 4 / omega2 e * G2) * (1 - - / 4 / omega2 e * G2)) / (G2 * G2)). split.
    + unfold singularity_remooval_const. rewrite F, (big_t G2 HT), S. reflexivity.
    + apply (is_derive_ext_loc (fun g => 4 * PI * (1 - exp (- / 4 / omega2 e * g)) / g)).
      { eapply filter_imp; [|apply (near_big G2 HT)]. intros g Hg. unfold kval, singularity_remooval_const.
        rewrite F, (big_t g Hg). reflexivity. }
      auto_derive; [lra|]. set (y := exp _). unfold omega2. field. split; auto; lra.
Qed.

(** With the auxiliary function (flag 1) the stored constant is a quarter of minus the derivative. *)
Theorem C62_stress_auxiliary e G2 : divflag e = 1%Z -> cstress e = true -> G2TOL < G2 ->
  exists s, est (singularity_remooval_const e G2) = Some s /\ is_derive (kval e) G2 (- (4 * s)).
Proof.
  intros F S HT. assert (HG : 0 < G2) by (unfold G2TOL in HT; lra).
  destruct (Rlt_dec 0 (omega e)) as [W | W].
  - exists (4 * PI * (1 - exp (- / 4 / omega2 e * G2) * (1 - - / 4 / omega2 e * G2)) / (G2 * G2) / 4). split.
    + unfold singularity_remooval_const. rewrite F, (big_t G2 HT), S, (rltb_t _ _ W). reflexivity.
    + apply (is_derive_ext_loc (fun g => 4 * PI / g * (1 - exp (- / 4 / omega2 e * g)))).
      { eapply filter_imp; [|apply (near_big G2 HT)]. intros g Hg. unfold kval, singularity_remooval_const.
        rewrite F, (big_t g Hg), (rltb_t _ _ W). reflexivity. }
      auto_derive; [lra|]. set (y := exp _). unfold omega2. field. split; lra.
  - exists (4 * PI / (G2 * G2) / 4). split.
    + unfold singularity_remooval_const. rewrite F, (big_t G2 HT), S, (rltb_f _ _ W). reflexivity.
    + apply (is_derive_ext_loc (fun g => 4 * PI / g)).
      { eapply filter_imp; [|apply (near_big G2 HT)]. intros g Hg. unfold kval, singularity_remooval_const.
        rewrite F, (big_t g Hg), (rltb_f _ _ W). reflexivity. }
      auto_derive; [lra|]. field. lra.
Qed.

Lemma R_c_derive e : 0 < vol e -> 0 < nk_hf e -> is_derive (fun v => R_c (set_vol e v)) (vol e) (R_c e / (3 * vol e)).
Proof.
  intros Hv Hn. assert (P := PI_RGT_0). unfold R_c, Rpower, Vtot, set_vol. cbn [vol nk_hf].
  auto_derive; [|].
  - apply Rdiv_lt_0_compat; [|lra]. apply Rmult_lt_0_compat; [lra|]. apply Rmult_lt_0_compat; auto.
  - set (y := exp _). field. repeat split; lra.
Qed.

(** The second stress constant of spherical truncation is half the logarithmic derivative of the kernel with
    respect to the cell volume, through the cut-off radius. *)
Theorem C62_volume e G2 : divflag e = 0%Z -> cstress e = true -> 0 < vol e -> 0 < nk_hf e -> 0 <= G2 ->
  exists s, est2 (singularity_remooval_const e G2) = Some s /\
    is_derive (fun v => kval (set_vol e v) G2) (vol e) (2 * s / vol e).
Proof.
  intros F S Hv Hn HG0. pose proof (R_c_derive e Hv Hn) as D.
  assert (E0 : set_vol e (vol e) = e) by (destruct e; reflexivity).
  destruct (Rlt_dec G2TOL G2) as [HT | HT].
  - assert (HG : 0 < G2) by (unfold G2TOL in HT; lra).
    assert (Q : 0 < sqrt G2) by (apply sqrt_lt_R0; auto).
    assert (E : sqrt G2 * sqrt G2 = G2) by (apply sqrt_sqrt; lra).
    exists (4 * PI * (R_c e * sqrt G2 / 2 * sin (R_c e * sqrt G2)) / G2 / 3). split.
    + unfold singularity_remooval_const. rewrite F, (big_t G2 HT), S. reflexivity.
    + apply (is_derive_ext (fun v => (fun r => 4 * PI * (1 - cos (r * sqrt G2)) / G2) (R_c (set_vol e v)))).
      { intros v. unfold kval, singularity_remooval_const. cbn [divflag set_vol]. rewrite F, (big_t G2 HT). reflexivity. }
      replace (2 * (4 * PI * (R_c e * sqrt G2 / 2 * sin (R_c e * sqrt G2)) / G2 / 3) / vol e)
        with (scal (R_c e / (3 * vol e)) (4 * PI * (sqrt G2 * sin (R_c e * sqrt G2)) / G2)).
      2:{ unfold scal; simpl; unfold mult; simpl; reqn. field. split; lra. }
      apply (is_derive_comp (V := R_NormedModule) (fun r => 4 * PI * (1 - cos (r * sqrt G2)) / G2)
               (fun v => R_c (set_vol e v))); [|exact D].
      rewrite E0. auto_derive; auto. field. lra.
  - exists (4 * PI * (R_c e * R_c e / 2) / 3). split.
    + unfold singularity_remooval_const. rewrite F, big_f, S by lra. reflexivity.
    + apply (is_derive_ext (fun v => (fun r => 2 * PI * (r * r)) (R_c (set_vol e v)))).
      { intros v. unfold kval, singularity_remooval_const. cbn [divflag set_vol]. rewrite F, big_f by lra. reflexivity. }
      replace (2 * (4 * PI * (R_c e * R_c e / 2) / 3) / vol e) with (scal (R_c e / (3 * vol e)) (4 * PI * R_c e)).
      2:{ unfold scal; simpl; unfold mult; simpl; reqn. field. lra. }
      apply (is_derive_comp (V := R_NormedModule) (fun r => 2 * PI * (r * r)) (fun v => R_c (set_vol e v))); [|exact D].
      rewrite E0. auto_derive; auto. ring.
Qed.

(** The constant stored for the stress at G = 0 (flag 0) is the limit of the resolved formula: at squared wave
    number g it differs from it by at most pi R_c^6 g / 30. *)
Theorem C62_stress_limit e G : divflag e = 0%Z -> cstress e = true -> 0 < G ->
  exists s0, est (singularity_remooval_const e 0) = Some s0 /\
    let x := R_c e * G in
    Rabs (s0 - 4 * PI * (1 - cos x - x / 2 * sin x) / G ^ 4) <= PI / 30 * R_c e ^ 6 * G ^ 2.
Proof.
  intros F S HG. eexists. split.
  { unfold singularity_remooval_const. rewrite F, (big_f 0), S. 2:{ unfold G2TOL; lra. } reflexivity. }
  cbv zeta. pose proof (R_c_pos e) as HR. set (R := R_c e) in *. set (x := R * G).
  assert (Hx : 0 < x) by (apply Rmult_lt_0_compat; auto).
  pose proof (cos_up4 x ltac:(lra)) as C1. pose proof (cos_lo6 x ltac:(lra)) as C2.
  pose proof (sin_lo3 x ltac:(lra)) as S1. pose proof (sin_up5 x ltac:(lra)) as S2.
  assert (P := PI_RGT_0). assert (HG4 : 0 < G ^ 4) by (apply pow_lt; auto).
  set (d := x ^ 4 / 24 - (1 - cos x - x / 2 * sin x)).
  replace (4 * PI * R ^ 4 / 24 - 4 * PI * (1 - cos x - x / 2 * sin x) / G ^ 4) with (4 * PI * d / G ^ 4).
  2:{ unfold d, x. field. lra. }
  replace (PI / 30 * R ^ 6 * G ^ 2) with (4 * PI * (x ^ 6 / 120) / G ^ 4) by (unfold x; field; lra).
  assert (M1 : x / 2 * (x - x ^ 3 / 6) <= x / 2 * sin x) by (apply Rmult_le_compat_l; lra).
  assert (M2 : x / 2 * sin x <= x / 2 * (x - x ^ 3 / 6 + x ^ 5 / 120)) by (apply Rmult_le_compat_l; lra).
  assert (Hx6 : 0 < x ^ 6) by (apply pow_lt; auto).
  assert (B : Rabs d <= x ^ 6 / 120).
  { apply Rabs_le. unfold d.
    replace (x / 2 * (x - x ^ 3 / 6)) with (x ^ 2 / 2 - x ^ 4 / 12) in M1 by field.
    replace (x / 2 * (x - x ^ 3 / 6 + x ^ 5 / 120)) with (x ^ 2 / 2 - x ^ 4 / 12 + x ^ 6 / 240) in M2 by field.
    lra. }
  unfold Rdiv. rewrite Rabs_mult, Rabs_mult, (Rabs_pos_eq (4 * PI)) by lra.
  rewrite (Rabs_pos_eq (/ G ^ 4)) by (left; apply Rinv_0_lt_compat; auto).
  apply Rmult_le_compat_r; [left; apply Rinv_0_lt_compat; auto|]. apply Rmult_le_compat_l; lra.
Qed.

(** ** Stress and pressure *)

(** The two ways to the pressure agree: with spherical truncation the trace of the stress constants is the
    kernel itself (so no separate pressure table is needed: the exchange energy scales as 1/length); with the
    other two methods the pressure constant is the trace of the stress constant. *)
Theorem C62_trace e G2 : G2TOL < G2 \/ G2 = 0 -> In (divflag e) [0; 1; 2]%Z ->
  (divflag e = 0%Z -> exists s s2, est (singularity_remooval_const (for_stress e) G2) = Some s /\
     est2 (singularity_remooval_const (for_stress e) G2) = Some s2 /\ G2 * s + 3 * s2 = kval e G2) /\
  (divflag e <> 0%Z -> exists s p, est (singularity_remooval_const (for_stress e) G2) = Some s /\
     epr (singularity_remooval_const (for_pressure e) G2) = Some p /\ p = G2 * s).
Proof.
  intros HG I. destruct e as [f w ca v nk cs cp]. unfold for_stress, for_pressure, kval, singularity_remooval_const.
  cbn [divflag omega const_aux vol nk_hf cstress cpres] in *.
  assert (RE : forall a b, R_c (Exx f w ca v nk a b) = R_c (Exx f w ca v nk cs cp)) by reflexivity.
  destruct HG as [HT | ->].
  - assert (HG : 0 < G2) by (unfold G2TOL in HT; lra). rewrite (big_t G2 HT).
    destruct I as [<- | [<- | [<- | []]]]; cbn [Z.eqb Pos.eqb]; split; intros X; try discriminate X; try (exfalso; apply X; reflexivity).
    + cbn [ek est est2 when]. do 2 eexists. split; [reflexivity|]. split; [reflexivity|].
      unfold R_c, Vtot. cbn [vol nk_hf]. field. lra.
    + destruct (Rltb 0 w); cbn [est epr when negb andb]; do 2 eexists; (split; [reflexivity|]); (split; [reflexivity|]); unfold omega2; cbn [omega]; try generalize (- / 4 / (w * w) * G2); intros; field; lra.
    + cbn [est epr when negb andb]. do 2 eexists. split; [reflexivity|]. split; [reflexivity|]. unfold omega2. cbn [omega]. generalize (- / 4 / (w * w) * G2); intros; field; lra.
  - rewrite (big_f 0). 2:{ unfold G2TOL; lra. }
    destruct I as [<- | [<- | [<- | []]]]; cbn [Z.eqb Pos.eqb]; split; intros X; try discriminate X; try (exfalso; apply X; reflexivity).
    + cbn [ek est est2 when]. do 2 eexists. split; [reflexivity|]. split; [reflexivity|].
      unfold R_c, Vtot. cbn [vol nk_hf]. field.
    + destruct (Rltb 0 w); cbn [est epr when negb andb]; do 2 eexists; (split; [reflexivity|]); (split; [reflexivity|]); ring.
    + cbn [est epr when negb andb]. do 2 eexists. split; [reflexivity|]. split; [reflexivity|]. ring.
Qed.

(** ** Memory *)

Definition written (o : option R) : bool := match o with Some _ => true | None => false end.

(** Every call writes exactly the tables that were allocated, and the property evaluation that follows reads only
    those, as long as Calc_stress and Calc_pres stay what they were at initialisation. *)
Theorem C62_tables e G2 : In (divflag e) [0; 1; 2]%Z ->
  let r := singularity_remooval_const e G2 in
  allocate_tables e = Tab (written (ek r)) (written (est r)) (written (est2 r)) (written (epr r)) /\
  calculate_properties (allocate_tables e) e <> UB.
Proof.
  intros I r. split.
  - subst r. unfold singularity_remooval_const, allocate_tables.
    destruct I as [<- | [<- | [<- | []]]]; cbn [Z.eqb Pos.eqb]; destruct (Rltb G2TOL (Rabs G2)), (cstress e), (cpres e); cbn [negb andb];
      try destruct (Rltb 0 (omega e)); reflexivity.
  - unfold calculate_properties, allocate_tables, properties_read, sub_tables.
    destruct (cstress e), (cpres e), (divflag e =? 0)%Z; discriminate.
Qed.

(** REFUTED: a cell relaxation (RELAX_FLAG 2 or 3) of a hybrid functional without CALC_STRESS: 1 in the input
    reads the stress constants although they were never allocated. *)
Theorem C62_relax_refuted : exists e, divflag e = 0%Z /\ 0 < vol e /\
  calculate_properties (allocate_tables e) e <> UB /\ calculate_properties (allocate_tables e) (turn_stress_on e) = UB.
Proof. exists (Exx 0 (-1) 0 1 1 false false). repeat split; cbn; try lra; discriminate. Qed.

(** REFUTED: the tables follow the cell.  They are filled once, so after a change of volume the stored constant
    is not the one of the new cell. *)
Theorem C62_stale_refuted : exists e v, divflag e = 0%Z /\ 0 < vol e /\ 0 < v /\ kval e 0 <> kval (set_vol e v) 0.
Proof.
  exists (Exx 0 (-1) 0 1 1 false false), 8.
  split; [reflexivity|]. split; [cbn; lra|]. split; [lra|].
  set (e := Exx 0 (-1) 0 1 1 false false).
  destruct (C62_sphere e) as [P1 S1]; [cbn; lra|cbn; lra|].
  destruct (C62_sphere (set_vol e 8)) as [P2 S2]; [cbn; lra|cbn; lra|].
  unfold kval, singularity_remooval_const. cbn [divflag set_vol e Z.eqb Pos.eqb]. rewrite (big_f 0). 2:{ unfold G2TOL; lra. } cbn [ek].
  fold e. fold (set_vol e 8). cbn in S1, S2. assert (P := PI_RGT_0).
  intros H. apply Rmult_eq_reg_l in H; [|lra].
  assert (E : R_c e = R_c (set_vol e 8)) by nra.
  change (R_c (set_vol e 8)) with (R_c (Exx 0 (-1) 0 8 1 false false)) in E.
  change (R_c (Exx 0 (-1) 0 8 1 false false)) with (R_c (set_vol e 8)) in E.
  rewrite <- E in S2. lra.
Qed.

(** REFUTED for the auxiliary function: the stress constant is minus the derivative of the kernel. *)
Theorem C62_auxiliary_stress_refuted : exists e G2 s, divflag e = 1%Z /\ omega e < 0 /\ G2TOL < G2 /\
  est (singularity_remooval_const e G2) = Some s /\ ~ is_derive (kval e) G2 (- s).
Proof.
  set (e := Exx 1 (-1) 0 1 1 true false).
  destruct (C62_stress_auxiliary e 1) as [s [Hs Hd]]; [reflexivity|reflexivity|unfold G2TOL; lra|].
  exists e, 1, s. split; [reflexivity|]. split; [cbn; lra|]. split; [unfold G2TOL; lra|]. split; [exact Hs|].
  intros D. pose proof (is_derive_unique _ _ _ Hd) as E1. pose proof (is_derive_unique _ _ _ D) as E2.
  assert (s = 0) by lra. subst s.
  unfold singularity_remooval_const in Hs. cbn [e divflag Z.eqb Pos.eqb cstress omega] in Hs.
  rewrite (big_t 1), rltb_f in Hs; [|lra|unfold G2TOL; lra]. cbn in Hs. injection Hs as Hs. assert (P := PI_RGT_0). lra.
Qed.

(** REFUTED: every non-zero wave vector gets its own kernel value.  With the auxiliary function a wave vector
    below the threshold (a long supercell of k-points) gets the constant of G = 0 instead. *)
Theorem C62_small_vector_refuted : exists e G2, divflag e = 1%Z /\ omega e < 0 /\ 0 < G2 /\ G2 * kval e G2 <> 4 * PI.
Proof.
  exists (Exx 1 (-1) 0 1 1 true false), (/ 100000). split; [reflexivity|]. split; [cbn; lra|]. split; [lra|].
  unfold kval, singularity_remooval_const. cbn [divflag Z.eqb Pos.eqb omega]. rewrite big_f, rltb_f; [|lra|unfold G2TOL; lra]. cbn [ek const_aux].
  assert (P := PI_RGT_0). lra.
Qed.

(** ** Example: the hypotheses are met *)
Definition ex_exx : exx := Exx 2 (1587 / 10000) 0 1000 8 true false.
Example C62_example :
  divflag ex_exx = 2%Z /\ omega ex_exx <> 0 /\ cstress ex_exx = true /\ 0 < vol ex_exx /\ 0 < nk_hf ex_exx /\ G2TOL < 1 /\
  is_RInt (gauss 1) 0 (/ (4 * omega ex_exx ^ 2)) (kval ex_exx 1) /\
  In (divflag ex_exx) [0; 1; 2]%Z.
Proof.
  split; [reflexivity|]. split; [cbn; lra|]. split; [reflexivity|]. split; [cbn; lra|]. split; [cbn; lra|]. split; [unfold G2TOL; lra|].
  split; [|cbn; auto]. apply C62_screened; [cbn; lra|unfold G2TOL; lra|]. left. reflexivity.
Qed.
Example C62_example0 : let e := Exx 0 (-1) 0 1000 8 true false in
  is_RInt (shell coulomb 1) 0 (R_c e) (kval e (1 ^ 2)) /\ 4 / 3 * PI * R_c e ^ 3 = 8000.
Proof.
  cbv zeta. split.
  - refine (proj1 (C62_truncated (Exx 0 (-1) 0 1000 8 true false) eq_refl) 1 _ _); [lra|unfold G2TOL; lra].
  - destruct (C62_sphere (Exx 0 (-1) 0 1000 8 true false)) as [_ H]; [cbn; lra|cbn; lra|]. rewrite H. cbn. lra.
Qed.

Print Assumptions C62_sphere.
Print Assumptions C62_truncated.
Print Assumptions C62_truncated_small.
Print Assumptions C62_screened.
Print Assumptions C62_bare.
Print Assumptions C62_stress.
Print Assumptions C62_stress_auxiliary.
Print Assumptions C62_volume.
Print Assumptions C62_stress_limit.
Print Assumptions C62_trace.
Print Assumptions C62_tables.
Print Assumptions C62_relax_refuted.
Print Assumptions C62_stale_refuted.
Print Assumptions C62_auxiliary_stress_refuted.
Print Assumptions C62_small_vector_refuted.
