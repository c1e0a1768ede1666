(** C65: the spin-polarised exchange-correlation functions return the published energies per particle, their
    potentials are the derivatives of the energy per volume with respect to the two spin densities and the squared
    gradients, they obey the spin-scaling relation, are symmetric in the two spins and reduce to the unpolarised
    functions at zero magnetisation. *)
From Coq Require Import Reals ZArith Bool Lra Lia Psatz.
From Coquelicot Require Import Coquelicot.
From Verif Require Import CBase Xc XcLem P_Xc XcSpin XcSpinLem.
Local Open Scope R_scope.

(** ** Specification *)
(** energy per particle returned by a function; 0 if it fails *)
Definition enx (o : outcome (R * (R * R) * (R * R))) : R := match o with Ok (e, _, _) => e | _ => 0 end.
Definition enc (o : outcome (R * (R * R) * R)) : R := match o with Ok (e, _, _) => e | _ => 0 end.
(** along every differentiable path of the spin densities (u(t), d(t)) with u(t), d(t) > 0 the energy per volume
    changes by vu du + vd dd *)
Definition lsda_variation (f : R -> R -> R -> outcome (R * R * R)) : Prop :=
  forall (u d : R -> R) (t u' d' : R), 0 < u t -> 0 < d t -> is_derive u t u' -> is_derive d t d' ->
  exists e vu vd, f (u t + d t) (u t) (d t) = Ok (e, vu, vd) /\
    is_derive (fun x => (u x + d x) * en3 (f (u x + d x) (u x) (d x))) t (vu * u' + vd * d').
(** the same for a function of the squared gradients su, sd of the two spin densities: an additional change
    v2u/2 dsu + v2d/2 dsd *)
Definition ggax_variation (f : R -> R -> R -> R -> R -> outcome (R * (R * R) * (R * R))) (lo : R) : Prop :=
  forall (u d a b : R -> R) (t u' d' a' b' : R), 0 < u t -> 0 < d t -> lo < a t -> lo < b t ->
  is_derive u t u' -> is_derive d t d' -> is_derive a t a' -> is_derive b t b' ->
  exists e vu vd wu wd, f (u t + d t) (u t) (d t) (a t) (b t) = Ok (e, (vu, vd), (wu, wd)) /\
    is_derive (fun x => (u x + d x) * enx (f (u x + d x) (u x) (d x) (a x) (b x))) t
      (vu * u' + vd * d' + wu / 2 * a' + wd / 2 * b').
(** the same for a function of the squared gradient of the total density *)
Definition ggac_variation (f : R -> R -> R -> R -> outcome (R * (R * R) * R)) : Prop :=
  forall (u d s : R -> R) (t u' d' s' : R), 0 < u t -> 0 < d t -> 0 < s t ->
  is_derive u t u' -> is_derive d t d' -> is_derive s t s' ->
  exists e vu vd w, f (u t + d t) (u t) (d t) (s t) = Ok (e, (vu, vd), w) /\
    is_derive (fun x => (u x + d x) * enc (f (u x + d x) (u x) (d x) (s x))) t (vu * u' + vd * d' + w / 2 * s').
(** Exact spin scaling, E[u,d] = (E[2u] + E[2d])/2: the energy per volume is the mean of the unpolarised ones, the
    potentials are the unpolarised ones at twice the density (gradient squared times four), and the derivative with
    respect to the squared gradient doubles. *)
Definition spin_scaled (g : R -> R -> outcome (R * R * R)) (o : outcome (R * (R * R) * (R * R))) (u d a b : R) : Prop :=
  exists e vu vd wu wd eu ed, o = Ok (e, (vu, vd), (2 * wu, 2 * wd)) /\
    g (2 * u) (4 * a) = Ok (eu, vu, wu) /\ g (2 * d) (4 * b) = Ok (ed, vd, wd) /\
    (u + d) * e = (2 * u * eu + 2 * d * ed) / 2.

(** Perdew and Wang 1992: interpolation in the polarisation; z is the polarisation and y the value used inside f *)
Definition fpol (y : R) : R := (Rpower (1 + y) (4 / 3) + Rpower (1 - y) (4 / 3) - 2) / (Rpower 2 (4 / 3) - 2).
Definition Gpw (A a1 b1 b2 b3 b4 rs : R) : R :=
  - (2 * A) * (1 + a1 * rs)
  * ln (1 + 1 / (2 * A * (b1 * Rpower rs (1 / 2) + b2 * rs + b3 * Rpower rs (3 / 2) + b4 * rs ^ 2))).
Definition PW92pol (rs z y : R) : R :=
  let e0 := PW92 rs in
  let e1 := Gpw 0.015545 0.20548 14.1189 6.1977 3.3662 0.62517 rs in
  let al := - Gpw 0.016887 0.11125 10.357 3.6231 0.88026 0.49671 rs in
  e0 + al * fpol y / 1.709921 * (1 - z ^ 4) + (e1 - e0) * fpol y * z ^ 4.
(** Perdew, Burke, Ernzerhof 1996 with polarisation; t is the squared reduced gradient without the factor phi *)
Definition phi (y : R) : R := (Rpower (1 + y) (2 / 3) + Rpower (1 - y) (2 / 3)) / 2.
Definition Hpol (be ec ph t : R) : R :=
  let ga := (1 - ln 2) / PI ^ 2 in
  let T := t / ph ^ 2 in
  let A := be / ga / (exp (- ec / (ga * ph ^ 3)) - 1) in
  ga * ph ^ 3 * ln (1 + be / ga * T * ((1 + A * T) / (1 + A * T + A ^ 2 * T ^ 2))).
(** the polarisation and the value the code uses for it in f and phi *)
Definition pol (u d : R) : R := (u - d) / (u + d).
Definition pol' (u d : R) : R := (1 - / 10 ^ 6) * pol u d.
Definition rs_of (rho : R) : R := 0.6203504908994000 * Rpower rho (- (1 / 3)).

(** ** Reductions *)
Lemma Gpw_eG A a b c d e rs : 0 < rs -> eG A a b c d e rs = Gpw A a b c d e rs.
Proof.
  intros H. unfold eG, Gpw, q1f. replace (3 / 2) with (1 + 1 / 2) by lra.
  rewrite Rpower_plus, Rpower_1 by easy. replace (1 / 2) with (/ 2) by lra. rewrite Rpower_sqrt by easy.
  generalize (sqrt rs). intros y.
  match goal with |- _ * ln (1 + 1 / ?a) = _ * ln (1 + 1 / ?b) => replace b with a by ring end.
  match goal with |- _ * ?l = _ => generalize l end. intros l. ring.
Qed.
Lemma wq43 y : 0 < y -> y * (y * (wq y * wq y)) = Rpower y (4 / 3).
Proof.
  intros H. unfold wq. replace (4 / 3) with (1 + (1 + (- (1 / 3) + - (1 / 3)))) by field.
  rewrite !Rpower_plus, Rpower_1 by easy. reflexivity.
Qed.
Lemma wq23 y : 0 < y -> wq y * y = Rpower y (2 / 3).
Proof. intros H. unfold wq. replace (2 / 3) with (- (1 / 3) + 1) by field. rewrite Rpower_plus, Rpower_1 by easy. reflexivity. Qed.
Lemma zp_y z : zp z = 1 + (1 - / 10 ^ 6) * z. Proof. unfold zp, alpha_zeta. field. Qed.
Lemma zm_y z : zm z = 1 - (1 - / 10 ^ 6) * z. Proof. unfold zm, alpha_zeta. field. Qed.
Lemma fz_fpol z : -1 <= z <= 1 -> fz z = fpol ((1 - / 10 ^ 6) * z).
Proof.
  intros B. destruct (zpm_pos z B) as [P M]. unfold fz, fpol. rewrite wq43, wq43 by easy. rewrite <- zp_y, <- zm_y.
  unfold factf_zeta. field. pose proof two43. pose proof two13_gt1. lra.
Qed.
Lemma phz_phi z : -1 <= z <= 1 -> phz z = phi ((1 - / 10 ^ 6) * z).
Proof.
  intros B. destruct (zpm_pos z B) as [P M]. unfold phz, phi. rewrite wq23, wq23 by easy. rewrite <- zp_y, <- zm_y. field.
Qed.
Lemma rs_of_eq rho : rsr rsfac rho = rs_of rho.
Proof. unfold rsr, rs_of, rsfac. generalize (Rpower rho (- (1 / 3))). intros y. dec. field. Qed.
Lemma els_PW rs z : 0 < rs -> -1 <= z <= 1 -> els rs z = PW92pol rs z ((1 - / 10 ^ 6) * z).
Proof.
  intros H B. unfold els, PW92pol. rewrite <- fz_fpol by easy. rewrite <- eG0_PW92 by easy. cbv zeta.
  assert (E1 : eG1 rs = Gpw 0.015545 0.20548 14.1189 6.1977 3.3662 0.62517 rs).
  { unfold eG1. rewrite Gpw_eG by easy. repeat match goal with |- Gpw ?a _ _ _ _ _ _ = _ => f_equal; dec; field end. }
  assert (Em : eGm rs = Gpw 0.016887 0.11125 10.357 3.6231 0.88026 0.49671 rs).
  { unfold eGm. rewrite Gpw_eG by easy. repeat match goal with |- Gpw ?a _ _ _ _ _ _ = _ => f_equal; dec; field end. }
  rewrite <- E1, <- Em. generalize (eG0 rs) (eG1 rs) (eGm rs) (fz z). intros. unfold fsec_inv. dec. field.
Qed.
Lemma hhf_Hpol be ec ph t : 0 < be -> ec < 0 -> 0 < ph -> 0 <= t -> hhf be gamma ec ph t = Hpol be ec ph t.
Proof.
  intros B E P T. pose proof gamma_pos as G. pose proof (cc_pos gamma G ec ph E P) as CP.
  pose proof (aa_pos be gamma B G ec ph E P) as AP.
  assert (EG : (1 - ln 2) / PI ^ 2 = gamma) by (unfold gamma; f_equal; ring).
  unfold hhf, Hpol, argf. rewrite EG. cbv zeta.
  assert (P3 : 0 < gamma * ph ^ 3) by (apply Rmult_lt_0_compat; [easy|now apply pow_lt]).
  assert (BE : - ec / (gamma * ph ^ 3) = - bbf gamma ec ph) by (unfold bbf; field; split; [lra|lra]).
  rewrite BE.
  assert (DN : 0 < exp (- bbf gamma ec ph) - 1).
  { assert (0 < - bbf gamma ec ph).
    { rewrite <- BE. apply Rdiv_lt_0_compat; lra. }
    rewrite <- exp_0. pose proof (exp_increasing 0 (- bbf gamma ec ph)). lra. }
  assert (EA : aaf be gamma ec ph = be / gamma / (exp (- bbf gamma ec ph) - 1) / ph ^ 2).
  { unfold aaf, ccf. field. repeat split; lra. }
  set (A := be / gamma / (exp (- bbf gamma ec ph) - 1)) in *.
  assert (AT : A * (t / ph ^ 2) = aaf be gamma ec ph * t) by (rewrite EA; field; lra).
  assert (XP : 0 <= aaf be gamma ec ph * t) by (apply Rmult_le_pos; lra). pose proof (den_pos _ XP) as DP.
  replace (A ^ 2 * (t / ph ^ 2) ^ 2) with ((A * (t / ph ^ 2)) ^ 2) by ring. rewrite AT.
  set (x := aaf be gamma ec ph * t) in *. clearbody x.
  match goal with |- _ = _ * ln ?b => match goal with |- context [ln ?a] => replace a with b end end; [ring|].
  unfold padef. field. repeat split; lra.
Qed.

(** ** Theorems *)
(** Slater exchange. *)
Theorem C65_slater :
  lsda_variation slater_spin /\
  forall u d, 0 < u -> 0 < d -> exists e, slater_spin (u + d) u d = Ok (e, 4 / 3 * eunif (2 * u), 4 / 3 * eunif (2 * d)) /\
    (u + d) * e = (2 * u * eunif (2 * u) + 2 * d * eunif (2 * d)) / 2.
Proof.
  assert (RUN : forall u d, 0 < u -> 0 < d -> slater_spin (u + d) u d =
    Ok ((eunif (2 * u) * u + eunif (2 * d) * d) / (u + d), 4 / 3 * eunif (2 * u), 4 / 3 * eunif (2 * d))).
  { intros u d U D. unfold slater_spin. apply wp_ok. apply wp_pow; [lra|]. fold (uu (u + d)). rewrite uu3 by lra.
    rewrite !slater_chan_run by easy. cbn [obind fst snd wp]. rewrite !exl_eunif by lra.
    f_equal. f_equal. field. lra. }
  split.
  - intros u d t u' d' U D DU DD. eexists _, _, _. split; [now apply RUN|].
    apply (der_ext_pos2 u d _ (fun x => exl (umot (2 * u x)) (2 * u x) * u x + exl (umot (2 * d x)) (2 * d x) * d x) 0 t u' d'); try easy.
    { intros x X Y. rewrite RUN by easy. cbn [en3]. rewrite !exl_eunif by lra. field. lra. }
    assert (K : forall (r : R -> R) (r' : R), 0 < r t -> is_derive r t r' ->
              is_derive (fun x => exl (umot (2 * r x)) (2 * r x) * r x) t (4 / 3 * eunif (2 * r t) * r')).
    { intros r r' Hr D0. pose proof (pbex_derive 1 (fun x => 2 * r x) (fun _ => 0) t (2 * r') 0 ltac:(lra) ltac:(lra) (der_scal r 2 t r' D0) (der_const 0 t)) as PD.
      assert (DZ : forall y, ssf y 0 = 0) by (intros y; unfold ssf; field).
      assert (D1 : divf 1 0 = 1) by (unfold divf; cbn [Z.eqb Pos.eqb]; rewrite Rmult_0_r; field).
      apply (der_ext (fun x => 1 / 2 * (2 * r x * pbex_e 1 (2 * r x) 0))).
      { intros x. unfold pbex_e. rewrite DZ, D1. field. }
      eapply is_derive_eq; [apply der_scal, PD|]. cbv beta. unfold pbex_v. cbv zeta. rewrite DZ, D1, <- exl_eunif by lra.
      field. }
    apply der_plus; now apply K.
  - intros u d U D. eexists. split; [now apply RUN|]. field. lra.
Qed.
Print Assumptions C65_slater.
Example C65_slater_ex : exists e, slater_spin (1 + 2) 1 2 = Ok (e, 4 / 3 * eunif (2 * 1), 4 / 3 * eunif (2 * 2)).
Proof. destruct (proj2 C65_slater 1 2 ltac:(lra) ltac:(lra)) as (e & E & _). now exists e. Qed.

(** Exchange of PBE type. *)
Theorem C65_pbex i : (1 <= i <= 4)%Z ->
  ggax_variation (pbex_spin i) 0 /\
  forall u d a b, 0 < u -> 0 < d -> 0 <= a -> 0 <= b -> spin_scaled (pbex i) (pbex_spin i (u + d) u d a b) u d a b.
Proof.
  intros I.
  assert (RUN : forall u d a b, 0 < u -> 0 < d -> 0 <= a -> 0 <= b -> pbex_spin i (u + d) u d a b =
    Ok ((pbex_e i (2 * u) (4 * a) * u + pbex_e i (2 * d) (4 * b) * d) / (u + d),
        (pbex_v i (2 * u) (4 * a), pbex_v i (2 * d) (4 * b)), (2 * pbex_v2 i (2 * u) (4 * a), 2 * pbex_v2 i (2 * d) (4 * b)))).
  { intros u d a b U D A B. unfold pbex_spin.
    replace ((i <? 1)%Z || (4 <? i)%Z) with false by (symmetry; apply orb_false_intro; apply Z.ltb_ge; tauto).
    apply wp_ok. apply wp_pow; [lra|]. fold (uu (u + d)). rewrite uu3 by lra. rewrite !pbex_chan_run by easy.
    cbn [obind fst snd wp]. f_equal. f_equal. field. lra. }
  split.
  - intros u d a b t u' d' a' b' U D A B DU DD DA DB. eexists _, _, _, _, _. split; [apply RUN; lra|].
    assert (K : is_derive (fun x => 1 / 2 * (2 * u x * pbex_e i (2 * u x) (4 * a x)) + 1 / 2 * (2 * d x * pbex_e i (2 * d x) (4 * b x))) t
      (1 / 2 * (pbex_v i (2 * u t) (4 * a t) * (2 * u') + pbex_v2 i (2 * u t) (4 * a t) / 2 * (4 * a'))
       + 1 / 2 * (pbex_v i (2 * d t) (4 * b t) * (2 * d') + pbex_v2 i (2 * d t) (4 * b t) / 2 * (4 * b')))).
    { apply der_plus; apply der_scal.
      - apply (pbex_derive i (fun x => 2 * u x) (fun x => 4 * a x)); [lra|lra|now apply der_scal|now apply der_scal].
      - apply (pbex_derive i (fun x => 2 * d x) (fun x => 4 * b x)); [lra|lra|now apply der_scal|now apply der_scal]. }
    assert (LP : locally t (fun x => (0 < u x /\ 0 < a x) /\ (0 < d x /\ 0 < b x))).
    { assert (Q : forall (f : R -> R) (f' : R), 0 < f t -> is_derive f t f' -> locally t (fun x => 0 < f x)).
      { intros f f' F DF. apply (ex_derive_continuous f t (ex_intro _ f' DF)). now apply (open_gt 0). }
      repeat apply filter_and; eapply Q; eassumption. }
    eapply is_derive_eq; [refine (is_derive_ext_loc _ _ t _ _ K)|].
    + revert LP. apply filter_imp. intros x ((X1 & X2) & X3 & X4). rewrite RUN by lra. cbn [enx].
      change ((1 / 2 * (2 * u x * pbex_e i (2 * u x) (4 * a x)) + 1 / 2 * (2 * d x * pbex_e i (2 * d x) (4 * b x)))
        = ((u x + d x) * ((pbex_e i (2 * u x) (4 * a x) * u x + pbex_e i (2 * d x) (4 * b x) * d x) / (u x + d x)))). field. lra.
    + field.
  - intros u d a b U D A B. eexists _, _, _, _, _, _, _. split; [now apply RUN|].
    split; [apply pbex_run; [easy|lra|lra]|]. split; [apply pbex_run; [easy|lra|lra]|]. field. lra.
Qed.
Print Assumptions C65_pbex.
Example C65_pbex_ex : spin_scaled (pbex 2) (pbex_spin 2 (1 + 2) 1 2 3 0) 1 2 3 0.
Proof. apply (C65_pbex 2); [lia|lra..]. Qed.

(** Refitted PW86 exchange, for squared gradients from the floor 1e-14 on; smaller ones are replaced by the floor. *)
Theorem C65_rPW86x :
  ggax_variation rPW86x_spin sigma_floor /\
  (forall u d a b, 0 < u -> 0 < d -> / 10 ^ 14 <= a -> / 10 ^ 14 <= b ->
     spin_scaled rPW86x3 (rPW86x_spin (u + d) u d a b) u d a b) /\
  forall u d a b, 0 < u -> 0 < d ->
    rPW86x_spin (u + d) u d a b = rPW86x_spin (u + d) u d (Rmax a (/ 10 ^ 14)) (Rmax b (/ 10 ^ 14)).
Proof.
  assert (FE : / 10 ^ 14 = sigma_floor) by (unfold sigma_floor; lra). rewrite FE.
  assert (FP : 0 < sigma_floor) by (unfold sigma_floor; lra).
  assert (CE : forall a, (if Rlt_dec a sigma_floor then sigma_floor else a) = Rmax a sigma_floor).
  { intros a. destruct (Rlt_dec a sigma_floor); [rewrite Rmax_right|rewrite Rmax_left]; lra. }
  assert (RUN : forall u d a b, 0 < u -> 0 < d -> rPW86x_spin (u + d) u d a b =
    let a := Rmax a sigma_floor in let b := Rmax b sigma_floor in
    Ok ((u * rpw_e (2 * u) (4 * a) + d * rpw_e (2 * d) (4 * b)) / (u + d),
        (rpw_v (2 * u) (4 * a), rpw_v (2 * d) (4 * b)), (2 * rpw_v2 (2 * u) (4 * a), 2 * rpw_v2 (2 * d) (4 * b)))).
  { intros u d a b U D. unfold rPW86x_spin. rewrite !rPW86x_chan_run by easy. cbv zeta. rewrite !CE. cbn [obind fst snd].
    apply wp_ok. apply wp_div; [lra|]. cbn [wp]. reflexivity. }
  split; [|split].
  - intros u d a b t u' d' a' b' U D A B DU DD DA DB. eexists _, _, _, _, _. split; [apply RUN; lra|].
    cbv zeta. rewrite (Rmax_left (a t)), (Rmax_left (b t)) by lra.
    assert (K : is_derive (fun x => 1 / 2 * (2 * u x * rpw_e (2 * u x) (4 * a x)) + 1 / 2 * (2 * d x * rpw_e (2 * d x) (4 * b x))) t
      (1 / 2 * (rpw_v (2 * u t) (4 * a t) * (2 * u') + rpw_v2 (2 * u t) (4 * a t) / 2 * (4 * a'))
       + 1 / 2 * (rpw_v (2 * d t) (4 * b t) * (2 * d') + rpw_v2 (2 * d t) (4 * b t) / 2 * (4 * b')))).
    { apply der_plus; apply der_scal.
      - apply (rpw_derive (fun x => 2 * u x) (fun x => 4 * a x)); [lra|lra|now apply der_scal|now apply der_scal].
      - apply (rpw_derive (fun x => 2 * d x) (fun x => 4 * b x)); [lra|lra|now apply der_scal|now apply der_scal]. }
    assert (LP : locally t (fun x => (0 < u x /\ sigma_floor < a x) /\ (0 < d x /\ sigma_floor < b x))).
    { assert (Q : forall (f : R -> R) (c f' : R), c < f t -> is_derive f t f' -> locally t (fun x => c < f x)).
      { intros f c f' F DF. apply (ex_derive_continuous f t (ex_intro _ f' DF)). now apply (open_gt c). }
      repeat apply filter_and; eapply Q; eassumption. }
    eapply is_derive_eq; [refine (is_derive_ext_loc _ _ t _ _ K)|].
    + revert LP. apply filter_imp. intros x ((X1 & X2) & X3 & X4). rewrite RUN by lra. cbv zeta. cbn [enx].
      rewrite (Rmax_left (a x)), (Rmax_left (b x)) by lra.
      change ((1 / 2 * (2 * u x * rpw_e (2 * u x) (4 * a x)) + 1 / 2 * (2 * d x * rpw_e (2 * d x) (4 * b x)))
        = ((u x + d x) * ((u x * rpw_e (2 * u x) (4 * a x) + d x * rpw_e (2 * d x) (4 * b x)) / (u x + d x)))). field. lra.
    + field.
  - intros u d a b U D A B. rewrite RUN by easy. cbv zeta. rewrite !Rmax_left by lra. eexists _, _, _, _, _, _, _. split; [reflexivity|].
    assert (P3 : forall r s, 0 < r -> sigma_floor <= s -> rPW86x3 r s = Ok (rpw_e r s, rpw_v r s, rpw_v2 r s)).
    { intros r s Hr Hs. unfold rPW86x3. rewrite rpw_run by easy. cbv zeta. rewrite CE, Rmax_left by lra. reflexivity. }
    split; [apply P3; lra|]. split; [apply P3; lra|]. field. lra.
  - intros u d a b U D. rewrite !RUN by easy. cbv zeta. rewrite !(Rmax_left (Rmax _ _)) by apply Rmax_r. reflexivity.
Qed.
Print Assumptions C65_rPW86x.
Example C65_rPW86x_ex : spin_scaled rPW86x3 (rPW86x_spin (1 + 2) 1 2 3 4) 1 2 3 4.
Proof. apply (proj1 (proj2 C65_rPW86x)); lra. Qed.

(** Perdew-Wang correlation: the densities may vanish separately. *)
Theorem C65_pw :
  lsda_variation pw_spin /\
  forall u d, 0 <= u -> 0 <= d -> 0 < u + d -> exists vu vd,
    pw_spin (u + d) u d = Ok (PW92pol (rs_of (u + d)) (pol u d) (pol' u d), vu, vd) /\
    PW92pol (rs_of (u + d)) (pol u d) (pol' u d) < 0 /\
    pw_spin (d + u) d u = Ok (PW92pol (rs_of (u + d)) (pol u d) (pol' u d), vd, vu) /\
    (u = d -> vu = vd /\ exists rho', Rabs (rho' - (u + d)) <= / 10 ^ 15 * (u + d) /\
       pw rho' = Ok (PW92pol (rs_of (u + d)) (pol u d) (pol' u d), vu)).
Proof.
  split.
  - intros u d t u' d' U D DU DD. eexists _, _, _. split; [apply pw_spin_run; lra|].
    apply (der_ext_pos2 u d _ (fun x => (u x + d x) * pw_spin_e (u x) (d x)) 0 t u' d'); try easy.
    + intros x X Y. rewrite pw_spin_run by lra. reflexivity.
    + apply pw_spin_derive; try easy; lra.
  - intros u d U D P. pose proof (rsr_pos rsfac (u + d) rsfac_pos) as RP. pose proof (zet_bound u d U D P) as B.
    assert (EE : els (rsr rsfac (u + d)) (zet u d) = PW92pol (rs_of (u + d)) (pol u d) (pol' u d)).
    { rewrite els_PW by easy. rewrite rs_of_eq. reflexivity. }
    rewrite <- EE. exists (l_up (lsd_of (u + d) u d)), (l_dn (lsd_of (u + d) u d)).
    split; [now apply pw_spin_run|]. split; [now apply els_neg|].
    assert (ZN : zet d u = - zet u d) by (unfold zet; field; lra).
    assert (F : fz (- zet u d) = fz (zet u d) /\ fpz (- zet u d) = - fpz (zet u d)).
    { unfold fz, fpz. assert (A : zp (- zet u d) = zm (zet u d)) by (unfold zp, zm; ring).
      assert (A' : zm (- zet u d) = zp (zet u d)) by (unfold zp, zm; ring). rewrite A, A'. split; ring. }
    destruct F as [F1 F2]. split.
    + rewrite pw_spin_run by lra. unfold pw_spin_e, lsd_of. cbn [l_up l_dn]. rewrite (Rplus_comm d u), ZN.
      unfold els, els_z, els_r. rewrite F1, F2. f_equal. f_equal; [f_equal|]; ring.
    + intros <-. assert (Z0 : zet u u = 0) by (unfold zet; field; lra). unfold lsd_of. cbn [l_up l_dn]. rewrite Z0 in *.
      assert (FP0 : fpz 0 = 0) by (rewrite Ropp_0 in F2; lra).
      assert (F0 : fz 0 = 0).
      { unfold fz, zp, zm, wq. rewrite Rmult_0_l. rewrite Rplus_0_r, Rminus_0_r. unfold Rpower. rewrite ln_1, Rmult_0_r, exp_0. ring. }
      unfold els, els_z, els_r. rewrite F0, FP0. split; [ring|].
      exists ((u + u) * (C31 / rsfac) ^ 3). split.
      { replace ((u + u) * (C31 / rsfac) ^ 3 - (u + u)) with (- ((1 - (C31 / rsfac) ^ 3) * (u + u))) by ring.
        rewrite Rabs_Ropp, Rabs_mult, (Rabs_pos_eq (u + u)) by lra. apply Rmult_le_compat_r; [lra|].
        unfold C31, rsfac. apply Rabs_le. lra. }
      assert (CR : 0 < C31 / rsfac) by (apply Rdiv_lt_0_compat; [apply C31_pos|apply rsfac_pos]).
      assert (RE : rsr C31 ((u + u) * (C31 / rsfac) ^ 3) = rsr rsfac (u + u)).
      { unfold rsr. rewrite <- Rpower_mult_distr; [|easy|now apply pow_lt].
        rewrite <- (Rpower_pow 3 (C31 / rsfac)) by easy. rewrite Rpower_mult.
        replace (INR 3 * - (1 / 3)) with (- (1)) by (simpl; lra). rewrite (Rpower_Ropp (C31 / rsfac) 1), (Rpower_1 (C31 / rsfac)) by easy.
        pose proof C31_pos. pose proof rsfac_pos. generalize (Rpower (u + u) (- (1 / 3))). intros y. field. split; lra. }
      rewrite pw_run by (apply Rmult_lt_0_compat; [easy|now apply pow_lt]). rewrite RE. f_equal. f_equal; [ring|]. field.
Qed.
Print Assumptions C65_pw.
Example C65_pw_ex : exists vu vd, pw_spin (1 + 0) 1 0 = Ok (PW92pol (rs_of (1 + 0)) (pol 1 0) (pol' 1 0), vu, vd).
Proof. destruct (proj2 C65_pw 1 0 ltac:(lra) ltac:(lra) ltac:(lra)) as (a & b & E & _). now exists a, b. Qed.

(** PBE correlation. *)
Theorem C65_pbec i : (1 <= i <= 3)%Z ->
  ggac_variation (pbec_spin i) /\
  forall u d sigma, 0 <= u -> 0 <= d -> 0 < u + d -> 0 <= sigma ->
    let ec := PW92pol (rs_of (u + d)) (pol u d) (pol' u d) in
    let H := Hpol (be_of i) ec (phi (pol' u d)) (t2 (u + d) sigma) in
    exists vu vd w, pbec_spin i (u + d) u d sigma = Ok (ec + H, (vu, vd), w) /\
      ec <= ec + H < 0 /\
      pbec_spin i (d + u) d u sigma = Ok (ec + H, (vd, vu), w) /\
      (u = d -> vu = vd /\ pbec i (u + d) sigma = Ok (ec + H, vu, w)) /\
      (sigma = 0 -> H = 0 /\ pw_spin (u + d) u d = Ok (ec, vu, vd)).
Proof.
  intros I. split.
  - intros u d s t u' d' s' U D Hs DU DD DS. eexists _, _, _, _. split; [apply pbec_spin_run; [easy|lra..]|].
    assert (LP : locally t (fun x => (0 < u x /\ 0 < d x) /\ 0 < s x)).
    { assert (Q : forall (f : R -> R) (f' : R), 0 < f t -> is_derive f t f' -> locally t (fun x => 0 < f x)).
      { intros f f' F DF. apply (ex_derive_continuous f t (ex_intro _ f' DF)). now apply (open_gt 0). }
      repeat apply filter_and; eapply Q; eassumption. }
    refine (is_derive_ext_loc (fun x => (u x + d x) * pbec_spin_e i (u x) (d x) (s x)) _ t _ _ _).
    + revert LP. apply filter_imp. intros x ((X1 & X2) & X3). rewrite pbec_spin_run by (easy || lra). reflexivity.
    + apply pbec_spin_derive; try easy; lra.
  - intros u d sigma U D P Sg ec H. pose proof (rsr_pos rsfac (u + d) rsfac_pos) as RP. pose proof (zet_bound u d U D P) as B.
    assert (EE : els (rsr rsfac (u + d)) (zet u d) = ec).
    { rewrite els_PW by easy. rewrite rs_of_eq. reflexivity. }
    pose proof (els_neg _ _ RP B) as EN. pose proof (phz_pos _ B) as PP. pose proof (ttf_nonneg (u + d) sigma Sg) as TP.
    assert (BE : be_of i = beta_ i) by (unfold be_of, beta_; destruct (i =? 2)%Z; dec; field).
    assert (HE : hhf (beta_ i) gamma (els (rsr rsfac (u + d)) (zet u d)) (phz (zet u d)) (ttf (u + d) sigma) = H).
    { rewrite hhf_Hpol by (easy || apply beta_pos). unfold H. rewrite EE, BE, (phz_phi _ B), ttf_t2 by easy. reflexivity. }
    pose proof (hhf_bound (beta_ i) gamma (beta_pos i) gamma_pos _ _ _ EN PP TP) as HB. rewrite HE in HB. rewrite EE in HB, EN.
    assert (PE : pbec_spin_e i u d sigma = ec + H) by (unfold pbec_spin_e; cbv zeta; now rewrite HE, EE).
    eexists _, _, _. split; [rewrite pbec_spin_run by easy; rewrite PE; reflexivity|]. split; [lra|].
    assert (ZN : zet d u = - zet u d) by (unfold zet; field; lra).
    assert (A : zp (- zet u d) = zm (zet u d)) by (unfold zp, zm; ring).
    assert (A' : zm (- zet u d) = zp (zet u d)) by (unfold zp, zm; ring).
    assert (F1 : fz (- zet u d) = fz (zet u d)) by (unfold fz; rewrite A, A'; ring).
    assert (F2 : fpz (- zet u d) = - fpz (zet u d)) by (unfold fpz; rewrite A, A'; ring).
    assert (F3 : phz (- zet u d) = phz (zet u d)) by (unfold phz; rewrite A, A'; ring).
    assert (F4 : phpz (- zet u d) = - phpz (zet u d)) by (unfold phpz; rewrite A, A'; ring).
    assert (G1 : forall rs, els rs (- zet u d) = els rs (zet u d)) by (intros; unfold els; rewrite F1; ring).
    assert (G2 : forall rs, els_r rs (- zet u d) = els_r rs (zet u d)) by (intros; unfold els_r; rewrite F1; ring).
    assert (G3 : forall rs, els_z rs (- zet u d) = - els_z rs (zet u d)) by (intros; unfold els_z; rewrite F1, F2; ring).
    split; [|split].
    + rewrite pbec_spin_run by (easy || lra).
      assert (HZ : hz i d u sigma = - hz i u d sigma).
      { unfold hz. cbv zeta. rewrite (Rplus_comm d u), ZN, G1, G3, F3, F4. ring. }
      assert (HR : hrho i d u sigma = hrho i u d sigma).
      { unfold hrho. cbv zeta. rewrite HZ. rewrite (Rplus_comm d u), ZN, G1, G2, F3. ring. }
      rewrite HZ, HR. unfold pbec_spin_v2, lsd_of. cbv zeta. cbn [l_up l_dn].
      replace (pbec_spin_e i d u sigma) with (ec + H).
      2: { unfold pbec_spin_e. cbv zeta. now rewrite (Rplus_comm d u), ZN, G1, F3, HE, EE. }
      rewrite (Rplus_comm d u), ZN, G1, G2, G3, F3. f_equal. f_equal. f_equal. f_equal; ring.
    + intros <-. assert (Z0 : zet u u = 0) by (unfold zet; field; lra). rewrite Z0 in *. rewrite Ropp_0 in *.
      assert (P0 : phpz 0 = 0) by lra. assert (FP0 : fpz 0 = 0) by lra.
      assert (W1 : wq (zp 0) = 1 /\ wq (zm 0) = 1).
      { unfold zp, zm, wq. rewrite Rmult_0_l. rewrite Rplus_0_r, Rminus_0_r. unfold Rpower. rewrite ln_1, Rmult_0_r, exp_0. easy. }
      assert (F0 : fz 0 = 0) by (unfold fz; rewrite (proj1 W1), (proj2 W1); unfold zp, zm; ring).
      assert (PH0 : phz 0 = 1) by (unfold phz; rewrite (proj1 W1), (proj2 W1); unfold zp, zm; field).
      assert (EZ : forall rs, els_z rs 0 = 0) by (intros; unfold els_z; rewrite FP0, F0; ring).
      assert (ER : forall rs, els_r rs 0 = dG0 rs) by (intros; unfold els_r; rewrite F0; ring).
      assert (E0 : forall rs, els rs 0 = eG0 rs) by (intros; unfold els; rewrite F0; ring).
      assert (HZ : hz i u u sigma = 0) by (unfold hz; cbv zeta; rewrite Z0, P0, EZ; ring).
      unfold lsd_of. cbv zeta. cbn [l_up l_dn]. rewrite Z0, EZ, HZ. split; [ring|].
      rewrite pbec_run by (easy || lra). rewrite <- PE. unfold pbec_spin_e, pbec_e, hrho, pbec_spin_v2, pbec_v, pbec_v2. cbv zeta.
      rewrite Z0, HZ, E0, ER, PH0. f_equal. f_equal. f_equal. field.
    + intros ->. assert (T0 : ttf (u + d) 0 = 0) by (unfold ttf; ring).
      assert (H0 : forall e p, 0 < p -> hhf (beta_ i) gamma e p 0 = 0).
      { intros e p Hp. unfold hhf, argf. replace (1 + _) with 1; [rewrite ln_1; ring|]. field. pose proof gamma_pos. split; lra. }
      assert (HH : H = 0) by (rewrite <- HE, T0; now apply H0). split; [exact HH|].
      rewrite pw_spin_run by easy. unfold pw_spin_e. rewrite EE. f_equal.
      assert (HZ : hz i u d 0 = 0).
      { unfold hz. cbv zeta. rewrite T0. unfold hh_e, hh_p. rewrite T0 in HE. 
        replace (argf (beta_ i) gamma (els (rsr rsfac (u + d)) (zet u d)) (phz (zet u d)) 0) with 1.
        2: { unfold argf. field. pose proof gamma_pos. split; lra. }
        rewrite ln_1. unfold Rdiv. ring. }
      assert (HR : hrho i u d 0 = 0).
      { unfold hrho. cbv zeta. rewrite HZ, T0, (H0 _ _ PP). unfold hh_e. unfold Rdiv. ring. }
      rewrite HZ, HR. f_equal; [f_equal|]; ring.
Qed.
Print Assumptions C65_pbec.
Example C65_pbec_ex : exists vu vd w,
  pbec_spin 1 (1 + 0) 1 0 2 = Ok (PW92pol (rs_of (1 + 0)) (pol 1 0) (pol' 1 0)
    + Hpol (be_of 1) (PW92pol (rs_of (1 + 0)) (pol 1 0) (pol' 1 0)) (phi (pol' 1 0)) (t2 (1 + 0) 2), (vu, vd), w).
Proof. destruct (proj2 (C65_pbec 1 ltac:(lia)) 1 0 2 ltac:(lra) ltac:(lra) ltac:(lra) ltac:(lra)) as (a & b & c & E & _). now exists a, b, c. Qed.

(** Flags outside the range fail the assertion; there is no spin-polarised Perdew-Zunger correlation. *)
Theorem C65_other :
  (forall i rho u d a b, ~ (1 <= i <= 4)%Z -> pbex_spin i rho u d a b = Exit) /\
  (forall i rho u d s, ~ (1 <= i <= 3)%Z -> pbec_spin i rho u d s = Exit) /\
  (forall rho u d, pz_spin rho u d = Exit).
Proof.
  split; [|split; [|reflexivity]].
  - intros i rho u d a b N. unfold pbex_spin. destruct ((i <? 1)%Z || (4 <? i)%Z) eqn:B; [reflexivity|].
    apply orb_false_elim in B. destruct B as [B1 B2]. apply Z.ltb_ge in B1, B2. lia.
  - intros i rho u d s N. unfold pbec_spin. destruct ((i <? 1)%Z || (3 <? i)%Z) eqn:B; [reflexivity|].
    apply orb_false_elim in B. destruct B as [B1 B2]. apply Z.ltb_ge in B1, B2. lia.
Qed.
Print Assumptions C65_other.
Example C65_other_ex : pbex_spin 5 2 1 1 1 1 = Exit. Proof. apply C65_other. lia. Qed.

(** The literal for f''(0) is right to the digits given. The polarisation is scaled down by a millionth, so f never
    quite reaches the value one that it has at full polarisation. *)
Theorem C65_constants :
  Rabs (1.709921 - 4 / (9 * (Rpower 2 (1 / 3) - 1))) <= / 10 ^ 6 /\
  forall u d, 0 <= u -> 0 <= d -> 0 < u + d -> 0 <= fpol (pol' u d) < 1.
Proof.
  split.
  - pose proof (cube_lt 1.2599210 2 ltac:(lra) ltac:(lra)) as L. pose proof (cube_gt 1.2599211 2 ltac:(lra) ltac:(lra) ltac:(lra)) as G.
    set (x := Rpower 2 (1 / 3)) in *. clearbody x.
    assert (L2 : 4 / (9 * (x - 1)) < 1.7099215).
    { apply Rmult_lt_reg_r with (9 * (x - 1)); [lra|]. replace (4 / (9 * (x - 1)) * (9 * (x - 1))) with 4 by (field; lra). lra. }
    assert (L3 : 1.709920 < 4 / (9 * (x - 1))).
    { apply Rmult_lt_reg_r with (9 * (x - 1)); [lra|]. replace (4 / (9 * (x - 1)) * (9 * (x - 1))) with 4 by (field; lra). lra. }
    apply Rabs_le. lra.
  - intros u d U D P. pose proof (zet_bound u d U D P) as B. change (pol' u d) with ((1 - / 10 ^ 6) * zet u d).
    rewrite <- fz_fpol by easy. split; [apply fz_bound, B|].
    destruct (zpm_pos _ B) as [ZP ZM]. assert (S2 : zp (zet u d) + zm (zet u d) = 2) by (unfold zp, zm; ring).
    pose proof (cbrt_facts (zp (zet u d)) ltac:(lra)) as [A1 A2]. pose proof (cbrt_facts (zm (zet u d)) ltac:(lra)) as [B1 B2].
    unfold fz. set (a := zp (zet u d) * (wq (zp (zet u d)) * wq (zp (zet u d)))) in *.
    set (b := zm (zet u d) * (wq (zm (zet u d)) * wq (zm (zet u d)))) in *. rewrite <- A2, <- B2 in *.
    unfold factf_zeta. pose proof two43 as T. pose proof two13_gt1 as G1. set (c := Rpower 2 (1 / 3)) in *. rewrite T. clearbody a b c.
    clear T U D P B ZP ZM. apply Rmult_lt_reg_r with (2 * c - 2); [lra|].
    match goal with |- ?l < _ => replace l with (a * a * a * a + b * b * b * b - 2) by (field; lra) end.
    assert (0 < a * a * a) by (repeat apply Rmult_lt_0_compat; lra). assert (0 < b * b * b) by (repeat apply Rmult_lt_0_compat; lra).
    assert (a * a * a * a < a * a * a * c) by (apply Rmult_lt_compat_l; lra).
    assert (b * b * b * b < b * b * b * c) by (apply Rmult_lt_compat_l; lra).
    assert (E : a * a * a * c + b * b * b * c = 2 * c) by (rewrite <- S2; ring). lra.
Qed.
Print Assumptions C65_constants.
Example C65_constants_ex : 0 <= fpol (pol' 1 0) < 1. Proof. apply (proj2 C65_constants); lra. Qed.
