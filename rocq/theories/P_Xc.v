(** C64: the spin-unpolarised exchange-correlation functions return the published energies per particle, their
    potentials are the derivatives of the energy per volume, and they stay inside the domains of log, sqrt, pow and
    the divisions. *)
From Coq Require Import Reals ZArith Bool Lra Lia.
From Coquelicot Require Import Coquelicot.
From Verif Require Import CBase Xc XcLem.
Local Open Scope R_scope.

(** ** Specification *)
(** energy per particle returned by a function; 0 if it fails *)
Definition en2 (o : outcome (R * R)) : R := match o with Ok (e, _) => e | _ => 0 end.
Definition en3 (o : outcome (R * R * R)) : R := match o with Ok (e, _, _) => e | _ => 0 end.
(** v is the derivative of rho * e(rho) *)
Definition lda_variation (f : R -> outcome (R * R)) (rho : R) : Prop :=
  exists e v, f rho = Ok (e, v) /\ is_derive (fun x => x * en2 (f x)) rho v.
(** along every differentiable path (rho(t), sigma(t)) the energy per volume changes by v drho + v2/2 dsigma;
    with sigma = |grad rho|^2 this is v drho + v2 grad rho . d(grad rho) *)
Definition gga_variation (f : R -> R -> outcome (R * R * R)) (lo : R) : Prop :=
  forall (r s : R -> R) (t r' s' : R), 0 < r t -> lo < s t -> is_derive r t r' -> is_derive s t s' ->
  exists e v v2, f (r t) (s t) = Ok (e, v, v2) /\
    is_derive (fun x => r x * en3 (f (r x) (s x))) t (v * r' + v2 / 2 * s').

(** The published formulas. Fermi wave vector, reduced gradients squared, energy of the uniform gas. *)
Definition kF (rho : R) : R := Rpower (3 * PI * PI * rho) (1 / 3).
Definition s2 (rho sigma : R) : R := sigma / (4 * kF rho ^ 2 * rho ^ 2).
Definition t2 (rho sigma : R) : R := sigma / (4 * (4 * kF rho / PI) * rho ^ 2).
Definition eunif (rho : R) : R := - (3 / (4 * PI)) * kF rho.
(** Perdew and Wang 1992, table I, unpolarised *)
Definition PW92 (rs : R) : R :=
  - (2 * 0.031091) * (1 + 0.21370 * rs)
  * ln (1 + 1 / (2 * 0.031091 * (7.5957 * Rpower rs (1 / 2) + 3.5876 * rs + 1.6382 * Rpower rs (3 / 2) + 0.49294 * rs ^ 2))).
(** Perdew and Zunger 1981, unpolarised *)
Definition PZ81 (rs : R) : R :=
  if Rlt_dec rs 1 then 0.0311 * ln rs - 0.048 + 0.0020 * rs * ln rs - 0.0116 * rs
  else - 0.1423 / (1 + 1.0529 * sqrt rs + 0.3334 * rs).
(** Perdew, Burke, Ernzerhof 1996 with its variants: 1 PBE, 2 PBEsol, 3 RPBE, 4 revPBE *)
Definition Fx (i : Z) (s : R) : R :=
  if (i =? 1)%Z then 1 + 0.804 - 0.804 / (1 + 0.2195149727645171 * s / 0.804)
  else if (i =? 2)%Z then 1 + 0.804 - 0.804 / (1 + 10 / 81 * s / 0.804)
  else if (i =? 3)%Z then 1 + 0.804 * (1 - exp (- (0.2195149727645171 * s / 0.804)))
  else 1 + 1.245 - 1.245 / (1 + 0.2195149727645171 * s / 1.245).
Definition Hpbe (be ec t : R) : R :=
  let ga := (1 - ln 2) / PI ^ 2 in
  let A := be / ga / (exp (- ec / ga) - 1) in
  ga * ln (1 + be / ga * t * ((1 + A * t) / (1 + A * t + A ^ 2 * t ^ 2))).
Definition be_of (i : Z) : R := if (i =? 2)%Z then 0.046 else 0.066725.
(** refitted PW86 (Murray, Lee, Langreth 2009) *)
Definition FrPW86 (s : R) : R := Rpower (1 + 1.851 * s ^ 2 + 17.33 * s ^ 4 + 0.163 * s ^ 6) (1 / 15).
(** the function without the array it also overwrites *)
Definition rPW86x3 (rho sigma : R) : outcome (R * R * R) :=
  match rPW86x rho sigma with Ok (p, _) => Ok p | UB => UB | Exit => Exit end.

(** ** Reductions *)
(** decimal literals as quotients of integers *)
Ltac dec := unfold Q2R; cbn [QArith_base.Qnum QArith_base.Qden].
Lemma kF_pos rho : 0 < kF rho. Proof. apply Rpower_pos. Qed.
Lemma PI2_pos : 0 < PI * PI. Proof. pose proof PI_RGT_0. now apply Rmult_lt_0_compat. Qed.
Lemma kF_umot rho : 0 < rho -> kF rho * umot rho = sixpi2_1_3.
Proof.
  intros H. pose proof PI2_pos. unfold kF, umot, sixpi2_1_3. rewrite Rpower_inv.
  assert (E : Rpower (6 * PI * PI) (1 / 3) * Rpower (rho / 2) (1 / 3) = Rpower (3 * PI * PI * rho) (1 / 3)).
  { rewrite Rpower_mult_distr; [f_equal; field|nra|lra]. }
  rewrite <- E. pose proof (Rpower_pos (rho / 2) (1 / 3)). field. lra.
Qed.
Lemma kF_uu rho : 0 < rho -> kF rho * uu rho = Rpower (3 * PI * PI) (1 / 3).
Proof.
  intros H. pose proof PI2_pos. unfold kF, uu. rewrite Rpower_inv.
  rewrite <- (Rpower_mult_distr (3 * PI * PI) rho); [|nra|lra].
  pose proof (Rpower_pos rho (1 / 3)). field. lra.
Qed.
Lemma exl_eunif rho : 0 < rho -> exl (umot rho) rho = eunif rho.
Proof.
  intros H. unfold exl, eunif, threefourth_divpi. rewrite <- (kF_umot rho H). pose proof (umot_rho rho H) as E.
  pose proof PI_RGT_0. pose proof (Rpower_pos (rho / 2) (- (1 / 3))) as U. fold (umot rho) in U.
  replace (umot rho * umot rho * (rho / 2)) with (1 / umot rho).
  - field. lra.
  - rewrite E at 4. field. lra.
Qed.
Lemma ssf_s2 rho sigma : 0 < rho -> ssf rho sigma = s2 rho sigma.
Proof.
  intros H. unfold ssf, cfs, s2. rewrite <- (kF_umot rho H). pose proof (umot_rho rho H) as E.
  pose proof (kF_pos rho). pose proof (Rpower_pos (rho / 2) (- (1 / 3))) as U. fold (umot rho) in U.
  set (k := kF rho) in *. set (u := umot rho) in *. clearbody k u. rewrite E. field. lra.
Qed.
Lemma ttf_t2 rho sigma : 0 < rho -> ttf rho sigma = t2 rho sigma.
Proof.
  intros H. unfold ttf, coeff_tt, t2. rewrite <- (kF_uu rho H). pose proof (uu_pos rho) as U.
  assert (E : rho = 1 / (uu rho ^ 3)) by (rewrite uu_cube by easy; field; lra).
  pose proof (kF_pos rho). pose proof PI_RGT_0.
  set (k := kF rho) in *. set (u := uu rho) in *. clearbody k u. rewrite E. field. lra.
Qed.

Lemma eG0_PW92 rs : 0 < rs -> eG0 rs = PW92 rs.
Proof.
  intros H. unfold eG0, eG, PW92, q1f. replace (3 / 2) with (1 + 1 / 2) by lra.
  rewrite Rpower_plus, Rpower_1 by easy. replace (1 / 2) with (/ 2) by lra. rewrite Rpower_sqrt by easy.
  generalize (sqrt rs). intros y. dec.
  match goal with |- _ * ln (1 + 1 / ?a) = _ * ln (1 + 1 / ?b) => replace b with a by field end.
  match goal with |- _ * ?l = _ => generalize l end. intros l. field.
Qed.
Lemma rs_lit rho : rsr C31 rho = 0.6203504908993999 * Rpower rho (- (1 / 3)).
Proof. unfold rsr, C31. dec. generalize (Rpower rho (- (1 / 3))). intros y. field. Qed.
Lemma divf_Fx i x : (1 <= i <= 4)%Z -> 0 <= x -> 1 + kappa_ i * (1 - divf i x) = Fx i x.
Proof.
  intros I X. assert (C : (i = 1 \/ i = 2 \/ i = 3 \/ i = 4)%Z) by lia.
  unfold Fx, divf, mu_, kappa_. destruct C as [-> | [-> | [-> | ->]]]; cbn [Z.eqb Pos.eqb]; dec.
  - field. repeat split; try lra.
  - field. repeat split; lra.
  - match goal with |- context [exp ?a] => match goal with |- _ = ?r => match r with context [exp ?b] =>
      replace a with b by field end end end.
    match goal with |- context [exp ?a] => generalize (exp a) end. intros y. field.
  - field. repeat split; lra.
Qed.
Lemma hhf_H be ec t : 0 < be -> ec < 0 -> 0 <= t -> hhf be gamma ec 1 t = Hpbe be ec t.
Proof.
  intros B E T. pose proof gamma_pos as G. pose proof (cc_pos gamma G ec 1 E ltac:(lra)) as CP.
  pose proof (aa_pos be gamma B G ec 1 E ltac:(lra)) as AP.
  assert (EG : (1 - ln 2) / PI ^ 2 = gamma) by (unfold gamma; f_equal; ring).
  unfold hhf, Hpbe, argf. rewrite EG. cbv zeta.
  assert (EA : aaf be gamma ec 1 = be / gamma / (exp (- ec / gamma) - 1)).
  { unfold aaf, ccf, bbf in *. replace (- (ec / (gamma * 1 ^ 3))) with (- ec / gamma) in * by (field; lra).
    field. split; lra. }
  rewrite <- EA. set (A := aaf be gamma ec 1) in *. clearbody A.
  assert (0 <= A * t) by (apply Rmult_le_pos; lra). assert (0 <= A * t * (A * t)) by now apply Rmult_le_pos.
  replace (1 ^ 3) with 1 by ring. rewrite Rmult_1_l. f_equal. f_equal. f_equal. unfold padef. field. repeat split; nra.
Qed.

(** ** Theorems *)
(** Slater exchange. The literal in the potential is not exactly 4/3 of the one in the energy. *)
Theorem C64_slater rho : 0 < rho -> exists e v d,
  slater rho = Ok (e, v) /\ e = - 0.738558766382022 * Rpower rho (1 / 3) /\
  is_derive (fun x => x * en2 (slater x)) rho d /\ Rabs (v - d) <= / 10 ^ 15 * Rpower rho (1 / 3).
Proof.
  intros H. exists (- C2 * cbrt rho), (- C3 * cbrt rho), (4 / 3 * (- C2 * cbrt rho)).
  split; [reflexivity|]. rewrite cbrt_pos by easy. split; [unfold C2; lra|]. split.
  - apply (der_ext_pos (fun x => x) _ (fun x => - C2 * (x * Rpower x (1 / 3))) rho 1); [easy|apply der_id| |].
    + intros x X. unfold slater. cbv zeta. cbn [en2]. rewrite cbrt_pos by easy. ring.
    + eapply is_derive_eq; [apply der_scal, der_mult; [apply der_id|apply der_pow; [exact H|apply der_id]]|].
      cbv beta. field. lra.
  - pose proof (Rpower_pos rho (1 / 3)) as P. set (y := Rpower rho (1 / 3)) in *. clearbody y.
    replace (- C3 * y - 4 / 3 * (- C2 * y)) with ((4 / 3 * C2 - C3) * y) by ring.
    rewrite Rabs_mult, (Rabs_pos_eq y) by lra. apply Rmult_le_compat_r; [lra|].
    apply Rabs_le. unfold C2, C3. lra.
Qed.
Print Assumptions C64_slater.

(** Perdew-Wang correlation. *)
Theorem C64_pw rho : 0 < rho ->
  lda_variation pw rho /\ en2 (pw rho) = PW92 (0.6203504908993999 * Rpower rho (- (1 / 3))) /\ en2 (pw rho) < 0.
Proof.
  intros H. pose proof (rsr_pos C31 rho C31_pos) as P. split; [|split].
  - eexists _, _. split; [now apply pw_run|].
    apply (der_ext_pos (fun x => x) _ (fun x => x * eG0 (rsr C31 x)) rho 1); [easy|apply der_id| |].
    + intros x X. rewrite pw_run by easy. reflexivity.
    + apply lda_chain; [exact C31_pos|easy|]. now apply eG0_derive.
  - rewrite pw_run by easy. cbn [en2]. rewrite eG0_PW92 by easy. now rewrite rs_lit.
  - rewrite pw_run by easy. cbn [en2]. now apply eG0_neg.
Qed.
Print Assumptions C64_pw.
Example C64_pw_ex : lda_variation pw (1 / 100). Proof. apply C64_pw. lra. Qed.

(** Perdew-Zunger correlation: away from the density with rs = 1. *)
Lemma rs_one rho : 0 < rho -> rsr C31 rho = 1 -> rho = C31 ^ 3.
Proof.
  intros H E. unfold rsr in E. pose proof (Rpower_third3 rho H) as T.
  pose proof (Rpower_pos rho (- (1 / 3))) as P. set (y := Rpower rho (- (1 / 3))) in *. clearbody y.
  assert (C : C31 = 1 / y) by (rewrite <- E; field; lra). rewrite C.
  replace ((1 / y) ^ 3) with (/ (y ^ 3)) by (field; lra). rewrite T. field. lra.
Qed.
Theorem C64_pz rho : 0 < rho ->
  (exists v, pz rho = Ok (PZ81 (0.6203504908993999 * Rpower rho (- (1 / 3))), v)) /\
  (rho <> C31 ^ 3 -> lda_variation pz rho).
Proof.
  intros H. pose proof (rsr_pos C31 rho C31_pos) as P. split.
  - rewrite <- rs_lit. unfold PZ81. destruct (Rlt_dec (rsr C31 rho) 1) as [L|L].
    + rewrite pz_run_lo by easy. eexists. unfold pz_lo. f_equal. apply f_equal2; [lra|reflexivity].
    + rewrite pz_run_hi by lra. eexists. unfold pz_hi. f_equal. apply f_equal2; [|reflexivity].
      generalize (sqrt (rsr C31 rho)). intros y. dec.
      match goal with |- _ / ?a = _ / ?b => replace b with a by field end. 
      unfold Rdiv. match goal with |- _ * / ?l = _ => generalize (/ l) end. intros l. field.
  - intros N. assert (N1 : rsr C31 rho <> 1) by (intros E; now apply N, rs_one).
    assert (RD : is_derive (fun x => rsr C31 x) rho (- (rsr C31 rho / (3 * rho)) * 1))
      by exact (rsr_derive C31 (fun x => x) rho 1 H (der_id rho)).
    destruct (Rlt_dec (rsr C31 rho) 1) as [L|L].
    + eexists _, _. split; [now apply pz_run_lo|].
      apply (der_ext_pos2 (fun x => x) (fun x => (-1) * rsr C31 x) _ (fun x => x * pz_lo (rsr C31 x)) (-1) rho 1
               ((-1) * (- (rsr C31 rho / (3 * rho)) * 1))); [easy|lra|apply der_id|apply der_scal, RD| |].
      * intros x X Y. rewrite pz_run_lo by lra. reflexivity.
      * apply lda_chain; [exact C31_pos|easy|]. now apply pz_lo_derive.
    + eexists _, _. split; [apply pz_run_hi; lra|].
      apply (der_ext_pos2 (fun x => x) (fun x => rsr C31 x) _ (fun x => x * pz_hi (rsr C31 x)) 1 rho 1
               (- (rsr C31 rho / (3 * rho)) * 1)); [easy|lra|apply der_id|apply RD| |].
      * intros x X Y. rewrite pz_run_hi by lra. reflexivity.
      * apply lda_chain; [exact C31_pos|easy|]. now apply pz_hi_derive.
Qed.
Print Assumptions C64_pz.
Example C64_pz_ex : lda_variation pz 1.
Proof. apply C64_pz; [lra|]. unfold C31. lra. Qed.

(** At rs = 1 the two branches do not meet: the energy jumps there, so the potential cannot be its derivative. *)
Theorem C64_pz_refuted : exists rho, 0 < rho /\ ~ continuous (fun x => en2 (pz x)) rho /\
  ~ exists d, is_derive (fun x => x * en2 (pz x)) rho d.
Proof.
  assert (K : exists rho, 0 < rho /\ ~ continuous (fun x => en2 (pz x)) rho).
  { exists (C31 ^ 3). pose proof C31_pos as CP. assert (P : 0 < C31 ^ 3) by now apply pow_lt.
    split; [easy|]. intros Cn.
    assert (R1 : rsr C31 (C31 ^ 3) = 1).
    { unfold rsr. rewrite <- Rpower_pow by easy. rewrite Rpower_mult. replace (INR 3 * - (1 / 3)) with (- (1)) by (simpl; lra).
      rewrite Rpower_Ropp, Rpower_1 by easy. field. lra. }
    assert (RD : is_derive (fun x => rsr C31 x) (C31 ^ 3) (- (rsr C31 (C31 ^ 3) / (3 * C31 ^ 3)) * 1))
      by exact (rsr_derive C31 (fun x => x) (C31 ^ 3) 1 P (der_id _)).
    assert (LD : is_derive (fun x => pz_lo (rsr C31 x)) (C31 ^ 3)
              (pz_lo_d (rsr C31 (C31 ^ 3)) * (- (rsr C31 (C31 ^ 3) / (3 * C31 ^ 3)) * 1))).
    { apply (der_comp pz_lo (rsr C31)); [|exact RD]. apply pz_lo_derive. rewrite R1. lra. }
    assert (CL : continuous (fun x => pz_lo (rsr C31 x)) (C31 ^ 3)) by exact (ex_derive_continuous _ _ (ex_intro _ _ LD)).
    assert (e0 : 0 < / 100000) by lra.
    specialize (Cn _ (locally_ball _ (mkposreal _ e0))). specialize (CL _ (locally_ball _ (mkposreal _ e0))).
    unfold filtermap in Cn, CL. pose proof (filter_and (F := locally (C31 ^ 3)) _ _ Cn CL) as [d D].
    assert (X : C31 ^ 3 < C31 ^ 3 + d / 2) by (pose proof (cond_pos d); lra).
    set (x := C31 ^ 3 + d / 2) in *.
    assert (B : ball (C31 ^ 3) d x).
    { unfold ball; simpl. unfold AbsRing_ball, abs, minus, plus, opp; simpl. pose proof (cond_pos d).
      unfold x. replace (C31 * (C31 * (C31 * 1)) + d / 2 + - (C31 * (C31 * (C31 * 1)))) with (d / 2) by ring.
      rewrite Rabs_pos_eq; lra. }
    destruct (D x B) as [D1 D2]. unfold ball in D1, D2; simpl in D1, D2.
    unfold AbsRing_ball, abs, minus, plus, opp in D1, D2; simpl in D1, D2.
    replace (C31 * (C31 * (C31 * 1))) with (C31 ^ 3) in D1, D2 by ring.
    assert (RX : rsr C31 x < 1).
    { rewrite <- R1. unfold rsr. apply Rmult_lt_compat_l; [easy|]. rewrite !Rpower_Ropp. apply Rinv_lt_contravar.
      - apply Rmult_lt_0_compat; apply Rpower_pos.
      - apply Rlt_Rpower_l; [lra|]. split; [easy|exact X]. }
    rewrite pz_run_lo in D1 by (lra || easy). rewrite (pz_run_hi (C31 ^ 3)) in D1 by (lra || easy).
    cbn [en2] in D1. rewrite R1 in D1, D2. unfold pz_hi in D1. unfold pz_lo at 2 in D2.
    rewrite sqrt_1 in D1. rewrite ln_1 in D2. apply Rabs_def2 in D1, D2. lra. }
  destruct K as [rho [P K]]. exists rho. split; [easy|]. split; [exact K|]. intros [d D]. apply K.
  apply (continuous_ext_loc _ (fun x => / x * (x * en2 (pz x)))).
  - apply (filter_imp (fun x => 0 < x)); [intros x X; change (/ x * (x * en2 (pz x)) = en2 (pz x)); field; lra|]. exact (open_gt 0 rho P).
  - apply (continuous_mult (K := R_AbsRing) (fun x => / x) (fun x => x * en2 (pz x))).
    + apply continuous_Rinv. lra.
    + exact (ex_derive_continuous _ _ (ex_intro _ _ D)).
Qed.
Print Assumptions C64_pz_refuted.

(** Exchange of PBE type, iflag 1 to 4: published energy, potentials, and bounds by the uniform gas; any other
    iflag fails the assertion. *)
Theorem C64_pbex i : (1 <= i <= 4)%Z ->
  gga_variation (pbex i) 0 /\
  forall rho sigma, 0 < rho -> 0 <= sigma ->
    exists v v2, pbex i rho sigma = Ok (eunif rho * Fx i (s2 rho sigma), v, v2) /\
      (sigma = 0 -> v = 4 / 3 * eunif rho) /\
      (1 + (if (i =? 4)%Z then 1.245 else 0.804)) * eunif rho < eunif rho * Fx i (s2 rho sigma) <= eunif rho.
Proof.
  intros I. split.
  - intros r s t r' s' Hr Hs D S. eexists _, _, _. split; [apply pbex_run; [easy|easy|lra]|].
    apply (der_ext_pos2 r s _ (fun x => r x * pbex_e i (r x) (s x)) 0 t r' s'); try easy.
    + intros x X Y. rewrite pbex_run by (easy || lra). reflexivity.
    + apply pbex_derive; try easy. lra.
  - intros rho sigma Hr Hs. pose proof (ssf_nonneg rho sigma Hs) as SN.
    exists (pbex_v i rho sigma), (pbex_v2 i rho sigma). rewrite pbex_run by easy.
    rewrite <- (ssf_s2 rho sigma Hr), <- (divf_Fx i _ I SN), <- (exl_eunif rho Hr). split; [reflexivity|]. split.
    + intros ->. unfold pbex_v, ssf. cbv zeta. replace (0 / 4 * cfs (umot rho)) with 0 by field.
      assert (DZ : divf i 0 = 1).
      { unfold divf. destruct (i =? 3)%Z; [rewrite Rmult_0_r; apply exp_0|rewrite Rmult_0_r; field]. }
      rewrite DZ. ring.
    + pose proof (divf_bound i _ SN) as [L U]. pose proof (kappa_pos i) as K.
      assert (EN : exl (umot rho) rho < 0).
      { rewrite exl_eunif by easy. unfold eunif. pose proof (kF_pos rho). pose proof PI_RGT_0.
        assert (0 < 3 / (4 * PI)) by (apply Rdiv_lt_0_compat; lra). nra. }
      replace (if (i =? 4)%Z then 1.245 else 0.804) with (kappa_ i) by (unfold kappa_; destruct (i =? 4)%Z; dec; field).
      set (e := exl (umot rho) rho) in *. set (d := divf i (ssf rho sigma)) in *. clearbody e d.
      assert (0 < kappa_ i * d) by now apply Rmult_lt_0_compat.
      assert (0 <= kappa_ i * (1 - d)) by (apply Rmult_le_pos; lra). split; nra.
Qed.
Print Assumptions C64_pbex.
Theorem C64_pbex_other i rho sigma : ~ (1 <= i <= 4)%Z -> pbex i rho sigma = Exit.
Proof.
  intros N. unfold pbex. destruct ((i <? 1)%Z || (4 <? i)%Z) eqn:B; [reflexivity|].
  apply orb_false_elim in B. destruct B as [B1 B2]. apply Z.ltb_ge in B1, B2. lia.
Qed.
Print Assumptions C64_pbex_other.
Example C64_pbex_ex : exists e v v2, pbex 1 (1 + 0) (2 + 0) = Ok (e, v, v2) /\
  is_derive (fun x => (1 + x) * en3 (pbex 1 (1 + x) (2 + x))) 0 (v * 1 + v2 / 2 * 1).
Proof.
  assert (D : forall c, is_derive (fun x : R => c + x) 0 1).
  { intros c. eapply is_derive_eq; [apply der_plus; [apply der_const|apply der_id]|]. lra. }
  refine (proj1 (C64_pbex 1 ltac:(lia)) (fun x => 1 + x) (fun x => 2 + x) 0 1 1 _ _ (D 1) (D 2)); lra.
Qed.

(** Refitted PW86 exchange. Below the floor 1e-14 the gradient is replaced by the floor, in the array too. *)
Theorem C64_rPW86x :
  gga_variation rPW86x3 sigma_floor /\
  forall rho sigma, 0 < rho -> exists v v2,
    rPW86x rho sigma = Ok (- 0.738558766382022 * Rpower rho (1 / 3)
        * FrPW86 (sqrt (Rmax sigma (/ 10 ^ 14)) / (6.18733545256027 * Rpower rho (4 / 3))), v, v2, Rmax sigma (/ 10 ^ 14)).
Proof.
  split.
  - intros r s t r' s' Hr Hs D S. assert (F : 0 < sigma_floor) by (unfold sigma_floor; lra). eexists _, _, _. split.
    { unfold rPW86x3. rewrite rpw_run by easy. cbv zeta. destruct (Rlt_dec (s t) sigma_floor) as [L|_]; [exfalso; apply (Rlt_irrefl sigma_floor); eapply Rlt_trans; [|exact L]; easy|]. reflexivity. }
    apply (der_ext_pos2 r s _ (fun x => r x * rpw_e (r x) (s x)) sigma_floor t r' s'); try easy.
    + intros x X Y. unfold rPW86x3. rewrite rpw_run by easy. cbv zeta.
      destruct (Rlt_dec (s x) sigma_floor) as [L|_]; [exfalso; apply (Rlt_irrefl sigma_floor); eapply Rlt_trans; [|exact L]; easy|]. reflexivity.
    + apply rpw_derive; try easy. lra.
  - intros rho sigma H. rewrite rpw_run by easy. cbv zeta.
    assert (E : (if Rlt_dec sigma sigma_floor then sigma_floor else sigma) = Rmax sigma (/ 10 ^ 14)).
    { assert (FE : / 10 ^ 14 = sigma_floor) by (unfold sigma_floor; lra). rewrite FE.
      destruct (Rlt_dec sigma sigma_floor); [rewrite Rmax_right|rewrite Rmax_left]; lra. }
    rewrite E. set (sg := Rmax sigma (/ 10 ^ 14)). clearbody sg. eexists _, _.
    assert (SE : sqrt sg / (6.18733545256027 * Rpower rho (4 / 3)) = sred rho sg).
    { unfold sred, pref. replace 6.18733545256027 with (618733545256027 / 100000000000000) by (dec; field). reflexivity. }
    rewrite SE.
    assert (FE : forall x, FrPW86 x = fsf x) by (intros x; unfold FrPW86, fsf; f_equal; unfold Pol; dec; field). unfold rpw_e. rewrite FE.
    replace (- 0.738558766382022) with Ax by (unfold Ax; dec; field). reflexivity.
Qed.
Print Assumptions C64_rPW86x.

(** PBE correlation, iflag 1 to 3: published energy, potentials, bounds, and the uniform-gas limit. *)
Theorem C64_pbec i : (1 <= i <= 3)%Z ->
  gga_variation (pbec i) 0 /\
  forall rho sigma, 0 < rho -> 0 <= sigma ->
    let ec := PW92 (0.6203504908994000 * Rpower rho (- (1 / 3))) in
    exists v v2, pbec i rho sigma = Ok (ec + Hpbe (be_of i) ec (t2 rho sigma), v, v2) /\
      ec <= ec + Hpbe (be_of i) ec (t2 rho sigma) < 0 /\
      (sigma = 0 -> Hpbe (be_of i) ec (t2 rho sigma) = 0 /\
         exists rho', Rabs (rho' - rho) <= / 10 ^ 15 * rho /\ pw rho' = Ok (ec, v)).
Proof.
  intros I. split.
  - intros r s t r' s' Hr Hs D S. eexists _, _, _. split; [apply pbec_run; [easy|easy|lra]|].
    apply (der_ext_pos2 r s _ (fun x => r x * pbec_e i (r x) (s x)) 0 t r' s'); try easy.
    + intros x X Y. rewrite pbec_run by (easy || lra). reflexivity.
    + apply pbec_derive; try easy. lra.
  - intros rho sigma Hr Hs ec. pose proof (rsr_pos rsfac rho rsfac_pos) as RP.
    assert (EE : eG0 (rsr rsfac rho) = ec).
    { rewrite eG0_PW92 by easy. unfold ec.
      replace (rsr rsfac rho) with (0.6203504908994000 * Rpower rho (- (1 / 3))); [reflexivity|].
      unfold rsr, rsfac. generalize (Rpower rho (- (1 / 3))). intros y. dec. field. }
    pose proof (eG0_neg _ RP) as EN. rewrite EE in EN.
    assert (BE : be_of i = beta_ i) by (unfold be_of, beta_; destruct (i =? 2)%Z; dec; field).
    assert (BP : 0 < beta_ i) by apply beta_pos. pose proof gamma_pos as GP.
    assert (TN : 0 <= ttf rho sigma).
    { unfold ttf. apply Rmult_le_pos; [apply Rmult_le_pos; [left; apply coeff_tt_pos|easy]|]. left. apply pow_lt, uu_pos. }
    rewrite <- (ttf_t2 rho sigma Hr), BE, <- (hhf_H (beta_ i) ec (ttf rho sigma) BP EN TN).
    exists (pbec_v i rho sigma), (pbec_v2 i rho sigma). rewrite pbec_run by easy.
    unfold pbec_e at 1. rewrite EE. split; [reflexivity|].
    pose proof (hhf_bound (beta_ i) gamma BP GP ec 1 (ttf rho sigma) EN ltac:(lra) TN) as HB. split; [lra|].
    intros ->. assert (T0 : ttf rho 0 = 0) by (unfold ttf; ring). rewrite T0.
    assert (H0 : hhf (beta_ i) gamma ec 1 0 = 0).
    { unfold hhf, argf. replace (_ + _) with 1; [rewrite ln_1; ring|]. unfold Rdiv at 2. ring. }
    split; [exact H0|]. exists (rho * (C31 / rsfac) ^ 3). split.
    { replace (rho * (C31 / rsfac) ^ 3 - rho) with (- ((1 - (C31 / rsfac) ^ 3) * rho)) by ring.
      rewrite Rabs_Ropp, Rabs_mult, (Rabs_pos_eq rho) by lra. apply Rmult_le_compat_r; [lra|].
      unfold C31, rsfac. apply Rabs_le. lra. }
    assert (CR : 0 < C31 / rsfac) by (apply Rdiv_lt_0_compat; [apply C31_pos|apply rsfac_pos]).
    assert (RE : rsr C31 (rho * (C31 / rsfac) ^ 3) = rsr rsfac rho).
    { unfold rsr. rewrite <- Rpower_mult_distr; [|easy|now apply pow_lt].
      rewrite <- (Rpower_pow 3 (C31 / rsfac)) by easy. rewrite Rpower_mult.
      replace (INR 3 * - (1 / 3)) with (- (1)) by (simpl; lra). rewrite (Rpower_Ropp (C31 / rsfac) 1), (Rpower_1 (C31 / rsfac)) by easy.
      pose proof C31_pos. pose proof rsfac_pos. generalize (Rpower rho (- (1 / 3))). intros y. field. split; lra. }
    rewrite pw_run by (apply Rmult_lt_0_compat; [easy|now apply pow_lt]). rewrite RE, EE. f_equal. f_equal.
    unfold pbec_v. cbv zeta. rewrite T0, EE, H0. unfold hh_e. unfold Rdiv at 4. ring.
Qed.
Print Assumptions C64_pbec.
Theorem C64_pbec_other i rho sigma : ~ (1 <= i <= 3)%Z -> pbec i rho sigma = Exit.
Proof.
  intros N. unfold pbec. destruct ((i <? 1)%Z || (3 <? i)%Z) eqn:B; [reflexivity|].
  apply orb_false_elim in B. destruct B as [B1 B2]. apply Z.ltb_ge in B1, B2. lia.
Qed.
Print Assumptions C64_pbec_other.
Example C64_pbec_ex : exists e v v2, pbec 2 (1 + 0) (2 + 0) = Ok (e, v, v2) /\
  is_derive (fun x => (1 + x) * en3 (pbec 2 (1 + x) (2 + x))) 0 (v * 1 + v2 / 2 * 1).
Proof.
  assert (D : forall c, is_derive (fun x : R => c + x) 0 1).
  { intros c. eapply is_derive_eq; [apply der_plus; [apply der_const|apply der_id]|]. lra. }
  refine (proj1 (C64_pbec 2 ltac:(lia)) (fun x => 1 + x) (fun x => 2 + x) 0 1 1 _ _ (D 1) (D 2)); lra.
Qed.

(** Exchange scales: the energy per particle of the density gamma^3 rho(gamma x) is gamma times larger. *)
Theorem C64_pbex_scaling i g rho sigma : (1 <= i <= 4)%Z -> 0 < g -> 0 < rho -> 0 <= sigma ->
  en3 (pbex i (g ^ 3 * rho) (g ^ 8 * sigma)) = g * en3 (pbex i rho sigma).
Proof.
  intros I G Hr Hs. assert (G3 : 0 < g ^ 3) by now apply pow_lt. assert (G8 : 0 < g ^ 8) by now apply pow_lt.
  assert (P : 0 < g ^ 3 * rho) by now apply Rmult_lt_0_compat. assert (Q : 0 <= g ^ 8 * sigma) by (apply Rmult_le_pos; lra).
  destruct (proj2 (C64_pbex i I) _ _ P Q) as [v [v2 [E _]]]. destruct (proj2 (C64_pbex i I) _ _ Hr Hs) as [w [w2 [E' _]]].
  rewrite E, E'. cbn [en3].
  assert (K : kF (g ^ 3 * rho) = g * kF rho).
  { unfold kF. pose proof PI2_pos. replace (3 * PI * PI * (g ^ 3 * rho)) with (g ^ 3 * (3 * PI * PI * rho)) by ring.
    rewrite <- Rpower_mult_distr; [|easy|nra]. f_equal. rewrite <- Rpower_pow by easy. rewrite Rpower_mult.
    replace (INR 3 * (1 / 3)) with 1 by (simpl; lra). now apply Rpower_1. }
  assert (S : s2 (g ^ 3 * rho) (g ^ 8 * sigma) = s2 rho sigma).
  { unfold s2. rewrite K. pose proof (kF_pos rho). field. repeat split; lra. }
  rewrite S. unfold eunif. rewrite K. ring.
Qed.
Print Assumptions C64_pbex_scaling.

(** The literals are the published constants to 1e-14. *)
Theorem C64_constants :
  Rabs (C2 - 3 / 4 * Rpower (3 / PI) (1 / 3)) <= / 10 ^ 14 /\
  Rabs (C3 - Rpower (3 / PI) (1 / 3)) <= / 10 ^ 14 /\
  Rabs (C31 - Rpower (3 / (4 * PI)) (1 / 3)) <= / 10 ^ 14 /\
  Rabs (rsfac - Rpower (3 / (4 * PI)) (1 / 3)) <= / 10 ^ 14 /\
  Rabs (pref - 2 * Rpower (3 * PI * PI) (1 / 3)) <= / 10 ^ 13 /\
  Rabs (mu_ 1 - 0.06672455060314922 * PI ^ 2 / 3) <= / 10 ^ 14.
Proof.
  pose proof PI_bounds as [PL PU]. assert (PP : 0 < PI) by lra.
  assert (I1 : 0.318309886183790 < / PI).
  { apply Rmult_lt_reg_l with PI; [easy|]. rewrite Rinv_r by lra. lra. }
  assert (I2 : / PI < 0.318309886183792).
  { apply Rmult_lt_reg_l with PI; [easy|]. rewrite Rinv_r by lra. lra. }
  assert (SQ : 9.86960440108935 < PI * PI < 9.86960440108937) by nra.
  assert (A : 0 < 3 / PI) by (unfold Rdiv; lra). assert (B : 0 < 3 / (4 * PI)) by (apply Rdiv_lt_0_compat; lra).
  assert (BE : 3 / (4 * PI) = 3 / 4 * / PI) by (field; lra).
  assert (C : 0 < 3 * PI * PI) by nra.
  assert (A1 : 0.984745021842690 < Rpower (3 / PI) (1 / 3)) by (apply cube_lt; unfold Rdiv; lra).
  assert (A2 : Rpower (3 / PI) (1 / 3) < 0.984745021842703) by (apply cube_gt; unfold Rdiv; lra).
  assert (B1 : 0.620350490899395 < Rpower (3 / (4 * PI)) (1 / 3)) by (apply cube_lt; [easy|]; rewrite BE; lra).
  assert (B2 : Rpower (3 / (4 * PI)) (1 / 3) < 0.620350490899405) by (apply cube_gt; [easy|lra|]; rewrite BE; lra).
  assert (D1 : 3.09366772628011 < Rpower (3 * PI * PI) (1 / 3)) by (apply cube_lt; [easy|]; lra).
  assert (D2 : Rpower (3 * PI * PI) (1 / 3) < 3.09366772628016) by (apply cube_gt; [easy|lra|]; lra).
  repeat split; apply Rabs_le; unfold C2, C3, C31, rsfac, pref, mu_; cbn [Z.eqb Pos.eqb]; lra.
Qed.
Print Assumptions C64_constants.

(** The gradient coefficient of exchange is that of correlation times pi^2/3 in the PBE paper, so that the two cancel
    for slowly varying densities. The code takes mu from beta = 0.06672455060314922 and beta itself as 0.066725. *)
Theorem C64_mu_refuted : exists i, (1 <= i <= 3)%Z /\ Rabs (mu_ i - beta_ i * PI ^ 2 / 3) > / 10 ^ 6.
Proof.
  exists 1%Z. split; [lia|]. pose proof PI_bounds as [PL PU].
  assert (SQ : 9.86960440108935 < PI * PI < 9.86960440108937) by nra.
  unfold mu_, beta_. cbn [Z.eqb Pos.eqb]. rewrite Rabs_left; lra.
Qed.
Print Assumptions C64_mu_refuted.
