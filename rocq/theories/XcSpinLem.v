(** Lemmas about the model of the spin-polarised exchange-correlation functions. *)
From Coq Require Import Reals ZArith Bool Lra Psatz.
From Coquelicot Require Import Coquelicot.
From Verif Require Import CBase Xc XcLem XcSpin.
Local Open Scope R_scope.

(** ** Exchange: each channel is the unpolarised functional at twice the density *)
Lemma umot2 up : umot (2 * up) = Rpower up (- (1 / 3)).
Proof. unfold umot. f_equal. field. Qed.
Lemma slater_chan_run up : 0 < up -> slater_chan up = Ok (exl (umot (2 * up)) (2 * up), 4 / 3 * exl (umot (2 * up)) (2 * up)).
Proof.
  intros H. unfold slater_chan. apply wp_ok. apply wp_pow; [easy|]. cbn [wp]. cbv zeta. unfold exl. rewrite umot2.
  replace (2 * up / 2) with up by field. reflexivity.
Qed.
Lemma pbex_chan_run i up sg : 0 < up -> 0 <= sg ->
  pbex_chan i up sg = Ok (pbex_e i (2 * up) (4 * sg), pbex_v i (2 * up) (4 * sg), 2 * pbex_v2 i (2 * up) (4 * sg)).
Proof.
  intros H S. unfold pbex_chan. cbv zeta. apply wp_ok. apply wp_pow; [easy|]. rewrite <- umot2.
  change (1 / 4 * (1 / sixpi2_1_3) * (1 / sixpi2_1_3) * _) with (cfs (umot (2 * up))).
  assert (SE : sg * cfs (umot (2 * up)) = ssf (2 * up) (4 * sg)) by (unfold ssf; field). rewrite SE.
  rewrite enhance_run by (apply ssf_nonneg; lra). cbn [obind fst snd wp].
  unfold pbex_e, pbex_v, pbex_v2, exl. cbv zeta. replace (2 * up / 2) with up by field.
  f_equal. field.
Qed.
Lemma sqrt4 x : 0 <= x -> sqrt (4 * x) = 2 * sqrt x.
Proof. intros H. rewrite sqrt_mult by lra. replace 4 with (2 * 2) by ring. rewrite sqrt_square by lra. reflexivity. Qed.
Lemma pow2_43 up : 0 < up -> Rpower (2 * up) (4 / 3) = 2 * Rpower 2 (1 / 3) * Rpower up (4 / 3).
Proof.
  intros H. rewrite <- Rpower_mult_distr by lra. f_equal. replace (4 / 3) with (1 + 1 / 3) by lra.
  rewrite Rpower_plus, Rpower_1 by lra. reflexivity.
Qed.
Lemma rPW86x_chan_run up sg : 0 < up ->
  rPW86x_chan up sg = let s := if Rlt_dec sg sigma_floor then sigma_floor else sg in
    Ok (up * rpw_e (2 * up) (4 * s), rpw_v (2 * up) (4 * s), 2 * rpw_v2 (2 * up) (4 * s)).
Proof.
  intros H. unfold rPW86x_chan. cbv zeta.
  assert (F : 0 < if Rlt_dec sg sigma_floor then sigma_floor else sg).
  { destruct (Rlt_dec sg sigma_floor); unfold sigma_floor in *; lra. }
  set (s := if Rlt_dec sg sigma_floor then sigma_floor else sg) in *. clearbody s.
  apply wp_ok. apply wp_sqrt; [lra|]. apply wp_pow; [easy|].
  pose proof (sqrt_lt_R0 _ F) as SP. pose proof (Rpower_pos up (4 / 3)) as P43. pose proof (Rpower_pos 2 (1 / 3)) as P2.
  change (618733545256027 / 100000000000000) with pref. change (- (738558766382022 / 1000000000000000)) with Ax.
  assert (PR : 0 < pref) by (unfold pref; lra).
  apply wp_div; [apply Rgt_not_eq; apply Rmult_lt_0_compat; [now apply Rmult_lt_0_compat|easy]|].
  assert (SE : sqrt s / (Rpower 2 (1 / 3) * pref * Rpower up (4 / 3)) = sred (2 * up) (4 * s)).
  { unfold sred. rewrite sqrt4, pow2_43 by lra. field. repeat split; lra. }
  rewrite SE. set (z := sred (2 * up) (4 * s)).
  assert (ZP : 0 < Pol z) by apply Pol_pos.
  change (1 + 1851 / 1000 * (z * z) + 1733 / 100 * (z * z * z * z) + 163 / 1000 * (z * z * z * (z * z) * z)) with (Pol z).
  apply wp_pow; [easy|]. change (Rpower (Pol z) (1 / 15)) with (fsf z).
  assert (FP : 0 < fsf z) by apply Rpower_pos. assert (F14 : 0 < fsf z ^ 14) by now apply pow_lt.
  apply wp_pow; [easy|]. apply wp_div; [lra|]. apply wp_pow; [easy|].
  apply wp_div; [apply Rgt_not_eq; now apply Rmult_lt_0_compat|].
  apply wp_div; [apply Rgt_not_eq; now apply Rmult_lt_0_compat|]. cbn [wp].
  change (1 / (15 * fsf z ^ 14) * (2 * (1851 / 1000) * z + 4 * (1733 / 100) * (z * z * z) + 6 * (163 / 1000) * (z * z * z * (z * z))))
    with (dff z).
  unfold rpw_e, rpw_v, rpw_v2. fold z. rewrite sqrt4 by lra.
  assert (E13 : Rpower (2 * up) (1 / 3) = Rpower 2 (1 / 3) * Rpower up (1 / 3)) by (rewrite Rpower_mult_distr by lra; reflexivity).
  rewrite E13. assert (E43 : Rpower up (1 / 3 + 1) = up * Rpower up (1 / 3)) by (rewrite Rpower_plus, Rpower_1 by easy; ring).
  rewrite E43. f_equal; [f_equal|].
  - ring.
  - field. lra.
  - field. lra.
Qed.

(** ** The local correlation energy as a function of rs and zeta *)
Definition eG1 : R -> R :=
  eG (15545 / 1000000) (20548 / 100000) (141189 / 10000) (61977 / 10000) (33662 / 10000) (62517 / 100000).
Definition dG1 : R -> R :=
  dG (15545 / 1000000) (20548 / 100000) (141189 / 10000) (61977 / 10000) (33662 / 10000) (62517 / 100000).
Definition eGm : R -> R :=
  eG (16887 / 1000000) (11125 / 100000) (10357 / 1000) (36231 / 10000) (88026 / 100000) (49671 / 100000).
Definition dGm : R -> R :=
  dG (16887 / 1000000) (11125 / 100000) (10357 / 1000) (36231 / 10000) (88026 / 100000) (49671 / 100000).
Lemma eG1_derive rs : 0 < rs -> is_derive eG1 rs (dG1 rs). Proof. apply eG_derive; lra. Qed.
Lemma eGm_derive rs : 0 < rs -> is_derive eGm rs (dGm rs). Proof. apply eG_derive; lra. Qed.
Lemma eG1_neg rs : 0 < rs -> eG1 rs < 0. Proof. apply eG_neg; lra. Qed.
Lemma eGm_neg rs : 0 < rs -> eGm rs < 0. Proof. apply eG_neg; lra. Qed.

Definition zp (z : R) : R := 1 + z * alpha_zeta.
Definition zm (z : R) : R := 1 - z * alpha_zeta.
Definition wq (y : R) : R := Rpower y (- (1 / 3)).
Definition fz (z : R) : R :=
  (zp z * (zp z * (wq (zp z) * wq (zp z))) + zm z * (zm z * (wq (zm z) * wq (zm z))) - 2) * factf_zeta.
Definition fpz (z : R) : R := (zp z * (wq (zp z) * wq (zp z)) - zm z * (wq (zm z) * wq (zm z))) * factfp_zeta.
Definition phz (z : R) : R := (wq (zp z) * zp z + wq (zm z) * zm z) * (1 / 2).
Definition phpz (z : R) : R := (wq (zp z) - wq (zm z)) * (1 / 3) * alpha_zeta.
Lemma zpm_pos z : -1 <= z <= 1 -> 0 < zp z /\ 0 < zm z.
Proof. intros H. unfold zp, zm, alpha_zeta. lra. Qed.
Lemma wq_pos y : 0 < wq y. Proof. apply Rpower_pos. Qed.
Lemma wq_derive (y : R -> R) (t y' : R) : 0 < y t -> is_derive y t y' ->
  is_derive (fun x => wq (y x)) t (- (1 / 3) * (wq (y t) / y t) * y').
Proof. intros P D. unfold wq. now apply der_pow. Qed.
Lemma zp_derive (z : R -> R) (t z' : R) : is_derive z t z' -> is_derive (fun x => zp (z x)) t (alpha_zeta * z').
Proof.
  intros D. eapply is_derive_eq; [apply der_plus; [apply der_const|apply der_mult; [exact D|apply der_const]]|].
  cbv beta. ring.
Qed.
Lemma zm_derive (z : R -> R) (t z' : R) : is_derive z t z' -> is_derive (fun x => zm (z x)) t (- (alpha_zeta * z')).
Proof.
  intros D. apply (der_ext (fun x => 1 + z x * (- alpha_zeta))); [intros; unfold zm; ring|].
  eapply is_derive_eq; [apply der_plus; [apply der_const|apply der_mult; [exact D|apply der_const]]|].
  cbv beta. ring.
Qed.
Lemma half_derive (y : R -> R) (t y' : R) : 0 < y t -> is_derive y t y' ->
  is_derive (fun x => y x * (y x * (wq (y x) * wq (y x)))) t (4 / 3 * (y t * (wq (y t) * wq (y t))) * y').
Proof.
  intros P D. pose proof (wq_derive y t y' P D) as W. eapply is_derive_eq.
  - apply der_mult; [exact D|]. apply der_mult; [exact D|]. apply der_mult; exact W.
  - cbv beta. field. lra.
Qed.
Lemma fz_derive (z : R -> R) (t z' : R) : -1 <= z t <= 1 -> is_derive z t z' ->
  is_derive (fun x => fz (z x)) t (fpz (z t) * z').
Proof.
  intros B D. destruct (zpm_pos _ B) as [P M]. unfold fz. eapply is_derive_eq.
  - apply der_mult; [|apply der_const].
    apply (der_ext (fun x => zp (z x) * (zp (z x) * (wq (zp (z x)) * wq (zp (z x))))
       + (zm (z x) * (zm (z x) * (wq (zm (z x)) * wq (zm (z x)))) + - (2)))); [intros; ring|].
    apply der_plus; [exact (half_derive _ t _ P (zp_derive z t z' D))|].
    apply der_plus; [exact (half_derive _ t _ M (zm_derive z t z' D))|apply der_const].
  - cbv beta. unfold fpz, factfp_zeta. change alpha_zeta2 with alpha_zeta. ring.
Qed.
Lemma phz_derive (z : R -> R) (t z' : R) : -1 <= z t <= 1 -> is_derive z t z' ->
  is_derive (fun x => phz (z x)) t (phpz (z t) * z').
Proof.
  intros B D. destruct (zpm_pos _ B) as [P M]. unfold phz.
  pose proof (zp_derive z t z' D) as DP. pose proof (zm_derive z t z' D) as DM. eapply is_derive_eq.
  - apply der_mult; [|apply der_const]. apply der_plus.
    + apply der_mult; [exact (wq_derive _ t _ P DP)|exact DP].
    + apply der_mult; [exact (wq_derive _ t _ M DM)|exact DM].
  - cbv beta. unfold phpz. field. split; lra.
Qed.
Lemma phz_pos z : -1 <= z <= 1 -> 0 < phz z.
Proof.
  intros B. destruct (zpm_pos _ B) as [P M]. unfold phz. pose proof (wq_pos (zp z)). pose proof (wq_pos (zm z)).
  apply Rmult_lt_0_compat; [|lra]. apply Rplus_lt_0_compat; now apply Rmult_lt_0_compat.
Qed.
(** 0 <= f <= 1 *)
Lemma wq3 y : 0 < y -> y * (wq y * (wq y * wq y)) = 1.
Proof.
  intros H. unfold wq. replace (Rpower y (- (1 / 3)) * (Rpower y (- (1 / 3)) * Rpower y (- (1 / 3)))) with (Rpower y (- (1 / 3)) ^ 3) by ring.
  rewrite Rpower_third3 by easy. field. lra.
Qed.
Lemma two43 : Rpower 2 (4 / 3) = 2 * Rpower 2 (1 / 3).
Proof. replace (4 / 3) with (1 + 1 / 3) by lra. rewrite Rpower_plus, Rpower_1 by lra. reflexivity. Qed.
Lemma two13_gt1 : 1 < Rpower 2 (1 / 3).
Proof. apply cube_lt; lra. Qed.
Lemma factf_pos : 0 < factf_zeta.
Proof. unfold factf_zeta. rewrite two43. pose proof two13_gt1. apply Rdiv_lt_0_compat; lra. Qed.
Lemma cbrt_facts y : 0 < y < 2 -> let w := y * (wq y * wq y) in 0 < w < Rpower 2 (1 / 3) /\ w * w * w = y.
Proof.
  intros H w. pose proof (wq_pos y) as W. pose proof (wq3 y (proj1 H)) as E.
  assert (C : w * w * w = y).
  { unfold w. replace (y * (wq y * wq y) * (y * (wq y * wq y)) * (y * (wq y * wq y)))
      with (y * (y * (wq y * (wq y * wq y))) * (y * (wq y * (wq y * wq y)))) by ring. rewrite E. ring. }
  assert (WP : 0 < w) by (unfold w; apply Rmult_lt_0_compat; [lra|now apply Rmult_lt_0_compat]).
  split; [split; [easy|]|easy]. apply cube_lt; [lra|]. rewrite C. lra.
Qed.
Lemma fz_bound z : -1 <= z <= 1 -> 0 <= fz z <= 1.
Proof.
  intros B. unfold fz. pose proof factf_pos as FP.
  assert (HP : 0 < zp z < 2) by (unfold zp, alpha_zeta; lra). assert (HM : 0 < zm z < 2) by (unfold zm, alpha_zeta; lra).
  assert (S : zp z + zm z = 2) by (unfold zp, zm; ring).
  destruct (cbrt_facts _ HP) as [[P1 P2] P3]. destruct (cbrt_facts _ HM) as [[M1 M2] M3].
  set (p := zp z * (wq (zp z) * wq (zp z))) in *. set (m := zm z * (wq (zm z) * wq (zm z))) in *. clearbody p m.
  assert (U1 : zp z * p <= zp z * Rpower 2 (1 / 3)) by (apply Rmult_le_compat_l; lra).
  assert (U2 : zm z * m <= zm z * Rpower 2 (1 / 3)) by (apply Rmult_le_compat_l; lra).
  assert (L : forall y, 0 < y -> 4 / 3 * (y * y * y) - 1 / 3 <= y * y * y * y).
  { intros y Y. assert (0 <= (y - 1) * (y - 1) * (y * y + 2 / 3 * y + 1 / 3)).
    { apply Rmult_le_pos; [apply Rle_0_sqr|]. assert (0 < y * y) by now apply Rmult_lt_0_compat. lra. } lra. }
  pose proof (L p P1) as LP. pose proof (L m M1) as LM. rewrite P3 in LP. rewrite M3 in LM.
  assert (0 <= zp z * p + zm z * m - 2 <= Rpower 2 (4 / 3) - 2).
  { rewrite two43. split; [lra|]. 
    assert (zp z * Rpower 2 (1 / 3) + zm z * Rpower 2 (1 / 3) = 2 * Rpower 2 (1 / 3)) by (rewrite <- Rmult_plus_distr_r, S; ring).
    lra. }
  split; [apply Rmult_le_pos; lra|].
  replace 1 with ((Rpower 2 (4 / 3) - 2) * factf_zeta).
  - apply Rmult_le_compat_r; lra.
  - unfold factf_zeta. rewrite two43. pose proof two13_gt1. field. lra.
Qed.

(** ** The unpolarised energy dominates the stiffness term *)
Lemma log_scale x : 0 < x -> ln (1 + 12 / 5 * x) <= 12 / 5 * ln (1 + x).
Proof.
  intros H. assert (K : (1 + 12 / 5 * x) ^ 5 <= (1 + x) ^ 12).
  { assert (N : forall k, 0 <= x ^ k) by (intros k; left; now apply pow_lt).
    pose proof (N 2%nat). pose proof (N 3%nat). pose proof (N 4%nat). pose proof (N 5%nat). pose proof (N 6%nat).
    pose proof (N 7%nat). pose proof (N 8%nat). pose proof (N 9%nat). pose proof (N 10%nat). pose proof (N 11%nat). pose proof (N 12%nat).
    assert (E : (1 + x) ^ 12 - (1 + 12 / 5 * x) ^ 5 =
      (66 - 288 / 5) * x ^ 2 + (220 - 3456 / 25) * x ^ 3 + (495 - 5 * (12 / 5) ^ 4) * x ^ 4 + (792 - (12 / 5) ^ 5) * x ^ 5
      + 924 * x ^ 6 + 792 * x ^ 7 + 495 * x ^ 8 + 220 * x ^ 9 + 66 * x ^ 10 + 12 * x ^ 11 + x ^ 12) by field.
    assert (0 <= (1 + x) ^ 12 - (1 + 12 / 5 * x) ^ 5).
    { rewrite E. assert (0 <= 495 - 5 * (12 / 5) ^ 4) by lra. assert (0 <= 792 - (12 / 5) ^ 5) by lra.
      assert (0 <= (495 - 5 * (12 / 5) ^ 4) * x ^ 4) by (apply Rmult_le_pos; lra).
      assert (0 <= (792 - (12 / 5) ^ 5) * x ^ 5) by (apply Rmult_le_pos; lra). lra. }
    lra. }
  assert (A : 0 < 1 + 12 / 5 * x) by lra. assert (B : 0 < 1 + x) by lra.
  assert (KL : ln ((1 + 12 / 5 * x) ^ 5) <= ln ((1 + x) ^ 12)).
  { destruct K as [K|K]; [left; apply ln_increasing; [now apply pow_lt|easy]|rewrite K; lra]. }
  rewrite !ln_pow in KL by easy. simpl INR in KL. lra.
Qed.
Lemma stiff_bound rs : 0 < rs -> eG0 rs - eGm rs * fsec_inv < 0.
Proof.
  intros H. pose proof (sqrt_lt_R0 _ H) as S. assert (S2 : sqrt rs * sqrt rs = rs) by (apply sqrt_sqrt; lra).
  unfold eG0, eGm, eG.
  assert (Q0 : 0 < q1f (31091 / 1000000) (75957 / 10000) (35876 / 10000) (16382 / 10000) (49294 / 100000) rs) by (apply q1f_pos; lra).
  assert (Qm : 0 < q1f (16887 / 1000000) (10357 / 1000) (36231 / 10000) (88026 / 100000) (49671 / 100000) rs) by (apply q1f_pos; lra).
  assert (QL : q1f (31091 / 1000000) (75957 / 10000) (35876 / 10000) (16382 / 10000) (49294 / 100000) rs
     <= 12 / 5 * q1f (16887 / 1000000) (10357 / 1000) (36231 / 10000) (88026 / 100000) (49671 / 100000) rs).
  { clear Q0 Qm. unfold q1f. set (s := sqrt rs) in *. clearbody s. subst rs.
    assert (P : 0 < s * (367 / 1000 + 705 / 10000 * s - 306 / 10000 * (s * s) + 96 / 10000 * (s * s * s))).
    { apply Rmult_lt_0_compat; [easy|]. assert (0 < s * (705 / 10000 - 306 / 10000 * s + 96 / 10000 * (s * s))).
      { apply Rmult_lt_0_compat; [easy|]. nra. } nra. }
    assert (P2 : 0 < s * s) by easy. assert (P3 : 0 < s * s * s) by now apply Rmult_lt_0_compat.
    assert (P4 : 0 < s * s * s * s) by now apply Rmult_lt_0_compat. lra. }
  set (q0 := q1f (31091 / 1000000) _ _ _ _ rs) in *. set (qm := q1f (16887 / 1000000) _ _ _ _ rs) in *. clearbody q0 qm.
  assert (I0 : 0 < 1 / q0) by (apply Rdiv_lt_0_compat; lra). assert (Im : 0 < 1 / qm) by (apply Rdiv_lt_0_compat; lra).
  assert (IL : 1 / qm <= 12 / 5 * (1 / q0)).
  { apply Rmult_le_reg_r with (q0 * qm); [now apply Rmult_lt_0_compat|].
    replace (1 / qm * (q0 * qm)) with q0 by (field; lra). replace (12 / 5 * (1 / q0) * (q0 * qm)) with (12 / 5 * qm) by (field; lra). lra. }
  assert (L : ln (1 + 1 / qm) <= 12 / 5 * ln (1 + 1 / q0)).
  { apply Rle_trans with (ln (1 + 12 / 5 * (1 / q0))); [|now apply log_scale].
    destruct IL as [IL|IL]; [left; apply ln_increasing; lra|rewrite IL; lra]. }
  assert (L0 : 0 < ln (1 + 1 / q0)) by (rewrite <- ln_1; apply ln_increasing; lra).
  set (l0 := ln (1 + 1 / q0)) in *. set (lm := ln (1 + 1 / qm)) in *. clearbody l0 lm. unfold fsec_inv.
  assert (M1 : (1 + 11125 / 100000 * rs) * lm <= (1 + 11125 / 100000 * rs) * (12 / 5 * l0)) by (apply Rmult_le_compat_l; lra).
  assert (M2 : 0 < rs * l0) by now apply Rmult_lt_0_compat. lra.
Qed.

(** ** The local energy *)
Definition els (rs z : R) : R :=
  eG0 rs + fz z * (z ^ 4 * (eG1 rs - eG0 rs + eGm rs * fsec_inv) - eGm rs * fsec_inv).
Definition els_r (rs z : R) : R :=
  dG0 rs + fz z * (z ^ 4 * (dG1 rs - dG0 rs + dGm rs * fsec_inv) - dGm rs * fsec_inv).
Definition els_z (rs z : R) : R :=
  (4 * z ^ 3 * fz z + fpz z * z ^ 4) * (eG1 rs - eG0 rs + eGm rs * fsec_inv) - fpz z * eGm rs * fsec_inv.
Lemma els_neg rs z : 0 < rs -> -1 <= z <= 1 -> els rs z < 0.
Proof.
  intros H B. pose proof (stiff_bound rs H) as SB. pose proof (eG1_neg rs H) as E1. pose proof (fz_bound z B) as F.
  pose proof (eG0_neg rs H) as E0.
  assert (Z4 : 0 <= z ^ 4 <= 1).
  { assert (0 <= z * z <= 1) by nra. replace (z ^ 4) with ((z * z) * (z * z)) by ring. nra. }
  unfold els. set (f := fz z) in *. set (y := z ^ 4) in *. clearbody f y.
  set (e0 := eG0 rs) in *. set (e1 := eG1 rs) in *. set (m := eGm rs * fsec_inv) in *. clearbody e0 e1 m.
  replace (e0 + f * (y * (e1 - e0 + m) - m)) with ((1 - f) * e0 + f * (y * e1 + (1 - y) * (e0 - m))) by ring.
  assert (K : y * e1 + (1 - y) * (e0 - m) < 0).
  { destruct (Req_dec y 0) as [->|N]; [lra|]. assert (y * e1 < 0) by nra. assert ((1 - y) * (e0 - m) <= 0) by nra. lra. }
  destruct (Req_dec f 0) as [->|N]; [lra|]. assert (f * (y * e1 + (1 - y) * (e0 - m)) < 0) by nra.
  assert ((1 - f) * e0 <= 0) by nra. lra.
Qed.
Lemma els_derive (r z : R -> R) (t r' z' : R) : 0 < r t -> -1 <= z t <= 1 -> is_derive r t r' -> is_derive z t z' ->
  is_derive (fun x => els (r x) (z x)) t (els_r (r t) (z t) * r' + els_z (r t) (z t) * z').
Proof.
  intros P B R Z. pose proof (der_comp eG0 r t _ _ (eG0_derive _ P) R) as E0.
  pose proof (der_comp eG1 r t _ _ (eG1_derive _ P) R) as E1. pose proof (der_comp eGm r t _ _ (eGm_derive _ P) R) as EM.
  pose proof (fz_derive z t z' B Z) as F. pose proof (der_mult _ _ t _ _ Z Z) as Z2. pose proof (der_mult _ _ t _ _ Z2 Z2) as Z4.
  cbv beta in *.
  apply (der_ext (fun x => eG0 (r x) + fz (z x) * (z x * z x * (z x * z x) * (eG1 (r x) + (-1) * eG0 (r x) + fsec_inv * eGm (r x))
     + (- fsec_inv) * eGm (r x)))).
  { intros x. unfold els. ring. }
  eapply is_derive_eq.
  - apply der_plus; [exact E0|]. apply der_mult; [exact F|]. apply der_plus.
    + apply der_mult; [exact Z4|]. apply der_plus; [apply der_plus; [exact E1|apply der_scal, E0]|apply der_scal, EM].
    + apply der_scal, EM.
  - cbv beta. unfold els_r, els_z. ring.
Qed.

(** ** Runs *)
Definition zet (up dn : R) : R := (up - dn) / (up + dn).
Lemma zet_bound up dn : 0 <= up -> 0 <= dn -> 0 < up + dn -> -1 <= zet up dn <= 1.
Proof.
  intros U D P. unfold zet. split.
  - apply Rmult_le_reg_r with (up + dn); [easy|]. replace ((up - dn) / (up + dn) * (up + dn)) with (up - dn) by (field; lra). lra.
  - apply Rmult_le_reg_r with (up + dn); [easy|]. replace ((up - dn) / (up + dn) * (up + dn)) with (up - dn) by (field; lra). lra.
Qed.
Lemma uu3 rho : 0 < rho -> uu rho * uu rho * uu rho = 1 / rho.
Proof. intros H. replace (uu rho * uu rho * uu rho) with (uu rho ^ 3) by ring. rewrite uu_cube by easy. field. lra. Qed.
Definition lsd_of (rho up dn : R) : lsd :=
  let z := zet up dn in let rs := rsr rsfac rho in
  let v := els rs z - rs * (1 / 3) * els_r rs z - z * els_z rs z in
  Lsd (uu rho) z (zp z) (zm z) (wq (zp z)) (wq (zm z)) rs (els rs z) (els_r rs z) (els_z rs z) (v + els_z rs z) (v - els_z rs z).
Lemma lsd_run up dn : 0 <= up -> 0 <= dn -> 0 < up + dn -> lsd_c (up + dn) up dn = Ok (lsd_of (up + dn) up dn).
Proof.
  intros U D P. pose proof (zet_bound up dn U D P) as B. destruct (zpm_pos _ B) as [ZP ZM].
  set (rho := up + dn) in *. assert (RE : up + dn = rho) by reflexivity. clearbody rho.
  unfold lsd_c. cbv zeta. apply wp_ok. apply wp_pow; [easy|]. fold (uu rho). rewrite uu3 by easy.
  assert (ZE : (up - dn) * (1 / rho) = zet up dn) by (unfold zet; rewrite RE; field; lra). rewrite ZE.
  change (1 + zet up dn * alpha_zeta) with (zp (zet up dn)). change (1 - zet up dn * alpha_zeta) with (zm (zet up dn)).
  apply wp_pow; [easy|]. apply wp_pow; [easy|]. fold (wq (zp (zet up dn))). fold (wq (zm (zet up dn))).
  pose proof (uu_pos rho) as UP. apply wp_sqrt; [lra|].
  destruct (rsm rho P) as [-> ->]. change (rsfac * uu rho) with (rsr rsfac rho).
  pose proof (rsr_pos rsfac rho rsfac_pos) as RP.
  assert (PE : pw92_0 (rsr rsfac rho) (sqrt (rsr rsfac rho)) (1 / sqrt (rsr rsfac rho)) = Ok (eG0 (rsr rsfac rho), dG0 (rsr rsfac rho)))
    by (unfold pw92_0, eG0, dG0; apply pw92_run; lra).
  assert (PM : pw92_m (rsr rsfac rho) (sqrt (rsr rsfac rho)) (1 / sqrt (rsr rsfac rho)) = Ok (eGm (rsr rsfac rho), dGm (rsr rsfac rho)))
    by (unfold pw92_m, eGm, dGm; apply pw92_run; lra).
  assert (P1 : pw92_1 (rsr rsfac rho) (sqrt (rsr rsfac rho)) (1 / sqrt (rsr rsfac rho)) = Ok (eG1 (rsr rsfac rho), dG1 (rsr rsfac rho)))
    by (unfold pw92_1, eG1, dG1; apply pw92_run; lra).
  rewrite PE. cbn [obind fst snd]. rewrite PM. cbn [obind fst snd]. rewrite P1. cbn [obind fst snd wp].
  change (1 + zet up dn * alpha_zeta2) with (zp (zet up dn)). change (1 - zet up dn * alpha_zeta2) with (zm (zet up dn)).
  reflexivity.
Qed.
Lemma zet_derive (u d : R -> R) (t u' d' : R) : 0 < u t + d t -> is_derive u t u' -> is_derive d t d' ->
  is_derive (fun x => zet (u x) (d x)) t ((u' - d' - zet (u t) (d t) * (u' + d')) / (u t + d t)).
Proof.
  intros P U D. apply (der_ext (fun x => (u x + (-1) * d x) * / (u x + d x))).
  { intros x. unfold zet, Rdiv. f_equal. ring. }
  eapply is_derive_eq.
  - apply der_mult; [apply der_plus; [exact U|apply der_scal, D]|]. apply der_inv; [lra|]. apply der_plus; [exact U|exact D].
  - cbv beta. unfold zet. field. lra.
Qed.

Definition pw_spin_e (up dn : R) : R := els (rsr rsfac (up + dn)) (zet up dn).
Lemma pw_spin_run up dn : 0 <= up -> 0 <= dn -> 0 < up + dn ->
  pw_spin (up + dn) up dn = Ok (pw_spin_e up dn, l_up (lsd_of (up + dn) up dn), l_dn (lsd_of (up + dn) up dn)).
Proof. intros U D P. unfold pw_spin. rewrite lsd_run by easy. reflexivity. Qed.
Lemma pw_spin_derive (u d : R -> R) (t u' d' : R) : 0 <= u t -> 0 <= d t -> 0 < u t + d t ->
  is_derive u t u' -> is_derive d t d' ->
  is_derive (fun x => (u x + d x) * pw_spin_e (u x) (d x)) t
    (l_up (lsd_of (u t + d t) (u t) (d t)) * u' + l_dn (lsd_of (u t + d t) (u t) (d t)) * d').
Proof.
  intros NU ND P U D. pose proof (zet_bound _ _ NU ND P) as B.
  pose proof (zet_derive u d t u' d' P U D) as Z. pose proof (der_plus _ _ t _ _ U D) as RD.
  pose proof (rsr_derive rsfac _ t _ P RD) as RS. pose proof (rsr_pos rsfac (u t + d t) rsfac_pos) as RP.
  pose proof (els_derive _ _ t _ _ RP B RS Z) as E. cbv beta in E. unfold pw_spin_e. eapply is_derive_eq.
  - apply der_mult; [exact RD|exact E].
  - cbv beta. cbn [l_up l_dn lsd_of]. field. lra.
Qed.

(** PBE correlation *)
Definition pbec_spin_e (i : Z) (up dn sigma : R) : R :=
  let rho := up + dn in let rs := rsr rsfac rho in let z := zet up dn in
  els rs z + hhf (beta_ i) gamma (els rs z) (phz z) (ttf rho sigma).
Definition hz (i : Z) (up dn sigma : R) : R :=
  let rho := up + dn in let rs := rsr rsfac rho in let z := zet up dn in
  hh_e (beta_ i) gamma (els rs z) (phz z) (ttf rho sigma) * els_z rs z
  + hh_p (beta_ i) gamma (els rs z) (phz z) (ttf rho sigma) * phpz z.
Definition hrho (i : Z) (up dn sigma : R) : R :=
  let rho := up + dn in let rs := rsr rsfac rho in let z := zet up dn in let t := ttf rho sigma in
  hhf (beta_ i) gamma (els rs z) (phz z) t - 1 / 3 * rs * (hh_e (beta_ i) gamma (els rs z) (phz z) t * els_r rs z)
  - z * hz i up dn sigma - 7 / 3 * t * hh_t (beta_ i) gamma (els rs z) (phz z) t.
Definition pbec_spin_v2 (i : Z) (up dn sigma : R) : R :=
  let rho := up + dn in let rs := rsr rsfac rho in let z := zet up dn in
  rho * (2 * coeff_tt * uu rho ^ 7) * hh_t (beta_ i) gamma (els rs z) (phz z) (ttf rho sigma).
Lemma ttf_nonneg rho sigma : 0 <= sigma -> 0 <= ttf rho sigma.
Proof.
  intros H. unfold ttf. apply Rmult_le_pos; [apply Rmult_le_pos; [left; apply coeff_tt_pos|easy]|].
  left. apply pow_lt, uu_pos.
Qed.
Lemma pbec_spin_run i up dn sigma : (1 <= i <= 3)%Z -> 0 <= up -> 0 <= dn -> 0 < up + dn -> 0 <= sigma ->
  pbec_spin i (up + dn) up dn sigma =
    Ok (pbec_spin_e i up dn sigma,
        (l_up (lsd_of (up + dn) up dn) + (hrho i up dn sigma + hz i up dn sigma),
         l_dn (lsd_of (up + dn) up dn) + (hrho i up dn sigma - hz i up dn sigma)),
        pbec_spin_v2 i up dn sigma).
Proof.
  intros I U D P Sg. unfold pbec_spin.
  replace ((i <? 1)%Z || (3 <? i)%Z) with false by (symmetry; apply orb_false_intro; apply Z.ltb_ge; tauto).
  cbv zeta. rewrite lsd_run by easy. cbn [obind]. apply wp_ok.
  pose proof (zet_bound up dn U D P) as B. destruct (zpm_pos _ B) as [ZP ZM].
  unfold pbec_spin_e, hrho, hz, pbec_spin_v2. cbv zeta.
  set (rho := up + dn) in *. pose proof (rsr_pos rsfac rho rsfac_pos) as RP.
  cbn [l_rhom l_zeta l_zpm l_zmm l_rs l_e l_drs l_dz lsd_of].
  set (l := lsd_of rho up dn). clearbody l.
  set (z := zet up dn) in *. set (rs := rsr rsfac rho) in *. 
  pose proof (els_neg rs z RP B) as EN. pose proof gamma_pos as GP. pose proof (beta_pos i) as BP.
  set (e := els rs z) in *. set (er := els_r rs z). set (ez := els_z rs z).
  change ((wq (zp z) * (1 + z * alpha_zeta) + wq (zm z) * (1 - z * alpha_zeta)) * (1 / 2)) with (phz z).
  change ((wq (zp z) - wq (zm z)) * (1 / 3) * alpha_zeta) with (phpz z).
  pose proof (phz_pos z B) as PP. set (p := phz z) in *. set (pp := phpz z). clearbody p pp e er ez.
  apply wp_div; [lra|].
  assert (TE : 1 / 2 * sigma * (2 * (uu rho * uu rho * uu rho) * (uu rho * uu rho * uu rho) * uu rho * coeff_tt)
               = ttf rho sigma) by (unfold ttf; field). rewrite TE.
  pose proof (ttf_nonneg rho sigma Sg) as TP. set (t := ttf rho sigma) in *. clearbody t.
  assert (BE : - (e * (1 / gamma * (1 / p) * (1 / p) * (1 / p))) = - bbf gamma e p) by (unfold bbf; field; lra).
  pose proof (cc_pos gamma GP e p EN PP) as CP. rewrite BE. apply wp_div; [lra|].
  change (1 / (exp (- bbf gamma e p) - 1)) with (ccf gamma e p).
  assert (AE : beta_ i * (1 / gamma) * (1 / p) * (1 / p) * ccf gamma e p = aaf (beta_ i) gamma e p)
    by (unfold aaf; field; lra). rewrite AE.
  pose proof (aa_pos (beta_ i) gamma BP GP e p EN PP) as AP.
  assert (XP : 0 <= aaf (beta_ i) gamma e p * t) by (apply Rmult_le_pos; lra).
  pose proof (den_pos _ XP) as DP. apply wp_div; [lra|].
  set (x := aaf (beta_ i) gamma e p * t) in *.
  change ((1 + x) * (1 / (1 + x * (1 + x)))) with (padef x).
  assert (AG : 1 + beta_ i * (1 / gamma) * (t * (1 / p) * (1 / p) * padef x) = argf (beta_ i) gamma e p t).
  { unfold argf. fold x. field. lra. }
  rewrite AG. pose proof (arg_ge1 (beta_ i) gamma BP GP e p t EN PP TP) as A1.
  apply wp_div; [lra|]. apply wp_log; [lra|]. cbn [wp].
  change (- x * (2 + x) * (1 / (1 + x * (1 + x)) * (1 / (1 + x * (1 + x))))) with (dpx x).
  assert (BB : bbf gamma e p = e / (gamma * p ^ 3)) by reflexivity.
  unfold hhf, hh_e, hh_t, hh_p. fold x. unfold dcb.
  set (b := bbf gamma e p) in *. clearbody b. 
  set (ar := argf (beta_ i) gamma e p t) in *. clearbody ar. set (lr := ln ar). clearbody lr.
  set (cc := ccf gamma e p). clearbody cc. set (dp := dpx x). set (pd := padef x). clearbody dp pd.
  set (ex := exp (- b)). clearbody ex.
  assert (EE : e = b * (gamma * p ^ 3)) by (rewrite BB; field; lra).
  set (aa := aaf (beta_ i) gamma e p) in *. clearbody aa. clear CP BE AE AG. clearbody x. subst e. clear BB.
  f_equal; [f_equal; [|f_equal]|].
  - ring.
  - field. repeat split; lra.
  - field. repeat split; lra.
  - field. repeat split; lra.
Qed.
Lemma pbec_spin_derive i (u d s : R -> R) (t u' d' s' : R) : 0 <= u t -> 0 <= d t -> 0 < u t + d t -> 0 <= s t ->
  is_derive u t u' -> is_derive d t d' -> is_derive s t s' ->
  is_derive (fun x => (u x + d x) * pbec_spin_e i (u x) (d x) (s x)) t
    ((l_up (lsd_of (u t + d t) (u t) (d t)) + (hrho i (u t) (d t) (s t) + hz i (u t) (d t) (s t))) * u'
     + (l_dn (lsd_of (u t + d t) (u t) (d t)) + (hrho i (u t) (d t) (s t) - hz i (u t) (d t) (s t))) * d'
     + pbec_spin_v2 i (u t) (d t) (s t) / 2 * s').
Proof.
  intros NU ND P Sg U D S. pose proof (zet_bound _ _ NU ND P) as B.
  pose proof (zet_derive u d t u' d' P U D) as Z. pose proof (der_plus _ _ t _ _ U D) as RD.
  pose proof (rsr_derive rsfac _ t _ P RD) as RS. pose proof (rsr_pos rsfac (u t + d t) rsfac_pos) as RP.
  pose proof (els_derive _ _ t _ _ RP B RS Z) as E. pose proof (phz_derive _ t _ B Z) as PH.
  pose proof (ttf_derive _ s t _ s' P RD S) as TD. pose proof (els_neg _ _ RP B) as EN. pose proof (phz_pos _ B) as PP.
  pose proof (ttf_nonneg (u t + d t) (s t) Sg) as TP. cbv beta in *.
  pose proof (hhf_derive (beta_ i) gamma (beta_pos i) gamma_pos _ _ _ t _ _ _ EN PP TP E PH TD) as HD. cbv beta in HD.
  unfold pbec_spin_e. cbv zeta. eapply is_derive_eq.
  - apply der_mult; [exact RD|]. apply der_plus; [exact E|exact HD].
  - cbv beta. unfold hrho, hz, pbec_spin_v2. cbv zeta. cbn [l_up l_dn lsd_of].
    generalize (hhf (beta_ i) gamma (els (rsr rsfac (u t + d t)) (zet (u t) (d t))) (phz (zet (u t) (d t))) (ttf (u t + d t) (s t)))
      (hh_e (beta_ i) gamma (els (rsr rsfac (u t + d t)) (zet (u t) (d t))) (phz (zet (u t) (d t))) (ttf (u t + d t) (s t)))
      (hh_p (beta_ i) gamma (els (rsr rsfac (u t + d t)) (zet (u t) (d t))) (phz (zet (u t) (d t))) (ttf (u t + d t) (s t)))
      (hh_t (beta_ i) gamma (els (rsr rsfac (u t + d t)) (zet (u t) (d t))) (phz (zet (u t) (d t))) (ttf (u t + d t) (s t))).
    intros. field. lra.
Qed.
