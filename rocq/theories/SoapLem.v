(* The code's spherical harmonics, angles and gradient against the textbook. *)

From Coq Require Import Reals List ZArith Lia Lra Arith.
From Coquelicot Require Import Coquelicot.
From Verif Require Import CBase SoapSpec Soap OfGrad SoapLeg MggaXLem.
Open Scope R_scope.

(** ** Multiples of phi *)
Lemma trig_spec phi m : trig phi m = (cos (INR m * phi), cos ((INR m - 1) * phi), sin (INR m * phi), sin ((INR m - 1) * phi)).
Proof.
  induction m as [|m IH].
  - cbn [trig INR]. replace (0 * phi) with 0 by ring. replace ((0 - 1) * phi) with (- phi) by ring.
    now rewrite cos_0, sin_0, cos_neg, sin_neg.
  - cbn [trig]. rewrite IH. cbv zeta beta iota. rewrite S_INR. 
    replace ((INR m + 1 - 1) * phi) with (INR m * phi) by ring.
    replace ((INR m + 1) * phi) with (INR m * phi + phi) by ring. replace ((INR m - 1) * phi) with (INR m * phi - phi) by ring.
    rewrite cos_plus, cos_minus, sin_plus, sin_minus.
    repeat apply (f_equal2 pair); ring.
Qed.

Definition amp (theta : R) (l : nat) (m : Z) : R :=
  if (0 <=? m)%Z then ytheta l (Z.to_nat m) theta else (-1) ^ Z.to_nat (- m) * ytheta l (Z.to_nat (- m)) theta.
Lemma Ytext_amp theta phi l m : Ytext theta phi l m = (amp theta l m * cos (IZR m * phi), amp theta l m * sin (IZR m * phi)).
Proof. unfold Ytext, amp. destruct (0 <=? m)%Z; [reflexivity|]. f_equal; ring. Qed.
Lemma ytheta_pl l m theta : ytheta l m theta = pl (cos theta) (sin theta) l m.
Proof. unfold ytheta, pl. now rewrite ql_derive_n. Qed.
Lemma even_sign k : (-1) ^ k = if Nat.even k then 1 else -1.
Proof.
  induction k as [|k IH]; [reflexivity|]. cbn [pow]. rewrite IH. rewrite Nat.even_succ, <- Nat.negb_even. destruct (Nat.even k); cbn; ring.
Qed.

Lemma sphY_text theta phi l m : (- Z.of_nat l <= m <= Z.of_nat l)%Z -> sphY theta phi l m = Ytext theta phi l m.
Proof.
  intros H. rewrite Ytext_amp. unfold sphY, amp. destruct m as [|p|p].
  - cbn [Z.leb Z.compare Z.to_nat]. rewrite legP_spec by lia. rewrite ytheta_pl. rewrite Rmult_0_l, cos_0, sin_0. f_equal; ring.
  - rewrite trig_spec. rewrite legP_spec by lia. cbn [Z.leb Z.compare Z.to_nat]. rewrite ytheta_pl.
    assert (E : INR (Pos.to_nat p) = IZR (Zpos p)) by (rewrite INR_IPR; reflexivity). now rewrite E.
  - rewrite trig_spec. rewrite legP_spec by lia. cbn [Z.leb Z.compare Z.to_nat Z.opp]. rewrite ytheta_pl.
    assert (E : INR (Pos.to_nat p) = - IZR (Zneg p)) by (rewrite INR_IPR, <- opp_IZR; reflexivity). rewrite E.
    replace (- IZR (Z.neg p) * phi) with (- (IZR (Z.neg p) * phi)) by ring. rewrite cos_neg, sin_neg.
    rewrite even_sign. destruct (Nat.even (Pos.to_nat p)); f_equal; ring.
Qed.

(** ** Derivatives of the amplitude *)
Lemma pow_pred s k : s <> 0 -> (1 <= k)%nat -> s ^ pred k = s ^ k / s.
Proof. intros Hs H. destruct k as [|k]; [lia|]. cbn [pow pred]. field. exact Hs. Qed.
Lemma pl_derive l m th : is_derive (fun t => pl (cos t) (sin t) l m) th
   (ynorm l m * (INR m * cos th * sin th ^ pred m * ql l m (cos th) + sin th ^ m * (- sin th * ql l (S m) (cos th)))).
Proof.
  unfold pl. apply (is_derive_scal (fun t => sin t ^ m * ql l m (cos t))).
  apply (mul_derive (fun t => sin t ^ m) (fun t => ql l m (cos t))).
  - eapply der_eq; [apply (is_derive_pow (fun t => sin t) m th (cos th)); apply is_derive_sin|]. ring.
  - eapply der_eq; [apply (is_derive_comp (fun t => ql l m t) cos th); [apply ql_derive|apply is_derive_cos]|].
    unfold scal; cbn. unfold mult; cbn. ring.
Qed.
Lemma ynorm_lower l k : (1 <= k <= l)%nat -> sqrt (INR ((l + k) * (l - k + 1))) * ynorm l (k - 1) = - (INR ((l + k) * (l - k + 1)) * ynorm l k).
Proof.
  intros H. destruct k as [|k]; [lia|]. replace (S k - 1)%nat with k by lia.
  pose proof (raise_norm l k ltac:(lia)) as R. replace ((l + S k) * (l - S k + 1))%nat with ((l - k) * (l + k + 1))%nat by nia.
  apply Ropp_eq_compat in R. rewrite Ropp_involutive in R. rewrite <- R.
  rewrite <- (sqrt_sqrt (INR ((l - k) * (l + k + 1)))) at 3 by apply pos_INR. ring.
Qed.
Lemma amp_derive l m th : (- Z.of_nat l <= m <= Z.of_nat l)%Z -> sin th <> 0 ->
  is_derive (fun t => amp t l m) th
   (IZR m * (cos th / sin th) * amp th l m
    + (if (m <? Z.of_nat l)%Z then sqrt (IZR ((Z.of_nat l - m) * (Z.of_nat l + m + 1))) * amp th l (m + 1) else 0)).
Proof.
  intros H Hs. unfold amp at 1 2. destruct (Z.leb_spec 0 m) as [Hm|Hm].
  - remember (Z.to_nat m) as k eqn:Ek. assert (Em : m = Z.of_nat k) by lia. subst m. clear Ek.
    apply (is_derive_ext (fun t => pl (cos t) (sin t) l k)); [intros; now rewrite ytheta_pl|].
    eapply der_eq; [apply pl_derive|]. rewrite ytheta_pl. rewrite <- INR_IZR_INZ.
    assert (E1 : INR k * cos th * sin th ^ pred k = INR k * (cos th / sin th) * sin th ^ k).
    { destruct k as [|k]; [cbn [INR]; ring|]. rewrite pow_pred by (auto; lia). field. exact Hs. }
    rewrite E1. destruct (Z.ltb_spec (Z.of_nat k) (Z.of_nat l)) as [Hl|Hl].
    + unfold amp. replace (0 <=? Z.of_nat k + 1)%Z with true by (symmetry; apply Z.leb_le; lia).
      replace (Z.to_nat (Z.of_nat k + 1)) with (S k) by lia. rewrite ytheta_pl. unfold pl.
      replace (IZR ((Z.of_nat l - Z.of_nat k) * (Z.of_nat l + Z.of_nat k + 1))) with (INR ((l - k) * (l + k + 1))).
      2:{ rewrite INR_IZR_INZ. f_equal. rewrite Nat2Z.inj_mul, Nat2Z.inj_sub by lia. lia. }
      rewrite <- (Rmult_assoc (sqrt _) (ynorm l (S k))). rewrite raise_norm by lia. cbn [pow]. ring.
    + unfold ql at 2. replace (S k <=? l)%nat with false by (symmetry; apply Nat.leb_gt; lia). unfold pl. ring.
  - remember (Z.to_nat (- m)) as k eqn:Ek. assert (Em : m = (- Z.of_nat k)%Z) by lia. subst m. clear Ek.
    apply (is_derive_ext (fun t => (-1) ^ k * pl (cos t) (sin t) l k)); [intros; now rewrite ytheta_pl|].
    eapply der_eq; [apply (is_derive_scal (fun t => pl (cos t) (sin t) l k)); apply pl_derive|]. rewrite ytheta_pl.
    replace (- Z.of_nat k <? Z.of_nat l)%Z with true by (symmetry; apply Z.ltb_lt; lia).
    rewrite opp_IZR, <- INR_IZR_INZ.
    assert (EA : amp th l (- Z.of_nat k + 1) = (-1) ^ (k - 1) * pl (cos th) (sin th) l (k - 1)).
    { unfold amp. destruct (Z.leb_spec 0 (- Z.of_nat k + 1)) as [H1|H1].
      - replace k with 1%nat by lia. cbn [Nat.sub]. rewrite ytheta_pl. cbn. ring.
      - replace (Z.to_nat (- (- Z.of_nat k + 1))) with (k - 1)%nat by lia. now rewrite ytheta_pl. }
    rewrite EA. replace (IZR ((Z.of_nat l - - Z.of_nat k) * (Z.of_nat l + - Z.of_nat k + 1))) with (INR ((l + k) * (l - k + 1))).
    2:{ rewrite INR_IZR_INZ. f_equal. rewrite Nat2Z.inj_mul, !Nat2Z.inj_add, Nat2Z.inj_sub by lia. lia. }
    unfold pl. pose proof (ynorm_lower l k ltac:(lia)) as NL. pose proof (ql_lower l k (cos th) ltac:(lia)) as QL.
    set (N := INR ((l + k) * (l - k + 1))) in *.
    transitivity (- INR k * (cos th / sin th) * ((-1) ^ k * (ynorm l k * (sin th ^ k * ql l k (cos th)))) + (-1) ^ (k - 1) * ((sqrt N * ynorm l (k - 1)) * (sin th ^ (k - 1) * ql l (k - 1) (cos th)))); [|ring].
    rewrite NL. transitivity (- INR k * (cos th / sin th) * ((-1) ^ k * (ynorm l k * (sin th ^ k * ql l k (cos th)))) - (-1) ^ (k - 1) * ynorm l k * sin th ^ (k - 1) * (N * ql l (k - 1) (cos th))); [|ring].
    rewrite QL. replace (1 - cos th * cos th) with (sin th * sin th) by (pose proof (sin2_cos2 th) as Q; unfold Rsqr in Q; lra).
    destruct k as [|k]; [lia|]. replace (S k - 1)%nat with k by lia. cbn [pow pred]. unfold scal; cbn [scal mult]. field. exact Hs.
Qed.

Lemma cder_ext f g t v : (forall s, f s = g s) -> cder f t v -> cder g t v.
Proof. intros E [H1 H2]. split; [apply (is_derive_ext (fun s => fst (f s)))|apply (is_derive_ext (fun s => snd (f s)))]; auto; intros; now rewrite E. Qed.
Lemma cder_eq f t v w : cder f t v -> v = w -> cder f t w.
Proof. now intros H <-. Qed.

Lemma Ytext_phi theta phi l m : (- Z.of_nat l <= m <= Z.of_nat l)%Z ->
  cder (fun p => Ytext theta p l m) phi (sphYphi theta phi l m).
Proof.
  intros H. unfold sphYphi. rewrite sphY_text by exact H. rewrite Ytext_amp.
  apply (cder_ext (fun p => (amp theta l m * cos (IZR m * p), amp theta l m * sin (IZR m * p)))); [intros; now rewrite Ytext_amp|].
  split; cbn [fst snd Cmult RtoC Ci].
  - auto_derive; [exact I|]. ring.
  - auto_derive; [exact I|]. ring.
Qed.

Lemma tol_pos : 0 < temp_tol. Proof. unfold temp_tol. apply Rinv_0_lt_compat, pow_lt. lra. Qed.
Lemma tol_small : temp_tol < / 100.
Proof. unfold temp_tol. apply Rinv_lt_contravar; [|]; simpl; lra. Qed.

Definition off_axis (th : R) : Prop := temp_tol < th < PI - temp_tol.
Lemma off_sin th : off_axis th -> 0 < sin th.
Proof. pose proof tol_pos. unfold off_axis. intros H0. apply sin_gt_0; lra. Qed.

Lemma sphYtheta_off th phi l m : off_axis th -> (1 <= l)%nat -> (- Z.of_nat l <= m <= Z.of_nat l)%Z ->
  sphYtheta th phi l m =
    let D := IZR m * (cos th / sin th) * amp th l m
      + (if (m <? Z.of_nat l)%Z then sqrt (IZR ((Z.of_nat l - m) * (Z.of_nat l + m + 1))) * amp th l (m + 1) else 0) in
    (D * cos (IZR m * phi), D * sin (IZR m * phi)).
Proof.
  intros Ho Hl Hm. pose proof tol_pos. pose proof (off_sin th Ho). destruct Ho as [O1 O2]. unfold sphYtheta.
  destruct (Rlt_dec th 0); [lra|]. rewrite (Rabs_pos_eq th) by lra. rewrite (Rabs_pos_eq th) by lra.
  destruct (Rlt_dec temp_tol th); [|lra]. rewrite (Rabs_left1 (th - PI)) by lra. destruct (Rlt_dec temp_tol (- (th - PI))); [|lra].
  destruct l as [|l']; [lia|]. remember (S l') as l. clear Heql. cbv zeta.
  destruct (Z.ltb_spec m (Z.of_nat l)) as [Hl2|Hl2].
  - rewrite !sphY_text by lia. rewrite !Ytext_amp. rewrite plus_IZR. replace ((IZR m + 1) * phi) with (IZR m * phi + phi) by ring.
    rewrite cos_plus, sin_plus. pose proof (sin2_cos2 phi) as Q. unfold Rsqr in Q.
    set (Sq := sqrt _). unfold Cmult, Cplus, RtoC. cbn [fst snd].
    assert (Q2 : sin phi * sin phi = 1 - cos phi * cos phi) by lra.
    f_equal; ring_simplify; replace (sin phi ^ 2) with (1 - cos phi * cos phi) by (rewrite <- Q2; ring); ring.
  - rewrite sphY_text by lia. rewrite Ytext_amp. unfold Cmult, RtoC. cbn [fst snd]. f_equal; ring.
Qed.
Lemma Ytext_theta th phi l m : off_axis th -> (- Z.of_nat l <= m <= Z.of_nat l)%Z ->
  cder (fun t => Ytext t phi l m) th (sphYtheta th phi l m).
Proof.
  intros Ho Hm. pose proof (off_sin th Ho).
  apply (cder_ext (fun t => (amp t l m * cos (IZR m * phi), amp t l m * sin (IZR m * phi)))); [intros; now rewrite Ytext_amp|].
  pose proof (amp_derive l m th Hm ltac:(lra)) as D.
  destruct l as [|l'].
  - assert (Em : m = 0%Z) by lia. subst m. cbn [sphYtheta]. revert D. cbn -[amp sqrt]. rewrite !Rmult_0_l, Rplus_0_l. intros D.
    split; cbn [fst snd RtoC].
    + eapply der_eq; [apply (mul_derive (fun t => amp t 0 0) (fun _ => cos 0) th 0 0 D); apply const_derive|]. ring.
    + eapply der_eq; [apply (mul_derive (fun t => amp t 0 0) (fun _ => sin 0) th 0 0 D); apply const_derive|]. ring.
  - rewrite sphYtheta_off by (auto; lia). cbv zeta. split; cbn [fst snd].
    + eapply der_eq; [apply (mul_derive (fun t => amp t (S l') m) (fun _ => cos (IZR m * phi)) th _ 0 D); apply const_derive|]. ring.
    + eapply der_eq; [apply (mul_derive (fun t => amp t (S l') m) (fun _ => sin (IZR m * phi)) th _ 0 D); apply const_derive|]. ring.
Qed.

(** ** Angles *)
Definition angles_ok (d : vec3) : Prop :=
  (vz d = 0 \/ temp_tol < Rabs (vz d)) /\ ~ (vx d < 0 /\ vy d = 0) /\ ~ (vx d = 0 /\ vy d = 0 /\ vz d < 0).

Lemma atan_sign_pos u : 0 < u -> 0 < atan u < PI / 2.
Proof. intros H. pose proof (atan_increasing 0 u H) as A. rewrite atan_0 in A. pose proof (atan_bound u). lra. Qed.
Lemma atan_sign_neg u : u < 0 -> - PI / 2 < atan u < 0.
Proof. intros H. pose proof (atan_increasing u 0 H) as A. rewrite atan_0 in A. pose proof (atan_bound u). lra. Qed.

(** cos and sin of atan(b/a) for a > 0. *)
Lemma cs_atan a b : 0 < a -> cos (atan (b / a)) = a / sqrt (a * a + b * b) /\ sin (atan (b / a)) = b / sqrt (a * a + b * b).
Proof.
  intros Ha. rewrite cos_atan, sin_atan.
  assert (E : sqrt (1 + (b / a)²) = sqrt (a * a + b * b) / a).
  { unfold Rsqr. replace (1 + b / a * (b / a)) with ((a * a + b * b) / (a * a)) by (field; lra).
    rewrite sqrt_div_alt by nra. f_equal. apply sqrt_square. lra. }
  rewrite E. assert (0 < sqrt (a * a + b * b)) by (apply sqrt_lt_R0; nra). split; field; lra.
Qed.
(** and for a < 0, after adding PI. *)
Lemma cs_atan_neg a b : a < 0 -> cos (atan (b / a) + PI) = a / sqrt (a * a + b * b) /\ sin (atan (b / a) + PI) = b / sqrt (a * a + b * b).
Proof.
  intros Ha. rewrite neg_cos, neg_sin. replace (b / a) with (- b / - a) by (field; lra).
  destruct (cs_atan (- a) (- b) ltac:(lra)) as [-> ->].
  replace (- a * - a + - b * - b) with (a * a + b * b) by ring.
  assert (0 < sqrt (a * a + b * b)) by (apply sqrt_lt_R0; nra). split; field; lra.
Qed.

Definition rho (d : vec3) : R := sqrt (vx d * vx d + vy d * vy d).
Lemma rho_sq d : rho d * rho d = vx d * vx d + vy d * vy d.
Proof. unfold rho. apply sqrt_sqrt. nra. Qed.
Lemma rho_nonneg d : 0 <= rho d. Proof. apply sqrt_pos. Qed.
Lemma dist_sq d : dist d * dist d = vx d * vx d + vy d * vy d + vz d * vz d.
Proof. unfold dist. apply sqrt_sqrt. nra. Qed.
Lemma dist_rho d : dist d = sqrt (vz d * vz d + rho d * rho d).
Proof. unfold dist. f_equal. rewrite rho_sq. ring. Qed.

Lemma theta_spec d : 0 < dist d -> angles_ok d ->
  dist d * cos (ang_theta d) = vz d /\ dist d * sin (ang_theta d) = rho d /\ 0 <= ang_theta d <= PI.
Proof.
  intros Hr [A1 [A2 A3]]. pose proof PI_RGT_0 as HPI. pose proof tol_pos. unfold ang_theta. fold (rho d).
  destruct (Rle_dec (Rabs (vz d)) temp_tol) as [Hz|Hz].
  - destruct A1 as [A1|A1]; [|lra]. destruct (Rlt_dec (PI / 2) 0); [lra|]. rewrite cos_PI2, sin_PI2, A1.
    repeat split; try lra. rewrite dist_rho, A1. rewrite Rmult_0_l, Rplus_0_l, Rmult_1_r. apply sqrt_square, rho_nonneg.
  - assert (Hz2 : vz d <> 0) by (intros E; apply Hz; rewrite E, Rabs_R0; lra).
    destruct (Rlt_dec 0 (vz d)) as [P|P].
    + assert (Q : 0 <= rho d / vz d) by (apply Rdiv_le_0_compat; [apply rho_nonneg|lra]).
      assert (B : 0 <= atan (rho d / vz d) < PI / 2).
      { destruct (Req_dec (rho d / vz d) 0) as [E|E]; [rewrite E, atan_0; lra|]. pose proof (atan_sign_pos (rho d / vz d) ltac:(lra)). lra. }
      destruct (Rlt_dec _ 0); [lra|]. destruct (cs_atan (vz d) (rho d) P) as [C1 C2]. rewrite C1, C2, <- dist_rho.
      repeat split; try lra; field; lra.
    + assert (N : vz d < 0) by lra.
      assert (Hrho : 0 < rho d).
      { pose proof (rho_nonneg d). destruct (Req_dec (rho d) 0) as [E|E]; [|lra]. exfalso. apply A3. pose proof (rho_sq d) as Q. rewrite E in Q. repeat split; try lra; nra. }
      assert (Q : rho d / vz d < 0) by (unfold Rdiv; pose proof (Rinv_lt_0_compat _ N); nra).
      pose proof (atan_sign_neg _ Q) as B. destruct (Rlt_dec _ 0); [|lra].
      destruct (cs_atan_neg (vz d) (rho d) N) as [C1 C2]. rewrite C1, C2, <- dist_rho.
      repeat split; try lra; field; lra.
Qed.

Lemma phi_spec d : ~ (vx d < 0 /\ vy d = 0) -> rho d * cos (ang_phi d) = vx d /\ rho d * sin (ang_phi d) = vy d.
Proof.
  intros A2. unfold ang_phi. set (x := vx d) in *. set (y := vy d) in *.
  assert (Er : rho d = sqrt (x * x + y * y)) by reflexivity. rewrite Er.
  destruct (Req_EM_T (Rabs x) 0) as [Ex|Ex].
  - assert (X0 : x = 0) by (destruct (Req_dec x 0); [assumption|exfalso; now apply (Rabs_no_R0 x)]).
    destruct (Req_EM_T (Rabs y) 0) as [Ey|Ey].
    + assert (Y0 : y = 0) by (destruct (Req_dec y 0); [assumption|exfalso; now apply (Rabs_no_R0 y)]).
      rewrite X0, Y0. rewrite !Rmult_0_l, Rplus_0_l, sqrt_0. split; ring.
    + assert (Yn : y <> 0) by (intros E; apply Ey; rewrite E; apply Rabs_R0).
      rewrite X0. rewrite Rmult_0_l, Rplus_0_l.
      destruct (Rlt_dec y 0) as [N|N].
      * replace (3 * PI / 2) with (3 * (PI / 2)) by field. rewrite cos_3PI2, sin_3PI2.
        replace (y * y) with (- y * - y) by ring. rewrite sqrt_square by lra. split; ring.
      * destruct (Rlt_dec 0 y) as [P|P]; [|lra]. rewrite cos_PI2, sin_PI2. rewrite sqrt_square by lra. split; ring.
  - assert (Xn : x <> 0) by (intros E; apply Ex; rewrite E; apply Rabs_R0).
    assert (R0 : 0 < sqrt (x * x + y * y)) by (apply sqrt_lt_R0; nra).
    destruct (Rlt_dec x 0) as [N|N].
    + destruct (Rlt_dec 0 x); [lra|]. destruct (cs_atan_neg x y N) as [C1 C2].
      destruct (Rlt_dec 0 y) as [P|P].
      * destruct (Rlt_dec y 0); [lra|]. rewrite C1, C2. split; field; lra.
      * destruct (Rlt_dec y 0); [|exfalso; apply A2; split; lra]. rewrite C1, C2. split; field; lra.
    + assert (P : 0 < x) by lra. destruct (Rlt_dec 0 x); [|lra]. destruct (cs_atan x y P) as [C1 C2].
      destruct (Rlt_dec y 0).
      * replace (atan (y / x) + 2 * PI) with (atan (y / x) + 2 * INR 1 * PI) by (cbn [INR]; ring). rewrite cos_period, sin_period, C1, C2. split; field; lra.
      * rewrite C1, C2. split; field; lra.
Qed.
