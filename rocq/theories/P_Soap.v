(* C78: the spherical harmonics, the SOAP descriptor, its gradient, and the
   energy and forces of the machine-learned force field. *)

From Coq Require Import Reals List ZArith Lia Lra Arith.
From Coquelicot Require Import Coquelicot.
From Verif Require Import CBase SoapSpec Soap OfGrad SoapLeg SoapLem SoapGrad SoapForce SoapMain SoapRot SoapSum SoapIdx SphHarmLem MggaXLem XcGridLem.
Import ListNotations.
Open Scope R_scope.

(** ** Literals of computeP *)
Lemma sqrt_near (c e v : R) : 0 <= v -> 0 <= c - e -> (c - e) * (c - e) <= v <= (c + e) * (c + e) -> 0 <= e -> Rabs (c - sqrt v) <= e.
Proof.
  intros Hv Hc [H1 H2] He. apply Rabs_le. pose proof (sqrt_pos v). pose proof (sqrt_sqrt v Hv). split; nra.
Qed.
(** The three literals are the square roots to 15 digits. *)
Theorem C78_literals :
  Rabs (282094791773878 / 10 ^ 15 - P00) <= / 10 ^ 15 /\
  Rabs (1732050807568877 / 10 ^ 15 - SQRT3) <= / 10 ^ 15 /\
  Rabs (- (12247448713915890491 / 10 ^ 19) - SQRT3DIV2) <= / 10 ^ 15.
Proof.
  assert (E : 0 < / 10 ^ 15) by (apply Rinv_0_lt_compat, pow_lt; lra).
  split; [|split].
  - unfold P00. pose proof PI_close as [P1 P2]. pose proof PI_RGT_0 as P.
    assert (I1 : / (4 * (314159265358979324 / 10 ^ 17)) <= / (4 * PI)) by (apply Rinv_le_contravar; lra).
    assert (I2 : / (4 * PI) <= / (4 * (314159265358979323 / 10 ^ 17))) by (apply Rinv_le_contravar; lra).
    apply sqrt_near; [left; apply Rinv_0_lt_compat; lra|lra| |lra]. split.
    + eapply Rle_trans; [|exact I1]. lra.
    + eapply Rle_trans; [exact I2|]. lra.
  - unfold SQRT3. apply sqrt_near; lra.
  - unfold SQRT3DIV2. replace (- (12247448713915890491 / 10 ^ 19) - - sqrt (3 / 2)) with (- (12247448713915890491 / 10 ^ 19 - sqrt (3 / 2))) by ring. rewrite Rabs_Ropp.
    apply sqrt_near; lra.
Qed.
Print Assumptions C78_literals.

(** ** Spherical harmonics *)
Theorem C78_harmonics theta phi l m : (- Z.of_nat l <= m <= Z.of_nat l)%Z -> sphY theta phi l m = Ytext theta phi l m.
Proof. apply sphY_text. Qed.
Print Assumptions C78_harmonics.
Example C78_harmonics_example theta phi : sphY theta phi 1 0 = (sqrt (3 / (4 * PI)) * cos theta, 0).
Proof.
  rewrite C78_harmonics by (cbn; lia). pose proof PI_RGT_0. unfold Ytext. cbn [Z.leb Z.compare Z.to_nat]. rewrite Rmult_0_l, cos_0, sin_0.
  unfold ytheta, ynorm. change (fact (1 - 0)) with 1%nat. change (fact (1 + 0)) with 1%nat. change (INR 1) with 1.
  replace ((2 * 1 + 1) / (4 * PI) * (1 / 1)) with (3 / (4 * PI)) by (field; lra).
  assert (L : Derive_n (legendre 1) 0 (cos theta) = cos theta) by (unfold legendre; cbn [Derive_n leg2 fst INR]; field).
  rewrite L. apply (f_equal2 pair); simpl; ring.
Qed.

Theorem C78_harmonic_derivatives theta phi l m : (- Z.of_nat l <= m <= Z.of_nat l)%Z ->
  cder (fun p => Ytext theta p l m) phi (sphYphi theta phi l m) /\
  (off_axis theta -> cder (fun t => Ytext t phi l m) theta (sphYtheta theta phi l m)).
Proof. intros H. split; [now apply Ytext_phi|]. intros Ho. now apply Ytext_theta. Qed.
Print Assumptions C78_harmonic_derivatives.
Example C78_harmonic_derivatives_example : off_axis (PI / 2).
Proof. pose proof tol_pos. pose proof tol_small. pose proof PI2_3_2. pose proof PI_RGT_0. unfold off_axis. lra. Qed.

(** ** Angles of a neighbour *)
Theorem C78_angles d : 0 < dist d -> angles_ok d ->
  dist d * sin (ang_theta d) * cos (ang_phi d) = vx d /\
  dist d * sin (ang_theta d) * sin (ang_phi d) = vy d /\
  dist d * cos (ang_theta d) = vz d /\ 0 <= ang_theta d <= PI.
Proof.
  intros H A. destruct (theta_spec d H A) as [T1 [T2 T3]]. destruct A as [_ [A2 _]]. destruct (phi_spec d A2) as [F1 F2].
  rewrite T2. repeat split; auto; apply T3.
Qed.
Print Assumptions C78_angles.
Lemma dist_111 : dist (1, 1, 1) = sqrt 3.
Proof. unfold dist, vx, vy, vz. cbn [fst snd]. f_equal. ring. Qed.
Example C78_angles_example : 0 < dist (-1, -1, -1) /\ angles_ok (-1, -1, -1).
Proof.
  split; [apply sqrt_lt_R0; unfold vx, vy, vz; cbn [fst snd]; lra|]. pose proof tol_small. unfold angles_ok, vx, vy, vz. cbn [fst snd]. repeat split; try lra. right. rewrite Rabs_left by lra. lra.
Qed.

(** On the negative x axis the azimuth is 0 instead of pi, and on the negative
    z axis the polar angle is 0 instead of pi: the neighbour is taken for its
    mirror image. *)
Lemma axis_x a : 0 < a -> ang_theta (- a, 0, 0) = PI / 2 /\ ang_theta (a, 0, 0) = PI / 2 /\ ang_phi (- a, 0, 0) = 0 /\ ang_phi (a, 0, 0) = 0.
Proof.
  intros Ha. pose proof tol_pos. pose proof PI_RGT_0. unfold ang_theta, ang_phi, vx, vy, vz. cbn [fst snd]. rewrite Rabs_R0.
  destruct (Rle_dec 0 temp_tol); [|lra]. destruct (Rlt_dec (PI / 2) 0); [lra|]. replace (0 / - a) with 0 by (field; lra). replace (0 / a) with 0 by (field; lra). rewrite atan_0, Rabs_Ropp, (Rabs_pos_eq a) by lra.
  destruct (Req_EM_T a 0); [lra|]. destruct (Rlt_dec 0 0); [lra|].
  destruct (Rlt_dec (- a) 0), (Rlt_dec 0 (- a)), (Rlt_dec a 0), (Rlt_dec 0 a); auto.
Qed.
Lemma axis_z a : temp_tol < a -> ang_theta (0, 0, - a) = 0 /\ ang_theta (0, 0, a) = 0 /\ ang_phi (0, 0, - a) = 0 /\ ang_phi (0, 0, a) = 0.
Proof.
  intros Ha. pose proof tol_pos. unfold ang_theta, ang_phi, vx, vy, vz. cbn [fst snd]. rewrite Rabs_Ropp, (Rabs_pos_eq a) by lra. rewrite Rabs_R0.
  destruct (Rle_dec a temp_tol); [lra|]. replace (0 * 0 + 0 * 0) with 0 by ring. rewrite sqrt_0. replace (0 / - a) with 0 by (field; lra). replace (0 / a) with 0 by (field; lra). rewrite atan_0.
  destruct (Rlt_dec 0 0); [lra|]. destruct (Req_EM_T 0 0); [auto|lra].
Qed.
Lemma dist_x a : 0 < a -> dist (a, 0, 0) = a /\ dist (- a, 0, 0) = a /\ dist (0, 0, a) = a /\ dist (0, 0, - a) = a.
Proof.
  intros H. unfold dist, vx, vy, vz. cbn [fst snd]. repeat split; rewrite <- (sqrt_square a) by lra; f_equal; rewrite sqrt_square by lra; ring.
Qed.
Theorem C78_axis_refuted :
  (exists d, 0 < dist d /\ dist d * sin (ang_theta d) * cos (ang_phi d) <> vx d) /\
  (exists d, 0 < dist d /\ dist d * cos (ang_theta d) <> vz d) /\
  forall h a l m, temp_tol < a -> nb_val h (- a, 0, 0) l m = nb_val h (a, 0, 0) l m /\ nb_val h (0, 0, - a) l m = nb_val h (0, 0, a) l m.
Proof.
  pose proof tol_pos as HT. pose proof tol_small as HS. split; [|split].
  - exists (- (1), 0, 0). destruct (dist_x 1 ltac:(lra)) as [_ [D _]]. destruct (axis_x 1 ltac:(lra)) as [A [_ [B _]]]. rewrite D, A, B, sin_PI2, cos_0. unfold vx. cbn [fst snd]. split; lra.
  - exists (0, 0, - (1)). destruct (dist_x 1 ltac:(lra)) as [_ [_ [_ D]]]. destruct (axis_z 1 ltac:(lra)) as [A [_ [B _]]]. rewrite D, A, cos_0. unfold vz. cbn [fst snd]. split; lra.
  - intros h a l m Ha. destruct (dist_x a ltac:(lra)) as [D1 [D2 [D3 D4]]]. destruct (axis_x a ltac:(lra)) as [A1 [A2 [A3 A4]]]. destruct (axis_z a Ha) as [B1 [B2 [B3 B4]]].
    unfold nb_val. rewrite D1, D2, D3, D4, A1, A2, A3, A4, B1, B2, B3, B4. auto.
Qed.
Print Assumptions C78_axis_refuted.

(** ** Gradient of one neighbour's contribution *)
Theorem C78_gradient h dh d l m a :
  0 < dist d -> angles_ok d -> (off_axis (ang_theta d) \/ (vx d = 0 /\ vy d = 0 /\ temp_tol < vz d)) ->
  (m <= l)%nat -> (a < 3)%nat -> is_derive h (dist d) (dh (dist d)) ->
  nb_val h d l m = true_val h d l m /\
  exists g, nb_grad h dh d l m a = Ok g /\ cder (fun t => true_val h (moved d a t) l m) 0 g.
Proof.
  intros H A Hc Hm Ha D. split; [|now apply nb_grad_exact]. unfold nb_val, true_val. now rewrite sphY_space by assumption.
Qed.
Print Assumptions C78_gradient.
Lemma gen_111 d : d = (1, 1, 1) \/ d = (-1, -1, -1) -> generic d.
Proof.
  intros Hd. pose proof tol_pos. pose proof tol_small. pose proof PI2_3_2.
  assert (G : gen0 d) by (destruct Hd; subst d; unfold gen0, vx, vy, vz; cbn [fst snd]; [rewrite Rabs_pos_eq by lra|rewrite Rabs_left by lra]; split; lra).
  split; [exact G|]. pose proof (gen0_dist d G). destruct (theta_spec d ltac:(lra) (gen0_angles d G)) as [_ [T2 T3]].
  assert (R1 : 1 <= rho d). { unfold rho. rewrite <- sqrt_1. apply sqrt_le_1_alt. destruct Hd; subst d; unfold vx, vy; cbn [fst snd]; lra. }
  assert (D2 : dist d < 2). { rewrite <- (sqrt_square 2) by lra. apply sqrt_lt_1_alt. destruct Hd; subst d; unfold vx, vy, vz; cbn [fst snd]; lra. }
  assert (SN : / 2 < sin (ang_theta d)) by nra.
  unfold off_axis. split.
  - destruct (Rlt_dec temp_tol (ang_theta d)) as [L|L]; [exact L|exfalso]. destruct (Req_dec (ang_theta d) 0) as [E|E]; [rewrite E, sin_0 in SN; lra|].
    pose proof (sin_lt_x (ang_theta d) ltac:(lra)). lra.
  - destruct (Rlt_dec (ang_theta d) (PI - temp_tol)) as [L|L]; [exact L|exfalso]. rewrite <- sin_PI_x in SN. destruct (Req_dec (PI - ang_theta d) 0) as [E|E]; [rewrite E, sin_0 in SN; lra|].
    pose proof (sin_lt_x (PI - ang_theta d) ltac:(lra)). lra.
Qed.
Example C78_gradient_example : 0 < dist (1, 1, 1) /\ angles_ok (1, 1, 1) /\ off_axis (ang_theta (1, 1, 1)).
Proof.
  destruct (gen_111 (1, 1, 1) (or_introl eq_refl)) as [G O]. pose proof (gen0_dist _ G). pose proof tol_pos. split; [lra|]. split; [now apply gen0_angles|exact O].
Qed.

(** ** Power spectrum *)
(** The entries run through every pair of (element, radial function) once and
    every l, fill the array exactly, and read c_nlm inside its array from
    places that no two (n, l, m) share. *)
Theorem C78_index nelem Nmax Lmax :
  length (xlist nelem Nmax Lmax) = ((nelem * Nmax + 1) * (nelem * Nmax) / 2 * (Lmax + 1))%nat /\
  NoDup (xlist nelem Nmax Lmax) /\
  (forall t, In t (xlist nelem Nmax Lmax) <->
     (x_e1 t < nelem /\ x_e2 t < nelem /\ x_n1 t < Nmax /\ x_n2 t < Nmax /\ x_l t <= Lmax /\ x_e1 t * Nmax + x_n1 t <= x_e2 t * Nmax + x_n2 t)%nat) /\
  (forall n l m, (n < Nmax)%nat -> (l <= Lmax)%nat -> (m <= l)%nat -> (cidx Lmax n l m < Nmax * (Lmax + 1) * (Lmax + 2) / 2)%nat) /\
  (forall n l m n' l' m', (l <= Lmax)%nat -> (m <= l)%nat -> (l' <= Lmax)%nat -> (m' <= l')%nat -> cidx Lmax n l m = cidx Lmax n' l' m' -> n = n' /\ l = l' /\ m = m').
Proof.
  split; [apply xlist_len|]. split; [apply xlist_nodup|]. split; [apply xlist_in|]. split; [intros; now apply cidx_bound|apply cidx_inj].
Qed.
Print Assumptions C78_index.
Example C78_index_example : length (xlist 2 1 1) = 6%nat.
Proof. reflexivity. Qed.

(** With C the coefficients of the expansion of the neighbour density, summed
    over all m from -l to l. *)
Theorem C78_spectrum h pos nbs i t :
  (forall b, In b (nbs i) -> nb_ok (disp pos i b)) ->
  exists v, X3 h pos nbs i t = Ok v /\
    RtoC v = (RtoC (sqrt (8 * PI ^ 2 / (2 * INR (x_l t) + 1))) *
      psum (fun m => (cfull h (nbs i) (disp pos i) (x_e1 t) (x_n1 t) (x_l t) m * Cconj (cfull h (nbs i) (disp pos i) (x_e2 t) (x_n2 t) (x_l t) m))%C) (msym (x_l t)))%C.
Proof.
  intros H. exists (pX h pos nbs i t). split; [now apply X3_okw|]. rewrite pX_full. unfold const_X3. now replace (8 * PI ^ 2) with (8 * PI * PI) by ring.
Qed.
Print Assumptions C78_spectrum.

(** The descriptor does not change when the neighbourhood is rotated, provided
    no neighbour of either orientation lies on the axes of C78_axis_refuted. *)
Theorem C78_rotation h pos pos' nbs i t f : rotation f ->
  (forall b, In b (nbs i) -> nb_ok (disp pos i b) /\ nb_ok (disp pos' i b) /\ disp pos' i b = f (disp pos i b)) ->
  exists v, X3 h pos nbs i t = Ok v /\ X3 h pos' nbs i t = Ok v.
Proof. apply X3_rotation. Qed.
Print Assumptions C78_rotation.
Definition ex_nbs (i : nat) : list nbr := [mkN (1 - i) 0 (0, 0, 0)].
Definition ex_pos (p : vec3) (i : nat) : vec3 := match i with 1%nat => p | _ => (0, 0, 0) end.
Lemma ex_disp p : disp (ex_pos p) 0 (mkN 1 0 (0, 0, 0)) = p.
Proof. destruct p as [[x y] z]. unfold disp, ex_pos, vsub, vadd, vx, vy, vz. cbn [fst snd n_at n_img]. repeat apply (f_equal2 pair); ring. Qed.
Lemma gen_nb d : gen0 d -> nb_ok d.
Proof. intros G. pose proof (gen0_dist d G). pose proof tol_pos. split; [now apply gen0_ok|]. split; [lra|now apply gen0_angles]. Qed.
Example C78_rotation_example : exists f, rotation f /\ forall b, In b (ex_nbs 0) ->
  nb_ok (disp (ex_pos (1, 1, 1)) 0 b) /\ nb_ok (disp (ex_pos (-1, -1, 1)) 0 b) /\ disp (ex_pos (-1, -1, 1)) 0 b = f (disp (ex_pos (1, 1, 1)) 0 b).
Proof.
  pose proof tol_small. exists (fun v => rotz PI v). split; [apply (rot_z PI (fun v => v)), rot_id|]. intros b [<-|[]]. cbn [Nat.sub]. rewrite !ex_disp.
  split; [apply gen_nb; unfold gen0, vx, vy, vz; cbn [fst snd]; rewrite Rabs_pos_eq by lra; split; lra|].
  split; [apply gen_nb; unfold gen0, vx, vy, vz; cbn [fst snd]; rewrite Rabs_pos_eq by lra; split; lra|].
  unfold rotz. rewrite cos_PI, sin_PI. repeat apply (f_equal2 pair); ring.
Qed.

(** Two neighbours on the x axis and the same two turned onto the y axis have
    different descriptors. *)
Definition two_nbs (i : nat) : list nbr := [mkN 1 0 (0, 0, 0); mkN 2 0 (0, 0, 0)].
Definition two_pos (p q : vec3) (i : nat) : vec3 := match i with 1%nat => p | 2%nat => q | _ => (0, 0, 0) end.
Lemma two_disp p q : disp (two_pos p q) 0 (mkN 1 0 (0, 0, 0)) = p /\ disp (two_pos p q) 0 (mkN 2 0 (0, 0, 0)) = q.
Proof. destruct p as [[x y] z], q as [[u v] w]. unfold disp, two_pos, vsub, vadd, vx, vy, vz. cbn [fst snd n_at n_img]. split; repeat apply (f_equal2 pair); ring. Qed.
Lemma ok_1 d : dist d = 1 -> dist_ok d = true.
Proof.
  intros E. unfold dist_ok. rewrite E, Rabs_R1. destruct (Rlt_dec _ _) as [C|C]; [|reflexivity]. exfalso.
  assert (/ 10 ^ 15 < 1) by (rewrite <- Rinv_1; apply Rinv_lt_contravar; [rewrite Rmult_1_l; apply pow_lt; lra|apply Rlt_pow_R1; [lra|lia]]). lra.
Qed.
Lemma dist_y a : 0 < a -> dist (0, a, 0) = a /\ dist (0, - a, 0) = a.
Proof. intros H. unfold dist, vx, vy, vz. cbn [fst snd]. split; rewrite <- (sqrt_square a) by lra; f_equal; rewrite sqrt_square by lra; ring. Qed.
Lemma X3_two h p q t : dist_ok p = true -> dist_ok q = true -> x_e1 t = 0%nat -> x_e2 t = 0%nat ->
  X3 h (two_pos p q) two_nbs 0 t = Ok (lsum (fun m => x3_term (x_l t) m (nb_val (h (x_n1 t) (x_l t)) p (x_l t) m + nb_val (h (x_n1 t) (x_l t)) q (x_l t) m)%C
    (nb_val (h (x_n2 t) (x_l t)) p (x_l t) m + nb_val (h (x_n2 t) (x_l t)) q (x_l t) m)%C) (seq 0 (x_l t + 1))).
Proof.
  intros Hp Hq E1 E2. unfold X3. apply osum_ok. intros m _. rewrite E1, E2. destruct (two_disp p q) as [D1 D2].
  unfold cnlm, two_nbs. cbn [csum n_el Nat.eqb]. rewrite D1, D2, Hp, Hq. cbn [obind]. rewrite !Cplus_0_r. reflexivity.
Qed.
Lemma x3_sq l m c : 0 <= x3_term l m c c /\ (0 < fst c * fst c + snd c * snd c -> 0 < x3_term l m c c).
Proof.
  assert (K : 0 < const_X3 l). { unfold const_X3. apply sqrt_lt_R0. pose proof PI_RGT_0. pose proof (pos_INR l). apply Rdiv_lt_0_compat; [|lra]. apply Rmult_lt_0_compat; lra. }
  assert (E : Re (c * Cconj c)%C = fst c * fst c + snd c * snd c) by (unfold Re; cbn [fst snd Cmult Cconj]; ring).
  unfold x3_term. rewrite E. pose proof (Rle_0_sqr (fst c)). pose proof (Rle_0_sqr (snd c)). unfold Rsqr in *. split.
  - destruct m; [apply Rmult_le_pos; lra|apply Rmult_le_pos; lra].
  - intros P. destruct m; apply Rmult_lt_0_compat; lra.
Qed.
Definition one_h : nat -> nat -> R -> R := fun _ _ _ => 1.
Lemma leg1 : forall x, legendre 1 x = x.
Proof. intros x. unfold legendre. cbn [leg2 fst INR]. field. Qed.
Lemma leg1_D x : Derive_n (legendre 1) 1 x = 1.
Proof. change (Derive_n (legendre 1) 1 x) with (Derive (legendre 1) x). rewrite (Derive_ext _ (fun y => y)) by apply leg1. apply Derive_id. Qed.
Lemma yn11 : ynorm 1 1 < 0.
Proof.
  unfold ynorm. cbn [pow]. assert (0 < sqrt ((2 * INR 1 + 1) / (4 * PI) * (INR (fact (1 - 1)) / INR (fact (1 + 1))))); [|lra].
  apply sqrt_lt_R0. pose proof PI_RGT_0. change (INR (fact (1 - 1))) with 1. change (INR (fact (1 + 1))) with (1 + 1). cbn [INR].
  apply Rmult_lt_0_compat; apply Rdiv_lt_0_compat; lra.
Qed.
Theorem C78_rotation_refuted :
  exists h pos pos' nbs i t f v w, rotation f /\
    (forall b, In b (nbs i) -> disp pos' i b = f (disp pos i b) /\ dist (disp pos i b) = 1) /\
    X3 h pos nbs i t = Ok v /\ X3 h pos' nbs i t = Ok w /\ w = 0 /\ 0 < v.
Proof.
  destruct (dist_x 1 ltac:(lra)) as [DX1 [DX2 _]]. destruct (dist_y 1 ltac:(lra)) as [DY1 DY2]. pose proof tol_pos as HT. pose proof tol_small as HS.
  set (t := mkX 0 0 0 0 1).
  pose proof (X3_two one_h (1, 0, 0) (- (1), 0, 0) t (ok_1 _ DX1) (ok_1 _ DX2) eq_refl eq_refl) as E1.
  pose proof (X3_two one_h (0, 1, 0) (0, - (1), 0) t (ok_1 _ DY1) (ok_1 _ DY2) eq_refl eq_refl) as E2.
  exists one_h, (two_pos (1, 0, 0) (- (1), 0, 0)), (two_pos (0, 1, 0) (0, - (1), 0)), two_nbs, 0%nat, t, (fun v => rotz (PI / 2) v).
  eexists. eexists. split; [apply (rot_z (PI / 2) (fun v => v)), rot_id|]. split; [|split; [exact E1|split; [exact E2|]]].
  - intros b Hb. destruct (two_disp (1, 0, 0) (- (1), 0, 0)) as [A1 A2]. destruct (two_disp (0, 1, 0) (0, - (1), 0)) as [B1 B2].
    destruct Hb as [<-|[<-|[]]]; rewrite ?A1, ?A2, ?B1, ?B2; (split; [|assumption]); unfold rotz; rewrite cos_PI2, sin_PI2; repeat apply (f_equal2 pair); ring.
  - subst t. cbn [x_l x_n1 x_n2 Nat.add seq lsum].
    assert (AY : forall m, (m <= 1)%nat -> Cplus (nb_val (one_h 0 1) (0, 1, 0) 1 m) (nb_val (one_h 0 1) (0, - (1), 0) 1 m) = RtoC 0).
    { intros m Hm.
      assert (OKp : nb_ok (0, 1, 0)) by (split; [now apply ok_1|split; [lra|]]; unfold angles_ok, vx, vy, vz; cbn [fst snd]; repeat split; lra).
      assert (OKm : nb_ok (0, - (1), 0)) by (split; [now apply ok_1|split; [lra|]]; unfold angles_ok, vx, vy, vz; cbn [fst snd]; repeat split; lra).
      rewrite !nb_val_ok by (auto; lia). unfold true_val, Yspace, one_h.
      change (sqrt (vx (0, 1, 0) * vx (0, 1, 0) + vy (0, 1, 0) * vy (0, 1, 0) + vz (0, 1, 0) * vz (0, 1, 0))) with (dist (0, 1, 0)).
      change (sqrt (vx (0, - (1), 0) * vx (0, - (1), 0) + vy (0, - (1), 0) * vy (0, - (1), 0) + vz (0, - (1), 0) * vz (0, - (1), 0))) with (dist (0, - (1), 0)).
      rewrite DY1, DY2. unfold vx, vy, vz. cbn [fst snd].
      assert (M : m = 0%nat \/ m = 1%nat) by lia. destruct M as [-> | ->].
      - change (Derive_n (legendre 1) 0 (0 / 1)) with (legendre 1 (0 / 1)). rewrite leg1. cbn [cpowr]. apply Ceq; cbn [fst snd Cmult Cplus Cconj RtoC]; field.
      - rewrite leg1_D. cbn [cpowr]. apply Ceq; cbn [fst snd Cmult Cplus Cconj RtoC]; field. }
    split.
    + rewrite !AY by lia. unfold x3_term, Re. cbn [fst snd Cmult Cconj RtoC]. ring.
    + destruct C78_axis_refuted as [_ [_ Q]]. 
      assert (AX : forall m, nb_val (one_h 0 1) (- (1), 0, 0) 1 m = nb_val (one_h 0 1) (1, 0, 0) 1 m) by (intros m; apply (Q (one_h 0 1) 1 1%nat m); lra).
      rewrite !AX.
      assert (OKp : nb_ok (1, 0, 0)) by (split; [now apply ok_1|split; [lra|]]; unfold angles_ok, vx, vy, vz; cbn [fst snd]; repeat split; lra).
      set (c0 := Cplus (nb_val (one_h 0 1) (1, 0, 0) 1 0) (nb_val (one_h 0 1) (1, 0, 0) 1 0)).
      assert (C1 : nb_val (one_h 0 1) (1, 0, 0) 1 1 = RtoC (ynorm 1 1)).
      { rewrite nb_val_ok by (auto; lia). unfold true_val, Yspace, one_h.
        change (sqrt (vx (1, 0, 0) * vx (1, 0, 0) + vy (1, 0, 0) * vy (1, 0, 0) + vz (1, 0, 0) * vz (1, 0, 0))) with (dist (1, 0, 0)). rewrite DX1. unfold vx, vy, vz. cbn [fst snd].
        rewrite leg1_D. cbn [cpowr]. apply Ceq; cbn [fst snd Cmult Cplus Cconj RtoC]; field. }
      rewrite C1. pose proof yn11. destruct (x3_sq 1 0 c0) as [S0 _]. destruct (x3_sq 1 1 (RtoC (ynorm 1 1) + RtoC (ynorm 1 1))%C) as [_ S1].
      assert (P : 0 < x3_term 1 1 (RtoC (ynorm 1 1) + RtoC (ynorm 1 1))%C (RtoC (ynorm 1 1) + RtoC (ynorm 1 1))%C) by (apply S1; cbn [fst snd Cplus RtoC]; nra).
      lra.
Qed.
Print Assumptions C78_rotation_refuted.

(** ** Kernel *)
Theorem C78_kernel idx xi3 (X : R -> xidx -> R) X' c : (forall t, In t idx -> is_derive (fun s => X s t) 0 (X' t)) -> 0 < dot idx (X 0) (t_X c) ->
  exists k z, kernel idx xi3 (X 0) (t_X c) = Ok k /\ zdot idx (fun _ => X 0) c 0 X' = Ok z /\
    k = Rpower (dot idx (X 0) (t_X c) / (sqrt (dot idx (X 0) (X 0)) * sqrt (dot idx (t_X c) (t_X c)))) xi3 /\
    is_derive (fun s => Rpower (dot idx (X s) (t_X c) / (sqrt (dot idx (X s) (X s)) * sqrt (dot idx (t_X c) (t_X c)))) xi3) 0 (xi3 * k * z).
Proof.
  intros H P. exists (kval idx xi3 (X 0) (t_X c)), (zval idx (X 0) (t_X c) X'). split; [now apply kernel_ok|]. split; [now apply (zdot_ok idx (fun _ => X 0) c 0%nat X')|].
  split; [reflexivity|]. apply (kval_derive idx xi3 X X' (t_X c) H P).
Qed.
Print Assumptions C78_kernel.
Definition e0 : xidx := mkX 0 0 0 0 0.
Example C78_kernel_example : (forall t, In t [e0] -> is_derive (fun s : R => 1 + s) 0 1) /\ 0 < dot [e0] (fun _ => 1 + 0) (t_X (mkT 0 (fun _ => 2))).
Proof. split; [intros; auto_derive; [exact I|ring]|]. unfold dot. cbn [lsum t_X]. lra. Qed.

(** ** Forces *)
Lemma etot_val idx xi3 natom elem (X : nat -> xidx -> R) std_E mu_E cols :
  (forall i c, (i < natom)%nat -> In c (map fst cols) -> elem i = t_el c -> 0 < dot idx (X i) (t_X c)) ->
  etot idx xi3 natom elem X std_E mu_E cols =
  Ok ((lsum (fun cw => lsum (fun i => if (elem i =? t_el (fst cw))%nat then 1 / INR natom * kval idx xi3 (X i) (t_X (fst cw)) else 0) (seq 0 natom) * snd cw) cols * std_E + mu_E) * INR natom).
Proof.
  intros Hd. unfold etot. rewrite (osum_ok _ (fun cw => lsum (fun i => if (elem i =? t_el (fst cw))%nat then 1 / INR natom * kval idx xi3 (X i) (t_X (fst cw)) else 0) (seq 0 natom) * snd cw)); [reflexivity|].
  intros [c w] Hin. cbn [fst snd]. unfold k_energy.
  rewrite (osum_ok _ (fun i => if (elem i =? t_el c)%nat then 1 / INR natom * kval idx xi3 (X i) (t_X c) else 0)); [reflexivity|].
  intros i Hi. apply in_seq in Hi. destruct (Nat.eqb_spec (elem i) (t_el c)) as [E|E]; [|reflexivity].
  rewrite kernel_ok; [reflexivity|]. apply Hd; [lia| |exact E]. apply in_map_iff. exists (c, w). auto.
Qed.

(** The force on coordinate a of atom k is minus the derivative of the
    predicted energy when the atom moves along that coordinate. *)
Theorem C78_forces h dh pos nbs idx xi3 natom elem uniq cols X dX F_scale rel std_E std_F mu_E k a :
  (forall i, (i < natom)%nat -> NoDup (uniq i) /\ forall j, In j (uniq i) <-> j <> i /\ exists b, In b (nbs i) /\ n_at b = j) ->
  (forall i b, (i < natom)%nat -> In b (nbs i) -> generic (disp pos i b) /\ forall n l, is_derive (h n l) (dist (disp pos i b)) (dh n l (dist (disp pos i b)))) ->
  (forall i t, (i < natom)%nat -> In t idx -> X3 h pos nbs i t = Ok (X i t)) ->
  (forall i k a t, (i < natom)%nat -> (a < 3)%nat -> In t idx -> dX3 h dh pos nbs i k a t = Ok (dX i k a t)) ->
  (forall i c, (i < natom)%nat -> In c (map fst cols) -> elem i = t_el c -> 0 < dot idx (X i) (t_X c)) ->
  std_F <> 0 -> F_scale = std_E / std_F -> rel <> 0 -> (0 < natom)%nat -> (a < 3)%nat ->
  exists F E, force idx xi3 natom elem X dX uniq F_scale rel std_F cols k a = Ok F /\
    etot idx xi3 natom elem X std_E mu_E cols = Ok (E 0) /\
    locally 0 (fun s => exists Xs, (forall i t, (i < natom)%nat -> In t idx -> X3 h (mv pos k a s) nbs i t = Ok (Xs i t)) /\
                                   etot idx xi3 natom elem Xs std_E mu_E cols = Ok (E s)) /\
    is_derive E 0 (- F).
Proof.
  intros Huniq Hgen HX HdX Hdot HF HFs Hr Hn Ha.
  pose proof (force_ok h dh pos nbs idx xi3 natom elem uniq cols X dX Huniq Hgen HX HdX Hdot F_scale rel std_F k a Ha Hr) as EF.
  exists (- (F_scale * std_F * lsum (fun cw => lsum (fun i => zk idx xi3 elem X dX (fst cw) i k a) (seq 0 natom) * snd cw) cols)), (Epath h pos nbs idx xi3 natom elem cols std_E mu_E k a).
  split; [exact EF|].
  pose proof (etot_near h dh pos nbs idx xi3 natom elem uniq cols X dX Huniq Hgen HX HdX Hdot std_E mu_E k a Ha) as N.
  split; [|split].
  - rewrite etot_val by exact Hdot. f_equal. unfold Epath. f_equal. f_equal. f_equal. apply lsum_ext. intros cw _. f_equal. apply lsum_ext. intros i Hi. apply in_seq in Hi.
    destruct (_ =? _)%nat; [|reflexivity]. f_equal. apply kval_ext. intros t Ht. rewrite pX_mv0. apply (X_pX h dh pos nbs idx natom X Hgen HX); [lia|exact Ht].
  - generalize N. apply filter_imp. intros s [H1 H2]. exists (pX h (mv pos k a s) nbs). auto.
  - eapply der_eq; [apply (Epath_derive h dh pos nbs idx xi3 natom elem uniq cols X dX Huniq Hgen HX HdX Hdot std_E mu_E k a Ha Hn)|]. rewrite HFs. field. exact HF.
Qed.
Print Assumptions C78_forces.

Definition ex_pos2 : nat -> vec3 := ex_pos (1, 1, 1).
Definition ex_X (i : nat) (t : xidx) : R := pX one_h ex_pos2 ex_nbs i t.
Definition ex_dX (i k a : nat) (t : xidx) : R := match dX3 one_h (fun _ _ _ => 0) ex_pos2 ex_nbs i k a t with Ok v => v | _ => 0 end.
Definition ex_cols : list (tcol * R) := [(mkT 0 (fun _ => 1), 3)].
Lemma ex_gen i b : (i < 2)%nat -> In b (ex_nbs i) -> generic (disp ex_pos2 i b) /\ forall n l : nat, is_derive (one_h n l) (dist (disp ex_pos2 i b)) 0.
Proof.
  intros Hi Hb. split; [|intros; apply const_derive]. apply gen_111. assert (M : i = 0%nat \/ i = 1%nat) by lia. destruct M as [-> | ->]; destruct Hb as [<-|[]]; unfold disp, ex_pos2, ex_pos, vsub, vadd, vx, vy, vz; cbn [n_at n_img Nat.sub fst snd];
    [left|right]; repeat apply (f_equal2 pair); lra.
Qed.
Example C78_forces_example :
  (forall i, (i < 2)%nat -> NoDup [(1 - i)%nat] /\ forall j, In j [(1 - i)%nat] <-> j <> i /\ exists b, In b (ex_nbs i) /\ n_at b = j) /\
  (forall i b, (i < 2)%nat -> In b (ex_nbs i) -> generic (disp ex_pos2 i b) /\ forall n l : nat, is_derive (one_h n l) (dist (disp ex_pos2 i b)) 0) /\
  (forall i t, (i < 2)%nat -> In t [e0] -> X3 one_h ex_pos2 ex_nbs i t = Ok (ex_X i t)) /\
  (forall i k a t, (i < 2)%nat -> (a < 3)%nat -> In t [e0] -> dX3 one_h (fun _ _ _ => 0) ex_pos2 ex_nbs i k a t = Ok (ex_dX i k a t)) /\
  (forall i c, (i < 2)%nat -> In c (map fst ex_cols) -> 0%nat = t_el c -> 0 < dot [e0] (ex_X i) (t_X c)) /\
  (forall i b, (i < 2)%nat -> In b (ex_nbs i) -> (n_at b < 2)%nat).
Proof.
  split; [|split; [|split; [|split; [|split]]]].
  - intros i Hi. split; [constructor; [intros []|constructor]|]. intros j. unfold ex_nbs. cbn [In]. split.
    + intros [<-|[]]. split; [lia|]. eexists. split; [left; reflexivity|reflexivity].
    + intros [_ [b [[<-|[]] <-]]]. left. reflexivity.
  - apply ex_gen.
  - intros i t Hi Ht. apply X3_ok. intros b Hb. apply (ex_gen i b Hi Hb).
  - intros i k a t Hi Ha Ht. unfold ex_dX. destruct (pX_der one_h (fun _ _ _ => 0) ex_pos2 ex_nbs i k a t (fun b Hb => ex_gen i b Hi Hb) Ha) as [v [E _]]. now rewrite E.
  - intros i c Hi [<-|[]] _. unfold dot. cbn [lsum t_X fst]. rewrite Rplus_0_r, Rmult_1_r.
    unfold ex_X, pX, e0. cbn [x_l x_e1 x_e2 x_n1 x_n2 Nat.add seq lsum]. rewrite Rplus_0_r. apply x3_sq.
    assert (E : pcn one_h ex_pos2 i (ex_nbs i) 0 0 0 0 = RtoC (ynorm 0 0)).
    { unfold pcn, ex_nbs. cbn [psum n_el Nat.eqb]. unfold true_val, Yspace, one_h. cbn [Derive_n cpowr]. unfold legendre. cbn [leg2 fst]. apply Ceq; cbn [fst snd Cmult Cplus Cconj RtoC]; ring. }
    rewrite E. cbn [fst snd RtoC]. assert (0 < ynorm 0 0); [|nra]. unfold ynorm. cbn [pow]. rewrite Rmult_1_l. apply sqrt_lt_R0. pose proof PI_RGT_0.
    change (INR (fact (0 - 0))) with 1. change (INR (fact (0 + 0))) with 1. cbn [INR]. apply Rmult_lt_0_compat; apply Rdiv_lt_0_compat; lra.
  - intros i b Hi [<-|[]]. cbn [n_at]. lia.
Qed.

(** The forces of all atoms add up to zero in every direction. *)
Theorem C78_sum_zero h dh pos nbs idx xi3 natom elem uniq cols X dX F_scale rel std_F a (F : nat -> R) :
  (forall i, (i < natom)%nat -> NoDup (uniq i) /\ forall j, In j (uniq i) <-> j <> i /\ exists b, In b (nbs i) /\ n_at b = j) ->
  (forall i b, (i < natom)%nat -> In b (nbs i) -> generic (disp pos i b) /\ forall n l, is_derive (h n l) (dist (disp pos i b)) (dh n l (dist (disp pos i b)))) ->
  (forall i b, (i < natom)%nat -> In b (nbs i) -> (n_at b < natom)%nat) ->
  (forall i t, (i < natom)%nat -> In t idx -> X3 h pos nbs i t = Ok (X i t)) ->
  (forall i k a t, (i < natom)%nat -> (a < 3)%nat -> In t idx -> dX3 h dh pos nbs i k a t = Ok (dX i k a t)) ->
  (forall i c, (i < natom)%nat -> In c (map fst cols) -> elem i = t_el c -> 0 < dot idx (X i) (t_X c)) ->
  rel <> 0 -> (a < 3)%nat ->
  (forall k, (k < natom)%nat -> force idx xi3 natom elem X dX uniq F_scale rel std_F cols k a = Ok (F k)) ->
  lsum F (seq 0 natom) = 0.
Proof.
  intros Huniq Hgen Hb HX HdX Hdot Hr Ha HF.
  rewrite (lsum_ext _ (fun k => - (F_scale * std_F) * lsum (fun cw => lsum (fun i => zk idx xi3 elem X dX (fst cw) i k a) (seq 0 natom) * snd cw) cols)).
  2:{ intros k Hk. apply in_seq in Hk. specialize (HF k ltac:(lia)). rewrite (force_ok h dh pos nbs idx xi3 natom elem uniq cols X dX Huniq Hgen HX HdX Hdot F_scale rel std_F k a Ha Hr) in HF. injection HF as <-. ring. }
  rewrite lsum_scal. rewrite lsum_swap. rewrite (lsum_zero _ cols); [ring|]. intros cw _.
  rewrite (lsum_ext _ (fun k => snd cw * lsum (fun i => zk idx xi3 elem X dX (fst cw) i k a) (seq 0 natom))) by (intros; ring). rewrite lsum_scal, lsum_swap.
  rewrite (lsum_zero _ (seq 0 natom)); [ring|]. intros i Hi. apply in_seq in Hi. unfold zk. destruct (elem i =? t_el (fst cw))%nat; [|now apply lsum_zero].
  rewrite lsum_scal, zval_sum, zval_0; [ring|]. intros t Ht.
  apply (dX3_sum h dh pos nbs i a t natom (fun k => dX i k a t)); auto; [intros b B; apply Hgen; auto; lia|lia|intros b B; apply (Hb i b); auto; lia|intros k; apply HdX; auto; lia].
Qed.
Print Assumptions C78_sum_zero.

