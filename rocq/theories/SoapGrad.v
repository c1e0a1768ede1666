(* The gradient of one neighbour's part of c_nlm. *)

From Coq Require Import Reals List ZArith Lia Lra Arith.
From Coquelicot Require Import Coquelicot.
From Verif Require Import CBase SoapSpec Soap OfGrad SoapLeg SoapLem MggaXLem.
Open Scope R_scope.

Lemma Ceq (u v : C) : fst u = fst v -> snd u = snd v -> u = v.
Proof. destruct u, v. cbn. now intros -> ->. Qed.

Lemma cpowr_polar s phi m : cpowr (s * cos phi, s * sin phi) m = (s ^ m * cos (INR m * phi), s ^ m * sin (INR m * phi)).
Proof.
  induction m as [|m IH].
  - cbn [cpowr INR pow]. rewrite Rmult_0_l, cos_0, sin_0. unfold RtoC. f_equal; ring.
  - cbn [cpowr]. rewrite IH. rewrite S_INR. replace ((INR m + 1) * phi) with (INR m * phi + phi) by ring. rewrite cos_plus, sin_plus.
    cbn [pow]. apply Ceq; cbn [fst snd Cmult]; ring.
Qed.

Lemma ang_unit d : 0 < dist d -> angles_ok d ->
  vz d / dist d = cos (ang_theta d) /\ vx d / dist d = sin (ang_theta d) * cos (ang_phi d) /\ vy d / dist d = sin (ang_theta d) * sin (ang_phi d).
Proof.
  intros Hr A. destruct (theta_spec d Hr A) as [T1 [T2 _]]. destruct A as [A1 [A2 A3]]. destruct (phi_spec d A2) as [F1 F2].
  rewrite <- T2 in F1, F2. repeat split.
  - rewrite <- T1 at 1. field. lra.
  - rewrite <- F1 at 1. field. lra.
  - rewrite <- F2 at 1. field. lra.
Qed.

Lemma Ytext_nat th phi l m : Ytext th phi l (Z.of_nat m) = (pl (cos th) (sin th) l m * cos (INR m * phi), pl (cos th) (sin th) l m * sin (INR m * phi)).
Proof.
  unfold Ytext. replace (0 <=? Z.of_nat m)%Z with true by (symmetry; apply Z.leb_le; lia). rewrite Nat2Z.id, ytheta_pl, <- INR_IZR_INZ. reflexivity.
Qed.

Lemma sphY_space d l m : 0 < dist d -> angles_ok d -> (m <= l)%nat ->
  sphY (ang_theta d) (ang_phi d) l (Z.of_nat m) = Yspace l m (vx d) (vy d) (vz d).
Proof.
  intros Hr A Hm. rewrite sphY_text by lia. rewrite Ytext_nat.
  unfold Yspace. fold (dist d). destruct (ang_unit d Hr A) as [U1 [U2 U3]].
  rewrite U1, U2, U3, cpowr_polar, ql_derive_n. unfold pl.
  apply Ceq; cbn [fst snd Cmult RtoC]; ring.
Qed.

(** ** Rules for derivatives of complex functions *)
Lemma cder_mul f g t u v : cder f t u -> cder g t v -> cder (fun s => (f s * g s)%C) t (u * g t + f t * v)%C.
Proof.
  intros [F1 F2] [G1 G2]. split; cbn [fst snd Cmult Cplus].
  - eapply der_eq; [apply (is_derive_minus (fun s => fst (f s) * fst (g s)) (fun s => snd (f s) * snd (g s))); apply mul_derive; eassumption|].
    unfold minus, plus, opp; cbn. ring.
  - eapply der_eq; [apply (is_derive_plus (fun s => fst (f s) * snd (g s)) (fun s => snd (f s) * fst (g s))); apply mul_derive; eassumption|].
    unfold plus; cbn. ring.
Qed.
Lemma cder_real f t u : is_derive f t u -> cder (fun s => RtoC (f s)) t (RtoC u).
Proof. intros H. split; cbn [fst snd RtoC]; [exact H|apply const_derive]. Qed.
Lemma cder_const c t : cder (fun _ => c) t (RtoC 0).
Proof. split; apply const_derive. Qed.
Lemma cder_conj f t u : cder f t u -> cder (fun s => Cconj (f s)) t (Cconj u).
Proof. intros [F1 F2]. split; cbn [fst snd Cconj]; [exact F1|]. apply (is_derive_opp (fun s => snd (f s))). exact F2. Qed.
Lemma cder_plus f g t u v : cder f t u -> cder g t v -> cder (fun s => (f s + g s)%C) t (u + v)%C.
Proof.
  intros [F1 F2] [G1 G2]. split; cbn [fst snd Cplus].
  - apply (is_derive_plus (fun s => fst (f s)) (fun s => fst (g s))); assumption.
  - apply (is_derive_plus (fun s => snd (f s)) (fun s => snd (g s))); assumption.
Qed.
Lemma cder_pow w t w' m : cder w t w' -> cder (fun s => cpowr (w s) m) t (RtoC (INR m) * cpowr (w t) (pred m) * w')%C.
Proof.
  intros H. induction m as [|m IH].
  - cbn [cpowr]. eapply cder_eq; [apply cder_const|]. cbn [INR]. ring.
  - cbn [cpowr]. eapply cder_eq; [apply (cder_mul w (fun s => cpowr (w s) m) t w' _ H IH)|].
    destruct m as [|m].
    + cbn [cpowr pred INR]. ring.
    + rewrite (S_INR (S m)). rewrite RtoC_plus. cbn [pred cpowr]. ring.
Qed.
Lemma cder_lin f t u (c : R) : cder f (c * t) u -> cder (fun s => f (c * s)) t (RtoC c * u)%C.
Proof.
  intros [F1 F2]. assert (L : is_derive (fun s => c * s) t c) by (auto_derive; [exact I|ring]).
  split; cbn [fst snd RtoC Cmult].
  - eapply der_eq; [apply (is_derive_comp (fun x => fst (f x)) (fun s => c * s) t _ c F1 L)|]. unfold scal; cbn; unfold mult; cbn. ring.
  - eapply der_eq; [apply (is_derive_comp (fun x => snd (f x)) (fun s => c * s) t _ c F2 L)|]. unfold scal; cbn; unfold mult; cbn. ring.
Qed.

(** ** Along a straight line *)
Section Line.
Variable x y z e0 e1 e2 : R.
Let r := sqrt (x * x + y * y + z * z).
Hypothesis Hr : 0 < r.
Let rt t := sqrt ((x + t * e0) * (x + t * e0) + (y + t * e1) * (y + t * e1) + (z + t * e2) * (z + t * e2)).
Let r' := (x * e0 + y * e1 + z * e2) / r.

Lemma sq_pos : 0 < x * x + y * y + z * z.
Proof. destruct (Rlt_dec 0 (x * x + y * y + z * z)) as [H|H]; [exact H|]. exfalso. unfold r in Hr. rewrite sqrt_neg_0 in Hr by lra. lra. Qed.
Lemma rt_0 : rt 0 = r. Proof. unfold rt, r. f_equal. ring. Qed.
Lemma rt_derive : is_derive rt 0 r'.
Proof.
  pose proof sq_pos as P. unfold rt. auto_derive.
  - replace (_ + _) with (x * x + y * y + z * z) by ring. exact P.
  - replace ((x + 0 * e0) * (x + 0 * e0) + (y + 0 * e1) * (y + 0 * e1) + (z + 0 * e2) * (z + 0 * e2)) with (x * x + y * y + z * z) by ring.
    fold r. unfold r'. field. lra.
Qed.
Lemma quo_derive p e : is_derive (fun t => (p + t * e) / rt t) 0 ((e - p / r * r') / r).
Proof.
  assert (H1 : is_derive (fun t => p + t * e) 0 e) by (auto_derive; [exact I|ring]).
  eapply der_eq; [apply (is_derive_div (fun t => p + t * e) rt 0 e r' H1 rt_derive); rewrite rt_0; lra|].
  rewrite rt_0. field. lra.
Qed.
Definition dY_line (l m : nat) : C :=
  Cmult (RtoC (ynorm l m)) (Cplus (Cmult (RtoC (ql l (S m) (z / r) * ((e2 - z / r * r') / r))) (cpowr (x / r, y / r) m))
   (Cmult (RtoC (ql l m (z / r))) (Cmult (Cmult (RtoC (INR m)) (cpowr (x / r, y / r) (pred m))) ((e0 - x / r * r') / r, (e1 - y / r * r') / r)))).
Lemma Yspace_line l m : cder (fun t => Yspace l m (x + t * e0) (y + t * e1) (z + t * e2)) 0 (dY_line l m).
Proof.
  assert (Z0 : forall p e, p + 0 * e = p) by (intros; ring).
  assert (Q : is_derive (fun t => ynorm l m * ql l m ((z + t * e2) / rt t)) 0 (ynorm l m * (ql l (S m) (z / r) * ((e2 - z / r * r') / r)))).
  { apply (is_derive_scal (fun t => ql l m ((z + t * e2) / rt t))).
    eapply der_eq; [apply (is_derive_comp (fun u => ql l m u) (fun t => (z + t * e2) / rt t) 0 (ql l (S m) (z / r)) ((e2 - z / r * r') / r))|].
    - rewrite rt_0, Z0. apply ql_derive.
    - apply quo_derive.
    - unfold scal; cbn; unfold mult; cbn. ring. }
  assert (W : cder (fun t => ((x + t * e0) / rt t, (y + t * e1) / rt t)) 0 ((e0 - x / r * r') / r, (e1 - y / r * r') / r)) by (split; cbn [fst snd]; apply quo_derive).
  apply (cder_ext (fun t => Cmult (RtoC (ynorm l m * ql l m ((z + t * e2) / rt t))) (cpowr ((x + t * e0) / rt t, (y + t * e1) / rt t) m))).
  { intros t. unfold Yspace. fold (rt t). now rewrite ql_derive_n. }
  eapply cder_eq; [apply (cder_mul (fun t => RtoC (ynorm l m * ql l m ((z + t * e2) / rt t))) (fun t => cpowr ((x + t * e0) / rt t, (y + t * e1) / rt t) m) 0 _ _ (cder_real _ _ _ Q) (cder_pow _ _ _ m W))|].
  rewrite rt_0, !Z0. unfold dY_line. rewrite !RtoC_mult. ring.
Qed.
End Line.

(** Direction of coordinate a. *)
Definition unit_a (a b : nat) : R := if (a =? b)%nat then 1 else 0.
Definition moved (d : vec3) (a : nat) (t : R) : vec3 := (vx d + t * unit_a a 0, vy d + t * unit_a a 1, vz d + t * unit_a a 2).

(** The quantity the code differentiates: h(r) conj Y_lm. *)
Definition true_val (h : R -> R) (d : vec3) (l m : nat) : C :=
  Cmult (RtoC (h (dist d))) (Cconj (Yspace l m (vx d) (vy d) (vz d))).

Lemma true_val_line h dh d l m a : 0 < dist d -> is_derive h (dist d) (dh (dist d)) -> (a < 3)%nat ->
  cder (fun t => true_val h (moved d a t) l m) 0
    (RtoC (dh (dist d) * (vget d a / dist d)) * Cconj (Yspace l m (vx d) (vy d) (vz d))
     + RtoC (h (dist d)) * Cconj (dY_line (vx d) (vy d) (vz d) (unit_a a 0) (unit_a a 1) (unit_a a 2) l m))%C.
Proof.
  intros Hr Hh Ha.
  assert (Z0 : forall p e, p + 0 * e = p) by (intros; ring).
  assert (E0 : moved d a 0 = d) by (destruct d as [[p q] s]; unfold moved, vx, vy, vz; cbn [fst snd]; now rewrite !Z0).
  pose proof (rt_derive (vx d) (vy d) (vz d) (unit_a a 0) (unit_a a 1) (unit_a a 2) Hr) as D.
  assert (D2 : is_derive (fun t => h (dist (moved d a t))) 0 (dh (dist d) * (vget d a / dist d))).
  { eapply der_eq; [apply (is_derive_comp h (fun t => dist (moved d a t)) 0 (dh (dist d)) ((vx d * unit_a a 0 + vy d * unit_a a 1 + vz d * unit_a a 2) / dist d))|].
    - rewrite E0. exact Hh.
    - exact D.
    - unfold scal; cbn; unfold mult; cbn. destruct a as [|[|[|a]]]; unfold unit_a; cbn [Nat.eqb vget]; try lia; field; lra. }
  eapply cder_eq; [apply (cder_mul (fun t => RtoC (h (dist (moved d a t)))) (fun t => Cconj (Yspace l m (vx (moved d a t)) (vy (moved d a t)) (vz (moved d a t)))) 0 _ _ (cder_real _ _ _ D2) (cder_conj _ _ _ (Yspace_line (vx d) (vy d) (vz d) (unit_a a 0) (unit_a a 1) (unit_a a 2) Hr l m)))|].
  rewrite E0. reflexivity.
Qed.

(** ** Off the axis *)
Lemma Yt_off th phi l m : off_axis th -> (m <= l)%nat ->
  sphYtheta th phi l (Z.of_nat m) =
   let D := ynorm l m * (INR m * cos th * sin th ^ pred m * ql l m (cos th) + sin th ^ m * (- sin th * ql l (S m) (cos th))) in
   (D * cos (INR m * phi), D * sin (INR m * phi)).
Proof.
  intros Ho Hm. destruct (Ytext_theta th phi l (Z.of_nat m) Ho ltac:(lia)) as [H1 H2].
  pose proof (pl_derive l m th) as D. cbv zeta.
  assert (K : forall c : R, is_derive (fun t => pl (cos t) (sin t) l m * c) th (ynorm l m * (INR m * cos th * sin th ^ pred m * ql l m (cos th) + sin th ^ m * (- sin th * ql l (S m) (cos th))) * c)).
  { intros c. eapply der_eq; [apply (mul_derive (fun t => pl (cos t) (sin t) l m) (fun _ => c) th _ 0 D); apply const_derive|]. ring. }
  apply Ceq; cbn [fst snd].
  - apply is_derive_unique in H1. rewrite <- H1. rewrite (Derive_ext _ (fun t => pl (cos t) (sin t) l m * cos (INR m * phi))) by (intros t; now rewrite Ytext_nat).
    apply is_derive_unique. apply K.
  - apply is_derive_unique in H2. rewrite <- H2. rewrite (Derive_ext _ (fun t => pl (cos t) (sin t) l m * sin (INR m * phi))) by (intros t; now rewrite Ytext_nat).
    apply is_derive_unique. apply K.
Qed.

Lemma grad_off d l m a : 0 < dist d -> angles_ok d -> off_axis (ang_theta d) -> (m <= l)%nat -> (a < 3)%nat ->
  exists p, dphi_dxi d (dist d) a = Ok p /\
   (sphYtheta (ang_theta d) (ang_phi d) l (Z.of_nat m) * RtoC (dth_dxi d (dist d) a) + sphYphi (ang_theta d) (ang_phi d) l (Z.of_nat m) * RtoC p)%C
   = dY_line (vx d) (vy d) (vz d) (unit_a a 0) (unit_a a 1) (unit_a a 2) l m.
Proof.
  intros Hr A Ho Hm Ha. pose proof (off_sin _ Ho) as Hs. destruct (ang_unit d Hr A) as [U1 [U2 U3]].
  assert (Ex : vx d = dist d * (sin (ang_theta d) * cos (ang_phi d))) by (rewrite <- U2; field; lra).
  assert (Ey : vy d = dist d * (sin (ang_theta d) * sin (ang_phi d))) by (rewrite <- U3; field; lra).
  assert (Ez : vz d = dist d * cos (ang_theta d)) by (rewrite <- U1; field; lra).
  rewrite Yt_off by assumption. cbv zeta. unfold sphYphi. rewrite sphY_text by lia. rewrite Ytext_nat.
  unfold dY_line. change (sqrt (vx d * vx d + vy d * vy d + vz d * vz d)) with (dist d). rewrite U1, U2, U3.
  rewrite !cpowr_polar. rewrite <- INR_IZR_INZ. unfold dphi_dxi, dth_dxi, qdiv, pl.
  assert (Hrs : dist d * sin (ang_theta d) <> 0) by (apply Rmult_integral_contrapositive_currified; lra).
  pose proof (sin2_cos2 (ang_theta d)) as Q1. pose proof (sin2_cos2 (ang_phi d)) as Q2. unfold Rsqr in Q1, Q2.
  set (r := dist d) in *. set (s := sin (ang_theta d)) in *. set (c := cos (ang_theta d)) in *.
  set (cp := cos (ang_phi d)) in *. set (sp := sin (ang_phi d)) in *.
  assert (Hc : c ^ 2 = 1 - s ^ 2) by (rewrite <- Q1; ring). assert (Hp : sp ^ 2 = 1 - cp ^ 2) by (rewrite <- Q2; ring).
  rewrite Ex, Ey, Ez.
  assert (HK : m = 0%nat \/ exists k, m = S k) by (destruct m; eauto).
  destruct HK as [->|[k ->]].
  - cbn [INR pow pred]. rewrite ?Rmult_0_l, cos_0, sin_0.
    destruct a as [|[|[|a]]]; [| | |lia]; unfold unit_a; cbn [Nat.eqb];
      (destruct (Req_EM_T (r * s) 0) as [E|E]; [contradiction|] || idtac);
      (eexists; split; [reflexivity|]; apply Ceq; cbn [fst snd Cmult Cplus RtoC Ci]; field [Hc Hp]; lra).
  - cbn [pred]. rewrite S_INR. replace ((INR k + 1) * ang_phi d) with (INR k * ang_phi d + ang_phi d) by ring.
    rewrite cos_plus, sin_plus. fold cp sp. set (Ck := cos (INR k * ang_phi d)). set (Sk := sin (INR k * ang_phi d)).
    cbn [pow].
    destruct a as [|[|[|a]]]; [| | |lia]; unfold unit_a; cbn [Nat.eqb];
      (destruct (Req_EM_T (r * s) 0) as [E|E]; [contradiction|] || idtac);
      (eexists; split; [reflexivity|]; apply Ceq; cbn [fst snd Cmult Cplus RtoC Ci]; field [Hc Hp]; lra).
Qed.

(** ** At the pole theta = 0 *)
Lemma grad_pole d l m a : vx d = 0 -> vy d = 0 -> temp_tol < vz d -> (m <= l)%nat -> (a < 3)%nat ->
  ang_theta d = 0 /\ ang_phi d = 0 /\ dist d = vz d /\
  dY_line (vx d) (vy d) (vz d) (unit_a a 0) (unit_a a 1) (unit_a a 2) l m
  = match a with
    | O => RtoC (if (m =? 1)%nat then ylim l / vz d else 0)
    | 1%nat => (Ci * RtoC (if (m =? 1)%nat then ylim l / vz d else 0))%C
    | _ => RtoC 0
    end.
Proof.
  intros X0 Y0 Hz Hm Ha. pose proof tol_pos as Ht.
  assert (Er : dist d = vz d). { unfold dist. rewrite X0, Y0. replace (0 * 0 + 0 * 0 + vz d * vz d) with (vz d * vz d) by ring. apply sqrt_square. lra. }
  split; [|split; [|split; [exact Er|]]].
  - unfold ang_theta. destruct (Rle_dec (Rabs (vz d)) temp_tol) as [E|E]; [rewrite Rabs_pos_eq in E by lra; lra|].
    rewrite X0, Y0. replace (0 * 0 + 0 * 0) with 0 by ring. rewrite sqrt_0. unfold Rdiv. rewrite Rmult_0_l, atan_0. destruct (Rlt_dec 0 0); lra.
  - unfold ang_phi. rewrite X0, Y0, Rabs_R0. destruct (Req_EM_T 0 0); [reflexivity|lra].
  - unfold dY_line. change (sqrt (vx d * vx d + vy d * vy d + vz d * vz d)) with (dist d). rewrite Er, X0, Y0.
    replace (vz d / vz d) with 1 by (field; lra). replace (0 / vz d) with 0 by (field; lra).
    assert (P0 : forall k, cpowr (0, 0) (S k) = RtoC 0) by (intros k; cbn [cpowr]; apply Ceq; cbn; ring).
    destruct m as [|[|m]].
    + cbn [Nat.eqb INR cpowr pred]. destruct a as [|[|[|a]]]; [| | |lia]; unfold unit_a; cbn [Nat.eqb]; apply Ceq; cbn [fst snd Cmult Cplus RtoC Ci]; field; lra.
    + cbn [Nat.eqb INR pred]. rewrite P0. cbn [cpowr]. rewrite ylim_spec by lia.
      destruct a as [|[|[|a]]]; [| | |lia]; unfold unit_a; cbn [Nat.eqb]; apply Ceq; cbn [fst snd Cmult Cplus RtoC Ci]; field; lra.
    + cbn [Nat.eqb pred]. rewrite !P0.
      destruct a as [|[|[|a]]]; [| | |lia]; unfold unit_a; cbn [Nat.eqb]; apply Ceq; cbn [fst snd Cmult Cplus RtoC Ci]; field; lra.
Qed.

(** ** dFi is the gradient *)
Lemma conj_lin (u v : C) (p q : R) : Cconj (u * RtoC p + v * RtoC q)%C = (Cconj u * RtoC p + Cconj v * RtoC q)%C.
Proof. apply Ceq; cbn [fst snd Cconj Cmult Cplus RtoC]; ring. Qed.

Lemma nb_grad_exact h dh d l m a :
  0 < dist d -> angles_ok d -> (off_axis (ang_theta d) \/ (vx d = 0 /\ vy d = 0 /\ temp_tol < vz d)) ->
  (m <= l)%nat -> (a < 3)%nat -> is_derive h (dist d) (dh (dist d)) ->
  exists g, nb_grad h dh d l m a = Ok g /\ cder (fun t => true_val h (moved d a t) l m) 0 g.
Proof.
  intros Hr A Hcase Hm Ha Hh. pose proof (true_val_line h dh d l m a Hr Hh Ha) as T. pose proof tol_pos as Ht. pose proof tol_small. pose proof PI2_3_2.
  unfold nb_grad. rewrite (sphY_space d l m Hr A Hm). destruct Hcase as [Ho|[X0 [Y0 Z0]]].
  - destruct (grad_off d l m a Hr A Ho Hm Ha) as [p [Ep G]].
    assert (Hp : at_pole (ang_theta d) = false).
    { unfold at_pole. destruct Ho as [O1 O2]. rewrite Rabs_pos_eq by lra. destruct (Rlt_dec _ _); [lra|]. rewrite Rabs_left1 by lra. destruct (Rlt_dec _ _); [lra|reflexivity]. }
    rewrite Hp, Ep. cbn [obind]. eexists; split; [reflexivity|]. eapply cder_eq; [exact T|]. rewrite <- G, conj_lin. reflexivity.
  - destruct (grad_pole d l m a X0 Y0 Z0 Hm Ha) as [Et [Ef [Er G]]].
    assert (Hp : at_pole (ang_theta d) = true) by (unfold at_pole; rewrite Et, Rabs_R0; destruct (Rlt_dec 0 temp_tol); [reflexivity|lra]).
    assert (Hf : pole_fact (ang_theta d) l = 1).
    { unfold pole_fact. rewrite Et. destruct (Nat.even l); [|reflexivity]. rewrite Rabs_left1 by lra. destruct (Rlt_dec _ _); [lra|reflexivity]. }
    assert (Yt : sphYtheta (ang_theta d) (ang_phi d) l (Z.of_nat m) = RtoC (if (m =? 1)%nat then ylim l else 0)).
    { rewrite Et. unfold sphYtheta. rewrite !Rabs_R0. destruct (Rlt_dec temp_tol 0); [lra|]. destruct l as [|l'].
      - replace m with 0%nat by lia. reflexivity.
      - destruct m as [|[|m]]; [reflexivity|reflexivity|]. replace (Z.of_nat (S (S m)) =? 1)%Z with false by (symmetry; apply Z.eqb_neq; lia).
        replace (Z.of_nat (S (S m)) =? -1)%Z with false by (symmetry; apply Z.eqb_neq; lia). reflexivity. }
    rewrite Hp, Hf, Yt. eapply cder_eq in T; [|rewrite G; reflexivity].
    destruct a as [|[|[|a]]]; [| | |lia]; cbn [dphi_dxi obind]; (eexists; split; [reflexivity|]); (eapply cder_eq; [exact T|]); rewrite Er.
    + apply Ceq; cbn [fst snd Cmult Cplus RtoC Ci Cconj]; destruct (m =? 1)%nat; field; lra.
    + apply Ceq; cbn [fst snd Cmult Cplus RtoC Ci Cconj Cminus Copp]; destruct (m =? 1)%nat; field; lra.
    + unfold dth_dxi. rewrite Et, sin_0. apply Ceq; cbn [fst snd Cmult Cplus RtoC Ci Cconj]; destruct (m =? 1)%nat; field; lra.
Qed.
