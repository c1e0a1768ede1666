(* The sum over m of Y_lm(p) conj Y_lm(q) does not change when p and q are
   rotated together. *)

From Coq Require Import Reals List ZArith Lia Lra Arith.
From Coquelicot Require Import Coquelicot.
From Verif Require Import CBase SoapSpec Soap OfGrad SoapLeg SoapLem SoapGrad SoapForce MggaXLem XcGridLem.
Import ListNotations.
Open Scope R_scope.

(** ** Along a curve *)
Section Curve.
Variable fx fy fz : R -> R.
Variable t0 e0 e1 e2 : R.
Hypothesis Dx : is_derive fx t0 e0.
Hypothesis Dy : is_derive fy t0 e1.
Hypothesis Dz : is_derive fz t0 e2.
Let x := fx t0. Let y := fy t0. Let z := fz t0.
Let r := sqrt (x * x + y * y + z * z).
Hypothesis Hr : 0 < r.
Let rt t := sqrt (fx t * fx t + fy t * fy t + fz t * fz t).
Let r' := (x * e0 + y * e1 + z * e2) / r.
Lemma c_rt : is_derive rt t0 r'.
Proof.
  assert (P : 0 < x * x + y * y + z * z). { destruct (Rlt_dec 0 (x * x + y * y + z * z)) as [H|H]; [exact H|]. exfalso. unfold r in Hr. rewrite sqrt_neg_0 in Hr by lra. lra. }
  assert (D : is_derive (fun t => fx t * fx t + fy t * fy t + fz t * fz t) t0 (2 * (x * e0 + y * e1 + z * e2))).
  { eapply der_eq; [apply (is_derive_plus (fun t => fx t * fx t + fy t * fy t) (fun t => fz t * fz t) t0 (e0 * fx t0 + fx t0 * e0 + (e1 * fy t0 + fy t0 * e1)) (e2 * fz t0 + fz t0 * e2))|].
    - apply (is_derive_plus (fun t => fx t * fx t) (fun t => fy t * fy t)); apply mul_derive; assumption.
    - apply mul_derive; assumption.
    - unfold plus; cbn. unfold x, y, z. ring. }
  eapply der_eq; [apply (is_derive_sqrt (fun t => fx t * fx t + fy t * fy t + fz t * fz t) t0 _ D); exact P|].
  fold x y z. fold r. unfold r'. field. lra.
Qed.
Lemma c_quo f e : is_derive f t0 e -> is_derive (fun t => f t / rt t) t0 ((e - f t0 / r * r') / r).
Proof.
  intros H. eapply der_eq; [apply (is_derive_div f rt t0 e r' H c_rt)|]; change (rt t0) with r; [lra|]. field. lra.
Qed.
Lemma Yspace_curve l m : cder (fun t => Yspace l m (fx t) (fy t) (fz t)) t0 (dY_line x y z e0 e1 e2 l m).
Proof.
  assert (Q : is_derive (fun t => ynorm l m * ql l m (fz t / rt t)) t0 (ynorm l m * (ql l (S m) (z / r) * ((e2 - z / r * r') / r)))).
  { apply (is_derive_scal (fun t => ql l m (fz t / rt t))).
    eapply der_eq; [apply (is_derive_comp (fun u => ql l m u) (fun t => fz t / rt t) t0 (ql l (S m) (z / r)) ((e2 - z / r * r') / r))|].
    - apply ql_derive.
    - apply c_quo. exact Dz.
    - unfold scal; cbn; unfold mult; cbn. ring. }
  assert (W : cder (fun t => (fx t / rt t, fy t / rt t)) t0 ((e0 - x / r * r') / r, (e1 - y / r * r') / r)) by (split; cbn [fst snd]; apply c_quo; assumption).
  apply (cder_ext (fun t => Cmult (RtoC (ynorm l m * ql l m (fz t / rt t))) (cpowr (fx t / rt t, fy t / rt t) m))).
  { intros t. unfold Yspace. fold (rt t). now rewrite ql_derive_n. }
  eapply cder_eq; [apply (cder_mul (fun t => RtoC (ynorm l m * ql l m (fz t / rt t))) (fun t => cpowr (fx t / rt t, fy t / rt t) m) t0 _ _ (cder_real _ _ _ Q) (cder_pow _ _ _ m W))|].
  change (rt t0) with r. fold x y z. unfold dY_line. fold r. fold r'. rewrite !RtoC_mult. ring.
Qed.
End Curve.

(** ** Ladder *)
Definition lad (l : nat) (m : Z) : R := sqrt (IZR ((Z.of_nat l - m) * (Z.of_nat l + m + 1))).
Lemma lad_nat l m : (m <= l)%nat -> lad l (Z.of_nat m) = sqrt (INR ((l - m) * (l + m + 1))).
Proof. intros H. unfold lad. f_equal. rewrite INR_IZR_INZ. f_equal. rewrite Nat2Z.inj_mul, Nat2Z.inj_sub by lia. lia. Qed.
Lemma lad_top l : lad l (Z.of_nat l) = 0.
Proof. unfold lad. rewrite Z.sub_diag, Z.mul_0_l. apply sqrt_0. Qed.
Lemma lad_bot l : lad l (- Z.of_nat l - 1) = 0.
Proof. unfold lad. replace (Z.of_nat l + (- Z.of_nat l - 1) + 1)%Z with 0%Z by lia. rewrite Z.mul_0_r. apply sqrt_0. Qed.
Lemma lad_neg l m : lad l (- m) = lad l (m - 1).
Proof. unfold lad. f_equal. f_equal. ring. Qed.

(** rotation about x: velocity (0, -z, y). *)
Lemma ladder_nat l m x y z : 0 < sqrt (x * x + y * y + z * z) -> (m <= l)%nat ->
  dY_line x y z 0 (- z) y l m
  = (RtoC (/ 2) * Ci * (RtoC (lad l (Z.of_nat m)) * YZ l (Z.of_nat m + 1) x y z + RtoC (lad l (Z.of_nat m - 1)) * YZ l (Z.of_nat m - 1) x y z))%C.
Proof.
  intros Hr Hm. unfold dY_line. set (r := sqrt (x * x + y * y + z * z)) in *.
  replace (x * 0 + y * - z + z * y) with 0 by ring. 
  assert (Hr2 : r * r = x * x + y * y + z * z) by (apply sqrt_sqrt; nra).
  set (u := z / r). set (wx := x / r). set (wy := y / r).
  assert (Huw : wx * wx + wy * wy + u * u = 1) by (unfold wx, wy, u; apply (Rmult_eq_reg_r (r * r)); [|nra]; rewrite Hr2 at 2; field; lra).
  replace ((y - u * (0 / r)) / r) with wy by (unfold wy; field; lra). replace ((0 - wx * (0 / r)) / r) with 0 by (field; lra).
  replace ((- z - wy * (0 / r)) / r) with (- u) by (unfold u; field; lra).
  (* upper neighbour *)
  assert (UP : (RtoC (lad l (Z.of_nat m)) * YZ l (Z.of_nat m + 1) x y z)%C = (RtoC (- ynorm l m * ql l (S m) u) * ((wx, wy) * cpowr (wx, wy) m))%C).
  { unfold YZ. replace (0 <=? Z.of_nat m + 1)%Z with true by (symmetry; apply Z.leb_le; lia). replace (Z.to_nat (Z.of_nat m + 1)) with (S m) by lia.
    unfold Yspace. fold r u wx wy. rewrite ql_derive_n. destruct (Nat.eq_dec m l) as [->|Hne].
    - rewrite lad_top. unfold ql. replace (S l <=? l)%nat with false by (symmetry; apply Nat.leb_gt; lia). apply Ceq; cbn [fst snd Cmult RtoC]; ring.
    - rewrite lad_nat by lia. rewrite <- (raise_norm l m) by lia. cbn [cpowr]. rewrite !RtoC_mult. ring. }
  rewrite UP. clear UP. destruct m as [|k].
  - replace (Z.of_nat 0 - 1)%Z with (-1)%Z by lia. unfold YZ. cbn [Z.leb Z.compare Z.opp Z.to_nat]. change (Pos.to_nat 1) with 1%nat.
    change (lad l (-1)) with (lad l (Z.opp 1)). rewrite lad_neg. replace (1 - 1)%Z with (Z.of_nat 0) by lia.
    unfold Yspace. fold r u wx wy. rewrite ql_derive_n.
    assert (E : lad l (Z.of_nat 0) * (ynorm l 1 * ql l 1 u) = - ynorm l 0 * ql l 1 u).
    { destruct (Nat.eq_dec l 0) as [->|Hne].
      - rewrite lad_top. unfold ql. replace (1 <=? 0)%nat with false by reflexivity. ring.
      - rewrite lad_nat by lia. rewrite <- (raise_norm l 0) by lia. ring. }
    cbn [INR cpowr pred pow].
    transitivity (RtoC (/ 2) * Ci * (RtoC (- ynorm l 0 * ql l 1 u) * ((wx, wy) * RtoC 1) + RtoC (-1) * RtoC (lad l (Z.of_nat 0) * (ynorm l 1 * ql l 1 u)) * Cconj ((wx, wy) * RtoC 1)))%C.
    + rewrite E. apply Ceq; cbn [fst snd Cmult Cplus RtoC Ci Cconj]; field.
    + apply Ceq; cbn [fst snd Cmult Cplus RtoC Ci Cconj]; ring.
  - replace (Z.of_nat (S k) - 1)%Z with (Z.of_nat k) by lia. unfold YZ. replace (0 <=? Z.of_nat k)%Z with true by (symmetry; apply Z.leb_le; lia).
    rewrite Nat2Z.id. unfold Yspace. fold r u wx wy. rewrite ql_derive_n.
    assert (E : lad l (Z.of_nat k) * (ynorm l k * ql l k u) = - ynorm l (S k) * (2 * INR (S k) * u * ql l (S k) u - (wx * wx + wy * wy) * ql l (S (S k)) u)).
    { pose proof (ynorm_lower l (S k) ltac:(lia)) as NL. pose proof (ql_lower l (S k) u ltac:(lia)) as QL. replace (S k - 1)%nat with k in * by lia.
      rewrite lad_nat by lia. replace ((l - k) * (l + k + 1))%nat with ((l + S k) * (l - S k + 1))%nat by nia.
      rewrite <- Rmult_assoc, NL. replace (wx * wx + wy * wy) with (1 - u * u) by lra. rewrite <- QL. ring. }
    transitivity (RtoC (/ 2) * Ci * (RtoC (- ynorm l (S k) * ql l (S (S k)) u) * ((wx, wy) * cpowr (wx, wy) (S k)) + RtoC (lad l (Z.of_nat k) * (ynorm l k * ql l k u)) * cpowr (wx, wy) k))%C.
    + rewrite E. cbn [pred]. set (N := INR (S k)). cbn [cpowr]. destruct (cpowr (wx, wy) k) as [pa pb].
      apply Ceq; cbn [fst snd Cmult Cplus RtoC Ci]; field.
    + rewrite !RtoC_mult. ring.
Qed.

(** Derivative of YZ along a curve. *)
Definition dYZ (l : nat) (m : Z) (x y z e0 e1 e2 : R) : C :=
  if (0 <=? m)%Z then dY_line x y z e0 e1 e2 l (Z.to_nat m)
  else (RtoC ((-1) ^ Z.to_nat (- m)) * Cconj (dY_line x y z e0 e1 e2 l (Z.to_nat (- m))))%C.
Lemma ladder l m x y z : 0 < sqrt (x * x + y * y + z * z) -> (- Z.of_nat l <= m <= Z.of_nat l)%Z ->
  dYZ l m x y z 0 (- z) y = (RtoC (/ 2) * Ci * (RtoC (lad l m) * YZ l (m + 1) x y z + RtoC (lad l (m - 1)) * YZ l (m - 1) x y z))%C.
Proof.
  intros Hr Hm. unfold dYZ. destruct (Z.leb_spec 0 m) as [H|H].
  - remember (Z.to_nat m) as k. assert (E : m = Z.of_nat k) by lia. subst m. apply ladder_nat; [exact Hr|lia].
  - remember (Z.to_nat (- m)) as k eqn:Ek. assert (E : m = (- Z.of_nat k)%Z) by lia. subst m. clear Ek.
    rewrite ladder_nat by (auto; lia).
    assert (Y1 : YZ l (- Z.of_nat k - 1) x y z = (RtoC ((-1) ^ S k) * Cconj (YZ l (Z.of_nat k + 1) x y z))%C).
    { unfold YZ. replace (0 <=? - Z.of_nat k - 1)%Z with false by (symmetry; apply Z.leb_gt; lia). replace (0 <=? Z.of_nat k + 1)%Z with true by (symmetry; apply Z.leb_le; lia).
      replace (Z.to_nat (- (- Z.of_nat k - 1))) with (S k) by lia. now replace (Z.to_nat (Z.of_nat k + 1)) with (S k) by lia. }
    assert (Y2 : YZ l (- Z.of_nat k + 1) x y z = (RtoC ((-1) ^ (k - 1)) * Cconj (YZ l (Z.of_nat k - 1) x y z))%C).
    { unfold YZ. replace (0 <=? Z.of_nat k - 1)%Z with true by (symmetry; apply Z.leb_le; lia). replace (Z.to_nat (Z.of_nat k - 1)) with (k - 1)%nat by lia.
      destruct (Z.leb_spec 0 (- Z.of_nat k + 1)).
      - replace k with 1%nat by lia. cbn [Nat.sub pow]. replace (Z.to_nat (- Z.of_nat 1 + 1)) with 0%nat by lia.
        unfold Yspace. cbn [cpowr]. apply Ceq; cbn [fst snd Cmult Cconj RtoC]; ring.
      - now replace (Z.to_nat (- (- Z.of_nat k + 1))) with (k - 1)%nat by lia. }
    rewrite Y1, Y2. replace (- Z.of_nat k - 1)%Z with (- (Z.of_nat k + 1))%Z by lia. rewrite !lad_neg.
    replace (Z.of_nat k + 1 - 1)%Z with (Z.of_nat k) by lia.
    destruct k as [|k]; [lia|]. replace (S k - 1)%nat with k by lia.
    destruct (YZ l (Z.of_nat (S k) + 1) x y z) as [aa ab]. destruct (YZ l (Z.of_nat (S k) - 1) x y z) as [ba bb]. cbn [pow].
    apply Ceq; cbn [fst snd Cmult Cplus RtoC Ci Cconj]; ring.
Qed.
Lemma YZ_curve l m fx fy fz t0 e0 e1 e2 : is_derive fx t0 e0 -> is_derive fy t0 e1 -> is_derive fz t0 e2 ->
  0 < sqrt (fx t0 * fx t0 + fy t0 * fy t0 + fz t0 * fz t0) ->
  cder (fun t => YZ l m (fx t) (fy t) (fz t)) t0 (dYZ l m (fx t0) (fy t0) (fz t0) e0 e1 e2).
Proof.
  intros D0 D1 D2 Hr. unfold YZ, dYZ. destruct (0 <=? m)%Z.
  - apply Yspace_curve; assumption.
  - eapply cder_eq; [apply (cder_mul (fun _ => RtoC ((-1) ^ Z.to_nat (- m))) (fun t => Cconj (Yspace l (Z.to_nat (- m)) (fx t) (fy t) (fz t))) t0 (RtoC 0) _ (cder_const _ _) (cder_conj _ _ _ (Yspace_curve fx fy fz t0 e0 e1 e2 D0 D1 D2 Hr l (Z.to_nat (- m)))))|].
    ring.
Qed.

(** ** The invariant sum *)
Definition YZv (l : nat) (m : Z) (p : vec3) : C := YZ l m (vx p) (vy p) (vz p).
Definition Ssum (l : nat) (p q : vec3) : C := psum (fun m => (YZv l m p * Cconj (YZv l m q))%C) (msym l).

Lemma psum_ext {A} (f g : A -> C) l : (forall x, In x l -> f x = g x) -> psum f l = psum g l.
Proof. induction l as [|x l IH]; intros H; [reflexivity|]. cbn [psum]. rewrite H by (left; reflexivity). rewrite IH; [reflexivity|]. intros; apply H; right; assumption. Qed.
Lemma psum_app {A} (f : A -> C) l l' : psum f (l ++ l') = (psum f l + psum f l')%C.
Proof. induction l as [|x l IH]; cbn [psum app]; [ring|]. rewrite IH. ring. Qed.
Lemma psum_plus {A} (f g : A -> C) l : psum (fun x => (f x + g x)%C) l = (psum f l + psum g l)%C.
Proof. induction l as [|x l IH]; cbn [psum]; [ring|]. rewrite IH. ring. Qed.
Lemma psum_scal {A} c (f : A -> C) l : psum (fun x => (c * f x)%C) l = (c * psum f l)%C.
Proof. induction l as [|x l IH]; cbn [psum]; [ring|]. rewrite IH. ring. Qed.
Lemma psum_zero {A} (l : list A) : psum (fun _ => RtoC 0) l = RtoC 0.
Proof. induction l as [|x l IH]; cbn [psum]; [reflexivity|]. rewrite IH. apply Ceq; cbn; ring. Qed.
Lemma psum_conj {A} (f : A -> C) l : Cconj (psum f l) = psum (fun x => Cconj (f x)) l.
Proof. induction l as [|x l IH]; cbn [psum]; [apply Ceq; cbn; ring|]. rewrite <- IH. apply Ceq; cbn; ring. Qed.
Lemma psum_swap {A B} (f : A -> B -> C) l l' : psum (fun x => psum (f x) l') l = psum (fun y => psum (fun x => f x y) l) l'.
Proof. induction l as [|x l IH]; cbn [psum]; [now rewrite psum_zero|]. rewrite IH. now rewrite psum_plus. Qed.
Lemma psum_cder {A} (F : R -> A -> C) F' t l : (forall x, In x l -> cder (fun s => F s x) t (F' x)) -> cder (fun s => psum (F s) l) t (psum F' l).
Proof.
  induction l as [|x l IH]; intros H; cbn [psum]; [apply cder_const|]. apply (cder_plus (fun s => F s x) (fun s => psum (F s) l)); [apply H; left; reflexivity|].
  apply IH. intros; apply H; right; assumption.
Qed.
Lemma msym_range l m : In m (msym l) <-> (- Z.of_nat l <= m <= Z.of_nat l)%Z.
Proof.
  induction l as [|l IH]; cbn [msym].
  - cbn. lia.
  - cbn [In]. rewrite in_app_iff, IH. cbn [In]. lia.
Qed.
Lemma telescope (G : Z -> C) l : psum (fun m => (G (m + 1)%Z - G m)%C) (msym l) = (G (Z.of_nat l + 1)%Z - G (- Z.of_nat l)%Z)%C.
Proof.
  induction l as [|l IH]; cbn [msym psum].
  - cbn. ring.
  - rewrite psum_app, IH. cbn [psum]. replace (- Z.of_nat (S l) + 1)%Z with (- Z.of_nat l)%Z by lia.
    replace (Z.of_nat (S l)) with (Z.of_nat l + 1)%Z by lia. ring.
Qed.

Lemma nz_dist (p : vec3) : dist p <> 0 -> 0 < dist p.
Proof. intros H. pose proof (sqrt_pos (vx p * vx p + vy p * vy p + vz p * vz p)) as P. fold (dist p) in P. lra. Qed.
Lemma rotx_dist al p : dist (rotx al p) = dist p.
Proof.
  destruct p as [[x y] z]. unfold dist, rotx, vx, vy, vz. cbn [fst snd]. f_equal. pose proof (sin2_cos2 al) as Q. unfold Rsqr in Q.
  transitivity (x * x + (y * y + z * z) * (sin al * sin al + cos al * cos al)); [ring|]. rewrite Q. ring.
Qed.
Lemma rotz_dist al p : dist (rotz al p) = dist p.
Proof.
  destruct p as [[x y] z]. unfold dist, rotz, vx, vy, vz. cbn [fst snd]. f_equal. pose proof (sin2_cos2 al) as Q. unfold Rsqr in Q.
  transitivity (z * z + (x * x + y * y) * (sin al * sin al + cos al * cos al)); [ring|]. rewrite Q. ring.
Qed.

Lemma rotx_curve l m p al : 0 < dist p -> (- Z.of_nat l <= m <= Z.of_nat l)%Z ->
  cder (fun t => YZv l m (rotx t p)) al (RtoC (/ 2) * Ci * (RtoC (lad l m) * YZv l (m + 1) (rotx al p) + RtoC (lad l (m - 1)) * YZv l (m - 1) (rotx al p)))%C.
Proof.
  intros Hp Hm. destruct p as [[x y] z]. unfold YZv, rotx, vx, vy, vz. cbn [fst snd].
  assert (Hd := rotx_dist al (x, y, z)). unfold dist, rotx, vx, vy, vz in Hd, Hp. cbn [fst snd] in Hd, Hp. rewrite <- Hd in Hp.
  rewrite <- ladder by assumption.
  apply (YZ_curve l m (fun _ => x) (fun t => y * cos t - z * sin t) (fun t => y * sin t + z * cos t)).
  - apply const_derive.
  - auto_derive; [exact I|]. ring.
  - auto_derive; [exact I|]. ring.
  - exact Hp.
Qed.

Lemma Ssum_rotx_der l p q al : 0 < dist p -> 0 < dist q -> cder (fun t => Ssum l (rotx t p) (rotx t q)) al (RtoC 0).
Proof.
  intros Hp Hq. unfold Ssum.
  set (yp := fun m => YZv l m (rotx al p)). set (yq := fun m => YZv l m (rotx al q)).
  eapply cder_eq.
  - apply (psum_cder (fun t m => (YZv l m (rotx t p) * Cconj (YZv l m (rotx t q)))%C)
      (fun m => (RtoC (/ 2) * Ci * (RtoC (lad l m) * yp (m + 1)%Z + RtoC (lad l (m - 1)) * yp (m - 1)%Z) * Cconj (yq m)
         + yp m * Cconj (RtoC (/ 2) * Ci * (RtoC (lad l m) * yq (m + 1)%Z + RtoC (lad l (m - 1)) * yq (m - 1)%Z)))%C)).
    intros m Hm. apply msym_range in Hm.
    apply (cder_mul (fun t => YZv l m (rotx t p)) (fun t => Cconj (YZv l m (rotx t q)))); [|apply cder_conj]; apply rotx_curve; assumption.
  - set (G := fun m => (RtoC (lad l (m - 1)) * (yp m * Cconj (yq (m - 1)%Z)))%C). set (K := fun m => (RtoC (lad l (m - 1)) * (yp (m - 1)%Z * Cconj (yq m)))%C).
    rewrite (psum_ext _ (fun m => (RtoC (/ 2) * Ci * (G (m + 1)%Z - G m) + (- (RtoC (/ 2) * Ci)) * (K (m + 1)%Z - K m))%C)).
    + rewrite psum_plus, !psum_scal, !telescope. unfold G, K. replace (Z.of_nat l + 1 - 1)%Z with (Z.of_nat l) by lia. rewrite lad_top, lad_bot. apply Ceq; cbn [fst snd Cmult Cplus Cminus Copp RtoC Ci]; ring.
    + intros m Hm. unfold G, K. replace (m + 1 - 1)%Z with m by lia.
      destruct (yp (m + 1)%Z), (yp m), (yp (m - 1)%Z), (yq (m + 1)%Z), (yq m), (yq (m - 1)%Z). apply Ceq; cbn [fst snd Cmult Cplus Cminus Copp RtoC Ci Cconj]; ring.
Qed.
Lemma const_of_der (f : R -> R) : (forall t, is_derive f t 0) -> forall a b, f a = f b.
Proof.
  intros H a b. destruct (Rtotal_order a b) as [L|[->|L]]; [|reflexivity|].
  - apply (eq_is_derive f a b); [intros; apply H|exact L].
  - symmetry. apply (eq_is_derive f b a); [intros; apply H|exact L].
Qed.
Lemma rotx_0 p : rotx 0 p = p.
Proof. destruct p as [[x y] z]. unfold rotx. rewrite cos_0, sin_0. repeat apply (f_equal2 pair); ring. Qed.
Lemma Ssum_rotx l p q al : 0 < dist p -> 0 < dist q -> Ssum l (rotx al p) (rotx al q) = Ssum l p q.
Proof.
  intros Hp Hq. rewrite <- (rotx_0 p) at 2. rewrite <- (rotx_0 q) at 2.
  apply Ceq.
  - apply (const_of_der (fun t => fst (Ssum l (rotx t p) (rotx t q)))). intros t. apply (Ssum_rotx_der l p q t Hp Hq).
  - apply (const_of_der (fun t => snd (Ssum l (rotx t p) (rotx t q)))). intros t. apply (Ssum_rotx_der l p q t Hp Hq).
Qed.

(** ** About z *)
Definition cis (t : R) : C := (cos t, sin t).
Lemma cpowr_mul u v m : cpowr (u * v)%C m = (cpowr u m * cpowr v m)%C.
Proof. induction m as [|m IH]; cbn [cpowr]; [apply Ceq; cbn; ring|]. rewrite IH. ring. Qed.
Lemma cpowr_cis al m : cpowr (cis al) m = cis (INR m * al).
Proof.
  pose proof (cpowr_polar 1 al m) as H. rewrite !Rmult_1_l, pow1, !Rmult_1_l in H. exact H.
Qed.
Lemma Yspace_rotz l m p al : Yspace l m (vx (rotz al p)) (vy (rotz al p)) (vz (rotz al p)) = (cis (INR m * al) * Yspace l m (vx p) (vy p) (vz p))%C.
Proof.
  pose proof (rotz_dist al p) as D. unfold dist in D. destruct p as [[x y] z]. unfold rotz, vx, vy, vz in *. cbn [fst snd] in *. unfold Yspace. rewrite D.
  set (r := sqrt (x * x + y * y + z * z)).
  replace (((x * cos al - y * sin al) / r, (x * sin al + y * cos al) / r) : C) with (Cmult (x / r, y / r) (cis al)) by (apply Ceq; cbn [fst snd Cmult cis]; unfold Rdiv; ring).
  rewrite cpowr_mul, cpowr_cis. ring.
Qed.
Lemma YZv_rotz l m p al : YZv l m (rotz al p) = (cis (IZR m * al) * YZv l m p)%C.
Proof.
  unfold YZv, YZ. destruct (Z.leb_spec 0 m) as [H|H].
  - rewrite Yspace_rotz. rewrite INR_IZR_INZ, Z2Nat.id by lia. reflexivity.
  - rewrite Yspace_rotz. rewrite INR_IZR_INZ, Z2Nat.id by lia. rewrite opp_IZR. replace (- IZR m * al) with (- (IZR m * al)) by ring.
    unfold cis. rewrite cos_neg, sin_neg. apply Ceq; cbn [fst snd Cmult Cconj RtoC]; ring.
Qed.
Lemma Ssum_rotz l p q al : Ssum l (rotz al p) (rotz al q) = Ssum l p q.
Proof.
  unfold Ssum. apply psum_ext. intros m _. rewrite !YZv_rotz. pose proof (sin2_cos2 (IZR m * al)) as Q. unfold Rsqr in Q.
  transitivity ((cis (IZR m * al) * Cconj (cis (IZR m * al))) * (YZv l m p * Cconj (YZv l m q)))%C.
  - apply Ceq; cbn [fst snd Cmult Cconj]; ring.
  - replace (cis (IZR m * al) * Cconj (cis (IZR m * al)))%C with (RtoC 1) by (apply Ceq; unfold cis; cbn [fst snd Cmult Cconj RtoC]; lra). ring.
Qed.
Lemma rotation_dist f p : rotation f -> dist (f p) = dist p.
Proof. induction 1; [reflexivity| |]; [rewrite rotz_dist|rewrite rotx_dist]; assumption. Qed.
Lemma Ssum_rotation l f p q : rotation f -> 0 < dist p -> 0 < dist q -> Ssum l (f p) (f q) = Ssum l p q.
Proof.
  intros Hf Hp Hq. induction Hf as [|al f Hf IH|al f Hf IH]; [reflexivity|now rewrite Ssum_rotz|].
  rewrite Ssum_rotx; [exact IH| |]; rewrite rotation_dist; assumption.
Qed.

(** ** The power spectrum *)
Definition cfull (h : nat -> nat -> R -> R) (nbs : list nbr) (dsp : nbr -> vec3) el n l (m : Z) : C :=
  psum (fun b => if (n_el b =? el)%nat then (RtoC (h n l (dist (dsp b))) * Cconj (YZv l m (dsp b)))%C else RtoC 0) nbs.
Lemma pcn_full h pos i nbs el n l m : pcn h pos i nbs el n l m = cfull h nbs (disp pos i) el n l (Z.of_nat m).
Proof.
  unfold pcn, cfull. apply psum_ext. intros b _. destruct (_ =? _)%nat; [|reflexivity]. unfold true_val, YZv, YZ.
  replace (0 <=? Z.of_nat m)%Z with true by (symmetry; apply Z.leb_le; lia). now rewrite Nat2Z.id.
Qed.
Lemma cfull_neg h nbs dsp el n l k : (1 <= k)%nat -> cfull h nbs dsp el n l (- Z.of_nat k) = (RtoC ((-1) ^ k) * Cconj (cfull h nbs dsp el n l (Z.of_nat k)))%C.
Proof.
  intros Hk. unfold cfull. rewrite psum_conj, <- psum_scal. apply psum_ext. intros b _. destruct (_ =? _)%nat; [|apply Ceq; cbn; ring].
  unfold YZv, YZ. replace (0 <=? Z.of_nat k)%Z with true by (symmetry; apply Z.leb_le; lia). replace (0 <=? - Z.of_nat k)%Z with false by (symmetry; apply Z.leb_gt; lia).
  rewrite Z.opp_involutive, Nat2Z.id. apply Ceq; cbn [fst snd Cmult Cconj RtoC]; ring.
Qed.
Lemma cfull_0 h nbs dsp el n l : snd (cfull h nbs dsp el n l 0) = 0.
Proof.
  unfold cfull. induction nbs as [|b nbs IH]; [reflexivity|]. cbn [psum]. cbn [snd Cplus]. unfold Cplus. cbn [snd]. rewrite IH. destruct (_ =? _)%nat; [|cbn; ring].
  unfold YZv, YZ, Yspace. cbn [Z.leb Z.compare Z.to_nat cpowr fst snd Cmult Cconj RtoC]. ring.
Qed.
Lemma sign_sq k : (-1) ^ k * (-1) ^ k = 1.
Proof. rewrite even_sign. destruct (Nat.even k); ring. Qed.

Lemma seq_snoc n : seq 0 (S n) = seq 0 n ++ [n].
Proof. replace (S n) with (n + 1)%nat by lia. rewrite seq_app. reflexivity. Qed.
Lemma half_sum (c1 c2 : Z -> C) (K : R) (w : nat -> R) L :
  w 0%nat = K * Re (c1 0%Z * Cconj (c2 0%Z))%C ->
  (forall k, (1 <= k)%nat -> w k = K * (2 * Re (c1 (Z.of_nat k) * Cconj (c2 (Z.of_nat k)))%C)) ->
  (forall k, (1 <= k)%nat -> c1 (- Z.of_nat k)%Z = (RtoC ((-1) ^ k) * Cconj (c1 (Z.of_nat k)))%C) ->
  (forall k, (1 <= k)%nat -> c2 (- Z.of_nat k)%Z = (RtoC ((-1) ^ k) * Cconj (c2 (Z.of_nat k)))%C) ->
  snd (c1 0%Z) = 0 -> snd (c2 0%Z) = 0 ->
  RtoC (lsum w (seq 0 (L + 1))) = (RtoC K * psum (fun m => (c1 m * Cconj (c2 m))%C) (msym L))%C.
Proof.
  intros W0 Wk N1 N2 Z1 Z2. induction L as [|L IH].
  - cbn [Nat.add seq lsum msym psum]. rewrite W0. unfold Re. apply Ceq; cbn [fst snd Cmult Cplus Cconj RtoC]; rewrite ?Z1, ?Z2; ring.
  - replace (S L + 1)%nat with (S (L + 1)) by lia. rewrite seq_snoc, lsum_app, RtoC_plus, IH. cbn [lsum msym psum]. rewrite psum_app. cbn [psum].
    replace (L + 1)%nat with (S L) by lia. rewrite Wk by lia. rewrite N1, N2 by lia. pose proof (sign_sq (S L)) as Q. set (sg := (-1) ^ S L) in *.
    destruct (c1 (Z.of_nat (S L))) as [a b], (c2 (Z.of_nat (S L))) as [c d]. set (P := psum _ _).
    transitivity (RtoC K * P + RtoC (K * (2 * (a * c + b * d))))%C.
    + apply Ceq; unfold Re; cbn [fst snd Cmult Cplus Cconj RtoC]; ring.
    + apply Ceq; cbn [fst snd Cmult Cplus Cconj RtoC].
      * transitivity (K * fst P - 0 * snd P + K * ((sg * sg) * (a * c + b * d) + (a * c + b * d))); [rewrite Q; ring|ring].
      * transitivity (K * snd P + 0 * fst P + K * ((sg * sg) * (a * d - b * c) + (b * c - a * d))); [rewrite Q; ring|ring].
Qed.

Lemma pX_full h pos nbs i t :
  RtoC (pX h pos nbs i t) = (RtoC (const_X3 (x_l t)) * psum (fun m =>
     (cfull h (nbs i) (disp pos i) (x_e1 t) (x_n1 t) (x_l t) m * Cconj (cfull h (nbs i) (disp pos i) (x_e2 t) (x_n2 t) (x_l t) m))%C) (msym (x_l t)))%C.
Proof.
  unfold pX.
  apply (half_sum (cfull h (nbs i) (disp pos i) (x_e1 t) (x_n1 t) (x_l t)) (cfull h (nbs i) (disp pos i) (x_e2 t) (x_n2 t) (x_l t))).
  - rewrite !pcn_full. reflexivity.
  - intros k Hk. rewrite !pcn_full. destruct k; [lia|reflexivity].
  - intros. now apply cfull_neg.
  - intros. now apply cfull_neg.
  - apply cfull_0.
  - apply cfull_0.
Qed.

Lemma cfull_pair h nb dsp e1 n1 e2 n2 l :
  psum (fun m => (cfull h nb dsp e1 n1 l m * Cconj (cfull h nb dsp e2 n2 l m))%C) (msym l)
  = psum (fun b => psum (fun b' => if (n_el b =? e1)%nat then if (n_el b' =? e2)%nat then
       (RtoC (h n1 l (dist (dsp b)) * h n2 l (dist (dsp b'))) * Cconj (Ssum l (dsp b) (dsp b')))%C else RtoC 0 else RtoC 0) nb) nb.
Proof.
  transitivity (psum (fun m => psum (fun b => psum (fun b' =>
     ((if (n_el b =? e1)%nat then (RtoC (h n1 l (dist (dsp b))) * Cconj (YZv l m (dsp b)))%C else RtoC 0)
      * Cconj (if (n_el b' =? e2)%nat then (RtoC (h n2 l (dist (dsp b'))) * Cconj (YZv l m (dsp b')))%C else RtoC 0))%C) nb) nb) (msym l)).
  - apply psum_ext. intros m _. unfold cfull at 2. rewrite psum_conj. unfold cfull.
    rewrite Cmult_comm, <- psum_scal. apply psum_ext. intros b _. rewrite Cmult_comm, <- psum_scal. apply psum_ext. intros b' _. reflexivity.
  - rewrite psum_swap. apply psum_ext. intros b _. rewrite psum_swap. apply psum_ext. intros b' _.
    destruct (n_el b =? e1)%nat; destruct (n_el b' =? e2)%nat;
      try (rewrite (psum_ext _ (fun _ => RtoC 0)); [apply psum_zero|intros m _; apply Ceq; cbn [fst snd Cmult Cconj RtoC]; ring]).
    unfold Ssum. rewrite psum_conj, <- psum_scal. apply psum_ext. intros m _. apply Ceq; cbn [fst snd Cmult Cconj RtoC]; ring.
Qed.

(** With angles that reproduce the displacement the code's value is [pX]. *)
Definition nb_ok (d : vec3) : Prop := dist_ok d = true /\ 0 < dist d /\ angles_ok d.
Lemma nb_val_ok h d l m : nb_ok d -> (m <= l)%nat -> nb_val h d l m = true_val h d l m.
Proof. intros [_ [H A]] Hm. unfold nb_val, true_val. now rewrite sphY_space by assumption. Qed.
Lemma X3_okw h pos nbs i t : (forall b, In b (nbs i) -> nb_ok (disp pos i b)) -> X3 h pos nbs i t = Ok (pX h pos nbs i t).
Proof.
  intros H. unfold X3, pX. apply osum_ok. intros m Hm. apply in_seq in Hm.
  assert (E : forall el n, cnlm h pos i (nbs i) el n (x_l t) m = Ok (pcn h pos i (nbs i) el n (x_l t) m)).
  { intros el n. unfold cnlm, pcn. apply csum_ok. intros b Hb. destruct (H b Hb) as [D _]. rewrite D. destruct (_ =? _)%nat; [|reflexivity]. rewrite nb_val_ok by (auto; lia). reflexivity. }
  now rewrite !E.
Qed.
Lemma X3_rotation h pos pos' nbs i t f : rotation f ->
  (forall b, In b (nbs i) -> nb_ok (disp pos i b) /\ nb_ok (disp pos' i b) /\ disp pos' i b = f (disp pos i b)) ->
  exists v, X3 h pos nbs i t = Ok v /\ X3 h pos' nbs i t = Ok v.
Proof.
  intros Hf H. exists (pX h pos nbs i t). split; [apply X3_okw; apply H|]. rewrite X3_okw by apply H. f_equal.
  enough (E : RtoC (pX h pos' nbs i t) = RtoC (pX h pos nbs i t)) by (injection E; auto).
  rewrite !pX_full. f_equal. rewrite !cfull_pair. apply psum_ext. intros b Hb. apply psum_ext. intros b' Hb'.
  destruct (H b Hb) as [[_ [P _]] [_ E1]]. destruct (H b' Hb') as [[_ [P' _]] [_ E2]]. rewrite E1, E2.
  rewrite !rotation_dist by exact Hf. now rewrite Ssum_rotation by assumption.
Qed.
