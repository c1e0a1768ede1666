(* The exact harmonics: their expression through rational polynomials, the addition
   theorem and the orthonormality integrals for l <= 6. *)

From Coq Require Import Reals List ZArith QArith Qreals Lia Lra.
From Coquelicot Require Import Coquelicot.
From Verif Require Import CBase SphHarmSpec SphHarm SphHarmLem.
Import ListNotations.
Open Scope R_scope.

Lemma legq2_ok : forall n t,
  leg2 n t = (peval (fst (legq2 n)) t, peval (snd (legq2 n)) t).
Proof.
  induction n as [|n IH]; intros t.
  - cbn [leg2 legq2 fst snd peval]. rewrite RMicromega.Q2R_0, RMicromega.Q2R_1.
    apply f_equal2; ring.
  - cbn [leg2 legq2]. rewrite IH. destruct (legq2 n) as [a b]. cbn [fst snd].
    apply f_equal2; [reflexivity|].
    rewrite peval_scal, peval_add, !peval_scal. cbn [peval].
    rewrite RMicromega.Q2R_0.
    assert (N : inject_Z (Z.of_nat n) + 2 == inject_Z (Z.of_nat n + 2))
      by (rewrite inject_Z_plus; reflexivity).
    assert (P : 0 <= INR n) by apply pos_INR.
    rewrite Q2R_inv.
    + rewrite Q2R_opp, !Q2R_plus, Q2R_mult, Q2R_inject_Z, <- INR_IZR_INZ.
      replace (Q2R 2) with 2 by (unfold Q2R; cbn; field).
      replace (Q2R 3) with 3 by (unfold Q2R; cbn; field).
      replace (Q2R 1) with 1 by (unfold Q2R; cbn; field).
      field. lra.
    + rewrite N. unfold Qeq, inject_Z. cbn [Qnum Qden]. lia.
Qed.

Lemma leg_ok : forall l t, leg l t = peval (legq l) t.
Proof. intros l t. unfold leg. rewrite legq2_ok. reflexivity. Qed.

Lemma Derive_leg : forall l m t, Derive_n (leg l) m t = peval (pdern m (legq l)) t.
Proof.
  intros l m t. rewrite <- peval_derive_n. apply Derive_n_ext. apply leg_ok.
Qed.

Lemma rfact_pos : forall n, 0 < rfact n.
Proof.
  induction n as [|n IH]; [cbn; lra|].
  cbn [rfact]. apply Rmult_lt_0_compat; [apply lt_0_INR; lia|exact IH].
Qed.

Lemma nsq_pos : forall l m, 0 < nsq l m.
Proof.
  intros l m. unfold nsq. assert (0 <= INR l) by apply pos_INR.
  apply Rmult_lt_0_compat; [apply Rmult_lt_0_compat|apply Rdiv_lt_0_compat; apply rfact_pos];
    [destruct m; lra|lra].
Qed.

Definition tri (neg : bool) (m : nat) (ph : R) : R :=
  if neg then sin (INR m * ph) else cos (INR m * ph).

Definition shp (l m : nat) (th : R) : R := sin th ^ m * peval (pdern m (legq l)) (cos th).

Lemma shape_ok : forall l m neg th ph,
  shape l m neg (cos th) (sin th) (cos ph) (sin ph) = shp l m th * tri neg m ph.
Proof.
  intros. unfold shape, shp, tri. rewrite csn_ok. destruct neg; reflexivity.
Qed.

Lemma nsq_sqrt : forall l (m : Z),
  sqrt ((if (m =? 0)%Z then 1 else 2) * ((2 * INR l + 1) / (4 * PI))
        * (rfact (l - Z.abs_nat m) / rfact (l + Z.abs_nat m)))
  = sqrt (nsq l (Z.abs_nat m) / PI).
Proof.
  intros l m. apply f_equal. unfold nsq.
  assert (0 < PI) by (destruct PI_close; lra).
  pose proof (rfact_pos (l + Z.abs_nat m)).
  replace (match Z.abs_nat m with O => 1 | S _ => 2 end) with (if (m =? 0)%Z then 1 else 2).
  - field. split; lra.
  - destruct (Z.eqb_spec m 0) as [->|N]; [reflexivity|].
    destruct (Z.abs_nat m) eqn:E; [lia|reflexivity].
Qed.

Lemma Yreal_ok : forall l m th ph,
  Yreal l m th ph
  = sqrt (nsq l (Z.abs_nat m) / PI) * (shp l (Z.abs_nat m) th * tri (m <? 0)%Z (Z.abs_nat m) ph).
Proof.
  intros. unfold Yreal. cbv zeta. rewrite nsq_sqrt, Derive_leg. reflexivity.
Qed.

Lemma sqrt_nsq2 : forall l m, sqrt (nsq l m / PI) * sqrt (nsq l m / PI) = nsq l m / PI.
Proof.
  intros. apply sqrt_sqrt. apply Rlt_le, Rdiv_lt_0_compat; [apply nsq_pos|].
  destruct PI_close; lra.
Qed.

Lemma sin2 : forall t, sin t ^ 2 = 1 - cos t ^ 2.
Proof. intros t. pose proof (sin2_cos2 t). unfold Rsqr in H. lra. Qed.

(* ---- the addition theorem ---- *)


Definition add_sum (l : nat) (C S C' S' x y : R) : R :=
  sum_f_R0 (fun m => nsq l m * (S ^ m * peval (pdern m (legq l)) C)
                     * (S' ^ m * peval (pdern m (legq l)) C') * fst (csn m x y)) l.

Definition add_id (l : nat) : Prop := forall C S C' S' x y,
  S ^ 2 = 1 - C ^ 2 -> S' ^ 2 = 1 - C' ^ 2 -> y ^ 2 = 1 - x ^ 2 ->
  add_sum l C S C' S' x y = (2 * INR l + 1) / 4 * peval (legq l) (C * C' + S * S' * x).

Ltac add_go :=
  intros C S C' S' x y HS HS' Hy; unfold add_sum, nsq;
  cbn [sum_f_R0];
  repeat match goal with |- context [pdern ?m ?p] =>
    let v := eval vm_compute in (pdern m p) in change (pdern m p) with v end;
  match goal with |- context [peval (legq ?l) _] =>
    let v := eval vm_compute in (legq l) in change (legq l) with v end;
  cbn [peval csn fst snd Nat.sub Nat.add rfact INR];
  unfold Q2R; cbn [Qnum Qden];
  first [ring | field [HS HS' Hy]].
Lemma add_0 : add_id 0. Proof. add_go. Qed.
Lemma add_1 : add_id 1. Proof. add_go. Qed.
Lemma add_2 : add_id 2. Proof. add_go. Qed.
Lemma add_3 : add_id 3. Proof. add_go. Qed.
Lemma add_4 : add_id 4. Proof. add_go. Qed.
Lemma add_5 : add_id 5. Proof. add_go. Qed.
Lemma add_6 : add_id 6. Proof. add_go. Qed.

Lemma add_all : forall l, (l <= 6)%nat -> add_id l.
Proof.
  intros l Hl. do 7 (destruct l as [|l];
    [first [exact add_0 | exact add_1 | exact add_2 | exact add_3 | exact add_4
           | exact add_5 | exact add_6]|]).
  lia.
Qed.

(* The sum over m = -l .. l. *)
Definition sum_m (l : nat) (F : Z -> R) : R :=
  sum_f_R0 (fun j => F (Z.of_nat j - Z.of_nat l)%Z) (2 * l).

Lemma sum_m_ext : forall l F G,
  (forall m, (Z.abs m <= Z.of_nat l)%Z -> F m = G m) -> sum_m l F = sum_m l G.
Proof. intros l F G H. unfold sum_m. apply sum_eq. intros i Hi. apply H. lia. Qed.

Lemma sum_m_le : forall l F G,
  (forall m, (Z.abs m <= Z.of_nat l)%Z -> F m <= G m) -> sum_m l F <= sum_m l G.
Proof. intros l F G H. unfold sum_m. apply sum_Rle. intros i Hi. apply H. lia. Qed.

Lemma sum_m_minus : forall l F G, sum_m l (fun m => F m - G m) = sum_m l F - sum_m l G.
Proof. intros. unfold sum_m. rewrite <- minus_sum. reflexivity. Qed.

Lemma sum_m_plus : forall l F G, sum_m l (fun m => F m + G m) = sum_m l F + sum_m l G.
Proof. intros. unfold sum_m. rewrite <- plus_sum. reflexivity. Qed.

Lemma sum_m_scal : forall l c F, sum_m l (fun m => c * F m) = c * sum_m l F.
Proof. intros. unfold sum_m. rewrite scal_sum. apply sum_eq. intros; ring. Qed.

Lemma sum_m_abs : forall l F, Rabs (sum_m l F) <= sum_m l (fun m => Rabs (F m)).
Proof. intros. unfold sum_m. apply Rsum_abs. Qed.

(* Pairing m and -m. *)
Lemma sum_m_pairs : forall l (A : nat -> R) (a b : nat -> R), (l <= 6)%nat ->
  sum_m l (fun m => A (Z.abs_nat m)
                    * (if (m <? 0)%Z then a (Z.abs_nat m) else b (Z.abs_nat m)))
  = sum_f_R0 (fun m => A m * (match m with O => b O | S _ => a m + b m end)) l.
Proof.
  intros l A a b Hl. unfold sum_m.
  do 7 (destruct l as [|l];
    [cbn [sum_f_R0 Nat.mul Nat.add];
     repeat match goal with |- context [(Z.of_nat ?i - Z.of_nat ?j)%Z] =>
       let v := eval compute in (Z.of_nat i - Z.of_nat j)%Z in
       change (Z.of_nat i - Z.of_nat j)%Z with v end;
     repeat match goal with |- context [Z.abs_nat ?z] =>
       let v := eval compute in (Z.abs_nat z) in change (Z.abs_nat z) with v end;
     cbn [Z.ltb Z.compare];
     ring|]).
  lia.
Qed.

Theorem Yreal_addition : forall l th ph th' ph', (l <= 6)%nat ->
  sum_m l (fun m => Yreal l m th ph * Yreal l m th' ph')
  = (2 * INR l + 1) / (4 * PI)
    * leg l (cos th * cos th' + sin th * sin th' * cos (ph - ph')).
Proof.
  intros l th ph th' ph' Hl.
  assert (HP : 0 < PI) by (destruct PI_close; lra).
  rewrite (sum_m_ext _ _ (fun m =>
    (fun n => nsq l n / PI * (shp l n th * shp l n th')) (Z.abs_nat m)
    * (if (m <? 0)%Z then (fun n => sin (INR n * ph) * sin (INR n * ph')) (Z.abs_nat m)
       else (fun n => cos (INR n * ph) * cos (INR n * ph')) (Z.abs_nat m)))).
  2:{ intros m Hm. rewrite !Yreal_ok. cbv beta.
      pose proof (sqrt_nsq2 l (Z.abs_nat m)) as Q.
      set (w := sqrt _) in *. rewrite <- Q.
      unfold tri. destruct (m <? 0)%Z; ring. }
  rewrite (sum_m_pairs l (fun n => nsq l n / PI * (shp l n th * shp l n th'))
    (fun n => sin (INR n * ph) * sin (INR n * ph'))
    (fun n => cos (INR n * ph) * cos (INR n * ph')) Hl).
  rewrite leg_ok.
  pose proof (add_all l Hl (cos th) (sin th) (cos th') (sin th') (cos (ph - ph'))
                (sin (ph - ph')) (sin2 _) (sin2 _) (sin2 _)) as H.
  replace ((2 * INR l + 1) / (4 * PI)) with (/ PI * ((2 * INR l + 1) / 4)) by (field; lra).
  rewrite Rmult_assoc, <- H. unfold add_sum. rewrite scal_sum. apply sum_eq.
  intros n _. rewrite csn_ok. cbn [fst].
  replace (match n with O => cos (INR 0 * ph) * cos (INR 0 * ph')
           | S _ => sin (INR n * ph) * sin (INR n * ph') + cos (INR n * ph) * cos (INR n * ph') end)
    with (cos (INR n * (ph - ph'))).
  - unfold shp. field. lra.
  - replace (INR n * (ph - ph')) with (INR n * ph - INR n * ph') by ring.
    rewrite cos_minus. destruct n as [|n]; [|ring].
    cbn [INR]. rewrite !Rmult_0_l, sin_0. ring.
Qed.

Lemma leg_one : forall l, (l <= 6)%nat -> leg l 1 = 1.
Proof.
  intros l Hl. rewrite leg_ok. replace 1 with (Q2R 1) by (unfold Q2R; cbn; field).
  rewrite pevalQ_correct. apply f_equal.
  do 7 (destruct l as [|l]; [vm_compute; reflexivity|]). lia.
Qed.

Lemma Yreal_unsold : forall l th ph, (l <= 6)%nat ->
  sum_m l (fun m => Yreal l m th ph * Yreal l m th ph) = (2 * INR l + 1) / (4 * PI).
Proof.
  intros l th ph Hl. rewrite Yreal_addition by exact Hl.
  replace (ph - ph) with 0 by ring. rewrite cos_0.
  replace (cos th * cos th + sin th * sin th * 1) with 1
    by (pose proof (sin2 th); lra).
  rewrite leg_one by exact Hl. ring.
Qed.

(* ---- integrals over phi ---- *)

Lemma is_RInt_cosn : forall n : Z, n <> 0%Z ->
  is_RInt (fun ph => cos (IZR n * ph)) 0 (2 * PI) 0.
Proof.
  intros n Hn. assert (Hn' : IZR n <> 0) by (apply not_0_IZR; exact Hn).
  assert (Z0 : sin (IZR n * (2 * PI)) = 0).
  { apply sin_eq_0_1. exists (2 * n)%Z. rewrite mult_IZR. ring. }
  replace 0 with (sin (IZR n * (2 * PI)) / IZR n - sin (IZR n * 0) / IZR n) at 2
    by (rewrite Z0, Rmult_0_r, sin_0; field; exact Hn').
  apply (is_RInt_derive (fun ph => sin (IZR n * ph) / IZR n)).
  - intros ph _. auto_derive; [trivial|]. field. exact Hn'.
  - intros ph _. apply (continuous_comp (fun ph => IZR n * ph) cos).
    + apply (continuous_scal_r (IZR n) (fun x : R => x)). apply continuous_id.
    + apply continuous_cos.
Qed.

Lemma is_RInt_constR : forall a b v : R, is_RInt (fun _ => v) a b ((b - a) * v).
Proof. intros. exact (is_RInt_const (V := R_NormedModule) a b v). Qed.

Lemma is_RInt_const0 : forall a b : R, is_RInt (fun _ => 0) a b 0.
Proof.
  intros a b. pose proof (is_RInt_constR a b 0) as H.
  rewrite Rmult_0_r in H. exact H.
Qed.

Lemma is_RInt_sinn : forall n : Z, is_RInt (fun ph => sin (IZR n * ph)) 0 (2 * PI) 0.
Proof.
  intros n. destruct (Z.eq_dec n 0) as [->|Hn].
  - apply (is_RInt_ext (fun _ => 0)).
    + intros x _. rewrite Rmult_0_l, sin_0. reflexivity.
    + apply is_RInt_const0.
  - assert (Hn' : IZR n <> 0) by (apply not_0_IZR; exact Hn).
    assert (Z1 : cos (IZR n * (2 * PI)) = 1).
    { replace (IZR n * (2 * PI)) with (2 * (IZR n * PI)) by ring.
      rewrite cos_2a_sin.
      assert (E : sin (IZR n * PI) = 0) by (apply sin_eq_0_1; exists n; reflexivity).
      rewrite E. ring. }
    replace 0 with (- cos (IZR n * (2 * PI)) / IZR n - - cos (IZR n * 0) / IZR n) at 2
      by (rewrite Z1, Rmult_0_r, cos_0; field; exact Hn').
    apply (is_RInt_derive (fun ph => - cos (IZR n * ph) / IZR n)).
    + intros ph _. auto_derive; [trivial|]. field. exact Hn'.
    + intros ph _. apply (continuous_comp (fun ph => IZR n * ph) sin).
      * apply (continuous_scal_r (IZR n) (fun x : R => x)). apply continuous_id.
      * apply continuous_sin.
Qed.

Definition cosI (n : Z) : R := if (n =? 0)%Z then 2 * PI else 0.

Lemma is_RInt_cosI : forall n, is_RInt (fun ph => cos (IZR n * ph)) 0 (2 * PI) (cosI n).
Proof.
  intros n. unfold cosI. destruct (Z.eqb_spec n 0) as [->|Hn]; [|apply is_RInt_cosn, Hn].
  apply (is_RInt_ext (fun _ => 1)).
  - intros x _. rewrite Rmult_0_l, cos_0. reflexivity.
  - replace (2 * PI) with ((2 * PI - 0) * 1) at 2 by ring.
    apply is_RInt_constR.
Qed.

(* the phi integral of a product *)
Definition triI (n1 : bool) (a : nat) (n2 : bool) (b : nat) : R :=
  match n1, n2 with
  | false, false => (cosI (Z.of_nat a - Z.of_nat b) + cosI (Z.of_nat a + Z.of_nat b)) / 2
  | true, true => (cosI (Z.of_nat a - Z.of_nat b) - cosI (Z.of_nat a + Z.of_nat b)) / 2
  | _, _ => 0
  end.

Ltac req := match goal with |- ?a = ?b => change (@eq R a b) end; cbv beta.

Lemma RInt_lin2 : forall (f g : R -> R) a b (u v p q : R),
  is_RInt f a b u -> is_RInt g a b v ->
  is_RInt (fun x => p * f x + q * g x) a b (p * u + q * v).
Proof.
  intros f g a b u v p q Hf Hg.
  exact (is_RInt_plus (V := R_NormedModule) _ _ a b _ _
           (is_RInt_scal (V := R_NormedModule) _ a b p _ Hf)
           (is_RInt_scal (V := R_NormedModule) _ a b q _ Hg)).
Qed.

Lemma RInt_scalR : forall (f : R -> R) a b (k v : R),
  is_RInt f a b v -> is_RInt (fun x => k * f x) a b (k * v).
Proof. intros f a b k v H. exact (is_RInt_scal (V := R_NormedModule) f a b k v H). Qed.

Lemma is_RInt_tri : forall n1 a n2 b,
  is_RInt (fun ph => tri n1 a ph * tri n2 b ph) 0 (2 * PI) (triI n1 a n2 b).
Proof.
  intros n1 a n2 b.
  pose proof (is_RInt_cosI (Z.of_nat a - Z.of_nat b)) as Cm.
  pose proof (is_RInt_cosI (Z.of_nat a + Z.of_nat b)) as Cp.
  pose proof (is_RInt_sinn (Z.of_nat a - Z.of_nat b)) as Sm.
  pose proof (is_RInt_sinn (Z.of_nat a + Z.of_nat b)) as Sp.
  assert (Em : forall ph, IZR (Z.of_nat a - Z.of_nat b) * ph = INR a * ph - INR b * ph)
    by (intros; rewrite minus_IZR, <- !INR_IZR_INZ; ring).
  assert (Ep : forall ph, IZR (Z.of_nat a + Z.of_nat b) * ph = INR a * ph + INR b * ph)
    by (intros; rewrite plus_IZR, <- !INR_IZR_INZ; ring).
  destruct n1, n2; unfold tri, triI.
  - replace ((cosI (Z.of_nat a - Z.of_nat b) - cosI (Z.of_nat a + Z.of_nat b)) / 2)
      with (/ 2 * cosI (Z.of_nat a - Z.of_nat b) + (- / 2) * cosI (Z.of_nat a + Z.of_nat b))
      by field.
    refine (is_RInt_ext _ _ _ _ _ _ (RInt_lin2 _ _ _ _ _ _ (/ 2) (- / 2) Cm Cp)).
    intros ph _. req. rewrite Em, Ep, cos_minus, cos_plus. field.
  - replace 0 with (/ 2 * 0 + / 2 * 0) at 2 by ring.
    refine (is_RInt_ext _ _ _ _ _ _ (RInt_lin2 _ _ _ _ _ _ (/ 2) (/ 2) Sm Sp)).
    intros ph _. req. rewrite Em, Ep, sin_minus, sin_plus. field.
  - replace 0 with (- / 2 * 0 + / 2 * 0) at 2 by ring.
    refine (is_RInt_ext _ _ _ _ _ _ (RInt_lin2 _ _ _ _ _ _ (- / 2) (/ 2) Sm Sp)).
    intros ph _. req. rewrite Em, Ep, sin_minus, sin_plus. field.
  - replace ((cosI (Z.of_nat a - Z.of_nat b) + cosI (Z.of_nat a + Z.of_nat b)) / 2)
      with (/ 2 * cosI (Z.of_nat a - Z.of_nat b) + / 2 * cosI (Z.of_nat a + Z.of_nat b))
      by field.
    refine (is_RInt_ext _ _ _ _ _ _ (RInt_lin2 _ _ _ _ _ _ (/ 2) (/ 2) Cm Cp)).
    intros ph _. req. rewrite Em, Ep, cos_minus, cos_plus. field.
Qed.

(* ---- integrals over theta ---- *)

(* (1 - t^2)^m *)
Fixpoint psin (m : nat) : list Q :=
  match m with O => [1%Q] | S k => pmul [1%Q; 0%Q; (-1)%Q] (psin k) end.

Lemma psin_ok : forall m th, peval (psin m) (cos th) = sin th ^ m * sin th ^ m.
Proof.
  induction m as [|m IH]; intros th.
  - cbn [psin peval pow]. rewrite RMicromega.Q2R_1. ring.
  - cbn [psin]. rewrite peval_mul, IH. cbn [peval pow].
    rewrite RMicromega.Q2R_1, RMicromega.Q2R_0.
    replace (Q2R (-1)) with (- (1)) by (unfold Q2R; cbn; field).
    pose proof (sin2 th) as H. replace (sin th ^ 2) with (sin th * sin th) in H by ring.
    replace (1 + cos th * (0 + cos th * (- (1) + cos th * 0))) with (sin th * sin th)
      by (rewrite H; ring).
    ring.
Qed.

Definition tint (l l' m : nat) : Q :=
  pint (pmul (psin m) (pmul (pdern m (legq l)) (pdern m (legq l')))).

Lemma is_RInt_theta : forall l l' m,
  is_RInt (fun th => shp l m th * shp l' m th * sin th) 0 PI (Q2R (tint l l' m)).
Proof.
  intros l l' m.
  refine (is_RInt_ext _ _ _ _ _ _ (is_RInt_peval_cos _)).
  intros th _. req. rewrite !peval_mul, psin_ok. unfold shp. ring.
Qed.

Definition zfact (n : nat) : Z := fold_right Z.mul 1%Z (map Z.of_nat (seq 1 n)).

Lemma rfact_seq : forall n k,
  IZR (fold_right Z.mul k (map Z.of_nat (seq 1 n))) = rfact n * IZR k.
Proof.
  induction n as [|n IH]; intros k; [cbn; ring|].
  rewrite seq_S, map_app, fold_right_app. cbn [map fold_right rfact].
  rewrite IH, mult_IZR, <- INR_IZR_INZ. cbn [Nat.add]. ring.
Qed.

Lemma rfact_z : forall n, rfact n = IZR (zfact n).
Proof. intros n. unfold zfact. rewrite rfact_seq. ring. Qed.

(* 2/(2l+1) (l+m)!/(l-m)! *)
Definition tnorm (l m : nat) : Q :=
  (2 * inject_Z (zfact (l + m)) / (inject_Z (2 * Z.of_nat l + 1) * inject_Z (zfact (l - m)))).

Definition theta_ok (l l' m : nat) : bool :=
  Qeq_bool (tint l l' m) (if (l =? l')%nat then tnorm l m else 0).

Lemma theta_check :
  forallb (fun l => forallb (fun l' => forallb (fun m => theta_ok l l' m)
    (seq 0 (S (Nat.min l l')))) (seq 0 7)) (seq 0 7) = true.
Proof. vm_compute. reflexivity. Qed.

Lemma theta_val : forall l l' m, (l <= 6)%nat -> (l' <= 6)%nat -> (m <= l)%nat -> (m <= l')%nat ->
  Q2R (tint l l' m)
  = if (l =? l')%nat then 2 / (2 * INR l + 1) * (rfact (l + m) / rfact (l - m)) else 0.
Proof.
  intros l l' m H1 H2 H3 H4.
  pose proof theta_check as T. rewrite forallb_forall in T.
  specialize (T l ltac:(apply in_seq; lia)). rewrite forallb_forall in T.
  specialize (T l' ltac:(apply in_seq; lia)). rewrite forallb_forall in T.
  specialize (T m ltac:(apply in_seq; lia)). unfold theta_ok in T.
  apply Qeq_bool_iff, Qeq_eqR in T. rewrite T.
  destruct (l =? l')%nat; [|apply RMicromega.Q2R_0].
  unfold tnorm. rewrite !rfact_z.
  assert (P : zfact (l - m) <> 0%Z).
  { intros E. pose proof (rfact_pos (l - m)) as R0. rewrite rfact_z, E in R0. lra. }
  assert (L0 : 0 <= INR l) by apply pos_INR.
  unfold Qdiv. rewrite Q2R_mult, Q2R_inv, !Q2R_mult, !Q2R_inject_Z.
  - replace (Q2R 2) with 2 by (unfold Q2R; cbn; field).
    rewrite plus_IZR, mult_IZR, <- INR_IZR_INZ.
    field. split; [apply not_0_IZR, P|lra].
  - rewrite <- inject_Z_mult. unfold Qeq, inject_Z. cbn [Qnum Qden]. nia.
Qed.
