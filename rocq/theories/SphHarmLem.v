(* Facts about the spherical-harmonic functions: bounds on pi, polynomials with rational
   coefficients and their integrals, and the shape of each of the code's cases. *)

From Coq Require Import Reals List ZArith QArith Qreals Lia Lra Machin.
From Coquelicot Require Import Coquelicot.
From Verif Require Import CBase SphHarmSpec SphHarm.
Import ListNotations.
Open Scope R_scope.

Lemma PI_close : 3.14159265358979323 < PI < 3.14159265358979324.
Proof.
  assert (H := PI_2_3_7_ineq 9).
  cbv [PI_2_3_7_tg sum_f_R0 tg_alt Ratan_seq Nat.mul Nat.add pow INR] in H.
  split; lra.
Qed.

(* ---- polynomials with rational coefficients, constant term first ---- *)

Fixpoint peval (p : list Q) (t : R) : R :=
  match p with [] => 0 | a :: p' => Q2R a + t * peval p' t end.

Fixpoint padd (p q : list Q) : list Q :=
  match p, q with
  | [], _ => q
  | _, [] => p
  | a :: p', b :: q' => Qred (a + b) :: padd p' q'
  end.
Definition pscal (c : Q) (p : list Q) : list Q := map (fun a => Qred (c * a)) p.
Fixpoint pmul (p q : list Q) : list Q :=
  match p with [] => [] | a :: p' => padd (pscal a q) (0%Q :: pmul p' q) end.
Fixpoint pder_from (k : Z) (p : list Q) : list Q :=
  match p with [] => [] | a :: p' => Qred (inject_Z k * a) :: pder_from (k + 1) p' end.
Definition pder (p : list Q) : list Q :=
  match p with [] => [] | _ :: p' => pder_from 1 p' end.
Fixpoint pdern (m : nat) (p : list Q) : list Q :=
  match m with O => p | S m' => pder (pdern m' p) end.
Fixpoint pprim_from (k : positive) (p : list Q) : list Q :=
  match p with [] => [] | a :: p' => Qred (a * (1 # k)) :: pprim_from (k + 1) p' end.
Definition pprim (p : list Q) : list Q := 0%Q :: pprim_from 1 p.
Fixpoint pevalQ (p : list Q) (t : Q) : Q :=
  match p with [] => 0%Q | a :: p' => Qred (a + t * pevalQ p' t) end.

Lemma Q2R_red : forall a, Q2R (Qred a) = Q2R a.
Proof. intros a. apply Qeq_eqR, Qred_correct. Qed.

Lemma peval_add : forall p q t, peval (padd p q) t = peval p t + peval q t.
Proof.
  induction p as [|a p IH]; intros [|b q] t; cbn [padd peval]; try ring.
  rewrite IH, Q2R_red, Q2R_plus. ring.
Qed.

Lemma peval_scal : forall c p t, peval (pscal c p) t = Q2R c * peval p t.
Proof.
  induction p as [|a p IH]; intros t; cbn [pscal map peval]; [ring|].
  fold (pscal c p). rewrite IH, Q2R_red, Q2R_mult. ring.
Qed.

Lemma peval_mul : forall p q t, peval (pmul p q) t = peval p t * peval q t.
Proof.
  induction p as [|a p IH]; intros q t; cbn [pmul peval]; [ring|].
  rewrite peval_add, peval_scal. cbn [peval]. rewrite IH, RMicromega.Q2R_0. ring.
Qed.

Lemma Q2R_inject_Z : forall k, Q2R (inject_Z k) = IZR k.
Proof. intros k. unfold Q2R, inject_Z. cbn [Qnum Qden]. field. Qed.

Lemma pder_from_succ : forall p k t,
  peval (pder_from (k + 1) p) t = peval (pder_from k p) t + peval p t.
Proof.
  induction p as [|a p IH]; intros k t; cbn [pder_from peval]; [ring|].
  rewrite IH, !Q2R_red, !Q2R_mult, !Q2R_inject_Z, plus_IZR. ring.
Qed.

Lemma pder_cons : forall a p t, peval (pder (a :: p)) t = peval p t + t * peval (pder p) t.
Proof.
  intros a p t. cbn [pder]. destruct p as [|b p]; cbn [pder_from peval pder]; [ring|].
  change (1 + 1)%Z with 2%Z.
  replace (peval (pder_from 2 p) t) with (peval (pder_from 1 p) t + peval p t)
    by (symmetry; apply (pder_from_succ p 1 t)).
  rewrite Q2R_red, Q2R_mult, Q2R_inject_Z. ring.
Qed.

Lemma peval_derive : forall p (t : R), is_derive (peval p) t (peval (pder p) t).
Proof.
  induction p as [|a p IH]; intros t.
  - exact (is_derive_const (K := R_AbsRing) (V := R_NormedModule) (0 : R) t).
  - rewrite pder_cons. cbn [peval].
    replace (peval p t + t * peval (pder p) t)
      with (0 + (1 * peval p t + t * peval (pder p) t)) by ring.
    exact (is_derive_plus (K := R_AbsRing) (V := R_NormedModule)
             (fun _ : R => Q2R a) (fun s : R => s * peval p s) t 0
             (1 * peval p t + t * peval (pder p) t)
             (is_derive_const (K := R_AbsRing) (V := R_NormedModule) (Q2R a) t)
             (is_derive_mult (fun s : R => s) (peval p) t 1 (peval (pder p) t)
                (is_derive_id (K := R_AbsRing) t) (IH t) Rmult_comm)).
Qed.

Lemma peval_derive_n : forall m p t, Derive_n (peval p) m t = peval (pdern m p) t.
Proof.
  induction m as [|m IH]; intros p t; [reflexivity|].
  cbn [Derive_n pdern].
  rewrite (Derive_ext _ (peval (pdern m p))); [|intros; apply IH].
  apply is_derive_unique, peval_derive.
Qed.

Lemma pder_prim_from : forall p k t,
  peval (pder_from (Zpos k) (pprim_from k p)) t = peval p t.
Proof.
  induction p as [|a p IH]; intros k t; cbn [pprim_from pder_from peval]; [ring|].
  change (Zpos k + 1)%Z with (Zpos (k + 1)). rewrite IH.
  rewrite !Q2R_red, !Q2R_mult, Q2R_red, Q2R_mult, Q2R_inject_Z. unfold Q2R. cbn [Qnum Qden].
  f_equal. field. split; apply not_0_IZR; lia.
Qed.

Lemma pder_prim : forall p t, peval (pder (pprim p)) t = peval p t.
Proof. intros p t. apply (pder_prim_from p 1 t). Qed.

Lemma pevalQ_correct : forall p t, peval p (Q2R t) = Q2R (pevalQ p t).
Proof.
  induction p as [|a p IH]; intros t; cbn [peval pevalQ]; [symmetry; apply RMicromega.Q2R_0|].
  rewrite Q2R_red, Q2R_plus, Q2R_mult, IH. reflexivity.
Qed.

(* The integral over [-1,1], exactly. *)
Definition pint (p : list Q) : Q :=
  Qred (pevalQ (pprim p) 1 - pevalQ (pprim p) (-1)).

Lemma continuous_peval : forall p t, continuous (peval p) t.
Proof. intros p t. apply (ex_derive_continuous (peval p)). eexists. apply peval_derive. Qed.

Lemma is_RInt_peval_cos : forall p,
  is_RInt (fun th => peval p (cos th) * sin th) 0 PI (Q2R (pint p)).
Proof.
  intros p.
  assert (E : Q2R (pint p) = (- peval (pprim p) (cos PI)) - (- peval (pprim p) (cos 0))).
  { unfold pint. rewrite Q2R_red, Q2R_minus, <- !pevalQ_correct, cos_PI, cos_0.
    replace (Q2R 1) with 1 by (unfold Q2R; cbn; field).
    replace (Q2R (-1)) with (-1) by (unfold Q2R; cbn; field). ring. }
  rewrite E.
  apply (is_RInt_derive (fun th => - peval (pprim p) (cos th))
           (fun th => peval p (cos th) * sin th)).
  - intros th _.
    replace (peval p (cos th) * sin th) with (- (- sin th * peval p (cos th))) by ring.
    apply (is_derive_opp (fun th => peval (pprim p) (cos th))).
    apply (is_derive_comp (peval (pprim p)) cos th (peval p (cos th)) (- sin th)).
    + rewrite <- pder_prim. apply peval_derive.
    + apply is_derive_Reals. apply derivable_pt_lim_cos.
  - intros th _. apply (continuous_mult (fun th => peval p (cos th)) sin).
    + apply (continuous_comp cos (peval p)).
      * apply continuous_cos.
      * apply continuous_peval.
    + apply continuous_sin.
Qed.

(* ---- Legendre polynomials, with rational coefficients ---- *)

Fixpoint legq2 (n : nat) : list Q * list Q :=
  match n with
  | O => ([1%Q], [0%Q; 1%Q])
  | S k =>
      let (a, b) := legq2 k in
      let kk := inject_Z (Z.of_nat k) in
      (b, pscal (/ (kk + 2))
            (padd (pscal (2 * kk + 3) (0%Q :: b)) (pscal (- (kk + 1)) a)))
  end.
Definition legq (n : nat) : list Q := fst (legq2 n).

(* ---- multiple angles ---- *)

Fixpoint csn (n : nat) (c s : R) : R * R :=
  match n with
  | O => (1, 0)
  | S k => let (a, b) := csn k c s in (c * a - s * b, s * a + c * b)
  end.

Lemma csn_ok : forall n phi,
  csn n (cos phi) (sin phi) = (cos (INR n * phi), sin (INR n * phi)).
Proof.
  induction n as [|n IH]; intros phi.
  - cbn [csn INR]. rewrite Rmult_0_l, cos_0, sin_0. reflexivity.
  - cbn [csn]. rewrite IH, S_INR.
    replace ((INR n + 1) * phi) with (phi + INR n * phi) by ring.
    rewrite cos_plus, sin_plus. f_equal; ring.
Qed.

(* ---- the angular shape of Y_lm, without its normalisation ---- *)

Definition shape (l m : nat) (neg : bool) (C S c s : R) : R :=
  S ^ m * peval (pdern m (legq l)) C * (if neg then snd (csn m c s) else fst (csn m c s)).

Lemma div_is : forall a b v : R, b <> 0 -> a = v * b -> a / b = v.
Proof. intros a b v Hb H. rewrite H. field. exact Hb. Qed.

Lemma sqrt_sq_p2 : forall a, 0 <= a -> sqrt a ^ 2 = a.
Proof. intros a Ha. replace (sqrt a ^ 2) with (sqrt a * sqrt a) by ring. apply sqrt_sqrt, Ha. Qed.

Lemma rho_ne : forall (rho : R) n, rho <> 0 -> rho ^ n <> 0.
Proof. intros. apply pow_nonzero. assumption. Qed.

Ltac expand_shape :=
  unfold shape;
  match goal with |- context [pdern ?m ?p] =>
    let v := eval vm_compute in (pdern m p) in change (pdern m p) with v end;
  cbn [peval csn fst snd]; unfold Q2R; cbn [Qnum Qden].

Ltac sph_case :=
  eexists; split; [reflexivity|];
  intros rho C S c s Hr HS Hs; cbv zeta beta;
  try match goal with |- context [sqrt ?a] =>
    let Hp := fresh "Hp" in let p := fresh "p" in
    assert (Hp : sqrt a ^ 2 = rho ^ 2 * (1 - C ^ 2)) by
      (rewrite sqrt_sq_p2; [ring [HS Hs]|
         apply Rplus_le_le_0_compat; apply Rle_0_sqr]);
    set (p := sqrt a) in *; clearbody p
  end;
  expand_shape;
  match goal with
  | |- ?a * (_ / rho) = _ => field_simplify_eq; [ring [HS Hs]|exact Hr]
  | |- _ / _ = _ => apply div_is;
      [first [exact (rho_ne rho _ Hr)
             |repeat apply Rmult_integral_contrapositive_currified; exact Hr]
      |match goal with
       | H : ?q ^ 2 = rho ^ 2 * _ |- _ => field [H HS Hs]
       | _ => field [HS Hs]
       end]
  | _ => field
  end.

Lemma rsh_0_p0 : exists f, rsh 0 (0) = Some f /\
  forall rho C S c s, rho <> 0 -> S ^ 2 = 1 - C ^ 2 -> s ^ 2 = 1 - c ^ 2 ->
  f (rho * S * c) (rho * S * s) (rho * C) rho
  = C00 * (1 / 1) * shape 0 0 false C S c s.
Proof. sph_case. Qed.

Lemma rsh_1_m1 : exists f, rsh 1 (-1) = Some f /\
  forall rho C S c s, rho <> 0 -> S ^ 2 = 1 - C ^ 2 -> s ^ 2 = 1 - c ^ 2 ->
  f (rho * S * c) (rho * S * s) (rho * C) rho
  = C1m1 * (1 / 1) * shape 1 1 true C S c s.
Proof. sph_case. Qed.

Lemma rsh_1_p0 : exists f, rsh 1 (0) = Some f /\
  forall rho C S c s, rho <> 0 -> S ^ 2 = 1 - C ^ 2 -> s ^ 2 = 1 - c ^ 2 ->
  f (rho * S * c) (rho * S * s) (rho * C) rho
  = C10 * (1 / 1) * shape 1 0 false C S c s.
Proof. sph_case. Qed.

Lemma rsh_1_p1 : exists f, rsh 1 (1) = Some f /\
  forall rho C S c s, rho <> 0 -> S ^ 2 = 1 - C ^ 2 -> s ^ 2 = 1 - c ^ 2 ->
  f (rho * S * c) (rho * S * s) (rho * C) rho
  = C1p1 * (1 / 1) * shape 1 1 false C S c s.
Proof. sph_case. Qed.

Lemma rsh_2_m2 : exists f, rsh 2 (-2) = Some f /\
  forall rho C S c s, rho <> 0 -> S ^ 2 = 1 - C ^ 2 -> s ^ 2 = 1 - c ^ 2 ->
  f (rho * S * c) (rho * S * s) (rho * C) rho
  = C2m2 * (1 / 6) * shape 2 2 true C S c s.
Proof. sph_case. Qed.

Lemma rsh_2_m1 : exists f, rsh 2 (-1) = Some f /\
  forall rho C S c s, rho <> 0 -> S ^ 2 = 1 - C ^ 2 -> s ^ 2 = 1 - c ^ 2 ->
  f (rho * S * c) (rho * S * s) (rho * C) rho
  = C2m1 * (1 / 3) * shape 2 1 true C S c s.
Proof. sph_case. Qed.

Lemma rsh_2_p0 : exists f, rsh 2 (0) = Some f /\
  forall rho C S c s, rho <> 0 -> S ^ 2 = 1 - C ^ 2 -> s ^ 2 = 1 - c ^ 2 ->
  f (rho * S * c) (rho * S * s) (rho * C) rho
  = C20 * (2 / 1) * shape 2 0 false C S c s.
Proof. sph_case. Qed.

Lemma rsh_2_p1 : exists f, rsh 2 (1) = Some f /\
  forall rho C S c s, rho <> 0 -> S ^ 2 = 1 - C ^ 2 -> s ^ 2 = 1 - c ^ 2 ->
  f (rho * S * c) (rho * S * s) (rho * C) rho
  = C2p1 * (1 / 3) * shape 2 1 false C S c s.
Proof. sph_case. Qed.

Lemma rsh_2_p2 : exists f, rsh 2 (2) = Some f /\
  forall rho C S c s, rho <> 0 -> S ^ 2 = 1 - C ^ 2 -> s ^ 2 = 1 - c ^ 2 ->
  f (rho * S * c) (rho * S * s) (rho * C) rho
  = C2p2 * (1 / 3) * shape 2 2 false C S c s.
Proof. sph_case. Qed.

Lemma rsh_3_m3 : exists f, rsh 3 (-3) = Some f /\
  forall rho C S c s, rho <> 0 -> S ^ 2 = 1 - C ^ 2 -> s ^ 2 = 1 - c ^ 2 ->
  f (rho * S * c) (rho * S * s) (rho * C) rho
  = C3m3 * (1 / 15) * shape 3 3 true C S c s.
Proof. sph_case. Qed.

Lemma rsh_3_m2 : exists f, rsh 3 (-2) = Some f /\
  forall rho C S c s, rho <> 0 -> S ^ 2 = 1 - C ^ 2 -> s ^ 2 = 1 - c ^ 2 ->
  f (rho * S * c) (rho * S * s) (rho * C) rho
  = C3m2 * (1 / 30) * shape 3 2 true C S c s.
Proof. sph_case. Qed.

Lemma rsh_3_m1 : exists f, rsh 3 (-1) = Some f /\
  forall rho C S c s, rho <> 0 -> S ^ 2 = 1 - C ^ 2 -> s ^ 2 = 1 - c ^ 2 ->
  f (rho * S * c) (rho * S * s) (rho * C) rho
  = C3m1 * (2 / 3) * shape 3 1 true C S c s.
Proof. sph_case. Qed.

Lemma rsh_3_p0 : exists f, rsh 3 (0) = Some f /\
  forall rho C S c s, rho <> 0 -> S ^ 2 = 1 - C ^ 2 -> s ^ 2 = 1 - c ^ 2 ->
  f (rho * S * c) (rho * S * s) (rho * C) rho
  = C30 * (2 / 1) * shape 3 0 false C S c s.
Proof. sph_case. Qed.

Lemma rsh_3_p1 : exists f, rsh 3 (1) = Some f /\
  forall rho C S c s, rho <> 0 -> S ^ 2 = 1 - C ^ 2 -> s ^ 2 = 1 - c ^ 2 ->
  f (rho * S * c) (rho * S * s) (rho * C) rho
  = C3p1 * (2 / 3) * shape 3 1 false C S c s.
Proof. sph_case. Qed.

Lemma rsh_3_p2 : exists f, rsh 3 (2) = Some f /\
  forall rho C S c s, rho <> 0 -> S ^ 2 = 1 - C ^ 2 -> s ^ 2 = 1 - c ^ 2 ->
  f (rho * S * c) (rho * S * s) (rho * C) rho
  = C3p2 * (1 / 15) * shape 3 2 false C S c s.
Proof. sph_case. Qed.

Lemma rsh_3_p3 : exists f, rsh 3 (3) = Some f /\
  forall rho C S c s, rho <> 0 -> S ^ 2 = 1 - C ^ 2 -> s ^ 2 = 1 - c ^ 2 ->
  f (rho * S * c) (rho * S * s) (rho * C) rho
  = C3p3 * (1 / 15) * shape 3 3 false C S c s.
Proof. sph_case. Qed.

Lemma rsh_4_m4 : exists f, rsh 4 (-4) = Some f /\
  forall rho C S c s, rho <> 0 -> S ^ 2 = 1 - C ^ 2 -> s ^ 2 = 1 - c ^ 2 ->
  f (rho * S * c) (rho * S * s) (rho * C) rho
  = C4m4 * (1 / 420) * shape 4 4 true C S c s.
Proof. sph_case. Qed.

Lemma rsh_4_m3 : exists f, rsh 4 (-3) = Some f /\
  forall rho C S c s, rho <> 0 -> S ^ 2 = 1 - C ^ 2 -> s ^ 2 = 1 - c ^ 2 ->
  f (rho * S * c) (rho * S * s) (rho * C) rho
  = C4m3 * (1 / 105) * shape 4 3 true C S c s.
Proof. sph_case. Qed.

Lemma rsh_4_m2 : exists f, rsh 4 (-2) = Some f /\
  forall rho C S c s, rho <> 0 -> S ^ 2 = 1 - C ^ 2 -> s ^ 2 = 1 - c ^ 2 ->
  f (rho * S * c) (rho * S * s) (rho * C) rho
  = C4m2 * (1 / 15) * shape 4 2 true C S c s.
Proof. sph_case. Qed.

Lemma rsh_4_m1 : exists f, rsh 4 (-1) = Some f /\
  forall rho C S c s, rho <> 0 -> S ^ 2 = 1 - C ^ 2 -> s ^ 2 = 1 - c ^ 2 ->
  f (rho * S * c) (rho * S * s) (rho * C) rho
  = C4m1 * (2 / 5) * shape 4 1 true C S c s.
Proof. sph_case. Qed.

Lemma rsh_4_p0 : exists f, rsh 4 (0) = Some f /\
  forall rho C S c s, rho <> 0 -> S ^ 2 = 1 - C ^ 2 -> s ^ 2 = 1 - c ^ 2 ->
  f (rho * S * c) (rho * S * s) (rho * C) rho
  = C40 * (8 / 1) * shape 4 0 false C S c s.
Proof. sph_case. Qed.

Lemma rsh_4_p1 : exists f, rsh 4 (1) = Some f /\
  forall rho C S c s, rho <> 0 -> S ^ 2 = 1 - C ^ 2 -> s ^ 2 = 1 - c ^ 2 ->
  f (rho * S * c) (rho * S * s) (rho * C) rho
  = C4p1 * (2 / 5) * shape 4 1 false C S c s.
Proof. sph_case. Qed.

Lemma rsh_4_p2 : exists f, rsh 4 (2) = Some f /\
  forall rho C S c s, rho <> 0 -> S ^ 2 = 1 - C ^ 2 -> s ^ 2 = 1 - c ^ 2 ->
  f (rho * S * c) (rho * S * s) (rho * C) rho
  = C4p2 * (2 / 15) * shape 4 2 false C S c s.
Proof. sph_case. Qed.

Lemma rsh_4_p3 : exists f, rsh 4 (3) = Some f /\
  forall rho C S c s, rho <> 0 -> S ^ 2 = 1 - C ^ 2 -> s ^ 2 = 1 - c ^ 2 ->
  f (rho * S * c) (rho * S * s) (rho * C) rho
  = C4p3 * (1 / 105) * shape 4 3 false C S c s.
Proof. sph_case. Qed.

Lemma rsh_4_p4 : exists f, rsh 4 (4) = Some f /\
  forall rho C S c s, rho <> 0 -> S ^ 2 = 1 - C ^ 2 -> s ^ 2 = 1 - c ^ 2 ->
  f (rho * S * c) (rho * S * s) (rho * C) rho
  = C4p4 * (1 / 105) * shape 4 4 false C S c s.
Proof. sph_case. Qed.

Lemma rsh_5_m5 : exists f, rsh 5 (-5) = Some f /\
  forall rho C S c s, rho <> 0 -> S ^ 2 = 1 - C ^ 2 -> s ^ 2 = 1 - c ^ 2 ->
  f (rho * S * c) (rho * S * s) (rho * C) rho
  = C5m5 * (1 / 945) * shape 5 5 true C S c s.
Proof. sph_case. Qed.

Lemma rsh_5_m4 : exists f, rsh 5 (-4) = Some f /\
  forall rho C S c s, rho <> 0 -> S ^ 2 = 1 - C ^ 2 -> s ^ 2 = 1 - c ^ 2 ->
  f (rho * S * c) (rho * S * s) (rho * C) rho
  = C5m4 * (1 / 945) * shape 5 4 true C S c s.
Proof. sph_case. Qed.

Lemma rsh_5_m3 : exists f, rsh 5 (-3) = Some f /\
  forall rho C S c s, rho <> 0 -> S ^ 2 = 1 - C ^ 2 -> s ^ 2 = 1 - c ^ 2 ->
  f (rho * S * c) (rho * S * s) (rho * C) rho
  = C5m3 * (2 / 105) * shape 5 3 true C S c s.
Proof. sph_case. Qed.

Lemma rsh_5_m2 : exists f, rsh 5 (-2) = Some f /\
  forall rho C S c s, rho <> 0 -> S ^ 2 = 1 - C ^ 2 -> s ^ 2 = 1 - c ^ 2 ->
  f (rho * S * c) (rho * S * s) (rho * C) rho
  = C5m2 * (1 / 105) * shape 5 2 true C S c s.
Proof. sph_case. Qed.

Lemma rsh_5_m1 : exists f, rsh 5 (-1) = Some f /\
  forall rho C S c s, rho <> 0 -> S ^ 2 = 1 - C ^ 2 -> s ^ 2 = 1 - c ^ 2 ->
  f (rho * S * c) (rho * S * s) (rho * C) rho
  = C5m1 * (8 / 15) * shape 5 1 true C S c s.
Proof. sph_case. Qed.

Lemma rsh_5_p0 : exists f, rsh 5 (0) = Some f /\
  forall rho C S c s, rho <> 0 -> S ^ 2 = 1 - C ^ 2 -> s ^ 2 = 1 - c ^ 2 ->
  f (rho * S * c) (rho * S * s) (rho * C) rho
  = C50 * (8 / 1) * shape 5 0 false C S c s.
Proof. sph_case. Qed.

Lemma rsh_5_p1 : exists f, rsh 5 (1) = Some f /\
  forall rho C S c s, rho <> 0 -> S ^ 2 = 1 - C ^ 2 -> s ^ 2 = 1 - c ^ 2 ->
  f (rho * S * c) (rho * S * s) (rho * C) rho
  = C5p1 * (8 / 15) * shape 5 1 false C S c s.
Proof. sph_case. Qed.

Lemma rsh_5_p2 : exists f, rsh 5 (2) = Some f /\
  forall rho C S c s, rho <> 0 -> S ^ 2 = 1 - C ^ 2 -> s ^ 2 = 1 - c ^ 2 ->
  f (rho * S * c) (rho * S * s) (rho * C) rho
  = C5p2 * (2 / 105) * shape 5 2 false C S c s.
Proof. sph_case. Qed.

Lemma rsh_5_p3 : exists f, rsh 5 (3) = Some f /\
  forall rho C S c s, rho <> 0 -> S ^ 2 = 1 - C ^ 2 -> s ^ 2 = 1 - c ^ 2 ->
  f (rho * S * c) (rho * S * s) (rho * C) rho
  = C5p3 * (2 / 105) * shape 5 3 false C S c s.
Proof. sph_case. Qed.

Lemma rsh_5_p4 : exists f, rsh 5 (4) = Some f /\
  forall rho C S c s, rho <> 0 -> S ^ 2 = 1 - C ^ 2 -> s ^ 2 = 1 - c ^ 2 ->
  f (rho * S * c) (rho * S * s) (rho * C) rho
  = C5p4 * (1 / 945) * shape 5 4 false C S c s.
Proof. sph_case. Qed.

Lemma rsh_5_p5 : exists f, rsh 5 (5) = Some f /\
  forall rho C S c s, rho <> 0 -> S ^ 2 = 1 - C ^ 2 -> s ^ 2 = 1 - c ^ 2 ->
  f (rho * S * c) (rho * S * s) (rho * C) rho
  = C5p5 * (1 / 945) * shape 5 5 false C S c s.
Proof. sph_case. Qed.

Lemma rsh_6_m6 : exists f, rsh 6 (-6) = Some f /\
  forall rho C S c s, rho <> 0 -> S ^ 2 = 1 - C ^ 2 -> s ^ 2 = 1 - c ^ 2 ->
  f (rho * S * c) (rho * S * s) (rho * C) rho
  = C6m6 * (1 / 10395) * shape 6 6 true C S c s.
Proof. sph_case. Qed.

Lemma rsh_6_m5 : exists f, rsh 6 (-5) = Some f /\
  forall rho C S c s, rho <> 0 -> S ^ 2 = 1 - C ^ 2 -> s ^ 2 = 1 - c ^ 2 ->
  f (rho * S * c) (rho * S * s) (rho * C) rho
  = C6m5 * (1 / 10395) * shape 6 5 true C S c s.
Proof. sph_case. Qed.

Lemma rsh_6_m4 : exists f, rsh 6 (-4) = Some f /\
  forall rho C S c s, rho <> 0 -> S ^ 2 = 1 - C ^ 2 -> s ^ 2 = 1 - c ^ 2 ->
  f (rho * S * c) (rho * S * s) (rho * C) rho
  = C6m4 * (2 / 945) * shape 6 4 true C S c s.
Proof. sph_case. Qed.

Lemma rsh_6_m3 : exists f, rsh 6 (-3) = Some f /\
  forall rho C S c s, rho <> 0 -> S ^ 2 = 1 - C ^ 2 -> s ^ 2 = 1 - c ^ 2 ->
  f (rho * S * c) (rho * S * s) (rho * C) rho
  = C6m3 * (2 / 315) * shape 6 3 true C S c s.
Proof. sph_case. Qed.

Lemma rsh_6_m2 : exists f, rsh 6 (-2) = Some f /\
  forall rho C S c s, rho <> 0 -> S ^ 2 = 1 - C ^ 2 -> s ^ 2 = 1 - c ^ 2 ->
  f (rho * S * c) (rho * S * s) (rho * C) rho
  = C6m2 * (8 / 105) * shape 6 2 true C S c s.
Proof. sph_case. Qed.

Lemma rsh_6_m1 : exists f, rsh 6 (-1) = Some f /\
  forall rho C S c s, rho <> 0 -> S ^ 2 = 1 - C ^ 2 -> s ^ 2 = 1 - c ^ 2 ->
  f (rho * S * c) (rho * S * s) (rho * C) rho
  = C6m1 * (8 / 21) * shape 6 1 true C S c s.
Proof. sph_case. Qed.

Lemma rsh_6_p0 : exists f, rsh 6 (0) = Some f /\
  forall rho C S c s, rho <> 0 -> S ^ 2 = 1 - C ^ 2 -> s ^ 2 = 1 - c ^ 2 ->
  f (rho * S * c) (rho * S * s) (rho * C) rho
  = C60 * (16 / 1) * shape 6 0 false C S c s.
Proof. sph_case. Qed.

Lemma rsh_6_p1 : exists f, rsh 6 (1) = Some f /\
  forall rho C S c s, rho <> 0 -> S ^ 2 = 1 - C ^ 2 -> s ^ 2 = 1 - c ^ 2 ->
  f (rho * S * c) (rho * S * s) (rho * C) rho
  = C6p1 * (8 / 21) * shape 6 1 false C S c s.
Proof. sph_case. Qed.

Lemma rsh_6_p2 : exists f, rsh 6 (2) = Some f /\
  forall rho C S c s, rho <> 0 -> S ^ 2 = 1 - C ^ 2 -> s ^ 2 = 1 - c ^ 2 ->
  f (rho * S * c) (rho * S * s) (rho * C) rho
  = C6p2 * (8 / 105) * shape 6 2 false C S c s.
Proof. sph_case. Qed.

Lemma rsh_6_p3 : exists f, rsh 6 (3) = Some f /\
  forall rho C S c s, rho <> 0 -> S ^ 2 = 1 - C ^ 2 -> s ^ 2 = 1 - c ^ 2 ->
  f (rho * S * c) (rho * S * s) (rho * C) rho
  = C6p3 * (2 / 315) * shape 6 3 false C S c s.
Proof. sph_case. Qed.

Lemma rsh_6_p4 : exists f, rsh 6 (4) = Some f /\
  forall rho C S c s, rho <> 0 -> S ^ 2 = 1 - C ^ 2 -> s ^ 2 = 1 - c ^ 2 ->
  f (rho * S * c) (rho * S * s) (rho * C) rho
  = C6p4 * (2 / 945) * shape 6 4 false C S c s.
Proof. sph_case. Qed.

Lemma rsh_6_p5 : exists f, rsh 6 (5) = Some f /\
  forall rho C S c s, rho <> 0 -> S ^ 2 = 1 - C ^ 2 -> s ^ 2 = 1 - c ^ 2 ->
  f (rho * S * c) (rho * S * s) (rho * C) rho
  = C6p5 * (1 / 10395) * shape 6 5 false C S c s.
Proof. sph_case. Qed.

Lemma rsh_6_p6 : exists f, rsh 6 (6) = Some f /\
  forall rho C S c s, rho <> 0 -> S ^ 2 = 1 - C ^ 2 -> s ^ 2 = 1 - c ^ 2 ->
  f (rho * S * c) (rho * S * s) (rho * C) rho
  = C6p6 * (1 / 10395) * shape 6 6 false C S c s.
Proof. sph_case. Qed.

Ltac csph_one rho HS Hs Hr :=
  expand_shape;
  match goal with
  | |- 0 = _ => ring
  | |- ?a * (_ / rho) = _ => field_simplify_eq; [ring [HS Hs]|exact Hr]
  | |- _ / _ = _ => apply div_is;
      [first [exact (rho_ne rho _ Hr)
             |repeat apply Rmult_integral_contrapositive_currified; exact Hr]
      |field [HS Hs]]
  | _ => field
  end.

Ltac csph_case :=
  eexists; split; [reflexivity|];
  intros rho C S c s Hr HS Hs; cbv zeta beta;
  cbv [cpow cm rc cr cdv zp zm re fst snd];
  match goal with |- (_, _) = (_, _) => apply f_equal2; csph_one rho HS Hs Hr end.

Lemma csh_p0_0 : exists f, csh 0 0 = Some f /\
  forall rho C S c s, rho <> 0 -> S ^ 2 = 1 - C ^ 2 -> s ^ 2 = 1 - c ^ 2 ->
  f (rho * S * c) (rho * S * s) (rho * C) rho
  = ((KC00 * (1 / 1) * shape 0 0 false C S c s),
     (KC00 * (1 / 1) * shape 0 0 true C S c s)).
Proof. csph_case. Qed.

Lemma csh_p1_0 : exists f, csh 1 0 = Some f /\
  forall rho C S c s, rho <> 0 -> S ^ 2 = 1 - C ^ 2 -> s ^ 2 = 1 - c ^ 2 ->
  f (rho * S * c) (rho * S * s) (rho * C) rho
  = ((KC10 * (1 / 1) * shape 1 0 false C S c s),
     (KC10 * (1 / 1) * shape 1 0 true C S c s)).
Proof. csph_case. Qed.

Lemma csh_p1_1 : exists f, csh 1 1 = Some f /\
  forall rho C S c s, rho <> 0 -> S ^ 2 = 1 - C ^ 2 -> s ^ 2 = 1 - c ^ 2 ->
  f (rho * S * c) (rho * S * s) (rho * C) rho
  = (- (KC11 * (1 / 1) * shape 1 1 false C S c s),
     - (KC11 * (1 / 1) * shape 1 1 true C S c s)).
Proof. csph_case. Qed.

Lemma csh_m1_1 : exists f, csh 1 (-1) = Some f /\
  forall rho C S c s, rho <> 0 -> S ^ 2 = 1 - C ^ 2 -> s ^ 2 = 1 - c ^ 2 ->
  f (rho * S * c) (rho * S * s) (rho * C) rho
  = (KC11 * (1 / 1) * shape 1 1 false C S c s,
     - (KC11 * (1 / 1) * shape 1 1 true C S c s)).
Proof. csph_case. Qed.

Lemma csh_p2_0 : exists f, csh 2 0 = Some f /\
  forall rho C S c s, rho <> 0 -> S ^ 2 = 1 - C ^ 2 -> s ^ 2 = 1 - c ^ 2 ->
  f (rho * S * c) (rho * S * s) (rho * C) rho
  = ((KC20 * (2 / 1) * shape 2 0 false C S c s),
     (KC20 * (2 / 1) * shape 2 0 true C S c s)).
Proof. csph_case. Qed.

Lemma csh_p2_1 : exists f, csh 2 1 = Some f /\
  forall rho C S c s, rho <> 0 -> S ^ 2 = 1 - C ^ 2 -> s ^ 2 = 1 - c ^ 2 ->
  f (rho * S * c) (rho * S * s) (rho * C) rho
  = (- (KC21 * (1 / 3) * shape 2 1 false C S c s),
     - (KC21 * (1 / 3) * shape 2 1 true C S c s)).
Proof. csph_case. Qed.

Lemma csh_m2_1 : exists f, csh 2 (-1) = Some f /\
  forall rho C S c s, rho <> 0 -> S ^ 2 = 1 - C ^ 2 -> s ^ 2 = 1 - c ^ 2 ->
  f (rho * S * c) (rho * S * s) (rho * C) rho
  = (KC21 * (1 / 3) * shape 2 1 false C S c s,
     - (KC21 * (1 / 3) * shape 2 1 true C S c s)).
Proof. csph_case. Qed.

Lemma csh_p2_2 : exists f, csh 2 2 = Some f /\
  forall rho C S c s, rho <> 0 -> S ^ 2 = 1 - C ^ 2 -> s ^ 2 = 1 - c ^ 2 ->
  f (rho * S * c) (rho * S * s) (rho * C) rho
  = ((KC22 * (1 / 3) * shape 2 2 false C S c s),
     (KC22 * (1 / 3) * shape 2 2 true C S c s)).
Proof. csph_case. Qed.

Lemma csh_m2_2 : exists f, csh 2 (-2) = Some f /\
  forall rho C S c s, rho <> 0 -> S ^ 2 = 1 - C ^ 2 -> s ^ 2 = 1 - c ^ 2 ->
  f (rho * S * c) (rho * S * s) (rho * C) rho
  = (KC22 * (1 / 3) * shape 2 2 false C S c s,
     - (KC22 * (1 / 3) * shape 2 2 true C S c s)).
Proof. csph_case. Qed.

Lemma csh_p3_0 : exists f, csh 3 0 = Some f /\
  forall rho C S c s, rho <> 0 -> S ^ 2 = 1 - C ^ 2 -> s ^ 2 = 1 - c ^ 2 ->
  f (rho * S * c) (rho * S * s) (rho * C) rho
  = ((KC30 * (2 / 1) * shape 3 0 false C S c s),
     (KC30 * (2 / 1) * shape 3 0 true C S c s)).
Proof. csph_case. Qed.

Lemma csh_p3_1 : exists f, csh 3 1 = Some f /\
  forall rho C S c s, rho <> 0 -> S ^ 2 = 1 - C ^ 2 -> s ^ 2 = 1 - c ^ 2 ->
  f (rho * S * c) (rho * S * s) (rho * C) rho
  = (- (KC31 * (2 / 3) * shape 3 1 false C S c s),
     - (KC31 * (2 / 3) * shape 3 1 true C S c s)).
Proof. csph_case. Qed.

Lemma csh_m3_1 : exists f, csh 3 (-1) = Some f /\
  forall rho C S c s, rho <> 0 -> S ^ 2 = 1 - C ^ 2 -> s ^ 2 = 1 - c ^ 2 ->
  f (rho * S * c) (rho * S * s) (rho * C) rho
  = (KC31 * (2 / 3) * shape 3 1 false C S c s,
     - (KC31 * (2 / 3) * shape 3 1 true C S c s)).
Proof. csph_case. Qed.

Lemma csh_p3_2 : exists f, csh 3 2 = Some f /\
  forall rho C S c s, rho <> 0 -> S ^ 2 = 1 - C ^ 2 -> s ^ 2 = 1 - c ^ 2 ->
  f (rho * S * c) (rho * S * s) (rho * C) rho
  = ((KC32 * (1 / 15) * shape 3 2 false C S c s),
     (KC32 * (1 / 15) * shape 3 2 true C S c s)).
Proof. csph_case. Qed.

Lemma csh_m3_2 : exists f, csh 3 (-2) = Some f /\
  forall rho C S c s, rho <> 0 -> S ^ 2 = 1 - C ^ 2 -> s ^ 2 = 1 - c ^ 2 ->
  f (rho * S * c) (rho * S * s) (rho * C) rho
  = (KC32 * (1 / 15) * shape 3 2 false C S c s,
     - (KC32 * (1 / 15) * shape 3 2 true C S c s)).
Proof. csph_case. Qed.

Lemma csh_p3_3 : exists f, csh 3 3 = Some f /\
  forall rho C S c s, rho <> 0 -> S ^ 2 = 1 - C ^ 2 -> s ^ 2 = 1 - c ^ 2 ->
  f (rho * S * c) (rho * S * s) (rho * C) rho
  = (- (KC33 * (1 / 15) * shape 3 3 false C S c s),
     - (KC33 * (1 / 15) * shape 3 3 true C S c s)).
Proof. csph_case. Qed.

Lemma csh_m3_3 : exists f, csh 3 (-3) = Some f /\
  forall rho C S c s, rho <> 0 -> S ^ 2 = 1 - C ^ 2 -> s ^ 2 = 1 - c ^ 2 ->
  f (rho * S * c) (rho * S * s) (rho * C) rho
  = (KC33 * (1 / 15) * shape 3 3 false C S c s,
     - (KC33 * (1 / 15) * shape 3 3 true C S c s)).
Proof. csph_case. Qed.

Lemma csh_p4_0 : exists f, csh 4 0 = Some f /\
  forall rho C S c s, rho <> 0 -> S ^ 2 = 1 - C ^ 2 -> s ^ 2 = 1 - c ^ 2 ->
  f (rho * S * c) (rho * S * s) (rho * C) rho
  = ((KC40 * (8 / 1) * shape 4 0 false C S c s),
     (KC40 * (8 / 1) * shape 4 0 true C S c s)).
Proof. csph_case. Qed.

Lemma csh_p4_1 : exists f, csh 4 1 = Some f /\
  forall rho C S c s, rho <> 0 -> S ^ 2 = 1 - C ^ 2 -> s ^ 2 = 1 - c ^ 2 ->
  f (rho * S * c) (rho * S * s) (rho * C) rho
  = (- (KC41 * (2 / 5) * shape 4 1 false C S c s),
     - (KC41 * (2 / 5) * shape 4 1 true C S c s)).
Proof. csph_case. Qed.

Lemma csh_m4_1 : exists f, csh 4 (-1) = Some f /\
  forall rho C S c s, rho <> 0 -> S ^ 2 = 1 - C ^ 2 -> s ^ 2 = 1 - c ^ 2 ->
  f (rho * S * c) (rho * S * s) (rho * C) rho
  = (KC41 * (2 / 5) * shape 4 1 false C S c s,
     - (KC41 * (2 / 5) * shape 4 1 true C S c s)).
Proof. csph_case. Qed.

Lemma csh_p4_2 : exists f, csh 4 2 = Some f /\
  forall rho C S c s, rho <> 0 -> S ^ 2 = 1 - C ^ 2 -> s ^ 2 = 1 - c ^ 2 ->
  f (rho * S * c) (rho * S * s) (rho * C) rho
  = ((KC42 * (2 / 15) * shape 4 2 false C S c s),
     (KC42 * (2 / 15) * shape 4 2 true C S c s)).
Proof. csph_case. Qed.

Lemma csh_m4_2 : exists f, csh 4 (-2) = Some f /\
  forall rho C S c s, rho <> 0 -> S ^ 2 = 1 - C ^ 2 -> s ^ 2 = 1 - c ^ 2 ->
  f (rho * S * c) (rho * S * s) (rho * C) rho
  = (KC42 * (2 / 15) * shape 4 2 false C S c s,
     - (KC42 * (2 / 15) * shape 4 2 true C S c s)).
Proof. csph_case. Qed.

Lemma csh_p4_3 : exists f, csh 4 3 = Some f /\
  forall rho C S c s, rho <> 0 -> S ^ 2 = 1 - C ^ 2 -> s ^ 2 = 1 - c ^ 2 ->
  f (rho * S * c) (rho * S * s) (rho * C) rho
  = (- (KC43 * (1 / 105) * shape 4 3 false C S c s),
     - (KC43 * (1 / 105) * shape 4 3 true C S c s)).
Proof. csph_case. Qed.

Lemma csh_m4_3 : exists f, csh 4 (-3) = Some f /\
  forall rho C S c s, rho <> 0 -> S ^ 2 = 1 - C ^ 2 -> s ^ 2 = 1 - c ^ 2 ->
  f (rho * S * c) (rho * S * s) (rho * C) rho
  = (KC43 * (1 / 105) * shape 4 3 false C S c s,
     - (KC43 * (1 / 105) * shape 4 3 true C S c s)).
Proof. csph_case. Qed.

Lemma csh_p4_4 : exists f, csh 4 4 = Some f /\
  forall rho C S c s, rho <> 0 -> S ^ 2 = 1 - C ^ 2 -> s ^ 2 = 1 - c ^ 2 ->
  f (rho * S * c) (rho * S * s) (rho * C) rho
  = ((KC44 * (1 / 105) * shape 4 4 false C S c s),
     (KC44 * (1 / 105) * shape 4 4 true C S c s)).
Proof. csph_case. Qed.

Lemma csh_m4_4 : exists f, csh 4 (-4) = Some f /\
  forall rho C S c s, rho <> 0 -> S ^ 2 = 1 - C ^ 2 -> s ^ 2 = 1 - c ^ 2 ->
  f (rho * S * c) (rho * S * s) (rho * C) rho
  = (KC44 * (1 / 105) * shape 4 4 false C S c s,
     - (KC44 * (1 / 105) * shape 4 4 true C S c s)).
Proof. csph_case. Qed.

Lemma csh_p5_0 : exists f, csh 5 0 = Some f /\
  forall rho C S c s, rho <> 0 -> S ^ 2 = 1 - C ^ 2 -> s ^ 2 = 1 - c ^ 2 ->
  f (rho * S * c) (rho * S * s) (rho * C) rho
  = ((KC50 * (8 / 1) * shape 5 0 false C S c s),
     (KC50 * (8 / 1) * shape 5 0 true C S c s)).
Proof. csph_case. Qed.

Lemma csh_p5_1 : exists f, csh 5 1 = Some f /\
  forall rho C S c s, rho <> 0 -> S ^ 2 = 1 - C ^ 2 -> s ^ 2 = 1 - c ^ 2 ->
  f (rho * S * c) (rho * S * s) (rho * C) rho
  = (- (KC51 * (8 / 15) * shape 5 1 false C S c s),
     - (KC51 * (8 / 15) * shape 5 1 true C S c s)).
Proof. csph_case. Qed.

Lemma csh_m5_1 : exists f, csh 5 (-1) = Some f /\
  forall rho C S c s, rho <> 0 -> S ^ 2 = 1 - C ^ 2 -> s ^ 2 = 1 - c ^ 2 ->
  f (rho * S * c) (rho * S * s) (rho * C) rho
  = (KC51 * (8 / 15) * shape 5 1 false C S c s,
     - (KC51 * (8 / 15) * shape 5 1 true C S c s)).
Proof. csph_case. Qed.

Lemma csh_p5_2 : exists f, csh 5 2 = Some f /\
  forall rho C S c s, rho <> 0 -> S ^ 2 = 1 - C ^ 2 -> s ^ 2 = 1 - c ^ 2 ->
  f (rho * S * c) (rho * S * s) (rho * C) rho
  = ((KC52 * (2 / 105) * shape 5 2 false C S c s),
     (KC52 * (2 / 105) * shape 5 2 true C S c s)).
Proof. csph_case. Qed.

Lemma csh_m5_2 : exists f, csh 5 (-2) = Some f /\
  forall rho C S c s, rho <> 0 -> S ^ 2 = 1 - C ^ 2 -> s ^ 2 = 1 - c ^ 2 ->
  f (rho * S * c) (rho * S * s) (rho * C) rho
  = (KC52 * (2 / 105) * shape 5 2 false C S c s,
     - (KC52 * (2 / 105) * shape 5 2 true C S c s)).
Proof. csph_case. Qed.

Lemma csh_p5_3 : exists f, csh 5 3 = Some f /\
  forall rho C S c s, rho <> 0 -> S ^ 2 = 1 - C ^ 2 -> s ^ 2 = 1 - c ^ 2 ->
  f (rho * S * c) (rho * S * s) (rho * C) rho
  = (- (KC53 * (2 / 105) * shape 5 3 false C S c s),
     - (KC53 * (2 / 105) * shape 5 3 true C S c s)).
Proof. csph_case. Qed.

Lemma csh_m5_3 : exists f, csh 5 (-3) = Some f /\
  forall rho C S c s, rho <> 0 -> S ^ 2 = 1 - C ^ 2 -> s ^ 2 = 1 - c ^ 2 ->
  f (rho * S * c) (rho * S * s) (rho * C) rho
  = (KC53 * (2 / 105) * shape 5 3 false C S c s,
     - (KC53 * (2 / 105) * shape 5 3 true C S c s)).
Proof. csph_case. Qed.

Lemma csh_p5_4 : exists f, csh 5 4 = Some f /\
  forall rho C S c s, rho <> 0 -> S ^ 2 = 1 - C ^ 2 -> s ^ 2 = 1 - c ^ 2 ->
  f (rho * S * c) (rho * S * s) (rho * C) rho
  = ((KC54 * (1 / 945) * shape 5 4 false C S c s),
     (KC54 * (1 / 945) * shape 5 4 true C S c s)).
Proof. csph_case. Qed.

Lemma csh_m5_4 : exists f, csh 5 (-4) = Some f /\
  forall rho C S c s, rho <> 0 -> S ^ 2 = 1 - C ^ 2 -> s ^ 2 = 1 - c ^ 2 ->
  f (rho * S * c) (rho * S * s) (rho * C) rho
  = (KC54 * (1 / 945) * shape 5 4 false C S c s,
     - (KC54 * (1 / 945) * shape 5 4 true C S c s)).
Proof. csph_case. Qed.

Lemma csh_p5_5 : exists f, csh 5 5 = Some f /\
  forall rho C S c s, rho <> 0 -> S ^ 2 = 1 - C ^ 2 -> s ^ 2 = 1 - c ^ 2 ->
  f (rho * S * c) (rho * S * s) (rho * C) rho
  = (- (KC55 * (1 / 945) * shape 5 5 false C S c s),
     - (KC55 * (1 / 945) * shape 5 5 true C S c s)).
Proof. csph_case. Qed.

Lemma csh_m5_5 : exists f, csh 5 (-5) = Some f /\
  forall rho C S c s, rho <> 0 -> S ^ 2 = 1 - C ^ 2 -> s ^ 2 = 1 - c ^ 2 ->
  f (rho * S * c) (rho * S * s) (rho * C) rho
  = (KC55 * (1 / 945) * shape 5 5 false C S c s,
     - (KC55 * (1 / 945) * shape 5 5 true C S c s)).
Proof. csph_case. Qed.

Lemma csh_p6_0 : exists f, csh 6 0 = Some f /\
  forall rho C S c s, rho <> 0 -> S ^ 2 = 1 - C ^ 2 -> s ^ 2 = 1 - c ^ 2 ->
  f (rho * S * c) (rho * S * s) (rho * C) rho
  = ((KC60 * (16 / 1) * shape 6 0 false C S c s),
     (KC60 * (16 / 1) * shape 6 0 true C S c s)).
Proof. csph_case. Qed.

Lemma csh_p6_1 : exists f, csh 6 1 = Some f /\
  forall rho C S c s, rho <> 0 -> S ^ 2 = 1 - C ^ 2 -> s ^ 2 = 1 - c ^ 2 ->
  f (rho * S * c) (rho * S * s) (rho * C) rho
  = (- (KC61 * (8 / 21) * shape 6 1 false C S c s),
     - (KC61 * (8 / 21) * shape 6 1 true C S c s)).
Proof. csph_case. Qed.

Lemma csh_m6_1 : exists f, csh 6 (-1) = Some f /\
  forall rho C S c s, rho <> 0 -> S ^ 2 = 1 - C ^ 2 -> s ^ 2 = 1 - c ^ 2 ->
  f (rho * S * c) (rho * S * s) (rho * C) rho
  = (KC61 * (8 / 21) * shape 6 1 false C S c s,
     - (KC61 * (8 / 21) * shape 6 1 true C S c s)).
Proof. csph_case. Qed.

Lemma csh_p6_2 : exists f, csh 6 2 = Some f /\
  forall rho C S c s, rho <> 0 -> S ^ 2 = 1 - C ^ 2 -> s ^ 2 = 1 - c ^ 2 ->
  f (rho * S * c) (rho * S * s) (rho * C) rho
  = ((KC62 * (8 / 105) * shape 6 2 false C S c s),
     (KC62 * (8 / 105) * shape 6 2 true C S c s)).
Proof. csph_case. Qed.

Lemma csh_m6_2 : exists f, csh 6 (-2) = Some f /\
  forall rho C S c s, rho <> 0 -> S ^ 2 = 1 - C ^ 2 -> s ^ 2 = 1 - c ^ 2 ->
  f (rho * S * c) (rho * S * s) (rho * C) rho
  = (KC62 * (8 / 105) * shape 6 2 false C S c s,
     - (KC62 * (8 / 105) * shape 6 2 true C S c s)).
Proof. csph_case. Qed.

Lemma csh_p6_3 : exists f, csh 6 3 = Some f /\
  forall rho C S c s, rho <> 0 -> S ^ 2 = 1 - C ^ 2 -> s ^ 2 = 1 - c ^ 2 ->
  f (rho * S * c) (rho * S * s) (rho * C) rho
  = (- (KC63 * (2 / 315) * shape 6 3 false C S c s),
     - (KC63 * (2 / 315) * shape 6 3 true C S c s)).
Proof. csph_case. Qed.

Lemma csh_m6_3 : exists f, csh 6 (-3) = Some f /\
  forall rho C S c s, rho <> 0 -> S ^ 2 = 1 - C ^ 2 -> s ^ 2 = 1 - c ^ 2 ->
  f (rho * S * c) (rho * S * s) (rho * C) rho
  = (KC63 * (2 / 315) * shape 6 3 false C S c s,
     - (KC63 * (2 / 315) * shape 6 3 true C S c s)).
Proof. csph_case. Qed.

Lemma csh_p6_4 : exists f, csh 6 4 = Some f /\
  forall rho C S c s, rho <> 0 -> S ^ 2 = 1 - C ^ 2 -> s ^ 2 = 1 - c ^ 2 ->
  f (rho * S * c) (rho * S * s) (rho * C) rho
  = ((KC64 * (2 / 945) * shape 6 4 false C S c s),
     (KC64 * (2 / 945) * shape 6 4 true C S c s)).
Proof. csph_case. Qed.

Lemma csh_m6_4 : exists f, csh 6 (-4) = Some f /\
  forall rho C S c s, rho <> 0 -> S ^ 2 = 1 - C ^ 2 -> s ^ 2 = 1 - c ^ 2 ->
  f (rho * S * c) (rho * S * s) (rho * C) rho
  = (KC64 * (2 / 945) * shape 6 4 false C S c s,
     - (KC64 * (2 / 945) * shape 6 4 true C S c s)).
Proof. csph_case. Qed.

Lemma csh_p6_5 : exists f, csh 6 5 = Some f /\
  forall rho C S c s, rho <> 0 -> S ^ 2 = 1 - C ^ 2 -> s ^ 2 = 1 - c ^ 2 ->
  f (rho * S * c) (rho * S * s) (rho * C) rho
  = (- (KC65 * (1 / 10395) * shape 6 5 false C S c s),
     - (KC65 * (1 / 10395) * shape 6 5 true C S c s)).
Proof. csph_case. Qed.

Lemma csh_m6_5 : exists f, csh 6 (-5) = Some f /\
  forall rho C S c s, rho <> 0 -> S ^ 2 = 1 - C ^ 2 -> s ^ 2 = 1 - c ^ 2 ->
  f (rho * S * c) (rho * S * s) (rho * C) rho
  = (KC65 * (1 / 10395) * shape 6 5 false C S c s,
     - (KC65 * (1 / 10395) * shape 6 5 true C S c s)).
Proof. csph_case. Qed.

Lemma csh_p6_6 : exists f, csh 6 6 = Some f /\
  forall rho C S c s, rho <> 0 -> S ^ 2 = 1 - C ^ 2 -> s ^ 2 = 1 - c ^ 2 ->
  f (rho * S * c) (rho * S * s) (rho * C) rho
  = ((KC66 * (1 / 10395) * shape 6 6 false C S c s),
     (KC66 * (1 / 10395) * shape 6 6 true C S c s)).
Proof. csph_case. Qed.

Lemma csh_m6_6 : exists f, csh 6 (-6) = Some f /\
  forall rho C S c s, rho <> 0 -> S ^ 2 = 1 - C ^ 2 -> s ^ 2 = 1 - c ^ 2 ->
  f (rho * S * c) (rho * S * s) (rho * C) rho
  = (KC66 * (1 / 10395) * shape 6 6 false C S c s,
     - (KC66 * (1 / 10395) * shape 6 6 true C S c s)).
Proof. csph_case. Qed.

(* ---- the constants ---- *)

Lemma near_norm : forall a n : R, 0 < a -> 0 < n ->
  n * (1 - 1.5e-14) <= a * a * 3.14159265358979323 ->
  a * a * 3.14159265358979324 <= n * (1 + 1.5e-14) ->
  Rabs (a / sqrt (n / PI) - 1) <= 1e-14.
Proof.
  intros a n Ha Hn H1 H2.
  destruct PI_close as [P1 P2].
  assert (HP : 0 < PI) by lra.
  assert (Hs : 0 < sqrt (n / PI)) by (apply sqrt_lt_R0, Rdiv_lt_0_compat; assumption).
  set (k := a / sqrt (n / PI)).
  assert (Hk : 0 < k) by (apply Rdiv_lt_0_compat; assumption).
  assert (Hk2 : k * k * n = a * a * PI).
  { unfold k.
    replace (a / sqrt (n / PI) * (a / sqrt (n / PI)) * n)
      with (a * a * n / (sqrt (n / PI) * sqrt (n / PI))) by (field; lra).
    rewrite sqrt_sqrt by (apply Rlt_le, Rdiv_lt_0_compat; assumption).
    field. split; lra. }
  assert (Haa : 0 < a * a) by (apply Rmult_lt_0_compat; assumption).
  assert (L : n * (1 - 1.5e-14) <= k * k * n).
  { rewrite Hk2. apply Rle_trans with (1 := H1). apply Rmult_le_compat_l; lra. }
  assert (U : k * k * n <= n * (1 + 1.5e-14)).
  { rewrite Hk2. apply Rle_trans with (2 := H2). apply Rmult_le_compat_l; lra. }
  assert (L' : 1 - 1.5e-14 <= k * k).
  { apply Rmult_le_reg_r with n; [assumption|]. lra. }
  assert (U' : k * k <= 1 + 1.5e-14).
  { apply Rmult_le_reg_r with n; [assumption|]. lra. }
  apply Rabs_le. split; nra.
Qed.

(* pi times the square of the normalisation of a real harmonic *)
Definition nsq (l m : nat) : R :=
  (match m with O => 1 | S _ => 2 end) * ((2 * INR l + 1) / 4) * (rfact (l - m) / rfact (l + m)).



Ltac near_const c :=
  split; [unfold c, Q2R; cbn [Qnum Qden]; lra|];
  repeat match goal with |- context [Z.abs_nat ?z] =>
    let v := eval compute in (Z.abs_nat z) in change (Z.abs_nat z) with v end;
  split;
  [apply near_norm;
   unfold nsq; cbn [Nat.add Nat.sub rfact INR];
   unfold c; lra|].


(* All cases together: the value written is a times the angular shape, and a is the
   standard normalisation to within 1e-14. *)
Lemma rsh_all : forall (l : nat) (m : Z), (l <= 6)%nat -> (Z.abs m <= Z.of_nat l)%Z ->
  exists f a, rsh (Z.of_nat l) m = Some f /\ 0 < a /\
    Rabs (a / sqrt (nsq l (Z.abs_nat m) / PI) - 1) <= 1e-14 /\
    forall rho C S c s, rho <> 0 -> S ^ 2 = 1 - C ^ 2 -> s ^ 2 = 1 - c ^ 2 ->
    f (rho * S * c) (rho * S * s) (rho * C) rho
    = a * shape l (Z.abs_nat m) (m <? 0)%Z C S c s.
Proof.
  intros l m Hl Hm.
  assert (D : l = 0%nat \/ l = 1%nat \/ l = 2%nat \/ l = 3%nat \/ l = 4%nat \/ l = 5%nat \/ l = 6%nat) by lia.
  destruct D as [-> | [-> | [-> | [-> | [-> | [-> | ->]]]]]].
  - assert (D : m = (0)%Z) by lia.
    subst m.
    + destruct rsh_0_p0 as (f & E & H).
      exists f, (C00 * (1 / 1)). split; [exact E|].
      near_const C00. exact H.
  - assert (D : m = (-1)%Z \/ m = (0)%Z \/ m = (1)%Z) by lia.
    destruct D as [-> | [-> | ->]].
    + destruct rsh_1_m1 as (f & E & H).
      exists f, (C1m1 * (1 / 1)). split; [exact E|].
      near_const C1m1. exact H.
    + destruct rsh_1_p0 as (f & E & H).
      exists f, (C10 * (1 / 1)). split; [exact E|].
      near_const C10. exact H.
    + destruct rsh_1_p1 as (f & E & H).
      exists f, (C1p1 * (1 / 1)). split; [exact E|].
      near_const C1p1. exact H.
  - assert (D : m = (-2)%Z \/ m = (-1)%Z \/ m = (0)%Z \/ m = (1)%Z \/ m = (2)%Z) by lia.
    destruct D as [-> | [-> | [-> | [-> | ->]]]].
    + destruct rsh_2_m2 as (f & E & H).
      exists f, (C2m2 * (1 / 6)). split; [exact E|].
      near_const C2m2. exact H.
    + destruct rsh_2_m1 as (f & E & H).
      exists f, (C2m1 * (1 / 3)). split; [exact E|].
      near_const C2m1. exact H.
    + destruct rsh_2_p0 as (f & E & H).
      exists f, (C20 * (2 / 1)). split; [exact E|].
      near_const C20. exact H.
    + destruct rsh_2_p1 as (f & E & H).
      exists f, (C2p1 * (1 / 3)). split; [exact E|].
      near_const C2p1. exact H.
    + destruct rsh_2_p2 as (f & E & H).
      exists f, (C2p2 * (1 / 3)). split; [exact E|].
      near_const C2p2. exact H.
  - assert (D : m = (-3)%Z \/ m = (-2)%Z \/ m = (-1)%Z \/ m = (0)%Z \/ m = (1)%Z \/ m = (2)%Z \/ m = (3)%Z) by lia.
    destruct D as [-> | [-> | [-> | [-> | [-> | [-> | ->]]]]]].
    + destruct rsh_3_m3 as (f & E & H).
      exists f, (C3m3 * (1 / 15)). split; [exact E|].
      near_const C3m3. exact H.
    + destruct rsh_3_m2 as (f & E & H).
      exists f, (C3m2 * (1 / 30)). split; [exact E|].
      near_const C3m2. exact H.
    + destruct rsh_3_m1 as (f & E & H).
      exists f, (C3m1 * (2 / 3)). split; [exact E|].
      near_const C3m1. exact H.
    + destruct rsh_3_p0 as (f & E & H).
      exists f, (C30 * (2 / 1)). split; [exact E|].
      near_const C30. exact H.
    + destruct rsh_3_p1 as (f & E & H).
      exists f, (C3p1 * (2 / 3)). split; [exact E|].
      near_const C3p1. exact H.
    + destruct rsh_3_p2 as (f & E & H).
      exists f, (C3p2 * (1 / 15)). split; [exact E|].
      near_const C3p2. exact H.
    + destruct rsh_3_p3 as (f & E & H).
      exists f, (C3p3 * (1 / 15)). split; [exact E|].
      near_const C3p3. exact H.
  - assert (D : m = (-4)%Z \/ m = (-3)%Z \/ m = (-2)%Z \/ m = (-1)%Z \/ m = (0)%Z \/ m = (1)%Z \/ m = (2)%Z \/ m = (3)%Z \/ m = (4)%Z) by lia.
    destruct D as [-> | [-> | [-> | [-> | [-> | [-> | [-> | [-> | ->]]]]]]]].
    + destruct rsh_4_m4 as (f & E & H).
      exists f, (C4m4 * (1 / 420)). split; [exact E|].
      near_const C4m4. exact H.
    + destruct rsh_4_m3 as (f & E & H).
      exists f, (C4m3 * (1 / 105)). split; [exact E|].
      near_const C4m3. exact H.
    + destruct rsh_4_m2 as (f & E & H).
      exists f, (C4m2 * (1 / 15)). split; [exact E|].
      near_const C4m2. exact H.
    + destruct rsh_4_m1 as (f & E & H).
      exists f, (C4m1 * (2 / 5)). split; [exact E|].
      near_const C4m1. exact H.
    + destruct rsh_4_p0 as (f & E & H).
      exists f, (C40 * (8 / 1)). split; [exact E|].
      near_const C40. exact H.
    + destruct rsh_4_p1 as (f & E & H).
      exists f, (C4p1 * (2 / 5)). split; [exact E|].
      near_const C4p1. exact H.
    + destruct rsh_4_p2 as (f & E & H).
      exists f, (C4p2 * (2 / 15)). split; [exact E|].
      near_const C4p2. exact H.
    + destruct rsh_4_p3 as (f & E & H).
      exists f, (C4p3 * (1 / 105)). split; [exact E|].
      near_const C4p3. exact H.
    + destruct rsh_4_p4 as (f & E & H).
      exists f, (C4p4 * (1 / 105)). split; [exact E|].
      near_const C4p4. exact H.
  - assert (D : m = (-5)%Z \/ m = (-4)%Z \/ m = (-3)%Z \/ m = (-2)%Z \/ m = (-1)%Z \/ m = (0)%Z \/ m = (1)%Z \/ m = (2)%Z \/ m = (3)%Z \/ m = (4)%Z \/ m = (5)%Z) by lia.
    destruct D as [-> | [-> | [-> | [-> | [-> | [-> | [-> | [-> | [-> | [-> | ->]]]]]]]]]].
    + destruct rsh_5_m5 as (f & E & H).
      exists f, (C5m5 * (1 / 945)). split; [exact E|].
      near_const C5m5. exact H.
    + destruct rsh_5_m4 as (f & E & H).
      exists f, (C5m4 * (1 / 945)). split; [exact E|].
      near_const C5m4. exact H.
    + destruct rsh_5_m3 as (f & E & H).
      exists f, (C5m3 * (2 / 105)). split; [exact E|].
      near_const C5m3. exact H.
    + destruct rsh_5_m2 as (f & E & H).
      exists f, (C5m2 * (1 / 105)). split; [exact E|].
      near_const C5m2. exact H.
    + destruct rsh_5_m1 as (f & E & H).
      exists f, (C5m1 * (8 / 15)). split; [exact E|].
      near_const C5m1. exact H.
    + destruct rsh_5_p0 as (f & E & H).
      exists f, (C50 * (8 / 1)). split; [exact E|].
      near_const C50. exact H.
    + destruct rsh_5_p1 as (f & E & H).
      exists f, (C5p1 * (8 / 15)). split; [exact E|].
      near_const C5p1. exact H.
    + destruct rsh_5_p2 as (f & E & H).
      exists f, (C5p2 * (2 / 105)). split; [exact E|].
      near_const C5p2. exact H.
    + destruct rsh_5_p3 as (f & E & H).
      exists f, (C5p3 * (2 / 105)). split; [exact E|].
      near_const C5p3. exact H.
    + destruct rsh_5_p4 as (f & E & H).
      exists f, (C5p4 * (1 / 945)). split; [exact E|].
      near_const C5p4. exact H.
    + destruct rsh_5_p5 as (f & E & H).
      exists f, (C5p5 * (1 / 945)). split; [exact E|].
      near_const C5p5. exact H.
  - assert (D : m = (-6)%Z \/ m = (-5)%Z \/ m = (-4)%Z \/ m = (-3)%Z \/ m = (-2)%Z \/ m = (-1)%Z \/ m = (0)%Z \/ m = (1)%Z \/ m = (2)%Z \/ m = (3)%Z \/ m = (4)%Z \/ m = (5)%Z \/ m = (6)%Z) by lia.
    destruct D as [-> | [-> | [-> | [-> | [-> | [-> | [-> | [-> | [-> | [-> | [-> | [-> | ->]]]]]]]]]]]].
    + destruct rsh_6_m6 as (f & E & H).
      exists f, (C6m6 * (1 / 10395)). split; [exact E|].
      near_const C6m6. exact H.
    + destruct rsh_6_m5 as (f & E & H).
      exists f, (C6m5 * (1 / 10395)). split; [exact E|].
      near_const C6m5. exact H.
    + destruct rsh_6_m4 as (f & E & H).
      exists f, (C6m4 * (2 / 945)). split; [exact E|].
      near_const C6m4. exact H.
    + destruct rsh_6_m3 as (f & E & H).
      exists f, (C6m3 * (2 / 315)). split; [exact E|].
      near_const C6m3. exact H.
    + destruct rsh_6_m2 as (f & E & H).
      exists f, (C6m2 * (8 / 105)). split; [exact E|].
      near_const C6m2. exact H.
    + destruct rsh_6_m1 as (f & E & H).
      exists f, (C6m1 * (8 / 21)). split; [exact E|].
      near_const C6m1. exact H.
    + destruct rsh_6_p0 as (f & E & H).
      exists f, (C60 * (16 / 1)). split; [exact E|].
      near_const C60. exact H.
    + destruct rsh_6_p1 as (f & E & H).
      exists f, (C6p1 * (8 / 21)). split; [exact E|].
      near_const C6p1. exact H.
    + destruct rsh_6_p2 as (f & E & H).
      exists f, (C6p2 * (8 / 105)). split; [exact E|].
      near_const C6p2. exact H.
    + destruct rsh_6_p3 as (f & E & H).
      exists f, (C6p3 * (2 / 315)). split; [exact E|].
      near_const C6p3. exact H.
    + destruct rsh_6_p4 as (f & E & H).
      exists f, (C6p4 * (2 / 945)). split; [exact E|].
      near_const C6p4. exact H.
    + destruct rsh_6_p5 as (f & E & H).
      exists f, (C6p5 * (1 / 10395)). split; [exact E|].
      near_const C6p5. exact H.
    + destruct rsh_6_p6 as (f & E & H).
      exists f, (C6p6 * (1 / 10395)). split; [exact E|].
      near_const C6p6. exact H.
Qed.

(* The same for the complex harmonics. *)
Lemma csh_all : forall (l m : nat), (m <= l <= 6)%nat ->
  exists f g a, csh (Z.of_nat l) (Z.of_nat m) = Some f /\
    csh (Z.of_nat l) (- Z.of_nat m) = Some g /\ 0 < a /\
    Rabs (a / sqrt ((if (m =? 0)%nat then nsq l m else nsq l m / 2) / PI) - 1) <= 1e-14 /\
    forall rho C S c s, rho <> 0 -> S ^ 2 = 1 - C ^ 2 -> s ^ 2 = 1 - c ^ 2 ->
    f (rho * S * c) (rho * S * s) (rho * C) rho
    = ((-1) ^ m * (a * shape l m false C S c s), (-1) ^ m * (a * shape l m true C S c s)) /\
    g (rho * S * c) (rho * S * s) (rho * C) rho
    = (a * shape l m false C S c s, - (a * shape l m true C S c s)).
Proof.
  intros l m Hl.
  assert (D : l = 0%nat \/ l = 1%nat \/ l = 2%nat \/ l = 3%nat \/ l = 4%nat \/ l = 5%nat \/ l = 6%nat) by lia.
  destruct D as [-> | [-> | [-> | [-> | [-> | [-> | ->]]]]]].
  - assert (D : m = 0%nat) by lia.
    subst m.
    + destruct csh_p0_0 as (f & E & H). destruct csh_p0_0 as (g & E' & H').
      exists f, g, (KC00 * (1 / 1)).
      split; [exact E|]. split; [exact E'|]. cbn [Nat.eqb].
      near_const KC00. intros rho C S c s Hr HS Hs. specialize (H rho C S c s Hr HS Hs). specialize (H' rho C S c s Hr HS Hs).
      split; [rewrite H|rewrite H'].
      * apply f_equal2; ring.
      * apply f_equal2; [reflexivity|]. unfold shape. cbn [csn snd]. ring.
  - assert (D : m = 0%nat \/ m = 1%nat) by lia.
    destruct D as [-> | ->].
    + destruct csh_p1_0 as (f & E & H). destruct csh_p1_0 as (g & E' & H').
      exists f, g, (KC10 * (1 / 1)).
      split; [exact E|]. split; [exact E'|]. cbn [Nat.eqb].
      near_const KC10. intros rho C S c s Hr HS Hs. specialize (H rho C S c s Hr HS Hs). specialize (H' rho C S c s Hr HS Hs).
      split; [rewrite H|rewrite H'].
      * apply f_equal2; ring.
      * apply f_equal2; [reflexivity|]. unfold shape. cbn [csn snd]. ring.
    + destruct csh_p1_1 as (f & E & H). destruct csh_m1_1 as (g & E' & H').
      exists f, g, (KC11 * (1 / 1)).
      split; [exact E|]. split; [exact E'|]. cbn [Nat.eqb].
      near_const KC11. intros rho C S c s Hr HS Hs. specialize (H rho C S c s Hr HS Hs). specialize (H' rho C S c s Hr HS Hs).
      split; [rewrite H|rewrite H'].
      * apply f_equal2; ring.
      * reflexivity.
  - assert (D : m = 0%nat \/ m = 1%nat \/ m = 2%nat) by lia.
    destruct D as [-> | [-> | ->]].
    + destruct csh_p2_0 as (f & E & H). destruct csh_p2_0 as (g & E' & H').
      exists f, g, (KC20 * (2 / 1)).
      split; [exact E|]. split; [exact E'|]. cbn [Nat.eqb].
      near_const KC20. intros rho C S c s Hr HS Hs. specialize (H rho C S c s Hr HS Hs). specialize (H' rho C S c s Hr HS Hs).
      split; [rewrite H|rewrite H'].
      * apply f_equal2; ring.
      * apply f_equal2; [reflexivity|]. unfold shape. cbn [csn snd]. ring.
    + destruct csh_p2_1 as (f & E & H). destruct csh_m2_1 as (g & E' & H').
      exists f, g, (KC21 * (1 / 3)).
      split; [exact E|]. split; [exact E'|]. cbn [Nat.eqb].
      near_const KC21. intros rho C S c s Hr HS Hs. specialize (H rho C S c s Hr HS Hs). specialize (H' rho C S c s Hr HS Hs).
      split; [rewrite H|rewrite H'].
      * apply f_equal2; ring.
      * reflexivity.
    + destruct csh_p2_2 as (f & E & H). destruct csh_m2_2 as (g & E' & H').
      exists f, g, (KC22 * (1 / 3)).
      split; [exact E|]. split; [exact E'|]. cbn [Nat.eqb].
      near_const KC22. intros rho C S c s Hr HS Hs. specialize (H rho C S c s Hr HS Hs). specialize (H' rho C S c s Hr HS Hs).
      split; [rewrite H|rewrite H'].
      * apply f_equal2; ring.
      * reflexivity.
  - assert (D : m = 0%nat \/ m = 1%nat \/ m = 2%nat \/ m = 3%nat) by lia.
    destruct D as [-> | [-> | [-> | ->]]].
    + destruct csh_p3_0 as (f & E & H). destruct csh_p3_0 as (g & E' & H').
      exists f, g, (KC30 * (2 / 1)).
      split; [exact E|]. split; [exact E'|]. cbn [Nat.eqb].
      near_const KC30. intros rho C S c s Hr HS Hs. specialize (H rho C S c s Hr HS Hs). specialize (H' rho C S c s Hr HS Hs).
      split; [rewrite H|rewrite H'].
      * apply f_equal2; ring.
      * apply f_equal2; [reflexivity|]. unfold shape. cbn [csn snd]. ring.
    + destruct csh_p3_1 as (f & E & H). destruct csh_m3_1 as (g & E' & H').
      exists f, g, (KC31 * (2 / 3)).
      split; [exact E|]. split; [exact E'|]. cbn [Nat.eqb].
      near_const KC31. intros rho C S c s Hr HS Hs. specialize (H rho C S c s Hr HS Hs). specialize (H' rho C S c s Hr HS Hs).
      split; [rewrite H|rewrite H'].
      * apply f_equal2; ring.
      * reflexivity.
    + destruct csh_p3_2 as (f & E & H). destruct csh_m3_2 as (g & E' & H').
      exists f, g, (KC32 * (1 / 15)).
      split; [exact E|]. split; [exact E'|]. cbn [Nat.eqb].
      near_const KC32. intros rho C S c s Hr HS Hs. specialize (H rho C S c s Hr HS Hs). specialize (H' rho C S c s Hr HS Hs).
      split; [rewrite H|rewrite H'].
      * apply f_equal2; ring.
      * reflexivity.
    + destruct csh_p3_3 as (f & E & H). destruct csh_m3_3 as (g & E' & H').
      exists f, g, (KC33 * (1 / 15)).
      split; [exact E|]. split; [exact E'|]. cbn [Nat.eqb].
      near_const KC33. intros rho C S c s Hr HS Hs. specialize (H rho C S c s Hr HS Hs). specialize (H' rho C S c s Hr HS Hs).
      split; [rewrite H|rewrite H'].
      * apply f_equal2; ring.
      * reflexivity.
  - assert (D : m = 0%nat \/ m = 1%nat \/ m = 2%nat \/ m = 3%nat \/ m = 4%nat) by lia.
    destruct D as [-> | [-> | [-> | [-> | ->]]]].
    + destruct csh_p4_0 as (f & E & H). destruct csh_p4_0 as (g & E' & H').
      exists f, g, (KC40 * (8 / 1)).
      split; [exact E|]. split; [exact E'|]. cbn [Nat.eqb].
      near_const KC40. intros rho C S c s Hr HS Hs. specialize (H rho C S c s Hr HS Hs). specialize (H' rho C S c s Hr HS Hs).
      split; [rewrite H|rewrite H'].
      * apply f_equal2; ring.
      * apply f_equal2; [reflexivity|]. unfold shape. cbn [csn snd]. ring.
    + destruct csh_p4_1 as (f & E & H). destruct csh_m4_1 as (g & E' & H').
      exists f, g, (KC41 * (2 / 5)).
      split; [exact E|]. split; [exact E'|]. cbn [Nat.eqb].
      near_const KC41. intros rho C S c s Hr HS Hs. specialize (H rho C S c s Hr HS Hs). specialize (H' rho C S c s Hr HS Hs).
      split; [rewrite H|rewrite H'].
      * apply f_equal2; ring.
      * reflexivity.
    + destruct csh_p4_2 as (f & E & H). destruct csh_m4_2 as (g & E' & H').
      exists f, g, (KC42 * (2 / 15)).
      split; [exact E|]. split; [exact E'|]. cbn [Nat.eqb].
      near_const KC42. intros rho C S c s Hr HS Hs. specialize (H rho C S c s Hr HS Hs). specialize (H' rho C S c s Hr HS Hs).
      split; [rewrite H|rewrite H'].
      * apply f_equal2; ring.
      * reflexivity.
    + destruct csh_p4_3 as (f & E & H). destruct csh_m4_3 as (g & E' & H').
      exists f, g, (KC43 * (1 / 105)).
      split; [exact E|]. split; [exact E'|]. cbn [Nat.eqb].
      near_const KC43. intros rho C S c s Hr HS Hs. specialize (H rho C S c s Hr HS Hs). specialize (H' rho C S c s Hr HS Hs).
      split; [rewrite H|rewrite H'].
      * apply f_equal2; ring.
      * reflexivity.
    + destruct csh_p4_4 as (f & E & H). destruct csh_m4_4 as (g & E' & H').
      exists f, g, (KC44 * (1 / 105)).
      split; [exact E|]. split; [exact E'|]. cbn [Nat.eqb].
      near_const KC44. intros rho C S c s Hr HS Hs. specialize (H rho C S c s Hr HS Hs). specialize (H' rho C S c s Hr HS Hs).
      split; [rewrite H|rewrite H'].
      * apply f_equal2; ring.
      * reflexivity.
  - assert (D : m = 0%nat \/ m = 1%nat \/ m = 2%nat \/ m = 3%nat \/ m = 4%nat \/ m = 5%nat) by lia.
    destruct D as [-> | [-> | [-> | [-> | [-> | ->]]]]].
    + destruct csh_p5_0 as (f & E & H). destruct csh_p5_0 as (g & E' & H').
      exists f, g, (KC50 * (8 / 1)).
      split; [exact E|]. split; [exact E'|]. cbn [Nat.eqb].
      near_const KC50. intros rho C S c s Hr HS Hs. specialize (H rho C S c s Hr HS Hs). specialize (H' rho C S c s Hr HS Hs).
      split; [rewrite H|rewrite H'].
      * apply f_equal2; ring.
      * apply f_equal2; [reflexivity|]. unfold shape. cbn [csn snd]. ring.
    + destruct csh_p5_1 as (f & E & H). destruct csh_m5_1 as (g & E' & H').
      exists f, g, (KC51 * (8 / 15)).
      split; [exact E|]. split; [exact E'|]. cbn [Nat.eqb].
      near_const KC51. intros rho C S c s Hr HS Hs. specialize (H rho C S c s Hr HS Hs). specialize (H' rho C S c s Hr HS Hs).
      split; [rewrite H|rewrite H'].
      * apply f_equal2; ring.
      * reflexivity.
    + destruct csh_p5_2 as (f & E & H). destruct csh_m5_2 as (g & E' & H').
      exists f, g, (KC52 * (2 / 105)).
      split; [exact E|]. split; [exact E'|]. cbn [Nat.eqb].
      near_const KC52. intros rho C S c s Hr HS Hs. specialize (H rho C S c s Hr HS Hs). specialize (H' rho C S c s Hr HS Hs).
      split; [rewrite H|rewrite H'].
      * apply f_equal2; ring.
      * reflexivity.
    + destruct csh_p5_3 as (f & E & H). destruct csh_m5_3 as (g & E' & H').
      exists f, g, (KC53 * (2 / 105)).
      split; [exact E|]. split; [exact E'|]. cbn [Nat.eqb].
      near_const KC53. intros rho C S c s Hr HS Hs. specialize (H rho C S c s Hr HS Hs). specialize (H' rho C S c s Hr HS Hs).
      split; [rewrite H|rewrite H'].
      * apply f_equal2; ring.
      * reflexivity.
    + destruct csh_p5_4 as (f & E & H). destruct csh_m5_4 as (g & E' & H').
      exists f, g, (KC54 * (1 / 945)).
      split; [exact E|]. split; [exact E'|]. cbn [Nat.eqb].
      near_const KC54. intros rho C S c s Hr HS Hs. specialize (H rho C S c s Hr HS Hs). specialize (H' rho C S c s Hr HS Hs).
      split; [rewrite H|rewrite H'].
      * apply f_equal2; ring.
      * reflexivity.
    + destruct csh_p5_5 as (f & E & H). destruct csh_m5_5 as (g & E' & H').
      exists f, g, (KC55 * (1 / 945)).
      split; [exact E|]. split; [exact E'|]. cbn [Nat.eqb].
      near_const KC55. intros rho C S c s Hr HS Hs. specialize (H rho C S c s Hr HS Hs). specialize (H' rho C S c s Hr HS Hs).
      split; [rewrite H|rewrite H'].
      * apply f_equal2; ring.
      * reflexivity.
  - assert (D : m = 0%nat \/ m = 1%nat \/ m = 2%nat \/ m = 3%nat \/ m = 4%nat \/ m = 5%nat \/ m = 6%nat) by lia.
    destruct D as [-> | [-> | [-> | [-> | [-> | [-> | ->]]]]]].
    + destruct csh_p6_0 as (f & E & H). destruct csh_p6_0 as (g & E' & H').
      exists f, g, (KC60 * (16 / 1)).
      split; [exact E|]. split; [exact E'|]. cbn [Nat.eqb].
      near_const KC60. intros rho C S c s Hr HS Hs. specialize (H rho C S c s Hr HS Hs). specialize (H' rho C S c s Hr HS Hs).
      split; [rewrite H|rewrite H'].
      * apply f_equal2; ring.
      * apply f_equal2; [reflexivity|]. unfold shape. cbn [csn snd]. ring.
    + destruct csh_p6_1 as (f & E & H). destruct csh_m6_1 as (g & E' & H').
      exists f, g, (KC61 * (8 / 21)).
      split; [exact E|]. split; [exact E'|]. cbn [Nat.eqb].
      near_const KC61. intros rho C S c s Hr HS Hs. specialize (H rho C S c s Hr HS Hs). specialize (H' rho C S c s Hr HS Hs).
      split; [rewrite H|rewrite H'].
      * apply f_equal2; ring.
      * reflexivity.
    + destruct csh_p6_2 as (f & E & H). destruct csh_m6_2 as (g & E' & H').
      exists f, g, (KC62 * (8 / 105)).
      split; [exact E|]. split; [exact E'|]. cbn [Nat.eqb].
      near_const KC62. intros rho C S c s Hr HS Hs. specialize (H rho C S c s Hr HS Hs). specialize (H' rho C S c s Hr HS Hs).
      split; [rewrite H|rewrite H'].
      * apply f_equal2; ring.
      * reflexivity.
    + destruct csh_p6_3 as (f & E & H). destruct csh_m6_3 as (g & E' & H').
      exists f, g, (KC63 * (2 / 315)).
      split; [exact E|]. split; [exact E'|]. cbn [Nat.eqb].
      near_const KC63. intros rho C S c s Hr HS Hs. specialize (H rho C S c s Hr HS Hs). specialize (H' rho C S c s Hr HS Hs).
      split; [rewrite H|rewrite H'].
      * apply f_equal2; ring.
      * reflexivity.
    + destruct csh_p6_4 as (f & E & H). destruct csh_m6_4 as (g & E' & H').
      exists f, g, (KC64 * (2 / 945)).
      split; [exact E|]. split; [exact E'|]. cbn [Nat.eqb].
      near_const KC64. intros rho C S c s Hr HS Hs. specialize (H rho C S c s Hr HS Hs). specialize (H' rho C S c s Hr HS Hs).
      split; [rewrite H|rewrite H'].
      * apply f_equal2; ring.
      * reflexivity.
    + destruct csh_p6_5 as (f & E & H). destruct csh_m6_5 as (g & E' & H').
      exists f, g, (KC65 * (1 / 10395)).
      split; [exact E|]. split; [exact E'|]. cbn [Nat.eqb].
      near_const KC65. intros rho C S c s Hr HS Hs. specialize (H rho C S c s Hr HS Hs). specialize (H' rho C S c s Hr HS Hs).
      split; [rewrite H|rewrite H'].
      * apply f_equal2; ring.
      * reflexivity.
    + destruct csh_p6_6 as (f & E & H). destruct csh_m6_6 as (g & E' & H').
      exists f, g, (KC66 * (1 / 10395)).
      split; [exact E|]. split; [exact E'|]. cbn [Nat.eqb].
      near_const KC66. intros rho C S c s Hr HS Hs. specialize (H rho C S c s Hr HS Hs). specialize (H' rho C S c s Hr HS Hs).
      split; [rewrite H|rewrite H'].
      * apply f_equal2; ring.
      * reflexivity.
Qed.
