(** Model of src/orbitalElecDensInit.c:109-333 ([Init_electronDensity],
    [elecDensExtrapolation]) and of the charge scaling in
    src/electrostatics.c:1097-1155,1214-1215
    ([Generate_PseudoChargeDensity]).  Exact rationals stand for doubles; a
    division by zero is [UB] (in C: inf/nan in every density). *)
From Coq Require Import ZArith List Lia Bool QArith Arith Lqa.
From Verif Require Import CBase Spline Mixing.
Import ListNotations.
Local Open Scope Q_scope.

(** src/electrostatics.c:1139-1155: every local entry times [c] *)
Definition scale (c : Q) (v : dvec) : dvec := map (map (fun y => y * c)) v.

Record charges := mkCh { rho_at : dvec; PosCharge : Q; NegCharge : Q }.
(** src/electrostatics.c:1131-1155,1214-1215: PosCharge = -int b,
    NegCharge = -int rho_at; rescale rho_at; NegCharge recomputed. *)
Definition scale_rho_at (cy : option dvec) (dV NetCharge : Q) (b rho : dvec) : outcome charges :=
  let pos := - integral cy dV b in
  let neg := - integral cy dV rho in
  if Qeq_bool neg 0 then UB
  else
    let r := scale ((NetCharge - pos) / neg) rho in
    Ok (mkCh r pos (- integral cy dV r)).

(** src/orbitalElecDensInit.c:172-176: [rhotol] is pSPARC->xc_rhotol *)
Definition extrap_point (rhotol a d : Q) : Q := if qltb (a + d) 0 then rhotol else a + d.
Definition extrap (rhotol : Q) (at_ delta : dvec) : dvec := zip (zip (extrap_point rhotol)) at_ delta.

(** What the routine leaves in pSPARC->electronDens: total, and (spin) up and
    down. *)
Record dens := mkD { tot : dvec; updn : option (dvec * dvec) }.
(** src/electronDensity.c:318-324 and src/orbitalElecDensInit.c:193-199 *)
Definition split_spin (mag : option dvec) (rho : dvec) : dens :=
  mkD rho (match mag with
           | None => None
           | Some m => Some (zip (zip spin_up) rho m, zip (zip spin_dn) rho m)
           end).

(** src/orbitalElecDensInit.c:109-205.  [n] = elecgs_Count - StressCount;
    [file]: density read from cube files (total, up and down as read);
    [md]: MDFlag == 1 or RelaxFlag == 1; [mag]: magnetisation when
    spin_typ != 0. *)
Definition Init_electronDensity (cy : option dvec) (dV : Q) (n : nat) (file : option dens) (md : bool) (rhotol : Q)
    (ch : charges) (delta rho : dvec) (mag : option dvec) : outcome dens :=
  match n with
  | O => match file with
         | Some d => Ok d
         | None => Ok (split_spin mag (rho_at ch))
         end
  | _ =>
    let rho := if (3 <=? n)%nat && md then extrap rhotol (rho_at ch) delta else rho in
    let int_rho := integral cy dV rho in
    if Qeq_bool int_rho 0 then UB
    else Ok (split_spin mag (scale (PosCharge ch / int_rho) rho))
  end.

(** *** The history *)
Definition comb (a b c : Q) (x y z : Q) : Q := a * x + b * y + c * z.
Fixpoint zip3 {A B C D} (f : A -> B -> C -> D) (u : list A) (v : list B) (w : list C) : list D :=
  match u, v, w with x :: u', y :: v', z :: w' => f x y z :: zip3 f u' v' w' | _, _, _ => [] end.
(** src/orbitalElecDensInit.c:325-326, weights [w0 w1 w2] *)
Definition comb_dvec (w0 w1 w2 : Q) (d0 d1 d2 : dvec) : dvec := zip3 (zip3 (comb w0 w1 w2)) d0 d1 d2.

Record hist := mkH { d0 : dvec; d1 : dvec; d2 : dvec; delta : dvec;
                     p0 : list Q; p1 : list Q; p2 : list Q }.
Definition vsub (u v : dvec) : dvec := zip (zip Qminus) u v.
Definition dotp (u v : list Q) : Q := qsum (zip Qmult u v).
(** src/orbitalElecDensInit.c:305-316: FtF (4 entries, FtF\[2\] = FtF\[1\]), Ftf *)
Definition normal (pnm p0 p1 p2 : list Q) : (Q * Q * Q) * (Q * Q) :=
  let t1 := zip Qminus p0 p1 in
  let t2 := zip Qminus p1 p2 in
  let t3 := zip Qminus pnm p0 in
  ((dotp t1 t1, dotp t1 t2, dotp t2 t2), (dotp t1 t3, dotp t2 t3)).
(** src/orbitalElecDensInit.c:212-333.  [gelsd] stands for the LAPACK call;
    [pnm] are the unwrapped new positions (239-299); [n] = elecgs_Count -
    StressCount; [rho] is electronDens, or electronDens_pbe for odd usefock. *)
Definition elecDensExtrapolation (gelsd : Q * Q * Q -> Q * Q -> Q * Q) (n : nat) (rho at_ : dvec) (pnm : list Q) (h : hist) : hist :=
  let e2 := d1 h in
  let e1 := d0 h in
  let e0 := vsub rho at_ in
  let de :=
    if (3 <=? n)%nat then
      let (A, f) := normal pnm (p0 h) (p1 h) (p2 h) in
      let (alpha, beta) := gelsd A f in
      comb_dvec (1 + alpha) (beta - alpha) (- beta) e0 e1 e2
    else delta h in
  mkH e0 e1 e2 de pnm (p0 h) (p1 h).

(** Ionic steps: call [k] (k = 1, 2, ...) is made after ground state number k
    (counted from 0), whose density is [rhos (k-1)], atomic density
    [ats (k-1)], positions [ps (k-1)]; the atoms are then at [ps k].
    Init_electronDensity has set p0 to the first positions (157-161). *)
Fixpoint ionic (gelsd : Q * Q * Q -> Q * Q -> Q * Q) (rhos ats : nat -> dvec) (ps : nat -> list Q) (k : nat) (h : hist) : hist :=
  match k with
  | O => mkH (d0 h) (d1 h) (d2 h) (delta h) (ps O) (p1 h) (p2 h)
  | S k' => elecDensExtrapolation gelsd k (rhos k') (ats k') (ps k) (ionic gelsd rhos ats ps k' h)
  end.

(** *** Lemmas *)
Lemma scale_shape c v : same_shape (scale c v) v.
Proof. unfold same_shape, scale. rewrite map_map. apply map_ext. intros; apply map_length. Qed.
Lemma integral_zero cy dV c v : c == 0 -> integral cy dV (scale c v) == 0.
Proof. intros H. unfold scale. rewrite integral_scale, H. ring. Qed.

Lemma scale_total cy dV q v : ~ integral cy dV v == 0 -> integral cy dV (scale (q / integral cy dV v) v) == q.
Proof. intros H. unfold scale. rewrite integral_scale. field. exact H. Qed.

(** integral as a linear form *)
Lemma qsum_comb w0 w1 w2 : forall x y z, length x = length y -> length x = length z ->
  qsum (zip3 (comb w0 w1 w2) x y z) == comb w0 w1 w2 (qsum x) (qsum y) (qsum z).
Proof.
  unfold comb. induction x as [|a x IH]; intros [|b y] [|c z] H1 H2; try discriminate; cbn [zip3].
  - cbn. ring.
  - rewrite !qsum_cons, IH by (cbn in *; lia). ring.
Qed.
Lemma qsumw_comb w0 w1 w2 : forall x y z w, length x = length y -> length x = length z ->
  qsum (zip Qmult (zip3 (comb w0 w1 w2) x y z) w) == comb w0 w1 w2 (qsum (zip Qmult x w)) (qsum (zip Qmult y w)) (qsum (zip Qmult z w)).
Proof.
  unfold comb. induction x as [|a x IH]; intros [|b y] [|c z] [|e w] H1 H2; try discriminate; cbn [zip3 zip]; try (cbn; ring).
  rewrite !qsum_cons, IH by (cbn in *; lia). ring.
Qed.
Lemma integral_comb cy dV w0 w1 w2 : forall x y z, same_shape x y -> same_shape x z ->
  integral cy dV (comb_dvec w0 w1 w2 x y z) == comb w0 w1 w2 (integral cy dV x) (integral cy dV y) (integral cy dV z).
Proof.
  destruct cy as [w|]; cbn [integral].
  - unfold VectorSum_wt, comb_dvec. intros x; revert w. induction x as [|a x IH]; intros w [|b y] [|c z] H1 H2; try discriminate; cbn [zip3 zip].
    + unfold comb. cbn. ring.
    + destruct w as [|e w]; cbn [zip]; [unfold comb; cbn; ring|].
      injection H1 as A1 B1. injection H2 as A2 B2.
      rewrite !qsum_cons, (IH w y z), qsumw_comb by assumption. unfold comb. ring.
  - intros x y z H1 H2.
    assert (E : VectorSum (comb_dvec w0 w1 w2 x y z) == comb w0 w1 w2 (VectorSum x) (VectorSum y) (VectorSum z)).
    { revert y z H1 H2. unfold VectorSum, comb_dvec. induction x as [|a x IH]; intros [|b y] [|c z] H1 H2; try discriminate; cbn [zip3 map].
      - unfold comb. cbn. ring.
      - injection H1 as A1 B1. injection H2 as A2 B2.
        rewrite !qsum_cons, IH, qsum_comb by assumption. unfold comb. ring. }
    rewrite E. unfold comb. ring.
Qed.

(** least squares *)
Lemma dotp_comm u : forall v, dotp u v == dotp v u.
Proof. unfold dotp. induction u as [|x u IH]; intros [|y v]; cbn [zip]; try reflexivity. rewrite !qsum_cons, IH. ring. Qed.
Definition resid (a b : Q) (t1 t2 t3 : list Q) : list Q := zip3 (fun x y z => z - a * x - b * y) t1 t2 t3.
Lemma resid_sq a b : forall t1 t2 t3, length t1 = length t2 -> length t1 = length t3 ->
  dotp (resid a b t1 t2 t3) (resid a b t1 t2 t3) ==
  dotp t3 t3 - 2 * a * dotp t1 t3 - 2 * b * dotp t2 t3 + a * a * dotp t1 t1 + 2 * a * b * dotp t1 t2 + b * b * dotp t2 t2.
Proof.
  unfold dotp, resid. induction t1 as [|x t1 IH]; intros [|y t2] [|z t3] H1 H2; try discriminate; cbn [zip3 zip].
  - cbn. ring.
  - rewrite !qsum_cons, IH by (cbn in *; lia). ring.
Qed.
Lemma sq_nonneg x : 0 <= x * x.
Proof. nra. Qed.
Lemma dotp_sq_nonneg : forall u, 0 <= dotp u u.
Proof. unfold dotp. induction u as [|x u IH]; cbn [zip]; [apply Qle_refl|]. rewrite qsum_cons. pose proof (sq_nonneg x). lra. Qed.
Definition lin (a b : Q) (t1 t2 : list Q) : list Q := zip (fun x y => a * x + b * y) t1 t2.
Lemma lin_sq a b : forall t1 t2, length t1 = length t2 ->
  dotp (lin a b t1 t2) (lin a b t1 t2) == a * a * dotp t1 t1 + 2 * a * b * dotp t1 t2 + b * b * dotp t2 t2.
Proof.
  unfold dotp, lin. induction t1 as [|x t1 IH]; intros [|y t2] H1; try discriminate; cbn [zip].
  - cbn. ring.
  - rewrite !qsum_cons, IH by (cbn in *; lia). ring.
Qed.
Lemma zip_length {A B C} (f : A -> B -> C) : forall u v, length (zip f u v) = Nat.min (length u) (length v).
Proof. induction u as [|x u IH]; intros [|y v]; cbn; try reflexivity. rewrite IH. reflexivity. Qed.

Lemma normal_least t1 t2 t3 a b a' b' : length t1 = length t2 -> length t1 = length t3 ->
  dotp t1 t1 * a + dotp t1 t2 * b == dotp t1 t3 ->
  dotp t1 t2 * a + dotp t2 t2 * b == dotp t2 t3 ->
  dotp (resid a b t1 t2 t3) (resid a b t1 t2 t3) <= dotp (resid a' b' t1 t2 t3) (resid a' b' t1 t2 t3).
Proof.
  intros L1 L2 N1 N2. rewrite !resid_sq by assumption.
  assert (P := dotp_sq_nonneg (lin (a' - a) (b' - b) t1 t2)). rewrite lin_sq in P by assumption.
  rewrite <- N1, <- N2.
  set (A := dotp t1 t1) in *. set (B := dotp t1 t2) in *. set (C := dotp t2 t2) in *. set (D := dotp t3 t3).
  clearbody A B C D. clear - P.
  apply Qle_minus_iff. eapply Qle_trans; [exact P|]. apply Qle_lteq. right. ring.
Qed.
