(** Property C31: the density guess. *)
From Coq Require Import ZArith List Lia Bool QArith Arith Lqa.
From Verif Require Import CBase Spline Mixing DensGuess.
Import ListNotations.
Local Open Scope Q_scope.

(** *** Spec: number of electrons = ionic charge minus net charge. *)
Definition electrons (cy : option dvec) (dV NetCharge : Q) (b : dvec) : Q := - integral cy dV b - NetCharge.
(** Every point of [up], [dn] adds up to that of [rho]. *)
Definition adds_up (rho up dn : dvec) : Prop :=
  Forall2 (fun r p => Forall2 (fun x y => y == x) r p) rho (zip (zip Qplus) up dn).
Definition spin_ok (d : dens) : Prop :=
  match updn d with None => True | Some (u, v) => adds_up (tot d) u v end.

Lemma adds_row : forall r m, length r = length m -> Forall2 (fun x y => y == x) r (zip Qplus (zip spin_up r m) (zip spin_dn r m)).
Proof.
  induction r as [|x r IH]; intros [|y m] H; try discriminate; cbn [zip]; constructor.
  - unfold spin_up, spin_dn. ring.
  - apply IH. cbn in H. lia.
Qed.
Lemma split_spin_ok mag rho : (forall m, mag = Some m -> same_shape rho m) -> spin_ok (split_spin mag rho).
Proof.
  intros H. unfold spin_ok, split_spin. cbn [updn tot]. destruct mag as [m|]; [|exact I].
  specialize (H m eq_refl). unfold adds_up. revert m H. induction rho as [|r rho IH]; intros [|p m] H; try discriminate; cbn [zip]; constructor.
  - injection H as H _. apply adds_row, H.
  - injection H as _ H. apply IH, H.
Qed.
Lemma Qeq_bool_false x : Qeq_bool x 0 = false <-> ~ x == 0.
Proof. split; intros H; [apply Qeq_bool_neq, H |]. destruct (Qeq_bool x 0) eqn:E; [apply Qeq_bool_eq in E; contradiction | reflexivity]. Qed.

(** The atomic density, after the scaling in Generate_PseudoChargeDensity,
    integrates to the number of electrons, PosCharge + NegCharge = NetCharge,
    for every net charge.  Needs the unscaled atomic density to have a
    non-zero integral. *)
Theorem C31_atomic_density cy dV NetCharge b rho :
  ~ integral cy dV rho == 0 ->
  exists ch, scale_rho_at cy dV NetCharge b rho = Ok ch /\
    integral cy dV (rho_at ch) == electrons cy dV NetCharge b /\
    PosCharge ch + NegCharge ch == NetCharge /\
    PosCharge ch == - integral cy dV b /\
    same_shape (rho_at ch) rho.
Proof.
  intros H. unfold scale_rho_at, electrons.
  rewrite (proj2 (Qeq_bool_false _)) by (intros E; apply H; lra).
  eexists. split; [reflexivity|]. cbn [rho_at PosCharge NegCharge].
  assert (E : integral cy dV (scale ((NetCharge - - integral cy dV b) / - integral cy dV rho) rho) == - integral cy dV b - NetCharge).
  { unfold scale. rewrite integral_scale. field. exact H. }
  rewrite E. split; [reflexivity|]. split; [ring|]. split; [reflexivity | apply scale_shape].
Qed.
Print Assumptions C31_atomic_density.

(** First ionic step, no density file: the guess integrates to the number of
    electrons, whatever the net charge; up and down add to the total. *)
Theorem C31_first_step cy dV NetCharge b rho ch md rhotol delta old mag :
  scale_rho_at cy dV NetCharge b rho = Ok ch ->
  (forall m, mag = Some m -> same_shape rho m) ->
  exists d, Init_electronDensity cy dV 0 None md rhotol ch delta old mag = Ok d /\
    integral cy dV (tot d) == electrons cy dV NetCharge b /\ spin_ok d.
Proof.
  intros E Hm. assert (N : ~ integral cy dV rho == 0).
  { intros Z. unfold scale_rho_at in E.
    rewrite (Qeq_eq_bool (- integral cy dV rho) 0) in E by lra. discriminate. }
  destruct (C31_atomic_density cy dV NetCharge b rho N) as (ch' & E' & I & _ & _ & S).
  rewrite E in E'. injection E' as <-.
  eexists. split; [reflexivity|]. split; [exact I|]. apply split_spin_ok. intros m Hmm.
  unfold same_shape in *. rewrite S. apply Hm, Hmm.
Qed.
Print Assumptions C31_first_step.

(** Later steps: the guess integrates to PosCharge - the ionic charge - in
    the neutral case the number of electrons; up/down add to the total.
    Fails (division by zero) exactly when the density to be scaled has zero
    integral. *)
Theorem C31_later_steps cy dV NetCharge b rho ch n file md rhotol delta old mag :
  scale_rho_at cy dV NetCharge b rho = Ok ch ->
  (0 < n)%nat ->
  let r := if (3 <=? n)%nat && md then extrap rhotol (rho_at ch) delta else old in
  (forall m, mag = Some m -> same_shape r m) ->
  (integral cy dV r == 0 /\ Init_electronDensity cy dV n file md rhotol ch delta old mag = UB) \/
  exists d, Init_electronDensity cy dV n file md rhotol ch delta old mag = Ok d /\
    integral cy dV (tot d) == - integral cy dV b /\
    (NetCharge == 0 -> integral cy dV (tot d) == electrons cy dV NetCharge b) /\
    spin_ok d.
Proof.
  intros E Hn r Hm.
  assert (Pc : PosCharge ch == - integral cy dV b).
  { unfold scale_rho_at in E. destruct (Qeq_bool _ 0); [discriminate|]. injection E as <-. reflexivity. }
  destruct n as [|n]; [lia|]. unfold Init_electronDensity. fold r.
  destruct (Qeq_bool (integral cy dV r) 0) eqn:Z.
  - left. split; [apply Qeq_bool_eq, Z | reflexivity].
  - right. apply Qeq_bool_false in Z. eexists. split; [reflexivity|]. cbn [tot split_spin].
    rewrite scale_total by exact Z. split; [exact Pc|]. split; [intros Hq; unfold electrons; rewrite Pc, Hq; ring|].
    apply split_spin_ok. intros m Hmm. specialize (Hm m Hmm). unfold same_shape in *. rewrite <- Hm. apply scale_shape.
Qed.
Print Assumptions C31_later_steps.

(** The extrapolated guess never divides by zero when the weights are
    positive at some point, and every point of it is non-negative (positive
    ionic charge). *)
Lemma extrap_nonneg rhotol a d : 0 <= rhotol -> 0 <= extrap_point rhotol a d.
Proof. intros H. unfold extrap_point. destruct (qltb (a + d) 0) eqn:E; [exact H | apply qltb_ge, E]. Qed.
Theorem C31_extrapolated_nonnegative cy dV n file rhotol ch delta old mag d :
  (3 <= n)%nat -> 0 <= rhotol -> 0 <= PosCharge ch -> weights_ok cy dV ->
  Init_electronDensity cy dV n file true rhotol ch delta old mag = Ok d ->
  forall x p, In p (tot d) -> In x p -> 0 <= x.
Proof.
  intros Hn Ht Hp Hw E x p Hin Hx. destruct n as [|n]; [lia|]. unfold Init_electronDensity in E.
  rewrite (proj2 (Nat.leb_le _ _) Hn) in E. cbn [andb] in E.
  set (r := extrap rhotol (rho_at ch) delta) in *.
  assert (R : forall x p, In p r -> In x p -> 0 <= x).
  { intros y q Hq Hy. unfold r, extrap in Hq. apply zip_in in Hq. destruct Hq as (u & v & _ & _ & ->).
    apply zip_in in Hy. destruct Hy as (s & t & _ & _ & ->). apply extrap_nonneg, Ht. }
  pose proof (integral_nonneg cy dV r Hw R) as I.
  destruct (Qeq_bool (integral cy dV r) 0) eqn:Z; [discriminate|]. apply Qeq_bool_false in Z. injection E as <-.
  cbn [tot split_spin] in Hin. unfold scale in Hin. apply in_map_iff in Hin. destruct Hin as (q & <- & Hq).
  apply in_map_iff in Hx. destruct Hx as (y & <- & Hy).
  apply Qmult_le_0_compat; [apply (R y q); assumption|]. apply Qle_shift_div_l; [lra | lra].
Qed.
Print Assumptions C31_extrapolated_nonnegative.

(** The claim "integrates to the number of electrons" is false of a charged
    cell from the second step on: one point, dV = 1, ionic charge 2, net
    charge 1 (one electron); the second guess holds two electrons. *)
Theorem C31_charged_cell_refuted :
  exists dV NetCharge b rho ch old d,
    scale_rho_at None dV NetCharge b rho = Ok ch /\
    Init_electronDensity None dV 1 None true (1 # 100) ch [] old None = Ok d /\
    integral None dV old == electrons None dV NetCharge b /\
    ~ integral None dV (tot d) == electrons None dV NetCharge b.
Proof.
  exists 1, 1, [[-2]], [[2]].
  eexists. exists [[1]]. eexists. split; [reflexivity|]. split; [reflexivity|]. split; [reflexivity|].
  intros H. vm_compute in H. discriminate.
Qed.
Print Assumptions C31_charged_cell_refuted.

(** *** Extrapolation *)
(** Weights sum to one: differences with a common integral extrapolate to
    that integral. *)
Theorem C31_extrapolation_weights gelsd cy dV n rho at_ pnm h q :
  (3 <= n)%nat ->
  same_shape (vsub rho at_) (d0 h) -> same_shape (vsub rho at_) (d1 h) ->
  integral cy dV (vsub rho at_) == q -> integral cy dV (d0 h) == q -> integral cy dV (d1 h) == q ->
  integral cy dV (delta (elecDensExtrapolation gelsd n rho at_ pnm h)) == q.
Proof.
  intros Hn S0 S1 I I0 I1. unfold elecDensExtrapolation. cbn [delta].
  rewrite (proj2 (Nat.leb_le _ _) Hn).
  destruct (normal pnm (p0 h) (p1 h) (p2 h)) as [A f]. destruct (gelsd A f) as [al be]. cbn [delta].
  rewrite integral_comb by assumption. unfold comb. rewrite I, I0, I1. ring.
Qed.
Print Assumptions C31_extrapolation_weights.

(** If the LAPACK call solves the normal equations, the two coefficients
    minimise the distance between the new positions and
    p0 + alpha (p0 - p1) + beta (p1 - p2), and the density difference uses
    the same coefficients. *)
Definition shift_pos (a b : Q) (p0 p1 p2 : list Q) : list Q :=
  zip3 (fun x y z => x + a * (x - y) + b * (y - z)) p0 p1 p2.
Definition dist2 (u v : list Q) : Q := dotp (zip Qminus u v) (zip Qminus u v).
Lemma dist2_resid a b : forall p0 p1 p2 pn, length p0 = length p1 -> length p0 = length p2 -> length p0 = length pn ->
  dist2 pn (shift_pos a b p0 p1 p2) ==
  dotp (resid a b (zip Qminus p0 p1) (zip Qminus p1 p2) (zip Qminus pn p0)) (resid a b (zip Qminus p0 p1) (zip Qminus p1 p2) (zip Qminus pn p0)).
Proof.
  unfold dist2, shift_pos, resid, dotp.
  induction p0 as [|x p0 IH]; intros [|y p1] [|z p2] [|w pn] H1 H2 H3; try discriminate; cbn [zip zip3]; [reflexivity|].
  rewrite !qsum_cons, IH by (cbn in *; lia). ring.
Qed.
Lemma comb_eq3 w0 w1 w2 v0 v1 v2 : w0 == v0 -> w1 == v1 -> w2 == v2 -> forall x y z, comb w0 w1 w2 x y z == comb v0 v1 v2 x y z.
Proof. intros A B C x y z. unfold comb. rewrite A, B, C. reflexivity. Qed.

Theorem C31_least_squares (gelsd : Q * Q * Q -> Q * Q -> Q * Q) n rho at_ pnm h :
  (forall A B C f g : Q, let (x, y) := gelsd (A, B, C) (f, g) in A * x + B * y == f /\ B * x + C * y == g) ->
  (3 <= n)%nat ->
  length (p0 h) = length (p1 h) -> length (p0 h) = length (p2 h) -> length (p0 h) = length pnm ->
  exists alpha beta,
    (forall a b, dist2 pnm (shift_pos alpha beta (p0 h) (p1 h) (p2 h)) <= dist2 pnm (shift_pos a b (p0 h) (p1 h) (p2 h))) /\
    delta (elecDensExtrapolation gelsd n rho at_ pnm h) =
      zip3 (zip3 (comb (1 + alpha) (beta - alpha) (- beta))) (vsub rho at_) (d0 h) (d1 h).
Proof.
  intros G Hn L1 L2 L3. unfold elecDensExtrapolation. cbn [delta].
  rewrite (proj2 (Nat.leb_le _ _) Hn). unfold normal. cbv zeta.
  match goal with |- context [gelsd (?A, ?B, ?C) (?f, ?g)] => specialize (G A B C f g); destruct (gelsd (A, B, C) (f, g)) as [al be] end.
  destruct G as [G1 G2]. exists al, be. cbn [delta]. split; [|reflexivity].
  intros a b. rewrite !dist2_resid by assumption.
  apply normal_least; try assumption; rewrite !zip_length; lia.
Qed.
Print Assumptions C31_least_squares.

(** After the call following ground state k >= 2 the three stored differences
    are those of ground states k, k-1, k-2 and the three stored positions
    those of steps k+1, k, k-1: positions lead by one step, so the next call
    compares like with like. *)
Theorem C31_history gelsd rhos ats ps h k :
  let s := ionic gelsd rhos ats ps (S (S (S k))) h in
  d0 s = vsub (rhos (S (S k))) (ats (S (S k))) /\
  d1 s = vsub (rhos (S k)) (ats (S k)) /\
  d2 s = vsub (rhos k) (ats k) /\
  p0 s = ps (S (S (S k))) /\ p1 s = ps (S (S k)) /\ p2 s = ps (S k) /\
  exists alpha beta,
    gelsd (fst (normal (ps (S (S (S k)))) (ps (S (S k))) (ps (S k)) (ps k))) (snd (normal (ps (S (S (S k)))) (ps (S (S k))) (ps (S k)) (ps k))) = (alpha, beta) /\
    delta s = comb_dvec (1 + alpha) (beta - alpha) (- beta) (d0 s) (d1 s) (d2 s).
Proof.
  assert (P : forall j, p0 (ionic gelsd rhos ats ps j h) = ps j) by (intros [|j]; reflexivity).
  cbv zeta. cbn [ionic]. set (s0 := ionic gelsd rhos ats ps k h).
  assert (P0 : p0 s0 = ps k) by apply P. clearbody s0.
  unfold elecDensExtrapolation. cbn [d0 d1 d2 p0 p1 p2 delta]. rewrite P0.
  do 6 (split; [reflexivity|]).
  change (3 <=? S (S (S k)))%nat with true. cbv iota.
  destruct (normal (ps (S (S (S k)))) (ps (S (S k))) (ps (S k)) (ps k)) as [A f]. cbn [fst snd].
  destruct (gelsd A f) as [al be]. exists al, be. split; reflexivity.
Qed.
Print Assumptions C31_history.

(** Example: two processes, charged cell with net charge 1, ionic charge 5,
    spin: the first guess holds 4 electrons; and a neutral third step. *)
Example C31_ex_first :
  exists ch d, scale_rho_at None (1 # 2) 1 [[-3; -4]; [-3]] [[2; 1]; [1]] = Ok ch /\
    Init_electronDensity None (1 # 2) 0 None true (1 # 100) ch [] [] (Some [[1; 0]; [1]]) = Ok d /\
    integral None (1 # 2) (tot d) == 4 /\ spin_ok d.
Proof.
  eexists. eexists. split; [reflexivity|]. split; [reflexivity|]. split; [reflexivity|].
  apply (split_spin_ok (Some [[1; 0]; [1]])). intros m Hm. injection Hm as <-. reflexivity.
Qed.
Example C31_ex_later :
  exists ch d, scale_rho_at None (1 # 2) 0 [[-3; -4]; [-3]] [[2; 1]; [1]] = Ok ch /\
    Init_electronDensity None (1 # 2) 3 None true (1 # 100) ch [[1; -9]; [0]] [[7; 7]; [7]] (Some [[1; 0]; [1]]) = Ok d /\
    integral None (1 # 2) (tot d) == 5 /\ (nth 1 (nth 0 (tot d) []) 0 < 1 # 10).
Proof. eexists. eexists. split; [reflexivity|]. split; [reflexivity|]. split; vm_compute; reflexivity. Qed.
Example C31_ex_weights :
  let g := fun (A : Q * Q * Q) (f : Q * Q) => let '(a, b, c) := A in let det := a * c - b * b in
     ((c * fst f - b * snd f) / det, (a * snd f - b * fst f) / det) in
  let h := mkH [[1; 2]] [[2; 1]] [] [] [1; 4] [1; 2] [0; 2] in
  integral None 1 (delta (elecDensExtrapolation g 3 [[4; 0]] [[1; 0]] [2; 7] h)) == 3.
Proof. vm_compute. reflexivity. Qed.
