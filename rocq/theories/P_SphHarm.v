(* C68: the spherical harmonics that the projectors, the Hubbard occupations and the
   structure factors are built on.  The specification is SphHarmSpec.v. *)

From Coq Require Import Reals List ZArith Lia Lra Psatz.
From Coquelicot Require Import Coquelicot.
From Verif Require Import CBase SphHarmSpec SphHarm SphHarmLem SphHarmAdd.
Import ListNotations.
Open Scope R_scope.

(* The point with polar coordinates (rho, theta, phi), as a caller hands it over. *)
Definition polar (rho th ph : R) : point :=
  Pt (rho * sin th * cos ph) (rho * sin th * sin ph) (rho * cos th) rho.

(* What the two functions rely on: the r array holds the distance from the origin. *)
Definition dist_ok (p : point) : Prop :=
  0 <= pr p /\ pr p ^ 2 = px p ^ 2 + py p ^ 2 + pz p ^ 2.

(* Value of the C function at one point. *)
Definition at_point (l : nat) (m : Z) (p : point) (v : R) : Prop :=
  forall y, RealSphericalHarmonic [p] (Z.of_nat l) m [y] = Ok [v].

(* ------------------------------------------------------------------ *)
(* the loops *)

Lemma fill_ok : forall T (f : R -> R -> R -> R -> T) ps Y,
  (length ps <= length Y)%nat ->
  exists Y', fill f ps Y = Ok Y' /\ length Y' = length Y /\
    (forall i, (length ps <= i)%nat -> nth_error Y' i = nth_error Y i) /\
    (forall i p, nth_error ps i = Some p ->
       nth_error Y' i = Some (f (px p) (py p) (pz p) (pr p))).
Proof.
  intros T f. induction ps as [|p ps IH]; intros Y HY.
  - exists Y. cbn. repeat split; try reflexivity. intros i q H. destruct i; discriminate H.
  - destruct Y as [|y Y]; [cbn in HY; lia|].
    destruct (IH Y) as (Y' & E & L & O & V); [cbn in HY; lia|].
    exists (f (px p) (py p) (pz p) (pr p) :: Y'). cbn [fill]. rewrite E. cbn [obind].
    split; [reflexivity|]. split; [cbn; congruence|]. split.
    + intros [|i] Hi; [cbn in Hi; lia|]. cbn. apply O. cbn in Hi. lia.
    + intros [|i] q H; cbn in *; [injection H as <-; reflexivity|]. apply V, H.
Qed.

Lemma clear_ok : forall T (zero : T) ps Y,
  (length ps <= length Y)%nat ->
  exists Y', clear zero ps Y = Ok Y' /\ length Y' = length Y /\
    (forall i, (length ps <= i)%nat -> nth_error Y' i = nth_error Y i) /\
    (forall i p y, nth_error ps i = Some p -> nth_error Y i = Some y ->
       nth_error Y' i = Some (if Rlt_dec (pr p) 1e-10 then zero else y)).
Proof.
  intros T zero. induction ps as [|p ps IH]; intros Y HY.
  - exists Y. split; [destruct Y; reflexivity|]. repeat split; try reflexivity.
    intros i q y H. destruct i; discriminate H.
  - destruct Y as [|y Y]; [cbn in HY; lia|].
    destruct (IH Y) as (Y' & E & L & O & V); [cbn in HY; lia|].
    exists ((if Rlt_dec (pr p) 1e-10 then zero else y) :: Y').
    cbn [clear]. rewrite E. cbn [obind].
    split; [reflexivity|]. split; [cbn; congruence|]. split.
    + intros [|i] Hi; [cbn in Hi; lia|]. cbn. apply O. cbn in Hi. lia.
    + intros [|i] q y' H H'; cbn in *; [|apply V; assumption].
      injection H as <-. injection H' as <-. reflexivity.
Qed.

Lemma nth_error_some : forall T (l : list T) i, (i < length l)%nat -> exists y, nth_error l i = Some y.
Proof.
  intros T l i H. destruct (nth_error l i) as [y|] eqn:E; [exists y; reflexivity|].
  apply nth_error_None in E. lia.
Qed.

Lemma spherical_ok : forall T (zero : T) sh ps l m Y f,
  sh l m = Some f -> (length ps <= length Y)%nat ->
  exists Y', spherical zero sh ps l m Y = Ok Y' /\ length Y' = length Y /\
    (forall i, (length ps <= i)%nat -> nth_error Y' i = nth_error Y i) /\
    (forall i p, nth_error ps i = Some p ->
       nth_error Y' i = Some (if (0 <? l)%Z
                              then if Rlt_dec (pr p) 1e-10 then zero
                                   else f (px p) (py p) (pz p) (pr p)
                              else f (px p) (py p) (pz p) (pr p))).
Proof.
  intros T zero sh ps l m Y f Hf HY.
  destruct (fill_ok T f ps Y HY) as (Y1 & E1 & L1 & O1 & V1).
  unfold spherical. rewrite Hf, E1. cbn [obind].
  destruct (0 <? l)%Z.
  - destruct (clear_ok T zero ps Y1) as (Y2 & E2 & L2 & O2 & V2); [lia|].
    exists Y2. split; [exact E2|]. split; [lia|]. split.
    + intros i Hi. rewrite O2, O1 by exact Hi. reflexivity.
    + intros i p H. apply V2; [exact H|]. apply V1, H.
  - exists Y1. split; [reflexivity|]. split; [exact L1|]. split; assumption.
Qed.

(* ------------------------------------------------------------------ *)
(* polar coordinates reach every point *)

Lemma circle : forall c s : R, c ^ 2 + s ^ 2 = 1 -> exists ph, cos ph = c /\ sin ph = s.
Proof.
  intros c s H.
  assert (B : -1 <= c <= 1) by nra.
  destruct (Rle_dec 0 s) as [Hs|Hs].
  - exists (acos c). split; [apply cos_acos, B|].
    rewrite sin_acos by exact B. unfold Rsqr.
    replace (1 - c * c) with (s * s) by lra. rewrite sqrt_square; [reflexivity|exact Hs].
  - exists (- acos c). split; [rewrite cos_neg; apply cos_acos, B|].
    rewrite sin_neg, sin_acos by exact B. unfold Rsqr.
    replace (1 - c * c) with ((- s) * (- s)) by lra. rewrite sqrt_square; lra.
Qed.

Theorem C68_polar : forall p, dist_ok p -> 0 < pr p -> exists th ph, p = polar (pr p) th ph.
Proof.
  intros [x y z r] [_ H] Hr. cbn [px py pz pr] in *.
  set (S := sqrt ((x / r) ^ 2 + (y / r) ^ 2)).
  assert (P : 0 <= (x / r) ^ 2 + (y / r) ^ 2)
    by (apply Rplus_le_le_0_compat; apply pow2_ge_0).
  assert (S2 : S ^ 2 = (x / r) ^ 2 + (y / r) ^ 2) by (apply sqrt_sq_p2, P).
  destruct (circle (z / r) S) as (th & Hc & Hs).
  { rewrite S2. apply Rmult_eq_reg_r with (r ^ 2); [|apply pow_nonzero; lra].
    replace (((z / r) ^ 2 + ((x / r) ^ 2 + (y / r) ^ 2)) * r ^ 2)
      with (x ^ 2 + y ^ 2 + z ^ 2) by (field; lra). lra. }
  destruct (Req_dec S 0) as [S0|S0].
  - exists th, 0. unfold polar. rewrite Hc, Hs, S0, cos_0, sin_0.
    rewrite S0 in S2.
    assert (X : x / r = 0) by nra. assert (Y : y / r = 0) by nra.
    assert (X' : x = 0) by (replace x with (x / r * r) by (field; lra); rewrite X; ring).
    assert (Y' : y = 0) by (replace y with (y / r * r) by (field; lra); rewrite Y; ring).
    rewrite X', Y'. f_equal; [ring|ring|field; lra].
  - destruct (circle (x / r / S) (y / r / S)) as (ph & Hc' & Hs').
    { replace ((x / r / S) ^ 2 + (y / r / S) ^ 2)
        with (((x / r) ^ 2 + (y / r) ^ 2) / S ^ 2) by (field; split; lra).
      rewrite <- S2. field. exact S0. }
    exists th, ph. unfold polar. rewrite Hc, Hs, Hc', Hs'.
    f_equal; field; try split; lra.
Qed.

Lemma polar_dist : forall rho th ph, 0 <= rho -> dist_ok (polar rho th ph).
Proof.
  intros rho th ph H. split; [exact H|]. cbn [polar px py pz pr].
  pose proof (sin2 th) as E. pose proof (sin2 ph) as E'. ring [E E'].
Qed.

(* ------------------------------------------------------------------ *)
(* C68_real: for every degree l <= 6 and every |m| <= l the function fills the first len
   entries with the textbook harmonic, up to one relative factor within 1e-14 of one that
   depends on (l, m) alone (the literals have 15 digits), and leaves the rest alone. *)
Theorem C68_real : forall (l : nat) (m : Z), (l <= 6)%nat -> (Z.abs m <= Z.of_nat l)%Z ->
  exists k, Rabs (k - 1) <= 1e-14 /\
  forall ps Y, (length ps <= length Y)%nat ->
  exists Y', RealSphericalHarmonic ps (Z.of_nat l) m Y = Ok Y' /\ length Y' = length Y /\
    (forall i, (length ps <= i)%nat -> nth_error Y' i = nth_error Y i) /\
    (forall i rho th ph, nth_error ps i = Some (polar rho th ph) -> 1e-10 <= rho ->
       nth_error Y' i = Some (k * Yreal l m th ph)) /\
    (forall i p, nth_error ps i = Some p -> pr p < 1e-10 -> (1 <= l)%nat ->
       nth_error Y' i = Some 0).
Proof.
  intros l m Hl Hm.
  destruct (rsh_all l m Hl Hm) as (f & a & Ef & Ha & Hk & V).
  exists (a / sqrt (nsq l (Z.abs_nat m) / PI)). split; [exact Hk|].
  intros ps Y HY.
  destruct (spherical_ok R 0 rsh ps (Z.of_nat l) m Y f Ef HY) as (Y' & E & L & O & W).
  exists Y'. split; [exact E|]. split; [exact L|]. split; [exact O|]. split.
  - intros i rho th ph Hi Hr. rewrite (W _ _ Hi). cbn [polar px py pz pr].
    destruct (Rlt_dec rho 1e-10) as [B|_]; [lra|].
    rewrite (V rho (cos th) (sin th) (cos ph) (sin ph)); [|lra|apply sin2|apply sin2].
    rewrite shape_ok, Yreal_ok.
    assert (HP : 0 < PI) by (destruct PI_close; lra).
    assert (Hs : 0 < sqrt (nsq l (Z.abs_nat m) / PI))
      by (apply sqrt_lt_R0, Rdiv_lt_0_compat; [apply nsq_pos|exact HP]).
    destruct (0 <? Z.of_nat l)%Z; f_equal; field; lra.
  - intros i p Hi Hr Hl1. rewrite (W _ _ Hi).
    replace (0 <? Z.of_nat l)%Z with true by (symmetry; apply Z.ltb_lt; lia).
    destruct (Rlt_dec (pr p) 1e-10) as [_|B]; [reflexivity|lra].
Qed.
Print Assumptions C68_real.

Example C68_real_example :
  exists k, Rabs (k - 1) <= 1e-14 /\
    RealSphericalHarmonic [polar 2 (PI / 2) 0; Pt 0 0 0 0] 2 2 [7; 8; 9]
    = Ok [k * Yreal 2 2 (PI / 2) 0; 0; 9].
Proof.
  destruct (C68_real 2 2 ltac:(lia) ltac:(lia)) as (k & Hk & H).
  exists k. split; [exact Hk|].
  destruct (H [polar 2 (PI / 2) 0; Pt 0 0 0 0] [7; 8; 9]) as (Y' & E & L & O & W & Z0);
    [cbn; lia|].
  change (Z.of_nat 2) with 2%Z in E. rewrite E. clear E.
  pose proof (W 0%nat 2 (PI / 2) 0 eq_refl ltac:(lra)) as W0.
  pose proof (Z0 1%nat (Pt 0 0 0 0) eq_refl ltac:(cbn; lra) ltac:(lia)) as W1.
  pose proof (O 2%nat ltac:(cbn; lia)) as W2.
  destruct Y' as [|a [|b [|c [|]]]]; try discriminate L.
  cbn in W0, W1, W2. congruence.
Qed.

(* the value there is (1/4) sqrt(15/pi) *)
Example C68_spec_example : Yreal 2 2 (PI / 2) 0 = / 4 * sqrt (15 / PI).
Proof.
  rewrite Yreal_ok. unfold shp, tri.
  change (Z.abs_nat 2) with 2%nat. cbn [Z.ltb Z.compare].
  let v := eval vm_compute in (pdern 2 (legq 2)) in change (pdern 2 (legq 2)) with v.
  replace (cos (INR 2 * 0)) with 1 by (rewrite Rmult_0_r, cos_0; reflexivity).
  cbn [peval]. rewrite sin_PI2.
  unfold Q2R, nsq. cbn [QArith_base.Qnum QArith_base.Qden INR Nat.add Nat.sub rfact].
  assert (HP : 0 < PI) by (destruct PI_close; lra).
  replace (2 * ((2 * (1 + 1) + 1) / 4) *
    (1 / ((1 + 1 + 1 + 1) * ((1 + 1 + 1) * ((1 + 1) * (1 * 1))))) / PI)
    with ((/ 12) * (/ 12) * (15 / PI)) by (field; lra).
  assert (0 < 15 / PI) by (apply Rdiv_lt_0_compat; lra).
  rewrite sqrt_mult, sqrt_square by lra. field.
Qed.

(* ------------------------------------------------------------------ *)
(* Outside the range the arguments are reported and Ylm keeps what the caller had in it,
   except that entries at the origin are still cleared when l > 0. *)
Theorem C68_badargs : forall (l m : Z) ps Y,
  (l < 0 \/ 6 < l \/ 0 < l /\ l < Z.abs m)%Z -> (length ps <= length Y)%nat ->
  exists Y', RealSphericalHarmonic ps l m Y = Ok Y' /\ length Y' = length Y /\
    forall i y, nth_error Y i = Some y ->
      nth_error Y' i = Some (match nth_error ps i with
                             | Some p => if (0 <? l)%Z
                                         then if Rlt_dec (pr p) 1e-10 then 0 else y
                                         else y
                             | None => y
                             end).
Proof.
  intros l m ps Y Hbad HY.
  assert (N : rsh l m = None).
  { unfold rsh.
    assert (D : (l < 0 \/ 6 < l \/ 0 < l <= 6 /\ (m < - l \/ l < m))%Z) by lia.
    destruct D as [D|[D|[D D']]].
    - destruct l; try lia. reflexivity.
    - destruct l as [|q|q]; try lia.
      do 3 (destruct q as [q|q|]; try reflexivity; try lia).
    - assert (C : (l = 1 \/ l = 2 \/ l = 3 \/ l = 4 \/ l = 5 \/ l = 6)%Z) by lia.
      destruct C as [->|[->|[->|[->|[->| ->]]]]];
        [unfold rsh1|unfold rsh2|unfold rsh3|unfold rsh4|unfold rsh5|unfold rsh6];
        (destruct m as [|q|q]; [exfalso; lia| |];
         do 3 (destruct q as [q|q|]; try reflexivity; try (exfalso; lia))). }
  unfold RealSphericalHarmonic, spherical. rewrite N. cbn [obind].
  destruct (0 <? l)%Z eqn:E.
  - destruct (clear_ok R 0 ps Y HY) as (Y' & E' & L & O & V).
    exists Y'. split; [exact E'|]. split; [exact L|].
    intros i y Hi. destruct (nth_error ps i) as [p|] eqn:Ep.
    + apply V; assumption.
    + rewrite O; [exact Hi|]. apply nth_error_None, Ep.
  - exists Y. split; [reflexivity|]. split; [reflexivity|].
    intros i y Hi. rewrite Hi. destruct (nth_error ps i); reflexivity.
Qed.
Print Assumptions C68_badargs.

Example C68_badargs_example :
  exists Y', RealSphericalHarmonic [Pt 1 0 0 1; Pt 0 0 0 0] 2 3 [7; 8] = Ok Y' /\ Y' = [7; 0].
Proof.
  destruct (C68_badargs 2 3 [Pt 1 0 0 1; Pt 0 0 0 0] [7; 8] ltac:(lia) ltac:(cbn; lia))
    as (Y' & E & L & H).
  exists Y'. split; [exact E|].
  pose proof (H 0%nat 7 eq_refl) as H0. pose proof (H 1%nat 8 eq_refl) as H1.
  cbn [nth_error pr Z.ltb Z.compare] in H0, H1.
  destruct (Rlt_dec 1 1e-10) as [B|_] in H0; [lra|].
  destruct (Rlt_dec 0 1e-10) as [_|B] in H1; [|lra].
  destruct Y' as [|a [|b [|]]]; try discriminate L. cbn in H0, H1. congruence.
Qed.

(* The check of m is skipped for l = 0: any m is accepted silently. *)
Theorem C68_m_checked_refuted : exists m : Z, (0 < Z.abs m)%Z /\
  exists Y', RealSphericalHarmonic [Pt 1 0 0 1] 0 m [7] = Ok Y' /\ Y' <> [7].
Proof.
  exists 5%Z. split; [lia|]. exists [C00]. split; [reflexivity|].
  intros H. injection H as H. unfold C00 in H. lra.
Qed.
Print Assumptions C68_m_checked_refuted.

(* A buffer that is too short is overrun. *)
Theorem C68_short_buffer : forall (l : nat) (m : Z) ps Y,
  (l <= 6)%nat -> (Z.abs m <= Z.of_nat l)%Z -> (length Y < length ps)%nat ->
  RealSphericalHarmonic ps (Z.of_nat l) m Y = UB.
Proof.
  intros l m ps Y Hl Hm HY.
  destruct (rsh_all l m Hl Hm) as (f & a & Ef & _).
  unfold RealSphericalHarmonic, spherical. rewrite Ef.
  replace (fill f ps Y) with (@UB (list R)); [reflexivity|].
  clear -HY. revert Y HY. induction ps as [|p ps IH]; intros Y HY; [cbn in HY; lia|].
  destruct Y as [|y Y]; [reflexivity|]. cbn [fill].
  rewrite <- (IH Y) by (cbn in HY; lia). reflexivity.
Qed.
Print Assumptions C68_short_buffer.

(* Close to the origin, but not at it, the harmonic is not the textbook one: it is cut to
   zero below 1e-10. *)
Theorem C68_everywhere_refuted : exists (l : nat) (m : Z) rho th ph,
  (l <= 6)%nat /\ (Z.abs m <= Z.of_nat l)%Z /\ 0 < rho /\
  at_point l m (polar rho th ph) 0 /\ 1 / 5 < Yreal l m th ph.
Proof.
  exists 1%nat, 0%Z, 1e-11, 0, 0.
  split; [lia|]. split; [lia|]. split; [lra|]. split.
  - intros y. unfold RealSphericalHarmonic, spherical, polar.
    cbn [rsh rsh1 Z.of_nat Pos.of_succ_nat fill obind Z.ltb Z.compare clear pr].
    destruct (Rlt_dec 1e-11 1e-10) as [_|B]; [reflexivity|lra].
  - rewrite Yreal_ok. unfold shp, tri. change (Z.abs_nat 0) with 0%nat.
    cbn [Z.ltb Z.compare].
    let v := eval vm_compute in (pdern 0 (legq 1)) in change (pdern 0 (legq 1)) with v.
    cbn [peval INR pow]. rewrite Rmult_0_l, cos_0.
    unfold Q2R, nsq. cbn [QArith_base.Qnum QArith_base.Qden INR Nat.add Nat.sub rfact].
    destruct PI_close as [P1 P2].
    apply Rle_lt_trans with (sqrt (/ 5 * / 5)).
    + rewrite sqrt_square by lra. lra.
    + match goal with |- _ < sqrt ?a * _ =>
        replace (sqrt a * (1 * (0 * / 1 + 1 * (1 * / 1 + 1 * 0)) * 1)) with (sqrt a) by field
      end.
      apply sqrt_lt_1_alt. split; [lra|].
      apply Rmult_lt_reg_r with PI; [lra|].
      match goal with |- _ < ?a / PI * PI => replace (a / PI * PI) with a by (field; lra) end.
      lra.
Qed.
Print Assumptions C68_everywhere_refuted.

(* ------------------------------------------------------------------ *)
(* the functions of one point *)

Lemma at_real : forall (l : nat) (m : Z), (l <= 6)%nat -> (Z.abs m <= Z.of_nat l)%Z ->
  exists k, Rabs (k - 1) <= 1e-14 /\
  forall rho th ph, 1e-10 <= rho -> at_point l m (polar rho th ph) (k * Yreal l m th ph).
Proof.
  intros l m Hl Hm. destruct (C68_real l m Hl Hm) as (k & Hk & H).
  exists k. split; [exact Hk|]. intros rho th ph Hr y.
  destruct (H [polar rho th ph] [y]) as (Y' & E & L & _ & V & _); [cbn; lia|].
  rewrite E. specialize (V 0%nat rho th ph eq_refl Hr).
  destruct Y' as [|a [|]]; try discriminate L. cbn in V. congruence.
Qed.

Lemma at_point_unique : forall l m p u v, at_point l m p u -> at_point l m p v -> u = v.
Proof. intros l m p u v H1 H2. specialize (H1 0). specialize (H2 0). congruence. Qed.

(* Addition theorem: summing products of the harmonics of one degree over m gives
   (2l+1)/(4 pi) P_l(cosine of the angle between the points); with the two points equal
   the sum of squares is (2l+1)/(4 pi) whatever the direction. *)
Theorem C68_addition : forall (l : nat) (p q : point) (Yp Yq : Z -> R),
  (l <= 6)%nat -> dist_ok p -> dist_ok q -> 1e-10 <= pr p -> 1e-10 <= pr q ->
  (forall m, (Z.abs m <= Z.of_nat l)%Z -> at_point l m p (Yp m) /\ at_point l m q (Yq m)) ->
  Rabs (sum_m l (fun m => Yp m * Yq m)
        - (2 * INR l + 1) / (4 * PI)
          * leg l ((px p * px q + py p * py q + pz p * pz q) / (pr p * pr q)))
  <= 3e-14 * ((2 * INR l + 1) / (4 * PI)).
Proof.
  intros l p q Yp Yq Hl Dp Dq Hp Hq HY.
  assert (HP : 0 < PI) by (destruct PI_close; lra).
  destruct (C68_polar p Dp ltac:(lra)) as (th & ph & Ep).
  destruct (C68_polar q Dq ltac:(lra)) as (th' & ph' & Eq).
  replace ((px p * px q + py p * py q + pz p * pz q) / (pr p * pr q))
    with (cos th * cos th' + sin th * sin th' * cos (ph - ph')).
  2:{ rewrite Ep, Eq. cbn [polar px py pz pr]. rewrite cos_minus. field. lra. }
  rewrite <- Yreal_addition by exact Hl. rewrite <- sum_m_minus.
  apply Rle_trans with (1 := sum_m_abs _ _).
  apply Rle_trans with (sum_m l (fun m =>
    3e-14 * (/ 2 * (Yreal l m th ph * Yreal l m th ph
                    + Yreal l m th' ph' * Yreal l m th' ph')))).
  - apply sum_m_le. intros m Hm. destruct (HY m Hm) as [H1 H2].
    destruct (at_real l m Hl Hm) as (k & Hk & V).
    rewrite Ep in H1. rewrite Eq in H2.
    rewrite (at_point_unique _ _ _ _ _ H1 (V _ th ph Hp)).
    rewrite (at_point_unique _ _ _ _ _ H2 (V _ th' ph' Hq)).
    set (u := Yreal l m th ph). set (v := Yreal l m th' ph').
    replace (k * u * (k * v) - u * v) with ((k * k - 1) * (u * v)) by ring.
    rewrite Rabs_mult. apply Rabs_le_between in Hk.
    apply Rmult_le_compat; try apply Rabs_pos.
    + apply Rabs_le. nra.
    + apply Rabs_le. split; [pose proof (Rle_0_sqr (u + v))|pose proof (Rle_0_sqr (u - v))];
        unfold Rsqr in *; lra.
  - rewrite sum_m_scal, sum_m_scal, sum_m_plus, !Yreal_unsold by exact Hl.
    apply Req_le. field. lra.
Qed.
Print Assumptions C68_addition.

Example C68_addition_example :
  dist_ok (Pt 3 4 0 5) /\ 1e-10 <= pr (Pt 3 4 0 5) /\
  exists Yp : Z -> R, forall m, (Z.abs m <= 6)%Z -> at_point 6 m (Pt 3 4 0 5) (Yp m).
Proof.
  assert (D : dist_ok (Pt 3 4 0 5)) by (split; cbn; lra).
  split; [exact D|]. split; [cbn; lra|].
  destruct (C68_polar _ D ltac:(cbn; lra)) as (th & ph & E).
  exists (fun m => match rsh 6 m with Some f => f 3 4 0 5 | None => 0 end).
  intros m Hm y. unfold RealSphericalHarmonic, spherical. change (Z.of_nat 6) with 6%Z.
  destruct (rsh_all 6 m ltac:(lia) Hm) as (f & a & Ef & _).
  change (Z.of_nat 6) with 6%Z in Ef. rewrite Ef.
  cbn [fill obind Z.ltb Z.compare clear px py pz pr].
  destruct (Rlt_dec 5 1e-10) as [B|_]; [lra|reflexivity].
Qed.

(* ------------------------------------------------------------------ *)
(* Orthonormality over the unit sphere. *)
Theorem C68_orthonormal : forall (l l' : nat) (m m' : Z) (Y Y' : R -> R -> R),
  (l <= 6)%nat -> (Z.abs m <= Z.of_nat l)%Z ->
  (l' <= 6)%nat -> (Z.abs m' <= Z.of_nat l')%Z ->
  (forall th ph, at_point l m (polar 1 th ph) (Y th ph)) ->
  (forall th ph, at_point l' m' (polar 1 th ph) (Y' th ph)) ->
  exists v,
    is_RInt (fun th => RInt (fun ph => Y th ph * Y' th ph) 0 (2 * PI) * sin th) 0 PI v /\
    (if andb (l =? l')%nat (m =? m')%Z then Rabs (v - 1) <= 3e-14 else v = 0).
Proof.
  intros l l' m m' Y Y' Hl Hm Hl' Hm' HY HY'.
  assert (HP : 0 < PI) by (destruct PI_close; lra).
  destruct (at_real l m Hl Hm) as (k & Hk & V).
  destruct (at_real l' m' Hl' Hm') as (k' & Hk' & V').
  set (a := Z.abs_nat m). set (a' := Z.abs_nat m').
  set (w := k * sqrt (nsq l a / PI)). set (w' := k' * sqrt (nsq l' a' / PI)).
  set (c := triI (m <? 0)%Z a (m' <? 0)%Z a').
  assert (I1 : forall th, RInt (fun ph => Y th ph * Y' th ph) 0 (2 * PI)
             = w * w' * c * (shp l a th * shp l' a' th)).
  { intros th. apply is_RInt_unique.
    replace (w * w' * c * (shp l a th * shp l' a' th))
      with ((w * w' * (shp l a th * shp l' a' th)) * c) by ring.
    refine (is_RInt_ext _ _ _ _ _ _
      (RInt_scalR _ 0 (2 * PI)
         (w * w' * (shp l a th * shp l' a' th)) _
         (is_RInt_tri (m <? 0)%Z a (m' <? 0)%Z a'))).
    intros ph _. req.
    rewrite (at_point_unique _ _ _ _ _ (HY th ph) (V 1 th ph ltac:(lra))).
    rewrite (at_point_unique _ _ _ _ _ (HY' th ph) (V' 1 th ph ltac:(lra))).
    rewrite !Yreal_ok. fold a a'. unfold w, w'. ring. }
  assert (Z0 : c = 0 -> exists v,
    is_RInt (fun th => RInt (fun ph => Y th ph * Y' th ph) 0 (2 * PI) * sin th) 0 PI v /\ v = 0).
  { intros Hc. exists 0. split; [|reflexivity].
    apply (is_RInt_ext (fun _ => 0)); [|apply is_RInt_const0].
    intros th _. req. rewrite I1, Hc. ring. }
  destruct (Z.eq_dec m m') as [<-|Nm].
  - (* same m *)
    assert (Ea : a' = a) by reflexivity. clearbody a'. subst a'.
    assert (Hal : (a <= l)%nat) by (unfold a; lia).
    assert (Hal' : (a <= l')%nat) by (unfold a; lia).
    exists (w * w' * c * Q2R (tint l l' a)). split.
    + refine (is_RInt_ext _ _ _ _ _ _
        (RInt_scalR _ 0 PI (w * w' * c) _ (is_RInt_theta l l' a))).
      intros th _. req. rewrite I1. ring.
    + rewrite Z.eqb_refl, Bool.andb_true_r, theta_val by assumption.
      destruct (Nat.eqb_spec l l') as [<-|Nl]; [|req; ring].
      assert (Ec : c = (match a with O => 2 | S _ => 1 end) * PI).
      { unfold c, triI, cosI. rewrite Z.sub_diag. cbn [Z.eqb].
        destruct (Z.ltb_spec m 0) as [Hneg|Hpos].
        - destruct a eqn:A; [lia|].
          destruct (Z.eqb_spec (Z.of_nat (S n) + Z.of_nat (S n)) 0); [lia|]. field.
        - destruct a eqn:A.
          + cbn [Z.of_nat Z.add Z.eqb]. field.
          + destruct (Z.eqb_spec (Z.of_nat (S n) + Z.of_nat (S n)) 0); [lia|]. field. }
      replace (w * w' * c * (2 / (2 * INR l + 1) * (rfact (l + a) / rfact (l - a))))
        with (k * k').
      * apply Rabs_le_between in Hk. apply Rabs_le_between in Hk'. apply Rabs_le. nra.
      * rewrite Ec. unfold w, w'.
        replace (k * sqrt (nsq l a / PI) * (k' * sqrt (nsq l a / PI)))
          with (k * k' * (sqrt (nsq l a / PI) * sqrt (nsq l a / PI))) by ring.
        rewrite sqrt_nsq2. unfold nsq.
        pose proof (rfact_pos (l + a)). pose proof (rfact_pos (l - a)).
        pose proof (pos_INR l).
        destruct a; field; repeat split; lra.
  - rewrite (proj2 (Z.eqb_neq m m') Nm), Bool.andb_false_r. apply Z0.
    unfold c, triI, cosI.
    destruct (Z.ltb_spec m 0), (Z.ltb_spec m' 0); try reflexivity;
      repeat match goal with |- context [(?x =? 0)%Z] => destruct (Z.eqb_spec x 0) end;
      try (exfalso; unfold a, a' in *; lia); field.
Qed.
Print Assumptions C68_orthonormal.

Example C68_orthonormal_example :
  exists Y, forall th ph, at_point 3 (-2) (polar 1 th ph) (Y th ph).
Proof.
  destruct (at_real 3 (-2) ltac:(lia) ltac:(lia)) as (k & _ & V).
  exists (fun th ph => k * Yreal 3 (-2) th ph). intros th ph. apply V. lra.
Qed.

(* ------------------------------------------------------------------ *)
(* The complex harmonics: same statement with the Condon-Shortley phase. *)
Theorem C68_complex : forall (l : nat) (m : Z), (l <= 6)%nat -> (Z.abs m <= Z.of_nat l)%Z ->
  exists k, Rabs (k - 1) <= 1e-14 /\
  forall ps Y, (length ps <= length Y)%nat ->
  exists Y', ComplexSphericalHarmonic ps (Z.of_nat l) m Y = Ok Y' /\ length Y' = length Y /\
    (forall i, (length ps <= i)%nat -> nth_error Y' i = nth_error Y i) /\
    (forall i rho th ph, nth_error ps i = Some (polar rho th ph) -> 1e-10 <= rho ->
       nth_error Y' i = Some (k * fst (Ycplx l m th ph), k * snd (Ycplx l m th ph))) /\
    (forall i p, nth_error ps i = Some p -> pr p < 1e-10 -> (1 <= l)%nat ->
       nth_error Y' i = Some (0, 0)).
Proof.
  intros l m Hl Hm.
  assert (HP : 0 < PI) by (destruct PI_close; lra).
  set (a := Z.abs_nat m).
  assert (Hal : (a <= l)%nat) by (unfold a; lia).
  destruct (csh_all l a ltac:(lia)) as (f & g & b & Ef & Eg & Hb & Hk & V).
  set (n2 := (if (a =? 0)%nat then nsq l a else nsq l a / 2)) in *.
  assert (Hn2 : 0 < n2) by (unfold n2; pose proof (nsq_pos l a); destruct (a =? 0)%nat; lra).
  assert (Hs : 0 < sqrt (n2 / PI))
    by (apply sqrt_lt_R0, Rdiv_lt_0_compat; assumption).
  assert (En : sqrt ((2 * INR l + 1) / (4 * PI) * (rfact (l - a) / rfact (l + a)))
               = sqrt (n2 / PI)).
  { apply f_equal. unfold n2, nsq. pose proof (rfact_pos (l + a)).
    destruct (Nat.eqb_spec a 0) as [->|Na].
    - field. split; [|lra]. rewrite Nat.add_0_r in *. lra.
    - destruct a as [|a0]; [lia|]. field. split; lra. }
  exists (b / sqrt (n2 / PI)). split; [exact Hk|].
  intros ps Y HY.
  assert (G : exists h, csh (Z.of_nat l) m = Some h /\
    forall rho th ph, rho <> 0 ->
      h (rho * sin th * cos ph) (rho * sin th * sin ph) (rho * cos th) rho
      = (b / sqrt (n2 / PI) * fst (Ycplx l m th ph),
         b / sqrt (n2 / PI) * snd (Ycplx l m th ph))).
  { unfold Ycplx. cbv zeta. fold a.
    destruct (Z.ltb_spec m 0) as [Hneg|Hpos].
    - exists g. split; [rewrite <- Eg; f_equal; unfold a; lia|].
      intros rho th ph Hr.
      destruct (V rho (cos th) (sin th) (cos ph) (sin ph) Hr (sin2 _) (sin2 _)) as [_ W].
      rewrite W, !shape_ok, En, Derive_leg. cbn [fst snd]. unfold shp, tri.
      apply f_equal2; field; lra.
    - exists f. split; [rewrite <- Ef; f_equal; unfold a; lia|].
      intros rho th ph Hr.
      destruct (V rho (cos th) (sin th) (cos ph) (sin ph) Hr (sin2 _) (sin2 _)) as [W _].
      rewrite W, !shape_ok, En, Derive_leg. cbn [fst snd]. unfold shp, tri.
      apply f_equal2; field; lra. }
  destruct G as (h & Eh & Wh).
  destruct (spherical_ok cplx (re 0) csh ps (Z.of_nat l) m Y h Eh HY)
    as (Y' & E & L & O & W).
  exists Y'. split; [exact E|]. split; [exact L|]. split; [exact O|]. split.
  - intros i rho th ph Hi Hr. rewrite (W _ _ Hi). cbn [polar px py pz pr].
    destruct (Rlt_dec rho 1e-10) as [B|_]; [lra|].
    rewrite Wh by lra. destruct (0 <? Z.of_nat l)%Z; reflexivity.
  - intros i p Hi Hr Hl1. rewrite (W _ _ Hi).
    replace (0 <? Z.of_nat l)%Z with true by (symmetry; apply Z.ltb_lt; lia).
    destruct (Rlt_dec (pr p) 1e-10) as [_|B]; [reflexivity|lra].
Qed.
Print Assumptions C68_complex.

Example C68_complex_example :
  exists k, Rabs (k - 1) <= 1e-14 /\
    ComplexSphericalHarmonic [polar 1 0 0; Pt 0 0 0 0] 1 (-1) [(1, 2); (3, 4)]
    = Ok [(k * fst (Ycplx 1 (-1) 0 0), k * snd (Ycplx 1 (-1) 0 0)); (0, 0)].
Proof.
  destruct (C68_complex 1 (-1) ltac:(lia) ltac:(lia)) as (k & Hk & H).
  exists k. split; [exact Hk|].
  destruct (H [polar 1 0 0; Pt 0 0 0 0] [(1, 2); (3, 4)]) as (Y' & E & L & O & W & Z0);
    [cbn; lia|].
  change (Z.of_nat 1) with 1%Z in E. rewrite E. clear E.
  pose proof (W 0%nat 1 0 0 eq_refl ltac:(lra)) as W0.
  pose proof (Z0 1%nat (Pt 0 0 0 0) eq_refl ltac:(cbn; lra) ltac:(lia)) as W1.
  destruct Y' as [|u [|v [|]]]; try discriminate L.
  cbn [nth_error] in W0, W1. injection W0 as W0. injection W1 as W1.
  rewrite W0, W1. reflexivity.
Qed.
