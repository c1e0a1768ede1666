(** C35, C36, C37: molecular-dynamics integrators and initial velocities. *)
From Coq Require Import Reals Lra Lia List Bool ZArith.
From Verif Require Import CBase MD.
Import ListNotations.
Local Open Scope R_scope.

(** ** C35 *)
(** [n] NVE steps, reversal of all velocities, and [n] more steps lead back
    to the starting positions with the starting velocities reversed - for
    any force that depends on the positions only, any time step (also
    negative or zero), any masses, any mixture of periodic and Dirichlet
    directions - provided the starting positions lie in the cell and the
    stored accelerations are those of the starting positions, and no atom
    leaves the cell through a Dirichlet face (the run is [Ok]). *)
Theorem C35_reversible : forall BC L forces dt ms n s s',
  (forall d, (d < 3)%nat -> BC d = 0%Z -> 0 < L d) ->
  (forall p, length p = length ms -> length (forces p) = length ms) ->
  settled (rwraparound BC L) forces ms s ->
  nve_run (rwraparound BC L) forces dt ms n s = Ok s' ->
  nve_run (rwraparound BC L) forces dt ms n (neg_vel s') = Ok (neg_vel s) /\
  settled (rwraparound BC L) forces ms s'.
Proof.
  intros BC L forces dt ms n s s' HL Hf Hs H.
  assert (Hc : shift_ok (rwraparound BC L)).
  { split; [apply rwraparound_length | intros; apply rwraparound_shift; assumption]. }
  destruct (nve_run_back _ forces dt ms Hc Hf n s s' Hs H). auto.
Qed.
Print Assumptions C35_reversible.

(** Total momentum in direction [d] never changes when the forces of every
    configuration sum to zero in that direction. *)
Theorem C35_momentum : forall BC L forces dt ms n s s' d,
  (forall d, (d < 3)%nat -> BC d = 0%Z -> 0 < L d) ->
  (forall p, length p = length ms -> length (forces p) = length ms) ->
  Forall (fun m => m <> 0) ms ->
  (forall p, length p = length ms -> total d (forces p) = 0) ->
  settled (rwraparound BC L) forces ms s ->
  nve_run (rwraparound BC L) forces dt ms n s = Ok s' ->
  momentum d ms (vel s') = momentum d ms (vel s).
Proof.
  intros BC L forces dt ms n s s' d HL Hf Hm H0 Hs H.
  assert (Hc : shift_ok (rwraparound BC L)).
  { split; [apply rwraparound_length | intros; apply rwraparound_shift; assumption]. }
  exact (nve_run_momentum _ forces dt ms Hc Hf Hm d n H0 s s' Hs H).
Qed.
Print Assumptions C35_momentum.

(** In general one step changes the momentum by dt times the average of the
    total forces before and after. *)
Theorem C35_momentum_balance : forall BC L forces dt ms s s' ke d,
  (forall d, (d < 3)%nat -> BC d = 0%Z -> 0 < L d) ->
  (forall p, length p = length ms -> length (forces p) = length ms) ->
  Forall (fun m => m <> 0) ms ->
  settled (rwraparound BC L) forces ms s ->
  nve (rwraparound BC L) forces dt ms s = Ok (s', ke) ->
  momentum d ms (vel s') = momentum d ms (vel s) + dt * ((total d (forces (pos s)) + total d (forces (pos s'))) / 2)
  /\ ke = kinetic ms (vel s').
Proof.
  intros BC L forces dt ms s s' ke d HL Hf Hm Hs H.
  assert (Hc : shift_ok (rwraparound BC L)).
  { split; [apply rwraparound_length | intros; apply rwraparound_shift; assumption]. }
  split.
  - rewrite (nve_momentum _ forces dt ms Hc Hf Hm d s s' ke Hs H). field.
  - unfold nve in H. destruct (rwraparound BC L _); try discriminate. cbn [obind] in H. injection H as <- <-. reflexivity.
Qed.
Print Assumptions C35_momentum_balance.

(** The positions after a step lie in the cell, and differ from
    r + dt (v + dt a / 2) by a whole number of cell lengths in each periodic
    direction. *)
Theorem C35_positions : forall L x, 0 < L ->
  0 <= rwrap L x < L /\ exists n : Z, rwrap L x = x + IZR n * L.
Proof.
  intros L x HL. split; [apply rwrap_range; exact HL|]. exists (- rfloor (x / L))%Z.
  rewrite rwrap_floor by exact HL. rewrite opp_IZR. ring.
Qed.
Print Assumptions C35_positions.

(** Two atoms joined by a spring in a periodic box: the hypotheses hold. *)
Definition spring (p : list v3) : list v3 :=
  match p with
  | [a; b] => let f := V3 (cx b - cx a) (cy b - cy a) (cz b - cz a) in [f; opp3 f]
  | _ => p
  end.
Example C35_example :
  let BC := fun _ : nat => 0%Z in let L := fun _ : nat => 10 in let ms := [2; 3] in
  let s := MD [V3 1 1 1; V3 9 2 1] [V3 1 0 0; V3 (-1) 5 0] (accel [2; 3] (spring [V3 1 1 1; V3 9 2 1])) in
  settled (rwraparound BC L) spring ms s /\
  (forall p, length p = length ms -> length (spring p) = length ms) /\
  (forall d p, length p = length ms -> total d (spring p) = 0) /\
  forall n, exists s', nve_run (rwraparound BC L) spring 1 ms n s = Ok s'.
Proof.
  intros BC L ms s.
  assert (Ok_all : forall ps, exists ps', rwraparound BC L ps = Ok ps').
  { intros ps. rewrite rwraparound_spec. assert (T : forallb (chk3 BC L) ps = true) by (induction ps; auto).
    rewrite T. eexists; reflexivity. }
  assert (In : rwraparound BC L (pos s) = Ok (pos s)).
  { rewrite rwraparound_spec. cbn. unfold fix3, fix1. cbn. unfold rwrap, L.
    repeat match goal with |- context [Rlt_dec ?a ?b] => destruct (Rlt_dec a b) as [E|E]; [exfalso; lra | clear E] end.
    repeat match goal with |- context [Rle_dec ?a ?b] => destruct (Rle_dec a b) as [E|E]; [exfalso; lra | clear E] end.
    reflexivity. }
  split; [|split; [|split]].
  - split; [exact In|]. repeat split.
  - intros [|a [|b [|c p]]] H; cbn in *; try discriminate; reflexivity.
  - intros d [|a [|b [|c p]]] H; cbn in *; try discriminate. unfold total; cbn. destruct d as [|[|d]]; cbn; ring.
  - intros n. generalize s. induction n as [|n IH]; intros s0; [eexists; reflexivity|]. cbn [nve_run]. unfold nve.
    destruct (Ok_all (pos (leapfrog1 1 s0))) as [p' ->]. cbn [obind]. apply IH.
Qed.

(** ** C36 *)
Definition all_zero (l : list v3) : Prop := Forall (fun v => v = V3 0 0 0) l.
Lemma v3_dec (a b : v3) : {a = b} + {a <> b}.
Proof.
  destruct a as [a1 a2 a3], b as [b1 b2 b3]. destruct (Req_EM_T a1 b1) as [->|N]; [|right; congruence].
  destruct (Req_EM_T a2 b2) as [->|N]; [|right; congruence]. destruct (Req_EM_T a3 b3) as [->|N]; [left; reflexivity|right; congruence].
Qed.
Lemma not_all_zero l : ~ all_zero l -> Exists (fun v => v <> V3 0 0 0) l.
Proof.
  unfold all_zero. intros H. induction l as [|v l IH]; [exfalso; apply H; constructor|].
  destruct (v3_dec v (V3 0 0 0)) as [E|E]; [|left; exact E]. right. apply IH. intros F. apply H. constructor; assumption.
Qed.
Lemma all_zero_v2 ms : forall vs, all_zero vs -> v2sum ms vs = 0.
Proof.
  unfold v2sum, all_zero. induction ms as [|m ms IH]; intros [|v vs] H; cbn; try reflexivity. inversion_clear H. subst.
  rewrite IH by assumption. unfold dot3; cbn. ring.
Qed.
Lemma all_zero_fa : forall fs accs, all_zero fs -> rlsum (map2 dot3 fs accs) = 0.
Proof.
  unfold all_zero. induction fs as [|f fs IH]; intros [|a accs] H; cbn; try reflexivity. inversion_clear H. subst.
  rewrite IH by assumption. unfold dot3; cbn. ring.
Qed.

(** Each half step is defined and leaves the kinetic energy unchanged, for
    all positive masses, every time step and every force that is not zero
    on all atoms, when the velocities are not all zero. *)
Theorem C36_first_half : forall dt ms fs s,
  Forall (fun m => 0 < m) ms -> length (vel s) = length ms -> length fs = length ms ->
  acc s = accel ms fs -> ~ all_zero (vel s) -> ~ all_zero fs ->
  exists s', calc_vel1 dt ms fs s = Ok s' /\ kinetic ms (vel s') = kinetic ms (vel s).
Proof.
  intros dt ms fs s Hm Lv Lf Ha Nv Nf. unfold calc_vel1. rewrite Ha.
  destruct (gauss_ok dt ms (vel s) fs Hm Lv Lf (not_all_zero _ Nv) (not_all_zero _ Nf)) as (v' & -> & _ & K).
  eexists. split; [reflexivity|]. exact K.
Qed.
Print Assumptions C36_first_half.
Theorem C36_second_half : forall dt ms fs s,
  Forall (fun m => 0 < m) ms -> length (vel s) = length ms -> length fs = length ms ->
  ~ all_zero (vel s) -> ~ all_zero fs ->
  exists s' ke, calc_vel2 dt ms fs s = Ok (s', ke) /\ ke = kinetic ms (vel s) /\ kinetic ms (vel s') = ke /\ acc s' = accel ms fs.
Proof.
  intros dt ms fs s Hm Lv Lf Nv Nf. unfold calc_vel2.
  destruct (gauss_ok dt ms (vel s) fs Hm Lv Lf (not_all_zero _ Nv) (not_all_zero _ Nf)) as (v' & -> & _ & K).
  eexists _, _. split; [reflexivity|]. cbn. auto.
Qed.
Print Assumptions C36_second_half.

(** The step loop: [fs] are the stored forces. *)
Fixpoint nvk_run check forces dt ms (n : nat) (fs : list v3) (s : mdstate) : outcome mdstate :=
  match n with
  | O => Ok s
  | S n' => do r <- nvk check forces dt ms fs s ; nvk_run check forces dt ms n' (forces (pos (fst r))) (fst r)
  end.
(** After any number of steps that produced numbers, the kinetic energy is
    the initial one. *)
Theorem C36_run : forall check forces dt ms n fs s s',
  Forall (fun m => 0 < m) ms ->
  (forall p, length (forces p) = length ms) ->
  length (vel s) = length ms -> length fs = length ms -> acc s = accel ms fs ->
  nvk_run check forces dt ms n fs s = Ok s' ->
  kinetic ms (vel s') = kinetic ms (vel s).
Proof.
  intros check forces dt ms n fs s s' Hm Hf. revert fs s.
  assert (G : forall vs fs vs', length vs = length ms -> length fs = length ms ->
    gauss_vel dt ms vs fs (accel ms fs) = Ok vs' -> length vs' = length ms /\ kinetic ms vs' = kinetic ms vs).
  { intros vs fs vs' Lv Lf E.
    assert (Nv : ~ all_zero vs).
    { intros Z. unfold gauss_vel in E. fold (v2sum ms vs) in E. rewrite (all_zero_v2 ms vs Z) in E.
      destruct (Req_EM_T 0 0); congruence. }
    assert (Nf : ~ all_zero fs).
    { intros Z. unfold gauss_vel in E. fold (v2sum ms vs) in E. rewrite (all_zero_fa fs (accel ms fs) Z) in E.
      destruct (Req_EM_T (v2sum ms vs) 0); [discriminate|].
      replace (0 / v2sum ms vs) with 0 in E by (field; assumption). destruct (Rle_dec 0 0); [discriminate | lra]. }
    destruct (gauss_ok dt ms vs fs Hm Lv Lf (not_all_zero _ Nv) (not_all_zero _ Nf)) as (v' & E' & L' & K). rewrite E in E'.
    injection E' as <-. auto. }
  induction n as [|n IH]; intros fs s Lv Lf Ha H; [cbn in H; congruence|].
  cbn [nvk_run] in H. unfold nvk, calc_vel1, calc_vel2 in H.
  destruct (gauss_vel dt ms (vel s) fs (acc s)) as [v1| |] eqn:E1; try discriminate. rewrite Ha in E1.
  destruct (G _ _ _ Lv Lf E1) as [L1 K1]. cbn [obind pos vel acc] in H.
  destruct (check _) as [p| |]; try discriminate. cbn [obind pos vel acc] in H.
  destruct (gauss_vel dt ms v1 (forces p) (accel ms (forces p))) as [v2| |] eqn:E2; try discriminate.
  destruct (G _ _ _ L1 (Hf p) E2) as [L2 K2]. cbn [obind fst pos] in H.
  apply IH in H; cbn; auto. cbn in H. congruence.
Qed.
Print Assumptions C36_run.

(** The proviso is needed: with all forces zero (or all velocities zero) the
    update divides 0 by 0, although keeping the velocities would keep the
    kinetic energy. *)
Theorem C36_zero_force_refuted : forall dt ms vs fs accs,
  all_zero fs \/ all_zero vs -> gauss_vel dt ms vs fs accs = UB.
Proof.
  intros dt ms vs fs accs Z. unfold gauss_vel. fold (v2sum ms vs). destruct (Req_EM_T (v2sum ms vs) 0) as [|N]; [reflexivity|].
  destruct Z as [Z|Z]; [|exfalso; apply N, all_zero_v2, Z].
  rewrite (all_zero_fa fs accs Z). replace (0 / v2sum ms vs) with 0 by (field; assumption).
  destruct (Rle_dec 0 0); [reflexivity | lra].
Qed.
Print Assumptions C36_zero_force_refuted.

Example C36_example :
  let s := MD [V3 0 0 0; V3 1 1 1] [V3 1 0 0; V3 (-1) 5 0] (accel [2; 3] [V3 1 0 0; V3 (-1) 0 2]) in
  exists s', calc_vel1 (1/2) [2; 3] [V3 1 0 0; V3 (-1) 0 2] s = Ok s' /\ kinetic [2; 3] (vel s') = 40.
Proof.
  intros s. destruct (C36_first_half (1/2) [2; 3] [V3 1 0 0; V3 (-1) 0 2] s) as (s' & E & K).
  - repeat constructor; lra.
  - reflexivity.
  - reflexivity.
  - reflexivity.
  - intros Z. inversion Z as [|? ? Q]. injection Q as Q. lra.
  - intros Z. inversion Z as [|? ? Q]. injection Q as Q. lra.
  - exists s'. split; [exact E|]. rewrite K. unfold kinetic, s. cbn. unfold dot3; cbn. lra.
Qed.

(** ** C37 *)
(** Whenever the initialisation produces numbers, the kinetic energy is
    exactly dof kB T / 2, whatever the drawn velocities, constraints and
    masses; the stored KE is that of the stored velocities. *)
Theorem C37_temperature : forall dstr kB T ms cs raw v ke,
  init_vel dstr kB T ms cs raw = Ok (v, ke) ->
  ke = kinetic ms v /\ ke = IZR (dof cs) * kB * T / 2.
Proof.
  intros dstr kB T ms cs raw v ke. unfold init_vel.
  set (v1 := zero_fixed cs _). destruct (Rle_dec (kinetic ms v1) 0) as [|P]; [discriminate|].
  destruct (Rlt_dec (IZR (dof cs) * kB * T / (2 * kinetic ms v1)) 0) as [|Q]; [discriminate|].
  intros H. injection H as <- <-. split; [reflexivity|].
  rewrite kinetic_v2, v2_scale, sqrt_sqrt by lra.
  replace (v2sum ms v1) with (2 * kinetic ms v1) by (rewrite kinetic_v2; field).
  field. lra.
Qed.
Print Assumptions C37_temperature.

(** For velocities drawn by the program (ion_vel_dstr 1 or 2) the total
    momentum is zero in every direction in which all atoms are free. *)
Theorem C37_momentum : forall dstr kB T ms cs raw v ke d,
  dstr <> 3%Z -> (d < 3)%nat -> length raw = length ms -> length cs = length ms -> rlsum ms <> 0 ->
  Forall (fun c => kcomp d c = 1%Z) cs ->
  init_vel dstr kB T ms cs raw = Ok (v, ke) -> momentum d ms v = 0.
Proof.
  intros dstr kB T ms cs raw v ke d Hs Hd Lr Lc Hm Hfree. unfold init_vel.
  destruct (Rle_dec _ 0); [discriminate|]. destruct (Rlt_dec _ 0); [discriminate|].
  intros H. injection H as <- _. rewrite momentum_scale.
  unfold remove_translation. rewrite (proj2 (Z.eqb_neq dstr 3) Hs).
  rewrite momentum_free by (auto; rewrite map_length; lia).
  rewrite momentum_removed by assumption. ring.
Qed.
Print Assumptions C37_momentum.

(** Fixed coordinates get velocity zero. *)
Theorem C37_fixed : forall dstr kB T ms cs raw v ke i d c w,
  init_vel dstr kB T ms cs raw = Ok (v, ke) -> (d < 3)%nat ->
  nth_error cs i = Some c -> nth_error v i = Some w -> kcomp d c = 0%Z -> comp d w = 0.
Proof.
  intros dstr kB T ms cs raw v ke i d c w. unfold init_vel.
  destruct (Rle_dec _ 0); [discriminate|]. destruct (Rlt_dec _ 0); [discriminate|].
  intros H. injection H as <- _. intros Hd Hc Hw H0.
  rewrite nth_error_map in Hw. destruct (nth_error (zero_fixed cs _) i) as [w0|] eqn:E; [|discriminate].
  injection Hw as <-. rename E into E0.
  assert (G : forall cs l i, nth_error cs i = Some c -> nth_error (zero_fixed cs l) i = Some w0 -> comp d w0 = 0).
  { clear - Hd H0. unfold zero_fixed. induction cs as [|c0 cs' IH]; intros l [|i] Hc E; cbn in Hc; try discriminate.
    - injection Hc as ->. destruct l as [|x l]; cbn in E; [discriminate|]. injection E as <-.
      destruct d as [|[|[|d]]]; try lia; cbn in *; rewrite H0; ring.
    - destruct l as [|x l]; cbn in E; [discriminate|]. apply (IH l i Hc E). }
  specialize (G _ _ _ Hc E0). destruct d as [|[|[|d]]]; try lia; cbn in *; rewrite G; ring.
Qed.
Print Assumptions C37_fixed.

(** It produces numbers exactly when some movable coordinate has a nonzero
    velocity left and dof kB T is not negative. *)
Theorem C37_defined : forall dstr kB T ms cs raw,
  Forall (fun m => 0 < m) ms -> length raw = length ms -> length cs = length ms -> 0 <= IZR (dof cs) * kB * T ->
  (exists r, init_vel dstr kB T ms cs raw = Ok r) <->
  ~ all_zero (zero_fixed cs (remove_translation dstr ms raw)).
Proof.
  intros dstr kB T ms cs raw Hm Lr Lc HT. unfold init_vel. set (v1 := zero_fixed cs _).
  assert (L1 : length v1 = length ms).
  { unfold v1, zero_fixed. apply map2_length; [exact Lc|]. unfold remove_translation. rewrite map_length. exact Lr. }
  rewrite kinetic_v2. pose proof (v2_nonneg ms v1 Hm) as P. split.
  - intros [r H] Z. rewrite (all_zero_v2 ms v1 Z) in H. destruct (Rle_dec (/ 2 * 0) 0); [discriminate | lra].
  - intros N. destruct (Rle_dec (/ 2 * v2sum ms v1) 0) as [E|E].
    + exfalso. apply N. apply (v2_pos_iff ms v1 Hm L1). lra.
    + destruct (Rlt_dec (IZR (dof cs) * kB * T / (2 * (/ 2 * v2sum ms v1))) 0) as [Q|Q]; [|eexists; reflexivity].
      exfalso. assert (0 < / (2 * (/ 2 * v2sum ms v1))) by (apply Rinv_0_lt_compat; lra). unfold Rdiv in Q. nra.
Qed.
Print Assumptions C37_defined.

(** A single free atom: dof = 0 and the translation removal leaves zero
    velocity, so the rescaling is 0/0 for both random distributions. *)
Theorem C37_single_atom_refuted : forall dstr kB T m v, dstr <> 3%Z -> m <> 0 ->
  init_vel dstr kB T [m] [C3 1 1 1] [v] = UB.
Proof.
  intros dstr kB T m v Hs Hm. unfold init_vel, remove_translation. rewrite (proj2 (Z.eqb_neq dstr 3) Hs).
  assert (E : kinetic [m] (zero_fixed [C3 1 1 1] (map (fun v0 => V3 (cx v0 - momentum 0 [m] [v] / rlsum [m])
     (cy v0 - momentum 1 [m] [v] / rlsum [m]) (cz v0 - momentum 2 [m] [v] / rlsum [m])) [v])) = 0).
  { unfold kinetic, momentum, zero_fixed, dot3; cbn. field. exact Hm. }
  rewrite E. destruct (Rle_dec 0 0); [reflexivity | lra].
Qed.
Print Assumptions C37_single_atom_refuted.

(** With an atom fixed in x the total x momentum is not zero after the
    initialisation: the translation is removed before the fixed coordinates
    are zeroed. *)
Theorem C37_momentum_fixed_refuted : exists kB T ms cs raw v ke,
  Forall (fun m => 0 < m) ms /\ init_vel 2 kB T ms cs raw = Ok (v, ke) /\ momentum 0 ms v <> 0.
Proof.
  set (cs := [C3 0 1 1; C3 1 1 1]). set (raw := [V3 0 0 0; V3 2 0 0]).
  assert (Z0 : ~ all_zero (zero_fixed cs (remove_translation 2 [1; 1] raw))).
  { intros Z. unfold zero_fixed, remove_translation, cs, raw in Z. cbn in Z.
    inversion Z as [|? ? _ Z1]. inversion Z1 as [|? ? Q _]. injection Q as Q _ _. unfold momentum in Q; cbn in Q. lra. }
  destruct (proj2 (C37_defined 2 1 1 [1; 1] cs raw ltac:(repeat constructor; lra) eq_refl eq_refl ltac:(cbn; lra)) Z0) as [[v ke] E].
  exists 1, 1, [1; 1], cs, raw, v, ke. split; [repeat constructor; lra|]. split; [exact E|].
  unfold init_vel in E. set (v1 := zero_fixed cs _) in E.
  destruct (Rle_dec (kinetic [1; 1] v1) 0) as [|P]; [discriminate|]. destruct (Rlt_dec _ 0); [discriminate|].
  pose proof (f_equal (fun o => match o with Ok r => fst r | _ => [] end) E) as Ev. cbv beta iota in Ev. cbn [fst] in Ev.
  rewrite <- Ev, momentum_scale. clear Ev E Z0.
  assert (M1 : momentum 0 [1; 1] v1 = 1).
  { unfold v1, zero_fixed, remove_translation, cs, raw, momentum; cbn. lra. }
  rewrite M1, Rmult_1_r. apply Rgt_not_eq, Rlt_gt, sqrt_lt_R0. change (dof cs) with 3%Z.
  apply Rmult_lt_0_compat; [lra | apply Rinv_0_lt_compat; lra].
Qed.
Print Assumptions C37_momentum_fixed_refuted.

(** User-given velocities (ion_vel_dstr 3) keep their drift. *)
Theorem C37_user_drift_refuted : exists kB T ms cs raw v ke,
  Forall (fun c => kcomp 0 c = 1%Z) cs /\ init_vel 3 kB T ms cs raw = Ok (v, ke) /\ momentum 0 ms v <> 0.
Proof.
  set (cs := [C3 1 1 1; C3 1 1 1]). set (raw := [V3 1 0 0; V3 2 0 0]).
  assert (Z0 : ~ all_zero (zero_fixed cs (remove_translation 3 [1; 1] raw))).
  { intros Z. unfold zero_fixed, remove_translation, cs, raw in Z. cbn in Z.
    inversion Z as [|? ? Q _]. injection Q as Q _ _. lra. }
  destruct (proj2 (C37_defined 3 1 1 [1; 1] cs raw ltac:(repeat constructor; lra) eq_refl eq_refl ltac:(cbn; lra)) Z0) as [[v ke] E].
  exists 1, 1, [1; 1], cs, raw, v, ke. split; [repeat constructor|]. split; [exact E|].
  unfold init_vel in E. set (v1 := zero_fixed cs _) in E.
  destruct (Rle_dec (kinetic [1; 1] v1) 0) as [|P]; [discriminate|]. destruct (Rlt_dec _ 0); [discriminate|].
  pose proof (f_equal (fun o => match o with Ok r => fst r | _ => [] end) E) as Ev. cbv beta iota in Ev. cbn [fst] in Ev.
  rewrite <- Ev, momentum_scale. clear Ev E Z0.
  assert (M1 : momentum 0 [1; 1] v1 = 3).
  { unfold v1, zero_fixed, remove_translation, cs, raw, momentum; cbn. lra. }
  rewrite M1. apply Rmult_integral_contrapositive. split; [|lra]. apply Rgt_not_eq, Rlt_gt, sqrt_lt_R0. change (dof cs) with 3%Z.
  apply Rmult_lt_0_compat; [lra | apply Rinv_0_lt_compat; lra].
Qed.
Print Assumptions C37_user_drift_refuted.

(** Uniform distribution: a velocity whose direction was drawn has speed
    vel_cm; this covers the first atom and every atom for which the
    rejection loop ran. *)
Lemma redraw_ok rnd : forall s x y s1 x1 y1 rnd1, (1 < s \/ s = x * x + y * y) ->
  redraw s x y rnd = Some (s1, x1, y1, rnd1) -> s1 = x1 * x1 + y1 * y1 /\ s1 <= 1.
Proof.
  induction rnd as [|[u u'] rnd IH]; intros s x y s1 x1 y1 rnd1 H; cbn [redraw]; destruct (Rlt_dec 1 s) as [E|E]; try discriminate.
  - intros Q. injection Q as <- <- <- <-. destruct H as [H|H]; [lra|]. split; [exact H | lra].
  - apply IH. right. reflexivity.
  - intros Q. injection Q as <- <- <- <-. destruct H as [H|H]; [lra|]. split; [exact H | lra].
Qed.
Theorem C37_uniform_speed : forall vel_cm n s x y rnd v l,
  1 < s -> uniform_vels vel_cm (S n) s x y rnd = Some (v :: l) -> dot3 v v = vel_cm * vel_cm.
Proof.
  intros vel_cm n s x y rnd v l Hs. cbn [uniform_vels]. destruct (redraw s x y rnd) as [[[[s1 x1] y1] rnd1]|] eqn:E; [|discriminate].
  destruct (redraw_ok rnd _ _ _ _ _ _ _ (or_introl Hs) E) as [A B].
  destruct (uniform_vels _ n _ _ _ _) as [l'|]; [|discriminate]. intros H. injection H as <- _.
  unfold dot3; cbn [cx cy cz].
  assert (Q : sqrt (1 - s1) * sqrt (1 - s1) = 1 - s1) by (apply sqrt_sqrt; lra).
  set (r := sqrt (1 - s1)) in *.
  replace (2 * r * x1 * vel_cm * (2 * r * x1 * vel_cm) + 2 * r * y1 * vel_cm * (2 * r * y1 * vel_cm) + vel_cm * (1 - 2 * s1) * (vel_cm * (1 - 2 * s1)))
    with (vel_cm * vel_cm * (4 * (r * r) * (x1 * x1 + y1 * y1) + (1 - 2 * s1) * (1 - 2 * s1))) by ring.
  rewrite Q, <- A. ring.
Qed.
Print Assumptions C37_uniform_speed.

(** But the rejection variable is not reset between atoms: when
    2 sqrt(1 - s) <= 1 the next atom reuses the old x and y with an unrelated
    s.  Witness with values of a 31-bit rand(): two atoms, one draw, and the
    second speed differs from vel_cm. *)
Theorem C37_uniform_speed_refuted : exists (k k' : Z) v1 v2,
  (0 <= k <= 2147483647 /\ 0 <= k' <= 2147483647)%Z /\
  uniform_vels 1 2 2 0 0 [(IZR k / 2147483647, IZR k' / 2147483647)] = Some [v1; v2] /\
  dot3 v1 v1 = 1 /\ dot3 v2 v2 <> 1.
Proof.
  exists 50000000%Z, 1073741823%Z.
  set (u := IZR 50000000 / 2147483647). set (u' := IZR 1073741823 / 2147483647).
  set (x := 2 * u - 1). set (y := 2 * u' - 1). set (s := x * x + y * y). set (s' := 2 * sqrt (1 - s)).
  assert (Hx : -0.954 < x < -0.953) by (unfold x, u; lra).
  assert (Hy : -0.01 < y < 0) by (unfold y, u'; lra).
  assert (Hs : 0.908 < s < 0.911) by (unfold s; nra).
  assert (Hr0 : 0 <= sqrt (1 - s)) by apply sqrt_pos.
  assert (Hr : sqrt (1 - s) * sqrt (1 - s) = 1 - s) by (apply sqrt_sqrt; lra).
  assert (Hs' : 0 <= s' < 0.7) by (unfold s'; nra).
  assert (Hq : sqrt (1 - s') * sqrt (1 - s') = 1 - s') by (apply sqrt_sqrt; lra).
  exists (V3 (s' * x * 1) (s' * y * 1) (1 * (1 - 2 * s))).
  exists (V3 (2 * sqrt (1 - s') * x * 1) (2 * sqrt (1 - s') * y * 1) (1 * (1 - 2 * s'))).
  split; [lia|]. split; [|split].
  - cbn [uniform_vels redraw]. destruct (Rlt_dec 1 2) as [_|N]; [|lra].
    fold u u' x y s. unfold redraw. destruct (Rlt_dec 1 s) as [N|_]; [lra|].
    fold s'. destruct (Rlt_dec 1 s') as [N|_]; [lra|]. reflexivity.
  - unfold dot3; cbn [cx cy cz]. replace (s' * x * 1 * (s' * x * 1) + s' * y * 1 * (s' * y * 1) + 1 * (1 - 2 * s) * (1 * (1 - 2 * s)))
      with (s' * s' * (x * x + y * y) + (1 - 2 * s) * (1 - 2 * s)) by ring.
    fold s. assert (Q4 : s' * s' = 4 * (1 - s)) by (unfold s'; lra). rewrite Q4. ring.
  - unfold dot3; cbn [cx cy cz]. set (q := sqrt (1 - s')) in *.
    replace (2 * q * x * 1 * (2 * q * x * 1) + 2 * q * y * 1 * (2 * q * y * 1) + 1 * (1 - 2 * s') * (1 * (1 - 2 * s')))
      with (4 * (q * q) * (x * x + y * y) + (1 - 2 * s') * (1 - 2 * s')) by ring.
    fold s. rewrite Hq. replace (4 * (1 - s') * s + (1 - 2 * s') * (1 - 2 * s')) with (1 + 4 * ((1 - s') * (s - s'))) by ring.
    assert (0 < (1 - s') * (s - s')) by (apply Rmult_lt_0_compat; lra). lra.
Qed.
Print Assumptions C37_uniform_speed_refuted.

(** The Maxwell distribution takes the logarithm of a rand() value that may
    be zero. *)
Theorem C37_maxwell_zero_refuted : forall kB T m u, maxwell kB T m u (IZR 0 / 2147483647) = UB.
Proof. intros. unfold maxwell. destruct (Rle_dec (0 / 2147483647) 0); [reflexivity | lra]. Qed.
Print Assumptions C37_maxwell_zero_refuted.

(** Two free atoms with different drawn velocities meet the hypotheses. *)
Example C37_example : exists v, init_vel 2 1 3 [1; 2] [C3 1 1 1; C3 1 1 1] [V3 1 0 0; V3 0 1 0] = Ok (v, 9 / 2).
Proof.
  assert (Z0 : ~ all_zero (zero_fixed [C3 1 1 1; C3 1 1 1] (remove_translation 2 [1; 2] [V3 1 0 0; V3 0 1 0]))).
  { intros Z. unfold zero_fixed, remove_translation in Z. cbn in Z.
    inversion Z as [|? ? Q _]. injection Q as Q _ _. unfold momentum in Q; cbn in Q. lra. }
  destruct (proj2 (C37_defined 2 1 3 [1; 2] [C3 1 1 1; C3 1 1 1] [V3 1 0 0; V3 0 1 0] ltac:(repeat constructor; lra) eq_refl eq_refl ltac:(cbn; lra)) Z0) as [[v ke] E].
  exists v. rewrite E. f_equal. f_equal. destruct (C37_temperature _ _ _ _ _ _ _ _ E) as [_ ->]. cbn. lra.
Qed.
