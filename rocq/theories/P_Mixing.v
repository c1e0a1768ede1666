(** C29, C30. *)
From Coq Require Import ZArith List Lia Bool QArith Arith Lqa.
From Verif Require Import CBase Spline Mixing.
Import ListNotations.
Local Open Scope nat_scope.

(** C29.  Start an SCF with x_0 and zeroed history.  After iterations
    0..k (with any outputs [gs] and any mixed inputs [xs]) every access was
    inside the allocated N*m cells and
    - for each of the last min(k, m) iterations t (with the restart flag: for
      each t since the last restart, i.e. t > m*floor((k-1)/m)), column
      (t-1) mod m of R is x_t - x_{t-1} and of F is f_t - f_{t-1};
    - every other column is zero. *)
Theorem C29_history : forall (A : Type) (sub : A -> A -> A) (zero : A) (N m : nat) (restart : bool)
    (gs xs : nat -> nat -> A) (s0 : mstate A),
  0 < m ->
  (forall i, i < N -> xk s0 i = xs 0 i) ->
  (forall p, p < N * m -> Rm s0 p = zero /\ Fm s0 p = zero) ->
  forall k, exists s, scf A sub zero N m (N * m) restart gs xs (S k) s0 = Ok s /\
    (forall t, 1 <= t <= k -> (if restart then m * ((k - 1) / m) < t else k < t + m) ->
       forall i, i < N ->
         Rm s ((t - 1) mod m * N + i) = sub (xs t i) (xs (t - 1) i) /\
         Fm s ((t - 1) mod m * N + i) = sub (sub (gs t i) (xs t i)) (sub (gs (t - 1) i) (xs (t - 1) i))) /\
    (forall j, j < m ->
       (forall t, 1 <= t <= k -> (if restart then m * ((k - 1) / m) < t else k < t + m) -> (t - 1) mod m <> j) ->
       forall i, i < N -> Rm s (j * N + i) = zero /\ Fm s (j * N + i) = zero).
Proof.
  intros A sub zero N m restart gs xs s0 Hm Hx H0 k.
  destruct (scf_inv A sub zero N m restart gs xs s0 Hm Hx H0 k) as (s & E & _ & _ & _ & I4 & I5).
  assert (K : forall t, kept m restart k t <-> (1 <= t <= k /\ (if restart then m * ((k - 1) / m) < t else k < t + m))).
  { intros t. unfold kept. rewrite (Nat.mul_comm m). reflexivity. }
  exists s. split; [exact E|]. split.
  - intros t H1 H2. apply I4. apply K. split; assumption.
  - intros j Hj Nj. apply I5; [exact Hj|]. intros t Kt. apply K in Kt. apply Nj; tauto.
Qed.
Print Assumptions C29_history.

(** The kept differences occupy distinct columns. *)
Theorem C29_columns_distinct : forall (m : nat) (restart : bool) (k t t' : nat), 0 < m ->
  1 <= t <= k -> (if restart then m * ((k - 1) / m) < t else k < t + m) ->
  1 <= t' <= k -> (if restart then m * ((k - 1) / m) < t' else k < t' + m) ->
  (t - 1) mod m = (t' - 1) mod m -> t = t'.
Proof.
  intros m restart k t t' Hm H1 H2 H3 H4 E.
  assert (G : forall u, 1 <= u <= k -> (if restart then m * ((k - 1) / m) < u else k < u + m) -> k < u + m).
  { intros u Hu1 Hu2. destruct restart; [|exact Hu2].
    pose proof (Nat.div_mod (k - 1) m ltac:(lia)). pose proof (Nat.mod_upper_bound (k - 1) m ltac:(lia)). nia. }
  pose proof (G t H1 H2). pose proof (G t' H3 H4).
  destruct (Nat.eq_dec t t') as [|N]; [assumption|]. exfalso.
  destruct (Nat.lt_total t t') as [L|[L|L]]; [| contradiction |].
  - apply (mod_neq m (t' - 1) (t - 1)); try lia.
  - apply (mod_neq m (t - 1) (t' - 1)); try lia.
Qed.
Print Assumptions C29_columns_distinct.

(** Preconditions of the index arithmetic: neither is checked when the input
    is read (readfiles.c:509, 524). *)
Theorem C29_zero_history_refuted : forall (A : Type) (sub : A -> A -> A) (zero : A) N cap restart iter g s,
  0 < iter -> mix_history A sub zero N 0 cap restart iter g s = UB.
Proof.
  intros. unfold mix_history. rewrite (proj2 (Nat.ltb_lt _ _)) by assumption. reflexivity.
Qed.
Print Assumptions C29_zero_history_refuted.

(** Scalars, m = 2: after iterations 0..3 the columns hold differences 3
    and 2; with the restart flag only difference 3 is kept. *)
Definition ex_s0 : mstate Z := mkM (fun _ => 10%Z) (fun _ => 10%Z) (fun _ => 0%Z) (fun _ => 0%Z) (fun _ => 0%Z) (fun _ => 0%Z).
Definition ex_xs (k i : nat) : Z := (10 + Z.of_nat (k * k))%Z.
Definition ex_gs (k i : nat) : Z := Z.of_nat (2 * k * k * k)%nat.
Example C29_example : exists s, scf Z Z.sub 0%Z 1 2 2 false ex_gs ex_xs 4 ex_s0 = Ok s /\
  map (Rm s) [0; 1] = [5%Z; 3%Z].
Proof. eexists. split; reflexivity. Qed.
Example C29_example_restart : exists s, scf Z Z.sub 0%Z 1 2 2 true ex_gs ex_xs 4 ex_s0 = Ok s /\
  map (Rm s) [0; 1] = [5%Z; 0%Z].
Proof. eexists. split; reflexivity. Qed.

(** The hybrid-functional outer loop (src/xc/exx/exactExchange.c:97-100,
    147-255) runs several SCF cycles, each restarting SCFcount at 0, but
    clears the history only before the first: the second cycle extrapolates
    with differences of the first. *)
Theorem C29_outer_loop_refuted : exists s s',
  scf Z Z.sub 0%Z 1 2 2 false ex_gs ex_xs 4 ex_s0 = Ok s /\
  scf Z Z.sub 0%Z 1 2 2 false ex_gs (fun k i => (100 + Z.of_nat k)%Z) 2
      (mkM (fun _ => 100%Z) (fun _ => 100%Z) (fk s) (fkm1 s) (Rm s) (Fm s)) = Ok s' /\
  Rm s' 1 <> 0%Z /\ Rm s' 1 = Rm s 1.
Proof.
  destruct (C29_history Z Z.sub 0%Z 1 2 false ex_gs ex_xs ex_s0 ltac:(lia) ltac:(reflexivity) ltac:(split; reflexivity) 3)
    as (s & E & H & _).
  destruct (H 2 ltac:(lia) ltac:(cbn; lia) 0 ltac:(lia)) as [HR _]. change ((2 - 1) mod 2 * 1 + 0) with 1 in HR.
  clear H. exists s. eexists. split; [exact E|]. split; [reflexivity|]. cbn [mix_shift Rm].
  match goal with |- ?a <> _ /\ _ => assert (X : a = Rm s 1) by reflexivity end.
  rewrite X, HR. split; [discriminate | reflexivity].
Qed.
Print Assumptions C29_outer_loop_refuted.

(** C30.  The mixed density: non-negative at every grid point, integrating to
    the number of electrons, and proportional to the clamped update. *)
Local Open Scope Q_scope.
Theorem C30_density : forall (cyclix : option dvec) (dV NegCharge : Q) (x : dvec),
  weights_ok cyclix dV -> NegCharge <= 0 -> ~ integral cyclix dV (clamp x) == 0 ->
  exists y c, rho_update cyclix dV NegCharge x = Ok y /\
    integral cyclix dV y == - NegCharge /\
    0 <= c /\ y = map (map (fun v => (if qltb v 0 then 0 else v) * c)) x /\
    (forall v p, In p y -> In v p -> 0 <= v).
Proof.
  intros cy dV Neg x Hw HN Hz. unfold rho_update. cbv zeta. set (I := integral cy dV (clamp x)) in *.
  destruct (Qeq_bool I 0) eqn:E; [apply Qeq_bool_iff in E; contradiction|].
  assert (Hcl : forall v p, In p (clamp x) -> In v p -> 0 <= v).
  { intros v p Hp Hv. unfold clamp in Hp. apply in_map_iff in Hp. destruct Hp as (q & <- & _).
    apply in_map_iff in Hv. destruct Hv as (u & <- & _). destruct (qltb u 0) eqn:Eu; [apply Qle_refl|].
    apply qltb_ge in Eu. exact Eu. }
  assert (HI : 0 < I).
  { assert (0 <= I) by (apply integral_nonneg; assumption). apply Qle_lteq in H. destruct H as [H|H]; [exact H|].
    exfalso. apply Hz. symmetry. exact H. }
  assert (Hc : 0 <= - Neg / I) by (apply Qle_shift_div_l; [exact HI | lra]).
  exists (map (map (fun y => y * (- Neg / I))) (clamp x)), (- Neg / I).
  split; [reflexivity|]. split; [rewrite integral_scale; fold I; field; exact Hz|]. split; [exact Hc|]. split.
  - unfold clamp. rewrite map_map. apply map_ext. intros p. rewrite map_map. reflexivity.
  - intros v p Hp Hv. apply in_map_iff in Hp. destruct Hp as (q & <- & Hq).
    apply in_map_iff in Hv. destruct Hv as (u & <- & Hu). apply Qmult_le_0_compat; [apply (Hcl u q); assumption | exact Hc].
Qed.
Print Assumptions C30_density.

(** The integral of every component after the update (spin calculations):
    that of the extrapolated vector plus that of the extrapolated residual,
    whatever the preconditioner returned; in particular the magnetisation,
    which is not modified afterwards. *)
Theorem C30_component_integral : forall (x f Pf : dvec) (y : dvec),
  same_shape x Pf -> (0 < points Pf)%nat ->
  new_comp true (inject_Z (Z.of_nat (points Pf))) x f Pf = Ok y ->
  VectorSum y == VectorSum x + VectorSum f.
Proof.
  intros x f Pf y Hs Hp. unfold new_comp, shift_Pf.
  assert (Nz : ~ inject_Z (Z.of_nat (points Pf)) == 0).
  { change 0 with (inject_Z 0). rewrite inject_Z_injective. lia. }
  destruct (Qeq_bool (inject_Z (Z.of_nat (points Pf))) 0) eqn:E; [apply Qeq_bool_iff in E; contradiction|].
  cbn [obind]. intros H. injection H as <-.
  rewrite VectorSum_add by (apply same_shape_shift, Hs). rewrite VectorSum_shift. field. exact Nz.
Qed.
Print Assumptions C30_component_integral.
Theorem C30_component_defined : forall (spin : bool) (x f Pf : dvec), (0 < points Pf)%nat ->
  exists y, new_comp spin (inject_Z (Z.of_nat (points Pf))) x f Pf = Ok y.
Proof.
  intros spin x f Pf Hp. unfold new_comp, shift_Pf. destruct spin; [|eexists; reflexivity].
  assert (Nz : ~ inject_Z (Z.of_nat (points Pf)) == 0).
  { change 0 with (inject_Z 0). rewrite inject_Z_injective. lia. }
  destruct (Qeq_bool (inject_Z (Z.of_nat (points Pf))) 0) eqn:E; [apply Qeq_bool_iff in E; contradiction|].
  eexists. reflexivity.
Qed.
Print Assumptions C30_component_defined.

(** The two spin densities add up to the density and differ by the
    magnetisation. *)
Theorem C30_spin_resolved : forall rho mag, spin_up rho mag + spin_dn rho mag == rho /\ spin_up rho mag - spin_dn rho mag == mag.
Proof. intros rho mag. unfold spin_up, spin_dn. split; ring. Qed.
Print Assumptions C30_spin_resolved.

(** Two processes, one negative point. *)
Example C30_example : exists y, rho_update None (1 # 2) (-4) [[3; -1]; [2; 1]] = Ok y /\
  map (map Qred) y = [[4; 0]; [8 # 3; 4 # 3]] /\ Qred (VectorSum y * (1 # 2)) = 4.
Proof. eexists. split; [reflexivity|]. split; reflexivity. Qed.
Example C30_example_mag : exists y, new_comp true 3 [[1; 2]; [0]] [[1; 1]; [1]] [[(1 # 2); 0]; [5]] = Ok y /\
  Qred (VectorSum y) = 6.
Proof. eexists. split; reflexivity. Qed.

(** The spin-resolved densities can become negative: the total is clamped
    and rescaled but the magnetisation is not limited by it. *)
Theorem C30_spin_negative_refuted : exists x mag rho,
  rho_update None 1 (-4) x = Ok [[rho]] /\ 0 <= rho /\ spin_dn rho mag < 0.
Proof. exists [[2]], 5, (2 * (- (-4) / (2 * 1))). split; [reflexivity|]. split; [discriminate | reflexivity]. Qed.
Print Assumptions C30_spin_negative_refuted.

(** If no point of the update is positive the rescaling divides by zero. *)
Theorem C30_all_negative_refuted : exists x, x <> [] /\ rho_update None 1 (-4) x = UB.
Proof. exists [[-1; -2]; [0]]. split; [discriminate | reflexivity]. Qed.
Print Assumptions C30_all_negative_refuted.
