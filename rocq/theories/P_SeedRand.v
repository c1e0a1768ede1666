(** C43: seeded random vectors do not depend on the decomposition. *)
From Coq Require Import ZArith List Lia Bool ZifyBool ZifyNat.
From Verif Require Import CBase Mem Factors SeedRand.
Import ListNotations.
Local Open Scope Z_scope.

Definition in_box (D : box) (x y z : Z) : Prop :=
  xs D <= x <= xe D /\ ys D <= y <= ye D /\ zs D <= z <= ze D.
Definition box_in_grid (D : box) (gx gy gz : Z) : Prop :=
  0 <= xs D /\ xe D < gx /\ 0 <= ys D /\ ye D < gy /\ 0 <= zs D /\ ze D < gz.
(** Column-major position of a point of a box, and number of points. *)
Definition local_index (D : box) (x y z : Z) : Z :=
  (x - xs D) + (xe D - xs D + 1) * ((y - ys D) + (ye D - ys D + 1) * (z - zs D)).
Definition volume (D : box) : Z := (xe D - xs D + 1) * (ye D - ys D + 1) * (ze D - zs D + 1).

(** On every process whose box contains the point, the stored value is
    [rnd (global column-major index + 1 + offset)]; all stores stay within the
    local array; nothing overflows as long as the number of mesh points plus
    the offset fits an [int]. *)
Theorem C43_value_of_global_index : forall V (rnd : Z -> V) D gx gy gz off (m : mem V),
  box_in_grid D gx gy gz -> 0 <= off -> gx * gy * gz + off <= INT_MAX ->
  exists ws, SeededRandVec rnd D gx gy off = Ok ws /\
    (forall t v, In (t, v) ws -> 0 <= t < volume D) /\
    (forall x y z, in_box D x y z ->
       run_writes m ws (local_index D x y z) = rnd (x + gx * (y + gy * z) + 1 + off)).
Proof.
  intros V rnd D gx gy gz off m (H1 & H2 & H3 & H4 & H5 & H6) Ho Hb.
  eexists. split; [now apply (seeded_writes rnd D gx gy gz off)|].
  set (nx := xe D - xs D + 1). set (ny := ye D - ys D + 1). set (nz := ze D - zs D + 1).
  split.
  - intros t v Hin. apply in_loop3 in Hin. destruct Hin as (k & j & i & Hk & Hj & Hi & E).
    injection E as -> _. unfold volume. fold nx ny nz.
    pose proof (idx3_bound nx ny nz i j k ltac:(lia) ltac:(lia) ltac:(lia)). nia.
  - intros x y z (Bx & By & Bz). apply run_writes_in.
    + eexists. apply in_loop3. exists (z - zs D), (y - ys D), (x - xs D).
      split; [lia|]. split; [lia|]. split; [lia|]. f_equal.
      unfold local_index, idx3. fold nx ny. ring.
    + intros w Hin. apply in_loop3 in Hin. destruct Hin as (k & j & i & Hk & Hj & Hi & E).
      apply pair_equal_spec in E. destruct E as (E & ->).
      assert (Hidx : idx3 nx ny (x - xs D) (y - ys D) (z - zs D) = idx3 nx ny i j k).
      { rewrite <- E. unfold local_index, idx3. fold nx ny. ring. }
      apply idx3_inj in Hidx; try lia. destruct Hidx as (E1 & E2 & E3).
      f_equal. unfold idx3. rewrite <- E1, <- E2, <- E3. ring.
Qed.
Print Assumptions C43_value_of_global_index.

(** Hence two decompositions agree at every point both own. *)
Theorem C43_decomposition_independent : forall V (rnd : Z -> V) D D' gx gy gz off (m m' : mem V) ws ws' x y z,
  box_in_grid D gx gy gz -> box_in_grid D' gx gy gz -> 0 <= off -> gx * gy * gz + off <= INT_MAX ->
  SeededRandVec rnd D gx gy off = Ok ws -> SeededRandVec rnd D' gx gy off = Ok ws' ->
  in_box D x y z -> in_box D' x y z ->
  run_writes m ws (local_index D x y z) = run_writes m' ws' (local_index D' x y z).
Proof.
  intros V rnd D D' gx gy gz off m m' ws ws' x y z HD HD' Ho Hb E E' Hx Hx'.
  destruct (C43_value_of_global_index V rnd D gx gy gz off m HD Ho Hb) as (w & Ew & _ & H).
  destruct (C43_value_of_global_index V rnd D' gx gy gz off m' HD' Ho Hb) as (w' & Ew' & _ & H').
  rewrite E in Ew. rewrite E' in Ew'. injection Ew as ->. injection Ew' as ->.
  now rewrite H, H' by assumption.
Qed.
Print Assumptions C43_decomposition_independent.

(** The offset of an orbital is defined and non-negative, and within an [int]
    together with the mesh, when the total number of orbital values fits. *)
Theorem C43_orbital_offset : forall Nd Nspinor Nstates Nkpts kg ng sg,
  0 < Nd -> 0 < Nspinor -> 0 < Nstates ->
  0 <= kg < Nkpts -> 0 <= ng < Nstates -> 0 <= sg < Nspinor ->
  Nkpts * Nstates * Nspinor * Nd <= INT_MAX ->
  exists off, orbital_offset Nd Nspinor Nstates kg ng sg = Ok off /\
    off = Nd * (sg + Nspinor * (ng + Nstates * kg)) /\ 0 <= off /\ Nd + off <= INT_MAX.
Proof.
  intros Nd Nsp Ns Nk kg ng sg H1 H2 H3 Hk Hn Hs Hb.
  set (q := sg + Nsp * (ng + Ns * kg)).
  assert (Q0 : 0 <= ng + Ns * kg) by nia.
  assert (Q1 : ng + Ns * kg + 1 <= Ns * Nk) by nia.
  assert (Q2 : 0 <= q) by (unfold q; nia).
  assert (Q3 : q + 1 <= Nsp * (Ns * Nk)).
  { unfold q. assert (Nsp * (ng + Ns * kg) + Nsp <= Nsp * (Ns * Nk)) by nia. lia. }
  assert (Q4 : Nd * q + Nd <= Nd * (Nsp * (Ns * Nk))) by nia.
  assert (Q5 : Nd * (Nsp * (Ns * Nk)) <= INT_MAX) by nia.
  assert (Q6 : 0 <= Nd * q) by nia.
  exists (Nd * q). split; [|split; [reflexivity|split; [exact Q6|lia]]].
  unfold orbital_offset.
  set (a1 := Nd * Nsp). set (t := kg * (a1 * Ns)). set (u := ng * a1). set (w := sg * Nd).
  assert (E : Nd * q = t + u + w) by (unfold q, t, u, w, a1; ring).
  assert (A1 : 0 < a1) by (unfold a1; nia).
  assert (A2 : 0 < a1 * Ns) by nia.
  assert (A3 : a1 * Ns <= INT_MAX).
  { apply Z.le_trans with (Nd * (Nsp * (Ns * Nk))); [|exact Q5]. unfold a1.
    replace (Nd * (Nsp * (Ns * Nk))) with (Nd * Nsp * Ns * Nk) by ring. nia. }
  assert (A4 : a1 <= a1 * Ns) by nia.
  assert (T : 0 <= t) by (unfold t; nia). assert (U : 0 <= u) by (unfold u; nia).
  assert (W : 0 <= w) by (unfold w; nia).
  assert (E0 : t + u + w <= INT_MAX) by lia.
  rewrite (imul_in Nd Nsp) by (fold a1; unfold INT_MAX in *; lia). cbn [obind]. fold a1.
  rewrite (imul_in a1 Ns) by (unfold INT_MAX in *; lia). cbn [obind].
  rewrite (imul_in kg (a1 * Ns)) by (fold t; unfold INT_MAX in *; lia). cbn [obind]. fold t.
  rewrite (imul_in ng a1) by (fold u; unfold INT_MAX in *; lia). cbn [obind]. fold u.
  rewrite (imul_in sg Nd) by (fold w; unfold INT_MAX in *; lia). cbn [obind]. fold w.
  rewrite (iadd_in t u) by (unfold INT_MAX in *; lia). cbn [obind].
  rewrite (iadd_in (t + u) w) by (unfold INT_MAX in *; lia). now rewrite E.
Qed.
Print Assumptions C43_orbital_offset.

(** Distinct (k-point, band, spinor, mesh point) get distinct, positive seeds. *)
Theorem C43_seeds_distinct : forall Nd Nspinor Nstates Nkpts gx gy gz,
  0 < gx -> 0 < gy -> 0 < gz -> Nd = gx * gy * gz -> 0 < Nspinor -> 0 < Nstates ->
  Nkpts * Nstates * Nspinor * Nd <= INT_MAX ->
  forall k n s x y z k' n' s' x' y' z' off off' sd,
    0 <= k < Nkpts -> 0 <= n < Nstates -> 0 <= s < Nspinor ->
    0 <= x < gx -> 0 <= y < gy -> 0 <= z < gz ->
    0 <= k' < Nkpts -> 0 <= n' < Nstates -> 0 <= s' < Nspinor ->
    0 <= x' < gx -> 0 <= y' < gy -> 0 <= z' < gz ->
    orbital_offset Nd Nspinor Nstates k n s = Ok off ->
    orbital_offset Nd Nspinor Nstates k' n' s' = Ok off' ->
    seed_of gx gy off x y z = Ok sd -> seed_of gx gy off' x' y' z' = Ok sd ->
    1 <= sd /\ k = k' /\ n = n' /\ s = s' /\ x = x' /\ y = y' /\ z = z'.
Proof.
  intros Nd Nsp Ns Nk gx gy gz Hgx Hgy Hgz HNd HNsp HNs Hb
         k n s x y z k' n' s' x' y' z' off off' sd Hk Hn Hs Hx Hy Hz Hk' Hn' Hs' Hx' Hy' Hz' Eo Eo' Es Es'.
  assert (Nd0 : 0 < Nd) by (subst Nd; apply Z.mul_pos_pos; [apply Z.mul_pos_pos|]; lia).
  destruct (C43_orbital_offset Nd Nsp Ns Nk k n s Nd0 HNsp HNs Hk Hn Hs Hb) as (o & E1 & F1 & G1 & B1).
  destruct (C43_orbital_offset Nd Nsp Ns Nk k' n' s' Nd0 HNsp HNs Hk' Hn' Hs' Hb) as (o' & E2 & F2 & G2 & B2).
  rewrite Eo in E1. injection E1 as <-. rewrite Eo' in E2. injection E2 as <-.
  rewrite (seed_of_ok gx gy gz) in Es by (rewrite <- ?HNd; lia).
  rewrite (seed_of_ok gx gy gz) in Es' by (rewrite <- ?HNd; lia).
  injection Es as Es. injection Es' as Es'.
  pose proof (idx3_bound gx gy gz x y z Hx Hy Hz) as I1.
  pose proof (idx3_bound gx gy gz x' y' z' Hx' Hy' Hz') as I2.
  assert (V : gz * gy * gx = Nd) by (subst Nd; ring). rewrite V in I1, I2.
  set (a := idx3 gx gy x y z) in *. set (a' := idx3 gx gy x' y' z') in *.
  assert (R : (s + Nsp * (n + Ns * k)) * Nd + a = (s' + Nsp * (n' + Ns * k')) * Nd + a').
  { rewrite F1 in Es. rewrite F2 in Es'. lia. }
  destruct (radix_inj Nd (s + Nsp * (n + Ns * k)) a (s' + Nsp * (n' + Ns * k')) a' I1 I2 R) as (R1 & R2).
  assert (R3 : (n + Ns * k) * Nsp + s = (n' + Ns * k') * Nsp + s') by lia.
  destruct (radix_inj Nsp _ s _ s' Hs Hs' R3) as (R4 & R5).
  assert (R6 : k * Ns + n = k' * Ns + n') by lia.
  destruct (radix_inj Ns k n k' n' Hn Hn' R6) as (R7 & R8).
  apply idx3_inj in R2; [|lia|lia|lia|lia]. destruct R2 as (X1 & X2 & X3).
  split; [lia|]. repeat split; assumption.
Qed.
Print Assumptions C43_seeds_distinct.

(** Without that bound the offset computation overflows an [int]: a mesh of
    100^3 points with 2200 bands at the last band of one k-point. *)
Theorem C43_offset_overflow_refuted : exists Nd Nspinor Nstates kg ng sg,
  0 < Nd /\ 0 < Nspinor /\ 0 <= ng < Nstates /\ 0 <= sg < Nspinor /\ 0 <= kg /\
  orbital_offset Nd Nspinor Nstates kg ng sg = UB.
Proof. exists 1000000, 1, 2200, 0, 2199, 0. repeat split; try lia. Qed.
Print Assumptions C43_offset_overflow_refuted.

(** 4x3x2 mesh split in two along y: the point (1,2,1) on the second half. *)
Example C43_example :
  SeededRandVec (fun s => s) (Box 0 3 2 2 0 1) 4 3 5 = Ok
    [(0,14);(1,15);(2,16);(3,17);(4,26);(5,27);(6,28);(7,29)] /\
  local_index (Box 0 3 2 2 0 1) 1 2 1 = 5 /\ 1 + 4 * (2 + 3 * 1) + 1 + 5 = 27.
Proof. repeat split. Qed.
