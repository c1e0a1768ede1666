(** C49 (second part): which cell the band-structure k-points belong to. *)
From Coq Require Import Reals Lia Lra ZArith Psatz.
From Verif Require Import CBase BandK P_BandK Lattice BandCell P_Lattice.
Local Open Scope R_scope.

(** ** Specification *)
(** the i-th edge of the simulation cell: length range_i along unit lattice vector i *)
Definition edge (c : cell_input) (i : nat) : vec := vscale (range c i) (unit_row (LatVec c) i).
(** two angles give the same phase *)
Definition same_phase (a b : R) : Prop := exists n : Z, a = b + 2 * PI * IZR n.

Lemma edge_scaled c i : Flag_latvec_scale c = true -> (i < 3)%nat -> row (LatVec c) i <> V 0 0 0 -> edge c i = band_a c i.
Proof.
  intros F Hi Hr. unfold edge, range, band_a, scale_seen. rewrite F, mag_norm.
  assert (N : norm (row (LatVec c) i) <> 0).
  { intros E. apply Hr. pose proof (norm_sq (row (LatVec c) i)) as Q. rewrite E in Q.
    unfold dot in Q. apply vec_eq; cbn in *; nra. }
  unfold unit_row. revert N. generalize (norm (row (LatVec c) i)) as m. intros m N.
  apply vec_eq; cbn; field; exact N.
Qed.

(** With LATVEC_SCALE the Cartesian point k has k . edge_i = 2 pi k_i. *)
Theorem C49_cell_vectors c k : Flag_latvec_scale c = true -> volume (edge c 0) (edge c 1) (edge c 2) <> 0 ->
  (forall i, (i < 3)%nat -> row (LatVec c) i <> V 0 0 0) ->
  forall i, (i < 3)%nat -> dot (band_k c k) (edge c i) = 2 * PI * comp k i.
Proof.
  intros F Vn Hr i Hi. rewrite !edge_scaled in Vn by (auto; lia). rewrite edge_scaled by auto.
  destruct (C49_reciprocal _ _ _ k Vn) as [A [B C]]. unfold band_k.
  destruct i as [|[|[|i]]]; [exact A|exact B|exact C|lia].
Qed.

Lemma sqrt_diag x a b : 0 < x -> a = 0 -> b = 0 -> sqrt (x * x + a * a + b * b) = x.
Proof. intros Hx -> ->. replace (x * x + 0 * 0 + 0 * 0) with (x * x) by ring. apply sqrt_square. lra. Qed.

(** When moreover the cell is orthogonal along the axes, the Bloch factor across
    a face has the requested angle 2 pi k_i. *)
Theorem C49_bloch_angle c k : Flag_latvec_scale c = true ->
  (forall i, (i < 3)%nat -> 0 < comp (latvec_scale c) i) ->
  (forall i j, (i < 3)%nat -> (j < 3)%nat -> if (i =? j)%nat then 0 < LatVec c i j else LatVec c i j = 0) ->
  forall i, (i < 3)%nat -> bloch_angle c (band_k c k) i = 2 * PI * comp k i.
Proof.
  intros F S D i Hi.
  pose proof (D 0 0 ltac:(lia) ltac:(lia))%nat as D00. pose proof (D 0 1 ltac:(lia) ltac:(lia))%nat as D01.
  pose proof (D 0 2 ltac:(lia) ltac:(lia))%nat as D02. pose proof (D 1 0 ltac:(lia) ltac:(lia))%nat as D10.
  pose proof (D 1 1 ltac:(lia) ltac:(lia))%nat as D11. pose proof (D 1 2 ltac:(lia) ltac:(lia))%nat as D12.
  pose proof (D 2 0 ltac:(lia) ltac:(lia))%nat as D20. pose proof (D 2 1 ltac:(lia) ltac:(lia))%nat as D21.
  pose proof (D 2 2 ltac:(lia) ltac:(lia))%nat as D22. cbn [Nat.eqb] in *.
  pose proof (S 0%nat ltac:(lia)) as S0. pose proof (S 1%nat ltac:(lia)) as S1. pose proof (S 2%nat ltac:(lia)) as S2. cbn [comp] in S0, S1, S2.
  assert (R : forall j, (j < 3)%nat -> range c j = comp (latvec_scale c) j * LatVec c j j).
  { intros j Hj. unfold range. rewrite F. f_equal. rewrite mag_norm. unfold norm, dot, row. cbn.
    destruct j as [|[|[|j]]]; [| | |lia].
    - apply sqrt_diag; assumption.
    - rewrite (Rplus_comm (_ * _) (LatVec c 1%nat 1%nat * _)). apply sqrt_diag; assumption.
    - rewrite Rplus_comm, <- Rplus_assoc. apply sqrt_diag; assumption. }
  unfold bloch_angle. rewrite (R i Hi). clear R.
  unfold band_k, to_cart, b1, b2, b3, recip, volume, band_a, scale_seen, Cross_Product, dot, vadd, vscale. rewrite F. cbn [vx vy vz].
  rewrite D01, D02, D10, D12, D20, D21.
  destruct i as [|[|[|i]]]; [| | |lia]; cbn [comp vx vy vz]; field; repeat split; lra.
Qed.

Lemma not_same_phase x y : x - y <> 0 -> (forall n : Z, x - y <> 2 * IZR n) -> ~ same_phase (x * PI) (y * PI).
Proof.
  intros _ H [n E]. apply (H n). pose proof PI_RGT_0. nra.
Qed.

(** Refuted for a cell given by CELL: the factors are -1 there, so the points do
    not belong to the cell (cube of side 10, k = (1/4, 0, 0)). *)
Definition cube10 : cell_input :=
  CI false (V (-1) (-1) (-1)) (V 10 10 10) (fun i j => if (i =? j)%nat then 1 else 0).
Theorem C49_cell_keyword_refuted : exists c k,
  (forall i, (i < 3)%nat -> 0 < range c i) /\ 0 < det (LatVec c) /\
  ~ same_phase (bloch_angle c (band_k c k) 0) (2 * PI * comp k 0).
Proof.
  exists cube10, (V (1 / 4) 0 0). repeat split.
  - intros i Hi. destruct i as [|[|[|i]]]; cbn; lra.
  - unfold det, dot, Cross_Product, row. cbn. lra.
  - replace (bloch_angle _ _ _) with (- 5 * PI).
    2:{ unfold bloch_angle, band_k, to_cart, b1, b2, b3, recip, volume, band_a, scale_seen, Cross_Product, dot, vadd, vscale. cbn. field. }
    replace (2 * PI * comp (V (1 / 4) 0 0) 0) with (/ 2 * PI) by (cbn; field).
    apply not_same_phase; [lra|]. intros n H.
    assert (Q : IZR (4 * n + 11) = 0) by (rewrite plus_IZR, mult_IZR; lra).
    apply (eq_IZR _ 0) in Q. lia.
Qed.

(** Refuted for a non-orthogonal cell even with LATVEC_SCALE: k1, k2, k3 are
    Cartesian components, but the phases take them as components along the
    lattice directions. *)
Definition oblique_cell : cell_input := CI true (V 1 1 1) (V 0 0 0) ex_lat.
Theorem C49_oblique_phase_refuted : exists c k,
  Flag_latvec_scale c = true /\ (forall i, (i < 3)%nat -> 0 < range c i) /\ 0 < det (LatVec c) /\
  dot (band_k c k) (edge c 1) = 2 * PI * comp k 1 /\
  ~ same_phase (bloch_angle c (band_k c k) 1) (2 * PI * comp k 1).
Proof.
  exists oblique_cell, (V (1 / 2) 0 0).
  assert (R1 : range oblique_cell 1 = 5).
  { unfold range. cbn [Flag_latvec_scale oblique_cell latvec_scale comp vy]. unfold mag, ex_lat. cbn.
    replace (3 * (3 * 1) + 4 * (4 * 1) + 0 * (0 * 1)) with (5 * 5) by ring. rewrite sqrt_square; lra. }
  assert (R0 : range oblique_cell 0 = 1).
  { unfold range. cbn [Flag_latvec_scale oblique_cell latvec_scale comp vx]. unfold mag, ex_lat. cbn.
    replace (1 * (1 * 1) + 0 * (0 * 1) + 0 * (0 * 1)) with (1 * 1) by ring. rewrite sqrt_square; lra. }
  assert (R2 : range oblique_cell 2 = 2).
  { unfold range. cbn [Flag_latvec_scale oblique_cell latvec_scale comp vz]. unfold mag, ex_lat. cbn.
    replace (0 * (0 * 1) + 0 * (0 * 1) + 2 * (2 * 1)) with (2 * 2) by ring. rewrite sqrt_square; lra. }
  assert (Rw : forall i, (i < 3)%nat -> row (LatVec oblique_cell) i <> V 0 0 0).
  { intros i Hi. destruct i as [|[|[|i]]]; [| | |lia]; unfold row; cbn; intros [=]; lra. }
  assert (Dt : 0 < det (LatVec oblique_cell)) by (unfold det, dot, Cross_Product, row; cbn; lra).
  repeat split; auto.
  - intros i Hi. destruct i as [|[|[|i]]]; [lra|lra|lra|lia].
  - apply C49_cell_vectors; auto.
    rewrite !edge_scaled by (auto; lia). unfold volume, band_a, scale_seen, Cross_Product, dot. cbn. lra.
  - unfold bloch_angle. rewrite R1.
    replace (comp _ 1 * 5) with (- 15 / 4 * PI).
    2:{ unfold band_k, to_cart, b1, b2, b3, recip, volume, band_a, scale_seen, Cross_Product, dot, vadd, vscale. cbn. field. }
    replace (2 * PI * comp (V (1 / 2) 0 0) 1) with (0 * PI) by (cbn; field).
    apply not_same_phase; [lra|]. intros n H.
    assert (Q : IZR (8 * n + 15) = 0) by (rewrite plus_IZR, mult_IZR; lra).
    apply (eq_IZR _ 0) in Q. lia.
Qed.

Example C49_bloch_ex : let c := CI true (V 2 3 4) (V 0 0 0) (fun i j => if (i =? j)%nat then 5 else 0) in
  bloch_angle c (band_k c (V (1/2) (1/4) 0)) 1 = PI / 2.
Proof.
  cbv zeta. rewrite C49_bloch_angle; cbn; try lia; try reflexivity.
  - field.
  - intros i Hi. destruct i as [|[|[|i]]]; cbn; lra.
  - intros i j Hi Hj. destruct (i =? j)%nat; lra.
Qed.
Print Assumptions C49_cell_vectors.
Print Assumptions C49_bloch_angle.
Print Assumptions C49_cell_keyword_refuted.
Print Assumptions C49_oblique_phase_refuted.
