(** C52: isolated clusters and the multipole displacement vectors. *)
From Coq Require Import Reals List Lia Lra ZArith Bool Psatz.
From Verif Require Import CBase BandK Lattice P_Lattice.
Import ListNotations.
Local Open Scope R_scope.

(** ** Specification *)
Definition orthogonal (L : mat) : Prop :=
  dot (row L 0) (row L 1) = 0 /\ dot (row L 0) (row L 2) = 0 /\ dot (row L 1) (row L 2) = 0.
(** orthogonal up to the tolerance 1e-12 of the reader *)
Definition nearly_orthogonal (L : mat) : Prop :=
  Rabs (dot (row L 0) (row L 1)) <= / 1000000000000 /\ Rabs (dot (row L 0) (row L 2)) <= / 1000000000000
  /\ Rabs (dot (row L 1) (row L 2)) <= / 1000000000000.

Lemma Rltb_le a b : Rltb a b = false <-> b <= a.
Proof. unfold Rltb. destruct (Rlt_dec a b); split; intros; try lra; congruence. Qed.

(** The reader's check, for the obsolete BOUNDARY_CONDITION keyword. *)
Theorem C52_obsolete_keyword b L : BC b = 1%Z ->
  final_BC b = 1%Z /\ (reader_accepts b L = true <-> nearly_orthogonal L).
Proof.
  intros E. unfold final_BC, reader_accepts. rewrite E. split; [reflexivity|].
  cbn [Z.eqb Pos.eqb andb]. unfold oblique, nearly_orthogonal. change (/ 1000000000000) with TOL.
  change (dotL L 0 1) with (dot (row L 0) (row L 1)). change (dotL L 0 2) with (dot (row L 0) (row L 2)).
  change (dotL L 1 2) with (dot (row L 1) (row L 2)).
  rewrite negb_true_iff, !orb_false_iff, !Rltb_le. tauto.
Qed.

(** The class of boundary conditions follows the number of Dirichlet
    directions of the BC keyword: 1 = cluster, 2 = bulk, 3 = slab, 4 = wire. *)
Definition dirichlet_count (b : bc_input) : nat := length (filter (fun z => (z =? 1)%Z) [BCx b; BCy b; BCz b]).
Theorem C52_class b : (BC b <= 0)%Z -> (forall z, In z [BCx b; BCy b; BCz b] -> z = 0%Z \/ z = 1%Z) ->
  (final_BC b = 1%Z <-> dirichlet_count b = 3%nat) /\ (final_BC b = 2%Z <-> dirichlet_count b = 0%nat) /\
  (final_BC b = 3%Z <-> dirichlet_count b = 1%nat) /\ (final_BC b = 4%Z <-> dirichlet_count b = 2%nat).
Proof.
  intros H0 H. unfold final_BC, dirichlet_count. replace (0 <? BC b)%Z with false by (symmetry; apply Z.ltb_ge; exact H0).
  destruct (H (BCx b) ltac:(cbn; tauto)) as [X|X], (H (BCy b) ltac:(cbn; tauto)) as [Y|Y], (H (BCz b) ltac:(cbn; tauto)) as [Z0|Z0];
  rewrite X, Y, Z0; cbn; repeat split; intros; congruence.
Qed.

(** In an orthogonal cell the displacement handed to the multipole expansion is
    the Cartesian displacement, and the distance is its length. *)
Theorem C52_displacement L t p c : setup L = Ok t -> orthogonal L ->
  (typ t = 0%Z -> forall i j, (i < 3)%nat -> (j < 3)%nat -> i <> j -> L i j = 0) ->
  multipole_point t p c = (vsub (cart L p) (cart L c), Some (norm (vsub (cart L p) (cart L c)))).
Proof.
  intros Ht [O1 [O2 O3]] H0. unfold multipole_point. f_equal.
  2:{ apply C48_distance; auto. intros E. destruct (setup_inv L t Ht) as [_ [_ [_ [_ E']]]].
      rewrite E' in E; cbn [typ] in E. unfold cell_typ1 in E. cbv zeta in E.
      assert (N : cell_typ0 L <> 1%Z).
      { unfold cell_typ0, oblique. change (dotL L 0 1) with (dot (row L 0) (row L 1)). change (dotL L 0 2) with (dot (row L 0) (row L 2)).
        change (dotL L 1 2) with (dot (row L 1) (row L 2)). rewrite O1, O2, O3, Rabs_R0.
        replace (Rltb TOL 0) with false by (symmetry; apply Rltb_le; unfold TOL; lra). cbn [orb].
        destruct (misaligned L); discriminate. }
      repeat match type of E with context [if ?b then _ else _] => destruct b; [discriminate|] end. contradiction. }
  rewrite lin_sub. generalize (vsub p c) as v. intros [x y z].
  assert (D : forall i j, (i < 3)%nat -> (j < 3)%nat -> _) by (exact (grd_dual_col L t Ht)).
  pose proof (D 0 0 ltac:(lia) ltac:(lia))%nat as D00. pose proof (D 0 1 ltac:(lia) ltac:(lia))%nat as D01.
  pose proof (D 0 2 ltac:(lia) ltac:(lia))%nat as D02. pose proof (D 1 0 ltac:(lia) ltac:(lia))%nat as D10.
  pose proof (D 1 1 ltac:(lia) ltac:(lia))%nat as D11. pose proof (D 1 2 ltac:(lia) ltac:(lia))%nat as D12.
  pose proof (D 2 0 ltac:(lia) ltac:(lia))%nat as D20. pose proof (D 2 1 ltac:(lia) ltac:(lia))%nat as D21.
  pose proof (D 2 2 ltac:(lia) ltac:(lia))%nat as D22. clear D. cbn [Nat.eqb] in *.
  assert (Un : forall i, (i < 3)%nat -> dot (row (lu t) i) (row (lu t) i) = 1).
  { intros i Hi. rewrite (lu_row L t Ht i Hi). apply (unit_norm L t Ht i Hi). }
  assert (Uo : forall i j, (i < 3)%nat -> (j < 3)%nat -> dot (row L i) (row L j) = 0 -> dot (row (lu t) i) (row (lu t) j) = 0).
  { intros i j Hi Hj E. rewrite !(lu_row L t Ht) by assumption. unfold unit_row.
    transitivity (/ norm (row L i) * / norm (row L j) * dot (row L i) (row L j)); [unfold dot, vscale; cbn; ring|rewrite E; ring]. }
  pose proof (Un 0 ltac:(lia))%nat as U00. pose proof (Un 1 ltac:(lia))%nat as U11. pose proof (Un 2 ltac:(lia))%nat as U22.
  pose proof (Uo 0 1 ltac:(lia) ltac:(lia) O1)%nat as U01. pose proof (Uo 0 2 ltac:(lia) ltac:(lia) O2)%nat as U02.
  pose proof (Uo 1 2 ltac:(lia) ltac:(lia) O3)%nat as U12. clear Un Uo.
  (* G = U, because U U^T = 1 and U^T G = 1 *)
  assert (G : forall i l, (i < 3)%nat -> (l < 3)%nat -> grd t i l = lu t i l).
  { intros i l Hi Hl.
    set (u := lu t) in *. set (g := grd t) in *.
    assert (T : dot (row u i) (row u 0) * g 0%nat l + dot (row u i) (row u 1) * g 1%nat l + dot (row u i) (row u 2) * g 2%nat l
              = u i 0%nat * (u 0%nat 0%nat * g 0%nat l + u 1%nat 0%nat * g 1%nat l + u 2%nat 0%nat * g 2%nat l)
              + u i 1%nat * (u 0%nat 1%nat * g 0%nat l + u 1%nat 1%nat * g 1%nat l + u 2%nat 1%nat * g 2%nat l)
              + u i 2%nat * (u 0%nat 2%nat * g 0%nat l + u 1%nat 2%nat * g 1%nat l + u 2%nat 2%nat * g 2%nat l)).
    { unfold dot, row. cbn. ring. }
    assert (S : forall a b, dot a b = dot b a) by (intros a b; unfold dot; ring).
    destruct i as [|[|[|i]]]; [| | |lia]; (destruct l as [|[|[|l]]]; [| | |lia]);
      rewrite ?D00, ?D01, ?D02, ?D10, ?D11, ?D12, ?D20, ?D21, ?D22, ?U00, ?U11, ?U22, ?U01, ?U02, ?U12,
        ?(S (row u 1) (row u 0)), ?(S (row u 2) (row u 0)), ?(S (row u 2) (row u 1)), ?U01, ?U02, ?U12 in T; lra. }
  rewrite <- (to_cart_spec L t Ht). unfold nonCart2Cart_grad, nonCart2Cart_coord. cbv zeta. cbn [vx vy vz].
  rewrite !G by lia. apply vec_eq; cbn; ring.
Qed.

(** The three-letter BC keyword is not checked: an oblique cell with Dirichlet
    conditions in all directions is accepted, becomes an isolated cluster, and
    the displacement is then not the Cartesian one: its length differs from
    the distance it is used with. *)
Theorem C52_letters_refuted : exists b L t p c r,
  BCx b = 1%Z /\ BCy b = 1%Z /\ BCz b = 1%Z /\
  reader_accepts b L = true /\ final_BC b = 1%Z /\ setup L = Ok t /\ ~ nearly_orthogonal L /\
  snd (multipole_point t p c) = Some r /\ r = norm (vsub (cart L p) (cart L c)) /\
  fst (multipole_point t p c) <> vsub (cart L p) (cart L c) /\ norm (fst (multipole_point t p c)) <> r.
Proof.
  assert (M0 : mag ex_lat 0 = 1).
  { unfold mag, ex_lat. cbn. replace (1 * (1 * 1) + 0 * (0 * 1) + 0 * (0 * 1)) with (1 * 1) by ring. apply sqrt_square. lra. }
  assert (M1 : mag ex_lat 1 = 5).
  { unfold mag, ex_lat. cbn. replace (3 * (3 * 1) + 4 * (4 * 1) + 0 * (0 * 1)) with (5 * 5) by ring. apply sqrt_square. lra. }
  assert (M2 : mag ex_lat 2 = 2).
  { unfold mag, ex_lat. cbn. replace (0 * (0 * 1) + 0 * (0 * 1) + 2 * (2 * 1)) with (2 * 2) by ring. apply sqrt_square. lra. }
  assert (J : Jacbdet (LatUVec ex_lat) = 4 / 5).
  { rewrite Jacbdet_det. unfold det, dot, Cross_Product, row, LatUVec; cbn. rewrite M0, M1, M2. field. }
  destruct C48_ex as [t [Ht _]].
  set (p := V 0 1 0). set (c := V 0 0 0).
  assert (T : typ t <> 1%Z /\ typ t <> 0%Z).
  { destruct (setup_inv _ _ Ht) as [_ [_ [_ [_ ->]]]]. cbn [typ]. unfold cell_typ1. cbv zeta.
    assert (A : lapcT (LatUVec ex_lat) 0%nat 1%nat = - (15 / 16)).
    { unfold lapcT, sum3, gradT. rewrite J. cbn. unfold LatUVec. cbn. rewrite M0, M1, M2. field. }
    assert (B : lapcT (LatUVec ex_lat) 0%nat 2%nat = 0).
    { unfold lapcT, sum3, gradT. rewrite J. cbn. unfold LatUVec. cbn. rewrite M0, M1, M2. field. }
    assert (C : lapcT (LatUVec ex_lat) 1%nat 2%nat = 0).
    { unfold lapcT, sum3, gradT. rewrite J. cbn. unfold LatUVec. cbn. rewrite M0, M1, M2. field. }
    rewrite A, B, C. unfold big, small, Rltb. rewrite Rabs_Ropp, Rabs_R0, Rabs_right by lra. unfold TOL.
    destruct (Rlt_dec (/ 1000000000000) (15 / 16)); [|lra]. destruct (Rlt_dec 0 (/ 1000000000000)); [|lra]. cbn. split; discriminate. }
  exists (BCI (-1) 1 1 1), ex_lat, t, p, c, (norm (vsub (cart ex_lat p) (cart ex_lat c))).
  assert (Dv : fst (multipole_point t p c) = V 0 (5 / 4) 0).
  { unfold multipole_point, fst. destruct (setup_inv _ _ Ht) as [_ [_ [_ [_ ->]]]].
    unfold nonCart2Cart_grad. cbn [grd]. cbv zeta. unfold gradT. rewrite J. unfold LatUVec. cbn. rewrite M0, M1, M2.
    apply vec_eq; cbn; field. }
  assert (Cv : vsub (cart ex_lat p) (cart ex_lat c) = V (3 / 5) (4 / 5) 0).
  { rewrite <- !(to_cart_spec _ _ Ht). destruct (setup_inv _ _ Ht) as [_ [_ [_ [_ ->]]]].
    unfold nonCart2Cart_coord. cbn [lu]. cbv zeta. unfold LatUVec. cbn. rewrite M0, M1, M2. apply vec_eq; cbn; field. }
  assert (Nd : norm (V (3 / 5) (4 / 5) 0) = 1).
  { unfold norm, dot. cbn. replace (_ + _) with (1 * 1) by field. apply sqrt_square. lra. }
  assert (Nv : norm (V 0 (5 / 4) 0) = 5 / 4).
  { unfold norm, dot. cbn. replace (_ + _) with (5 / 4 * (5 / 4)) by ring. apply sqrt_square. lra. }
  repeat split; auto.
  - intros [O _]. unfold dot, row in O. cbn in O. rewrite Rabs_right in O by lra. lra.
  - cbn [snd multipole_point]. apply C48_distance; [exact Ht|apply T|]. intros E. destruct T; contradiction.
  - rewrite Dv, Cv. intros [=]. lra.
  - rewrite Dv, Cv, Nd, Nv. lra.
Qed.

(** A box along the axes satisfies the hypotheses of [C52_displacement]. *)
Example C52_ex : exists t, setup (fun i j => match i, j with 0%nat, 0%nat => 2 | 1%nat, 1%nat => 3 | 2%nat, 2%nat => 4 | _, _ => 0 end) = Ok t.
Proof.
  set (L := fun i j : nat => _ : R).
  destruct (C48_accepted L) as [A B].
  { intros i Hi. unfold row, L. destruct i as [|[|[|i]]]; [| | |lia]; intros [=]; lra. }
  assert (D : 0 < det L) by (unfold det, dot, Cross_Product, row, L; cbn; lra).
  destruct (setup L) as [t| |] eqn:E; [eauto|contradiction|]. exfalso. assert (det L <= 0) by (apply B; reflexivity). lra.
Qed.
Print Assumptions C52_obsolete_keyword.
Print Assumptions C52_class.
Print Assumptions C52_displacement.
Print Assumptions C52_letters_refuted.
