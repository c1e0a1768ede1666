(** C75: balance of the gradient, stress, and what does not hold. *)
From Coq Require Import ZArith Reals List Lia Lra Bool Permutation FunctionalExtensionality.
From Coquelicot Require Import Coquelicot.
From Verif Require Import CBase Nloc NlocLem VnlOp VnlLem VnlMain D3 D3Spec D3ESpec D3Lem D3Der D3Main P_D3 P_D3Img D3Energy P_D3Energy.
Import ListNotations.
Local Open Scope R_scope.

Section THM.
Variables (n : Z) (rcov r2r4 : Z -> R) (r0ab : Z -> Z -> R) (smp : Z -> Z -> list sample).
Variables (rs6 s8 cn_thr rthr : R) (nCN nEG : img).
Notation run := (d3_run n rcov r2r4 r0ab smp rs6 s8 cn_thr rthr nCN nEG).

(** The forces add up to nothing and the virial is symmetric, wherever the atoms
    are. *)
Theorem C75_balance (pos : Z -> vec) (l : lat) :
  (let '(a, b, c) := nCN in let '(a', b', c') := nEG in (0 <= a <= a' /\ 0 <= b <= b' /\ 0 <= c <= c')%Z) ->
  exists o, run pos l = Ok o /\
    (forall c, rsum (map (fun a => o_g o a c) (zrange 0 (n - 1))) = 0) /\
    (forall r c, o_sg o r c = o_sg o c r).
Proof.
  intros I. assert (K : nn nEG /\ ile nCN nEG) by (destruct nCN as [[a b] c], nEG as [[a' b'] c']; cbn; lia). destruct K as [NN IL].
  destruct (d3_run_ok n rcov r2r4 r0ab smp rs6 s8 cn_thr rthr nCN nEG NN pos l IL) as (s & E & _).
  eexists. split; [exact E|]. cbn [o_g o_sg]. split.
  - intros c. transitivity (rsum (map (fun a => sum3 n nEG (fun i j m => gterm rcov cn_thr rthr nEG pos l s i j m a c)) (zrange 0 (n - 1)))).
    { apply ksum_ext. intros a _. apply (proj1 (grad_loop_sum n rcov cn_thr rthr nEG pos l s NN a c)). }
    unfold sum3. rewrite (ksum_swap _ _ _ _ _ _ RTheory). apply (ksum_zero _ _ _ _ _ _ RTheory). intros i Hi. apply in_zrange in Hi.
    rewrite (ksum_swap _ _ _ _ _ _ RTheory). apply (ksum_zero _ _ _ _ _ _ RTheory). intros j Hj. apply in_zrange in Hj.
    rewrite (ksum_swap _ _ _ _ _ _ RTheory). apply (ksum_zero _ _ _ _ _ _ RTheory). intros m _. unfold gterm.
    destruct (pull rcov cn_thr rthr pos l s i j (count_image m nEG, m)) as [[f d]|]; [|apply (ksum_zero _ _ _ _ _ _ RTheory); reflexivity].
    destruct (i =? j)%Z; [apply (ksum_zero _ _ _ _ _ _ RTheory); reflexivity|].
    assert (P1 : forall x, (0 <= x < n)%Z -> rsum (map (fun a => if (a =? x)%Z then comp f c else 0) (zrange 0 (n - 1))) = comp f c).
    { intros x Hx. rewrite (ksum_only _ _ _ _ _ _ RTheory _ _ x); [now rewrite Z.eqb_refl|apply NoDup_zrange|apply in_zrange; lia|].
      intros y _ Ny. destruct (Z.eqb_spec y x); [contradiction|reflexivity]. }
    transitivity (rsum (map (fun a => (if (a =? i)%Z then comp f c else 0) + -1 * (if (a =? j)%Z then comp f c else 0)) (zrange 0 (n - 1)))).
    { apply ksum_ext. intros a _. ring. }
    rewrite (ksum_add _ _ _ _ _ _ RTheory), (ksum_mul_l _ _ _ _ _ _ RTheory), !P1 by lia. ring.
  - intros r c. rewrite !(proj2 (grad_loop_sum n rcov cn_thr rthr nEG pos l s NN _ _)). unfold sum3.
    apply ksum_ext. intros i _. apply ksum_ext. intros j _. apply ksum_ext. intros m _. unfold sterm, pull.
    destruct (if (i =? j)%Z then _ else _); [reflexivity|]. destruct (vadd (vsub (pos j) (pos i)) (ivec l m)) as [[x y] z].
    cbn [vscal]. unfold comp. destruct (r =? 0)%Z, (r =? 1)%Z, (c =? 0)%Z, (c =? 1)%Z; ring.
Qed.

(** Moving one atom along one direction. *)
Definition unit (c : Z) : vec := if (c =? 0)%Z then (1, 0, 0) else if (c =? 1)%Z then (0, 1, 0) else (0, 0, 1).
Definition moved (pos : Z -> vec) (a c : Z) (t : R) (i : Z) : vec :=
  if (i =? a)%Z then vadd (pos i) (vscal t (unit c)) else pos i.
(** Straining all: the coordinate r grows by t times the coordinate c. *)
Definition unit2 (r c : Z) (r' c' : Z) : R := if ((r' =? r) && (c' =? c))%Z then 1 else 0.
Definition strained (r c : Z) (t : R) (u : vec) : vec := vadd u (vscal t (mapply (unit2 r c) u)).

Lemma comp_lin (u w : vec) c : is_derive (fun t => comp (vadd u (vscal t w)) c) 0 (comp w c).
Proof.
  destruct u as [[a b] d], w as [[x y] z]. cbn [vadd vscal]. unfold comp.
  destruct (c =? 0)%Z; [|destruct (c =? 1)%Z]; auto_derive; trivial; ring.
Qed.
Lemma comp_const (u : vec) c : is_derive (fun _ : R => comp u c) 0 0.
Proof. exact (is_derive_const (comp u c) 0). Qed.
Lemma vadd_0 (u : vec) w : vadd u (vscal 0 w) = u.
Proof. destruct u as [[a b] d], w as [[x y] z]. cbn. f_equal; [f_equal|]; ring. Qed.
Lemma comp_sum u w c : comp (vadd u w) c = comp u c + comp w c.
Proof. destruct u as [[a b] d], w as [[x y] z]. unfold comp. cbn. destruct (c =? 0)%Z; [|destruct (c =? 1)%Z]; ring. Qed.

(** The component c of the gradient of atom a is the derivative of the energy with
    respect to that coordinate. *)
Theorem C75_force (pos : Z -> vec) (l : lat) (a c : Z) :
  regular n rcov r0ab smp cn_thr rthr nCN nEG pos l -> (0 <= a < n)%Z -> (0 <= c <= 2)%Z ->
  exists (E : R -> R) (o : d3out),
    (forall t, exists ot, run (moved pos a c t) l = Ok ot /\ o_e ot = E t) /\
    run pos l = Ok o /\ is_derive E 0 (o_g o a c).
Proof.
  intros R Ha Hc. set (z := fun _ _ : Z => 0).
  assert (P0 : moved pos a c 0 = pos).
  { apply FunctionalExtensionality.functional_extensionality. intros i. unfold moved. destruct (i =? a)%Z; [apply vadd_0|reflexivity]. }
  assert (M0 : forall u d, comp (mapply z u) d = 0).
  { intros u d. unfold mapply, z, comp. destruct (d =? 0)%Z; [|destruct (d =? 1)%Z]; ring. }
  destruct (C75_gradient n rcov r2r4 r0ab smp rs6 s8 cn_thr rthr nCN nEG (moved pos a c) (fun _ => l)
    (fun i => if (i =? a)%Z then unit c else (0, 0, 0)) z) as (E & o & H1 & H2 & H3).
  - rewrite P0. exact R.
  - intros i d. rewrite comp_sum, M0, Rplus_0_r. unfold moved. destruct (i =? a)%Z; [apply comp_lin|].
    replace (comp (0, 0, 0) d) with 0 by (unfold comp; destruct (d =? 0)%Z; [|destruct (d =? 1)%Z]; reflexivity). apply comp_const.
  - intros d. rewrite M0. apply comp_const.
  - intros d. rewrite M0. apply comp_const.
  - intros d. rewrite M0. apply comp_const.
  - exists E, o. split; [exact H1|]. rewrite P0 in H2. split; [exact H2|].
    replace (o_g o a c) with (work n (o_g o) (fun i => if (i =? a)%Z then unit c else (0, 0, 0)) - contract z (o_sg o)); [exact H3|].
    unfold contract, z. cbn [map ksum]. unfold work.
    rewrite (ksum_only _ _ _ _ _ _ RTheory _ _ a); [|apply NoDup_zrange|apply in_zrange; lia|].
    + rewrite Z.eqb_refl. unfold unit. destruct (Z.eqb_spec c 0) as [->|N0]; [cbn; ring|]. destruct (Z.eqb_spec c 1) as [->|N1]; [cbn; ring|].
      replace c with 2%Z by lia. cbn. ring.
    + intros i _ Ni. destruct (Z.eqb_spec i a); [contradiction|]. cbn. ring.
Qed.

Lemma contract_unit r c sg : (0 <= r <= 2)%Z -> (0 <= c <= 2)%Z -> contract (unit2 r c) sg = sg r c.
Proof.
  intros Hr Hc. assert (r = 0 \/ r = 1 \/ r = 2)%Z as Kr by lia. assert (c = 0 \/ c = 1 \/ c = 2)%Z as Kc by lia.
  destruct Kr as [->|[->| ->]], Kc as [->|[->| ->]]; unfold contract, unit2; cbn; ring.
Qed.

(** Under a strain of the whole crystal, periodic along three directions, the
    energy grows at the rate of the stress times the volume of the cell. *)
Theorem C75_stress (pos : Z -> vec) (u0 u1 u2 : vec) (lx ly lz : R) (r c : Z) :
  let l := (vscal lx u0, vscal ly u1, vscal lz u2) in
  regular n rcov r0ab smp cn_thr rthr nCN nEG pos l -> (0 <= r <= 2)%Z -> (0 <= c <= 2)%Z ->
  0 < cell_measure (detLattice (u0, u1, u2)) (true, true, true) (lx, ly, lz) ->
  exists (E : R -> R) (o : d3out),
    (forall t, exists ot, run (fun i => strained r c t (pos i))
       (strained r c t (fst (fst l)), strained r c t (snd (fst l)), strained r c t (snd l)) = Ok ot /\ o_e ot = E t) /\
    run pos l = Ok o /\
    is_derive E 0 (cell_measure (detLattice (u0, u1, u2)) (true, true, true) (lx, ly, lz) * d3_stress l (o_sg o) r c).
Proof.
  intros l R Hr Hc D.
  assert (P0 : (fun i => strained r c 0 (pos i)) = pos).
  { apply FunctionalExtensionality.functional_extensionality. intros i. apply vadd_0. }
  assert (L0 : (strained r c 0 (fst (fst l)), strained r c 0 (snd (fst l)), strained r c 0 (snd l)) = l).
  { unfold strained. rewrite !vadd_0. reflexivity. }
  destruct (C75_gradient n rcov r2r4 r0ab smp rs6 s8 cn_thr rthr nCN nEG (fun t i => strained r c t (pos i))
    (fun t => (strained r c t (fst (fst l)), strained r c t (snd (fst l)), strained r c t (snd l)))
    (fun i => (0, 0, 0)) (unit2 r c)) as (E & o & H1 & H2 & H3).
  - rewrite P0, L0. exact R.
  - intros i d. cbv beta. rewrite comp_sum.
    replace (comp (0, 0, 0) d) with 0 by (unfold comp; destruct (d =? 0)%Z; [|destruct (d =? 1)%Z]; reflexivity). rewrite Rplus_0_l.
    rewrite (equal_f P0 i). apply comp_lin.
  - intros d. rewrite L0. cbn [fst snd]. apply comp_lin.
  - intros d. rewrite L0. cbn [fst snd]. apply comp_lin.
  - intros d. rewrite L0. cbn [fst snd]. apply comp_lin.
  - exists E, o. split; [exact H1|]. rewrite P0, L0 in H2. split; [exact H2|].
    replace (cell_measure _ _ _ * _) with (work n (o_g o) (fun _ => (0, 0, 0)) - contract (unit2 r c) (o_sg o)); [exact H3|].
    rewrite contract_unit by assumption. unfold work. rewrite (ksum_zero _ _ _ _ _ _ RTheory); [|intros i _; cbn; ring].
    unfold d3_stress.
    replace (detLattice l) with (cell_measure (detLattice (u0, u1, u2)) (true, true, true) (lx, ly, lz)); [field; lra|].
    unfold l, cell_measure. destruct u0 as [[? ?] ?], u1 as [[? ?] ?], u2 as [[? ?] ?]. cbn [detLattice vscal]. ring.
Qed.
End THM.
Print Assumptions C75_balance.
Print Assumptions C75_force.
Print Assumptions C75_stress.

(** In a slab or a wire the other parts of the stress are per area or per length:
    they are divided by [cell_measure].  The stress of DFT-D3 is still divided by
    the volume of the box, and so is off by the length of the other directions. *)
Theorem C75_slab_refuted : exists (u0 u1 u2 : vec) (lx ly lz : R),
  0 < detLattice (vscal lx u0, vscal ly u1, vscal lz u2) /\
  forall sg r c, sg r c <> 0 ->
    d3_stress (vscal lx u0, vscal ly u1, vscal lz u2) sg r c
    <> - sg r c / cell_measure (detLattice (u0, u1, u2)) (true, true, false) (lx, ly, lz).
Proof.
  exists (1, 0, 0), (0, 1, 0), (0, 0, 1), 10, 10, 20. unfold d3_stress. cbn. split; [lra|]. intros sg r c H E.
  apply H. 
  match type of E with - sg r c / ?a = - sg r c / ?b => replace a with 2000 in E by ring; replace b with 100 in E by ring end. lra.
Qed.
Print Assumptions C75_slab_refuted.

(** ** A concrete case: three atoms in a box, at distances 2, 2 and sqrt 8, all
    within both cut-offs, so that the triangle takes part. *)
Definition xpos (i : Z) : vec := if (i =? 0)%Z then (1, 1, 1) else if (i =? 1)%Z then (3, 1, 1) else (1, 3, 1).
Definition xlat : lat := ((10, 0, 0), (0, 10, 0), (0, 0, 10)).
Definition xbc := (false, false, false).
Definition xref (i j : Z) : list sample := [(2, 1, 1)].
Definition xcov (i : Z) : R := 1.

Lemma xcrit lim : set_criteria lim xbc xlat = (0, 0, 0)%Z.
Proof. reflexivity. Qed.
Lemma ximg m : In m (imgs (0, 0, 0)%Z) -> m = (0, 0, 0)%Z.
Proof. cbn. intros [<-|[]]. reflexivity. Qed.
Lemma xdist i j : (0 <= i < 3)%Z -> (0 <= j < 3)%Z ->
  i = j \/ dist2 xpos xlat i j (0, 0, 0)%Z = 4 \/ dist2 xpos xlat i j (0, 0, 0)%Z = 8.
Proof.
  intros Hi Hj. assert (i = 0 \/ i = 1 \/ i = 2)%Z as Ki by lia. assert (j = 0 \/ j = 1 \/ j = 2)%Z as Kj by lia.
  destruct Ki as [->|[->| ->]], Kj as [->|[->| ->]]; try (now left); right; unfold dist2, xpos, xlat, ivec; cbn; first [left; ring|right; ring].
Qed.
Lemma frac_bound k (x : R) : 0 < x -> 0 <= k -> 0 <= / (1 + k * x) <= 1.
Proof.
  intros X K. assert (0 <= k * x) by (apply Rmult_le_pos; lra). split; [apply Rlt_le, Rinv_0_lt_compat; lra|].
  rewrite <- Rinv_1. apply Rinv_le_contravar; lra.
Qed.
Lemma xcoord i : (0 <= i < 3)%Z -> 0 <= coord 3 xcov 9 (0, 0, 0)%Z xpos xlat i <= 3.
Proof.
  intros Hi. unfold coord. change (zrange 0 (3 - 1)) with [0; 1; 2]%Z. change (imgs (0, 0, 0)%Z) with [(0, 0, 0)%Z].
  assert (K : forall j, 0 <= (if same i O j (0, 0, 0)%Z then 0 else
    let r := sqrt (dist2 xpos xlat i j (0, 0, 0)%Z) in
    if Rlt_dec (dist2 xpos xlat i j (0, 0, 0)%Z) 9 then / (1 + exp (- 16 * ((xcov i + xcov j) / r - 1))) else 0) <= 1).
  { intros j. destruct (same i O j (0, 0, 0)%Z); [lra|]. cbv zeta. destruct (Rlt_dec _ 9); [|lra].
    rewrite <- (Rmult_1_l (exp _)). apply frac_bound; [apply exp_pos|lra]. }
  cbn [map ksum]. pose proof (K 0%Z) as K0. pose proof (K 1%Z) as K1'. pose proof (K 2%Z) as K2.
  set (A := if same i O 0 (0, 0, 0)%Z then _ else _) in *. set (D := if same i O 1 (0, 0, 0)%Z then _ else _) in *.
  set (F := if same i O 2 (0, 0, 0)%Z then _ else _) in *. lra.
Qed.
Lemma xweight ci cj : 0 <= ci <= 3 -> 0 <= cj <= 3 -> / 10 ^ 99 < weights [(2, 1, 1)] ci cj.
Proof.
  intros Hi Hj. unfold weights. cbn [map ksum]. destruct (Rlt_dec 0 2); [|lra]. rewrite Rplus_0_r.
  assert (S1 : (1 - ci) ^ 2 <= 4) by nra. assert (S2 : (1 - cj) ^ 2 <= 4) by nra.
  apply Rlt_le_trans with (exp (-32)).
  - replace (-32) with (- (32)) by lra. rewrite exp_Ropp. apply Rinv_lt_contravar; [apply Rmult_lt_0_compat; [apply exp_pos|apply pow_lt; lra]|].
    replace 32 with (INR 32 * 1) by (rewrite INR_IZR_INZ; cbn; lra).
    replace (exp (INR 32 * 1)) with (exp 1 ^ 32).
    + apply Rle_lt_trans with (3 ^ 32); [apply pow_incr; split; [apply Rlt_le, exp_pos|apply exp_le_3]|].
      apply Rlt_trans with (10 ^ 32); [|apply Rlt_pow; [lra|lia]]. apply Rlt_le_trans with (10 ^ 32); [|lra]. lra.
    + rewrite <- (exp_ln (exp 1 ^ 32)) by (apply pow_lt, exp_pos). f_equal. rewrite ln_pow by apply exp_pos. now rewrite ln_exp.
  - destruct (Req_dec (-32) (-4 * ((1 - ci) ^ 2 + (1 - cj) ^ 2))) as [<-|Ne]; [lra|]. apply Rlt_le, exp_increasing. lra.
Qed.
Lemma xcell i : (0 <= i < 3)%Z -> in_cell xbc xlat (xpos i).
Proof.
  intros _. unfold in_cell, xlat, xbc, xpos.
  destruct (i =? 0)%Z; [exists (1/10), (1/10), (1/10)|destruct (i =? 1)%Z; [exists (3/10), (1/10), (1/10)|exists (1/10), (3/10), (1/10)]];
    (split; [cbn; f_equal; [f_equal|]; field|]); repeat split; discriminate.
Qed.
Lemma xapart i j m : (0 <= i < 3)%Z -> (0 <= j < 3)%Z -> lattice_point xbc m ->
  (i = j /\ m = (0, 0, 0)%Z) \/ / 10 ^ 15 <= dist2 xpos xlat i j m.
Proof.
  intros Hi Hj F. destruct m as [[x y] z]. cbn in F. destruct F as (F0 & F1 & F2). rewrite (F0 eq_refl), (F1 eq_refl), (F2 eq_refl).
  assert (/ 10 ^ 15 < 1) by (rewrite <- Rinv_1; apply Rinv_lt_contravar; lra).
  destruct (xdist i j Hi Hj) as [->|[E|E]]; [left; auto|right|right]; rewrite E; lra.
Qed.
Lemma xCN i : (0 <= i < 3)%Z -> CN 3 xcov 9 (0, 0, 0)%Z xpos xlat i = coord 3 xcov 9 (0, 0, 0)%Z xpos xlat i.
Proof.
  intros Hi. change (CN 3 xcov 9 (set_criteria 9 xbc xlat) xpos xlat i = coord 3 xcov 9 (0, 0, 0)%Z xpos xlat i).
  apply (CN_coord 3 xcov (fun _ => 1) (fun _ _ => 3) xref 9 16 xbc xpos xlat (0, 0, 0)%Z);
    [lra|unfold detLattice, xlat; lra| | | | |reflexivity|intros; apply Permutation_refl|intros; apply xweight; apply xcoord; lia|exact Hi].
  - apply xcell.
  - rewrite xcrit. lia.
  - cbn. auto.
  - apply xapart.
Qed.

Example C75_gradient_example : regular 3 xcov (fun _ _ => 3) xref 9 16 (0, 0, 0)%Z (0, 0, 0)%Z xpos xlat.
Proof.
  constructor.
  - lra.
  - lia.
  - intros i j m Hi Hj Hm. apply ximg in Hm. subst m. destruct (xdist i j Hi Hj) as [->|[E|E]]; [left; auto|right|right]; rewrite E; lra.
  - intros i j m Hi Hj Hm Nm. contradiction.
  - intros i Hi. apply Permutation_refl.
  - intros i j _ _. lra.
  - intros i j Hj Hi. rewrite !xCN by lia. apply xweight; apply xcoord; lia.
Qed.

Example C75_energy_example : exists o, d3_run 3 xcov (fun _ => 1) (fun _ _ => 3) xref 1 1 9 16 (0, 0, 0)%Z (0, 0, 0)%Z xpos xlat = Ok o /\
  o_e o = E_D3 3 xcov (fun _ => 1) (fun _ _ => 3) xref 1 1 9 16 (0, 0, 0)%Z xpos xlat.
Proof.
  apply (C75_energy 3 xcov (fun _ => 1) (fun _ _ => 3) xref 1 1 9 16 xbc xpos xlat (0, 0, 0)%Z);
    [lia|lra|unfold detLattice, xlat; lra| | | | |reflexivity|intros; apply Permutation_refl|].
  - apply xcell.
  - rewrite !xcrit. lia.
  - cbn. auto.
  - apply xapart.
  - intros i j Hi Hj. apply xweight; apply xcoord; lia.
Qed.

Example C75_images_example : In (0, 0, 0)%Z (imgs (set_criteria 9 xbc xlat)).
Proof.
  apply (C75_images 9 xbc xlat xpos 1 2); [lra|unfold detLattice, xlat; lra|apply xcell; lia|apply xcell; lia|cbn; auto|].
  unfold dist2, xpos, xlat, ivec. cbn. lra.
Qed.

(** ** Two atoms closer than sqrt 0.5 Bohr: the energy counts the pair
    (d3correction.c:318-322) but the gradient leaves it out (565). *)
Definition ypos (i : Z) : vec := if (i =? 0)%Z then (0, 0, 0) else (/ 2, 0, 0).
Definition yref (i j : Z) : list sample := [(1, 0, 0)].
Definition ymov (t : R) : Z -> vec := moved ypos 1 0 t.
Definition yE (r : R) : R := - (r ^ 8 / (r ^ 14 + 6)).

Lemma ydist t i j : (0 <= i < 2)%Z -> (0 <= j < 2)%Z -> i = j \/ dist2 (ymov t) xlat i j (0, 0, 0)%Z = (/ 2 + t) ^ 2.
Proof.
  intros Hi Hj. assert (i = 0 \/ i = 1)%Z as Ki by lia. assert (j = 0 \/ j = 1)%Z as Kj by lia.
  destruct Ki as [->| ->], Kj as [->| ->]; try (now left); right; unfold dist2, ymov, moved, ypos, xlat, ivec, unit; cbn; ring.
Qed.
Lemma ycoord t i : coord 2 xcov 0 (0, 0, 0)%Z (ymov t) xlat i = 0.
Proof.
  unfold coord. apply (ksum_zero _ _ _ _ _ _ RTheory). intros j _. apply (ksum_zero _ _ _ _ _ _ RTheory). intros m _.
  destruct (same i O j m); [reflexivity|]. cbv zeta. destruct (Rlt_dec (dist2 (ymov t) xlat i j m) 0) as [L|]; [|reflexivity].
  exfalso. revert L. unfold dist2. destruct (vsub _ _) as [[x y] z]. cbn. nra.
Qed.
Lemma yC6 t i j : C6 2 xcov yref 0 (0, 0, 0)%Z (ymov t) xlat i j = 1.
Proof.
  unfold C6, weights, yref. cbn [map ksum]. destruct (Rlt_dec 0 1); [|lra]. rewrite !Rplus_0_r, Rmult_1_l.
  unfold Rdiv. apply Rinv_r. apply Rgt_not_eq, exp_pos.
Qed.
Lemma ye2 t i j : (0 <= i < 2)%Z -> (0 <= j < 2)%Z -> -1/4 < t < 1/4 ->
  e2 2 xcov (fun _ => 1) (fun _ _ => 1) yref 1 0 0 16 (0, 0, 0)%Z (ymov t) xlat i j (0, 0, 0)%Z
  = if (i =? j)%Z then 0 else - yE (/ 2 + t).
Proof.
  intros Hi Hj T. unfold e2. cbv zeta. rewrite yC6. destruct (Z.eqb_spec i j) as [->|Ne].
  - unfold same, O. rewrite Z.eqb_refl. reflexivity.
  - replace (same i O j (0, 0, 0)%Z) with false by (unfold same, O; destruct (Z.eqb_spec i j); [contradiction|reflexivity]).
    destruct (ydist t i j Hi Hj) as [E|E]; [contradiction|]. rewrite E. destruct (Rlt_dec 16 ((/ 2 + t) ^ 2)) as [L|_]; [nra|].
    rewrite sqrt_pow2 by lra. set (r := / 2 + t). assert (0 < r) by (unfold r; lra). unfold yE.
    rewrite Rmult_1_l. assert (0 < r ^ 14) by (apply pow_lt; assumption). unfold Rdiv at 3. rewrite Rpow_mult_distr, pow_inv, pow1 || idtac.
    set (w := (1 / r) ^ 16). replace ((1 / r) ^ 14) with (/ r ^ 14) by (unfold Rdiv; rewrite Rmult_1_l, pow_inv; reflexivity).
    assert (0 < w) by (unfold w; apply pow_lt, Rdiv_lt_0_compat; lra).
    field. repeat split; try lra; nra.
Qed.
Lemma ytot t : -1/4 < t < 1/4 -> E_D3 2 xcov (fun _ => 1) (fun _ _ => 1) yref 1 0 0 16 (0, 0, 0)%Z (ymov t) xlat = yE (/ 2 + t).
Proof.
  intros T. unfold E_D3. change (zrange 0 (2 - 1)) with [0; 1]%Z. change (imgs (0, 0, 0)%Z) with [(0, 0, 0)%Z].
  cbn [map ksum]. rewrite !ye2 by (lia || lra). cbn [Z.eqb Pos.eqb].
  unfold e3, same, O. cbn [Z.eqb Pos.eqb andb orb]. set (q := yE (/ 2 + t)). lra.
Qed.

Theorem C75_close_refuted : exists (n : Z) (rcov r2r4 : Z -> R) (r0ab : Z -> Z -> R) (smp : Z -> Z -> list sample)
    (rs6 s8 cn_thr rthr : R) (bc : bool * bool * bool) (pos : Z -> vec) (l : lat) (E : R -> R) (d : R) (o : d3out),
  let run := d3_run n rcov r2r4 r0ab smp rs6 s8 cn_thr rthr (set_criteria cn_thr bc l) (set_criteria rthr bc l) in
  (forall t, -1/4 < t < 1/4 -> exists ot, run (moved pos 1 0 t) l = Ok ot /\ o_e ot = E t) /\
  is_derive E 0 d /\ run pos l = Ok o /\ o_g o 1 0 <> d.
Proof.
  exists 2%Z, xcov, (fun _ => 1), (fun _ _ => 1), yref, 1, 0, 0, 16, xbc, ypos, xlat, (fun t => yE (/ 2 + t)).
  assert (ND : nn (0, 0, 0)%Z) by (cbn; lia). assert (IL : ile (0, 0, 0)%Z (0, 0, 0)%Z) by (cbn; lia).
  destruct (d3_run_ok 2 xcov (fun _ => 1) (fun _ _ => 1) yref 1 0 0 16 (0, 0, 0)%Z (0, 0, 0)%Z ND ypos xlat IL) as (s & Er & _).
  exists (- ((8 * (/ 2) ^ 7 * ((/ 2) ^ 14 + 6) - (/ 2) ^ 8 * (14 * (/ 2) ^ 13)) / ((/ 2) ^ 14 + 6) ^ 2)). eexists. cbv zeta. split; [|split; [|split; [rewrite !xcrit; exact Er|]]].
  - intros t T. rewrite <- (ytot t T). apply (C75_energy 2 xcov (fun _ => 1) (fun _ _ => 1) yref 1 0 0 16 xbc (moved ypos 1 0 t) xlat (0, 0, 0)%Z);
      [lia|lra|unfold detLattice, xlat; lra| | |cbn; auto| |reflexivity|intros; apply Permutation_refl|].
    + intros i _. unfold in_cell, xlat, xbc. destruct (moved ypos 1 0 t i) as [[x y] z]. exists (x / 10), (y / 10), (z / 10).
      split; [cbn; f_equal; [f_equal|]; field|]. repeat split; discriminate.
    + rewrite xcrit. lia.
    + intros i j m Hi Hj F. destruct m as [[x y] z]. cbn in F. destruct F as (F0 & F1 & F2). rewrite (F0 eq_refl), (F1 eq_refl), (F2 eq_refl).
      assert (/ 10 ^ 15 < 1 / 16) by (unfold Rdiv; rewrite Rmult_1_l; apply Rinv_lt_contravar; lra).
      destruct (ydist t i j Hi Hj) as [->|E]; [left; auto|right]. fold (ymov t). rewrite E. nra.
    + intros i j Hi Hj. unfold weights, yref. cbn [map ksum]. fold (ymov t). rewrite !ycoord. destruct (Rlt_dec 0 1); [|lra].
      replace (-4 * ((0 - 0) ^ 2 + (0 - 0) ^ 2)) with 0 by ring. rewrite exp_0, Rplus_0_r. rewrite <- Rinv_1. apply Rinv_lt_contravar; lra.
  - apply (is_derive_ext (fun t => - ((/ 2 + t) ^ 8 * / ((/ 2 + t) ^ 14 + 6)))); [reflexivity|].
    assert (0 < (/ 2 + 0) ^ 14) by (apply pow_lt; lra).
    auto_derive; [cbn in *; lra|]. cbn. field.
  - cbn [o_g]. rewrite (proj1 (grad_loop_sum 2 xcov 0 16 (0, 0, 0)%Z ypos xlat s ND 1 0)).
    match goal with |- ?A <> _ => replace A with 0 end.
    + intros F. assert (P : 0 < (8 * (/ 2) ^ 7 * ((/ 2) ^ 14 + 6) - (/ 2) ^ 8 * (14 * (/ 2) ^ 13)) / ((/ 2) ^ 14 + 6) ^ 2); [|lra].
      apply Rdiv_lt_0_compat; [lra|]. apply pow_lt. lra.
    + symmetry. unfold sum3. apply (ksum_zero _ _ _ _ _ _ RTheory). intros i Hi. apply in_zrange in Hi.
      apply (ksum_zero _ _ _ _ _ _ RTheory). intros j Hj. apply in_zrange in Hj. apply (ksum_zero _ _ _ _ _ _ RTheory). intros m Hm. apply ximg in Hm. subst m.
      unfold gterm. destruct (Z.eqb_spec i j) as [->|Ne].
      * destruct (pull _ _ _ _ _ _ _ _ _) as [[f d]|]; reflexivity.
      * unfold pull. destruct (Z.eqb_spec i j) as [|_]; [contradiction|].
        assert (i = 1 /\ j = 0)%Z as [-> ->] by lia. unfold ypos, xlat, ivec. cbn [Z.eqb vadd vsub vscal n2].
        destruct (Rlt_dec 16 _) as [L|_]; [reflexivity|]. destruct (Rlt_dec _ (1 / 2)) as [_|L]; [reflexivity|]. exfalso. apply L. lra.
Qed.
Print Assumptions C75_close_refuted.
