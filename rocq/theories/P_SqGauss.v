(** C76: Gauss spectral quadrature.

    A run that returns normally delivers, for the symmetric nodal operator H
    and the unit vector t of the node, orthonormal Lanczos vectors, a full
    eigendecomposition of the tridiagonal matrix, and nodes and weights that
    integrate every polynomial of degree up to 2 npl - 1 exactly. *)
From Coq Require Import ZArith Reals List Lia Lra Bool.
From Verif Require Import CBase Nloc NlocLem VnlOp VnlLem VnlMain SqGauss SqQl SqLz SqSpec SqMain SqHsub SqHsubLem Energy.
From Verif Require Occupation.
Import ListNotations.
Local Open Scope R_scope.

(** ** The tridiagonal solver *)
Lemma Tmul_tri n a b t k : (0 <= k < n)%Z -> Tmul n a b t k = sumn n (fun y => tri a b k y * t y).
Proof.
  intros Hk. unfold Tmul.
  rewrite (sumn_ext n _ (fun y => (delta k y * (a k * t k) + (if (0 <? k)%Z then delta (k - 1) y * (b (k - 1)%Z * t (k - 1)%Z) else 0))
     + (if (k <? n - 1)%Z then delta (k + 1) y * (b k * t (k + 1)%Z) else 0))).
  - rewrite !sumn_add. rewrite (sumn_one n (fun _ => a k * t k)) by lia.
    assert (A : sumn n (fun y => if (0 <? k)%Z then delta (k - 1) y * (b (k - 1)%Z * t (k - 1)%Z) else 0) = if (0 <? k)%Z then b (k - 1)%Z * t (k - 1)%Z else 0).
    { destruct (Z.ltb_spec 0 k); [apply (sumn_one n (fun _ => b (k - 1)%Z * t (k - 1)%Z)); lia|apply sumn_zero; reflexivity]. }
    assert (B : sumn n (fun y => if (k <? n - 1)%Z then delta (k + 1) y * (b k * t (k + 1)%Z) else 0) = if (k <? n - 1)%Z then b k * t (k + 1)%Z else 0).
    { destruct (Z.ltb_spec k (n - 1)); [apply (sumn_one n (fun _ => b k * t (k + 1)%Z)); lia|apply sumn_zero; reflexivity]. }
    rewrite A, B. ring.
  - intros y Hy. unfold tri, delta. destruct (Z.eq_dec k y) as [->|E1].
    + destruct (Z.eq_dec (y - 1) y), (Z.eq_dec (y + 1) y); try lia. destruct (0 <? y)%Z, (y <? n - 1)%Z; ring.
    + destruct (Z.eq_dec y (k + 1)) as [E2|E2], (Z.eq_dec (k + 1) y), (Z.eq_dec k (y + 1)), (Z.eq_dec (k - 1) y); try lia.
      * destruct (Z.ltb_spec k (n - 1)); [|lia]. rewrite E2. destruct (0 <? k)%Z; ring.
      * destruct (Z.ltb_spec 0 k); [|lia]. replace (k - 1)%Z with y by lia. destruct (k <? n - 1)%Z; ring.
      * destruct (0 <? k)%Z, (k <? n - 1)%Z; ring.
Qed.

Theorem C76_solver (n : Z) (a b : vec) (q : ql) : (1 <= n)%Z -> tridiag n a b = Ok q ->
  (forall i j, (0 <= i < n)%Z -> (0 <= j < n)%Z -> sumn n (fun x => q_z q x i * q_z q x j) = delta i j) /\
  (forall x y, (0 <= x < n)%Z -> (0 <= y < n)%Z -> sumn n (fun j => q_z q x j * q_z q y j) = delta x y) /\
  (forall j k, (0 <= j < n)%Z -> (0 <= k < n)%Z -> sumn n (fun y => tri a b k y * q_z q y j) = q_d q j * q_z q k j).
Proof.
  intros Hn Hq. destruct (tridiag_ok n a b q Hn Hq) as [[O1 O2] T]. split; [|split].
  - intros. rewrite delta_kd, <- O2 by assumption. rewrite <- inner_vdot. reflexivity.
  - intros. rewrite delta_kd, <- O1 by assumption. rewrite <- inner_vdot. reflexivity.
  - intros j k Hj Hk. rewrite <- (Tmul_tri n a b (fun y => q_z q y j)) by exact Hk. now apply T.
Qed.
Print Assumptions C76_solver.

(** ** The Lanczos process *)
Definition dq : ql := mkQl (fun _ => 0) (fun _ => 0) (fun _ _ => 0).
Theorem C76_lanczos (H : vec -> vec) (N npl : Z) (t0 : vec) (st : lz) : symmetric_op N H -> lanczos H N npl t0 = Ok st ->
  let v k := nth (Z.to_nat k) (l_vs st) (fun _ => 0) in
  Z.of_nat (length (l_vs st)) = npl /\
  (forall i, v 0%Z i = t0 i / sqrt (inner N t0 t0)) /\
  (forall i j, (0 <= i < npl)%Z -> (0 <= j < npl)%Z -> inner N (v i) (v j) = delta i j) /\
  (forall i j, (0 <= i < npl)%Z -> (0 <= j < npl)%Z -> inner N (v i) (H (v j)) = tri (l_aa st) (l_bb st) i j) /\
  (forall j i, (0 <= j < npl - 1)%Z -> (0 <= i < N)%Z ->
     H (v j) i = sumn npl (fun k => tri (l_aa st) (l_bb st) j k * v k i)).
Proof.
  intros SO HL v. pose proof (DN H N SO npl t0 st HL) as D. pose proof (n2 H N SO npl t0 st HL) as Hn.
  assert (HC : forall j i, (0 <= j < npl)%Z -> (0 <= i < N)%Z -> H (v j) i = sumn npl (fun k => tri (l_aa st) (l_bb st) j k * v k i) + delta (npl - 1) j * res H npl st i).
  { intros j i Hj Hi. rewrite <- (Tmul_tri npl _ _ (fun k => v k i)) by exact Hj. unfold Tmul.
    change (H (v j) i) with (H (V (l_vs st) j) i). rewrite (HW H N SO npl t0 st dq HL j i Hj Hi). unfold v, V. ring. }
  split; [apply (d_len _ _ _ _ _ D)|]. split.
  { intros i. pose proof (d_first _ _ _ _ _ D i) as F. rewrite inner_vdot. exact F. }
  split; [exact (Worth H N SO npl t0 st dq HL)|]. split.
  - intros i j Hi Hj.
    rewrite (inner_ext N _ (H (v j)) (v i) (fun x => 1 * (sumn npl (fun k => tri (l_aa st) (l_bb st) j k * v k x)) + delta (npl - 1) j * res H npl st x));
      [|reflexivity|intros x Hx; rewrite HC by assumption; ring].
    rewrite (inner_comm N (v i)), inner_vdot, vdot_lin, <- !inner_vdot.
    pose proof (res_orth H N SO npl t0 st HL i Hi) as RO. change (V (l_vs st) i) with (v i) in RO. rewrite RO. rewrite (inner_sum_l N npl (tri (l_aa st) (l_bb st) j) v (v i)).
    rewrite (sumn_ext npl _ (fun k => delta i k * tri (l_aa st) (l_bb st) j k)).
    + rewrite sumn_one by exact Hi. unfold tri. destruct (Z.eq_dec i j) as [E1|E1], (Z.eq_dec j i); try lia; [rewrite E1; ring|].
      destruct (Z.eq_dec i (j + 1)), (Z.eq_dec j (i + 1)); try lia; ring.
    + intros k Hk. rewrite (inner_comm N (v k)). pose proof (Worth H N SO npl t0 st dq HL i k Hi Hk) as WO. change (inner N (v i) (v k) = delta i k) in WO. rewrite WO. ring.
  - intros j i Hj Hi. rewrite HC by lia. rewrite (delta_kd (npl - 1) j), kd_neq by lia. ring.
Qed.
Print Assumptions C76_lanczos.

(** ** Nodes and weights *)
Definition normed (N : Z) (t0 : vec) : vec := fun i => t0 i / sqrt (inner N t0 t0).

Lemma gauss_node_inv H N npl t0 g : gauss_node H N npl t0 = Ok g -> exists st q, lanczos H N npl t0 = Ok st /\ tridiag npl (l_aa st) (l_bb st) = Ok q /\
  g = mkG (q_d q) (fun i => q_z q 0%Z i * q_z q 0%Z i) (fun k => q_z q (k mod npl)%Z (k / npl)%Z) (l_vs st) (minmax npl (q_d q)).
Proof.
  unfold gauss_node. destruct (lanczos H N npl t0) as [st| |]; try discriminate. cbn [obind].
  destruct (tridiag npl _ _) as [q| |] eqn:T; try discriminate. cbn [obind]. intros E0. injection E0 as <-. exists st, q. auto.
Qed.

Lemma pop_ext H N : symmetric_op N H -> forall p u v, (forall i, (0 <= i < N)%Z -> u i = v i) -> forall i, (0 <= i < N)%Z -> pop H p u i = pop H p v i.
Proof.
  intros SO. induction p as [|c p IH]; intros u v E0 i Hi; [reflexivity|]. cbn [pop]. rewrite E0 by exact Hi. f_equal.
  apply IH; [|exact Hi]. intros; now apply (so_ext _ _ SO).
Qed.

Theorem C76_quadrature (H : vec -> vec) (N npl : Z) (t0 : vec) (g : gauss) (p : list R) :
  symmetric_op N H -> gauss_node H N npl t0 = Ok g -> (Z.of_nat (length p) <= 2 * npl)%Z ->
  sumn npl (fun j => g_wt g j * pval p (g_nd g j)) = inner N (normed N t0) (pop H p (normed N t0)).
Proof.
  intros SO HG Hp. apply gauss_node_inv in HG. destruct HG as (st & q & HL & HT & ->). cbn [g_wt g_nd].
  rewrite (quad H N SO npl t0 st q HL HT p Hp).
  assert (E0 : forall i, V (l_vs st) 0 i = normed N t0 i).
  { intros i. unfold normed. rewrite inner_vdot. apply (d_first _ _ _ _ _ (DN H N SO npl t0 st HL)). }
  apply inner_ext; intros i Hi; [apply E0|]. apply (pop_ext H N SO); [intros; apply E0|exact Hi].
Qed.
Print Assumptions C76_quadrature.

Lemma minmax_ok n d : (1 <= n)%Z -> let mm := minmax n d in
  (forall j, (0 <= j < n)%Z -> fst mm <= d j <= snd mm) /\ (exists j, (0 <= j < n)%Z /\ fst mm = d j) /\ (exists j, (0 <= j < n)%Z /\ snd mm = d j).
Proof.
  intros Hn. cbv zeta. unfold minmax, zrange. replace (Z.to_nat (n - 1 - 1 + 1)) with (Z.to_nat (n - 1)) by lia.
  assert (K : forall k, (Z.of_nat k <= n - 1)%Z -> let mm := fold_left (fun mm i => let '(mn, mx) := mm in
    if Rlt_dec mx (d i) then (mn, d i) else if Rlt_dec (d i) mn then (d i, mx) else mm) (zseq 1 k) (d 0%Z, d 0%Z) in
    (forall j, (0 <= j <= Z.of_nat k)%Z -> fst mm <= d j <= snd mm) /\ (exists j, (0 <= j <= Z.of_nat k)%Z /\ fst mm = d j) /\ (exists j, (0 <= j <= Z.of_nat k)%Z /\ snd mm = d j)).
  { induction k as [|k IH]; intros Hk; cbv zeta.
    - cbn. split; [intros j Hj; replace j with 0%Z by lia; lra|]. split; exists 0%Z; split; (lia || reflexivity).
    - replace (S k) with (k + 1)%nat by lia. rewrite zseq_app, fold_left_app. cbn [zseq fold_left].
      specialize (IH ltac:(lia)). cbv zeta in IH. destruct (fold_left _ (zseq 1 k) _) as [mn mx]. cbn [fst snd] in IH.
      destruct IH as (A & (j1 & B1 & B2) & (j2 & C1 & C2)). set (x := (1 + Z.of_nat k)%Z).
      assert (J : forall j, (0 <= j <= Z.of_nat (k + 1))%Z -> (0 <= j <= Z.of_nat k)%Z \/ j = x) by (unfold x; lia).
      assert (mn <= mx) by (specialize (A j1 B1); lra).
      destruct (Rlt_dec mx (d x)); [|destruct (Rlt_dec (d x) mn)]; cbn [fst snd]; (split; [intros j Hj; destruct (J j Hj) as [Q| ->]; [specialize (A j Q)|]; lra|]);
      split; solve [exists j1; split; [lia|exact B2] | exists j2; split; [lia|exact C2] | exists x; split; [unfold x; lia|reflexivity]]. }
  specialize (K (Z.to_nat (n - 1)) ltac:(lia)). cbv zeta in K. replace (Z.of_nat (Z.to_nat (n - 1))) with (n - 1)%Z in K by lia.
  destruct K as (A & (j1 & B1 & B2) & (j2 & C1 & C2)). split; [intros; apply A; lia|]. split; [exists j1|exists j2]; (split; [lia|assumption]).
Qed.

Theorem C76_weights (H : vec -> vec) (N npl : Z) (t0 : vec) (g : gauss) :
  symmetric_op N H -> gauss_node H N npl t0 = Ok g ->
  (forall j, 0 <= g_wt g j) /\ sumn npl (g_wt g) = 1 /\
  (forall m M, (forall u, m * inner N u u <= inner N u (H u) <= M * inner N u u) -> forall j, (0 <= j < npl)%Z -> m <= g_nd g j <= M) /\
  (forall j, (0 <= j < npl)%Z -> fst (g_mm g) <= g_nd g j <= snd (g_mm g)) /\
  (exists j, (0 <= j < npl)%Z /\ fst (g_mm g) = g_nd g j) /\ (exists j, (0 <= j < npl)%Z /\ snd (g_mm g) = g_nd g j).
Proof.
  intros SO HG. apply gauss_node_inv in HG. destruct HG as (st & q & HL & HT & ->). cbn [g_wt g_nd g_mm].
  pose proof (n2 H N SO npl t0 st HL) as Hn. split; [|split; [|split]].
  - intros j. nra.
  - rewrite (zrow H N SO npl t0 st q HL HT 0 0) by lia. rewrite delta_kd, kd_refl. reflexivity.
  - intros m M HB j Hj. specialize (HB (ritz npl st q j)).
    rewrite (ritz_unit H N SO npl t0 st q HL HT j Hj), (ritz_val H N SO npl t0 st q HL HT j Hj) in HB. lra.
  - apply minmax_ok. lia.
Qed.
Print Assumptions C76_weights.

(** ** The electron density: distance from the exact local density *)
Lemma sumn_Rabs n f : Rabs (sumn n f) <= sumn n (fun i => Rabs (f i)).
Proof.
  unfold sumn. induction (Z.to_nat n) as [|k IH]; cbn [nsum]; [rewrite Rabs_R0; lra|].
  eapply Rle_trans; [apply Rabs_triang|]. lra.
Qed.
Lemma sumn_close n (w f h : Z -> R) eps : (forall i, (0 <= i < n)%Z -> 0 <= w i) -> sumn n w = 1 ->
  (forall i, (0 <= i < n)%Z -> Rabs (f i - h i) <= eps) -> Rabs (sumn n (fun i => w i * f i) - sumn n (fun i => w i * h i)) <= eps.
Proof.
  intros W S E0. replace (sumn n (fun i => w i * f i) - sumn n (fun i => w i * h i)) with (sumn n (fun i => w i * (f i - h i))).
  2:{ rewrite (sumn_ext n (fun i => w i * (f i - h i)) (fun i => w i * f i + -1 * (w i * h i))) by (intros; ring). rewrite sumn_add, sumn_mul. ring. }
  eapply Rle_trans; [apply sumn_Rabs|]. replace eps with (sumn n (fun i => eps * w i)) by (rewrite sumn_mul, S; ring).
  apply sumn_le. intros i Hi. rewrite Rabs_mult, (Rabs_right (w i)) by (specialize (W i Hi); lra).
  specialize (W i Hi). specialize (E0 i Hi). nra.
Qed.

Lemma unit_inner N c v : (0 <= c < N)%Z -> inner N (t_unit c) v = v c.
Proof.
  intros Hc. unfold inner. rewrite (sumn_ext N _ (fun i => delta c i * v i)); [now apply sumn_one|]. intros i _.
  unfold t_unit, upd, delta. destruct (Z.eqb_spec i c), (Z.eq_dec c i); try lia; ring.
Qed.
Lemma normed_unit N c i : (0 <= c < N)%Z -> normed N (t_unit c) i = t_unit c i.
Proof.
  intros Hc. unfold normed. rewrite unit_inner by exact Hc. unfold t_unit at 2. rewrite upd_eq, sqrt_1. field.
Qed.

Theorem C76_density (H : vec -> vec) (N npl c : Z) (g : gauss) (u : Z -> Z -> R) (lam : Z -> R)
    (f : R -> R) (p : list R) (eps occfac dV : R) :
  symmetric_op N H -> eigenbasis N H u lam -> (0 <= c < N)%Z -> 0 <= occfac -> 0 < dV ->
  gauss_node H N npl (t_unit c) = Ok g -> (Z.of_nat (length p) <= 2 * npl)%Z ->
  (forall j, (0 <= j < npl)%Z -> Rabs (f (g_nd g j) - pval p (g_nd g j)) <= eps) ->
  (forall s, (0 <= s < N)%Z -> Rabs (f (lam s) - pval p (lam s)) <= eps) ->
  Rabs (rho_node f occfac dV npl g - occfac * sumn N (fun s => f (lam s) * (u s c * u s c)) / dV) <= 2 * eps * occfac / dV.
Proof.
  intros SO EB Hc Ho Hd HG Hp E1 E2.
  destruct (C76_weights H N npl _ g SO HG) as (W0 & W1 & _).
  pose proof (C76_quadrature H N npl _ g p SO HG Hp) as Q.
  assert (Q' : inner N (normed N (t_unit c)) (pop H p (normed N (t_unit c))) = sumn N (fun s => (u s c * u s c) * pval p (lam s))).
  { rewrite (inner_ext N _ _ (t_unit c) (pop H p (t_unit c))).
    - rewrite (quad_eig H N SO u lam EB). apply sumn_ext. intros s Hs. rewrite (inner_comm N (u s)), unit_inner by exact Hc. reflexivity.
    - intros. now apply normed_unit.
    - intros i Hi. apply (pop_ext H N SO); [intros; now apply normed_unit|exact Hi]. }
  rewrite Q' in Q. clear Q'.
  assert (A1 := sumn_close npl (g_wt g) (fun j => f (g_nd g j)) (fun j => pval p (g_nd g j)) eps (fun j _ => W0 j) W1 E1).
  assert (A2 : Rabs (sumn N (fun s => (u s c * u s c) * f (lam s)) - sumn N (fun s => (u s c * u s c) * pval p (lam s))) <= eps).
  { apply sumn_close; [intros; nra| |exact E2]. rewrite (eb_full _ _ _ _ EB c c) by assumption. now rewrite delta_kd, kd_refl. }
  cbv beta in A1. rewrite Q in A1.
  unfold rho_node. rewrite <- sumn_rsum.
  rewrite (sumn_ext N (fun s => f (lam s) * (u s c * u s c)) (fun s => (u s c * u s c) * f (lam s))) by (intros; ring).
  clear Q W1. set (S1 := sumn npl (fun j => g_wt g j * f (g_nd g j))) in *. set (S2 := sumn N (fun s => u s c * u s c * f (lam s))) in *. set (S3 := sumn N (fun s => u s c * u s c * pval p (lam s))) in *.
  replace (occfac * S1 / dV - occfac * S2 / dV) with ((occfac / dV) * ((S1 - S3) - (S2 - S3))) by (field; lra).
  assert (OD : 0 <= occfac / dV) by (apply Rmult_le_pos; [exact Ho|left; now apply Rinv_0_lt_compat]).
  rewrite Rabs_mult, (Rabs_right (occfac / dV)) by lra. replace (2 * eps * occfac / dV) with ((occfac / dV) * (2 * eps)) by (field; lra).
  apply Rmult_le_compat_l; [exact OD|]. unfold Rminus at 1. eapply Rle_trans; [apply Rabs_triang|]. rewrite Rabs_Ropp. lra.
Qed.
Print Assumptions C76_density.

(** ** Charge, band energy *)
Theorem C76_charge (fn : R -> R) (occfac dV Q : R) (npl : Z) (gs : list gauss) : dV <> 0 -> Q <> 0 ->
  (occ_constraint fn occfac Q npl gs = 0 <-> rsum (map (fun g => rho_node fn occfac dV npl g * dV) gs) = Q).
Proof.
  intros Hd HQ.
  assert (E0 : rsum (map (fun g => rho_node fn occfac dV npl g * dV) gs)
    = rsum (map (fun g => rsum (map (fun j => occfac * g_wt g j * fn (g_nd g j)) (zrange 0 (npl - 1)))) gs)).
  { apply ksum_ext. intros g _. unfold rho_node. rewrite <- (ksum_mul_l _ _ _ _ _ _ RTheory). unfold Rdiv.
    rewrite Rmult_assoc, Rinv_l, Rmult_1_r by exact Hd. apply ksum_ext. intros; ring. }
  rewrite E0. unfold occ_constraint. set (S := rsum _). split.
  - intros E1. apply Rmult_integral in E1. destruct E1 as [E1|E1]; [lra|]. exfalso. revert E1. now apply Rinv_neq_0_compat.
  - intros ->. unfold Rdiv. ring.
Qed.
Print Assumptions C76_charge.

(** The band energy of a polynomial band function over nodes, each with its
    own operator. *)
Theorem C76_energy (npl : Z) (occfac : R) (p : list R) (runs : list ((vec -> vec) * Z * Z * gauss)) :
  (Z.of_nat (length p) <= 2 * npl)%Z ->
  (forall r, In r runs -> let '(H, N, c, g) := r in symmetric_op N H /\ (0 <= c < N)%Z /\ gauss_node H N npl (t_unit c) = Ok g) ->
  eband (pval p) occfac npl (map snd runs) = rsum (map (fun r => let '(H, N, c, g) := r in occfac * pop H p (t_unit c) c) runs).
Proof.
  intros Hp HR. unfold eband. rewrite map_map. apply ksum_ext. intros [[[H N] c] g] I. specialize (HR _ I). cbv beta iota in HR.
  destruct HR as (SO & Hc & HG). cbn [snd]. f_equal. rewrite <- sumn_rsum.
  rewrite (sumn_ext npl _ (fun j => g_wt g j * pval p (g_nd g j))) by (intros; ring).
  rewrite (C76_quadrature H N npl _ g p SO HG Hp). rewrite (inner_ext N _ _ (t_unit c) (pop H p (t_unit c))).
  - now apply unit_inner.
  - intros. now apply normed_unit.
  - intros i Hi. apply (pop_ext H N SO); [intros; now apply normed_unit|exact Hi].
Qed.
Print Assumptions C76_energy.

(** ** Column of the density matrix *)
Lemma dm_col_column H N npl t0 st q fn dV g : symmetric_op N H -> lanczos H N npl t0 = Ok st -> tridiag npl (l_aa st) (l_bb st) = Ok q ->
  g = mkG (q_d q) (fun i => q_z q 0%Z i * q_z q 0%Z i) (fun k => q_z q (k mod npl)%Z (k / npl)%Z) (l_vs st) (minmax npl (q_d q)) ->
  forall i, dm_col fn dV npl g i = 1 / dV * column npl st q fn i.
Proof.
  intros SO HL HT -> i. pose proof (n2 H N SO npl t0 st HL) as Hn. unfold dm_col, column, comb. cbn [g_w g_nd g_vs]. f_equal. rewrite sumn_rsum. apply ksum_ext.
  intros k Hk. apply in_zrange in Hk. unfold V. rewrite Rmult_comm. f_equal. rewrite sumn_rsum. apply ksum_ext. intros j Hj. apply in_zrange in Hj.
  rewrite Z.mod_mul, Z.div_mul by lia. rewrite Z.mod_add, Z.div_add, Z.mod_small, Z.div_small by lia. rewrite Z.add_0_l. ring.
Qed.

Theorem C76_column (H : vec -> vec) (N npl : Z) (t0 : vec) (g : gauss) (p : list R) (dV : R) (i : Z) :
  symmetric_op N H -> gauss_node H N npl t0 = Ok g -> (Z.of_nat (length p) <= npl)%Z -> (0 <= i < N)%Z ->
  dm_col (pval p) dV npl g i = pop H p (normed N t0) i / dV.
Proof.
  intros SO HG Hp Hi. apply gauss_node_inv in HG. destruct HG as (st & q & HL & HT & EG).
  rewrite (dm_col_column H N npl t0 st q _ dV g SO HL HT EG). rewrite (column_exact H N SO npl t0 st q HL HT p i Hp Hi).
  rewrite (pop_ext H N SO p _ (normed N t0)); [unfold Rdiv; ring| |exact Hi].
  intros x Hx. unfold normed. rewrite inner_vdot. apply (d_first _ _ _ _ _ (DN H N SO npl t0 st HL)).
Qed.
Print Assumptions C76_column.

(** The centre entry of the column is the density of the node, for every
    smearing. *)
Theorem C76_diagonal (H : vec -> vec) (N npl c : Z) (g : gauss) (fn : R -> R) (occfac dV : R) :
  symmetric_op N H -> (0 <= c < N)%Z -> gauss_node H N npl (t_unit c) = Ok g ->
  occfac * dm_col fn dV npl g c = rho_node fn occfac dV npl g.
Proof.
  intros SO Hc HG. apply gauss_node_inv in HG. destruct HG as (st & q & HL & HT & EG).
  rewrite (dm_col_column H N npl _ st q fn dV g SO HL HT EG). pose proof (n2 H N SO npl _ st HL) as Hn.
  unfold column, comb. rewrite (sumn_ext npl _ (fun x => delta 0 x * sumn npl (fun j => q_z q 0%Z j * fn (q_d q j) * q_z q x j))).
  - rewrite sumn_one by lia. unfold rho_node. rewrite EG. cbn [g_wt g_nd]. rewrite <- sumn_rsum.
    rewrite (sumn_ext npl (fun j => q_z q 0%Z j * fn (q_d q j) * q_z q 0%Z j) (fun j => q_z q 0%Z j * q_z q 0%Z j * fn (q_d q j))) by (intros; ring). unfold Rdiv. ring.
  - intros x Hx. rewrite Rmult_comm. f_equal. rewrite <- (Worth H N SO npl _ st q HL 0 x) by lia.
    rewrite (inner_ext N _ (V (l_vs st) x) (t_unit c) (V (l_vs st) x)); [symmetry; now apply unit_inner| |reflexivity].
    intros i Hi. rewrite <- (normed_unit N c i Hc). unfold normed. rewrite inner_vdot. apply (d_first _ _ _ _ _ (DN H N SO npl _ st HL)).
Qed.
Print Assumptions C76_diagonal.

(** ** The operator *)
Definition cfg_ok (c : cfg) (atoms : list natom) (nd : Z) : Prop :=
  (0 < c_nx c)%Z /\ (0 < c_ny c)%Z /\ (0 < c_nz c)%Z /\ (0 <= c_fd c)%Z /\ (0 < c_dmx c)%Z /\ (0 < c_dmy c)%Z /\ (0 < c_dmz c)%Z /\
  (0 <= nd < c_dmx c * c_dmy c * c_dmz c)%Z /\
  (forall A, In A atoms -> forall p, In p (a_pos A) -> (0 <= p < c_nx c * c_ny c * c_nz c)%Z).

(** What the halo of x_ex must hold: zeros, as the memset left them. *)
Definition halo_zero (c : cfg) (a : vec) : Prop := forall i j k,
  (0 <= i < c_nx c + 2 * c_fd c)%Z -> (0 <= j < c_ny c + 2 * c_fd c)%Z -> (0 <= k < c_nz c + 2 * c_fd c)%Z ->
  ~ ((c_fd c <= i < c_nx c + c_fd c)%Z /\ (c_fd c <= j < c_ny c + c_fd c)%Z /\ (c_fd c <= k < c_nz c + c_fd c)%Z) ->
  a (k * ((c_nx c + 2 * c_fd c) * (c_ny c + 2 * c_fd c)) + j * (c_nx c + 2 * c_fd c) + i)%Z = 0.

(** The vector at a point of the box of the node, zero outside. *)
Definition pt (c : cfg) (x : vec) (i j k : Z) : R :=
  if ((0 <=? i) && (i <? c_nx c) && ((0 <=? j) && (j <? c_ny c)) && ((0 <=? k) && (k <? c_nz c)))%Z
  then x (k * (c_nx c * c_ny c) + j * c_nx c + i)%Z else 0.

(** -1/2 Laplacian + Veff + nonlocal projectors at (i, j, k). *)
Definition H_spec (c : cfg) (atoms : list natom) (dV : R) (nd : Z) (x : vec) (i j k : Z) : R :=
  let axis (cf : vec) (s : Z -> R) := cf 0%Z * s 0%Z + sumn (c_fd c) (fun q => cf (q + 1)%Z * (s (- (q + 1))%Z + s (q + 1)%Z)) in
  let ix := (nd mod c_dmx c)%Z in let jx := ((nd / c_dmx c) mod c_dmy c)%Z in let kx := (nd / (c_dmx c * c_dmy c))%Z in
  - / 2 * (axis (c_cx c) (fun r => pt c x (i + r) j k) + axis (c_cy c) (fun r => pt c x i (j + r) k) + axis (c_cz c) (fun r => pt c x i j (k + r)))
  + c_veff c ((k + kx) * ((c_dmx c + c_nx c - 1) * (c_dmy c + c_ny c - 1)) + (j + jx) * (c_dmx c + c_nx c - 1) + (i + ix))%Z * pt c x i j k
  + rsum (map (fun A => let n := Z.of_nat (length (a_pos A)) in let pos r := nth (Z.to_nat r) (a_pos A) 0%Z in
      sumn n (fun r => delta (pos r) (k * (c_nx c * c_ny c) + j * c_nx c + i) *
        sumn (Z.of_nat (length (a_gam A))) (fun q => a_chi A r q * nth (Z.to_nat q) (a_gam A) 0 * (dV * sumn n (fun s => a_chi A s q * x (pos s)))))) atoms).

Lemma halo_eq c a : halo_zero c a -> halo0 c a.
Proof.
  intros Hh i j k Hi Hj Hk B. unfold flat, Nx_ex, Ny_ex, Nz_ex in *. apply Hh; try assumption. intros (A1 & A2 & A3).
  assert (inb c (i - c_fd c) (j - c_fd c) (k - c_fd c) = true) by (apply inb_spec; lia). congruence.
Qed.
Lemma halo_eq' c a : halo0 c a -> halo_zero c a.
Proof.
  intros Hh i j k Hi Hj Hk B. apply (Hh i j k Hi Hj Hk). destruct (inb c (i - c_fd c) (j - c_fd c) (k - c_fd c)) eqn:Q; [|reflexivity].
  exfalso. apply B. apply inb_spec in Q. lia.
Qed.

Theorem C76_operator (c : cfg) (atoms : list natom) (dV : R) (nd : Z) : cfg_ok c atoms nd ->
  symmetric_op (c_nx c * c_ny c * c_nz c) (Hsub c atoms dV nd) /\
  forall x xex y0, halo_zero c xex -> exists h e, hsub c atoms dV nd x xex y0 = Ok (h, e) /\ halo_zero c e /\
    (forall p, (0 <= p < c_nx c * c_ny c * c_nz c)%Z -> h p = Hsub c atoms dV nd x p) /\
    (forall i j k, (0 <= i < c_nx c)%Z -> (0 <= j < c_ny c)%Z -> (0 <= k < c_nz c)%Z ->
       h (k * (c_nx c * c_ny c) + j * c_nx c + i)%Z = H_spec c atoms dV nd x i j k).
Proof.
  intros (H1 & H2 & H3 & H4 & H5 & H6 & H7 & H8 & H9). split; [exact (Hsub_sym c dV nd H1 H2 H4 H5 H6 H7 H8 atoms H9)|].
  intros x xex y0 Hh. destruct (hsub_ok c dV nd H1 H2 H4 H5 H6 H7 H8 atoms H9 x xex y0 (halo_eq c xex Hh)) as (h & e & E1 & He & Ev).
  exists h, e. split; [exact E1|]. split; [now apply halo_eq'|]. split.
  - intros p Hp. rewrite Ev by exact Hp. symmetry. exact (Hsub_val c dV nd H1 H2 H4 H5 H6 H7 H8 atoms H9 x p Hp).
  - intros i j k Hi Hj Hk. pose proof (flat_bound (c_nx c) (c_ny c) (c_nz c) i j k Hi Hj Hk) as B. unfold flat in B. rewrite Ev by exact B.
    destruct (coord_flat (c_nx c) (c_ny c) i j k Hi Hj) as (C1 & C2 & C3). unfold flat in C1, C2, C3.
    unfold H_spec. f_equal.
    + unfold lapv. rewrite C1, C2, C3. unfold kval.
      change (X c x) with (pt c x). rewrite !Z.add_0_r.
      unfold wts. cbn [Z.eqb Pos.eqb].
      match goal with |- _ * _ + sumn (c_fd c) ?f + _ = _ => rewrite (sumn_ext (c_fd c) f (fun q => - / 2 * (c_cx c (q + 1)%Z * (pt c x (i + - (q + 1)) j k + pt c x (i + (q + 1)) j k)
           + c_cy c (q + 1)%Z * (pt c x i (j + - (q + 1)) k + pt c x i (j + (q + 1)) k)
           + c_cz c (q + 1)%Z * (pt c x i j (k + - (q + 1)) + pt c x i j (k + (q + 1)))))) end.
      2:{ intros q _. cbv beta zeta. change (X c x) with (pt c x). unfold Z.sub. ring. }
      rewrite sumn_mul, !sumn_add. unfold flat, PRx, PRy, is_, js_, ks_.
      replace (c_dmx c + (c_nx c - 1))%Z with (c_dmx c + c_nx c - 1)%Z by ring. replace (c_dmy c + (c_ny c - 1))%Z with (c_dmy c + c_ny c - 1)%Z by ring. ring.
    + unfold vnlv, vat. apply ksum_ext. intros A _. fold (ndc A). apply sumn_ext. intros r _. f_equal. unfold xo. apply sumn_ext. intros q _.
      unfold gamn, proj, posn. ring.
Qed.
Print Assumptions C76_operator.

(** ** The coefficients of the projectors *)
(** Number of projectors of a type up to angular momentum [l], and number of
    radial functions up to [l]; [skip] is the local component. *)
Definition nproj_upto (ppl : list Z) (skip l : Z) : Z := fold_right Z.add 0%Z
  (map (fun l' => if (l' =? skip)%Z then 0%Z else nth (Z.to_nat l') ppl 0 * (2 * l' + 1))%Z (zseq 0 (Z.to_nat l))).
Definition nrad_upto (ppl : list Z) (l : Z) : Z := fold_right Z.add 0%Z (map (fun l' => nth (Z.to_nat l') ppl 0%Z) (zseq 0 (Z.to_nat l))).

Lemma len_blk l p (g : Z -> R) : (0 <= l)%Z -> (0 <= p)%Z ->
  Z.of_nat (length (flat_map (fun np => map (fun _ => g np) (zrange (- l) l)) (zrange 0 (p - 1)))) = (p * (2 * l + 1))%Z.
Proof.
  intros Hl Hp. unfold zrange at 2. replace (Z.to_nat (p - 1 - 0 + 1)) with (Z.to_nat p) by lia. rewrite <- (Z2Nat.id p) at 2 by lia.
  generalize (Z.to_nat p). intros k. generalize 0%Z. induction k as [|k IH]; intros a; [reflexivity|]. cbn [zseq flat_map].
  rewrite app_length, Nat2Z.inj_add, IH, map_length. unfold zrange. rewrite zseq_length. lia.
Qed.
Lemma nth_blk l (g : Z -> R) k : (0 <= l)%Z -> forall a np m, (0 <= np < Z.of_nat k)%Z -> (0 <= m < 2 * l + 1)%Z ->
  nth (Z.to_nat (np * (2 * l + 1) + m)) (flat_map (fun np => map (fun _ => g np) (zrange (- l) l)) (zseq a k)) 0 = g (a + np)%Z.
Proof.
  intros Hl. induction k as [|k IH]; intros a np m Hn Hm; [lia|]. cbn [zseq flat_map].
  assert (LZ : length (map (fun _ : Z => g a) (zrange (- l) l)) = Z.to_nat (2 * l + 1)) by (rewrite map_length; unfold zrange; rewrite zseq_length; lia).
  destruct (Z.eq_dec np 0) as [->|Hz].
  - rewrite app_nth1 by (rewrite LZ; lia). rewrite Z.add_0_r.
    apply (proj1 (Forall_forall (fun x => x = g a) (map (fun _ : Z => g a) (zrange (- l) l)))).
    + apply Forall_forall. intros x I. apply in_map_iff in I. destruct I as (y & <- & _). reflexivity.
    + apply nth_In. rewrite LZ. lia.
  - rewrite app_nth2 by (rewrite LZ; nia). rewrite LZ. replace (Z.to_nat (np * (2 * l + 1) + m) - Z.to_nat (2 * l + 1))%nat with (Z.to_nat ((np - 1) * (2 * l + 1) + m)) by nia.
    rewrite IH by lia. f_equal. lia.
Qed.
Definition blk (l ld p lloc : Z) (gam : vec) : list R :=
  if (l =? lloc)%Z then [] else flat_map (fun np => map (fun _ => gam (ld + np)%Z) (zrange (- l) l)) (zrange 0 (p - 1)).
Lemma gammas_snoc lloc gam p : forall ppl l ld, gammas l ld lloc (ppl ++ [p]) gam =
  gammas l ld lloc ppl gam ++ blk (l + Z.of_nat (length ppl)) (ld + fold_right Z.add 0%Z ppl) p lloc gam.
Proof.
  induction ppl as [|p0 ppl IH]; intros l ld; cbn [app gammas length fold_right].
  - rewrite app_nil_r, !Z.add_0_r. reflexivity.
  - rewrite IH, app_assoc. do 2 f_equal; lia.
Qed.
Lemma upto_ext {A} (f g : Z -> A) k : (forall l, (0 <= l < Z.of_nat k)%Z -> f l = g l) -> map f (zseq 0 k) = map g (zseq 0 k).
Proof. intros E0. apply map_ext_in. intros l I. apply in_zseq in I. apply E0. lia. Qed.
Lemma upto_S (f : Z -> Z) k : fold_right Z.add 0%Z (map f (zseq 0 (S k))) = (fold_right Z.add 0 (map f (zseq 0 k)) + f (Z.of_nat k))%Z.
Proof.
  replace (S k) with (k + 1)%nat by lia. rewrite zseq_app, map_app, fold_right_app. cbn [zseq map fold_right]. rewrite Z.add_0_l, Z.add_0_r.
  generalize (f (Z.of_nat k)). induction (map f (zseq 0 k)) as [|x L IH]; intros z; cbn [fold_right]; [lia|]. rewrite IH. lia.
Qed.
Lemma sum_nonneg L : (forall x, In x L -> (0 <= x)%Z) -> (0 <= fold_right Z.add 0 L)%Z.
Proof. induction L as [|x L IH]; intros Hx; cbn [fold_right]; [lia|]. specialize (IH ltac:(intros; apply Hx; now right)). specialize (Hx x (or_introl eq_refl)). lia. Qed.
Lemma nproj_snoc ppl p skip l : (0 <= l <= Z.of_nat (length ppl))%Z -> nproj_upto (ppl ++ [p]) skip l = nproj_upto ppl skip l.
Proof. intros Hl. unfold nproj_upto. f_equal. apply upto_ext. intros l' Hl'. rewrite app_nth1 by lia. reflexivity. Qed.
Lemma nrad_snoc ppl p l : (0 <= l <= Z.of_nat (length ppl))%Z -> nrad_upto (ppl ++ [p]) l = nrad_upto ppl l.
Proof. intros Hl. unfold nrad_upto. f_equal. apply upto_ext. intros l' Hl'. rewrite app_nth1 by lia. reflexivity. Qed.
Lemma nrad_all ppl : nrad_upto ppl (Z.of_nat (length ppl)) = fold_right Z.add 0%Z ppl.
Proof.
  unfold nrad_upto. rewrite Nat2Z.id. induction ppl as [|p ppl IH] using rev_ind; [reflexivity|].
  rewrite app_length, Nat.add_1_r, upto_S, (upto_ext _ (fun l => nth (Z.to_nat l) ppl 0%Z)) by (intros; apply app_nth1; lia).
  rewrite IH, Nat2Z.id, app_nth2, Nat.sub_diag by lia. rewrite fold_right_app. cbn [nth fold_right]. rewrite Z.add_0_r. clear.
  induction ppl as [|x L IH]; cbn [fold_right]; lia.
Qed.

(** The value that multiplies projector (l, np, m) is Gamma of (l, np), counted
    over all l including the local one. *)
Theorem C76_gamma (ppl : list Z) (lloc : Z) (gam : vec) : (forall p, In p ppl -> (0 <= p)%Z) ->
  Z.of_nat (length (gammas 0 0 lloc ppl gam)) = nproj_upto ppl lloc (Z.of_nat (length ppl)) /\
  forall l np m, (0 <= l < Z.of_nat (length ppl))%Z -> l <> lloc -> (0 <= np < nth (Z.to_nat l) ppl 0)%Z -> (0 <= m < 2 * l + 1)%Z ->
    nth (Z.to_nat (nproj_upto ppl lloc l + np * (2 * l + 1) + m)) (gammas 0 0 lloc ppl gam) 0 = gam (nrad_upto ppl l + np)%Z.
Proof.
  intros Hp. induction ppl as [|p ppl IH] using rev_ind.
  { split; [reflexivity|]. cbn [length]. intros; lia. }
  assert (P0 : (0 <= p)%Z) by (apply Hp, in_or_app; right; now left).
  destruct (IH ltac:(intros; apply Hp, in_or_app; now left)) as [L1 V1]. clear IH.
  rewrite gammas_snoc, app_length, Nat2Z.inj_add, L1, app_length, Nat.add_1_r.
  set (n := length ppl) in *. rewrite !Z.add_0_l. split.
  - unfold nproj_upto. rewrite !Nat2Z.id, upto_S. f_equal.
    + f_equal. apply upto_ext. intros l Hl. rewrite app_nth1 by (fold n; lia). reflexivity.
    + unfold blk. destruct (Z.of_nat n =? lloc)%Z; [reflexivity|]. rewrite (len_blk (Z.of_nat n) p (fun np => gam (fold_right Z.add 0%Z ppl + np)%Z)) by lia.
      rewrite Nat2Z.id, app_nth2, Nat.sub_diag by (unfold n; lia). reflexivity.
  - intros l np m Hl Hne Hn Hm. destruct (Z.eq_dec l (Z.of_nat n)) as [->|Hz].
    + rewrite nproj_snoc, nrad_snoc by (fold n; lia). rewrite Nat2Z.id, app_nth2, Nat.sub_diag in Hn by (unfold n; lia). cbn [nth] in Hn.
      assert (B : (0 <= nproj_upto ppl lloc (Z.of_nat n))%Z) by lia.
      rewrite app_nth2 by nia. replace (Z.to_nat (nproj_upto ppl lloc (Z.of_nat n) + np * (2 * Z.of_nat n + 1) + m) - length (gammas 0 0 lloc ppl gam))%nat
        with (Z.to_nat (np * (2 * Z.of_nat n + 1) + m)) by nia.
      unfold blk. destruct (Z.eqb_spec (Z.of_nat n) lloc); [congruence|]. unfold zrange at 2. replace (Z.to_nat (p - 1 - 0 + 1)) with (Z.to_nat p) by lia.
      rewrite (nth_blk (Z.of_nat n) (fun np => gam (fold_right Z.add 0%Z ppl + np)%Z)) by lia. cbv beta. unfold n. rewrite nrad_all. reflexivity.
    + rewrite nproj_snoc, nrad_snoc by (fold n; lia). rewrite app_nth1 in Hn by (fold n; lia).
      rewrite app_nth1; [apply V1; lia|].
      assert (M : (nproj_upto ppl lloc l + np * (2 * l + 1) + m < nproj_upto ppl lloc (Z.of_nat n))%Z).
      { assert (MO : forall k, (k <= n)%nat -> (l < Z.of_nat k)%Z -> (nproj_upto ppl lloc l + nth (Z.to_nat l) ppl 0 * (2 * l + 1) <= nproj_upto ppl lloc (Z.of_nat k))%Z).
        { induction k as [|k IHk]; intros Hk Hlk; [lia|]. unfold nproj_upto at 2. rewrite Nat2Z.id, upto_S. destruct (Z.eq_dec l (Z.of_nat k)) as [->|Hlk'].
          - destruct (Z.eqb_spec (Z.of_nat k) lloc); [congruence|]. unfold nproj_upto. rewrite Nat2Z.id. lia.
          - specialize (IHk ltac:(lia) ltac:(lia)). unfold nproj_upto at 2 in IHk. rewrite Nat2Z.id in IHk.
            assert (0 <= nth (Z.to_nat (Z.of_nat k)) ppl 0)%Z by (apply Hp, in_or_app; left; apply nth_In; rewrite Nat2Z.id; fold n; lia).
            destruct (Z.of_nat k =? lloc)%Z; nia. }
        specialize (MO n ltac:(lia) ltac:(lia)). nia. }
      assert (NN : (0 <= nproj_upto ppl lloc l)%Z).
      { unfold nproj_upto. apply sum_nonneg. intros x I. apply in_map_iff in I. destruct I as (l' & <- & I). apply in_zseq in I.
        destruct (l' =? lloc)%Z; [lia|]. assert (0 <= nth (Z.to_nat l') ppl 0)%Z by (apply Hp, in_or_app; left; apply nth_In; fold n; lia). nia. }
      nia.
Qed.
Print Assumptions C76_gamma.

(** ** What does not hold *)
(** SQ_NPL_G = 1 passes the check of the input (initialization.c:2849) and
    writes past the end of lanczos_vec (or divides by zero before). *)
Theorem C76_single_refuted : exists x : sqin, i_amb x = true /\ i_npl x = 1%Z /\ sq_check x = Ok tt /\
  forall H N t0, gauss_node H N (i_npl x) t0 = UB.
Proof.
  exists (mkSqin true false (false, false, false) 0 true 0 false (-1) false false false 1 0). repeat split.
  intros H N t0. cbn [i_npl]. unfold gauss_node, lanczos, lz_init.
  destruct (vdiv t0 (norm2 N t0)); [|reflexivity]. cbn [use obind]. unfold put at 1. cbn [length].
  change (Z.of_nat 0 <? 1)%Z with true. cbn [obind app]. destruct (vdiv _ _); [|reflexivity]. cbn [use obind].
  unfold put. change (Z.of_nat (length [v]) <? 1)%Z with false. reflexivity.
Qed.
Print Assumptions C76_single_refuted.

(** An eigenvector as the start (a zero residual) is not guarded: division by
    zero. *)
Theorem C76_breakdown_refuted : exists (H : vec -> vec) (N npl c : Z), symmetric_op N H /\ (0 <= c < N)%Z /\ (2 <= npl <= N)%Z /\
  gauss_node H N npl (t_unit c) = UB.
Proof.
  exists (fun v i => (if (i =? 0)%Z then 1 else 2) * v i), 3%Z, 2%Z, 1%Z. split; [|split; [lia|split; [lia|]]].
  - constructor.
    + intros u v E0 i Hi. now rewrite E0.
    + intros. ring.
    + intros u v. unfold inner. apply sumn_ext. intros; ring.
  - unfold gauss_node, lanczos, lz_init.
    assert (N1 : norm2 3 (t_unit 1) = 1).
    { unfold norm2, vdot, t_unit, upd. change (zrange 0 (3 - 1)) with [0%Z; 1%Z; 2%Z]. cbn. replace (_ + _) with 1 by ring. apply sqrt_1. }
    rewrite N1. unfold vdiv at 1. destruct (Req_EM_T 1 0); [lra|]. cbn [use obind]. unfold put at 1. cbn [length]. change (Z.of_nat 0 <? 2)%Z with true. cbn [obind app].
    set (w := fun i => _). assert (W0 : norm2 3 w = 0).
    { unfold norm2. replace (vdot 3 w w) with 0; [apply sqrt_0|]. unfold vdot, w, vdot, t_unit, upd. change (zrange 0 (3 - 1)) with [0%Z; 1%Z; 2%Z]. cbn. field. }
    rewrite W0. unfold vdiv. destruct (Req_EM_T 0 0); [reflexivity|lra].
Qed.
Print Assumptions C76_breakdown_refuted.

(** With Fermi-Dirac occupations the entropy terms are those of energy.c. *)
Theorem C76_entropy (f : R) : / 10 ^ 14 < f < 1 - / 10 ^ 14 -> Eent f = - fd_term f.
Proof.
  intros Hf. assert (T0 : 0 < / 10 ^ 14) by (apply Rinv_0_lt_compat, pow_lt; lra).
  unfold Eent, fd_term, TEMP_TOL. set (t := / 10 ^ 14) in *.
  destruct (Rlt_dec (Rabs f) _) as [A|_]; [rewrite Rabs_right in A by lra; lra|].
  destruct (Rlt_dec (Rabs (f - 1)) _) as [A|_]; [rewrite Rabs_left in A by lra; lra|].
  destruct (Rlt_dec t f); [|lra]. destruct (Rlt_dec t (1 - f)); [|lra]. ring.
Qed.
Print Assumptions C76_entropy.

(** The entropy term of all nodes is then minus the temperature times the sum
    over nodes of the quadrature of the Fermi-Dirac entropy. *)
Theorem C76_entropy_sum (fn : R -> R) (occfac beta : R) (npl : Z) (gs : list gauss) : beta <> 0 ->
  (forall g j, In g gs -> (0 <= j < npl)%Z -> / 10 ^ 14 < fn (g_nd g j) < 1 - / 10 ^ 14) ->
  entropy_sq fn occfac beta npl gs = - (occfac / beta) * rsum (map (fun g => sumn npl (fun j => g_wt g j * fd_term (fn (g_nd g j)))) gs).
Proof.
  intros Hb Hf. unfold entropy_sq. rewrite <- (ksum_mul_l _ _ _ _ _ _ RTheory). apply ksum_ext. intros g I.
  rewrite <- sumn_rsum, (sumn_ext npl _ (fun j => -1 * (g_wt g j * fd_term (fn (g_nd g j))))).
  - rewrite sumn_mul. field. exact Hb.
  - intros j Hj. rewrite C76_entropy by (apply Hf; assumption). ring.
Qed.
Print Assumptions C76_entropy_sum.

(** With Gaussian smearing they are not: the Fermi-Dirac formula is used for
    every smearing. *)
Theorem C76_entropy_refuted : forall erf : R -> R, erf 0 = 0 -> exists beta lambda lf,
  Eent (Occupation.smearing_function erf beta lambda lf true) <> - gauss_term beta lambda lf.
Proof.
  intros erf E0. exists 1, 0, 0. unfold Occupation.smearing_function, gauss_term.
  replace (1 * (0 - 0)) with 0 by ring. rewrite E0. replace (- 0 * 0) with 0 by ring. rewrite exp_0.
  assert (HF : forall x, x = / 2 -> Eent x = - ln 2).
  { intros x ->. assert (0 < / 10 ^ 14 < 1).
    { split; [apply Rinv_0_lt_compat, pow_lt; lra|]. rewrite <- Rinv_1. apply Rinv_lt_contravar; [|apply Rlt_pow_R1; [lra|lia]]. rewrite Rmult_1_l. apply pow_lt; lra. }
    unfold Eent. set (t := / 10 ^ 14) in *.
    destruct (Rlt_dec (Rabs (/ 2)) _) as [A|_]; [rewrite Rabs_right in A by lra; lra|].
    destruct (Rlt_dec (Rabs (/ 2 - 1)) _) as [A|_]; [rewrite Rabs_left in A by lra; lra|].
    replace (1 - / 2) with (/ 2) by field. rewrite ln_Rinv by lra. field. }
  rewrite HF by lra.
  assert (L2 : / 2 < ln 2).
  { rewrite <- (ln_exp (/ 2)). apply ln_increasing; [apply exp_pos|].
    assert (SQ : exp (/ 2) * exp (/ 2) = exp 1) by (rewrite <- exp_plus; f_equal; field). pose proof exp_le_3. pose proof (exp_pos (/ 2)). nra. }
  assert (SP : 1 <= sqrt PI) by (rewrite <- sqrt_1; apply sqrt_le_1_alt; pose proof PI2_3_2; pose proof PI2_1; unfold PI2 in *; lra).
  assert (0.5 / sqrt PI <= / 2).
  { apply Rmult_le_reg_r with (sqrt PI); [lra|]. unfold Rdiv. rewrite Rmult_assoc, Rinv_l by lra. lra. }
  lra.
Qed.
Print Assumptions C76_entropy_refuted.

(** The checks: what an accepted SQ run may rely on ... *)
Theorem C76_check (x : sqin) : sq_check x = Ok tt -> i_amb x = true \/ i_high x = true ->
  i_amb x <> i_high x /\ i_bc x = (false, false, false) /\ i_cell x = 0%Z /\ (1 <= i_npl x)%Z /\ i_rneg x = false /\
  i_soc x = false /\ i_mgga x = false /\ i_spin x <> 2%Z /\ (i_spin x = 1%Z -> i_high x = false /\ i_fock x = false) /\ (i_peig x <= 0)%Z.
Proof.
  unfold sq_check. destruct x as [am hi [[bx by_] bz] ce ga sp fo ns so mg rn np pe]. cbn [i_amb i_high i_bc i_cell i_gamma i_spin i_fock i_nstates i_soc i_mgga i_rneg i_npl i_peig].
  intros Hc Hor. destruct am, hi; cbn [orb andb negb] in Hc; try discriminate; try (destruct Hor; discriminate);
  destruct bx, by_, bz; cbn [orb] in Hc; try discriminate;
  destruct (Z.eqb_spec ce 0); cbn [negb] in Hc; try discriminate;
  destruct (negb ga && (sp =? 2)%Z); try discriminate;
  destruct (Z.eqb_spec sp 1), fo, so, mg, rn; cbn [orb andb] in Hc; try discriminate;
  destruct (Z.eqb_spec ns (-1)); cbn [negb] in Hc; try discriminate;
  destruct (Z.leb_spec np 0); try discriminate; destruct (Z.ltb_spec 0 pe); try discriminate; destruct (Z.eqb_spec sp 2); try discriminate; repeat split; intros; try congruence; lia.
Qed.
Print Assumptions C76_check.

(** ... but not that the calculation is at the Gamma point: the test joins
    k-points and non-collinear spin by "and" (initialization.c:2819); the latter
    is caught by a later test, k-points are not. *)
Theorem C76_kpoint_refuted : exists x, i_amb x = true /\ i_gamma x = false /\ sq_check x = Ok tt.
Proof. exists (mkSqin true false (false, false, false) 0 false 0 false (-1) false false false 4 0). repeat split. Qed.
Print Assumptions C76_kpoint_refuted.

(** ** A concrete run: the operator that swaps two entries *)
Definition swap2 (v : vec) : vec := fun i => v (1 - i)%Z.

Example C76_swap_sym : symmetric_op 2 swap2.
Proof.
  constructor.
  - intros u v E0 i Hi. unfold swap2. apply E0. lia.
  - intros. unfold swap2. ring.
  - intros u v. unfold inner, swap2, sumn. change (Z.to_nat 2) with 2%nat. cbn. ring.
Qed.

Example C76_swap_basis : eigenbasis 2 swap2 (fun s i => (if (s =? 0)%Z then if (i =? 0)%Z then 1 else -1 else 1) / sqrt 2) (fun s => if (s =? 0)%Z then -1 else 1).
Proof.
  assert (S2 : sqrt 2 * sqrt 2 = 2) by (apply sqrt_sqrt; lra). assert (S0 : sqrt 2 <> 0) by (apply Rgt_not_eq, sqrt_lt_R0; lra).
  assert (K : forall a b, a / sqrt 2 * (b / sqrt 2) = a * b / 2) by (intros a b; transitivity (a * b / (sqrt 2 * sqrt 2)); [field; exact S0|now rewrite S2]).
  assert (D : forall s, (0 <= s < 2)%Z -> s = 0%Z \/ s = 1%Z) by lia.
  constructor.
  - intros s t Hs Ht. unfold inner, sumn, delta. change (Z.to_nat 2) with 2%nat. destruct (D s Hs) as [->| ->], (D t Ht) as [->| ->]; cbn; rewrite !K; try field.
  - intros s t Hs Ht. unfold inner, sumn, delta. change (Z.to_nat 2) with 2%nat. destruct (D s Hs) as [->| ->], (D t Ht) as [->| ->]; cbn; rewrite !K; try field.
  - intros s t Hs Ht. unfold swap2. destruct (D s Hs) as [->| ->], (D t Ht) as [->| ->]; cbn; field; exact S0.
Qed.

Example C76_swap_run : exists g, gauss_node swap2 2 2 (t_unit 0) = Ok g.
Proof.
  unfold gauss_node.
  assert (L : exists st, lanczos swap2 2 2 (t_unit 0) = Ok st /\ l_aa st 0%Z = 0 /\ l_aa st 1%Z = 0 /\ l_bb st 0%Z = 1).
  { unfold lanczos, lz_init.
    assert (N1 : norm2 2 (t_unit 0) = 1) by (unfold norm2, vdot, t_unit, upd; change (zrange 0 (2 - 1)) with [0%Z; 1%Z]; cbn; replace (_ + _) with 1 by ring; apply sqrt_1).
    rewrite N1. unfold vdiv at 1. destruct (Req_EM_T 1 0); [lra|]. cbn [use obind]. unfold put at 1. cbn [length]. change (Z.of_nat 0 <? 2)%Z with true. cbn [obind app].
    set (v0 := fun i => t_unit 0 i / 1). assert (A0 : vdot 2 v0 (swap2 v0) = 0) by (unfold vdot, v0, swap2, t_unit, upd; change (zrange 0 (2 - 1)) with [0%Z; 1%Z]; cbn; field).
    rewrite A0. set (w := fun i0 : Z => swap2 v0 i0 - 0 * (t_unit 0 i0 / 1)). assert (W1 : norm2 2 w = 1).
    { unfold norm2. replace (vdot 2 w w) with 1; [apply sqrt_1|]. unfold vdot, w, v0, swap2, t_unit, upd. change (zrange 0 (2 - 1)) with [0%Z; 1%Z]. cbn. field. }
    rewrite W1. unfold vdiv at 1 2. destruct (Req_EM_T 1 0); [lra|]. cbn [use obind]. unfold put. cbn [length]. change (Z.of_nat 1 <? 2)%Z with true. cbn [obind app].
    change (zrange 0 (2 - 2)) with [0%Z]. cbn [ofold]. unfold lz_step at 1. cbn [l_vk use obind l_aa l_bb l_vs l_km1 Z.eqb Pos.eqb Z.sub].
    change (0 =? 2 + - (2))%Z with true. cbn [obind]. eexists. split; [reflexivity|]. cbn [l_aa l_bb]. split; [reflexivity|]. split; [|reflexivity].
    unfold vdot, w, v0, swap2, t_unit, upd. change (zrange 0 (2 - 1)) with [0%Z; 1%Z]. cbn. field. }
  destruct L as (st & -> & A0 & A1 & B0). cbn [obind].
  assert (T : exists q, tridiag 2 (l_aa st) (l_bb st) = Ok q); [|destruct T as (q & ->); cbn [obind]; eexists; reflexivity].
  unfold tridiag. change (zrange 0 (2 - 1)) with [0%Z; 1%Z]. cbn [ofold].
  set (d := l_aa st) in *. set (e := upd (l_bb st) (2 - 1) 0).
  assert (E0 : e 0%Z = 1) by exact B0. assert (E1 : e 1%Z = 0) by reflexivity.
  assert (Q1 : exists q, ql_l 200 2 0 (mkQl d e (fun i j => if (i =? j)%Z then 1 else 0)) = Ok q).
  { change 200%nat with (S 199). generalize 199%nat. intros fu. cbn [ql_l q_d q_e]. change (Z.to_nat (2 - 1 - 0)) with 1%nat. cbn [find_m]. change (0 + 1)%Z with 1%Z.
    rewrite A0, A1, E0, Rabs_R0, Rabs_R1. destruct (Req_EM_T (1 + (0 + 0)) (0 + 0)); [lra|].
    change (1 =? 0)%Z with false. cbn iota. change (Z.to_nat (1 - 0)) with 1%nat. cbn [sweep w_d w_e w_g w_s w_c w_p w_z q_z]. change (1 - 1)%Z with 0%Z. change (0 + 1)%Z with 1%Z.
    assert (SH : shift d e 0 1 = 1).
    { unfold shift. change (0 + 1)%Z with 1%Z. rewrite A0, A1, E0. replace ((0 - 0) / (2 * 1)) with 0 by field. replace (0 * 0 + 1) with 1 by ring. rewrite sqrt_1.
      unfold sgn. destruct (Rle_dec 0 0); [|lra]. rewrite Rabs_R1. field. }
    rewrite SH, E0. replace (1 * 1 + 1 * 1 * (1 * 1)) with 2 by ring.
    assert (S2 : sqrt 2 * sqrt 2 = 2) by (apply sqrt_sqrt; lra). assert (S0 : sqrt 2 <> 0) by (apply Rgt_not_eq, sqrt_lt_R0; lra).
    destruct (Req_EM_T (sqrt 2) 0) as [C|_]; [contradiction|]. cbn [w_d w_e w_g w_s w_c w_p w_z]. rewrite A0, A1.
    replace ((0 - (0 - 0)) * (1 * 1 / sqrt 2) + 2 * (1 / sqrt 2) * (1 * 1)) with (sqrt 2) by (apply Rmult_eq_reg_r with (sqrt 2); [rewrite S2; field; exact S0|exact S0]).
    replace (1 / sqrt 2 * sqrt 2 - 1 * 1) with 0 by (field; exact S0).
    set (q2 := mkQl _ _ _). assert (EE : q_e q2 0%Z = 0) by reflexivity. clearbody q2. clear - EE.
    destruct fu; cbn [ql_l]; change (Z.to_nat (2 - 1 - 0)) with 1%nat; cbn [find_m]; rewrite EE, Rabs_R0;
    (destruct (Req_EM_T _ _) as [_|C]; [|exfalso; apply C; ring]); eexists; reflexivity. }
  destruct Q1 as (q1 & ->). cbn [obind]. change 200%nat with (S 199). generalize 199%nat. intros fu. cbn [ql_l]. change (Z.to_nat (2 - 1 - 1)) with 0%nat. cbn [find_m].
  change (1 =? 1)%Z with true. cbn. eexists. reflexivity.
Qed.

(** The box of a node with one atom. *)
Example C76_cfg : cfg_ok (mkCfg 3 3 5 1 2 2 4 (fun _ => 1) (fun _ => 1) (fun _ => 1) (fun _ => 0)) [mkNatom [0; 4; 44]%Z (fun i p => IZR (i + p)) [1; 2]] 5.
Proof.
  unfold cfg_ok. cbn [c_nx c_ny c_nz c_fd c_dmx c_dmy c_dmz]. repeat (split; [lia|]). intros A [<-|[]] p. cbn. lia.
Qed.
