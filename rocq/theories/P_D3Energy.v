(** C75: the energy is the DFT-D3 energy. *)
From Coq Require Import ZArith Reals List Lia Lra Bool Permutation.
From Verif Require Import CBase Nloc NlocLem VnlOp VnlLem VnlMain D3 D3Spec D3ESpec D3Lem D3Der D3Main P_D3 P_D3Img D3Energy.
Import ListNotations.
Local Open Scope R_scope.

Section THM.
Variables (n : Z) (rcov r2r4 : Z -> R) (r0ab : Z -> Z -> R) (refs : Z -> Z -> list sample).
Variables (rs6 s8 cn_thr rthr : R) (bc : bool * bool * bool) (pos : Z -> vec) (l : lat) (N : img).
Notation nCN := (set_criteria cn_thr bc l).
Notation nEG := (set_criteria rthr bc l).
Hypothesis Hn : (0 <= n)%Z.
Hypothesis THR : 0 <= cn_thr <= rthr.
Hypothesis DET : 0 < detLattice l.
Hypothesis CELL : forall i, (0 <= i < n)%Z -> in_cell bc l (pos i).
(* a box of images as large as the cut-off needs, flat along the other directions *)
Hypothesis BIG : let '(a, b, c) := nEG in let '(a', b', c') := N in (a <= a' /\ b <= b' /\ c <= c')%Z.
Hypothesis FLAT : lattice_point bc N.
(* no two atoms at the same place *)
Hypothesis APART : forall i j m, (0 <= i < n)%Z -> (0 <= j < n)%Z -> lattice_point bc m ->
  (i = j /\ m = (0, 0, 0)%Z) \/ / 10 ^ 15 <= dist2 pos l i j m.
Hypothesis R0 : forall i j, r0ab j i = r0ab i j.
Hypothesis SYM : forall i j, Permutation (map (fun s : sample => let '(c, a, b) := s in (c, b, a)) (refs i j)) (refs j i).
Hypothesis WGT : forall i j, (0 <= i < n)%Z -> (0 <= j < n)%Z ->
  / 10 ^ 99 < weights (refs i j) (coord n rcov cn_thr N pos l i) (coord n rcov cn_thr N pos l j).

Notation cnN := (coord n rcov cn_thr N pos l).
Notation c6N := (C6 n rcov refs cn_thr N pos l).
Notation dd := (dq pos l).

Lemma nn_c : nn nCN /\ nn nEG /\ ile nCN nEG /\ ile nEG N.
Proof.
  destruct (C75_setup cn_thr rthr bc l pos n THR DET CELL) as [S _].
  destruct nCN as [[a b] c], nEG as [[a' b'] c'], N as [[x y] z]. cbn. lia.
Qed.
Lemma flat_in m : In m (imgs N) -> lattice_point bc m.
Proof.
  intros H. destruct N as [[a b] c], m as [[x y] z], bc as [[p0 p1] p2]. apply in_imgs in H. cbn in FLAT |- *.
  destruct FLAT as (F0 & F1 & F2). repeat split; intros E; [pose proof (F0 E)|pose proof (F1 E)|pose proof (F2 E)]; lia.
Qed.
Lemma flat_sub m m' : lattice_point bc m -> lattice_point bc m' -> lattice_point bc (isub m' m).
Proof.
  destruct m as [[x y] z], m' as [[x' y'] z'], bc as [[p0 p1] p2]. cbn. intros (F0 & F1 & F2) (G0 & G1 & G2).
  repeat split; intros E; [pose proof (F0 E); pose proof (G0 E)|pose proof (F1 E); pose proof (G1 E)|pose proof (F2 E); pose proof (G2 E)]; lia.
Qed.
Lemma cn_in i j m : (0 <= i < n)%Z -> (0 <= j < n)%Z -> lattice_point bc m -> dd i j m <= cn_thr -> In m (imgs nCN).
Proof. intros Hi Hj F H. rewrite <- dist2_dq in H. apply (C75_images cn_thr bc l pos i j m); auto; lra. Qed.
Lemma eg_in i j m : (0 <= i < n)%Z -> (0 <= j < n)%Z -> lattice_point bc m -> dd i j m <= rthr -> In m (imgs nEG).
Proof. intros Hi Hj F H. rewrite <- dist2_dq in H. apply (C75_images rthr bc l pos i j m); auto; lra. Qed.
Lemma imgs_incl k k' m : ile k k' -> In m (imgs k) -> In m (imgs k').
Proof. clear. destruct k as [[a b] c], k' as [[a' b'] c'], m as [[x y] z]. rewrite !in_imgs. cbn. lia. Qed.
Lemma cn_N m : In m (imgs nCN) -> In m (imgs N).
Proof. intros H. destruct nn_c as (_ & _ & A & B). apply (imgs_incl _ _ _ B). now apply (imgs_incl _ _ _ A). Qed.
Lemma eg_N m : In m (imgs nEG) -> In m (imgs N).
Proof. intros H. destruct nn_c as (_ & _ & A & B). now apply (imgs_incl _ _ _ B). Qed.

Lemma dq_O i : dd i i (0, 0, 0)%Z = 0.
Proof. exact (dq_self (fun _ => pos) (fun _ => l) 0 i). Qed.
Lemma same_spec i m j m' : same i m j m' = true <-> i = j /\ m = m'.
Proof.
  clear. destruct m as [[x y] z], m' as [[x' y'] z']. cbn [same]. rewrite !andb_true_iff, !Z.eqb_eq. split.
  - intros [[[-> ->] ->] ->]. auto.
  - intros [-> E]. inversion E. auto.
Qed.
Lemma t15 : 0 < / 10 ^ 15.
Proof. clear. apply Rinv_0_lt_compat, pow_lt. lra. Qed.
(* the guard on the distance singles out the atom itself *)
Lemma same_small i j m : (0 <= i < n)%Z -> (0 <= j < n)%Z -> lattice_point bc m ->
  same i O j m = (if Rlt_dec (dd i j m) (/ 10 ^ 15) then true else false).
Proof.
  intros Hi Hj F. pose proof t15. destruct (same i O j m) eqn:E.
  - apply same_spec in E. destruct E as [<- <-]. unfold O. rewrite dq_O. destruct (Rlt_dec 0 (/ 10 ^ 15)); [reflexivity|lra].
  - destruct (APART i j m Hi Hj F) as [[-> ->]|A].
    + replace (same j O j (0, 0, 0)%Z) with true in E; [discriminate|]. symmetry. now apply same_spec.
    + rewrite dist2_dq in A. destruct (Rlt_dec (dd i j m) (/ 10 ^ 15)); [lra|reflexivity].
Qed.

Lemma CN_coord i : (0 <= i < n)%Z -> CN n rcov cn_thr nCN pos l i = cnN i.
Proof.
  intros Hi. unfold CN, coord. apply ksum_ext. intros j Hj. apply in_zrange in Hj.
  transitivity (rsum (map (cn_term rcov cn_thr pos l i j) (imgs N))).
  - apply (ksum_same _ _ _ _ _ _ RTheory img_dec); try apply NoDup_imgs.
    + intros m H NH. contradict NH. now apply cn_N.
    + intros m H NH. unfold cn_term. rewrite dq_rel. destruct (Rlt_dec (sqrt (dd i j m)) (sqrt cn_thr)) as [L|]; [|reflexivity].
      exfalso. apply NH. apply (cn_in i j); [lia|lia|now apply flat_in|]. apply sqrt_lt_0_alt in L. lra.
  - apply ksum_ext. intros m Hm. pose proof (flat_in m Hm) as F. unfold cn_term. rewrite dq_rel, (same_small i j m) by (assumption || lia).
    cbv zeta. rewrite dist2_dq.
    assert (NNd : 0 <= dd i j m) by exact (dq_nn (fun _ => pos) (fun _ => l) 0 i j m).
    destruct (Rlt_dec (dd i j m) (/ 10 ^ 15)) as [Sm|Big].
    + replace (dd i j m) with 0.
      * rewrite sqrt_0. destruct (Rlt_dec 0 (sqrt cn_thr)); [|reflexivity]. destruct (Rlt_dec (/ 10 ^ 10) 0) as [Z|]; [|reflexivity].
        assert (0 < / 10 ^ 10) by (apply Rinv_0_lt_compat, pow_lt; lra). lra.
      * destruct (APART i j m Hi ltac:(lia) F) as [[-> ->]|A]; [symmetry; apply dq_O|]. rewrite dist2_dq in A. lra.
    + destruct (Rlt_dec (dd i j m) cn_thr) as [L|L].
      * assert (L' : sqrt (dd i j m) < sqrt cn_thr) by (apply sqrt_lt_1_alt; lra).
        destruct (Rlt_dec (sqrt (dd i j m)) (sqrt cn_thr)); [|lra].
        assert (G : / 10 ^ 10 < sqrt (dd i j m)).
        { rewrite <- (sqrt_Rsqr (/ 10 ^ 10)) by (apply Rlt_le, Rinv_0_lt_compat, pow_lt; lra). apply sqrt_lt_1_alt.
          split; [apply Rle_0_sqr|]. eapply Rlt_le_trans; [|apply Rnot_lt_le; exact Big]. unfold Rsqr.
          rewrite <- Rinv_mult. apply Rinv_lt_contravar; [apply Rmult_lt_0_compat; [apply pow_lt; lra|apply Rmult_lt_0_compat; apply pow_lt; lra]|]. lra. }
        destruct (Rlt_dec (/ 10 ^ 10) (sqrt (dd i j m))); [|lra]. unfold K1, Rdiv. rewrite Rmult_1_l. reflexivity.
      * assert (L' : sqrt cn_thr <= sqrt (dd i j m)) by (apply sqrt_le_1_alt; lra).
        destruct (Rlt_dec (sqrt (dd i j m)) (sqrt cn_thr)); [lra|reflexivity].
Qed.

Lemma c6_mean ss ci cj : / 10 ^ 99 < weights ss ci cj ->
  fst (fst (c6_pair ss ci cj)) = rsum (map (fun s => let '(c, a, b) := s in
    if Rlt_dec 0 c then c * exp (-4 * ((a - ci) ^ 2 + (b - cj) ^ 2)) else 0) ss) / weights ss ci cj.
Proof.
  clear. intros W. rewrite weights_wsum in *. unfold c6_pair. cbv zeta. fold (wsum ss ci cj).
  destruct (Rlt_dec tiny (wsum ss ci cj)) as [_|F]; [|exfalso; apply F; exact W]. cbn [fst]. f_equal.
  rewrite (ksum_filter _ _ _ _ _ _ RTheory). apply ksum_ext. intros [[c a] b] _. unfold s_c6, weight, sdist, K3. cbn [fst snd].
  destruct (Rlt_dec 0 c); ring.
Qed.
Lemma mean_sym i j : c6N j i = c6N i j.
Proof.
  unfold C6, weights. f_equal.
  - etransitivity; [symmetry; apply (ksum_perm _ _ _ _ _ _ RTheory); apply (Permutation_map _ (SYM i j))|]. rewrite map_map. apply ksum_ext. intros [[c a] b] _.
    destruct (Rlt_dec 0 c); [|reflexivity]. f_equal. f_equal. ring.
  - etransitivity; [symmetry; apply (ksum_perm _ _ _ _ _ _ RTheory); apply (Permutation_map _ (SYM i j))|]. rewrite map_map. apply ksum_ext. intros [[c a] b] _.
    destruct (Rlt_dec 0 c); [|reflexivity]. f_equal. ring.
Qed.
Lemma c6_code i j : (0 <= i < n)%Z -> (0 <= j < n)%Z -> fst (fst (c6of n rcov refs cn_thr nCN pos l i j)) = c6N i j.
Proof. intros Hi Hj. unfold c6of. rewrite !CN_coord by assumption. apply c6_mean. now apply WGT. Qed.
Lemma c6N_pos i j : (0 <= i < n)%Z -> (0 <= j < n)%Z -> 0 < c6N i j.
Proof.
  intros Hi Hj. rewrite <- c6_code by assumption. unfold c6of. rewrite !CN_coord by assumption. apply c6_pos. rewrite <- weights_wsum. now apply WGT.
Qed.
Lemma sq6_code i j : (0 <= i < n)%Z -> (0 <= j < n)%Z -> sq6 n rcov refs cn_thr nCN pos l i j = sqrt (c6N i j).
Proof.
  intros Hi Hj. unfold sq6. destruct (j <=? i)%Z; rewrite c6_code by assumption; [reflexivity|]. now rewrite mean_sym.
Qed.

(** ** Pairs *)
Definition Y (i j : Z) (m : img) : R :=
  let x := dd i j m in
  if Rlt_dec rthr x then 0 else if Rlt_dec x (/ 10 ^ 15) then 0 else
  let r := sqrt x in
  (1 / x ^ 3 * (1 / (1 + 6 * (rs6 * (r0ab i j / r)) ^ 14)) + 3 * s8 * (r2r4 i * r2r4 j) / (x ^ 3 * x) * (1 / (1 + 6 * (1 * (r0ab i j / r)) ^ 16))) * c6N i j.
Lemma Y_sym i j m : Y j i (ineg m) = Y i j m.
Proof.
  unfold Y. rewrite dq_neg, (R0 i j), (mean_sym i j). cbv zeta. destruct (Rlt_dec rthr (dd i j m)); [reflexivity|].
  destruct (Rlt_dec (dd i j m) (/ 10 ^ 15)); [reflexivity|]. rewrite (Rmult_comm (r2r4 j)). reflexivity.
Qed.
Definition YY (i j : Z) : R := rsum (map (Y i j) (imgs nEG)).
Lemma YY_sym i j : YY j i = YY i j.
Proof. unfold YY. rewrite <- (rsum_neg nEG (Y j i)). apply ksum_ext. intros m _. apply Y_sym. Qed.

Lemma Y_e2 i j m : (0 <= i < n)%Z -> (0 <= j < n)%Z -> lattice_point bc m ->
  e2 n rcov r2r4 r0ab refs rs6 s8 cn_thr rthr N pos l i j m = Y i j m.
Proof.
  intros Hi Hj F. unfold e2, Y. rewrite (same_small i j m Hi Hj F), dist2_dq. cbv zeta.
  destruct (Rlt_dec (dd i j m) (/ 10 ^ 15)) as [|Big].
  - now destruct (Rlt_dec rthr (dd i j m)).
  - destruct (Rlt_dec rthr (dd i j m)); [reflexivity|]. pose proof t15.
    set (x := dd i j m) in *. assert (Sx : 0 < sqrt x) by (apply sqrt_lt_R0; lra).
    assert (Ex : x = sqrt x ^ 2) by (rewrite pow2_sqrt; lra). set (r := sqrt x) in *. rewrite Ex.
    replace (rs6 * (r0ab i j / r)) with (rs6 * r0ab i j / r) by (field; lra). rewrite Rmult_1_l.
    set (A := (rs6 * r0ab i j / r) ^ 14). set (D := (r0ab i j / r) ^ 16).
    assert (0 <= A) by (unfold A; replace 14%nat with (2 * 7)%nat by reflexivity; rewrite pow_mult; apply pow_le, pow2_ge_0).
    assert (0 <= D) by (unfold D; replace 16%nat with (2 * 8)%nat by reflexivity; rewrite pow_mult; apply pow_le, pow2_ge_0).
    field. repeat split; lra.
Qed.
Lemma YY_e2 i j : (0 <= i < n)%Z -> (0 <= j < n)%Z ->
  rsum (map (e2 n rcov r2r4 r0ab refs rs6 s8 cn_thr rthr N pos l i j) (imgs N)) = YY i j.
Proof.
  intros Hi Hj. unfold YY. transitivity (rsum (map (Y i j) (imgs N))).
  - apply ksum_ext. intros m Hm. apply Y_e2; auto. now apply flat_in.
  - apply (ksum_same _ _ _ _ _ _ RTheory img_dec); try apply NoDup_imgs.
    + intros m H NH. unfold Y. cbv zeta. destruct (Rlt_dec rthr (dd i j m)); [reflexivity|]. exfalso. apply NH.
      apply (eg_in i j); auto; [now apply flat_in|lra].
    + intros m H NH. contradict NH. now apply eg_N.
Qed.

Lemma pairs_energy : v_e (pairs_ev n rcov r2r4 r0ab refs rs6 s8 cn_thr rthr nCN nEG pos l)
  = - / 2 * rsum (map (fun i => rsum (map (fun j => rsum (map (e2 n rcov r2r4 r0ab refs rs6 s8 cn_thr rthr N pos l i j) (imgs N))) (zrange 0 (n - 1)))) (zrange 0 (n - 1))).
Proof.
  unfold pairs_ev. rewrite v_e_sum.
  transitivity (- rsum (map (fun i => rsum (map (fun j => (if (i =? j)%Z then / 2 else / 2 + / 2) * YY i j) (zrange 0 i))) (zrange 0 (n - 1)))).
  - match goal with |- _ = - ?S => replace (- S) with (-1 * S) by ring end. rewrite <- (ksum_mul_l _ _ _ _ _ _ RTheory).
    apply ksum_ext. intros i Hi. apply in_zrange in Hi. rewrite v_e_sum, <- (ksum_mul_l _ _ _ _ _ _ RTheory).
    apply ksum_ext. intros j Hj. apply in_zrange in Hj. rewrite v_e_sum. unfold YY.
    rewrite <- Rmult_assoc, <- (ksum_mul_l _ _ _ _ _ _ RTheory). apply ksum_ext. intros m Hm.
    unfold pair_ev, Y. cbv zeta. destruct (Rlt_dec rthr (dd i j m)); [cbn; ring|]. destruct (Rlt_dec (dd i j m) (/ 10 ^ 15)); [cbn; ring|].
    cbn [v_e]. rewrite c6_code by lia. unfold wgt2.
    match goal with |- - (?A * _ * _) = _ => set (AA := A) end. destruct (i =? j)%Z; lra.
  - rewrite <- (tri_sum (fun _ => / 2) YY YY_sym n Hn), (ksum_mul_l _ _ _ _ _ _ RTheory), Ropp_mult_distr_l_reverse.
    f_equal. f_equal. apply ksum_ext. intros i Hi. apply in_zrange in Hi. apply ksum_ext. intros j Hj. apply in_zrange in Hj.
    symmetry. apply YY_e2; lia.
Qed.

(** ** Triples *)
Definition s6 (i j : Z) : R := sqrt (c6N i j).
Lemma s6_sym i j : s6 j i = s6 i j.
Proof. unfold s6. now rewrite mean_sym. Qed.
Notation XX := (X s6 r0ab cn_thr pos l).

Lemma same_shift j m k m' : same j m k m' = same j O k (isub m' m).
Proof.
  clear. destruct m as [[x y] z], m' as [[x' y'] z']. unfold O. cbn [same isub].
  replace (0 =? x' - x)%Z with (x =? x')%Z by (destruct (Z.eqb_spec x x'), (Z.eqb_spec 0 (x' - x)); lia).
  replace (0 =? y' - y)%Z with (y =? y')%Z by (destruct (Z.eqb_spec y y'), (Z.eqb_spec 0 (y' - y)); lia).
  replace (0 =? z' - z)%Z with (z =? z')%Z by (destruct (Z.eqb_spec z z'), (Z.eqb_spec 0 (z' - z)); lia). reflexivity.
Qed.

Lemma e3_X i j k m m' : (0 <= i < n)%Z -> (0 <= j < n)%Z -> (0 <= k < n)%Z -> lattice_point bc m -> lattice_point bc m' ->
  e3 n rcov r0ab refs cn_thr N pos l i j k m m' = XX i j k (m, m').
Proof.
  intros Hi Hj Hk F F'. pose proof (flat_sub m m' F F') as Fd. pose proof t15 as T. unfold e3, X. cbn [fst snd].
  rewrite (same_shift j m k m'), (same_small i j m), (same_small i k m'), (same_small j k (isub m' m)) by assumption.
  set (u := vsub (vadd (pos j) (ivec l m)) (pos i)). set (w := vsub (vadd (pos k) (ivec l m')) (pos i)).
  set (a := dd i j m). set (b := dd i k m'). set (c := dd j k (isub m' m)).
  assert (Eu : dotv u u = a) by apply dist2_dq. assert (Ew : dotv w w = b) by apply dist2_dq.
  assert (Ez : dotv (vsub w u) (vsub w u) = c).
  { unfold c. rewrite <- dq_jk. unfold u, w. destruct (pos i) as [[? ?] ?], (pos j) as [[? ?] ?], (pos k) as [[? ?] ?], (ivec l m) as [[? ?] ?], (ivec l m') as [[? ?] ?].
    cbn. ring. }
  assert (Ec : c = b - 2 * dotv u w + a).
  { rewrite <- Ez, <- Ew, <- Eu. destruct u as [[? ?] ?], w as [[? ?] ?]. cbn. ring. }
  assert (E1 : dotv u w = (a + b - c) / 2) by (rewrite Ec; field).
  assert (E2 : dotv (vscal (-1) u) (vsub w u) = (a + c - b) / 2).
  { transitivity (a - dotv u w); [|rewrite Ec; field]. rewrite <- Eu. destruct u as [[? ?] ?], w as [[? ?] ?]. cbn. ring. }
  assert (E3 : dotv (vscal (-1) w) (vscal (-1) (vsub w u)) = (b + c - a) / 2).
  { transitivity (b - dotv u w); [|rewrite Ec; field]. rewrite <- Ew. destruct u as [[? ?] ?], w as [[? ?] ?]. cbn. ring. }
  cbv zeta. rewrite Eu, Ew, Ez, E1, E2, E3. unfold bad.
  destruct (Rlt_dec a (/ 10 ^ 15)) as [|La]; cbn [orb]; [destruct (Rlt_dec cn_thr a); reflexivity|].
  destruct (Rlt_dec b (/ 10 ^ 15)) as [|Lb]; cbn [orb]; [destruct (Rlt_dec cn_thr a), (Rlt_dec cn_thr b); reflexivity|].
  destruct (Rlt_dec c (/ 10 ^ 15)) as [|Lc]; cbn [orb]; [destruct (Rlt_dec cn_thr a), (Rlt_dec cn_thr b), (Rlt_dec cn_thr c); reflexivity|].
  destruct (Rlt_dec cn_thr a); [reflexivity|]. destruct (Rlt_dec cn_thr b); [reflexivity|]. destruct (Rlt_dec cn_thr c); [reflexivity|]. cbn [orb].
  unfold val, s6. clear E1 E2 E3 Ec Eu Ew Ez u w.
  assert (Pa : 0 < sqrt a) by (apply sqrt_lt_R0; lra). assert (Pb : 0 < sqrt b) by (apply sqrt_lt_R0; lra). assert (Pc : 0 < sqrt c) by (apply sqrt_lt_R0; lra).
  assert (Qa : sqrt a ^ 2 = a) by (apply pow2_sqrt; lra). assert (Qb : sqrt b ^ 2 = b) by (apply pow2_sqrt; lra). assert (Qc : sqrt c ^ 2 = c) by (apply pow2_sqrt; lra).
  set (ra := sqrt a) in *. set (rb := sqrt b) in *. set (rc := sqrt c) in *.
  pose proof (c6N_pos i j Hi Hj). pose proof (c6N_pos i k Hi Hk). pose proof (c6N_pos j k Hj Hk).
  rewrite (sqrt_mult (c6N i j * c6N i k)), (sqrt_mult (c6N i j)) by (first [lra | apply Rmult_le_pos; lra]).
  set (q := sqrt (c6N i j) * sqrt (c6N i k) * sqrt (c6N j k)).
  assert (EP : Rpower (a * c * b) (3 / 2) = (ra * rc * rb) ^ 3).
  { rewrite <- (Rpower_half (ra * rc * rb) 3) by (repeat apply Rmult_lt_0_compat; assumption). f_equal; [rewrite <- Qa, <- Qb, <- Qc; ring|]. cbn. lra. }
  rewrite EP. replace (1 / 3) with (/ 3) by lra. set (g := Rpower (ra / r0ab i j * (rb / r0ab i k) * (rc / r0ab j k)) (/ 3)).
  assert (Pg : 0 < g) by apply exp_pos. replace (4 / (3 * g)) with (4 / 3 / g) by (field; lra).
  set (t := (4 / 3 / g) ^ 16). assert (0 <= t) by (unfold t; replace 16%nat with (2 * 8)%nat by reflexivity; rewrite pow_mult; apply pow_le, pow2_ge_0).
  rewrite <- Qa, <- Qb, <- Qc. field. repeat split; lra.
Qed.

Lemma B_e3 i j k : (0 <= i < n)%Z -> (0 <= j < n)%Z -> (0 <= k < n)%Z ->
  rsum (map (fun m => rsum (map (fun m' => e3 n rcov r0ab refs cn_thr N pos l i j k m m') (imgs N))) (imgs N))
  = B s6 r0ab cn_thr pos l nCN i j k.
Proof.
  intros Hi Hj Hk. unfold B. rewrite (rsum_pairs (imgs N) (fun _ => imgs N) (fun m m' => e3 n rcov r0ab refs cn_thr N pos l i j k m m')).
  fold (PN N). transitivity (rsum (map (XX i j k) (PN N))).
  - apply ksum_ext. intros [m m'] H. apply in_PN in H. cbn [fst snd] in *. apply e3_X; auto; apply flat_in; tauto.
  - apply (ksum_same _ _ _ _ _ _ RTheory pp_dec); [apply NoDup_PN|apply NoDup_PP| |].
    + intros [m m'] H NH. apply in_PN in H. cbn [fst snd] in H. destruct H as [H H'].
      pose proof (flat_in m H) as F. pose proof (flat_in m' H') as F'. pose proof (flat_sub m m' F F') as Fd.
      unfold X. cbn [fst snd]. cbv zeta. destruct (bad cn_thr (dd i j m) || bad cn_thr (dd i k m') || bad cn_thr (dd j k (isub m' m))) eqn:E; [reflexivity|].
      exfalso. apply NH. apply in_PP. cbn [fst snd]. apply orb_false_iff in E. destruct E as [E E3]. apply orb_false_iff in E. destruct E as [E1 E2].
      assert (K : forall x, bad cn_thr x = false -> x <= cn_thr) by (intros x; unfold bad; destruct (Rlt_dec cn_thr x); [discriminate|lra]).
      repeat split; [apply (cn_in i j)|apply (cn_in i k)|apply (cn_in j k)]; auto.
    + intros [m m'] H NH. contradict NH. apply in_PP in H. apply in_PN. cbn [fst snd] in *. split; apply cn_N; tauto.
Qed.

Lemma tris_energy : v_e (tris_ev n rcov r0ab refs cn_thr nCN pos l)
  = / 6 * rsum (map (fun i => rsum (map (fun j => rsum (map (fun k =>
      rsum (map (fun m => rsum (map (fun m' => e3 n rcov r0ab refs cn_thr N pos l i j k m m') (imgs N))) (imgs N))) (zrange 0 (n - 1)))) (zrange 0 (n - 1)))) (zrange 0 (n - 1))).
Proof.
  transitivity (/ 6 * rsum (map (fun i => rsum (map (fun j => rsum (map (fun k => B s6 r0ab cn_thr pos l nCN i j k)
    (zrange 0 (n - 1)))) (zrange 0 (n - 1)))) (zrange 0 (n - 1)))).
  2:{ f_equal. apply ksum_ext. intros i Hi. apply in_zrange in Hi. apply ksum_ext. intros j Hj. apply in_zrange in Hj.
      apply ksum_ext. intros k Hk. apply in_zrange in Hk. symmetry. apply B_e3; lia. }
  rewrite <- (sym3 (B s6 r0ab cn_thr pos l nCN) (B_sw s6 r0ab cn_thr pos l s6_sym R0 nCN) (B_re s6 r0ab cn_thr pos l s6_sym R0 nCN) n Hn).
  unfold tris_ev. rewrite v_e_sum. apply ksum_ext. intros i Hi. apply in_zrange in Hi. rewrite v_e_sum. apply ksum_ext. intros j Hj. apply in_zrange in Hj.
  rewrite v_e_sum.
  transitivity (rsum (map (fun m => rsum (map (fun k => wgt3 i j k * rsum (map (fun m' => XX i j k (m, m')) (scope nCN m))) (zrange 0 j))) (imgs nCN))).
  - apply ksum_ext. intros m Hm. unfold tri_image_ev.
    destruct (bad cn_thr (dd i j m)) eqn:Eb.
    + transitivity 0; [unfold bad in Eb; destruct (Rlt_dec cn_thr (dd i j m)); [reflexivity|]; destruct (Rlt_dec (dd i j m) (/ 10 ^ 15)); [reflexivity|discriminate]|].
      symmetry. apply (ksum_zero _ _ _ _ _ _ RTheory). intros k _. rewrite (ksum_zero _ _ _ _ _ _ RTheory); [ring|].
      intros m' _. unfold X. cbn [fst snd]. rewrite Eb. reflexivity.
    + pose proof Eb as Eb'. unfold bad in Eb'. destruct (Rlt_dec cn_thr (dd i j m)); [discriminate|]. destruct (Rlt_dec (dd i j m) (/ 10 ^ 15)); [discriminate|].
      rewrite v_e_sum. apply ksum_ext. intros k Hk. apply in_zrange in Hk. rewrite v_e_sum, <- (ksum_mul_l _ _ _ _ _ _ RTheory).
      apply ksum_ext. intros m' Hm'. unfold tri_ev, X. cbn [fst snd]. cbv zeta. rewrite Eb. cbn [orb]. unfold bad.
      destruct (Rlt_dec cn_thr (dd i k m')); [cbn; ring|]. destruct (Rlt_dec (dd i k m') (/ 10 ^ 15)); [cbn; ring|].
      destruct (Rlt_dec cn_thr (dd j k (isub m' m))); [cbn; ring|]. destruct (Rlt_dec (dd j k (isub m' m)) (/ 10 ^ 15)); [cbn; ring|].
      cbn [orb v_e]. unfold val. rewrite !sq6_code by lia. fold (s6 i j) (s6 i k) (s6 j k). ring.
  - rewrite (ksum_swap _ _ _ _ _ _ RTheory). apply ksum_ext. intros k _. rewrite (ksum_mul_l _ _ _ _ _ _ RTheory). f_equal.
    unfold B. unfold PP. rewrite <- (rsum_pairs (imgs nCN) (scope nCN) (fun m m' => XX i j k (m, m'))) || rewrite (rsum_pairs (imgs nCN) (scope nCN) (fun m m' => XX i j k (m, m'))).
    apply ksum_ext. intros [m m'] _. reflexivity.
Qed.

(** The run does no undefined behaviour and its energy is the DFT-D3 energy: half
    the sum over all ordered pairs and a sixth of the sum over all ordered triples
    of atoms and all images within the cut-offs. *)
Theorem C75_energy : exists o, d3_run n rcov r2r4 r0ab refs rs6 s8 cn_thr rthr nCN nEG pos l = Ok o /\
  o_e o = E_D3 n rcov r2r4 r0ab refs rs6 s8 cn_thr rthr N pos l.
Proof.
  destruct nn_c as (N1 & N2 & N3 & _).
  destruct (d3_run_ok n rcov r2r4 r0ab refs rs6 s8 cn_thr rthr nCN nEG N2 pos l N3) as (s & E & _).
  eexists. split; [exact E|]. cbn [o_e]. unfold all_ev, E_D3. cbn [eadd v_e]. now rewrite pairs_energy, tris_energy.
Qed.
End THM.
Print Assumptions C75_energy.
