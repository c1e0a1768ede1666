(** The DFT-D3 gradient and virial are the derivatives of the energy. *)
From Coq Require Import ZArith Reals List Lia Lra Bool Permutation.
From Coquelicot Require Import Coquelicot.
From Verif Require Import CBase Nloc NlocLem VnlOp VnlLem VnlMain D3 D3Lem D3Der.
Import ListNotations.
Local Open Scope R_scope.

Lemma D_esum {A} (F : R -> A -> ev) g h l :
  (forall x, In x l -> is_derive (fun t => v_e (F t x)) 0 (- pairing g h (F 0 x))) ->
  is_derive (fun t => v_e (esum (map (F t) l))) 0 (- pairing g h (esum (map (F 0) l))).
Proof.
  induction l as [|x l IH]; intros H; cbn [map].
  - cbn [esum fold_right]. apply (D_val _ 0); [apply D_const|]. unfold pairing. cbn [ezero v_d v_f map ksum]. ring.
  - change (esum (F 0 x :: map (F 0) l)) with (eadd (F 0 x) (esum (map (F 0) l))). rewrite pairing_add. apply (D_val _ (- pairing g h (F 0 x) + - pairing g h (esum (map (F 0) l)))); [|ring].
    apply (D_plus (fun t => v_e (F t x)) (fun t => v_e (esum (map (F t) l)))).
    + apply H; now left.
    + apply IH. intros y Hy. apply H; now right.
Qed.

Lemma D_loc (f g : R -> R) d : is_derive g 0 d -> locally 0 (fun t => g t = f t) -> is_derive f 0 d.
Proof. intros H L. exact (is_derive_ext_loc g f 0 d L H). Qed.

Lemma tiny15 : 0 < / 10 ^ 15 < 1 / 2.
Proof. lra. Qed.

Lemma Rpower_half r k : 0 < r -> Rpower (r ^ 2) (INR k / 2) = r ^ k.
Proof.
  intros P. rewrite <- (Rpower_pow 2 r P), Rpower_mult. replace (INR 2 * (INR k / 2)) with (INR k) by (cbn [INR]; field).
  now apply Rpower_pow.
Qed.

Section PATH.
Variables (n : Z) (rcov r2r4 : Z -> R) (r0ab : Z -> Z -> R) (smp : Z -> Z -> list sample).
Variables (rs6 s8 cn_thr rthr : R) (nCN nEG : img).
Variables (pos : R -> Z -> vec) (lt : R -> lat) (v : Z -> vec) (vl : lat).
Hypothesis HP : forall i c, is_derive (fun t => comp (pos t i) c) 0 (comp (v i) c).
Hypothesis HL0 : forall c, is_derive (fun t => comp (fst (fst (lt t))) c) 0 (comp (fst (fst vl)) c).
Hypothesis HL1 : forall c, is_derive (fun t => comp (snd (fst (lt t))) c) 0 (comp (snd (fst vl)) c).
Hypothesis HL2 : forall c, is_derive (fun t => comp (snd (lt t)) c) 0 (comp (snd vl) c).

Notation dvt t := (dv (pos t) (lt t)).
Notation dqt t := (dq (pos t) (lt t)).
Definition dvel (i j : Z) (m : img) : vec := vadd (vsub (v j) (v i)) (ivec vl m).

Lemma comp_add u w c : comp (vadd u w) c = comp u c + comp w c.
Proof. destruct u as [[? ?] ?], w as [[? ?] ?]. unfold comp, vadd. destruct (c =? 0)%Z, (c =? 1)%Z; reflexivity. Qed.
Lemma comp_sub u w c : comp (vsub u w) c = comp u c - comp w c.
Proof. destruct u as [[? ?] ?], w as [[? ?] ?]. unfold comp, vsub. destruct (c =? 0)%Z, (c =? 1)%Z; reflexivity. Qed.
Lemma comp_ivec (l : lat) m c : comp (ivec l m) c =
  IZR (fst (fst m)) * comp (fst (fst l)) c + IZR (snd (fst m)) * comp (snd (fst l)) c + IZR (snd m) * comp (snd l) c.
Proof.
  destruct l as [[[[? ?] ?] [[? ?] ?]] [[? ?] ?]], m as [[? ?] ?]. unfold comp, ivec, vadd, vscal. cbn [fst snd].
  destruct (c =? 0)%Z, (c =? 1)%Z; reflexivity.
Qed.
Lemma n2_comp u : n2 u = comp u 0 * comp u 0 + comp u 1 * comp u 1 + comp u 2 * comp u 2.
Proof. destruct u as [[? ?] ?]. cbn. ring. Qed.
Lemma dotv_comp u w : dotv u w = comp u 0 * comp w 0 + comp u 1 * comp w 1 + comp u 2 * comp w 2.
Proof. destruct u as [[? ?] ?], w as [[? ?] ?]. cbn. ring. Qed.

Lemma D_dv i j m c : is_derive (fun t => comp (dvt t i j m) c) 0 (comp (dvel i j m) c).
Proof.
  unfold dvel. rewrite comp_add, comp_sub, comp_ivec.
  apply (is_derive_ext (fun t => (comp (pos t j) c + -1 * comp (pos t i) c) +
    ((IZR (fst (fst m)) * comp (fst (fst (lt t))) c + IZR (snd (fst m)) * comp (snd (fst (lt t))) c) + IZR (snd m) * comp (snd (lt t)) c))).
  { intros t. unfold dv. rewrite comp_add, comp_sub, comp_ivec. change (@eq R (comp (pos t j) c + -1 * comp (pos t i) c + (IZR (fst (fst m)) * comp (fst (fst (lt t))) c + IZR (snd (fst m)) * comp (snd (fst (lt t))) c + IZR (snd m) * comp (snd (lt t)) c)) (comp (pos t j) c - comp (pos t i) c + (IZR (fst (fst m)) * comp (fst (fst (lt t))) c + IZR (snd (fst m)) * comp (snd (fst (lt t))) c + IZR (snd m) * comp (snd (lt t)) c))). ring. }
  replace (comp (v j) c - comp (v i) c) with (comp (v j) c + -1 * comp (v i) c) by ring.
  apply D_plus; [apply D_plus; [apply HP|apply D_scal; apply HP]|].
  apply D_plus; [apply D_plus; apply D_scal; [apply HL0|apply HL1]|apply D_scal; apply HL2].
Qed.

Lemma D_dq i j m : is_derive (fun t => dqt t i j m) 0 (2 * dotv (dvt 0 i j m) (dvel i j m)).
Proof.
  apply (is_derive_ext (fun t => comp (dvt t i j m) 0 * comp (dvt t i j m) 0 + comp (dvt t i j m) 1 * comp (dvt t i j m) 1
    + comp (dvt t i j m) 2 * comp (dvt t i j m) 2)).
  { intros t. unfold dq. rewrite n2_comp. reflexivity. }
  eapply D_val; [apply D_plus; [apply D_plus|]; apply D_mult; apply D_dv|]. rewrite dotv_comp. ring.
Qed.

Definition rp (i j : Z) (m : img) : R := dotv (dvt 0 i j m) (dvel i j m) / sqrt (dqt 0 i j m).
Lemma D_r i j m : 0 < dqt 0 i j m -> is_derive (fun t => sqrt (dqt t i j m)) 0 (rp i j m).
Proof.
  intros P. eapply D_val; [apply (D_sqrt _ _ (D_dq i j m) P)|]. unfold rp. field.
  apply Rgt_not_eq, sqrt_lt_R0, P.
Qed.

(** ** Assumptions on the configuration at 0 *)
Hypothesis NCN : nn nCN.
Hypothesis ILE : ile nCN nEG.
Hypothesis CN0 : 0 <= cn_thr.
Hypothesis GEN : forall i j m, (0 <= i < n)%Z -> (0 <= j < n)%Z -> In m (imgs nEG) ->
  (i = j /\ m = (0, 0, 0)%Z) \/ (1 / 2 < dqt 0 i j m /\ dqt 0 i j m <> rthr /\ dqt 0 i j m <> cn_thr).
Notation CNt t := (CN n rcov cn_thr nCN (pos t) (lt t)).
Hypothesis WS : forall i j, (0 <= j <= i)%Z -> (i < n)%Z -> tiny < wsum (smp i j) (CNt 0 i) (CNt 0 j).
Hypothesis SYM : forall i, (0 <= i < n)%Z ->
  Permutation.Permutation (map (fun s : sample => (s_c6 s, snd s, snd (fst s))) (smp i i)) (smp i i).
Hypothesis R0 : forall i j, (0 <= j <= i)%Z -> (i < n)%Z -> 0 < r0ab i j.

Lemma dq_self t i : dqt t i i (0, 0, 0)%Z = 0.
Proof.
  unfold dq, dv. destruct (pos t i) as [[a b] c], (lt t) as [[[[? ?] ?] [[? ?] ?]] [[? ?] ?]]. cbn. ring.
Qed.
Lemma dq_nn t i j m : 0 <= dqt t i j m.
Proof. unfold dq. destruct (dvt t i j m) as [[a b] c]. cbn. nra. Qed.

(** ** Coordination numbers *)
Definition dcn (i j : Z) (m : img) : R :=
  let x := dqt 0 i j m in
  if Rlt_dec x cn_thr then if Rlt_dec (/ 10 ^ 15) x then
    - K1 * (rcov i + rcov j) * exp (- K1 * ((rcov i + rcov j) / sqrt x - 1)) / (sqrt x * (exp (- K1 * ((rcov i + rcov j) / sqrt x - 1)) + 1)) ^ 2
  else 0 else 0.

Lemma sqrt_big x : 1 / 2 < x -> / 10 ^ 10 < sqrt x.
Proof. clear.
  intros H. apply (Rlt_trans _ (1 / 2)); [lra|]. rewrite <- (sqrt_square (1 / 2)) by lra. apply sqrt_lt_1; lra.
Qed.

Lemma D_cn_term i j m : (0 <= i < n)%Z -> (0 <= j < n)%Z -> In m (imgs nEG) ->
  is_derive (fun t => cn_term rcov cn_thr (pos t) (lt t) i j m) 0 (dcn i j m * rp i j m).
Proof.
  intros Hi Hj Hm. unfold cn_term.
  apply (is_derive_ext (fun t => if Rlt_dec (sqrt (dqt t i j m)) (sqrt cn_thr) then if Rlt_dec (/ 10 ^ 10) (sqrt (dqt t i j m)) then
      1 / (1 + exp (- K1 * ((rcov i + rcov j) / sqrt (dqt t i j m) - 1))) else 0 else 0)).
  { intros t. rewrite dq_rel. reflexivity. }
  destruct (GEN i j m Hi Hj Hm) as [[<- ->]|(Q1 & Q2 & Q3)].
  - apply (is_derive_ext (fun _ => 0)).
    { intros t. rewrite dq_self, sqrt_0. destruct (Rlt_dec 0 (sqrt cn_thr)); [|reflexivity].
      destruct (Rlt_dec (/ 10 ^ 10) 0) as [L|_]; [|reflexivity]. lra. }
    eapply D_val; [apply D_const|]. unfold dcn. rewrite dq_self. pose proof tiny15.
    destruct (Rlt_dec 0 cn_thr); [destruct (Rlt_dec (/ 10 ^ 15) 0) as [L|_]; [lra|]|]; ring.
  - assert (P0 : 0 < dqt 0 i j m) by lra. pose proof (D_dq i j m) as DQ. pose proof (D_r i j m P0) as DR.
    unfold dcn. cbv zeta. destruct (Rlt_dec (dqt 0 i j m) cn_thr) as [L|L].
    + destruct (Rlt_dec (/ 10 ^ 15) (dqt 0 i j m)) as [_|G]; [|pose proof tiny15; lra].
      apply (D_loc _ (fun t => 1 / (1 + exp (- K1 * ((rcov i + rcov j) / sqrt (dqt t i j m) - 1))))).
      * exact (D_comp (fun r => 1 / (1 + exp (- K1 * ((rcov i + rcov j) / r - 1)))) (fun t => sqrt (dqt t i j m)) _ _
                 (D_cn (rcov i + rcov j) (sqrt (dqt 0 i j m)) (sqrt_lt_R0 _ P0)) DR).
      * apply (filter_imp (fun t => dqt t i j m < cn_thr /\ 1 / 2 < dqt t i j m)).
        -- intros t (A & B). pose proof (dq_nn t i j m). pose proof (sqrt_lt_1 _ _ (dq_nn t i j m) CN0 A).
           destruct (Rlt_dec (sqrt (dqt t i j m)) (sqrt cn_thr)); [|lra].
           pose proof (sqrt_big _ B). destruct (Rlt_dec (/ 10 ^ 10) (sqrt (dqt t i j m))); [reflexivity|lra].
        -- apply filter_and; [exact (near_lt _ _ _ DQ L)|exact (near_gt _ _ _ DQ Q1)].
    + apply (D_loc _ (fun _ => 0)).
      * eapply D_val; [apply D_const|ring].
      * assert (L' : cn_thr < dqt 0 i j m) by lra.
        apply (filter_imp (fun t => cn_thr < dqt t i j m)); [|exact (near_gt _ _ _ DQ L')].
        intros t A. pose proof (sqrt_lt_1 _ _ CN0 (dq_nn t i j m) A).
        destruct (Rlt_dec (sqrt (dqt t i j m)) (sqrt cn_thr)); [lra|reflexivity].
Qed.

Definition CNp (i : Z) : R := rsum (map (fun j => rsum (map (fun m => dcn i j m * rp i j m) (imgs nCN))) (zrange 0 (n - 1))).
Lemma D_CN i : (0 <= i < n)%Z -> is_derive (fun t => CNt t i) 0 (CNp i).
Proof.
  intros Hi. unfold CN, CNp. apply (D_rsum (fun t j => rsum (map (cn_term rcov cn_thr (pos t) (lt t) i j) (imgs nCN)))).
  intros j Hj. apply in_zrange in Hj. apply (D_rsum (fun t m => cn_term rcov cn_thr (pos t) (lt t) i j m)).
  intros m Hm. apply D_cn_term; [lia|lia|]. now apply (imgs_le nCN nEG ILE).
Qed.

Notation c6t t := (c6of n rcov smp cn_thr nCN (pos t) (lt t)).
Notation dC6t t := (dC6 n rcov smp cn_thr nCN (pos t) (lt t)).
Notation sq6t t := (sq6 n rcov smp cn_thr nCN (pos t) (lt t)).

Lemma D_c6t i j : (0 <= j <= i)%Z -> (i < n)%Z ->
  is_derive (fun t => fst (fst (c6t t i j))) 0 (snd (fst (c6t 0 i j)) * CNp i + snd (c6t 0 i j) * CNp j).
Proof.
  intros Hj Hi. unfold c6of.
  apply (D_c6 (smp i j) (fun t => CNt t i) (fun t => CNt t j)); [apply D_CN; lia|apply D_CN; lia|now apply WS].
Qed.
Lemma c6t_pos i j : (0 <= j <= i)%Z -> (i < n)%Z -> 0 < fst (fst (c6t 0 i j)).
Proof. intros Hj Hi. apply c6_pos. now apply WS. Qed.

Lemma sq6_pos a b : (0 <= a < n)%Z -> (0 <= b < n)%Z -> 0 < sq6t 0 a b.
Proof.
  intros Ha Hb. unfold sq6. destruct (Z.leb_spec b a); apply sqrt_lt_R0, c6t_pos; lia.
Qed.
Lemma D_sq6 a b : (0 <= a < n)%Z -> (0 <= b < n)%Z ->
  is_derive (fun t => sq6t t a b) 0 ((dC6t 0 a b * CNp a + dC6t 0 b a * CNp b) / (2 * sq6t 0 a b)).
Proof.
  intros Ha Hb. unfold sq6, dC6. destruct (Z.leb_spec b a) as [L|L].
  - pose proof (D_sqrt _ _ (D_c6t a b ltac:(lia) ltac:(lia)) (c6t_pos a b ltac:(lia) ltac:(lia))) as D.
    destruct (Z.leb_spec a b) as [L'|L']; [|exact D]. replace b with a in * by lia.
    assert (E : snd (c6t 0 a a) = snd (fst (c6t 0 a a))) by (symmetry; apply c6_sym; now apply SYM).
    rewrite E in D. exact D.
  - pose proof (D_sqrt _ _ (D_c6t b a ltac:(lia) ltac:(lia)) (c6t_pos b a ltac:(lia) ltac:(lia))) as D.
    destruct (Z.leb_spec a b) as [L'|L']; [|lia]. rewrite Rplus_comm. exact D.
Qed.

(** ** Pairs *)
Definition rpL (p : loc) : R := let '(m, i, j) := p in rp i j m.
Notation pev t := (pair_ev n rcov r2r4 r0ab smp rs6 s8 cn_thr rthr nCN (pos t) (lt t)).

Lemma D_pair i j m : (0 <= j <= i)%Z -> (i < n)%Z -> In m (imgs nEG) ->
  is_derive (fun t => v_e (pev t i j m)) 0 (- pairing rpL CNp (pev 0 i j m)).
Proof.
  intros Hj Hi Hm. pose proof tiny15 as T15.
  assert (Z0 : pairing rpL CNp ezero = 0) by (unfold pairing; cbn [ezero v_d v_f map ksum]; ring).
  destruct (GEN i j m ltac:(lia) ltac:(lia) Hm) as [[<- ->]|(Q1 & Q2 & Q3)].
  - assert (E : forall t, pev t i i (0, 0, 0)%Z = ezero).
    { intros t. unfold pair_ev. rewrite dq_self. cbv zeta. destruct (Rlt_dec rthr 0); [reflexivity|].
      destruct (Rlt_dec 0 (/ 10 ^ 15)); [reflexivity|lra]. }
    rewrite E, Z0. apply (is_derive_ext (fun _ => 0)); [intros t; now rewrite E|]. eapply D_val; [apply D_const|ring].
  - assert (P0 : 0 < dqt 0 i j m) by lra. pose proof (D_dq i j m) as DQ. pose proof (D_r i j m P0) as DR.
    unfold pair_ev at 2. cbv zeta. destruct (Rlt_dec rthr (dqt 0 i j m)) as [L|L].
    + rewrite Z0. apply (D_loc _ (fun _ => 0)); [eapply D_val; [apply D_const|ring]|].
      apply (filter_imp (fun t => rthr < dqt t i j m)); [|exact (near_gt _ _ _ DQ L)].
      intros t A. unfold pair_ev. cbv zeta. destruct (Rlt_dec rthr (dqt t i j m)); [reflexivity|lra].
    + destruct (Rlt_dec (dqt 0 i j m) (/ 10 ^ 15)) as [G|_]; [lra|].
      assert (L' : dqt 0 i j m < rthr) by lra.
      set (q := r2r4 i * r2r4 j) in *. 
      apply (D_loc _ (fun t => - wgt2 i j * (two rs6 s8 q (r0ab i j) (sqrt (dqt t i j m)) * fst (fst (c6t t i j))))).
      * pose proof (sqrt_lt_R0 _ P0) as PS.
        pose proof (D_comp _ (fun t => sqrt (dqt t i j m)) _ _ (D_two rs6 s8 q (r0ab i j) (sqrt (dqt 0 i j m)) PS) DR) as DT.
        pose proof (D_c6t i j Hj Hi) as DC.
        eapply D_val; [exact (D_scal _ _ _ (D_mult _ _ _ _ DT DC))|]. cbv beta.
        unfold pairing. cbn [v_d v_f map ksum fst snd rpL].
        assert (S2 : sqrt (dqt 0 i j m) ^ 2 = dqt 0 i j m) by (apply pow2_sqrt; lra).
        set (r := sqrt (dqt 0 i j m)) in *. rewrite <- S2.
        assert (V : two rs6 s8 q (r0ab i j) r = 1 / (r ^ 2) ^ 3 * (1 / (1 + 6 * (rs6 * (r0ab i j / r)) ^ 14))
           + 3 * s8 * q / ((r ^ 2) ^ 3 * r ^ 2) * (1 / (1 + 6 * (1 * (r0ab i j / r)) ^ 16))) by reflexivity.
        rewrite V. clear V.
        set (t6 := (rs6 * (r0ab i j / r)) ^ 14). set (t8 := (1 * (r0ab i j / r)) ^ 16).
        assert (N6 : 0 < 1 + 6 * t6) by apply (damp_den 7). assert (N8 : 0 < 1 + 6 * t8) by apply (damp_den 8).
        set (d6 := 1 / (1 + 6 * t6)). set (d8 := 1 / (1 + 6 * t8)).
        set (c := fst (fst (c6t 0 i j))). set (cI := snd (fst (c6t 0 i j))). set (cJ := snd (c6t 0 i j)).
        clearbody d6 d8 c cI cJ t6 t8 r. field. lra.
      * apply (filter_imp (fun t => dqt t i j m < rthr /\ 1 / 2 < dqt t i j m)).
        -- intros t (A & B). unfold pair_ev. cbv zeta. destruct (Rlt_dec rthr (dqt t i j m)); [lra|].
           destruct (Rlt_dec (dqt t i j m) (/ 10 ^ 15)); [lra|]. cbn [v_e]. unfold two.
           rewrite pow2_sqrt by (apply dq_nn). unfold damp. cbn [Nat.mul Nat.add]. fold q. ring.
        -- apply filter_and; [exact (near_lt _ _ _ DQ L')|exact (near_gt _ _ _ DQ Q1)].
Qed.

(** ** Triangles *)
Notation tev t := (tri_ev n rcov r0ab smp cn_thr nCN (pos t) (lt t)).

Lemma ang_eq a b c : 0 < a -> 0 < b -> 0 < c ->
  ((3 / 8) * (a + c - b) * (a + b - c) * (b + c - a) / (a * c * b) + 1) / Rpower (a * c * b) (3 / 2) = angr (sqrt a) (sqrt b) (sqrt c).
Proof. clear.
  intros A B C. unfold angr. rewrite !pow2_sqrt by lra. f_equal.
  pose proof (sqrt_lt_R0 a A). pose proof (sqrt_lt_R0 b B). pose proof (sqrt_lt_R0 c C).
  assert (P : 0 < sqrt a * sqrt b * sqrt c) by (repeat apply Rmult_lt_0_compat; assumption).
  replace (a * c * b) with ((sqrt a * sqrt b * sqrt c) ^ 2).
  2:{ rewrite !Rpow_mult_distr, !pow2_sqrt by lra. ring. }
  replace (3 / 2) with (INR 3 / 2) by (cbn [INR]; lra). rewrite Rpower_half by exact P. ring.
Qed.
Lemma dang_eq a b c D : 0 < a -> 0 < b -> 0 < c -> D = a * c * b ->
  dAng a c b D = dangr (sqrt a) (sqrt b) (sqrt c).
Proof. clear.
  intros A B C ->. unfold dangr, dAng. rewrite !sqrt_sqrt by lra.
  pose proof (sqrt_lt_R0 a A). pose proof (sqrt_lt_R0 b B). pose proof (sqrt_lt_R0 c C).
  assert (P : 0 < sqrt a * sqrt b * sqrt c) by (repeat apply Rmult_lt_0_compat; assumption).
  replace (a * c * b) with ((sqrt a * sqrt b * sqrt c) ^ 2).
  2:{ rewrite !Rpow_mult_distr, !pow2_sqrt by lra. ring. }
  replace (5 / 2) with (INR 5 / 2) by (cbn [INR]; lra). rewrite Rpower_half by exact P.
  replace ((sqrt a * sqrt b * sqrt c) ^ 2 * (sqrt a * sqrt b * sqrt c) ^ 2 * (sqrt a * sqrt b * sqrt c))
    with ((sqrt a * sqrt b * sqrt c) ^ 5) by ring.
  f_equal. ring.
Qed.
Lemma dangr_sym a b c : dangr a b c = dangr a c b.
Proof. clear. unfold dangr. replace (a * c * b) with (a * b * c) by ring. f_equal. ring. Qed.

Lemma D_tri i j m k m' : (0 <= k <= j)%Z -> (j <= i)%Z -> (i < n)%Z ->
  In m (imgs nCN) -> In m' (scope nCN m) -> 1 / 2 < dqt 0 i j m ->
  is_derive (fun t => v_e (tev t i j m k m')) 0 (- pairing rpL CNp (tev 0 i j m k m')).
Proof.
  intros Hk Hj Hi Hm Hs Ha. pose proof tiny15 as T15.
  destruct (in_scope nCN m m' Hm Hs) as [Hm' Hd].
  apply (imgs_le nCN nEG ILE) in Hm, Hm', Hd.
  assert (Z0 : pairing rpL CNp ezero = 0) by (unfold pairing; cbn [ezero v_d v_f map ksum]; ring).
  pose proof (D_dq i k m') as DQb. pose proof (D_dq j k (isub m' m)) as DQc.
  unfold tri_ev at 2. cbv zeta.
  destruct (GEN i k m' ltac:(lia) ltac:(lia) Hm') as [[E1 E2]|(B1 & B2 & B3)].
  { assert (E : forall t, tev t i j m k m' = ezero).
    { intros t. unfold tri_ev. cbv zeta. rewrite <- E1, E2, dq_self. destruct (Rlt_dec cn_thr 0); [reflexivity|].
      destruct (Rlt_dec 0 (/ 10 ^ 15)); [reflexivity|lra]. }
    pose proof (E 0) as E0. unfold tri_ev in E0. cbv zeta in E0. rewrite E0, Z0.
    apply (is_derive_ext (fun _ => 0)); [intros t; now rewrite E|]. eapply D_val; [apply D_const|ring]. }
  destruct (Rlt_dec cn_thr (dqt 0 i k m')) as [L|L].
  { rewrite Z0. apply (D_loc _ (fun _ => 0)); [eapply D_val; [apply D_const|ring]|].
    apply (filter_imp (fun t => cn_thr < dqt t i k m')); [|exact (near_gt _ _ _ DQb L)].
    intros t A. unfold tri_ev. cbv zeta. destruct (Rlt_dec cn_thr (dqt t i k m')); [reflexivity|lra]. }
  assert (Lb : dqt 0 i k m' < cn_thr) by lra. clear L.
  destruct (Rlt_dec (dqt 0 i k m') (/ 10 ^ 15)) as [G|_]; [lra|].
  destruct (GEN j k (isub m' m) ltac:(lia) ltac:(lia) Hd) as [[E1 E2]|(C1 & C2 & C3)].
  { rewrite <- E1, E2, dq_self. destruct (Rlt_dec cn_thr 0) as [X|_]; [lra|].
    destruct (Rlt_dec 0 (/ 10 ^ 15)) as [_|X]; [|lra]. rewrite Z0.
    apply (D_loc _ (fun _ => 0)); [eapply D_val; [apply D_const|ring]|].
    apply filter_forall. intros t. unfold tri_ev. cbv zeta. rewrite E2, dq_self.
    destruct (Rlt_dec cn_thr (dqt t i j m')), (Rlt_dec (dqt t i j m') (/ 10 ^ 15)), (Rlt_dec cn_thr 0); try reflexivity.
    destruct (Rlt_dec 0 (/ 10 ^ 15)); [reflexivity|lra]. }
  destruct (Rlt_dec cn_thr (dqt 0 j k (isub m' m))) as [L|L].
  { rewrite Z0. apply (D_loc _ (fun _ => 0)); [eapply D_val; [apply D_const|ring]|].
    apply (filter_imp (fun t => cn_thr < dqt t j k (isub m' m))); [|exact (near_gt _ _ _ DQc L)].
    intros t A. unfold tri_ev. cbv zeta.
    destruct (Rlt_dec cn_thr (dqt t i k m')), (Rlt_dec (dqt t i k m') (/ 10 ^ 15)); try reflexivity.
    destruct (Rlt_dec cn_thr (dqt t j k (isub m' m))); [reflexivity|lra]. }
  assert (Lc : dqt 0 j k (isub m' m) < cn_thr) by lra. clear L.
  destruct (Rlt_dec (dqt 0 j k (isub m' m)) (/ 10 ^ 15)) as [G|_]; [lra|].
  pose proof (D_r i j m ltac:(lra)) as Ra. pose proof (D_r i k m' ltac:(lra)) as Rb. pose proof (D_r j k (isub m' m) ltac:(lra)) as Rc.
  pose proof (sqrt_lt_R0 (dqt 0 i j m) ltac:(lra)) as Pa. pose proof (sqrt_lt_R0 (dqt 0 i k m') ltac:(lra)) as Pb.
  pose proof (sqrt_lt_R0 (dqt 0 j k (isub m' m)) ltac:(lra)) as Pc.
  pose proof (R0 i j ltac:(lia) Hi) as Rij. pose proof (R0 i k ltac:(lia) Hi) as Rik. pose proof (R0 j k ltac:(lia) ltac:(lia)) as Rjk.
  set (p := fun t => sqrt (dqt t i j m) / r0ab i j * (sqrt (dqt t i k m') / r0ab i k) * (sqrt (dqt t j k (isub m' m)) / r0ab j k)).
  assert (Pp : 0 < p 0) by (unfold p; apply Rmult_lt_0_compat; [apply Rmult_lt_0_compat|]; apply Rdiv_lt_0_compat; assumption).
  assert (Dp : is_derive p 0 (p 0 * (rp i j m / sqrt (dqt 0 i j m) + rp i k m' / sqrt (dqt 0 i k m') + rp j k (isub m' m) / sqrt (dqt 0 j k (isub m' m))))).
  { eapply D_val; [unfold p, Rdiv; apply D_mult; [apply D_mult|]; (apply D_mult; [eassumption|apply D_const])|].
    cbv beta. unfold p. field. repeat split; lra. }
  pose proof (D_damp3 p _ Dp Pp) as DD. pose proof (D_angr _ _ _ _ _ _ Ra Rb Rc Pa Pb Pc) as DA. cbv beta in DA.
  pose proof (D_sq6 i j ltac:(lia) ltac:(lia)) as Sij. pose proof (D_sq6 i k ltac:(lia) ltac:(lia)) as Sik. pose proof (D_sq6 j k ltac:(lia) ltac:(lia)) as Sjk.
  pose proof (sq6_pos i j ltac:(lia) ltac:(lia)) as Nij. pose proof (sq6_pos i k ltac:(lia) ltac:(lia)) as Nik. pose proof (sq6_pos j k ltac:(lia) ltac:(lia)) as Njk.
  apply (D_loc _ (fun t => 1 / (1 + 6 * u16 (p t)) * (sq6t t i j * sq6t t i k * sq6t t j k)
     * angr (sqrt (dqt t i j m)) (sqrt (dqt t i k m')) (sqrt (dqt t j k (isub m' m))) * wgt3 i j k)).
  - eapply D_val; [apply D_mult; [apply D_mult; [apply D_mult; [exact DD|apply D_mult; [apply D_mult; [exact Sij|exact Sik]|exact Sjk]]|exact DA]|apply D_const]|].
    cbv beta. unfold pairing. cbn [v_d v_f map ksum fst snd rpL].
    rewrite ang_eq by lra. fold (p 0). fold (u16 (p 0)).
    rewrite (dang_eq (dqt 0 i j m) (dqt 0 i k m') (dqt 0 j k (isub m' m))) by (try lra; ring).
    rewrite (dang_eq (dqt 0 j k (isub m' m)) (dqt 0 i j m) (dqt 0 i k m')) by (try lra; ring).
    rewrite (dang_eq (dqt 0 i k m') (dqt 0 i j m) (dqt 0 j k (isub m' m))) by (try lra; ring).
    rewrite (dangr_sym (sqrt (dqt 0 j k (isub m' m))) (sqrt (dqt 0 i k m'))).
    pose proof (u16_pos (p 0)) as U.
    set (A := angr _ _ _). set (d1 := dangr _ _ _). set (d2 := dangr _ _ _). set (d3 := dangr _ _ _).
    set (U0 := u16 (p 0)) in *. set (D3 := 1 / (1 + 6 * U0)). set (w := wgt3 i j k).
    set (Sa := sq6t 0 i j) in *. set (Sb := sq6t 0 i k) in *. set (Sc := sq6t 0 j k) in *.
    set (ra := sqrt (dqt 0 i j m)) in *. set (rb := sqrt (dqt 0 i k m')) in *. set (rc := sqrt (dqt 0 j k (isub m' m))) in *.
    clearbody A d1 d2 d3 D3 w Sa Sb Sc ra rb rc U0.
    field. repeat split; lra.
  - apply (filter_imp (fun t => (1 / 2 < dqt t i j m /\ 1 / 2 < dqt t i k m') /\ (1 / 2 < dqt t j k (isub m' m) /\ (dqt t i k m' < cn_thr /\ dqt t j k (isub m' m) < cn_thr)))).
    + intros t ((A1 & A2) & A3 & A4 & A5). unfold tri_ev. cbv zeta.
      destruct (Rlt_dec cn_thr (dqt t i k m')); [lra|]. destruct (Rlt_dec (dqt t i k m') (/ 10 ^ 15)); [lra|].
      destruct (Rlt_dec cn_thr (dqt t j k (isub m' m))); [lra|]. destruct (Rlt_dec (dqt t j k (isub m' m)) (/ 10 ^ 15)); [lra|].
      cbn [v_e]. rewrite ang_eq by lra. reflexivity.
    + repeat apply filter_and; try (eapply near_gt; [apply D_dq|lra]); eapply near_lt; [apply D_dq|lra|apply D_dq|lra].
Qed.

Notation tiev t := (tri_image_ev n rcov r0ab smp cn_thr nCN (pos t) (lt t)).
Lemma D_tri_image i j m : (0 <= j <= i)%Z -> (i < n)%Z -> In m (imgs nCN) ->
  is_derive (fun t => v_e (tiev t i j m)) 0 (- pairing rpL CNp (tiev 0 i j m)).
Proof.
  intros Hj Hi Hm. pose proof tiny15 as T15.
  assert (Z0 : pairing rpL CNp ezero = 0) by (unfold pairing; cbn [ezero v_d v_f map ksum]; ring).
  destruct (GEN i j m ltac:(lia) ltac:(lia) (imgs_le nCN nEG ILE m Hm)) as [[<- ->]|(Q1 & Q2 & Q3)].
  - assert (E : forall t, tiev t i i (0, 0, 0)%Z = ezero).
    { intros t. unfold tri_image_ev. rewrite dq_self. destruct (Rlt_dec cn_thr 0); [reflexivity|].
      destruct (Rlt_dec 0 (/ 10 ^ 15)); [reflexivity|lra]. }
    rewrite E, Z0. apply (is_derive_ext (fun _ => 0)); [intros t; now rewrite E|]. eapply D_val; [apply D_const|ring].
  - pose proof (D_dq i j m) as DQ. unfold tri_image_ev at 2. destruct (Rlt_dec cn_thr (dqt 0 i j m)) as [L|L].
    + rewrite Z0. apply (D_loc _ (fun _ => 0)); [eapply D_val; [apply D_const|ring]|].
      apply (filter_imp (fun t => cn_thr < dqt t i j m)); [|exact (near_gt _ _ _ DQ L)].
      intros t A. unfold tri_image_ev. destruct (Rlt_dec cn_thr (dqt t i j m)); [reflexivity|lra].
    + destruct (Rlt_dec (dqt 0 i j m) (/ 10 ^ 15)) as [G|_]; [lra|].
      assert (L' : dqt 0 i j m < cn_thr) by lra.
      apply (D_loc _ (fun t => v_e (esum (map (fun k => esum (map (tev t i j m k) (scope nCN m))) (zrange 0 j))))).
      * apply (D_esum (fun t k => esum (map (tev t i j m k) (scope nCN m)))). intros k Hk. apply in_zrange in Hk.
        apply (D_esum (fun t m' => tev t i j m k m')). intros m' Hm'. apply D_tri; try lia; assumption.
      * apply (filter_imp (fun t => dqt t i j m < cn_thr /\ 1 / 2 < dqt t i j m)).
        -- intros t (A & B). unfold tri_image_ev. destruct (Rlt_dec cn_thr (dqt t i j m)); [lra|].
           destruct (Rlt_dec (dqt t i j m) (/ 10 ^ 15)); [lra|]. reflexivity.
        -- apply filter_and; [exact (near_lt _ _ _ DQ L')|exact (near_gt _ _ _ DQ Q1)].
Qed.

Notation aev t := (all_ev n rcov r2r4 r0ab smp rs6 s8 cn_thr rthr nCN nEG (pos t) (lt t)).
Lemma D_all : is_derive (fun t => v_e (aev t)) 0 (- pairing rpL CNp (aev 0)).
Proof.
  unfold all_ev. rewrite pairing_add.
  set (P := fun t => pairs_ev n rcov r2r4 r0ab smp rs6 s8 cn_thr rthr nCN nEG (pos t) (lt t)).
  set (T := fun t => tris_ev n rcov r0ab smp cn_thr nCN (pos t) (lt t)).
  apply (D_val _ (- pairing rpL CNp (P 0) + - pairing rpL CNp (T 0))); [|unfold P, T; ring].
  apply (D_plus (fun t => v_e (P t)) (fun t => v_e (T t))).
  - unfold P, pairs_ev. apply (D_esum (fun t i => esum (map (fun j => esum (map (pev t i j) (imgs nEG))) (zrange 0 i)))).
    intros i Hi. apply in_zrange in Hi. apply (D_esum (fun t j => esum (map (pev t i j) (imgs nEG)))).
    intros j Hj. apply in_zrange in Hj. apply (D_esum (fun t m => pev t i j m)). intros m Hm. apply D_pair; [lia|lia|exact Hm].
  - unfold T, tris_ev. apply (D_esum (fun t i => esum (map (fun j => esum (map (tiev t i j) (imgs nCN))) (zrange 0 i)))).
    intros i Hi. apply in_zrange in Hi. apply (D_esum (fun t j => esum (map (tiev t i j) (imgs nCN)))).
    intros j Hj. apply in_zrange in Hj. apply (D_esum (fun t m => tiev t i j m)). intros m Hm. apply D_tri_image; [lia|lia|exact Hm].
Qed.

(** ** Regrouping by pair and image *)
Hypothesis THR : cn_thr <= rthr.
Hypothesis OUT : forall i j m, (0 <= i < n)%Z -> (0 <= j < n)%Z -> In m (imgs nEG) -> ~ In m (imgs nCN) -> cn_thr < dqt 0 i j m.

Definition ineg (m : img) : img := let '(x, y, z) := m in (- x, - y, - z)%Z.
Lemma ineg_inv m : ineg (ineg m) = m.
Proof. clear. destruct m as [[x y] z]. cbn. now rewrite !Z.opp_involutive. Qed.
Lemma in_ineg k m : In m (imgs k) -> In (ineg m) (imgs k).
Proof. clear. rewrite !in_imgs. destruct k as [[a b] c], m as [[x y] z]. cbn. lia. Qed.
Lemma img_dec (x y : img) : {x = y} + {x <> y}.
Proof. repeat decide equality. Defined.

Lemma rsum_neg k (f : img -> R) : rsum (map (fun m => f (ineg m)) (imgs k)) = rsum (map f (imgs k)).
Proof. clear.
  rewrite <- (map_map ineg f).
  apply (ksum_same _ _ _ _ _ _ RTheory img_dec).
  - apply FinFun.Injective_map_NoDup; [|apply NoDup_imgs]. intros x y E. rewrite <- (ineg_inv x), E. apply ineg_inv.
  - apply NoDup_imgs.
  - intros m H N. contradict N. apply in_map_iff in H. destruct H as (m' & <- & H). now apply in_ineg.
  - intros m H N. contradict N. apply in_map_iff. exists (ineg m). split; [apply ineg_inv|now apply in_ineg].
Qed.

Definition gcn (i j : Z) (m : img) : R := dcn i j m * rp i j m.
Lemma ivec_neg (l : lat) m : ivec l (ineg m) = vscal (-1) (ivec l m).
Proof.
  destruct l as [[[[a b] c] [[d e] f]] [[g h] k]], m as [[x y] z]. cbn.
  rewrite !opp_IZR. f_equal; [f_equal|]; ring.
Qed.
Lemma dq_sym t i j m : dqt t j i (ineg m) = dqt t i j m.
Proof.
  unfold dq, dv. rewrite ivec_neg. destruct (pos t i) as [[a b] c], (pos t j) as [[a' b'] c'], (ivec (lt t) m) as [[x y] z]. cbn. ring.
Qed.
Lemma gcn_sym i j m : gcn j i (ineg m) = gcn i j m.
Proof.
  unfold gcn, dcn, rp. rewrite dq_sym. rewrite (Rplus_comm (rcov j)). f_equal. f_equal.
  unfold dv, dvel. rewrite !ivec_neg.
  destruct (pos 0 i) as [[a b] c], (pos 0 j) as [[a' b'] c'], (ivec (lt 0) m) as [[x y] z],
    (v i) as [[d e] f], (v j) as [[d' e'] f'], (ivec vl m) as [[p q] r]. cbn. ring.
Qed.
Definition Gcn (i j : Z) : R := rsum (map (gcn i j) (imgs nEG)).
Lemma Gcn_sym i j : Gcn j i = Gcn i j.
Proof. unfold Gcn. rewrite <- rsum_neg. apply ksum_ext. intros m _. apply gcn_sym. Qed.

Lemma CNp_G i : (0 <= i < n)%Z -> CNp i = rsum (map (Gcn i) (zrange 0 (n - 1))).
Proof.
  intros Hi. unfold CNp. apply ksum_ext. intros j Hj. apply in_zrange in Hj.
  apply (ksum_same _ _ _ _ _ _ RTheory img_dec); try apply NoDup_imgs.
  - intros m H N. contradict N. now apply (imgs_le nCN nEG ILE).
  - intros m H N. pose proof (OUT i j m ltac:(lia) ltac:(lia) H N) as L. unfold gcn, dcn.
    destruct (Rlt_dec (dqt 0 i j m) cn_thr); [lra|ring].
Qed.

Lemma rsum_last a b (f : Z -> R) : (a <= b)%Z -> rsum (map f (zrange a b)) = rsum (map f (zrange a (b - 1))) + f b.
Proof. clear.
  intros H. rewrite (zrange_cut a (b - 1) b) by lia. replace (b - 1 + 1)%Z with b by lia.
  rewrite map_app, (ksum_app _ _ _ _ _ _ RTheory). f_equal. unfold zrange.
  replace (Z.to_nat (b - b + 1)) with 1%nat by lia. cbn. ring.
Qed.

Lemma tri_sum (f : Z -> R) (G : Z -> Z -> R) : (forall i j, G j i = G i j) -> forall k, (0 <= k)%Z ->
  rsum (map (fun i => f i * rsum (map (G i) (zrange 0 (k - 1)))) (zrange 0 (k - 1)))
  = rsum (map (fun i => rsum (map (fun j => (if (i =? j)%Z then f i else f i + f j) * G i j) (zrange 0 i))) (zrange 0 (k - 1))).
Proof. clear.
  intros S. apply natlike_ind; [reflexivity|]. intros k Hk IH.
  replace (Z.succ k - 1)%Z with k by lia.
  rewrite (rsum_last 0 k (fun i => f i * rsum (map (G i) (zrange 0 k)))) by lia.
  rewrite (rsum_last 0 k (fun i => rsum (map (fun j => (if (i =? j)%Z then f i else f i + f j) * G i j) (zrange 0 i)))) by lia.
  cbv beta. rewrite (rsum_last 0 k (G k)) by lia. rewrite <- IH. rewrite (rsum_last 0 k (fun j => (if (k =? j)%Z then f k else f k + f j) * G k j)) by lia. rewrite Z.eqb_refl.
  transitivity (rsum (map (fun i => f i * rsum (map (G i) (zrange 0 (k - 1))) + f i * G k i) (zrange 0 (k - 1)))
    + f k * (rsum (map (G k) (zrange 0 (k - 1))) + G k k)).
  { f_equal. apply ksum_ext. intros i _. rewrite (rsum_last 0 k (G i)) by lia. rewrite (S k i). ring. }
  rewrite (ksum_add _ _ _ _ _ _ RTheory).
  transitivity (rsum (map (fun i => f i * rsum (map (G i) (zrange 0 (k - 1)))) (zrange 0 (k - 1)))
    + (rsum (map (fun j => f k * G k j + f j * G k j) (zrange 0 (k - 1))) + f k * G k k)).
  { rewrite (ksum_add _ _ _ _ _ _ RTheory), (ksum_mul_l _ _ _ _ _ _ RTheory). ring. }
  f_equal. f_equal. apply ksum_ext. intros j Hj. apply in_zrange in Hj. destruct (Z.eqb_spec k j); [lia|ring].
Qed.

Definition sum3 (f : Z -> Z -> img -> R) : R :=
  rsum (map (fun i => rsum (map (fun j => rsum (map (f i j) (imgs nEG))) (zrange 0 i))) (zrange 0 (n - 1))).
Lemma sum3_add f g : sum3 (fun i j m => f i j m + g i j m) = sum3 f + sum3 g.
Proof. clear.
  unfold sum3. rewrite <- (ksum_add _ _ _ _ _ _ RTheory). apply ksum_ext. intros i _.
  rewrite <- (ksum_add _ _ _ _ _ _ RTheory). apply ksum_ext. intros j _. apply (ksum_add _ _ _ _ _ _ RTheory).
Qed.
Lemma sum3_ext f g : (forall i j m, (0 <= j <= i)%Z -> (i < n)%Z -> In m (imgs nEG) -> f i j m = g i j m) -> sum3 f = sum3 g.
Proof. clear.
  intros H. unfold sum3. apply ksum_ext. intros i Hi. apply in_zrange in Hi. apply ksum_ext. intros j Hj. apply in_zrange in Hj.
  apply ksum_ext. intros m Hm. apply H; [lia|lia|exact Hm].
Qed.

Definition LOCS : list loc := flat_map (fun i => flat_map (fun j => map (fun m => (m, i, j)) (imgs nEG)) (zrange 0 i)) (zrange 0 (n - 1)).
Lemma NoDup_LOCS : NoDup LOCS.
Proof. clear.
  unfold LOCS. apply NoDup_flat_map; [apply NoDup_zrange| |].
  - intros i _. apply NoDup_flat_map; [apply NoDup_zrange| |].
    + intros j _. apply FinFun.Injective_map_NoDup; [|apply NoDup_imgs]. intros m m' E. now injection E.
    + intros j j' p _ _ H H'. apply in_map_iff in H, H'. destruct H as (m & <- & _), H' as (m' & E & _). now injection E.
  - intros i i' p _ _ H H'. apply in_flat_map in H, H'. destruct H as (j & _ & H), H' as (j' & _ & H').
    apply in_map_iff in H, H'. destruct H as (m & <- & _), H' as (m' & E & _). now injection E.
Qed.

Lemma regroup : pairing rpL CNp (aev 0) =
  sum3 (fun i j m => (getd (v_d (aev 0)) (m, i, j)
     + dcn i j m * (if (i =? j)%Z then getf (v_f (aev 0)) i else getf (v_f (aev 0)) i + getf (v_f (aev 0)) j)) * rp i j m).
Proof.
  destruct (all_ev_in n rcov r2r4 r0ab smp rs6 s8 cn_thr rthr nCN nEG (pos 0) (lt 0) ILE THR) as [A1 A2].
  unfold pairing. rewrite (rsum_pick_d _ LOCS rpL NoDup_LOCS).
  2:{ intros e He. specialize (A1 e He). destruct (fst e) as [[m i] j]. destruct A1 as (B1 & B2 & B3 & _). unfold LOCS.
      apply in_flat_map. exists i. split; [apply in_zrange; lia|]. apply in_flat_map. exists j. split; [apply in_zrange; lia|].
      apply in_map_iff. now exists m. }
  rewrite (rsum_pick_f _ (zrange 0 (n - 1)) CNp (NoDup_zrange _ _)).
  2:{ intros e He. specialize (A2 e He). apply in_zrange. lia. }
  rewrite (sum3_ext _ (fun i j m => getd (v_d (aev 0)) (m, i, j) * rp i j m
     + (if (i =? j)%Z then getf (v_f (aev 0)) i else getf (v_f (aev 0)) i + getf (v_f (aev 0)) j) * gcn i j m)).
  2:{ intros i j m _ _ _. unfold gcn. ring. }
  rewrite sum3_add. f_equal.
  - unfold LOCS, sum3. rewrite (ksum_flat_map _ _ _ _ _ _ RTheory). apply ksum_ext. intros i _.
    rewrite (ksum_flat_map _ _ _ _ _ _ RTheory). apply ksum_ext. intros j _. rewrite map_map. reflexivity.
  - destruct (Z_le_dec 0 n) as [Hn|Hn].
    2:{ unfold sum3. replace (zrange 0 (n - 1)) with (@nil Z); [reflexivity|]. unfold zrange. replace (Z.to_nat (n - 1 - 0 + 1)) with 0%nat by lia. reflexivity. }
    transitivity (rsum (map (fun i => getf (v_f (aev 0)) i * rsum (map (Gcn i) (zrange 0 (n - 1)))) (zrange 0 (n - 1)))).
    + apply ksum_ext. intros i Hi. apply in_zrange in Hi. rewrite CNp_G by lia. reflexivity.
    + rewrite (tri_sum _ _ Gcn_sym n Hn). unfold sum3. apply ksum_ext. intros i _. apply ksum_ext. intros j _.
      unfold Gcn. rewrite <- (ksum_mul_l _ _ _ _ _ _ RTheory). reflexivity.
Qed.

(** ** The last loop *)
Variable s : st.
Hypothesis Sd : forall m i j, In m (imgs nEG) -> (j <= i)%Z -> t_dr s (count_image m nEG) i j = getd (v_d (aev 0)) (m, i, j).
Hypothesis Sf : forall i, t_F s i = getf (v_f (aev 0)) i.
Notation pl i j m := (pull rcov cn_thr rthr (pos 0) (lt 0) s i j (count_image m nEG, m)).

Lemma pull_term i j m : (0 <= j <= i)%Z -> (i < n)%Z -> In m (imgs nEG) ->
  (getd (v_d (aev 0)) (m, i, j)
     + dcn i j m * (if (i =? j)%Z then getf (v_f (aev 0)) i else getf (v_f (aev 0)) i + getf (v_f (aev 0)) j)) * rp i j m
  = match pl i j m with None => 0 | Some (f, d) => dotv f (dvel i j m) end.
Proof.
  intros Hj Hi Hm. pose proof tiny15 as T15. unfold pull. fold (dvt 0 i j m). fold (dqt 0 i j m).
  rewrite Sd by (try exact Hm; lia). rewrite !Sf.
  destruct (GEN i j m ltac:(lia) ltac:(lia) Hm) as [[E1 E2]|(Q1 & Q2 & Q3)].
  - subst m j. rewrite dq_self. rewrite Z.eqb_refl. destruct (Rlt_dec 0 (/ 10 ^ 15)); [|lra].
    unfold rp. rewrite dq_self.
    replace (dotv (dvt 0 i i (0, 0, 0)%Z) (dvel i i (0, 0, 0)%Z)) with 0; [unfold Rdiv; ring|].
    unfold dv. destruct (pos 0 i) as [[a b] c], (lt 0) as [[[[? ?] ?] [[? ?] ?]] [[? ?] ?]], (dvel i i (0, 0, 0)%Z) as [[? ?] ?]. cbn. ring.
  - assert (PS : 0 < sqrt (dqt 0 i j m)) by (apply sqrt_lt_R0; lra).
    assert (Main : forall X, X * rp i j m = dotv (vscal (X / sqrt (dqt 0 i j m)) (dvt 0 i j m)) (dvel i j m)).
    { intros X. unfold rp. destruct (dvt 0 i j m) as [[a b] c], (dvel i j m) as [[a' b'] c']. cbn [dotv vscal].
      field. lra. }
    destruct (Z.eqb_spec i j) as [E|E].
    + destruct (Rlt_dec (dqt 0 i j m) (/ 10 ^ 15)) as [G|_]; [lra|]. rewrite Main. reflexivity.
    + destruct (Rlt_dec rthr (dqt 0 i j m)) as [G|G].
      * destruct (all_ev_in n rcov r2r4 r0ab smp rs6 s8 cn_thr rthr nCN nEG (pos 0) (lt 0) ILE THR) as [A1 _].
        rewrite getd_none. 2:{ intros e He Ee. specialize (A1 e He). rewrite Ee in A1. destruct A1 as (_ & _ & _ & A1). lra. }
        unfold dcn. destruct (Rlt_dec (dqt 0 i j m) cn_thr); [lra|ring].
      * destruct (Rlt_dec (dqt 0 i j m) (1 / 2)) as [G'|_]; [lra|]. rewrite Main. reflexivity.
Qed.

Lemma total_pull : pairing rpL CNp (aev 0)
  = sum3 (fun i j m => match pl i j m with None => 0 | Some (f, d) => dotv f (dvel i j m) end).
Proof. rewrite regroup. apply sum3_ext. exact pull_term. Qed.
End PATH.
