(** C75: the DFT-D3 gradient and virial are the exact derivatives of the energy. *)
From Coq Require Import ZArith Reals List Lia Lra Bool Permutation.
From Coquelicot Require Import Coquelicot.
From Verif Require Import CBase Nloc NlocLem VnlOp VnlLem VnlMain D3 D3Spec D3Lem D3Der D3Main.
Import ListNotations.
Local Open Scope R_scope.

(** ** The last loop as a sum *)
Lemma fold_gs {A} (f : gs -> A -> gs) (U V : A -> Z -> Z -> R) l :
  (forall x g a c, In x l -> fst (f g x) a c = fst g a c + U x a c /\ snd (f g x) a c = snd g a c + V x a c) ->
  forall g a c, fst (fold_left f l g) a c = fst g a c + rsum (map (fun x => U x a c) l) /\
                snd (fold_left f l g) a c = snd g a c + rsum (map (fun x => V x a c) l).
Proof.
  induction l as [|x l IH]; intros H g a c; cbn [fold_left map ksum]; [split; ring|].
  destruct (IH (fun y g a c Hy => H y g a c (or_intror Hy)) (f g x) a c) as [E1 E2].
  destruct (H x g a c (or_introl eq_refl)) as [F1 F2]. rewrite E1, E2, F1, F2. split; ring.
Qed.

Section G.
Variables (n : Z) (rcov : Z -> R) (cn_thr rthr : R) (nEG : img) (pos : Z -> vec) (l : lat) (s : st).
Hypothesis NEG : nn nEG.
Notation pl i j m := (pull rcov cn_thr rthr pos l s i j (count_image m nEG, m)).

Definition gterm (i j : Z) (m : img) (a c : Z) : R :=
  match pl i j m with None => 0 | Some (f, d) => if (i =? j)%Z then 0 else
    (if (a =? i)%Z then comp f c else 0) - (if (a =? j)%Z then comp f c else 0) end.
Definition sterm (i j : Z) (m : img) (r c : Z) : R :=
  match pl i j m with None => 0 | Some (f, d) => comp f r * comp d c end.

Lemma fold_left_map {A B X} (f : X -> B -> X) (g : A -> B) ys x : fold_left f (map g ys) x = fold_left (fun x y => f x (g y)) ys x.
Proof. revert x. induction ys as [|y ys IH]; intros x; cbn; auto. Qed.

Lemma grad_loop_sum a c :
  fst (grad_loop n rcov cn_thr rthr nEG pos l s) a c = sum3 n nEG (fun i j m => gterm i j m a c) /\
  snd (grad_loop n rcov cn_thr rthr nEG pos l s) a c = sum3 n nEG (fun i j m => sterm i j m a c).
Proof.
  unfold grad_loop, sum3.
  destruct (fold_gs (fun g i => fold_left (fun g j => fold_left (fun g im =>
      match pull rcov cn_thr rthr pos l s i j im with None => g | Some vd => gs_add i j vd g end) (numbered nEG) g) (zrange 0 i) g)
    (fun i a c => rsum (map (fun j => rsum (map (fun m => gterm i j m a c) (imgs nEG))) (zrange 0 i)))
    (fun i a c => rsum (map (fun j => rsum (map (fun m => sterm i j m a c) (imgs nEG))) (zrange 0 i)))
    (zrange 0 (n - 1))) with (g := ((fun _ _ : Z => 0), (fun _ _ : Z => 0))) (a := a) (c := c) as [E1 E2].
  - intros i g a' c' _.
    destruct (fold_gs (fun g j => fold_left (fun g im =>
      match pull rcov cn_thr rthr pos l s i j im with None => g | Some vd => gs_add i j vd g end) (numbered nEG) g)
      (fun j a c => rsum (map (fun m => gterm i j m a c) (imgs nEG)))
      (fun j a c => rsum (map (fun m => sterm i j m a c) (imgs nEG))) (zrange 0 i)) with (g := g) (a := a') (c := c') as [F1 F2]; [|now split].
    intros j g' a2 c2 _. rewrite numbered_ok by exact NEG. rewrite fold_left_map.
    destruct (fold_gs (fun g m => match pl i j m with None => g | Some vd => gs_add i j vd g end)
      (fun m a c => gterm i j m a c) (fun m a c => sterm i j m a c) (imgs nEG)) with (g := g') (a := a2) (c := c2) as [H1 H2]; [|now split].
    intros m g2 a3 c3 _. unfold gterm, sterm. destruct (pl i j m) as [[f d]|]; [|split; ring].
    unfold gs_add. cbn [fst snd]. destruct (i =? j)%Z; split; ring.
  - rewrite E1, E2. cbn [fst snd]. split; ring.
Qed.
End G.

Lemma sum3_mul_r n nEG f k : sum3 n nEG (fun i j m => f i j m * k) = sum3 n nEG f * k.
Proof.
  unfold sum3. rewrite <- (ksum_mul_r _ _ _ _ _ _ RTheory). apply ksum_ext. intros i _.
  rewrite <- (ksum_mul_r _ _ _ _ _ _ RTheory). apply ksum_ext. intros j _. apply (ksum_mul_r _ _ _ _ _ _ RTheory).
Qed.
Lemma sum3_swap {A} n nEG (f : A -> Z -> Z -> img -> R) (L : list A) :
  rsum (map (fun a => sum3 n nEG (f a)) L) = sum3 n nEG (fun i j m => rsum (map (fun a => f a i j m) L)).
Proof.
  unfold sum3. rewrite (ksum_swap _ _ _ _ _ _ RTheory). apply ksum_ext. intros i _.
  rewrite (ksum_swap _ _ _ _ _ _ RTheory). apply ksum_ext. intros j _. apply (ksum_swap _ _ _ _ _ _ RTheory).
Qed.

Lemma dist2_dq pos l i j m : dist2 pos l i j m = dq pos l i j m.
Proof.
  unfold dist2, dq, dv. destruct (pos i) as [[a b] c], (pos j) as [[a' b'] c'], (ivec l m) as [[x y] z]. cbn. ring.
Qed.
Lemma weights_wsum ss ci cj : weights ss ci cj = wsum ss ci cj.
Proof.
  unfold weights, wsum. rewrite (ksum_filter _ _ _ _ _ _ RTheory). apply ksum_ext. intros [[c6 a] b] _.
  unfold s_c6, weight, sdist, K3. cbn [fst snd]. destruct (Rlt_dec 0 c6); reflexivity.
Qed.

Section THM.
Variables (n : Z) (rcov r2r4 : Z -> R) (r0ab : Z -> Z -> R) (smp : Z -> Z -> list sample).
Variables (rs6 s8 cn_thr rthr : R) (nCN nEG : img).
Notation run := (d3_run n rcov r2r4 r0ab smp rs6 s8 cn_thr rthr nCN nEG).

Lemma reg_ile pos l : regular n rcov r0ab smp cn_thr rthr nCN nEG pos l -> nn nCN /\ nn nEG /\ ile nCN nEG.
Proof.
  intros H. pose proof (reg_img _ _ _ _ _ _ _ _ _ _ H) as I. destruct nCN as [[a b] c], nEG as [[a' b'] c']. cbn. lia.
Qed.

(** Along every motion of the atoms and every strain of the cell, the energy changes
    at the rate given by the gradient and the virial. *)
Theorem C75_gradient (pos : R -> Z -> vec) (lt : R -> lat) (v : Z -> vec) (e : Z -> Z -> R) :
  regular n rcov r0ab smp cn_thr rthr nCN nEG (pos 0) (lt 0) ->
  (forall i c, is_derive (fun t => comp (pos t i) c) 0 (comp (vadd (v i) (mapply e (pos 0 i))) c)) ->
  (forall c, is_derive (fun t => comp (fst (fst (lt t))) c) 0 (comp (mapply e (fst (fst (lt 0)))) c)) ->
  (forall c, is_derive (fun t => comp (snd (fst (lt t))) c) 0 (comp (mapply e (snd (fst (lt 0)))) c)) ->
  (forall c, is_derive (fun t => comp (snd (lt t)) c) 0 (comp (mapply e (snd (lt 0))) c)) ->
  exists (E : R -> R) (o : d3out),
    (forall t, exists ot, run (pos t) (lt t) = Ok ot /\ o_e ot = E t) /\
    run (pos 0) (lt 0) = Ok o /\
    is_derive E 0 (work n (o_g o) v - contract e (o_sg o)).
Proof.
  intros H HP HL0 HL1 HL2. destruct (reg_ile _ _ H) as (NC & NE & IL). destruct H as [T1 T2 T3 T4 T5 T6 T7].
  set (E := fun t => v_e (all_ev n rcov r2r4 r0ab smp rs6 s8 cn_thr rthr nCN nEG (pos t) (lt t))).
  destruct (d3_run_ok n rcov r2r4 r0ab smp rs6 s8 cn_thr rthr nCN nEG NE (pos 0) (lt 0) IL) as (s & E0 & Sd & Sf).
  eexists E, _. split; [|split; [exact E0|]].
  { intros t. destruct (d3_run_ok n rcov r2r4 r0ab smp rs6 s8 cn_thr rthr nCN nEG NE (pos t) (lt t) IL) as (st & Et & _).
    eexists. split; [exact Et|reflexivity]. }
  cbn [o_g o_sg]. set (vl := (mapply e (fst (fst (lt 0))), mapply e (snd (fst (lt 0))), mapply e (snd (lt 0)))).
  set (vv := fun i => vadd (v i) (mapply e (pos 0 i))).
  assert (GEN : forall i j m, (0 <= i < n)%Z -> (0 <= j < n)%Z -> In m (imgs nEG) ->
    (i = j /\ m = (0, 0, 0)%Z) \/ (1 / 2 < dq (pos 0) (lt 0) i j m /\ dq (pos 0) (lt 0) i j m <> rthr /\ dq (pos 0) (lt 0) i j m <> cn_thr)).
  { intros i j m Hi Hj Hm. rewrite <- !dist2_dq. now apply T3. }
  assert (WS : forall i j, (0 <= j <= i)%Z -> (i < n)%Z -> tiny < wsum (smp i j) (CN n rcov cn_thr nCN (pos 0) (lt 0) i) (CN n rcov cn_thr nCN (pos 0) (lt 0) j)).
  { intros i j Hj Hi. rewrite <- weights_wsum. now apply T7. }
  assert (SY : forall i, (0 <= i < n)%Z -> Permutation (map (fun s : sample => (s_c6 s, snd s, snd (fst s))) (smp i i)) (smp i i)).
  { intros i Hi. erewrite map_ext; [now apply T5|]. intros [[c a] b]. reflexivity. }
  assert (OUT : forall i j m, (0 <= i < n)%Z -> (0 <= j < n)%Z -> In m (imgs nEG) -> ~ In m (imgs nCN) -> cn_thr < dq (pos 0) (lt 0) i j m).
  { intros i j m Hi Hj Hm Hn. rewrite <- dist2_dq. now apply T4. }
  pose proof (D_all n rcov r2r4 r0ab smp rs6 s8 cn_thr rthr nCN nEG pos lt vv vl HP HL0 HL1 HL2 IL (proj1 T1) GEN WS SY T6) as D.
  eapply D_val; [exact D|].
  rewrite (total_pull n rcov r2r4 r0ab smp rs6 s8 cn_thr rthr nCN nEG pos lt vv vl HP HL0 HL1 HL2 IL GEN WS SY T6 (proj2 T1) OUT s Sd Sf).
  unfold work, contract.
  set (gl := grad_loop n rcov cn_thr rthr nEG (pos 0) (lt 0) s).
  transitivity (sum3 n nEG (fun i j m => rsum (map (fun a => gterm rcov cn_thr rthr nEG (pos 0) (lt 0) s i j m a 0 * comp (v a) 0
      + gterm rcov cn_thr rthr nEG (pos 0) (lt 0) s i j m a 1 * comp (v a) 1
      + gterm rcov cn_thr rthr nEG (pos 0) (lt 0) s i j m a 2 * comp (v a) 2) (zrange 0 (n - 1))))
    + sum3 n nEG (fun i j m => rsum (map (fun r => rsum (map (fun c => sterm rcov cn_thr rthr nEG (pos 0) (lt 0) s i j m r c * e r c) [0; 1; 2]%Z)) [0; 1; 2]%Z)) * -1).
  - rewrite <- sum3_mul_r, <- sum3_add. rewrite <- (Rmult_1_r (- _)), <- Ropp_mult_distr_l, Ropp_mult_distr_r, <- sum3_mul_r.
    apply sum3_ext. intros i j m Hj Hi Hm. unfold gterm, sterm.
    destruct (pull rcov cn_thr rthr (pos 0) (lt 0) s i j (count_image m nEG, m)) as [[f d]|] eqn:EP.
    2:{ rewrite (ksum_zero _ _ _ _ _ _ RTheory) by (intros; ring). cbn [map ksum]. ring. }
    assert (Ed : d = dv (pos 0) (lt 0) i j m).
    { unfold pull in EP. destruct (if (i =? j)%Z then _ else _); [discriminate|]. now injection EP as _ <-. }
    assert (Ev : dvel vv vl i j m = vadd (vsub (v j) (v i)) (mapply e d)).
    { subst d. unfold dvel, vv, vl, dv. destruct (lt 0) as [[[[l0 l1] l2] [[l3 l4] l5]] [[l6 l7] l8]].
      destruct (pos 0 i) as [[a b] c], (pos 0 j) as [[a' b'] c'], (v i) as [[x y] z], (v j) as [[x' y'] z'], m as [[mx my] mz].
      cbn. f_equal; [f_equal|]; ring. }
    rewrite Ev.
    transitivity (- dotv f (vsub (v j) (v i)) - dotv f (mapply e d)).
    { destruct f as [[fx fy] fz], (vsub (v j) (v i)) as [[x y] z], (mapply e d) as [[x' y'] z']. cbn. ring. }
    unfold Rminus at 1. f_equal.
    2:{ destruct f as [[fx fy] fz], d as [[dx dy] dz]. unfold mapply, dotv, comp. cbn [map ksum Z.eqb Pos.eqb]. ring. }
    destruct (Z.eqb_spec i j) as [->|N].
    + rewrite (ksum_zero _ _ _ _ _ _ RTheory) by (intros; ring). destruct (v j) as [[x y] z], f as [[fx fy] fz]. cbn. ring.
    + rewrite (ksum_ext _ _ _ (fun a => (if (a =? i)%Z then dotv f (v a) else 0) + -1 * (if (a =? j)%Z then dotv f (v a) else 0))).
      2:{ intros a _. rewrite dotv_comp. destruct (a =? i)%Z, (a =? j)%Z; ring. }
      rewrite (ksum_add _ _ _ _ _ _ RTheory), (ksum_mul_l _ _ _ _ _ _ RTheory).
      rewrite (ksum_only _ _ _ _ _ _ RTheory _ (zrange 0 (n - 1)) i (NoDup_zrange _ _)); [|apply in_zrange; lia|].
      2:{ intros a _ Ha. destruct (Z.eqb_spec a i); [contradiction|reflexivity]. }
      rewrite (ksum_only _ _ _ _ _ _ RTheory _ (zrange 0 (n - 1)) j (NoDup_zrange _ _)); [|apply in_zrange; lia|].
      2:{ intros a _ Ha. destruct (Z.eqb_spec a j); [contradiction|reflexivity]. }
      rewrite !Z.eqb_refl. destruct (v i) as [[x y] z], (v j) as [[x' y'] z'], f as [[fx fy] fz]. cbn. ring.
  - unfold Rminus. f_equal.
    + rewrite <- sum3_swap. apply ksum_ext. intros a _.
      unfold gl. rewrite !(fun c => proj1 (grad_loop_sum n rcov cn_thr rthr nEG (pos 0) (lt 0) s NE a c)).
      rewrite <- !sum3_mul_r, <- !sum3_add. reflexivity.
    + rewrite <- sum3_swap. match goal with |- ?X * -1 = _ => replace (X * -1) with (- X) by ring end. f_equal.
      apply ksum_ext. intros r _. rewrite <- sum3_swap. apply ksum_ext. intros c _.
      unfold gl. rewrite (proj2 (grad_loop_sum n rcov cn_thr rthr nEG (pos 0) (lt 0) s NE r c)). rewrite sum3_mul_r. ring.
Qed.
End THM.
Print Assumptions C75_gradient.
