(** Lemmas on the model of the density. *)
From Coq Require Import ZArith Reals List Bool Lia Lra Permutation.
From Coquelicot Require Import Complex.
From Verif Require Import CBase Nloc NlocSpec NlocLem VnlOp VnlLem Dens DensSpec.
Import ListNotations.
Local Open Scope Z_scope.

Notation rs l := (ksum 0%R Rplus l).
Lemma Rth : ring_theory 0%R 1%R Rplus Rmult Rminus Ropp (@eq R).
Proof. exact RTheory. Qed.

(** A loop with a counter: every turn adds [g x] to the array and [len] to the
    counter. *)
Lemma loop_cnt (f : arr R * Z -> Z -> outcome (arr R * Z)) (g : Z -> Z -> R) (len N lo hi c0 : Z) :
  lo <= hi + 1 ->
  (forall x a, lo <= x <= hi -> sz a = N -> exists a',
     f (a, c0 + len * (x - lo)) x = Ok (a', c0 + len * (x - lo) + len) /\ sz a' = N /\
     forall i, at_ a' i = (at_ a i + g x i)%R) ->
  forall a, sz a = N -> exists a',
    ofold f (a, c0) (zrange lo hi) = Ok (a', c0 + len * (hi - lo + 1)) /\ sz a' = N /\
    forall i, at_ a' i = (at_ a i + rs (map (fun x => g x i) (zrange lo hi)))%R.
Proof.
  intros Hlo H.
  assert (G : forall n lo' a, lo <= lo' -> lo' + Z.of_nat n = hi + 1 -> sz a = N -> exists a',
    ofold f (a, c0 + len * (lo' - lo)) (zrange lo' hi) = Ok (a', c0 + len * (hi - lo + 1)) /\ sz a' = N /\
    forall i, at_ a' i = (at_ a i + rs (map (fun x => g x i) (zrange lo' hi)))%R).
  { induction n as [|n IH]; intros lo' a L1 L2 Ha.
    - exists a. unfold zrange. replace (Z.to_nat (hi - lo' + 1)) with O by lia. cbn [zseq ofold map ksum].
      split; [f_equal; f_equal; nia|]. split; [exact Ha|]. intros i. ring.
    - rewrite zrange_S by lia. destruct (H lo' a) as (a1 & E1 & S1 & V1); [lia|exact Ha|].
      destruct (IH (lo' + 1) a1) as (a2 & E2 & S2 & V2); [lia|lia|exact S1|].
      exists a2. cbn [ofold]. rewrite E1. cbn [obind].
      replace (c0 + len * (lo' - lo) + len) with (c0 + len * (lo' + 1 - lo)) by ring.
      rewrite E2. split; [reflexivity|]. split; [exact S2|]. intros i. rewrite V2, V1. cbn [map ksum]. ring. }
  intros a Ha. destruct (G (Z.to_nat (hi + 1 - lo)) lo a) as (a' & E & S & V); [lia|lia|exact Ha|].
  exists a'. rewrite Z.sub_diag, Z.mul_0_r, Z.add_0_r in E. auto.
Qed.

Lemma add_at_ok (a : arr R) i v : 0 <= i < sz a ->
  add_at a i v = Ok (Arr (sz a) (fun j => if j =? i then (at_ a i + v)%R else at_ a j)).
Proof. intros H. unfold add_at. rewrite rd_ok by exact H. cbn [obind]. now apply wr_ok. Qed.

(** Sum of a function over a range that hits one value. *)
Lemma rs_only lo hi j (h : Z -> R) : lo <= j <= hi ->
  rs (map (fun x => if j =? x then h x else 0%R) (zrange lo hi)) = h j.
Proof.
  intros H. assert (G : forall n lo, lo + Z.of_nat n = hi + 1 -> 
    rs (map (fun x => if j =? x then h x else 0%R) (zrange lo hi)) = if (lo <=? j) && (j <=? hi) then h j else 0%R).
  { induction n as [|n IH]; intros l L.
    - unfold zrange. replace (Z.to_nat (hi - l + 1)) with O by lia. cbn.
      destruct (Z.leb_spec l j), (Z.leb_spec j hi); cbn; try reflexivity; lia.
    - rewrite zrange_S by lia. cbn [map ksum]. rewrite IH by lia.
      destruct (Z.eqb_spec j l) as [->|NE].
      + rewrite Z.leb_refl. destruct (Z.leb_spec l hi); [|lia]. destruct (Z.leb_spec (l + 1) l); [lia|]. cbn. ring.
      + destruct (Z.leb_spec l j), (Z.leb_spec (l + 1) j); try lia; cbn; ring. }
  rewrite (G (Z.to_nat (hi + 1 - lo))) by lia.
  destruct (Z.leb_spec lo j), (Z.leb_spec j hi); try lia; reflexivity.
Qed.

Lemma rs_none lo hi j (h : Z -> R) : ~ (lo <= j <= hi) ->
  rs (map (fun x => if j =? x then h x else 0%R) (zrange lo hi)) = 0%R.
Proof.
  intros H. apply (ksum_zero 0%R 1%R Rplus Rmult Rminus Ropp Rth). intros x Hx. apply in_zrange in Hx.
  destruct (Z.eqb_spec j x); [lia|reflexivity].
Qed.

Section LOC.
Variables (gamma : bool) (spin_typ : Z) (occfac Nkpts : R) (Ns Nspinor DMnd : Z).
Hypothesis HD : 0 <= DMnd.

Lemma rho_nodes_ok X g base c0 N : 0 <= base -> base + DMnd <= N -> 0 <= c0 -> c0 + DMnd <= sz X ->
  forall a, sz a = N -> exists a',
    rho_nodes gamma DMnd X g base (a, c0) = Ok (a', c0 + DMnd) /\ sz a' = N /\
    forall j, at_ a' j = (at_ a j + if ((base <=? j) && (j <? base + DMnd))%Z%bool then g * sq_abs gamma (at_ X (c0 + (j - base))%Z) else 0)%R.
Proof.
  intros Hb HN Hc HX a Ha.
  destruct (loop_cnt (fun st i =>
    do x <- rd X (snd st) ;
    do a <- add_at (fst st) (i + base) (g * sq_abs gamma x) ;
    Ok (a, (snd st + 1)%Z)) (fun x j => if j - base =? x then (g * sq_abs gamma (at_ X (c0 + x)))%R else 0%R) 1 N 0 (DMnd - 1) c0)
    with (a := a) as (a' & E & S & V).
  - lia.
  - intros x b Hx Hs. cbn [fst snd]. rewrite rd_ok by lia. cbn [obind].
    rewrite add_at_ok by lia. cbn [obind]. eexists. split; [reflexivity|]. split; [exact Hs|].
    intros j. cbn [at_]. replace (c0 + 1 * (x - 0)) with (c0 + x) by lia.
    destruct (Z.eqb_spec j (x + base)) as [->|NE].
    + replace (x + base - base =? x) with true by (symmetry; apply Z.eqb_eq; lia). reflexivity.
    + destruct (Z.eqb_spec (j - base) x); [lia|]. ring.
  - exact Ha.
  - exists a'. unfold rho_nodes. rewrite E. split; [f_equal; f_equal; lia|]. split; [exact S|].
    intros j. rewrite V. f_equal.
    destruct (Z.leb_spec base j), (Z.ltb_spec j (base + DMnd)); cbn [andb].
    + rewrite (rs_only 0 (DMnd - 1) (j - base) (fun x => (g * sq_abs gamma (at_ X (c0 + x)))%R)) by lia. reflexivity.
    + rewrite (rs_none 0 (DMnd - 1) (j - base) (fun x => (g * sq_abs gamma (at_ X (c0 + x)))%R)) by lia. reflexivity.
    + rewrite (rs_none 0 (DMnd - 1) (j - base) (fun x => (g * sq_abs gamma (at_ X (c0 + x)))%R)) by lia. reflexivity.
    + rewrite (rs_none 0 (DMnd - 1) (j - base) (fun x => (g * sq_abs gamma (at_ X (c0 + x)))%R)) by lia. reflexivity.
Qed.

(** Sizes of the arrays of a process. *)
Record sizes_ok (pr : dproc) : Prop := {
  so_nk : 0 <= q_nk pr; so_b : q_ns pr <= q_ne pr + 1; so_sp : 0 <= q_nsp pr;
  so_sp0 : 0 <= q_sp0 pr; so_spn : q_sp0 pr + q_nsp pr <= Nspinor;
  so_wts : q_nk pr <= sz (q_wts pr);
  so_ns : 0 <= q_ns pr; so_ne : q_ne pr < Ns;
  so_occ : (if spin_typ =? 1 then q_nsp pr else 1) * (Ns * q_nk pr) <= sz (q_occ pr);
  so_X : q_nk pr * (q_ne pr - q_ns pr + 1) * q_nsp pr * DMnd <= sz (q_X pr) }.

(** Position of an orbital value, and index of an occupation. *)
Definition x_pos (pr : dproc) (k n sp i : Z) : Z :=
  ((k * (q_ne pr - q_ns pr + 1) + (n - q_ns pr)) * q_nsp pr + sp) * DMnd + i.
Definition occ_pos (pr : dproc) (k n sp : Z) : Z :=
  k * Ns + (if spin_typ =? 1 then sp * Ns * q_nk pr else 0) + n.
Definition w_of (pr : dproc) (k n sp : Z) : R :=
  (occfac * (at_ (q_wts pr) k / Nkpts) * at_ (q_occ pr) (occ_pos pr k n sp))%R.

Lemma occ_pos_ok pr k n sp : sizes_ok pr -> 0 <= k < q_nk pr -> q_ns pr <= n <= q_ne pr -> 0 <= sp < q_nsp pr ->
  0 <= occ_pos pr k n sp < sz (q_occ pr).
Proof.
  intros [H1 H2 H3 H4 H5 H6 H7 H8 H9 H10] Hk Hn Hs. unfold occ_pos.
  destruct (spin_typ =? 1).
  - assert (0 <= Ns * q_nk pr) by nia. split; [nia|].
    assert (k * Ns + n < Ns * q_nk pr) by nia. nia.
  - nia.
Qed.

Lemma rho_band_ok pr k n c0 : sizes_ok pr -> 0 <= k < q_nk pr -> q_ns pr <= n <= q_ne pr ->
  c0 = x_pos pr k n 0 0 -> forall a, sz a = Nspinor * DMnd -> exists a',
  rho_band gamma spin_typ occfac Nkpts Ns DMnd pr k n (a, c0) = Ok (a', c0 + q_nsp pr * DMnd) /\ sz a' = Nspinor * DMnd /\
  forall j, at_ a' j = (at_ a j + rs (map (fun sp =>
     if ((sp + q_sp0 pr) * DMnd <=? j) && (j <? (sp + q_sp0 pr) * DMnd + DMnd) then
       w_of pr k n sp * sq_abs gamma (at_ (q_X pr) (x_pos pr k n sp (j - (sp + q_sp0 pr) * DMnd))) else 0%R)
     (zrange 0 (q_nsp pr - 1))))%R.
Proof.
  intros HS Hk Hn Hc a Ha. pose proof HS as [H1 H2 H3 H4 H5 H6 H7 H8 H9 H10].
  unfold rho_band. rewrite rd_ok by lia. cbn [obind].
  edestruct (loop_cnt (fun st sp =>
    do o <- rd (q_occ pr) (k * Ns + (if spin_typ =? 1 then sp * Ns * q_nk pr else 0) + n) ;
    rho_nodes gamma DMnd (q_X pr) (occfac * (at_ (q_wts pr) k / Nkpts) * o) ((sp + q_sp0 pr) * DMnd) st)
    (fun sp j => if ((sp + q_sp0 pr) * DMnd <=? j) && (j <? (sp + q_sp0 pr) * DMnd + DMnd) then
       (w_of pr k n sp * sq_abs gamma (at_ (q_X pr) (x_pos pr k n sp (j - (sp + q_sp0 pr) * DMnd))))%R else 0%R)
    DMnd (Nspinor * DMnd) 0 (q_nsp pr - 1) c0) with (a := a) as (a' & E & S & V).
  - lia.
  - intros sp b Hsp Hb. pose proof (occ_pos_ok pr k n sp HS Hk Hn ltac:(lia)) as OP. unfold occ_pos in OP.
    rewrite rd_ok by exact OP. cbn [obind].
    edestruct (rho_nodes_ok (q_X pr) (w_of pr k n sp) ((sp + q_sp0 pr) * DMnd) (c0 + DMnd * (sp - 0)) (Nspinor * DMnd))
      with (a := b) as (b' & E & S & V).
    + nia.
    + nia.
    + subst c0. unfold x_pos. assert (0 <= k * (q_ne pr - q_ns pr + 1) + (n - q_ns pr)) by nia. nia.
    + subst c0. unfold x_pos.
      assert (K1 : k * (q_ne pr - q_ns pr + 1) + (n - q_ns pr) + 1 <= q_nk pr * (q_ne pr - q_ns pr + 1)) by nia.
      set (u := k * (q_ne pr - q_ns pr + 1) + (n - q_ns pr)) in *.
      assert (K2 : u * q_nsp pr + sp + 1 <= q_nk pr * (q_ne pr - q_ns pr + 1) * q_nsp pr) by nia.
      set (v := u * q_nsp pr) in *.
      assert ((v + sp + 1) * DMnd <= q_nk pr * (q_ne pr - q_ns pr + 1) * q_nsp pr * DMnd) by (apply Z.mul_le_mono_nonneg_r; lia).
      nia.
    + exact Hb.
    + exists b'. split; [exact E|]. split; [exact S|]. intros j. rewrite V. f_equal.
      destruct (((sp + q_sp0 pr) * DMnd <=? j) && (j <? (sp + q_sp0 pr) * DMnd + DMnd)); [|reflexivity].
      f_equal. f_equal. f_equal. subst c0. unfold x_pos. ring.
  - exact Ha.
  - exists a'. rewrite E. split; [f_equal; f_equal; ring|]. split; [exact S|]. exact V.
Qed.

Lemma local_rho_ok pr : sizes_ok pr -> exists a, local_rho gamma spin_typ occfac Nkpts Ns Nspinor DMnd pr = Ok a /\
  sz a = Nspinor * DMnd /\
  forall j, at_ a j = rs (map (fun k => rs (map (fun n => rs (map (fun sp =>
     if ((sp + q_sp0 pr) * DMnd <=? j) && (j <? (sp + q_sp0 pr) * DMnd + DMnd) then
       w_of pr k n sp * sq_abs gamma (at_ (q_X pr) (x_pos pr k n sp (j - (sp + q_sp0 pr) * DMnd))) else 0%R)
     (zrange 0 (q_nsp pr - 1)))) (zrange (q_ns pr) (q_ne pr)))) (zrange 0 (q_nk pr - 1)))%R.
Proof.
  intros HS. pose proof HS as [H1 H2 H3 H4 H5 H6 H7 H8 H9 H10]. unfold local_rho.
  set (nb := q_ne pr - q_ns pr + 1).
  set (G := fun k n j => rs (map (fun sp =>
     if ((sp + q_sp0 pr) * DMnd <=? j) && (j <? (sp + q_sp0 pr) * DMnd + DMnd) then
       (w_of pr k n sp * sq_abs gamma (at_ (q_X pr) (x_pos pr k n sp (j - (sp + q_sp0 pr) * DMnd))))%R else 0%R)
     (zrange 0 (q_nsp pr - 1)))).
  destruct (loop_cnt (fun st k => ofold (fun st n => rho_band gamma spin_typ occfac Nkpts Ns DMnd pr k n st) st
      (zrange (q_ns pr) (q_ne pr))) (fun k j => rs (map (fun n => G k n j) (zrange (q_ns pr) (q_ne pr))))
    (nb * (q_nsp pr * DMnd)) (Nspinor * DMnd) 0 (q_nk pr - 1) 0) with (a := Arr (Nspinor * DMnd) (fun _ : Z => 0%R))
    as (a' & E & S & V).
  - lia.
  - intros k a Hk Ha.
    destruct (loop_cnt (fun st n => rho_band gamma spin_typ occfac Nkpts Ns DMnd pr k n st) (G k) (q_nsp pr * DMnd)
      (Nspinor * DMnd) (q_ns pr) (q_ne pr) (0 + nb * (q_nsp pr * DMnd) * (k - 0))) with (a := a) as (b & E & S & V).
    + lia.
    + intros n c Hn Hc. apply rho_band_ok; [exact HS|lia|lia| |exact Hc]. unfold x_pos. subst nb. ring.
    + exact Ha.
    + exists b. split; [|auto]. rewrite E. f_equal. f_equal. subst nb. ring.
  - reflexivity.
  - exists a'. rewrite E. cbn [obind fst]. split; [reflexivity|]. split; [exact S|]. intros j. rewrite V.
    cbn [at_]. unfold G. ring.
Qed.
End LOC.

(** The three sums. *)
Lemma allsum_ok np (f : Z -> outcome (arr R)) (g : Z -> arr R) N : 1 <= np ->
  (forall s, 0 <= s < np -> f s = Ok (g s) /\ sz (g s) = N) ->
  exists a, allsum np f = Ok a /\ sz a = N /\ forall i, at_ a i = rs (map (fun s => at_ (g s) i) (zrange 0 (np - 1))).
Proof.
  intros Hnp H. unfold allsum. rewrite (omap_val f g).
  - cbn [obind]. eexists. split; [reflexivity|]. split.
    + cbn [sz]. rewrite zrange_S by lia. cbn [map]. apply H. lia.
    + intros i. cbn [at_]. now rewrite map_map.
  - intros s Hs. apply in_zrange in Hs. apply H. lia.
Qed.

Lemma one_group np (h : Z -> R) : np = 1 -> rs (map h (zrange 0 (np - 1))) = h 0.
Proof. intros ->. change (h 0%Z + 0 = h 0%Z)%R. ring. Qed.

Lemma reduce3_ok ps pk pb (loc : Z -> Z -> Z -> outcome (arr R)) N :
  1 <= ps -> 1 <= pk -> 1 <= pb ->
  (forall s k b, 0 <= s < ps -> 0 <= k < pk -> 0 <= b < pb -> exists a, loc s k b = Ok a /\ sz a = N) ->
  forall s k b, 0 <= s < ps -> 0 <= k < pk -> 0 <= b < pb ->
  exists a, reduce3 ps pk pb loc s k b = Ok a /\ sz a = N /\
    forall i, at_ a i = rs (map (fun b => rs (map (fun k => rs (map (fun s =>
      match loc s k b with Ok a => at_ a i | _ => 0%R end) (zrange 0 (ps - 1)))) (zrange 0 (pk - 1)))) (zrange 0 (pb - 1))).
Proof.
  intros P1 P2 P3 H.
  set (g := fun s k b => match loc s k b with Ok a => a | _ => Arr N (fun _ => 0%R) end).
  assert (Hg : forall s k b, 0 <= s < ps -> 0 <= k < pk -> 0 <= b < pb -> loc s k b = Ok (g s k b) /\ sz (g s k b) = N).
  { intros s k b A B C0. destruct (H s k b A B C0) as (a & E & S). unfold g. rewrite E. auto. }
  set (r1 := fun s k b => if 1 <? ps then allsum ps (fun s' => loc s' k b) else loc s k b).
  assert (H1 : forall s k b, 0 <= s < ps -> 0 <= k < pk -> 0 <= b < pb -> exists a, r1 s k b = Ok a /\ sz a = N /\
    forall i, at_ a i = rs (map (fun s => at_ (g s k b) i) (zrange 0 (ps - 1)))).
  { intros s k b A B C0. unfold r1. destruct (Z.ltb_spec 1 ps).
    - apply allsum_ok; [lia|]. intros s' Hs'. now apply Hg.
    - destruct (Hg s k b A B C0) as [E S]. exists (g s k b). split; [exact E|]. split; [exact S|].
      intros i. rewrite one_group by lia. replace s with 0 by lia. reflexivity. }
  set (g1 := fun s k b => match r1 s k b with Ok a => a | _ => Arr N (fun _ => 0%R) end).
  assert (Hg1 : forall s k b, 0 <= s < ps -> 0 <= k < pk -> 0 <= b < pb -> r1 s k b = Ok (g1 s k b) /\ sz (g1 s k b) = N /\
    forall i, at_ (g1 s k b) i = rs (map (fun s => at_ (g s k b) i) (zrange 0 (ps - 1)))).
  { intros s k b A B C0. destruct (H1 s k b A B C0) as (a & E & S). unfold g1. rewrite E. auto. }
  set (r2 := fun s k b => if 1 <? pk then allsum pk (fun k' => r1 s k' b) else r1 s k b).
  assert (H2 : forall s k b, 0 <= s < ps -> 0 <= k < pk -> 0 <= b < pb -> exists a, r2 s k b = Ok a /\ sz a = N /\
    forall i, at_ a i = rs (map (fun k => rs (map (fun s => at_ (g s k b) i) (zrange 0 (ps - 1)))) (zrange 0 (pk - 1)))).
  { intros s k b A B C0. unfold r2. destruct (Z.ltb_spec 1 pk).
    - destruct (allsum_ok pk (fun k' => r1 s k' b) (fun k' => g1 s k' b) N) as (a & E & S & V); [lia| |].
      + intros k' Hk'. destruct (Hg1 s k' b A Hk' C0) as (E & S & _). auto.
      + exists a. split; [exact E|]. split; [exact S|]. intros i. rewrite V. apply ksum_ext.
        intros k' Hk'. apply in_zrange in Hk'. apply Hg1; lia.
    - destruct (Hg1 s k b A B C0) as (E & S & V). exists (g1 s k b). split; [exact E|]. split; [exact S|].
      intros i. rewrite one_group by lia. rewrite V. replace k with 0 by lia. reflexivity. }
  set (g2 := fun s k b => match r2 s k b with Ok a => a | _ => Arr N (fun _ => 0%R) end).
  assert (Hg2 : forall s k b, 0 <= s < ps -> 0 <= k < pk -> 0 <= b < pb -> r2 s k b = Ok (g2 s k b) /\ sz (g2 s k b) = N /\
    forall i, at_ (g2 s k b) i = rs (map (fun k => rs (map (fun s => at_ (g s k b) i) (zrange 0 (ps - 1)))) (zrange 0 (pk - 1)))).
  { intros s k b A B C0. destruct (H2 s k b A B C0) as (a & E & S). unfold g2. rewrite E. auto. }
  intros s k b A B C0. unfold reduce3. fold r1. change (fun s k b : Z => if 1 <? pk then allsum pk (fun k' => r1 s k' b) else r1 s k b) with r2.
  destruct (Z.eqb_spec pb 0); [lia|].
  destruct (allsum_ok pb (fun b' => r2 s k b') (fun b' => g2 s k b') N) as (a & E & S & V); [lia| |].
  - intros b' Hb'. destruct (Hg2 s k b' A B Hb') as (E & S & _). auto.
  - exists a. split; [exact E|]. split; [exact S|]. intros i. rewrite V. apply ksum_ext.
    intros b' Hb'. apply in_zrange in Hb'.
    assert (A0 : 0 <= b' < pb) by lia.
    destruct (Hg2 s k b' A B A0) as (_ & _ & V2). rewrite V2. apply ksum_ext. intros k' Hk'.
    apply in_zrange in Hk'. apply ksum_ext. intros s' Hs'. apply in_zrange in Hs'.
    assert (A1 : 0 <= s' < ps) by lia. assert (A2 : 0 <= k' < pk) by lia. assert (A3 : 0 <= b' < pb) by lia.
    destruct (Hg s' k' b' A1 A2 A3) as [E3 _]. rewrite E3. reflexivity.
Qed.

(** ** Magnetisation *)
Section MAG.
Variables (spin_typ : Z) (occfac Nkpts : R) (Ns Nspinor DMnd : Z).
Hypothesis HD : 0 <= DMnd.
Hypothesis ST : (spin_typ =? 1) = false.

Definition odd_at (pr : dproc) (k n i : Z) : C :=
  Cmult (at_ (q_X pr) (x_pos DMnd pr k n 0 i)) (Cconj (at_ (q_X pr) (x_pos DMnd pr k n 1 i))).
Definition mag_at (pr : dproc) (k n j : Z) : R :=
  if (0 <=? j) && (j <? DMnd) then
    (2 * w_of spin_typ occfac Nkpts Ns pr k n 0 * fst (odd_at pr k n j))%R
  else if (DMnd <=? j) && (j <? 2 * DMnd) then
    (- (2 * w_of spin_typ occfac Nkpts Ns pr k n 0 * snd (odd_at pr k n (j - DMnd))))%R
  else 0%R.

Lemma mag_band_ok pr k n c0 : sizes_ok spin_typ Ns Nspinor DMnd pr -> q_nsp pr = 2 ->
  0 <= k < q_nk pr -> q_ns pr <= n <= q_ne pr ->
  c0 = x_pos DMnd pr k n 0 0 -> forall a, sz a = 2 * DMnd -> exists a',
  mag_band occfac Nkpts Ns DMnd pr k n (a, c0) = Ok (a', c0 + 2 * DMnd) /\ sz a' = 2 * DMnd /\
  forall j, at_ a' j = (at_ a j + mag_at pr k n j)%R.
Proof.
  intros HS H2 Hk Hn Hc a Ha. pose proof HS as [H1 H2' H3 H4 H5 H6 H7 H8 H9 H10].
  unfold mag_band. rewrite rd_ok by lia. cbn [obind].
  pose proof (occ_pos_ok spin_typ Ns Nspinor DMnd pr k n 0 HS Hk Hn ltac:(lia)) as OP.
  assert (OE : occ_pos spin_typ Ns pr k n 0 = n + k * Ns) by (unfold occ_pos; rewrite ST; ring).
  rewrite OE in OP. rewrite rd_ok by exact OP. cbn [obind].
  set (g := (occfac * (at_ (q_wts pr) k / Nkpts) * at_ (q_occ pr) (n + k * Ns))%R).
  assert (Hg : g = w_of spin_typ occfac Nkpts Ns pr k n 0) by (unfold w_of; now rewrite OE).
  assert (K0 : 0 <= k * (q_ne pr - q_ns pr + 1) + (n - q_ns pr)) by nia.
  assert (K1 : k * (q_ne pr - q_ns pr + 1) + (n - q_ns pr) + 1 <= q_nk pr * (q_ne pr - q_ns pr + 1)) by nia.
  assert (C0 : 0 <= c0 /\ c0 + 2 * DMnd <= sz (q_X pr)).
  { subst c0. unfold x_pos. rewrite H2 in *.
    set (u := k * (q_ne pr - q_ns pr + 1) + (n - q_ns pr)) in *. split; [nia|].
    assert ((u + 1) * (2 * DMnd) <= q_nk pr * (q_ne pr - q_ns pr + 1) * (2 * DMnd)) by (apply Z.mul_le_mono_nonneg_r; lia).
    nia. }
  cbv zeta.
  set (od := fun i => Cmult (at_ (q_X pr) (c0 + i)) (Cconj (at_ (q_X pr) (c0 + i + DMnd)))).
  destruct (loop_cnt (fun st i =>
      do x <- rd (q_X pr) (snd st) ;
      do y <- rd (q_X pr) (snd st + DMnd) ;
      do a <- add_at (fst st) i (2 * g * fst (Cmult x (Cconj y)))%R ;
      do b <- add_at a (i + DMnd) (- (2 * g * snd (Cmult x (Cconj y))))%R ;
      Ok (b, snd st + 1))
    (fun x j => ((if j =? x then 2 * g * fst (od x) else 0) + (if j - DMnd =? x then - (2 * g * snd (od x)) else 0))%R)
    1 (2 * DMnd) 0 (DMnd - 1) c0) with (a := a) as (a' & E & S & V).
  - lia.
  - intros x b Hx Hb. cbn [fst snd]. rewrite rd_ok by lia. cbn [obind]. rewrite rd_ok by lia. cbn [obind]. cbv zeta.
    rewrite add_at_ok by lia. cbn [obind]. rewrite add_at_ok by (cbn [sz]; lia). cbn [obind sz].
    eexists. split; [reflexivity|]. split; [exact Hb|]. intros j. cbn [at_].
    replace (c0 + 1 * (x - 0)) with (c0 + x) by lia. fold (od x).
    destruct (Z.eqb_spec j (x + DMnd)) as [->|N1].
    + destruct (Z.eqb_spec (x + DMnd) x) as [E0|N2].
      * lia.
      * destruct (Z.eqb_spec (x + DMnd - DMnd) x); [|lia]. ring.
    + destruct (Z.eqb_spec (j - DMnd) x); [lia|]. destruct (Z.eqb_spec j x) as [->|N2]; ring.
  - exact Ha.
  - exists a'. rewrite E. cbn [obind fst snd]. split; [f_equal; f_equal; lia|]. split; [exact S|].
    intros j. rewrite V. f_equal. rewrite (ksum_add _ _ _ _ _ _ Rth). unfold mag_at. rewrite <- Hg.
    assert (OD : forall i, od i = odd_at pr k n i).
    { intros i. unfold od, odd_at. subst c0. unfold x_pos. rewrite H2. f_equal; [f_equal; ring|].
      f_equal. f_equal. ring. }
    destruct (Z.leb_spec 0 j), (Z.ltb_spec j DMnd); cbn [andb].
    + rewrite (rs_only 0 (DMnd - 1) j (fun x => (2 * g * fst (od x))%R)) by lia.
      rewrite (rs_none 0 (DMnd - 1) (j - DMnd) (fun x => (- (2 * g * snd (od x)))%R)) by lia. rewrite OD. ring.
    + rewrite (rs_none 0 (DMnd - 1) j (fun x => (2 * g * fst (od x))%R)) by lia.
      destruct (Z.leb_spec DMnd j), (Z.ltb_spec j (2 * DMnd)); cbn [andb]; try lia.
      * rewrite (rs_only 0 (DMnd - 1) (j - DMnd) (fun x => (- (2 * g * snd (od x)))%R)) by lia. rewrite OD. ring.
      * rewrite (rs_none 0 (DMnd - 1) (j - DMnd) (fun x => (- (2 * g * snd (od x)))%R)) by lia. ring.
    + rewrite (rs_none 0 (DMnd - 1) j (fun x => (2 * g * fst (od x))%R)) by lia.
      rewrite (rs_none 0 (DMnd - 1) (j - DMnd) (fun x => (- (2 * g * snd (od x)))%R)) by lia.
      destruct (Z.leb_spec DMnd j), (Z.ltb_spec j (2 * DMnd)); cbn [andb]; try lia; ring.
    + lia.
Qed.

Lemma local_mag_ok pr : sizes_ok spin_typ Ns Nspinor DMnd pr -> q_nsp pr = 2 ->
  exists a, local_mag occfac Nkpts Ns DMnd pr = Ok a /\ sz a = 2 * DMnd /\
  forall j, at_ a j = rs (map (fun k => rs (map (fun n => mag_at pr k n j) (zrange (q_ns pr) (q_ne pr)))) (zrange 0 (q_nk pr - 1))).
Proof.
  intros HS Hs2. pose proof HS as [H1 H2 H3 H4 H5 H6 H7 H8 H9 H10]. unfold local_mag.
  set (nb := q_ne pr - q_ns pr + 1).
  destruct (loop_cnt (fun st k => ofold (fun st n => mag_band occfac Nkpts Ns DMnd pr k n st) st
      (zrange (q_ns pr) (q_ne pr))) (fun k j => rs (map (fun n => mag_at pr k n j) (zrange (q_ns pr) (q_ne pr))))
    (nb * (2 * DMnd)) (2 * DMnd) 0 (q_nk pr - 1) 0) with (a := Arr (2 * DMnd) (fun _ : Z => 0%R))
    as (a' & E & S & V).
  - lia.
  - intros k a Hk Ha.
    destruct (loop_cnt (fun st n => mag_band occfac Nkpts Ns DMnd pr k n st) (mag_at pr k) (2 * DMnd)
      (2 * DMnd) (q_ns pr) (q_ne pr) (0 + nb * (2 * DMnd) * (k - 0))) with (a := a) as (b & E & S & V).
    + lia.
    + intros n c Hn Hc. apply mag_band_ok; [exact HS|exact Hs2|lia|lia| |exact Hc]. unfold x_pos. rewrite Hs2. subst nb. ring.
    + exact Ha.
    + exists b. split; [|auto]. rewrite E. f_equal. f_equal. subst nb. ring.
  - reflexivity.
  - exists a'. rewrite E. cbn [obind fst]. split; [reflexivity|]. split; [exact S|]. intros j. rewrite V.
    cbn [at_]. ring.
Qed.
End MAG.
