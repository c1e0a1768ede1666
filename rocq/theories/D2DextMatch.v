(** Matching of repeated neighbours in the halo exchange: the q-th message a
    process sends to a given neighbour is the one meant for the q-th receive slot. *)
From Coq Require Import ZArith List Lia Bool Sorting.Sorted.
From Coq Require Import ZifyBool ZifyNat.
From Verif Require Import CBase BlockDecomp WorkSplit Mem D2D Ring D2Dext D2DextLem.
Import ListNotations.
Local Open Scope Z_scope.

(** ** Sorted lists with the same elements are equal *)
Lemma sorted_ext {B} (R : B -> B -> Prop) :
  (forall x, ~ R x x) -> (forall x y z, R x y -> R y z -> R x z) ->
  forall l1 l2, StronglySorted R l1 -> StronglySorted R l2 ->
  (forall x, In x l1 <-> In x l2) -> l1 = l2.
Proof.
  intros Irr Tr. induction l1 as [|a l1 IH]; intros l2 S1 S2 E.
  - destruct l2 as [|b l2]; [reflexivity|]. exfalso. apply (E b). now left.
  - destruct l2 as [|b l2]; [exfalso; apply (E a); now left|].
    apply StronglySorted_inv in S1. apply StronglySorted_inv in S2.
    destruct S1 as [S1 F1]. destruct S2 as [S2 F2]. rewrite Forall_forall in F1, F2.
    assert (a = b).
    { destruct (proj1 (E a) (or_introl eq_refl)) as [|Ia]; [now symmetry|].
      destruct (proj2 (E b) (or_introl eq_refl)) as [|Ib]; [assumption|].
      exfalso. apply (Irr a). apply (Tr a b a); auto. }
    subst b. f_equal. apply IH; auto. intros x. split; intros Hx.
    + destruct (proj1 (E x) (or_intror Hx)) as [->|]; [|assumption].
      exfalso. apply (Irr x). auto.
    + destruct (proj2 (E x) (or_intror Hx)) as [->|]; [|assumption].
      exfalso. apply (Irr x). auto.
Qed.
Lemma sorted_filter {B} (R : B -> B -> Prop) (f : B -> bool) l :
  StronglySorted R l -> StronglySorted R (filter f l).
Proof.
  induction 1 as [|a l S IH F]; cbn [filter]; [constructor|].
  destruct (f a); [|assumption]. constructor; [assumption|].
  rewrite Forall_forall in *. intros x Hx. apply filter_In in Hx. now apply F.
Qed.
Lemma sorted_app {B} (R : B -> B -> Prop) l1 : forall l2,
  StronglySorted R l1 -> StronglySorted R l2 ->
  (forall x y, In x l1 -> In y l2 -> R x y) -> StronglySorted R (l1 ++ l2).
Proof.
  induction l1 as [|a l1 IH]; intros l2 S1 S2 H; cbn [app]; [assumption|].
  apply StronglySorted_inv in S1. destruct S1 as [S1 F]. constructor.
  - apply IH; auto. intros. apply H; [now right|assumption].
  - rewrite Forall_forall in *. intros x Hx. apply in_app_iff in Hx.
    destruct Hx; [now apply F|]. apply H; [now left|assumption].
Qed.
Lemma sorted_flat_map {B C} (R : B -> B -> Prop) (Q : C -> C -> Prop) (f : C -> list B) l :
  StronglySorted Q l -> (forall c, StronglySorted R (f c)) ->
  (forall c d x y, Q c d -> In x (f c) -> In y (f d) -> R x y) ->
  StronglySorted R (flat_map f l).
Proof.
  intros S Hf H. induction S as [|a l S IH F]; cbn [flat_map]; [constructor|].
  apply sorted_app; auto. intros x y Hx Hy. apply in_flat_map in Hy.
  destruct Hy as (d & Hd & Hy). rewrite Forall_forall in F. eapply H; eauto.
Qed.
Lemma sorted_zseq a n : StronglySorted Z.lt (zseq a n).
Proof.
  revert a. induction n; intros a; cbn [zseq]; constructor; auto.
  rewrite Forall_forall. intros x Hx. apply in_zseq in Hx. lia.
Qed.

(** ** The offset lists *)
Definition lt3 (a b : v3) : Prop :=
  at3 a 2 < at3 b 2 \/ at3 a 2 = at3 b 2 /\
    (at3 a 1 < at3 b 1 \/ at3 a 1 = at3 b 1 /\ at3 a 0 < at3 b 0).
Lemma lt3_irr a : ~ lt3 a a.
Proof. unfold lt3. lia. Qed.
Lemma lt3_trans a b c : lt3 a b -> lt3 b c -> lt3 a c.
Proof. unfold lt3. lia. Qed.

Lemma in_offs a b x : 0 <= a -> 0 <= b -> (In x (offs a b) <-> - a <= x <= b).
Proof. intros. unfold offs. rewrite in_zseq. lia. Qed.
Lemma in_offsets lx rx ly ry lz rz o : 0 <= lx -> 0 <= rx -> 0 <= ly -> 0 <= ry -> 0 <= lz -> 0 <= rz ->
  (In o (offsets lx rx ly ry lz rz) <->
   - lx <= at3 o 0 <= rx /\ - ly <= at3 o 1 <= ry /\ - lz <= at3 o 2 <= rz).
Proof.
  intros. unfold offsets. rewrite in_flat_map. split.
  - intros (k & Hk & Hj). apply in_flat_map in Hj. destruct Hj as (j & Hj & Hi).
    apply in_map_iff in Hi. destruct Hi as (i & <- & Hi). cbn [at3].
    rewrite in_offs in * by lia. lia.
  - destruct o as [[i j] k]. cbn [at3]. intros (Hi & Hj & Hk).
    exists k. rewrite in_offs by lia. split; [lia|]. apply in_flat_map.
    exists j. rewrite in_offs by lia. split; [lia|]. apply in_map_iff.
    exists i. rewrite in_offs by lia. split; [reflexivity|lia].
Qed.
Lemma sorted_offsets lx rx ly ry lz rz : StronglySorted lt3 (offsets lx rx ly ry lz rz).
Proof.
  unfold offsets. apply (sorted_flat_map lt3 Z.lt).
  - apply sorted_zseq.
  - intros k. apply (sorted_flat_map lt3 Z.lt).
    + apply sorted_zseq.
    + intros j. unfold offs. generalize (- lx) as a, (Z.to_nat (lx + rx + 1)) as m.
      intros a m. revert a. induction m; intros a; cbn [zseq map]; constructor; auto.
      rewrite Forall_forall. intros x Hx. apply in_map_iff in Hx. destruct Hx as (i & <- & Hi).
      apply in_zseq in Hi. unfold lt3. cbn [at3]. lia.
    + intros c d x y Q Hx Hy. apply in_map_iff in Hx, Hy.
      destruct Hx as (i & <- & _). destruct Hy as (i' & <- & _). unfold lt3; cbn [at3]. lia.
  - intros c d x y Q Hx Hy. apply in_flat_map in Hx, Hy.
    destruct Hx as (j & _ & Hx). destruct Hy as (j' & _ & Hy).
    apply in_map_iff in Hx, Hy.
    destruct Hx as (i & <- & _). destruct Hy as (i' & <- & _). unfold lt3; cbn [at3]. lia.
Qed.

Lemma neg_offs a b : map Z.opp (rev (offs a b)) = offs b a.
Proof.
  unfold offs. replace (b + a + 1) with (a + b + 1) by lia.
  destruct (Z_le_gt_dec (a + b + 1) 0) as [C|C].
  { replace (Z.to_nat (a + b + 1)) with 0%nat by lia. reflexivity. }
  assert (E : - b = - (- a + Z.of_nat (Z.to_nat (a + b + 1)) - 1)) by lia. rewrite E.
  generalize (- a) as x, (Z.to_nat (a + b + 1)) as m. clear. intros x m. revert x.
  induction m as [|m IH]; intros x; [reflexivity|].
  replace (S m) with (m + 1)%nat at 1 by lia. rewrite zseq_app, rev_app_distr.
  cbn [zseq rev app map]. f_equal; [lia|]. rewrite IH. f_equal. lia.
Qed.
Lemma map_flat_map {B C D} (f : C -> D) (g : B -> list C) l :
  map f (flat_map g l) = flat_map (fun x => map f (g x)) l.
Proof. induction l; cbn [flat_map map]; [reflexivity|]. now rewrite map_app, IHl. Qed.
Lemma flat_map_map' {B C D} (f : C -> list D) (g : B -> C) l :
  flat_map f (map g l) = flat_map (fun x => f (g x)) l.
Proof. induction l; cbn [flat_map map]; [reflexivity|]. now rewrite IHl. Qed.
Lemma neg_offsets_down lx rx ly ry lz rz :
  map neg3 (offsets_down lx rx ly ry lz rz) = offsets rx lx ry ly rz lz.
Proof.
  unfold offsets_down, offsets. rewrite map_flat_map, <- (neg_offs lz rz), flat_map_map'.
  apply flat_map_ext. intros k. rewrite map_flat_map, <- (neg_offs ly ry), flat_map_map'.
  apply flat_map_ext. intros j. rewrite map_map, <- (neg_offs lx rx), map_map.
  apply map_ext. intros i. reflexivity.
Qed.
Lemma neg3_inv o : neg3 (neg3 o) = o.
Proof. destruct o as [[i j] k]. unfold neg3. cbn [at3]. f_equal; [f_equal|]; lia. Qed.
Lemma is0_neg o : is0 (neg3 o) = is0 o.
Proof. destruct o as [[i j] k]. unfold is0, v3_eqb, neg3. cbn [at3]. lia. Qed.
Lemma map_filter_neg (f : v3 -> bool) l :
  map neg3 (filter f l) = filter (fun o => f (neg3 o)) (map neg3 l).
Proof.
  induction l as [|a l IH]; cbn [filter map]; [reflexivity|]. rewrite neg3_inv.
  destruct (f a); cbn [map]; now rewrite IH.
Qed.

(** ** Targets *)
Lemma tgt1_mod p c o : 1 <= p -> tgt1 p c o = (c + o) mod p.
Proof.
  intros Hp. unfold tgt1. pose proof (Z.quot_rem' (c + o + p) p) as Q.
  set (q := Z.quot (c + o + p) p) in *. clearbody q.
  replace (Z.rem (c + o + p) p) with (c + o + (1 - q) * p) by lia.
  now rewrite Z.mod_add by lia.
Qed.
Lemma at3_tgt p c o i : (i < 3)%nat -> at3 (tgt p c o) i = tgt1 (at3 p i) (at3 c i) (at3 o i).
Proof. intros H. destruct i as [|[|[|i]]]; [reflexivity..|lia]. Qed.
Lemma at3_neg o i : (i < 3)%nat -> at3 (neg3 o) i = - at3 o i.
Proof. intros H. destruct i as [|[|[|i]]]; [reflexivity..|lia]. Qed.

Section Match.
Variables (n p ext : v3).
Hypothesis Hd : dims_ok n p.
Hypothesis He : forall i, (i < 3)%nat -> 0 <= at3 ext i.

Lemma tgt_ok c o : coord_ok p (tgt p c o).
Proof.
  intros i Hi. rewrite at3_tgt by assumption. specialize (Hd i Hi).
  rewrite tgt1_mod by lia. apply Z.mod_pos_bound. lia.
Qed.
Lemma tgt_back c o : coord_ok p c -> tgt p (tgt p c o) (neg3 o) = c.
Proof.
  intros Hc. apply at3_ext. intros i Hi. rewrite at3_tgt, at3_tgt, at3_neg by assumption.
  specialize (Hd i Hi). specialize (Hc i Hi). rewrite !tgt1_mod by lia.
  rewrite Z.add_mod_idemp_l by lia. replace (at3 c i + at3 o i + - at3 o i) with (at3 c i) by lia.
  apply Z.mod_small. lia.
Qed.

Definition lay (c o : v3) : Prop :=
  forall i, (i < 3)%nat -> in_layer (at3 n i) (at3 p i) (at3 ext i) (at3 c i) (at3 o i).

(** What [set_target] computes. *)
Definition target_spec (recv : bool) (c : v3) (t : info3) : Prop :=
  forall i, (i < 3)%nat ->
    let d := iat t i in
    let N := at3 n i in let P := at3 p i in let C := at3 c i in let E := at3 ext i in
    dir_info recv N P C E = Ok d /\ 0 <= dl d /\ 0 <= dr d /\
    Z.of_nat (length (dcounts d)) = dl d + dr d + 1 /\
    (forall o, - dl d <= o <= dr d <-> in_layer N P E C o) /\
    (forall o, - dl d <= o <= dr d ->
       dcount d o = if recv then seg_hi N P E C o - seg_lo N P E C o
                    else out_hi N P E C o - out_lo N P E C o).
Lemma set_target_spec recv c : coord_ok p c ->
  exists t, set_target recv n p c ext = Ok t /\ target_spec recv c t.
Proof.
  intros Hc. unfold set_target.
  destruct (dir_info_spec _ _ (Hd 0%nat ltac:(lia)) recv _ _ (Hc 0%nat ltac:(lia)) (He 0%nat ltac:(lia)))
    as (x & Ex & Hx).
  destruct (dir_info_spec _ _ (Hd 1%nat ltac:(lia)) recv _ _ (Hc 1%nat ltac:(lia)) (He 1%nat ltac:(lia)))
    as (y & Ey & Hy).
  destruct (dir_info_spec _ _ (Hd 2%nat ltac:(lia)) recv _ _ (Hc 2%nat ltac:(lia)) (He 2%nat ltac:(lia)))
    as (z & Ez & Hz).
  rewrite Ex, Ey, Ez. cbn [obind]. eexists. split; [reflexivity|].
  intros i Hi. destruct i as [|[|[|i]]]; cbn [iat ix iy iz]; [auto..|lia].
Qed.

Definition offs_of (t : info3) : list v3 :=
  offsets (dl (ix t)) (dr (ix t)) (dl (iy t)) (dr (iy t)) (dl (iz t)) (dr (iz t)).
Lemma in_offs_of recv c t o : target_spec recv c t -> (In o (offs_of t) <-> lay c o).
Proof.
  intros Ht. unfold offs_of, lay.
  pose proof (Ht 0%nat ltac:(lia)) as (_ & X1 & X2 & _ & X3 & _).
  pose proof (Ht 1%nat ltac:(lia)) as (_ & Y1 & Y2 & _ & Y3 & _).
  pose proof (Ht 2%nat ltac:(lia)) as (_ & Z1 & Z2 & _ & Z3 & _).
  cbn [iat] in *. rewrite in_offsets by assumption. rewrite X3, Y3, Z3. split.
  - intros (A & B & C) i Hi. destruct i as [|[|[|i]]]; [assumption..|lia].
  - intros H. split; [|split]; apply H; lia.
Qed.
(** Sender and receiver views of the same process see the same layers. *)
Lemma same_layers c t t' : target_spec false c t -> target_spec true c t' ->
  forall i, (i < 3)%nat -> dl (iat t i) = dl (iat t' i) /\ dr (iat t i) = dr (iat t' i).
Proof.
  intros H H' i Hi. destruct (H i Hi) as (_ & A1 & A2 & _ & A3 & _).
  destruct (H' i Hi) as (_ & B1 & B2 & _ & B3 & _). cbv zeta in *.
  assert (G : forall o, - dl (iat t i) <= o <= dr (iat t i) <-> - dl (iat t' i) <= o <= dr (iat t' i))
    by (intros; rewrite A3, B3; tauto).
  pose proof (G (- dl (iat t i))). pose proof (G (dr (iat t i))).
  pose proof (G (- dl (iat t' i))). pose proof (G (dr (iat t' i))). lia.
Qed.

Lemma in_layer_back N P E s o : 1 <= P <= N ->
  in_layer N P E s o <-> in_layer N P E ((s + o) mod P) (- o).
Proof.
  intros HP. unfold in_layer.
  pose proof (ustart_diff_mod N P (s + o) (- o) 1 ltac:(lia)) as D1.
  pose proof (ustart_diff_mod N P (s + o) 0 (- o + 1) ltac:(lia)) as D2.
  rewrite !Z.add_0_r in D2.
  replace (s + o + - o) with s in D1 by lia.
  replace (s + o + (- o + 1)) with (s + 1) in D2 by lia.
  replace ((s + o) mod P + (- o + 1)) with ((s + o) mod P + - o + 1) in D2 by lia. lia.
Qed.
Lemma lay_back s o d : d = tgt p s o -> lay s o <-> lay d (neg3 o).
Proof.
  intros ->. unfold lay.
  assert (G : forall i, (i < 3)%nat ->
    in_layer (at3 n i) (at3 p i) (at3 ext i) (at3 s i) (at3 o i) <->
    in_layer (at3 n i) (at3 p i) (at3 ext i) (at3 (tgt p s o) i) (at3 (neg3 o) i)).
  { intros i Hi. pose proof (Hd i Hi) as D. rewrite at3_tgt, at3_neg by assumption.
    rewrite tgt1_mod by lia. now apply in_layer_back. }
  split; intros H i Hi; apply (G i Hi); apply (H i Hi).
Qed.

(** The slots of d naming s are, in order, the negated offsets under which s
    sends to d. *)
Lemma slots_match s d ts td : coord_ok p s -> coord_ok p d ->
  target_spec false s ts -> target_spec true d td ->
  map neg3 (filter (fun o => v3_eqb (tgt p d o) s)
     (filter (fun o => negb (is0 o))
       (offsets_down (dl (ix td)) (dr (ix td)) (dl (iy td)) (dr (iy td)) (dl (iz td)) (dr (iz td)))))
  = filter (fun o => v3_eqb (tgt p s o) d) (filter (fun o => negb (is0 o)) (offs_of ts)).
Proof.
  intros Hs Hc Hts Htd. rewrite !map_filter_neg, neg_offsets_down.
  apply (sorted_ext lt3 lt3_irr lt3_trans).
  - repeat apply sorted_filter. apply sorted_offsets.
  - repeat apply sorted_filter. apply sorted_offsets.
  - intros o. rewrite !filter_In, is0_neg, !v3_eqb_eq.
    rewrite (in_offs_of false s ts o Hts).
    assert (E : In o (offsets (dr (ix td)) (dl (ix td)) (dr (iy td)) (dl (iy td)) (dr (iz td)) (dl (iz td)))
                <-> lay d (neg3 o)).
    { rewrite <- (in_offs_of true d td (neg3 o) Htd). unfold offs_of.
      pose proof (Htd 0%nat ltac:(lia)) as (_ & X1 & X2 & _).
      pose proof (Htd 1%nat ltac:(lia)) as (_ & Y1 & Y2 & _).
      pose proof (Htd 2%nat ltac:(lia)) as (_ & Z1 & Z2 & _).
      cbn [iat] in *. rewrite !in_offsets by assumption. rewrite !at3_neg by lia. lia. }
    rewrite E. split; intros [[A B] C].
    + assert (D : d = tgt p s o) by (pose proof (tgt_back d (neg3 o) Hc) as T; rewrite neg3_inv, C in T; now symmetry).
      split; [split; [|assumption]|now symmetry]. now apply (lay_back s o d D).
    + split; [split; [|assumption]|].
      * now apply (lay_back s o d (eq_sym C)).
      * rewrite <- C. now apply tgt_back.
Qed.
End Match.
