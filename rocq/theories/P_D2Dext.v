(** Property C08: periodic halo extension. *)
From Coq Require Import ZArith List Lia Bool Sorting.Sorted.
From Coq Require Import ZifyBool ZifyNat.
From Verif Require Import CBase BlockDecomp WorkSplit Mem D2D Ring D2Dext D2DextLem D2DextMatch.
From Verif Require P_D2D.
Import ListNotations.
Local Open Scope Z_scope.

(** ** Specification *)
Local Notation first_node := P_D2D.first_node.
Local Notation count_nodes := P_D2D.count_nodes.
Definition ext_nodes (n p ext c : v3) (i : nat) : Z := count_nodes n p c i + 2 * at3 ext i.
(** [m] holds, for every point of the block of process c enlarged by ext points
    on each side, the value of the periodically continued global field. *)
Definition holds_extended {A} (gl : Z -> Z -> Z -> A) (n p ext c : v3) (m : mem A) : Prop :=
  let w d x := (first_node n p c d - at3 ext d + x) mod (at3 n d) in
  forall x y z, 0 <= x < ext_nodes n p ext c 0 -> 0 <= y < ext_nodes n p ext c 1 ->
    0 <= z < ext_nodes n p ext c 2 ->
    m (z * ext_nodes n p ext c 1 * ext_nodes n p ext c 0 + y * ext_nodes n p ext c 0 + x)
    = gl (w 0%nat x) (w 1%nat y) (w 2%nat z).

(** ** Combining loops *)
Lemma combine_app_eq {B C} (a1 a2 : list B) (b1 b2 : list C) :
  length a1 = length b1 -> combine (a1 ++ a2) (b1 ++ b2) = combine a1 b1 ++ combine a2 b2.
Proof.
  revert b1. induction a1 as [|x a1 IH]; intros [|y b1] H; cbn in *; try lia; [reflexivity|].
  f_equal. apply IH. lia.
Qed.
Lemma combine_flat_map {B C D} (f : B -> list C) (g : B -> list D) l :
  (forall x, length (f x) = length (g x)) ->
  combine (flat_map f l) (flat_map g l) = flat_map (fun x => combine (f x) (g x)) l.
Proof.
  intros H. induction l as [|a l IH]; [reflexivity|]. cbn [flat_map].
  rewrite combine_app_eq by apply H. now rewrite IH.
Qed.
Lemma combine_map {B C D} (f : B -> C) (g : B -> D) l :
  combine (map f l) (map g l) = map (fun x => (f x, g x)) l.
Proof. induction l; cbn; [reflexivity|]. now rewrite IHl. Qed.
Lemma length_loop1 {B} n (f : Z -> B) : length (loop1 n f) = Z.to_nat n.
Proof. unfold loop1. now rewrite map_length, zseq_length. Qed.
Lemma length_loop3 {B} nz ny nx (f : Z -> Z -> Z -> B) :
  length (loop3 nz ny nx f) = (Z.to_nat nz * (Z.to_nat ny * Z.to_nat nx))%nat.
Proof.
  unfold loop3. rewrite (length_flat_map_const _ (Z.to_nat ny * Z.to_nat nx)).
  - now rewrite zseq_length.
  - intros. rewrite (length_flat_map_const _ (Z.to_nat nx)); [now rewrite zseq_length|].
    intros. apply length_loop1.
Qed.
Lemma combine_loop3 {B C} nz ny nx (f : Z -> Z -> Z -> B) (g : Z -> Z -> Z -> C) :
  combine (loop3 nz ny nx f) (loop3 nz ny nx g) = loop3 nz ny nx (fun k j i => (f k j i, g k j i)).
Proof.
  unfold loop3. rewrite combine_flat_map.
  - apply flat_map_ext. intros k. rewrite combine_flat_map.
    + apply flat_map_ext. intros j. unfold loop1. apply combine_map.
    + intros. now rewrite !length_loop1.
  - intros k. rewrite !(length_flat_map_const _ (Z.to_nat nx)); [reflexivity|..];
      intros; apply length_loop1.
Qed.

Section Proof.
Context {A : Type}.
Variables (n p ext : v3).
Hypothesis Hd : dims_ok n p.
Hypothesis He : forall i, (i < 3)%nat -> 0 <= at3 ext i.

Lemma dm_ustart c i : (i < 3)%nat -> coord_ok p c ->
  dm n p c i = bsize (at3 n i) (at3 p i) (at3 c i) /\
  dm n p c i = ustart (at3 n i) (at3 p i) (at3 c i + 1) - ustart (at3 n i) (at3 p i) (at3 c i) /\
  1 <= dm n p c i /\
  ustart (at3 n i) (at3 p i) (at3 c i) = first_node n p c i.
Proof.
  intros Hi Hc. specialize (Hd i Hi). specialize (Hc i Hi).
  assert (E : dm n p c i = bsize (at3 n i) (at3 p i) (at3 c i)).
  { unfold dm, bsize. now rewrite Z.mod_small by lia. }
  rewrite E. split; [reflexivity|]. split; [rewrite ustart_S by lia; lia|].
  split; [now apply bsize_pos|].
  unfold ustart, first_node, P_D2D.first_node. rewrite Z.div_small, Z.mod_small by lia. lia.
Qed.

(** Sizes on the two sides of a message. *)
Lemma send_count s d ts td o : coord_ok p s -> coord_ok p d ->
  target_spec n p ext false s ts -> target_spec n p ext true d td ->
  s = tgt p d o -> lay n p ext d o ->
  forall i, (i < 3)%nat ->
    dcount (iat ts i) (- at3 o i) = dcount (iat td i) (at3 o i) /\
    slen n p s ts (neg3 o) i = dcount (iat td i) (at3 o i) /\
    1 <= dcount (iat td i) (at3 o i).
Proof.
  intros Hs Hc Hts Htd Es L i Hi.
  destruct (Hts i Hi) as (_ & _ & _ & _ & A3 & A4).
  destruct (Htd i Hi) as (_ & _ & _ & _ & B3 & B4). cbv zeta in *.
  pose proof (L i Hi) as Li. pose proof (Hd i Hi) as HP.
  assert (Esi : at3 s i = (at3 d i + at3 o i) mod at3 p i)
    by (rewrite Es, at3_tgt, tgt1_mod by lia; reflexivity).
  assert (Ls : in_layer (at3 n i) (at3 p i) (at3 ext i) (at3 s i) (- at3 o i)).
  { rewrite Esi. apply (proj1 (in_layer_back _ _ _ _ _ HP)). exact Li. }
  assert (E1 : dcount (iat ts i) (- at3 o i) = dcount (iat td i) (at3 o i)).
  { rewrite A4 by now apply A3. rewrite B4 by now apply B3. rewrite Esi.
    unfold out_hi, out_lo, seg_hi, seg_lo.
    set (N := at3 n i) in *. set (P := at3 p i) in *. set (D := at3 d i) in *. set (O := at3 o i) in *.
    pose proof (ustart_diff_mod N P (D + O) 0 (- O) ltac:(lia)) as D1.
    pose proof (ustart_diff_mod N P (D + O) 0 1 ltac:(lia)) as D2.
    pose proof (ustart_diff_mod N P (D + O) 0 (- O + 1) ltac:(lia)) as D3.
    rewrite !Z.add_0_r in *. replace (D + O + - O) with D in * by lia.
    replace (D + O + (- O + 1)) with (D + 1) in * by lia.
    replace ((D + O) mod P + (- O + 1)) with ((D + O) mod P + - O + 1) in * by lia.
    clear - D1 D2 D3. lia. }
  split; [exact E1|]. split.
  - unfold slen, sstart. rewrite at3_neg by assumption. rewrite E1.
    destruct (- at3 o i <? 0); lia.
  - rewrite B4 by now apply B3. unfold in_layer in Li. unfold seg_hi, seg_lo.
    pose proof (ustart_mono _ _ (at3 d i) (at3 d i + 1) HP ltac:(lia)).
    pose proof (ustart_mono _ _ (at3 d i + at3 o i) (at3 d i + at3 o i + 1) HP ltac:(lia)).
    specialize (He i Hi). lia.
Qed.

Definition in_slot (t : info3) (o : v3) (k : Z) (i : nat) : Prop := 0 <= k < dcount (iat t i) (at3 o i).

(** Position of the segment of offset o inside the extended block. *)
Lemma rstart_seg d t o i : coord_ok p d -> target_spec n p ext true d t -> lay n p ext d o ->
  (i < 3)%nat ->
  rstart n p ext d t o i
    = seg_lo (at3 n i) (at3 p i) (at3 ext i) (at3 d i) (at3 o i)
      - (ustart (at3 n i) (at3 p i) (at3 d i) - at3 ext i) /\
  rend n p ext d t o i
    = seg_hi (at3 n i) (at3 p i) (at3 ext i) (at3 d i) (at3 o i)
      - (ustart (at3 n i) (at3 p i) (at3 d i) - at3 ext i).
Proof.
  intros Hc Ht L Hi. destruct (Ht i Hi) as (E & _ & _ & _ & B3 & B4). cbv zeta in *.
  specialize (L i Hi). apply B3 in L as R.
  destruct (dm_ustart d i Hi Hc) as (_ & D & _).
  unfold rstart, rend.
  rewrite (suffix_counts _ _ (Hd i Hi) _ _ _ (Hc i Hi) (He i Hi) E _ R).
  rewrite B4 by exact R. lia.
Qed.

(** The node stored: one direction. *)
Lemma node_ok s d ts td o : coord_ok p s -> coord_ok p d ->
  target_spec n p ext false s ts -> target_spec n p ext true d td ->
  s = tgt p d o -> lay n p ext d o ->
  forall i k, (i < 3)%nat -> in_slot td o k i ->
    let a := sstart n p s ts (neg3 o) i + k in
    0 <= a < dm n p s i /\
    first_node n p s i + a
    = (first_node n p d i - at3 ext i + (rstart n p ext d td o i + k)) mod (at3 n i).
Proof.
  intros Hs Hc Hts Htd Es L i k Hi Hk. cbv zeta.
  destruct (send_count s d ts td o Hs Hc Hts Htd Es L i Hi) as (E1 & E2 & E3).
  destruct (rstart_seg d td o i Hc Htd L Hi) as (R1 & R2).
  destruct (dm_ustart d i Hi Hc) as (Dd1 & Dd2 & Dd3 & Dd4).
  destruct (dm_ustart s i Hi Hs) as (Ds1 & Ds2 & Ds3 & Ds4).
  pose proof (Hd i Hi) as HP. pose proof (He i Hi) as HE.
  destruct (Htd i Hi) as (_ & _ & _ & _ & B3 & B4). cbv zeta in *.
  pose proof (L i Hi) as Li. apply B3 in Li as Ri. specialize (B4 _ Ri).
  assert (Esi : at3 s i = (at3 d i + at3 o i) mod at3 p i)
    by (rewrite Es, at3_tgt, tgt1_mod by lia; reflexivity).
  rewrite R1, <- Dd4. unfold in_slot in Hk.
  unfold sstart. rewrite at3_neg by assumption. rewrite E1.
  set (N := at3 n i) in *. set (P := at3 p i) in *. set (D := at3 d i) in *. set (O := at3 o i) in *.
  set (E := at3 ext i) in *. set (cnt := dcount (iat td i) O) in *.
  assert (Bs : bsize N P (at3 s i) = bsize N P (D + O)) by (rewrite Esi; apply bsize_mod; lia).
  pose proof (ustart_S N P (D + O) ltac:(lia) ltac:(lia)) as SS.
  assert (Fs : first_node n p s i = block_decompose_nstart N P ((D + O) mod P)).
  { unfold first_node, P_D2D.first_node. fold N P. now rewrite Esi. }
  assert (T : exists a, (if - O <? 0 then 0 else dm n p s i - cnt) + k = a /\ 0 <= a < bsize N P (D + O) /\
     seg_lo N P E D O + k = ustart N P (D + O) + a).
  { eexists. split; [reflexivity|]. rewrite Ds1, Bs. unfold seg_lo, seg_hi, in_layer in *.
    pose proof (ustart_mono N P D (D + 1) HP ltac:(lia)).
    destruct (- O <? 0) eqn:CO.
    - pose proof (ustart_mono N P D (D + O) HP ltac:(lia)). lia.
    - pose proof (ustart_mono N P (D + O + 1) (D + 1) HP ltac:(lia)). lia. }
  destruct T as (a & Ea & Ha & Eseg). rewrite Ea. split; [rewrite Ds1, Bs; exact Ha|].
  replace (ustart N P D - E + (seg_lo N P E D O - (ustart N P D - E) + k))
    with (ustart N P (D + O) + a) by lia.
  rewrite ustart_mod by assumption. now rewrite Fs.
Qed.

(** Data each process sends, as computed. *)
Definition tsend (c : v3) : info3 :=
  match set_target false n p c ext with Ok t => t | _ => mkinfo (mkdir 0 0 []) (mkdir 0 0 []) (mkdir 0 0 []) end.
Lemma tsend_spec c : coord_ok p c ->
  set_target false n p c ext = Ok (tsend c) /\ target_spec n p ext false c (tsend c).
Proof.
  intros Hc. destruct (set_target_spec n p ext Hd He false c Hc) as (t & E & H).
  unfold tsend. rewrite E. auto.
Qed.
Lemma sends_eq c (sdata : mem A) : coord_ok p c ->
  sends n p ext c sdata = Ok (map (fun o =>
     (tgt p c o, (dcount (ix (tsend c)) (at3 o 0) * dcount (iy (tsend c)) (at3 o 1)
                  * dcount (iz (tsend c)) (at3 o 2), message n p c (tsend c) sdata o)))
   (filter (fun o => negb (is0 o)) (offs_of (tsend c)))).
Proof.
  intros Hc. destruct (tsend_spec c Hc) as [E H].
  destruct (set_target_spec n p ext Hd He true c Hc) as (t' & E' & H').
  unfold sends. rewrite E, E'. cbn [obind]. f_equal. apply map_ext_in.
  intros o Ho. apply filter_In in Ho. destruct Ho as [_ Ho].
  pose proof (same_layers n p ext He c _ _ H H' 0%nat ltac:(lia)) as [X _].
  pose proof (same_layers n p ext He c _ _ H H' 1%nat ltac:(lia)) as [Y _].
  pose proof (same_layers n p ext He c _ _ H H' 2%nat ltac:(lia)) as [Z _]. cbn [iat] in *.
  replace (_ && _) with false; [reflexivity|].
  symmetry. unfold is0, v3_eqb in Ho. cbn [at3] in Ho. destruct o as [[a b] c0]. cbn [at3] in *.
  clear - Ho X Y Z. lia.
Qed.

Lemma filter_map_swap {B C} (f : B -> C) (g : C -> bool) l :
  filter g (map f l) = map f (filter (fun x => g (f x)) l).
Proof. induction l; cbn; [reflexivity|]. destruct (g (f a)); cbn; now rewrite IHl. Qed.
Lemma filter_len_nth {B} (f : B -> bool) seen o todo : f o = true ->
  nth_error (filter f (seen ++ o :: todo)) (length (filter f seen)) = Some o.
Proof.
  intros H. rewrite filter_app, nth_error_app2 by lia. rewrite Nat.sub_diag. cbn [filter].
  now rewrite H.
Qed.

Lemma recv_slots_writes (sdata : v3 -> mem A) d td : coord_ok p d ->
  set_target true n p d ext = Ok td -> target_spec n p ext true d td ->
  let slots := filter (fun o => negb (is0 o))
       (offsets_down (dl (ix td)) (dr (ix td)) (dl (iy td)) (dr (iy td)) (dl (iz td)) (dr (iz td))) in
  forall todo seen rdata, slots = seen ++ todo ->
    recv_slots n p ext sdata d td seen todo rdata
    = Ok (run_writes rdata (flat_map (fun o =>
        let s := tgt p d o in
        slot_writes n p ext d td o (message n p s (tsend s) (sdata s) (neg3 o))) todo)).
Proof.
  intros Hc Etd Htd slots. induction todo as [|o todo IH]; intros seen rdata Eq.
  - reflexivity.
  - cbn [recv_slots flat_map]. set (s := tgt p d o).
    assert (Hs : coord_ok p s) by (apply (tgt_ok n p ext); assumption).
    destruct (tsend_spec s Hs) as [Ets Hts].
    unfold nth_from. rewrite (sends_eq s _ Hs). cbn [obind].
    rewrite filter_map_swap. cbn [fst].
    rewrite <- (slots_match n p ext Hd He s d (tsend s) td Hs Hc Hts Htd). fold slots. rewrite Eq.
    rewrite map_map, nth_error_map.
    rewrite filter_len_nth by (apply v3_eqb_eq; reflexivity).
    cbn [option_map obind fst snd].
    assert (Lo : lay n p ext d o).
    { assert (Io : In o slots) by (rewrite Eq; apply in_app_iff; right; now left).
      apply filter_In in Io. destruct Io as [Io _].
      apply (in_offs_of n p ext He true d td o Htd).
      assert (I2 : In (neg3 o) (map neg3 (offsets_down (dl (ix td)) (dr (ix td)) (dl (iy td))
                     (dr (iy td)) (dl (iz td)) (dr (iz td))))) by now apply in_map.
      rewrite neg_offsets_down in I2. unfold offs_of.
      pose proof (Htd 0%nat ltac:(lia)) as (_ & X1 & X2 & _).
      pose proof (Htd 1%nat ltac:(lia)) as (_ & Y1 & Y2 & _).
      pose proof (Htd 2%nat ltac:(lia)) as (_ & Z1 & Z2 & _). cbn [iat] in *.
      rewrite in_offsets in * by assumption. rewrite !at3_neg in I2 by lia. lia. }
    destruct (send_count s d (tsend s) td o Hs Hc Hts Htd eq_refl Lo 0%nat ltac:(lia)) as (X1 & X2 & X3).
    destruct (send_count s d (tsend s) td o Hs Hc Hts Htd eq_refl Lo 1%nat ltac:(lia)) as (Y1 & Y2 & Y3).
    destruct (send_count s d (tsend s) td o Hs Hc Hts Htd eq_refl Lo 2%nat ltac:(lia)) as (Z1 & Z2 & Z3).
    cbn [iat] in *. rewrite !at3_neg by lia. rewrite X1, Y1, Z1.
    unfold message at 1. rewrite length_loop3, X2, Y2, Z2.
    set (cx := dcount (ix td) (at3 o 0)) in *. set (cy := dcount (iy td) (at3 o 1)) in *.
    set (cz := dcount (iz td) (at3 o 2)) in *.
    replace (cx * cy * cz =? cx * cy * cz) with true by lia.
    replace (Z.of_nat (Z.to_nat cz * (Z.to_nat cy * Z.to_nat cx)) =? cx * cy * cz) with true
      by (rewrite !Nat2Z.inj_mul, !Z2Nat.id by lia; symmetry; apply Z.eqb_eq; ring).
    cbn [andb].
    rewrite (IH (seen ++ [o])) by (rewrite <- app_assoc; exact Eq).
    rewrite run_writes_app. reflexivity.
Qed.

(** All stores made by D2Dext. *)
Definition all_writes (sdata : v3 -> mem A) (d : v3) (td : info3) : list (Z * A) :=
  local_copy n p ext d (sdata d) ++
  flat_map (fun o => let s := tgt p d o in
      slot_writes n p ext d td o (message n p s (tsend s) (sdata s) (neg3 o)))
   (filter (fun o => negb (is0 o))
       (offsets_down (dl (ix td)) (dr (ix td)) (dl (iy td)) (dr (iy td)) (dl (iz td)) (dr (iz td)))).

Definition ext_idx (d : v3) (x y z : Z) : Z :=
  z * ext_nodes n p ext d 1 * ext_nodes n p ext d 0 + y * ext_nodes n p ext d 0 + x.

(** Every store goes to a point of the extended block and stores the value of
    the periodic continuation. *)
Lemma writes_ok (gl : Z -> Z -> Z -> A) (sdata : v3 -> mem A) d td : coord_ok p d ->
  target_spec n p ext true d td ->
  (forall c, coord_ok p c -> P_D2D.holds_block gl n p c (sdata c)) ->
  forall a v, In (a, v) (all_writes sdata d td) ->
  let w i x := (first_node n p d i - at3 ext i + x) mod (at3 n i) in
  exists x y z, 0 <= x < ext_nodes n p ext d 0 /\ 0 <= y < ext_nodes n p ext d 1 /\
    0 <= z < ext_nodes n p ext d 2 /\ a = ext_idx d x y z /\ v = gl (w 0%nat x) (w 1%nat y) (w 2%nat z).
Proof.
  intros Hc Htd Hold a v Hin w.
  assert (Ddm : forall i, count_nodes n p d i = dm n p d i) by reflexivity.
  assert (Eidx : forall x y z, ridx n p ext d x y z = ext_idx d x y z).
  { intros. unfold ridx, ext_idx, ext_nodes. change (count_nodes n p d) with (dm n p d). ring. }
  unfold all_writes in Hin. apply in_app_iff in Hin. destruct Hin as [Hin|Hin].
  - apply in_loop3 in Hin. destruct Hin as (k & j & i & Hk & Hj & Hi & E).
    injection E as -> ->.
    exists (at3 ext 0 + i), (at3 ext 1 + j), (at3 ext 2 + k).
    pose proof (He 0%nat ltac:(lia)). pose proof (He 1%nat ltac:(lia)). pose proof (He 2%nat ltac:(lia)).
    unfold ext_nodes. change (count_nodes n p d) with (dm n p d). split; [lia|]. split; [lia|]. split; [lia|].
    split; [apply Eidx|].
    assert (Wi : forall i (Hi : (i < 3)%nat) k, 0 <= k < dm n p d i ->
        w i (at3 ext i + k) = first_node n p d i + k).
    { intros i0 Hi0 k0 Hk0. unfold w.
      replace (first_node n p d i0 - at3 ext i0 + (at3 ext i0 + k0)) with (first_node n p d i0 + k0) by lia.
      apply Z.mod_small. pose proof (Hd i0 Hi0). pose proof (Hc i0 Hi0).
      pose proof (bd_in_mesh (at3 n i0) (at3 p i0) (at3 d i0) ltac:(lia) ltac:(lia) ltac:(lia)).
      unfold first_node, P_D2D.first_node, dm in *. lia. }
    rewrite (Wi 0%nat), (Wi 1%nat), (Wi 2%nat) by (assumption || lia).
    rewrite <- (Hold d Hc i j k) by assumption.
    f_equal. unfold P_D2D.count_nodes, dm. ring.
  - apply in_flat_map in Hin. destruct Hin as (o & Io & Hin). cbv zeta in Hin.
    set (s := tgt p d o) in *.
    assert (Hs : coord_ok p s) by (apply (tgt_ok n p ext); assumption).
    destruct (tsend_spec s Hs) as [_ Hts].
    assert (Lo : lay n p ext d o).
    { apply filter_In in Io. destruct Io as [Io _].
      apply (in_offs_of n p ext He true d td o Htd).
      assert (I2 : In (neg3 o) (map neg3 (offsets_down (dl (ix td)) (dr (ix td)) (dl (iy td))
                     (dr (iy td)) (dl (iz td)) (dr (iz td))))) by now apply in_map.
      rewrite neg_offsets_down in I2. unfold offs_of.
      pose proof (Htd 0%nat ltac:(lia)) as (_ & X1 & X2 & _).
      pose proof (Htd 1%nat ltac:(lia)) as (_ & Y1 & Y2 & _).
      pose proof (Htd 2%nat ltac:(lia)) as (_ & Z1 & Z2 & _). cbn [iat] in *.
      rewrite in_offsets in * by assumption. rewrite !at3_neg in I2 by lia. lia. }
    destruct (send_count s d (tsend s) td o Hs Hc Hts Htd eq_refl Lo 0%nat ltac:(lia)) as (X1 & X2 & X3).
    destruct (send_count s d (tsend s) td o Hs Hc Hts Htd eq_refl Lo 1%nat ltac:(lia)) as (Y1 & Y2 & Y3).
    destruct (send_count s d (tsend s) td o Hs Hc Hts Htd eq_refl Lo 2%nat ltac:(lia)) as (Z1 & Z2 & Z3).
    unfold slot_writes, message in Hin. rewrite X2, Y2, Z2 in Hin.
    cbn [iat] in Hin. rewrite combine_loop3 in Hin.
    apply in_loop3 in Hin. destruct Hin as (k & j & i & Hk & Hj & Hi & E). injection E as -> ->.
    exists (rstart n p ext d td o 0 + i), (rstart n p ext d td o 1 + j), (rstart n p ext d td o 2 + k).
    assert (Bnd : forall q (Hq : (q < 3)%nat) u, in_slot td o u q ->
       0 <= rstart n p ext d td o q + u < ext_nodes n p ext d q).
    { intros q Hq u Hu. destruct (rstart_seg d td o q Hc Htd Lo Hq) as [R1 R2].
      destruct (dm_ustart d q Hq Hc) as (_ & D2 & _).
      unfold ext_nodes. change (count_nodes n p d) with (dm n p d). unfold in_slot in Hu.
      assert (R3 : rend n p ext d td o q = rstart n p ext d td o q + dcount (iat td q) (at3 o q))
        by (unfold rstart; lia).
      unfold seg_lo in R1. unfold seg_hi in R2. lia. }
    split; [apply (Bnd 0%nat); [lia|exact Hi]|]. split; [apply (Bnd 1%nat); [lia|exact Hj]|].
    split; [apply (Bnd 2%nat); [lia|exact Hk]|]. split; [apply Eidx|].
    destruct (node_ok s d (tsend s) td o Hs Hc Hts Htd eq_refl Lo 0%nat i ltac:(lia) Hi) as [N0 M0].
    destruct (node_ok s d (tsend s) td o Hs Hc Hts Htd eq_refl Lo 1%nat j ltac:(lia) Hj) as [N1 M1].
    destruct (node_ok s d (tsend s) td o Hs Hc Hts Htd eq_refl Lo 2%nat k ltac:(lia) Hk) as [N2 M2].
    unfold w. rewrite <- M0, <- M1, <- M2.
    rewrite <- (Hold s Hs) by assumption. f_equal. unfold P_D2D.count_nodes, dm. ring.
Qed.

(** Every point of the extended block is stored. *)
Lemma writes_all (sdata : v3 -> mem A) d td : coord_ok p d ->
  target_spec n p ext true d td ->
  forall x y z, 0 <= x < ext_nodes n p ext d 0 -> 0 <= y < ext_nodes n p ext d 1 ->
    0 <= z < ext_nodes n p ext d 2 ->
  exists v, In (ext_idx d x y z, v) (all_writes sdata d td).
Proof.
  intros Hc Htd x y z Hx Hy Hz.
  assert (Ddm : forall i, count_nodes n p d i = dm n p d i) by reflexivity.
  assert (Eidx : forall x y z, ridx n p ext d x y z = ext_idx d x y z).
  { intros. unfold ridx, ext_idx, ext_nodes. change (count_nodes n p d) with (dm n p d). ring. }
  assert (S : forall q (Hq : (q < 3)%nat) u, 0 <= u < ext_nodes n p ext d q ->
     exists o t, in_layer (at3 n q) (at3 p q) (at3 ext q) (at3 d q) o /\
       0 <= t < dcount (iat td q) o /\
       u = seg_lo (at3 n q) (at3 p q) (at3 ext q) (at3 d q) o
           - (ustart (at3 n q) (at3 p q) (at3 d q) - at3 ext q) + t).
  { intros q Hq u Hu. destruct (Htd q Hq) as (E & _ & _ & _ & B3 & B4). cbv zeta in *.
    destruct (dm_ustart d q Hq Hc) as (_ & D2 & _).
    unfold ext_nodes in Hu. change (count_nodes n p d) with (dm n p d) in Hu.
    destruct (seg_cover _ _ (Hd q Hq) _ _ _ (Hc q Hq) (He q Hq) E
        (ustart (at3 n q) (at3 p q) (at3 d q) - at3 ext q + u) ltac:(lia)) as (o & Ho & Ho2).
    exists o. eexists. split; [now apply B3|]. rewrite B4 by exact Ho.
    split; [|symmetry; apply Zplus_minus]. lia. }
  destruct (S 0%nat ltac:(lia) x Hx) as (o0 & t0 & L0 & T0 & U0).
  destruct (S 1%nat ltac:(lia) y Hy) as (o1 & t1 & L1 & T1 & U1).
  destruct (S 2%nat ltac:(lia) z Hz) as (o2 & t2 & L2 & T2 & U2).
  set (o := (o0, o1, o2) : v3).
  assert (Lo : lay n p ext d o).
  { intros i Hi. destruct i as [|[|[|i]]]; [assumption..|lia]. }
  assert (R : forall q (Hq : (q < 3)%nat), rstart n p ext d td o q =
    seg_lo (at3 n q) (at3 p q) (at3 ext q) (at3 d q) (at3 o q)
           - (ustart (at3 n q) (at3 p q) (at3 d q) - at3 ext q)).
  { intros. now apply rstart_seg. }
  assert (Ex : x = rstart n p ext d td o 0 + t0) by (rewrite R by lia; exact U0).
  assert (Ey : y = rstart n p ext d td o 1 + t1) by (rewrite R by lia; exact U1).
  assert (Ez : z = rstart n p ext d td o 2 + t2) by (rewrite R by lia; exact U2).
  rewrite Ex, Ey, Ez, <- Eidx. unfold all_writes.
  destruct (is0 o) eqn:O0.
  - apply v3_eqb_eq in O0.
    assert (R0 : forall q (Hq : (q < 3)%nat), rstart n p ext d td o q = at3 ext q /\
        dcount (iat td q) (at3 o q) = dm n p d q).
    { intros q Hq. destruct (rstart_seg d td o q Hc Htd Lo Hq) as [R1 R2].
      assert (R3 : rend n p ext d td o q = rstart n p ext d td o q + dcount (iat td q) (at3 o q))
        by (unfold rstart; lia).
      destruct (dm_ustart d q Hq Hc) as (_ & D2 & _).
      assert (at3 o q = 0) as Z0 by (rewrite O0; destruct q as [|[|[|q]]]; reflexivity).
      unfold seg_lo in R1. unfold seg_hi in R2. rewrite Z0 in R1, R2 |- *. rewrite Z0 in R3.
      rewrite Z.add_0_r in *. specialize (He q Hq). lia. }
    destruct (R0 0%nat ltac:(lia)) as [A0 B0]. destruct (R0 1%nat ltac:(lia)) as [A1 B1].
    destruct (R0 2%nat ltac:(lia)) as [A2 B2].
    eexists. apply in_app_iff. left. unfold local_copy. apply in_loop3.
    exists t2, t1, t0. rewrite <- B0, <- B1, <- B2. split; [exact T2|]. split; [exact T1|].
    split; [exact T0|]. rewrite A0, A1, A2. reflexivity.
  - set (s := tgt p d o).
    assert (Hs : coord_ok p s) by (apply (tgt_ok n p ext); assumption).
    destruct (tsend_spec s Hs) as [_ Hts].
    destruct (send_count s d (tsend s) td o Hs Hc Hts Htd eq_refl Lo 0%nat ltac:(lia)) as (X1 & X2 & X3).
    destruct (send_count s d (tsend s) td o Hs Hc Hts Htd eq_refl Lo 1%nat ltac:(lia)) as (Y1 & Y2 & Y3).
    destruct (send_count s d (tsend s) td o Hs Hc Hts Htd eq_refl Lo 2%nat ltac:(lia)) as (Z1 & Z2 & Z3).
    eexists. apply in_app_iff. right. apply in_flat_map. exists o. split.
    + apply filter_In. split; [|now rewrite O0].
      assert (I2 : In (neg3 (neg3 o)) (map neg3 (map neg3 (offsets_down (dl (ix td)) (dr (ix td)) (dl (iy td))
                     (dr (iy td)) (dl (iz td)) (dr (iz td)))))).
      { apply in_map. rewrite neg_offsets_down.
        apply (in_offs_of n p ext He true d td o Htd) in Lo. unfold offs_of in Lo.
        pose proof (Htd 0%nat ltac:(lia)) as (_ & P1 & P2 & _).
        pose proof (Htd 1%nat ltac:(lia)) as (_ & P3 & P4 & _).
        pose proof (Htd 2%nat ltac:(lia)) as (_ & P5 & P6 & _). cbn [iat] in P1, P2, P3, P4, P5, P6.
        rewrite in_offsets in * by assumption. rewrite !at3_neg by lia. lia. }
      rewrite map_map, neg3_inv in I2. erewrite map_ext, map_id in I2; [exact I2|].
      intros; apply neg3_inv.
    + cbv zeta. fold s. unfold slot_writes, message. rewrite X2, Y2, Z2. cbn [iat].
      rewrite combine_loop3. apply in_loop3. exists t2, t1, t0.
      split; [exact T2|]. split; [exact T1|]. split; [exact T0|]. reflexivity.
Qed.
End Proof.

(** C08, main statement.  If every process holds its block of a global field,
    the exchange completes without a mismatched or missing message, leaves in
    the extended array exactly the periodic continuation of the field (also
    when the extension is wider than a neighbouring block or than the whole
    grid), and touches nothing outside the extended array. *)
Theorem C08_halo_correct : forall (A : Type) (n p ext : v3) (gl : Z -> Z -> Z -> A)
    (sdata : v3 -> mem A) (d : v3) (rdata : mem A),
  dims_ok n p -> (forall i, (i < 3)%nat -> 0 <= at3 ext i) -> coord_ok p d ->
  (forall c, coord_ok p c -> P_D2D.holds_block gl n p c (sdata c)) ->
  exists m, d2dext n p ext sdata d rdata = Ok m /\
    holds_extended gl n p ext d m /\
    forall a, ~ 0 <= a < ext_nodes n p ext d 0 * ext_nodes n p ext d 1 * ext_nodes n p ext d 2 ->
      m a = rdata a.
Proof.
  intros A n p ext gl sdata d rdata Hd He Hc Hold.
  destruct (set_target_spec n p ext Hd He true d Hc) as (td & Etd & Htd).
  exists (run_writes rdata (all_writes n p ext sdata d td)).
  assert (W := writes_ok n p ext Hd He gl sdata d td Hc Htd Hold). cbv zeta in W.
  split; [|split].
  - unfold d2dext. rewrite Etd. cbn [obind].
    rewrite (recv_slots_writes n p ext Hd He sdata d td Hc Etd Htd _ []) by reflexivity.
    unfold all_writes. now rewrite run_writes_app.
  - unfold holds_extended. cbv zeta. intros x y z Hx Hy Hz.
    change (z * ext_nodes n p ext d 1 * ext_nodes n p ext d 0 + y * ext_nodes n p ext d 0 + x)
      with (ext_idx n p ext d x y z).
    apply run_writes_in.
    + now apply writes_all.
    + intros v Hv. destruct (W _ _ Hv) as (x' & y' & z' & Hx' & Hy' & Hz' & Ei & ->).
      destruct (idx3_inj _ _ x y z x' y' z' Hx Hy Hx' Hy' Ei) as (-> & -> & ->). reflexivity.
  - intros a Ha. apply run_writes_notin. intros v Hv.
    destruct (W _ _ Hv) as (x & y & z & Hx & Hy & Hz & Ei & _).
    apply Ha. rewrite Ei.
    replace (ext_nodes n p ext d 0 * ext_nodes n p ext d 1 * ext_nodes n p ext d 2)
      with (ext_nodes n p ext d 2 * ext_nodes n p ext d 1 * ext_nodes n p ext d 0) by ring.
    now apply idx3_bound.
Qed.
Print Assumptions C08_halo_correct.

(** C08, pairing.  The item counts the two sides compute for the same message
    agree in every direction, the neighbour relation is symmetric, and the
    pieces a process receives add up, per direction, to its block plus the
    extension on both sides. *)
Theorem C08_counts_match : forall n p ext s d o ts td,
  dims_ok n p -> (forall i, (i < 3)%nat -> 0 <= at3 ext i) -> coord_ok p s -> coord_ok p d ->
  set_target false n p s ext = Ok ts -> set_target true n p d ext = Ok td ->
  s = tgt p d o -> (forall i, (i < 3)%nat -> - dl (iat td i) <= at3 o i <= dr (iat td i)) ->
  d = tgt p s (neg3 o) /\
  forall i, (i < 3)%nat ->
    - dl (iat ts i) <= - at3 o i <= dr (iat ts i) /\
    dcount (iat ts i) (- at3 o i) = dcount (iat td i) (at3 o i) /\
    1 <= dcount (iat td i) (at3 o i) /\
    zsum (dcounts (iat td i)) = count_nodes n p d i + 2 * at3 ext i.
Proof.
  intros n p ext s d o ts td Hd He Hs Hc Ets Etd Es Ho.
  destruct (set_target_spec n p ext Hd He false s Hs) as (ts' & E1 & Hts).
  rewrite Ets in E1. injection E1 as <-.
  destruct (set_target_spec n p ext Hd He true d Hc) as (td' & E2 & Htd).
  rewrite Etd in E2. injection E2 as <-.
  split; [rewrite Es; symmetry; now apply (tgt_back n p ext)|].
  assert (Lo : lay n p ext d o).
  { intros i Hi. destruct (Htd i Hi) as (_ & _ & _ & _ & B3 & _). apply B3. now apply Ho. }
  intros i Hi.
  destruct (send_count n p ext Hd He s d ts td o Hs Hc Hts Htd Es Lo i Hi) as (X1 & _ & X3).
  split; [|split; [exact X1|split; [exact X3|]]].
  - destruct (Hts i Hi) as (_ & _ & _ & _ & B3 & _). apply B3.
    assert (Esi : at3 s i = (at3 d i + at3 o i) mod at3 p i)
      by (pose proof (Hd i Hi); rewrite Es, at3_tgt, tgt1_mod by lia; reflexivity).
    rewrite Esi. apply (proj1 (in_layer_back _ _ _ _ _ (Hd i Hi))). now apply Lo.
  - destruct (Htd i Hi) as (E & P1 & P2 & P3 & B3 & B4). cbv zeta in *.
    pose proof (suffix_counts _ _ (Hd i Hi) _ _ _ (Hc i Hi) (He i Hi) E (- dl (iat td i)) ltac:(lia)) as S.
    pose proof (skipn_nth_sum (dcounts (iat td i)) 0%nat ltac:(lia)) as T.
    replace (- dl (iat td i) + dl (iat td i)) with 0 in S by lia.
    change (Z.to_nat 0) with 0%nat in S. rewrite S in T.
    change (skipn 0 (dcounts (iat td i))) with (dcounts (iat td i)) in T. rewrite T.
    specialize (B4 (- dl (iat td i)) ltac:(lia)). unfold dcount in B4.
    replace (- dl (iat td i) + dl (iat td i)) with 0 in B4 by lia.
    change (Z.to_nat 0) with 0%nat in B4. rewrite B4.
    assert (NL : ~ in_layer (at3 n i) (at3 p i) (at3 ext i) (at3 d i) (- dl (iat td i) - 1))
      by (rewrite <- B3; lia).
    pose proof (dm_ustart n p ext Hd He d i Hi Hc) as (_ & D2 & _).
    pose proof (Hd i Hi) as HP.
    unfold in_layer in NL. unfold seg_hi, seg_lo.
    pose proof (ustart_mono (at3 n i) (at3 p i) (at3 d i + (- dl (iat td i) - 1)) (at3 d i + 1) HP ltac:(lia)).
    replace (at3 d i + (- dl (iat td i) - 1) + 1) with (at3 d i + - dl (iat td i)) in NL by lia.
    change (count_nodes n p d i) with (dm n p d i). specialize (He i Hi). lia.
Qed.
Print Assumptions C08_counts_match.

(** C08, scratch arrays.  They are large enough for every entry written. *)
Lemma ustart_steps n p a b : 1 <= p <= n -> a <= b ->
  ustart n p a + (b - a) * (n / p) <= ustart n p b.
Proof.
  intros Hp H. replace b with (a + Z.of_nat (Z.to_nat (b - a))) by lia.
  generalize (Z.to_nat (b - a)) as k. clear H b. induction k.
  - replace (a + Z.of_nat 0) with a by lia. lia.
  - replace (a + Z.of_nat (S k)) with (a + Z.of_nat k + 1) by lia.
    rewrite ustart_S by lia.
    assert (n / p <= bsize n p (a + Z.of_nat k)).
    { unfold bsize, block_decompose. rewrite quot_div_nonneg by lia. destruct (_ <? _); lia. }
    lia.
Qed.
Theorem C08_scratch_large_enough : forall recv n p ext c t,
  dims_ok n p -> (forall i, (i < 3)%nat -> 0 <= at3 ext i) -> coord_ok p c ->
  set_target recv n p c ext = Ok t ->
  exists M, max_layer n p ext = Ok M /\ n_neighs t < M /\ n_layers t < M.
Proof.
  intros recv n p ext c t Hd He Hc Et.
  destruct (set_target_spec n p ext Hd He recv c Hc) as (t' & E & Ht).
  rewrite Et in E. injection E as <-.
  assert (G : forall i, (i < 3)%nat -> exists a, max_layer1 (at3 n i) (at3 p i) (at3 ext i) = Ok (a + 1) /\
     0 <= dl (iat t i) + dr (iat t i) <= a).
  { intros i Hi. specialize (Hd i Hi). specialize (He i Hi). specialize (Hc i Hi).
    destruct (Ht i Hi) as (_ & P1 & P2 & _ & B3 & _). cbv zeta in *.
    unfold max_layer1, c_div. replace (at3 p i =? 0) with false by lia. cbn [obind].
    rewrite quot_div_nonneg by lia.
    assert (M1 : 1 <= at3 n i / at3 p i) by (apply Z.div_le_lower_bound; lia).
    set (m := at3 n i / at3 p i) in *.
    replace (m =? 0) with false by lia. cbn [obind]. rewrite quot_div_nonneg by lia.
    eexists. split; [reflexivity|].
    assert (L : dl (iat t i) <= at3 ext i / m + 1).
    { assert (I : in_layer (at3 n i) (at3 p i) (at3 ext i) (at3 c i) (- dl (iat t i))) by (apply B3; lia).
      unfold in_layer in I.
      destruct (Z.eq_dec (dl (iat t i)) 0) as [->|N0]; [pose proof (Z.div_pos (at3 ext i) m); lia|].
      pose proof (ustart_steps (at3 n i) (at3 p i) (at3 c i + - dl (iat t i) + 1) (at3 c i) Hd ltac:(lia)) as S.
      fold m in S.
      assert (dl (iat t i) - 1 <= at3 ext i / m); [|lia]. apply Z.div_le_lower_bound; [lia|].
      clear - S I. lia. }
    assert (R : dr (iat t i) <= at3 ext i / m + 1).
    { assert (I : in_layer (at3 n i) (at3 p i) (at3 ext i) (at3 c i) (dr (iat t i))) by (apply B3; lia).
      unfold in_layer in I.
      destruct (Z.eq_dec (dr (iat t i)) 0) as [->|N0]; [pose proof (Z.div_pos (at3 ext i) m); lia|].
      pose proof (ustart_steps (at3 n i) (at3 p i) (at3 c i + 1) (at3 c i + dr (iat t i)) Hd ltac:(lia)) as S.
      fold m in S.
      assert (dr (iat t i) - 1 <= at3 ext i / m); [|lia]. apply Z.div_le_lower_bound; [lia|].
      clear - S I. lia. }
    clear - P1 P2 L R. lia. }
  destruct (G 0%nat ltac:(lia)) as (x & Ex & Hx). destruct (G 1%nat ltac:(lia)) as (y & Ey & Hy).
  destruct (G 2%nat ltac:(lia)) as (z & Ez & Hz).
  unfold max_layer. rewrite Ex, Ey, Ez. cbn [obind]. eexists. split; [reflexivity|].
  unfold n_neighs, n_layers. cbn [iat] in *.
  set (a := dl (ix t) + dr (ix t)) in *. set (b := dl (iy t) + dr (iy t)) in *.
  set (c0 := dl (iz t) + dr (iz t)) in *. clearbody a b c0. clear - Hx Hy Hz.
  assert (ab : (a + 1) * (b + 1) <= (x + 1) * (y + 1)) by nia.
  assert (ab0 : 0 <= (a + 1) * (b + 1)) by nia.
  assert (abc : (a + 1) * (b + 1) * (c0 + 1) <= (x + 1) * (y + 1) * (z + 1)) by nia.
  assert (s2 : a + b + 1 <= (a + 1) * (b + 1)) by nia.
  assert (s3 : a + b + c0 + 1 <= (a + 1) * (b + 1) * (c0 + 1)) by nia. lia.
Qed.
Print Assumptions C08_scratch_large_enough.

(** Non-vacuity: 5 x 4 x 3 nodes on a 3 x 2 x 1 process grid, extension (3,1,2):
    wider than a block in x (blocks have 1-2 nodes), wrapping around in z. *)
Definition ex_n : v3 := (5, 4, 3). Definition ex_p : v3 := (3, 2, 1).
Definition ex_ext : v3 := (3, 1, 2).
Definition ex_gl (x y z : Z) : Z := 100 * x + 10 * y + z.
Definition ex_data (c : v3) : mem Z := fun a =>
  let cn := count_nodes ex_n ex_p c in
  ex_gl (first_node ex_n ex_p c 0 + a mod cn 0%nat)
        (first_node ex_n ex_p c 1 + (a / cn 0%nat) mod cn 1%nat)
        (first_node ex_n ex_p c 2 + a / cn 0%nat / cn 1%nat).
Lemma ex_data_holds : forall c, coord_ok ex_p c -> P_D2D.holds_block ex_gl ex_n ex_p c (ex_data c).
Proof.
  intros c Hc i j k Hi Hj Hk. unfold ex_data.
  set (c0 := count_nodes ex_n ex_p c 0) in *. set (c1 := count_nodes ex_n ex_p c 1) in *.
  replace (k * c1 * c0 + j * c0 + i) with (i + (j + k * c1) * c0) by ring.
  rewrite Z.mod_add, Z.div_add by lia. rewrite (Z.mod_small i), (Z.div_small i), Z.add_0_l by lia.
  rewrite Z.mod_add, Z.div_add by lia. rewrite (Z.mod_small j), (Z.div_small j) by lia.
  now rewrite Z.add_0_l.
Qed.
Example C08_example :
  dims_ok ex_n ex_p /\ (forall i, (i < 3)%nat -> 0 <= at3 ex_ext i) /\ coord_ok ex_p (2, 1, 0) /\
  match d2dext ex_n ex_p ex_ext ex_data (2, 1, 0) (fun _ => -1) with
  | Ok m => (m 0, m 1, m 27, ext_nodes ex_n ex_p ex_ext (2, 1, 0) 0) = (111, 211, 201, 7)
  | _ => False
  end.
Proof.
  split; [|split; [|split]].
  - intros i Hi. destruct i as [|[|[|i]]]; cbn; lia.
  - intros i Hi. destruct i as [|[|[|i]]]; cbn; lia.
  - intros i Hi. destruct i as [|[|[|i]]]; cbn; lia.
  - vm_compute. reflexivity.
Qed.

(** The precondition "no more processes than nodes" is relied on: otherwise the
    scratch size is a division by zero. *)
Theorem C08_more_processes_than_nodes_refuted :
  exists n p ext : v3, (forall i, (i < 3)%nat -> 1 <= at3 n i /\ 1 <= at3 p i /\ 0 <= at3 ext i) /\
    max_layer n p ext = UB.
Proof.
  exists (2, 8, 8), (3, 1, 1), (1, 1, 1). split; [|reflexivity].
  intros i Hi. destruct i as [|[|[|i]]]; cbn; lia.
Qed.
Print Assumptions C08_more_processes_than_nodes_refuted.
