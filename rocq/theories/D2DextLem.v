(** Lemmas about the halo exchange model. *)
From Coq Require Import ZArith List Lia Bool Sorting.Sorted.
From Coq Require Import ZifyBool ZifyNat.
From Verif Require Import CBase BlockDecomp WorkSplit Mem D2D Ring D2Dext.
Import ListNotations.
Local Open Scope Z_scope.

(** ** One direction *)
Section Dir.
Variables (n p : Z).
Hypothesis Hp : 1 <= p <= n.

(** Distance already covered before layer l. *)
Definition dist (sign c l : Z) : Z :=
  if sign =? 1 then ustart n p (c + l) - ustart n p (c + 1)
  else ustart n p c - ustart n p (c - l + 1).
Lemma dist_1 sign c : dist sign c 1 = 0.
Proof. unfold dist. destruct (sign =? 1); [lia|]. replace (c - 1 + 1) with c by lia. lia. Qed.
Lemma dist_nonneg sign c l : 1 <= l -> 0 <= dist sign c l.
Proof.
  intros Hl. unfold dist. destruct (sign =? 1).
  - pose proof (ustart_mono n p (c+1) (c+l) Hp ltac:(lia)). lia.
  - pose proof (ustart_mono n p (c-l+1) c Hp ltac:(lia)). lia.
Qed.
Lemma dist_step sign c l : sign = 1 \/ sign = -1 -> 2 <= l ->
  dist sign c l = bsize n p (c + sign) + dist sign ((c + sign) mod p) (l - 1).
Proof.
  intros Hs Hl. unfold dist. destruct Hs as [-> | ->].
  - cbn [Z.eqb Pos.eqb].
    rewrite ustart_diff_mod by lia.
    pose proof (ustart_S n p (c + 1) ltac:(lia) ltac:(lia)) as S.
    replace (c + 1 + (l - 1)) with (c + l) by lia. lia.
  - cbn [Z.eqb].
    pose proof (ustart_S n p (c - 1) ltac:(lia) ltac:(lia)) as S.
    replace (c - 1 + 1) with c in S by lia.
    replace (c + -1) with (c - 1) by lia.
    pose proof (ustart_diff_mod n p (c - 1) 0 (- (l - 1) + 1) ltac:(lia)) as E.
    rewrite !Z.add_0_r in E.
    replace ((c - 1) mod p + (- (l - 1) + 1)) with ((c - 1) mod p - (l - 1) + 1) in E by lia.
    replace (c - 1 + (- (l - 1) + 1)) with (c - l + 1) in E by lia. lia.
Qed.

Lemma layer_counts_spec recv N sign : sign = 1 \/ sign = -1 ->
  forall fuel c ext, 0 <= c < p -> ext <= Z.of_nat fuel ->
  exists L, layer_counts recv fuel n p sign c ext N = Ok L /\
    forall l, 1 <= l -> nth_error L (Z.to_nat (l - 1)) =
      if dist sign c l <? ext
      then Some (Z.min (ext - dist sign c l) (if recv then bsize n p (c + sign * l) else N))
      else None.
Proof.
  intros Hs. induction fuel as [|f IH]; intros c ext Hc Hf; cbn [layer_counts].
  - replace (ext >? 0) with false by lia. exists []. split; [reflexivity|].
    intros l Hl. pose proof (dist_nonneg sign c l Hl).
    replace (dist sign c l <? ext) with false by lia. now destruct (Z.to_nat (l - 1)).
  - destruct (ext >? 0) eqn:E.
    2:{ exists []. split; [reflexivity|].
        intros l Hl. pose proof (dist_nonneg sign c l Hl).
        replace (dist sign c l <? ext) with false by lia. now destruct (Z.to_nat (l - 1)). }
    unfold c_mod. replace (p =? 0) with false by lia. cbn [obind].
    assert (Ec : Z.rem (c + sign + p) p = (c + sign) mod p).
    { rewrite rem_mod_nonneg by lia.
      replace (c + sign + p) with (c + sign + 1 * p) by lia. apply Z.mod_add. lia. }
    rewrite Ec. set (c' := (c + sign) mod p).
    assert (Hc' : 0 <= c' < p) by (apply Z.mod_pos_bound; lia).
    assert (Esz : block_decompose n p c' = bsize n p (c + sign)) by reflexivity.
    rewrite Esz. pose proof (bsize_pos n p (c + sign) Hp) as Hsz.
    set (sz := bsize n p (c + sign)) in *. cbv zeta.
    set (cnt := if recv then Z.min ext sz else Z.min ext N).
    set (ext' := ext - (if recv then cnt else sz)).
    assert (Hext' : ext' <= Z.of_nat f).
    { unfold ext', cnt. destruct recv; lia. }
    destruct (IH c' ext' Hc' Hext') as (L & EL & HL). rewrite EL. cbn [obind].
    exists (cnt :: L). split; [reflexivity|]. intros l Hl.
    destruct (Z.eq_dec l 1) as [->|Nl].
    + rewrite dist_1. replace (0 <? ext) with true by lia.
      change (Z.to_nat (1 - 1)) with 0%nat. cbn [nth_error]. f_equal. unfold cnt.
      rewrite Z.sub_0_r, Z.mul_1_r. destruct recv; reflexivity.
    + replace (Z.to_nat (l - 1)) with (S (Z.to_nat (l - 1 - 1))) by lia. cbn [nth_error].
      rewrite HL by lia. rewrite (dist_step sign c l Hs) by lia. fold c' sz.
      pose proof (dist_nonneg sign c' (l - 1) ltac:(lia)) as Hd.
      assert (Eb : bsize n p (c' + sign * (l - 1)) = bsize n p (c + sign * l)).
      { unfold bsize. f_equal. unfold c'.
        rewrite Z.add_mod_idemp_l by lia. f_equal. lia. }
      rewrite Eb. set (D := dist sign c' (l - 1)) in *. clearbody D.
      unfold ext', cnt. clear - Hd Hsz E. clearbody sz.
      destruct recv.
      * destruct (Z_le_gt_dec ext sz) as [G|G].
        -- replace (Z.min ext sz) with ext by lia.
           replace (D <? ext - ext) with false by lia.
           replace (sz + D <? ext) with false by lia. reflexivity.
        -- replace (Z.min ext sz) with sz by lia.
           destruct (D <? ext - sz) eqn:E1.
           ++ replace (sz + D <? ext) with true by lia. f_equal. f_equal. lia.
           ++ replace (sz + D <? ext) with false by lia. reflexivity.
      * destruct (D <? ext - sz) eqn:E1.
        -- replace (sz + D <? ext) with true by lia. f_equal. f_equal. lia.
        -- replace (sz + D <? ext) with false by lia. reflexivity.
Qed.

(** Offset o has something to exchange with block c. *)
Definition in_layer (ext c o : Z) : Prop :=
  ustart n p (c + o) < ustart n p (c + 1) + ext /\ ustart n p c - ext < ustart n p (c + o + 1).
(** Unwrapped nodes of the part of block c+o inside the extended block c. *)
Definition seg_lo (ext c o : Z) : Z := Z.max (ustart n p (c + o)) (ustart n p c - ext).
Definition seg_hi (ext c o : Z) : Z := Z.min (ustart n p (c + o + 1)) (ustart n p (c + 1) + ext).
(** Unwrapped nodes of block c needed by block c+o. *)
Definition out_lo (ext c o : Z) : Z := Z.max (ustart n p c) (ustart n p (c + o) - ext).
Definition out_hi (ext c o : Z) : Z := Z.min (ustart n p (c + 1)) (ustart n p (c + o + 1) + ext).

Lemma nth_error_len {B} (L : list B) (P : Z -> bool) (f : Z -> B) :
  (forall l, 1 <= l -> nth_error L (Z.to_nat (l - 1)) = if P l then Some (f l) else None) ->
  forall l, 1 <= l -> (P l = true <-> l <= Z.of_nat (length L)).
Proof.
  intros H l Hl. specialize (H l Hl). destruct (P l).
  - split; [intros _|auto]. assert (Z.to_nat (l - 1) < length L)%nat; [|lia].
    apply nth_error_Some. congruence.
  - split; [discriminate|]. intros. apply nth_error_None in H. lia.
Qed.

Lemma dir_info_spec recv c ext : 0 <= c < p -> 0 <= ext ->
  exists t, dir_info recv n p c ext = Ok t /\ 0 <= dl t /\ 0 <= dr t /\
    Z.of_nat (length (dcounts t)) = dl t + dr t + 1 /\
    (forall o, - dl t <= o <= dr t <-> in_layer ext c o) /\
    (forall o, - dl t <= o <= dr t ->
       dcount t o = if recv then seg_hi ext c o - seg_lo ext c o
                    else out_hi ext c o - out_lo ext c o).
Proof.
  intros Hc He. unfold dir_info.
  assert (Hsz : block_decompose n p c = bsize n p c)
    by (unfold bsize; now rewrite Z.mod_small by lia).
  rewrite Hsz. set (N := bsize n p c).
  destruct (layer_counts_spec recv N (-1) ltac:(now right) (Z.to_nat ext) c ext Hc ltac:(lia))
    as (L & EL & HL).
  destruct (layer_counts_spec recv N 1 ltac:(now left) (Z.to_nat ext) c ext Hc ltac:(lia))
    as (R & ER & HR).
  rewrite EL, ER. cbn [obind]. eexists. split; [reflexivity|]. cbn [dl dr dcounts].
  split; [lia|]. split; [lia|].
  split; [rewrite app_length, rev_length; cbn [length]; lia|].
  assert (LL := nth_error_len L (fun l => dist (-1) c l <? ext) _ HL).
  assert (LR := nth_error_len R (fun l => dist 1 c l <? ext) _ HR).
  cbv beta in LL, LR.
  assert (SC := ustart_S n p c ltac:(lia) ltac:(lia)). fold N in SC.
  assert (PN : 1 <= N) by (apply bsize_pos; lia).
  assert (Lay : forall o, - Z.of_nat (length L) <= o <= Z.of_nat (length R) <-> in_layer ext c o).
  { intros o. unfold in_layer. destruct (Z.lt_trichotomy o 0) as [C|[C|C]].
    - specialize (LL (- o) ltac:(lia)). unfold dist in LL. cbn [Z.eqb] in LL.
      replace (c - - o + 1) with (c + o + 1) in LL by lia.
      pose proof (ustart_mono n p (c + o) c Hp ltac:(lia)).
      rewrite Z.ltb_lt in LL. lia.
    - subst o. rewrite Z.add_0_r. lia.
    - specialize (LR o ltac:(lia)). unfold dist in LR. cbn [Z.eqb Pos.eqb] in LR.
      pose proof (ustart_mono n p c (c + o + 1) Hp ltac:(lia)).
      rewrite Z.ltb_lt in LR. lia. }
  split; [exact Lay|].
  intros o Ho. unfold dcount. cbn [dl dcounts].
  apply Lay in Ho as IL. unfold in_layer in IL.
  pose proof (ustart_S n p (c + o) ltac:(lia) ltac:(lia)) as So.
  destruct (Z.lt_trichotomy o 0) as [C|[C|C]].
  - rewrite app_nth1 by (rewrite rev_length; lia).
    rewrite rev_nth by lia.
    specialize (HL (- o) ltac:(lia)).
    replace (length L - S (Z.to_nat (o + Z.of_nat (length L))))%nat
      with (Z.to_nat (- o - 1)) by lia.
    unfold dist in HL. cbn [Z.eqb] in HL. replace (c - - o + 1) with (c + o + 1) in HL by lia.
    replace (_ <? ext) with true in HL by lia.
    rewrite (nth_error_nth L _ 0 HL).
    pose proof (ustart_mono n p (c + o + 1) c Hp ltac:(lia)).
    destruct recv.
    + replace (c + -1 * - o) with (c + o) by lia. unfold seg_hi, seg_lo. lia.
    + unfold out_hi, out_lo. pose proof (ustart_mono n p (c+o) (c+o+1) Hp ltac:(lia)). lia.
  - subst o. rewrite app_nth2 by (rewrite rev_length; lia).
    rewrite rev_length. replace (Z.to_nat (0 + Z.of_nat (length L)) - length L)%nat with 0%nat by lia.
    cbn [nth]. unfold seg_hi, seg_lo, out_hi, out_lo. rewrite !Z.add_0_r in *.
    destruct recv; lia.
  - rewrite app_nth2 by (rewrite rev_length; lia). rewrite rev_length.
    replace (Z.to_nat (o + Z.of_nat (length L)) - length L)%nat with (S (Z.to_nat (o - 1))) by lia.
    cbn [nth]. specialize (HR o ltac:(lia)).
    unfold dist in HR. cbn [Z.eqb Pos.eqb] in HR.
    replace (_ <? ext) with true in HR by lia.
    rewrite (nth_error_nth R _ 0 HR).
    pose proof (ustart_mono n p (c + 1) (c + o) Hp ltac:(lia)).
    destruct recv.
    + rewrite Z.mul_1_l. unfold seg_hi, seg_lo. lia.
    + unfold out_hi, out_lo. pose proof (ustart_mono n p (c+o) (c+o+1) Hp ltac:(lia)). lia.
Qed.

Lemma skipn_nth_sum (l : list Z) : forall k, (k < length l)%nat ->
  zsum (skipn k l) = nth k l 0 + zsum (skipn (S k) l).
Proof.
  induction l as [|a l IH]; intros k Hk; cbn [length] in Hk; [lia|].
  destruct k; [reflexivity|]. cbn [skipn nth]. apply IH. lia.
Qed.

(** Suffix sums of the receive counts: where the segment of offset o ends. *)
Lemma suffix_counts c ext t : 0 <= c < p -> 0 <= ext ->
  dir_info true n p c ext = Ok t ->
  forall o, - dl t <= o <= dr t ->
    zsum (skipn (S (Z.to_nat (o + dl t))) (dcounts t)) = ustart n p (c + 1) + ext - seg_hi ext c o.
Proof.
  intros Hc He Et.
  destruct (dir_info_spec true c ext Hc He) as (t' & Et' & Hl & Hr & Hlen & Lay & Cnt).
  rewrite Et in Et'. injection Et' as <-.
  assert (G : forall k : nat, forall o, o = dr t - Z.of_nat k -> - dl t <= o ->
    zsum (skipn (S (Z.to_nat (o + dl t))) (dcounts t)) = ustart n p (c + 1) + ext - seg_hi ext c o).
  { induction k as [|k IH]; intros o Ho Hol.
    - replace o with (dr t) by lia.
      rewrite skipn_all2 by lia. cbn [zsum fold_right]. unfold seg_hi.
      assert (NL : ~ in_layer ext c (dr t + 1)) by (rewrite <- Lay; lia).
      unfold in_layer in NL. 
      pose proof (ustart_mono n p c (c + (dr t + 1) + 1) Hp ltac:(lia)).
      replace (c + (dr t + 1)) with (c + dr t + 1) in NL, H by lia. lia.
    - rewrite skipn_nth_sum by lia.
      replace (S (Z.to_nat (o + dl t))) with (Z.to_nat (o + 1 + dl t)) by lia.
      rewrite (IH (o + 1)) by lia.
      assert (Ho1 : - dl t <= o + 1 <= dr t) by lia.
      pose proof (Cnt (o + 1) Ho1) as C1. unfold dcount in C1. rewrite C1.
      apply Lay in Ho1 as I1. assert (I0 : in_layer ext c o) by (apply Lay; lia).
      unfold in_layer in I0, I1. unfold seg_hi, seg_lo.
      replace (c + (o + 1)) with (c + o + 1) in * by lia.
      destruct (Z_le_gt_dec 0 o) as [C|C].
      + pose proof (ustart_mono n p c (c + o + 1) Hp ltac:(lia)). lia.
      + pose proof (ustart_mono n p (c + o + 1) (c+1) Hp ltac:(lia)). lia. }
  intros o Ho. apply (G (Z.to_nat (dr t - o))); lia.
Qed.

(** The first segment starts at the left end of the extended block. *)
Lemma seg_cover c ext t : 0 <= c < p -> 0 <= ext ->
  dir_info true n p c ext = Ok t ->
  forall u, ustart n p c - ext <= u < ustart n p (c + 1) + ext ->
    exists o, - dl t <= o <= dr t /\ seg_lo ext c o <= u < seg_hi ext c o.
Proof.
  intros Hc He Et u Hu.
  destruct (dir_info_spec true c ext Hc He) as (t' & Et' & Hl & Hr & Hlen & Lay & Cnt).
  rewrite Et in Et'. injection Et' as <-.
  assert (B : exists m, ustart n p m <= u < ustart n p (m + 1)).
  { assert (G : forall k : nat, forall a, ustart n p a <= u -> u < ustart n p (a + Z.of_nat k) ->
       exists m, ustart n p m <= u < ustart n p (m + 1)).
    { induction k as [|k IH]; intros a H1 H2.
      - replace (a + Z.of_nat 0) with a in H2 by lia. lia.
      - destruct (Z_le_gt_dec (ustart n p (a + 1)) u) as [C|C].
        + apply (IH (a + 1)); [lia|]. replace (a + 1 + Z.of_nat k) with (a + Z.of_nat (S k)) by lia. lia.
        + exists a. lia. }
    apply (G (Z.to_nat (2 * ext + 1 + ext)) (c - ext)).
    - pose proof (ustart_mono n p (c - ext) c Hp ltac:(lia)). lia.
    - pose proof (ustart_mono n p (c+1) (c - ext + Z.of_nat (Z.to_nat (2 * ext + 1 + ext))) Hp ltac:(lia)).
      lia. }
  destruct B as (m & Hm). exists (m - c).
  assert (In : in_layer ext c (m - c)).
  { unfold in_layer. replace (c + (m - c)) with m by lia. lia. }
  split; [now apply Lay|].
  unfold seg_lo, seg_hi. replace (c + (m - c)) with m by lia. lia.
Qed.
End Dir.
