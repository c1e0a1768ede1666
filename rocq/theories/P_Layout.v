(** Properties C09 (band-parallel <-> domain-parallel), C10 (in-place
    interleaving), C11 (sub-grid and block copies). *)
From Coq Require Import ZArith List Lia Bool.
From Coq Require Import ZifyBool ZifyNat.
From Verif Require Import CBase BlockDecomp WorkSplit Mem Layout.
Import ListNotations.
Local Open Scope Z_scope.

(** ** Tables of consecutive ranges *)
Definition table (np tot : Z) (dis : Z -> Z) : Prop :=
  dis 0 = 0 /\ dis np = tot /\ forall i, 0 <= i < np -> dis i <= dis (i + 1).
Lemma table_mono np tot dis i j : table np tot dis -> 0 <= i <= j -> j <= np -> dis i <= dis j.
Proof.
  intros (_ & _ & M) Hij Hj. replace j with (i + Z.of_nat (Z.to_nat (j - i))) in * by lia.
  remember (Z.to_nat (j - i)) as k eqn:E. clear E. induction k.
  - replace (i + Z.of_nat 0) with i by lia. lia.
  - specialize (M (i + Z.of_nat k) ltac:(lia)).
    replace (i + Z.of_nat k + 1) with (i + Z.of_nat (S k)) in M by lia.
    assert (dis i <= dis (i + Z.of_nat k)) by (apply IHk; lia). lia.
Qed.
Lemma table_unique np tot dis w a i j : table np tot dis -> 0 <= w ->
  0 <= i < np -> 0 <= j < np ->
  w * dis i <= a < w * dis (i + 1) -> w * dis j <= a < w * dis (j + 1) -> i = j.
Proof.
  intros T Hw Hi Hj A B. destruct (Z.lt_trichotomy i j) as [C|[C|C]]; [|assumption|].
  - pose proof (table_mono np tot dis (i + 1) j T ltac:(lia) ltac:(lia)). exfalso. nia.
  - pose proof (table_mono np tot dis (j + 1) i T ltac:(lia) ltac:(lia)). exfalso. nia.
Qed.
Lemma table_owner np tot dis c : table np tot dis -> 0 <= np -> 0 <= c < tot ->
  exists i, 0 <= i < np /\ dis i <= c < dis (i + 1).
Proof.
  intros T Hn Hc. pose proof T as (T0 & Tn & _).
  assert (G : forall k : nat, Z.of_nat k <= np -> c < dis (Z.of_nat k) ->
    exists i, 0 <= i < Z.of_nat k /\ dis i <= c < dis (i + 1)).
  { induction k as [|k IH]; intros Hk Hlt.
    - change (Z.of_nat 0) with 0 in Hlt. lia.
    - destruct (Z_le_gt_dec (dis (Z.of_nat k)) c) as [C|C].
      + exists (Z.of_nat k). replace (Z.of_nat k + 1) with (Z.of_nat (S k)) by lia. lia.
      + destruct (IH ltac:(lia) ltac:(lia)) as (i & Hi & Hd). exists i. split; [lia|assumption]. }
  destruct (G (Z.to_nat np)) as (i & Hi & Hd); [lia| |exists i; split; [lia|assumption]].
  rewrite Z2Nat.id by lia. lia.
Qed.

Lemma cnts_eq w dis i : dis 0 = 0 -> cnts w dis i = w * (dis (i + 1) - dis i).
Proof.
  intros H. unfold cnts. destruct (i =? 0) eqn:E; [|reflexivity].
  replace i with 0 by lia. rewrite H. change (0 + 1) with 1. lia.
Qed.
Lemma displs_eq w dis k : dis 0 = 0 -> displs w dis k = w * dis (Z.of_nat k).
Proof.
  intros H. induction k; cbn [displs].
  - change (Z.of_nat 0) with 0. lia.
  - rewrite IHk, cnts_eq by assumption. replace (Z.of_nat (S k)) with (Z.of_nat k + 1) by lia. lia.
Qed.

(** All stores of an all-to-all. *)
Lemma alltoallv_writes {A} (sbuf : Z -> mem A) scnt sdis j rcnt rdis : forall k i rbuf,
  (forall q, i <= q < i + Z.of_nat k -> scnt q j = rcnt q) ->
  alltoallv sbuf scnt sdis j rcnt rdis i k rbuf
  = Ok (run_writes rbuf (flat_map (fun q =>
        loop1 (rcnt q) (fun t => (rdis q + t, sbuf q (sdis q j + t)))) (zseq i k))).
Proof.
  induction k as [|k IH]; intros i rbuf H; cbn [alltoallv zseq flat_map]; [reflexivity|].
  replace (scnt i j =? rcnt i) with true by (rewrite H by lia; symmetry; apply Z.eqb_refl).
  rewrite IH by (intros; apply H; lia). now rewrite run_writes_app.
Qed.

Section BPDP.
Context {A : Type}.
Variables (np ld Nd Ns : Z) (rdp sbp Ns_bp : Z -> Z).
Hypothesis Hnp : 1 <= np.
Hypothesis Hld : Nd <= ld.
Hypothesis Tr : table np Nd rdp.
Hypothesis Ts : table np Ns sbp.
Hypothesis HNs : forall i, 0 <= i < np -> Ns_bp i = sbp (i + 1) - sbp i.

Lemma nd_nonneg j : 0 <= j < np -> 0 <= Nd_dp rdp j.
Proof. intros Hj. unfold Nd_dp. destruct Tr as (_ & _ & M). specialize (M j Hj). lia. Qed.
Lemma ns_nonneg i : 0 <= i < np -> 0 <= Ns_bp i.
Proof. intros Hi. rewrite HNs by assumption. destruct Ts as (_ & _ & M). specialize (M i Hi). lia. Qed.
Lemma bp2dp_dis_eq i j : 0 <= j -> bp2dp_dis rdp Ns_bp i j = Ns_bp i * rdp j.
Proof.
  intros Hj. unfold bp2dp_dis. destruct Tr as (R0 & _). rewrite displs_eq by assumption.
  now rewrite Z2Nat.id by lia.
Qed.
Lemma dp2bp_dis_eq i j : 0 <= j -> dp2bp_dis rdp sbp i j = Nd_dp rdp i * sbp j.
Proof.
  intros Hj. unfold dp2bp_dis. destruct Ts as (R0 & _). rewrite displs_eq by assumption.
  now rewrite Z2Nat.id by lia.
Qed.
Lemma cnt_match i j : 0 <= i < np -> 0 <= j < np ->
  bp2dp_cnt rdp Ns_bp i j = Ns_bp i * Nd_dp rdp j /\ dp2bp_cnt rdp sbp j i = Ns_bp i * Nd_dp rdp j.
Proof.
  intros Hi Hj. unfold bp2dp_cnt, dp2bp_cnt. destruct Tr as (R0 & _). destruct Ts as (S0 & _).
  rewrite !cnts_eq by assumption. rewrite (HNs i Hi). unfold Nd_dp. split; ring.
Qed.

(** Split of a block-local position. *)
Lemma block_pos w n t : 0 <= t < w * n -> 0 <= w -> 0 <= n ->
  exists c r, 0 <= c < w /\ 0 <= r < n /\ t = c * n + r.
Proof.
  intros Ht Hw Hn. assert (0 < n) by nia.
  exists (t / n), (t mod n). pose proof (Z.div_mod t n ltac:(lia)). pose proof (Z.mod_pos_bound t n ltac:(lia)).
  assert (0 <= t / n) by (apply Z.div_pos; lia).
  assert (t / n < w) by (apply Z.div_lt_upper_bound; lia). split; [lia|]. split; lia.
Qed.

Lemma bp_pack_val i j (bp pk : mem A) c r : 0 <= i < np -> 0 <= j < np ->
  0 <= c < Ns_bp i -> 0 <= r < Nd_dp rdp j ->
  bp_pack np ld rdp Ns_bp i bp pk (Ns_bp i * rdp j + (c * Nd_dp rdp j + r)) = bp (rdp j + c * ld + r).
Proof.
  intros Hi Hj Hc Hr. unfold bp_pack. apply run_writes_in.
  - eexists. apply in_flat_map. exists j. rewrite in_zseq. split; [lia|].
    unfold copy_mat_blk. apply in_loop2. exists c, r. split; [lia|]. split; [exact Hr|].
    f_equal. rewrite bp2dp_dis_eq by lia. unfold Nd_dp. ring.
  - intros w Hw. apply in_flat_map in Hw. destruct Hw as (j' & Hj' & Hw). rewrite in_zseq in Hj'.
    apply in_loop2 in Hw. destruct Hw as (c' & r' & Hc' & Hr' & E). injection E as Ea ->.
    rewrite bp2dp_dis_eq in Ea by lia.
    assert (j' = j).
    { symmetry. apply (table_unique np Nd rdp (Ns_bp i) (Ns_bp i * rdp j + (c * Nd_dp rdp j + r))); auto; try lia.
      - unfold Nd_dp in *. set (a := rdp (j + 1)) in *. set (b := rdp j) in *. clearbody a b. nia.
      - rewrite Ea. set (a := rdp (j' + 1)) in *. set (b := rdp j') in *. clearbody a b. nia. }
    subst j'. unfold Nd_dp in Ea.
    assert (Eq : c * (rdp (j + 1) - rdp j) + r = c' * (rdp (j + 1) - rdp j) + r') by lia.
    apply radix_inj in Eq; [|exact Hr|exact Hr']. destruct Eq as [-> ->]. reflexivity.
Qed.

(** BP2DP, pointwise. *)
Lemma BP2DP_val (bp pk : Z -> mem A) j dp : 0 <= j < np ->
  exists m, BP2DP np ld rdp sbp Ns_bp bp pk j dp = Ok m /\
    (forall i c r, 0 <= i < np -> 0 <= c < Ns_bp i -> 0 <= r < Nd_dp rdp j ->
       m ((sbp i + c) * Nd_dp rdp j + r) = bp i (c * ld + (rdp j + r))) /\
    (forall a, ~ 0 <= a < Nd_dp rdp j * Ns -> m a = dp a).
Proof.
  intros Hj. unfold BP2DP. eexists. split.
  { apply alltoallv_writes. intros i Hi. destruct (cnt_match i j ltac:(lia) Hj) as [-> ->]. reflexivity. }
  split.
  - intros i c r Hi Hc Hr.
    assert (Epos : (sbp i + c) * Nd_dp rdp j + r = Nd_dp rdp j * sbp i + (c * Nd_dp rdp j + r)) by ring.
    rewrite Epos. apply run_writes_in.
    + eexists. apply in_flat_map. exists i. rewrite in_zseq. split; [lia|].
      apply in_loop1. exists (c * Nd_dp rdp j + r).
      destruct (cnt_match i j Hi Hj) as [_ ->]. rewrite dp2bp_dis_eq by lia. split; [nia|reflexivity].
    + intros v Hv. apply in_flat_map in Hv. destruct Hv as (i' & Hi' & Hv). rewrite in_zseq in Hi'.
      apply in_loop1 in Hv. destruct Hv as (t & Ht & E). injection E as Ea ->.
      destruct (cnt_match i' j ltac:(lia) Hj) as [_ Ec]. rewrite Ec in Ht.
      rewrite dp2bp_dis_eq in Ea by lia.
      pose proof (nd_nonneg j Hj) as Pd. pose proof (ns_nonneg i' ltac:(lia)) as Ps.
      assert (i' = i).
      { symmetry. apply (table_unique np Ns sbp (Nd_dp rdp j) (Nd_dp rdp j * sbp i + (c * Nd_dp rdp j + r))); auto; try lia.
        - rewrite HNs in Hc by assumption. set (a := sbp (i + 1)) in *. set (b := sbp i) in *. clearbody a b. nia.
        - rewrite Ea. rewrite HNs in Ht by lia. set (a := sbp (i' + 1)) in *. set (b := sbp i') in *. clearbody a b. nia. }
      subst i'. assert (t = c * Nd_dp rdp j + r) by lia. subst t.
      rewrite bp2dp_dis_eq by lia. rewrite bp_pack_val by assumption. f_equal. ring.
  - intros a Ha. apply run_writes_notin. intros v Hv. apply Ha.
    apply in_flat_map in Hv. destruct Hv as (i & Hi & Hv). rewrite in_zseq in Hi.
    apply in_loop1 in Hv. destruct Hv as (t & Ht & E). injection E as Ea ->.
    destruct (cnt_match i j ltac:(lia) Hj) as [_ Ec]. rewrite Ec in Ht.
    rewrite dp2bp_dis_eq in Ea by lia. rewrite HNs in Ht by lia.
    pose proof (table_mono np Ns sbp 0 i Ts ltac:(lia) ltac:(lia)) as M0.
    pose proof (table_mono np Ns sbp (i + 1) np Ts ltac:(lia) ltac:(lia)) as M1.
    destruct Ts as (S0 & Sn & _). rewrite S0 in M0. rewrite Sn in M1.
    pose proof (nd_nonneg j Hj) as Pd. clear - Ht Ea M0 M1 Pd. nia.
Qed.

(** DP2BP, pointwise. *)
Lemma DP2BP_val (dp : Z -> mem A) i pk bp : 0 <= i < np ->
  exists m, DP2BP np ld rdp sbp Ns_bp dp i pk bp = Ok m /\
    (forall j c r, 0 <= j < np -> 0 <= c < Ns_bp i -> 0 <= r < Nd_dp rdp j ->
       m (c * ld + (rdp j + r)) = dp j ((sbp i + c) * Nd_dp rdp j + r)) /\
    (forall a, (forall c r, 0 <= c < Ns_bp i -> 0 <= r < Nd -> a <> c * ld + r) -> m a = bp a).
Proof.
  intros Hi. unfold DP2BP. pose proof (ns_nonneg i Hi) as Ps.
  rewrite alltoallv_writes
    by (intros j Hj; destruct (cnt_match i j Hi ltac:(lia)) as [-> ->]; reflexivity).
  cbn [obind]. eexists. split; [reflexivity|].
  assert (PK : forall j c r, 0 <= j < np -> 0 <= c < Ns_bp i -> 0 <= r < Nd_dp rdp j ->
    run_writes pk (flat_map (fun q => loop1 (bp2dp_cnt rdp Ns_bp i q) (fun t =>
         (bp2dp_dis rdp Ns_bp i q + t, dp q (dp2bp_dis rdp sbp q i + t)))) (zseq 0 (Z.to_nat np)))
      (Ns_bp i * rdp j + (c * Nd_dp rdp j + r)) = dp j ((sbp i + c) * Nd_dp rdp j + r)).
  { intros j c r Hj Hc Hr. pose proof (nd_nonneg j Hj) as Pd. apply run_writes_in.
    - eexists. apply in_flat_map. exists j. rewrite in_zseq. split; [lia|].
      apply in_loop1. exists (c * Nd_dp rdp j + r).
      destruct (cnt_match i j Hi Hj) as [-> _]. rewrite bp2dp_dis_eq by lia. split; [nia|reflexivity].
    - intros v Hv. apply in_flat_map in Hv. destruct Hv as (j' & Hj' & Hv). rewrite in_zseq in Hj'.
      apply in_loop1 in Hv. destruct Hv as (t & Ht & E). injection E as Ea ->.
      destruct (cnt_match i j' Hi ltac:(lia)) as [Ec _]. rewrite Ec in Ht.
      rewrite bp2dp_dis_eq in Ea by lia.
      assert (j' = j).
      { symmetry. apply (table_unique np Nd rdp (Ns_bp i) (Ns_bp i * rdp j + (c * Nd_dp rdp j + r))); auto; try lia.
        - unfold Nd_dp in *. set (a := rdp (j + 1)) in *. set (b := rdp j) in *. clearbody a b. nia.
        - rewrite Ea. unfold Nd_dp in Ht. set (a := rdp (j' + 1)) in *. set (b := rdp j') in *. clearbody a b. nia. }
      subst j'. assert (t = c * Nd_dp rdp j + r) by lia. subst t.
      rewrite dp2bp_dis_eq by lia. f_equal. ring. }
  assert (Rb : forall j r, 0 <= j < np -> 0 <= r < Nd_dp rdp j -> 0 <= rdp j + r < Nd).
  { intros j r Hj Hr. pose proof (table_mono np Nd rdp 0 j Tr ltac:(lia) ltac:(lia)) as M0.
    pose proof (table_mono np Nd rdp (j + 1) np Tr ltac:(lia) ltac:(lia)) as M1.
    destruct Tr as (R0 & Rn & _). rewrite R0 in M0. rewrite Rn in M1. unfold Nd_dp in Hr. lia. }
  split.
  - intros j c r Hj Hc Hr. apply run_writes_in.
    + eexists. apply in_flat_map. exists j. rewrite in_zseq. split; [lia|].
      unfold copy_mat_blk. apply in_loop2. exists c, r. split; [lia|]. split; [exact Hr|].
      f_equal. ring.
    + intros v Hv. apply in_flat_map in Hv. destruct Hv as (j' & Hj' & Hv). rewrite in_zseq in Hj'.
      apply in_loop2 in Hv. destruct Hv as (c' & r' & Hc' & Hr' & E). injection E as Ea ->.
      change (rdp (j' + 1) - rdp j') with (Nd_dp rdp j') in *.
      pose proof (Rb j r Hj Hr) as B1. pose proof (Rb j' r' ltac:(lia) Hr') as B2.
      assert (Eq : c * ld + (rdp j + r) = c' * ld + (rdp j' + r')) by lia.
      apply radix_inj in Eq; [|lia|lia]. destruct Eq as [<- Er].
      assert (j' = j).
      { unfold Nd_dp in *. apply (table_unique np Nd rdp 1 (rdp j + r)); auto; lia. }
      subst j'. assert (r' = r) by lia. subst r'.
      rewrite bp2dp_dis_eq by lia. rewrite <- PK by assumption. f_equal. ring.
  - intros a Ha. apply run_writes_notin. intros v Hv.
    apply in_flat_map in Hv. destruct Hv as (j' & Hj' & Hv). rewrite in_zseq in Hj'.
    apply in_loop2 in Hv. destruct Hv as (c' & r' & Hc' & Hr' & E). injection E as Ea ->.
    apply (Ha c' (rdp j' + r')); [exact Hc'| |lia]. apply Rb; [lia|exact Hr'].
Qed.
End BPDP.

(** ** C09, specification: who owns which bands / rows. *)
(** band groups own consecutive band ranges; group i starts at [band_start]. *)
Definition band_displ (Ns np i : Z) : Z := if i <? np then band_start Ns np i else Ns.
Definition row_displ (Nd np i : Z) : Z :=
  match calc_block_spos Nd np i with Ok v => v | _ => 0 end.
(** Orbital array of band group i: all rows of its bands, leading dimension ld. *)
Definition holds_bands {A} (G : Z -> Z -> A) (Ns np Nd ld i : Z) (m : mem A) : Prop :=
  forall r c, 0 <= r < Nd -> 0 <= c < Nband_bandcomm Ns np i ->
    m (c * ld + r) = G r (band_start Ns np i + c).
(** Domain-parallel array of process j: its rows of all bands. *)
Definition holds_rows {A} (G : Z -> Z -> A) (Ns np Nd j : Z) (m : mem A) : Prop :=
  let s := row_displ Nd np j in let n := row_displ Nd np (j + 1) - s in
  forall r c, 0 <= r < n -> 0 <= c < Ns -> m (c * n + r) = G (s + r) c.

Lemma band_table Ns np : 1 <= Ns -> 1 <= np -> table np Ns (band_displ Ns np) /\
  forall i, 0 <= i < np -> Nband_bandcomm Ns np i = band_displ Ns np (i + 1) - band_displ Ns np i.
Proof.
  intros Hs Hn. unfold table, band_displ.
  destruct (band_NB_bounds Ns np Hs Hn) as [HN HB].
  assert (S : forall i, 0 <= i < np ->
     (if i + 1 <? np then band_start Ns np (i + 1) else Ns) = Z.min ((i + 1) * band_NB Ns np) Ns).
  { intros i Hi. destruct (i + 1 <? np) eqn:E.
    - now destruct (band_range Ns np (i + 1) Hs Hn ltac:(lia)) as [-> _].
    - replace (i + 1) with np by lia. lia. }
  assert (F : forall i, 0 <= i < np -> band_start Ns np i = Z.min (i * band_NB Ns np) Ns).
  { intros i Hi. now destruct (band_range Ns np i Hs Hn ltac:(lia)) as [-> _]. }
  split; [split; [|split]|].
  - replace (0 <? np) with true by lia. rewrite F by lia. lia.
  - now replace (np <? np) with false by lia.
  - intros i Hi. replace (i <? np) with true by lia. rewrite S, F by lia.
    set (NB := band_NB Ns np) in *. clearbody NB. clear - HN. nia.
  - intros i Hi. replace (i <? np) with true by lia. rewrite S by lia.
    destruct (band_range Ns np i Hs Hn ltac:(lia)) as [E1 E2]. lia.
Qed.
Lemma row_table Nd np : 0 <= Nd -> 1 <= np ->
  (forall i, 0 <= i <= np -> exists v, calc_block_spos Nd np i = Ok v) /\ table np Nd (row_displ Nd np).
Proof.
  intros Hd Hn.
  assert (V : forall i, 0 <= i <= np -> calc_block_spos Nd np i =
     Ok (if i <? Nd mod np then (Nd / np + 1) * i else Nd / np * i + Nd mod np)).
  { intros i Hi. unfold calc_block_spos, c_mod, c_div.
    replace ((i <? 0) || (i >? np)) with false by lia. replace (np =? 0) with false by lia.
    cbn [obind]. rewrite quot_div_nonneg, rem_mod_nonneg by lia. reflexivity. }
  split; [intros i Hi; rewrite V by assumption; now eexists|].
  assert (D := Z.div_mod Nd np ltac:(lia)). assert (M := Z.mod_pos_bound Nd np ltac:(lia)).
  assert (Q : 0 <= Nd / np) by (apply Z.div_pos; lia).
  unfold table, row_displ.
  split; [|split].
  - rewrite V by lia. destruct (0 <? Nd mod np) eqn:E; [lia|]. lia.
  - rewrite V by lia. replace (np <? Nd mod np) with false by lia. lia.
  - intros i Hi. rewrite !V by lia.
    set (q := Nd / np) in *. set (m := Nd mod np) in *. clearbody q m.
    destruct (i <? m) eqn:E1, (i + 1 <? m) eqn:E2; nia.
Qed.

(** C09.  Band-parallel to domain-parallel conversion delivers to every process
    its rows of all bands and writes nothing else; no count mismatch. *)
Theorem C09_bp_to_dp : forall (A : Type) (G : Z -> Z -> A) np ld Nd Ns bp pk j dp,
  1 <= np -> 1 <= Ns -> 0 <= Nd <= ld -> 0 <= j < np ->
  (forall i, 0 <= i < np -> holds_bands G Ns np Nd ld i (bp i)) ->
  exists m, BP2DP np ld (row_displ Nd np) (band_displ Ns np) (Nband_bandcomm Ns np) bp pk j dp = Ok m /\
    holds_rows G Ns np Nd j m /\
    forall a, ~ 0 <= a < (row_displ Nd np (j + 1) - row_displ Nd np j) * Ns -> m a = dp a.
Proof.
  intros A G np ld Nd Ns bp pk j dp Hn Hs Hd Hj H.
  destruct (band_table Ns np Hs Hn) as [Tb Eb]. destruct (row_table Nd np ltac:(lia) Hn) as [_ Tr].
  destruct (BP2DP_val np ld Nd Ns _ _ _ Hn Tr Tb Eb bp pk j dp Hj) as (m & Em & V & F).
  exists m. split; [exact Em|]. split; [|exact F].
  intros r c Hr Hc.
  destruct (table_owner np Ns _ c Tb ltac:(lia) Hc) as (i & Hi & Hic).
  specialize (V i (c - band_displ Ns np i) r Hi). rewrite Eb in V by assumption.
  replace (band_displ Ns np i + (c - band_displ Ns np i)) with c in V by lia.
  unfold Nd_dp in V. rewrite V by lia.
  pose proof (table_mono np Nd _ 0 j Tr ltac:(lia) ltac:(lia)) as M0.
  pose proof (table_mono np Nd _ (j + 1) np Tr ltac:(lia) ltac:(lia)) as M1.
  destruct Tr as (R0 & Rn & _). rewrite R0 in M0. rewrite Rn in M1.
  rewrite (H i Hi) by (try rewrite Eb by assumption; lia). f_equal.
  unfold band_displ. replace (i <? np) with true by lia. lia.
Qed.
Print Assumptions C09_bp_to_dp.

(** ... and back. *)
Theorem C09_dp_to_bp : forall (A : Type) (G : Z -> Z -> A) np ld Nd Ns dp pk i bp,
  1 <= np -> 1 <= Ns -> 0 <= Nd <= ld -> 0 <= i < np ->
  (forall j, 0 <= j < np -> holds_rows G Ns np Nd j (dp j)) ->
  exists m, DP2BP np ld (row_displ Nd np) (band_displ Ns np) (Nband_bandcomm Ns np) dp i pk bp = Ok m /\
    holds_bands G Ns np Nd ld i m /\
    (forall a, (forall c r, 0 <= c < Nband_bandcomm Ns np i -> 0 <= r < Nd -> a <> c * ld + r) -> m a = bp a).
Proof.
  intros A G np ld Nd Ns dp pk i bp Hn Hs Hd Hi H.
  destruct (band_table Ns np Hs Hn) as [Tb Eb]. destruct (row_table Nd np ltac:(lia) Hn) as [_ Tr].
  destruct (DP2BP_val np ld Nd Ns _ _ _ Hn ltac:(lia) Tr Tb Eb dp i pk bp Hi) as (m & Em & V & F).
  exists m. split; [exact Em|]. split; [|exact F].
  intros r c Hr Hc.
  destruct (table_owner np Nd _ r Tr ltac:(lia) Hr) as (j & Hj & Hjr).
  specialize (V j c (r - row_displ Nd np j) Hj Hc). unfold Nd_dp in V.
  replace (row_displ Nd np j + (r - row_displ Nd np j)) with r in V by lia.
  rewrite V by lia.
  pose proof (table_mono np Ns _ 0 i Tb ltac:(lia) ltac:(lia)) as M0.
  pose proof (table_mono np Ns _ (i + 1) np Tb ltac:(lia) ltac:(lia)) as M1.
  destruct Tb as (R0 & Rn & _). rewrite R0 in M0. rewrite Rn in M1.
  rewrite Eb in Hc by assumption.
  rewrite (H j Hj) by lia. f_equal; [lia|].
  unfold band_displ. replace (i <? np) with true by lia. lia.
Qed.
Print Assumptions C09_dp_to_bp.

(** Round trip: for arbitrary orbitals (no global field assumed), converting
    and converting back into the same array changes nothing at all. *)
Theorem C09_round_trip : forall (A : Type) np ld Nd Ns (bp pk pk' dp : Z -> mem A),
  1 <= np -> 1 <= Ns -> 0 <= Nd <= ld ->
  exists dp', (forall j, 0 <= j < np ->
      BP2DP np ld (row_displ Nd np) (band_displ Ns np) (Nband_bandcomm Ns np) bp pk j (dp j) = Ok (dp' j)) /\
    forall i, 0 <= i < np -> exists m,
      DP2BP np ld (row_displ Nd np) (band_displ Ns np) (Nband_bandcomm Ns np) dp' i (pk' i) (bp i) = Ok m /\
      forall a, m a = bp i a.
Proof.
  intros A np ld Nd Ns bp pk pk' dp Hn Hs Hd.
  destruct (band_table Ns np Hs Hn) as [Tb Eb]. destruct (row_table Nd np ltac:(lia) Hn) as [_ Tr].
  exists (fun j => match BP2DP np ld (row_displ Nd np) (band_displ Ns np) (Nband_bandcomm Ns np) bp pk j (dp j)
                   with Ok m => m | _ => dp j end).
  assert (F : forall j, 0 <= j < np -> exists m,
    BP2DP np ld (row_displ Nd np) (band_displ Ns np) (Nband_bandcomm Ns np) bp pk j (dp j) = Ok m /\
    (forall i c r, 0 <= i < np -> 0 <= c < Nband_bandcomm Ns np i -> 0 <= r < Nd_dp (row_displ Nd np) j ->
       m ((band_displ Ns np i + c) * Nd_dp (row_displ Nd np) j + r) = bp i (c * ld + (row_displ Nd np j + r)))).
  { intros j Hj.
    destruct (BP2DP_val np ld Nd Ns _ _ _ Hn Tr Tb Eb bp pk j (dp j) Hj) as (m & Em & V & _).
    exists m. auto. }
  split.
  - intros j Hj. destruct (F j Hj) as (m & -> & _). reflexivity.
  - intros i Hi.
    match goal with |- exists m, DP2BP _ _ _ _ _ ?d _ _ _ = _ /\ _ => set (dp' := d) end.
    destruct (DP2BP_val np ld Nd Ns _ _ _ Hn ltac:(lia) Tr Tb Eb dp' i (pk' i) (bp i) Hi)
      as (m & Em & V & Fr).
    exists m. split; [exact Em|]. intros a.
    destruct (Z.eq_dec ld 0) as [L0|L0].
    { apply Fr. intros c r _ Hr. lia. }
    pose proof (Z.div_mod a ld ltac:(lia)) as Da. pose proof (Z.mod_pos_bound a ld ltac:(lia)) as Ma.
    destruct (Z_lt_ge_dec (a mod ld) Nd) as [C1|C1];
    [destruct (Z_le_gt_dec 0 (a / ld)) as [C2|C2];
     [destruct (Z_lt_ge_dec (a / ld) (Nband_bandcomm Ns np i)) as [C3|C3]|]|].
    2-4: apply Fr; intros c r Hc Hr E;
         assert (Q : (a / ld) * ld + a mod ld = c * ld + r) by lia;
         apply radix_inj in Q; lia.
    destruct (table_owner np Nd _ (a mod ld) Tr ltac:(lia) ltac:(lia)) as (j & Hj & Hjr).
    set (c := a / ld) in *. set (r := a mod ld) in *.
    specialize (V j c (r - row_displ Nd np j) Hj ltac:(lia)). unfold Nd_dp in V.
    replace (c * ld + (row_displ Nd np j + (r - row_displ Nd np j))) with a in V by lia.
    rewrite V by lia. unfold dp'. destruct (F j Hj) as (mj & -> & Vj).
    specialize (Vj i c (r - row_displ Nd np j) Hi ltac:(lia)). unfold Nd_dp in Vj.
    rewrite Vj by lia. f_equal. lia.
Qed.
Print Assumptions C09_round_trip.

Example C09_example :  (* 7 rows, 5 bands on 3 processes: bands 2+2+1, rows 3+2+2 *)
  let bp i := (fun a => 1000 * (band_start 5 3 i + a / 8) + a mod 8) : mem Z in
  match BP2DP 3 8 (row_displ 7 3) (band_displ 5 3) (Nband_bandcomm 5 3) bp (fun _ _ => -1) 1 (fun _ => -2) with
  | Ok m => map m (zseq 0 11) = [3; 4; 1003; 1004; 2003; 2004; 3003; 3004; 4003; 4004; -2]
  | _ => False end.
Proof. vm_compute. reflexivity. Qed.

(** ** C10: in-place interleaving *)
Section Inter.
Context {A : Type}.
Variables (nrow ncol : Z).
Hypothesis Hrow : 1 <= nrow.
Hypothesis Hcol : 1 <= ncol.

(** Column view of the array. *)
Definition cv (m : mem A) (c r : Z) : A := m (c * nrow + r).
Lemma set_col (m from : mem A) c1 c2 : forall c r, 0 <= r < nrow ->
  cv (run_writes m (loop1 nrow (fun t => (c1 * nrow + t, from (c2 * nrow + t))))) c r
  = if c =? c1 then cv from c2 r else cv m c r.
Proof.
  intros c r Hr. unfold cv. destruct (c =? c1) eqn:E.
  - replace c with c1 by lia. apply run_writes_in.
    + eexists. apply in_loop1. exists r. split; [exact Hr|reflexivity].
    + intros w Hw. apply in_loop1 in Hw. destruct Hw as (t & Ht & Eq). injection Eq as Ea ->.
      f_equal. lia.
  - apply run_writes_notin. intros v Hv. apply in_loop1 in Hv. destruct Hv as (t & Ht & Eq).
    injection Eq as Ea _. apply radix_inj in Ea; lia.
Qed.
Lemma memcpy_col (m : mem A) c1 c2 : c1 <> c2 ->
  exists m', memcpy m (c1 * nrow) (c2 * nrow) nrow = Ok m' /\
    forall c r, 0 <= r < nrow -> cv m' c r = if c =? c1 then cv m c2 r else cv m c r.
Proof.
  intros H. unfold memcpy.
  replace (Z.abs (c1 * nrow - c2 * nrow) <? nrow) with false by nia.
  eexists. split; [reflexivity|]. intros. now apply set_col.
Qed.

(** Column permutation. *)
Definition ee (c : Z) : Z := if c <? ncol then 2 * c else 2 * (c - ncol) + 1.
Definition dd (c : Z) : Z := c / 2 + (c mod 2) * ncol.
Lemma ee_dd c : 0 <= c < 2 * ncol -> ee (dd c) = c /\ 0 <= dd c < 2 * ncol.
Proof.
  intros Hc. unfold ee, dd. pose proof (Z.div_mod c 2 ltac:(lia)). pose proof (Z.mod_pos_bound c 2 ltac:(lia)).
  set (q := c / 2) in *. set (m := c mod 2) in *. clearbody q m.
  assert (m = 0 \/ m = 1) as [-> | ->] by lia.
  - replace (q + 0 * ncol <? ncol) with true by lia. lia.
  - replace (q + 1 * ncol <? ncol) with false by lia. lia.
Qed.
Lemma dd_ee c : 0 <= c < 2 * ncol -> dd (ee c) = c /\ 0 <= ee c < 2 * ncol.
Proof.
  intros Hc. unfold ee, dd. destruct (c <? ncol) eqn:E.
  - rewrite (Z.mul_comm 2 c), Z.div_mul, Z.mod_mul by lia. lia.
  - replace (2 * (c - ncol) + 1) with (1 + (c - ncol) * 2) by lia.
    rewrite Z.div_add, Z.mod_add by lia. change (1 / 2) with 0. change (1 mod 2) with 1. lia.
Qed.

Lemma rev_zseq_S a k : rev (zseq a (S k)) = (a + Z.of_nat k) :: rev (zseq a k).
Proof.
  replace (S k) with (k + 1)%nat by lia. rewrite zseq_app, rev_app_distr. reflexivity.
Qed.

Lemma r2c_loop1 : forall k m,
  exists m', ofold (fun m i => memcpy m (2 * i * nrow) (i * nrow) nrow) (rev (zseq 1 k)) m = Ok m' /\
    forall c r, 0 <= r < nrow ->
      cv m' c r = if (c mod 2 =? 0) && (2 <=? c) && (c <=? 2 * Z.of_nat k) then cv m (c / 2) r else cv m c r.
Proof.
  induction k as [|k IH]; intros m.
  - eexists. split; [reflexivity|]. intros c r Hr.
    replace ((c mod 2 =? 0) && (2 <=? c) && (c <=? 2 * Z.of_nat 0)) with false by lia. reflexivity.
  - rewrite rev_zseq_S. cbn [ofold].
    destruct (memcpy_col m (2 * (1 + Z.of_nat k)) (1 + Z.of_nat k) ltac:(lia)) as (m1 & E1 & H1).
    rewrite E1. cbn [obind]. destruct (IH m1) as (m' & E' & H'). exists m'. split; [exact E'|].
    intros c r Hr. rewrite H' by assumption.
    pose proof (Z.div_mod c 2 ltac:(lia)) as D. pose proof (Z.mod_pos_bound c 2 ltac:(lia)) as B.
    rewrite !H1 by assumption.
    destruct (c mod 2 =? 0) eqn:Ev; cbn [andb].
    + destruct (2 <=? c) eqn:E2; cbn [andb].
      * destruct (c <=? 2 * Z.of_nat k) eqn:E3.
        -- replace (c / 2 =? 2 * (1 + Z.of_nat k)) with false by lia.
           replace (c <=? 2 * Z.of_nat (S k)) with true by lia. reflexivity.
        -- destruct (c <=? 2 * Z.of_nat (S k)) eqn:E4.
           ++ replace (c =? 2 * (1 + Z.of_nat k)) with true by lia. f_equal. lia.
           ++ replace (c =? 2 * (1 + Z.of_nat k)) with false by lia. reflexivity.
      * replace (c =? 2 * (1 + Z.of_nat k)) with false by lia. reflexivity.
    + replace (c =? 2 * (1 + Z.of_nat k)) with false by lia. reflexivity.
Qed.

(** Second loop of both routines: column [dst i] := saved column i. *)
Lemma loop_saved (a_ : mem A) (dst inv : Z -> Z) : forall k m,
  (forall i c, 0 <= i < Z.of_nat k -> (dst i = c <-> inv c = i)) ->
  forall c r, 0 <= r < nrow ->
  cv (fold_left (fun m i => memcpy_from m (dst i * nrow) a_ (i * nrow) nrow) (zseq 0 k) m) c r
  = if (0 <=? inv c) && (inv c <? Z.of_nat k) then cv a_ (inv c) r else cv m c r.
Proof.
  induction k as [|k IH]; intros m Hinv c r Hr.
  - replace ((0 <=? inv c) && (inv c <? Z.of_nat 0)) with false by lia. reflexivity.
  - replace (S k) with (k + 1)%nat at 1 by lia. rewrite zseq_app, fold_left_app.
    cbn [zseq fold_left]. unfold memcpy_from at 1. rewrite set_col by assumption.
    rewrite IH by (try assumption; intros; apply Hinv; lia).
    rewrite !Z.add_0_l.
    destruct (c =? dst (Z.of_nat k)) eqn:E.
    + assert (inv c = Z.of_nat k) as -> by (apply Hinv; lia).
      replace ((0 <=? Z.of_nat k) && (Z.of_nat k <? Z.of_nat (S k))) with true by lia. reflexivity.
    + assert (inv c <> Z.of_nat k) by (intros F; apply (Hinv (Z.of_nat k) c) in F; lia).
      replace ((0 <=? inv c) && (inv c <? Z.of_nat (S k))) with ((0 <=? inv c) && (inv c <? Z.of_nat k)) by lia.
      reflexivity.
Qed.

Lemma saved_cols (a : mem A) v c r : 0 <= c < ncol - 1 -> 0 <= r < nrow ->
  cv (memcpy_from (fun _ => v) 0 a (nrow * ncol) (nrow * (ncol - 1))) c r = cv a (ncol + c) r.
Proof.
  intros Hc Hr. unfold cv, memcpy_from. apply run_writes_in.
  - eexists. apply in_loop1. exists (c * nrow + r). split; [nia|]. reflexivity.
  - intros w Hw. apply in_loop1 in Hw. destruct Hw as (t & Ht & Eq). injection Eq as Ea ->.
    f_equal. lia.
Qed.

Lemma Row2Col_cols (a : mem A) unit : 2 * nrow * ncol * unit <= INT_MAX ->
  exists m, Row2Col a nrow ncol unit = Ok m /\
    forall c r, 0 <= r < nrow -> cv m c r = if (0 <=? c) && (c <? 2 * ncol) then cv a (dd c) r else cv a c r.
Proof.
  intros Hsz. unfold Row2Col.
  replace ((ncol <? 1) || (nrow <? 0) || (INT_MAX <? 2 * nrow * ncol * unit)) with false by lia.
  destruct (r2c_loop1 (Z.to_nat (ncol - 1)) a) as (a1 & E1 & H1). rewrite E1. cbn [obind].
  eexists. split; [reflexivity|]. intros c r Hr.
  rewrite (loop_saved _ (fun i => 2 * i + 1) (fun c => if c mod 2 =? 0 then -1 else c / 2)).
  2:{ intros i c' Hi. pose proof (Z.div_mod c' 2 ltac:(lia)). pose proof (Z.mod_pos_bound c' 2 ltac:(lia)).
      destruct (c' mod 2 =? 0) eqn:E; lia. }
  2: assumption.
  pose proof (Z.div_mod c 2 ltac:(lia)) as D. pose proof (Z.mod_pos_bound c 2 ltac:(lia)) as B.
  rewrite Z2Nat.id by lia. rewrite H1 by assumption. rewrite Z2Nat.id by lia. unfold dd.
  destruct (c mod 2 =? 0) eqn:Ev.
  - replace ((0 <=? -1) && (-1 <? ncol - 1)) with false by lia. cbn [andb].
    replace (c mod 2) with 0 by lia. rewrite Z.mul_0_l, Z.add_0_r.
    destruct ((0 <=? c) && (c <? 2 * ncol)) eqn:Er.
    + destruct (2 <=? c) eqn:E2.
      * replace (c <=? 2 * (ncol - 1)) with true by lia. reflexivity.
      * cbn [andb]. assert (c = 0) as -> by lia. reflexivity.
    + replace ((2 <=? c) && (c <=? 2 * (ncol - 1))) with false by lia. reflexivity.
  - cbn [andb]. replace (c mod 2) with 1 by lia.
    destruct ((0 <=? c) && (c <? 2 * ncol)) eqn:Er.
    + destruct (c / 2 <? ncol - 1) eqn:E2.
      * replace (0 <=? c / 2) with true by lia. cbn [andb].
        rewrite saved_cols by lia. f_equal. lia.
      * rewrite andb_false_r. f_equal. lia.
    + replace ((0 <=? c / 2) && (c / 2 <? ncol - 1)) with false by lia. reflexivity.
Qed.

Lemma c2r_loop1 : forall k m, Z.of_nat k <= ncol - 1 ->
  exists m', ofold (fun m i => memcpy m (Z.quot i 2 * nrow + Z.rem i 2 * (nrow * ncol)) (i * nrow) nrow)
               (zseq 1 k) m = Ok m' /\
    forall c r, 0 <= r < nrow ->
      cv m' c r = if (0 <=? c) && (c <? 2 * ncol) && (1 <=? ee c) && (ee c <=? Z.of_nat k)
                  then cv m (ee c) r else cv m c r.
Proof.
  induction k as [|k IH]; intros m Hk.
  - eexists. split; [reflexivity|]. intros c r Hr.
    replace (_ && _ && _ && _) with false by lia. reflexivity.
  - destruct (IH m ltac:(lia)) as (m1 & E1 & H1).
    assert (OF : forall (f : mem A -> Z -> outcome (mem A)) l1 l2 s, ofold f (l1 ++ l2) s = (do s' <- ofold f l1 s; ofold f l2 s')).
    { intros f. induction l1 as [|x l1 IHl]; intros l2 s; [reflexivity|]. cbn [app ofold].
      destruct (f s x); cbn [obind]; auto. }
    replace (zseq 1 (S k)) with (zseq 1 k ++ zseq (1 + Z.of_nat k) 1) by (rewrite <- zseq_app; f_equal; lia). rewrite OF, E1. cbn [obind zseq ofold].
    set (i := 1 + Z.of_nat k).
    assert (Ed : Z.quot i 2 * nrow + Z.rem i 2 * (nrow * ncol) = dd i * nrow).
    { unfold dd. rewrite quot_div_nonneg, rem_mod_nonneg by lia. ring. }
    rewrite Ed. destruct (ee_dd i ltac:(lia)) as [EE ED].
    assert (Ne : dd i <> i).
    { intros F. rewrite F in EE. unfold ee in EE. replace (i <? ncol) with true in EE by lia. lia. }
    destruct (memcpy_col m1 (dd i) i Ne) as (m2 & E2 & H2). rewrite E2. cbn [obind].
    exists m2. split; [reflexivity|]. intros c r Hr. rewrite H2 by assumption.
    rewrite !H1 by assumption.
    assert (Ri : (0 <=? i) && (i <? 2 * ncol) && (1 <=? ee i) && (ee i <=? Z.of_nat k) = false).
    { unfold ee. replace (i <? ncol) with true by lia. lia. }
    rewrite Ri. destruct (c =? dd i) eqn:E.
    + assert (c = dd i) as -> by lia. rewrite EE.
      replace ((0 <=? dd i) && (dd i <? 2 * ncol) && (1 <=? i) && (i <=? Z.of_nat (S k))) with true by lia.
      reflexivity.
    + destruct ((0 <=? c) && (c <? 2 * ncol)) eqn:Er; cbn [andb]; [|reflexivity].
      assert (ee c <> i).
      { intros F. destruct (dd_ee c ltac:(lia)) as [G _]. rewrite F in G. lia. }
      replace ((1 <=? ee c) && (ee c <=? Z.of_nat (S k))) with ((1 <=? ee c) && (ee c <=? Z.of_nat k)) by lia.
      reflexivity.
Qed.

Lemma Col2Row_cols (a : mem A) unit : 2 * nrow * ncol * unit <= INT_MAX ->
  exists m, Col2Row a nrow ncol unit = Ok m /\
    forall c r, 0 <= r < nrow -> cv m c r = if (0 <=? c) && (c <? 2 * ncol) then cv a (ee c) r else cv a c r.
Proof.
  intros Hsz. unfold Col2Row.
  replace ((ncol <? 1) || (nrow <? 0) || (INT_MAX <? 2 * nrow * ncol * unit)) with false by lia.
  destruct (c2r_loop1 (Z.to_nat (ncol - 1)) a ltac:(lia)) as (a1 & E1 & H1). rewrite E1. cbn [obind].
  eexists. split; [reflexivity|]. intros c r Hr.
  set (a_ := memcpy_from (fun _ => a 0) 0 a (nrow * ncol) (nrow * (ncol - 1))).
  assert (Eq : forall l m, (forall i, In i l -> 0 <= i) ->
    fold_left (fun m i => memcpy_from m (Z.quot (i + ncol) 2 * nrow + Z.rem (i + ncol) 2 * (nrow * ncol)) a_ (i * nrow) nrow) l m
    = fold_left (fun m i => memcpy_from m (dd (i + ncol) * nrow) a_ (i * nrow) nrow) l m).
  { induction l as [|i l IHl]; intros m Hl; [reflexivity|]. cbn [fold_left].
    rewrite IHl by (intros; apply Hl; now right). do 2 f_equal.
    unfold dd. rewrite quot_div_nonneg, rem_mod_nonneg by (specialize (Hl i (or_introl eq_refl)); lia). ring. }
  rewrite Eq by (intros i Hi; apply in_zseq in Hi; lia).
  rewrite (loop_saved a_ (fun i => dd (i + ncol)) (fun c => if (0 <=? c) && (c <? 2 * ncol) then ee c - ncol else -1)).
  2:{ intros i c' Hi. destruct ((0 <=? c') && (c' <? 2 * ncol)) eqn:E.
      - destruct (dd_ee c' ltac:(lia)) as [G1 G2]. destruct (ee_dd (i + ncol) ltac:(lia)) as [G3 G4].
        split; intros F.
        + rewrite <- F, G3. lia.
        + rewrite <- G1. f_equal. lia.
      - destruct (ee_dd (i + ncol) ltac:(lia)) as [G3 G4]. lia. }
  2: assumption.
  rewrite Z2Nat.id by lia. rewrite H1 by assumption. rewrite Z2Nat.id by lia.
  destruct ((0 <=? c) && (c <? 2 * ncol)) eqn:Er; cbn [andb].
  - destruct (dd_ee c ltac:(lia)) as [G1 G2].
    destruct ((0 <=? ee c - ncol) && (ee c - ncol <? ncol - 1)) eqn:E2.
    + unfold a_. rewrite saved_cols by lia. f_equal. lia.
    + destruct ((1 <=? ee c) && (ee c <=? ncol - 1)) eqn:E3; [reflexivity|].
      f_equal. unfold ee in *. destruct (c <? ncol) eqn:E4; lia.
  - replace ((0 <=? -1) && (-1 <? ncol - 1)) with false by lia. reflexivity.
Qed.
End Inter.

(** Specification of the two layouts (column-major, b and c are nrow x ncol):
    [b c] stores b(r,j) at j*nrow+r and c(r,j) at (ncol+j)*nrow+r;
    [b; c] is one 2nrow x ncol matrix with b on top. *)
Definition side_by_side {A} (b c : Z -> Z -> A) (nrow ncol : Z) (m : mem A) : Prop :=
  forall r j, 0 <= r < nrow -> 0 <= j < ncol ->
    m (j * nrow + r) = b r j /\ m ((ncol + j) * nrow + r) = c r j.
Definition stacked {A} (b c : Z -> Z -> A) (nrow ncol : Z) (m : mem A) : Prop :=
  forall r j, 0 <= r < nrow -> 0 <= j < ncol ->
    m (j * (2 * nrow) + r) = b r j /\ m (j * (2 * nrow) + (nrow + r)) = c r j.

Theorem C10_side_by_side_to_stacked : forall (A : Type) (b c : Z -> Z -> A) nrow ncol unit a,
  1 <= nrow -> 1 <= ncol -> 2 * nrow * ncol * unit <= INT_MAX -> side_by_side b c nrow ncol a ->
  exists m, Row2Col a nrow ncol unit = Ok m /\ stacked b c nrow ncol m /\
    forall x, ~ 0 <= x < 2 * nrow * ncol -> m x = a x.
Proof.
  intros A b c nrow ncol unit a Hr Hc Hs H.
  destruct (Row2Col_cols nrow ncol Hr Hc a unit Hs) as (m & Em & Hm). exists m.
  split; [exact Em|]. split.
  - intros r j Hrr Hj. destruct (H r j Hrr Hj) as [H1 H2].
    replace (j * (2 * nrow) + r) with (2 * j * nrow + r) by ring.
    replace (j * (2 * nrow) + (nrow + r)) with ((2 * j + 1) * nrow + r) by ring.
    pose proof (Hm (2 * j) r Hrr) as E1. pose proof (Hm (2 * j + 1) r Hrr) as E2.
    replace ((0 <=? 2 * j) && (2 * j <? 2 * ncol)) with true in E1 by lia.
    replace ((0 <=? 2 * j + 1) && (2 * j + 1 <? 2 * ncol)) with true in E2 by lia.
    unfold cv, dd in E1, E2. rewrite E1, E2.
    replace (2 * j + 1) with (1 + j * 2) by lia. rewrite (Z.mul_comm 2 j).
    rewrite Z.div_mul, Z.mod_mul, Z.div_add, Z.mod_add by lia.
    change (1 / 2) with 0. change (1 mod 2) with 1. split.
    + rewrite <- H1. f_equal. ring.
    + rewrite <- H2. f_equal. ring.
  - intros x Hx. pose proof (Z.div_mod x nrow ltac:(lia)) as D. pose proof (Z.mod_pos_bound x nrow ltac:(lia)) as B.
    pose proof (Hm (x / nrow) (x mod nrow) B) as E. unfold cv in E.
    replace (x / nrow * nrow + x mod nrow) with x in E by lia. rewrite E.
    replace ((0 <=? x / nrow) && (x / nrow <? 2 * ncol)) with false by nia. reflexivity.
Qed.
Print Assumptions C10_side_by_side_to_stacked.

Theorem C10_stacked_to_side_by_side : forall (A : Type) (b c : Z -> Z -> A) nrow ncol unit a,
  1 <= nrow -> 1 <= ncol -> 2 * nrow * ncol * unit <= INT_MAX -> stacked b c nrow ncol a ->
  exists m, Col2Row a nrow ncol unit = Ok m /\ side_by_side b c nrow ncol m /\
    forall x, ~ 0 <= x < 2 * nrow * ncol -> m x = a x.
Proof.
  intros A b c nrow ncol unit a Hr Hc Hs H.
  destruct (Col2Row_cols nrow ncol Hr Hc a unit Hs) as (m & Em & Hm). exists m.
  split; [exact Em|]. split.
  - intros r j Hrr Hj. destruct (H r j Hrr Hj) as [H1 H2].
    pose proof (Hm j r Hrr) as E1. pose proof (Hm (ncol + j) r Hrr) as E2.
    replace ((0 <=? j) && (j <? 2 * ncol)) with true in E1 by lia.
    replace ((0 <=? ncol + j) && (ncol + j <? 2 * ncol)) with true in E2 by lia.
    unfold cv, ee in E1, E2. replace (j <? ncol) with true in E1 by lia.
    replace (ncol + j <? ncol) with false in E2 by lia. rewrite E1, E2.
    split; [rewrite <- H1|rewrite <- H2]; f_equal; ring.
  - intros x Hx. pose proof (Z.div_mod x nrow ltac:(lia)) as D. pose proof (Z.mod_pos_bound x nrow ltac:(lia)) as B.
    pose proof (Hm (x / nrow) (x mod nrow) B) as E. unfold cv in E.
    replace (x / nrow * nrow + x mod nrow) with x in E by lia. rewrite E.
    replace ((0 <=? x / nrow) && (x / nrow <? 2 * ncol)) with false by nia. reflexivity.
Qed.
Print Assumptions C10_stacked_to_side_by_side.

(** The two conversions undo each other, on every array content. *)
Theorem C10_inverse : forall (A : Type) nrow ncol unit (a : mem A),
  1 <= nrow -> 1 <= ncol -> 2 * nrow * ncol * unit <= INT_MAX ->
  (exists m m', Row2Col a nrow ncol unit = Ok m /\ Col2Row m nrow ncol unit = Ok m' /\ forall x, m' x = a x) /\
  (exists m m', Col2Row a nrow ncol unit = Ok m /\ Row2Col m nrow ncol unit = Ok m' /\ forall x, m' x = a x).
Proof.
  intros A nrow ncol unit a Hr Hc Hs. split.
  - destruct (Row2Col_cols nrow ncol Hr Hc a unit Hs) as (m & Em & Hm).
    destruct (Col2Row_cols nrow ncol Hr Hc m unit Hs) as (m' & Em' & Hm').
    exists m, m'. split; [exact Em|]. split; [exact Em'|]. intros x.
    pose proof (Z.div_mod x nrow ltac:(lia)) as D. pose proof (Z.mod_pos_bound x nrow ltac:(lia)) as B.
    assert (E : cv nrow m' (x / nrow) (x mod nrow) = cv nrow a (x / nrow) (x mod nrow)).
    { rewrite Hm' by assumption. destruct ((0 <=? x / nrow) && (x / nrow <? 2 * ncol)) eqn:R.
      - destruct (dd_ee ncol (x / nrow) ltac:(lia)) as [G1 G2].
        rewrite Hm by assumption. replace ((0 <=? ee ncol (x / nrow)) && (ee ncol (x / nrow) <? 2 * ncol)) with true by lia.
        now rewrite G1.
      - rewrite Hm by assumption. now rewrite R. }
    unfold cv in E. now replace (x / nrow * nrow + x mod nrow) with x in E by lia.
  - destruct (Col2Row_cols nrow ncol Hr Hc a unit Hs) as (m & Em & Hm).
    destruct (Row2Col_cols nrow ncol Hr Hc m unit Hs) as (m' & Em' & Hm').
    exists m, m'. split; [exact Em|]. split; [exact Em'|]. intros x.
    pose proof (Z.div_mod x nrow ltac:(lia)) as D. pose proof (Z.mod_pos_bound x nrow ltac:(lia)) as B.
    assert (E : cv nrow m' (x / nrow) (x mod nrow) = cv nrow a (x / nrow) (x mod nrow)).
    { rewrite Hm' by assumption. destruct ((0 <=? x / nrow) && (x / nrow <? 2 * ncol)) eqn:R.
      - destruct (ee_dd ncol (x / nrow) ltac:(lia)) as [G1 G2].
        rewrite Hm by assumption. replace ((0 <=? dd ncol (x / nrow)) && (dd ncol (x / nrow) <? 2 * ncol)) with true by lia.
        now rewrite G1.
      - rewrite Hm by assumption. now rewrite R. }
    unfold cv in E. now replace (x / nrow * nrow + x mod nrow) with x in E by lia.
Qed.
Print Assumptions C10_inverse.

(** An empty block (ncol = 0) is not handled: the size passed to malloc and
    memcpy is negative. *)
Theorem C10_no_columns_refuted : exists nrow ncol unit : Z,
  1 <= nrow /\ 0 <= ncol /\ 2 * nrow * ncol * unit <= INT_MAX /\
  Row2Col (fun x : Z => x) nrow ncol unit = UB /\ Col2Row (fun x : Z => x) nrow ncol unit = UB.
Proof. exists 4, 0, 8. repeat split; vm_compute; congruence. Qed.
Print Assumptions C10_no_columns_refuted.

Example C10_example : match Row2Col (fun x : Z => x) 2 3 8 with
  | Ok m => map m (zseq 0 13) = [0;1;6;7; 2;3;8;9; 4;5;10;11; 12] | _ => False end.
Proof. vm_compute. reflexivity. Qed.

(** ** C11: sub-grid copy.  [gi], [go]: the global field as seen by the two
    boxes; box origin (ox,oy,oz) is the global point of local index (0,0,0). *)
Definition box_view {A} (g : Z -> Z -> Z -> A) (nx ny nz ox oy oz : Z) (m : mem A) : Prop :=
  forall i j k, 0 <= i < nx -> 0 <= j < ny -> 0 <= k < nz ->
    m (k * (nx * ny) + j * nx + i) = g (ox + i) (oy + j) (oz + k).

(** If the input box (ni points, origin oi) carries the field g, then copying
    the local range [s,e] of the output box (origin oo), with input start
    = s shifted by the difference of origins, makes the output agree with g on
    exactly that range and changes nothing else; no access leaves either box. *)
Theorem C11_subgrid_copy : forall (A : Type) (g : Z -> Z -> Z -> A) vi vo
    nix niy niz oix oiy oiz  nox noy noz oox ooy ooz  xs xe ys ye zs ze,
  box_view g nix niy niz oix oiy oiz vi ->
  0 <= xs -> xe < nox -> 0 <= ys -> ye < noy -> 0 <= zs -> ze < noz ->
  0 <= oox + xs - oix -> oox + xe - oix < nix -> 0 <= ooy + ys - oiy -> ooy + ye - oiy < niy ->
  0 <= ooz + zs - oiz -> ooz + ze - oiz < niz ->
  let ws := restrict_to_subgrid vi nox nix (nox * noy) (nix * niy)
              xs xe ys ye zs ze (oox + xs - oix) (ooy + ys - oiy) (ooz + zs - oiz) in
  let m := run_writes vo ws in
  (forall a v, In (a, v) ws -> 0 <= a < nox * noy * noz) /\
  forall i j k, 0 <= i < nox -> 0 <= j < noy -> 0 <= k < noz ->
    m (k * (nox * noy) + j * nox + i)
    = if (xs <=? i) && (i <=? xe) && (ys <=? j) && (j <=? ye) && (zs <=? k) && (k <=? ze)
      then g (oox + i) (ooy + j) (ooz + k)
      else vo (k * (nox * noy) + j * nox + i).
Proof.
  intros A g vi vo nix niy niz oix oiy oiz nox noy noz oox ooy ooz xs xe ys ye zs ze
    Hv X1 X2 Y1 Y2 Z1 Z2 IX1 IX2 IY1 IY2 IZ1 IZ2 ws m.
  assert (W : forall a v, In (a, v) ws -> exists i j k, xs <= i <= xe /\ ys <= j <= ye /\ zs <= k <= ze /\
     a = idx3 nox noy i j k /\ v = g (oox + i) (ooy + j) (ooz + k)).
  { intros a v Hin. apply in_loop3 in Hin. destruct Hin as (dk & dj & di & Hk & Hj & Hi & E).
    injection E as -> ->. exists (xs + di), (ys + dj), (zs + dk).
    split; [lia|]. split; [lia|]. split; [lia|]. split; [unfold idx3; ring|].
    replace (xs + di + (oox + xs - oix - xs)) with (oox + xs + di - oix) by lia.
    replace (ys + dj + (ooy + ys - oiy - ys)) with (ooy + ys + dj - oiy) by lia.
    replace (zs + dk + (ooz + zs - oiz - zs)) with (ooz + zs + dk - oiz) by lia.
    rewrite Hv by lia. f_equal; lia. }
  split.
  - intros a v Hin. destruct (W a v Hin) as (i & j & k & Hi & Hj & Hk & -> & _).
    replace (nox * noy * noz) with (noz * noy * nox) by ring. apply idx3_bound; lia.
  - intros i j k Hi Hj Hk. unfold m.
    replace (k * (nox * noy) + j * nox + i) with (idx3 nox noy i j k) by (unfold idx3; ring).
    destruct ((xs <=? i) && (i <=? xe) && (ys <=? j) && (j <=? ye) && (zs <=? k) && (k <=? ze)) eqn:E.
    + apply run_writes_in.
      * eexists. unfold ws, restrict_to_subgrid. apply in_loop3.
        exists (k - zs), (j - ys), (i - xs). split; [lia|]. split; [lia|]. split; [lia|].
        f_equal. unfold idx3. ring.
      * intros v Hin. destruct (W _ _ Hin) as (i' & j' & k' & Hi' & Hj' & Hk' & Ea & ->).
        apply idx3_inj in Ea; [|lia..]. destruct Ea as (-> & -> & ->). reflexivity.
    + apply run_writes_notin. intros v Hin.
      destruct (W _ _ Hin) as (i' & j' & k' & Hi' & Hj' & Hk' & Ea & _).
      apply idx3_inj in Ea; [|lia..]. lia.
Qed.
Print Assumptions C11_subgrid_copy.

(** Column block copy. *)
Theorem C11_block_copy : forall (A : Type) (src dst : mem A) soff lds nrow ncol doff ldd,
  0 <= nrow <= ldd ->
  let m := run_writes dst (copy_mat_blk src soff lds nrow ncol doff ldd) in
  forall c r, 0 <= r < ldd ->
    m (doff + c * ldd + r)
    = if (0 <=? c) && (c <? ncol) && (r <? nrow) then src (soff + c * lds + r) else dst (doff + c * ldd + r).
Proof.
  intros A src dst soff lds nrow ncol doff ldd Hn m c r Hr. unfold m.
  destruct ((0 <=? c) && (c <? ncol) && (r <? nrow)) eqn:E.
  - apply run_writes_in.
    + eexists. apply in_loop2. exists c, r. split; [lia|]. split; [lia|]. reflexivity.
    + intros v Hv. apply in_loop2 in Hv. destruct Hv as (c' & r' & Hc' & Hr' & Eq). injection Eq as Ea ->.
      assert (Eq : c * ldd + r = c' * ldd + r') by lia. apply radix_inj in Eq; [|lia..].
      destruct Eq as [-> ->]. reflexivity.
  - apply run_writes_notin. intros v Hv.
    apply in_loop2 in Hv. destruct Hv as (c' & r' & Hc' & Hr' & Eq). injection Eq as Ea _.
    assert (Eq : c * ldd + r = c' * ldd + r') by lia. apply radix_inj in Eq; lia.
Qed.
Print Assumptions C11_block_copy.

Example C11_example :
  let g x y z := 100 * x + 10 * y + z in
  let vi : mem Z := fun a => g (2 + a mod 4) (1 + (a / 4) mod 3) (0 + a / 12) in
  box_view g 4 3 2 2 1 0 vi /\
  let ws := restrict_to_subgrid vi 3 4 (3 * 3) (4 * 3) 1 2 0 1 1 1 (3 + 1 - 2) (1 + 0 - 1) (0 + 1 - 0) in
  ws = [(10, 411); (11, 511); (13, 421); (14, 521)].
Proof.
  split; [|vm_compute; reflexivity].
  intros i j k Hi Hj Hk. cbv beta zeta.
  assert (i = 0 \/ i = 1 \/ i = 2 \/ i = 3) as Ci by lia.
  assert (j = 0 \/ j = 1 \/ j = 2) as Cj by lia. assert (k = 0 \/ k = 1) as Ck by lia.
  destruct Ci as [->|[->|[->| ->]]], Cj as [->|[->| ->]], Ck as [->| ->]; vm_compute; reflexivity.
Qed.
