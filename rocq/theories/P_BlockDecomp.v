(** Properties C01-C04: work and domain decomposition. *)
From Coq Require Import ZArith List Lia Bool.
From Coq Require Import ZifyBool ZifyNat.
From Verif Require Import CBase BlockDecomp WorkSplit.
Import ListNotations.
Local Open Scope Z_scope.

(** ** Specification, independent of the code: [p] workers with ranges
    [start r, start r + len r) share the items 0..n-1. *)
Definition owns (start len : Z -> Z) (r x : Z) : Prop := start r <= x < start r + len r.
Definition exact_partition (start len : Z -> Z) (p n : Z) : Prop :=
  (forall x, 0 <= x < n -> exists! r, 0 <= r < p /\ owns start len r x) /\
  (forall r, 0 <= r < p -> 0 <= start r /\ 0 <= len r /\ start r + len r <= n).
Definition contiguous (start len : Z -> Z) (p : Z) : Prop :=
  start 0 = 0 /\ forall r, 0 <= r < p - 1 -> start (r + 1) = start r + len r.

Theorem C01_block_partition : forall n p, 0 <= n -> 1 <= p ->
  exact_partition (block_decompose_nstart n p) (block_decompose n p) p n /\
  contiguous (block_decompose_nstart n p) (block_decompose n p) p /\
  (forall r s, 0 <= r < p -> 0 <= s < p ->
     Z.abs (block_decompose n p r - block_decompose n p s) <= 1).
Proof.
  intros n p Hn Hp. split; [|split].
  - split.
    + intros x Hx. destruct (bd_rank_ok n p x ltac:(lia) Hx) as (r & _ & Hr & Ho).
      exists r. split; [split; assumption|].
      intros r' [Hr' Ho']. eapply bd_owner_unique; eauto; lia.
    + intros r Hr.
      pose proof (bd_nonneg n p r Hn ltac:(lia)).
      pose proof (bd_start_mono n p 0 r Hn ltac:(lia) ltac:(lia)).
      pose proof (bd_start_mono n p (r+1) p Hn ltac:(lia) ltac:(lia)).
      rewrite bd_start_0 in * by lia. rewrite bd_start_p in * by lia.
      rewrite bd_start_S in * by lia. lia.
  - split; [apply bd_start_0; lia|]. intros r Hr. apply bd_start_S; lia.
  - intros r s _ _. unfold block_decompose.
    destruct (r <? Z.rem n p), (s <? Z.rem n p); lia.
Qed.
Print Assumptions C01_block_partition.

Theorem C01_block_owner_lookup : forall n p x, 1 <= p -> 0 <= x < n ->
  exists r, block_decompose_rank n p x = Ok r /\ 0 <= r < p /\
    (forall s, 0 <= s < p ->
       (owns (block_decompose_nstart n p) (block_decompose n p) s x <-> s = r)).
Proof.
  intros n p x Hp Hx. destruct (bd_rank_ok n p x ltac:(lia) Hx) as (r & E & Hr & Ho).
  exists r. repeat split; try lia; try assumption.
  - intros Hs. eapply bd_owner_unique; eauto; lia.
  - subst s. unfold owns; lia.
  - subst s. unfold owns; lia.
Qed.
Print Assumptions C01_block_owner_lookup.

(** Every intermediate value of the three helpers fits in [int]. *)
Theorem C01_block_no_overflow : forall n p r x,
  1 <= p <= INT_MAX -> 0 <= n <= INT_MAX -> 0 <= r < p -> 0 <= x < n ->
  in_int (Z.quot n p) /\ in_int (Z.rem n p) /\ in_int (block_decompose n p r) /\
  in_int (Z.quot n p * r) /\ in_int (block_decompose_nstart n p r) /\
  in_int (n - 1) /\ in_int (Z.quot (n - 1) p + 1) /\
  in_int (Z.rem n p * (Z.quot (n - 1) p + 1)) /\ in_int (x - Z.rem n p).
Proof.
  intros n p r x Hp Hn Hr Hx. unfold in_int.
  destruct (C01_block_partition n p) as [[_ B] _]; try lia.
  specialize (B r Hr).
  rewrite (quot_div_nonneg n p), (quot_div_nonneg (n - 1) p), (rem_mod_nonneg n p) by lia.
  assert (Hdm : n = p * (n / p) + n mod p) by (apply Z.div_mod; lia).
  assert (Hm : 0 <= n mod p < p) by (apply Z.mod_pos_bound; lia).
  assert (Hq : 0 <= n / p) by (apply Z.div_pos; lia).
  assert (Hq1 : 0 <= (n - 1) / p) by (apply Z.div_pos; lia).
  assert (Hq1v : n mod p = 0 \/ (n - 1) / p = n / p).
  { destruct (Z.eq_dec (n mod p) 0); [now left | right].
    symmetry. apply (Z.div_unique (n - 1) p (n / p) (n mod p - 1)); lia. }
  assert (Hq1b : (n - 1) / p <= n - 1) by (apply Z.div_le_upper_bound; nia).
  set (q := n / p) in *. set (m := n mod p) in *. set (q1 := (n - 1) / p) in *.
  clearbody q m q1.
  assert (q <= n) by nia. assert (0 <= q * r <= n) by nia.
  assert (0 <= m * (q1 + 1) <= n) by (destruct Hq1v as [-> | ->]; nia).
  unfold INT_MAX in *. repeat split; lia.
Qed.
Print Assumptions C01_block_no_overflow.

Example C01_example :
  map (fun r => (block_decompose_nstart 10 3 r, block_decompose 10 3 r)) [0;1;2]
    = [(0,4);(4,3);(7,3)] /\ block_decompose_rank 10 3 6 = Ok 1
  /\ block_decompose_rank 2 5 1 = Ok 1.
Proof. vm_compute. auto. Qed.

(** ** C02 *)
Definition in_box (b : box) (x y z : Z) : Prop :=
  bx0 b <= x <= bx1 b /\ by0 b <= y <= by1 b /\ bz0 b <= z <= bz1 b.

Theorem C02_domain_owner : forall nx ny nz px py pz x y z,
  1 <= px -> 1 <= py -> 1 <= pz -> 0 <= x < nx -> 0 <= y < ny -> 0 <= z < nz ->
  exists! c : Z * Z * Z, let '(cx, cy, cz) := c in
    (0 <= cx < px /\ 0 <= cy < py /\ 0 <= cz < pz) /\
    in_box (DMVertices nx ny nz px py pz cx cy cz) x y z.
Proof.
  intros nx ny nz px py pz x y z Hpx Hpy Hpz Hx Hy Hz.
  destruct (bd_owner_exists nx px x) as (cx & Hcx & Ox); [lia..|].
  destruct (bd_owner_exists ny py y) as (cy & Hcy & Oy); [lia..|].
  destruct (bd_owner_exists nz pz z) as (cz & Hcz & Oz); [lia..|].
  exists (cx, cy, cz). split.
  - unfold in_box, DMVertices; cbn [bx0 bx1 by0 by1 bz0 bz1]. lia.
  - intros [[dx dy] dz] [(Hdx & Hdy & Hdz) (Bx & By & Bz)].
    cbn [DMVertices bx0 bx1 by0 by1 bz0 bz1] in *.
    f_equal; [f_equal|];
      [eapply (bd_owner_unique nx px _ _ x) | eapply (bd_owner_unique ny py _ _ y)
       | eapply (bd_owner_unique nz pz _ _ z)]; lia.
Qed.
Print Assumptions C02_domain_owner.

(** The stored local size is the number of points of the box, and boxes stay in
    the mesh. *)
Theorem C02_domain_box : forall nx ny nz px py pz cx cy cz,
  0 <= nx -> 0 <= ny -> 0 <= nz ->
  0 <= cx < px -> 0 <= cy < py -> 0 <= cz < pz ->
  let b := DMVertices nx ny nz px py pz cx cy cz in
  Nd_d nx ny nz px py pz cx cy cz
    = (bx1 b - bx0 b + 1) * (by1 b - by0 b + 1) * (bz1 b - bz0 b + 1) /\
  (forall x y z, in_box b x y z -> 0 <= x < nx /\ 0 <= y < ny /\ 0 <= z < nz).
Proof.
  intros nx ny nz px py pz cx cy cz Hx Hy Hz Hcx Hcy Hcz b.
  destruct (C01_block_partition nx px) as [[_ Bx] _]; [lia..|]. specialize (Bx cx Hcx).
  destruct (C01_block_partition ny py) as [[_ By] _]; [lia..|]. specialize (By cy Hcy).
  destruct (C01_block_partition nz pz) as [[_ Bz] _]; [lia..|]. specialize (Bz cz Hcz).
  unfold b, DMVertices, Nd_d, in_box; cbn [bx0 bx1 by0 by1 bz0 bz1].
  split; [|intros; lia].
  f_equal; [f_equal|]; lia.
Qed.
Print Assumptions C02_domain_box.

Lemma zsum_mul_l (c : Z) (l : list Z) : zsum (map (fun x => c * x) l) = c * zsum l.
Proof. unfold zsum; induction l; cbn [map fold_right]; lia. Qed.

(** Local sizes sum to the mesh size (sum over all process coordinates). *)
Theorem C02_domain_total : forall nx ny nz (px py pz : nat),
  0 <= nx -> 0 <= ny -> 0 <= nz -> (0 < px)%nat -> (0 < py)%nat -> (0 < pz)%nat ->
  let X := Z.of_nat px in let Y := Z.of_nat py in let Z0 := Z.of_nat pz in
  zsum (map (fun cx => zsum (map (fun cy => zsum (map (fun cz =>
     Nd_d nx ny nz X Y Z0 cx cy cz) (zseq 0 pz))) (zseq 0 py))) (zseq 0 px))
  = nx * ny * nz.
Proof.
  intros nx ny nz px py pz Hx Hy Hz Hpx Hpy Hpz X Y Z0.
  assert (S : forall n p, 0 <= n -> (0 < p)%nat ->
      zsum (map (block_decompose n (Z.of_nat p)) (zseq 0 p)) = n).
  { intros n p H1 H2. rewrite bd_sum by lia. apply bd_start_p; lia. }
  unfold Nd_d.
  assert (E1 : forall cx cy, zsum (map (fun cz => block_decompose nx X cx *
      block_decompose ny Y cy * block_decompose nz Z0 cz) (zseq 0 pz))
      = nz * block_decompose nx X cx * block_decompose ny Y cy).
  { intros cx cy.
    rewrite <- (map_map (block_decompose nz Z0)
        (fun t => block_decompose nx X cx * block_decompose ny Y cy * t)).
    rewrite zsum_mul_l. unfold Z0. rewrite (S nz pz Hz Hpz). lia. }
  assert (E2 : forall cx, zsum (map (fun cy => zsum (map (fun cz => block_decompose nx X cx *
      block_decompose ny Y cy * block_decompose nz Z0 cz) (zseq 0 pz))) (zseq 0 py))
      = nz * ny * block_decompose nx X cx).
  { intros cx.
    rewrite (map_ext _ (fun cy => nz * block_decompose nx X cx * block_decompose ny Y cy)) by
      (intros; apply E1).
    rewrite <- (map_map (block_decompose ny Y) (fun t => nz * block_decompose nx X cx * t)).
    rewrite zsum_mul_l. unfold Y at 1. rewrite (S ny py Hy Hpy). lia. }
  rewrite (map_ext _ (fun cx => nz * ny * block_decompose nx X cx)) by (intros; apply E2).
  rewrite <- (map_map (block_decompose nx X) (fun t => nz * ny * t)).
  rewrite zsum_mul_l. unfold X. rewrite (S nx px Hx Hpx). lia.
Qed.
Print Assumptions C02_domain_total.

Example C02_example :
  DMVertices 10 7 5 3 2 2 1 1 0 = mkbox 4 6 4 6 0 2 /\
  in_box (DMVertices 10 7 5 3 2 2 1 1 0) 5 6 2 /\ Nd_d 10 7 5 3 2 2 1 1 0 = 27.
Proof. unfold in_box. vm_compute. repeat split; discriminate. Qed.

(** ** C03 *)
Theorem C03_band_partition : forall Ns npband, 1 <= Ns -> 1 <= npband ->
  exact_partition (band_start Ns npband) (Nband_bandcomm Ns npband) npband Ns /\
  contiguous (band_start Ns npband) (Nband_bandcomm Ns npband) npband.
Proof.
  intros Ns npb H1 H2. split; [split|split].
  - intros x Hx. destruct (band_owner_exists Ns npb x H1 H2 Hx) as (b & Hb & Ho).
    exists b. split; [split; assumption|]. intros b' [Hb' Ho'].
    apply (band_owner_unique Ns npb b b' x); try lia; assumption.
  - intros r Hr. destruct (band_range Ns npb r) as [E1 E2]; [lia..|].
    destruct (band_NB_bounds Ns npb H1 H2) as [HN _].
    assert (0 <= r * band_NB Ns npb) by nia.
    split; [rewrite E1; lia|]. split; lia.
  - destruct (band_range Ns npb 0) as [E1 E2]; [lia..|]. rewrite E1. lia.
  - intros r Hr. destruct (band_range Ns npb r) as [_ E2]; [lia..|].
    destruct (band_range Ns npb (r+1)) as [E3 _]; [lia..|]. rewrite E3, E2. reflexivity.
Qed.
Print Assumptions C03_band_partition.

Example C03_example :
  map (fun r => (band_start 10 4 r, Nband_bandcomm 10 4 r)) [0;1;2;3]
    = [(0,3);(3,3);(6,3);(9,1)] /\
  map (fun r => (band_start 3 5 r, Nband_bandcomm 3 5 r)) [0;1;2;3;4]
    = [(0,1);(1,1);(2,1);(3,0);(3,0)].
Proof. vm_compute. auto. Qed.

(** ** C04 *)

(** What one world rank ends up working on, from the raw user inputs
    (0 = not given).  Chains the steps of Setup_Comms, src/parallelization.c:95-428. *)
Record work := mkwork {
  w_spin : Z; w_spin0 : Z; w_nspin : Z;
  w_kpt : Z; w_kpt0 : Z; w_nkpt : Z;
  w_band : Z; w_band0 : Z; w_nband : Z }.
Definition rank_work (nproc npspin npkpt npband Nspin Nk Ns rank : Z) : work :=
  let ps := npspin_eff npspin nproc Nspin in
  let ss := size_spincomm nproc ps in
  let si := spincomm_index nproc ps rank in
  let rs := rank_spincomm nproc ps rank in
  let pk := npkpt_eff npkpt ss Nk in
  let sk := size_kptcomm ss pk in
  let ki := kptcomm_index ss pk si rs in
  let rk := rank_kptcomm ss pk rs in
  let pb := npband_eff npband sk Ns in
  let bi := bandcomm_index sk pb ki rk in
  mkwork si (spin_start nproc ps Nspin rank) (Nspin_spincomm nproc ps Nspin rank)
         ki (kpt_start ss pk Nk si rs) (Nkpts_kptcomm ss pk Nk si rs)
         bi (band_start Ns pb bi) (Nband_bandcomm Ns pb bi).

(** A rank computes state (s,k,b) if it is in a spin, k-point and band group
    and all three ranges contain the index. *)
Definition computes (w : work) (s k b : Z) : Prop :=
  w_spin w <> -1 /\ w_kpt w <> -1 /\ w_band w <> -1 /\
  w_spin0 w <= s < w_spin0 w + w_nspin w /\
  w_kpt0 w <= k < w_kpt0 w + w_nkpt w /\
  w_band0 w <= b < w_band0 w + w_nband w.

Lemma npspin_eff_ok npspin nproc Nspin :
  0 <= npspin -> 1 <= nproc -> Nspin = 1 \/ Nspin = 2 ->
  1 <= npspin_eff npspin nproc Nspin <= nproc /\ npspin_eff npspin nproc Nspin <= Nspin.
Proof.
  intros. unfold npspin_eff.
  destruct (npspin =? 0) eqn:E; [lia|].
  destruct ((Nspin <? npspin) || (nproc <? npspin)) eqn:E2; lia.
Qed.
Lemma npkpt_eff_ok npkpt ss Nk :
  0 <= npkpt -> 1 <= ss -> 1 <= Nk ->
  1 <= npkpt_eff npkpt ss Nk <= ss /\ npkpt_eff npkpt ss Nk <= Nk.
Proof.
  intros. unfold npkpt_eff.
  destruct (npkpt =? 0) eqn:E; [lia|].
  destruct ((Nk <? npkpt) || (ss <? npkpt)) eqn:E2; lia.
Qed.
Lemma npband_eff_ok npband sk Ns :
  0 <= npband -> 1 <= sk -> 1 <= Ns -> 1 <= npband_eff npband sk Ns <= sk.
Proof.
  intros. unfold npband_eff.
  destruct (npband =? 0) eqn:E; [lia|]. destruct (sk <? npband) eqn:E2; lia.
Qed.
Lemma quot_pos a b : 1 <= b <= a -> 1 <= Z.quot a b.
Proof. intros. rewrite quot_div_nonneg by lia. apply Z.div_le_lower_bound; lia. Qed.
Lemma quot_le a b : 1 <= b -> 0 <= a -> b * Z.quot a b = a - Z.rem a b /\ 0 <= Z.rem a b < b.
Proof.
  intros. rewrite quot_div_nonneg, rem_mod_nonneg by lia.
  pose proof (Z.div_mod a b ltac:(lia)). pose proof (Z.mod_pos_bound a b ltac:(lia)). lia.
Qed.

Lemma mixed_radix i n m A x : 0 <= i < n -> 0 <= x < m -> n * m = A -> 0 <= i * m + x < A.
Proof. intros. nia. Qed.

Lemma spin_active nproc ps r : 1 <= ps -> 0 < Z.quot nproc ps -> 0 <= r ->
  spincomm_index nproc ps r <> -1 ->
  (r <? nproc - Z.rem nproc ps) = true /\ 0 <= spincomm_index nproc ps r /\
  0 <= rank_spincomm nproc ps r.
Proof.
  intros Hps Hss Hr. unfold spincomm_index, rank_spincomm, size_spincomm.
  destruct (r <? nproc - Z.rem nproc ps); [intros _ | intros H; now elim H].
  split; [reflexivity|]. rewrite quot_div_nonneg, rem_mod_nonneg by assumption.
  split; [apply Z.div_pos; assumption|]. now apply Z.mod_pos_bound.
Qed.
Lemma kpt_active ss pk si rs : kptcomm_index ss pk si rs <> -1 ->
  si <> -1 /\ rs < ss - Z.rem ss pk.
Proof.
  unfold kptcomm_index. destruct (si =? -1) eqn:E1; cbn [negb andb]; [intros H; now elim H|].
  destruct (rs <? ss - Z.rem ss pk) eqn:E2; [|intros H; now elim H].
  intros _. split; [apply Z.eqb_neq; assumption | apply Z.ltb_lt; assumption].
Qed.
Lemma band_active sk pb ki rk : 0 < pb -> 0 <= rk -> bandcomm_index sk pb ki rk <> -1 ->
  0 <= bandcomm_index sk pb ki rk.
Proof.
  intros Hpb Hrk. unfold bandcomm_index. destruct (_ && _); [|intros H; now elim H].
  intros _. rewrite rem_mod_nonneg by assumption. now apply Z.mod_pos_bound.
Qed.
Lemma equal_chunks_unique i j n x : 1 <= n ->
  i * n <= x < i * n + n -> j * n <= x < j * n + n -> i = j.
Proof. intros. nia. Qed.

(** Every (spin, k-point, band) state is computed by some rank, and all ranks
    computing it belong to one and the same spin, k-point and band group. *)
Theorem C04_every_state_assigned_once :
  forall nproc npspin npkpt npband Nspin Nk Ns s k b,
  1 <= nproc -> 0 <= npspin -> 0 <= npkpt -> 0 <= npband ->
  Nspin = 1 \/ Nspin = 2 -> 1 <= Nk -> 1 <= Ns ->
  0 <= s < Nspin -> 0 <= k < Nk -> 0 <= b < Ns ->
  let W := rank_work nproc npspin npkpt npband Nspin Nk Ns in
  (exists r, 0 <= r < nproc /\ computes (W r) s k b) /\
  (forall r1 r2, 0 <= r1 < nproc -> 0 <= r2 < nproc ->
     computes (W r1) s k b -> computes (W r2) s k b ->
     w_spin (W r1) = w_spin (W r2) /\ w_kpt (W r1) = w_kpt (W r2) /\
     w_band (W r1) = w_band (W r2)).
Proof.
  intros nproc npspin npkpt npband Nspin Nk Ns s k b Hnp H1 H2 H3 HNs HNk HN Hs Hk Hb W.
  pose proof (npspin_eff_ok npspin nproc Nspin H1 Hnp HNs) as [Pps Pps2].
  unfold W, rank_work. clear W.
  set (ps := npspin_eff npspin nproc Nspin) in *. clearbody ps.
  unfold size_spincomm in *.
  assert (Pss := quot_pos nproc ps ltac:(lia)).
  destruct (quot_le nproc ps ltac:(lia) ltac:(lia)) as [Ess Rss].
  set (ss := Z.quot nproc ps) in *.
  assert (Fss : Z.quot nproc ps = ss) by reflexivity.
  assert (Epsn : ps * Z.quot Nspin ps = Nspin).
  { assert (C : ps = 1 \/ ps = 2) by lia. destruct C as [-> | ->]; [rewrite Z.quot_1_r; lia|].
    assert (Nspin = 2) by lia. subst Nspin. reflexivity. }
  pose proof (npkpt_eff_ok npkpt ss Nk H2 Pss HNk) as [Ppk Ppk2].
  set (pk := npkpt_eff npkpt ss Nk) in *. clearbody pk.
  unfold size_kptcomm.
  assert (Psk := quot_pos ss pk ltac:(lia)).
  destruct (quot_le ss pk ltac:(lia) ltac:(lia)) as [Esk Rsk].
  set (sk := Z.quot ss pk) in *.
  assert (Fsk : Z.quot ss pk = sk) by reflexivity.
  pose proof (npband_eff_ok npband sk Ns H3 Psk HN) as Ppb.
  set (pb := npband_eff npband sk Ns) in *. clearbody pb.
  destruct (quot_le sk pb ltac:(lia) ltac:(lia)) as [Esb Rsb].
  assert (Psb := quot_pos sk pb ltac:(lia)).
  clearbody ss sk.
  destruct (ex_intro (fun t => t = Z.quot Nspin ps) _ eq_refl) as (n1 & En1).
  rewrite <- En1 in Epsn.
  assert (Pn1 : 1 <= n1) by (clear - Epsn Pps HNs; nia).
  split.
  - (* existence *)
    destruct (bd_owner_exists Nk pk k ltac:(lia) Hk) as (ki & Hki & Ok_).
    destruct (band_owner_exists Ns pb b HN ltac:(lia) Hb) as (bi & Hbi & Ob).
    set (si := s / n1).
    assert (Hsi : 0 <= si < ps).
    { clear - Hs Epsn Pn1. unfold si.
      split; [apply Z.div_pos; lia | apply Z.div_lt_upper_bound; lia]. }
    assert (Hsm := Z.div_mod s n1 ltac:(lia)). fold si in Hsm.
    assert (Hsb := Z.mod_pos_bound s n1 ltac:(lia)).
    set (sm := s mod n1) in *. clearbody si sm.
    set (rs := ki * sk + bi).
    assert (Hbs : 0 <= bi < sk) by (clear - Hbi Ppb; lia).
    assert (Hrs : 0 <= rs < ss - Z.rem ss pk)
      by (unfold rs; exact (mixed_radix _ _ _ _ _ Hki Hbs Esk)).
    assert (Hrss : 0 <= rs < ss) by (clear - Hrs Rsk; lia).
    set (r := si * ss + rs).
    assert (Hr : 0 <= r < nproc - Z.rem nproc ps)
      by (unfold r; exact (mixed_radix _ _ _ _ _ Hsi Hrss Ess)).
    assert (Hrt : (r <? nproc - Z.rem nproc ps) = true) by (clear - Hr; lia).
    assert (Hrst : (rs <? ss - Z.rem ss pk) = true) by (clear - Hrs; lia).
    assert (Hsn : (si =? -1) = false) by (clear - Hsi; lia).
    assert (Hkn : (ki =? -1) = false) by (clear - Hki; lia).
    assert (Hss0 : 0 < ss) by (clear - Pss; lia).
    assert (Hsk0 : 0 < sk) by (clear - Psk; lia).
    assert (Hpb0 : 0 < pb) by (clear - Ppb; lia).
    assert (Esi : spincomm_index nproc ps r = si).
    { unfold spincomm_index, size_spincomm. rewrite Hrt, Fss.
      rewrite quot_div_nonneg by (clear - Hr Hss0; lia).
      symmetry. apply (Z.div_unique _ _ _ rs); [clear - Hrss; lia | unfold r; ring]. }
    assert (Ers : rank_spincomm nproc ps r = rs).
    { unfold rank_spincomm, size_spincomm. rewrite Hrt, Fss.
      rewrite rem_mod_nonneg by (clear - Hr Hss0; lia).
      symmetry. apply (Z.mod_unique _ _ si); [clear - Hrss; lia | unfold r; ring]. }
    assert (Eki : kptcomm_index ss pk si rs = ki).
    { unfold kptcomm_index, size_kptcomm. rewrite Hsn, Hrst. cbn [negb andb]. rewrite Fsk.
      rewrite quot_div_nonneg by (clear - Hrs Hsk0; lia).
      symmetry. apply (Z.div_unique _ _ _ bi); [clear - Hbs; lia | unfold rs; ring]. }
    assert (Erk : rank_kptcomm ss pk rs = bi).
    { unfold rank_kptcomm, size_kptcomm. rewrite Fsk.
      rewrite rem_mod_nonneg by (clear - Hrs Hsk0; lia).
      symmetry. apply (Z.mod_unique _ _ ki); [clear - Hbs; lia | unfold rs; ring]. }
    assert (Ebi : bandcomm_index sk pb ki bi = bi).
    { unfold bandcomm_index, NP_BANDCOMM.
      replace (bi <? pb * Z.quot sk pb) with true by (clear - Hbi Psb; nia).
      rewrite Hkn. cbn [negb andb].
      rewrite rem_mod_nonneg by (clear - Hbi; lia). apply Z.mod_small. exact Hbi. }
    destruct (kpt_is_block ss pk Nk si rs) as (_ & En & Est);
      [exact (proj1 Ppk) | exact (proj2 Ppk) | clear - HNk; lia | clear - Hsi; lia | exact Hrs |].
    cbv zeta in En, Est. rewrite Eki in En, Est.
    assert (Hrn : 0 <= r < nproc) by (clear - Hr Rss; lia).
    assert (Hn1 : si <> -1 /\ ki <> -1 /\ bi <> -1 /\ si * n1 <= s < si * n1 + n1)
      by (clear - Hsi Hki Hbi Hsm Hsb; lia).
    exists r. split; [exact Hrn|]. unfold computes; cbn [w_spin w_spin0 w_nspin w_kpt w_kpt0 w_nkpt w_band w_band0 w_nband].
    rewrite Esi, Ers, Eki, Erk, Ebi, En, Est.
    unfold spin_start, Nspin_spincomm. rewrite Esi, Hrt, Hsn, <- En1. tauto.
  - (* uniqueness *)
    intros r1 r2 Hr1 Hr2.
    unfold computes; cbn [w_spin w_spin0 w_nspin w_kpt w_kpt0 w_nkpt w_band w_band0 w_nband].
    intros (A1 & A2 & A3 & A4 & A5 & A6) (B1 & B2 & B3 & B4 & B5 & B6).
    assert (Hss0 : 0 < Z.quot nproc ps) by (rewrite Fss; clear - Pss; lia).
    destruct (spin_active nproc ps r1 (proj1 Pps) Hss0 (proj1 Hr1) A1) as (C1 & C2 & C3).
    destruct (spin_active nproc ps r2 (proj1 Pps) Hss0 (proj1 Hr2) B1) as (D1 & D2 & D3).
    destruct (kpt_active _ _ _ _ A2) as (C4 & C5). destruct (kpt_active _ _ _ _ B2) as (D4 & D5).
    assert (HNk0 : 0 <= Nk) by (clear - HNk; lia).
    destruct (kpt_is_block ss pk Nk _ _ (proj1 Ppk) (proj2 Ppk) HNk0 C4 (conj C3 C5))
      as (C6 & C7 & C8).
    destruct (kpt_is_block ss pk Nk _ _ (proj1 Ppk) (proj2 Ppk) HNk0 D4 (conj D3 D5))
      as (D6 & D7 & D8).
    cbv zeta in C6, C7, C8, D6, D7, D8. rewrite C7, C8 in A5. rewrite D7, D8 in B5.
    split; [|split].
    + unfold spin_start, Nspin_spincomm in A4, B4.
      rewrite (proj2 (Z.eqb_neq _ _) A1), C1, <- En1 in A4.
      rewrite (proj2 (Z.eqb_neq _ _) B1), D1, <- En1 in B4.
      exact (equal_chunks_unique _ _ _ _ Pn1 A4 B4).
    + assert (Hpk0 : 0 < pk) by (clear - Ppk; lia).
      exact (bd_owner_unique Nk pk _ _ k HNk0 Hpk0 (proj1 C6) (proj1 D6) A5 B5).
    + assert (Q : forall x, 0 <= x -> 0 <= rank_kptcomm ss pk x).
      { intros x Hx. unfold rank_kptcomm, size_kptcomm.
        assert (0 < Z.quot ss pk) by (rewrite Fsk; clear - Psk; lia).
        rewrite rem_mod_nonneg by assumption. now apply Z.mod_pos_bound. }
      assert (Hpb0 : 0 < pb) by (clear - Ppb; lia).
      assert (F1 := band_active _ _ _ _ Hpb0 (Q _ C3) A3).
      assert (F2 := band_active _ _ _ _ Hpb0 (Q _ D3) B3).
      exact (band_owner_unique Ns pb _ _ b HN (proj1 Ppb) F1 F2 A6 B6).
Qed.
Print Assumptions C04_every_state_assigned_once.

(** The gathered eigenvalue vector: group i's block starts where its k-points
    start and the blocks tile [0, Nk*Ns). *)
Theorem C04_lambda_layout : forall Nk npkpt Ns (i : nat),
  0 <= Nk -> 1 <= npkpt -> 0 <= Ns ->
  kptBridgeDispl Nk npkpt Ns i = block_decompose_nstart Nk npkpt (Z.of_nat i) * Ns /\
  kptBridgeCount Nk npkpt Ns (Z.of_nat i) = block_decompose Nk npkpt (Z.of_nat i) * Ns /\
  (Z.of_nat i = npkpt -> kptBridgeDispl Nk npkpt Ns i = Nk * Ns).
Proof.
  intros Nk npk Ns i H1 H2 H3. split; [|split].
  - apply kptBridge_displ_start; lia.
  - reflexivity.
  - intros E. rewrite kptBridge_displ_start by lia. rewrite E, bd_start_p by lia. reflexivity.
Qed.
Print Assumptions C04_lambda_layout.

(** A rank outside every spin group is told it has k-points to work on
    (src/parallelization.c:176 lacks the test of line 170): the count exceeds even the
    total number of k-points. *)
Theorem C04_idle_rank_has_no_kpoints_refuted :
  exists nproc npspin npkpt npband Nspin Nk Ns r,
    1 <= nproc /\ 0 <= r < nproc /\ (Nspin = 1 \/ Nspin = 2) /\ 1 <= Nk /\ 1 <= Ns /\
    let w := rank_work nproc npspin npkpt npband Nspin Nk Ns r in
    w_spin w = -1 /\ w_kpt w = -1 /\ w_nkpt w > Nk.
Proof. exists 3, 2, 0, 0, 2, 1, 4, 2. vm_compute. repeat split; auto; discriminate. Qed.
Print Assumptions C04_idle_rank_has_no_kpoints_refuted.

Example C04_example :
  let w := rank_work 16 2 3 2 2 7 10 5 in
  w = mkwork 0 0 1 2 5 2 1 5 5 /\ computes w 0 6 9.
Proof. vm_compute. repeat split; discriminate. Qed.
