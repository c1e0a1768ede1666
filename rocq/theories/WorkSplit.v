(** Model of the spin / k-point / band / domain work distribution. *)
From Coq Require Import ZArith List Lia Bool.
From Coq Require Import ZifyBool ZifyNat.
From Verif Require Import CBase BlockDecomp.
Import ListNotations.
Local Open Scope Z_scope.

(** ** Spin groups.  src/parallelization.c:95-130 *)

(** src/parallelization.c:95-103 (npspin defaulting / clamping). *)
Definition npspin_eff (npspin nproc Nspin : Z) : Z :=
  if npspin =? 0 then Z.min nproc Nspin
  else if (Nspin <? npspin) || (nproc <? npspin) then Z.min nproc Nspin else npspin.

(** src/parallelization.c:106 *)
Definition size_spincomm (nproc npspin : Z) : Z := Z.quot nproc npspin.
(** src/parallelization.c:107-110 *)
Definition spincomm_index (nproc npspin rank : Z) : Z :=
  if rank <? nproc - Z.rem nproc npspin then Z.quot rank (size_spincomm nproc npspin) else -1.
(** src/parallelization.c:113-119 *)
Definition Nspin_spincomm (nproc npspin Nspin rank : Z) : Z :=
  if rank <? nproc - Z.rem nproc npspin then Z.quot Nspin npspin else 0.
(** src/parallelization.c:122-129 *)
Definition spin_start (nproc npspin Nspin rank : Z) : Z :=
  if spincomm_index nproc npspin rank =? -1 then 0
  else spincomm_index nproc npspin rank * Nspin_spincomm nproc npspin Nspin rank.
(** src/parallelization.c:136-142: the split keeps world order, the members of
    group s are ranks s*size .. (s+1)*size-1, the left-over ranks form one extra
    group (colour INT_MAX). *)
Definition rank_spincomm (nproc npspin rank : Z) : Z :=
  if rank <? nproc - Z.rem nproc npspin then Z.rem rank (size_spincomm nproc npspin)
  else rank - (nproc - Z.rem nproc npspin).

(** ** k-point groups.  src/parallelization.c:159-189 *)

(** src/parallelization.c:159-167 *)
Definition npkpt_eff (npkpt size_spin Nk : Z) : Z :=
  if npkpt =? 0 then Z.min size_spin Nk
  else if (Nk <? npkpt) || (size_spin <? npkpt) then Z.min size_spin Nk else npkpt.
(** src/parallelization.c:169 *)
Definition size_kptcomm (size_spin npkpt : Z) : Z := Z.quot size_spin npkpt.
(** src/parallelization.c:170-173 *)
Definition kptcomm_index (size_spin npkpt spin_idx rank_spin : Z) : Z :=
  if negb (spin_idx =? -1) && (rank_spin <? size_spin - Z.rem size_spin npkpt)
  then Z.quot rank_spin (size_kptcomm size_spin npkpt) else -1.
(** src/parallelization.c:176-179.  Note: unlike line 170 the test does not
    look at the spin group index. *)
Definition Nkpts_kptcomm (size_spin npkpt Nk spin_idx rank_spin : Z) : Z :=
  if rank_spin <? size_spin - Z.rem size_spin npkpt
  then Z.quot Nk npkpt +
       (if kptcomm_index size_spin npkpt spin_idx rank_spin <? Z.rem Nk npkpt then 1 else 0)
  else 0.
(** src/parallelization.c:182-188 *)
Definition kpt_start (size_spin npkpt Nk spin_idx rank_spin : Z) : Z :=
  let ki := kptcomm_index size_spin npkpt spin_idx rank_spin in
  let nk := Nkpts_kptcomm size_spin npkpt Nk spin_idx rank_spin in
  if ki =? -1 then 0
  else if ki <? Z.rem Nk npkpt then ki * nk
  else ki * nk + Z.rem Nk npkpt.
(** src/parallelization.c:195-197: the split keeps the order inside spincomm. *)
Definition rank_kptcomm (size_spin npkpt rank_spin : Z) : Z :=
  Z.rem rank_spin (size_kptcomm size_spin npkpt).

(** ** Band groups.  src/parallelization.c:396-428 *)

(** src/parallelization.c:396-401 *)
Definition npband_eff (npband nproc_kpt Ns : Z) : Z :=
  if npband =? 0 then Z.min nproc_kpt Ns
  else if nproc_kpt <? npband then Z.min nproc_kpt Ns else npband.
(** src/parallelization.c:403-404 *)
Definition NP_BANDCOMM (nproc_kpt npband : Z) : Z := npband * Z.quot nproc_kpt npband.
(** src/parallelization.c:406-411 *)
Definition bandcomm_index (nproc_kpt npband kpt_idx rank_kpt : Z) : Z :=
  if (rank_kpt <? NP_BANDCOMM nproc_kpt npband) && negb (kpt_idx =? -1)
  then Z.rem rank_kpt npband else -1.
(** src/parallelization.c:416 *)
Definition band_NB (Ns npband : Z) : Z := Z.quot (Ns - 1) npband + 1.
(** src/parallelization.c:413-418 *)
Definition Nband_bandcomm (Ns npband bi : Z) : Z :=
  if bi =? -1 then 0
  else let NB := band_NB Ns npband in
       if bi <? Z.quot Ns NB then NB
       else if bi =? Z.quot Ns NB then Z.rem Ns NB else 0.
(** src/parallelization.c:421-427 *)
Definition band_start (Ns npband bi : Z) : Z :=
  if bi =? -1 then 0
  else let NB := band_NB Ns npband in
       if bi <=? Z.quot Ns NB then bi * NB else Ns.

(** ** Domain boxes.  src/parallelization.c:500-517 (dmcomm) and 829-925
    (dmcomm_phi, same formulas). *)
Record box := mkbox { bx0 : Z; bx1 : Z; by0 : Z; by1 : Z; bz0 : Z; bz1 : Z }.
Definition DMVertices (nx ny nz px py pz cx cy cz : Z) : box :=
  let lx := block_decompose nx px cx in
  let ly := block_decompose ny py cy in
  let lz := block_decompose nz pz cz in
  let sx := block_decompose_nstart nx px cx in
  let sy := block_decompose_nstart ny py cy in
  let sz := block_decompose_nstart nz pz cz in
  mkbox sx (sx + lx - 1) sy (sy + ly - 1) sz (sz + lz - 1).
(** src/parallelization.c:503-506 *)
Definition Nd_d (nx ny nz px py pz cx cy cz : Z) : Z :=
  block_decompose nx px cx * block_decompose ny py cy * block_decompose nz pz cz.

(** ** Eigenvalue gathering layout.  src/occupation.c:115-121 *)
Definition kptBridgeCount (Nk npkpt Ns i : Z) : Z :=
  (Z.quot Nk npkpt + (if i <? Z.rem Nk npkpt then 1 else 0)) * Ns.
Fixpoint kptBridgeDispl (Nk npkpt Ns : Z) (i : nat) : Z :=
  match i with
  | O => 0
  | S j => kptBridgeDispl Nk npkpt Ns j + kptBridgeCount Nk npkpt Ns (Z.of_nat j)
  end.

(** ** Lemmas *)

Lemma band_NB_bounds Ns npb : 1 <= Ns -> 1 <= npb -> 1 <= band_NB Ns npb /\ Ns <= npb * band_NB Ns npb.
Proof.
  intros H1 H2. unfold band_NB. rewrite quot_div_nonneg by lia.
  assert (Hd := Z.div_mod (Ns - 1) npb ltac:(lia)).
  assert (Hm := Z.mod_pos_bound (Ns - 1) npb ltac:(lia)).
  assert (0 <= (Ns - 1) / npb) by (apply Z.div_pos; lia).
  split; lia.
Qed.

(** Bands of a group, unified: group b owns [min(b*NB,Ns), min((b+1)*NB,Ns)). *)
Lemma band_range Ns npb b :
  1 <= Ns -> 1 <= npb -> 0 <= b ->
  band_start Ns npb b = Z.min (b * band_NB Ns npb) Ns /\
  band_start Ns npb b + Nband_bandcomm Ns npb b = Z.min ((b + 1) * band_NB Ns npb) Ns.
Proof.
  intros H1 H2 H3. destruct (band_NB_bounds Ns npb H1 H2) as [HN HB].
  unfold band_start, Nband_bandcomm.
  set (NB := band_NB Ns npb) in *. clearbody NB.
  replace (b =? -1) with false by lia.
  rewrite quot_div_nonneg, rem_mod_nonneg by lia.
  assert (Hd := Z.div_mod Ns NB ltac:(lia)).
  assert (Hm := Z.mod_pos_bound Ns NB ltac:(lia)).
  assert (Hq : 0 <= Ns / NB) by (apply Z.div_pos; lia).
  set (q := Ns / NB) in *. set (m := Ns mod NB) in *. clearbody q m.
  assert (C : b < q \/ b = q \/ q < b) by lia. destruct C as [C|[C|C]].
  - replace (b <=? q) with true by lia. replace (b <? q) with true by lia.
    assert ((b + 1) * NB <= q * NB) by nia. split; nia.
  - subst b. replace (q <=? q) with true by lia. replace (q <? q) with false by lia.
    replace (q =? q) with true by lia. split; nia.
  - replace (b <=? q) with false by lia. replace (b <? q) with false by lia.
    replace (b =? q) with false by lia.
    assert ((q + 1) * NB <= b * NB) by nia. split; nia.
Qed.

Lemma band_owner_exists Ns npb x :
  1 <= Ns -> 1 <= npb -> 0 <= x < Ns ->
  exists b, 0 <= b < npb /\
    band_start Ns npb b <= x < band_start Ns npb b + Nband_bandcomm Ns npb b.
Proof.
  intros H1 H2 Hx. destruct (band_NB_bounds Ns npb H1 H2) as [HN HB].
  exists (x / band_NB Ns npb).
  set (NB := band_NB Ns npb) in *.
  assert (Hd := Z.div_mod x NB ltac:(lia)).
  assert (Hm := Z.mod_pos_bound x NB ltac:(lia)).
  assert (Hq : 0 <= x / NB) by (apply Z.div_pos; lia).
  destruct (band_range Ns npb (x / NB) H1 H2 Hq) as [-> ->].
  fold NB. set (b := x / NB) in *. set (m := x mod NB) in *. clearbody b m NB.
  split; nia.
Qed.

Lemma band_owner_unique Ns npb b1 b2 x :
  1 <= Ns -> 1 <= npb -> 0 <= b1 -> 0 <= b2 ->
  band_start Ns npb b1 <= x < band_start Ns npb b1 + Nband_bandcomm Ns npb b1 ->
  band_start Ns npb b2 <= x < band_start Ns npb b2 + Nband_bandcomm Ns npb b2 ->
  b1 = b2.
Proof.
  intros H1 H2 Hb1 Hb2.
  destruct (band_NB_bounds Ns npb H1 H2) as [HN HB].
  destruct (band_range Ns npb b1 H1 H2 Hb1) as [-> ->].
  destruct (band_range Ns npb b2 H1 H2 Hb2) as [-> ->].
  set (NB := band_NB Ns npb) in *. clearbody NB.
  intros I1 I2.
  assert (b1 * NB < (b2 + 1) * NB) by lia.
  assert (b2 * NB < (b1 + 1) * NB) by lia.
  nia.
Qed.

(** The k-point formulas are the block decomposition of C01. *)
Lemma kpt_is_block size_spin npk Nk si r :
  1 <= npk -> npk <= size_spin -> 0 <= Nk -> si <> -1 ->
  0 <= r < size_spin - Z.rem size_spin npk ->
  let ki := kptcomm_index size_spin npk si r in
  0 <= ki < npk /\
  Nkpts_kptcomm size_spin npk Nk si r = block_decompose Nk npk ki /\
  kpt_start size_spin npk Nk si r = block_decompose_nstart Nk npk ki.
Proof.
  intros H1 H2 H3 Hs Hr ki.
  assert (Hki : ki = r / (size_spin / npk)).
  { unfold ki, kptcomm_index, size_kptcomm.
    replace (si =? -1) with false by lia.
    replace (r <? size_spin - Z.rem size_spin npk) with true by lia. cbn [negb andb].
    rewrite rem_mod_nonneg in Hr by lia.
    assert (0 < size_spin / npk) by (apply Z.div_str_pos; lia).
    rewrite (quot_div_nonneg size_spin npk) by lia.
    rewrite quot_div_nonneg by lia. reflexivity. }
  assert (Hkb : 0 <= ki < npk).
  { rewrite Hki. rewrite rem_mod_nonneg in Hr by lia.
    assert (Hd := Z.div_mod size_spin npk ltac:(lia)).
    assert (0 < size_spin / npk) by (apply Z.div_str_pos; lia).
    split; [apply Z.div_pos; lia|]. apply Z.div_lt_upper_bound; lia. }
  split; [exact Hkb|].
  unfold kpt_start, Nkpts_kptcomm. fold ki.
  replace (r <? size_spin - Z.rem size_spin npk) with true by lia.
  replace (ki =? -1) with false by lia.
  unfold block_decompose, block_decompose_nstart.
  destruct (ki <? Z.rem Nk npk); split; lia.
Qed.

Lemma kptBridge_displ_start Nk npk Ns (i : nat) :
  0 <= Nk -> 1 <= npk ->
  kptBridgeDispl Nk npk Ns i = block_decompose_nstart Nk npk (Z.of_nat i) * Ns.
Proof.
  intros H1 H2. induction i; cbn [kptBridgeDispl].
  - rewrite bd_start_0 by lia. lia.
  - rewrite IHi. replace (Z.of_nat (S i)) with (Z.of_nat i + 1) by lia.
    rewrite bd_start_S by lia. unfold kptBridgeCount, block_decompose. lia.
Qed.

Lemma bd_owner_exists n p x :
  0 < p -> 0 <= x < n ->
  exists r, 0 <= r < p /\
    block_decompose_nstart n p r <= x < block_decompose_nstart n p r + block_decompose n p r.
Proof.
  intros Hp Hx. destruct (bd_rank_ok n p x Hp Hx) as (r & _ & ? & ?). now exists r.
Qed.

(** Sum of block lengths. *)
Lemma bd_sum n p (k : nat) :
  0 <= n -> 0 < p ->
  zsum (map (block_decompose n p) (zseq 0 k)) = block_decompose_nstart n p (Z.of_nat k).
Proof.
  intros Hn Hp. induction k.
  - cbn. now rewrite bd_start_0 by lia.
  - replace (S k) with (k + 1)%nat by lia. rewrite zseq_app, map_app, zsum_app, IHk.
    replace (Z.of_nat (k + 1)) with (Z.of_nat k + 1) by lia.
    rewrite bd_start_S by lia. cbn [zseq map zsum fold_right].
    rewrite Z.add_0_l. lia.
Qed.
