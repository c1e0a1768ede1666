(** C13 - C16: process-grid selection, work splitting, dense-solver grid,
    chunked all-reduce. *)
From Coq Require Import ZArith List Lia Bool Sorted.
From Coq Require Import ZifyBool ZifyNat.
From Verif Require Import CBase Mem DivCount Factors Dims DimsLem DimsDiv.
Import ListNotations.
Local Open Scope Z_scope.

(** ** C13 *)

(** For every number of processes, mesh and minimum size >= 1, and for any
    values of the floating-point estimates and any outcome of the
    floating-point comparisons, the search ends with positive dimensions, one
    per direction, whose product does not exceed nproc. *)
Theorem C13_grid_usable : forall est2 est3 lt nproc gs minsize,
  1 <= nproc <= INT_MAX -> (1 <= length gs <= 3)%nat -> (forall g, In g gs -> 0 <= g) -> 1 <= minsize ->
  exists dims ierr, SPARC_Dims_create est2 est3 lt nproc gs minsize = Ok (dims, ierr)
    /\ length dims = length gs /\ (forall d, In d dims -> 1 <= d) /\ zprod dims <= nproc.
Proof.
  intros est2 est3 lt nproc gs minsize Hn Hl Hg Hm. unfold SPARC_Dims_create.
  replace (Z.max minsize 0) with minsize by lia.
  destruct gs as [|g0 [|g1 [|g2 [|g3 gs]]]]; cbn [length] in Hl; try lia.
  - destruct (dims1_ok nproc g0 minsize) as (d & -> & Hd); [lia|apply Hg; now left|lia|].
    cbn [obind]. exists [d], 0. split; [reflexivity|]. split; [reflexivity|].
    split; [intros x [<- | []]; lia | cbn; lia].
  - destruct (dims2_ok est2 est3 lt nproc g0 g1 minsize) as (x & y & e & -> & Hx & Hy & Hxy);
      [lia|apply Hg; cbn; auto|apply Hg; cbn; auto|lia|].
    exists [x; y], e. split; [reflexivity|]. split; [reflexivity|].
    split; [intros d [<- | [<- | []]]; lia | cbn; lia].
  - destruct (dims3_ok est2 est3 lt nproc g0 g1 g2 minsize) as (x & y & z & e & -> & Hx & Hy & Hz & Hxyz);
      [lia|apply Hg; cbn; auto|apply Hg; cbn; auto|apply Hg; cbn; auto|lia|].
    exists [x; y; z], e. split; [reflexivity|]. split; [reflexivity|].
    split; [intros d [<- | [<- | [<- | []]]]; lia | cbn; lia].
Qed.
Print Assumptions C13_grid_usable.

(** Minimum block size in one direction (needs a mesh with minsize nodes). *)
Theorem C13_min_size_1d : forall est2 est3 lt nproc g minsize d ierr,
  1 <= nproc -> 1 <= minsize <= g ->
  SPARC_Dims_create est2 est3 lt nproc [g] minsize = Ok ([d], ierr) ->
  ierr = 0 /\ minsize * d <= g.
Proof.
  intros est2 est3 lt nproc g minsize d ierr Hn Hm. unfold SPARC_Dims_create.
  replace (Z.max minsize 0) with minsize by lia.
  destruct (dims1 nproc g minsize) as [d'| |] eqn:E; cbn [obind]; [|discriminate..].
  intros [= -> <-]. split; [reflexivity|]. apply (dims1_min nproc g minsize d); auto.
Qed.
Print Assumptions C13_min_size_1d.

(** Two directions: whatever the estimates, if success (ierr = 0) is reported
    then every direction has at least minsize nodes per process (norms
    compared exactly). *)
Theorem C13_min_size_2d : forall est2 est3 nproc g0 g1 minsize dims,
  1 <= nproc <= INT_MAX -> 0 <= g0 -> 0 <= g1 -> 1 <= minsize ->
  SPARC_Dims_create est2 est3 lt_exact nproc [g0; g1] minsize = Ok (dims, 0) ->
  exists x y, dims = [x; y] /\ 1 <= x /\ 1 <= y /\ minsize * x <= g0 /\ minsize * y <= g1.
Proof.
  intros est2 est3 nproc g0 g1 m dims Hn H0 H1 Hm. unfold SPARC_Dims_create.
  replace (Z.max m 0) with m by lia. unfold dims2.
  destruct (cands2_ok nproc g0 g1 m (est2 nproc g0 g1 m)) as (cs & -> & Hcs); try lia. cbn [obind].
  destruct (scan _ _ _ _ _ _) as [[c|]| |] eqn:E; cbn [obind]; try discriminate.
  intros [= <-]. apply (scan2_adm nproc m g0 g1 H0 H1 Hm ltac:(lia) cs Hcs None 0 c); auto.
Qed.
Print Assumptions C13_min_size_2d.

(** Three directions: refuted. With exact arithmetic, 13 processes on a
    13 x 34 x 22 mesh with minimum size 7 get the grid 2 x 3 x 2 and success is
    reported, although 13 nodes over 2 processes leaves one with 6 < 7: the
    tie-break on the norm does not repeat the size test. *)
Theorem C13_min_size_3d_refuted : exists nproc g0 g1 g2 minsize x y z,
  1 <= minsize /\ minsize <= g0 /\ minsize <= g1 /\ minsize <= g2 /\
  SPARC_Dims_create est2_exact est3_exact lt_exact nproc [g0; g1; g2] minsize = Ok ([x; y; z], 0) /\
  g0 / x < minsize.
Proof.
  exists 13, 13, 34, 22, 7, 2, 3, 2. vm_compute. repeat split; discriminate.
Qed.
Print Assumptions C13_min_size_3d_refuted.

(** The documented "minsize should be >= 0" is not enough: 0 divides by zero. *)
Theorem C13_zero_min_size_refuted : forall est2 est3 lt nproc g,
  SPARC_Dims_create est2 est3 lt nproc [g] 0 = UB.
Proof. reflexivity. Qed.
Print Assumptions C13_zero_min_size_refuted.

Example C13_example :
  SPARC_Dims_create est2_exact est3_exact lt_exact 24 [48; 48; 72] 6 = Ok ([2; 3; 4], 0).
Proof. vm_compute. auto. Qed.
Example C13_example_2d :
  SPARC_Dims_create est2_exact est3_exact lt_exact 12 [60; 45] 5 = Ok ([4; 3], 0).
Proof. vm_compute. reflexivity. Qed.
Example C13_example_fail : (* mesh smaller than the minimum: failure is reported *)
  SPARC_Dims_create est2_exact est3_exact lt_exact 4 [3; 3; 3] 6 = Ok ([4; 1; 1], 1).
Proof. vm_compute. reflexivity. Qed.

(** ** C14 *)

(** [c] is the ceiling of [n/d]. *)
Definition is_ceil (n d c : Z) : Prop := d * (c - 1) < n <= d * c.

Lemma is_ceil_cdv n d c : 1 <= n -> 1 <= d -> is_ceil n d c -> c = cdv n d.
Proof. intros Hn Hd H. destruct (cdv_spec n d Hn Hd) as (A & _). unfold is_ceil in H. nia. Qed.

(** Two-way split: terminates without undefined behaviour, does not
    oversubscribe, and is optimal: no other pair (x,y) with x*y <= np gives a
    smaller maximal load ceil(N1/x)*ceil(N2/y). *)
Theorem C14_two_way_split : forall junk N1 N2 np,
  1 <= N1 -> 1 <= N2 -> N1 * N2 <= INT_MAX -> 1 <= np <= 46340 ^ 2 ->
  exists a b, dims_divide_2d junk N1 N2 np = Ok (a, b) /\ 1 <= a /\ 1 <= b /\ a * b <= np /\
   (forall x y ca cb cx cy, 1 <= x -> 1 <= y -> x * y <= np ->
      is_ceil N1 a ca -> is_ceil N2 b cb -> is_ceil N1 x cx -> is_ceil N2 y cy ->
      ca * cb <= cx * cy).
Proof.
  intros junk N1 N2 np H1 H2 H12 Hnp. change (46340 ^ 2) with FACTOR_MAX in Hnp.
  destruct (dims_divide_2d_ok N1 N2 np H1 H2 H12 Hnp junk) as (a & b & E & (A & B & C) & O).
  exists a, b. split; [exact E|]. split; [exact A|]. split; [exact B|]. split; [exact C|].
  intros x y ca cb cx cy Hx Hy Hxy Ka Kb Kx Ky.
  rewrite (is_ceil_cdv _ _ _ H1 A Ka), (is_ceil_cdv _ _ _ H2 B Kb),
          (is_ceil_cdv _ _ _ H1 Hx Kx), (is_ceil_cdv _ _ _ H2 Hy Ky).
  now apply O.
Qed.
Print Assumptions C14_two_way_split.

(** Three-way split (k-points, bands, domain), for any values and comparisons
    of the floating-point efficiencies. *)
Theorem C14_three_way_split : forall W dquot gtW above junk Nk Ns np,
  1 <= Nk -> 1 <= Ns -> 1 <= np -> Nk * Ns * np <= INT_MAX -> 20 * np <= INT_MAX ->
  exists a b c, dims_divide_kbd W dquot gtW above junk Nk Ns np = Ok (a, b, c) /\
    1 <= a /\ 1 <= b /\ 1 <= c /\ a * b * c <= np.
Proof.
  intros W dquot gtW above junk Nk Ns np Hk Hs Hn Hb HF.
  destruct (dims_divide_kbd_ok W dquot gtW gtW above (fun _ _ w => w) (fun _ _ w => w) Nk Ns np Hk Hs Hn Hb HF junk) as (((a, b), c) & E & H).
  exists a, b, c. split; [exact E|exact H].
Qed.
Print Assumptions C14_three_way_split.

(** Three-way split with exact exchange. *)
Theorem C14_three_way_split_fock : forall W dquot gtW above sf Nk Ns g0 g1 g2 np minsize,
  1 <= Nk -> 1 <= Ns -> 1 <= np -> Nk * Ns * np <= INT_MAX -> 20 * np <= INT_MAX ->
  1 <= minsize -> minsize <= g0 -> minsize <= g1 -> minsize <= g2 -> g0 * g1 * g2 <= INT_MAX ->
  Nk * ((g0 / minsize) * (g1 / minsize) * (g2 / minsize)) <= INT_MAX ->
  exists a b c, dims_divide_kbd_fock W dquot gtW above sf Nk Ns (g0, g1, g2) np minsize = Ok (a, b, c) /\
    1 <= a /\ 1 <= b /\ 1 <= c /\ a * b * c <= np.
Proof.
  intros W dquot gtW above sf Nk Ns g0 g1 g2 np minsize Hk Hs Hn Hb HF Hm H0 H1 H2 Hg Hgk.
  destruct (dims_divide_kbd_fock_ok W dquot gtW gtW above sf (fun _ _ w => w) Nk Ns np Hk Hs Hn Hb HF g0 g1 g2 minsize Hm H0 H1 H2 Hg Hgk)
    as (((a, b), c) & E & H).
  exists a, b, c. split; [exact E|exact H].
Qed.
Print Assumptions C14_three_way_split_fock.

(** A mesh direction with fewer nodes than minsize makes the exact-exchange
    split divide by zero. *)
Theorem C14_fock_small_mesh_refuted : exists Nk Ns g0 g1 g2 np minsize,
  1 <= Nk /\ 1 <= Ns /\ 1 <= g0 /\ 1 <= g1 /\ 1 <= g2 /\ 1 <= np /\ 1 <= minsize /\
  forall W dquot gtW above sf,
  dims_divide_kbd_fock W dquot gtW above sf Nk Ns (g0, g1, g2) np minsize = UB.
Proof.
  exists 2, 4, 5, 20, 20, 8, 6. repeat (split; [lia|]). intros. reflexivity.
Qed.
Print Assumptions C14_fock_small_mesh_refuted.

(** Four-way split (spin, k-points, bands, domain). *)
Theorem C14_four_way_split : forall W dquot gtW geW above sf ss junk Nspin Nk Ns g0 g1 g2 np minsize (fock : bool),
  Nspin = 1 \/ Nspin = 2 -> 1 <= Nk -> 1 <= Ns -> 1 <= np ->
  Nspin * Nk * Ns * np <= INT_MAX -> 20 * np <= INT_MAX ->
  (fock = true -> 1 <= minsize /\ minsize <= g0 /\ minsize <= g1 /\ minsize <= g2 /\
      g0 * g1 * g2 <= INT_MAX /\
      Nk * ((g0 / minsize) * (g1 / minsize) * (g2 / minsize)) <= INT_MAX) ->
  exists s a b c, dims_divide_skbd W dquot gtW geW above sf ss junk Nspin Nk Ns (g0, g1, g2) np minsize fock
      = Ok (s, a, b, c) /\
    1 <= s /\ 1 <= a /\ 1 <= b /\ 1 <= c /\ s * a * b * c <= np.
Proof.
  intros W dquot gtW geW above sf ss junk Nspin Nk Ns g0 g1 g2 np minsize fock Hsp Hk Hs Hn Hb HF Hf.
  destruct (dims_divide_skbd_ok W dquot gtW geW above sf ss Nspin Nk Ns np Hsp Hk Hs Hn Hb HF junk (g0, g1, g2) minsize fock Hf)
    as ((((s, a), b), c) & E & H).
  exists s, a, b, c. split; [exact E|exact H].
Qed.
Print Assumptions C14_four_way_split.

(** The hypotheses are met, with weights computed as exact fractions. *)
Definition qgt (a b : Z * Z) : bool := fst b * snd a <? fst a * snd b.
Definition qge (a b : Z * Z) : bool := fst b * snd a <=? fst a * snd b.
Definition qabove (t : Z) (a : Z * Z) : bool := t * snd a <? 100 * fst a.
Example C14_example :
  dims_divide_2d (fun _ => 0) 4 10 17 = Ok (4, 4) /\
  dims_divide_kbd (Z * Z) (fun a b => (a, b)) qgt qabove (fun _ => 0) 4 30 48 = Ok (4, 6, 2) /\
  dims_divide_skbd (Z * Z) (fun a b => (a, b)) qgt qge qabove (fun _ _ w => w) (fun _ _ w => w)
    (fun _ => 0) 2 3 7 (20, 20, 20) 50 6 false = Ok (2, 3, 1, 8) /\
  dims_divide_skbd (Z * Z) (fun a b => (a, b)) qgt qge qabove (fun _ _ w => w) (fun _ _ w => w)
    (fun _ => 0) 2 3 7 (20, 20, 20) 50 6 true = Ok (2, 3, 1, 8).
Proof. vm_compute. auto. Qed.

(** ** C15 *)
Theorem C15_dense_grid_exact : forall W absdiff ltW last0 zero nproc g0 g1,
  1 <= nproc <= 46340 ^ 2 ->
  exists a b, ScaLAPACK_Dims_2D_BLCYC W absdiff ltW last0 zero nproc g0 g1 = Ok (a, b) /\
    a * b = nproc /\ 1 <= a /\ 1 <= b /\
    (g1 < g0 -> b <= a) /\ (g0 <= g1 -> a <= b).
Proof.
  intros W absdiff ltW last0 zero nproc g0 g1 Hn. change (46340 ^ 2) with FACTOR_MAX in Hn.
  destruct (blcyc_ok W (fun _ _ => zero) ltW ltW (fun _ _ => true) (fun _ _ w => w) (fun _ _ w => w) absdiff ltW last0 zero nproc g0 g1 ltac:(lia) ltac:(lia)) as (a & b & E & A & B & C & D).
  exists a, b. split; [exact E|]. split; [exact A|]. split; [exact B|]. split; [exact C|].
  destruct (g1 <? g0) eqn:Eg; lia.
Qed.
Print Assumptions C15_dense_grid_exact.

(** Exact |a/f1 - b/f2| as a fraction. *)
Definition qabsdiff (a f1 b f2 : Z) : Z * Z := (Z.abs (a * f2 - b * f1), f1 * f2).
Definition qlt (a b : Z * Z) : bool := fst a * snd b <? fst b * snd a.
Example C15_example :
  ScaLAPACK_Dims_2D_BLCYC (Z * Z) qabsdiff qlt (10 ^ 20, 1) (0, 1) 24 1000 900 = Ok (6, 4) /\
  ScaLAPACK_Dims_2D_BLCYC (Z * Z) qabsdiff qlt (10 ^ 20, 1) (0, 1) 36 500 500 = Ok (6, 6) /\
  ScaLAPACK_Dims_2D_BLCYC (Z * Z) qabsdiff qlt (10 ^ 20, 1) (0, 1) 1 500 500 = Ok (1, 1).
Proof. vm_compute. auto. Qed.

(** ** C16 *)

(** One [MPI_Allreduce] on elements [d, d+c): every rank gets the reduction
    [op] of all ranks' contributions; elements elsewhere are untouched. With
    MPI_IN_PLACE the contributions are the current receive buffers. *)
Definition reduce_call {A} (op : (Z -> A) -> A) (inplace : bool) (send : Z -> mem A)
   (recv : Z -> mem A) (w : Z * Z) : Z -> mem A :=
  fun r j => if (fst w <=? j) && (j <? fst w + snd w)
             then op (fun r' => if inplace then recv r' j else send r' j)
             else recv r j.
(** The intended effect: a single reduction of [count] elements. *)
Definition whole_reduction {A} (op : (Z -> A) -> A) (inplace : bool) (send recv : Z -> mem A) (count : Z)
  : Z -> mem A :=
  fun r j => if (0 <=? j) && (j <? count)
             then op (fun r' => if inplace then recv r' j else send r' j)
             else recv r j.

Lemma ar_chunks_run {A} (op : (Z -> A) -> A) inplace send recv batch extra : 0 <= batch -> forall n i displ,
  let total := Z.of_nat n * batch + (Z.max 0 (Z.min (Z.of_nat n) (extra - i))) in
  forall r j, fold_left (reduce_call op inplace send) (ar_chunks n i displ batch extra) recv r j
    = if (displ <=? j) && (j <? displ + total)
      then op (fun r' => if inplace then recv r' j else send r' j) else recv r j.
Proof.
  intros Hb n. revert recv. induction n as [|n IH]; intros recv i displ total r j; cbn [ar_chunks fold_left].
  - replace (_ && _) with false by (unfold total; lia). reflexivity.
  - set (c := batch + (if i <? extra then 1 else 0)) in *.
    rewrite IH.
    set (t' := Z.of_nat n * batch + Z.max 0 (Z.min (Z.of_nat n) (extra - (i + 1)))).
    assert (Ht : total = c + t') by (unfold total, t', c; destruct (i <? extra) eqn:E; lia).
    assert (Hc : 0 <= c) by (unfold c; destruct (i <? extra); lia).
    assert (Ht' : 0 <= t') by (unfold t'; nia).
    clearbody t' c total. subst total.
    destruct ((displ + c <=? j) && (j <? displ + c + t')) eqn:E1.
    + replace ((displ <=? j) && _) with true by lia.
      f_equal. unfold reduce_call. cbn [fst snd].
      replace ((displ <=? j) && (j <? displ + c)) with false by lia. reflexivity.
    + unfold reduce_call. cbn [fst snd].
      destruct ((displ <=? j) && (j <? displ + c)) eqn:E2.
      * replace ((displ <=? j) && _) with true by lia. reflexivity.
      * replace ((displ <=? j) && _) with false by lia. reflexivity.
Qed.

Lemma ar_chunks_bound batch extra : 0 <= batch -> forall n i displ d c, In (d, c) (ar_chunks n i displ batch extra) ->
  batch <= c <= batch + 1 /\ (extra <= i -> c = batch) /\ displ <= d.
Proof.
  intros Hb. induction n as [|n IH]; intros i displ d c; cbn [ar_chunks In]; [easy|].
  intros [E | H].
  - apply pair_equal_spec in E. destruct E as (<- & <-). destruct (i <? extra) eqn:E; lia.
  - apply IH in H. destruct (i <? extra); lia.
Qed.

Lemma allreduce_calls_eq count unit : 1 <= count <= INT_MAX -> unit = 4 \/ unit = 8 \/ unit = 16 ->
  exists reps, 1 <= reps /\ (reps - 1) * 100000000 < count * unit <= reps * 100000000 /\
  allreduce_calls count unit = Ok (if reps =? 1 then [(0, count)] else
     ar_chunks (Z.to_nat reps) 0 0 (count / reps) (count mod reps))
  /\ count mod reps < count / reps.
Proof.
  intros Hc Hu. unfold INT_MAX in Hc.
  assert (Hs : 4 <= count * unit <= 16 * 2147483647) by nia.
  set (size := count * unit) in *.
  set (q := (size - 1) / 100000000).
  assert (Hq : q * 100000000 <= size - 1 < (q + 1) * 100000000).
  { pose proof (Z.div_mod (size - 1) 100000000 ltac:(lia)).
    pose proof (Z.mod_pos_bound (size - 1) 100000000 ltac:(lia)). unfold q. lia. }
  exists (q + 1). split; [lia|]. split; [lia|].
  assert (Hqb : 0 <= q <= 343) by lia.
  assert (Hreps : 1 <= q + 1 <= 344) by lia.
  set (batch := count / (q + 1)).
  assert (Hbm : count = (q + 1) * batch + count mod (q + 1)) by (apply Z.div_mod; lia).
  pose proof (Z.mod_pos_bound count (q + 1) ltac:(lia)) as Hr.
  set (r := count mod (q + 1)) in *.
  assert (Hlt : 1 <= q -> r < batch).
  { intros Hq1.
    destruct (Z_lt_le_dec r batch) as [|Hle]; [assumption|exfalso].
    assert (Hbr : batch <= 343) by lia. assert (Hb0 : 0 <= batch) by (apply Z.div_pos; lia).
    assert (Hcnt : count <= 344 * 343 + 343) by (clearbody batch; nia).
    unfold size in *. destruct Hu as [->|[->| ->]]; lia. }
  split.
  - unfold allreduce_calls.
    assert (Hu1 : u64 (u64 count * unit) = size).
    { unfold u64. rewrite (Z.mod_small count) by lia. apply Z.mod_small. fold size; lia. }
    rewrite Hu1.
    assert (Hu2 : u64 (size - 1) = size - 1) by (apply Z.mod_small; lia). rewrite Hu2. fold q.
    assert (Hu3 : u64 (q + 1) = q + 1) by (apply Z.mod_small; lia). rewrite Hu3.
    replace (Z.max (q + 1) 1) with (q + 1) by lia. rewrite Hu3.
    assert (Hu4 : to_int32 (q + 1) = q + 1).
    { unfold to_int32. rewrite Z.mod_small by lia. replace (_ <? _) with true by lia. reflexivity. }
    rewrite Hu4. destruct (q + 1 =? 1) eqn:E1; [reflexivity|].
    replace (q + 1 <=? 0) with false by lia.
    rewrite c_div_ok by lia. cbn [obind]. fold batch.
    specialize (Hlt ltac:(lia)).
    rewrite c_mod_ok by lia. cbn [obind]. f_equal. f_equal.
    (* count mod batch = count mod reps *)
    symmetry. apply Z.mod_unique with (q := q + 1); lia.
  - destruct (Z.eq_dec q 0) as [Hq0|Hq0]; [|apply Hlt; lia].
    unfold r, batch. rewrite Hq0 in *. change (0 + 1) with 1. rewrite Z.mod_1_r, Z.div_1_r. lia.
Qed.

(** C16: for every count >= 1 and element size used by SPARC, executing the
    chunks one after another has exactly the effect of one reduction of
    [count] elements (each element reduced once, nothing outside touched),
    in place or not, for any reduction operation. *)
Theorem C16_chunks_equal_whole : forall count unit, 1 <= count <= INT_MAX ->
  unit = 4 \/ unit = 8 \/ unit = 16 ->
  exists calls, allreduce_calls count unit = Ok calls /\
   forall A (op : (Z -> A) -> A) inplace send recv r j,
     fold_left (reduce_call op inplace send) calls recv r j
     = whole_reduction op inplace send recv count r j.
Proof.
  intros count unit Hc Hu.
  destruct (allreduce_calls_eq count unit Hc Hu) as (reps & Hr1 & Hr2 & -> & Hlt).
  eexists. split; [reflexivity|]. intros A op inplace send recv r j.
  unfold whole_reduction. destruct (reps =? 1) eqn:E1.
  - cbn [fold_left]. unfold reduce_call. cbn [fst snd]. reflexivity.
  - assert (Hb : 0 <= count / reps) by (apply Z.div_pos; lia).
    rewrite (ar_chunks_run op inplace send recv (count / reps) (count mod reps) Hb).
    rewrite Z2Nat.id by lia.
    pose proof (Z.mod_pos_bound count reps ltac:(lia)).
    pose proof (Z.div_mod count reps ltac:(lia)).
    replace (0 + (reps * (count / reps) + Z.max 0 (Z.min reps (count mod reps - 0)))) with count by lia.
    reflexivity.
Qed.
Print Assumptions C16_chunks_equal_whole.

(** C16: no chunk exceeds 100 MB. *)
Theorem C16_chunk_size : forall count unit calls, 1 <= count <= INT_MAX ->
  unit = 4 \/ unit = 8 \/ unit = 16 -> allreduce_calls count unit = Ok calls ->
  forall d c, In (d, c) calls -> 0 <= d /\ 0 <= c /\ c * unit <= 100000000.
Proof.
  intros count unit calls Hc Hu.
  destruct (allreduce_calls_eq count unit Hc Hu) as (reps & Hr1 & Hr2 & -> & Hlt).
  intros [= <-] d c Hin. destruct (reps =? 1) eqn:E1.
  - destruct Hin as [E | []]. apply pair_equal_spec in E. destruct E as (<- & <-). lia.
  - assert (Hb : 0 <= count / reps) by (apply Z.div_pos; lia).
    apply (ar_chunks_bound _ _ Hb) in Hin. destruct Hin as (H1 & H2 & H3).
    split; [lia|]. split; [lia|].
    pose proof (Z.div_mod count reps ltac:(lia)) as Hd.
    pose proof (Z.mod_pos_bound count reps ltac:(lia)) as Hm.
    set (b := count / reps) in *. set (e := count mod reps) in *. clearbody b e.
    destruct (Z.eq_dec e 0) as [He|He].
    + assert (c = b) by lia. subst c. destruct Hu as [->|[->| ->]]; nia.
    + assert (Hb1 : (b + 1) * unit <= 100000000); [|destruct Hu as [->|[->| ->]]; lia].
      destruct Hu as [->|[->| ->]]; nia.
Qed.
Print Assumptions C16_chunk_size.

(** An empty reduction is not handled: [size-1] wraps around, the number of
    chunks becomes negative. *)
Theorem C16_empty_refuted : forall unit, unit = 4 \/ unit = 8 \/ unit = 16 -> allreduce_calls 0 unit = UB.
Proof. intros unit [->|[->| ->]]; reflexivity. Qed.
Print Assumptions C16_empty_refuted.

(** 30,000,001 doubles = 240 MB: three chunks. *)
Example C16_example :
  allreduce_calls 30000001 8 = Ok [(0, 10000001); (10000001, 10000000); (20000001, 10000000)]
  /\ allreduce_calls 5 16 = Ok [(0, 5)].
Proof. vm_compute. auto. Qed.
