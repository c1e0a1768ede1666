(** Model of the redistribution between two domain decompositions.

    Simplifications: a process is named by its Cartesian coordinates instead of
    its rank in the union communicator (MPI_Cart_rank and
    MPI_Group_translate_ranks are bijections; src/parallelization.c:2079-2092,
    2147-2158); a message is delivered to the receive naming its sender; a
    receive with no matching send never completes ([Exit]); a message whose
    length differs from the posted count is [UB].  The element type is abstract
    (unit_size 8 or 16 select double / complex, same index arithmetic). *)
From Coq Require Import ZArith List Lia Bool.
From Coq Require Import ZifyBool ZifyNat.
From Verif Require Import CBase BlockDecomp WorkSplit Mem NdGrid.
Import ListNotations.
Local Open Scope Z_scope.

Definition v3 := (Z * Z * Z)%type.
Definition at3 (v : v3) (i : nat) : Z :=
  let '(a, b, c) := v in match i with O => a | S O => b | _ => c end.
Definition v3_eqb (a b : v3) : bool :=
  (at3 a 0 =? at3 b 0) && (at3 a 1 =? at3 b 1) && (at3 a 2 =? at3 b 2).

(** Corners of the local domain of the process at coordinates [c],
    src/parallelization.c:509-514. *)
Definition vlo (n p c : v3) (i : nat) : Z :=
  block_decompose_nstart (at3 n i) (at3 p i) (at3 c i).
Definition vhi (n p c : v3) (i : nat) : Z :=
  vlo n p c i + block_decompose (at3 n i) (at3 p i) (at3 c i) - 1.

(** src/parallelization.c:2041-2054 and 2319-2328 (send side), 2113-2124 and
    2393-2404 (receive side): coordinates of the partners of the process with
    corners [lo],[hi] in the process grid [po] of the other side. *)
Definition partners (n po : v3) (lo hi : nat -> Z) : outcome (list v3) :=
  do s0 <- block_decompose_rank (at3 n 0) (at3 po 0) (lo 0%nat);
  do e0 <- block_decompose_rank (at3 n 0) (at3 po 0) (hi 0%nat);
  do s1 <- block_decompose_rank (at3 n 1) (at3 po 1) (lo 1%nat);
  do e1 <- block_decompose_rank (at3 n 1) (at3 po 1) (hi 1%nat);
  do s2 <- block_decompose_rank (at3 n 2) (at3 po 2) (lo 2%nat);
  do e2 <- block_decompose_rank (at3 n 2) (at3 po 2) (hi 2%nat);
  let nt := (e0 - s0 + 1) * (e1 - s1 + 1) * (e2 - s2 + 1) in
  do X <- c_ndgrid 3 (at3 (s0, s1, s2)) (at3 (e0, e1, e2)) (fun _ => 0);
  Ok (loop1 nt (fun t => (X (0 * nt + t), X (1 * nt + t), X (2 * nt + t)))).

(** src/parallelization.c:2341-2353 / 2415-2427 / 2451-2463: intersection of the
    local box [lo],[hi] with the box of partner [c] of the grid [po]. *)
Definition ilo (n po : v3) (lo : nat -> Z) (c : v3) (i : nat) : Z := Z.max (vlo n po c i) (lo i).
Definition ihi (n po : v3) (hi : nat -> Z) (c : v3) (i : nat) : Z := Z.min (vhi n po c i) (hi i).
Definition inx (n po : v3) (lo hi : nat -> Z) (c : v3) (i : nat) : Z :=
  ihi n po hi c i - ilo n po lo c i + 1.
Definition DMnd (n po : v3) (lo hi : nat -> Z) (c : v3) : Z :=
  inx n po lo hi c 0 * inx n po lo hi c 1 * inx n po lo hi c 2.

Section D2D.
Context {A : Type} (junk : A).
Variables (n sp rp : v3).           (* gridsizes, sdims, rdims *)

(** src/parallelization.c:2360-2375: packing for receiver [rc]. *)
Definition pack (sc rc : v3) (sdata : mem A) : mem A :=
  let lo := vlo n sp sc in let hi := vhi n sp sc in
  let nx i := inx n rp lo hi rc i in
  let sx i := hi i - lo i + 1 in
  run_writes (fun _ => junk)
   (loop3 (nx 2%nat) (nx 1%nat) (nx 0%nat) (fun k j i =>
      let kloc := k + ilo n rp lo rc 2 - lo 2%nat in
      let jloc := j + ilo n rp lo rc 1 - lo 1%nat in
      let iloc := i + ilo n rp lo rc 0 - lo 0%nat in
      (idx3 (nx 0%nat) (nx 1%nat) i j k, sdata (idx3 (sx 0%nat) (sx 1%nat) iloc jloc kloc)))).

(** src/parallelization.c:2338-2380: all messages sent by [sc]. *)
Definition d2d_send (sc : v3) (sdata : mem A) : outcome (list (v3 * (Z * mem A))) :=
  let lo := vlo n sp sc in let hi := vhi n sp sc in
  do ts <- partners n rp lo hi;
  Ok (map (fun rc => (rc, (DMnd n rp lo hi rc, pack sc rc sdata))) ts).

(** src/parallelization.c:2464-2481: the stores done when unpacking the message
    from [sc]. *)
Definition unpack (sc rc : v3) (buf : mem A) : list (Z * A) :=
  let lo := vlo n rp rc in let hi := vhi n rp rc in
  let nx i := inx n sp lo hi sc i in
  let rx i := hi i - lo i + 1 in
  loop3 (nx 2%nat) (nx 1%nat) (nx 0%nat) (fun k j i =>
      let kloc := k + ilo n sp lo sc 2 - lo 2%nat in
      let jloc := j + ilo n sp lo sc 1 - lo 1%nat in
      let iloc := i + ilo n sp lo sc 0 - lo 0%nat in
      (idx3 (rx 0%nat) (rx 1%nat) iloc jloc kloc, buf (idx3 (nx 0%nat) (nx 1%nat) i j k))).

(** What the network hands to the receive posted by [rc] for sender [sc]. *)
Definition delivered (sdata : v3 -> mem A) (rc sc : v3) : outcome (mem A) :=
  do ms <- d2d_send sc (sdata sc);
  match find (fun m => v3_eqb (fst m) rc) ms with
  | Some (_, (len, buf)) =>
      if len =? DMnd n sp (vlo n rp rc) (vhi n rp rc) sc then Ok buf else UB
  | None => Exit
  end.

Fixpoint recv_all (sdata : v3 -> mem A) (rc : v3) (l : list v3) (rdata : mem A)
  : outcome (mem A) :=
  match l with
  | [] => Ok rdata
  | sc :: r => do buf <- delivered sdata rc sc;
               recv_all sdata rc r (run_writes rdata (unpack sc rc buf))
  end.

(** src/parallelization.c:2253-2522, seen from receiver [rc]. *)
Definition d2d (sdata : v3 -> mem A) (rc : v3) (rdata : mem A) : outcome (mem A) :=
  do ss <- partners n sp (vlo n rp rc) (vhi n rp rc);
  recv_all sdata rc ss rdata.

(** Stores of all receives, in order. *)
Lemma recv_all_writes sdata rc l : forall bufs rdata,
  (forall sc, In sc l -> delivered sdata rc sc = Ok (bufs sc)) ->
  recv_all sdata rc l rdata = Ok (run_writes rdata (flat_map (fun sc => unpack sc rc (bufs sc)) l)).
Proof.
  induction l as [|sc l IH]; intros bufs rdata H; cbn [recv_all flat_map].
  - reflexivity.
  - rewrite (H sc) by (now left). cbn [obind].
    rewrite (IH bufs) by (intros; apply H; now right).
    now rewrite run_writes_app.
Qed.
End D2D.

(** ** One direction *)
Lemma bd_len_pos n p r : 1 <= p <= n -> 0 < block_decompose n p r.
Proof.
  intros H. unfold block_decompose. rewrite quot_div_nonneg by lia.
  assert (1 <= n / p) by (apply Z.div_le_lower_bound; lia).
  destruct (r <? _); lia.
Qed.
Lemma bd_in_mesh n p r : 0 <= n -> 1 <= p -> 0 <= r < p ->
  0 <= block_decompose_nstart n p r /\
  block_decompose_nstart n p r + block_decompose n p r <= n.
Proof.
  intros Hn Hp Hr.
  pose proof (bd_start_mono n p 0 r Hn ltac:(lia) ltac:(lia)).
  pose proof (bd_start_mono n p (r+1) p Hn ltac:(lia) ltac:(lia)).
  rewrite bd_start_0 in * by lia. rewrite bd_start_p in * by lia.
  rewrite bd_start_S in * by lia. lia.
Qed.

(** Owners are monotone. *)
Lemma bd_owner_mono n p r1 r2 x y : 0 <= n -> 0 < p -> 0 <= r1 -> 0 <= r2 ->
  block_decompose_nstart n p r1 <= x < block_decompose_nstart n p r1 + block_decompose n p r1 ->
  block_decompose_nstart n p r2 <= y < block_decompose_nstart n p r2 + block_decompose n p r2 ->
  x <= y -> r1 <= r2.
Proof.
  intros Hn Hp H1 H2 I1 I2 L.
  destruct (Z_le_gt_dec r1 r2) as [|G]; [assumption|].
  pose proof (bd_start_mono n p (r2+1) r1 Hn Hp ltac:(lia)).
  rewrite bd_start_S in * by lia. lia.
Qed.

Lemma dir_partners n p a b : 1 <= p <= n -> 0 <= a <= b -> b < n ->
  exists s e, block_decompose_rank n p a = Ok s /\ block_decompose_rank n p b = Ok e /\
    0 <= s <= e /\ e < p /\
    forall c, s <= c <= e <->
      (0 <= c < p /\
       Z.max (block_decompose_nstart n p c) a
         <= Z.min (block_decompose_nstart n p c + block_decompose n p c - 1) b).
Proof.
  intros Hp Hab Hb.
  destruct (bd_rank_ok n p a ltac:(lia) ltac:(lia)) as (s & Es & Hs & Os).
  destruct (bd_rank_ok n p b ltac:(lia) ltac:(lia)) as (e & Ee & He & Oe).
  exists s, e. split; [exact Es|]. split; [exact Ee|].
  assert (Hse : s <= e) by (eapply (bd_owner_mono n p s e a b); eauto; lia).
  split; [lia|]. split; [lia|]. intros c.
  pose proof (bd_len_pos n p c Hp).
  split.
  - intros Hc. split; [lia|].
    assert (C1 : block_decompose_nstart n p c <= b).
    { pose proof (bd_start_mono n p c e ltac:(lia) ltac:(lia) ltac:(lia)). lia. }
    assert (C2 : a < block_decompose_nstart n p c + block_decompose n p c).
    { rewrite <- bd_start_S by lia.
      pose proof (bd_start_mono n p (s+1) (c+1) ltac:(lia) ltac:(lia) ltac:(lia)).
      rewrite (bd_start_S n p s) in * by lia. lia. }
    lia.
  - intros [Hc Hm].
    set (x := Z.max (block_decompose_nstart n p c) a) in *.
    split.
    + apply (bd_owner_mono n p s c a x); lia.
    + apply (bd_owner_mono n p c e x b); lia.
Qed.

Definition dims_ok (n p : v3) : Prop := forall i, (i < 3)%nat -> 1 <= at3 p i <= at3 n i.
Definition coord_ok (p c : v3) : Prop := forall i, (i < 3)%nat -> 0 <= at3 c i < at3 p i.
Definition meets (n p1 c1 p2 c2 : v3) : Prop := forall i, (i < 3)%nat ->
  Z.max (vlo n p1 c1 i) (vlo n p2 c2 i) <= Z.min (vhi n p1 c1 i) (vhi n p2 c2 i).

Lemma box_in_mesh n p c i : dims_ok n p -> coord_ok p c -> (i < 3)%nat ->
  0 <= vlo n p c i <= vhi n p c i /\ vhi n p c i < at3 n i.
Proof.
  intros Hd Hc Hi. specialize (Hd i Hi). specialize (Hc i Hi). unfold vhi, vlo.
  pose proof (bd_len_pos (at3 n i) (at3 p i) (at3 c i) Hd).
  pose proof (bd_in_mesh (at3 n i) (at3 p i) (at3 c i) ltac:(lia) ltac:(lia) ltac:(lia)). lia.
Qed.

Lemma at3_ext (a b : v3) : (forall i, (i < 3)%nat -> at3 a i = at3 b i) -> a = b.
Proof.
  destruct a as [[a0 a1] a2], b as [[b0 b1] b2]. intros H.
  pose proof (H 0%nat ltac:(lia)). pose proof (H 1%nat ltac:(lia)). pose proof (H 2%nat ltac:(lia)).
  cbn [at3] in *. congruence.
Qed.
Lemma v3_eqb_eq a b : v3_eqb a b = true <-> a = b.
Proof.
  unfold v3_eqb. rewrite !andb_true_iff, !Z.eqb_eq. split; [|intros ->; auto].
  intros [[H0 H1] H2]. apply at3_ext. intros i Hi.
  destruct i as [|[|[|i]]]; [assumption..|lia].
Qed.

(** The partner list: exactly the processes whose box meets mine, each once. *)
Lemma partners_spec n p po c : dims_ok n p -> dims_ok n po -> coord_ok p c ->
  exists l, partners n po (vlo n p c) (vhi n p c) = Ok l /\ NoDup l /\
    forall d, In d l <-> (coord_ok po d /\ meets n po d p c).
Proof.
  intros Hp Hpo Hc.
  assert (B : forall i, (i < 3)%nat -> 0 <= vlo n p c i <= vhi n p c i /\ vhi n p c i < at3 n i)
    by (intros; now apply box_in_mesh).
  destruct (B 0%nat ltac:(lia)) as [B0 B0']. destruct (B 1%nat ltac:(lia)) as [B1 B1'].
  destruct (B 2%nat ltac:(lia)) as [B2 B2'].
  destruct (dir_partners _ _ _ _ (Hpo 0%nat ltac:(lia)) B0 B0') as (s0 & e0 & Es0 & Ee0 & R0 & P0 & C0).
  destruct (dir_partners _ _ _ _ (Hpo 1%nat ltac:(lia)) B1 B1') as (s1 & e1 & Es1 & Ee1 & R1 & P1 & C1).
  destruct (dir_partners _ _ _ _ (Hpo 2%nat ltac:(lia)) B2 B2') as (s2 & e2 & Es2 & Ee2 & R2 & P2 & C2).
  unfold partners. rewrite Es0, Ee0, Es1, Ee1, Es2, Ee2. cbn [obind]. cbv zeta.
  set (lo := at3 (s0, s1, s2)). set (hi := at3 (e0, e1, e2)).
  assert (Hlh : forall e, (e < 3)%nat -> lo e <= hi e).
  { intros [|[|[|e]]] He; unfold lo, hi; cbn [at3]; lia. }
  set (nt := (e0 - s0 + 1) * (e1 - s1 + 1) * (e2 - s2 + 1)).
  assert (Hnt : nd_total 3 lo hi = nt).
  { cbn [nd_total]. unfold lo, hi, nt. cbn [at3]. ring. }
  destruct (c_ndgrid_rec_spec 3 lo hi 1 (nd_total 3 lo hi) (fun _ => 0) nt Hlh eq_refl)
    as (X & EX & V & _); [lia|lia|].
  unfold c_ndgrid. rewrite EX. cbn [obind].
  set (f := fun t => (X (0 * nt + t), X (1 * nt + t), X (2 * nt + t))).
  set (nx := e0 - s0 + 1) in *. set (ny := e1 - s1 + 1) in *. set (nz := e2 - s2 + 1) in *.
  assert (Hnx : 0 < nx) by lia. assert (Hny : 0 < ny) by lia. assert (Hnz : 0 < nz) by lia.
  assert (Hf : forall t, 0 <= t < nt ->
     f t = (s0 + t mod nx, s1 + (t / nx) mod ny, s2 + (t / (nx * ny)) mod nz)).
  { intros t Ht. unfold f.
    pose proof (V 0%nat t ltac:(lia) Ht) as V0. pose proof (V 1%nat t ltac:(lia) Ht) as V1.
    pose proof (V 2%nat t ltac:(lia) Ht) as V2.
    cbn [nd_total] in V0, V1, V2. unfold lo, hi in V0, V1, V2. cbn [at3] in V0, V1, V2.
    fold nx ny nz in V0, V1, V2.
    rewrite Z.div_1_r in V0. rewrite (Z.mul_1_l nx) in V1, V2.
    change (Z.of_nat 0) with 0 in V0. change (Z.of_nat 1) with 1 in V1.
    change (Z.of_nat 2) with 2 in V2.
    rewrite V0, V1, V2. reflexivity. }
  assert (Hfi : forall i j k, 0 <= i < nx -> 0 <= j < ny -> 0 <= k < nz ->
     0 <= idx3 nx ny i j k < nt /\ f (idx3 nx ny i j k) = (s0 + i, s1 + j, s2 + k)).
  { intros i j k Hi Hj Hk.
    assert (Hb := idx3_bound nx ny nz i j k Hi Hj Hk).
    assert (Hb' : 0 <= idx3 nx ny i j k < nt) by (unfold nt; lia).
    split; [exact Hb'|]. rewrite (Hf _ Hb').
    assert (Q1 : idx3 nx ny i j k / nx = k * ny + j).
    { symmetry. apply (Z.div_unique _ _ _ i); [lia|]. unfold idx3. ring. }
    assert (Q2 : idx3 nx ny i j k mod nx = i).
    { symmetry. apply (Z.mod_unique _ _ (k * ny + j)); [lia|]. unfold idx3. ring. }
    rewrite Q2, Q1. rewrite <- Z.div_div, Q1 by lia.
    assert (Q3 : (k * ny + j) mod ny = j).
    { symmetry. apply (Z.mod_unique _ _ k); [lia|ring]. }
    assert (Q4 : (k * ny + j) / ny = k).
    { symmetry. apply (Z.div_unique _ _ _ j); [lia|ring]. }
    rewrite Q3, Q4, (Z.mod_small k nz) by lia. reflexivity. }
  assert (Hsurj : forall t, 0 <= t < nt -> exists i j k,
     0 <= i < nx /\ 0 <= j < ny /\ 0 <= k < nz /\ t = idx3 nx ny i j k).
  { intros t Ht. apply (idx3_surj nx ny nz t Hnx Hny). unfold nt in Ht. lia. }
  exists (loop1 nt f). split; [reflexivity|]. split.
  - unfold loop1. apply NoDup_map_inj; [|apply NoDup_zseq].
    intros a b Ha Hb E. apply in_zseq in Ha. apply in_zseq in Hb.
    assert (0 <= a < nt) by lia. assert (0 <= b < nt) by lia.
    destruct (Hsurj a) as (i & j & k & Hi & Hj & Hk & ->); [assumption|].
    destruct (Hsurj b) as (i' & j' & k' & Hi' & Hj' & Hk' & ->); [assumption|].
    destruct (Hfi i j k Hi Hj Hk) as [_ F1]. destruct (Hfi i' j' k' Hi' Hj' Hk') as [_ F2].
    rewrite F1, F2 in E. injection E as E0 E1 E2.
    replace i' with i by lia. replace j' with j by lia. replace k' with k by lia. reflexivity.
  - intros d. rewrite in_loop1.
    assert (M : (coord_ok po d /\ meets n po d p c) <->
       (s0 <= at3 d 0 <= e0 /\ s1 <= at3 d 1 <= e1 /\ s2 <= at3 d 2 <= e2)).
    { rewrite (C0 (at3 d 0)), (C1 (at3 d 1)), (C2 (at3 d 2)).
      unfold coord_ok, meets, vlo, vhi. split.
      - intros [Hcd Hm]. repeat split;
          try (apply Hcd; lia); try (apply Hm; lia); unfold vlo, vhi in *;
          first [ exact (Hm 0%nat ltac:(lia)) | exact (Hm 1%nat ltac:(lia))
                | exact (Hm 2%nat ltac:(lia)) ].
      - intros ((X0 & Y0) & (X1 & Y1) & (X2 & Y2)).
        split; intros [|[|[|i]]] Hi; try assumption; exfalso; clear - Hi; lia. }
    rewrite M. split.
    + intros (t & Ht & E). destruct (Hsurj t Ht) as (i & j & k & Hi & Hj & Hk & ->).
      destruct (Hfi i j k Hi Hj Hk) as [_ F1]. rewrite F1 in E. subst d. cbn [at3]. lia.
    + intros (D0 & D1 & D2). destruct d as [[d0 d1] d2]. cbn [at3] in *.
      exists (idx3 nx ny (d0 - s0) (d1 - s1) (d2 - s2)).
      destruct (Hfi (d0 - s0) (d1 - s1) (d2 - s2)) as [F0 F1]; [lia..|].
      split; [exact F0|]. rewrite F1. f_equal; [f_equal|]; lia.
Qed.
