(** Model of the layout conversions: block copies, band-parallel / domain-parallel
    exchange, in-place interleaving, sub-grid copy. *)
From Coq Require Import ZArith List Lia Bool.
From Coq Require Import ZifyBool ZifyNat.
From Verif Require Import CBase BlockDecomp WorkSplit Mem.
Import ListNotations.
Local Open Scope Z_scope.

Section Layout.
Context {A : Type}.

(** ** src/tools.c:2998-3019, copy_mat_blk.
    Pointers are (memory, offset); source and destination are distinct arrays
    at every call site, so all reads are from the unmodified source.  The two
    unit sizes run the same loop. *)
Definition copy_mat_blk (src : mem A) (soff lds nrow ncol : Z) (doff ldd : Z) : list (Z * A) :=
  loop2 ncol nrow (fun icol t => (doff + icol * ldd + t, src (soff + icol * lds + t))).

(** ** MPI_Alltoallv seen from process [j] of [np]: block i of the receive buffer
    comes from the part of process i's send buffer that i reserved for j; a
    send count different from the receive count is [UB]. *)
Fixpoint alltoallv (sbuf : Z -> mem A) (scnt sdis : Z -> Z -> Z) (j : Z)
    (rcnt rdis : Z -> Z) (i : Z) (k : nat) (rbuf : mem A) : outcome (mem A) :=
  match k with
  | O => Ok rbuf
  | S k' =>
    if scnt i j =? rcnt i
    then alltoallv sbuf scnt sdis j rcnt rdis (i + 1) k'
           (run_writes rbuf (loop1 (rcnt i) (fun t => (rdis i + t, sbuf i (sdis i j + t)))))
    else UB
  end.

(** ** src/eigenSolver.c:801-809, calc_block_spos (same text in eigenSolverKpt.c:538). *)
Definition calc_block_spos (len nblk iblk : Z) : outcome Z :=
  if (iblk <? 0) || (iblk >? nblk) then Ok (-1)
  else do rem <- c_mod len nblk;
       do bs0 <- c_div len nblk;
       let bs1 := bs0 + 1 in
       Ok (if iblk <? rem then bs1 * iblk else bs0 * iblk + rem).

(** ** src/eigenSolver.c:868-878: counts and displacements.
    [dis] = row / band displacement table, [w] = Ns_bp or Nd_dp of this process. *)
Definition cnts (w : Z) (dis : Z -> Z) (i : Z) : Z :=
  if i =? 0 then w * dis 1 else w * (dis (i + 1) - dis i).
Fixpoint displs (w : Z) (dis : Z -> Z) (i : nat) : Z :=
  match i with
  | O => 0
  | S k => displs w dis k + cnts w dis (Z.of_nat k)
  end.

Section BPDP.
Variables (np : Z)                (* nproc_row *)
          (ld : Z)                (* Ndsp_bp: leading dimension of the orbitals *)
          (rdp : Z -> Z)          (* Nd_dp_displs *)
          (sbp : Z -> Z).         (* Ns_bp_displs *)
(** Ns_bp, Nd_dp of process i (eigenSolver.c:840, 859). *)
Variables (Ns_bp : Z -> Z).
Definition Nd_dp (i : Z) : Z := rdp (i + 1) - rdp i.
Definition bp2dp_cnt (i j : Z) : Z := cnts (Ns_bp i) rdp j.
Definition bp2dp_dis (i j : Z) : Z := displs (Ns_bp i) rdp (Z.to_nat j).
Definition dp2bp_cnt (i j : Z) : Z := cnts (Nd_dp i) sbp j.
Definition dp2bp_dis (i j : Z) : Z := displs (Nd_dp i) sbp (Z.to_nat j).

(** src/parallelization.c:2544-2572: packing by process i. *)
Definition bp_pack (i : Z) (bp pk : mem A) : mem A :=
  run_writes pk (flat_map (fun j =>
     copy_mat_blk bp (rdp j) ld (rdp (j + 1) - rdp j) (Ns_bp i) (bp2dp_dis i j) (rdp (j + 1) - rdp j))
   (zseq 0 (Z.to_nat np))).
(** src/parallelization.c:2535-2590, BP2DP seen from process j. *)
Definition BP2DP (bp pk : Z -> mem A) (j : Z) (dp : mem A) : outcome (mem A) :=
  alltoallv (fun i => bp_pack i (bp i) (pk i)) bp2dp_cnt bp2dp_dis j
     (dp2bp_cnt j) (dp2bp_dis j) 0 (Z.to_nat np) dp.
(** src/parallelization.c:2592-2647, DP2BP seen from process i. *)
Definition DP2BP (dp : Z -> mem A) (i : Z) (pk bp : mem A) : outcome (mem A) :=
  do pk' <- alltoallv dp dp2bp_cnt dp2bp_dis i (bp2dp_cnt i) (bp2dp_dis i) 0 (Z.to_nat np) pk;
  Ok (run_writes bp (flat_map (fun j =>
     copy_mat_blk pk' (bp2dp_dis i j) (rdp (j + 1) - rdp j) (rdp (j + 1) - rdp j) (Ns_bp i) (rdp j) ld)
   (zseq 0 (Z.to_nat np)))).
End BPDP.

(** ** In-place interleaving *)
(** memcpy between two places of one array; overlapping ranges are [UB] (C11 7.24.2.1). *)
Definition memcpy (m : mem A) (dst src n : Z) : outcome (mem A) :=
  if (Z.abs (dst - src) <? n) then UB
  else Ok (run_writes m (loop1 n (fun t => (dst + t, m (src + t))))).
(** memcpy from another array. *)
Definition memcpy_from (m : mem A) (dst : Z) (from : mem A) (src n : Z) : mem A :=
  run_writes m (loop1 n (fun t => (dst + t, from (src + t)))).
Fixpoint ofold {S X} (f : S -> X -> outcome S) (l : list X) (s : S) : outcome S :=
  match l with [] => Ok s | x :: r => do s' <- f s x; ofold f r s' end.

(** src/tools.c:2917-2935.  Byte offsets are divided by unit_size.  The offsets
    are computed in [int]; a byte count above INT_MAX is [UB].  For ncol < 1 the
    malloc/memcpy size is negative, i.e. a huge size_t: [UB]. *)
Definition Row2Col (a : mem A) (nrow ncol unit : Z) : outcome (mem A) :=
  if (ncol <? 1) || (nrow <? 0) || (INT_MAX <? 2 * nrow * ncol * unit) then UB
  else
    let full := nrow * ncol in
    let a_ := memcpy_from (fun _ => a 0) 0 a full (nrow * (ncol - 1)) in
    do a1 <- ofold (fun m i => memcpy m (2 * i * nrow) (i * nrow) nrow)
               (rev (zseq 1 (Z.to_nat (ncol - 1)))) a;
    Ok (fold_left (fun m i => memcpy_from m ((2 * i + 1) * nrow) a_ (i * nrow) nrow)
               (zseq 0 (Z.to_nat (ncol - 1))) a1).

(** src/tools.c:2946-2968 *)
Definition Col2Row (a : mem A) (nrow ncol unit : Z) : outcome (mem A) :=
  if (ncol <? 1) || (nrow <? 0) || (INT_MAX <? 2 * nrow * ncol * unit) then UB
  else
    let full := nrow * ncol in
    let a_ := memcpy_from (fun _ => a 0) 0 a full (nrow * (ncol - 1)) in
    do a1 <- ofold (fun m i => memcpy m (Z.quot i 2 * nrow + Z.rem i 2 * full) (i * nrow) nrow)
               (zseq 1 (Z.to_nat (ncol - 1))) a;
    Ok (fold_left (fun m i =>
          memcpy_from m (Z.quot (i + ncol) 2 * nrow + Z.rem (i + ncol) 2 * full) a_ (i * nrow) nrow)
               (zseq 0 (Z.to_nat (ncol - 1))) a1).

(** ** src/tools.c:2871-2904, restrict_to_subgrid: the stores, in order. *)
Definition restrict_to_subgrid (vi : mem A) (syo syi szo szi : Z)
    (xo_s xo_e yo_s yo_e zo_s zo_e xi_s yi_s zi_s : Z) : list (Z * A) :=
  let ship := xi_s - xo_s in let shjp := yi_s - yo_s in let shkp := zi_s - zo_s in
  loop3 (zo_e - zo_s + 1) (yo_e - yo_s + 1) (xo_e - xo_s + 1) (fun dk dj di =>
    let k := zo_s + dk in let j := yo_s + dj in let i := xo_s + di in
    (k * szo + j * syo + i, vi ((k + shkp) * szi + (j + shjp) * syi + (i + ship)))).
End Layout.
