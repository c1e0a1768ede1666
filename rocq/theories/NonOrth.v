(** Model of the matrix-free Laplacian on a non-orthogonal cell:
    src/lapVecRoutines.c:637-933 [snd_rcv_buffer], 940-1331
    [Lap_plus_diag_vec_mult_nonorth] with 1337-1423
    [Lap_stencil_coef_compact], 1429-1475 [Calc_DX1_DX2], 1481-1535
    [stencil_4comp], 1540-1602 [stencil_5comp], src/gradVecRoutines.c:318-454
    [Calc_DX]; the neighbour list of the distributed graph communicator,
    src/parallelization.c:290-334 (544-589 and 930-976 are copies); the
    coefficients, src/initialization.c:2131-2177; and the k-point version
    src/lapVecRoutinesKpt.c:565-990, which multiplies the halo blocks outside
    the global domain by a phase factor (all factors one in the real version).

    The 26 neighbour blocks (faces, edges and corners) are numbered in the order
    of the loops over k, j, i = -1..1 without (0,0,0).  As in Halo.v arrays are
    maps from offsets; an access outside the allocated size or a read of
    unwritten malloc'ed memory is [UB]; MPI_Ineighbor_alltoallv matches, for
    every ordered pair of processes, their messages in the order of the
    neighbour lists, MPI_PROC_NULL entries being absent; a message of another
    length than the receive count is [UB].  Simplifications: ncol = 1 (all the
    calls), order = 2 FDn, int arithmetic without overflow, the cell types
    11..17 only (21..29 are the cyclix cells). *)
From Coq Require Import ZArith List Bool Lia.
From Verif Require Import CBase BlockDecomp Text Collect Halo.
Import ListNotations.
Local Open Scope Z_scope.

(** ** The tables of snd_rcv_buffer, transcribed entry by entry *)
(** src/lapVecRoutines.c:657-685 *)
Definition istart_norm (FDn DMnx : Z) : list Z :=
  let DMnx_in := DMnx - FDn in [0; 0; DMnx_in; 0; 0; DMnx_in; 0; 0; DMnx_in; 0; 0; DMnx_in; 0; DMnx_in; 0; 0; DMnx_in; 0; 0; DMnx_in; 0; 0; DMnx_in; 0; 0; DMnx_in].
(** src/lapVecRoutines.c:657-685 *)
Definition iend_norm (FDn DMnx : Z) : list Z :=
  [FDn; DMnx; DMnx; FDn; DMnx; DMnx; FDn; DMnx; DMnx; FDn; DMnx; DMnx; FDn; DMnx; FDn; DMnx; DMnx; FDn; DMnx; DMnx; FDn; DMnx; DMnx; FDn; DMnx; DMnx].
(** src/lapVecRoutines.c:717-745 *)
Definition jstart_norm (FDn DMny : Z) : list Z :=
  let DMny_in := DMny - FDn in [0; 0; 0; 0; 0; 0; DMny_in; DMny_in; DMny_in; 0; 0; 0; 0; 0; DMny_in; DMny_in; DMny_in; 0; 0; 0; 0; 0; 0; DMny_in; DMny_in; DMny_in].
(** src/lapVecRoutines.c:717-745 *)
Definition jend_norm (FDn DMny : Z) : list Z :=
  [FDn; FDn; FDn; DMny; DMny; DMny; DMny; DMny; DMny; FDn; FDn; FDn; DMny; DMny; DMny; DMny; DMny; FDn; FDn; FDn; DMny; DMny; DMny; DMny; DMny; DMny].
(** src/lapVecRoutines.c:778-806 *)
Definition kstart_norm (FDn DMnz : Z) : list Z :=
  let DMnz_in := DMnz - FDn in [0; 0; 0; 0; 0; 0; 0; 0; 0; 0; 0; 0; 0; 0; 0; 0; 0; DMnz_in; DMnz_in; DMnz_in; DMnz_in; DMnz_in; DMnz_in; DMnz_in; DMnz_in; DMnz_in].
(** src/lapVecRoutines.c:778-806 *)
Definition kend_norm (FDn DMnz : Z) : list Z :=
  [FDn; FDn; FDn; FDn; FDn; FDn; FDn; FDn; FDn; DMnz; DMnz; DMnz; DMnz; DMnz; DMnz; DMnz; DMnz; DMnz; DMnz; DMnz; DMnz; DMnz; DMnz; DMnz; DMnz; DMnz].
(** src/lapVecRoutines.c:686-716 *)
Definition istart_sw (FDn DMnx : Z) : list Z :=
  let DMnx_in := DMnx - FDn in [DMnx_in; 0; 0; DMnx_in; 0; 0; DMnx_in; 0; 0; DMnx_in; 0; 0; DMnx_in; 0; DMnx_in; 0; 0; DMnx_in; 0; 0; DMnx_in; 0; 0; DMnx_in; 0; 0].
(** src/lapVecRoutines.c:686-716 *)
Definition iend_sw (FDn DMnx : Z) : list Z :=
  [DMnx; DMnx; FDn; DMnx; DMnx; FDn; DMnx; DMnx; FDn; DMnx; DMnx; FDn; DMnx; FDn; DMnx; DMnx; FDn; DMnx; DMnx; FDn; DMnx; DMnx; FDn; DMnx; DMnx; FDn].
(** src/lapVecRoutines.c:746-777 *)
Definition jstart_sw (FDn DMny : Z) : list Z :=
  let DMny_in := DMny - FDn in [DMny_in; DMny_in; DMny_in; 0; 0; 0; 0; 0; 0; DMny_in; DMny_in; DMny_in; 0; 0; 0; 0; 0; DMny_in; DMny_in; DMny_in; 0; 0; 0; 0; 0; 0].
(** src/lapVecRoutines.c:746-777 *)
Definition jend_sw (FDn DMny : Z) : list Z :=
  [DMny; DMny; DMny; DMny; DMny; DMny; FDn; FDn; FDn; DMny; DMny; DMny; DMny; DMny; FDn; FDn; FDn; DMny; DMny; DMny; DMny; DMny; DMny; FDn; FDn; FDn].
(** src/lapVecRoutines.c:807-838 *)
Definition kstart_sw (FDn DMnz : Z) : list Z :=
  let DMnz_in := DMnz - FDn in [DMnz_in; DMnz_in; DMnz_in; DMnz_in; DMnz_in; DMnz_in; DMnz_in; DMnz_in; DMnz_in; 0; 0; 0; 0; 0; 0; 0; 0; 0; 0; 0; 0; 0; 0; 0; 0; 0].
(** src/lapVecRoutines.c:807-838 *)
Definition kend_sw (FDn DMnz : Z) : list Z :=
  [DMnz; DMnz; DMnz; DMnz; DMnz; DMnz; DMnz; DMnz; DMnz; DMnz; DMnz; DMnz; DMnz; DMnz; DMnz; DMnz; DMnz; FDn; FDn; FDn; FDn; FDn; FDn; FDn; FDn; FDn].
(** src/lapVecRoutines.c:839-866 *)
Definition istart_in_mul (FDn DMnx : Z) : list Z :=
  let DMnx_out := DMnx + FDn in [0; FDn; DMnx_out; 0; FDn; DMnx_out; 0; FDn; DMnx_out; 0; FDn; DMnx_out; 0; DMnx_out; 0; FDn; DMnx_out; 0; FDn; DMnx_out; 0; FDn; DMnx_out; 0; FDn; DMnx_out].
(** src/lapVecRoutines.c:839-866 *)
Definition iend_in_mul (FDn DMnx : Z) : list Z :=
  let DMnx_out := DMnx + FDn in let DMnx_ex := DMnx + FDn + FDn in [FDn; DMnx_out; DMnx_ex; FDn; DMnx_out; DMnx_ex; FDn; DMnx_out; DMnx_ex; FDn; DMnx_out; DMnx_ex; FDn; DMnx_ex; FDn; DMnx_out; DMnx_ex; FDn; DMnx_out; DMnx_ex; FDn; DMnx_out; DMnx_ex; FDn; DMnx_out; DMnx_ex].
(** src/lapVecRoutines.c:839-866 *)
Definition jstart_in_mul (FDn DMny : Z) : list Z :=
  let DMny_out := DMny + FDn in [0; 0; 0; FDn; FDn; FDn; DMny_out; DMny_out; DMny_out; 0; 0; 0; FDn; FDn; DMny_out; DMny_out; DMny_out; 0; 0; 0; FDn; FDn; FDn; DMny_out; DMny_out; DMny_out].
(** src/lapVecRoutines.c:839-866 *)
Definition jend_in_mul (FDn DMny : Z) : list Z :=
  let DMny_out := DMny + FDn in let DMny_ex := DMny + FDn + FDn in [FDn; FDn; FDn; DMny_out; DMny_out; DMny_out; DMny_ex; DMny_ex; DMny_ex; FDn; FDn; FDn; DMny_out; DMny_out; DMny_ex; DMny_ex; DMny_ex; FDn; FDn; FDn; DMny_out; DMny_out; DMny_out; DMny_ex; DMny_ex; DMny_ex].
(** src/lapVecRoutines.c:839-866 *)
Definition kstart_in_mul (FDn DMnz : Z) : list Z :=
  let DMnz_out := DMnz + FDn in [0; 0; 0; 0; 0; 0; 0; 0; 0; FDn; FDn; FDn; FDn; FDn; FDn; FDn; FDn; DMnz_out; DMnz_out; DMnz_out; DMnz_out; DMnz_out; DMnz_out; DMnz_out; DMnz_out; DMnz_out].
(** src/lapVecRoutines.c:839-866 *)
Definition kend_in_mul (FDn DMnz : Z) : list Z :=
  let DMnz_out := DMnz + FDn in let DMnz_ex := DMnz + FDn + FDn in [FDn; FDn; FDn; FDn; FDn; FDn; FDn; FDn; FDn; DMnz_out; DMnz_out; DMnz_out; DMnz_out; DMnz_out; DMnz_out; DMnz_out; DMnz_out; DMnz_ex; DMnz_ex; DMnz_ex; DMnz_ex; DMnz_ex; DMnz_ex; DMnz_ex; DMnz_ex; DMnz_ex].
(** src/lapVecRoutines.c:867-897 *)
Definition istart_one (FDn DMnx : Z) : list Z :=
  let DMnx_in := DMnx - FDn in [DMnx_in; 0; 0; DMnx_in; 0; 0; DMnx_in; 0; 0; DMnx_in; 0; 0; DMnx_in; 0; DMnx_in; 0; 0; DMnx_in; 0; 0; DMnx_in; 0; 0; DMnx_in; 0; 0].
(** src/lapVecRoutines.c:867-897 *)
Definition iend_one (FDn DMnx : Z) : list Z :=
  [DMnx; DMnx; FDn; DMnx; DMnx; FDn; DMnx; DMnx; FDn; DMnx; DMnx; FDn; DMnx; FDn; DMnx; DMnx; FDn; DMnx; DMnx; FDn; DMnx; DMnx; FDn; DMnx; DMnx; FDn].
(** src/lapVecRoutines.c:867-897 *)
Definition jstart_one (FDn DMny : Z) : list Z :=
  let DMny_in := DMny - FDn in [DMny_in; DMny_in; DMny_in; 0; 0; 0; 0; 0; 0; DMny_in; DMny_in; DMny_in; 0; 0; 0; 0; 0; DMny_in; DMny_in; DMny_in; 0; 0; 0; 0; 0; 0].
(** src/lapVecRoutines.c:867-897 *)
Definition jend_one (FDn DMny : Z) : list Z :=
  [DMny; DMny; DMny; DMny; DMny; DMny; FDn; FDn; FDn; DMny; DMny; DMny; DMny; DMny; FDn; FDn; FDn; DMny; DMny; DMny; DMny; DMny; DMny; FDn; FDn; FDn].
(** src/lapVecRoutines.c:867-897 *)
Definition kstart_one (FDn DMnz : Z) : list Z :=
  let DMnz_in := DMnz - FDn in [DMnz_in; DMnz_in; DMnz_in; DMnz_in; DMnz_in; DMnz_in; DMnz_in; DMnz_in; DMnz_in; 0; 0; 0; 0; 0; 0; 0; 0; 0; 0; 0; 0; 0; 0; 0; 0; 0].
(** src/lapVecRoutines.c:867-897 *)
Definition kend_one (FDn DMnz : Z) : list Z :=
  [DMnz; DMnz; DMnz; DMnz; DMnz; DMnz; DMnz; DMnz; DMnz; DMnz; DMnz; DMnz; DMnz; DMnz; DMnz; DMnz; DMnz; FDn; FDn; FDn; FDn; FDn; FDn; FDn; FDn; FDn].
(** src/lapVecRoutines.c:867-897 *)
Definition isnonzero (per : nat -> bool) : list bool :=
  [per 0%nat && per 1%nat && per 2%nat; per 1%nat && per 2%nat; per 0%nat && per 1%nat && per 2%nat; per 0%nat && per 2%nat; per 2%nat; per 0%nat && per 2%nat; per 0%nat && per 1%nat && per 2%nat; per 1%nat && per 2%nat; per 0%nat && per 1%nat && per 2%nat; per 0%nat && per 1%nat; per 1%nat; per 0%nat && per 1%nat; per 0%nat; per 0%nat; per 0%nat && per 1%nat; per 1%nat; per 0%nat && per 1%nat; per 0%nat && per 1%nat && per 2%nat; per 1%nat && per 2%nat; per 0%nat && per 1%nat && per 2%nat; per 0%nat && per 2%nat; per 2%nat; per 0%nat && per 2%nat; per 0%nat && per 1%nat && per 2%nat; per 1%nat && per 2%nat; per 0%nat && per 1%nat && per 2%nat].
(** src/lapVecRoutines.c:898-936 *)
Definition istart_in_one (FDn DMnx : Z) : list Z :=
  let DMnx_out := DMnx + FDn in [0; FDn; DMnx_out; 0; FDn; DMnx_out; 0; FDn; DMnx_out; 0; FDn; DMnx_out; 0; DMnx_out; 0; FDn; DMnx_out; 0; FDn; DMnx_out; 0; FDn; DMnx_out; 0; FDn; DMnx_out].
(** src/lapVecRoutines.c:898-936 *)
Definition iend_in_one (FDn DMnx : Z) : list Z :=
  let DMnx_out := DMnx + FDn in let DMnx_ex := DMnx + FDn + FDn in [FDn; DMnx_out; DMnx_ex; FDn; DMnx_out; DMnx_ex; FDn; DMnx_out; DMnx_ex; FDn; DMnx_out; DMnx_ex; FDn; DMnx_ex; FDn; DMnx_out; DMnx_ex; FDn; DMnx_out; DMnx_ex; FDn; DMnx_out; DMnx_ex; FDn; DMnx_out; DMnx_ex].
(** src/lapVecRoutines.c:898-936 *)
Definition jstart_in_one (FDn DMny : Z) : list Z :=
  let DMny_out := DMny + FDn in [0; 0; 0; FDn; FDn; FDn; DMny_out; DMny_out; DMny_out; 0; 0; 0; FDn; FDn; DMny_out; DMny_out; DMny_out; 0; 0; 0; FDn; FDn; FDn; DMny_out; DMny_out; DMny_out].
(** src/lapVecRoutines.c:898-936 *)
Definition jend_in_one (FDn DMny : Z) : list Z :=
  let DMny_out := DMny + FDn in let DMny_ex := DMny + FDn + FDn in [FDn; FDn; FDn; DMny_out; DMny_out; DMny_out; DMny_ex; DMny_ex; DMny_ex; FDn; FDn; FDn; DMny_out; DMny_out; DMny_ex; DMny_ex; DMny_ex; FDn; FDn; FDn; DMny_out; DMny_out; DMny_out; DMny_ex; DMny_ex; DMny_ex].
(** src/lapVecRoutines.c:898-936 *)
Definition kstart_in_one (FDn DMnz : Z) : list Z :=
  let DMnz_out := DMnz + FDn in [0; 0; 0; 0; 0; 0; 0; 0; 0; FDn; FDn; FDn; FDn; FDn; FDn; FDn; FDn; DMnz_out; DMnz_out; DMnz_out; DMnz_out; DMnz_out; DMnz_out; DMnz_out; DMnz_out; DMnz_out].
(** src/lapVecRoutines.c:898-936 *)
Definition kend_in_one (FDn DMnz : Z) : list Z :=
  let DMnz_out := DMnz + FDn in let DMnz_ex := DMnz + FDn + FDn in [FDn; FDn; FDn; FDn; FDn; FDn; FDn; FDn; FDn; DMnz_out; DMnz_out; DMnz_out; DMnz_out; DMnz_out; DMnz_out; DMnz_out; DMnz_out; DMnz_ex; DMnz_ex; DMnz_ex; DMnz_ex; DMnz_ex; DMnz_ex; DMnz_ex; DMnz_ex; DMnz_ex].

(** the tables of the send blocks: src/lapVecRoutines.c:655-837 (nproc > 1) and
    867-896 (nproc = 1), one pair of tables per dimension *)
Definition start_tab (nproc : Z) (dims : pt) (per : nat -> bool) (F : Z) (n : pt) (d : nat) : list Z :=
  let norm := (2 <? at_ dims d) || negb (per d) in
  match d with
  | O => if 1 <? nproc then (if norm then istart_norm F (at_ n 0) else istart_sw F (at_ n 0)) else istart_one F (at_ n 0)
  | S O => if 1 <? nproc then (if norm then jstart_norm F (at_ n 1) else jstart_sw F (at_ n 1)) else jstart_one F (at_ n 1)
  | _ => if 1 <? nproc then (if norm then kstart_norm F (at_ n 2) else kstart_sw F (at_ n 2)) else kstart_one F (at_ n 2)
  end.
Definition end_tab (nproc : Z) (dims : pt) (per : nat -> bool) (F : Z) (n : pt) (d : nat) : list Z :=
  let norm := (2 <? at_ dims d) || negb (per d) in
  match d with
  | O => if 1 <? nproc then (if norm then iend_norm F (at_ n 0) else iend_sw F (at_ n 0)) else iend_one F (at_ n 0)
  | S O => if 1 <? nproc then (if norm then jend_norm F (at_ n 1) else jend_sw F (at_ n 1)) else jend_one F (at_ n 1)
  | _ => if 1 <? nproc then (if norm then kend_norm F (at_ n 2) else kend_sw F (at_ n 2)) else kend_one F (at_ n 2)
  end.
(** the tables of the receive blocks: src/lapVecRoutines.c:839-865, 898-924 *)
Definition start_in_tab (nproc : Z) (F : Z) (n : pt) (d : nat) : list Z :=
  match d with
  | O => if 1 <? nproc then istart_in_mul F (at_ n 0) else istart_in_one F (at_ n 0)
  | S O => if 1 <? nproc then jstart_in_mul F (at_ n 1) else jstart_in_one F (at_ n 1)
  | _ => if 1 <? nproc then kstart_in_mul F (at_ n 2) else kstart_in_one F (at_ n 2)
  end.
Definition end_in_tab (nproc : Z) (F : Z) (n : pt) (d : nat) : list Z :=
  match d with
  | O => if 1 <? nproc then iend_in_mul F (at_ n 0) else iend_in_one F (at_ n 0)
  | S O => if 1 <? nproc then jend_in_mul F (at_ n 1) else jend_in_one F (at_ n 1)
  | _ => if 1 <? nproc then kend_in_mul F (at_ n 2) else kend_in_one F (at_ n 2)
  end.

(** the slots and their offsets: the loops of src/parallelization.c:297-331,
    also src/lapVecRoutinesKpt.c:647-660 *)
Definition offs : list pt := phase_dirs.
Definition slots26 : list nat := seq 0 26.
Definition off_of (s : nat) : pt := nth s offs (0, 0, 0).

Section NonOrth.
  Variable K : Type.
  Variables (k0 k1 : K) (kadd kmul ksub : K -> K -> K).
  Declare Scope k_scope.
  Notation "x + y" := (kadd x y) : k_scope.
  Notation "x * y" := (kmul x y) : k_scope.
  Notation "x - y" := (ksub x y) : k_scope.
  Delimit Scope k_scope with K.

  Variables (dims : pt) (per : nat -> bool) (N : pt) (F : Z).
  (** calculate_phase_factor at the translation (i Lx, j Ly, k Lz),
      src/lapVecRoutinesKpt.c:646-660, 548-554; all one in the real version *)
  Variable ph : pt -> K.
  Notation sz := (Halo.sz dims N).
  Notation st := (Halo.st dims N).
  Notation nproc := (Halo.nproc dims).
  Notation szx := (Halo.szx dims N F (fun _ => true)).

  (** ** Neighbours: src/parallelization.c:303-330 *)
  (** one turn of the loop over dir (lines 307-322): the coordinate after
      wrapping, None when rank_chk = MPI_PROC_NULL *)
  Definition coord (p o : pt) (d : nat) : option Z :=
    let c := at_ p d + at_ o d in
    if per d
    then Some (if c <? 0 then c + at_ dims d else if at_ dims d <=? c then c - at_ dims d else c)
    else if (c <? 0) || (at_ dims d <=? c) then None else Some c.
  Definition nbr26 (p o : pt) : option pt :=
    match coord p o 0 with
    | None => None
    | Some i => match coord p o 1 with
                | None => None
                | Some j => match coord p o 2 with None => None | Some k => Some (i, j, k) end
                end
    end.
  Definition to26 (p q : pt) (s : nat) : bool :=
    match nbr26 p (off_of s) with Some q' => pt_eqb q' q | None => false end.
  Fixpoint posn (l : list nat) (s : nat) : nat :=
    match l with [] => O | x :: r => if Nat.eqb x s then O else S (posn r s) end.
  (** the slot of q whose message arrives in slot r of p *)
  Definition match26 (p q : pt) (r : nat) : option nat :=
    nth_error (filter (to26 q p) slots26) (posn (filter (to26 p q) slots26) r).

  (** ** The exchange *)
  Definition send_box (n : pt) (s : nat) : list pt :=
    box (vec (fun d => nth s (start_tab nproc dims per F n d) 0)) (vec (fun d => nth s (end_tab nproc dims per F n d) 0)).
  Definition recv_corner (n : pt) (s : nat) : pt := vec (fun d => nth s (start_in_tab nproc F n d) 0).
  Definition recv_box (n : pt) (s : nat) : list pt :=
    box (recv_corner n s) (vec (fun d => nth s (end_in_tab nproc F n d) 0)).
  (** sendcounts = recvcounts: src/lapVecRoutines.c:1011-1021 *)
  Definition count26 (n : pt) (s : nat) : Z :=
    if existsb (Nat.eqb s) [0; 2; 6; 8; 17; 19; 23; 25]%nat then F * F * F
    else if existsb (Nat.eqb s) [1; 7; 18; 24]%nat then at_ n 0 * F * F
    else if existsb (Nat.eqb s) [3; 5; 20; 22]%nat then F * at_ n 1 * F
    else if existsb (Nat.eqb s) [4; 21]%nat then at_ n 0 * at_ n 1 * F
    else if existsb (Nat.eqb s) [9; 11; 14; 16]%nat then F * F * at_ n 2
    else if existsb (Nat.eqb s) [10; 15]%nat then at_ n 0 * F * at_ n 2
    else F * at_ n 1 * at_ n 2.
  (** sdispls = rdispls: src/lapVecRoutines.c:1023-1026 *)
  Fixpoint displ26 (n : pt) (s : nat) : Z :=
    match s with O => 0 | S t => displ26 n t + count26 n t end.
  (** nd_in = nd_out: src/lapVecRoutines.c:1028 *)
  Definition nd26 (n : pt) : Z :=
    2 * F * (4 * F * F + 2 * F * (at_ n 0 + at_ n 1 + at_ n 2) + (at_ n 0 * at_ n 1 + at_ n 0 * at_ n 2 + at_ n 1 * at_ n 2)).

  (** src/lapVecRoutines.c:1034-1054 *)
  Definition pack26 (n : pt) (x : Z -> K) : outcome (list K) :=
    do l <- omap (fun q => rdx K n x (lin n q)) (flat_map (send_box n) slots26) ;
    if Z.of_nat (length l) <=? nd26 n then Ok l else UB.
  Definition message26 (x : pt -> Z -> K) (p : pt) (r : nat) : outcome (option (list K)) :=
    match nbr26 p (off_of r) with
    | None => Ok None
    | Some q =>
      match match26 p q r with
      | None => UB
      | Some s =>
        do out <- pack26 (sz q) (x q) ;
        do l <- slice K out (displ26 (sz q) s) (count26 (sz q) s) ;
        if Z.of_nat (length l) =? count26 (sz p) r then Ok (Some l) else UB
      end
    end.
  (** x_in after MPI_Wait: src/lapVecRoutines.c:1030, 1063-1065, 1139 *)
  Fixpoint receive26 (x : pt -> Z -> K) (p : pt) (l : list nat) (buf : list K) : outcome (list K) :=
    match l with
    | [] => Ok buf
    | r :: t =>
      do m <- message26 x p r ;
      do buf' <- (match m with None => Ok buf | Some v => place K buf (displ26 (sz p) r) v end) ;
      receive26 x p t buf'
    end.
  (** src/lapVecRoutinesKpt.c:808-812: the factor of a received block, from the
      region of its first point; phase_factors has 26 entries *)
  Definition block_phase (p : pt) (s : nat) : outcome K :=
    let o := st p in
    let t := recv_corner (sz p) s in
    let r := grid_outside_region (at_ t 0) (at_ t 1) (at_ t 2) (- F) (- F) (- F)
               (DM (at_ o 0) (at_ o 0 + at_ (sz p) 0 - 1) (at_ o 1) (at_ o 1 + at_ (sz p) 1 - 1) (at_ o 2) (at_ o 2 + at_ (sz p) 2 - 1))
               (at_ N 0) (at_ N 1) (at_ N 2) in
    if 0 <=? r then (match nth_error offs (Z.to_nat r) with Some o' => Ok (ph o') | None => UB end) else Ok k1.

  (** src/lapVecRoutines.c:1153-1168, src/lapVecRoutinesKpt.c:804-827 *)
  Definition halo_recv26 (x : pt -> Z -> K) (p : pt) : outcome (list (Z * K)) :=
    let n := sz p in
    do b <- receive26 x p slots26 (repeat k0 (Z.to_nat (nd26 n))) ;
    do fac <- omap (block_phase p) slots26 ;
    let tgt := flat_map (fun s => map (fun q => (s, q)) (recv_box n s)) slots26 in
    if Z.of_nat (length tgt) <=? Z.of_nat (length b)
    then Ok (map (fun z => (lin (szx p) (snd (fst z)), (snd z * nth (fst (fst z)) fac k1)%K)) (combine tgt b))
    else UB.
  (** src/lapVecRoutines.c:1177-1198, src/lapVecRoutinesKpt.c:841-866 (where
      the grid test is true of every halo point) *)
  Definition halo_self26 (x : pt -> Z -> K) (p : pt) : outcome (list (Z * K)) :=
    let n := sz p in
    do ls <- omap (fun s =>
      if nth s (isnonzero per) false
      then do l <- omap (fun q => rdx K n (x p) (lin n q)) (send_box n s) ;
           Ok (map (fun z => (lin (szx p) (fst z),
             if is_grid_outside (at_ (fst z) 0) (at_ (fst z) 1) (at_ (fst z) 2) (- F) (- F) (- F)
                  (DM (at_ (st p) 0) (at_ (st p) 0 + at_ n 0 - 1) (at_ (st p) 1) (at_ (st p) 1 + at_ n 1 - 1) (at_ (st p) 2) (at_ (st p) 2 + at_ n 2 - 1))
                  (at_ N 0) (at_ N 1) (at_ N 2)
             then (snd z * ph (off_of s))%K else snd z)) (combine (recv_box n s) l))
      else Ok []) slots26 ;
    Ok (concat ls).
  (** x_ex, calloc'ed: src/lapVecRoutines.c:1078-1096, 1133-1198 *)
  Definition extend26 (x : pt -> Z -> K) (p : pt) : outcome (Z -> option K) :=
    let n := sz p in
    let inner := box (vec (fun _ => F)) (vec (fun d => (at_ n d + F)%Z)) in
    do vals <- omap (rdx K n (x p)) (zrange 0 (length inner)) ;
    do m1 <- wr_all K (nd (szx p)) (fun a => if (0 <=? a) && (a <? nd (szx p)) then Some k0 else None) (combine (map (lin (szx p)) inner) vals) ;
    do h <- (if 1 <? nproc then halo_recv26 x p else halo_self26 x p) ;
    wr_all K (nd (szx p)) m1 h.

  (** ** Coefficients: src/initialization.c:2127-2177 *)
  (** lapcT, FDweights_D1, FDweights_D2, 1/delta by direction *)
  Variables (T : nat -> nat -> K) (w1 w2 : Z -> K) (hinv : nat -> K).
  Definition D1_ (d : nat) (p : Z) : K := (w1 p * hinv d)%K.
  Definition D2_ (d : nat) (p : Z) : K := (T d d * w2 p * (hinv d * hinv d))%K.
  (** D2_stencil_coeffs_xy (d = 0, e = 1), xz (0, 2), yz (1, 2) *)
  Definition D2m (d e : nat) (p : Z) : K := ((k1 + k1) * T d e * w1 p * hinv d)%K.
  (** D1_stencil_coeffs_xy .. zy: derivative along e; T_de with d <= e *)
  Definition D1m (d e : nat) (p : Z) : K := ((k1 + k1) * T (Nat.min d e) (Nat.max d e) * w1 p * hinv e)%K.

  (** src/lapVecRoutines.c:1337-1423: the entries appended for one p *)
  Definition compact (typ : Z) (a : K) (p : Z) : list K :=
    let d2 := [(D2_ 0 p * a)%K; (D2_ 1 p * a)%K; (D2_ 2 p * a)%K] in
    if typ =? 11 then d2 ++ [(D2m 0 1 p * a)%K]
    else if typ =? 12 then d2 ++ [(D2m 0 2 p * a)%K]
    else if typ =? 13 then d2 ++ [(D2m 1 2 p * a)%K]
    else if typ =? 14 then d2 ++ [(D1_ 0 p * a)%K]
    else if typ =? 15 then d2 ++ [(D1_ 2 p * a)%K]
    else if typ =? 16 then d2 ++ [(D1_ 1 p * a)%K]
    else if typ =? 17 then d2 ++ [(D1_ 0 p * a)%K; (D2m 1 2 p * a)%K]
    else [].
  (** Lap_wt: src/lapVecRoutines.c:991-994, 5 (FDn + 1) doubles, filled from
      the fifth on *)
  Definition lap_wt (typ : Z) (a : K) (i : Z) : outcome K :=
    let l := flat_map (compact typ a) (zrange 1 (Z.to_nat F)) in
    if (0 <=? i) && (i <? 5 * (F + 1))
    then if i <? 5 then UB else match nth_error l (Z.to_nat (i - 5)) with Some v => Ok v | None => UB end
    else UB.

  (** ** Strided loops *)
  Fixpoint sweepa (size : Z) (addr : pt -> Z) (f : pt -> outcome K) (l : list pt) (y : Z -> option K) : outcome (Z -> option K) :=
    match l with
    | [] => Ok y
    | q :: r => do v <- f q ; do y' <- wr K size y (addr q) v ; sweepa size addr f r y'
    end.
  (** base + k * stride_z + j * stride_y + i of the point q - lo + xo *)
  Definition sadr (lo xo : pt) (sy sz_ : Z) (q : pt) : Z :=
    (at_ q 2 - at_ lo 2 + at_ xo 2) * sz_ + (at_ q 1 - at_ lo 1 + at_ xo 1) * sy + (at_ q 0 - at_ lo 0 + at_ xo 0).
  (** src/gradVecRoutines.c:318-454 (Calc_DX_radius6 is the case radius = 6):
      X has szX entries, DX szDX; lo..hi is the range of DX, xo the first
      point in X *)
  Definition Calc_DX (szX : Z) (X : Z -> option K) (szDX : Z) (radius stride_X sy_X sy_DX sz_X sz_DX : Z) (lo hi xo : pt)
    (coef : Z -> K) (c : K) : outcome (Z -> option K) :=
    sweepa szDX (fun q => at_ q 2 * sz_DX + at_ q 1 * sy_DX + at_ q 0) (fun q =>
      let i := sadr lo xo sy_X sz_X q in
      do x0 <- rd K szX X i ;
      radius_sum K kadd (fun r => do p2 <- rd K szX X (i + r * stride_X) ; do p1 <- rd K szX X (i - r * stride_X) ; Ok ((p2 - p1) * coef r)%K)
        1 (Z.to_nat radius) (x0 * c)%K) (box lo hi) (fun _ => None).
  (** src/lapVecRoutines.c:1429-1475 *)
  Definition Calc_DX1_DX2 (szX : Z) (X : Z -> option K) (szDX : Z) (radius stride1 stride2 sy_X sy_DX sz_X sz_DX : Z) (lo hi xo : pt)
    (coef1 coef2 : Z -> K) : outcome (Z -> option K) :=
    sweepa szDX (fun q => at_ q 2 * sz_DX + at_ q 1 * sy_DX + at_ q 0) (fun q =>
      let i := sadr lo xo sy_X sz_X q in
      let one (s : Z) (coef : Z -> K) :=
        radius_sum K kadd (fun r => do p2 <- rd K szX X (i + r * s) ; do p1 <- rd K szX X (i - r * s) ; Ok ((p2 - p1) * coef r)%K)
          1 (Z.to_nat radius) k0 in
      do t1 <- one stride1 coef1 ; do t2 <- one stride2 coef2 ; Ok (t1 + t2)%K) (box lo hi) (fun _ => None).
  (** src/lapVecRoutines.c:1481-1535; wt reads stencil_coefs; v0 has n1 entries *)
  Definition stencil_4comp (szX : Z) (X : Z -> option K) (szDX : Z) (DX : Z -> option K) (radius stride_DX sy_X1 sy_X sy_DX sz_X1 sz_X sz_DX : Z)
    (lo hi xo dxo : pt) (wt : Z -> outcome K) (coef_0 b : K) (v0 : Z -> outcome K) (szX1 : Z) : outcome (Z -> option K) :=
    let a1 (q : pt) := at_ q 2 * sz_X1 + at_ q 1 * sy_X1 + at_ q 0 in
    sweepa szX1 a1 (fun q =>
      let i := sadr lo xo sy_X sz_X q in
      let iD := sadr lo dxo sy_DX sz_DX q in
      let pl (s : Z) (c : Z) := do p1 <- rd K szX X (i - s) ; do p2 <- rd K szX X (i + s) ; do cf <- wt c ; Ok ((p1 + p2) * cf)%K in
      do x0 <- rd K szX X i ;
      do res <- radius_sum K kadd (fun r =>
        let r_fac := 4 * r + 1 in
        do rx <- pl r r_fac ; do ry <- pl (r * sy_X) (r_fac + 1) ; do rz <- pl (r * sz_X) (r_fac + 2) ;
        do m2 <- rd K szDX DX (iD + r * stride_DX) ; do m1 <- rd K szDX DX (iD - r * stride_DX) ; do cm <- wt (r_fac + 3) ;
        Ok (((rx + ry) + rz) + (m2 - m1) * cm)%K) 1 (Z.to_nat radius) (coef_0 * x0)%K ;
      do vq <- v0 (a1 q) ;
      Ok (res + b * (vq * x0))%K) (box lo hi) (fun _ => None).
  (** src/lapVecRoutines.c:1540-1602 *)
  Definition stencil_5comp (szX : Z) (X : Z -> option K) (szDX1 : Z) (DX1 : Z -> option K) (szDX2 : Z) (DX2 : Z -> option K)
    (radius stride_DX1 stride_DX2 sy_X1 sy_X sy_DX1 sy_DX2 sz_X1 sz_X sz_DX1 sz_DX2 : Z)
    (lo hi xo dxo1 dxo2 : pt) (wt : Z -> outcome K) (coef_0 b : K) (v0 : Z -> outcome K) (szX1 : Z) : outcome (Z -> option K) :=
    let a1 (q : pt) := at_ q 2 * sz_X1 + at_ q 1 * sy_X1 + at_ q 0 in
    sweepa szX1 a1 (fun q =>
      let i := sadr lo xo sy_X sz_X q in
      let iD1 := sadr lo dxo1 sy_DX1 sz_DX1 q in
      let iD2 := sadr lo dxo2 sy_DX2 sz_DX2 q in
      let pl (s : Z) (c : Z) := do p1 <- rd K szX X (i - s) ; do p2 <- rd K szX X (i + s) ; do cf <- wt c ; Ok ((p1 + p2) * cf)%K in
      do x0 <- rd K szX X i ;
      do res <- radius_sum K kadd (fun r =>
        let r_fac := 5 * r in
        do rx <- pl r r_fac ; do ry <- pl (r * sy_X) (r_fac + 1) ; do rz <- pl (r * sz_X) (r_fac + 2) ;
        do m2 <- rd K szDX1 DX1 (iD1 + r * stride_DX1) ; do m1 <- rd K szDX1 DX1 (iD1 - r * stride_DX1) ; do cm <- wt (r_fac + 3) ;
        do n2 <- rd K szDX2 DX2 (iD2 + r * stride_DX2) ; do n1 <- rd K szDX2 DX2 (iD2 - r * stride_DX2) ; do cn <- wt (r_fac + 4) ;
        Ok ((((rx + ry) + rz) + (m2 - m1) * cm) + (n2 - n1) * cn)%K) 1 (Z.to_nat radius) (coef_0 * x0)%K ;
      do vq <- v0 (a1 q) ;
      Ok (res + b * (vq * x0))%K) (box lo hi) (fun _ => None).

  (** Lap_plus_diag_vec_mult_nonorth at process p: src/lapVecRoutines.c:952-953,
      984-994, 1070-1074, 1104-1131, 1204-1297.  useb = false is the case
      fabs(b) < 1e-14 || v == NULL.  For a cell type outside 11..19 the arrays
      D2_stencil_coeffs_* are never filled (src/initialization.c:2131-2177) and
      w2_diag reads uninitialised memory. *)
  Definition lap_nonorth (typ : Z) (useb : bool) (a b c : K) (v x : pt -> Z -> K) (p : pt) : outcome (Z -> option K) :=
    let b' := if useb then b else k0 in
    let v' := if useb then v p else x p in
    let n := sz p in
    let nx := at_ n 0 in let ny := at_ n 1 in let nz := at_ n 2 in
    let nxe := (nx + 2 * F)%Z in let nye := (ny + 2 * F)%Z in let nze := (nz + 2 * F)%Z in
    let nx_ny := (nx * ny)%Z in
    let py := nx in let pz := (py * ny)%Z in let pye := nxe in let pze := (pye * nye)%Z in
    let nd_ex := (nxe * nye * nze)%Z in
    let nxexny := (nxe * ny)%Z in let xex := (nxexny * nz)%Z in
    let nxnyex := (nx * nye)%Z in let yex := (nxnyex * nz)%Z in let zex := (nx_ny * nze)%Z in
    if (10 <? typ) && (typ <? 20) then
    let w2_diag := ((D2_ 0 0 + D2_ 1 0 + D2_ 2 0) * a + c)%K in
    let wt := lap_wt typ a in
    let v0 := rdx K n v' in
    do X <- extend26 x p ;
    if typ =? 11 then
      do D <- Calc_DX nd_ex X xex F pye pye nxe pze nxexny (0, 0, 0) (nxe, ny, nz) (0, F, F) (D1_ 1) k0 ;
      stencil_4comp nd_ex X xex D F 1 py pye nxe pz pze nxexny (0, 0, 0) (nx, ny, nz) (F, F, F) (F, 0, 0) wt w2_diag b' v0 (nd n)
    else if typ =? 12 then
      do D <- Calc_DX nd_ex X xex F pze pye nxe pze nxexny (0, 0, 0) (nxe, ny, nz) (0, F, F) (D1_ 2) k0 ;
      stencil_4comp nd_ex X xex D F 1 py pye nxe pz pze nxexny (0, 0, 0) (nx, ny, nz) (F, F, F) (F, 0, 0) wt w2_diag b' v0 (nd n)
    else if typ =? 13 then
      do D <- Calc_DX nd_ex X yex F pze pye nx pze nxnyex (0, 0, 0) (nx, nye, nz) (F, 0, F) (D1_ 2) k0 ;
      stencil_4comp nd_ex X yex D F nx py pye nx pz pze nxnyex (0, 0, 0) (nx, ny, nz) (F, F, F) (0, F, 0) wt w2_diag b' v0 (nd n)
    else if typ =? 14 then
      do D <- Calc_DX1_DX2 nd_ex X xex F pye pze pye nxe pze nxexny (0, 0, 0) (nxe, ny, nz) (0, F, F) (D1m 0 1) (D1m 0 2) ;
      stencil_4comp nd_ex X xex D F 1 py pye nxe pz pze nxexny (0, 0, 0) (nx, ny, nz) (F, F, F) (F, 0, 0) wt w2_diag b' v0 (nd n)
    else if typ =? 15 then
      do D <- Calc_DX1_DX2 nd_ex X zex F 1 pye pye nx pze nx_ny (0, 0, 0) (nx, ny, nze) (F, F, 0) (D1m 2 0) (D1m 2 1) ;
      stencil_4comp nd_ex X zex D F nx_ny py pye nx pz pze nx_ny (0, 0, 0) (nx, ny, nz) (F, F, F) (0, 0, F) wt w2_diag b' v0 (nd n)
    else if typ =? 16 then
      do D <- Calc_DX1_DX2 nd_ex X yex F 1 pze pye nx pze nxnyex (0, 0, 0) (nx, nye, nz) (F, 0, F) (D1m 1 0) (D1m 1 2) ;
      stencil_4comp nd_ex X yex D F nx py pye nx pz pze nxnyex (0, 0, 0) (nx, ny, nz) (F, F, F) (0, F, 0) wt w2_diag b' v0 (nd n)
    else if typ =? 17 then
      do D <- Calc_DX1_DX2 nd_ex X xex F pye pze pye nxe pze nxexny (0, 0, 0) (nxe, ny, nz) (0, F, F) (D1m 0 1) (D1m 0 2) ;
      do E <- Calc_DX nd_ex X yex F pze pye nx pze nxnyex (0, 0, 0) (nx, nye, nz) (F, 0, F) (D1_ 2) k0 ;
      stencil_5comp nd_ex X xex D yex E F 1 nx py pye nxe nx pz pze nxexny nxnyex (0, 0, 0) (nx, ny, nz) (F, F, F) (F, 0, 0) (0, F, 0) wt w2_diag b' v0 (nd n)
    else Ok (fun _ => None)
    else UB.
End NonOrth.
