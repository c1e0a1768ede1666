(** Model of src/occupation.c:106-178 [collect_all_lambda] and of the
    communicators it uses, src/parallelization.c:106-189 and 381-400
    (spincomm, spin_bridge_comm, kptcomm, kpt_bridge_comm, bandcomm, dmcomm).

    A process is its rank in MPI_COMM_WORLD.  MPI_Comm_split and the two
    gather calls are modelled by their specification in the MPI standard; a
    collective call that some member of the communicator does not enter, or
    enters with another count, and a gather that writes outside its receive
    buffer are [UB].  MPI_Cart_create with reorder = 1 is taken to keep the
    ranks (as in Layout.v). *)
From Coq Require Import ZArith List Bool Lia.
From Verif Require Import CBase BlockDecomp WorkSplit.
Import ListNotations.
Local Open Scope Z_scope.

Definition zrange (a : Z) (n : nat) : list Z := map (fun i => a + Z.of_nat i) (seq 0 n).

(** MPI_Comm_split(parent, color, key): the members of the communicator that
    process r gets, ordered by key, ties by rank in the parent. Keys here are
    between -1 and nproc. *)
Definition comm_split (nproc : Z) (parent : list Z) (color key : Z -> Z) (r : Z) : list Z :=
  flat_map (fun v => filter (fun x => (color x =? color r) && (key x =? v)) parent) (zrange (-1) (Z.to_nat nproc + 2)).

Section Run.
  (** the process counts in effect (after src/parallelization.c:95-104 and
      159-168), npNd = npNdx npNdy npNdz *)
  Variables (nproc npspin npkpt npband npNd : Z) (Nspin Nk Ns : Z).
  Let ss := size_spincomm nproc npspin.
  Let sk := size_kptcomm ss npkpt.
  Definition world : list Z := zrange 0 (Z.to_nat nproc).
  Definition si (x : Z) : Z := spincomm_index nproc npspin x.
  Definition rs (x : Z) : Z := rank_spincomm nproc npspin x.
  Definition ki (x : Z) : Z := kptcomm_index ss npkpt (si x) (rs x).
  Definition rk (x : Z) : Z := rank_kptcomm ss npkpt (rs x).
  Definition nspin_loc (x : Z) : Z := Nspin_spincomm nproc npspin Nspin x.
  Definition nkpt_loc (x : Z) : Z := Nkpts_kptcomm ss npkpt Nk (si x) (rs x).
  (** src/parallelization.c:136-137 *)
  Definition spincomm (x : Z) : list Z :=
    comm_split nproc world (fun y => if 0 <=? si y then si y else INT_MAX) (fun _ => 0) x.
  (** src/parallelization.c:148-153 *)
  Definition spin_bridge_comm (x : Z) : list Z :=
    comm_split nproc world (fun y => if y <? nproc - Z.rem nproc npspin then rs y else INT_MAX) si x.
  (** src/parallelization.c:384-389 *)
  Definition kpt_bridge_comm (x : Z) : list Z :=
    comm_split nproc (spincomm x) (fun y => if rs y <? ss - Z.rem ss npkpt then rk y else INT_MAX) ki x.
  (** src/parallelization.c:402-416 and 455-560: the processes that pass the
      test of src/occupation.c:108: in a bandcomm (row-wise assignment, so the
      rank there is rank_kptcomm / npband) and among its first npNd ranks. *)
  Definition in_dmcomm (x : Z) : bool :=
    negb (bandcomm_index sk npband (ki x) (rk x) =? -1) && (Z.quot (rk x) npband <? npNd).

  Variable K : Type.
  Variable zero : K.

  (** write l into buf at position off *)
  Definition place (buf : list K) (off : Z) (l : list K) : outcome (list K) :=
    if (0 <=? off) && (off + Z.of_nat (length l) <=? Z.of_nat (length buf))
    then Ok (firstn (Z.to_nat off) buf ++ l ++ skipn (Z.to_nat off + length l) buf) else UB.
  Fixpoint place_all (buf : list K) (l : list (Z * list K)) : outcome (list K) :=
    match l with
    | [] => Ok buf
    | (off, v) :: r => do b <- place buf off v ; place_all b r
    end.
  (** MPI_Allgatherv into buf at offset off0 *)
  Definition allgatherv (members : list Z) (send : Z -> list K) (counts displs : nat -> Z) (buf : list K) (off0 : Z)
    : outcome (list K) :=
    if forallb in_dmcomm members
       && forallb (fun p => Z.of_nat (length (send (snd p))) =? counts (fst p)) (combine (seq 0 (length members)) members)
    then place_all buf (map (fun p => (off0 + displs (fst p), send (snd p))) (combine (seq 0 (length members)) members))
    else UB.
  (** MPI_Allgather: equal counts *)
  Definition allgather (members : list Z) (send : Z -> list K) (count : Z) (buf : list K) : outcome (list K) :=
    allgatherv members send (fun _ => count) (fun i => Z.of_nat i * count) buf 0.

  (** the first n entries from offset off of an array; out of bounds: none *)
  Definition slice (l : list K) (off n : Z) : list K := firstn (Z.to_nat n) (skipn (Z.to_nat off) l).

  (** src/occupation.c:118-125 *)
  Definition counts (i : nat) : Z := kptBridgeCount Nk npkpt Ns (Z.of_nat i).
  Definition displs (i : nat) : Z := kptBridgeDispl Nk npkpt Ns i.
  (** src/occupation.c:143-146: the array of one spin gathered over the
      k-point groups, on process x; [sp] is the position in the local array
      (src/occupation.c:153 for both spins in one group). *)
  Definition gather_kpt (lambda : Z -> list K) (x sp : Z) (buf : list K) (off0 : Z) : outcome (list K) :=
    allgatherv (kpt_bridge_comm x) (fun y => slice (lambda y) (sp * (Ns * nkpt_loc y)) (Ns * nkpt_loc y)) counts displs buf off0.
  Definition zeros (n : Z) : list K := repeat zero (Z.to_nat n).
  (** value of an outcome sent on to the next collective call *)
  Definition got (o : outcome (list K)) : list K := match o with Ok l => l | _ => [] end.
  Definition ok (o : outcome (list K)) : bool := match o with Ok _ => true | _ => false end.
  (** src/occupation.c:106-178; [gamma] is isGammaPoint.  totalLambdaArray is
      calloc'ed by the caller (line 59). *)
  Definition collect_all_lambda (gamma : bool) (lambda : Z -> list K) (x : Z) : outcome (list K) :=
    let total := zeros (Nspin * Nk * Ns) in
    if negb (in_dmcomm x) then Ok total
    else if gamma then
      allgather (spin_bridge_comm x) (fun y => slice (lambda y) 0 (nspin_loc y * Ns)) (nspin_loc x * Ns) total
    else if nspin_loc x =? 1 then
      let spin_array y := gather_kpt lambda y 0 (zeros (Ns * Nk)) 0 in
      if forallb (fun y => ok (spin_array y)) (spin_bridge_comm x)
      then allgather (spin_bridge_comm x) (fun y => got (spin_array y)) (Ns * Nk) total
      else UB
    else if nspin_loc x =? 2 then
      do t <- gather_kpt lambda x 0 total 0 ; gather_kpt lambda x 1 t (Ns * Nk)
    else Ok total.
End Run.
