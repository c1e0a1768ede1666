(** Model of the periodic halo exchange ("domain to extended domain").

    Simplifications: processes are named by Cartesian coordinates;
    MPI_Cart_rank wraps coordinates of a periodic direction;
    MPI_Ineighbor_alltoallv delivers, for every ordered pair of processes, the
    q-th message sent to a process into the q-th receive slot naming the sender
    (that is what the MPI standard prescribes for repeated neighbours); a send
    count different from the receive count is [UB], a missing message [Exit]. *)
From Coq Require Import ZArith List Lia Bool.
From Coq Require Import ZifyBool ZifyNat.
From Verif Require Import CBase BlockDecomp WorkSplit Mem D2D.
Import ListNotations.
Local Open Scope Z_scope.

(** src/parallelization.c:2683-2693 (send, [recv = false]) and 2728-2736
    (receive, [recv = true]): the while loop over layers in one direction. *)
Fixpoint layer_counts (recv : bool) (fuel : nat) (n p sign c ext Ndir : Z) : outcome (list Z) :=
  if ext >? 0 then
    match fuel with
    | O => Exit
    | S f =>
      do c' <- c_mod (c + sign + p) p;
      let neigh_size := block_decompose n p c' in
      let cnt := if recv then Z.min ext neigh_size else Z.min ext Ndir in
      do r <- layer_counts recv f n p sign c' (ext - (if recv then cnt else neigh_size)) Ndir;
      Ok (cnt :: r)
    end
  else Ok [].

(** Per direction: left layers, right layers, and the counts ordered left to
    right as by reorder_counts, src/parallelization.c:2831-2866. *)
Record dirinfo := mkdir { dl : Z; dr : Z; dcounts : list Z }.
Definition dir_info (recv : bool) (n p c ext : Z) : outcome dirinfo :=
  let Ndir := block_decompose n p c in
  do L <- layer_counts recv (Z.to_nat ext) n p (-1) c ext Ndir;
  do R <- layer_counts recv (Z.to_nat ext) n p 1 c ext Ndir;
  Ok (mkdir (Z.of_nat (length L)) (Z.of_nat (length R)) (rev L ++ Ndir :: R)).
Definition dcount (d : dirinfo) (o : Z) : Z := nth (Z.to_nat (o + dl d)) (dcounts d) 0.

(** src/parallelization.c:2703-2708, 2747-2750: neighbour at offset o. *)
Definition tgt1 (p c o : Z) : Z := (Z.rem (c + o + p) p) mod p.
Definition tgt (p c o : v3) : v3 :=
  (tgt1 (at3 p 0) (at3 c 0) (at3 o 0), tgt1 (at3 p 1) (at3 c 1) (at3 o 1),
   tgt1 (at3 p 2) (at3 c 2) (at3 o 2)).
Definition neg3 (o : v3) : v3 := (- at3 o 0, - at3 o 1, - at3 o 2).
Definition is0 (o : v3) : bool := v3_eqb o (0, 0, 0).

(** src/parallelization.c:2700-2714 / 2892-2894: all offsets, z slowest. *)
Definition offs (a b : Z) : list Z := zseq (- a) (Z.to_nat (a + b + 1)).
Definition offsets (lx rx ly ry lz rz : Z) : list v3 :=
  flat_map (fun k => flat_map (fun j => map (fun i => (i, j, k)) (offs lx rx)) (offs ly ry))
     (offs lz rz).
(** src/parallelization.c:2742-2755: receive slots go through them backwards
    (each of the three loops descends). *)
Definition offsets_down (lx rx ly ry lz rz : Z) : list v3 :=
  flat_map (fun k => flat_map (fun j => map (fun i => (i, j, k)) (rev (offs lx rx)))
     (rev (offs ly ry))) (rev (offs lz rz)).

Record info3 := mkinfo { ix : dirinfo; iy : dirinfo; iz : dirinfo }.
Definition iat (t : info3) (i : nat) : dirinfo :=
  match i with O => ix t | S O => iy t | _ => iz t end.
Definition set_target (recv : bool) (n p c ext : v3) : outcome info3 :=
  do x <- dir_info recv (at3 n 0) (at3 p 0) (at3 c 0) (at3 ext 0);
  do y <- dir_info recv (at3 n 1) (at3 p 1) (at3 c 1) (at3 ext 1);
  do z <- dir_info recv (at3 n 2) (at3 p 2) (at3 c 2) (at3 ext 2);
  Ok (mkinfo x y z).

Section Ext.
Context {A : Type}.
Variables (n p ext : v3).

(** Number of local nodes (DMnx, DMny, DMnz). *)
Definition dm (c : v3) (i : nat) : Z := block_decompose (at3 n i) (at3 p i) (at3 c i).

(** src/parallelization.c:2897-2913: first local node and number of nodes sent to offset o. *)
Definition sstart (c : v3) (t : info3) (o : v3) (i : nat) : Z :=
  if at3 o i <? 0 then 0 else dm c i - dcount (iat t i) (at3 o i).
Definition slen (c : v3) (t : info3) (o : v3) (i : nat) : Z :=
  (if at3 o i <? 0 then dcount (iat t i) (at3 o i) else dm c i) - sstart c t o i.

(** src/parallelization.c:2915-2927: message to offset o; [sdata_] macro 2882. *)
Definition message (c : v3) (t : info3) (sdata : mem A) (o : v3) : list A :=
  loop3 (slen c t o 2) (slen c t o 1) (slen c t o 0) (fun k j i =>
    sdata ((sstart c t o 0 + i) + (sstart c t o 1 + j) * dm c 0
           + (sstart c t o 2 + k) * dm c 0 * dm c 1)).

(** Send side: destinations (2700-2714), counts (2793-2809), data (2890-2931).
    The centre is skipped by comparing with the receiver's layers (2896), which
    are passed as [t']. *)
Definition sends (c : v3) (sdata : mem A) : outcome (list (v3 * (Z * list A))) :=
  do t <- set_target false n p c ext;
  do t' <- set_target true n p c ext;
  let l := offsets (dl (ix t)) (dr (ix t)) (dl (iy t)) (dr (iy t)) (dl (iz t)) (dr (iz t)) in
  let centre o := (at3 o 0 + dl (ix t) =? dl (ix t')) && (at3 o 1 + dl (iy t) =? dl (iy t'))
                  && (at3 o 2 + dl (iz t) =? dl (iz t')) in
  Ok (map (fun o => (tgt p c o,
        (dcount (ix t) (at3 o 0) * dcount (iy t) (at3 o 1) * dcount (iz t) (at3 o 2),
         if centre o then [] else message c t sdata o)))
      (filter (fun o => negb (is0 o)) l)).

(** Position [end] - 1 + 1 reached by the descending loops 2961-2993 when slot o
    is processed: total length minus the counts of the slots to the right. *)
Definition rend (c : v3) (t : info3) (o : v3) (i : nat) : Z :=
  2 * at3 ext i + dm c i
  - zsum (skipn (S (Z.to_nat (at3 o i + dl (iat t i)))) (dcounts (iat t i))).
Definition rstart (c : v3) (t : info3) (o : v3) (i : nat) : Z :=
  rend c t o i - dcount (iat t i) (at3 o i).
(** rdata_ macro, src/parallelization.c:2883 *)
Definition ridx (c : v3) (i j k : Z) : Z :=
  let nx := dm c 0 + 2 * at3 ext 0 in let ny := dm c 1 + 2 * at3 ext 1 in
  i + j * nx + k * nx * ny.

(** src/parallelization.c:2968-2987: stores of slot o with incoming data [msg]. *)
Definition slot_writes (c : v3) (t : info3) (o : v3) (msg : list A) : list (Z * A) :=
  combine (loop3 (dcount (iz t) (at3 o 2)) (dcount (iy t) (at3 o 1)) (dcount (ix t) (at3 o 0))
     (fun k j i => ridx c (rstart c t o 0 + i) (rstart c t o 1 + j) (rstart c t o 2 + k))) msg.

(** src/parallelization.c:2942-2945 calling tools.c:2871-2904 (see also C11). *)
Definition local_copy (c : v3) (sdata : mem A) : list (Z * A) :=
  loop3 (dm c 2) (dm c 1) (dm c 0) (fun k j i =>
    (ridx c (at3 ext 0 + i) (at3 ext 1 + j) (at3 ext 2 + k),
     sdata (k * (dm c 0 * dm c 1) + j * dm c 0 + i))).

(** Matching of slots and messages by the neighbourhood collective. *)
Definition nth_from (sdata : v3 -> mem A) (d s : v3) (q : nat) : outcome (Z * list A) :=
  do ms <- sends s (sdata s);
  match nth_error (filter (fun m => v3_eqb (fst m) d) ms) q with
  | Some m => Ok (snd m)
  | None => Exit
  end.
Fixpoint recv_slots (sdata : v3 -> mem A) (d : v3) (t : info3) (seen todo : list v3)
    (rdata : mem A) : outcome (mem A) :=
  match todo with
  | [] => Ok rdata
  | o :: r =>
    let s := tgt p d o in
    let q := length (filter (fun o' => v3_eqb (tgt p d o') s) seen) in
    do m <- nth_from sdata d s q;
    let cnt := dcount (ix t) (at3 o 0) * dcount (iy t) (at3 o 1) * dcount (iz t) (at3 o 2) in
    if (fst m =? cnt) && (Z.of_nat (length (snd m)) =? cnt)
    then recv_slots sdata d t (seen ++ [o]) r (run_writes rdata (slot_writes d t o (snd m)))
    else UB
  end.

(** src/parallelization.c:2879-2999 seen from process d. *)
Definition d2dext (sdata : v3 -> mem A) (d : v3) (rdata : mem A) : outcome (mem A) :=
  do t <- set_target true n p d ext;
  let l := offsets_down (dl (ix t)) (dr (ix t)) (dl (iy t)) (dr (iy t)) (dl (iz t)) (dr (iz t)) in
  recv_slots sdata d t [] (filter (fun o => negb (is0 o)) l)
     (run_writes rdata (local_copy d (sdata d))).
End Ext.

(** src/parallelization.c:2665-2668: size of the scratch arrays sneighs,
    rneighs, scounts, rcounts. *)
Definition max_layer1 (n p ext : Z) : outcome Z :=
  do m <- c_div n p; do q <- c_div ext m; Ok (2 * (q + 1) + 1).
Definition max_layer (n p ext : v3) : outcome Z :=
  do x <- max_layer1 (at3 n 0) (at3 p 0) (at3 ext 0);
  do y <- max_layer1 (at3 n 1) (at3 p 1) (at3 ext 1);
  do z <- max_layer1 (at3 n 2) (at3 p 2) (at3 ext 2);
  Ok (x * y * z).
(** Entries written to sneighs / rneighs (one per neighbour, 2700-2714,
    2742-2755) and to scounts / rcounts (one per layer, 2690, 2733). *)
Definition n_neighs (t : info3) : Z :=
  (dl (ix t) + dr (ix t) + 1) * (dl (iy t) + dr (iy t) + 1) * (dl (iz t) + dr (iz t) + 1) - 1.
Definition n_layers (t : info3) : Z :=
  dl (ix t) + dr (ix t) + (dl (iy t) + dr (iy t)) + (dl (iz t) + dr (iz t)).
