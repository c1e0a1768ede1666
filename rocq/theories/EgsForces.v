(** The assembly of the atomic forces: Calculate_EGS_Forces after the local, nonlocal and Hubbard parts, and
    Symmetrize_forces (/repo/src/forces.c:49-138, 1399-1428; /repo/src/xc/vdW/d3/d3forceStress.c:100-104).

    Simplifications: real numbers instead of doubles; one process of dmcomm_phi (the others return from
    Symmetrize_forces, and their forces are not used); the parts of the force are given; helical cells (types 21 and more)
    take the branch that leaves the forces as they are. *)
From Coq Require Import Reals ZArith List Bool.
From Verif Require Import CBase BandK Lattice.
Import ListNotations.
Local Open Scope R_scope.

(** array accesses *)
Definition get {A} (a : list A) (i : nat) : outcome A := match nth_error a i with Some x => Ok x | None => UB end.
(** for (i = 0; i < n; i++) a[i] = g(i) on an array of exactly n entries *)
Fixpoint fill {A} (g : nat -> outcome A) (l : list nat) : outcome (list A) :=
  match l with [] => Ok [] | i :: l => do x <- g i ; do r <- fill g l ; Ok (x :: r) end.

(** the loop over the atoms in a non-orthogonal cell (forces.c:87-91) *)
Definition atom (f : list R) (i : nat) : outcome vec :=
  do x <- get f (3 * i) ; do y <- get f (3 * i + 1) ; do z <- get f (3 * i + 2) ; Ok (V x y z).
Definition to_cart (t : lattice) (n : nat) (f : list R) : outcome (list R) :=
  if ((10 <? typ t) && (typ t <? 20))%Z then
    do l <- fill (fun i => do v <- atom f i ; let w := nonCart2Cart_grad t v in Ok [vx w; vy w; vz w]) (seq 0 n) ; Ok (concat l)
  else Ok f.
(** forces[i] += forces_xc[i] (forces.c:100-102); forces[i] -= d3Grads[i] (d3forceStress.c:101-103) *)
Definition add_xc (n : nat) (f xc : list R) : outcome (list R) :=
  fill (fun i => do a <- get f i ; do b <- get xc i ; Ok (a + b)) (seq 0 (3 * n)).
Definition add_d3 (n : nat) (f g : list R) : outcome (list R) :=
  fill (fun i => do a <- get f i ; do b <- get g i ; Ok (a - b)) (seq 0 (3 * n)).
(** Symmetrize_forces (forces.c:1399-1428). With no atoms the shifts are 0/0 and unused. *)
Definition shift_of (n : nat) (f : list R) (k : nat) : outcome R :=
  do s <- fold_left (fun acc i => do s <- acc ; do x <- get f (3 * i + k) ; Ok (s + x)) (seq 0 n) (Ok 0) ;
  Ok (s / INR n).
Definition symmetrize (cyclix : bool) (range_y : R) (n : nat) (f : list R) : outcome (list R) :=
  if (n =? 0)%nat then Ok f else
  do sx <- shift_of n f 0 ; do sy <- shift_of n f 1 ; do sz <- shift_of n f 2 ;
  let keep := (cyclix && if Rlt_dec range_y (2 * PI) then true else false)%bool in
  let sx := if keep then 0 else sx in
  let sy := if keep then 0 else sy in
  fill (fun j => do a <- get f j ; Ok (a - match (j mod 3)%nat with 0%nat => sx | 1%nat => sy | _ => sz end)) (seq 0 (3 * n)).
(** the flags of the input file (forces.c:126-129) *)
Definition constrain (RelaxFlag MDFlag : Z) (n : nat) (f : list R) (flags : list Z) : outcome (list R) :=
  if ((RelaxFlag =? 1) || (MDFlag =? 1))%Z then fill (fun i => do a <- get f i ; do c <- get flags i ; Ok (a * IZR c)) (seq 0 (3 * n))
  else Ok f.
(** Calculate_EGS_Forces from line 86 on: [xc] when NLCC_flag, [d3] when d3Flag == 1 *)
Definition egs_forces (t : lattice) (n : nat) (xc d3 : option (list R)) (cyclix : bool) (range_y : R) (RelaxFlag MDFlag : Z) (flags : list Z)
  (f : list R) : outcome (list R) :=
  do f <- to_cart t n f ;
  do f <- match xc with Some x => add_xc n f x | None => Ok f end ;
  do f <- match d3 with Some g => add_d3 n f g | None => Ok f end ;
  do f <- symmetrize cyclix range_y n f ;
  constrain RelaxFlag MDFlag n f flags.
