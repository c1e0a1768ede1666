(** Model of the Chebyshev filter of src/eigenSolver.c and
    src/eigenSolverKpt.c, of its bounds and of the polynomial degree.
    Arithmetic is exact (reals); a division by zero is a distinct outcome. *)
From Coq Require Import Reals ZArith List Lia.
From Verif Require Import CBase.
Import ListNotations.
Local Open Scope R_scope.

Definition rdiv (x y : R) : outcome R := if Req_EM_T y 0 then UB else Ok (x / y).

Section Filter.
  (** V is the type of an array entry: double for src/eigenSolver.c, double
      _Complex for src/eigenSolverKpt.c. *)
  Variable V : Type.
  Variable vadd : V -> V -> V.
  Variable vscal : R -> V -> V.
  (** D = DMndspe, the entries of one orbital (all processes of the domain
      communicator taken together); H is the Hamiltonian acting on one
      orbital. *)
  Variable D : nat.
  Variable H : (nat -> V) -> (nat -> V).

  Definition upd (m : nat -> V) (p : nat) (v : V) : nat -> V := fun q => if Nat.eqb q p then v else m q.
  Definition column (m : nat -> V) (ld n : nat) : nat -> V := fun i => m (i + n * ld)%nat.
  (** the two nested loops over n < ncol and i < D, e.g. src/eigenSolver.c:764-768 *)
  Definition cells (ncol : nat) : list (nat * nat) := flat_map (fun n => map (fun i => (n, i)) (seq 0 D)) (seq 0 ncol).
  (** Hamiltonian_vectors_mult: Y = (H + c I) X column by column *)
  Definition hmult (c : R) (ncol : nat) (X : nat -> V) (ldi : nat) (Y : nat -> V) (ldo : nat) : nat -> V :=
    fold_left (fun Y p => upd Y (snd p + fst p * ldo)
                 (vadd (H (column X ldi (fst p)) (snd p)) (vscal c (X (snd p + fst p * ldi)%nat)))) (cells ncol) Y.
  (** src/eigenSolver.c:764-768 *)
  Definition scale_cols (s : R) (ncol : nat) (Y : nat -> V) (ldo : nat) : nat -> V :=
    fold_left (fun Y p => upd Y (snd p + fst p * ldo) (vscal s (Y (snd p + fst p * ldo)%nat))) (cells ncol) Y.
  (** src/eigenSolver.c:789-792, one entry; W is Ynew, with columns of length D *)
  Definition update1 (s1 s2 : R) (ldi ldo : nat) (st : (nat -> V) * (nat -> V) * (nat -> V)) (p : nat * nat) :=
    let '(X, Y, W) := st in let n := fst p in let i := snd p in
    let W := upd W (i + n * D) (vscal s1 (W (i + n * D)%nat)) in
    let W := upd W (i + n * D) (vadd (W (i + n * D)%nat) (vscal (- s2) (X (i + n * ldi)%nat))) in
    let X := upd X (i + n * ldi) (Y (i + n * ldo)%nat) in
    let Y := upd Y (i + n * ldo) (W (i + n * D)%nat) in (X, Y, W).
  (** src/eigenSolver.c:772-796: the remaining [k] iterations *)
  Fixpoint cheb_loop (e c gamma : R) (ncol ldi ldo k : nat) (sigma : R) (X Y W : nat -> V) : outcome ((nat -> V) * (nat -> V)) :=
    match k with
    | O => Ok (X, Y)
    | S k =>
      do sigma2 <- rdiv 1 (gamma - sigma) ;
      let W := hmult (- c) ncol Y ldo W D in
      do v1 <- rdiv (2 * sigma2) e ;
      let v2 := sigma * sigma2 in
      let '(X, Y, W) := fold_left (update1 v1 v2 ldi ldo) (cells ncol) (X, Y, W) in
      cheb_loop e c gamma ncol ldi ldo k sigma2 X Y W
    end.
  (** src/eigenSolver.c:722-798, src/eigenSolverKpt.c:458-535; W0 is the
      uninitialised array Ynew *)
  Definition ChebyshevFiltering (X : nat -> V) (ldi : nat) (Y : nat -> V) (ldo ncol m : nat) (a b a0 : R) (W0 : nat -> V)
    : outcome ((nat -> V) * (nat -> V)) :=
    let e := /2 * (b - a) in
    let c := /2 * (b + a) in
    do sigma1 <- rdiv e (a0 - c) ;
    do gamma <- rdiv 2 sigma1 ;
    let Y := hmult (- c) ncol X ldi Y ldo in
    do v <- rdiv sigma1 e ;
    let Y := scale_cols v ncol Y ldo in
    cheb_loop e c gamma ncol ldi ldo (m - 1) sigma1 X Y W0.
End Filter.

(** src/eigenSolver.c:589-715: the filter bounds of one spin channel.
    [lanczos] are the estimates of the extreme eigenvalues the Lanczos (or
    Laplacian) routine returns, [prev] the previous bounds, [lam] the sorted
    eigenvalues of the previous step.  First step (count = 0), chefsibound_flag
    0 or 1. *)
Definition bounds_first (lanczos : R * R) : R * R := (fst lanczos - /10, snd lanczos * (101 / 100)).
(** count >= rhoTrigger, chefsibound_flag = 0 *)
Definition bounds_later (prev : R * R) (lam_first : R) : R * R := (lam_first, snd prev).
(** lines 707-713 *)
Definition cutoff (first : bool) (bnd : R * R) (lam_last : R) : R :=
  if first then /2 * (fst bnd + snd bnd) else lam_last + /10.

(** src/eigenSolver.c:158-182: the values of [count] for which CheFSI runs in
    SCF iteration n *)
Definition chefsi_counts (rhoTrigger Nchefsi n : nat) : list nat :=
  let start := match n with O => O | S k => (rhoTrigger + k * Nchefsi)%nat end in
  seq start (rhoTrigger + n * Nchefsi - start).

(** src/eigenSolver.c:160-161, 239-262: the degree used by the next SCF
    iteration.  [r] is the double
    (npl_max-npl_min)/(-log TOL) * (log error - log TOL) truncated to int, or
    None when it is outside the int range (undefined). State: (ChebDegree,
    npl_max, npl_min). *)
Local Open Scope Z_scope.
Definition scf_start (deg : Z) : Z * Z * Z := (deg, deg, Z.max (Z.quot deg 4) 12).
Definition adjust_degree (optmz : bool) (large_error : bool) (r : option Z) (st : Z * Z * Z) : outcome (Z * Z * Z) :=
  let '(deg, npl_max, npl_min) := st in
  if optmz then
    if large_error then Ok (npl_max, npl_max, npl_min)
    else match r with
         | None => UB
         | Some t => Ok (Z.max npl_min (Z.min npl_max (npl_min + t)), npl_max, npl_min)
         end
  else Ok st.
(** src/eigenSolver.c:2347-2364; round() of a positive number as the floor of
    x + 1/2 *)
Definition Mesh2ChebDegree (h : R) : Z :=
  if Rlt_dec (7 / 10) h then 14
  else (up (((- (700 / 3) * h + 1240 / 3) * h + - (773 / 3)) * h + 1078 / 15 + / 2)%R - 1).
