(** Functions on a periodic grid, the Laplacian stencil on them, and what it
    means to be its largest eigenvalue; nothing here refers to cosines. *)
From Coq Require Import Reals ZArith.
Local Open Scope R_scope.

Definition gfun := Z -> Z -> Z -> R.

(** Sum over 0 <= i < N. *)
Fixpoint nsum (N : nat) (f : Z -> R) : R :=
  match N with O => 0 | S m => nsum m f + f (Z.of_nat m) end.
Definition gsum (Nx Ny Nz : Z) (f : gfun) : R :=
  nsum (Z.to_nat Nz) (fun k => nsum (Z.to_nat Ny) (fun j => nsum (Z.to_nat Nx) (fun i => f i j k))).

Definition periodic (Nx Ny Nz : Z) (u : gfun) : Prop :=
  forall i j k, u (i + Nx)%Z j k = u i j k /\ u i (j + Ny)%Z k = u i j k /\ u i j (k + Nz)%Z = u i j k.

(** Sum over 1 <= p <= n. *)
Fixpoint ssum (f : nat -> R) (n : nat) : R :=
  match n with O => 0 | S m => ssum f m + f (S m) end.

(** One axis of the stencil with coefficients [c] (c p at distance p). *)
Definition line (n : nat) (c : nat -> R) (v : Z -> R) (i : Z) : R :=
  c O * v i + ssum (fun p => c p * (v (i + Z.of_nat p)%Z + v (i - Z.of_nat p)%Z)) n.
Definition lap (n : nat) (cx cy cz : nat -> R) (u : gfun) : gfun := fun i j k =>
  line n cx (fun i => u i j k) i + line n cy (fun j => u i j k) j + line n cz (fun k => u i j k) k.

Definition inner (Nx Ny Nz : Z) (u v : gfun) : R := gsum Nx Ny Nz (fun i j k => u i j k * v i j k).

(** [l] is an eigenvalue of the operator [A] on periodic functions. *)
Definition eigenvalue (Nx Ny Nz : Z) (A : gfun -> gfun) (l : R) : Prop :=
  exists u, periodic Nx Ny Nz u /\ (exists i j k, u i j k <> 0) /\ forall i j k, A u i j k = l * u i j k.

(** One axis of a first-derivative stencil, and the Laplacian of a cell that
    is not orthogonal: mixed terms with factors 2 T. *)
Definition line1 (n : nat) (d : nat -> R) (v : Z -> R) (i : Z) : R :=
  ssum (fun p => d p * (v (i + Z.of_nat p)%Z - v (i - Z.of_nat p)%Z)) n.
Definition lap_tri (n : nat) (cx cy cz dx dy dz : nat -> R) (Txy Txz Tyz : R) (u : gfun) : gfun := fun i j k =>
  lap n cx cy cz u i j k +
  2 * Txy * line1 n dx (fun i => line1 n dy (fun j => u i j k) j) i +
  2 * Txz * line1 n dx (fun i => line1 n dz (fun k => u i j k) k) i +
  2 * Tyz * line1 n dy (fun j => line1 n dz (fun k => u i j k) k) j.
