(** Spec of the Gauss spectral quadrature, independent of SqGauss.v. *)
From Coq Require Import ZArith Reals List.
Import ListNotations.
Local Open Scope R_scope.

(** Sum over 0 <= i < n. *)
Fixpoint nsum (n : nat) (f : Z -> R) : R :=
  match n with O => 0 | S k => nsum k f + f (Z.of_nat k) end.
Definition sumn (n : Z) (f : Z -> R) : R := nsum (Z.to_nat n) f.
Definition inner (n : Z) (u v : Z -> R) : R := sumn n (fun i => u i * v i).
Definition delta (i j : Z) : R := if Z.eq_dec i j then 1 else 0.

(** A symmetric linear operator on vectors of length [N]. *)
Record symmetric_op (N : Z) (H : (Z -> R) -> Z -> R) : Prop := {
  so_ext : forall u v, (forall i, (0 <= i < N)%Z -> u i = v i) -> forall i, (0 <= i < N)%Z -> H u i = H v i;
  so_lin : forall a b u v i, (0 <= i < N)%Z -> H (fun x => a * u x + b * v x) i = a * H u i + b * H v i;
  so_sym : forall u v, inner N u (H v) = inner N (H u) v }.

(** Polynomials by their coefficients, lowest first: value at a number, and at
    an operator applied to a vector (Horner). *)
Fixpoint pval (p : list R) (x : R) : R := match p with [] => 0 | c :: q => c + x * pval q x end.
Fixpoint pop (H : (Z -> R) -> Z -> R) (p : list R) (v : Z -> R) : Z -> R :=
  match p with [] => fun _ => 0 | c :: q => fun i => c * v i + pop H q (H v) i end.

(** Entry (i, j) of the symmetric tridiagonal matrix with diagonal [a] and
    off-diagonal [b]. *)
Definition tri (a b : Z -> R) (i j : Z) : R :=
  if Z.eq_dec i j then a i else if Z.eq_dec j (i + 1) then b i else if Z.eq_dec i (j + 1) then b j else 0.

(** A complete set of orthonormal eigenvectors [u s] with eigenvalues [lam s]. *)
Record eigenbasis (N : Z) (H : (Z -> R) -> Z -> R) (u : Z -> Z -> R) (lam : Z -> R) : Prop := {
  eb_orth : forall s t, (0 <= s < N)%Z -> (0 <= t < N)%Z -> inner N (u s) (u t) = delta s t;
  eb_full : forall i j, (0 <= i < N)%Z -> (0 <= j < N)%Z -> sumn N (fun s => u s i * u s j) = delta i j;
  eb_eig : forall s i, (0 <= s < N)%Z -> (0 <= i < N)%Z -> H (u s) i = lam s * u s i }.
