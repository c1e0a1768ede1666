(** The density matrix of a set of occupied orbitals, as a formula. *)
From Coq Require Import ZArith Reals List.
From Coquelicot Require Import Complex.
From Verif Require Import CBase VnlOp.
Import ListNotations.
Local Open Scope R_scope.

Definition rsum {A} (f : A -> R) (l : list A) : R := ksum 0 Rplus (map f l).

Section SPEC.
Context {A : Type}.
(** k-points, bands, k-point weights, occupations (spin component, k, band),
    orbitals (k, band, spin component, node). *)
Variables (ks ns : list Z) (wt : Z -> R) (occ : Z -> Z -> Z -> R) (psi : Z -> Z -> Z -> A -> C).
Variables (occfac Nkpts dV : R).

Definition weight (sg k n : Z) : R := occfac * wt k / Nkpts * occ sg k n.

(** Diagonal entry: sum of occupation times |psi|^2. *)
Definition dens (sg : Z) (a : A) : R :=
  rsum (fun k => rsum (fun n => weight sg k n * (Cmod (psi k n sg a) * Cmod (psi k n sg a))) ns) ks / dV.

(** Real and imaginary part of the entry (0, 1): sum of occupation times
    psi_0 conj(psi_1). *)
Definition dm_re (a : A) : R :=
  rsum (fun k => rsum (fun n => weight 0 k n * Re (Cmult (psi k n 0%Z a) (Cconj (psi k n 1%Z a)))) ns) ks / dV.
Definition dm_im (a : A) : R :=
  rsum (fun k => rsum (fun n => weight 0 k n * Im (Cmult (psi k n 0%Z a) (Cconj (psi k n 1%Z a)))) ns) ks / dV.
End SPEC.

(** Magnetisation: expectation of the Pauli matrices (standard definition, not
    from the code). *)
Definition pauli (c : Z) : (C * C) * (C * C) :=
  if Z.eqb c 1 then ((RtoC 0, RtoC 1), (RtoC 1, RtoC 0))
  else if Z.eqb c 2 then ((RtoC 0, (0, -1)), ((0, 1), RtoC 0))
  else ((RtoC 1, RtoC 0), (RtoC 0, RtoC (-1))).
Definition expect (m : (C * C) * (C * C)) (x y : C) : C :=
  let '((a, b), (c, d)) := m in
  Cplus (Cmult (Cconj x) (Cplus (Cmult a x) (Cmult b y))) (Cmult (Cconj y) (Cplus (Cmult c x) (Cmult d y))).

Section MAGSPEC.
Context {A : Type}.
Variables (ks ns : list Z) (wt : Z -> R) (occ : Z -> Z -> Z -> R) (psi : Z -> Z -> Z -> A -> C).
Variables (occfac Nkpts dV : R).
Definition magn (c : Z) (a : A) : R :=
  rsum (fun k => rsum (fun n => weight wt occ occfac Nkpts 0 k n *
    Re (expect (pauli c) (psi k n 0%Z a) (psi k n 1%Z a))) ns) ks / dV.
End MAGSPEC.
