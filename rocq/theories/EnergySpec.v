(** Formulas for the energy, without processes or arrays. *)
From Coq Require Import ZArith Reals List.
From Verif Require Import CBase VnlOp Nloc DensSpec.
Import ListNotations.
Local Open Scope R_scope.

(** A sum over spins, k-points and states with the weight of each state. *)
Definition state_sum (sgs ks ns : list Z) (occfac Nkpts : R) (wt : Z -> R) (f : Z -> Z -> Z -> R) : R :=
  rsum (fun sg => rsum (fun k => rsum (fun n => occfac * wt k / Nkpts * f sg k n) ns) ks) sgs.

(** Entropy of one state with occupation [f] (Fermi-Dirac). *)
Definition entropy1 (f : R) : R := - (f * ln f + (1 - f) * ln (1 - f)).

(** Integral over the grid. *)
Definition integral {A} (dV : R) (nodes : list A) (f : A -> R) : R := dV * rsum f nodes.
