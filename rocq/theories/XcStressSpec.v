(** What the exchange-correlation stress should be: the change of the energy when the crystal is strained. *)
From Coq Require Import Reals ZArith List.
Local Open Scope R_scope.

Definition mat : Type := nat -> nat -> R.
Definition sum3 (f : nat -> R) : R := f 0%nat + f 1%nat + f 2%nat.
Definition delta (a b : nat) : R := if Nat.eqb a b then 1 else 0.
(** the deformation I + x e *)
Definition deform (e : mat) (x : R) : mat := fun a b => delta a b + x * e a b.
Definition next (a : nat) : nat := Nat.modulo (a + 1) 3.
Definition cof (M : mat) : mat := fun a b =>
  M (next a) (next b) * M (next (next a)) (next (next b)) - M (next a) (next (next b)) * M (next (next a)) (next b).
Definition det (M : mat) : R := sum3 (fun b => M 0%nat b * cof M 0%nat b).
Definition trace (e : mat) : R := sum3 (fun a => e a a).
(** the inverse of the transpose *)
Definition invT (M : mat) : mat := fun a b => cof M a b / det M.
Definition apply3 (M : mat) (g : R * R * R) : R * R * R :=
  let '(x, y, z) := g in
  let r a := M a 0%nat * x + M a 1%nat * y + M a 2%nat * z in (r 0%nat, r 1%nat, r 2%nat).
Definition norm2 (g : R * R * R) : R := let '(x, y, z) := g in x * x + y * y + z * z.
Definition comp (g : R * R * R) (a : nat) : R := let '(x, y, z) := g in match a with O => x | S O => y | _ => z end.
(** the six numbers as a symmetric matrix: xx, xy, xz, yy, yz, zz *)
Definition sym6 (s : nat -> R) : mat := fun a b =>
  s (match a, b with
     | 0, 0 => 0 | 0, 1 => 1 | 1, 0 => 1 | 0, _ => 2 | 1, 1 => 3 | 1, _ => 4 | _, 0 => 2 | _, 1 => 4 | _, _ => 5
     end)%nat.
Definition contract (e s : mat) : R := sum3 (fun a => sum3 (fun b => e a b * s a b)).
(** the gradient of a field on the strained crystal: [grad] is the Cartesian gradient before *)
Definition strained_sigma (e : mat) (x : R) (grad : R * R * R) : R := norm2 (apply3 (invT (deform e x)) grad).
