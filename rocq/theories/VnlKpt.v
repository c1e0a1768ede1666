(** Model of the factors [bloch_fac] of [Vnl_vec_mult_kpt]
    (/repo/src/nlocVecRoutines.c:911-920 and 979-983).  Coordinates are exact
    rationals, the trigonometric functions the real ones. *)
From Coq Require Import ZArith QArith Qround Qreals Reals.
From Coquelicot Require Import Complex.
From Verif Require Import CBase Nloc.
Local Open Scope R_scope.

(** The k-point ([k1_loc], [k2_loc], [k3_loc]). *)
Record kpoint := Kpoint { k1 : R; k2 : R; k3 : R }.

(** [floor(x0_i/Lx) * Lx] *)
Definition floor_L (a : axis) (x : Q) : R := IZR (Qfloor (x / a_len a)) * Q2R (a_len a).

(** [theta] (nlocVecRoutines.c:914, 982); [range_x/y/z] are the cell lengths. *)
Definition theta (k : kpoint) (c : cell) (r : Q * Q * Q) : R :=
  let '(x, y, z) := r in
  - k1 k * floor_L (ax c) x - k2 k * floor_L (ay c) y - k3 k * floor_L (az c) z.

(** [bloch_fac] of the first product: [cos(theta) + sin(theta) * I]
    (nlocVecRoutines.c:915), and of the second: [cos(theta) - sin(theta) * I]
    (983). *)
Definition bloch1 (k : kpoint) (c : cell) (r : Q * Q * Q) : C := (cos (theta k c r), sin (theta k c r)).
Definition bloch2 (k : kpoint) (c : cell) (r : Q * Q * Q) : C := (cos (theta k c r), - sin (theta k c r)).
