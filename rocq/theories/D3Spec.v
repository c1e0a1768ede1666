(** What is asked of the DFT-D3 energy, gradient and virial. *)
From Coq Require Import ZArith Reals List Permutation.
From Verif Require Import CBase Nloc VnlOp D3.
Import ListNotations.
Local Open Scope R_scope.

(** A 3 x 3 matrix applied to a vector. *)
Definition mapply (e : Z -> Z -> R) (u : vec) : vec :=
  (e 0%Z 0%Z * comp u 0 + e 0%Z 1%Z * comp u 1 + e 0%Z 2%Z * comp u 2,
   e 1%Z 0%Z * comp u 0 + e 1%Z 1%Z * comp u 1 + e 1%Z 2%Z * comp u 2,
   e 2%Z 0%Z * comp u 0 + e 2%Z 1%Z * comp u 1 + e 2%Z 2%Z * comp u 2).

(** Work of the gradient along velocities of the atoms, and of the virial along a
    strain. *)
Definition work (n : Z) (g : Z -> Z -> R) (v : Z -> vec) : R :=
  rsum (map (fun a => g a 0%Z * comp (v a) 0 + g a 1%Z * comp (v a) 1 + g a 2%Z * comp (v a) 2) (zrange 0 (n - 1))).
Definition contract (e sg : Z -> Z -> R) : R :=
  rsum (map (fun r => rsum (map (fun c => e r c * sg r c) [0; 1; 2]%Z)) [0; 1; 2]%Z).

(** Squared distance from atom i to image m of atom j. *)
Definition dist2 (pos : Z -> vec) (l : lat) (i j : Z) (m : img) : R :=
  let d := vsub (vadd (pos j) (ivec l m)) (pos i) in dotv d d.

(** Sum of the weights of the reference values of C6 for two coordination
    numbers. *)
Definition weights (ss : list (R * R * R)) (ci cj : R) : R :=
  rsum (map (fun s => let '(c6, a, b) := s in if Rlt_dec 0 c6 then exp (-4 * ((a - ci) ^ 2 + (b - cj) ^ 2)) else 0) ss).

(** The conditions under which the energy is differentiable and the code is meant
    to be right: numbers of images as set up; symmetric table for equal elements;
    positive radii; no two atoms closer than sqrt 0.5 Bohr; no distance exactly at
    a cut-off; the images left out of the coordination numbers are out of reach;
    weights above 1e-99. *)
Record regular (n : Z) (rcov : Z -> R) (r0ab : Z -> Z -> R) (smp : Z -> Z -> list sample)
    (cn_thr rthr : R) (nCN nEG : img) (pos : Z -> vec) (l : lat) : Prop := Regular {
  reg_thr : 0 <= cn_thr <= rthr;
  reg_img : let '(a, b, c) := nCN in let '(a', b', c') := nEG in
    (0 <= a <= a' /\ 0 <= b <= b' /\ 0 <= c <= c')%Z;
  reg_dist : forall i j m, (0 <= i < n)%Z -> (0 <= j < n)%Z -> In m (imgs nEG) ->
    (i = j /\ m = (0, 0, 0)%Z) \/
    (1 / 2 < dist2 pos l i j m /\ dist2 pos l i j m <> rthr /\ dist2 pos l i j m <> cn_thr);
  reg_out : forall i j m, (0 <= i < n)%Z -> (0 <= j < n)%Z -> In m (imgs nEG) -> ~ In m (imgs nCN) ->
    cn_thr < dist2 pos l i j m;
  reg_sym : forall i, (0 <= i < n)%Z -> Permutation (map (fun s : sample => let '(c, a, b) := s in (c, b, a)) (smp i i)) (smp i i);
  reg_r0 : forall i j, (0 <= j <= i)%Z -> (i < n)%Z -> 0 < r0ab i j;
  reg_w : forall i j, (0 <= j <= i)%Z -> (i < n)%Z ->
    / 10 ^ 99 < weights (smp i j) (CN n rcov cn_thr nCN pos l i) (CN n rcov cn_thr nCN pos l j)
}.

(** An atom in the cell: its coordinates along the periodic directions are in
    [0, 1). *)
Definition in_cell (bc : bool * bool * bool) (l : lat) (u : vec) : Prop :=
  let '(l0, l1, l2) := l in let '(p0, p1, p2) := bc in
  exists f0 f1 f2 : R, u = vadd (vadd (vscal f0 l0) (vscal f1 l1)) (vscal f2 l2) /\
    (p0 = true -> 0 <= f0 < 1) /\ (p1 = true -> 0 <= f1 < 1) /\ (p2 = true -> 0 <= f2 < 1).
(** Lattice points only along the periodic directions. *)
Definition lattice_point (bc : bool * bool * bool) (m : img) : Prop :=
  let '(p0, p1, p2) := bc in let '(x, y, z) := m in
  (p0 = false -> x = 0%Z) /\ (p1 = false -> y = 0%Z) /\ (p2 = false -> z = 0%Z).
