(** What the list of influencing atoms should be, stated without the loops of
    the code: the nodes of a box, the periodic images of an atom, and the
    distance between them. *)
From Coq Require Import ZArith QArith List.
From Verif Require Import CBase Nloc.
Import ListNotations.
Local Open Scope Z_scope.

(** A node of the grid, and a periodic image of an atom, are triples of
    integers. *)
Definition tri := (Z * Z * Z)%type.

(** All nodes of a box, z slowest. *)
Definition nodes (D : dom) : list tri :=
  flat_map (fun k => flat_map (fun j => map (fun i => (i, j, k))
    (zseq (xs_ D) (Z.to_nat (xe_ D - xs_ D + 1))))
    (zseq (ys_ D) (Z.to_nat (ye_ D - ys_ D + 1))))
    (zseq (zs_ D) (Z.to_nat (ze_ D - zs_ D + 1))).

(** Position of a node in the array of the process that owns the box: the
    number of nodes that come before it. *)
Definition local_index (D : dom) (n : tri) : Z :=
  let '(i, j, k) := n in
  (i - xs_ D) + DMnx D * ((j - ys_ D) + DMny D * (k - zs_ D)).

(** The displacement from image [(p,q,r)] of an atom at [p0] to a node. *)
Definition disp (c : cell) (p0 : Q * Q * Q) (im n : tri) : Q * Q * Q :=
  let '(x0, y0, z0) := p0 in let '(p, q, r) := im in let '(i, j, k) := n in
  ((a_org (ax c) + inject_Z i * a_del (ax c) - (x0 + a_len (ax c) * inject_Z p))%Q,
   (a_org (ay c) + inject_Z j * a_del (ay c) - (y0 + a_len (ay c) * inject_Z q))%Q,
   (a_org (az c) + inject_Z k * a_del (az c) - (z0 + a_len (az c) * inject_Z r))%Q).

(** Squared length of a displacement: Euclidean for an orthogonal cell, the
    metric tensor otherwise. *)
Definition norm2 (c : cell) (v : Q * Q * Q) : Q :=
  let '(x, y, z) := v in
  if c_typ c =? 0 then (x * x + y * y + z * z)%Q
  else (m0 c * (x * x) + m1 c * (x * y) + m2 c * (x * z)
        + m4 c * (y * y) + m5 c * (y * z) + m8 c * (z * z))%Q.

(** Only periodic directions have images. *)
Definition is_image (c : cell) (im : tri) : Prop :=
  let '(p, q, r) := im in
  (a_bc (ax c) <> 0 -> p = 0) /\ (a_bc (ay c) <> 0 -> q = 0) /\ (a_bc (az c) <> 0 -> r = 0).

(** Coordinates of an image. *)
Definition image_pos (c : cell) (p0 : Q * Q * Q) (im : tri) : Q * Q * Q :=
  let '(x0, y0, z0) := p0 in let '(p, q, r) := im in
  ((x0 + a_len (ax c) * inject_Z p)%Q, (y0 + a_len (ay c) * inject_Z q)%Q,
   (z0 + a_len (az c) * inject_Z r)%Q).

(** Largest cutoff radius of a type. *)
Definition cutoff (t : atyp) (rc : Q) : Prop :=
  (0 <= rc)%Q /\ (forall r, In r (t_rc t) -> r <= rc)%Q /\ (rc = 0%Q \/ In rc (t_rc t)).

(** The row an image of atom [a] should have: its coordinates, the atom, and
    the local indices of all nodes of the box at distance at most [rc]. *)
Definition good_entry (c : cell) (D : dom) (p0 : Q * Q * Q) (rc : Q) (a : Z) (im : tri)
    (e : entry) : Prop :=
  (e_x e, e_y e, e_z e) = image_pos c p0 im /\ e_atom e = a /\
  e_ndc e = Z.of_nat (length (e_pos e)) /\
  e_pos e = map (local_index D)
    (filter (fun n => Qle_bool (norm2 c (disp c p0 im n)) (rc * rc)) (nodes D)).

(** Preconditions of one direction.  [rcut] is the reach of the SQ method. *)
Record axis_ok (sq : bool) (a : axis) (d0 d1 : Z) (rcb : Q) : Prop := {
  ok_del : (0 < a_del a)%Q;
  ok_len : (0 < a_len a)%Q;
  ok_rcb : (0 <= rcb)%Q;
  ok_dom : d0 <= d1;
  ok_nloc : 0 <= a_nloc a;
  (* a periodic direction starts at 0, and the box reaches at most [rcut]
     beyond the cell *)
  ok_per : a_bc a = 0 -> (a_org a == 0)%Q /\
    let rcut := (if sq then inject_Z (a_nloc a) * a_del a else 0)%Q in
    (- rcut <= inject_Z d0 * a_del a)%Q /\ (inject_Z d1 * a_del a <= a_len a + rcut)%Q /\
    (rcb + rcut <= inject_Z 2000000000 * a_len a)%Q;
  ok_int : -1000000000 <= d0 /\ d1 <= 1000000000 /\ (2 * rcb <= inject_Z 1000000000 * a_del a)%Q }.

(** Preconditions of a box: its directions, and its number of nodes fits an
    [int]. *)
Definition box_ok (c : cell) (D : dom) (rb : Q * Q * Q) : Prop :=
  let '(bx, by_, bz) := rb in
  axis_ok (c_sq c) (ax c) (xs_ D) (xe_ D) bx /\
  axis_ok (c_sq c) (ay c) (ys_ D) (ye_ D) by_ /\
  axis_ok (c_sq c) (az c) (zs_ D) (ze_ D) bz /\
  DMnx D * DMny D * (ze_ D - zs_ D + 1) <= INT_MAX.

(** The box [rb] around an atom contains the ball of radius [rc]; the inside
    of the ball lies in the inside of the box. *)
Definition covers (c : cell) (rb : Q * Q * Q) (rc : Q) : Prop :=
  let '(bx, by_, bz) := rb in
  forall x y z,
  ((norm2 c (x, y, z) <= rc * rc)%Q ->
   (- bx <= x <= bx /\ - by_ <= y <= by_ /\ - bz <= z <= bz)%Q) /\
  ((norm2 c (x, y, z) < rc * rc)%Q ->
   ((- bx < x /\ x < bx) /\ (- by_ < y /\ y < by_) /\ (- bz < z /\ z < bz))%Q).

(** Atoms lie in the cell in every periodic direction. *)
Definition in_cell (c : cell) (p0 : Q * Q * Q) : Prop :=
  let '(x0, y0, z0) := p0 in
  (a_bc (ax c) = 0 -> (0 <= x0 <= a_len (ax c))%Q) /\
  (a_bc (ay c) = 0 -> (0 <= y0 <= a_len (ay c))%Q) /\
  (a_bc (az c) = 0 -> (0 <= z0 <= a_len (az c))%Q).

(** Index of the first atom of a type: the atoms are stored type by type. *)
Definition first_atom (ts : list atyp) (ty : nat) : Z := zsum (map t_n (firstn ty ts)).
