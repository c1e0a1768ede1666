(** Lattice geometry: cell type, transformation matrices, coordinate and
    gradient transformations, distances (src/initialization.c:1868-1896,
    3527-3610, 3644-3699), the reader's orthogonality check
    (src/readfiles.c:1050-1064) and the boundary-condition code
    (src/initialization.c:1896-1925).

    Simplifications: real arithmetic; a 9-entry array A is the function
    fun i j => A[3*i+j]. Helical (cyclix) cells are not covered. A zero lattice
    vector (0/0 = NaN in C, which then passes the sign test) is the separate
    outcome UB. *)
From Coq Require Import Reals List Lia Lra ZArith Bool.
From Verif Require Import CBase BandK.
Import ListNotations.
Local Open Scope R_scope.

Definition mat := nat -> nat -> R.
(** the accumulation loops "x = 0; for (k = 0; k < 3; k++) x += f(k)" *)
Definition sum3 (f : nat -> R) : R := 0 + f 0%nat + f 1%nat + f 2%nat.
(** src/initialization.c:53 *)
Definition TOL : R := / 1000000000000.
Definition Rltb (a b : R) : bool := if Rlt_dec a b then true else false.

(** src/initialization.c:3533-3541 *)
Definition mag (L : mat) (i : nat) : R := sqrt (L i 0%nat ^ 2 + L i 1%nat ^ 2 + L i 2%nat ^ 2).
Definition LatUVec (L : mat) : mat := fun i k => L i k / mag L i.
(** src/initialization.c:3544-3552; the sign is computed in C int arithmetic *)
Definition sgn (i j k : nat) : Z :=
  let a := Z.of_nat i in let b := Z.of_nat j in let c := Z.of_nat k in Z.quot ((a - b) * (b - c) * (c - a)) 2.
Definition Jacbdet (U : mat) : R :=
  sum3 (fun i => sum3 (fun j => sum3 (fun k =>
    if negb (i =? j)%nat && negb (j =? k)%nat && negb (k =? i)%nat
    then IZR (sgn i j k) * U i 0%nat * U j 1%nat * U k 2%nat else 0))).
(** src/initialization.c:3561-3574 *)
Definition metric (U : mat) : mat := fun i j => sum3 (fun k => U i k * U j k).
Definition metricT (U : mat) : mat := fun i j =>
  match i, j with
  | 0%nat, 1%nat | 0%nat, 2%nat | 1%nat, 2%nat => 2 * metric U i j
  | _, _ => metric U i j
  end.
(** src/initialization.c:3577-3581: entry (j,i) *)
Definition gradT (U : mat) : mat := fun j i =>
  (U ((j + 1) mod 3)%nat ((i + 1) mod 3)%nat * U ((j + 2) mod 3)%nat ((i + 2) mod 3)%nat
   - U ((j + 1) mod 3)%nat ((i + 2) mod 3)%nat * U ((j + 2) mod 3)%nat ((i + 1) mod 3)%nat) / Jacbdet U.
(** src/initialization.c:3584-3593 *)
Definition lapcT (U : mat) : mat := fun i j => sum3 (fun k => gradT U i k * gradT U j k).

(** src/initialization.c:1868-1895: first guess of the cell type *)
Definition dotL (L : mat) (i j : nat) : R := L i 0%nat * L j 0%nat + L i 1%nat * L j 1%nat + L i 2%nat * L j 2%nat.
Definition oblique (L : mat) : bool :=
  Rltb TOL (Rabs (dotL L 0 1)) || Rltb TOL (Rabs (dotL L 0 2)) || Rltb TOL (Rabs (dotL L 1 2)).
Definition misaligned (L : mat) : bool :=
  existsb (fun ji => Rltb TOL (Rabs (L (fst ji) (snd ji))))
    [(0, 1); (0, 2); (1, 0); (1, 2); (2, 0); (2, 1)]%nat.
Definition cell_typ0 (L : mat) : Z :=
  if oblique L then 1%Z else if misaligned L then 17%Z else 0%Z.
(** src/initialization.c:3596-3609 *)
Definition big (x : R) : bool := Rltb TOL (Rabs x).
Definition small (x : R) : bool := Rltb (Rabs x) TOL.
Definition cell_typ1 (U : mat) (t : Z) : Z :=
  let a := lapcT U 0%nat 1%nat in let b := lapcT U 0%nat 2%nat in let c := lapcT U 1%nat 2%nat in
  if big a && small b && small c then 11%Z
  else if small a && big b && small c then 12%Z
  else if small a && small b && big c then 13%Z
  else if big a && big b && small c then 14%Z
  else if small a && big b && big c then 15%Z
  else if big a && small b && big c then 16%Z
  else if big a && big b && big c then 17%Z
  else t.

Record lattice := Lat { lu : mat; jac : R; met : mat; grd : mat; lap : mat; typ : Z }.
(** src/initialization.c:1868-1895 followed by 3527-3640 *)
Definition setup (L : mat) : outcome lattice :=
  if Req_EM_T (mag L 0) 0 then UB else if Req_EM_T (mag L 1) 0 then UB else if Req_EM_T (mag L 2) 0 then UB
  else
    let U := LatUVec L in
    if Rle_dec (Jacbdet U) 0 then Exit
    else Ok (Lat U (Jacbdet U) (metricT U) (gradT U) (lapcT U) (cell_typ1 U (cell_typ0 L))).

(** src/initialization.c:3644-3655 *)
Definition nonCart2Cart_coord (t : lattice) (p : vec) : vec :=
  let u := lu t in
  V (u 0%nat 0%nat * vx p + u 1%nat 0%nat * vy p + u 2%nat 0%nat * vz p)
    (u 0%nat 1%nat * vx p + u 1%nat 1%nat * vy p + u 2%nat 1%nat * vz p)
    (u 0%nat 2%nat * vx p + u 1%nat 2%nat * vy p + u 2%nat 2%nat * vz p).
(** src/initialization.c:3659-3669 *)
Definition Cart2nonCart_coord (t : lattice) (p : vec) : vec :=
  let g := grd t in
  V (g 0%nat 0%nat * vx p + g 0%nat 1%nat * vy p + g 0%nat 2%nat * vz p)
    (g 1%nat 0%nat * vx p + g 1%nat 1%nat * vy p + g 1%nat 2%nat * vz p)
    (g 2%nat 0%nat * vx p + g 2%nat 1%nat * vy p + g 2%nat 2%nat * vz p).
(** src/initialization.c:3675-3681 *)
Definition nonCart2Cart_grad (t : lattice) (p : vec) : vec :=
  let g := grd t in
  V (g 0%nat 0%nat * vx p + g 1%nat 0%nat * vy p + g 2%nat 0%nat * vz p)
    (g 0%nat 1%nat * vx p + g 1%nat 1%nat * vy p + g 2%nat 1%nat * vz p)
    (g 0%nat 2%nat * vx p + g 1%nat 2%nat * vy p + g 2%nat 2%nat * vz p).
(** src/initialization.c:3687-3699; None: the result is not written *)
Definition CalculateDistance (t : lattice) (p q : vec) : option R :=
  if (typ t =? 0)%Z then Some (sqrt ((vx p - vx q) ^ 2 + (vy p - vy q) ^ 2 + (vz p - vz q) ^ 2))
  else if (10 <? typ t)%Z && (typ t <? 20)%Z then
    let m := met t in
    let xx := vx p - vx q in let yy := vy p - vy q in let zz := vz p - vz q in
    Some (sqrt (m 0%nat 0%nat * (xx * xx) + m 0%nat 1%nat * (xx * yy) + m 0%nat 2%nat * (xx * zz)
                + m 1%nat 1%nat * (yy * yy) + m 1%nat 2%nat * (yy * zz) + m 2%nat 2%nat * (zz * zz)))
  else None.

(** ** Boundary conditions and the multipole expansion *)
(** what the input file sets: the obsolete BOUNDARY_CONDITION number (-1: unset)
    and the three BC letters (-1: unset, 0: periodic, 1: Dirichlet) *)
Record bc_input := BCI { BC : Z; BCx : Z; BCy : Z; BCz : Z }.
(** src/readfiles.c:1050-1064 *)
Definition reader_accepts (b : bc_input) (L : mat) : bool := negb ((BC b =? 1)%Z && oblique L).
(** src/initialization.c:1896-1925 (BC <= 4) *)
Definition final_BC (b : bc_input) : Z :=
  if (0 <? BC b)%Z then BC b
  else if (0 <=? BCx b)%Z && (0 <=? BCy b)%Z && (0 <=? BCz b)%Z then
    let n := (BCx b + BCy b + BCz b)%Z in
    if (n =? 0)%Z then 2%Z else if (n =? 1)%Z then 3%Z else if (n =? 2)%Z then 4%Z else if (n =? 3)%Z then 1%Z else BC b
  else 2%Z.
(** src/electrostatics.c:2508-2525 (and 2600-2614): displacement and distance
    of grid point [p] from the cell centre [c], handed to the spherical harmonics *)
Definition multipole_point (t : lattice) (p c : vec) : vec * option R :=
  (nonCart2Cart_grad t (vsub p c), CalculateDistance t p c).
