(** The DFT-D3 energy as it is defined: sums over all ordered pairs and triples of
    atoms, with all their images in a box as large as one likes. *)
From Coq Require Import ZArith Reals List.
From Verif Require Import CBase Nloc VnlOp D3 D3Spec.
Import ListNotations.
Local Open Scope R_scope.

Section ESPEC.
Variables (n : Z) (rcov r2r4 : Z -> R) (r0 : Z -> Z -> R) (refs : Z -> Z -> list (R * R * R)).
Variables (rs6 s8 cn_thr rthr : R) (N : img) (pos : Z -> vec) (l : lat).
Notation atoms := (zrange 0 (n - 1)).

(** An atom and the image it is in. *)
Definition same (i : Z) (m : img) (j : Z) (m' : img) : bool :=
  let '(x, y, z) := m in let '(x', y', z') := m' in ((i =? j) && (x =? x') && (y =? y') && (z =? z'))%Z%bool.
Definition O : img := (0, 0, 0)%Z.

(** Coordination number. *)
Definition coord (i : Z) : R :=
  rsum (map (fun j => rsum (map (fun m =>
    if same i O j m then 0 else
    let r := sqrt (dist2 pos l i j m) in
    if Rlt_dec (dist2 pos l i j m) cn_thr then / (1 + exp (- 16 * ((rcov i + rcov j) / r - 1))) else 0) (imgs N))) atoms).

(** C6 is the mean of the positive reference values with Gaussian weights. *)
Definition C6 (i j : Z) : R :=
  rsum (map (fun s => let '(c, a, b) := s in
    if Rlt_dec 0 c then c * exp (-4 * ((a - coord i) ^ 2 + (b - coord j) ^ 2)) else 0) (refs i j))
  / weights (refs i j) (coord i) (coord j).

(** Two-body energy. *)
Definition e2 (i j : Z) (m : img) : R :=
  let d := dist2 pos l i j m in let r := sqrt d in
  if same i O j m then 0 else if Rlt_dec rthr d then 0 else
  C6 i j / r ^ 6 / (1 + 6 * (rs6 * r0 i j / r) ^ 14)
  + s8 * (3 * C6 i j * r2r4 i * r2r4 j) / r ^ 8 / (1 + 6 * (r0 i j / r) ^ 16).

(** Three-body energy: atom i, image m of j, image m' of k. *)
Definition e3 (i j k : Z) (m m' : img) : R :=
  if (same i O j m || same i O k m' || same j m k m')%bool then 0 else
  let u := vsub (vadd (pos j) (ivec l m)) (pos i) in
  let w := vsub (vadd (pos k) (ivec l m')) (pos i) in
  let z := vsub w u in
  let ru := sqrt (dotv u u) in let rw := sqrt (dotv w w) in let rz := sqrt (dotv z z) in
  if Rlt_dec cn_thr (dotv u u) then 0 else if Rlt_dec cn_thr (dotv w w) then 0 else if Rlt_dec cn_thr (dotv z z) then 0 else
  let ci := dotv u w / (ru * rw) in
  let cj := dotv (vscal (-1) u) z / (ru * rz) in
  let ck := dotv (vscal (-1) w) (vscal (-1) z) / (rw * rz) in
  let rbar := Rpower ((ru / r0 i j) * (rw / r0 i k) * (rz / r0 j k)) (/ 3) in
  sqrt (C6 i j * C6 i k * C6 j k) * (3 * ci * cj * ck + 1) / (ru * rw * rz) ^ 3 / (1 + 6 * (4 / (3 * rbar)) ^ 16).

Definition E_D3 : R :=
  - / 2 * rsum (map (fun i => rsum (map (fun j => rsum (map (e2 i j) (imgs N))) atoms)) atoms)
  + / 6 * rsum (map (fun i => rsum (map (fun j => rsum (map (fun k =>
      rsum (map (fun m => rsum (map (fun m' => e3 i j k m m') (imgs N))) (imgs N))) atoms)) atoms)) atoms).
End ESPEC.
