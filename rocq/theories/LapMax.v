(** Model of the largest eigenvalue of -1/2 Lap, of the degree of the Chebyshev
    polynomial and of the bounds of the filter:
    /repo/src/initialization.c:2138-2147, 2183-2226, 2233-2248 (the same
    formulas again in relax.c:1214-1232 and md.c:1198-1216),
    /repo/src/eigenSolver.c:611-655, 699-704, 2347-2362.  Doubles are real numbers. *)
From Coq Require Import Reals List ZArith.
From Verif Require Import CBase FDWeights.
Local Open Scope R_scope.

(** [D2_stencil_coeffs_x] (initialization.c:2138-2147, for cells that are not
    orthogonal 2162-2164): [T] is 1 or the diagonal entry of [lapcT]. *)
Definition d2c (w : nat -> R) (T h : R) (p : nat) : R := T * w p * (1 / (h * h)).

(** [scal_x] (initialization.c:2189): division by zero is undefined. *)
Definition scal (N : Z) : outcome R :=
  if (N =? 0)%Z then UB else Ok (IZR (N - Z.rem N 2) / IZR N).

(** [MaxEigVal_mhalfLap]: initialization.c:2184-2197, and 2198-2225 for other
    cells, where [sx], [sy], [sz] are set to zero. *)
Definition max_eig (n : nat) (Tx Ty Tz hx hy hz : R) (Nx Ny Nz : Z) : outcome R :=
  do w <- FDweights_D2 n ;
  do sx <- scal Nx ; do sy <- scal Ny ; do sz <- scal Nz ;
  let cx := d2c w Tx hx in let cy := d2c w Ty hy in let cz := d2c w Tz hz in
  Ok ((cx O + cy O + cz O +
       psum (fun p => 2 * (cx p * cos (PI * INR p * sx) + cy p * cos (PI * INR p * sy) +
                           cz p * cos (PI * INR p * sz))) n) * (- / 2)).

(** [h_eff] of orthogonal cells, initialization.c:2235-2242. *)
Definition h_eff (hx hy hz : R) : R :=
  if Rlt_dec (Rabs (hx - hy)) (/ 10 ^ 12) then
    if Rlt_dec (Rabs (hy - hz)) (/ 10 ^ 12) then hx
    else sqrt (3 / (1 / (hx * hx) + 1 / (hy * hy) + 1 / (hz * hz)))
  else sqrt (3 / (1 / (hx * hx) + 1 / (hy * hy) + 1 / (hz * hz))).

(** [h_eff] of other cells, initialization.c:2243-2247. *)
Definition lambda_ref : R := 68761754299116333 / 10 ^ 16.
Definition h_eff_tri (M : R) : R := sqrt (3 * lambda_ref / (2 * M)).

(** [round] of a double (half away from zero). *)
Definition round (x : R) : Z := if Rle_dec 0 x then Int_part (x + / 2) else (- Int_part (- x + / 2))%Z.

(** [Mesh2ChebDegree], eigenSolver.c:2347-2362. *)
Definition Mesh2ChebDegree (h : R) : Z :=
  let p3 := - 700 / 3 in let p2 := 1240 / 3 in let p1 := - 773 / 3 in let p0 := 1078 / 15 in
  round (if Rlt_dec (7 / 10) h then 14 else ((p3 * h + p2) * h + p1) * h + p0).

(** [Chebyshevfilter_constants] in the first SCF iteration of a calculation:
    ([eigmin], [lambda_cutoff], [eigmax]).  [lanczos] = (smallest, largest)
    eigenvalue of H as found by [Lanczos], [lap_min] the smallest eigenvalue
    of Lap as found by [Lanczos_laplacian].
    eigenSolver.c:611-655 (count = 0), 699-700 (elecgs_Count = 0). *)
Definition cheb_bounds (flag cell_typ BC : Z) (lanczos : R * R) (lap_min M : R) : R * R * R :=
  let '(eigmin, eigmax) :=
    if ((flag =? 0) || (flag =? 1))%Z%bool then (fst lanczos, snd lanczos * (101 / 100))
    else if ((cell_typ =? 0) && (BC =? 2))%Z%bool then (- 2, M)
    else (- 2, - / 2 * lap_min * (101 / 100)) in
  let eigmin := eigmin - 1 / 10 in
  (eigmin, / 2 * (eigmin + eigmax), eigmax).
