(** Model of orbital-free DFT, src/ofdft/ofdft.c: the energy of the
    Thomas-Fermi-Weizsaecker functional (387-428), the operator (212-255), the
    normalised update (757-772), the line search (264-359) and the nonlinear
    conjugate-gradient loop (63-204).

    [double] is read as an exact real; the sums of the processes of dmcomm_phi
    are sums over the grid (VectorDotProduct, tools.c); the electrostatic
    solver, exchange-correlation and the Laplacian are parameters.  A division
    by zero is [UB]. *)
From Coq Require Import ZArith Reals List Bool.
From Verif Require Import CBase Nloc SqSpec.
Import ListNotations.
Local Open Scope R_scope.

Definition vec := Z -> R.

(** [pow(x, y)] for x >= 0 and y > 0. *)
Definition cpow (x y : R) : R := if Req_EM_T x 0 then 0 else Rpower x y.

(** [OFDFT_Cf], ofdft.c:56. *)
Definition Cf : R := 3 / 10 * cpow (3 * PI * PI) (2 / 3).

(** ** Brent's minimisation, ofdft.c:264-359 *)
(** Variables at the head of the loop; [b_tr] records the evaluations of the
    energy, last first. *)
Record bst := mkB { b_a : R; b_b : R; b_d : R; b_e : R; b_x : R; b_w : R; b_v : R;
  b_fx : R; b_fw : R; b_fv : R; b_tr : list (R * R) }.

Section Brent.
Variable tol : R.
Variable f : R -> outcome R.      (* energy_constraint at s *)

Definition cgold : R := 3819660 / 10000000.   (* ofdft.c:275 *)
Definition zeps : R := / 10 ^ 10.             (* ofdft.c:276 *)

(** Label one, ofdft.c:316-318: golden section into the larger part. *)
Definition golden (s : bst) (xm : R) : R * R :=
  let e := if Rle_dec xm (b_x s) then b_a s - b_x s else b_b s - b_x s in (e, cgold * e).

(** (e, d) of the new step, ofdft.c:299-318. *)
Definition newstep (s : bst) (xm tol1 tol2 : R) : R * R :=
  let '(mkB a b d e x w v fx fw fv _) := s in
  if Rlt_dec tol1 (Rabs e) then
    let r := (x - w) * (fx - fv) in
    let q := (x - v) * (fx - fw) in
    let p := (x - v) * q - (x - w) * r in
    let q := 2 * (q - r) in
    let p := if Rlt_dec 0 q then - p else p in
    let q := Rabs q in
    if Rle_dec (Rabs (/ 2 * q * e)) (Rabs p) then golden s xm
    else if Rle_dec p (q * (a - x)) then golden s xm
    else if Rle_dec (q * (b - x)) p then golden s xm
    else
      let d' := p / q in
      let u := x + d' in
      if Rlt_dec (u - a) tol2 then (d, if Rle_dec 0 (xm - x) then Rabs tol1 else - Rabs tol1)
      else if Rlt_dec (b - u) tol2 then (d, if Rle_dec 0 (xm - x) then Rabs tol1 else - Rabs tol1)
      else (d, d')
  else golden s xm.

(** Label two, ofdft.c:320-323: the point to evaluate. *)
Definition trial (x d tol1 : R) : R :=
  if Rle_dec tol1 (Rabs d) then x + d else x + (if Rle_dec 0 d then Rabs tol1 else - Rabs tol1).

(** Bookkeeping, ofdft.c:325-352. *)
Definition account (s : bst) (e d u fu : R) : bst :=
  let tr := (u, fu) :: b_tr s in
  if Rle_dec fu (b_fx s) then
    let '(a, b) := if Rle_dec (b_x s) u then (b_x s, b_b s) else (b_a s, b_x s) in
    mkB a b d e u (b_x s) (b_w s) fu (b_fx s) (b_fw s) tr
  else
    let '(a, b) := if Rlt_dec u (b_x s) then (u, b_b s) else (b_a s, u) in
    if Rle_dec fu (b_fw s) then mkB a b d e (b_x s) u (b_w s) (b_fx s) fu (b_fw s) tr
    else if Req_EM_T (b_w s) (b_x s) then mkB a b d e (b_x s) u (b_w s) (b_fx s) fu (b_fw s) tr
    else if Rle_dec fu (b_fv s) then mkB a b d e (b_x s) (b_w s) u (b_fx s) (b_fw s) fu tr
    else if Req_EM_T (b_v s) (b_x s) then mkB a b d e (b_x s) (b_w s) u (b_fx s) (b_fw s) fu tr
    else if Req_EM_T (b_v s) (b_w s) then mkB a b d e (b_x s) (b_w s) u (b_fx s) (b_fw s) fu tr
    else mkB a b d e (b_x s) (b_w s) (b_v s) (b_fx s) (b_fw s) (b_fv s) tr.

(** The loop [for (iter = 1; iter < maxit; iter++)], ofdft.c:294-353; [true]
    when left by the break. *)
Fixpoint brent_loop (k : nat) (s : bst) : outcome (bst * bool) :=
  match k with
  | O => Ok (s, false)
  | S k' =>
      let xm := / 2 * (b_a s + b_b s) in
      let tol1 := tol * Rabs (b_x s) + zeps in
      let tol2 := 2 * tol1 in
      if Rle_dec (Rabs (b_x s - xm)) (tol2 - / 2 * (b_b s - b_a s)) then Ok (s, true) else
      let '(e, d) := newstep s xm tol1 tol2 in
      let u := trial (b_x s) d tol1 in
      do fu <- f u ;
      brent_loop k' (account s e d u fu)
  end.

(** [Brent_Emin], ofdft.c:264-359, on [0, 1] from 1/2. *)
Definition brent : outcome (bst * bool) :=
  do f0 <- f (/ 2) ;
  brent_loop 99 (mkB 0 1 0 0 (/ 2) (/ 2) (/ 2) f0 f0 f0 [(/ 2, f0)]).
End Brent.

(** ** Energy, operator, update *)
Section OF.
Variable N : Z.                   (* grid points *)
Variables (dV Ne lambda natom esc oftol : R).
Variable b : vec.                 (* psdChrgDens *)
Variable poisson : vec -> vec.    (* Calculate_elecstPotential, of electronDens *)
Variable vxc : vec -> vec.        (* Calculate_Vxc *)
Variable exc : vec -> R.          (* Calculate_Vxc, Calculate_Exc *)
Variable lap : vec -> vec.        (* Lap_vec_mult with c = 0 *)

(** [u[i] * u[i]], ofdft.c:220-221 and 373-374. *)
Definition square (u : vec) : vec := fun i => u i * u i.

(** [ofdftTotalEnergy], ofdft.c:387-428: density and potential are those stored
    in pSPARC, [u] is the argument. *)
Definition energy (dens u : vec) : R :=
  let phi := poisson dens in
  let eele := / 2 * dV * inner N b phi + / 2 * dV * inner N dens phi in
  let et1 := sumn N (fun i => cpow (dens i) (5 / 3)) * (Cf * dV) in
  let et2 := inner N u (lap u) * (- / 2 * dV) in
  let ek := et1 + lambda * et2 in
  exc dens + eele + ek + esc.

(** [HamiltonianVecRoutines_OFDFT], ofdft.c:212-255: Veff = phi + Vxc
    (Calculate_Veff_loc_dmcomm_phi) + Vk, and (a Lap + diag Veff) u. *)
Definition hamil (u : vec) : vec :=
  let dens := square u in
  let veff i := poisson dens i + vxc dens i + 5 / 3 * Cf * cpow (dens i) (2 / 3) in
  fun i => - / 2 * lambda * lap u i + 1 * (veff i * u i).

(** eta and the residual, ofdft.c:126-130 and 137-141. *)
Definition residual (u : vec) : vec :=
  let F := hamil u in
  let eta := inner N F u * (dV / Ne) in
  fun i => -2 * (F i - eta * u i).

(** [cst], ofdft.c:108 and 370. *)
Definition cst : R := sqrt (Ne / dV).

(** [extend_normalized_vector], ofdft.c:757-772. *)
Definition extend (u d : vec) (s : R) : outcome vec :=
  let nu i := u i + s * d i in
  let n := sqrt (inner N nu nu) in
  if Req_EM_T n 0 then UB else Ok (fun i => Rabs (nu i * (cst / n))).

(** [energy_constraint], ofdft.c:366-382. *)
Definition econ (u d : vec) (s : R) : outcome R :=
  do nu <- extend u d s ; Ok (energy (square nu) nu / natom).

(** State of the loop; [s_dens], [s_etot] are electronDens and Etot of pSPARC. *)
Record ost := mkO { s_u : vec; s_rold : vec; s_d : vec; s_it2 : Z; s_dens : vec; s_etot : R }.
(** What is left in pSPARC; [r_prints] are the energies written to the .out
    file (ofdft.c:146-155); [r_conv] when left by the break. *)
Record ores := mkR { r_u : vec; r_dens : vec; r_etot : R; r_prints : list R; r_conv : bool }.

(** Line search and update, ofdft.c:132-133 and 175-176: after the search pSPARC
    holds density and energy of the point that was evaluated last. *)
Definition search (u d : vec) : outcome (vec * vec * R) :=
  do r <- brent (/ 100) (econ u d) ;
  do un <- extend u d (b_x (fst r)) ;
  match b_tr (fst r) with
  | [] => UB
  | (sl, _) :: _ => do nu <- extend u d sl ; Ok (un, square nu, energy (square nu) nu)
  end.

(** The loop, ofdft.c:136-181, and the last energy, ofdft.c:196. *)
Fixpoint nlcg_loop (k : nat) (st : ost) (pr : list R) : outcome ores :=
  match k with
  | O => Ok (mkR (s_u st) (s_dens st) (energy (s_dens st) (s_u st)) pr false)
  | S k' =>
      let u := s_u st in
      let r := residual u in
      let delta := inner N r r in
      let pr := pr ++ [s_etot st / natom] in
      if Rlt_dec delta (oftol * oftol * IZR N) then Ok (mkR u (square u) (energy (square u) u) pr true) else
      let v1 := inner N (s_rold st) r in
      let v2 := inner N (s_rold st) (s_rold st) in
      if Req_EM_T v2 0 then UB else
      let xi := (delta - v1) / v2 in
      let restart := (s_it2 st =? 30)%Z || (if Rle_dec xi 0 then true else false) in
      let d : vec := if restart then r else fun i => xi * s_d st i + r i in
      let it2 := if restart then 0%Z else s_it2 st in
      do w <- search u d ;
      let '(un, dens, etot) := w in
      nlcg_loop k' (mkO un r d (it2 + 1) dens etot) pr
  end.

(** [OFDFT_NLCG_TETER], ofdft.c:63-204, from the density [rho0]; the direction
    starts from calloc (zeros). *)
Definition nlcg (rho0 : vec) : outcome ores :=
  let u0 i := sqrt (Rabs (rho0 i)) in
  let r0 := residual u0 in
  do w <- search u0 r0 ;
  let '(u1, dens, etot) := w in
  nlcg_loop 1500 (mkO u1 r0 (fun _ => 0) 0 dens etot) [].
End OF.
