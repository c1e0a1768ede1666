(** Model of the free energy: /repo/src/energy.c:41-199
    ([Calculate_Free_Energy]), 205-235 ([Calculate_Eband]), 241-268
    ([Calculate_electronicEntropy]), 296-324 ([Calculate_entropy_term]),
    331-366 ([Calculate_Escc]), /repo/src/tools.c:780-791 ([VectorDotProduct])
    and the energy part of one SCF iteration,
    /repo/src/electronicGroundState.c:759-763, 797-826, 872-899, 1219-1246.

    Numbers are reals, so rounding is ignored.  Reads outside an array are
    [UB].  The SQ method and helical cells are not modelled.  The
    exchange-correlation energy [Exc] (C66), [Esc] and [Eexx] are inputs. *)
From Coq Require Import ZArith Reals List.
From Verif Require Import CBase Nloc VnlOp.
Import ListNotations.
Local Open Scope R_scope.

(** ** Sums over states *)
(** What a process holds: [Nspin_spincomm], [Nkpts_kptcomm], [kptWts_loc],
    [occ], [lambda]. *)
Record eproc := Eproc { g_nsp : Z; g_nk : Z; g_wts : arr R; g_occ : arr R; g_lam : arr R }.

(** MPI_Allreduce of one number, skipped for one process (energy.c:228-233,
    260-266). *)
Definition rall (np : Z) (f : Z -> outcome R) (me : Z) : outcome R :=
  if Z.eqb np 1 then f me else do l <- omap f (zrange 0 (np - 1)) ; Ok (ksum 0 Rplus l).
Definition reduce2 (npspin npkpt : Z) (loc : Z -> Z -> outcome R) (s k : Z) : outcome R :=
  rall npkpt (fun k' => rall npspin (fun s' => loc s' k') s) k.

Section STATES.
(** [occfac], [Nkpts], [Nstates] *)
Variables (occfac Nkpts : R) (Ns : Z).

(** energy.c:218-227 *)
Definition local_Eband (pr : eproc) : outcome R :=
  do e <- ofold (fun e sp => ofold (fun e k =>
      do w <- rd (g_wts pr) k ;
      ofold (fun e n =>
        do o <- rd (g_occ pr) (n + k * Ns + sp * g_nk pr * Ns)%Z ;
        do l <- rd (g_lam pr) (n + k * Ns + sp * g_nk pr * Ns)%Z ;
        Ok (e + occfac * w * o * l)) e (zrange 0 (Ns - 1)))
    e (zrange 0 (g_nk pr - 1))) 0 (zrange 0 (g_nsp pr - 1)) ;
  Ok (e / Nkpts).
Definition Calculate_Eband (npspin npkpt : Z) (P : Z -> Z -> eproc) (s k : Z) : outcome R :=
  reduce2 npspin npkpt (fun s k => local_Eband (P s k)) s k.

(** energy.c:296-324; [TEMP_TOL] is 1e-14 (energy.c:35).
    Other smearing types print a message and give 0. *)
Definition TEMP_TOL : R := / 10 ^ 14.
Definition fd_term (g : R) : R :=
  if Rlt_dec TEMP_TOL g then if Rlt_dec TEMP_TOL (1 - g) then - (g * ln g + (1 - g) * ln (1 - g)) else 0 else 0.
Definition gauss_term (beta l lf : R) : R :=
  let c := 0.5 / sqrt PI in let x := beta * (l - lf) in c * exp (- x * x).
Definition Calculate_entropy_term (lambda occ : arr R) (off : Z) (lf : R) (n_start n_end : Z) (beta : R) (typ : Z) : outcome R :=
  if Z.eqb typ 0 then
    ofold (fun e n => do g <- rd occ (off + n)%Z ; Ok (e + fd_term g)) 0 (zrange n_start n_end)
  else if Z.eqb typ 1 then
    ofold (fun e n => do l <- rd lambda (off + n)%Z ; Ok (e + gauss_term beta l lf)) 0 (zrange n_start n_end)
  else Ok 0.

(** energy.c:241-268 *)
Definition local_entropy (Efermi beta : R) (typ : Z) (pr : eproc) : outcome R :=
  do e <- ofold (fun e sp => ofold (fun e k =>
      do t <- Calculate_entropy_term (g_lam pr) (g_occ pr) (k * Ns + sp * g_nk pr * Ns) Efermi 0 (Ns - 1) beta typ ;
      do w <- rd (g_wts pr) k ;
      Ok (e + t * w))
    e (zrange 0 (g_nk pr - 1))) 0 (zrange 0 (g_nsp pr - 1)) ;
  Ok (e * (- occfac / (Nkpts * beta))).
Definition Calculate_electronicEntropy (Efermi beta : R) (typ npspin npkpt : Z) (P : Z -> Z -> eproc) (s k : Z) : outcome R :=
  reduce2 npspin npkpt (fun s k => local_entropy Efermi beta typ (P s k)) s k.
End STATES.

(** ** Sums over the grid *)
(** One process of the phi domain: [Nd_d], [psdChrgDens], [elecstPotential],
    [XCPotential], the density passed, [KineticTauPhiDomain], [vxcMGGA3],
    [Veff_loc_dmcomm_phi_in]. *)
Record fproc := Fproc {
  f_nd : Z; f_b : arr R; f_phi : arr R; f_vxc : arr R; f_rho : arr R; f_tau : arr R; f_v3 : arr R; f_vin : arr R }.

(** tools.c:780-791: [len] entries of [x] from [ox] and of [y] from [oy]. *)
Definition local_dot (x : arr R) (ox : Z) (y : arr R) (oy len : Z) : outcome R :=
  ofold (fun s i => do a <- rd x (ox + i)%Z ; do b <- rd y (oy + i)%Z ; Ok (s + a * b)) 0 (zrange 0 (len - 1)).
Definition VectorDotProduct (np : Z) (f : Z -> outcome R) : outcome R :=
  do l <- omap f (zrange 0 (np - 1)) ; Ok (ksum 0 Rplus l).

(** ** Hubbard correction (energy.c:117-158) *)
(** [atom_solve_flag], [nAtomv], [AtmU.angnum], [AtmU.Uval] of a type. *)
Record hubtyp := Hubtyp { h_solve : bool; h_nat : Z; h_ang : Z; h_U : arr R }.
(** Entry (col, col) of the product of the matrix with itself. *)
Definition sq_diag (ang : Z) (m : arr R) (col : Z) : outcome R :=
  ofold (fun s j => do a <- rd m (j * ang + col)%Z ; do b <- rd m (col * ang + j)%Z ; Ok (s + a * b)) 0 (zrange 0 (ang - 1)).
Definition hub_matrix (t : hubtyp) (m : arr R) : outcome R :=
  ofold (fun s col => do u <- rd (h_U t) col ; do q <- sq_diag (h_ang t) m col ; Ok (s + 0.5 * u * q)) 0
    (zrange 0 (h_ang t - 1)).
Definition hub_types (occfac : R) (Nspinor : Z) (rho_mn : Z -> Z -> arr R) (ts : list hubtyp) : outcome R :=
  do st <- ofold (fun st t =>
      if negb (h_solve t) then Ok (fst st, (snd st + h_nat t)%Z) else
      ofold (fun st _ =>
        do e <- ofold (fun e sp => do s <- hub_matrix t (rho_mn (snd st) sp) ; Ok (e + occfac * s)) (fst st) (zrange 0 (Nspinor - 1)) ;
        Ok (e, (snd st + 1)%Z)) st (zrange 0 (h_nat t - 1)))
    (0, 0%Z) ts ;
  Ok (fst st).

(** ** Total energy (energy.c:84-115, 160-199) *)
Section TOTAL.
(** [spin_typ], [dV], [ixc[2] != 0], [usefock] *)
Variables (spin_typ : Z) (dV : R) (mgga : bool) (usefock : Z).
(** processes of the phi domain *)
Variables (np : Z) (F : Z -> fproc).

Definition energy_E1 : outcome R :=
  do e <- VectorDotProduct np (fun d => local_dot (f_b (F d)) 0 (f_phi (F d)) 0 (f_nd (F d))) ; Ok (e * (0.5 * dV)).
Definition energy_E2 : outcome R :=
  do e <- VectorDotProduct np (fun d => local_dot (f_rho (F d)) 0 (f_phi (F d)) 0 (f_nd (F d))) ; Ok (e * (0.5 * dV)).
Definition energy_E3 : outcome R :=
  do e <- VectorDotProduct np (fun d =>
      if Z.eqb spin_typ 0 then local_dot (f_rho (F d)) 0 (f_vxc (F d)) 0 (f_nd (F d))
      else local_dot (f_rho (F d)) (f_nd (F d)) (f_vxc (F d)) 0 (2 * f_nd (F d))) ;
  if mgga then
    do m <- VectorDotProduct np (fun d =>
        if Z.eqb spin_typ 0 then local_dot (f_tau (F d)) 0 (f_v3 (F d)) 0 (f_nd (F d))
        else local_dot (f_tau (F d)) (f_nd (F d)) (f_v3 (F d)) 0 (2 * f_nd (F d))) ;
    Ok (e * dV + m * dV)
  else Ok (e * dV).

(** [Etot] from its parts. *)
Definition assemble (Eband E1 E2 E3 EHub Exc Esc Entropy Eexx : R) : R :=
  if (Z.eqb usefock 0 || Z.eqb (usefock mod 2) 1)%bool then
    Eband + E1 - E2 - E3 + EHub + Exc + Esc + Entropy
  else Eband + E1 - E2 - E3 + (Exc + Eexx) + Esc + Entropy - 2 * Eexx.

Definition Calculate_Free_Energy (Eband Entropy : outcome R) (EHub : outcome R) (Exc Esc Eexx : R) : outcome R :=
  do eb <- Eband ; do en <- Entropy ; do e1 <- energy_E1 ; do e2 <- energy_E2 ; do e3 <- energy_E3 ;
  do eh <- EHub ; Ok (assemble eb e1 e2 e3 eh Exc Esc en Eexx).

(** The effective potential on a process (electronicGroundState.c:1219-1246);
    with spinors the one in the frame of the magnetisation,
    [Veff_dia_loc_dmcomm_phi]. *)
Definition Veff_out (pr : fproc) : arr R :=
  Arr (if Z.eqb spin_typ 0 then f_nd pr else 2 * f_nd pr)%Z
    (fun i => at_ (f_vxc pr) i + at_ (f_phi pr) (if Z.ltb i (f_nd pr) then i else i - f_nd pr)%Z).

(** energy.c:331-366 with the arguments of electronicGroundState.c:881-888. *)
Definition Calculate_Escc : outcome R :=
  let ncol := if Z.eqb spin_typ 0 then 1%Z else 2%Z in
  let off pr := if Z.ltb 0 spin_typ then f_nd pr else 0%Z in
  do o <- VectorDotProduct np (fun d => local_dot (f_rho (F d)) (off (F d)) (Veff_out (F d)) 0 (f_nd (F d) * ncol)) ;
  do i <- VectorDotProduct np (fun d => local_dot (f_rho (F d)) (off (F d)) (f_vin (F d)) 0 (f_nd (F d) * ncol)) ;
  Ok ((o - i) * dV).

(** The energy of one SCF iteration: with potential mixing
    (electronicGroundState.c:872-899) the density passed is the new one and the
    correction is added; with density mixing (797-826) it is the old one. *)
Definition scf_energy (potential_mixing : bool) (Eband Entropy EHub : outcome R) (Exc Esc Eexx : R) : outcome R :=
  do e <- Calculate_Free_Energy Eband Entropy EHub Exc Esc Eexx ;
  if potential_mixing then do c <- Calculate_Escc ; Ok (e + c) else Ok e.
End TOTAL.
