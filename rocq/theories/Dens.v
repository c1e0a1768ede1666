(** Model of the electron density: /repo/src/electronDensity.c:104-202
    ([CalculateDensity_psi]), 210-295 ([Calculate_Magx_Magy_psi]), 300-324
    ([Calculate_Magz], [Calculate_Magnorm], [Calculate_diagonal_Density]) and
    the part of [Calculate_elecDens] that combines them (30-70).

    Numbers are reals, so rounding is ignored.  One domain piece is looked at:
    the processes of all spin, k-point and band groups that hold the same
    [DMnd] nodes.  Reads and writes outside an array are [UB].  The helical
    cells ([CyclixFlag], no division by [dV]) are not modelled. *)
From Coq Require Import ZArith Reals List.
From Coquelicot Require Import Complex.
From Verif Require Import CBase Nloc VnlOp.
Import ListNotations.
Local Open Scope R_scope.

(** What a process holds: [Nkpts_kptcomm], [kptWts_loc], [band_start_indx],
    [band_end_indx], [spinor_start_indx], [Nspinor_spincomm], [occ], and the
    orbitals [Xorb] or [Xorb_kpt]. *)
Record dproc := Dproc {
  q_nk : Z; q_wts : arr R; q_ns : Z; q_ne : Z; q_sp0 : Z; q_nsp : Z;
  q_occ : arr R; q_X : arr C }.

(** [a[i] += v] *)
Definition add_at (a : arr R) (i : Z) (v : R) : outcome (arr R) :=
  do o <- rd a i ; wr a i (o + v).

(** Square of an orbital value (electronDensity.c:137, 142-143); at the Gamma
    point the orbitals are real and only the first component exists. *)
Definition sq_abs (gamma : bool) (z : C) : R :=
  if gamma then fst z * fst z else fst z * fst z + snd z * snd z.

Section DENS.
(** [isGammaPoint], [spin_typ], [occfac], [Nkpts], [Nstates], [Nspinor],
    [DMnd]. *)
Variables (gamma : bool) (spin_typ : Z) (occfac Nkpts : R) (Ns Nspinor DMnd : Z).

(** The loops over the local bands (electronDensity.c:125-149); the state is
    [rho] and [count]. *)
Definition rho_nodes (X : arr C) (g : R) (base : Z) (st : arr R * Z) : outcome (arr R * Z) :=
  ofold (fun st i =>
    do x <- rd X (snd st) ;
    do a <- add_at (fst st) (i + base)%Z (g * sq_abs gamma x) ;
    Ok (a, (snd st + 1)%Z)) st (zrange 0 (DMnd - 1)).

Definition rho_band (pr : dproc) (k n : Z) (st : arr R * Z) : outcome (arr R * Z) :=
  do w <- rd (q_wts pr) k ;
  let woccfac := occfac * (w / Nkpts) in
  ofold (fun st sp =>
    do o <- rd (q_occ pr) (k * Ns + (if Z.eqb spin_typ 1 then sp * Ns * q_nk pr else 0) + n)%Z ;
    rho_nodes (q_X pr) (woccfac * o) ((sp + q_sp0 pr) * DMnd) st)
  st (zrange 0 (q_nsp pr - 1)).

Definition local_rho (pr : dproc) : outcome (arr R) :=
  do st <- ofold (fun st k =>
      ofold (fun st n => rho_band pr k n st) st (zrange (q_ns pr) (q_ne pr)))
    (Arr (Nspinor * DMnd)%Z (fun _ => 0), 0%Z) (zrange 0 (q_nk pr - 1)) ;
  Ok (fst st).

(** The loops for the x and y components of the magnetisation
    (electronDensity.c:229-243). *)
Definition mag_band (pr : dproc) (k n : Z) (st : arr R * Z) : outcome (arr R * Z) :=
  do w <- rd (q_wts pr) k ;
  do o <- rd (q_occ pr) (n + k * Ns)%Z ;
  let g := (occfac * (w / Nkpts)) * o in
  do st' <- ofold (fun st i =>
      do x <- rd (q_X pr) (snd st) ;
      do y <- rd (q_X pr) (snd st + DMnd)%Z ;
      let odd := Cmult x (Cconj y) in
      do a <- add_at (fst st) i (2 * g * fst odd) ;
      do b <- add_at a (i + DMnd)%Z (- (2 * g * snd odd)) ;
      Ok (b, (snd st + 1)%Z)) st (zrange 0 (DMnd - 1)) ;
  Ok (fst st', (snd st' + DMnd)%Z).

Definition local_mag (pr : dproc) : outcome (arr R) :=
  do st <- ofold (fun st k =>
      ofold (fun st n => mag_band pr k n st) st (zrange (q_ns pr) (q_ne pr)))
    (Arr (2 * DMnd)%Z (fun _ => 0), 0%Z) (zrange 0 (q_nk pr - 1)) ;
  Ok (fst st).

(** MPI_Allreduce with MPI_SUM over [np] processes. *)
Definition allsum (np : Z) (f : Z -> outcome (arr R)) : outcome (arr R) :=
  do l <- omap f (zrange 0 (np - 1)) ;
  Ok (Arr (match l with [] => 0%Z | a :: _ => sz a end)
          (fun i => ksum 0 Rplus (map (fun a => at_ a i) l))).

(** The three sums over the spin, k-point and band groups
    (electronDensity.c:157-182, 250-275); a process is named by its indices in
    the three. *)
Definition reduce3 (npspin npkpt npband : Z) (loc : Z -> Z -> Z -> outcome (arr R)) (s k b : Z)
  : outcome (arr R) :=
  let r1 s k b := if Z.ltb 1 npspin then allsum npspin (fun s' => loc s' k b) else loc s k b in
  let r2 s k b := if Z.ltb 1 npkpt then allsum npkpt (fun k' => r1 s k' b) else r1 s k b in
  if Z.eqb npband 0 then r2 s k b else allsum npband (fun b' => r2 s k b').

(** Scaling by [1/dV] (electronDensity.c:190-195, 283-288). *)
Definition scaled (dV : R) (o : outcome (arr R)) : outcome (arr R) :=
  do a <- o ; let vscal := 1 / dV in Ok (Arr (sz a) (fun i => at_ a i * vscal)).

Definition CalculateDensity_psi (dV : R) (npspin npkpt npband : Z) (P : Z -> Z -> Z -> dproc)
    (s k b : Z) : outcome (arr R) :=
  scaled dV (reduce3 npspin npkpt npband (fun s k b => local_rho (P s k b)) s k b).

Definition Calculate_Magx_Magy_psi (dV : R) (npspin npkpt npband : Z) (P : Z -> Z -> Z -> dproc)
    (s k b : Z) : outcome (arr R) :=
  scaled dV (reduce3 npspin npkpt npband (fun s k b => local_mag (P s k b)) s k b).

(** The part of [Calculate_elecDens] after the eigensolver
    (electronDensity.c:47-69): the arrays [rho] and [mag] of the process. *)
Definition Calculate_elecDens (dV : R) (npspin npkpt npband : Z) (P : Z -> Z -> Z -> dproc)
    (s k b : Z) : outcome (arr R * arr R) :=
  do d <- CalculateDensity_psi dV npspin npkpt npband P s k b ;
  let off := ((Nspinor - 1) * DMnd)%Z in
  let rho0 := Arr (DMnd * (2 * Nspinor - 1))%Z
    (fun i => if Z.ltb i off then 0 else at_ d (i - off)%Z) in
  let rho1 := if Z.ltb 1 Nspinor then
      Arr (sz rho0) (fun i => if Z.ltb i DMnd then at_ rho0 (DMnd + i)%Z + at_ rho0 (2 * DMnd + i)%Z
                              else at_ rho0 i) else rho0 in
  let mag0 := Arr (DMnd * (spin_typ * spin_typ))%Z (fun _ => 0) in
  let magz i := at_ rho1 (DMnd + i)%Z - at_ rho1 (2 * DMnd + i)%Z in
  if Z.eqb spin_typ 1 then Ok (rho1, Arr (sz mag0) (fun i => magz i))
  else if Z.eqb spin_typ 2 then
    do m <- Calculate_Magx_Magy_psi dV npspin npkpt npband P s k b ;
    let norm i := sqrt (at_ m i * at_ m i + at_ m (DMnd + i)%Z * at_ m (DMnd + i)%Z + magz i * magz i) in
    Ok (Arr (sz rho1) (fun i =>
          if Z.ltb i DMnd then at_ rho1 i
          else if Z.ltb i (2 * DMnd) then 0.5 * (at_ rho1 (i - DMnd)%Z + norm (i - DMnd)%Z)
          else 0.5 * (at_ rho1 (i - 2 * DMnd)%Z - norm (i - 2 * DMnd)%Z)),
        Arr (sz mag0) (fun i =>
          if Z.ltb i DMnd then norm i
          else if Z.ltb i (3 * DMnd) then at_ m (i - DMnd)%Z
          else magz (i - 3 * DMnd)%Z))
  else Ok (rho1, mag0).

End DENS.
