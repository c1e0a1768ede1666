(** Singularity-removal constants of the exact-exchange Poisson solver:
    src/xc/exx/exactExchangeInitialization.c (allocate_singularity_removal_const,
    singularity_remooval_const).  Floating point is replaced by real numbers. *)
From Coq Require Import Reals ZArith List Bool Lra.
From Coquelicot Require Import Coquelicot.
From Verif Require Import CBase Lattice.
Import ListNotations.
Open Scope R_scope.

(** The fields singularity_remooval_const reads (exactExchangeInitialization.c:179-187):
    ExxDivFlag, hyb_range_fock, const_aux, the product delta_x*Nx * delta_y*Ny * delta_z*Nz * Jacbdet,
    Nkpts_hf, Calc_stress and Calc_pres. *)
Record exx := Exx { divflag : Z; omega : R; const_aux : R; vol : R; nk_hf : R; cstress : bool; cpres : bool }.

(** exactExchangeInitialization.c:182: V = L1*L2*L3*Jacbdet*Nkpts_hf. *)
Definition Vtot (e : exx) : R := vol e * nk_hf e.
(** exactExchangeInitialization.c:183: R_c = pow(3*V/(4*M_PI), 1.0/3). *)
Definition R_c (e : exx) : R := Rpower (3 * Vtot e / (4 * PI)) (1 / 3).
(** exactExchangeInitialization.c:185. *)
Definition omega2 (e : exx) : R := omega e * omega e.

(** One entry of the four tables pois_const, pois_const_stress, pois_const_stress2, pois_const_press;
    [None]: the call does not write to that table. *)
Record entry := Ent { ek : option R; est : option R; est2 : option R; epr : option R }.

(** The threshold 1e-4 (exactExchangeInitialization.c:192, 211, 248). *)
Definition G2TOL : R := / 10000.
(** `if (Calc_stress == 1) ... else if (Calc_pres == 1)` (e.g. :214-219): the value goes to one table only. *)
Definition when (b : bool) (v : R) : option R := if b then Some v else None.

(** singularity_remooval_const (exactExchangeInitialization.c:176-266), branch by branch.  A division by
    hyb_range_fock = 0 is IEEE infinity in C and 0 here: theorems take omega <> 0 where it matters. *)
Definition singularity_remooval_const (e : exx) (G2 : R) : entry :=
  let big := Rltb G2TOL (Rabs G2) in
  let G4 := G2 * G2 in
  let st := cstress e in
  let pr := negb (cstress e) && cpres e in
  if (divflag e =? 0)%Z then
    let x := R_c e * sqrt G2 in
    if big then
      Ent (Some (4 * PI * (1 - cos x) / G2))
          (when st (4 * PI * (1 - cos x - x / 2 * sin x) / G4))
          (when st (4 * PI * (x / 2 * sin x) / G2 / 3)) None
    else
      Ent (Some (2 * PI * (R_c e * R_c e)))
          (when st (4 * PI * R_c e ^ 4 / 24))
          (when st (4 * PI * (R_c e * R_c e / 2) / 3)) None
  else if (divflag e =? 1)%Z then
    let x := - (/ 4) / omega2 e * G2 in
    if big then
      if Rltb 0 (omega e) then
        Ent (Some (4 * PI / G2 * (1 - exp x)))
            (when st (4 * PI * (1 - exp x * (1 - x)) / G4 / 4)) None
            (when pr (4 * PI * (1 - exp x * (1 - x)) / G2 / 4))
      else
        Ent (Some (4 * PI / G2)) (when st (4 * PI / G4 / 4)) None (when pr (4 * PI / G2 / 4))
    else
      if Rltb 0 (omega e) then
        Ent (Some (4 * PI * (const_aux e + / 4 / omega2 e))) (when st 0) None (when pr 0)
      else
        Ent (Some (4 * PI * const_aux e)) (when st 0) None (when pr 0)
  else if (divflag e =? 2)%Z then
    let x := - (/ 4) / omega2 e * G2 in
    if big then
      Ent (Some (4 * PI * (1 - exp x) / G2))
          (when st (4 * PI * (1 - exp x * (1 - x)) / G4)) None
          (when pr (4 * PI * (1 - exp x * (1 - x)) / G2))
    else
      Ent (Some (PI / omega2 e)) (when st 0) None (when pr 0)
  else Ent None None None None.

(** The value stored in pois_const, `*sr_const = ...`; 0 for an unknown flag, where nothing is written. *)
Definition kval (e : exx) (G2 : R) : R := match ek (singularity_remooval_const e G2) with Some v => v | None => 0 end.

(** Which tables allocate_singularity_removal_const provides
    (exactExchangeInitialization.c:153-167; pois_const always, for periodic solves). *)
Record tables := Tab { t_k : bool; t_st : bool; t_st2 : bool; t_pr : bool }.
Definition allocate_tables (e : exx) : tables :=
  if cstress e then Tab true true (divflag e =? 0)%Z false
  else if cpres e then Tab true false false (negb (divflag e =? 0)%Z)
  else Tab true false false false.

(** What a solve reads: Calculate_exact_exchange_stress uses pois_const_stress, and pois_const_stress2 for
    spherical truncation (exactExchangeStress.c:342, 436); Calculate_exact_exchange_pressure uses
    pois_const_press unless ExxDivFlag is 0 (exactExchangePressure.c:70-78, 279); the caller picks stress when
    Calc_stress is 1, otherwise pressure when Calc_pres is 1 (electronicGroundState.c:248, 294). *)
Definition properties_read (e : exx) : tables :=
  if cstress e then Tab true true (divflag e =? 0)%Z false
  else if cpres e then Tab true false false (negb (divflag e =? 0)%Z)
  else Tab true false false false.
(** Reading a table that was never allocated is undefined. *)
Definition sub_tables (a b : tables) : bool :=
  implb (t_k a) (t_k b) && implb (t_st a) (t_st b) && implb (t_st2 a) (t_st2 b) && implb (t_pr a) (t_pr b).
Definition calculate_properties (alloc : tables) (e : exx) : outcome tables :=
  if sub_tables (properties_read e) alloc then Ok (properties_read e) else UB.

(** A cell-relaxation step turns the stress on after initialisation (relax.c:989-1003). *)
Definition turn_stress_on (e : exx) : exx :=
  Exx (divflag e) (omega e) (const_aux e) (vol e) (nk_hf e) true (cpres e).
(** reinitialize_cell_mesh changes the cell (relax.c:1093-1166, modelled in CellRelax; here only the volume and
    nothing of the tables: no caller recomputes them, initialization.c:495 being the only call of init_exx). *)
Definition set_vol (e : exx) (v : R) : exx :=
  Exx (divflag e) (omega e) (const_aux e) v (nk_hf e) (cstress e) (cpres e).

(** ecut_estimate (exactExchangeInitialization.c:573-585). *)
Definition ecut_estimate (hx hy hz : R) : R :=
  let h_eff := sqrt (3 / (1 / (hx * hx) + 1 / (hy * hy) + 1 / (hz * hz))) in
  exp (-2 * ln h_eff + 848379709041268 / 1000000000000000).
