(** Exchange-correlation energy and potential on the grid: Calculate_Vxc and Calculate_Exc
    (exchangeCorrelation.c:36-455), the functions they call, and the table of functionals xc_decomposition
    (initialization.c:4739-4862).

    Simplifications, for the whole file. Arithmetic is exact. The whole grid is one block: Gradient_vectors_dir is
    the global operator that C55_gradient proves every process computes on its block, and the reduction over
    processes is the sum over the grid. Loops that treat each grid point on its own are fused into one, so where two
    points fail in different ways the model may report the other failure. Cyclix cells are left out, and so are the
    nonlocal part of the vdW-DF functionals (the calls at 190, 350 and 453) and the copies made for it. The meta-GGA
    functions (ixc 4, 5, 6) and the short-range exchange pbexsr are parameters. A pointer that is NULL or an array
    entry that was not written is [None]; reading it is [UB]. *)
From Coq Require Import Reals ZArith List Bool String Ascii.
From Verif Require Import CBase Collect Halo P_Halo Xc XcSpin.
Import ListNotations.
Local Open Scope R_scope.

(** ** The functional: xc_decomposition (initialization.c:4739-4862) *)
(** strcmpi(a,b) == 0 (tools.c:82-99): equality up to the case of ASCII letters. *)
Definition lower (a : ascii) : ascii :=
  let n := nat_of_ascii a in if (65 <=? n)%nat && (n <=? 90)%nat then ascii_of_nat (n + 32) else a.
Fixpoint lowers (s : string) : string :=
  match s with EmptyString => EmptyString | String a t => String (lower a) (lowers t) end.
Definition ieq (a b : string) : bool := String.eqb (lowers a) (lowers b).
(** The members of pSPARC the function sets; ixc is not set for an unknown name, and nothing set it before (the
    object is an automatic variable of main, main.c:34). *)
Record cfg := Cfg { ixc : option (Z * Z * Z * Z); xo0 : Z; xo1 : Z; isgrad : bool; usefock : Z; exx : R }.
Definition frac (exx0 dflt : R) : R := if Rlt_dec exx0 0 then dflt else exx0.
Definition xc_decomposition (XC : string) (exx0 : R) : cfg :=
  if ieq XC "LDA_PZ" then Cfg (Some (1, 1, 0, 0))%Z 0 0 false 0 exx0
  else if ieq XC "LDA_PW" then Cfg (Some (1, 2, 0, 0))%Z 0 0 false 0 exx0
  else if ieq XC "GGA_PBE" then Cfg (Some (2, 3, 0, 0))%Z 1 1 true 0 exx0
  else if ieq XC "GGA_PBEsol" then Cfg (Some (2, 3, 0, 0))%Z 2 2 true 0 exx0
  else if ieq XC "GGA_RPBE" then Cfg (Some (2, 3, 0, 0))%Z 3 3 true 0 exx0
  else if ieq XC "HF" then Cfg (Some (2, 3, 0, 0))%Z 1 1 true 1 (frac exx0 1)
  else if ieq XC "PBE0" then Cfg (Some (2, 3, 0, 0))%Z 1 1 true 1 (frac exx0 (1 / 4))
  else if ieq XC "HSE" then Cfg (Some (2, 3, 0, 0))%Z 1 1 true 1 (frac exx0 (1 / 4))
  else if ieq XC "SCAN" then Cfg (Some (4, 4, 1, 0))%Z 0 0 true 0 exx0
  else if ieq XC "RSCAN" then Cfg (Some (5, 5, 1, 0))%Z 0 0 true 0 exx0
  else if ieq XC "R2SCAN" then Cfg (Some (6, 6, 1, 0))%Z 0 0 true 0 exx0
  else if ieq XC "vdWDF1" then Cfg (Some (2, 2, 0, 1))%Z 4 0 true 0 exx0
  else if ieq XC "vdWDF2" then Cfg (Some (3, 2, 0, 2))%Z 0 0 true 0 exx0
  else Cfg None 0 0 false 0 exx0.

(** ** Arrays *)
Definition field : Type := pt -> R.
Definition rdo {A} (x : option A) : outcome A := match x with Some a => Ok a | None => UB end.
(** for (i = 0; i < DMnd; i++) out[i] = f(i); the array had the content m before *)
Fixpoint fill {A} (f : pt -> outcome A) (l : list pt) (m : pt -> A) : outcome (pt -> A) :=
  match l with
  | [] => Ok m
  | p :: t => do a <- f p ; fill f t (fun q => if pt_eqb q p then a else m q)
  end.

(** Tolerances (initialization.c:1843-1845). *)
Definition rhotol : R := / 10 ^ 14.
Definition magtol : R := / 10 ^ 8.
Definition sigmatol : R := / 10 ^ 10.

Section Grid.
  (** grid dimensions, periodic directions, stencil weights D1 d r and radius, lapcT row by row, cell_typ, dV *)
  Variables (N : pt) (per : nat -> bool) (D1 : nat -> Z -> R) (F : Z) (T : nat -> R) (cell_typ : Z) (dV : R).
  (** NLCC_flag and electronDens_core *)
  Variables (nlcc : bool) (core : field).
  (** scanx/rscanx/r2scanx and scanc/rscanc/r2scanc by ixc: (e, v, v2, v3); the same for two spins *)
  Variables (metax metac : Z -> R -> R -> R -> outcome (R * R * R * R)).
  Variable metax_s : Z -> R * R * R -> R * R * R -> R * R * R -> outcome (R * (R * R) * (R * R) * (R * R)).
  Variable metac_s : Z -> R * R * R -> R * R * R -> R * R * R -> outcome (R * (R * R) * R * R).
  (** pbexsr(rho, grho, hyb_range_pbe, ...): (e_xc_sr, XCPotential_sr, Dxcdgrho_sr) *)
  Variable pbexsr : R -> R -> outcome (R * R * R).

  (** all grid points, in memory order *)
  Definition pts : list pt := box (vec (fun _ => 0%Z)) N.
  (** Gradient_vectors_dir with c = 0.0 and k-point phase 1 (gradVecRoutines.c:33-120; C55_gradient) *)
  Definition D (d : nat) (f : field) : field :=
    grad_spec R 0 Rplus Rmult Rminus per N (fun _ => 1) f D1 F d 0.

  (** add_rho_core (exchangeCorrelation.c:1254-1279), ncol == 1; one entry, h being 1 or 0.5 *)
  Definition floor_core (h : R) (p : pt) (x : R) : R :=
    let y := if nlcc then x + h * core p else x in if Rlt_dec y rhotol then rhotol else y.
  Definition add_rho_core (dens : field) : field := fun p => floor_core 1 p (dens p).
  (** the same, ncol == 3: columns total, up, dn (the total read from the input is overwritten, 1275) *)
  Definition add_rho_core3 (up dn : field) (p : pt) : R * R * R :=
    let u := floor_core (1 / 2) p (up p) in let d := floor_core (1 / 2) p (dn p) in (u + d, u, d).

  (** compute_norm_square (exchangeCorrelation.c:1232-1249) at one point *)
  Definition nonorth : bool := ((10 <? cell_typ) && (cell_typ <? 20))%Z.
  Definition norm_square (v1 v2 v3 : R) : R :=
    if nonorth then
      v1 * (T 0 * v1 + 2 * T 1 * v2) + v2 * (T 4 * v2 + 2 * T 5 * v3) + v3 * (T 8 * v3 + 2 * T 2 * v1)
    else v1 * v1 + v2 * v2 + v3 * v3.
  (** the threshold on sigma (exchangeCorrelation.c:1224) *)
  Definition clampS (s : R) : R := Rmax s sigmatol.
  (** Drho_times_v2xc (exchangeCorrelation.c:1284-1303) at one point: the new Drho_x, Drho_y, Drho_z *)
  Definition drho_v2 (d : nat) (v1 v2 v3 w : R) : R :=
    if nonorth then
      match d with
      | O => (v1 * T 0 + v2 * T 1 + v3 * T 2) * w
      | S O => (v1 * T 3 + v2 * T 4 + v3 * T 5) * w
      | _ => (v1 * T 6 + v2 * T 7 + v3 * T 8) * w
      end
    else match d with O => v1 * w | S O => v2 * w | _ => v3 * w end.

  (** calculate_square_norm_of_gradient (exchangeCorrelation.c:1162-1225) for one column of rho *)
  Definition grad3 (f : field) (p : pt) : R * R * R := (D 0 f p, D 1 f p, D 2 f p).
  Definition sq3 (g : R * R * R) : R := let '(x, y, z) := g in norm_square x y z.
  (** the divergence term - DDrho_x - DDrho_y - DDrho_z (exchangeCorrelation.c:192-213) of one column *)
  Definition flux (g : pt -> R * R * R) (w : field) (d : nat) : field :=
    fun p => let '(x, y, z) := g p in drho_v2 d x y z (w p).
  Definition div_term (g : pt -> R * R * R) (w : field) (p : pt) : R :=
    - D 0 (flux g w 0) p - D 1 (flux g w 1) p - D 2 (flux g w 2) p.

  (** ** Spin-unpolarised *)
  Definition res1 : Type := R * R * option R * option R.
  (** iexch (exchangeCorrelation.c:92-122): (ex, vx, v2x, v3x) *)
  Definition exch (ix : Z) (xo : Z) (isg : bool) (rho : R) (sigma tau : option R) : outcome res1 :=
    if (ix =? 1)%Z then do p <- slater rho ; Ok (fst p, snd p, None, None)
    else if (ix =? 2)%Z then
      do s <- rdo sigma ; do p <- pbex xo rho s ; Ok (fst p, Some (snd p), None)
    else if (ix =? 3)%Z then
      do s <- rdo sigma ; do p <- rPW86x rho s ; Ok (fst (fst p), Some (snd (fst p)), None)
    else if ((ix =? 4) || (ix =? 5) || (ix =? 6))%Z then
      do s <- rdo sigma ; do t <- rdo tau ; do p <- metax ix rho s t ;
      Ok (fst (fst p), Some (snd (fst p)), Some (snd p))
    else Ok (0, 0, (if isg then Some 0 else None), None).
  (** icorr (exchangeCorrelation.c:125-155): (ec, vc, v2c, v3c); v2c is NULL unless isgradient *)
  Definition corr (ic : Z) (xo : Z) (vdw : bool) (isg : bool) (rho : R) (sigma tau : option R) : outcome res1 :=
    if (ic =? 1)%Z then do p <- pz rho ; Ok (fst p, snd p, None, None)
    else if (ic =? 2)%Z then
      do p <- pw rho ;
      if vdw then (if isg then Ok (fst p, snd p, Some 0, None) else UB) else Ok (fst p, snd p, None, None)
    else if (ic =? 3)%Z then
      do s <- rdo sigma ; do p <- pbec xo rho s ; Ok (fst p, Some (snd p), None)
    else if ((ic =? 4) || (ic =? 5) || (ic =? 6))%Z then
      do s <- rdo sigma ; do t <- rdo tau ; do p <- metac ic rho s t ;
      Ok (fst (fst p), Some (snd (fst p)), Some (snd p))
    else Ok (0, 0, (if isg then Some 0 else None), None).

  (** (usefock > 0) && (usefock % 2 == 0) (exchangeCorrelation.c:157, 165, 309, 319) *)
  Definition fock_phase (uf : Z) : bool := (0 <? uf)%Z && (Z.rem uf 2 =? 0)%Z.
  (** exchangeCorrelation.c:157-176 at one point *)
  Definition hybrid (XC : string) (c : cfg) (rho : R) (sigma : option R) (x : res1) : outcome res1 :=
    let '(ex, vx, v2x, v3x) := x in
    if fock_phase (usefock c) && ieq XC "PBE0" then
      do v2 <- rdo v2x ; Ok (ex * (1 - exx c), vx * (1 - exx c), Some (v2 * (1 - exx c)), v3x)
    else if fock_phase (usefock c) && ieq XC "HSE" then
      do s0 <- rdo sigma ;
      let s := if Rlt_dec s0 (/ 10 ^ 14) then / 10 ^ 14 else s0 in
      do sr <- pbexsr rho s ;
      let '(e, v, w) := sr in
      do er <- cdiv (exx c * e) rho ;
      do v2 <- rdo v2x ; Ok (ex - er, vx - exx c * v, Some (v2 - exx c * w), v3x)
    else Ok (ex, vx, v2x, v3x).

  (** The labels used: in the first SCF iteration of a meta-GGA those of PBE (exchangeCorrelation.c:64-73), and tau
      is passed only after it. *)
  Definition labels (c : cfg) (first : bool) : outcome (Z * Z * Z * Z * Z * Z) :=
    do i <- rdo (ixc c) ;
    let '(i0, i1, i2, i3) := i in
    if negb (i2 =? 0)%Z && first then Ok (2, 3, 1, 0, 1, 1)%Z else Ok (i0, i1, i2, i3, xo0 c, xo1 c).

  (** exchangeCorrelation.c:92-188 at one point: (e_xc, XCPotential, Dxcdgrho, vxcMGGA3) *)
  Definition point1 (XC : string) (c : cfg) (first : bool) (rho : R) (sigma : option R) (tau0 : R) : outcome res1 :=
    do l <- labels c first ;
    let '(i0, i1, i2, i3, o0, o1) := l in
    let meta := negb (i2 =? 0)%Z in
    let tau := if meta && negb first then Some tau0 else None in
    do x0 <- exch i0 o0 (isgrad c) rho sigma tau ;
    do y <- corr i1 o1 (negb (i3 =? 0)%Z) (isgrad c) rho sigma tau ;
    do x <- hybrid XC c rho sigma x0 ;
    let '(ex, vx, v2x, v3x) := x in
    let '(ec, vc, v2c, v3c) := y in
    do w <- (if isgrad c then do a <- rdo v2x ; do b <- rdo v2c ; Ok (Some (a + b)) else Ok None) ;
    do z <- (if meta && negb first then do a <- rdo v3x ; do b <- rdo v3c ; Ok (Some (a + b)) else Ok None) ;
    Ok (ex + ec, vx + vc, w, z).

  (** Calculate_Vxc, spin_typ 0 (exchangeCorrelation.c:36-227): (e_xc, XCPotential, vxcMGGA3); m is the former
      content of the arrays. *)
  Definition dflt0 (x : option R) : R := match x with Some a => a | None => 0 end.
  Definition sigma1 (c : cfg) (rho : field) (p : pt) : option R :=
    if isgrad c then Some (clampS (sq3 (grad3 rho p))) else None.
  Definition calc_vxc1 (XC : string) (c : cfg) (first : bool) (dens tau : field) (m : pt -> res1)
    : outcome (field * field * field) :=
    let rho := add_rho_core dens in
    do r <- fill (fun p => point1 XC c first (rho p) (sigma1 c rho p) (tau p)) pts m ;
    let v p := snd (fst (fst (r p))) in
    let w p := dflt0 (snd (fst (r p))) in
    Ok ((fun p => fst (fst (fst (r p)))),
        (fun p => if isgrad c then v p + div_term (grad3 rho) w p else v p),
        (fun p => dflt0 (snd (r p)))).

  (** Calculate_Exc (exchangeCorrelation.c:429-455); dens is the total density *)
  Definition calc_exc (dens e_xc : field) : R :=
    fold_left (fun acc p => acc + add_rho_core dens p * e_xc p) pts 0 * dV.

  (** ** Two spin components *)
  (** (e, (v up, v dn), v2 of the exchange (up, dn), v3 (up, dn)), and for the correlation one v2 and one v3 *)
  Definition resx : Type := R * (R * R) * option (R * R) * option (R * R).
  Definition resc : Type := R * (R * R) * option R * option R.
  (** iexch (exchangeCorrelation.c:244-274) *)
  Definition exch_s (ix : Z) (xo : Z) (isg : bool) (rho : R * R * R) (sigma tau : option (R * R * R)) : outcome resx :=
    let '(n, u, d) := rho in
    if (ix =? 1)%Z then do p <- slater_spin n u d ; let '(e, a, b) := p in Ok (e, (a, b), None, None)
    else if (ix =? 2)%Z then
      do s <- rdo sigma ; let '(_, su, sd) := s in do p <- pbex_spin xo n u d su sd ; Ok (fst p, Some (snd p), None)
    else if (ix =? 3)%Z then
      do s <- rdo sigma ; let '(_, su, sd) := s in do p <- rPW86x_spin n u d su sd ; Ok (fst p, Some (snd p), None)
    else if ((ix =? 4) || (ix =? 5) || (ix =? 6))%Z then
      do s <- rdo sigma ; do t <- rdo tau ; do p <- metax_s ix rho s t ;
      Ok (fst (fst p), Some (snd (fst p)), Some (snd p))
    else Ok (0, (0, 0), (if isg then Some (0, 0) else None), None).
  (** icorr (exchangeCorrelation.c:277-307) *)
  Definition corr_s (ic : Z) (xo : Z) (vdw : bool) (isg : bool) (rho : R * R * R) (sigma tau : option (R * R * R))
    : outcome resc :=
    let '(n, u, d) := rho in
    if (ic =? 1)%Z then do p <- pz_spin n u d ; let '(e, a, b) := p in Ok (e, (a, b), None, None)
    else if (ic =? 2)%Z then
      do p <- pw_spin n u d ; let '(e, a, b) := p in
      if vdw then (if isg then Ok (e, (a, b), Some 0, None) else UB) else Ok (e, (a, b), None, None)
    else if (ic =? 3)%Z then
      do s <- rdo sigma ; let '(s0, _, _) := s in do p <- pbec_spin xo n u d s0 ; Ok (fst p, Some (snd p), None)
    else if ((ic =? 4) || (ic =? 5) || (ic =? 6))%Z then
      do s <- rdo sigma ; do t <- rdo tau ; do p <- metac_s ic rho s t ;
      Ok (fst (fst p), Some (snd (fst p)), Some (snd p))
    else Ok (0, (0, 0), (if isg then Some 0 else None), None).
  (** exchangeCorrelation.c:309-332 at one point; one pass of the spin loop (321-330): (e/2/rho, v, 2 w) times
      exx_frac *)
  Definition hse_chan (c : cfg) (n x s0 : R) : outcome (R * R * R) :=
    let s := if Rlt_dec s0 (/ 10 ^ 14) then / 10 ^ 14 else s0 in
    do sr <- pbexsr (x * 2) (s * 4) ;
    let '(e, v, w) := sr in
    do er <- cdiv (exx c * e / 2) n ;
    Ok (er, exx c * v, exx c * w * 2).
  Definition hybrid_s (XC : string) (c : cfg) (rho : R * R * R) (sigma : option (R * R * R)) (x : resx) : outcome resx :=
    let '(n, u, d) := rho in
    let '(ex, (vu, vd), v2x, v3x) := x in
    if fock_phase (usefock c) && ieq XC "PBE0" then
      do v2 <- rdo v2x ;
      Ok (ex * (1 - exx c), (vu * (1 - exx c), vd * (1 - exx c)), Some (fst v2 * (1 - exx c), snd v2 * (1 - exx c)), v3x)
    else if fock_phase (usefock c) && ieq XC "HSE" then
      do s <- rdo sigma ; let '(_, su, sd) := s in
      do pu <- hse_chan c n u su ; let '(eu, au, bu) := pu in
      do pd <- hse_chan c n d sd ; let '(ed, ad, bd) := pd in
      do v2 <- rdo v2x ;
      Ok (ex - eu - ed, (vu - au, vd - ad), Some (fst v2 - bu, snd v2 - bd), v3x)
    else Ok (ex, (vu, vd), v2x, v3x).

  (** exchangeCorrelation.c:244-347 at one point: (e_xc, XCPotential (up, dn), Dxcdgrho (tot, up, dn),
      vxcMGGA3 (up, dn)) *)
  Definition res3 : Type := R * (R * R) * option (R * R * R) * option (R * R).
  Definition point3 (XC : string) (c : cfg) (first : bool) (rho : R * R * R) (sigma : option (R * R * R)) (tau0 : R * R * R)
    : outcome res3 :=
    do l <- labels c first ;
    let '(i0, i1, i2, i3, o0, o1) := l in
    let meta := negb (i2 =? 0)%Z in
    let tau := if meta && negb first then Some tau0 else None in
    do x0 <- exch_s i0 o0 (isgrad c) rho sigma tau ;
    do y <- corr_s i1 o1 (negb (i3 =? 0)%Z) (isgrad c) rho sigma tau ;
    do x <- hybrid_s XC c rho sigma x0 ;
    let '(ex, (vxu, vxd), v2x, v3x) := x in
    let '(ec, (vcu, vcd), v2c, v3c) := y in
    do w <- (if isgrad c then do a <- rdo v2x ; do b <- rdo v2c ; Ok (Some (b, fst a, snd a)) else Ok None) ;
    do z <- (if meta && negb first then do a <- rdo v3x ; do b <- rdo v3c ; Ok (Some (fst a + b, snd a + b)) else Ok None) ;
    Ok (ex + ec, (vxu + vcu, vxd + vcd), w, z).

  (** The gradients of the three columns. spin_typ 1 (exchangeCorrelation.c:1216-1218): those of rho. *)
  Definition grads : Type := pt -> (R * R * R) * (R * R * R) * (R * R * R).
  Definition col0 (r : pt -> R * R * R) : field := fun p => fst (fst (r p)).
  Definition col1 (r : pt -> R * R * R) : field := fun p => snd (fst (r p)).
  Definition col2 (r : pt -> R * R * R) : field := fun p => snd (r p).
  Definition grads_col (r : pt -> R * R * R) : grads := fun p => (grad3 (col0 r) p, grad3 (col1 r) p, grad3 (col2 r) p).
  (** spin_typ 2 (exchangeCorrelation.c:1168-1205): |m| and m = (mx, my, mz) *)
  Definition dmnorm (mn mx my mz : field) (d : nat) (p : pt) : R :=
    if Rlt_dec magtol (mn p) then (mx p * D d mx p + my p * D d my p + mz p * D d mz p) / mn p else 0.
  Definition grads_nc (r : pt -> R * R * R) (mn mx my mz : field) : grads := fun p =>
    let g d := D d (col0 r) p in
    let h d := dmnorm mn mx my mz d p in
    ((g 0%nat, g 1%nat, g 2%nat),
     (1 / 2 * (g 0%nat + h 0%nat), 1 / 2 * (g 1%nat + h 1%nat), 1 / 2 * (g 2%nat + h 2%nat)),
     (1 / 2 * (g 0%nat - h 0%nat), 1 / 2 * (g 1%nat - h 1%nat), 1 / 2 * (g 2%nat - h 2%nat))).

  (** Calculate_Vxc, spin_typ 1 and 2 up to line 388: (e_xc, XCPotential up, XCPotential dn, vxcMGGA3 up, dn) *)
  Definition sigma3 (c : cfg) (g : grads) (p : pt) : option (R * R * R) :=
    if isgrad c then Some (clampS (sq3 (fst (fst (g p)))), clampS (sq3 (snd (fst (g p)))), clampS (sq3 (snd (g p))))
    else None.
  Definition dflt3 (x : option (R * R * R)) : R * R * R := match x with Some a => a | None => (0, 0, 0) end.
  Definition dflt2 (x : option (R * R)) : R * R := match x with Some a => a | None => (0, 0) end.
  Definition calc_vxc3 (XC : string) (c : cfg) (first : bool) (rho : pt -> R * R * R) (g : grads) (tau : pt -> R * R * R)
    (m : pt -> res3) : outcome (field * (field * field) * (field * field)) :=
    do r <- fill (fun p => point3 XC c first (rho p) (sigma3 c g p) (tau p)) pts m ;
    let v p := snd (fst (fst (r p))) in
    let w p := dflt3 (snd (fst (r p))) in
    let dt0 := div_term (fun p => fst (fst (g p))) (col0 w) in
    let dt1 := div_term (fun p => snd (fst (g p))) (col1 w) in
    let dt2 := div_term (fun p => snd (g p)) (col2 w) in
    Ok ((fun p => fst (fst (fst (r p)))),
        ((fun p => if isgrad c then fst (v p) + (dt0 p + dt1 p) else fst (v p)),
         (fun p => if isgrad c then snd (v p) + (dt0 p + dt2 p) else snd (v p))),
        ((fun p => fst (dflt2 (snd (r p)))), (fun p => snd (dflt2 (snd (r p)))))).

  (** spin_typ 1 *)
  Definition calc_vxc_sp (XC : string) (c : cfg) (first : bool) (up dn : field) (tau : pt -> R * R * R) (m : pt -> res3) :=
    let rho := add_rho_core3 up dn in calc_vxc3 XC c first rho (grads_col rho) tau m.

  (** Calculate_Xcpotential_Noncollinear (exchangeCorrelation.c:1777-1806) at one point:
      (V11, V22, Re V12, Im V12) *)
  Definition vxc_nc (vu vd mn mx my mz : R) : R * R * R * R :=
    let p := vu + vd in let q := vu - vd in
    if Rlt_dec magtol mn then
      (1 / 2 * p + 1 / 2 * q * mz / mn, 1 / 2 * p - 1 / 2 * q * mz / mn, 1 / 2 * q * mx / mn, - (1 / 2) * q * my / mn)
    else (1 / 2 * p, 1 / 2 * p, 0, 0).
  (** Calculate_Magnorm and Calculate_diagonal_Density (electronDensity.c:308-325) *)
  Definition magnorm (mx my mz : R) : R := sqrt (mx * mx + my * my + mz * mz).
  Definition diag_up (n mn : R) : R := 1 / 2 * (n + mn).
  Definition diag_dn (n mn : R) : R := 1 / 2 * (n - mn).
  (** spin_typ 2: (e_xc, XCPotential_nc) for the density n and the magnetisation (mx, my, mz) *)
  Definition calc_vxc_nc (XC : string) (c : cfg) (first : bool) (n mx my mz : field) (tau : pt -> R * R * R) (m : pt -> res3)
    : outcome (field * (pt -> R * R * R * R)) :=
    let mn p := magnorm (mx p) (my p) (mz p) in
    let rho := add_rho_core3 (fun p => diag_up (n p) (mn p)) (fun p => diag_dn (n p) (mn p)) in
    do r <- calc_vxc3 XC c first rho (grads_nc rho mn mx my mz) tau m ;
    let '(e, (vu, vd), _) := r in
    Ok (e, fun p => vxc_nc (vu p) (vd p) (mn p) (mx p) (my p) (mz p)).
End Grid.
