(** Meta-GGA exchange (xc/mgga/mGGAscan.c, mGGArscan.c, mGGAr2scan.c).

    Simplifications, for the whole file: as in Xc.v, arithmetic is exact, each grid point is treated on its own, and
    a division by zero or a call of sqrt or pow outside its domain is [UB] (in C an infinity or NaN). The two if
    statements of each function on the same condition, for the switching function and for its derivative, are one. The arrays malloc'ed
    and freed by the functions are left out. *)
From Coq Require Import Reals ZArith Bool.
From Verif Require Import CBase Xc.
Local Open Scope R_scope.

(** ** Variables *)
(** s, ds/dn, ds/d|grad n| and alpha, d/dn, d/d|grad n|, d/dtau *)
Definition svars : Type := R * R * R.
Definition avars : Type := R * R * R * R.
Definition c13 : R := Rpower (3 * PI * PI) (1 / 3).
Definition c23 : R := c13 * c13.
(** lines shared by the three: mGGAscan.c:66-76, mGGArscan.c:65-78, mGGAr2scan.c:67-80:
    (s variables, tauw, tauUnif, DtauwDn, DtauwDDn, DtauUnifDn) *)
Definition basic (rho nD : R) : outcome (svars * R * R * R * R * R) :=
  do p43 <- cpow rho (4 / 3) ;
  do s <- cdiv nD (2 * c13 * p43) ;
  do tauw <- cdiv (nD * nD) (8 * rho) ;
  do p53 <- cpow rho (5 / 3) ;
  let tauUnif := 3 / 10 * c23 * p53 in
  do p73 <- cpow rho (7 / 3) ;
  do dsdn <- cdiv (-2 * nD) (3 * c13 * p73) ;
  do dsddn <- cdiv 1 (2 * c13 * p43) ;
  do DtauwDn <- cdiv (- nD * nD) (8 * rho * rho) ;
  do DtauwDDn <- cdiv nD (4 * rho) ;
  do p23 <- cpow rho (2 / 3) ;
  let DtauUnifDn := c23 / 2 * p23 in
  Ok (s, dsdn, dsddn, tauw, tauUnif, DtauwDn, DtauwDDn, DtauUnifDn).
(** basic_MGGA_variables (mGGAscan.c:61-85) *)
Definition basic_MGGA_variables (rho nD tau : R) : outcome (svars * avars) :=
  do b <- basic rho nD ;
  let '(sv, tauw, tauUnif, DtauwDn, DtauwDDn, DtauUnifDn) := b in
  do alpha <- cdiv (tau - tauw) tauUnif ;
  do dadn <- cdiv (- DtauwDn * tauUnif - (tau - tauw) * DtauUnifDn) (tauUnif * tauUnif) ;
  do daddn <- cdiv (- DtauwDDn) tauUnif ;
  do dadtau <- cdiv 1 tauUnif ;
  Ok (sv, (alpha, dadn, daddn, dadtau)).
(** basic_rscan_variables (mGGArscan.c:60-90) *)
Definition basic_rscan_variables (rho nD tau : R) : outcome (svars * avars) :=
  do b <- basic rho nD ;
  let '(sv, tauw, tauUnif, DtauwDn, DtauwDDn, DtauUnifDn) := b in
  do alpha <- cdiv (tau - tauw) (tauUnif + 1 / 10000) ;
  let alpha2 := alpha * alpha in
  do alphaP <- cdiv (alpha2 * alpha) (alpha2 + 1 / 1000) ;
  do DalphaDn <- cdiv (- DtauwDn * (tauUnif + 1 / 10000) - (tau - tauw) * DtauUnifDn)
                      ((tauUnif + 1 / 10000) * (tauUnif + 1 / 10000)) ;
  do DalphaDDn <- cdiv (- DtauwDDn) (tauUnif + 1 / 10000) ;
  do DalphaDtau <- cdiv 1 (tauUnif + 1 / 10000) ;
  do P <- cdiv (3 * alpha2 * (alpha2 + 1 / 1000) - alpha2 * alpha * (2 * alpha))
               ((alpha2 + 1 / 1000) * (alpha2 + 1 / 1000)) ;
  Ok (sv, (alphaP, P * DalphaDn, P * DalphaDDn, P * DalphaDtau)).
(** basic_r2scanx_variables (mGGAr2scan.c:61-84), the same lines in basic_r2scanc_variables (216-242): the s
    variables are p = s^2 and its derivatives *)
Definition basic_r2scanx_variables (rho nD tau : R) : outcome (svars * avars) :=
  let eta := 1 / 1000 in
  do b <- basic rho nD ;
  let '(sv, tauw, tauUnif, DtauwDn, DtauwDDn, DtauUnifDn) := b in
  let '(s, dsdn, dsddn) := sv in
  do alpha <- cdiv (tau - tauw) (tauUnif + eta * tauw) ;
  do dadn <- cdiv (- DtauwDn * (tauUnif + eta * tauw) - (tau - tauw) * (DtauUnifDn + eta * DtauwDn))
                  ((tauUnif + eta * tauw) * (tauUnif + eta * tauw)) ;
  do daddn <- cdiv (- DtauwDDn * (tauUnif + eta * tauw) - (tau - tauw) * eta * DtauwDDn)
                   ((tauUnif + eta * tauw) * (tauUnif + eta * tauw)) ;
  do dadtau <- cdiv 1 (tauUnif + eta * tauw) ;
  Ok ((s * s, 2 * s * dsdn, 2 * s * dsddn), (alpha, dadn, daddn, dadtau)).

(** ** Switching functions: (f, df/dalpha) *)
(** of SCAN: fx (mGGAscan.c:117-122, 147-152; c1x, c2x, dx), fc (264-269, 307-312; c1c, c2c, dc) *)
Definition sw_hi (c2 d alpha : R) : outcome (R * R) :=
  do q <- cdiv c2 (1 - alpha) ; do w <- cdiv c2 (1 - alpha) ; do w2 <- cdiv w (1 - alpha) ;
  Ok (- d * exp q, - d * exp q * w2).
Definition sw_lo (c1 alpha : R) : outcome (R * R) :=
  do q <- cdiv (- c1 * alpha) (1 - alpha) ; do w <- cdiv (- c1) (1 - alpha) ; do w2 <- cdiv w (1 - alpha) ;
  Ok (exp q, exp q * w2).
Definition sw_scan (c1 c2 d alpha : R) : outcome (R * R) :=
  if Rlt_dec 1 alpha then sw_hi c2 d alpha else sw_lo c1 alpha.
(** of rSCAN and r2SCAN, a polynomial in between: mGGArscan.c:120-131, 154-165; mGGAr2scan.c:113-124, 140-151; the
    coefficient table k has the entries 1 to 7 *)
Definition poly (k : nat -> R) (a : R) : R :=
  let a2 := a * a in let a3 := a2 * a in let a4 := a3 * a in let a5 := a4 * a in let a6 := a5 * a in let a7 := a6 * a in
  1 + k 1%nat * a + k 2%nat * a2 + k 3%nat * a3 + k 4%nat * a4 + k 5%nat * a5 + k 6%nat * a6 + k 7%nat * a7.
Definition dpoly (k : nat -> R) (a : R) : R :=
  let a2 := a * a in let a3 := a2 * a in let a4 := a3 * a in let a5 := a4 * a in let a6 := a5 * a in
  k 1%nat + k 2%nat * a * 2 + k 3%nat * a2 * 3 + k 4%nat * a3 * 4 + k 5%nat * a4 * 5 + k 6%nat * a5 * 6 + k 7%nat * a6 * 7.
Definition sw_rscan (k : nat -> R) (c1 c2 d alpha : R) : outcome (R * R) :=
  if Rlt_dec (5 / 2) alpha then sw_hi c2 d alpha
  else if Rlt_dec 0 alpha then Ok (poly k alpha, dpoly k alpha)
  else sw_lo c1 alpha.
(** mGGArscan.c:126-127 *)
Definition kx (i : nat) : R :=
  match i with
  | 1%nat => - (667 / 1000) | 2%nat => - (4445555 / 10000000) | 3%nat => - (663086601049 / 1000000000000)
  | 4%nat => 1451297044490 / 1000000000000 | 5%nat => - (887998041597 / 1000000000000)
  | 6%nat => 234528941479 / 1000000000000 | _ => - (23185843322 / 1000000000000)
  end.
Definition c1x : R := 667 / 1000.
Definition c2x : R := 8 / 10.
Definition dx_ : R := 124 / 100.

(** ** Exchange *)
Definition hx0 : R := 1174 / 1000.
Definition a1 : R := 49479 / 10000.
Definition k1 : R := 65 / 1000.
Definition mu_ak : R := 10 / 81.
Definition b2 : R := sqrt (5913 / 405000).
Definition b1 : R := 511 / 13500 / (2 * b2).
Definition b3 : R := 1 / 2.
Definition b4 : R := mu_ak * mu_ak / k1 - 1606 / 18225 - b1 * b1.
(** The last lines of the three functions (mGGAscan.c:123-126, 137-145, 153-166; mGGArscan.c:132-135, 146-152, 166-178;
    mGGAr2scan.c:125-127, 134-138, 152-165): from Fx and its parts to (epsilonx, vx, v2x, v3x). h: (hx1, Dn, DDn, Dtau),
    f: (fx, Dn, DDn, Dtau), g: (gx, Dn, DDn). *)
Definition assemble (rho : R) (h f : R * R * R * R) (g : R * R * R) : outcome (R * R * R * R) :=
  let '(hx1, Dhx1Dn, Dhx1DDn, Dhx1Dtau) := h in
  let '(fx, DfxDn, DfxDDn, DfxDtau) := f in
  let '(gx, DgxDn, DgxDDn) := g in
  do p <- cpow (3 * PI * PI * rho) (1 / 3) ;
  let epsilon_xUnif := - (3) / (4 * PI) * p in
  let Fx := (hx1 + fx * (hx0 - hx1)) * gx in
  let DFxDn := (hx1 + fx * (hx0 - hx1)) * DgxDn + gx * (1 - fx) * Dhx1Dn + gx * (hx0 - hx1) * DfxDn in
  let DFxDDn := (hx1 + fx * (hx0 - hx1)) * DgxDDn + gx * (1 - fx) * Dhx1DDn + gx * (hx0 - hx1) * DfxDDn in
  let DFxDtau := gx * (1 - fx) * Dhx1Dtau + gx * (hx0 - hx1) * DfxDtau in
  do q <- cpow rho (- (2 / 3)) ;
  let Depsilon_xUnifDn := - c13 / (4 * PI) * q in
  Ok (epsilon_xUnif * Fx, (epsilon_xUnif + rho * Depsilon_xUnifDn) * Fx + rho * epsilon_xUnif * DFxDn,
      rho * epsilon_xUnif * DFxDDn, rho * epsilon_xUnif * DFxDtau).
(** Calculate_scanx (mGGAscan.c:87-167) and, with another switching function and alphaP for alpha, Calculate_rscanx
    (mGGArscan.c:92-186) *)
Definition calculate_scanx (sw : R -> outcome (R * R)) (rho : R) (S : svars) (A : avars) : outcome (R * R * R * R) :=
  let '(s, dsdn, dsddn) := S in
  let '(alpha, dadn, daddn, dadtau) := A in
  let s2 := s * s in
  let ea := exp (- b3 * (1 - alpha) * (1 - alpha)) in
  let es := exp (- Rabs b4 * s2 / mu_ak) in
  let term1 := 1 + b4 * s2 / mu_ak * es in
  let xFir := mu_ak * s2 * term1 in
  let term3 := 2 * (b1 * s2 + b2 * (1 - alpha) * ea) in
  let xSec := term3 / 2 * (term3 / 2) in
  let x1 := 1 + (xFir + xSec) / k1 in
  do kx1 <- cdiv k1 x1 ;
  let hx1 := 1 + k1 - kx1 in
  do f <- sw alpha ;
  let '(fx, DfxDalpha) := f in
  do sqrt_s <- csqrt s ;
  do aq <- cdiv a1 sqrt_s ;
  let eg := exp (- aq) in
  let gx := 1 - eg in
  let term2 := s2 * (b4 / mu_ak * es + b4 * s2 / mu_ak * es * (- Rabs b4 / mu_ak)) in
  let term4 := b2 * (- ea + (1 - alpha) * ea * (2 * b3 * (1 - alpha))) in
  let DxDs := 2 * s * (mu_ak * (term1 + term2) + b1 * term3) in
  let DxDalpha := term3 * term4 in
  let DxDn := dsdn * DxDs + dadn * DxDalpha in
  let DxDDn := dsddn * DxDs + daddn * DxDalpha in
  let DxDtau := dadtau * DxDalpha in
  do a2s <- cdiv (a1 / 2) sqrt_s ; do a2ss <- cdiv a2s s ;
  let DgxDn := - eg * a2ss * dsdn in
  let DgxDDn := - eg * a2ss * dsddn in
  do i1 <- cdiv 1 x1 ; do Dhx1Dx <- cdiv i1 x1 ;
  assemble rho (hx1, DxDn * Dhx1Dx, DxDDn * Dhx1Dx, DxDtau * Dhx1Dx)
    (fx, DfxDalpha * dadn, DfxDalpha * daddn, DfxDalpha * dadtau) (gx, DgxDn, DgxDDn).
(** Calculate_r2scanx (mGGAr2scan.c:86-168); pow(dp2, 4.0) as a product *)
Definition Ceta : R := 20 / 27 + 1 / 1000 * 5 / 3.
Definition C2_ : R := - (162742 / 1000000).
Definition dp4 : R := (361 / 1000) ^ 4.
Definition calculate_r2scanx (rho : R) (P : svars) (A : avars) : outcome (R * R * R * R) :=
  let '(p, dpdn, dpddn) := P in
  let '(alpha, dadn, daddn, dadtau) := A in
  do p14 <- cpow p (1 / 4) ;
  let ep := exp (- p * p / dp4) in
  let x := (Ceta * C2_ * ep + mu_ak) * p in
  do kx1 <- cdiv k1 (1 + x / k1) ;
  let hx1 := 1 + k1 - kx1 in
  do f <- sw_rscan kx c1x c2x dx_ alpha ;
  let '(fx, DfxDalpha) := f in
  do aq <- cdiv a1 p14 ;
  let eg := exp (- aq) in
  let gx := 1 - eg in
  let DxDp := Ceta * C2_ * ep + mu_ak + Ceta * C2_ * ep * (-2 * p / dp4) * p in
  do a4p <- cdiv (a1 / 4) p14 ; do a4pp <- cdiv a4p p ;
  do Dhx1Dx <- cdiv 1 ((1 + x / k1) * (1 + x / k1)) ;
  assemble rho (hx1, DxDp * dpdn * Dhx1Dx, DxDp * dpddn * Dhx1Dx, 0)
    (fx, DfxDalpha * dadn, DfxDalpha * daddn, DfxDalpha * dadtau) (gx, - eg * a4pp * dpdn, - eg * a4pp * dpddn).

(** scanx (mGGAscan.c:24-59), rscanx (mGGArscan.c:23-58), r2scanx (mGGAr2scan.c:24-59): (ex, vx, v2x, v3x) *)
Definition wrap (vars : R -> R -> R -> outcome (svars * avars))
    (calc : R -> svars -> avars -> outcome (R * R * R * R)) (rho sigma tau : R) : outcome (R * R * R * R) :=
  do nD <- csqrt sigma ;
  do v <- vars rho nD tau ;
  do o <- calc rho (fst v) (snd v) ;
  let '(ex, vx, v2x, v3x) := o in
  do w <- cdiv v2x nD ;
  Ok (ex, vx, w, v3x).
Definition scanx := wrap basic_MGGA_variables (calculate_scanx (sw_scan c1x c2x dx_)).
Definition rscanx := wrap basic_rscan_variables (calculate_scanx (sw_rscan kx c1x c2x dx_)).
Definition r2scanx := wrap basic_r2scanx_variables calculate_r2scanx.

(** ** Two spins: (ex, (vx up, dn), (v2x up, dn), (v3x up, dn)) *)
(** One pass of the loops over both channels in scanx_spin (mGGAscan.c:347-357, 370-398, 400-481), the channel holding
    rho, sigma, tau: (epsilonx_updn, vx, v2x, v3x). The text of basic_MGSGA_variables_exchange and Calculate_scanx_spin is that
    of basic_MGGA_variables and Calculate_scanx with theRho = 2 rho, theNormDrho = 2 normDrho, theTau = 2 tau. *)
Definition scanx_chan (rho sigma tau : R) : outcome (R * R * R * R) :=
  do nD <- csqrt sigma ;
  do v <- basic_MGGA_variables (2 * rho) (2 * nD) (2 * tau) ;
  do o <- calculate_scanx (sw_scan c1x c2x dx_) (rho * 2) (fst v) (snd v) ;
  let '(ex, vx, v2x, v3x) := o in
  do w <- cdiv v2x nD ;
  Ok (ex, vx, w, v3x).
Definition resx_s : Type := R * (R * R) * (R * R) * (R * R).
Definition scanx_spin (rho sigma tau : R * R * R) : outcome resx_s :=
  let '(n, u, d) := rho in let '(_, su, sd) := sigma in let '(_, tu, td) := tau in
  do a <- scanx_chan u su tu ; let '(eu, vu, wu, zu) := a in
  do b <- scanx_chan d sd td ; let '(ed, vd, wd, zd) := b in
  do e <- cdiv (u * eu + d * ed) n ;
  Ok (e, (vu, vd), (wu, wd), (zu, zd)).
(** rscanx_spin (mGGArscan.c:364-410), r2scanx_spin (mGGAr2scan.c:408-454) *)
Definition xspin (f : R -> R -> R -> outcome (R * R * R * R)) (rho sigma tau : R * R * R) : outcome resx_s :=
  let '(n, u, d) := rho in let '(_, su, sd) := sigma in let '(_, tu, td) := tau in
  do a <- f (u * 2) (su * 4) (tu * 2) ; let '(eu, vu, wu, zu) := a in
  do b <- f (d * 2) (sd * 4) (td * 2) ; let '(ed, vd, wd, zd) := b in
  do e <- cdiv (eu * u + ed * d) n ;
  Ok (e, (vu, vd), (wu * 2, wd * 2), (zu, zd)).
Definition rscanx_spin := xspin rscanx.
Definition r2scanx_spin := xspin r2scanx.
