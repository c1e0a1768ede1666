(** Exchange-correlation of a spin-polarised density at one grid point (exchangeCorrelation.c:756-1155).

    As in Xc.v arithmetic is exact and one grid point is modelled; rho, up, dn stand for rho[i], rho[DMnd+i],
    rho[2*DMnd+i], and sigma, sup, sdn for the three columns of sigma. Powers with exponents 2.0, 3.0, 4.0, which are
    defined everywhere, are products. *)
From Coq Require Import Reals ZArith Bool Lra.
From Verif Require Import CBase Xc.
Local Open Scope R_scope.

(** slater_spin (exchangeCorrelation.c:759-781): (ex, vx up, vx dn). One pass of the spin loop (772-779):
    (ex_lsd, vx). *)
Definition slater_chan (rho_updn : R) : outcome (R * R) :=
  do rhomot <- cpow rho_updn (- (1 / 3)) ;
  let ex_lsd := - threefourth_divpi * sixpi2_1_3 * (rhomot * rhomot * rho_updn) in
  Ok (ex_lsd, 4 / 3 * ex_lsd).
Definition slater_spin (rho up dn : R) : outcome (R * R * R) :=
  do rhom1_3 <- cpow rho (- (1 / 3)) ;
  let rhotot_inv := rhom1_3 * rhom1_3 * rhom1_3 in
  do pu <- slater_chan up ;
  let extot := 0 + fst pu * up in
  do pd <- slater_chan dn ;
  let extot := extot + fst pd * dn in
  Ok (extot * rhotot_inv, snd pu, snd pd).

(** Constants of pw_spin and pbec_spin (exchangeCorrelation.c:790-803, 994-1009). *)
Definition alpha_zeta2 : R := 1 - 1 / 1000000.
Definition alpha_zeta : R := 1 - 1 / 1000000.
Definition fsec_inv : R := 1 / (1709921 / 1000000).
Definition factf_zeta : R := 1 / (Rpower 2 (4 / 3) - 2).
Definition factfp_zeta : R := 4 / 3 * factf_zeta * alpha_zeta2.
Definition pw92_1 : R -> R -> R -> outcome (R * R) :=
  pw92 (15545 / 1000000) (20548 / 100000) (141189 / 10000) (61977 / 10000) (33662 / 10000) (62517 / 100000).
Definition pw92_m : R -> R -> R -> outcome (R * R) :=
  pw92 (16887 / 1000000) (11125 / 100000) (10357 / 1000) (36231 / 10000) (88026 / 100000) (49671 / 100000).

(** The quantities computed by both functions before the gradient part. *)
Record lsd := Lsd { l_rhom : R; l_zeta : R; l_zetp : R; l_zetm : R; l_zpm : R; l_zmm : R; l_rs : R;
                    l_e : R; l_drs : R; l_dz : R; l_up : R; l_dn : R }.
(** exchangeCorrelation.c:806-863 (pw_spin) and, line for line the same, 1012-1074 (pbec_spin). *)
Definition lsd_c (rho up dn : R) : outcome lsd :=
  let third := 1 / 3 in
  let sq_rsfac := sqrt rsfac in
  let sq_rsfac_inv := 1 / sq_rsfac in
  do rhom1_3 <- cpow rho (- third) ;
  let rhotot_inv := rhom1_3 * rhom1_3 * rhom1_3 in
  let zeta := (up - dn) * rhotot_inv in
  let zetp := 1 + zeta * alpha_zeta in
  let zetm := 1 - zeta * alpha_zeta in
  do zetpm1_3 <- cpow zetp (- third) ;
  do zetmm1_3 <- cpow zetm (- third) ;
  do rhotmo6 <- csqrt rhom1_3 ;
  let rhoto6 := rho * rhom1_3 * rhom1_3 * rhotmo6 in
  let rs := rsfac * rhom1_3 in
  let sqr_rs := sq_rsfac * rhotmo6 in
  let rsm1_2 := sq_rsfac_inv * rhoto6 in
  do p0 <- pw92_0 rs sqr_rs rsm1_2 ;
  let ecrs0 := fst p0 in let decrs0_drs := snd p0 in
  do pm <- pw92_m rs sqr_rs rsm1_2 ;
  let macrs := fst pm in let dmacrs_drs := snd pm in
  do p1 <- pw92_1 rs sqr_rs rsm1_2 ;
  let ecrs1 := fst p1 in let decrs1_drs := snd p1 in
  let zetp_1_3 := (1 + zeta * alpha_zeta) * (zetpm1_3 * zetpm1_3) in
  let zetm_1_3 := (1 - zeta * alpha_zeta) * (zetmm1_3 * zetmm1_3) in
  let f_zeta := ((1 + zeta * alpha_zeta2) * zetp_1_3 + (1 - zeta * alpha_zeta2) * zetm_1_3 - 2) * factf_zeta in
  let fp_zeta := (zetp_1_3 - zetm_1_3) * factfp_zeta in
  let zeta4 := zeta ^ 4 in
  let gcrs := ecrs1 - ecrs0 + macrs * fsec_inv in
  let ecrs := ecrs0 + f_zeta * (zeta4 * gcrs - macrs * fsec_inv) in
  let dgcrs_drs := decrs1_drs - decrs0_drs + dmacrs_drs * fsec_inv in
  let decrs_drs := decrs0_drs + f_zeta * (zeta4 * dgcrs_drs - dmacrs_drs * fsec_inv) in
  let dfzeta4_dzeta := 4 * zeta ^ 3 * f_zeta + fp_zeta * zeta4 in
  let decrs_dzeta := dfzeta4_dzeta * gcrs - fp_zeta * macrs * fsec_inv in
  let vxcadd := ecrs - rs * third * decrs_drs - zeta * decrs_dzeta in
  Ok (Lsd rhom1_3 zeta zetp zetm zetpm1_3 zetmm1_3 rs ecrs decrs_drs decrs_dzeta
          (vxcadd + decrs_dzeta) (vxcadd - decrs_dzeta)).

(** pw_spin (exchangeCorrelation.c:787-866): (ec, vc up, vc dn). *)
Definition pw_spin (rho up dn : R) : outcome (R * R * R) :=
  do l <- lsd_c rho up dn ; Ok (l_e l, l_up l, l_dn l).

(** pz_spin (exchangeCorrelation.c:872-877). *)
Definition pz_spin (rho up dn : R) : outcome (R * R * R) := Exit.

(** pbex_spin (exchangeCorrelation.c:887-938): ((ex, vx up, vx dn), v2x up, v2x dn). One pass of the spin loop
    (908-935): (ex_gga, vx, v2x). *)
Definition pbex_chan (iflag : Z) (rho_updn sigma : R) : outcome (R * R * R) :=
  let kappa := kappa_ iflag in
  let sixpi2m1_3 := 1 / sixpi2_1_3 in
  do rhomot <- cpow rho_updn (- (1 / 3)) ;
  let ex_lsd := - threefourth_divpi * sixpi2_1_3 * (rhomot * rhomot * rho_updn) in
  let rho_inv := rhomot * rhomot * rhomot in
  let coeffss := 1 / 4 * sixpi2m1_3 * sixpi2m1_3 * (rho_inv * rho_inv * rhomot * rhomot) in
  let ss := sigma * coeffss in
  do p <- enhance iflag ss ;
  let divss := fst p in let dfxdss := snd p in
  let fx := 1 + kappa * (1 - divss) in
  let ex_gga := ex_lsd * fx in
  let dssdn := - (8 / 3) * (ss * rho_inv) in
  let dfxdn := dfxdss * dssdn in
  let dssdg := 2 * coeffss in
  let dfxdg := dfxdss * dssdg in
  Ok (ex_gga, ex_lsd * (4 / 3 * fx + rho_updn * dfxdn), ex_lsd * rho_updn * dfxdg).
Definition pbex_spin (iflag : Z) (rho up dn sup sdn : R) : outcome (R * (R * R) * (R * R)) :=
  if (iflag <? 1)%Z || (4 <? iflag)%Z then Exit else
  do rhom1_3 <- cpow rho (- (1 / 3)) ;
  let rhotot_inv := rhom1_3 * rhom1_3 * rhom1_3 in
  do pu <- pbex_chan iflag up sup ;
  let extot := 0 + fst (fst pu) * up in
  do pd <- pbex_chan iflag dn sdn ;
  let extot := extot + fst (fst pd) * dn in
  Ok (extot * rhotot_inv, (snd (fst pu), snd (fst pd)), (snd pu, snd pd)).

(** rPW86x_spin (exchangeCorrelation.c:944-975): (ex, (vx up, vx dn), (v2x up, v2x dn)); the caller passes the
    columns up and dn of sigma (exchangeCorrelation.c:254). The clamped sigma written back is left out. One pass of
    the loop over the 2*DMnd entries (957-970): (exUpDn, vx1, vx2). *)
Definition rPW86x_chan (rho sigma0 : R) : outcome (R * R * R) :=
  let a := 1851 / 1000 in
  let b := 1733 / 100 in
  let c := 163 / 1000 in
  let s_prefactor := 618733545256027 / 100000000000000 in
  let Ax := - (738558766382022 / 1000000000000000) in
  let four_thirds := 4 / 3 in
  let two_pow13 := Rpower 2 (1 / 3) in
  let sigma := if Rlt_dec sigma0 sigma_floor then sigma_floor else sigma0 in
  do grad_rho <- csqrt sigma ;
  do r43 <- cpow rho four_thirds ;
  do s <- cdiv grad_rho (two_pow13 * s_prefactor * r43) ;
  let s_2 := s * s in let s_3 := s_2 * s in let s_4 := s_3 * s in let s_5 := s_3 * s_2 in let s_6 := s_5 * s in
  do fs <- cpow (1 + a * s_2 + b * s_4 + c * s_6) (1 / 15) ;
  do r431 <- cpow rho (1 / 3 + 1) ;
  let exUpDn := Ax * two_pow13 * r431 * fs in
  do i14 <- cdiv 1 (15 * fs ^ 14) ;
  let df_ds := i14 * (2 * a * s + 4 * b * s_3 + 6 * c * s_5) in
  do r13 <- cpow rho (1 / 3) ;
  do gr <- cdiv grad_rho (s_prefactor * rho) ;
  let vx1 := Ax * four_thirds * (two_pow13 * r13 * fs - gr * df_ds) in
  do vx2 <- cdiv (Ax * df_ds) (s_prefactor * grad_rho) ;
  Ok (exUpDn, vx1, vx2).
Definition rPW86x_spin (rho up dn sup sdn : R) : outcome (R * (R * R) * (R * R)) :=
  do pu <- rPW86x_chan up sup ;
  do pd <- rPW86x_chan dn sdn ;
  do ex <- cdiv (fst (fst pu) + fst (fst pd)) rho ;
  Ok (ex, (snd (fst pu), snd (fst pd)), (snd pu, snd pd)).

(** pbec_spin (exchangeCorrelation.c:985-1155): (ec, (vc up, vc dn), v2c); sigma is that of the total density. *)
Definition pbec_spin (iflag : Z) (rho up dn sigma : R) : outcome (R * (R * R) * R) :=
  if (iflag <? 1)%Z || (3 <? iflag)%Z then Exit else
  let beta := beta_ iflag in
  let gamma_inv := 1 / gamma in
  let third := 1 / 3 in
  do l <- lsd_c rho up dn ;
  let rhom1_3 := l_rhom l in let zeta := l_zeta l in let rs := l_rs l in
  let zetpm1_3 := l_zpm l in let zetmm1_3 := l_zmm l in
  let ecrs := l_e l in let decrs_drs := l_drs l in let decrs_dzeta := l_dz l in
  let rhotot_inv := rhom1_3 * rhom1_3 * rhom1_3 in
  let phi_zeta := (zetpm1_3 * (1 + zeta * alpha_zeta) + zetmm1_3 * (1 - zeta * alpha_zeta)) * (1 / 2) in
  let phip_zeta := (zetpm1_3 - zetmm1_3) * third * alpha_zeta in
  do phi_zeta_inv <- cdiv 1 phi_zeta ;
  let phi_logder := phip_zeta * phi_zeta_inv in
  let phi3_zeta := phi_zeta * phi_zeta * phi_zeta in
  let gamphi3inv := gamma_inv * phi_zeta_inv * phi_zeta_inv * phi_zeta_inv in
  let bb := ecrs * gamphi3inv in
  let dbb_drs := decrs_drs * gamphi3inv in
  let dbb_dzeta := gamphi3inv * (decrs_dzeta - 3 * ecrs * phi_logder) in
  let exp_pbe := exp (- bb) in
  do cc <- cdiv 1 (exp_pbe - 1) ;
  let dcc_dbb := cc * cc * exp_pbe in
  let dcc_drs := dcc_dbb * dbb_drs in
  let dcc_dzeta := dcc_dbb * dbb_dzeta in
  let coeff_aa := beta * gamma_inv * phi_zeta_inv * phi_zeta_inv in
  let aa := coeff_aa * cc in
  let daa_drs := coeff_aa * dcc_drs in
  let daa_dzeta := -2 * aa * phi_logder + coeff_aa * dcc_dzeta in
  let grrho2 := sigma in
  let dtt_dg := 2 * rhotot_inv * rhotot_inv * rhom1_3 * coeff_tt in
  let tt := 1 / 2 * grrho2 * dtt_dg in
  let xx := aa * tt in
  let dxx_drs := daa_drs * tt in
  let dxx_dzeta := daa_dzeta * tt in
  let dxx_dtt := aa in
  do pade_den <- cdiv 1 (1 + xx * (1 + xx)) ;
  let pade := (1 + xx) * pade_den in
  let dpade_dxx := - xx * (2 + xx) * (pade_den * pade_den) in
  let dpade_drs := dpade_dxx * dxx_drs in
  let dpade_dtt := dpade_dxx * dxx_dtt in
  let dpade_dzeta := dpade_dxx * dxx_dzeta in
  let coeff_qq := tt * phi_zeta_inv * phi_zeta_inv in
  let qq := coeff_qq * pade in
  let dqq_drs := coeff_qq * dpade_drs in
  let dqq_dtt := pade * phi_zeta_inv * phi_zeta_inv + coeff_qq * dpade_dtt in
  let dqq_dzeta := coeff_qq * (dpade_dzeta - 2 * pade * phi_logder) in
  let arg_rr := 1 + beta * gamma_inv * qq in
  do div_rr <- cdiv 1 arg_rr ;
  do lrr <- clog arg_rr ;
  let rr := gamma * lrr in
  let drr_dqq := beta * div_rr in
  let drr_drs := drr_dqq * dqq_drs in
  let drr_dtt := drr_dqq * dqq_dtt in
  let drr_dzeta := drr_dqq * dqq_dzeta in
  let hh := phi3_zeta * rr in
  let dhh_drs := phi3_zeta * drr_drs in
  let dhh_dtt := phi3_zeta * drr_dtt in
  let dhh_dzeta := phi3_zeta * (drr_dzeta + 3 * rr * phi_logder) in
  let drhohh_drho := hh - third * rs * dhh_drs - zeta * dhh_dzeta - 7 / 3 * tt * dhh_dtt in
  Ok (ecrs + hh, (l_up l + (drhohh_drho + dhh_dzeta), l_dn l + (drhohh_drho - dhh_dzeta)), rho * dtt_dg * dhh_dtt).
