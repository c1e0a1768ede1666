(** Exchange-correlation of a spin-unpolarised density at one grid point (exchangeCorrelation.c).

    Simplifications, for the whole file: arithmetic is exact real arithmetic; the loops over the DMnd grid points
    treat each point on its own, so a function is modelled by what it does to one point, with the arrays rho[i] and
    sigma[i] passed as numbers. A call of log, sqrt or pow outside its domain and a division by zero give NaN or an
    infinity in C; here they are the outcome [UB]. *)
From Coq Require Import Reals ZArith Bool Lra.
From Verif Require Import CBase.
Local Open Scope R_scope.

(** The libm calls and the division used by exchangeCorrelation.c:459-750. pow(x,y) is only called there with a
    fractional exponent y; squares and cubes written pow(x,2.0) are modelled as products. *)
Definition cdiv (a b : R) : outcome R := if Req_EM_T b 0 then UB else Ok (a / b).
Definition clog (x : R) : outcome R := if Rlt_dec 0 x then Ok (ln x) else UB.
Definition csqrt (x : R) : outcome R := if Rle_dec 0 x then Ok (sqrt x) else UB.
Definition cpow (x y : R) : outcome R := if Rlt_dec 0 x then Ok (Rpower x y) else UB.
(** cbrt is defined everywhere. *)
Definition cbrt (x : R) : R :=
  if Req_EM_T x 0 then 0 else if Rlt_dec 0 x then Rpower x (1 / 3) else - Rpower (- x) (1 / 3).

(** slater (exchangeCorrelation.c:459-469): (ex, vx). *)
Definition C2 : R := 738558766382022 / 1000000000000000.
Definition C3 : R := 9847450218426965 / 10000000000000000.
Definition slater (rho : R) : outcome (R * R) :=
  let rho_cbrt := cbrt rho in Ok (- C2 * rho_cbrt, - C3 * rho_cbrt).

(** pw (exchangeCorrelation.c:475-499): (ec, vc). rs_pow_p is rs and rs_pow_pplus1 is rs*rs, p being 1. *)
Definition C31 : R := 6203504908993999 / 10000000000000000.
Definition pw (rho : R) : outcome (R * R) :=
  let p := 1 in
  let A := 31091 / 1000000 in
  let alpha1 := 21370 / 100000 in
  let beta1 := 75957 / 10000 in
  let beta2 := 35876 / 10000 in
  let beta3 := 16382 / 10000 in
  let beta4 := 49294 / 100000 in
  let rho_cbrt := cbrt rho in
  do rs <- cdiv C31 rho_cbrt ;
  do rs_sqrt <- csqrt rs ;
  let rs_pow_1p5 := rs * rs_sqrt in
  let rs_pow_p := rs in
  let rs_pow_pplus1 := rs_pow_p * rs in
  do G1a <- cdiv 1 (2 * A * (beta1 * rs_sqrt + beta2 * rs + beta3 * rs_pow_1p5 + beta4 * rs_pow_pplus1)) ;
  do G1 <- clog (1 + G1a) ;
  let G2 := 2 * A * (beta1 * rs_sqrt + beta2 * rs + beta3 * rs_pow_1p5 + beta4 * rs_pow_pplus1) in
  let ec := -2 * A * (1 + alpha1 * rs) * G1 in
  do b <- cdiv beta1 rs_sqrt ;
  do q <- cdiv (2 * A * (1 + alpha1 * rs)
                * (A * (b + 2 * beta2 + 3 * beta3 * rs_sqrt + 2 * (p + 1) * beta4 * rs_pow_p))) (G2 * (G2 + 1)) ;
  Ok (ec, ec - rs / 3 * (-2 * A * alpha1 * G1 + q)).

(** pz (exchangeCorrelation.c:505-530): (ec, vc). *)
Definition pz (rho : R) : outcome (R * R) :=
  let A := 311 / 10000 in
  let B := - (48 / 1000) in
  let C := 2 / 1000 in
  let D := - (116 / 10000) in
  let gamma1 := - (1423 / 10000) in
  let beta1 := 10529 / 10000 in
  let beta2 := 3334 / 10000 in
  let rho_cbrt := cbrt rho in
  do rs <- cdiv C31 rho_cbrt ;
  if Rlt_dec rs 1 then
    do l <- clog rs ;
    Ok (A * l + B + C * rs * l + D * rs,
        l * (A + 2 / 3 * C * rs) + (B - 1 / 3 * A) + 1 / 3 * (2 * D - C) * rs)
  else
    do sqrtrs <- csqrt rs ;
    do ec <- cdiv gamma1 (1 + beta1 * sqrtrs + beta2 * rs) ;
    do vc <- cdiv (gamma1 + 7 / 6 * gamma1 * beta1 * sqrtrs + 4 / 3 * gamma1 * beta2 * rs)
                  ((1 + beta1 * sqrtrs + beta2 * rs) * (1 + beta1 * sqrtrs + beta2 * rs)) ;
    Ok (ec, vc).

(** Tables mu_ and kappa_ (exchangeCorrelation.c:542-543): iflag 1 PBE, 2 PBEsol, 3 RPBE, 4 Zhang-Yang. *)
Definition mu_ (iflag : Z) : R := if (iflag =? 2)%Z then 10 / 81 else 2195149727645171 / 10000000000000000.
Definition kappa_ (iflag : Z) : R := if (iflag =? 4)%Z then 1245 / 1000 else 804 / 1000.
Definition threefourth_divpi : R := 3 / 4 / PI.
Definition sixpi2_1_3 : R := Rpower (6 * PI * PI) (1 / 3).

(** The enhancement factor (exchangeCorrelation.c:567-575): (divss, dfxdss). *)
Definition enhance (iflag : Z) (ss : R) : outcome (R * R) :=
  let kappa := kappa_ iflag in let mu := mu_ iflag in
  let mu_divkappa := mu / kappa in
  if (iflag =? 3)%Z then
    let divss := exp (- mu_divkappa * ss) in Ok (divss, mu * divss)
  else
    do divss <- cdiv 1 (1 + mu_divkappa * ss) ;
    Ok (divss, mu * (divss * divss)).

(** pbex (exchangeCorrelation.c:540-586): (ex, vx, v2x). A failed assert aborts. *)
Definition pbex (iflag : Z) (rho sigma : R) : outcome (R * R * R) :=
  if (iflag <? 1)%Z || (4 <? iflag)%Z then Exit else
  let kappa := kappa_ iflag in
  let sixpi2m1_3 := 1 / sixpi2_1_3 in
  let rho_updn := rho / 2 in
  do rhomot <- cpow rho_updn (- (1 / 3)) ;
  let ex_lsd := - threefourth_divpi * sixpi2_1_3 * (rhomot * rhomot * rho_updn) in
  let rho_inv := rhomot * rhomot * rhomot in
  let coeffss := 1 / 4 * sixpi2m1_3 * sixpi2m1_3 * (rho_inv * rho_inv * rhomot * rhomot) in
  let ss := sigma / 4 * coeffss in
  do p <- enhance iflag ss ;
  let divss := fst p in let dfxdss := snd p in
  let fx := 1 + kappa * (1 - divss) in
  let dssdn := - (8 / 3) * (ss * rho_inv) in
  let dfxdn := dfxdss * dssdn in
  let dssdg := 2 * coeffss in
  let dfxdg := dfxdss * dssdg in
  Ok (ex_lsd * fx, ex_lsd * (4 / 3 * fx + rho_updn * dfxdn), 1 / 2 * ex_lsd * rho_updn * dfxdg).

(** rPW86x (exchangeCorrelation.c:591-616): ((ex, vx, v2x), sigma), the array sigma being overwritten by its
    clamped value. *)
Definition sigma_floor : R := 1 / 100000000000000.
Definition rPW86x (rho sigma0 : R) : outcome (R * R * R * R) :=
  let a := 1851 / 1000 in
  let b := 1733 / 100 in
  let c := 163 / 1000 in
  let s_prefactor := 618733545256027 / 100000000000000 in
  let Ax := - (738558766382022 / 1000000000000000) in
  let four_thirds := 4 / 3 in
  let sigma := if Rlt_dec sigma0 sigma_floor then sigma_floor else sigma0 in
  do grad_rho <- csqrt sigma ;
  do r43 <- cpow rho four_thirds ;
  do s <- cdiv grad_rho (s_prefactor * r43) ;
  let s_2 := s * s in let s_3 := s_2 * s in let s_4 := s_3 * s in let s_5 := s_3 * s_2 in let s_6 := s_5 * s in
  do fs <- cpow (1 + a * s_2 + b * s_4 + c * s_6) (1 / 15) ;
  do r13 <- cpow rho (1 / 3) ;
  let ex := Ax * r13 * fs in
  do i14 <- cdiv 1 (15 * fs ^ 14) ;
  let df_ds := i14 * (2 * a * s + 4 * b * s_3 + 6 * c * s_5) in
  do gr <- cdiv grad_rho (s_prefactor * rho) ;
  let vx := Ax * four_thirds * (r13 * fs - gr * df_ds) in
  do v2x <- cdiv (Ax * df_ds) (s_prefactor * grad_rho) ;
  Ok (ex, vx, v2x, sigma).

(** Constants of pbec and of the spin functions (exchangeCorrelation.c:628, 632-645). *)
Definition beta_ (iflag : Z) : R := if (iflag =? 2)%Z then 46 / 1000 else 66725 / 1000000.
Definition gamma : R := (1 - ln 2) / (PI * PI).
Definition rsfac : R := 6203504908994000 / 10000000000000000.
Definition coeff_tt : R := 1 / (16 / PI * Rpower (3 * PI * PI) (1 / 3)).

(** Formulas A6-A8 of PW92LSD, with the constants of one of the three fits: (ecrs, decrs_drs)
    (exchangeCorrelation.c:663-670; the same lines with other constants and names at 823-844 and 1028-1050). *)
Definition pw92 (aa a1 b1 b2 b3 b4 rs sqr_rs rsm1_2 : R) : outcome (R * R) :=
  let q0 := -2 * aa * (1 + a1 * rs) in
  let q1 := 2 * aa * (b1 * sqr_rs + b2 * rs + b3 * rs * sqr_rs + b4 * rs * rs) in
  let q1p := aa * (b1 * rsm1_2 + 2 * b2 + 3 * b3 * sqr_rs + 4 * b4 * rs) in
  do den <- cdiv 1 (q1 * q1 + q1) ;
  do l <- clog (q1 * q1 * den) ;
  let elog := - l in
  Ok (q0 * elog, -2 * aa * a1 * elog - q0 * q1p * den).
Definition pw92_0 : R -> R -> R -> outcome (R * R) :=
  pw92 (31091 / 1000000) (21370 / 100000) (75957 / 10000) (35876 / 10000) (16382 / 10000) (49294 / 100000).

(** pbec (exchangeCorrelation.c:626-751): (ec, vc, v2c). *)
Definition pbec (iflag : Z) (rho sigma : R) : outcome (R * R * R) :=
  if (iflag <? 1)%Z || (3 <? iflag)%Z then Exit else
  let beta := beta_ iflag in
  let gamma_inv := 1 / gamma in
  let phi_zeta_inv := 1 in
  let phi3_zeta := 1 in
  let gamphi3inv := gamma_inv in
  let third := 1 / 3 in
  let twom1_3 := Rpower 2 (- third) in
  let sq_rsfac := sqrt rsfac in
  let sq_rsfac_inv := 1 / sq_rsfac in
  let rho_updn := rho / 2 in
  do rho_updnm1_3 <- cpow rho_updn (- third) ;
  let rhom1_3 := twom1_3 * rho_updnm1_3 in
  let rhotot_inv := rhom1_3 * rhom1_3 * rhom1_3 in
  do rhotmo6 <- csqrt rhom1_3 ;
  let rhoto6 := rho * rhom1_3 * rhom1_3 * rhotmo6 in
  let rs := rsfac * rhom1_3 in
  let sqr_rs := sq_rsfac * rhotmo6 in
  let rsm1_2 := sq_rsfac_inv * rhoto6 in
  do p <- pw92_0 rs sqr_rs rsm1_2 ;
  let ecrs := fst p in let decrs_drs := snd p in
  let ec0 := ecrs in
  let vc0 := ecrs - rs / 3 * decrs_drs in
  let bb := ecrs * gamphi3inv in
  let dbb_drs := decrs_drs * gamphi3inv in
  let exp_pbe := exp (- bb) in
  do cc <- cdiv 1 (exp_pbe - 1) ;
  let dcc_dbb := cc * cc * exp_pbe in
  let dcc_drs := dcc_dbb * dbb_drs in
  let coeff_aa := beta * gamma_inv * phi_zeta_inv * phi_zeta_inv in
  let aa := coeff_aa * cc in
  let daa_drs := coeff_aa * dcc_drs in
  let grrho2 := sigma in
  let dtt_dg := 2 * rhotot_inv * rhotot_inv * rhom1_3 * coeff_tt in
  let tt := 1 / 2 * grrho2 * dtt_dg in
  let xx := aa * tt in
  let dxx_drs := daa_drs * tt in
  let dxx_dtt := aa in
  do pade_den <- cdiv 1 (1 + xx * (1 + xx)) ;
  let pade := (1 + xx) * pade_den in
  let dpade_dxx := - xx * (2 + xx) * (pade_den * pade_den) in
  let dpade_drs := dpade_dxx * dxx_drs in
  let dpade_dtt := dpade_dxx * dxx_dtt in
  let coeff_qq := tt * phi_zeta_inv * phi_zeta_inv in
  let qq := coeff_qq * pade in
  let dqq_drs := coeff_qq * dpade_drs in
  let dqq_dtt := pade * phi_zeta_inv * phi_zeta_inv + coeff_qq * dpade_dtt in
  let arg_rr := 1 + beta * gamma_inv * qq in
  do div_rr <- cdiv 1 arg_rr ;
  do lrr <- clog arg_rr ;
  let rr := gamma * lrr in
  let drr_dqq := beta * div_rr in
  let drr_drs := drr_dqq * dqq_drs in
  let drr_dtt := drr_dqq * dqq_dtt in
  let hh := phi3_zeta * rr in
  let dhh_drs := phi3_zeta * drr_drs in
  let dhh_dtt := phi3_zeta * drr_dtt in
  let drhohh_drho := hh - third * rs * dhh_drs - 7 / 3 * tt * dhh_dtt in
  Ok (ec0 + hh, vc0 + drhohh_drho, rho * dtt_dg * dhh_dtt).
