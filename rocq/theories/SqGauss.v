(** Model of the Gauss spectral quadrature of the SQ method:
    src/linearScaling/sq.c (Lanczos process of 122-207, implicit QL solver of
    the tridiagonal eigenproblem of 219-325), the sums over nodes and weights
    of src/linearScaling/sqDensity.c:114-200 and
    src/linearScaling/sqEnergy.c:63-160.

    [double] is read as an exact real.  A vector divided by zero (NaN in the
    C) is the distinct value [None], and using such a vector is [UB].  Writing
    past the end of [lanczos_vec] is [UB]; the [exit(1)] of the solver is
    [Exit].  The operator [HsubTimesVec] is a parameter here and is modelled in
    SqHsub.v. *)
From Coq Require Import ZArith Reals List Lia Bool.
From Verif Require Import CBase Nloc VnlOp.
Import ListNotations.
Local Open Scope R_scope.

Notation rsum := (ksum 0 Rplus).

(** A C array of doubles by index; [upd] is [a[i] = x]. *)
Definition vec := Z -> R.
Definition upd (a : vec) (i : Z) (x : R) : vec := fun j => if (j =? i)%Z then x else a j.

(** [VectorDotProduct] / [Vector2Norm] on MPI_COMM_SELF, src/tools.c:
    sum over the [N] entries. *)
Definition vdot (N : Z) (u v : vec) : R := rsum (map (fun i => u i * v i) (zrange 0 (N - 1))).
Definition norm2 (N : Z) (u : vec) : R := sqrt (vdot N u u).

(** [x[i] / val] for all entries, sq.c:142, 165, 187: NaN when [val == 0]. *)
Definition vdiv (v : vec) (x : R) : option vec :=
  if Req_EM_T x 0 then None else Some (fun i => v i / x).
(** Use of a vector as an operand: a NaN vector has no meaning. *)
Definition use (v : option vec) : outcome vec := match v with Some x => Ok x | None => UB end.

(** [lanczos_vec[le_count++] = x[i]], sq.c:143, 169, 192: the array holds
    [SQ_npl_g] vectors (sqInitialization.c:103). *)
Definition put (npl : Z) (vs : list vec) (v : vec) : outcome (list vec) :=
  if (Z.of_nat (length vs) <? npl)%Z then Ok (vs ++ [v]) else UB.

(** Variables of [LanczosAlgorithm_gauss] at the head of the loop. *)
Record lz := mkLz { l_km1 : vec; l_vk : option vec; l_aa : vec; l_bb : vec; l_vs : list vec }.

Section Lanczos.
Variable H : vec -> vec.   (* HsubTimesVec(pSPARC, x, nd, Hx), sq.c:338-352 *)
Variable N : Z.            (* Nd_loc *)
Variable npl : Z.          (* SQ_npl_g *)

(** Part before the loop, sq.c:136-170. *)
Definition lz_init (t0 : vec) : outcome lz :=
  do v0 <- use (vdiv t0 (norm2 N t0)) ;
  do vs <- put npl [] v0 ;
  let vk := H v0 in
  let a0 := vdot N v0 vk in
  let w : vec := fun i => vk i - a0 * v0 i in
  let b0 := norm2 N w in
  let v1 := vdiv w b0 in
  do v1' <- use v1 ;
  do vs2 <- put npl vs v1' ;
  Ok (mkLz v0 v1 (upd (fun _ => 0) 0 a0) (upd (fun _ => 0) 0 b0) vs2).

(** One turn of the loop [while (count < SQ_npl_g - 1)], sq.c:174-197. *)
Definition lz_step (st : lz) (count : Z) : outcome lz :=
  do vk <- use (l_vk st) ;
  let hv := H vk in
  let a := vdot N vk hv in
  let aa := upd (l_aa st) (count + 1) a in
  let w : vec := fun i => hv i - aa (count + 1)%Z * vk i - l_bb st count * l_km1 st i in
  let b := norm2 N w in
  let bb := upd (l_bb st) (count + 1) b in
  let v := vdiv w b in
  do vs <- (if (count =? npl - 2)%Z then Ok (l_vs st) else (do v' <- use v ; put npl (l_vs st) v')) ;
  Ok (mkLz vk v aa bb vs).

(** [LanczosAlgorithm_gauss] up to the call of the solver, sq.c:122-198. *)
Definition lanczos (t0 : vec) : outcome lz :=
  do st <- lz_init t0 ; ofold lz_step st (zrange 0 (npl - 2)).
End Lanczos.

(** Variables of [TridiagEigenSolve_gauss], sq.c:220-221. *)
Record ql := mkQl { q_d : vec; q_e : vec; q_z : Z -> Z -> R }.

(** The search for a negligible subdiagonal element, sq.c:253-256:
    [fabs(e[m]) + dd == dd]. *)
Fixpoint find_m (k : nat) (m : Z) (d e : vec) : Z :=
  match k with
  | O => m
  | S k' =>
      let dd := Rabs (d m) + Rabs (d (m + 1)%Z) in
      if Req_EM_T (Rabs (e m) + dd) dd then m else find_m k' (m + 1) d e
  end.

(** [SIGN(a,b)], sq.c:41. *)
Definition sgn (a b : R) : R := if Rle_dec 0 b then Rabs a else - Rabs a.

(** Rotation of the columns i, i+1 of one row of [z], sq.c:283-287. *)
Definition rot (i : Z) (c s : R) (v : vec) : vec :=
  fun j => if (j =? i + 1)%Z then s * v i + c * v (i + 1)%Z
           else if (j =? i)%Z then c * v i - s * v (i + 1)%Z else v j.

(** Variables of the sweep [for (i = m-1; i >= l; i--)]. *)
Record sw := mkSw { w_d : vec; w_e : vec; w_z : Z -> Z -> R; w_g : R; w_s : R; w_c : R; w_p : R }.

(** The sweep, sq.c:267-288; [false] when it was left by the [break] of
    sq.c:272-276. *)
Fixpoint sweep (k : nat) (i m : Z) (q : sw) : sw * bool :=
  match k with
  | O => (q, true)
  | S k' =>
      let f := w_s q * w_e q i in
      let b := w_c q * w_e q i in
      let r := sqrt (w_g q * w_g q + f * f) in
      let e := upd (w_e q) (i + 1) r in
      if Req_EM_T r 0 then
        (mkSw (upd (w_d q) (i + 1) (w_d q (i + 1)%Z - w_p q)) (upd e m 0) (w_z q) (w_g q) (w_s q) (w_c q) (w_p q), false)
      else
        let s := f / r in
        let c := w_g q / r in
        let g := w_d q (i + 1)%Z - w_p q in
        let r2 := (w_d q i - g) * s + 2 * c * b in
        let p := s * r2 in
        sweep k' (i - 1) m
          (mkSw (upd (w_d q) (i + 1) (g + p)) e (fun x => rot i c s (w_z q x)) (c * r2 - b) s c p)
  end.

(** The shift, sq.c:262-264. *)
Definition shift (d e : vec) (l m : Z) : R :=
  let g := (d (l + 1)%Z - d l) / (2 * e l) in
  let r := sqrt (g * g + 1) in
  d m - d l + e l / (g + sgn r g).

(** The [do ... while (m != l)] of one [l], sq.c:252-294; [fuel] is what is
    left of the 200 iterations. *)
Fixpoint ql_l (fuel : nat) (n l : Z) (q : ql) : outcome ql :=
  let m := find_m (Z.to_nat (n - 1 - l)) l (q_d q) (q_e q) in
  if (m =? l)%Z then Ok q else
  match fuel with
  | O => Exit
  | S f =>
      let '(w, fin) := sweep (Z.to_nat (m - l)) (m - 1) m
                         (mkSw (q_d q) (q_e q) (q_z q) (shift (q_d q) (q_e q) l m) 1 1 0) in
      if fin then
        ql_l f n l (mkQl (upd (w_d w) l (w_d w l - w_p w)) (upd (upd (w_e w) l (w_g w)) m 0) (w_z w))
      else ql_l f n l (mkQl (w_d w) (w_e w) (w_z w))
  end.

(** [TridiagEigenSolve_gauss], sq.c:219-294. *)
Definition tridiag (n : Z) (diag sub : vec) : outcome ql :=
  ofold (fun q l => ql_l 200 n l q)
    (mkQl diag (upd sub (n - 1) 0) (fun i j => if (i =? j)%Z then 1 else 0)) (zrange 0 (n - 1)).

(** [lambda_min], [lambda_max], sq.c:311-319. *)
Definition minmax (n : Z) (d : vec) : R * R :=
  fold_left (fun mm i => let '(mn, mx) := mm in
    if Rlt_dec mx (d i) then (mn, d i) else if Rlt_dec (d i) mn then (d i, mx) else mm)
    (zrange 1 (n - 1)) (d 0%Z, d 0%Z).

(** What the run for one node leaves in [gnd], [gwt], [w], [lanczos_vec],
    [mineig], [maxeig]. *)
Record gauss := mkG { g_nd : vec; g_wt : vec; g_w : vec; g_vs : list vec; g_mm : R * R }.

(** [LanczosAlgorithm_gauss] with its call of the solver, sq.c:122-207 and
    296-319; [w[count++] = z[j][i]] puts z[j][i] at j + n i. *)
Definition gauss_node (H : vec -> vec) (N npl : Z) (t0 : vec) : outcome gauss :=
  do st <- lanczos H N npl t0 ;
  do q <- tridiag npl (l_aa st) (l_bb st) ;
  Ok (mkG (q_d q) (fun i => q_z q 0%Z i * q_z q 0%Z i)
          (fun k => q_z q (k mod npl)%Z (k / npl)%Z) (l_vs st) (minmax npl (q_d q))).

(** [t0] of [GaussQuadrature], sq.c:91-95: the unit vector of the centre. *)
Definition t_unit (c : Z) : vec := upd (fun _ => 0) c 1.

(** [Calculate_elecDens_Gauss], sqDensity.c:133-140, for one node; [fn] is
    [smearing_function] at the given Beta, Efermi. *)
Definition rho_node (fn : R -> R) (occfac dV : R) (npl : Z) (g : gauss) : R :=
  occfac * rsum (map (fun j => g_wt g j * fn (g_nd g j)) (zrange 0 (npl - 1))) / dV.

(** [occ_constraint_SQ_gauss], sqEnergy.c:136-158, nodes of all processes. *)
Definition occ_constraint (fn : R -> R) (occfac poscharge : R) (npl : Z) (gs : list gauss) : R :=
  (rsum (map (fun g => rsum (map (fun j => occfac * g_wt g j * fn (g_nd g j)) (zrange 0 (npl - 1)))) gs) - poscharge) / poscharge.

(** [Calculate_Eband_SQ_Gauss], sqEnergy.c:73-82; [ub] is [UbandFunc]. *)
Definition eband (ub : R -> R) (occfac : R) (npl : Z) (gs : list gauss) : R :=
  rsum (map (fun g => occfac * rsum (map (fun j => ub (g_nd g j) * g_wt g j) (zrange 0 (npl - 1)))) gs).

(** [Gauss_density_matrix_col], sqDensity.c:174-199: entry [i] of DMcol. *)
Definition dm_col (fn : R -> R) (dV : R) (npl : Z) (g : gauss) : vec :=
  let wte1 j := g_w g (j * npl)%Z in
  let gd j := wte1 j * fn (g_nd g j) in
  let wgd k := rsum (map (fun j => g_w g (k + j * npl)%Z * gd j) (zrange 0 (npl - 1))) in
  fun i => 1 / dV * rsum (map (fun k => nth (Z.to_nat k) (g_vs g) (fun _ => 0) i * wgd k) (zrange 0 (npl - 1))).

(** [EentFunc], sqEnergy.c:173-184, of the occupation; TEMP_TOL is 1e-14
    (sqEnergy.c:35). *)
Definition Eent (f : R) : R :=
  let tol := / 100 * / 10 ^ 14 in
  if Rlt_dec (Rabs f) tol then 0 else if Rlt_dec (Rabs (f - 1)) tol then 0
  else f * ln f + (1 - f) * ln (1 - f).

(** [Calculate_electronicEntropy_SQ_Gauss], sqEnergy.c:107-117. *)
Definition entropy_sq (fn : R -> R) (occfac beta : R) (npl : Z) (gs : list gauss) : R :=
  rsum (map (fun g => occfac * rsum (map (fun j => Eent (fn (g_nd g j)) * g_wt g j) (zrange 0 (npl - 1))) / beta) gs).

(** Input as far as the checks of the SQ method read it, initialization.c:2802-2862:
    the flags of both SQ methods, BCx, BCy, BCz, cell_typ, isGammaPoint,
    spin_typ, usefock, NSTATES, SOC_Flag, ixc[2], SQ_rcut < 0, SQ_npl_g,
    PrintEigenFlag. *)
Record sqin := mkSqin { i_amb : bool; i_high : bool; i_bc : bool * bool * bool; i_cell : Z; i_gamma : bool; i_spin : Z;
  i_fock : bool; i_nstates : Z; i_soc : bool; i_mgga : bool; i_rneg : bool; i_npl : Z; i_peig : Z }.

(** initialization.c:2802-2862, and 2907-2913 for non-collinear spin; [Ok tt]
    when the run goes on. *)
Definition sq_check (x : sqin) : outcome unit :=
  if negb (i_amb x || i_high x) then Ok tt else
  let '(bx, by_, bz) := i_bc x in
  if i_amb x && i_high x then Exit else
  if bx || by_ || bz then Exit else
  if negb (i_cell x =? 0)%Z then Exit else
  if negb (i_gamma x) && (i_spin x =? 2)%Z then Exit else
  if (i_spin x =? 1)%Z && i_fock x then Exit else
  if (i_spin x =? 1)%Z && i_high x then Exit else
  if negb (i_nstates x =? -1)%Z then Exit else
  if i_soc x || i_mgga x then Exit else
  if i_rneg x then Exit else
  if (i_npl x <=? 0)%Z then Exit else
  if (0 <? i_peig x)%Z then Exit else
  if (i_spin x =? 2)%Z then Exit else Ok tt.
