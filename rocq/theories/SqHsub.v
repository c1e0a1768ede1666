(** Model of the nodal Hamiltonian of the SQ method, [HsubTimesVec] of
    src/linearScaling/sq.c:338-352 with [Lap_vec_mult_orth_SQ] (365-421), the
    stencil kernel (526-569, and 596-652, its copy for radius 6) and
    [Vnl_vec_mult_SQ] (src/linearScaling/sqNlocVecRoutines.c:197-250).

    Simplifications: [double] is a real; the Fock term (sq.c:348-351) is left
    out, i.e. usefock is 0 or odd; the atoms of all types are one list.  Loads
    and stores outside of an array are [UB]. *)
From Coq Require Import ZArith Reals List Lia Bool.
From Verif Require Import CBase Nloc VnlOp SqGauss.
Import ListNotations.
Local Open Scope R_scope.

(** Load and store with the bounds of the array. *)
Definition ldr (n : Z) (a : vec) (i : Z) : outcome R := if ((0 <=? i) && (i <? n))%Z then Ok (a i) else UB.
Definition str (n : Z) (a : vec) (e : Z * R) : outcome vec :=
  if ((0 <=? fst e) && (fst e <? n))%Z then Ok (upd a (fst e) (snd e)) else UB.

(** Sizes and coefficients: Nx_loc, Ny_loc, Nz_loc; FDn = order/2; DMnx_SQ,
    DMny_SQ, DMnz_SQ; nloc[0..2]; D2_stencil_coeffs_x/y/z; Veff_PR.  See
    sqInitialization.c:48-75. *)
Record cfg := mkCfg { c_nx : Z; c_ny : Z; c_nz : Z; c_fd : Z; c_dmx : Z; c_dmy : Z; c_dmz : Z;
  c_cx : vec; c_cy : vec; c_cz : vec; c_veff : vec }.

(** An atom of [Atom_Influence_nloc_SQ[nd]]: grid_pos (its length is ndc), Chi
    by row and projector, and the entries of Gamma by projector
    ([psd.Gamma[ldispl+np]] in the order of [count]). *)
Record natom := mkNatom { a_pos : list Z; a_chi : Z -> Z -> R; a_gam : list R }.

(** The order of the Gamma entries over the projectors of a type,
    sqNlocVecRoutines.c:224-240: [ppl] from l on, [ld] = ldispl. *)
Fixpoint gammas (l ld lloc : Z) (ppl : list Z) (gam : vec) : list R :=
  match ppl with
  | [] => []
  | p :: r =>
      (if (l =? lloc)%Z then []
       else flat_map (fun np => map (fun _ => gam (ld + np)%Z) (zrange (- l) l)) (zrange 0 (p - 1)))
      ++ gammas (l + 1) (ld + p) lloc r gam
  end.

Section Hsub.
Variable c : cfg.
Variable atoms : list natom.
Variable dV : R.
Variable nd : Z.           (* node of the process domain *)

Definition Nd_loc : Z := (c_nx c * c_ny c * c_nz c)%Z.
Definition Nx_ex : Z := (c_nx c + 2 * c_fd c)%Z.
Definition Ny_ex : Z := (c_ny c + 2 * c_fd c)%Z.
Definition Nz_ex : Z := (c_nz c + 2 * c_fd c)%Z.
Definition Nd_ex : Z := (Nx_ex * Ny_ex * Nz_ex)%Z.
(** DMnx_PR = DMnx_SQ + 2 nloc[0], and Nx_loc = 1 + 2 nloc[0]. *)
Definition PRx : Z := (c_dmx c + (c_nx c - 1))%Z.
Definition PRy : Z := (c_dmy c + (c_ny c - 1))%Z.
Definition PRz : Z := (c_dmz c + (c_nz c - 1))%Z.
Definition Nd_PR : Z := (PRx * PRy * PRz)%Z.

(** The three nested loops: k outermost, i innermost. *)
Definition box (x0 x1 y0 y1 z0 z1 : Z) : list (Z * Z * Z) :=
  flat_map (fun k => flat_map (fun j => map (fun i => (i, j, k)) (zrange x0 x1)) (zrange y0 y1)) (zrange z0 z1).

(** [restrict_to_subgrid] as called at sq.c:404-407 (tools.c:2871-2904 with
    x_i_spos = 0 and x_o_spos = FDn). *)
Definition extend (x xex : vec) : outcome vec :=
  let F := c_fd c in
  ofold (fun a t => let '(i, j, k) := t in
      do v <- ldr Nd_loc x ((k - F) * (c_nx c * c_ny c) + (j - F) * c_nx c + (i - F)) ;
      str Nd_ex a ((k * (Nx_ex * Ny_ex) + j * Nx_ex + i)%Z, v))
    xex (box F (c_nx c + F - 1) F (c_ny c + F - 1) F (c_nz c + F - 1)).

(** Weights, sq.c:385-399: the Laplacian scaled by [a]. *)
Definition wts (a : R) (p q : Z) : R :=
  (if (q =? 0)%Z then c_cx c p else if (q =? 1)%Z then c_cy c p else c_cz c p) * a.

(** One value of the kernel, sq.c:543-565; (is, js, ks) = (i, j, k) of
    Lap_vec_mult_orth_SQ. *)
Definition kernel (a : R) (xex : vec) (is js ks : Z) (t : Z * Z * Z) : outcome R :=
  let '(i, j, k) := t in
  let F := c_fd c in
  let sy := Nx_ex in let sz := (Nx_ex * Ny_ex)%Z in
  let ie := ((k + F) * sz + (j + F) * sy + (i + F))%Z in
  let iv := ((k + ks) * (PRx * PRy) + (j + js) * PRx + (i + is))%Z in
  do x0 <- ldr Nd_ex xex ie ;
  do res <- ofold (fun s r =>
      do xm <- ldr Nd_ex xex (ie - r) ; do xp <- ldr Nd_ex xex (ie + r) ;
      do ym <- ldr Nd_ex xex (ie - r * sy) ; do yp <- ldr Nd_ex xex (ie + r * sy) ;
      do zm <- ldr Nd_ex xex (ie - r * sz) ; do zp <- ldr Nd_ex xex (ie + r * sz) ;
      Ok (s + ((xm + xp) * wts a r 0 + (ym + yp) * wts a r 1 + (zm + zp) * wts a r 2)))
    ((wts a 0 0 + wts a 0 1 + wts a 0 2) * x0) (zrange 1 F) ;
  do v <- ldr Nd_PR (c_veff c) iv ;
  Ok (res + 1 * (v * x0)).

(** [Lap_vec_mult_orth_SQ], sq.c:365-421, with the node indices of 381-383. *)
Definition lap_sq (a : R) (x xex y0 : vec) : outcome (vec * vec) :=
  do ks <- c_div nd (c_dmx c * c_dmy c) ;
  do js <- c_div (nd - ks * (c_dmx c * c_dmy c)) (c_dmx c) ;
  do is <- c_mod nd (c_dmx c) ;
  do e <- extend x xex ;
  do y <- ofold (fun y t => do v <- kernel a e is js ks t ;
      str Nd_loc y (let '(i, j, k) := t in (k * (c_nx c * c_ny c) + j * c_nx c + i)%Z, v))
    y0 (box 0 (c_nx c - 1) 0 (c_ny c - 1) 0 (c_nz c - 1)) ;
  Ok (y, e).

(** One atom of [Vnl_vec_mult_SQ], sqNlocVecRoutines.c:210-247; both
    [cblas_dgemv] are sums. *)
Definition vnl_atom (x : vec) (h : vec) (A : natom) : outcome vec :=
  do xr <- omap (ldr Nd_loc x) (a_pos A) ;
  let ndc := Z.of_nat (length (a_pos A)) in
  let nproj := Z.of_nat (length (a_gam A)) in
  let get (l : list R) (i : Z) := nth (Z.to_nat i) l 0 in
  let alpha p := dV * rsum (map (fun i => a_chi A i p * get xr i) (zrange 0 (ndc - 1))) in
  let alpha' p := alpha p * get (a_gam A) p in
  let xo i := rsum (map (fun p => a_chi A i p * alpha' p) (zrange 0 (nproj - 1))) in
  ofold (fun h i => do g <- ld (a_pos A) i ; do v <- ldr Nd_loc h g ; str Nd_loc h (g, v + xo i)) h (zrange 0 (ndc - 1)).

(** [HsubTimesVec], sq.c:338-347; [xex] is pSQ->x_ex, [y0] what Hx held. *)
Definition hsub (x xex y0 : vec) : outcome (vec * vec) :=
  do r <- lap_sq (- / 2) x xex y0 ;
  do h <- ofold (vnl_atom x) (fst r) atoms ;
  Ok (h, snd r).

(** The operator of the Lanczos process: the product with x_ex as the memset of
    sqInitialization.c:78 left it. *)
Definition Hsub (x : vec) : vec :=
  match hsub x (fun _ => 0) (fun _ => 0) with Ok r => fst r | _ => fun _ => 0 end.
End Hsub.
