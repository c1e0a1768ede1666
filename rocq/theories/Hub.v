(** Model of the DFT+U operator and occupation matrix:
    /repo/src/xc/hubbard/locOrbRoutines.c:762-905 ([Vhub_vec_mult]) and 912-1072
    ([Vhub_vec_mult_kpt]), /repo/src/xc/hubbard/occupationMatrix.c:355-633
    ([Calculate_occMat]) and 640-985 ([Calculate_occMat_kpt]).

    Numbers are elements of a commutative ring with a conjugation (reals with the
    identity for the gamma-point functions, complex numbers for the others);
    rounding is ignored.  The two versions of each C function differ in the
    Bloch factors (1 at gamma), the weights of the k-points and the way the
    finished matrix is stored.  The local orbitals on the nodes of an image,
    [Orb[iat]], are an input; the loops over images are those of the nonlocal
    operator (C70), and the two matrix products with the columns are the same
    calls, so that [inner] and [scatter] of VnlOp.v are used. *)
From Coq Require Import ZArith QArith List Lia Bool.
From Verif Require Import CBase Nloc VnlOp HubInit.
Import ListNotations.
Local Open Scope Z_scope.

Section HUB.
Context {K : Type} (zero one : K) (add mul sub : K -> K -> K) (opp conj : K -> K).
Notation ksum := (ksum zero add).

(** A type: [atom_solve_flag], [nAtomv], [locProj.nproj] and [AtmU.Uval]. *)
Record otype := OT { o_solve : bool; o_nat : Z; o_np : Z; o_uval : arr K }.

(** An image in the influence list of a type with its matrix [Orb[iat]]
    (ndc rows, nproj columns, by columns). *)
Record row := Row { w_e : entry; w_orb : arr K }.

(** A process of the domain communicator: influence list by type, [x] with its
    leading dimension, [Hx] with its own. *)
Record hproc := HP { hp_rows : list (list row); hp_x : arr K; hp_ldi : Z; hp_h : arr K; hp_ldo : Z }.

(** Bloch factors of the two products (locOrbRoutines.c:953-955, 1046-1047), and
    [dV]. *)
Variables ph1 ph2 : entry -> K.
Variable dV : K.

(** Loop over the types with a correction and their images
    (locOrbRoutines.c:792-823, 876-903). *)
Fixpoint over_images (f : otype -> row -> arr K -> outcome (arr K))
    (ts : list otype) (L : list (list row)) (a : arr K) : outcome (arr K) :=
  match ts, L with
  | t :: ts', rs :: L' =>
    do a' <- (if negb (o_solve t) then Ok a else if o_np t =? 0 then Ok a
              else ofold (fun a r => f t r a) a rs) ;
    over_images f ts' L' a'
  | _, _ => Ok a
  end.

(** Loop over the types with a correction and all their atoms, with [atmcount]
    (locOrbRoutines.c:837-872, occupationMatrix.c:511-552). *)
Fixpoint over_atoms {A} (f : otype -> Z -> A -> outcome A) (ts : list otype) (J : Z) (a : A) : outcome A :=
  match ts with
  | [] => Ok a
  | t :: ts' =>
    do a' <- (if negb (o_solve t) then Ok a else if o_np t =? 0 then Ok a
              else ofold (fun a J => f t J a) a (zrange J (J + o_nat t - 1))) ;
    over_atoms f ts' (J + o_nat t) a'
  end.

Definition n_atom (ts : list otype) : Z := zsum (map o_nat ts).

(** [IP_displ_U] and [rho_mn_displ]. *)
Definition ip_displU (ts : list otype) : outcome (arr Z) :=
  displ (n_atom ts) (map (fun t => (o_solve t, o_nat t, o_np t)) ts).
Definition rho_displ (ts : list otype) : outcome (arr Z) :=
  displ (n_atom ts) (map (fun t => (o_solve t, o_nat t, o_np t * o_np t)) ts).

(** The inner products of a process (locOrbRoutines.c:772-823). *)
Definition hphase1 (ts : list otype) (ipd : arr Z) (ncol ldi : Z) (L : list (list row)) (x : arr K)
  : outcome (arr K) :=
  do tot <- displ_total (n_atom ts) ipd ;
  over_images (fun t r al =>
      do d <- rd ipd (e_atom (w_e r)) ;
      inner zero add mul (w_orb r) x ldi ncol (o_np t) (d * ncol) (mul (ph1 (w_e r)) dV) (w_e r) al)
    ts L (Arr (tot * ncol) (fun _ => zero)).

(** [pre_fac] of an atom (locOrbRoutines.c:848-864): the two passes over the
    matrix are one here. *)
Variable half : K.
Definition prefac (np : Z) (rho u : arr K) : outcome (arr K) :=
  ofold (fun pf col => ofold (fun pf row_ =>
      do r <- rd rho (np * col + row_) ;
      do v <- rd u row_ ;
      wr pf (np * col + row_) (mul (sub (if row_ =? col then half else zero) r) v))
    pf (zrange 0 (np - 1)))
  (Arr (np * np) (fun _ => zero)) (zrange 0 (np - 1)).

(** A loop that adds up. *)
Fixpoint osum (f : Z -> outcome K) (l : list Z) : outcome K :=
  match l with [] => Ok zero | i :: l' => do v <- f i ; do r <- osum f l' ; Ok (add v r) end.

(** The product with [pre_fac] for all atoms (locOrbRoutines.c:834-872);
    [rho J] is [rho_mn[J][spin]]. *)
Definition hphase2 (ts : list otype) (ipd : arr Z) (ncol : Z) (rho : Z -> arr K) (al : arr K)
  : outcome (arr K) :=
  over_atoms (fun t J out =>
    do pf <- prefac (o_np t) (rho J) (o_uval t) ;
    do d <- rd ipd J ;
    ofold (fun out n => ofold (fun out r =>
        do s <- osum (fun c => do p <- rd pf (o_np t * c + r) ;
                               do a <- rd al (d * ncol + n * o_np t + c) ; Ok (mul p a))
                     (zrange 0 (o_np t - 1)) ;
        wr out (d * ncol + n * o_np t + r) s)
      out (zrange 0 (o_np t - 1)))
    out (zrange 0 (ncol - 1)))
  ts 0 (Arr (sz al) (fun _ => zero)).

(** The second product (locOrbRoutines.c:876-903). *)
Definition hphase3 (ts : list otype) (ipd : arr Z) (ncol ldo : Z) (L : list (list row)) (be h : arr K)
  : outcome (arr K) :=
  over_images (fun t r h =>
      do d <- rd ipd (e_atom (w_e r)) ;
      scatter zero add mul (w_orb r) be ldo ncol (o_np t) (d * ncol) (ph2 (w_e r)) (w_e r) h)
    ts L h.

(** [Vhub_vec_mult] on all processes of the communicator. *)
Definition Vhub_all (ts : list otype) (ncol : Z) (rho : Z -> arr K) (prs : list hproc)
  : outcome (list (arr K)) :=
  do ipd <- ip_displU ts ;
  do als <- omap (fun pr => hphase1 ts ipd ncol (hp_ldi pr) (hp_rows pr) (hp_x pr)) prs ;
  omap (fun pa =>
    do be <- hphase2 ts ipd ncol rho (allreduce zero add als (snd pa)) ;
    hphase3 ts ipd ncol (hp_ldo (fst pa)) (hp_rows (fst pa)) be (hp_h (fst pa))) (combine prs als).

(** ** The occupation matrix *)

(** One group of processes that share k-points and bands: [Nkpts_kptcomm],
    [band_start_indx], the number of bands, the weights [kptWts_loc[k]/Nkpts]
    (1 at gamma), [occ], and for every process of its domain communicator the
    influence list, [Xorb] and the number of nodes. *)
Record ogroup := OG { og_nk : Z; og_nstart : Z; og_ncol : Z; og_w : Z -> K; og_occ : arr K;
                      og_procs : list (list (list row) * arr K * Z) }.

(** [1/sqrt(dV)]; [Nstates], [spin_typ] == 1; [Nspinor_spincomm] and the number
    [s] of the spin component in the group. *)
Variable isq : K.
Variables (Ns : Z) (pol : bool) (nsp s : Z).
(** Bloch factors depend on the k-point: the first product with k-point [k] of
    the group. *)
Variable phk : ogroup -> Z -> entry -> K.

(** [g_nk[spinor]] for the k-point [k] (occupationMatrix.c:378-389, 664-677). *)
Definition g_nk (G : ogroup) (k : Z) : outcome (arr K) :=
  do gl <- omap (fun n => do o <- rd (og_occ G) (k * Ns + (if pol then s * Ns * og_nk G else 0) + (og_nstart G + n)) ;
                          Ok (mul (og_w G k) o)) (zrange 0 (og_ncol G - 1)) ;
  Ok (Arr (og_ncol G) (fun i => nth (Z.to_nat i) gl zero)).

(** The columns of k-point [k] and spin component [s], divided by sqrt(dV)
    (occupationMatrix.c:391-424, 679-715, 482-488, 783-788).  The copy loop with
    its counter is given by the place the counter has for (k, n, i). *)
Definition cols_k (G : ogroup) (X : arr K) (dmnd k : Z) : outcome (arr K) :=
  do xs <- omap (fun n => omap (fun i =>
        do v <- rd X (((k * og_ncol G + n) * nsp + s) * dmnd + i) ; Ok (mul v isq))
      (zrange 0 (dmnd - 1))) (zrange 0 (og_ncol G - 1)) ;
  Ok (Arr (og_ncol G * dmnd) (fun j => nth (Z.to_nat j) (concat xs) zero)).

(** The block of an atom (occupationMatrix.c:529-549, 833-857): [acc] tells
    whether the product is added ([b = 1.0], k-points) or stored ([0.0],
    gamma). *)
Definition occ_atom (acc : bool) (np ncol ip rm : Z) (al g : arr K) (rho : arr K) : outcome (arr K) :=
  ofold (fun rho c => ofold (fun rho r =>
      do v <- osum (fun n =>
          do a <- rd al (ip * ncol + n * np + r) ; do w <- rd g n ;
          do b <- rd al (ip * ncol + n * np + c) ; Ok (mul (mul w a) (conj b)))
        (zrange 0 (ncol - 1)) ;
      do o <- rd rho (rm + c * np + r) ;
      wr rho (rm + c * np + r) (add v (if acc then o else zero)))
    rho (zrange 0 (np - 1)))
  rho (zrange 0 (np - 1)).

Definition occ_k (acc : bool) (ts : list otype) (ipd rmd : arr Z) (G : ogroup) (rhos : list (arr K)) (k : Z)
  : outcome (list (arr K)) :=
  do g <- g_nk G k ;
  do als <- omap (fun pr => let '(L, X, dmnd) := pr in
      do xs <- cols_k G X dmnd k ;
      do tot <- displ_total (n_atom ts) ipd ;
      over_images (fun t r al =>
        do d <- rd ipd (e_atom (w_e r)) ;
        inner zero add mul (w_orb r) xs dmnd (og_ncol G) (o_np t) (d * og_ncol G)
          (mul (phk G k (w_e r)) dV) (w_e r) al)
        ts L (Arr (tot * og_ncol G) (fun _ => zero))) (og_procs G) ;
  omap (fun ar =>
      over_atoms (fun t J rho =>
        do d <- rd ipd J ; do m <- rd rmd J ;
        occ_atom acc (o_np t) (og_ncol G) d m (allreduce zero add als (fst ar)) g rho)
      ts 0 (snd ar)) (combine als rhos).

(** The matrices of all atoms on every process of a group
    (occupationMatrix.c:355-552, 640-861). *)
Definition occ_group (acc : bool) (ts : list otype) (ipd rmd : arr Z) (G : ogroup) : outcome (list (arr K)) :=
  do tot <- displ_total (n_atom ts) rmd ;
  ofold (occ_k acc ts ipd rmd G) (map (fun _ => Arr tot (fun _ => zero)) (og_procs G))
    (zrange 0 (og_nk G - 1)).

(** The two reductions (occupationMatrix.c:554-565, 863-887): for the process
    [d] of the domain communicators, over the k-point groups (only if there are
    several), then over the band groups.  [Gs] lists, for every band group, its
    k-point groups. *)
Definition occ_reduced (acc : bool) (ts : list otype) (Gs : list (list ogroup)) (d : Z) : outcome (arr K) :=
  do ipd <- ip_displU ts ;
  do rmd <- rho_displ ts ;
  do tot <- displ_total (n_atom ts) rmd ;
  do bs <- omap (fun kgs =>
      do rs <- omap (fun G => do l <- occ_group acc ts ipd rmd G ; ld l d) kgs ;
      do r0 <- ld rs 0 ;
      Ok (allreduce zero add rs r0)) Gs ;
  Ok (Arr tot (fun i => ksum (map (fun b => at_ b i) bs))).

(** The finished matrix of an atom at gamma (occupationMatrix.c:599-612):
    [angnum] squared numbers are copied, then the entries (c, r) with r >= c are
    overwritten by (r, c). *)
Definition store_gamma (ang rm : Z) (rho : arr K) : outcome (arr K) :=
  do vs <- omap (fun i => rd rho (rm + i)) (zrange 0 (ang * ang - 1)) ;
  ofold (fun m c => ofold (fun m r => do v <- rd m (r * ang + c) ; wr m (c * ang + r) v)
      m (zrange c (ang - 1)))
    (Arr (ang * ang) (fun i => nth (Z.to_nat i) vs zero)) (zrange 0 (ang - 1)).

(** The same with k-points (occupationMatrix.c:913-938): the block is made
    Hermitian in place, then its real part is stored in the matrix of [angnum]
    squared entries. *)
Variable re : K -> K.
Definition herm (np rm : Z) (rho : arr K) : outcome (arr K) :=
  ofold (fun m c =>
    do m1 <- ofold (fun m r =>
        do a <- rd m (rm + c * np + r) ; do b <- rd m (rm + r * np + c) ;
        let avg := mul half (add a (conj b)) in
        do m' <- wr m (rm + c * np + r) avg ;
        wr m' (rm + r * np + c) (conj avg))
      m (zrange (c + 1) (np - 1)) ;
    do d <- rd m1 (rm + c * np + c) ;
    wr m1 (rm + c * np + c) (re d)) rho (zrange 0 (np - 1)).

Definition store_kpt (ang np rm : Z) (rho : arr K) : outcome (arr K) :=
  do m <- herm np rm rho ;
  ofold (fun o c => ofold (fun o r =>
      do v <- rd m (rm + c * np + r) ; wr o (c * np + r) (re v)) o (zrange 0 (np - 1)))
    (Arr (ang * ang) (fun _ => zero)) (zrange 0 (np - 1)).

End HUB.
Arguments OT {K}.
Arguments o_solve {K}.
Arguments o_nat {K}.
Arguments o_np {K}.
Arguments o_uval {K}.
Arguments Row {K}.
Arguments w_e {K}.
Arguments w_orb {K}.
Arguments HP {K}.
Arguments hp_rows {K}.
Arguments hp_x {K}.
Arguments hp_h {K}.
Arguments hp_ldi {K}.
Arguments hp_ldo {K}.
Arguments OG {K}.
Arguments og_nk {K}.
Arguments og_nstart {K}.
Arguments og_ncol {K}.
Arguments og_w {K}.
Arguments og_occ {K}.
Arguments og_procs {K}.
