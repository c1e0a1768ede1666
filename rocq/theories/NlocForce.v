(** Model of the nonlocal forces: /repo/src/forces.c:750-844
    ([Calculate_nonlocal_forces_linear]), 849-921 (the integrals), 926-989
    ([Compute_force_nloc_by_integrals]) and their k-point versions 995-1159,
    1167-1231, 1240-1305, 1313-1392 (option "SC" only: no spin-orbit terms, no
    helical cells).

    Numbers are elements of a commutative ring (reals at the Gamma point,
    complex numbers otherwise; the forces of the k-point version are real,
    here ring elements as well); rounding is ignored.  The derivatives [Yorb]
    of the orbitals are an input. *)
From Coq Require Import ZArith QArith List Bool.
From Verif Require Import CBase Nloc VnlOp.
Import ListNotations.
Local Open Scope Z_scope.

(** [Nd_d_dmcomm] *)
Definition ndd (D : dom) : Z := DMnx D * DMny D * (ze_ D - zs_ D + 1).

(** [x + off] (pointer arithmetic: forces.c:869, 905, 1205, 1278). *)
Definition from {K} (x : arr K) (off : Z) : arr K := Arr (sz x - off) (fun i => at_ x (off + i)).

(** The block written by one call: [b] at offset [off] of the zeroed array
    (forces.c:770, 797, 875-877, 911-913). *)
Definition put {K} (a : arr K) (off : Z) (b : arr K) : outcome (arr K) :=
  if (0 <=? off) && (off + sz b <=? sz a) then
    Ok (Arr (sz a) (fun i => if (off <=? i) && (i <? off + sz b) then at_ b (i - off) else at_ a i))
  else UB.

(** A k-point of a process: the factor [bloch_fac] of an image in the first
    and in the second integral (forces.c:1199, 1273; both 1 at the Gamma
    point), and [kptWts_loc[k] / Nkpts] (1333; 1 at the Gamma point). *)
Record kp (K : Type) := Kp { kp_a : Q * Q * Q -> K; kp_b : Q * Q * Q -> K; kp_wt : K }.
Arguments Kp {K} _ _ _.
Arguments kp_a {K} _ _.
Arguments kp_b {K} _ _.
Arguments kp_wt {K} _.

(** A process of a domain communicator: box, influence list, [Xorb], and
    [Yorb] for a direction and k-point. *)
Record fproc (K : Type) := FProc { f_dom : dom; f_inf : list (list entry);
  f_x : arr K; f_y : Z -> Z -> arr K }.
Arguments FProc {K} _ _ _ _.
Arguments f_dom {K} _.
Arguments f_inf {K} _.
Arguments f_x {K} _.
Arguments f_y {K} _ _ _.

(** A domain communicator: its k-points, [Nspinor_spincomm], [Nstates],
    [band_start_indx], [Nband_bandcomm], [occ], its processes. *)
Record grp (K : Type) := Grp { g_kp : list (kp K); g_nsp : Z; g_ns : Z; g_start : Z; g_ncol : Z;
  g_occ : list K; g_prs : list (fproc K) }.
Arguments Grp {K} _ _ _ _ _ _ _.
Arguments g_kp {K} _.
Arguments g_nsp {K} _.
Arguments g_ns {K} _.
Arguments g_start {K} _.
Arguments g_ncol {K} _.
Arguments g_occ {K} _.
Arguments g_prs {K} _.

(** [Nkpts_kptcomm] *)
Definition nk {K} (g : grp K) : Z := Z.of_nat (length (g_kp g)).

Section FORCE.
Context {K : Type} (zero one : K) (add mul sub : K -> K -> K).
(** Projectors, [Gamma], [dV], [occfac] *)
Variable chi : nat -> Z * Z * Z -> Q * Q * Q -> K.
Variable gamma : nat -> list K.
Variables dV occfac : K.
(** [conj] and [creal] of the k-point version. *)
Variables cj re : K -> K.
(** Gamma-point version (real orbitals) or k-point version. *)
Variable gam : bool.
(** [spin_typ] *)
Variable spin_typ : Z.
Variable c : cell.
(** The types (nAtomv, pseudopotential). *)
Variable ts : list (Z * psp).

Definition ipd : list Z := 0 :: ip_displ 0 ts.
Definition natom : Z := zsum (map fst ts).

(** [conj] of the gathered values (forces.c:1208; not taken at 872). *)
Definition conj_arr (x : arr K) : arr K := if gam then x else Arr (sz x) (fun i => cj (at_ x i)).

(** One block of integrals for part 0 (<Psi, Chi>, forces.c:849-885,
    1167-1231) or part [dim+1] (<Chi, DPsi>, 890-921, 1240-1305), k-point
    [k] and spinor [sp].  The matrix [Chi] and the products are those of the
    operator (VnlOp.v); the second integral has no [dV]. *)
Definition block (g : grp K) (pr : fproc K) (p k sp : Z) : outcome (arr K) :=
  let D := f_dom pr in
  let ldi := ndd D * g_nsp g in
  do q <- ld (g_kp g) k ;
  if p =? 0 then
    phase1 zero add mul chi (fun e => kp_a q (e_x e, e_y e, e_z e)) dV c ts ipd (g_ncol g) ldi
      (Proc D (f_inf pr) (conj_arr (from (f_x pr) (k * (ldi * g_ncol g) + sp * ndd D))) (Arr 0 (fun _ => zero)))
  else
    phase1 zero add mul chi (fun e => kp_b q (e_x e, e_y e, e_z e)) one c ts ipd (g_ncol g) ldi
      (Proc D (f_inf pr) (from (f_y pr (p - 1) k) (sp * ndd D)) (Arr 0 (fun _ => zero))).

(** All calls with their places in [alpha] (forces.c:766, 771, 786-798, 875,
    911; 1018, 1047, 1084-1096): parts, k-points, spinors. *)
Definition calls (g : grp K) : list (Z * Z * Z) :=
  flat_map (fun p => flat_map (fun k => map (fun sp => (p, k, sp)) (zrange 0 (g_nsp g - 1)))
    (zrange 0 (nk g - 1))) (zrange 0 3).

Definition place (g : grp K) (B : Z) (x : Z * Z * Z) : Z :=
  let '(p, k, sp) := x in B * g_nsp g * (nk g * p + k) + B * sp.

Definition integrals (g : grp K) (pr : fproc K) : outcome (arr K) :=
  do tot <- ld ipd natom ;
  let B := tot * g_ncol g in
  ofold (fun a x =>
    let '(p, k, sp) := x in
    do b <- block g pr p k sp ; put a (place g B x) b)
  (Arr (B * nk g * g_nsp g * 4) (fun _ => zero)) (calls g).

(** The loops over l, np, m for one band at the Gamma point (forces.c:951-974):
    [val2] for one direction and [count]; [sh] is [beta_dim - alpha]. *)
Fixpoint chan (ty : nat) (al : arr K) (sh l disp loc : Z) (ppl : list Z) (st : K * Z) : outcome (K * Z) :=
  match ppl with
  | [] => Ok st
  | n :: ppl' =>
    do st' <- (if l =? loc then Ok st else
      ofold (fun st np =>
        do v <- ofold (fun vs _ =>
            do a <- rd al (snd vs) ;
            do b <- rd al (snd vs + sh) ;
            Ok (add (fst vs) (mul a b), snd vs + 1)) (zero, snd st) (zrange (- l) l) ;
        do gv <- ld (gamma ty) (disp + np) ;
        Ok (add (fst st) (mul (fst v) gv), snd v)) st (zrange 0 (n - 1))) ;
    chan ty al sh (l + 1) (disp + n) loc ppl' st'
  end.

(** The same loops of the k-point version (forces.c:1350-1380). *)
Definition chan_kpt (ty : nat) (s : psp) (al : arr K) (sh : Z) (st : K * Z) : outcome (K * Z) :=
  ofold (fun st cl =>
    let '(l, g, m) := cl in
    do gv <- ld (gamma ty) g ;
    do a <- rd al (snd st) ;
    do b <- rd al (snd st + sh) ;
    Ok (add (fst st) (mul gv (re (mul a b))), snd st + 1)) st (cols s).

Definition band (ty : nat) (s : psp) (al : arr K) (sh cnt : Z) : outcome (K * Z) :=
  if gam then chan ty al sh 0 0 (p_loc s) (p_ppl s) (zero, cnt) else chan_kpt ty s al sh (zero, cnt).

(** [g_nk] (forces.c:945-947, 1344-1346). *)
Definition g_nk (g : grp K) (k sp n : Z) : outcome K :=
  ld (g_occ g) ((if spin_typ =? 1 then sp * nk g * g_ns g else 0) + k * g_ns g + n).

(** The loop over the bands of one atom (forces.c:943-978, 1342-1383): [fJ]
    and [count]. *)
Definition atom_val (g : grp K) (k sp : Z) (ty : nat) (s : psp) (al : arr K) (sh cnt : Z) : outcome (K * Z) :=
  ofold (fun st n =>
    do o <- g_nk g k sp n ;
    do v <- band ty s al sh (snd st) ;
    Ok (add (fst st) (mul (fst v) o), snd v)) (zero, cnt) (zrange (g_start g) (g_start g + g_ncol g - 1)).

(** The loop over types and atoms (forces.c:938-985, 1337-1389) for direction
    [dim]; the state is [force_nloc], [atom_index] and [count].  The code
    does the three directions side by side, the model one after the other. *)
Fixpoint types (g : grp K) (k sp dim : Z) (fac : K) (al : arr K) (sh : Z) (ty : nat) (tl : list (Z * psp))
    (st : arr K * Z * Z) : outcome (arr K * Z * Z) :=
  match tl with
  | [] => Ok st
  | (m, s) :: tl' =>
    do st' <- ofold (fun st _ =>
        let '(f, ai, cnt) := st in
        do v <- atom_val g k sp ty s al sh cnt ;
        do o <- rd f (ai * 3 + dim) ;
        do f' <- wr f (ai * 3 + dim) (sub o (mul fac (fst v))) ;
        Ok (f', ai + 1, snd v)) st (zrange 0 (m - 1)) ;
    types g k sp dim fac al sh (S ty) tl' st'
  end.

(** [Compute_force_nloc_by_integrals] (forces.c:926-989, 1313-1392). *)
Definition by_integrals (g : grp K) (tot : Z) (f : arr K) (al : arr K) : outcome (arr K) :=
  ofold (fun f dim =>
    do r <- ofold (fun st k =>
        do q <- ld (g_kp g) k ;
        ofold (fun st sp =>
          do r <- types g k sp dim (mul (mul occfac (add one one)) (kp_wt q)) al
            (tot * g_ncol g * nk g * g_nsp g * (dim + 1)) 0 ts (fst st, 0, snd st) ;
          let '(f', _, cnt) := r in Ok (f', cnt)) st (zrange 0 (g_nsp g - 1)))
      (f, 0) (zrange 0 (nk g - 1)) ;
    Ok (fst r)) f (zrange 0 2).

(** [MPI_Allreduce] as seen by the first process (left out for one process). *)
Definition reduce (l : list (arr K)) : arr K :=
  match l with [] => Arr 0 (fun _ => zero) | a :: _ => allreduce zero add l a end.

(** One domain communicator (forces.c:762-806). *)
Definition grp_force (g : grp K) : outcome (arr K) :=
  do tot <- ld ipd natom ;
  do als <- omap (integrals g) (g_prs g) ;
  by_integrals g tot (Arr (3 * natom) (fun _ => zero)) (reduce als).

(** All communicators, by band group, k-point group and spin group: the sums
    over spin, k-points and bands (forces.c:809-817, 1117-1129), and the
    addition to [forces] on the first process (833-837, 1153-1157). *)
Definition nonlocal_forces (gs : list (list (list (grp K)))) (forces : arr K) : outcome (arr K) :=
  do fs <- omap (omap (omap grp_force)) gs ;
  let f := reduce (map (fun l => reduce (map reduce l)) fs) in
  ofold (fun h i => do a <- rd h i ; do b <- rd f i ; wr h i (add a b)) forces (zrange 0 (3 * natom - 1)).

End FORCE.
