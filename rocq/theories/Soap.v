(* The SOAP descriptor of the machine-learned force field and the energy and
   forces predicted from it: src/mlff/spherical_harmonics.c,
   src/mlff/soap_descriptor.c (build_soapObj, calculate_dtheta_dphi),
   src/mlff/covariance_matrix.c (kernel, zit, calculate_Kpredict) and
   src/mlff/regression.c (mlff_predict).

   Simplifications: exact reals; the literals 0.282094791773878,
   1.732050807568877 and 1.2247448713915890491 are read as the numbers they
   abbreviate (C78_literals bounds the difference); triangular arrays are read
   by their two indices; positions are Cartesian and the cell is orthogonal
   (cell_typ 0); the radial functions h_nl and their derivatives dh_nl,
   interpolated by splines in the code, are functions handed to the model;
   all atoms are handled by one process, so the Allreduce is the identity. *)

From Coq Require Import Reals List ZArith Lia Lra.
From Coquelicot Require Import Coquelicot.
From Verif Require Import CBase XcGridLem.
Import ListNotations.
Open Scope R_scope.

(** ** Normalised associated Legendre functions, spherical_harmonics.c:31-55 *)

(** Literals of computeP, lines 36, 39 and 41. *)
Definition P00 : R := sqrt (/ (4 * PI)).
Definition SQRT3 : R := sqrt 3.
Definition SQRT3DIV2 : R := - sqrt (3 / 2).

(** Coefficients of the recursion, sph_harmonics, lines 165-173. *)
Definition Acoef (l m : nat) : R := sqrt ((4 * (INR l * INR l) - 1) / (INR l * INR l - INR m * INR m)).
Definition Bcoef (l m : nat) : R :=
  - sqrt ((INR (l - 1) * INR (l - 1) - INR m * INR m) / (4 * (INR (l - 1) * INR (l - 1)) - 1)).

(** Rows l-1 and l of P and the running [temp], lines 36-43. *)
Record prow := mkP { p_prev : nat -> R; p_row : nat -> R; p_tmp : R }.
Definition p_init (x s : R) : prow :=
  mkP (fun m => match m with O => P00 | _ => 0 end)
      (fun m => match m with O => x * SQRT3 * P00 | 1%nat => SQRT3DIV2 * s * P00 | _ => 0 end)
      (SQRT3DIV2 * s * P00).

(** Body of the loop over l, lines 45-53. *)
Definition p_step (x s : R) (l : nat) (st : prow) : prow :=
  let t' := - sqrt (1 + / 2 / INR l) * s * p_tmp st in
  mkP (p_row st)
      (fun m => if (m <? l - 1)%nat then Acoef l m * (x * p_row st m + Bcoef l m * p_prev st m)
                else if (m =? l - 1)%nat then x * sqrt (2 * INR (l - 1) + 3) * p_tmp st
                else if (m =? l)%nat then t' else 0)
      t'.

(** Rows up to l = k + 1. *)
Fixpoint p_rows (x s : R) (k : nat) : prow :=
  match k with O => p_init x s | S k' => p_step x s (k' + 2) (p_rows x s k') end.

(** P[PT(l,m)], computeP, lines 31-55. *)
Definition legP (x s : R) (l m : nat) : R :=
  match l with O => match m with O => P00 | _ => 0 end | S k => p_row (p_rows x s k) m end.

(** computeP_Ylim_theta_zero, lines 58-93: only the column m = 1 is used.  For
    l = 2 the recursion reads A[PT(2,1)] and B[PT(2,1)], which nothing has set;
    the entry is written again by the next statement, so the value does not
    matter and the model keeps the second store only. *)
Record yrow := mkYR { y_prev : R; y_row : R; y_tmp : R }.
Definition ylim_step (l : nat) (st : yrow) : yrow :=
  mkYR (y_row st)
       (if (1 <? l - 1)%nat then Acoef l 1 * (y_row st + Bcoef l 1 * y_prev st)
        else sqrt (2 * INR (l - 1) + 3) * y_tmp st)
       (- sqrt (1 + / 2 / INR l) * 1 * y_tmp st).
Fixpoint ylim_rows (k : nat) : yrow :=
  match k with
  | O => mkYR 0 (SQRT3DIV2 * 1 * P00) (SQRT3DIV2 * 1 * P00)
  | S k' => ylim_step (k' + 2) (ylim_rows k')
  end.
Definition ylim (l : nat) : R := match l with O => 0 | S k => y_row (ylim_rows k) end.

(** ** Spherical harmonics, spherical_harmonics.c:107-140 *)

(** (c1, c2, s1, s2) after m passes of the loop of computeY, lines 116-122. *)
Fixpoint trig (phi : R) (m : nat) : R * R * R * R :=
  match m with
  | O => (1, cos phi, 0, - sin phi)
  | S m' => let '(c1, c2, s1, s2) := trig phi m' in
            let tc := 2 * cos phi in
            let s := tc * s1 - s2 in
            let c := tc * c1 - c2 in (c, c1, s, s1)
  end.

(** Y[YR(l,m)], computeY, lines 110-137; theta enters through computeP. *)
Definition sphY (theta phi : R) (l : nat) (m : Z) : C :=
  match m with
  | Z0 => (legP (cos theta) (sin theta) l 0, 0)
  | Zpos p => let k := Pos.to_nat p in
              let '(c, _, s, _) := trig phi k in
              let P := legP (cos theta) (sin theta) l k in (P * c, P * s)
  | Zneg p => let k := Pos.to_nat p in
              let '(c, _, s, _) := trig phi k in
              let P := legP (cos theta) (sin theta) l k in
              if Nat.even k then (P * c, - (P * s)) else (- (P * c), P * s)
  end.

(** temp_tol, spherical_harmonics.c:17 and soap_descriptor.c:18. *)
Definition temp_tol : R := / 10 ^ 10.

(** dY_phi[YR(l,m)], line 199. *)
Definition sphYphi (theta phi : R) (l : nat) (m : Z) : C :=
  (sphY theta phi l m * RtoC (IZR m) * Ci)%C.

(** dY_theta[YR(l,m)], lines 181-218. *)
Definition sphYtheta (theta phi : R) (l : nat) (m : Z) : C :=
  let constant := if Rlt_dec theta 0 then -1 else 1 in
  let ta := Rabs theta in
  let ct := if Rlt_dec temp_tol (Rabs ta) then cos ta / sin ta else 0 in
  let emph : C := (cos phi, - sin phi) in
  match l with
  | O => RtoC 0
  | _ =>
    if Rlt_dec temp_tol (Rabs ta) then
      if Rlt_dec temp_tol (Rabs (ta - PI)) then
        if (m <? Z.of_nat l)%Z then
          (RtoC constant * (RtoC (IZR m * ct) * sphY theta phi l m
             + RtoC (sqrt (IZR ((Z.of_nat l - m) * (Z.of_nat l + m + 1)))) * emph * sphY theta phi l (m + 1)))%C
        else (RtoC constant * (RtoC (IZR m * ct) * sphY theta phi l m))%C
      else if (m =? 1)%Z then RtoC (ylim l) else if (m =? -1)%Z then RtoC (- ylim l) else RtoC 0
    else if (m =? 1)%Z then RtoC (ylim l) else if (m =? -1)%Z then RtoC (- ylim l) else RtoC 0
  end.

(** ** Angles, calculate_dtheta_dphi, soap_descriptor.c:916-971 *)

Definition vec3 := (R * R * R)%type.
Definition vx (v : vec3) : R := fst (fst v).
Definition vy (v : vec3) : R := snd (fst v).
Definition vz (v : vec3) : R := snd v.

(** dtheta, lines 920-925. *)
Definition ang_theta (d : vec3) : R :=
  let t := if Rle_dec (Rabs (vz d)) temp_tol then PI / 2
           else atan (sqrt (vx d * vx d + vy d * vy d) / vz d) in
  if Rlt_dec t 0 then t + PI else t.

(** dphi, lines 932-946.  When dx = 0 the quotient dy/dx is an infinity or a
    NaN in C; every such case is overwritten by the last three tests, and none
    of the first four applies. *)
Definition ang_phi (d : vec3) : R :=
  let dx := vx d in let dy := vy d in
  let p0 := atan (dy / dx) in
  let p1 := if Rlt_dec dx 0 then if Rlt_dec 0 dy then p0 + PI else p0 else p0 in
  let p2 := if Rlt_dec dx 0 then if Rlt_dec dy 0 then p1 + PI else p1 else p1 in
  let p3 := if Rlt_dec 0 dx then if Rlt_dec dy 0 then p2 + 2 * PI else p2 else p2 in
  let p4 := if Req_EM_T (Rabs dx) 0 then if Rlt_dec 0 dy then PI / 2 else p3 else p3 in
  let p5 := if Req_EM_T (Rabs dx) 0 then if Rlt_dec dy 0 then 3 * PI / 2 else p4 else p4 in
  if Req_EM_T (Rabs dx) 0 then if Req_EM_T (Rabs dy) 0 then 0 else p5 else p5.

(** A quotient of doubles that becomes an infinity or a NaN is the outcome UB. *)
Definition qdiv (a b : R) : outcome R := if Req_EM_T b 0 then UB else Ok (a / b).

(** dth_dxi, lines 957-964; dr is not zero (the caller exits otherwise). *)
Definition dth_dxi (d : vec3) (dr : R) (a : nat) : R :=
  let th := ang_theta d in let ph := ang_phi d in
  match a with
  | O => (cos th * cos ph) / dr
  | 1%nat => (cos th * sin ph) / dr
  | _ => - sin th / dr
  end.
(** dphi_dxi, lines 961-965. *)
Definition dphi_dxi (d : vec3) (dr : R) (a : nat) : outcome R :=
  let th := ang_theta d in let ph := ang_phi d in
  match a with
  | O => qdiv (- sin ph) (dr * sin th)
  | 1%nat => qdiv (cos ph) (dr * sin th)
  | _ => Ok 0
  end.

(** ** One neighbour's part of c_nlm and of its gradient, soap_descriptor.c:616-703 *)

Definition vget (v : vec3) (a : nat) : R := match a with O => vx v | 1%nat => vy v | _ => vz v end.

(** dr, line 619. *)
Definition dist (d : vec3) : R := sqrt (vx d * vx d + vy d * vy d + vz d * vz d).

(** hnl_val * conj(Ylm), lines 660-668. *)
Definition nb_val (h : R -> R) (d : vec3) (l m : nat) : C :=
  (RtoC (h (dist d)) * Cconj (sphY (ang_theta d) (ang_phi d) l (Z.of_nat m)))%C.

(** dFi[a], lines 675-687; the test of the poles, line 675. *)
Definition at_pole (th : R) : bool :=
  if Rlt_dec (Rabs th) temp_tol then true else if Rlt_dec (Rabs (th - PI)) temp_tol then true else false.
Definition pole_fact (th : R) (l : nat) : R :=
  if Nat.even l then if Rlt_dec (Rabs (th - PI)) temp_tol then -1 else 1 else 1.
Definition nb_grad (h dh : R -> R) (d : vec3) (l m : nat) (a : nat) : outcome C :=
  let dr := dist d in
  let th := ang_theta d in let ph := ang_phi d in
  let Yv := Cconj (sphY th ph l (Z.of_nat m)) in
  let Yt := Cconj (sphYtheta th ph l (Z.of_nat m)) in
  let Yp := Cconj (sphYphi th ph l (Z.of_nat m)) in
  let radial := (RtoC (dh dr * (vget d a / dr)) * Yv)%C in
  if at_pole th then
    match a with
    | O => Ok (radial + RtoC (h dr) * Yt * RtoC (pole_fact th l / dr))%C
    | 1%nat => Ok (radial - RtoC (h dr) * Yt * Ci * RtoC (pole_fact th l / dr))%C
    | _ => do p <- dphi_dxi d dr a ;
           Ok (radial + RtoC (h dr) * (Yt * RtoC (dth_dxi d dr a) + Yp * RtoC p))%C
    end
  else
    do p <- dphi_dxi d dr a ;
    Ok (radial + RtoC (h dr) * (Yt * RtoC (dth_dxi d dr a) + Yp * RtoC p))%C.

(** ** The coefficients of an atom, soap_descriptor.c:567-745 *)

(** A neighbour: atom number, element, and the image's displacement of the cell
    (L1*imgx, L2*imgy, L3*imgz), lines 584-589. *)
Record nbr := mkN { n_at : nat; n_el : nat; n_img : vec3 }.
Definition vadd (u v : vec3) : vec3 := (vx u + vx v, vy u + vy v, vz u + vz v).
Definition vsub (u v : vec3) : vec3 := (vx u - vx v, vy u - vy v, vz u - vz v).
(** dx, dy, dz, lines 614-617. *)
Definition disp (pos : nat -> vec3) (i : nat) (b : nbr) : vec3 := vsub (vadd (pos (n_at b)) (n_img b)) (pos i).

(** The exit of lines 620-623. *)
Definition dist_ok (d : vec3) : bool := if Rlt_dec (Rabs (dist d)) (/ 10 ^ 15) then false else true.

(** A sum that stops at the first failure. *)
Fixpoint csum {A} (f : A -> outcome C) (l : list A) : outcome C :=
  match l with [] => Ok (RtoC 0) | x :: t => do u <- f x ; do v <- csum f t ; Ok (u + v)%C end.

(** cnlm[i][el][n,l,m], line 668. *)
Definition cnlm (h : nat -> nat -> R -> R) (pos : nat -> vec3) (i : nat) (nbs : list nbr) (el n l m : nat) : outcome C :=
  csum (fun b => if dist_ok (disp pos i b) then
                   if (n_el b =? el)%nat then Ok (nb_val (h n l) (disp pos i b) l m) else Ok (RtoC 0)
                 else Exit) nbs.

(** dcnlm_dX/dY/dZ[i][el][0 or 1+k], lines 690-701: the derivative of cnlm of
    atom i with respect to coordinate a of atom k.  Slot 0 (k = i) collects -dFi
    of every neighbour that is not an image of i, slot 1+k collects dFi of
    the images of k.  (The code finds the slot through localID_neighbours; the
    model is keyed by the atom.) *)
Definition dcnlm (h dh : nat -> nat -> R -> R) (pos : nat -> vec3) (i : nat) (nbs : list nbr) (k a : nat) (el n l m : nat) : outcome C :=
  csum (fun b =>
          if (n_el b =? el)%nat then
            if (n_at b =? i)%nat then Ok (RtoC 0)
            else if (k =? i)%nat then do g <- nb_grad (h n l) (dh n l) (disp pos i b) l m a ; Ok (- g)%C
            else if (n_at b =? k)%nat then nb_grad (h n l) (dh n l) (disp pos i b) l m a
            else Ok (RtoC 0)
          else Ok (RtoC 0)) nbs.

(** ** The power spectrum, soap_descriptor.c:758-866 *)

(** An entry of X3: el1, n1, el2, n2, l. *)
Record xidx := mkX { x_e1 : nat; x_n1 : nat; x_e2 : nat; x_n2 : nat; x_l : nat }.
(** The order in which count_X3 runs, lines 760-769. *)
Definition xlist (nelem Nmax Lmax : nat) : list xidx :=
  flat_map (fun e1 => flat_map (fun n1 =>
    flat_map (fun q => map (fun l => mkX e1 n1 (q / Nmax) (q mod Nmax) l) (seq 0 (Lmax + 1)))
             (seq (e1 * Nmax + n1) (nelem * Nmax - (e1 * Nmax + n1)))) (seq 0 Nmax)) (seq 0 nelem).

(** Position of c_nlm in its array, lines 762-773 (temp1 + temp3 + m). *)
Definition cidx (Lmax n l m : nat) : nat := n * (Lmax + 1) * (Lmax + 2) / 2 + l * (l + 1) / 2 + m.
(** size_X3, sparc_mlff_interface.c:119. *)
Definition size_X3 (nelem Nmax Lmax : nat) : nat := (nelem * Nmax + 1) * (nelem * Nmax) / 2 * (Lmax + 1).

(** const_X3, line 769. *)
Definition const_X3 (l : nat) : R := sqrt (8 * PI * PI / (2 * INR l + 1)).

(** The summand of lines 774-778: conversion of a complex to double drops the
    imaginary part. *)
Definition x3_term (l m : nat) (c1 c2 : C) : R :=
  match m with
  | O => const_X3 l * Re (c1 * Cconj c2)%C
  | _ => const_X3 l * (2 * Re (c1 * Cconj c2)%C)
  end.
(** The summand of lines 786-804 and 826-845. *)
Definition dx3_term (l m : nat) (c1 c2 d1 d2 : C) : R :=
  match m with
  | O => const_X3 l * Re (d1 * Cconj c2 + c1 * Cconj d2)%C
  | _ => const_X3 l * 2 * Re (d1 * Cconj c2 + c1 * Cconj d2)%C
  end.

Fixpoint osum {A} (f : A -> outcome R) (l : list A) : outcome R :=
  match l with [] => Ok 0 | x :: t => do u <- f x ; do v <- osum f t ; Ok (u + v) end.

Section Descriptor.
(** h_nl, dh_nl; positions; the neighbours of each atom. *)
Variable h dh : nat -> nat -> R -> R.
Variable pos : nat -> vec3.
Variable nbs : nat -> list nbr.

(** X3[i][t], lines 771-778. *)
Definition X3 (i : nat) (t : xidx) : outcome R :=
  osum (fun m => do c1 <- cnlm h pos i (nbs i) (x_e1 t) (x_n1 t) (x_l t) m ;
                 do c2 <- cnlm h pos i (nbs i) (x_e2 t) (x_n2 t) (x_l t) m ;
                 Ok (x3_term (x_l t) m c1 c2)) (seq 0 (x_l t + 1)).

(** dX3_dX/dY/dZ[i][.][t] for the coordinate a of atom k, lines 779-848. *)
Definition dX3 (i k a : nat) (t : xidx) : outcome R :=
  osum (fun m => do c1 <- cnlm h pos i (nbs i) (x_e1 t) (x_n1 t) (x_l t) m ;
                 do c2 <- cnlm h pos i (nbs i) (x_e2 t) (x_n2 t) (x_l t) m ;
                 do d1 <- dcnlm h dh pos i (nbs i) k a (x_e1 t) (x_n1 t) (x_l t) m ;
                 do d2 <- dcnlm h dh pos i (nbs i) k a (x_e2 t) (x_n2 t) (x_l t) m ;
                 Ok (dx3_term (x_l t) m c1 c2 d1 d2)) (seq 0 (x_l t + 1)).
End Descriptor.

(** ** Kernel and its derivative, covariance_matrix.c:46-164 *)

(** dotProduct over the entries of the descriptor. *)
Definition dot (idx : list xidx) (u v : xidx -> R) : R := lsum (fun t => u t * v t) idx.

(** kernel_ij, lines 54-93: unit vectors first, then the power. *)
Definition kernel (idx : list xidx) (xi3 : R) (X T : xidx -> R) : outcome R :=
  let nx := sqrt (dot idx X X) in let nt := sqrt (dot idx T T) in
  if Req_EM_T nx 0 then UB else if Req_EM_T nt 0 then UB else
  let b := dot idx (fun t => X t / nx) (fun t => T t / nt) in
  if Rlt_dec 0 b then Ok (Rpower b xi3) else UB.

(** zit, lines 125-157. *)
Definition zit (idx : list xidx) (X T : xidx -> R) (t : xidx) : outcome R :=
  let nx := sqrt (dot idx X X) in
  do u <- qdiv (T t) (dot idx X T) ; do w <- qdiv (X t) (nx * nx) ; Ok (u - w).

(** A training column: its element and its descriptor
    (natm_typ_train, X3_traindataset). *)
Record tcol := mkT { t_el : nat; t_X : xidx -> R }.

Section Predict.
Variable idx : list xidx.        (* entries of the descriptor *)
Variable xi3 : R.
Variable natom : nat.
Variable elem : nat -> nat.      (* el_idx_domain *)
Variable X : nat -> xidx -> R.   (* descriptors of the structure *)
Variable dX : nat -> nat -> nat -> xidx -> R.  (* dX i k a: derivative of X i along coordinate a of atom k *)
Variable uniq : nat -> list nat. (* unique_neighborList: the neighbours other than the atom itself, each once *)

(** Row 0 of K_predict, covariance_matrix.c:905, 937-943. *)
Definition k_energy (c : tcol) : outcome R :=
  osum (fun i => if (elem i =? t_el c)%nat then
                   do k <- kernel idx xi3 (X i) (t_X c) ; Ok (1 / INR natom * k)
                 else Ok 0) (seq 0 natom).

(** One dot product with zit. *)
Definition zdot (c : tcol) (i : nat) (v : xidx -> R) : outcome R :=
  osum (fun t => do z <- zit idx (X i) (t_X c) t ; Ok (z * v t)) idx.

(** Row of coordinate a of atom k, lines 945-967. *)
Definition k_force (Fsc : R) (c : tcol) (k a : nat) : outcome R :=
  osum (fun i => if (elem i =? t_el c)%nat then
                   do kk <- kernel idx xi3 (X i) (t_X c) ;
                   do s0 <- (if (i =? k)%nat then do z <- zdot c i (dX i i a) ; Ok (Fsc * xi3 * kk * z) else Ok 0) ;
                   do s1 <- osum (fun j => if (j =? k)%nat then do z <- zdot c i (dX i j a) ; Ok (Fsc * xi3 * kk * z) else Ok 0) (uniq i) ;
                   Ok (s0 + s1)
                 else Ok 0) (seq 0 natom).

(** mlff_predict, regression.c:905-925, and the assignments of
    sparc_mlff_interface.c:1153-1156.  [F_scale], [rel], [std_E], [std_F], [mu_E]
    are the fields of mlff_str, [w] the weights. *)
Definition etot (std_E mu_E : R) (cols : list (tcol * R)) : outcome R :=
  do b <- osum (fun cw => do k <- k_energy (fst cw) ; Ok (k * snd cw)) cols ;
  Ok ((b * std_E + mu_E) * INR natom).
Definition force (F_scale rel std_F : R) (cols : list (tcol * R)) (k a : nat) : outcome R :=
  do b <- osum (fun cw => do f <- k_force (F_scale * rel) (fst cw) k a ; Ok (f * snd cw)) cols ;
  Ok (-1 * (b * std_F * (1 / rel))).
End Predict.
