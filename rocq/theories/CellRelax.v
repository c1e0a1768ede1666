(** Relaxation of the cell volume: src/relax.c:923-972 [Relax_Cell], 984-1078
    [volrelax_constraint], 1093-1296 [reinitialize_cell_mesh], 1366-1463
    [BrentsFun].  Arithmetic is exact on the reals; a division by zero is [UB], the
    error exits are [Exit].
    Simplified: helical cells (cell_typ > 20) are not covered; no printing, no
    k-points, pseudocharge radii, Chebyshev degree and Kerker tolerance; the
    ground state and, for a full relaxation, the motion of the atoms are the
    functions [stress] and [settle]. *)
From Coq Require Import Reals List Lia Lra ZArith Bool.
From Verif Require Import CBase Lattice.
Import ListNotations.
Local Open Scope R_scope.

Definition cdiv (x y : R) : outcome R := if Req_EM_T y 0 then UB else Ok (x / y).

(** ** Root finder, relax.c:1366-1463 *)
(** relax.c:30 *)
Definition csign (a b : R) : R := if Rle_dec 0 b then Rabs a else - Rabs a.
Record broot := BR { ba : R; bb : R; bc : R; bd : R; be : R; bfa : R; bfb : R; bfc : R }.

Section Brent.
  (** the state of the calculation; evaluating the residual at a volume *)
  Context {S : Type} (eval : S -> R -> outcome (S * R)).
  (** the state and the evaluations made: volume, residual *)
  Definition memo : Type := S * list (R * R).
  Definition ev (m : memo) (v : R) : outcome (memo * R) :=
    do r <- eval (fst m) v ; Ok ((fst r, snd m ++ [(v, snd r)]), snd r).

  (** lines 1389-1402; [n] expansions are left *)
  Fixpoint expand (n : nat) (a b fa fb : R) (m : memo) : outcome (R * R * R * R * memo) :=
    if Rltb 0 (fa * fb) then
      match n with
      | O => Ok (a, b, fa, fb, m)
      | Datatypes.S n' =>
        let w := b - a in
        let a := a - w / 2 in
        let b := b + w / 2 in
        do ra <- ev m a ;
        do rb <- ev (fst ra) b ;
        expand n' a b (snd ra) (snd rb) (fst rb)
      end
    else Ok (a, b, fa, fb, m).

  (** lines 1413-1416 *)
  Definition reset (s : broot) : broot :=
    if (Rltb 0 (bfb s) && Rltb 0 (bfc s)) || (Rltb (bfb s) 0 && Rltb (bfc s) 0)
    then BR (ba s) (bb s) (ba s) (bb s - ba s) (bb s - ba s) (bfa s) (bfb s) (bfa s) else s.
  (** lines 1417-1420 *)
  Definition swap (s : broot) : broot :=
    if Rltb (Rabs (bfc s)) (Rabs (bfb s)) then BR (bb s) (bc s) (bb s) (bd s) (be s) (bfb s) (bfc s) (bfb s) else s.
  (** line 1421 with EPSILON of line 1369 *)
  Definition tol1_of (tol_x : R) (s : broot) : R := 2 * / 10000000000000000 * Rabs (bb s) + / 2 * tol_x.
  Definition xm_of (s : broot) : R := / 2 * (bc s - bb s).
  (** lines 1426-1434 *)
  Definition interp (s : broot) : outcome (R * R) :=
    let xm := xm_of s in
    do sx <- cdiv (bfb s) (bfa s) ;
    if Req_EM_T (ba s) (bc s) then Ok (2 * xm * sx, 1 - sx)
    else
      do q <- cdiv (bfa s) (bfc s) ;
      do r <- cdiv (bfb s) (bfc s) ;
      Ok (sx * (2 * xm * q * (q - r) - (bb s - ba s) * (r - 1)), (q - 1) * (r - 1) * (sx - 1)).
  (** lines 1424-1450: the new d and e *)
  Definition step_de (tol1 : R) (s : broot) : outcome (R * R) :=
    let xm := xm_of s in
    if Rltb (Rabs (be s)) tol1 || negb (Rltb (Rabs (bfb s)) (Rabs (bfa s))) then Ok (xm, xm)
    else
      do pq <- interp s ;
      let q := if Rltb 0 (fst pq) then - snd pq else snd pq in
      let p := Rabs (fst pq) in
      let min1 := 3 * xm * q - Rabs (tol1 * q) in
      let min2 := Rabs (be s * q) in
      if Rltb (2 * p) (if Rltb min1 min2 then min1 else min2) then do d <- cdiv p q ; Ok (d, bd s)
      else Ok (xm, xm).

  (** lines 1411-1463; [n] iterations are left.  The last component is false
      for the return after the warning. *)
  Fixpoint iterate (n : nat) (tol_x tol_f : R) (s : broot) (m : memo) : outcome (R * memo * bool) :=
    match n with
    | O => Ok (bb s, m, false)
    | Datatypes.S n' =>
      let s := swap (reset s) in
      let tol1 := tol1_of tol_x s in
      let xm := xm_of s in
      if negb (Rltb tol1 (Rabs xm)) || Rltb (Rabs (bfb s)) tol_f then Ok (bb s, m, true)
      else
        do de <- step_de tol1 s ;
        let b := if Rltb tol1 (Rabs (fst de)) then bb s + fst de else bb s + csign tol1 xm in
        do rb <- ev m b ;
        iterate n' tol_x tol_f (BR (bb s) b (bc s) (fst de) (snd de) (bfb s) (snd rb) (bfc s)) (fst rb)
    end.

  (** lines 1383-1463 *)
  Definition BrentsFun (s0 : S) (x1 x2 tol_x tol_f : R) (max_iter : nat) : outcome (R * memo * bool) :=
    do ra <- ev (s0, []) x1 ;
    do rb <- ev (fst ra) x2 ;
    do e <- expand 3 x1 x2 (snd ra) (snd rb) (fst rb) ;
    let '(a, b, fa, fb, m) := e in
    if Rltb 0 (fa * fb) then Exit
    else iterate max_iter tol_x tol_f (BR a b b 0 0 fa fb fb) m.
End Brent.

(** ** The cell *)
(** range, delta, dV, atom positions in cell coordinates, stencil
    coefficients: D1_stencil_coeffs_x/y/z, D2_stencil_coeffs_x/y/z, and the
    nine arrays of mixed derivatives; MaxEigVal_mhalfLap *)
Record cell := Cell { rng : nat -> R; dlt : nat -> R; cdV : R; atm : nat -> nat -> R;
  cD1 : nat -> nat -> R; cD2 : nat -> nat -> R; cMx : nat -> nat -> R; eigmax : R }.
(** the array entries lo..hi are written, the rest is left *)
Definition upd (old : nat -> R) (lo hi : nat) (new : nat -> R) : nat -> R := fun p => if (lo <=? p)%nat && (p <=? hi)%nat then new p else old p.

Section Mesh.
  (** cell_typ, Jacbdet, lapcT, cellrelax_dims, order/2, FDweights_D1/D2,
      Nx/Ny/Nz *)
  Variables (typ : Z) (jac : R) (lap : mat) (dims : nat -> bool) (FDn : nat) (w1 w2 : nat -> R) (N : nat -> Z).

  (** lines 943-945 *)
  Definition ndim : nat := length (filter dims [0; 1; 2]%nat).
  (** lines 954-956 and 1113-1115 *)
  Definition volume (s : cell) : R := rng s 0%nat * rng s 1%nat * rng s 2%nat * jac.
  Definition nonorth : bool := (10 <? typ)%Z && (typ <? 20)%Z.
  (** lines 1191-1204: the mesh dimension and the entry of lapcT of each of
      D2_xy, D2_xz, D2_yz, D1_xy, D1_yx, D1_xz, D1_zx, D1_yz, D1_zy *)
  Definition mixed_dim (k : nat) : nat := nth k [0; 0; 1; 1; 0; 2; 0; 2; 1]%nat 0%nat.
  Definition mixed_T (k : nat) : R :=
    match k with
    | 0 | 3 | 4 => lap 0 1 | 1 | 5 | 6 => lap 0 2 | 2 | 7 | 8 => lap 1 2 | _ => 0%R
    end%nat.
  (** lines 1224-1226: the integer division is exact *)
  Definition eig_scal (d : nat) : R := IZR (N d - Z.rem (N d) 2) / IZR (N d).
  (** lines 1218-1232 *)
  Definition eig_of (D2 : nat -> nat -> R) : R :=
    fold_left (fun e p => e + 2 * (D2 0%nat p * cos (PI * INR p * eig_scal 0) + D2 1%nat p * cos (PI * INR p * eig_scal 1) + D2 2%nat p * cos (PI * INR p * eig_scal 2)))
      (seq 1 FDn) (D2 0%nat 0%nat + D2 1%nat 0%nat + D2 2%nat 0%nat) * (- / 2).

  (** lines 1093-1235 *)
  Definition reinitialize_cell_mesh (vol : R) (s : cell) : outcome cell :=
    if Rle_dec vol 0 then Exit
    else
      do ratio <- cdiv vol (volume s) ;
      do ex <- cdiv 1 (INR ndim) ;
      let scal := Rpower ratio ex in
      let grow d x := if dims d then x * scal else x in
      let r := fun d => grow d (rng s d) in
      let h := fun d => grow d (dlt s d) in
      let dV := h 0%nat * h 1%nat * h 2%nat * jac in
      let at_ := fun a d => grow d (atm s a d) in
      do ix <- cdiv 1 (h 0%nat) ;
      do iy <- cdiv 1 (h 1%nat) ;
      do iz <- cdiv 1 (h 2%nat) ;
      let inv := fun d => match d with O => ix | 1%nat => iy | _ => iz end in
      let d1 := fun d => upd (cD1 s d) 1 FDn (fun p => w1 p * inv d) in
      do ix2 <- cdiv 1 (h 0%nat * h 0%nat) ;
      do iy2 <- cdiv 1 (h 1%nat * h 1%nat) ;
      do iz2 <- cdiv 1 (h 2%nat * h 2%nat) ;
      let inv2 := fun d => match d with O => ix2 | 1%nat => iy2 | _ => iz2 end in
      let d2 := if (typ =? 0)%Z then fun d => upd (cD2 s d) 0 FDn (fun p => w2 p * inv2 d)
                else if nonorth then fun d => upd (cD2 s d) 0 FDn (fun p => lap d d * w2 p * inv2 d)
                else cD2 s in
      let mx := if (typ =? 0)%Z then cMx s
                else if nonorth then fun k => upd (cMx s k) 0 FDn (fun p => 2 * mixed_T k * w1 p * inv (mixed_dim k))
                else cMx s in
      Ok (Cell r h dV at_ d1 d2 mx (if (typ =? 0)%Z then eig_of d2 else eigmax s)).

  (** ** The residual *)
  Variables (BC3 : bool) (GPa target : R).   (* BC == 2; CONST_HA_BOHR3_GPA; relaxPrTarget *)
  Variables (U g : mat).                     (* LatUVec, gradT *)
  (** lines 1029-1032: the symmetric matrix of the six stresses *)
  Definition stress_tmp (s6 : nat -> R) : mat := fun k l => s6 (nth (3 * k + l) [0; 1; 2; 1; 3; 4; 2; 4; 5] 0)%nat.
  (** lines 1033-1048 *)
  Definition stress_lc (s6 : nat -> R) : nat -> R :=
    if nonorth then
      let t := stress_tmp s6 in
      let c i j := sum3 (fun k => sum3 (fun l => U i k * t k l * g j l)) in
      fun e => nth e [c 0 0; c 0 1; c 0 2; c 1 1; c 1 2; c 2 2]%nat 0
    else s6.
  (** lines 1056-1078 *)
  Definition residual (s6 : nat -> R) : outcome R :=
    let lc := stress_lc s6 in
    let diag d := lc (nth d [0; 3; 5]%nat 0%nat) * (if BC3 then GPa else 1) in
    let p := fold_left (fun x d => if dims d then x + diag d else x) [0; 1; 2]%nat 0 in
    do q <- cdiv p (INR ndim) ;
    Ok (- q - target).

  (** what the ground state gives for a cell, and (RelaxFlag 3) where the atoms
      settle in it *)
  Variables (stress : cell -> nat -> R) (settle : cell -> cell).
  (** lines 984-1078 *)
  Definition volrelax_constraint (s : cell) (vol : R) : outcome (cell * R) :=
    do s1 <- reinitialize_cell_mesh vol s ;
    let s2 := settle s1 in
    do r <- residual (stress s2) ;
    Ok (s2, r).
  (** lines 923-972: the value returned by BrentsFun is not used *)
  Definition Relax_Cell (max_dilatation tol_f : R) (niter : nat) (s : cell) : outcome (cell * R * list (R * R) * bool) :=
    let V := volume s in
    let f := max_dilatation ^ ndim in
    do lo <- cdiv V f ;
    do r <- BrentsFun volrelax_constraint s lo (V * f) (/ 10000) tol_f niter ;
    let '(b, m, c) := r in
    Ok (fst m, b, snd m, c).
End Mesh.
(** lines 935-938: the periodic directions; BC is 0 or 1 *)
Definition relax_dims (BCx BCy BCz : Z) (d : nat) : bool := ((1 - nth d [BCx; BCy; BCz] 0) =? 1)%Z.
