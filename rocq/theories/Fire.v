(** Structural relaxation with FIRE: src/relax.c:713-915 [FIRE], with the loop
    of Relax.v.  Arithmetic is exact on the reals; a division by zero is
    [Exit]; a read of memory never written is [UB].  Simplified: no printing;
    the ground state is the force field [force] on positions, and wrapping into
    the cell (Check_atomlocation) is the function [wrap]; charge extrapolation
    does not change the forces. *)
From Coq Require Import ZArith List Lia Bool Reals Lra.
From Verif Require Import CBase Halo Lbfgs LbfgsLem Relax.
Import ListNotations.
Local Open Scope R_scope.

(** relax.c:31 *)
Definition rmin (a b : R) : R := if rlt a b then a else b.
(** relax.c:701-710 and 692-700 on initialised vectors *)
Definition vdot (n : nat) (u v : vecR) : R := rdot n u v.
Definition vnrm (n : nat) (v : vecR) : R := sqrt (rdot n v v).

Section Fire.
  (** 3 * n_atom *)
  Variable n : nat.
  (** lines 724-735: FIRE_mass * amu2au, FIRE_maxmov, FIRE_dt after the
      conversion of line 725 *)
  Variables (mass maxmov dt0 : R).
  Variables (force wrap : vecR -> vecR).
  (** lines 730-735 *)
  Definition fDec : R := 1 / 2.
  Definition fInc : R := 11 / 10.
  Definition nMIN : Z := 5.
  Definition alphaStart : R := 1 / 10.
  Definition fAlpha : R := 99 / 100.
  Definition dtMax : R := 10 * dt0.

  Record fire := FI { pos : vecR; frc : vecR; acc : vecR; vel : vecR; dtNow : R; alpha : R; resetIter : Z }.

  (** division of a vector by a number, lines 764, 779, 844, 864 *)
  Definition vdiv (v : vecR) (x : R) : outcome vecR := do _x <- rdiv 1 x ; Ok (fun i => v i / x).

  (** lines 765-781: first ground state of a new run *)
  Definition start (x : vecR) : outcome fire :=
    let F := force x in
    do a <- vdiv F mass ;
    Ok (FI x F a (fun _ => 0) dt0 alphaStart 0).
  (** lines 828-834 *)
  Definition clamp (d : R) : R := if rlt maxmov d then maxmov else if rlt d (- maxmov) then - maxmov else d.
  (** lines 826-836: half kick and move *)
  Definition half (s : fire) : vecR := fun i => vel s i + 1 / 2 * dtNow s * acc s i.
  Definition moveby (s : fire) : vecR := fun i => clamp (half s i * dtNow s).

  (** lines 825-869 *)
  Definition fbody (iter : Z) (s : fire) : outcome fire :=
    let x := wrap (fun i => pos s i + moveby s i) in
    let F := force x in
    do a <- vdiv F mass ;
    let v := fun i => half s i + 1 / 2 * a i * dtNow s in
    let Pw := vdot n F v in
    let '(v, dt, al, rs) :=
      if rlt Pw 0 then (fun _ => 0, dtNow s * fDec, alphaStart, iter)
      else if (nMIN <? iter - resetIter s)%Z then (v, rmin (dtNow s * fInc) dtMax, alpha s * fAlpha, resetIter s)
      else (v, dtNow s, alpha s, resetIter s) in
    let fnorm := vnrm n F in
    let vnorm := vnrm n v in
    do u <- vdiv F fnorm ;
    Ok (FI x F a (fun i => (1 - al) * v i + (al * vnorm) * u i) dt al rs).

  (** lines 872-876: the largest force component *)
  Definition ferr (s : fire) : R := fold_right (fun i e => if rlt e (Rabs (frc s i)) then Rabs (frc s i) else e) 0 (rev (seq 0 n)).

  (** PrintRelax, lines 1504-1564: the parts of the restart file this method
      uses; sections written by other methods are missing ([None]) *)
  Record rfile := RF { f_pos : vecR; f_fire : option (R * R * Z * vecR) }.
  Definition print (s : fire) : rfile := RF (pos s) (Some (alpha s, dtNow s, resetIter s, vel s)).
  (** RestartRelax, lines 1568-1715, and lines 746-764 *)
  Definition restart (f : rfile) : outcome fire :=
    let F := force (f_pos f) in
    do a <- vdiv F mass ;
    match f_fire f with
    | Some (al, dt, rs, v) => Ok (FI (f_pos f) F a v dt al rs)
    | None => UB
    end.
End Fire.

(** line 725: the call multiplies the field FIRE_dt; the value is kept in
    SPARC_OBJ for the next call.  Result: dt in use, new field *)
Definition call_dt (fs2atu FIRE_dt : R) : R * R := (FIRE_dt * fs2atu, FIRE_dt * fs2atu).
(** the dt in use in each of [k] calls of a full relaxation (RelaxFlag 3,
    relax.c:1000-1014) *)
Fixpoint full_dts (k : nat) (fs2atu FIRE_dt : R) : list R :=
  match k with O => [] | S j => let '(d, f) := call_dt fs2atu FIRE_dt in d :: full_dts j fs2atu f end.
