(** Structural relaxation with L-BFGS: src/relax.c:299-689 [LBFGS], 692-710
    [norm], [dotproduct].

    Arithmetic is exact on the reals.  A division by zero (an infinity or NaN
    in the C code) is [Exit]; a read of memory that was never written, or an
    access outside an array, is [UB].  Simplified: printing, the restart file,
    the time limit, and the charge extrapolation are left out; the new forces
    and the positions after wrapping (Check_atomlocation, Calculate_Properties)
    are inputs of each iteration.  No int overflow. *)
From Coq Require Import ZArith List Lia Bool Reals Lra.
From Verif Require Import CBase Halo.
Import ListNotations.
Local Open Scope Z_scope.

(** a C loop  for (i = 0; i < n; i++) *)
Fixpoint forn {S : Type} (n : nat) (body : Z -> S -> outcome S) (s : S) : outcome S :=
  match n with O => Ok s | Datatypes.S k => do s' <- forn k body s ; body (Z.of_nat k) s' end.
(** memory: None is a word that was not written since malloc *)
Definition mem := Z -> option R.
Definition rdm (size : Z) (m : mem) (a : Z) : outcome R := rd R size m a.
Definition wrm (size : Z) (m : mem) (a : Z) (v : R) : outcome mem := wr R size m a v.
Definition rdiv (x y : R) : outcome R := if Req_EM_T y 0 then Exit else Ok (x / y)%R.
Definition rlt (x y : R) : bool := if Rlt_dec x y then true else false.
Definition req0 (x : R) : bool := if Req_EM_T x 0 then true else false.
(** src/relax.c:30 *)
Definition SIGN (a b : R) : R := if rlt b 0 then (- Rabs a)%R else Rabs a.

(** src/relax.c:702-710 *)
Definition dotproduct (n : nat) (z1 : Z) (v1 : mem) (s1 : Z) (z2 : Z) (v2 : mem) (s2 : Z) : outcome R :=
  forn n (fun i dp => do a <- rdm z1 v1 (s1 + i) ; do b <- rdm z2 v2 (s2 + i) ; Ok (dp + a * b)%R) 0%R.
(** src/relax.c:692-700: pow(x, 2.0) and pow(x, 0.5) *)
Definition norm (n : nat) (v : mem) : outcome R :=
  do q <- forn n (fun i q => do a <- rdm (Z.of_nat n) v i ; Ok (q + a * a)%R) 0%R ; Ok (sqrt q).

Section Lbfgs.
  (** n = 3 * n_atom, m = L_history, lines 310-312 *)
  Variables (n m : nat).
  (** lines 313-317: L_finit_stp, L_maxmov, L_autoscale, L_lineopt, L_icurv *)
  Variables (finit_stp maxmov : R) (autoscale lineopt : bool) (icurv0 : R).
  Let N := Z.of_nat n.
  Let M := Z.of_nat m.

  (** the fields of SPARC_OBJ and the local arrays used by the loop *)
  Record lb := LB {
    pos : mem; forces : mem; dir : mem; fold : mem; disp : mem; xold : mem; alpha : mem;
    dX : mem; dG : mem; iys : mem; isFD : bool; isReset : bool; step : nat }.

  (** lines 319-332: calloc for deltaX, deltaG, iys, malloc for the others; the
      forces come from Calculate_Properties *)
  Definition init (x f : mem) : lb :=
    let z (size : Z) : mem := fun a => if (0 <=? a) && (a <? size) then Some 0%R else None in
    let u : mem := fun _ => None in
    LB x f u u u u u (z (M * N)) (z (M * N)) (z M) true true 0.

  (** lines 444-465 and 538-559: the pair of the last move is stored *)
  Definition push (s : lb) : outcome lb :=
    let store (s_pos : Z) (X G : mem) : outcome (mem * mem) :=
      forn n (fun i XG =>
        do a <- rdm N (disp s) i ;
        do X' <- wrm (M * N) (fst XG) (s_pos + i) a ;
        do b <- rdm N (fold s) i ;
        do c <- rdm N (forces s) i ;
        do G' <- wrm (M * N) (snd XG) (s_pos + i) (b - c)%R ;
        Ok (X', G')) (X, G) in
    do r <- (if (step s <? m)%nat then
        let s_pos := Z.of_nat (step s) * N in
        do XG <- store s_pos (dX s) (dG s) ;
        do q <- dotproduct n (M * N) (fst XG) s_pos (M * N) (snd XG) s_pos ;
        do iq <- rdiv 1 q ;
        do Y <- wrm M (iys s) (Z.of_nat (step s)) iq ;
        Ok (fst XG, snd XG, Y)
      else
        let s_pos := (M - 1) * N in
        do XG <- forn (Z.to_nat s_pos) (fun i XG =>
          do a <- rdm (M * N) (fst XG) (i + N) ;
          do X' <- wrm (M * N) (fst XG) i a ;
          do b <- rdm (M * N) (snd XG) (i + N) ;
          do G' <- wrm (M * N) (snd XG) i b ;
          Ok (X', G')) (dX s, dG s) ;
        do Y <- forn (Z.to_nat (M - 1)) (fun i Y => do a <- rdm M Y (i + 1) ; wrm M Y i a) (iys s) ;
        do XG <- store s_pos (fst XG) (snd XG) ;
        do q <- dotproduct n (M * N) (fst XG) s_pos (M * N) (snd XG) s_pos ;
        do iq <- rdiv 1 q ;
        do Y <- wrm M Y (M - 1) iq ;
        Ok (fst XG, snd XG, Y)) ;
    let '(X, G, Y) := r in
    Ok (LB (pos s) (forces s) (dir s) (fold s) (disp s) (xold s) (alpha s) X G Y (isFD s) (isReset s) (S (step s))).

  (** lines 467-470 and 561-564 *)
  Definition save (s : lb) : outcome lb :=
    do xf <- forn n (fun i xf =>
      do a <- rdm N (pos s) i ; do x' <- wrm N (fst xf) i a ;
      do b <- rdm N (forces s) i ; do f' <- wrm N (snd xf) i b ; Ok (x', f')) (xold s, fold s) ;
    Ok (LB (pos s) (forces s) (dir s) (snd xf) (disp s) (fst xf) (alpha s) (dX s) (dG s) (iys s) (isFD s) (isReset s) (step s)).

  (** lines 471-499 and 565-592: the two loops over the history *)
  Definition twoloop (icurv : R) (s : lb) : outcome (mem * mem) :=
    let bound := if (step s <? m)%nat then step s else m in
    do d0 <- forn n (fun i d => do f <- rdm N (forces s) i ; wrm N d i (- f)%R) (dir s) ;
    do da <- forn bound (fun i da =>
      let j := Z.of_nat bound - i - 1 in
      let s_pos := j * N in
      do a <- dotproduct n (M * N) (dX s) s_pos N (fst da) 0 ;
      do r <- rdm M (iys s) j ;
      let a := (a * r)%R in
      do al <- wrm M (snd da) j a ;
      do d <- forn n (fun k d =>
        do g <- rdm (M * N) (dG s) (s_pos + k) ; do x <- rdm N d k ; wrm N d k (x - a * g)%R) (fst da) ;
      Ok (d, al)) (d0, alpha s) ;
    do d1 <- forn n (fun i d => do x <- rdm N d i ; wrm N d i (icurv * x)%R) (fst da) ;
    do d2 <- forn bound (fun i d =>
      let s_pos := i * N in
      do b <- dotproduct n (M * N) (dG s) s_pos N d 0 ;
      do r <- rdm M (iys s) i ;
      let b := (b * r)%R in
      do a <- rdm M (snd da) i ;
      forn n (fun k d =>
        do g <- rdm (M * N) (dX s) (s_pos + k) ; do x <- rdm N d k ; wrm N d k (x + g * (a - b))%R) d) d1 ;
    do d3 <- forn n (fun i d => do x <- rdm N d i ; wrm N d i (- x)%R) d2 ;
    Ok (d3, snd da).

  (** pos[i] += c * d[i]: lines 422, 513, 519, 598, 609, 629 *)
  Definition advance (c : R) (p d : mem) : outcome mem :=
    forn n (fun i p => do x <- rdm N p i ; do y <- rdm N d i ; wrm N p i (x + c * y)%R) p.
  (** d[i] = c * v[i] / r: lines 420, 507, 512, 597, 606 *)
  Definition scaled (c : R) (v : mem) (r : R) (d : mem) : outcome mem :=
    forn n (fun i d => do x <- rdm N v i ; do y <- rdiv (c * x) r ; wrm N d i y) d.

  (** lines 416-426 *)
  Definition fd_step (s : lb) : outcome lb :=
    do fnorm <- norm n (forces s) ;
    do d <- scaled 1 (forces s) fnorm (dir s) ;
    do s1 <- save s ;
    do p <- advance finit_stp (pos s) d ;
    Ok (LB p (forces s) d (fold s1) (disp s) (xold s1) (alpha s) (dX s) (dG s) (iys s) false (isReset s) (step s)).

  (** lines 427-521 *)
  Definition auto_step (s : lb) : outcome lb :=
    do d0 <- forn n (fun i d => do x <- rdm N (disp s) i ; wrm N d i x) (dir s) ;
    do dnorm <- norm n d0 ;
    do q1 <- dotproduct n N (fold s) 0 N d0 0 ;
    do fp1 <- rdiv q1 dnorm ;
    do q2 <- dotproduct n N (forces s) 0 N d0 0 ;
    do fp2 <- rdiv q2 dnorm ;
    do curv <- rdiv (fp1 - fp2) dnorm ;
    do icurv <- rdiv 1 (curv * 2) ;
    let maxmov_flag := rlt icurv 0 in
    let reset := isReset s || maxmov_flag in
    let s0 := LB (pos s) (forces s) d0 (fold s) (disp s) (xold s) (alpha s) (dX s) (dG s) (iys s) (isFD s) false (step s) in
    do s1 <- (if reset
              then Ok (LB (pos s) (forces s) d0 (fold s) (disp s) (xold s) (alpha s) (dX s) (dG s) (iys s) (isFD s) false 0)
              else push s0) ;
    do s2 <- save s1 ;
    do da <- twoloop icurv s2 ;
    do stp_sz <- norm n (fst da) ;
    do dr <- (if rlt maxmov stp_sz then
                do fnorm <- norm n (forces s2) ;
                do d <- scaled maxmov (forces s2) fnorm (fst da) ;
                Ok (d, true)
              else Ok (fst da, false)) ;
    do pd <- (if maxmov_flag then
                do fnorm <- norm n (forces s2) ;
                do d <- scaled 1 (forces s2) fnorm (fst dr) ;
                do p <- advance maxmov (pos s2) d ;
                Ok (p, d)
              else
                do p <- advance 1 (pos s2) (fst dr) ; Ok (p, fst dr)) ;
    Ok (LB (fst pd) (forces s2) (snd pd) (fold s2) (disp s2) (xold s2) (snd da) (dX s2) (dG s2) (iys s2) (isFD s2) (snd dr) (step s2)).

  (** lines 524-612 *)
  Definition fixed_fd (s : lb) : outcome lb :=
    do q1 <- dotproduct n N (forces s) 0 N (fold s) 0 ;
    let a1 := Rabs q1 in
    do a2 <- dotproduct n N (fold s) 0 N (fold s) 0 ;
    let reset := isReset s || rlt (1 / 2 * a2)%R a1 || req0 a2 in
    let reset := if lineopt then reset else false in
    let reset := reset || req0 a2 in
    do s1 <- (if reset
              then Ok (LB (pos s) (forces s) (dir s) (fold s) (disp s) (xold s) (alpha s) (dX s) (dG s) (iys s) false false 0)
              else push (LB (pos s) (forces s) (dir s) (fold s) (disp s) (xold s) (alpha s) (dX s) (dG s) (iys s) false false (step s))) ;
    do s2 <- save s1 ;
    do da <- twoloop icurv0 s2 ;
    do dnorm <- norm n (fst da) ;
    do pd <- (if lineopt then
                do d <- scaled 1 (fst da) dnorm (fst da) ;
                do p <- advance finit_stp (pos s2) d ; Ok (p, d, false)
              else
                do d <- (if rlt maxmov dnorm then scaled maxmov (fst da) dnorm (fst da) else Ok (fst da)) ;
                do p <- advance 1 (pos s2) d ; Ok (p, d, true)) ;
    let '(p, d, fd) := pd in
    Ok (LB p (forces s2) d (fold s2) (disp s2) (xold s2) (snd da) (dX s2) (dG s2) (iys s2) fd (isReset s2) (step s2)).
  (** lines 613-631 *)
  Definition line_step (s : lb) : outcome lb :=
    do fp1 <- dotproduct n N (fold s) 0 N (dir s) 0 ;
    do fp2 <- dotproduct n N (forces s) 0 N (dir s) 0 ;
    do curv <- rdiv (fp1 - fp2) finit_stp ;
    do stp_sz <- (if rlt curv 0 then Ok maxmov
                  else do q <- rdiv (1 / 2 * (fp1 + fp2)) curv ;
                       Ok (if rlt maxmov (Rabs q) then (SIGN maxmov q - SIGN finit_stp q)%R else (q - 1 / 2 * finit_stp)%R)) ;
    do p <- advance stp_sz (pos s) (dir s) ;
    Ok (LB p (forces s) (dir s) (fold s) (disp s) (xold s) (alpha s) (dX s) (dG s) (iys s) true (isReset s) (step s)).

  (** one iteration, lines 414-636 *)
  Definition move (s : lb) : outcome lb :=
    do s1 <- (if autoscale then (if isFD s then fd_step s else auto_step s)
              else (if isFD s then fixed_fd s else line_step s)) ;
    do ds <- forn n (fun i ds => do x <- rdm N (pos s1) i ; do o <- rdm N (xold s1) i ; wrm N ds i (x - o)%R) (disp s1) ;
    Ok (LB (pos s1) (forces s1) (dir s1) (fold s1) ds (xold s1) (alpha s1) (dX s1) (dG s1) (iys s1) (isFD s1) (isReset s1) (step s1)).
  (** lines 638-640: new positions and forces *)
  Definition respond (x f : mem) (s : lb) : lb :=
    LB x f (dir s) (fold s) (disp s) (xold s) (alpha s) (dX s) (dG s) (iys s) (isFD s) (isReset s) (step s).
  (** a run continued from the restart file: RestartRelax (lines 1568-1730)
      fills the positions, isFD, isReset, step, deltaX, deltaG, iys, fold and
      atom_disp; the search direction, xold and alpha are those of lines
      328-331 *)
  Definition restarted (s : lb) : lb :=
    LB (pos s) (forces s) (fun _ => None) (fold s) (disp s) (fun _ => None) (fun _ => None) (dX s) (dG s) (iys s) (isFD s) (isReset s) (step s).
  (** lines 643-647: the largest component of the forces *)
  Definition max_force (s : lb) : outcome R :=
    forn n (fun i e => do f <- rdm N (forces s) i ; Ok (if rlt e (Rabs f) then Rabs f else e)) 0%R.
  (** the loop, lines 399-676, fed with the answers of the physics *)
  Fixpoint run (tol : R) (answers : list (mem * mem)) (s : lb) : outcome lb :=
    match answers with
    | [] => Ok s
    | (x, f) :: r =>
      do e <- max_force s ;
      if rlt tol e then (do s' <- move s ; run tol r (respond x f s')) else Ok s
    end.
End Lbfgs.
