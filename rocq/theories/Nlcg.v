(** Structural relaxation with nonlinear conjugate gradients: src/relax.c:80-292
    [NLCG], with the loop of Relax.v.  Arithmetic is exact on the reals; a
    division by zero is [Exit]; a read of memory never written is [UB].
    Simplified: no printing; the ground state is the force field [force] on
    positions, and wrapping into the cell (Check_atomlocation) is the function
    [wrap]; charge extrapolation does not change the forces. *)
From Coq Require Import ZArith List Lia Bool Reals Lra.
From Verif Require Import CBase Halo Lbfgs LbfgsLem Relax.
Import ListNotations.
Local Open Scope R_scope.

Section Nlcg.
  (** 3 * n_atom; NLCG_sigma; sectol = TOL_RELAX * 1e-2, line 92 *)
  Variables (n : nat) (sigma sectol : R).
  Variables (force wrap : vecR -> vecR).
  (** line 91 *)
  Definition jmax : nat := 6.
  Definition nreset : Z := 30.

  (** atom_pos, forces, the search direction d, the previous residual s,
      delta_new *)
  Record ncg := NC { npos : vecR; nfrc : vecR; ndir : vecR; nres : vecR; ndelta : R }.

  (** lines 121-136: first ground state of a new run *)
  Definition nstart (x : vecR) : ncg := let F := force x in NC x F F F (rdot n F F).

  (** lines 186-187: largest component of d *)
  Definition maxabs (k : nat) (v : vecR) : R := fold_right (fun i e => if rlt e (Rabs (v i)) then Rabs (v i) else e) 0 (rev (seq 0 k)).

  (** lines 213-236: do ... while (j < jmax && err2 > sectol); [fuel] is
      jmax - j, at least one pass is made.  Result: positions and forces *)
  Fixpoint secant (fuel : nat) (d : vecR) (delta_d alpha eta_prev : R) (x F : vecR) : outcome (vecR * vecR) :=
    let eta := - rdot n F d in
    do q <- rdiv eta (eta_prev - eta) ;
    let alpha' := alpha * q in
    let err2 := Rabs alpha' * delta_d in
    let x' := wrap (fun i => x i + alpha' * d i) in
    let F' := force x' in
    match fuel with
    | S (S _ as f) => if rlt sectol err2 then secant f d delta_d alpha' eta x' F' else Ok (x', F')
    | _ => Ok (x', F')
    end.

  (** lines 184-257 *)
  Definition nbody (iter : Z) (s : ncg) : outcome ncg :=
    let d := ndir s in
    let delta_d := maxabs n d in
    let trial := force (wrap (fun i => npos s i + sigma * d i)) in
    let eta_prev := - rdot n trial d in
    do xF <- secant jmax d delta_d (- sigma) eta_prev (npos s) (nfrc s) ;
    let r := snd xF in
    let delta_mid := rdot n r (nres s) in
    let delta_new := rdot n r r in
    do beta <- rdiv (delta_new - delta_mid) (ndelta s) ;
    do m <- c_mod iter nreset ;
    let d' := if (m =? 0)%Z || negb (rlt 0 beta) then r else fun i => r i + beta * d i in
    Ok (NC (fst xF) r d' r delta_new).

  (** the parts of the restart file this method uses (lines 1513-1525); a file
      of another method has no search direction *)
  Definition nprint (s : ncg) : vecR * option vecR := (npos s, Some (ndir s)).
  (** lines 101-119 with RestartRelax, 1568-1715 *)
  Definition nrestart (f : vecR * option vecR) : outcome ncg :=
    let F := force (fst f) in
    match snd f with Some d => Ok (NC (fst f) F d F (rdot n F F)) | None => UB end.
End Nlcg.
