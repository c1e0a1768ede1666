(** The iteration common to the three relaxation methods of src/relax.c (NLCG
    139-290, LBFGS 367-684, FIRE 782-911): step numbers, the files they are
    written to, restart.  What a step does to the atoms is a parameter.
    Simplified: reading and writing files always works and keeps the numbers
    exactly; the clock and the stop file are inputs, one pair per iteration;
    no int overflow of the counters. *)
From Coq Require Import ZArith List Lia Bool.
From Verif Require Import CBase.
Import ListNotations.
Local Open Scope Z_scope.

(** fields of SPARC_OBJ: RelaxCount, restartCount, RestartFlag != 0
    (src/initialization.c:1828-1833) *)
Record counters := CN { RelaxCount : Z; restartCount : Z; restarting : bool }.
(** RestartFlag == 0, as an int *)
Definition fresh1 (c : counters) : Z := if restarting c then 0 else 1.

Section Driver.
  Context {A : Type}.
  (** one iteration of a method on the atoms, given [iter] *)
  Variable body : Z -> A -> outcome A.
  (** err > tol *)
  Variable unconverged : A -> bool.
  (** Relax_Niter; Printrestart == 1 on this process; Printrestart_fq *)
  Variables (niter : Z) (printrestart : bool) (fq : Z).

  (** what a call leaves: the state, the step numbers written to the .geopt
      file, the restart files written (step number, state), RelaxCount *)
  Record result := RS { r_state : A; r_labels : list Z; r_files : list (Z * A); r_count : Z }.

  (** relax.c:1512: the step number of the restart file *)
  Definition file_label (c : counters) : Z := RelaxCount c + restartCount c + fresh1 c.
  Definition bump (c : counters) (k : Z) : counters := CN (RelaxCount c + k) (restartCount c) (restarting c).

  (** relax.c:170-283 (398-675, 813-905).  Each element of [evs]: the time
      limit is not reached, the stop file exists.  When [evs] is empty the time
      is up. *)
  Fixpoint loop (imax : Z) (evs : list (bool * bool)) (iter : Z) (c : counters) (a : A) (labels : list Z) (files : list (Z * A)) : outcome result :=
    match evs with
    | [] => Ok (RS a labels files (RelaxCount c))
    | (intime, stop) :: rest =>
      if (iter <? imax) && unconverged a && intime then
        do a' <- body iter a ;
        do due <- (if printrestart then do r <- c_mod iter fq ; Ok (r =? 0) else Ok false) ;
        let labels' := labels ++ [iter] in
        let files' := if due : bool then files ++ [(file_label c, a')] else files in
        if stop : bool then Ok (RS a' labels' files' (RelaxCount c + 1))
        else loop imax rest (iter + 1) (bump c 1) a' labels' files'
      else Ok (RS a labels files (RelaxCount c))
    end.

  (** relax.c:139-290: [a] is the state after the first ground state *)
  Definition call (evs : list (bool * bool)) (c0 : counters) (a : A) : outcome result :=
    let c := bump c0 1 in
    let imax := niter + restartCount c + RelaxCount c in
    let labels := if restarting c then [] else [RelaxCount c] in
    let iter := RelaxCount c + restartCount c + fresh1 c in
    do r <- loop imax evs iter c a labels [] ;
    if printrestart then
      Ok (RS (r_state r) (r_labels r) (r_files r ++ [(r_count r - 1 + restartCount c + fresh1 c, r_state r)]) (r_count r - 1))
    else Ok r.

  (** the counters of a new run, initialization.c:1828-1833 *)
  Definition new_run : counters := CN 0 0 false.
  (** a run that reads a restart file with this step number, relax.c:1618 *)
  Definition restart_run (label : Z) : counters := CN 0 label true.
End Driver.
Arguments RS {A} _ _ _ _. Arguments r_state {A} _. Arguments r_labels {A} _. Arguments r_files {A} _. Arguments r_count {A} _.

(** RelaxFlag 3: a call for each volume, relax.c:1000-1014, without restart
    files (initialization.c:1838).  The atoms start where the previous call
    left them, moved with the cell: [next]. *)
Fixpoint calls {A} (body : Z -> A -> outcome A) (unconverged : A -> bool) (niter : Z) (next : A -> A) (runs : list (list (bool * bool))) (c : counters) (a : A) : outcome (list Z * Z) :=
  match runs with
  | [] => Ok ([], RelaxCount c)
  | evs :: rest =>
    do r <- call body unconverged niter false 1 evs c a ;
    do ls <- calls body unconverged niter next rest (CN (r_count r) (restartCount c) (restarting c)) (next (r_state r)) ;
    Ok (r_labels r ++ fst ls, snd ls)
  end.
