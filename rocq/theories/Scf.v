(** The self-consistent field loop: scf_loop, Evaluate_scf_error and shifting_Veff_mean
    (/repo/src/electronicGroundState.c:724-1149, 1160-1193, 1273-1299).

    Simplifications, for the whole file: a distributed array is the list, over the processes of dmcomm_phi, of the columns
    each of them holds; what the functions called compute is given by oracles that read and change a hidden state [W]
    (orbitals, occupations, mixing history); timings, Hubbard and spectral-quadrature branches are left out; real numbers
    instead of doubles, with infinity and NaN kept where the code can make them (the error and Etot). *)
From Coq Require Import Reals ZArith List Bool.
From Verif Require Import CBase CellRelax.
Import ListNotations.
Local Open Scope R_scope.

Inductive fp : Type := Num (x : R) | Inf | NaN.
(** the C comparisons a < b and a > b *)
Definition flt (a : fp) (b : R) : bool := match a with Num x => if Rlt_dec x b then true else false | _ => false end.
Definition fgt (a : fp) (b : R) : bool := match a with Num x => if Rlt_dec b x then true else false | Inf => true | NaN => false end.
(** sqrt(s1 / s0), both sums of squares *)
Definition rel (s1 s0 : R) : fp := if Req_EM_T s0 0 then if Req_EM_T s1 0 then NaN else Inf else Num (sqrt (s1 / s0)).

Definition dvec : Type := list (list (list R)).
Definition rd (a : list R) (i : nat) : outcome R := match nth_error a i with Some x => Ok x | None => UB end.

(** the loop over the local entries (electronicGroundState.c:1175-1180) *)
Definition loc_sums (len : nat) (out inp : list R) : outcome (R * R) :=
  fold_left (fun acc i => do s <- acc ; do o <- rd out i ; do n <- rd inp i ;
    let temp := o - n in Ok (fst s + o * o, snd s + temp * temp)) (seq 0 len) (Ok (0, 0)).
(** the reduction and the error (electronicGroundState.c:1182-1189): every process gives (DMnd, var_out, var_in) *)
Definition eval_error (ncol : nat) (ps : list (nat * list R * list R)) : outcome fp :=
  do s <- fold_left (fun acc q => do a <- acc ; let '(DMnd, o, n) := q in do b <- loc_sums (ncol * DMnd) o n ;
            Ok (fst a + fst b, snd a + snd b)) ps (Ok (0, 0)) ;
  Ok (rel (snd s) (fst s)).

(** shifting_Veff_mean (electronicGroundState.c:1273-1299) *)
Definition colsum (v : dvec) (i : nat) : R :=
  fold_left (fun a p => a + fold_left (fun a x => a + x) (nth i p []) 0) v 0.
Definition means (spin_typ : Z) (Nd : R) (ncol : nat) (v : dvec) : outcome (list R) :=
  do m <- fold_left (fun acc i => do l <- acc ; do q <- cdiv (colsum v i) Nd ; Ok (l ++ [q])) (seq 0 ncol) (Ok []) ;
  if (spin_typ =? 1)%Z then match m with a :: b :: r => let h := (a + b) / 2 in Ok (h :: h :: r) | _ => UB end else Ok m.
Definition add_to (dir : R) (m : list R) (v : dvec) : dvec :=
  map (fun p => map (fun cm => map (fun x => x + dir * snd cm) (fst cm)) (combine p m)) v.
Definition shift_mean (BC spin_typ : Z) (Nd : R) (ncol : nat) (v : dvec) (old : list R) (option : Z) (dir : R) : outcome (dvec * list R) :=
  if negb (BC =? 2)%Z then Ok (v, repeat 0 ncol)
  else do m <- (if (option =? 0)%Z then means spin_typ Nd ncol v else Ok old) ; Ok (add_to dir m v, m).

Section Loop.
  Variable W : Type.
  (** Calculate_elecDens with the potential of the psi domain *)
  Variable solve : W -> nat -> fp -> dvec -> outcome (W * dvec).
  (** Calculate_elecstPotential, Calculate_Vxc, Calculate_Veff_loc_dmcomm_phi: Veff_loc and Veff_dia_loc *)
  Variable pots : W -> dvec -> W * dvec * dvec.
  (** Etot as left by Calculate_Free_Energy; Calculate_Escc (Veff out, Veff in, density) *)
  Variable energy : W -> dvec -> W * fp.
  Variable escc : W -> dvec -> dvec -> dvec -> R.
  (** Mixing on densities (electronDens, mixing_hist_xk) and on potentials (Veff_loc, mixing_hist_xk) *)
  Variable mix_d mix_v : W -> nat -> dvec -> dvec -> W * dvec * dvec.
  Variables (potmix : bool) (spin_typ BC : Z) (Nd : R) (MAXIT MINIT usefock : Z) (TOL_SCF TOL_INIT : R) (DMnd : list nat).

  Record state : Type := St { world : W; dens : dvec; dens_in : dvec; xk : dvec; veff : dvec; dia : dvec; veff_in : dvec }.

  Definition nspdend : nat := if (0 <? spin_typ)%Z then 2 else 1.
  Definition nspden : nat := if (spin_typ =? 0)%Z then 1 else if (spin_typ =? 1)%Z then 2 else 4.
  (** usefock % 2 == 1 (electronicGroundState.c:1131, 1191) *)
  Definition tol : R := if (Z.rem usefock 2 =? 1)%Z then TOL_INIT else TOL_SCF.
  (** var_out and var_in of every process (electronicGroundState.c:1166-1173) *)
  Definition flat (v : dvec) : list (list R) := map (@concat R) v.
  Definition drop_total (v : dvec) : dvec := map (@tl (list R)) v.
  Definition vars (s : state) : dvec * dvec :=
    if potmix then (if (spin_typ =? 2)%Z then dia s else veff s, veff_in s)
    else (if (0 <? spin_typ)%Z then drop_total (dens s) else dens s, if (spin_typ =? 0)%Z then xk s else drop_total (dens_in s)).
  Definition error_of (s : state) : outcome fp :=
    let '(o, i) := vars s in eval_error nspdend (combine (combine DMnd (flat o)) (flat i)).

  Definition isnan (x : fp) : bool := match x with NaN => true | _ => false end.
  Definition fadd (x : fp) (y : R) : fp := match x with Num a => Num (a + y) | _ => x end.

  (** one turn (electronicGroundState.c:750-966): the new state, Etot and the error *)
  Definition step (k : nat) (err : fp) (s : state) : outcome (state * fp * fp) :=
    let vin := if potmix then (if (spin_typ =? 2)%Z then dia s else veff s) else veff_in s in
    let din := if ((0 <? spin_typ)%Z && negb potmix)%bool then dens s else dens_in s in
    do r <- solve (world s) k err (veff s) ;
    let '(w, rho) := r in
    if potmix then
      let '(w, v, d) := pots w rho in
      let '(w, E) := energy w rho in
      let E := fadd E (escc w (if (spin_typ =? 2)%Z then d else v) vin rho) in
      do e <- error_of (St w rho din (xk s) v d vin) ;
      if isnan E then Exit else
      do q <- shift_mean BC spin_typ Nd nspden v [] 0 (-1) ;
      let '(v, m) := q in
      let '(w, v, x) := mix_v w k v (xk s) in
      do q <- shift_mean BC spin_typ Nd nspden v m 1 1 ;
      Ok (St w rho din x (fst q) d vin, E, e)
    else
      let '(w, E) := energy w (if (spin_typ =? 0)%Z then xk s else din) in
      do e <- error_of (St w rho din (xk s) (veff s) (dia s) vin) ;
      if isnan E then Exit else
      let '(w, rho', x) := mix_d w k rho (xk s) in
      (* spin_typ 0: x_{k+1} is electronDens itself (mixing.c:250-252, 407-412) *)
      let x := if (spin_typ =? 0)%Z then rho' else x in
      let '(w, v, d) := pots w rho' in
      Ok (St w rho' din x v d vin, E, e).

  (** the loop (electronicGroundState.c:750-1007): the rows written to the output file, the last error, the last state *)
  Definition row : Type := Z * fp * fp.
  Fixpoint loop (fuel : nat) (k : nat) (err : fp) (s : state) (rows : list row) : outcome (list row * fp * state) :=
    match fuel with
    | O => Ok (rows, err, s)
    | S f =>
        do r <- step k err s ;
        let '(s, E, e) := r in
        let count := (Z.of_nat k + 1)%Z in
        let rows := rows ++ [(count, E, e)] in
        if (flt e tol && (MINIT <=? count)%Z)%bool then Ok (rows, e, s) else loop f (S k) e s rows
    end.
  (** scf_loop: the rows, "Total number of SCF", whether the warning is written (1131-1148), the state *)
  Definition scf_loop (s : state) : outcome (list row * Z * bool * state) :=
    do r <- loop (Z.to_nat MAXIT) 0 (Num (TOL_SCF + 1)) s [] ;
    let '(rows, e, s) := r in Ok (rows, Z.of_nat (length rows), fgt e tol, s).
End Loop.
Arguments St {W} _ _ _ _ _ _ _.
Arguments world {W} _. Arguments dens {W} _. Arguments dens_in {W} _. Arguments xk {W} _. Arguments veff {W} _. Arguments dia {W} _. Arguments veff_in {W} _.
