(** Model of the set-up of the DFT+U correction: the reader's choice of the
    type named by U_ATOM_TYPE (/repo/src/readfiles.c:1886-1903), the broadcast
    of the U values (/repo/src/xc/hubbard/hubbardInitialization.c:82-167), the
    sizes and the initial occupation matrices (hubbardInitialization.c:443-634,
    [init_occ_mat]), and the two arrays of displacements
    (/repo/src/xc/hubbard/occupationMatrix.c:296-340, [CalculateOccMatAtomIndex];
    /repo/src/xc/hubbard/locOrbRoutines.c:715-757,
    [CalculateLocalInnerProductIndex]).

    The doubles of these routines are rational numbers here; rounding is
    ignored.  [int] overflow is not modelled (the sizes are numbers of
    projectors).  The broadcast of the radial functions (180-260) is not
    modelled. *)
From Coq Require Import ZArith QArith List Lia Bool.
From Verif Require Import CBase Nloc VnlOp.
Import ListNotations.
Local Open Scope Z_scope.

(** ** The type named in the input *)

(** [tolower] on ASCII codes (tools.c:93-94). *)
Definition lower (c : Z) : Z := if (65 <=? c) && (c <=? 90) then c + 32 else c.

(** [strcmpi (s, t) == 0] for strings without their terminating zeros
    (tools.c:82-99). *)
Fixpoint streq (s t : list Z) : bool :=
  match s, t with
  | [], [] => true
  | a :: s', b :: t' => (lower a =? lower b) && streq s' t'
  | _, _ => false
  end.

(** The loop over the types (readfiles.c:1892-1900): [str_len] characters of the
    name of the type are copied and compared; the first match is taken.  A
    shorter name is followed by its terminating zero, so that the copied string
    is the name itself: [firstn]. *)
Fixpoint find_type (jj : Z) (s : list Z) (names : list (list Z)) : option Z :=
  match names with
  | [] => None
  | nm :: rest => if streq s (firstn (length s) nm) then Some jj else find_type (jj + 1) s rest
  end.

(** ** The data of a type *)

(** [atom_solve_flag], [nAtomv], [AtmU.U] (four values, isddft.h:158) and the
    shells of the isolated atom: for every l from 0 to [max_l] the occupations of
    the shells of that l, by increasing principal quantum number. *)
Record hub := Hub { h_solve : bool; h_nat : Z; h_U : Z -> Q; h_shells : list (list Z) }.

(** [max_l], [ppl[l]] and [occ] (atom/finalizeAtom.c:374-428). *)
Definition maxl (t : hub) : Z := Z.of_nat (length (h_shells t)) - 1.
Definition ppl (t : hub) (l : Z) : Z := Z.of_nat (length (nth (Z.to_nat l) (h_shells t) [])).
Definition occ (t : hub) : arr Z :=
  Arr (Z.of_nat (length (concat (h_shells t)))) (fun i => nth (Z.to_nat i) (concat (h_shells t)) 0).

(** [U[l]]: the array has four elements. *)
Definition rdU (U : Z -> Q) (l : Z) : outcome Q := if (0 <=? l) && (l <=? 3) then Ok (U l) else UB.

(** [TEMP_TOL] (hubbardInitialization.c:31). *)
Definition TEMP_TOL : Q := 1 # 1000000000000.
Definition Qltb (a b : Q) : bool := negb (Qle_bool b a).

(** ** Broadcast of U (hubbardInitialization.c:82-167) *)

(** The root packs four values per corrected type, three apart (85-95). *)
Definition pack_U (junk : Z -> Q) (ts : list hub) : outcome (arr Q) :=
  let cs := filter h_solve ts in
  do st <- ofold (fun st t =>
     do a <- ofold (fun a l => do v <- rdU (h_U t) l ; wr a (snd st * 3 + l) v) (fst st) (zrange 0 3) ;
     Ok (a, snd st + 1)) (Arr (4 * Z.of_nat (length cs)) junk, 0) cs ;
  Ok (fst st).

(** Every other process unpacks them (148-167): the U values of its
    [c]-th corrected type. *)
Definition unpack_U (ua : arr Q) (c : Z) : outcome (list Q) :=
  omap (fun l => rd ua (c * 3 + l)) (zrange 0 3).

(** ** Sizes *)

(** [angnum] (hubbardInitialization.c:456-467). *)
Definition angnum (t : hub) : outcome Z :=
  ofold (fun n l => do u <- rdU (h_U t) l ; if Qltb u TEMP_TOL then Ok n else Ok (n + (2 * l + 1)))
    0 (zrange 0 (maxl t)).

(** The number of projectors, [nproj] (occupationMatrix.c:320-326,
    locOrbRoutines.c:429-436, 739-745). *)
Definition nprojU (t : hub) : outcome Z :=
  ofold (fun n l => do u <- rdU (h_U t) l ;
    if Qeq_bool u 0 then Ok n else Ok (n + ppl t l * (2 * l + 1)))
    0 (zrange 0 (maxl t)).

(** A loop over the corrected l and over m that writes one value per l at
    increasing positions: [Uval] (hubbardInitialization.c:470-483), and
    [l_states], [l_occ] (572-587), which one loop of the C code fills
    together. *)
Definition fill {A} (t : hub) (v : Z -> outcome A) (a : arr A) : outcome (arr A) :=
  do st <- ofold (fun st l =>
    do u <- rdU (h_U t) l ;
    if Qltb u TEMP_TOL then Ok st else
    do x <- v l ;
    ofold (fun st (_ : Z) => do b <- wr (fst st) (snd st) x ; Ok (b, snd st + 1)) st (zrange (- l) l))
    (a, 0) (zrange 0 (maxl t)) ;
  Ok (fst st).

(** [Uval] (470-483). *)
Definition uval (t : hub) : outcome (arr Q) :=
  do n <- angnum t ; fill t (rdU (h_U t)) (Arr n (fun _ => 0%Q)).

(** ** The initial occupation matrices *)

(** [l_occ] of an l (576-584): the last shell of that l. *)
Definition l_occ_of (t : hub) (l : Z) : outcome Z :=
  let ldispl := fold_left (fun d ll => d + ppl t ll) (zrange 0 l) (-1) in
  rd (occ t) ldispl.

(** [(double) a / b] for [int]s. *)
Definition qdiv (a b : Z) : Q := (inject_Z a / inject_Z b)%Q.

(** The matrices of the majority and of the minority spin of a magnetic atom
    (590-606). *)
Definition mag_mats (n : Z) (st oc : arr Z) : outcome (arr Q * arr Q) :=
  ofold (fun mm m =>
    do o <- rd oc m ; do s <- rd st m ;
    if s <=? o then
      do a <- wr (fst mm) (m * n + m) 1%Q ;
      do b <- wr (snd mm) (m * n + m) (qdiv (o - s) s) ;
      Ok (a, b)
    else
      do a <- wr (fst mm) (m * n + m) (qdiv (o - s) s) ;
      Ok (a, snd mm))
    (Arr (n * n) (fun _ => 0%Q), Arr (n * n) (fun _ => 0%Q)) (zrange 0 (n - 1)).

(** The matrix of either spin of any other atom (608-617). *)
Definition nonmag_mat (n : Z) (st oc : arr Z) : outcome (arr Q) :=
  ofold (fun a m =>
    do o <- rd oc m ; do s <- rd st m ;
    wr a (m * n + m) ((1 # 2) * inject_Z o / inject_Z s)%Q)
    (Arr (n * n) (fun _ => 0%Q)) (zrange 0 (n - 1)).

(** [rho_mn] of an atom with the z moment [mag], one matrix per spin
    ([Nspinor] = 1 + [spin_typ]); non-collinear spins are refused (449-452,
    549-617). *)
Definition init_occ (spin_typ : Z) (mag : Q) (t : hub) : outcome (list (arr Q)) :=
  if spin_typ =? 2 then Exit else
  do n <- angnum t ;
  do st <- fill t (fun l => Ok (2 * l + 1)) (Arr n (fun _ => 0)) ;
  do oc <- fill t (l_occ_of t) (Arr n (fun _ => 0)) ;
  if (spin_typ =? 1) && Qltb 0 mag then
    do mm <- mag_mats n st oc ; Ok [fst mm; snd mm]
  else if (spin_typ =? 1) && Qltb mag 0 then
    do mm <- mag_mats n st oc ; Ok [snd mm; fst mm]
  else
    omap (fun _ => nonmag_mat n st oc) (zrange 0 spin_typ).

(** ** Displacements *)

(** The loop over the types with [atom_index], [atom_index2] and [id]; [b t] is
    the number of entries of an atom: [nproj] for [IP_displ_U]
    (locOrbRoutines.c:722-756), its square for [rho_mn_displ]
    (occupationMatrix.c:303-339).  The array of [n_atom + 1] entries is first
    filled with -1. *)
Record dst := Dst { d_arr : arr Z; d_i : Z; d_i2 : Z; d_id : Z }.

Definition displ_atom (b : Z) (s : dst) (iat : Z) : outcome dst :=
  do a <- (if (iat =? 0) && negb (d_id s =? 0) then
             do v <- rd (d_arr s) (d_i2 s) ; wr (d_arr s) (d_i s) v
           else Ok (d_arr s)) ;
  do v <- rd a (d_i s) ;
  do a' <- wr a (d_i s + 1) (v + b) ;
  Ok (Dst a' (d_i s + 1) (d_i2 s) (d_id s)).

Definition displ_type (s : dst) (t : bool * Z * Z) : outcome dst :=
  let '(solve, nat_, b) := t in
  if negb solve then
    let i := d_i s + nat_ in
    Ok (Dst (d_arr s) i (if d_id s =? 0 then i else d_i2 s) (d_id s))
  else
    do s1 <- (if d_id s =? 0 then
                do a <- wr (d_arr s) (d_i s) 0 ; Ok (Dst a (d_i s) (d_i2 s) 1)
              else Ok s) ;
    do s2 <- ofold (displ_atom b) s1 (zrange 0 (nat_ - 1)) ;
    Ok (Dst (d_arr s2) (d_i s2) (d_i s2) (d_id s2)).

(** The types as (solve flag, number of atoms, entries per atom). *)
Definition displ (n_atom : Z) (ts : list (bool * Z * Z)) : outcome (arr Z) :=
  do s <- ofold displ_type (Dst (Arr (n_atom + 1) (fun _ => -1)) 0 0 0) ts ;
  Ok (d_arr s).

(** The search for the last entry (locOrbRoutines.c:772-779,
    occupationMatrix.c:430-437): the result is -1 if there is none. *)
Fixpoint last_idx (a : arr Z) (fuel : nat) (jj : Z) : outcome Z :=
  match fuel with
  | O => Ok (-1)
  | S f => do v <- rd a jj ; if 0 <=? v then Ok jj else last_idx a f (jj - 1)
  end.
Definition atm_idx (n_atom : Z) (a : arr Z) : outcome Z :=
  last_idx a (Z.to_nat (n_atom + 1)) n_atom.

(** The length of the arrays of inner products or of matrices
    (locOrbRoutines.c:784, occupationMatrix.c:450, 455). *)
Definition displ_total (n_atom : Z) (a : arr Z) : outcome Z :=
  do j <- atm_idx n_atom a ; rd a j.
