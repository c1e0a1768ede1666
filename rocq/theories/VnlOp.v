(** Model of the nonlocal operator: /repo/src/nlocVecRoutines.c:394-570 and
    576-760 (the projector matrices [Chi], [Chi_c]), 769-792
    ([CalculateNonlocalInnerProductIndex]), 798-883 ([Vnl_vec_mult]) and
    889-1003 ([Vnl_vec_mult_kpt]).

    Numbers are elements of an arbitrary commutative ring (reals for
    [Vnl_vec_mult], complex numbers for [Vnl_vec_mult_kpt]); rounding is
    ignored.  The two C functions differ only in the factors [bloch_fac] with
    which the two products are multiplied; [Vnl_vec_mult] is the case of
    factors 1.  The helical cells ([CyclixFlag]) are not modelled. *)
From Coq Require Import ZArith QArith Qround List Lia Bool.
From Verif Require Import CBase Nloc.
Import ListNotations.
Local Open Scope Z_scope.

(** An array with its size. *)
Record arr (K : Type) := Arr { sz : Z; at_ : Z -> K }.
Arguments Arr {K} _ _.
Arguments sz {K} _.
Arguments at_ {K} _ _.

(** [a[i]] and [a[i] = v]: outside the array the behaviour is undefined. *)
Definition rd {K} (a : arr K) (i : Z) : outcome K :=
  if (0 <=? i) && (i <? sz a) then Ok (at_ a i) else UB.
Definition wr {K} (a : arr K) (i : Z) (v : K) : outcome (arr K) :=
  if (0 <=? i) && (i <? sz a) then Ok (Arr (sz a) (fun j => if j =? i then v else at_ a j))
  else UB.

(** Pseudopotential of a type: [localPsd], [ppl[0..lmax]]. *)
Record psp := Psp { p_loc : Z; p_ppl : list Z }.

(** Number of projectors per atom (nlocVecRoutines.c:440-444, 626-630, 780-784). *)
Fixpoint nproj_from (l : Z) (loc : Z) (ppl : list Z) : Z :=
  match ppl with
  | [] => 0
  | n :: ppl' => (if l =? loc then 0 else n * (2 * l + 1)) + nproj_from (l + 1) loc ppl'
  end.
Definition nproj (s : psp) : Z := nproj_from 0 (p_loc s) (p_ppl s).

(** The projectors of an atom in the order of the columns of [Chi]
    (nlocVecRoutines.c:523-556, 709-740): for every [l] but the local one, [np] and
    [m], the triple (l, lcount2, m); [disp] is [lcount2] at the start of [l].
    The same triple loop with [ldispl] runs over [Gamma] at 845-862. *)
Fixpoint cols_from (l disp : Z) (loc : Z) (ppl : list Z) : list (Z * Z * Z) :=
  match ppl with
  | [] => []
  | n :: ppl' =>
    (if l =? loc then [] else
     flat_map (fun np => map (fun m => (l, disp + np, m)) (zrange (- l) l)) (zrange 0 (n - 1)))
    ++ cols_from (l + 1) (disp + n) loc ppl'
  end.
Definition cols (s : psp) : list (Z * Z * Z) := cols_from 0 0 (p_loc s) (p_ppl s).

(** [CalculateNonlocalInnerProductIndex] (nlocVecRoutines.c:769-792): the
    entries [IP_displ[1..n_atom]] for the types [ts] = (nAtomv, psp), given
    [IP_displ[0..]] so far ends in [d]. *)
Fixpoint ip_displ (d : Z) (ts : list (Z * psp)) : list Z :=
  match ts with
  | [] => []
  | (n, s) :: ts' =>
    map (fun i => d + (i + 1) * nproj s) (zrange 0 (n - 1)) ++
    ip_displ (d + Z.max 0 n * nproj s) ts'
  end.

Section VNL.
Context {K : Type} (zero one : K) (add mul sub : K -> K -> K) (opp : K -> K).

(** [Ylm * UdV] of type [ty] for the projector (l, lcount2, m) at a
    displacement (nlocVecRoutines.c:500-551).  For [cell_typ] 11..19 the
    conversion of the displacement to Cartesian coordinates is part of it. *)
Variable chi : nat -> Z * Z * Z -> Q * Q * Q -> K.
(** [psd[ityp].Gamma]; its length is that of [ppl] summed. *)
Variable gamma : nat -> list K.
(** The factors of the two products for a row of the influence list. *)
Variables ph1 ph2 : entry -> K.
(** [dV] *)
Variable dV : K.

Fixpoint ksum (l : list K) : K :=
  match l with [] => zero | x :: l' => add x (ksum l') end.

(** Displacement of a stored node from the image
    (nlocVecRoutines.c:464-478, 480-496).  The origin [xin] is not added here;
    it is 0 for the cells modelled. *)
Definition node_disp (c : cell) (D : dom) (e : entry) (indx : Z) : outcome (Q * Q * Q) :=
  do k <- c_div indx (DMnx D * DMny D) ;
  do j <- c_div (indx - k * (DMnx D * DMny D)) (DMnx D) ;
  do i <- c_mod indx (DMnx D) ;
  Ok ((inject_Z (i + xs_ D) * a_del (ax c) - e_x e)%Q,
      (inject_Z (j + ys_ D) * a_del (ay c) - e_y e)%Q,
      (inject_Z (k + zs_ D) * a_del (az c) - e_z e)%Q).

(** The matrix [Chi[iat]], column by column (nlocVecRoutines.c:455-553). *)
Definition chi_matrix (c : cell) (D : dom) (ty : nat) (s : psp) (e : entry) : outcome (arr K) :=
  do vs <- omap (node_disp c D e) (e_pos e) ;
  let flat := flat_map (fun cl => map (chi ty cl) vs) (cols s) in
  Ok (Arr (e_ndc e * nproj s) (fun i => nth (Z.to_nat i) flat zero)).

(** [x_rc] (nlocVecRoutines.c:815-819, 925-929). *)
Definition gather (x : arr K) (ldi n : Z) (e : entry) : outcome (list K) :=
  omap (fun g => rd x (n * ldi + g)) (e_pos e).

(** One entry of the first product (cblas_dgemm, nlocVecRoutines.c:821-828, and
    zgemm, 931-938): [alpha[off + n*nproj + p] += a * sum_i Chi[p*ndc+i] x_rc[i]]. *)
Fixpoint dot (ch : arr K) (i : Z) (xr : list K) : outcome K :=
  match xr with
  | [] => Ok zero
  | x :: xr' =>
    do c <- rd ch i ; do r <- dot ch (i + 1) xr' ; Ok (add (mul c x) r)
  end.

Definition inner (ch : arr K) (x : arr K) (ldi ncol np off : Z) (a : K) (e : entry) (al : arr K)
  : outcome (arr K) :=
  ofold (fun al n =>
    do xr <- gather x ldi n e ;
    ofold (fun al p =>
      do s <- dot ch (p * e_ndc e) xr ;
      do o <- rd al (off + n * np + p) ;
      wr al (off + n * np + p) (add (mul a s) o))
    al (zrange 0 (np - 1)))
  al (zrange 0 (ncol - 1)).

(** One entry of the second product and its addition to [Hx]
    (nlocVecRoutines.c:872-880, 988-996):
    [Hx[n*ldo + grid_pos[i]] += b * sum_p Chi[p*ndc+i] alpha[off + n*nproj + p]]. *)
Fixpoint dot2 (ch al : arr K) (i ndc off : Z) (ps : list Z) : outcome K :=
  match ps with
  | [] => Ok zero
  | p :: ps' =>
    do c <- rd ch (p * ndc + i) ; do a <- rd al (off + p) ;
    do r <- dot2 ch al i ndc off ps' ; Ok (add (mul c a) r)
  end.

Definition scatter (ch al : arr K) (ldo ncol np off : Z) (b : K) (e : entry) (h : arr K)
  : outcome (arr K) :=
  ofold (fun h n =>
    do h' <- ofold (fun st g =>
      do s <- dot2 ch al (snd st) (e_ndc e) (off + n * np) (zrange 0 (np - 1)) ;
      do o <- rd (fst st) (n * ldo + g) ;
      do h1 <- wr (fst st) (n * ldo + g) (add o (mul b s)) ;
      Ok (h1, snd st + 1)) (h, 0) (e_pos e) ;
    Ok (fst h'))
  h (zrange 0 (ncol - 1)).

(** Loop over the types and the rows of each type
    (nlocVecRoutines.c:806-834, 866-882). *)
Fixpoint over_rows (ty : nat) (f : nat -> psp -> entry -> arr K -> outcome (arr K))
    (ts : list (Z * psp)) (L : list (list entry)) (a : arr K) : outcome (arr K) :=
  match ts, L with
  | (_, s) :: ts', es :: L' =>
    do a' <- (if nproj s =? 0 then Ok a else ofold (fun a e => f ty s e a) a es) ;
    over_rows (S ty) f ts' L' a'
  | _, _ => Ok a
  end.

(** Multiplication with [Gamma] (nlocVecRoutines.c:841-864, 951-974); the state is the
    array and [count]. *)
Definition gamma_atom (ty : nat) (s : psp) (st : arr K * Z) : outcome (arr K * Z) :=
  ofold (fun st cl =>
    let '(l, g, m) := cl in
    do gv <- ld (gamma ty) g ;
    do o <- rd (fst st) (snd st) ;
    do a <- wr (fst st) (snd st) (mul o gv) ;
    Ok (a, snd st + 1)) st (cols s).

Fixpoint gamma_types (ty : nat) (ncol : Z) (ts : list (Z * psp)) (st : arr K * Z)
  : outcome (arr K * Z) :=
  match ts with
  | [] => Ok st
  | (n, s) :: ts' =>
    do st' <- ofold (fun st _ =>
        ofold (fun st _ => gamma_atom ty s st) st (zrange 0 (ncol - 1)))
      st (zrange 0 (n - 1)) ;
    gamma_types (S ty) ncol ts' st'
  end.

(** A process: its box, its influence list, its columns [x] and [Hx]. *)
Record proc := Proc { pr_dom : dom; pr_inf : list (list entry); pr_x : arr K; pr_h : arr K }.

(** First part: the local inner products (nlocVecRoutines.c:804-834). *)
Definition phase1 (c : cell) (ts : list (Z * psp)) (ipd : list Z) (ncol ldi : Z) (pr : proc)
  : outcome (arr K) :=
  do tot <- ld ipd (zsum (map fst ts)) ;
  over_rows 0 (fun ty s e al =>
      do ch <- chi_matrix c (pr_dom pr) ty s e ;
      do d <- ld ipd (e_atom e) ;
      inner ch (pr_x pr) ldi ncol (nproj s) (d * ncol) (mul (ph1 e) dV) e al)
    ts (pr_inf pr) (Arr (tot * ncol) (fun _ => zero)).

(** Last part: Gamma and the second product (nlocVecRoutines.c:841-882). *)
Definition phase3 (c : cell) (ts : list (Z * psp)) (ipd : list Z) (ncol ldo : Z)
    (al : arr K) (pr : proc) : outcome (arr K) :=
  do g <- gamma_types 0 ncol ts (al, 0) ;
  over_rows 0 (fun ty s e h =>
      do ch <- chi_matrix c (pr_dom pr) ty s e ;
      do d <- ld ipd (e_atom e) ;
      scatter ch (fst g) ldo ncol (nproj s) (d * ncol) (ph2 e) e h)
    ts (pr_inf pr) (pr_h pr).

(** The sum over the processes of the communicator (nlocVecRoutines.c:836-839, 946-949):
    left out for a single process. *)
Definition allreduce (l : list (arr K)) (a : arr K) : arr K :=
  if 1 <? Z.of_nat (length l) then
    Arr (sz a) (fun i => ksum (map (fun b => at_ b i) l))
  else a.

(** All processes of the communicator. *)
Definition Vnl_all (c : cell) (ts : list (Z * psp)) (ncol ldi ldo : Z) (prs : list proc)
  : outcome (list (arr K)) :=
  let ipd := 0 :: ip_displ 0 ts in
  do als <- omap (phase1 c ts ipd ncol ldi) prs ;
  omap (fun pa => phase3 c ts ipd ncol ldo (allreduce als (snd pa)) (fst pa)) (combine prs als).

End VNL.
