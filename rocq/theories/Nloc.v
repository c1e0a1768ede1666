(** Model of /repo/src/nlocVecRoutines.c:43-385 ([GetInfluencingAtoms_nloc])
    and of /repo/src/initialization.c:3687-3699 ([CalculateDistance]).

    Every [double] is a rational number, so coordinates are rationals and the
    arithmetic is exact; [sqrt] followed by the squaring of its result is the
    identity.  A conversion of an out-of-range value to [int], an access
    outside an array and the use of a distance that was never assigned are
    [UB].  The helical cells ([CyclixFlag]) are not modelled. *)
From Coq Require Import ZArith QArith Qround List Lia Bool.
From Verif Require Import CBase.
Import ListNotations.
Local Open Scope Z_scope.

(** ** Loops in the outcome monad *)

(** [for (x in l) s = f(s, x)] *)
Fixpoint ofold {S A} (f : S -> A -> outcome S) (s : S) (l : list A) : outcome S :=
  match l with
  | [] => Ok s
  | x :: l' => do s' <- f s x ; ofold f s' l'
  end.

(** A loop whose body appends the elements it produces. *)
Fixpoint oflat {A B} (f : A -> outcome (list B)) (l : list A) : outcome (list B) :=
  match l with
  | [] => Ok []
  | x :: l' => do h <- f x ; do t <- oflat f l' ; Ok (h ++ t)
  end.

(** A loop whose body produces one element. *)
Fixpoint omap {A B} (f : A -> outcome B) (l : list A) : outcome (list B) :=
  match l with
  | [] => Ok []
  | x :: l' => do h <- f x ; do t <- omap f l' ; Ok (h :: t)
  end.

(** [for (i = a; i <= b; i++)] *)
Definition zrange (a b : Z) : list Z := zseq a (Z.to_nat (b - a + 1)).

(** Conversion of an integral [double] (the value of [floor] or [ceil], or a
    product of [int]s) to [int]. *)
Definition to_int (z : Z) : outcome Z :=
  if (-2147483648 <=? z) && (z <=? INT_MAX) then Ok z else UB.

(** [a[i]] for an array of [length l] elements. *)
Definition ld {A} (l : list A) (i : Z) : outcome A :=
  if i <? 0 then UB else
  match nth_error l (Z.to_nat i) with Some v => Ok v | None => UB end.

(** ** Geometry *)

(** One direction of the cell: the coordinate of node 0 ([xin] in x, 0 in y
    and z; nlocVecRoutines.c:77-82, 261-266), [range_x], [delta_x], [BCx] and
    [pSQ->nloc[0]]. *)
Record axis := Axis { a_org : Q; a_len : Q; a_del : Q; a_bc : Z; a_nloc : Z }.

(** The cell: three directions, [cell_typ], the entries 0,1,2,4,5,8 of
    [metricT], and whether [sqAmbientFlag] or [sqHighTFlag] is 1. *)
Record cell := Cell {
  ax : axis; ay : axis; az : axis;
  c_typ : Z;
  m0 : Q; m1 : Q; m2 : Q; m4 : Q; m5 : Q; m8 : Q;
  c_sq : bool }.

(** [DMVertices]: first and last node of the process in x, y and z. *)
Record dom := Dom { xs_ : Z; xe_ : Z; ys_ : Z; ye_ : Z; zs_ : Z; ze_ : Z }.

(** nlocVecRoutines.c:85-86 *)
Definition DMnx (D : dom) : Z := xe_ D - xs_ D + 1.
Definition DMny (D : dom) : Z := ye_ D - ys_ D + 1.

(** nlocVecRoutines.c:32 *)
Definition TEMP_TOL : Q := 1 # 1000000000000.

(** [CalculateDistance] (initialization.c:3687-3699) followed by [r2 *= r2]
    (nlocVecRoutines.c:294-295).  For any other [cell_typ] the distance is not
    assigned. *)
Definition calc_r2 (c : cell) (x y z xref yref zref : Q) : outcome Q :=
  let xx := (x - xref)%Q in let yy := (y - yref)%Q in let zz := (z - zref)%Q in
  if c_typ c =? 0 then Ok (xx * xx + yy * yy + zz * zz)%Q
  else if (10 <? c_typ c) && (c_typ c <? 20) then
    Ok (m0 c * (xx * xx) + m1 c * (xx * yy) + m2 c * (xx * zz)
        + m4 c * (yy * yy) + m5 c * (yy * zz) + m8 c * (zz * zz))%Q
  else UB.

(** First and last periodic image of an atom at [x0] that is looked at
    (nlocVecRoutines.c:120-151, 207-237). *)
Definition image_range (sq : bool) (a : axis) (rcb x0 : Q) : outcome (Z * Z) :=
  if a_bc a =? 0 then
    if sq then
      let rcut := (inject_Z (a_nloc a) * a_del a)%Q in
      do pmax <- to_int (Qfloor ((rcb + a_len a - x0 + rcut) / a_len a + TEMP_TOL)) ;
      do pmin <- to_int (- Qfloor ((rcb + x0 + rcut) / a_len a + TEMP_TOL)) ;
      Ok (pmin, pmax)
    else
      do pmax <- to_int (Qfloor ((rcb + a_len a - x0) / a_len a + TEMP_TOL)) ;
      do pmin <- to_int (- Qfloor ((rcb + x0) / a_len a + TEMP_TOL)) ;
      Ok (pmin, pmax)
  else Ok (0, 0).

(** Coordinate of an image ([x0_i], nlocVecRoutines.c:155-161). *)
Definition img (a : axis) (x0 : Q) (p : Z) : Q := (x0 + a_len a * inject_Z p)%Q.

(** The test that skips an image (nlocVecRoutines.c:156,159,162), with
    [DMxs], [DMxe] of lines 77-82. *)
Definition skipped (a : axis) (d0 d1 : Z) (rcb xi : Q) : bool :=
  let dms := (a_org a + inject_Z d0 * a_del a)%Q in
  let dme := (a_org a + inject_Z d1 * a_del a)%Q in
  negb (Qle_bool (dms - rcb) xi) || Qle_bool (dme + rcb) xi.

(** First and last node of the rc-region of an image inside the process domain
    (nlocVecRoutines.c:258-275). *)
Definition rc_box (a : axis) (d0 d1 : Z) (rcb xi : Q) : outcome (Z * Z) :=
  do l <- to_int (Qceiling ((xi - a_org a - rcb) / a_del a)) ;
  do r <- to_int (Qfloor ((xi - a_org a + rcb) / a_del a)) ;
  Ok (Z.max d0 l, Z.min d1 r).

(** ** The list *)

(** One row of [ATOM_NLOC_INFLUENCE_OBJ].  The members xs..ze are only ever
    written and freed and are left out. *)
Record entry := Entry {
  e_x : Q; e_y : Q; e_z : Q; e_atom : Z; e_ndc : Z; e_pos : list Z }.

(** Per-type input: [psd.rc[0..lmax]], [CUTOFF_x/y/z] and [nAtomv]. *)
Record atyp := Atyp { t_rc : list Q; t_cx : Q; t_cy : Q; t_cz : Q; t_n : Z }.

(** nlocVecRoutines.c:96-100 *)
Definition Qmaxc (a b : Q) : Q := if Qle_bool b a then a else b.
Definition max_rc (t : atyp) : Q := fold_left Qmaxc (t_rc t) 0%Q.

(** nlocVecRoutines.c:103-110 *)
Definition rcbox (c : cell) (t : atyp) : Q * Q * Q :=
  let rc := max_rc t in
  if c_typ c =? 0 then (rc, rc, rc) else (t_cx t, t_cy t, t_cz t).

(** The images of the atom at [(x0,y0,z0)] that pass the three tests, in the
    order of the loops (nlocVecRoutines.c:154-166 and 240-248). *)
Definition images (c : cell) (D : dom) (rb : Q * Q * Q) (p0 : Q * Q * Q)
  : outcome (list (Z * Z * Z)) :=
  let '(bx, by_, bz) := rb in
  let '(x0, y0, z0) := p0 in
  do px <- image_range (c_sq c) (ax c) bx x0 ;
  do py <- image_range (c_sq c) (ay c) by_ y0 ;
  do pz <- image_range (c_sq c) (az c) bz z0 ;
  Ok (flat_map (fun r =>
        if skipped (az c) (zs_ D) (ze_ D) bz (img (az c) z0 r) then [] else
        flat_map (fun q =>
          if skipped (ay c) (ys_ D) (ye_ D) by_ (img (ay c) y0 q) then [] else
          flat_map (fun p =>
            if skipped (ax c) (xs_ D) (xe_ D) bx (img (ax c) x0 p) then []
            else [(p, q, r)])
          (zrange (fst px) (snd px)))
        (zrange (fst py) (snd py)))
      (zrange (fst pz) (snd pz))).

(** The nodes of the rc-region of one image (nlocVecRoutines.c:250-305): the
    box, the size of the buffer, and the indices stored in it. *)
Definition fill_entry (c : cell) (D : dom) (rb : Q * Q * Q) (rc2 : Q) (p0 : Q * Q * Q)
    (at_ : Z) (im : Z * Z * Z) : outcome entry :=
  let '(bx, by_, bz) := rb in
  let '(x0, y0, z0) := p0 in
  let '(p, q, r) := im in
  let xi := img (ax c) x0 p in let yi := img (ay c) y0 q in let zi := img (az c) z0 r in
  do X <- rc_box (ax c) (xs_ D) (xe_ D) bx xi ;
  do Y <- rc_box (ay c) (ys_ D) (ye_ D) by_ yi ;
  do Z_ <- rc_box (az c) (zs_ D) (ze_ D) bz zi ;
  do nxy <- to_int ((snd X - fst X + 1) * (snd Y - fst Y + 1)) ;
  do ndc <- to_int (nxy * (snd Z_ - fst Z_ + 1)) ;
  do ps <- oflat (fun k =>
    oflat (fun j =>
      oflat (fun i =>
        do r2 <- calc_r2 c (a_org (ax c) + inject_Z i * a_del (ax c))
                           (a_org (ay c) + inject_Z j * a_del (ay c))
                           (a_org (az c) + inject_Z k * a_del (az c)) xi yi zi ;
        if Qle_bool r2 rc2 then
          do s <- to_int ((k - zs_ D) * (DMnx D * DMny D)
                          + (j - ys_ D) * DMnx D + (i - xs_ D)) ; Ok [s]
        else Ok [])
      (zrange (fst X) (snd X)))
    (zrange (fst Y) (snd Y)))
  (zrange (fst Z_) (snd Z_)) ;
  let count := Z.of_nat (length ps) in
  (* more indices than the buffer of [ndc] ints can hold *)
  if (0 <? count) && (ndc <? count) then UB
  else Ok (Entry xi yi zi at_ count ps).

(** First pass over the atoms of a type: the number of images
    (nlocVecRoutines.c:112-167); [n] atoms from index [k]. *)
Fixpoint count_pass (c : cell) (D : dom) (rb : Q * Q * Q) (pos : list (Q * Q * Q))
    (n : nat) (k : Z) : outcome Z :=
  match n with
  | O => Ok 0
  | S n' =>
    do p0 <- ld pos k ;
    do l <- images c D rb p0 ;
    do m <- count_pass c D rb pos n' (k + 1) ;
    Ok (Z.of_nat (length l) + m)
  end.

(** Second pass: the rows of the temporary object (nlocVecRoutines.c:198-313). *)
Fixpoint fill_pass (c : cell) (D : dom) (rb : Q * Q * Q) (rc2 : Q) (pos : list (Q * Q * Q))
    (n : nat) (k : Z) : outcome (list entry) :=
  match n with
  | O => Ok []
  | S n' =>
    do p0 <- ld pos k ;
    do l <- images c D rb p0 ;
    do es <- omap (fill_entry c D rb rc2 p0 k) l ;
    do rest <- fill_pass c D rb rc2 pos n' (k + 1) ;
    Ok (es ++ rest)
  end.

(** One turn of the loop over the types (nlocVecRoutines.c:95-377): [st] is
    [(atmcount, atmcount2)].  The result row of the type follows. *)
Definition type_turn (c : cell) (D : dom) (pos : list (Q * Q * Q)) (st : Z * Z) (t : atyp)
  : outcome ((Z * Z) * list entry) :=
  let rc := max_rc t in
  let rc2 := (rc * rc)%Q in
  let rb := rcbox c t in
  let n := Z.to_nat (t_n t) in
  do cnt <- count_pass c D rb pos n (fst st) ;
  let atmcount := fst st + Z.of_nat n in
  if cnt =? 0 then Ok ((atmcount, atmcount), [])
  else
    do es <- fill_pass c D rb rc2 pos n (snd st) ;
    let atmcount2 := snd st + Z.of_nat n in
    (* the temporary arrays have [cnt] rows *)
    if cnt <? Z.of_nat (length es) then UB
    else
      let kept := filter (fun e => 0 <? e_ndc e) es in
      if Z.of_nat (length kept) =? 0 then Ok ((atmcount, atmcount), [])
      else Ok ((atmcount, atmcount2), kept).

Fixpoint type_loop (c : cell) (D : dom) (pos : list (Q * Q * Q)) (st : Z * Z) (ts : list atyp)
  : outcome (list (list entry)) :=
  match ts with
  | [] => Ok []
  | t :: ts' =>
    do v <- type_turn c D pos st t ;
    do rest <- type_loop c D pos (fst v) ts' ;
    Ok (snd v :: rest)
  end.

(** [GetInfluencingAtoms_nloc] (nlocVecRoutines.c:43-385) for a process that
    belongs to the communicator. *)
Definition GetInfluencingAtoms_nloc (c : cell) (D : dom) (pos : list (Q * Q * Q))
    (ts : list atyp) : outcome (list (list entry)) :=
  type_loop c D pos (0, 0) ts.
