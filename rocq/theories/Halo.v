(** Model of the halo exchange and of the stencil loops of the matrix-free
    Laplacian and gradient on an orthogonal cell:
    src/lapVecRoutines.c:306-612 [Lap_plus_diag_vec_mult_orth] with
    140-255 [stencil_3axis_thread_*], src/gradVecRoutines.c:61-330
    [Gradient_vec_dir] with [Calc_DX], and their k-point versions
    src/lapVecRoutinesKpt.c:179-510 and src/gradVecRoutinesKpt.c:63-340, which
    multiply the halo points outside the global domain by a phase factor.

    Arrays are maps from offsets; a read or write outside the allocated size
    and a read of a cell of the malloc'ed x_ex that was not written are [UB].
    MPI_Ineighbor_alltoallv on the Cartesian communicator is modelled by
    matching, for every ordered pair of processes, their messages in the order
    of the neighbour list; a message of another length than the receive count
    is [UB].  Simplifications: ncol = 1 (all the calls), order = 2 FDn, int
    arithmetic without overflow. *)
From Coq Require Import ZArith List Bool Lia.
From Verif Require Import CBase BlockDecomp Text Collect.
Import ListNotations.
Local Open Scope Z_scope.

(** grid points, process coordinates, sizes: one integer per dimension *)
Definition pt : Type := (Z * Z * Z)%type.
Definition at_ (p : pt) (d : nat) : Z :=
  let '(i, j, k) := p in match d with O => i | S O => j | _ => k end.
Definition set_ (p : pt) (d : nat) (v : Z) : pt :=
  let '(i, j, k) := p in match d with O => (v, j, k) | S O => (i, v, k) | _ => (i, j, v) end.
Definition vec (f : nat -> Z) : pt := (f 0%nat, f 1%nat, f 2%nat).
Definition pt_eqb (p q : pt) : bool :=
  (at_ p 0 =? at_ q 0) && (at_ p 1 =? at_ q 1) && (at_ p 2 =? at_ q 2).

(** the iteration order of the triple loops: k outermost, i innermost, from
    lo (included) to hi (excluded) *)
Definition zr (a b : Z) : list Z := zrange a (Z.to_nat (b - a)).
Definition box (lo hi : pt) : list pt :=
  flat_map (fun k => flat_map (fun j => map (fun i => (i, j, k)) (zr (at_ lo 0) (at_ hi 0)))
                              (zr (at_ lo 1) (at_ hi 1))) (zr (at_ lo 2) (at_ hi 2)).
(** the macros X(0,i,j,k) and x_ex(0,i,j,k), src/lapVecRoutines.c:313-314 *)
Definition lin (n : pt) (p : pt) : Z := at_ p 2 * (at_ n 0 * at_ n 1) + at_ p 1 * at_ n 0 + at_ p 0.

(** a neighbour slot nbr_i = 2 d + (1 if right) *)
Definition slot : Type := (nat * bool)%type.
Definition slots : list slot := [(0%nat, false); (0%nat, true); (1%nat, false); (1%nat, true); (2%nat, false); (2%nat, true)].
Definition opp (s : slot) : slot := (fst s, negb (snd s)).
Definition slot_eqb (a b : slot) : bool := Nat.eqb (fst a) (fst b) && Bool.eqb (snd a) (snd b).
Definition slot_id (s : slot) : nat := (2 * fst s + if snd s then 1 else 0)%nat.

Fixpoint omap {A B} (f : A -> outcome B) (l : list A) : outcome (list B) :=
  match l with
  | [] => Ok []
  | x :: r => do y <- f x ; do t <- omap f r ; Ok (y :: t)
  end.

Section Halo.
  Variable K : Type.
  Variables (k0 : K) (kadd kmul ksub : K -> K -> K).
  Declare Scope k_scope.
  Notation "x + y" := (kadd x y) : k_scope.
  Notation "x * y" := (kmul x y) : k_scope.
  Notation "x - y" := (ksub x y) : k_scope.
  Delimit Scope k_scope with K.

  (** dims, periods, the global grid sizes, FDn, and the directions along
      which x_ex is extended: all for the Laplacian, dir for the gradient *)
  Variables (dims : pt) (per : nat -> bool) (N : pt) (F : Z) (act : nat -> bool).
  (** the phase factors by slot (all one in the real versions):
      src/lapVecRoutinesKpt.c:262-271, src/gradVecRoutinesKpt.c:100-128 *)
  Variable ph : slot -> K.
  Variable blk : bool.

  (** DMnx.. and DMVertices[0].. of process c: src/initialization.c, through
      block_decompose *)
  Definition szd (d : nat) (c : Z) : Z := block_decompose (at_ N d) (at_ dims d) c.
  Definition std (d : nat) (c : Z) : Z := block_decompose_nstart (at_ N d) (at_ dims d) c.
  Definition sz (p : pt) : pt := vec (fun d => szd d (at_ p d)).
  Definition st (p : pt) : pt := vec (fun d => std d (at_ p d)).
  Definition nd (n : pt) : Z := at_ n 0 * at_ n 1 * at_ n 2.
  (** the extension widths exDir[d], src/gradVecRoutines.c:75-76; FDn for the
      Laplacian; the extended sizes, src/lapVecRoutines.c:342-346 *)
  Definition w (d : nat) : Z := if act d then F else 0.
  Definition szx (p : pt) : pt := vec (fun d => at_ (sz p) d + 2 * w d).

  (** MPI_Cart_shift: the neighbour in slot s, None = MPI_PROC_NULL *)
  Definition nbr (p : pt) (s : slot) : option pt :=
    let '(d, rt) := s in
    let c := if rt : bool then at_ p d + 1 else at_ p d - 1 in
    if (0 <=? c) && (c <? at_ dims d) then Some (set_ p d c)
    else if per d then Some (set_ p d (c mod at_ dims d)) else None.
  Definition is_nbr (p q : pt) (s : slot) : bool :=
    match nbr p s with Some q' => pt_eqb q' q | None => false end.
  Definition slots_to (p q : pt) : list slot := filter (is_nbr p q) slots.
  (** the position of slot s among the slots of p whose neighbour is q *)
  Fixpoint pos (l : list slot) (s : slot) : nat :=
    match l with [] => O | x :: r => if slot_eqb x s then O else S (pos r s) end.
  (** the slot of q whose message arrives in slot r of p *)
  Definition match_slot (p q : pt) (r : slot) : option slot :=
    nth_error (slots_to q p) (pos (slots_to p q) r).

  (** the matching used by the exchange: [match_slot], in-order matching per
      pair of processes; kept as a parameter to state what happens under
      another reading of the MPI standard *)
  Variable msel : pt -> pt -> slot -> option slot.

  (** istart..kend of the send boxes, src/lapVecRoutines.c:380-385 *)
  Definition send_lo (n : pt) (s : slot) : pt :=
    vec (fun d => if Nat.eqb d (fst s) && snd s then at_ n d - F else 0).
  Definition send_hi (n : pt) (s : slot) : pt :=
    vec (fun d => if Nat.eqb d (fst s) && negb (snd s) then F else at_ n d).
  (** istart_in..kend_in of the receive boxes, src/lapVecRoutines.c:482-487 *)
  Definition recv_lo (n : pt) (s : slot) : pt :=
    vec (fun d => if Nat.eqb d (fst s) then (if snd s then at_ n d + w d else 0) else w d).
  Definition recv_hi (n : pt) (s : slot) : pt :=
    vec (fun d => if Nat.eqb d (fst s) then (if snd s then at_ n d + 2 * w d else w d) else at_ n d + w d).
  (** nbrcount of the packing loop, src/lapVecRoutines.c:407 *)
  Definition pack_slot (s : slot) : slot :=
    if (at_ dims (fst s) <? 3) && per (fst s) then opp s else s.
  Definition act_slots : list slot := filter (fun s => act (fst s)) slots.
  (** sendcounts = recvcounts, src/lapVecRoutines.c:436-438 and
      src/gradVecRoutines.c:119-121 *)
  Definition count (n : pt) (s : slot) : Z :=
    if act (fst s) then F * (match fst s with O => at_ n 1 * at_ n 2 | S O => at_ n 0 * at_ n 2 | _ => at_ n 0 * at_ n 1 end) else 0.
  (** sdispls = rdispls, src/lapVecRoutines.c:440-445 *)
  Fixpoint displ_in (l : list slot) (n : pt) (s : slot) : Z :=
    match l with [] => 0 | x :: r => if slot_eqb x s then 0 else count n x + displ_in r n s end.
  Definition displ (n : pt) (s : slot) : Z := displ_in slots n s.
  (** the size nd_in = nd_out of the two buffers, src/lapVecRoutines.c:394-396,
      src/gradVecRoutines.c:111-112 *)
  Definition nd_buf (n : pt) : Z :=
    2 * F * ((if act 0%nat then at_ n 1 * at_ n 2 else 0) + (if act 1%nat then at_ n 0 * at_ n 2 else 0) + (if act 2%nat then at_ n 0 * at_ n 1 else 0)).

  (** reads of the input array x, of DMnd entries, and of x_ex *)
  Definition rdx (n : pt) (x : Z -> K) (a : Z) : outcome K :=
    if (0 <=? a) && (a <? nd n) then Ok (x a) else UB.
  Definition rd (size : Z) (m : Z -> option K) (a : Z) : outcome K :=
    if (0 <=? a) && (a <? size) then match m a with Some v => Ok v | None => UB end else UB.
  Definition wr (size : Z) (m : Z -> option K) (a : Z) (v : K) : outcome (Z -> option K) :=
    if (0 <=? a) && (a <? size) then Ok (fun b => if b =? a then Some v else m b) else UB.
  Fixpoint wr_all (size : Z) (m : Z -> option K) (l : list (Z * K)) : outcome (Z -> option K) :=
    match l with
    | [] => Ok m
    | (a, v) :: r => do m' <- wr size m a v ; wr_all size m' r
    end.

  (** src/lapVecRoutines.c:403-424: packing of x_out; more values than the
      buffer holds are [UB] *)
  Definition pack (n : pt) (x : Z -> K) : outcome (list K) :=
    do l <- omap (fun q => rdx n x (lin n q)) (flat_map (fun s => box (send_lo n (pack_slot s)) (send_hi n (pack_slot s))) act_slots) ;
    if Z.of_nat (length l) <=? nd_buf n then Ok l else UB.
  (** the message of slot s *)
  Definition slice (l : list K) (off len : Z) : outcome (list K) :=
    if (0 <=? off) && (0 <=? len) && (off + len <=? Z.of_nat (length l))
    then Ok (firstn (Z.to_nat len) (skipn (Z.to_nat off) l)) else UB.
  Definition message (x : pt -> Z -> K) (p : pt) (r : slot) : outcome (option (list K)) :=
    match nbr p r with
    | None => Ok None
    | Some q =>
      match msel p q r with
      | None => UB
      | Some s =>
        do out <- pack (sz q) (x q) ;
        do l <- slice out (displ (sz q) s) (count (sz q) s) ;
        if Z.of_nat (length l) =? count (sz p) r then Ok (Some l) else UB
      end
    end.
  (** x_in after MPI_Wait, src/lapVecRoutines.c:399, 450-452, 494 *)
  Fixpoint receive (x : pt -> Z -> K) (p : pt) (l : list slot) (buf : list K) : outcome (list K) :=
    match l with
    | [] => Ok buf
    | r :: t =>
      do m <- message x p r ;
      do buf' <- (match m with None => Ok buf | Some v => place K buf (displ (sz p) r) v end) ;
      receive x p t buf'
    end.
  (** src/lapVecRoutinesKpt.c:414, 459 and src/gradVecRoutinesKpt.c:243, 301:
      the phase of a halo point q of slot s; the gradient tests the first
      point of the block only (blk = true) *)
  Definition phased (p : pt) (s : slot) (q : pt) (v : K) : K :=
    let o := st p in
    let t := if blk then recv_lo (sz p) s else q in
    if is_grid_outside (at_ t 0) (at_ t 1) (at_ t 2) (- w 0) (- w 1) (- w 2)
         (DM (at_ o 0) (at_ o 0 + at_ (sz p) 0 - 1) (at_ o 1) (at_ o 1 + at_ (sz p) 1 - 1) (at_ o 2) (at_ o 2 + at_ (sz p) 2 - 1))
         (at_ N 0) (at_ N 1) (at_ N 2)
    then (v * ph s)%K else v.

  Definition nproc : Z := at_ dims 0 * at_ dims 1 * at_ dims 2.

  (** the halo points and the values copied there *)
  Definition halo_recv (x : pt -> Z -> K) (p : pt) : outcome (list (Z * K)) :=
    let n := sz p in
    do b <- receive x p slots (repeat k0 (Z.to_nat (nd_buf n))) ;
    let tgt := flat_map (fun s => map (fun q => (s, q)) (box (recv_lo n s) (recv_hi n s))) act_slots in
    if Z.of_nat (length tgt) <=? Z.of_nat (length b)
    then Ok (map (fun z => (lin (szx p) (snd (fst z)), phased p (fst (fst z)) (snd (fst z)) (snd z))) (combine tgt b))
    else UB.
  (** src/lapVecRoutines.c:528-574 *)
  Definition halo_self (x : pt -> Z -> K) (p : pt) : outcome (list (Z * K)) :=
    let n := sz p in
    do ls <- omap (fun s =>
      let tgt := box (recv_lo n s) (recv_hi n s) in
      if per (fst s)
      then do l <- omap (fun q => rdx n (x p) (lin n q)) (box (send_lo n (opp s)) (send_hi n (opp s))) ;
           Ok (map (fun z => (lin (szx p) (fst z), phased p s (fst z) (snd z))) (combine tgt l))
      else Ok (map (fun q => (lin (szx p) q, k0)) tgt)) act_slots ;
    Ok (concat ls).
  (** x_ex: src/lapVecRoutines.c:463-478, 490-574 *)
  Definition extend (x : pt -> Z -> K) (p : pt) : outcome (Z -> option K) :=
    let n := sz p in
    let wv := vec w in
    let inner := box wv (vec (fun d => at_ n d + w d)) in
    do vals <- omap (rdx n (x p)) (zrange 0 (length inner)) ;
    do m1 <- wr_all (nd (szx p)) (fun _ => None) (combine (map (lin (szx p)) inner) vals) ;
    do h <- (if 1 <? nproc then halo_recv x p else halo_self x p) ;
    wr_all (nd (szx p)) m1 h.

  (** the sum over the radius, r = 1..FDn, in the order of the loop *)
  Fixpoint radius_sum (f : Z -> outcome K) (r0 : Z) (n : nat) (acc : K) : outcome K :=
    match n with
    | O => Ok acc
    | S m => do v <- f r0 ; radius_sum f (Z.add r0 1) m (acc + v)%K
    end.
  (** write one value per grid point of the block, in loop order, at
      y[k*DMnx*DMny + j*DMnx + i] *)
  Fixpoint sweep (n : pt) (f : pt -> outcome K) (l : list pt) (y : Z -> option K) : outcome (Z -> option K) :=
    match l with
    | [] => Ok y
    | q :: r => do v <- f q ; do y' <- wr (nd n) y (lin n q) v ; sweep n f r y'
    end.

  (** ** the Laplacian: D2 d r are the second-derivative coefficients *)
  Variable D2 : nat -> Z -> K.
  (** src/lapVecRoutines.c:140-255, with stencil_coefs[3 r + d] = a D2 d r
      (lines 362-370) and coef_0 = w2_diag (372-376); v0[idx] is v or x (324).
      The products of the three directions are added in the order x, y, z. *)
  Definition lap_point (ex : pt) (m : Z -> option K) (n : pt) (a b c : K) (v : Z -> K) (q : pt) : outcome K :=
    let off := lin ex (vec (fun d => at_ q d + w d)) in
    let sh (d : nat) : Z := match d with O => 1 | S O => at_ ex 0 | _ => at_ ex 0 * at_ ex 1 end in
    let w2_diag := (((D2 0%nat 0 * a + D2 1%nat 0 * a) + D2 2%nat 0 * a) + c)%K in
    do x0 <- rd (nd ex) m off ;
    do s <- radius_sum (fun r =>
      let one (d : nat) := do p1 <- rd (nd ex) m (off - r * sh d) ; do p2 <- rd (nd ex) m (off + r * sh d) ; Ok ((p1 + p2) * (D2 d r * a))%K in
      do e0 <- one 0%nat ; do e1 <- one 1%nat ; do e2 <- one 2%nat ; Ok ((e0 + e1) + e2)%K) 1 (Z.to_nat F) (w2_diag * x0)%K ;
    do vq <- rdx n v (lin n q) ;
    Ok (s + b * (vq * x0))%K.
  (** Lap_plus_diag_vec_mult_orth at process p.  useb = false is the case
      fabs(b) < 1e-14 || v == NULL of line 324. *)
  Definition lap_mult (useb : bool) (a b c : K) (v x : pt -> Z -> K) (p : pt) : outcome (Z -> option K) :=
    let b' := if useb then b else k0 in
    let v' := if useb then v p else x p in
    do m <- extend x p ;
    sweep (sz p) (lap_point (szx p) m (sz p) a b' c v') (box (vec (fun _ => 0)) (sz p)) (fun _ => None).

  (** ** the gradient along dir: src/gradVecRoutines.c:61-330 *)
  Variable D1 : nat -> Z -> K.
  Definition grad_point (dir : nat) (ex : pt) (m : Z -> option K) (c : K) (q : pt) : outcome K :=
    let off := lin ex (vec (fun d => at_ q d + w d)) in
    let sh : Z := match dir with O => 1 | S O => at_ ex 0 | _ => at_ ex 0 * at_ ex 1 end in
    do x0 <- rd (nd ex) m off ;
    radius_sum (fun r => do p2 <- rd (nd ex) m (off + r * sh) ; do p1 <- rd (nd ex) m (off - r * sh) ; Ok ((p2 - p1) * D1 dir r)%K)
      1 (Z.to_nat F) (x0 * c)%K.
  Definition grad_mult (dir : nat) (c : K) (x : pt -> Z -> K) (p : pt) : outcome (Z -> option K) :=
    do m <- extend x p ;
    sweep (sz p) (grad_point dir (szx p) m c) (box (vec (fun _ => 0)) (sz p)) (fun _ => None).
End Halo.
