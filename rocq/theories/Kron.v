(** Kronecker-product application of the Laplacian, src/kroneckerLaplacian.c.

    Numbers are elements of an arbitrary commutative ring (doubles are replaced
    by exact numbers; rounding is not modelled).  A buffer is a capacity and a
    function from offsets to numbers; memory fresh from malloc holds arbitrary
    numbers.  cblas_?gemm is modelled by its specification (alpha = 1, beta = 0,
    so the old contents of C are not read); an access outside a buffer or a
    leading dimension that is too small is [UB].  In every call below the output
    buffer is distinct from both inputs, as gemm requires. *)
From Coq Require Import Arith List Bool Lia ZArith Ring Ring_theory.
From Verif Require Import CBase.
Import ListNotations.

Section Ring.
  Variables (K : Type) (zero one : K) (add mul sub : K -> K -> K) (opp : K -> K).
  Variable conj : K -> K.

  (** sum of f 0 .. f (n-1) *)
  Fixpoint sumn (n : nat) (f : nat -> K) : K :=
    match n with 0 => zero | S m => add (sumn m f) (f m) end.

  Record buf := Buf { cap : nat; dat : nat -> K }.
  Inductive trans := NoTrans | Trans | ConjTrans.
  (** entry (i,j) of op(A), A stored by columns from offset [off] with leading dimension [ld] *)
  Definition elem (t : trans) (A : buf) (off ld i j : nat) : K :=
    match t with
    | NoTrans => dat A (off + (i + ld * j))
    | Trans => dat A (off + (j + ld * i))
    | ConjTrans => conj (dat A (off + (j + ld * i)))
    end.
  (** the r x c block with leading dimension ld fits *)
  Definition fits (A : buf) (off ld r c : nat) : bool :=
    (1 <=? r) && (1 <=? c) && (r <=? ld) && (off + ld * (c - 1) + r <=? cap A).
  Definition stored (t : trans) (A : buf) (off ld r c : nat) : bool :=
    match t with NoTrans => fits A off ld r c | _ => fits A off ld c r end.
  (** C := op(A) op(B): op(A) is M x Kd, op(B) is Kd x N *)
  Definition gemm (tA tB : trans) (M N Kd : nat) (A : buf) (offA lda : nat) (B : buf) (offB ldb : nat)
      (C : buf) (offC ldc : nat) : outcome buf :=
    if stored tA A offA lda M Kd && stored tB B offB ldb Kd N && fits C offC ldc M N then
      Ok (Buf (cap C) (fun x =>
        if offC <=? x then
          let i := (x - offC) mod ldc in let j := (x - offC) / ldc in
          if (i <? M) && (j <? N)
          then sumn Kd (fun l => mul (elem tA A offA lda i l) (elem tB B offB ldb l j))
          else dat C x
        else dat C x))
    else UB.

  (** P[i] *= diag[i] for i < n *)
  Definition scale_by (n : nat) (P D : buf) : outcome buf :=
    if (n <=? cap P) && (n <=? cap D)
    then Ok (Buf (cap P) (fun x => if x <? n then mul (dat P x) (dat D x) else dat P x))
    else UB.

  (** for (int k = 0; k < n; k++) with an abortable body *)
  Fixpoint for_k {S : Type} (l : list nat) (body : S -> nat -> outcome S) (s : S) : outcome S :=
    match l with [] => Ok s | k :: r => do s' <- body s k ; for_k r body s' end.

  (** src/kroneckerLaplacian.c:294-336; [j1], [j2]: contents of the two malloc'ed blocks.
      The int products Nx*Ny*Nz must not overflow. *)
  Definition Lap_Kron (Nx Ny Nz : nat) (Vx Vy Vz vec diag out : buf) (j1 j2 : nat -> K) : outcome buf :=
    if (INT_MAX <? Z.of_nat Nx * Z.of_nat Ny * Z.of_nat Nz)%Z then UB else
    let NxNy := Nx * Ny in
    let Nd := Nx * Ny * Nz in
    do s1 <- for_k (seq 0 Nz) (fun (s : buf * buf) k =>
        do t <- gemm NoTrans NoTrans Nx Ny Ny vec (k * NxNy) Nx Vy 0 Ny (fst s) 0 Nx ;
        do o <- gemm Trans NoTrans Nx Ny Nx Vx 0 Nx t 0 Nx (snd s) (k * NxNy) Nx ;
        Ok (t, o)) (Buf NxNy j1, out) ;
    do P <- gemm NoTrans NoTrans NxNy Nz Nz (snd s1) 0 NxNy Vz 0 Nz (Buf Nd j2) 0 NxNy ;
    do P <- scale_by Nd P diag ;
    do s2 <- for_k (seq 0 Nz) (fun (s : buf * buf) k =>
        do t <- gemm NoTrans Trans Nx Ny Ny (snd s) (k * NxNy) Nx Vy 0 Ny (fst s) 0 Nx ;
        do o <- gemm NoTrans NoTrans Nx Ny Nx Vx 0 Nx t 0 Nx (snd s) (k * NxNy) Nx ;
        Ok (t, o)) (fst s1, P) ;
    gemm NoTrans Trans NxNy Nz Nz (snd s2) 0 NxNy Vz 0 Nz (snd s1) 0 NxNy.

  (** src/kroneckerLaplacian.c:345-372; VyH, VzH are the conjugates of Vy, Vz
      (not transposed), src/kroneckerLaplacian.c:87, 98 *)
  Definition Lap_Kron_complex (Nx Ny Nz : nat) (Vx Vy Vz VyH VzH vec diag out : buf) (j1 j2 : nat -> K) : outcome buf :=
    if (INT_MAX <? Z.of_nat Nx * Z.of_nat Ny * Z.of_nat Nz)%Z then UB else
    let NxNy := Nx * Ny in
    let Nd := Nx * Ny * Nz in
    do s1 <- for_k (seq 0 Nz) (fun (s : buf * buf) k =>
        do t <- gemm NoTrans NoTrans Nx Ny Ny vec (k * NxNy) Nx VyH 0 Ny (fst s) 0 Nx ;
        do o <- gemm ConjTrans NoTrans Nx Ny Nx Vx 0 Nx t 0 Nx (snd s) (k * NxNy) Nx ;
        Ok (t, o)) (Buf NxNy j1, out) ;
    do P <- gemm NoTrans NoTrans NxNy Nz Nz (snd s1) 0 NxNy VzH 0 Nz (Buf Nd j2) 0 NxNy ;
    do P <- scale_by Nd P diag ;
    do s2 <- for_k (seq 0 Nz) (fun (s : buf * buf) k =>
        do t <- gemm NoTrans Trans Nx Ny Ny (snd s) (k * NxNy) Nx Vy 0 Ny (fst s) 0 Nx ;
        do o <- gemm NoTrans NoTrans Nx Ny Nx Vx 0 Nx t 0 Nx (snd s) (k * NxNy) Nx ;
        Ok (t, o)) (fst s1, P) ;
    gemm NoTrans Trans NxNy Nz Nz (snd s2) 0 NxNy Vz 0 Nz (snd s1) 0 NxNy.

  (** src/kroneckerLaplacian.c:221-248: three passes with a running counter *)
  Definition upd (f : nat -> K) (i : nat) (v : K) : nat -> K := fun x => if x =? i then v else f x.
  Definition eigval_Lap_3D (Nx Ny Nz : nat) (lx ly lz : nat -> K) (l0 : nat -> K) : nat -> K :=
    let p1 := fold_left (fun (s : nat * (nat -> K)) (_ : nat) =>
                fold_left (fun (s : nat * (nat -> K)) j => (fst s + 1, upd (snd s) (fst s) (lx j))) (seq 0 Nx) s)
                (seq 0 (Ny * Nz)) (0, l0) in
    let p2 := fold_left (fun (s : nat * (nat -> K)) (_ : nat) =>
                fold_left (fun (s : nat * (nat -> K)) j =>
                  fold_left (fun (s : nat * (nat -> K)) (_ : nat) => (fst s + 1, upd (snd s) (fst s) (add (snd s (fst s)) (ly j)))) (seq 0 Nx) s)
                  (seq 0 Ny) s) (seq 0 Nz) (0, snd p1) in
    let p3 := fold_left (fun (s : nat * (nat -> K)) k =>
                fold_left (fun (s : nat * (nat -> K)) (_ : nat) => (fst s + 1, upd (snd s) (fst s) (add (snd s (fst s)) (lz k)))) (seq 0 (Ny * Nx)) s)
                (seq 0 Nz) (0, snd p2) in
    snd p3.

  (** src/kroneckerLaplacian.c:103-108; [big x]: fabs(x) > 1e-8, [inv x]: 1/x *)
  Definition inv_eig (big : K -> bool) (inv : K -> K) (eig : nat -> K) : nat -> K :=
    fun i => if big (eig i) then inv (eig i) else zero.
End Ring.
Arguments Buf {K}. Arguments cap {K}. Arguments dat {K}.
