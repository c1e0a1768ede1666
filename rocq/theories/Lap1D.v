(** Dense one-dimensional Laplacian matrices, src/kroneckerLaplacian.c.
    Numbers are elements of an arbitrary commutative ring. *)
From Coq Require Import Arith List Bool Lia ZArith.
From Verif Require Import CBase Kron.
Import ListNotations.

Section Ring.
  Variables (K : Type) (zero : K) (add mul : K -> K -> K).
  Variable conj : K -> K.
  Notation mem := (nat -> K) (only parsing).

  (** int loop variable running from a (inclusive) over n values *)
  Definition zseq (a : Z) (n : nat) : list Z := map (fun k => (a + Z.of_nat k)%Z) (seq 0 n).
  (** write at int offset [off] of an array of n entries *)
  Definition put (n : nat) (M : nat -> K) (off : Z) (f : K -> K) : outcome (nat -> K) :=
    if ((0 <=? off) && (off <? Z.of_nat n))%Z
    then Ok (upd K M (Z.to_nat off) (f (M (Z.to_nat off)))) else UB.
  (** int arithmetic of the loops stays in range *)
  Definition int_ok (N FDn : nat) : bool :=
    ((Z.of_nat N * Z.of_nat N <=? INT_MAX) && (Z.of_nat N + Z.of_nat N + Z.of_nat FDn <=? INT_MAX))%Z.

  (** src/kroneckerLaplacian.c:133-147, on the array zeroed at 121 *)
  Definition Lap_1D_Dirichlet (FDn : nat) (w : nat -> K) (N : nat) : outcome (nat -> K) :=
    if negb (int_ok N FDn) then UB else
    for_k (seq 0 N) (fun M i =>
      let lo := Z.max 0 (Z.of_nat i - Z.of_nat FDn) in
      let hi := Z.min (Z.of_nat N - 1) (Z.of_nat i + Z.of_nat FDn) in
      fold_left (fun o j => do M <- o ; put (N * N) M (j * Z.of_nat N + Z.of_nat i) (fun _ => w (Z.abs_nat (j - Z.of_nat i))))
        (zseq lo (Z.to_nat (hi - lo + 1))) (Ok M)) (fun _ => zero).

  (** src/kroneckerLaplacian.c:168-182; % truncates towards zero *)
  Definition Lap_1D_Periodic (FDn : nat) (w : nat -> K) (N : nat) : outcome (nat -> K) :=
    if negb (int_ok N FDn) then UB else
    for_k (seq 0 N) (fun M i =>
      fold_left (fun o j => do M <- o ;
          let j_ := Z.rem (j + Z.of_nat N) (Z.of_nat N) in
          put (N * N) M (j_ * Z.of_nat N + Z.of_nat i) (fun x => add x (w (Z.abs_nat (j - Z.of_nat i)))))
        (zseq (Z.of_nat i - Z.of_nat FDn) (2 * FDn + 1)) (Ok M)) (fun _ => zero).

  (** src/kroneckerLaplacian.c:203-223 *)
  Definition Lap_1D_Periodic_complex (FDn : nat) (w : nat -> K) (N : nat) (phase : K) : outcome (nat -> K) :=
    if negb (int_ok N FDn) then UB else
    for_k (seq 0 N) (fun M i =>
      fold_left (fun o j => do M <- o ;
          let j_ := Z.rem (j + Z.of_nat N) (Z.of_nat N) in
          put (N * N) M (j_ * Z.of_nat N + Z.of_nat i) (fun x =>
            if (j <? 0)%Z then add x (mul (w (Z.abs_nat (j - Z.of_nat i))) (conj phase))
            else if (Z.of_nat N <=? j)%Z then add x (mul (w (Z.abs_nat (j - Z.of_nat i))) phase)
            else add x (w (Z.abs_nat (j - Z.of_nat i)))))
        (zseq (Z.of_nat i - Z.of_nat FDn) (2 * FDn + 1)) (Ok M)) (fun _ => zero).
End Ring.
