(** What the error of a self-consistent field iteration is, independently of the division over processes. *)
From Coq Require Import Reals ZArith List Permutation.
From Verif Require Import Scf.
Import ListNotations.
Local Open Scope R_scope.

(** All entries (out, in) of the whole grid in any order. *)
Definition entries : Type := list (R * R).
Fixpoint total (f : R * R -> R) (l : entries) : R := match l with [] => 0 | p :: l => f p + total f l end.
Definition sq_out (p : R * R) : R := fst p * fst p.
Definition sq_diff (p : R * R) : R := (fst p - snd p) * (fst p - snd p).
(** [e] is |out - in| / |out|, with C's results when the norm of out is zero. *)
Definition relative (l : entries) (e : fp) : Prop :=
  match e with
  | Num x => 0 <= x /\ (exists p, In p l /\ fst p <> 0) /\ x * x * total sq_out l = total sq_diff l
  | Inf => (forall p, In p l -> fst p = 0) /\ exists p, In p l /\ snd p <> 0
  | NaN => forall p, In p l -> fst p = 0 /\ snd p = 0
  end.
(** the entries held by the processes *)
Definition gather (ps : list (nat * list R * list R)) : entries :=
  concat (map (fun q => combine (snd (fst q)) (snd q)) ps).
(** every array has the length the loop assumes *)
Definition shaped (ncol : nat) (ps : list (nat * list R * list R)) : Prop :=
  forall d o i, In (d, o, i) ps -> length o = (ncol * d)%nat /\ length i = (ncol * d)%nat.
(** the whole column [i] of a distributed array, and its sum *)
Definition column (v : list (list (list R))) (i : nat) : list R := concat (map (fun p => nth i p []) v).
Fixpoint sumR (l : list R) : R := match l with [] => 0 | x :: l => x + sumR l end.
(** [ncol] columns of [N] entries over all the processes *)
Definition grid (ncol N : nat) (v : list (list (list R))) : Prop :=
  (forall p, In p v -> length p = ncol) /\ forall i, (i < ncol)%nat -> length (column v i) = N.
