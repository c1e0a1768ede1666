(** What the set-up of the DFT+U correction has to deliver (property C73),
    without reference to the loops of HubInit.v. *)
From Coq Require Import ZArith QArith List Lia Bool.
From Verif Require Import CBase VnlOp HubInit.
Import ListNotations.
Local Open Scope Z_scope.

(** The angular momenta of a type with a correction, in increasing order. *)
Definition chosen (t : hub) : list Z :=
  filter (fun l => Qle_bool (1 # 1000000000000) (h_U t l)) (map Z.of_nat (seq 0 (length (h_shells t)))).

(** The corrected orbitals: the l of every (l, m). *)
Definition orbs (ls : list Z) : list Z := flat_map (fun l => repeat l (Z.to_nat (2 * l + 1))) ls.
Definition norb (t : hub) : Z := Z.of_nat (length (orbs (chosen t))).
Definition orb (t : hub) (m : Z) : Z := nth (Z.to_nat m) (orbs (chosen t)) 0.

(** Electrons in the valence shell of that l: its last one. *)
Definition electrons (t : hub) (l : Z) : Z := last (nth (Z.to_nat l) (h_shells t) []) 0.

Definition qsum (l : list Q) : Q := fold_right Qplus 0%Q l.
Definition trace (n : Z) (a : arr Q) : Q :=
  qsum (map (fun i => at_ a (i * n + i)) (map Z.of_nat (seq 0 (Z.to_nat n)))).

(** Shape: n x n, zero off the diagonal. *)
Definition diag_mat (n : Z) (a : arr Q) : Prop :=
  sz a = n * n /\ forall r c, 0 <= r < n -> 0 <= c < n -> r <> c -> at_ a (r * n + c) = 0%Q.

(** Atoms in the order of the types: corrected or not, and number of entries. *)
Definition atoms (ts : list (bool * Z * Z)) : list (bool * Z) :=
  flat_map (fun t : bool * Z * Z => repeat (fst (fst t), if fst (fst t) then snd t else 0) (Z.to_nat (snd (fst t)))) ts.
Definition before (al : list (bool * Z)) (j : Z) : Z := zsum (map snd (firstn (Z.to_nat j) al)).

(** Two letters are equal up to case (ASCII codes), two strings letter by
    letter. *)
Definition same_letter (a b : Z) : Prop :=
  a = b \/ (65 <= a <= 90 /\ b = a + 32) \/ (65 <= b <= 90 /\ a = b + 32).
Definition same_name (s t : list Z) : Prop := Forall2 same_letter s t.
