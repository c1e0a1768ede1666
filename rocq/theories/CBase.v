(** Basic C semantics shared by all models.

    Not a model of a particular function of /repo: it fixes how the C
    constructs used there (int division, int range, undefined behaviour) are
    read. *)
From Coq Require Import ZArith List Lia Bool.
From Coq Require Import ZifyBool ZifyNat.
Import ListNotations.
Local Open Scope Z_scope.

(** Outcome of a C computation: a value, undefined behaviour, or an explicit
    [exit(EXIT_FAILURE)] / abort of the program. *)
Inductive outcome (A : Type) : Type :=
| Ok : A -> outcome A
| UB : outcome A
| Exit : outcome A.
Arguments Ok {A} _.
Arguments UB {A}.
Arguments Exit {A}.

Definition obind {A B} (x : outcome A) (f : A -> outcome B) : outcome B :=
  match x with Ok a => f a | UB => UB | Exit => Exit end.
Notation "'do' x <- e ; f" := (obind e (fun x => f))
  (at level 200, x name, e at level 100, f at level 200).

(** 32-bit [int] range. *)
Definition INT_MAX : Z := 2147483647.
Definition in_int (z : Z) : Prop := -2147483648 <= z <= INT_MAX.

(** C99 [/] and [%] on [int]: truncation towards zero, UB on zero divisor. *)
Definition c_div (a b : Z) : outcome Z := if b =? 0 then UB else Ok (Z.quot a b).
Definition c_mod (a b : Z) : outcome Z := if b =? 0 then UB else Ok (Z.rem a b).

(** Unsigned 64-bit wrap-around ([size_t]). *)
Definition u64 (z : Z) : Z := z mod 18446744073709551616.
(** Conversion to 32-bit [int] as done by every compiler in use (wraps). *)
Definition to_int32 (z : Z) : Z :=
  let m := z mod 4294967296 in if m <? 2147483648 then m else m - 4294967296.

Lemma quot_div_nonneg a b : 0 <= a -> 0 < b -> Z.quot a b = a / b.
Proof. intros; apply Z.quot_div_nonneg; lia. Qed.
Lemma rem_mod_nonneg a b : 0 <= a -> 0 < b -> Z.rem a b = a mod b.
Proof. intros; apply Z.rem_mod_nonneg; lia. Qed.

(** [zseq a n] = a, a+1, ..., a+n-1 : the index sequence of the loop
    [for (i = a; i < a+n; i++)]. *)
Fixpoint zseq (a : Z) (n : nat) : list Z :=
  match n with O => [] | S k => a :: zseq (a + 1) k end.

Lemma zseq_length a n : length (zseq a n) = n.
Proof. revert a; induction n; simpl; intros; [easy | now rewrite IHn]. Qed.

Lemma in_zseq a n x : In x (zseq a n) <-> a <= x < a + Z.of_nat n.
Proof.
  revert a; induction n; intros a.
  - simpl; split; [easy | lia].
  - cbn [zseq In]. rewrite IHn. lia.
Qed.

Lemma nth_error_zseq a n i :
  (i < n)%nat -> nth_error (zseq a n) i = Some (a + Z.of_nat i).
Proof.
  revert a i; induction n; intros a i H; [lia|].
  destruct i; cbn [zseq nth_error]; [f_equal; lia|].
  rewrite IHn by lia. f_equal; lia.
Qed.

Lemma NoDup_zseq a n : NoDup (zseq a n).
Proof.
  revert a; induction n; intros a; cbn [zseq]; constructor; auto.
  rewrite in_zseq; lia.
Qed.

Lemma zseq_app a n m : zseq a (n + m) = zseq a n ++ zseq (a + Z.of_nat n) m.
Proof.
  revert a; induction n; intros a; cbn [zseq plus app].
  - f_equal; lia.
  - rewrite IHn. replace (a + Z.of_nat (S n)) with (a + 1 + Z.of_nat n) by lia. reflexivity.
Qed.

(** Sum of a list of integers. *)
Definition zsum (l : list Z) : Z := fold_right Z.add 0 l.
Definition zprod (l : list Z) : Z := fold_right Z.mul 1 l.

Lemma zsum_app l m : zsum (l ++ m) = zsum l + zsum m.
Proof. unfold zsum; induction l as [|a l IH]; cbn [app fold_right]; lia. Qed.

Lemma NoDup_map_inj {A B} (f : A -> B) (l : list A) :
  (forall x y, In x l -> In y l -> f x = f y -> x = y) -> NoDup l -> NoDup (map f l).
Proof.
  intros Hi Hn. induction Hn as [|a l Ha Hl IH]; cbn [map]; constructor.
  - rewrite in_map_iff. intros (y & E & Hy). apply Ha.
    rewrite (Hi a y); [exact Hy | now left | now right | now symmetry].
  - apply IH. intros x y Hx Hy. apply Hi; now right.
Qed.
