(** C12: divisor enumeration. *)
From Coq Require Import ZArith List Lia Bool Sorted.
From Coq Require Import ZifyBool ZifyNat.
From Verif Require Import CBase Mem DivCount Factors.
Import ListNotations.
Local Open Scope Z_scope.

(** C12 (unsorted). For every [num] with 1 <= num <= 46340^2, [factor]
    finishes without undefined behaviour (no store past the scratch array, no
    wrap of the [short] counter, no [int] overflow) and returns each positive
    divisor exactly once. *)
Theorem C12_factor_complete : forall num, 1 <= num <= 46340 ^ 2 ->
  exists l, factor num = Ok l /\ NoDup l /\ (forall d, In d l <-> 0 < d /\ (d | num)).
Proof.
  intros num Hn. change (46340 ^ 2) with FACTOR_MAX in Hn.
  exists (divisor_list num). split; [now apply factor_ok|].
  split; [apply NoDup_divisor_list; lia|]. intros d. apply in_divisor_list; lia.
Qed.
Print Assumptions C12_factor_complete.

(** C12 (sorted): same set, strictly ascending, whatever the malloc'ed memory
    contained before. *)
Theorem C12_sorted_factor : forall junk num, 1 <= num <= 46340 ^ 2 ->
  exists l, sorted_factor junk num = Ok l /\ StronglySorted Z.lt l /\
    (forall d, In d l <-> 0 < d /\ (d | num)).
Proof.
  intros junk num Hn. change (46340 ^ 2) with FACTOR_MAX in Hn.
  exists (sorted_list num). split; [now apply sorted_factor_ok|].
  split; [apply sorted_list_sorted; lia|].
  intros d. rewrite in_sorted_list. apply in_divisor_list; lia.
Qed.
Print Assumptions C12_sorted_factor.

(** C12: the [short] counter is far from its limit for every [int]. *)
Theorem C12_count_fits_short : forall num l, 1 <= num <= INT_MAX -> NoDup l ->
  (forall d, In d l -> 0 < d /\ (d | num)) -> Z.of_nat (length l) <= 4551.
Proof.
  intros num l Hn Hnd H. etransitivity; [|apply (dcount_int num Hn)].
  unfold dcount. apply inj_le. apply NoDup_incl_length; [assumption|].
  intros d Hd. apply in_divisors; [lia|]. now apply H.
Qed.
Print Assumptions C12_count_fits_short.

(** The claim fails for the remaining [int] values: for every num above
    46340^2 the loop test [dvsr*dvsr < num] overflows [int]. *)
Lemma factor_loop_overflow num : 46340 ^ 2 < num -> forall n fuel dvsr fl lst,
  (n < fuel)%nat -> 1 <= dvsr -> dvsr + Z.of_nat n = 46341 ->
  factor_loop fuel num dvsr fl lst = UB.
Proof.
  intros Hnum. induction n as [|n IH]; intros fuel dvsr fl lst Hf Hd Hn;
    (destruct fuel as [|fuel]; [lia|]); cbn [factor_loop].
  - replace dvsr with 46341 by lia. reflexivity.
  - change (46340 ^ 2) with 2147395600 in Hnum.
    assert (dvsr * dvsr <= 46340 * 46340) by (apply Z.mul_le_mono_nonneg; lia).
    unfold imul, INT_MAX. replace (_ && _) with true by lia. cbn [obind].
    replace (_ <? _) with true by lia.
    unfold c_mod, c_div. replace (dvsr =? 0) with false by lia. cbn [obind].
    destruct (negb _); [apply IH; lia|].
    destruct (Z.of_nat (length fl) =? 300).
    + unfold xferFactors. destruct (_ <=? _); cbn [obind fst snd]; [|reflexivity].
      unfold fpush at 1. destruct (_ <? _); cbn [obind]; [|reflexivity].
      unfold fpush at 1. destruct (_ <? _); cbn [obind]; [|reflexivity].
      apply IH; lia.
    + cbn [obind fst snd].
      unfold fpush at 1. destruct (_ <? _); cbn [obind]; [|reflexivity].
      unfold fpush at 1. destruct (_ <? _); cbn [obind]; [|reflexivity].
      apply IH; lia.
Qed.
Theorem C12_large_int_overflow_refuted :
  (exists num, 1 <= num <= INT_MAX /\ factor num = UB) /\
  (forall num, 46340 ^ 2 < num -> factor num = UB).
Proof.
  assert (G : forall num, 46340 ^ 2 < num -> factor num = UB).
  { intros num H. unfold factor.
    rewrite (factor_loop_overflow num H (Z.to_nat 46340)); [reflexivity| |lia|lia].
    change (46340 ^ 2) with 2147395600 in H. clear - H. lia. }
  split; [|exact G]. exists INT_MAX. split; [unfold INT_MAX; lia|].
  apply G. unfold INT_MAX. change (46340 ^ 2) with 2147395600. lia.
Qed.
Print Assumptions C12_large_int_overflow_refuted.

(** Non-trivial instances: a composite, a square, a prime; and a number with
    more than 300 divisors, which exercises the flush of the scratch array. *)
Example C12_example :
  factor 12 = Ok [1; 12; 2; 6; 3; 4] /\ factor 36 = Ok [1; 36; 2; 18; 3; 12; 4; 9; 6]
  /\ sorted_factor (fun _ => 0) 36 = Ok [1; 2; 3; 4; 6; 9; 12; 18; 36]
  /\ sorted_factor (fun _ => 7) 13 = Ok [1; 13] /\ 1 <= 36 <= 46340 ^ 2.
Proof. vm_compute. repeat split; discriminate. Qed.
Example C12_example_flush : (* 6486480 = 2^4*3^4*5*7*11*13 has 400 divisors *)
  exists l, factor 6486480 = Ok l /\ length l = 400%nat.
Proof.
  assert (H : 1 <= 6486480 <= FACTOR_MAX) by (unfold FACTOR_MAX; lia).
  exists (divisor_list 6486480). split; [now apply factor_ok|].
  vm_compute. reflexivity.
Qed.
