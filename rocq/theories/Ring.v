(** Periodic ring of blocks: unwrapped block starts (proof helper for D2Dext). *)
From Coq Require Import ZArith List Lia Bool.
From Coq Require Import ZifyBool ZifyNat.
From Verif Require Import CBase BlockDecomp WorkSplit D2D.
Import ListNotations.
Local Open Scope Z_scope.

(** size of block number m, m any integer, wrapped *)
Definition bsize (n p m : Z) : Z := block_decompose n p (m mod p).
(** unwrapped first node of block number m *)
Definition ustart (n p m : Z) : Z := n * (m / p) + block_decompose_nstart n p (m mod p).

Lemma ustart_S n p m : 0 <= n -> 1 <= p -> ustart n p (m + 1) = ustart n p m + bsize n p m.
Proof.
  intros Hn Hp. unfold ustart, bsize.
  pose proof (Z.div_mod m p ltac:(lia)) as D. pose proof (Z.mod_pos_bound m p ltac:(lia)) as B.
  set (q := m / p) in *. set (r := m mod p) in *.
  destruct (Z.eq_dec (r + 1) p) as [E|E].
  - assert (Q : (m + 1) / p = q + 1) by (symmetry; apply (Z.div_unique _ _ _ 0); lia).
    assert (R : (m + 1) mod p = 0) by (symmetry; apply (Z.mod_unique _ _ (q + 1)); lia).
    rewrite Q, R, bd_start_0 by lia.
    pose proof (bd_start_S n p r ltac:(lia) ltac:(lia) ltac:(lia)) as S.
    rewrite E, bd_start_p in S by lia. lia.
  - assert (Q : (m + 1) / p = q) by (symmetry; apply (Z.div_unique _ _ _ (r + 1)); lia).
    assert (R : (m + 1) mod p = r + 1) by (symmetry; apply (Z.mod_unique _ _ q); lia).
    rewrite Q, R, bd_start_S by lia. lia.
Qed.

Lemma ustart_period n p m q : 1 <= p -> ustart n p (m + q * p) = ustart n p m + n * q.
Proof.
  intros Hp. unfold ustart. rewrite Z.div_add, Z.mod_add by lia. lia.
Qed.
Lemma bsize_period n p m q : 1 <= p -> bsize n p (m + q * p) = bsize n p m.
Proof. intros Hp. unfold bsize. now rewrite Z.mod_add by lia. Qed.
Lemma bsize_mod n p m : 1 <= p -> bsize n p (m mod p) = bsize n p m.
Proof. intros. unfold bsize. now rewrite Z.mod_mod by lia. Qed.
Lemma bsize_pos n p m : 1 <= p <= n -> 1 <= bsize n p m.
Proof. intros. unfold bsize. pose proof (bd_len_pos n p (m mod p)). lia. Qed.

Lemma ustart_mono n p a b : 1 <= p <= n -> a <= b -> ustart n p a + (b - a) <= ustart n p b.
Proof.
  intros Hp H. replace b with (a + Z.of_nat (Z.to_nat (b - a))) by lia.
  generalize (Z.to_nat (b - a)) as k. clear H b. induction k.
  - replace (a + Z.of_nat 0) with a by lia. lia.
  - replace (a + Z.of_nat (S k)) with (a + Z.of_nat k + 1) by lia.
    rewrite ustart_S by lia. pose proof (bsize_pos n p (a + Z.of_nat k) Hp). lia.
Qed.

(** Difference of starts only depends on the wrapped block. *)
Lemma ustart_diff_mod n p m o o' : 1 <= p ->
  ustart n p (m mod p + o) - ustart n p (m mod p + o') = ustart n p (m + o) - ustart n p (m + o').
Proof.
  intros Hp. pose proof (Z.div_mod m p ltac:(lia)) as D.
  replace (m + o) with (m mod p + o + (m / p) * p) by lia.
  replace (m + o') with (m mod p + o' + (m / p) * p) by lia.
  rewrite !ustart_period by lia. lia.
Qed.

(** Unwrapped node u of block m is node (u mod n) of block (m mod p). *)
Lemma ustart_mod n p m t : 1 <= p <= n -> 0 <= t < bsize n p m ->
  (ustart n p m + t) mod n = block_decompose_nstart n p (m mod p) + t.
Proof.
  intros Hp Ht. unfold ustart, bsize in *.
  pose proof (Z.mod_pos_bound m p ltac:(lia)) as B.
  pose proof (bd_in_mesh n p (m mod p) ltac:(lia) ltac:(lia) B).
  symmetry. apply (Z.mod_unique _ _ (m / p)); lia.
Qed.
