(** Model of the block decomposition helpers. *)
From Coq Require Import ZArith List Lia Bool.
From Coq Require Import ZifyBool ZifyNat.
From Verif Require Import CBase.
Import ListNotations.
Local Open Scope Z_scope.

(** src/include/parallelization.h:40-43
    [return n / p + ((rank < n % p) ? 1 : 0);] *)
Definition block_decompose (n p rank : Z) : Z :=
  Z.quot n p + (if rank <? Z.rem n p then 1 else 0).

(** src/include/parallelization.h:55-58
    [return n / p * rank + ((rank < n % p) ? rank : (n % p));] *)
Definition block_decompose_nstart (n p rank : Z) : Z :=
  Z.quot n p * rank + (if rank <? Z.rem n p then rank else Z.rem n p).

(** src/include/parallelization.h:65-70.  The two inner divisions can divide by
    zero ([p = 0], or [n / p = 0] in the second branch), hence an [outcome]. *)
Definition block_decompose_rank (n p node : Z) : outcome Z :=
  do r <- c_mod n p;
  do q1 <- c_div (n - 1) p;
  if node <? r * (q1 + 1) then c_div node (q1 + 1)
  else do q <- c_div n p; c_div (node - r) q.

(** Lemmas *)
Lemma bd_nonneg n p r : 0 <= n -> 0 < p -> 0 <= block_decompose n p r.
Proof.
  intros; unfold block_decompose.
  rewrite quot_div_nonneg by lia. assert (0 <= n / p) by (apply Z.div_pos; lia).
  destruct (r <? _); lia.
Qed.

Lemma bd_start_0 n p : 0 <= n -> 0 < p -> block_decompose_nstart n p 0 = 0.
Proof.
  intros; unfold block_decompose_nstart.
  rewrite quot_div_nonneg, rem_mod_nonneg by lia.
  destruct (0 <? n mod p) eqn:E; [lia|].
  assert (0 <= n mod p < p) by (apply Z.mod_pos_bound; lia). nia.
Qed.

Lemma bd_start_S n p r :
  0 <= n -> 0 < p -> 0 <= r ->
  block_decompose_nstart n p (r + 1) = block_decompose_nstart n p r + block_decompose n p r.
Proof.
  intros; unfold block_decompose_nstart, block_decompose.
  rewrite quot_div_nonneg, rem_mod_nonneg by lia.
  destruct (r + 1 <? n mod p) eqn:E1, (r <? n mod p) eqn:E2;
    try (assert (0 <= n mod p < p) by (apply Z.mod_pos_bound; lia)); nia.
Qed.

Lemma bd_start_p n p : 0 <= n -> 0 < p -> block_decompose_nstart n p p = n.
Proof.
  intros; unfold block_decompose_nstart.
  rewrite quot_div_nonneg, rem_mod_nonneg by lia.
  assert (0 <= n mod p < p) by (apply Z.mod_pos_bound; lia).
  destruct (p <? n mod p) eqn:E; [lia|].
  rewrite (Z.div_mod n p) at 3 by lia. lia.
Qed.

Lemma bd_start_mono n p a b :
  0 <= n -> 0 < p -> 0 <= a <= b ->
  block_decompose_nstart n p a <= block_decompose_nstart n p b.
Proof.
  intros Hn Hp Hab.
  replace b with (a + Z.of_nat (Z.to_nat (b - a))) by lia.
  generalize (Z.to_nat (b - a)) as k; clear - Hn Hp Hab.
  induction k; [rewrite Z.add_0_r; lia|].
  rewrite Nat2Z.inj_succ.
  replace (a + Z.succ (Z.of_nat k)) with (a + Z.of_nat k + 1) by lia.
  rewrite bd_start_S by lia.
  pose proof (bd_nonneg n p (a + Z.of_nat k) Hn Hp). lia.
Qed.

(** Closed form of the owner of a node, avoiding the C expression. *)
Lemma bd_owner_unique n p r1 r2 x :
  0 <= n -> 0 < p -> 0 <= r1 -> 0 <= r2 ->
  block_decompose_nstart n p r1 <= x < block_decompose_nstart n p r1 + block_decompose n p r1 ->
  block_decompose_nstart n p r2 <= x < block_decompose_nstart n p r2 + block_decompose n p r2 ->
  r1 = r2.
Proof.
  intros Hn Hp H1 H2 I1 I2.
  rewrite <- bd_start_S in I1, I2 by lia.
  destruct (Z.lt_trichotomy r1 r2) as [L | [E | L]]; [ | easy | ].
  - pose proof (bd_start_mono n p (r1 + 1) r2 Hn Hp). lia.
  - pose proof (bd_start_mono n p (r2 + 1) r1 Hn Hp). lia.
Qed.

Lemma bd_rank_ok n p x :
  0 < p -> 0 <= x < n ->
  exists r, block_decompose_rank n p x = Ok r /\ 0 <= r < p /\
    block_decompose_nstart n p r <= x < block_decompose_nstart n p r + block_decompose n p r.
Proof.
  intros Hp Hx.
  unfold block_decompose_rank, c_mod, c_div, block_decompose, block_decompose_nstart, obind.
  replace (p =? 0) with false by lia.
  assert (Hn : 0 < n) by lia.
  rewrite (quot_div_nonneg n p), (quot_div_nonneg (n - 1) p), (rem_mod_nonneg n p) by lia.
  set (q := n / p). set (m := n mod p). set (q1 := (n - 1) / p).
  assert (Hdm : n = p * q + m) by (apply Z.div_mod; lia).
  assert (Hm : 0 <= m < p) by (apply Z.mod_pos_bound; lia).
  assert (Hq : 0 <= q) by (apply Z.div_pos; lia).
  assert (Hq1 : 0 <= q1) by (apply Z.div_pos; lia).
  assert (Hq1v : m = 0 \/ q1 = q).
  { destruct (Z.eq_dec m 0); [now left | right].
    unfold q1. symmetry. apply (Z.div_unique (n - 1) p q (m - 1)); lia. }
  clearbody q m q1.
  destruct (x <? m * (q1 + 1)) eqn:Ex.
  - replace (q1 + 1 =? 0) with false by lia.
    destruct Hq1v as [Z0 | Eq]; [nia|].
    rewrite quot_div_nonneg by lia.
    exists (x / (q1 + 1)). split; [reflexivity|].
    set (r := x / (q1 + 1)).
    assert (Hr : 0 <= r) by (apply Z.div_pos; lia).
    assert (Hxr : x = (q1 + 1) * r + x mod (q1 + 1)) by (apply Z.div_mod; lia).
    assert (Hb : 0 <= x mod (q1 + 1) < q1 + 1) by (apply Z.mod_pos_bound; lia).
    assert (r < m) by nia.
    replace (r <? m) with true by lia.
    subst q1. set (t := x mod (q + 1)) in *. clearbody r t. split; [lia|]. cbv iota. lia.
  - assert (Hqpos : 0 < q).
    { assert (x >= m * (q1 + 1)) by lia. clear Ex.
      destruct (Z.eq_dec q 0) as [Q0 | Q0]; [exfalso | lia]. subst q.
      destruct Hq1v as [Z0 | Eq]; [lia|]. subst q1. lia. }
    replace (q =? 0) with false by lia.
    assert (m <= x).
    { destruct Hq1v as [Z0 | Eq]; [lia|]. nia. }
    rewrite quot_div_nonneg by lia.
    exists ((x - m) / q). split; [reflexivity|].
    set (r := (x - m) / q).
    assert (Hr : 0 <= r) by (apply Z.div_pos; lia).
    assert (Hxr : x - m = q * r + (x - m) mod q) by (apply Z.div_mod; lia).
    assert (Hb : 0 <= (x - m) mod q < q) by (apply Z.mod_pos_bound; lia).
    assert (r < p) by nia.
    assert (m <= r).
    { destruct Hq1v as [Z0 | Eq]; [lia|]. rewrite Eq in Ex. nia. }
    replace (r <? m) with false by lia.
    set (t := (x - m) mod q) in *. clearbody r t. split; [lia|]. cbv iota. lia.
Qed.
