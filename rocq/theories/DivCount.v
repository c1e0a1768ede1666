(** An upper bound on the number of divisors of a positive integer:
    [35 * d(n)^3 <= 1536 * n]. Pure arithmetic, used to show that the [short]
    counter of src/tools.c:290-306 cannot wrap for any 32-bit [int]. *)
From Coq Require Import ZArith List Lia Bool Znumtheory.
From Coq Require Import ZifyBool ZifyNat.
From Verif Require Import CBase.
Import ListNotations.
Local Open Scope Z_scope.

(** All positive divisors of [n >= 1], ascending. *)
Definition divisors (n : Z) : list Z :=
  filter (fun d => n mod d =? 0) (zseq 1 (Z.to_nat n)).
Definition dcount (n : Z) : Z := Z.of_nat (length (divisors n)).

Lemma in_divisors n d : 1 <= n -> (In d (divisors n) <-> 0 < d /\ (d | n)).
Proof.
  intros Hn. unfold divisors. rewrite filter_In, in_zseq. split.
  - intros (A & B). split; [lia|]. apply Z.mod_divide; lia.
  - intros (A & B). pose proof (Z.divide_pos_le d n ltac:(lia) B).
    split; [lia|]. apply Z.eqb_eq. apply Z.mod_divide; [lia|assumption].
Qed.

Lemma NoDup_divisors n : NoDup (divisors n).
Proof. unfold divisors. apply NoDup_filter, NoDup_zseq. Qed.

Lemma dcount_1 : dcount 1 = 1. Proof. reflexivity. Qed.
Lemma dcount_nonneg n : 0 <= dcount n. Proof. unfold dcount; lia. Qed.

(** Divisors of [p^a * m]: [p^i * f] with [i <= a], [f | m]. *)
Lemma divisor_split p : prime p -> forall a m d, 1 <= m -> 0 < d -> (d | p ^ Z.of_nat a * m) ->
  exists i f, (i <= a)%nat /\ 0 < f /\ (f | m) /\ d = p ^ Z.of_nat i * f.
Proof.
  intros Hp. pose proof (prime_ge_2 p Hp).
  induction a as [|a IH]; intros m d Hm Hd Hdiv.
  - exists 0%nat, d. cbn [Z.of_nat] in *. rewrite Z.pow_0_r, Z.mul_1_l in *.
    split; [lia|]. split; [lia|]. split; [assumption|lia].
  - rewrite Nat2Z.inj_succ, Z.pow_succ_r, <- Z.mul_assoc in Hdiv by lia.
    destruct (Znumtheory.Zdivide_dec p d) as [Hpd | Hpd].
    + destruct Hpd as (d' & ->).
      assert (Hd' : 0 < d') by nia.
      assert (Hq : (d' | p ^ Z.of_nat a * m)).
      { destruct Hdiv as (k & Hk). exists k. apply (Z.mul_cancel_l _ _ p); lia. }
      destruct (IH m d' Hm Hd' Hq) as (i & f & A & B & C & D).
      exists (S i), f. split; [lia|]. split; [lia|]. split; [assumption|].
      rewrite Nat2Z.inj_succ, Z.pow_succ_r by lia. rewrite D. ring.
    + assert (Hrel : rel_prime d p).
      { apply rel_prime_sym. apply prime_rel_prime; assumption. }
      apply Gauss in Hdiv; [|assumption].
      destruct (IH m d Hm Hd Hdiv) as (i & f & A & B & C & D).
      exists i, f. split; [lia|]. split; [lia|]. split; assumption.
Qed.

Lemma dcount_split p a m : prime p -> 1 <= m ->
  dcount (p ^ Z.of_nat a * m) <= (Z.of_nat a + 1) * dcount m.
Proof.
  intros Hp Hm. pose proof (prime_ge_2 p Hp).
  assert (Hpa : 1 <= p ^ Z.of_nat a) by (pose proof (Z.pow_pos_nonneg p (Z.of_nat a)); lia).
  set (L := flat_map (fun i => map (fun f => p ^ Z.of_nat i * f) (divisors m)) (seq 0 (S a))).
  assert (HL : Z.of_nat (length L) = (Z.of_nat a + 1) * dcount m).
  { unfold L, dcount.
    assert (G : forall l, length (flat_map (fun i => map (fun f => p ^ Z.of_nat i * f) (divisors m)) l)
                = (length l * length (divisors m))%nat).
    { induction l as [|x l IHl]; cbn [flat_map length]; [reflexivity|].
      rewrite app_length, map_length, IHl. lia. }
    rewrite G, seq_length. lia. }
  rewrite <- HL. unfold dcount. apply inj_le.
  apply NoDup_incl_length; [apply NoDup_divisors|].
  intros d Hd. apply in_divisors in Hd; [|nia]. destruct Hd as (Hd & Hdiv).
  destruct (divisor_split p Hp a m d Hm Hd Hdiv) as (i & f & A & B & C & D).
  unfold L. apply in_flat_map. exists i. split; [apply in_seq; lia|].
  apply in_map_iff. exists f. split; [lia|]. apply in_divisors; auto.
Qed.

(** Valuation. *)
Lemma valuation p : 2 <= p -> forall n, 1 <= n ->
  exists a m, n = p ^ Z.of_nat a * m /\ 1 <= m /\ ~ (p | m).
Proof.
  intros Hp n Hn. pattern n. apply Zlt_lower_bound_ind with (z := 1); [|exact Hn].
  clear n Hn. intros n IH Hn.
  destruct (Znumtheory.Zdivide_dec p n) as [(m & Hm) | Hd].
  - destruct (IH m) as (a & m' & A & B & C); [nia|].
    exists (S a), m'. rewrite Nat2Z.inj_succ, Z.pow_succ_r by lia.
    split; [|split; assumption]. rewrite Hm, A. ring.
  - exists 0%nat, n. split; [cbn [Z.of_nat]; lia|]. split; assumption.
Qed.

Lemma prime_divisor n : 2 <= n -> exists p, prime p /\ (p | n).
Proof.
  intros Hn. pattern n. apply Zlt_lower_bound_ind with (z := 2); [|exact Hn].
  clear n Hn. intros n IH Hn.
  destruct (prime_dec n) as [Hp|Hp].
  - exists n. split; [assumption | apply Z.divide_refl].
  - destruct (not_prime_divide n ltac:(lia) Hp) as (d & Hd & Hdn).
    destruct (IH d ltac:(lia)) as (p & A & B).
    exists p. split; [assumption|]. eapply Z.divide_trans; eassumption.
Qed.

Lemma pow8 a : (Z.of_nat a + 1) ^ 3 <= 8 ^ Z.of_nat a.
Proof.
  induction a as [|a IH]; [vm_compute; discriminate|].
  rewrite Nat2Z.inj_succ, Z.pow_succ_r by lia. nia.
Qed.

(** Numbers without prime factors below 8. *)
Lemma rough_bound n : 1 <= n -> (forall q, prime q -> (q | n) -> 8 <= q) ->
  dcount n ^ 3 <= n.
Proof.
  intros Hn. pattern n. apply Zlt_lower_bound_ind with (z := 1); [|exact Hn].
  clear n Hn. intros n IH Hn Hq.
  destruct (Z.eq_dec n 1) as [ ->|Hn1]; [rewrite dcount_1; lia|].
  destruct (prime_divisor n ltac:(lia)) as (p & Hp & Hpn).
  pose proof (Hq p Hp Hpn) as Hp8.
  destruct (valuation p ltac:(lia) n Hn) as (a & m & A & B & C).
  assert (Ha : a <> 0%nat).
  { intros ->. apply C. rewrite A in Hpn. cbn [Z.of_nat] in Hpn.
    rewrite Z.pow_0_r, Z.mul_1_l in Hpn. exact Hpn. }
  assert (Hpow : 8 ^ Z.of_nat a <= p ^ Z.of_nat a) by (apply Z.pow_le_mono_l; lia).
  assert (H8 : 8 <= 8 ^ Z.of_nat a).
  { replace 8 with (8 ^ 1) at 1 by reflexivity. apply Z.pow_le_mono_r; lia. }
  assert (Hm : dcount m ^ 3 <= m).
  { apply IH; [nia|]. intros q Hqp Hqm. apply (Hq q Hqp).
    rewrite A. apply Z.divide_mul_r. exact Hqm. }
  pose proof (dcount_split p a m Hp B) as Hs. rewrite <- A in Hs.
  pose proof (dcount_nonneg n). pose proof (dcount_nonneg m).
  pose proof (pow8 a) as H3.
  assert (H1 : dcount n ^ 3 <= ((Z.of_nat a + 1) * dcount m) ^ 3).
  { apply Z.pow_le_mono_l. lia. }
  rewrite Z.pow_mul_l in H1.
  assert (0 <= dcount m ^ 3) by (apply Z.pow_nonneg; lia).
  assert (0 <= (Z.of_nat a + 1) ^ 3) by (apply Z.pow_nonneg; lia).
  rewrite A at 2. set (u := dcount n ^ 3) in *. set (v := dcount m ^ 3) in *.
  set (x := (Z.of_nat a + 1) ^ 3) in *. set (y := p ^ Z.of_nat a) in *.
  set (z := 8 ^ Z.of_nat a) in *. clearbody u v x y z. clear - H1 Hm H3 Hpow B H2 H4. nia.
Qed.

Lemma pow2_bound a : (Z.of_nat a + 1) ^ 3 <= 8 * 2 ^ Z.of_nat a.
Proof.
  destruct (le_lt_dec a 5) as [H|H].
  - do 6 (destruct a as [|a]; [vm_compute; discriminate|]). lia.
  - induction a as [|a IH]; [lia|].
    destruct (Nat.eq_dec a 5) as [ ->|]; [vm_compute; discriminate|].
    rewrite Nat2Z.inj_succ, Z.pow_succ_r by lia.
    specialize (IH ltac:(lia)). nia.
Qed.
Lemma pow3_bound a : (Z.of_nat a + 1) ^ 3 <= 3 * 3 ^ Z.of_nat a.
Proof.
  destruct (le_lt_dec a 3) as [H|H].
  - do 4 (destruct a as [|a]; [vm_compute; discriminate|]). lia.
  - induction a as [|a IH]; [lia|].
    destruct (Nat.eq_dec a 3) as [ ->|]; [vm_compute; discriminate|].
    rewrite Nat2Z.inj_succ, Z.pow_succ_r by lia.
    specialize (IH ltac:(lia)). nia.
Qed.
Lemma pow5_bound a : 5 * (Z.of_nat a + 1) ^ 3 <= 8 * 5 ^ Z.of_nat a.
Proof.
  destruct (le_lt_dec a 2) as [H|H].
  - do 3 (destruct a as [|a]; [vm_compute; discriminate|]). lia.
  - induction a as [|a IH]; [lia|].
    destruct (Nat.eq_dec a 2) as [ ->|]; [vm_compute; discriminate|].
    rewrite Nat2Z.inj_succ, Z.pow_succ_r by lia.
    specialize (IH ltac:(lia)). nia.
Qed.
Lemma pow7_bound a : 7 * (Z.of_nat a + 1) ^ 3 <= 8 * 7 ^ Z.of_nat a.
Proof.
  destruct (le_lt_dec a 2) as [H|H].
  - do 3 (destruct a as [|a]; [vm_compute; discriminate|]). lia.
  - induction a as [|a IH]; [lia|].
    destruct (Nat.eq_dec a 2) as [ ->|]; [vm_compute; discriminate|].
    rewrite Nat2Z.inj_succ, Z.pow_succ_r by lia.
    specialize (IH ltac:(lia)). nia.
Qed.

(** Peeling off one small prime. *)
Lemma peel p a m n K L A B : prime p -> 1 <= m -> n = p ^ Z.of_nat a * m ->
  0 < K -> 0 < L -> 0 < A -> 0 < B ->
  K * (Z.of_nat a + 1) ^ 3 <= L * p ^ Z.of_nat a ->
  A * dcount m ^ 3 <= B * m ->
  (K * A) * dcount n ^ 3 <= (L * B) * n.
Proof.
  intros Hp Hm -> HK HL HA HB H1 H2.
  pose proof (dcount_split p a m Hp Hm) as Hs.
  set (n := p ^ Z.of_nat a * m) in *.
  pose proof (dcount_nonneg n). pose proof (dcount_nonneg m).
  pose proof (prime_ge_2 p Hp).
  assert (HH3 : dcount n ^ 3 <= ((Z.of_nat a + 1) * dcount m) ^ 3).
  { apply Z.pow_le_mono_l. lia. }
  rewrite Z.pow_mul_l in HH3.
  assert (0 <= dcount m ^ 3) by (apply Z.pow_nonneg; lia).
  assert (0 <= (Z.of_nat a + 1) ^ 3) by (apply Z.pow_nonneg; lia).
  assert (0 <= p ^ Z.of_nat a) by (apply Z.pow_nonneg; lia).
  unfold n at 2. set (u := dcount n ^ 3) in *. set (v := dcount m ^ 3) in *.
  set (x := (Z.of_nat a + 1) ^ 3) in *. set (y := p ^ Z.of_nat a) in *.
  clearbody u v x y.
  transitivity ((K * x) * (A * v)).
  - transitivity (K * A * (x * v)); [|lia]. apply Z.mul_le_mono_nonneg_l; nia.
  - transitivity ((L * y) * (B * m)); [|lia]. apply Z.mul_le_mono_nonneg; nia.
Qed.

Lemma prime_5 : prime 5.
Proof.
  constructor; [lia|]. intros n Hn.
  assert (n = 1 \/ n = 2 \/ n = 3 \/ n = 4) as [ ->|[ ->|[ ->| ->]]] by lia;
    apply Zgcd_1_rel_prime; reflexivity.
Qed.
Lemma prime_7 : prime 7.
Proof.
  constructor; [lia|]. intros n Hn.
  assert (n = 1 \/ n = 2 \/ n = 3 \/ n = 4 \/ n = 5 \/ n = 6) as [ ->|[ ->|[ ->|[ ->|[ ->| ->]]]]] by lia;
    apply Zgcd_1_rel_prime; reflexivity.
Qed.

Lemma dcount_bound n : 1 <= n -> 35 * dcount n ^ 3 <= 1536 * n.
Proof.
  intros Hn.
  destruct (valuation 2 ltac:(lia) n Hn) as (a & n2 & A & Hn2 & NA).
  destruct (valuation 3 ltac:(lia) n2 Hn2) as (b & n3 & B & Hn3 & NB).
  destruct (valuation 5 ltac:(lia) n3 Hn3) as (c & n5 & C & Hn5 & NC).
  destruct (valuation 7 ltac:(lia) n5 Hn5) as (e & n7 & E & Hn7 & NE).
  assert (R : 1 * dcount n7 ^ 3 <= 1 * n7).
  { rewrite !Z.mul_1_l. apply rough_bound; [assumption|]. intros q Hq Hd.
    pose proof (prime_ge_2 q Hq).
    destruct (Z_lt_le_dec q 8) as [Hlt|]; [exfalso|assumption].
    assert (D5 : (q | n5)) by (rewrite E; now apply Z.divide_mul_r).
    assert (D3 : (q | n3)) by (rewrite C; now apply Z.divide_mul_r).
    assert (D2 : (q | n2)) by (rewrite B; now apply Z.divide_mul_r).
    assert (q = 2 \/ q = 3 \/ q = 4 \/ q = 5 \/ q = 6 \/ q = 7)
      as [ ->|[ ->|[ ->|[ ->|[ ->| ->]]]]] by lia; try contradiction.
    - apply NA. apply Z.divide_trans with 4; [exists 2; reflexivity | assumption].
    - apply NA. apply Z.divide_trans with 6; [exists 3; reflexivity | assumption]. }
  pose proof (peel 7 e n7 n5 7 8 1 1 prime_7 Hn7 E ltac:(lia) ltac:(lia) ltac:(lia) ltac:(lia)
                (pow7_bound e) R) as R5.
  pose proof (peel 5 c n5 n3 5 8 7 8 prime_5 Hn5 C ltac:(lia) ltac:(lia) ltac:(lia) ltac:(lia)
                (pow5_bound c) R5) as R3.
  pose proof (peel 3 b n3 n2 1 3 35 64 prime_3 Hn3 B ltac:(lia) ltac:(lia) ltac:(lia) ltac:(lia)
                ltac:(rewrite Z.mul_1_l; apply pow3_bound) R3) as R2.
  pose proof (peel 2 a n2 n 1 8 35 192 prime_2 Hn2 A ltac:(lia) ltac:(lia) ltac:(lia) ltac:(lia)
                ltac:(rewrite Z.mul_1_l; apply pow2_bound) R2) as R1.
  lia.
Qed.

(** Any [int] has fewer than 4552 divisors. *)
Lemma dcount_int n : 1 <= n <= INT_MAX -> dcount n <= 4551.
Proof.
  intros Hn. unfold INT_MAX in Hn.
  pose proof (dcount_bound n ltac:(lia)) as H. pose proof (dcount_nonneg n).
  destruct (Z_le_gt_dec (dcount n) 4551) as [|G]; [assumption|exfalso].
  assert (4552 ^ 3 <= dcount n ^ 3) by (apply Z.pow_le_mono_l; lia).
  change (4552 ^ 3) with 94320644608 in *. lia.
Qed.
