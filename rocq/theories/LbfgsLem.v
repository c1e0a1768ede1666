(** Lemmas about the loops of Lbfgs.v. *)
From Coq Require Import ZArith List Lia Bool Reals Lra.
From Verif Require Import CBase Halo Lbfgs.
Import ListNotations.
Local Open Scope Z_scope.

(** vectors, sums *)
Definition vecR := nat -> R.
Fixpoint rsum (n : nat) (f : nat -> R) : R := match n with O => 0%R | S k => (rsum k f + f k)%R end.
Definition rdot (n : nat) (u v : vecR) : R := rsum n (fun i => u i * v i)%R.
(** the words base .. base + n - 1 hold v *)
Definition holdsv (n : nat) (base : Z) (A : mem) (v : vecR) : Prop := forall i, (i < n)%nat -> A (base + Z.of_nat i) = Some (v i).

Lemma rsum_ext n f g : (forall i, (i < n)%nat -> f i = g i) -> rsum n f = rsum n g.
Proof. induction n as [|n IH]; intros H; cbn; [reflexivity|]. rewrite IH by (intros; apply H; lia). rewrite H by lia. reflexivity. Qed.
Lemma rsum_add n f g : rsum n (fun i => f i + g i)%R = (rsum n f + rsum n g)%R.
Proof. induction n as [|n IH]; cbn; [lra|]. rewrite IH. lra. Qed.
Lemma rsum_scale n c f : rsum n (fun i => c * f i)%R = (c * rsum n f)%R.
Proof. induction n as [|n IH]; cbn; [lra|]. rewrite IH. lra. Qed.
Lemma rsum_zero n f : (forall i, (i < n)%nat -> f i = 0%R) -> rsum n f = 0%R.
Proof. intros H. rewrite (rsum_ext n f (fun _ => 0%R) H). clear H. induction n as [|n IH]; cbn; lra. Qed.
Lemma rsum_swap n m f : rsum n (fun i => rsum m (fun j => f i j)) = rsum m (fun j => rsum n (fun i => f i j)).
Proof.
  induction n as [|n IH]; cbn; [symmetry; apply rsum_zero; reflexivity|]. rewrite IH, <- rsum_add. reflexivity.
Qed.
Lemma rsum_delta n i f : (i < n)%nat -> rsum n (fun k => (if Nat.eqb i k then 1 else 0) * f k)%R = f i.
Proof.
  induction n as [|n IH]; intros H; [lia|]. cbn [rsum]. destruct (Nat.eqb_spec i n) as [->|E].
  - rewrite rsum_zero; [lra|]. intros k Hk. destruct (Nat.eqb_spec n k); [lia|lra].
  - rewrite IH by lia. lra.
Qed.
Lemma rdot_nonneg n v : (0 <= rdot n v v)%R.
Proof. unfold rdot. induction n as [|n IH]; cbn; [lra|]. pose proof (Rle_0_sqr (v n)). unfold Rsqr in *. lra. Qed.
Lemma rdot_pos n v i : (i < n)%nat -> v i <> 0%R -> (0 < rdot n v v)%R.
Proof.
  unfold rdot. induction n as [|n IH]; intros H E; [lia|]. cbn [rsum].
  destruct (Nat.eq_dec i n) as [->|Ei].
  - pose proof (Rsqr_pos_lt _ E). unfold Rsqr in *. pose proof (rdot_nonneg n v). unfold rdot in *. lra.
  - pose proof (IH ltac:(lia) E). pose proof (Rle_0_sqr (v n)). unfold Rsqr in *. lra.
Qed.
Lemma rdot_zero n v : rdot n v v = 0%R -> forall i, (i < n)%nat -> v i = 0%R.
Proof. intros H i Hi. destruct (Req_dec (v i) 0) as [E|E]; [exact E|]. pose proof (rdot_pos n v i Hi E). lra. Qed.
Lemma rdot_some n v : (0 < rdot n v v)%R -> exists i, (i < n)%nat /\ v i <> 0%R.
Proof.
  unfold rdot. induction n as [|k IH]; cbn [rsum]; intros L; [lra|]. destruct (Req_dec (v k) 0) as [E|E]; [|exists k; split; [lia|exact E]].
  rewrite E in L. destruct IH as [i [Hi Hv]]; [lra|]. exists i. split; [lia|exact Hv].
Qed.
Lemma rdot_comm n u v : rdot n u v = rdot n v u.
Proof. apply rsum_ext. intros; lra. Qed.
Lemma rdot_ext n u u' v v' : (forall i, (i < n)%nat -> u i = u' i) -> (forall i, (i < n)%nat -> v i = v' i) -> rdot n u v = rdot n u' v'.
Proof. intros H1 H2. apply rsum_ext. intros i Hi. rewrite H1, H2 by exact Hi. reflexivity. Qed.
Lemma rdot_add n u v w : rdot n u (fun i => v i + w i)%R = (rdot n u v + rdot n u w)%R.
Proof. unfold rdot. rewrite <- rsum_add. apply rsum_ext. intros; lra. Qed.
Lemma rdot_sub n u v w : rdot n u (fun i => v i - w i)%R = (rdot n u v - rdot n u w)%R.
Proof.
  unfold rdot. induction n as [|n IH]; cbn; [lra|]. rewrite IH. lra.
Qed.
Lemma rdot_scale n c u v : rdot n u (fun i => c * v i)%R = (c * rdot n u v)%R.
Proof. unfold rdot. rewrite <- rsum_scale. apply rsum_ext. intros; lra. Qed.

(** memory *)
Lemma rdm_ok size A a v : 0 <= a < size -> A a = Some v -> rdm size A a = Ok v.
Proof. intros H E. unfold rdm, rd. replace ((0 <=? a) && (a <? size)) with true by lia. rewrite E. reflexivity. Qed.
Lemma wrm_ok size A a v : 0 <= a < size -> wrm size A a v = Ok (fun b => if b =? a then Some v else A b).
Proof. intros H. unfold wrm, wr. replace ((0 <=? a) && (a <? size)) with true by lia. reflexivity. Qed.

(** loops *)
Lemma forn_inv {S} (P : nat -> S -> Prop) n body (s : S) : P O s ->
  (forall k s, (k < n)%nat -> P k s -> exists s', body (Z.of_nat k) s = Ok s' /\ P (Datatypes.S k) s') ->
  exists s', forn n body s = Ok s' /\ P n s'.
Proof.
  intros H0 HS. induction n as [|n IH]; [exists s; split; [reflexivity|exact H0]|].
  destruct IH as [s1 [E1 H1]]; [intros; apply HS; auto; lia|]. cbn [forn]. rewrite E1. cbn [obind]. apply HS; auto.
Qed.

Lemma dot_ok n z1 v1 s1 z2 v2 s2 u v : 0 <= s1 -> s1 + Z.of_nat n <= z1 -> 0 <= s2 -> s2 + Z.of_nat n <= z2 ->
  holdsv n s1 v1 u -> holdsv n s2 v2 v -> dotproduct n z1 v1 s1 z2 v2 s2 = Ok (rdot n u v).
Proof.
  intros A1 B1 A2 B2 H1 H2. unfold dotproduct.
  destruct (forn_inv (fun k dp => dp = rdot k u v) n (fun i dp => do a <- rdm z1 v1 (s1 + i) ; do b <- rdm z2 v2 (s2 + i) ; Ok (dp + a * b)%R) 0%R) as [r [E ->]].
  - reflexivity.
  - intros k dp Hk ->. rewrite (rdm_ok _ _ _ (u k)) by (try apply H1; lia). rewrite (rdm_ok _ _ _ (v k)) by (try apply H2; lia). cbn [obind].
    eexists; split; reflexivity.
  - exact E.
Qed.
Lemma norm_ok n A v : holdsv n 0 A v -> norm n A = Ok (sqrt (rdot n v v)).
Proof.
  intros H. unfold norm.
  destruct (forn_inv (fun k q => q = rdot k v v) n (fun i q => do a <- rdm (Z.of_nat n) A i ; Ok (q + a * a)%R) 0%R) as [r [E ->]].
  - reflexivity.
  - intros k q Hk ->. rewrite (rdm_ok _ _ _ (v k)) by (try (rewrite <- (H k) by lia; f_equal); lia). cbn [obind]. eexists; split; reflexivity.
  - rewrite E. reflexivity.
Qed.

Lemma rd0 n A v k : holdsv n 0 A v -> (k < n)%nat -> rdm (Z.of_nat n) A (Z.of_nat k) = Ok (v k).
Proof. intros H Hk. apply rdm_ok; [lia|]. exact (H k Hk). Qed.
Lemma rd1 n A B v k : holdsv n 0 A v -> (k < n)%nat -> B (Z.of_nat k) = A (Z.of_nat k) -> rdm (Z.of_nat n) B (Z.of_nat k) = Ok (v k).
Proof. intros H Hk E. apply rdm_ok; [lia|]. rewrite E. exact (H k Hk). Qed.

(** a loop that fills base .. base + n - 1 *)
Lemma fill n size base (body : Z -> mem -> outcome mem) (d : mem) (g : vecR) : 0 <= base -> base + Z.of_nat n <= size ->
  (forall k d', (k < n)%nat -> (forall i, (i < k)%nat -> d' (base + Z.of_nat i) = Some (g i)) ->
     (forall a, ~ (base <= a < base + Z.of_nat k) -> d' a = d a) ->
     body (Z.of_nat k) d' = wrm size d' (base + Z.of_nat k) (g k)) ->
  exists d', forn n body d = Ok d' /\ holdsv n base d' g /\ (forall a, ~ (base <= a < base + Z.of_nat n) -> d' a = d a).
Proof.
  intros Hb Hs HB.
  destruct (@forn_inv mem (fun k d' => holdsv k base d' g /\ (forall a, ~ (base <= a < base + Z.of_nat k) -> d' a = d a)) n body d) as [d' [E [H1 H2]]].
  - split; [intros i Hi; lia|reflexivity].
  - intros k d' Hk [I1 I2]. rewrite (HB k d' Hk I1 I2). rewrite wrm_ok by lia. eexists; split; [reflexivity|]. split.
    + intros i Hi. cbv beta. destruct (Z.eqb_spec (base + Z.of_nat i) (base + Z.of_nat k)) as [Q|Q].
      * assert (i = k) by lia. subst i. reflexivity.
      * apply I1. lia.
    + intros a Ha. cbv beta. destruct (Z.eqb_spec a (base + Z.of_nat k)); [lia|]. apply I2. lia.
  - exists d'. auto.
Qed.
(** the same for two arrays *)
Lemma fill2 n size1 size2 base1 base2 (body : Z -> mem * mem -> outcome (mem * mem)) (X G : mem) (g h : vecR) :
  0 <= base1 -> base1 + Z.of_nat n <= size1 -> 0 <= base2 -> base2 + Z.of_nat n <= size2 ->
  (forall k X' G', (k < n)%nat ->
     (forall i, (i < k)%nat -> X' (base1 + Z.of_nat i) = Some (g i)) -> (forall a, ~ (base1 <= a < base1 + Z.of_nat k) -> X' a = X a) ->
     (forall i, (i < k)%nat -> G' (base2 + Z.of_nat i) = Some (h i)) -> (forall a, ~ (base2 <= a < base2 + Z.of_nat k) -> G' a = G a) ->
     body (Z.of_nat k) (X', G') = do x <- wrm size1 X' (base1 + Z.of_nat k) (g k) ; do y <- wrm size2 G' (base2 + Z.of_nat k) (h k) ; Ok (x, y)) ->
  exists X' G', forn n body (X, G) = Ok (X', G') /\ holdsv n base1 X' g /\ (forall a, ~ (base1 <= a < base1 + Z.of_nat n) -> X' a = X a) /\
    holdsv n base2 G' h /\ (forall a, ~ (base2 <= a < base2 + Z.of_nat n) -> G' a = G a).
Proof.
  intros Hb1 Hs1 Hb2 Hs2 HB.
  destruct (@forn_inv (mem * mem) (fun k XG => (holdsv k base1 (fst XG) g /\ (forall a, ~ (base1 <= a < base1 + Z.of_nat k) -> fst XG a = X a)) /\
      (holdsv k base2 (snd XG) h /\ (forall a, ~ (base2 <= a < base2 + Z.of_nat k) -> snd XG a = G a))) n body (X, G)) as [[X' G'] [E [[H1 H2] [H3 H4]]]].
  - split; (split; [intros i Hi; lia|reflexivity]).
  - intros k [X' G'] Hk [[I1 I2] [I3 I4]]. cbn [fst snd] in *. pose proof (HB k X' G' Hk I1 I2 I3 I4) as EB. rewrite !wrm_ok in EB by lia. cbn [obind] in EB. eexists; split; [exact EB|]. cbn [fst snd].
    split; split.
    + intros i Hi. cbv beta. destruct (Z.eqb_spec (base1 + Z.of_nat i) (base1 + Z.of_nat k)) as [Q|Q].
      * assert (i = k) by lia. subst i. reflexivity.
      * apply I1. lia.
    + intros a Ha. cbv beta. destruct (Z.eqb_spec a (base1 + Z.of_nat k)); [lia|]. apply I2. lia.
    + intros i Hi. cbv beta. destruct (Z.eqb_spec (base2 + Z.of_nat i) (base2 + Z.of_nat k)) as [Q|Q].
      * assert (i = k) by lia. subst i. reflexivity.
      * apply I3. lia.
    + intros a Ha. cbv beta. destruct (Z.eqb_spec a (base2 + Z.of_nat k)); [lia|]. apply I4. lia.
  - exists X', G'. cbn [fst snd] in *. auto.
Qed.
(** the loop that moves an array down by p places *)
Lemma shift_loop cnt size p (A : mem) : (0 < p)%nat -> Z.of_nat cnt + Z.of_nat p <= size ->
  (forall a, 0 <= a < size -> A a <> None) ->
  exists A', forn cnt (fun i B => do a <- rdm size B (i + Z.of_nat p) ; wrm size B i a) A = Ok A' /\
    forall a, A' a = (if (0 <=? a) && (a <? Z.of_nat cnt) then A (a + Z.of_nat p) else A a).
Proof.
  intros Hp Hs HA.
  destruct (@forn_inv mem (fun k B => forall a, B a = (if (0 <=? a) && (a <? Z.of_nat k) then A (a + Z.of_nat p) else A a)) cnt
    (fun i B => do a <- rdm size B (i + Z.of_nat p) ; wrm size B i a) A) as [A' [E H]].
  - intros a. replace ((0 <=? a) && (a <? Z.of_nat 0)) with false by lia. reflexivity.
  - intros k B Hk I. destruct (A (Z.of_nat k + Z.of_nat p)) as [v|] eqn:EA; [|exfalso; apply (HA (Z.of_nat k + Z.of_nat p)); [lia|exact EA]].
    rewrite (rdm_ok _ _ _ v); [|lia|rewrite I; replace ((0 <=? Z.of_nat k + Z.of_nat p) && (Z.of_nat k + Z.of_nat p <? Z.of_nat k)) with false by lia; exact EA].
    cbn [obind]. rewrite wrm_ok by lia. eexists; split; [reflexivity|]. intros a. cbv beta. destruct (Z.eqb_spec a (Z.of_nat k)) as [->|Q].
    + replace ((0 <=? Z.of_nat k) && (Z.of_nat k <? Z.of_nat (S k))) with true by lia. symmetry; exact EA.
    + rewrite I. replace ((0 <=? a) && (a <? Z.of_nat (S k))) with ((0 <=? a) && (a <? Z.of_nat k)) by lia. reflexivity.
  - exists A'. auto.
Qed.
Lemma shift_loop2 cnt size p (X G : mem) : (0 < p)%nat -> Z.of_nat cnt + Z.of_nat p <= size ->
  (forall a, 0 <= a < size -> X a <> None) -> (forall a, 0 <= a < size -> G a <> None) ->
  exists X' G', forn cnt (fun i XG => do a <- rdm size (fst XG) (i + Z.of_nat p) ; do x <- wrm size (fst XG) i a ;
      do b <- rdm size (snd XG) (i + Z.of_nat p) ; do y <- wrm size (snd XG) i b ; Ok (x, y)) (X, G) = Ok (X', G') /\
    (forall a, X' a = (if (0 <=? a) && (a <? Z.of_nat cnt) then X (a + Z.of_nat p) else X a)) /\
    (forall a, G' a = (if (0 <=? a) && (a <? Z.of_nat cnt) then G (a + Z.of_nat p) else G a)).
Proof.
  intros Hp Hs HX HG.
  destruct (@forn_inv (mem * mem) (fun k B => (forall a, fst B a = (if (0 <=? a) && (a <? Z.of_nat k) then X (a + Z.of_nat p) else X a)) /\
    (forall a, snd B a = (if (0 <=? a) && (a <? Z.of_nat k) then G (a + Z.of_nat p) else G a))) cnt
    (fun i XG => do a <- rdm size (fst XG) (i + Z.of_nat p) ; do x <- wrm size (fst XG) i a ;
      do b <- rdm size (snd XG) (i + Z.of_nat p) ; do y <- wrm size (snd XG) i b ; Ok (x, y)) (X, G)) as [[X' G'] [E [H1 H2]]].
  - split; intros a; replace ((0 <=? a) && (a <? Z.of_nat 0)) with false by lia; reflexivity.
  - intros k [BX BG] Hk [I1 I2]. cbn [fst snd] in *.
    destruct (X (Z.of_nat k + Z.of_nat p)) as [v|] eqn:EX; [|exfalso; apply (HX (Z.of_nat k + Z.of_nat p)); [lia|exact EX]].
    destruct (G (Z.of_nat k + Z.of_nat p)) as [w|] eqn:EG; [|exfalso; apply (HG (Z.of_nat k + Z.of_nat p)); [lia|exact EG]].
    rewrite (rdm_ok _ BX _ v); [|lia|rewrite I1; replace ((0 <=? Z.of_nat k + Z.of_nat p) && (Z.of_nat k + Z.of_nat p <? Z.of_nat k)) with false by lia; exact EX].
    cbn [obind]. rewrite wrm_ok by lia. cbn [obind].
    rewrite (rdm_ok _ BG _ w); [|lia|rewrite I2; replace ((0 <=? Z.of_nat k + Z.of_nat p) && (Z.of_nat k + Z.of_nat p <? Z.of_nat k)) with false by lia; exact EG].
    cbn [obind]. rewrite wrm_ok by lia. cbn [obind]. eexists; split; [reflexivity|]. cbn [fst snd]. split; intros a; cbv beta.
    + destruct (Z.eqb_spec a (Z.of_nat k)) as [->|Q].
      * replace ((0 <=? Z.of_nat k) && (Z.of_nat k <? Z.of_nat (S k))) with true by lia. symmetry; exact EX.
      * rewrite I1. replace ((0 <=? a) && (a <? Z.of_nat (S k))) with ((0 <=? a) && (a <? Z.of_nat k)) by lia. reflexivity.
    + destruct (Z.eqb_spec a (Z.of_nat k)) as [->|Q].
      * replace ((0 <=? Z.of_nat k) && (Z.of_nat k <? Z.of_nat (S k))) with true by lia. symmetry; exact EG.
      * rewrite I2. replace ((0 <=? a) && (a <? Z.of_nat (S k))) with ((0 <=? a) && (a <? Z.of_nat k)) by lia. reflexivity.
  - exists X', G'. auto.
Qed.
