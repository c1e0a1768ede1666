(* Order of the entries of the descriptor. *)

From Coq Require Import List Lia Arith.
From Verif Require Import Soap.
Import ListNotations.

Definition pair_block (N M Lmax p : nat) : list xidx :=
  flat_map (fun q => map (fun l => mkX (p / N) (p mod N) (q / N) (q mod N) l) (seq 0 (Lmax + 1))) (seq p (M - p)).
Lemma flat_shift {A} (F : nat -> list A) c k a : flat_map (fun n => F (c + n)) (seq a k) = flat_map F (seq (c + a) k).
Proof. revert a; induction k as [|k IH]; intros a; [reflexivity|]. cbn [seq flat_map]. rewrite IH. now replace (c + S a) with (S (c + a)) by lia. Qed.
Lemma flat_grid {A} (F : nat -> list A) N E : flat_map (fun e => flat_map (fun n => F (e * N + n)) (seq 0 N)) (seq 0 E) = flat_map F (seq 0 (E * N)).
Proof.
  induction E as [|E IH]; [reflexivity|]. replace (S E) with (E + 1) by lia. rewrite seq_app, flat_map_app, IH. cbn [Nat.add seq flat_map].
  rewrite app_nil_r. replace ((E + 1) * N) with (E * N + N) by lia. rewrite seq_app, flat_map_app. f_equal. rewrite flat_shift. now rewrite Nat.add_0_r.
Qed.
Lemma flat_ext {A B} (f g : A -> list B) l : (forall x, In x l -> f x = g x) -> flat_map f l = flat_map g l.
Proof. induction l as [|x l IH]; intros H; [reflexivity|]. cbn [flat_map]. rewrite H by (left; reflexivity). rewrite IH; [reflexivity|]. intros; apply H; right; assumption. Qed.
Lemma xlist_pairs E N L : xlist E N L = flat_map (pair_block N (E * N) L) (seq 0 (E * N)).
Proof.
  rewrite <- flat_grid. unfold xlist. apply flat_ext. intros e _. apply flat_ext. intros n Hn. apply in_seq in Hn. unfold pair_block.
  assert (D : (e * N + n) / N = e) by (rewrite Nat.div_add_l by lia; rewrite Nat.div_small by lia; lia).
  assert (R : (e * N + n) mod N = n) by (rewrite Nat.add_comm, Nat.mod_add by lia; apply Nat.mod_small; lia).
  now rewrite D, R.
Qed.
Lemma nodup_flat {A B} (f : A -> list B) l : NoDup l -> (forall x, In x l -> NoDup (f x)) -> (forall x y z, In x l -> In y l -> In z (f x) -> In z (f y) -> x = y) -> NoDup (flat_map f l).
Proof.
  induction l as [|x l IH]; intros Nd H D; [constructor|]. inversion Nd as [|x' l' Hx Nd']; subst. cbn [flat_map].
  assert (G : NoDup (flat_map f l)) by (apply IH; [exact Nd'|intros; apply H; right; assumption|intros; eapply D; try (right; eassumption); eassumption]).
  pose proof (H x (or_introl eq_refl)) as Nx. assert (Dj : forall z, In z (f x) -> ~ In z (flat_map f l)).
  { intros z Hz Hf. apply in_flat_map in Hf. destruct Hf as [y [Hy Hz']]. apply Hx. rewrite (D x y z); auto; [left; reflexivity|right; exact Hy]. }
  clear - G Nx Dj. induction (f x) as [|z t IHt]; [exact G|]. inversion Nx as [|? ? Hz Nt]; subst. cbn [app]. constructor.
  - rewrite in_app_iff. intros [C|C]; [contradiction|]. apply (Dj z); [left; reflexivity|exact C].
  - apply IHt; [exact Nt|]. intros w Hw. apply Dj. right; exact Hw.
Qed.
Lemma block_in N M L p t : In t (pair_block N M L p) <-> exists q l, p <= q < M /\ l <= L /\ t = mkX (p / N) (p mod N) (q / N) (q mod N) l.
Proof.
  unfold pair_block. rewrite in_flat_map. split.
  - intros [q [Hq Ht]]. apply in_seq in Hq. apply in_map_iff in Ht. destruct Ht as [l [<- Hl]]. apply in_seq in Hl. exists q, l. split; [lia|]. split; [lia|reflexivity].
  - intros [q [l [Hq [Hl ->]]]]. exists q. split; [apply in_seq; lia|]. apply in_map_iff. exists l. split; [reflexivity|]. apply in_seq; lia.
Qed.
Lemma dm_inj N p q : N <> 0 -> p / N = q / N -> p mod N = q mod N -> p = q.
Proof. intros HN H1 H2. rewrite (Nat.div_mod p N HN), (Nat.div_mod q N HN). now rewrite H1, H2. Qed.
Lemma block_nodup N M L p : N <> 0 -> NoDup (pair_block N M L p).
Proof.
  intros HN. unfold pair_block. apply nodup_flat; [apply seq_NoDup| |].
  - intros q _. apply FinFun.Injective_map_NoDup; [|apply seq_NoDup]. intros a b H. now injection H.
  - intros q q' t _ _ H1 H2. apply in_map_iff in H1. apply in_map_iff in H2. destruct H1 as [l [<- _]], H2 as [l' [E _]]. injection E as E1 E2 _. now apply (dm_inj N).
Qed.
Lemma xlist_nodup E N L : NoDup (xlist E N L).
Proof.
  rewrite xlist_pairs. destruct (Nat.eq_dec N 0) as [->|HN]; [rewrite Nat.mul_0_r; constructor|].
  apply nodup_flat; [apply seq_NoDup|intros; now apply block_nodup|].
  intros p p' t _ _ H1 H2. apply block_in in H1. apply block_in in H2. destruct H1 as [q [l [_ [_ ->]]]], H2 as [q' [l' [_ [_ Eq]]]]. injection Eq as E1 E2 _ _ _. now apply (dm_inj N).
Qed.
Lemma block_len N M L p : length (pair_block N M L p) = (M - p) * (L + 1).
Proof.
  unfold pair_block. generalize (seq_length (M - p) p). generalize (seq p (M - p)). intros l <-. induction l as [|q l IH]; [reflexivity|].
  cbn [flat_map length]. rewrite app_length, map_length, seq_length, IH. lia.
Qed.
Lemma tri n : 2 * (n * (n + 1) / 2) = n * (n + 1).
Proof.
  assert (D : exists k, n * (n + 1) = k * 2). { induction n as [|n [k IH]]; [exists 0; reflexivity|]. exists (k + (n + 1)). nia. }
  destruct D as [k E]. rewrite E, Nat.div_mul by lia. lia.
Qed.
Lemma xlist_len2 N M L k : k <= M -> 2 * length (flat_map (pair_block N M L) (seq (M - k) k)) = k * (k + 1) * (L + 1).
Proof.
  induction k as [|k IH]; intros H; [reflexivity|]. cbn [seq flat_map]. rewrite app_length, block_len. replace (S (M - S k)) with (M - k) by lia.
  specialize (IH ltac:(lia)). replace (M - (M - S k)) with (S k) by lia. nia.
Qed.
Lemma xlist_len E N L : length (xlist E N L) = size_X3 E N L.
Proof.
  rewrite xlist_pairs. pose proof (xlist_len2 N (E * N) L (E * N) (le_n _)) as H. rewrite Nat.sub_diag in H. unfold size_X3. pose proof (tri (E * N)) as T.
  rewrite (Nat.mul_comm (E * N + 1)). nia.
Qed.
Lemma xlist_in E N L t : In t (xlist E N L) <->
  x_e1 t < E /\ x_e2 t < E /\ x_n1 t < N /\ x_n2 t < N /\ x_l t <= L /\ x_e1 t * N + x_n1 t <= x_e2 t * N + x_n2 t.
Proof.
  rewrite xlist_pairs, in_flat_map. split.
  - intros [p [Hp Ht]]. apply in_seq in Hp. apply block_in in Ht. destruct Ht as [q [l [Hq [Hl ->]]]]. cbn [x_e1 x_e2 x_n1 x_n2 x_l].
    assert (HN : N <> 0) by nia. pose proof (Nat.mod_upper_bound p N HN). pose proof (Nat.mod_upper_bound q N HN).
    pose proof (Nat.div_mod p N HN). pose proof (Nat.div_mod q N HN).
    split; [apply Nat.div_lt_upper_bound; nia|]. split; [apply Nat.div_lt_upper_bound; nia|]. repeat split; nia.
  - intros [H1 [H2 [H3 [H4 [H5 H6]]]]]. exists (x_e1 t * N + x_n1 t). split; [apply in_seq; nia|]. apply block_in. exists (x_e2 t * N + x_n2 t), (x_l t).
    split; [nia|]. split; [exact H5|].
    assert (D : forall e n, n < N -> (e * N + n) / N = e /\ (e * N + n) mod N = n).
    { intros e n Hn. rewrite Nat.div_add_l, Nat.div_small by lia. rewrite (Nat.add_comm (e * N)), Nat.mod_add by lia. rewrite Nat.mod_small by lia. lia. }
    destruct (D (x_e1 t) (x_n1 t) H3) as [-> ->]. destruct (D (x_e2 t) (x_n2 t) H4) as [-> ->]. destruct t; reflexivity.
Qed.
(** Positions of c_nlm. *)
Lemma cidx_tri L n : 2 * (n * (L + 1) * (L + 2) / 2) = n * (L + 1) * (L + 2).
Proof.
  pose proof (tri (L + 1)) as T. assert (E : n * (L + 1) * (L + 2) = (n * ((L + 1) * (L + 1 + 1) / 2)) * 2) by nia. rewrite E, Nat.div_mul by lia. lia.
Qed.
Lemma cidx_bound L Nmax n l m : n < Nmax -> l <= L -> m <= l -> cidx L n l m < Nmax * (L + 1) * (L + 2) / 2.
Proof.
  intros Hn Hl Hm. unfold cidx. pose proof (cidx_tri L n). pose proof (cidx_tri L Nmax). pose proof (tri l). 
  assert (2 * (l * (l + 1) / 2) + 2 * (l + 1) <= (L + 1) * (L + 2)) by nia. nia.
Qed.
Lemma tri_inj l m l' m' : m <= l -> m' <= l' -> l * (l + 1) / 2 + m = l' * (l' + 1) / 2 + m' -> l = l' /\ m = m'.
Proof.
  intros H H' E. pose proof (tri l). pose proof (tri l'). assert (l = l'); [|subst; lia].
  destruct (Nat.lt_trichotomy l l') as [C|[C|C]]; [exfalso|exact C|exfalso]; nia.
Qed.
Lemma cidx_inj L n l m n' l' m' : l <= L -> m <= l -> l' <= L -> m' <= l' -> cidx L n l m = cidx L n' l' m' -> n = n' /\ l = l' /\ m = m'.
Proof.
  intros Hl Hm Hl' Hm' E. unfold cidx in E. pose proof (cidx_tri L n). pose proof (cidx_tri L n'). pose proof (tri l) as T. pose proof (tri l') as T'.
  assert (B : 2 * (l * (l + 1) / 2) + 2 * (l + 1) <= (L + 1) * (L + 2)) by nia. assert (B' : 2 * (l' * (l' + 1) / 2) + 2 * (l' + 1) <= (L + 1) * (L + 2)) by nia.
  assert (En : n = n'). { destruct (Nat.lt_trichotomy n n') as [C|[C|C]]; [exfalso|exact C|exfalso]; nia. }
  subst n'. split; [reflexivity|]. apply tri_inj; auto. lia.
Qed.
