(** Flat arrays as total memories, sequences of stores, and counted loops.

    Used to give C loops that fill arrays a direct reading: a loop is the list
    of stores it performs, in program order.  Bounds are stated separately, on
    the indices of that list. *)
From Coq Require Import ZArith List Lia Bool.
From Coq Require Import ZifyBool ZifyNat.
From Verif Require Import CBase.
Import ListNotations.
Local Open Scope Z_scope.

Definition mem (A : Type) := Z -> A.
Definition upd {A} (m : mem A) (i : Z) (v : A) : mem A :=
  fun j => if j =? i then v else m j.
Definition run_writes {A} (m : mem A) (ws : list (Z * A)) : mem A :=
  fold_left (fun m w => upd m (fst w) (snd w)) ws m.

Lemma run_writes_app {A} (m : mem A) a b :
  run_writes m (a ++ b) = run_writes (run_writes m a) b.
Proof. unfold run_writes. apply fold_left_app. Qed.

Lemma run_writes_notin {A} (ws : list (Z * A)) : forall m i,
  (forall v, ~ In (i, v) ws) -> run_writes m ws i = m i.
Proof.
  unfold run_writes.
  induction ws as [|[j v] ws IH]; intros m i H; cbn [fold_left]; [reflexivity|].
  rewrite IH by (intros w Hw; apply (H w); now right).
  unfold upd; cbn [fst snd]. destruct (i =? j) eqn:E; [|reflexivity].
  exfalso. apply (H v). left. f_equal. lia.
Qed.

Lemma run_writes_in {A} (ws : list (Z * A)) : forall m i v,
  (exists w, In (i, w) ws) -> (forall w, In (i, w) ws -> w = v) ->
  run_writes m ws i = v.
Proof.
  induction ws as [|[j u] ws IH] using rev_ind; intros m i v [w Hw] H; [easy|].
  rewrite run_writes_app. cbn [run_writes fold_left fst snd]. unfold upd.
  destruct (i =? j) eqn:E.
  - apply H. apply in_app_iff. right. left. f_equal. lia.
  - apply IH.
    + apply in_app_iff in Hw. destruct Hw as [Hw | [Hw | []]]; [now exists w|].
      injection Hw as -> ->. lia.
    + intros w' Hw'. apply H. apply in_app_iff. now left.
Qed.

(** [for (k=0;k<nz;k++) for (j=0;j<ny;j++) for (i=0;i<nx;i++) f(k,j,i)] *)
Definition loop1 {B} (n : Z) (f : Z -> B) : list B := map f (zseq 0 (Z.to_nat n)).
Definition loop3 {B} (nz ny nx : Z) (f : Z -> Z -> Z -> B) : list B :=
  flat_map (fun k => flat_map (fun j => loop1 nx (fun i => f k j i))
     (zseq 0 (Z.to_nat ny))) (zseq 0 (Z.to_nat nz)).
Definition loop2 {B} (ny nx : Z) (f : Z -> Z -> B) : list B :=
  flat_map (fun j => loop1 nx (fun i => f j i)) (zseq 0 (Z.to_nat ny)).

Lemma in_loop1 {B} n (f : Z -> B) w : In w (loop1 n f) <-> exists i, 0 <= i < n /\ w = f i.
Proof.
  unfold loop1. rewrite in_map_iff. split.
  - intros (i & E & Hi). rewrite in_zseq in Hi. exists i. split; [lia|auto].
  - intros (i & Hi & E). exists i. rewrite in_zseq. split; [auto|lia].
Qed.
Lemma in_loop2 {B} ny nx (f : Z -> Z -> B) w :
  In w (loop2 ny nx f) <-> exists j i, 0 <= j < ny /\ 0 <= i < nx /\ w = f j i.
Proof.
  unfold loop2. rewrite in_flat_map. split.
  - intros (j & Hj & H). rewrite in_zseq in Hj. apply in_loop1 in H.
    destruct H as (i & Hi & E). exists j, i. repeat split; auto; lia.
  - intros (j & i & Hj & Hi & E). exists j. rewrite in_zseq. split; [lia|].
    apply in_loop1. now exists i.
Qed.
Lemma in_loop3 {B} nz ny nx (f : Z -> Z -> Z -> B) w :
  In w (loop3 nz ny nx f) <->
  exists k j i, 0 <= k < nz /\ 0 <= j < ny /\ 0 <= i < nx /\ w = f k j i.
Proof.
  unfold loop3. rewrite in_flat_map. split.
  - intros (k & Hk & H). rewrite in_zseq in Hk. rewrite in_flat_map in H.
    destruct H as (j & Hj & H). rewrite in_zseq in Hj. apply in_loop1 in H.
    destruct H as (i & Hi & E). exists k, j, i. repeat split; auto; lia.
  - intros (k & j & i & Hk & Hj & Hi & E). exists k. rewrite in_zseq. split; [lia|].
    rewrite in_flat_map. exists j. rewrite in_zseq. split; [lia|].
    apply in_loop1. now exists i.
Qed.

(** Column-major index of point (i,j,k) in an nx*ny*nz block. *)
Definition idx3 (nx ny i j k : Z) : Z := k * ny * nx + j * nx + i.

Lemma idx2_bound nx ny i j : 0 <= i < nx -> 0 <= j < ny -> 0 <= j * nx + i < ny * nx.
Proof. intros. nia. Qed.
Lemma idx3_bound nx ny nz i j k :
  0 <= i < nx -> 0 <= j < ny -> 0 <= k < nz -> 0 <= idx3 nx ny i j k < nz * ny * nx.
Proof.
  intros Hi Hj Hk. unfold idx3.
  assert (B := idx2_bound nx ny i j Hi Hj).
  assert (E : k * ny * nx + j * nx + i = k * (ny * nx) + (j * nx + i)) by ring. rewrite E.
  set (t := j * nx + i) in *. assert (E2 : nz * ny * nx = nz * (ny * nx)) by ring. rewrite E2.
  set (m := ny * nx) in *. clearbody t m. clear - Hk B. nia.
Qed.
Lemma radix_inj m q1 r1 q2 r2 :
  0 <= r1 < m -> 0 <= r2 < m -> q1 * m + r1 = q2 * m + r2 -> q1 = q2 /\ r1 = r2.
Proof. intros. assert (q1 = q2) by nia. subst. lia. Qed.
Lemma idx3_inj nx ny i j k i' j' k' :
  0 <= i < nx -> 0 <= j < ny -> 0 <= i' < nx -> 0 <= j' < ny ->
  idx3 nx ny i j k = idx3 nx ny i' j' k' -> i = i' /\ j = j' /\ k = k'.
Proof.
  intros Hi Hj Hi' Hj' E. unfold idx3 in E.
  assert (E2 : k * (ny * nx) + (j * nx + i) = k' * (ny * nx) + (j' * nx + i'))
    by (clear - E; lia).
  destruct (radix_inj _ _ _ _ _ (idx2_bound _ _ _ _ Hi Hj) (idx2_bound _ _ _ _ Hi' Hj') E2)
    as [-> E3].
  destruct (radix_inj _ _ _ _ _ Hi Hi' E3) as [-> ->]. auto.
Qed.

(** Every index of the block is the index of a point. *)
Lemma idx3_surj nx ny nz t :
  0 < nx -> 0 < ny -> 0 <= t < nz * ny * nx ->
  exists i j k, 0 <= i < nx /\ 0 <= j < ny /\ 0 <= k < nz /\ t = idx3 nx ny i j k.
Proof.
  intros Hx Hy Ht. exists (t mod nx), ((t / nx) mod ny), (t / nx / ny).
  assert (M1 := Z.mod_pos_bound t nx Hx). assert (M2 := Z.mod_pos_bound (t / nx) ny Hy).
  assert (D1 := Z.div_mod t nx ltac:(lia)). assert (D2 := Z.div_mod (t / nx) ny ltac:(lia)).
  assert (P1 : 0 <= t / nx) by (apply Z.div_pos; lia).
  assert (P2 : 0 <= t / nx / ny) by (apply Z.div_pos; lia).
  repeat split; try lia.
  - apply Z.div_lt_upper_bound; [lia|]. apply Z.div_lt_upper_bound; [lia|].
    replace (nx * (ny * nz)) with (nz * ny * nx) by ring. lia.
  - unfold idx3. set (a := t / nx) in *. set (b := t mod nx) in *.
    set (c := a / ny) in *. set (d := a mod ny) in *. clearbody a b c d.
    rewrite D1, D2. ring.
Qed.

(** Consecutive stores [X[start+count] = v; count++] for v in [vals]. *)
Fixpoint store_run {A} (m : mem A) (pos : Z) (vals : list A) : mem A :=
  match vals with
  | [] => m
  | v :: r => store_run (upd m pos v) (pos + 1) r
  end.

Lemma store_run_out {A} (vals : list A) : forall m pos i,
  i < pos \/ pos + Z.of_nat (length vals) <= i -> store_run m pos vals i = m i.
Proof.
  induction vals as [|v r IH]; intros m pos i H; cbn [store_run]; [reflexivity|].
  cbn [length] in H. rewrite IH by lia. unfold upd. replace (i =? pos) with false by lia.
  reflexivity.
Qed.
Lemma store_run_in {A} (vals : list A) : forall m pos i v,
  nth_error vals i = Some v -> store_run m pos vals (pos + Z.of_nat i) = v.
Proof.
  induction vals as [|u r IH]; intros m pos i v H; [destruct i; discriminate|].
  destruct i; cbn [nth_error store_run] in *.
  - injection H as ->. rewrite store_run_out by lia. unfold upd.
    replace (pos + Z.of_nat 0 =? pos) with true by lia. reflexivity.
  - replace (pos + Z.of_nat (S i)) with (pos + 1 + Z.of_nat i) by lia. now apply IH.
Qed.

(** nth of a concatenation of equally long blocks. *)
Lemma nth_error_flat_map_const {A B} (f : A -> list B) (m : nat) :
  (forall a, length (f a) = m) -> forall l q r a,
  (r < m)%nat -> nth_error l q = Some a ->
  nth_error (flat_map f l) (q * m + r) = nth_error (f a) r.
Proof.
  intros Hm. induction l as [|b l IH]; intros q r a Hr Hq; [destruct q; discriminate|].
  destruct q; cbn [flat_map nth_error] in *.
  - injection Hq as ->. cbn [Nat.mul Nat.add]. apply nth_error_app1. rewrite Hm. exact Hr.
  - rewrite nth_error_app2 by (rewrite Hm; lia).
    rewrite Hm. replace (S q * m + r - m)%nat with (q * m + r)%nat by lia. now apply IH.
Qed.
Lemma length_flat_map_const {A B} (f : A -> list B) (m : nat) l :
  (forall a, length (f a) = m) -> length (flat_map f l) = (length l * m)%nat.
Proof.
  intros Hm. induction l as [|b l IH]; [reflexivity|].
  cbn [flat_map length]. rewrite app_length, Hm, IH. lia.
Qed.
