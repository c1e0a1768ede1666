(** Model of the reading of the projector tables of a pseudopotential file (src/readfiles.c:2111-2222) and of the loops
    over these tables that compute the spline slopes (src/initialization.c:3472-3517) and use them
    (src/nlocVecRoutines.c:523-557).
    The numbers of the file are given as functions; the scanning of the text is not modelled. *)
From Coq Require Import Reals Lra Lia List Arith Bool FinFun.
From Verif Require Import CBase.
Import ListNotations.
Local Open Scope nat_scope.

Section Tables.
  (** [N]: number of projectors the array was allocated for; [size]: number of radial points (readfiles.c:2121, 2139) *)
  Variables (N size : nat).
  Definition mem := nat -> R.
  (** a read of the array; outside of it, undefined behaviour (readfiles.c:2162, 2219) *)
  Definition ld (m : mem) (i : nat) : outcome R := if i <? N * size then Ok (m i) else UB.
  (** a write to the array (readfiles.c:2158, 2162, 2215, 2219) *)
  Definition wr (m : mem) (i : nat) (x : R) : outcome mem := if i <? N * size then Ok (fun j => if j =? i then x else m j) else UB.
  (** a [for] loop whose body changes the array (readfiles.c:2151-2162) *)
  Fixpoint loop {T} (body : T -> mem -> outcome mem) (xs : list T) (m : mem) : outcome mem :=
    match xs with [] => Ok m | x :: xs' => do m' <- body x m ; loop body xs' m' end.

  (** radial points, and the table of the file: [v l kk jj] is the value in column [kk] of line [jj] of the block of [l] *)
  Variables (r : nat -> R) (v : nat -> nat -> nat -> R) (loc : nat).

  (** One block of [n] projectors (readfiles.c:2152-2162, 2209-2219): the values divided by the radius are stored from
      projector [w] on; afterwards the value at the origin is replaced by the value of the next point, which is looked up
      from projector [p] on: [lpos[l]] for both in 2162, but [lpos_soc[l-1]] and [lpos[l-1]] in 2219. *)
  Definition block (l n w p : nat) (m : mem) : outcome mem :=
    do m1 <- loop (fun x m => wr m ((w + snd x) * size + fst x) (v l (snd x) (fst x) / r (fst x))%R) (list_prod (seq 0 size) (seq 0 n)) m ;
    loop (fun kk m => do x <- ld m ((p + kk) * size + 1) ; wr m ((w + kk) * size) x) (seq 0 n) m1.

  (** The loop over [l] (readfiles.c:2145-2163 and 2202-2221): [w] and [p] are the offsets accumulated from the numbers of
      projectors [ns] and [ks] (2113-2116, 2133-2136); the block of the local channel is not read. *)
  Fixpoint blocks (l w p : nat) (ns ks : list nat) (m : mem) : outcome mem :=
    match ns, ks with
    | n :: ns', k :: ks' => do m' <- (if l =? loc then Ok m else block l n w p m) ; blocks (S l) (w + n) (p + k) ns' ks' m'
    | _, _ => Ok m
    end.
End Tables.

(** [UdV] (readfiles.c:2121, 2142-2163): allocated for the sum of [ppl], zero at first *)
Definition read_udv (size : nat) (r : nat -> R) (v : nat -> nat -> nat -> R) (loc : nat) (ppl : list nat) : outcome mem :=
  blocks (list_sum ppl) size r v loc 0 0 0 ppl ppl (fun _ => 0%R).
(** [UdV_soc] (readfiles.c:2139, 2201-2222): the blocks of l = 1, ..., lmax *)
Definition read_soc (size : nat) (r : nat -> R) (v : nat -> nat -> nat -> R) (loc : nat) (ppl soc : list nat) : outcome mem :=
  blocks (list_sum soc) size r v loc 1 0 0 soc ppl (fun _ => 0%R).

(** The calls of [getYD_gen] for the projectors (initialization.c:3485-3496, 3505-3516): table read, table written; [c2] and
    [c] are [lcount2] and [lcount]. *)
Fixpoint spl (loc l c2 c : nat) (ppl : list nat) : list (nat * nat) :=
  match ppl with
  | [] => []
  | n :: ppl' => if l =? loc then spl loc (S l) (c2 + n) c ppl'
                 else map (fun np => (c2 + np, c + np)) (seq 0 n) ++ spl loc (S l) (c2 + n) (c + n) ppl'
  end.
(** the number of tables allocated (initialization.c:3474-3480, 3498-3503) *)
Fixpoint spl_size (loc l : nat) (ppl : list nat) : nat :=
  match ppl with [] => 0 | n :: ppl' => (if l =? loc then 0 else n) + spl_size loc (S l) ppl' end.
(** The columns of [Chi] (nlocVecRoutines.c:523-557): degree, order + degree, table of values, table of slopes; the position
    in the list is [col_count]. *)
Fixpoint chi (loc l c2 c : nat) (ppl : list nat) : list (nat * nat * (nat * nat)) :=
  match ppl with
  | [] => []
  | n :: ppl' => if l =? loc then chi loc (S l) (c2 + n) c ppl'
                 else flat_map (fun np => map (fun m => (l, m, (c2 + np, c + np))) (seq 0 (2 * l + 1))) (seq 0 n) ++ chi loc (S l) (c2 + n) (c + n) ppl'
  end.
(** the number of columns allocated (nlocVecRoutines.c:440-444) *)
Fixpoint chi_size (loc l : nat) (ppl : list nat) : nat :=
  match ppl with [] => 0 | n :: ppl' => (if l =? loc then 0 else n * (2 * l + 1)) + chi_size loc (S l) ppl' end.

(** ** Lemmas *)
Section Lem.
  Variables (N size : nat).
  Lemma idx_inj a b i j : i < size -> j < size -> a * size + i = b * size + j -> a = b /\ i = j.
  Proof. intros Hi Hj E. assert (a = b) by nia. subst. lia. Qed.
  Lemma idx_lt a j : a < N -> j < size -> a * size + j < N * size. Proof. nia. Qed.
  Lemma loop_ok T (f : T -> nat) (g : mem -> T -> outcome R) (val : T -> R) : forall xs m,
    (forall x, In x xs -> f x < N * size) -> (forall x y, In x xs -> In y xs -> f x = f y -> x = y) -> NoDup xs ->
    (forall x m', In x xs -> (forall j, (forall y, In y xs -> j <> f y) -> m' j = m j) -> g m' x = Ok (val x)) ->
    exists m', loop (fun x m => do y <- g m x ; wr N size m (f x) y) xs m = Ok m' /\ (forall x, In x xs -> m' (f x) = val x) /\ (forall j, (forall x, In x xs -> j <> f x) -> m' j = m j).
  Proof.
    induction xs as [|x xs IH]; intros m Hb Hi Hn Hg.
    - exists m. split; [reflexivity|]. split; [intros ? []|reflexivity].
    - cbn [loop]. rewrite (Hg x m (or_introl eq_refl) (fun _ _ => eq_refl)). cbn [obind]. unfold wr at 1. destruct (Nat.ltb_spec (f x) (N * size)) as [_|Q]; [|specialize (Hb x (or_introl eq_refl)); lia]. cbn [obind].
      inversion Hn as [|? ? N1 N2]; subst. set (m1 := fun j => if j =? f x then val x else m j).
      destruct (IH m1) as (m' & E & P1 & P2).
      + intros; apply Hb; now right.
      + intros; apply Hi; auto; now right.
      + exact N2.
      + intros y m' Hy Hm. apply Hg; [now right|]. intros j Hj. rewrite Hm by (intros z Hz; apply Hj; now right). unfold m1. destruct (Nat.eqb_spec j (f x)) as [->|]; [|reflexivity]. exfalso. now apply (Hj x (or_introl eq_refl)).
      + exists m'. split; [exact E|]. split.
        * intros y [<-|Hy]; [|now apply P1]. rewrite P2; [unfold m1; now rewrite Nat.eqb_refl|]. intros z Hz F. assert (x = z) by (apply Hi; [now left|now right|exact F]). subst. contradiction.
        * intros j Hj. rewrite P2 by (intros z Hz; apply Hj; now right). unfold m1. destruct (Nat.eqb_spec j (f x)) as [->|]; [|reflexivity]. exfalso. now apply (Hj x (or_introl eq_refl)).
  Qed.
  Lemma loop_ext T (b1 b2 : T -> mem -> outcome mem) : (forall x m, b1 x m = b2 x m) -> forall xs m, loop b1 xs m = loop b2 xs m.
  Proof. intros H. induction xs as [|x xs IH]; intros m; [reflexivity|]. cbn [loop]. rewrite H. destruct (b2 x m); cbn [obind]; auto. Qed.
  Lemma NoDup_prod T U (xs : list T) (ys : list U) : NoDup xs -> NoDup ys -> NoDup (list_prod xs ys).
  Proof.
    induction 1 as [|x xs N1 N2 IH]; intros H; cbn [list_prod]; [constructor|].
    assert (A : NoDup (map (fun y => (x, y)) ys)) by (apply FinFun.Injective_map_NoDup; [intros a b E; now injection E|exact H]).
    assert (G : forall l, NoDup l -> (forall q, In q l -> fst q = x) -> NoDup (l ++ list_prod xs ys)).
    { induction l as [|q l IL]; intros Q1 Q2; cbn [app]; [now apply IH|]. inversion Q1; subst. constructor.
      - intros I. apply in_app_or in I. destruct I as [I|I]; [contradiction|]. specialize (Q2 q (or_introl eq_refl)). destruct q as [a b]. cbn in Q2. subst. apply in_prod_iff in I. now apply N1.
      - apply IL; [assumption|]. intros; apply Q2; now right. }
    apply (G _ A). intros q I. apply in_map_iff in I. destruct I as (? & <- & _). reflexivity.
  Qed.
  Variables (r : nat -> R) (v : nat -> nat -> nat -> R) (loc : nat).
  Hypothesis S2 : 2 <= size.
  Lemma block_ok l n w p m : w + n <= N -> (0 < n -> p + n <= N) -> exists m', block N size r v l n w p m = Ok m' /\
    (forall kk jj, kk < n -> 1 <= jj < size -> m' ((w + kk) * size + jj) = (v l kk jj / r jj)%R) /\
    (forall kk, kk < n -> p = w -> m' ((w + kk) * size) = (v l kk 1 / r 1)%R) /\
    (forall q jj, jj < size -> q < w \/ w + n <= q -> m' (q * size + jj) = m (q * size + jj)).
  Proof.
    intros Hw Hp. unfold block.
    destruct (loop_ok (nat * nat) (fun x => (w + snd x) * size + fst x) (fun _ x => Ok (v l (snd x) (fst x) / r (fst x))%R) (fun x => (v l (snd x) (fst x) / r (fst x))%R) (list_prod (seq 0 size) (seq 0 n)) m) as (m1 & E1 & A1 & B1).
    - intros [j k] I. apply in_prod_iff in I. rewrite !in_seq in I. cbn [fst snd]. apply idx_lt; lia.
    - intros [j k] [j' k'] I I' F. apply in_prod_iff in I, I'. rewrite !in_seq in I, I'. cbn [fst snd] in F. apply idx_inj in F; [|lia|lia]. f_equal; lia.
    - apply NoDup_prod; apply seq_NoDup.
    - reflexivity.
    - cbn [obind] in E1. rewrite E1. cbn [obind].
      destruct (loop_ok nat (fun kk => (w + kk) * size) (fun m kk => ld N size m ((p + kk) * size + 1)) (fun kk => m1 ((p + kk) * size + 1)) (seq 0 n) m1) as (m2 & E2 & A2 & B2).
      + intros k I. apply in_seq in I. replace ((w + k) * size) with ((w + k) * size + 0) by lia. apply idx_lt; lia.
      + intros k k' I I' F. nia.
      + apply seq_NoDup.
      + intros k m' I Hm. apply in_seq in I. unfold ld. destruct (Nat.ltb_spec ((p + k) * size + 1) (N * size)) as [_|Q]; [|pose proof (idx_lt (p + k) 1); lia].
        f_equal. apply Hm. intros y _ F. replace ((w + y) * size) with ((w + y) * size + 0) in F by lia. apply idx_inj in F; lia.
      + exists m2. split; [exact E2|]. split; [|split].
        * intros k j Hk Hj. rewrite B2. { apply (A1 (j, k)). apply in_prod; apply in_seq; lia. }
          intros y _ F. replace ((w + y) * size) with ((w + y) * size + 0) in F by lia. apply idx_inj in F; lia.
        * intros k Hk ->. rewrite A2 by (apply in_seq; lia). apply (A1 (1, k)). apply in_prod; apply in_seq; lia.
        * intros q j Hj Hq. rewrite B2, B1; [reflexivity| |].
          -- intros [j' k'] I F. apply in_prod_iff in I. rewrite !in_seq in I. cbn [fst snd] in F. apply idx_inj in F; lia.
          -- intros y Hy F. apply in_seq in Hy. replace ((w + y) * size) with ((w + y) * size + 0) in F by lia. apply idx_inj in F; lia.
  Qed.
  Definition off (ns : list nat) (i : nat) := list_sum (firstn i ns).
  Lemma blocks_ok : forall ns ks l w p m, length ns <= length ks -> w + list_sum ns <= N ->
    (forall i, i < length ns -> l + i <> loc -> 0 < nth i ns 0 -> p + off ks i + nth i ns 0 <= N) ->
    exists m', blocks N size r v loc l w p ns ks m = Ok m' /\
    (forall i kk jj, i < length ns -> l + i <> loc -> kk < nth i ns 0 -> 1 <= jj < size -> m' ((w + off ns i + kk) * size + jj) = (v (l + i) kk jj / r jj)%R) /\
    (forall i kk, i < length ns -> l + i <> loc -> kk < nth i ns 0 -> p + off ks i = w + off ns i -> m' ((w + off ns i + kk) * size) = (v (l + i) kk 1 / r 1)%R) /\
    (forall i kk jj, i < length ns -> l + i = loc -> kk < nth i ns 0 -> jj < size -> m' ((w + off ns i + kk) * size + jj) = m ((w + off ns i + kk) * size + jj)) /\
    (forall q jj, jj < size -> q < w -> m' (q * size + jj) = m (q * size + jj)).
  Proof.
    induction ns as [|n ns IH]; intros ks l w p m HL HN HP.
    - exists m. split; [destruct ks; reflexivity|]. repeat split; intros; cbn in *; try lia; reflexivity.
    - destruct ks as [|k ks]; [cbn in HL; lia|]. cbn [length list_sum fold_right] in HL, HN. change (fold_right Init.Nat.add 0 ns) with (list_sum ns) in HN. cbn [blocks].
      assert (B : exists m1, (if l =? loc then Ok m else block N size r v l n w p m) = Ok m1 /\
        (forall kk jj, l <> loc -> kk < n -> 1 <= jj < size -> m1 ((w + kk) * size + jj) = (v l kk jj / r jj)%R) /\
        (forall kk, l <> loc -> kk < n -> p = w -> m1 ((w + kk) * size) = (v l kk 1 / r 1)%R) /\
        (forall q jj, jj < size -> l = loc \/ q < w \/ w + n <= q -> m1 (q * size + jj) = m (q * size + jj))).
      { destruct (Nat.eqb_spec l loc) as [El|Nl]; [exists m; repeat split; intros; congruence|].
        destruct (block_ok l n w p m) as (m1 & E & A & Z & F); [lia| |].
        - intros Hn. specialize (HP 0). cbn in HP. specialize (HP ltac:(lia) ltac:(lia) Hn). lia.
        - exists m1. split; [exact E|]. split; [intros; now apply A|]. split; [intros; now apply Z|]. intros q jj Hj [?|Hq]; [contradiction|now apply F]. }
      destruct B as (m1 & -> & A & Z & F). cbn [obind].
      destruct (IH ks (S l) (w + n) (p + k) m1) as (m' & E & A' & Z' & L' & F'); [lia|lia| |].
      { intros i Hi Hl Hn. specialize (HP (S i)). cbn in HP. unfold off in HP |- *. cbn [firstn list_sum fold_right] in HP. specialize (HP ltac:(lia) ltac:(lia) Hn). change (fold_right Init.Nat.add 0 (firstn i ks)) with (list_sum (firstn i ks)) in HP. lia. }
      assert (O : forall i a as', off (a :: as') (S i) = a + off as' i) by reflexivity.
      exists m'. split; [exact E|]. split; [|split; [|split]].
      + intros [|i] kk jj Hi Hl Hk Hj; cbn [length nth] in *.
        * unfold off. cbn [firstn list_sum fold_right]. rewrite !Nat.add_0_r in *. rewrite F' by lia. now apply A.
        * rewrite O. replace (w + (n + off ns i) + kk) with (w + n + off ns i + kk) by lia. replace (l + S i) with (S l + i) in * by lia. apply A'; lia.
      + intros [|i] kk Hi Hl Hk Hq; cbn [length nth] in *.
        * unfold off in *. cbn [firstn list_sum fold_right] in *. rewrite !Nat.add_0_r in *. replace ((w + kk) * size) with ((w + kk) * size + 0) by lia. rewrite F' by lia. rewrite Nat.add_0_r. now apply Z.
        * rewrite O in *. rewrite O in Hq. replace (w + (n + off ns i) + kk) with (w + n + off ns i + kk) by lia. replace (l + S i) with (S l + i) in * by lia. apply Z'; lia.
      + intros [|i] kk jj Hi Hl Hk Hj; cbn [length nth] in *.
        * unfold off. cbn [firstn list_sum fold_right]. rewrite !Nat.add_0_r in *. rewrite F' by lia. apply F; [lia|]. now left.
        * rewrite O. replace (w + (n + off ns i) + kk) with (w + n + off ns i + kk) by lia. rewrite L' by lia. apply F; lia.
      + intros q jj Hj Hq. rewrite F' by lia. apply F; lia.
  Qed.
End Lem.
