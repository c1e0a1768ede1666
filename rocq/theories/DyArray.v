(** Models of the dynamic array of src/mlff/ddbp_tools.c:58-176 and of the
    descriptor selection of src/mlff/sparsification.c:42-112. *)
From Coq Require Import ZArith List Lia Bool QArith Arith Permutation.
From Verif Require Import CBase Spline.
Import ListNotations.

Local Open Scope nat_scope.
(** ** Dynamic array *)
(** src/mlff/ddbp_types.h [INIT_CAPACITY] *)
Definition INIT_CAPACITY : nat := 4.

(** The heap block behind [a->array] (cells never written are [None]) and
    the two counters. *)
Record dyarray (V : Type) := mkDy { block : list (option V); len : nat; capacity : nat }.
Arguments mkDy {V}. Arguments block {V}. Arguments len {V}. Arguments capacity {V}.

Section Dy.
  Context {V : Type}.
  Notation dy := (dyarray V).

  (** Heap accesses: outside the block, or of a cell never written, is UB. *)
  Definition load (b : list (option V)) (i : nat) : outcome V :=
    match nth_error b i with Some (Some v) => Ok v | _ => UB end.
  Fixpoint put_cell (b : list (option V)) (i : nat) (v : V) : list (option V) :=
    match b, i with
    | [], _ => []
    | _ :: b', O => Some v :: b'
    | x :: b', S i' => x :: put_cell b' i' v
    end.
  Definition store (b : list (option V)) (i : nat) (v : V) : outcome (list (option V)) :=
    if (i <? length b)%nat then Ok (put_cell b i v) else UB.
  (** The C library realloc (assumed to succeed). *)
  Definition realloc (b : list (option V)) (n : nat) : list (option V) :=
    firstn n b ++ repeat None (n - length b).

  (** src/mlff/ddbp_tools.c:58-66 *)
  Definition init_dyarray : dy := mkDy (repeat None INIT_CAPACITY) 0 INIT_CAPACITY.
  (** src/mlff/ddbp_tools.c:75-82 *)
  Definition realloc_dyarray (a : dy) (n : nat) : dy := mkDy (realloc (block a) n) (len a) n.
  (** src/mlff/ddbp_tools.c:91-96 *)
  Definition dyarray_double_capacity (a : dy) : dy :=
    let n := if (capacity a =? 0)%nat then INIT_CAPACITY else 2 * capacity a in
    realloc_dyarray a (Nat.max n INIT_CAPACITY).
  (** src/mlff/ddbp_tools.c:105-110 *)
  Definition dyarray_half_capacity (a : dy) : dy :=
    realloc_dyarray a (Nat.max (Nat.div (capacity a) 2) INIT_CAPACITY).
  (** src/mlff/ddbp_tools.c:116-128 *)
  Definition append_dyarray (a : dy) (v : V) : outcome dy :=
    let a := if (len a =? capacity a)%nat then dyarray_double_capacity a else a in
    do b <- store (block a) (len a) v ;
    Ok (mkDy b (S (len a)) (capacity a)).
  (** src/mlff/ddbp_tools.c:134-150 *)
  Definition pop_dyarray (a : dy) : outcome (V * dy) :=
    if (len a <? 1)%nat then Exit
    else
      let a := mkDy (block a) (len a - 1) (capacity a) in
      let a := if (4 * len a <? capacity a)%nat then dyarray_half_capacity a else a in
      do v <- load (block a) (len a) ;
      Ok (v, a).
  (** src/mlff/ddbp_tools.c:158-163 *)
  Definition clear_dyarray (a : dy) : dy :=
    let a := realloc_dyarray a INIT_CAPACITY in mkDy (block a) 0 (capacity a).
  (** src/mlff/ddbp_tools.c:169-175 *)
  Definition delete_dyarray (a : dy) : dy := mkDy [] 0 0.

  (** A client program and its run: popped values in order. *)
  Inductive op := Append (v : V) | Pop | Clear | Delete.
  Fixpoint run (a : dy) (ops : list op) : outcome (list V * dy) :=
    match ops with
    | [] => Ok ([], a)
    | Append v :: r => do a' <- append_dyarray a v ; run a' r
    | Pop :: r => do va <- pop_dyarray a ; do res <- run (snd va) r ; Ok (fst va :: fst res, snd res)
    | Clear :: r => run (clear_dyarray a) r
    | Delete :: r => run (delete_dyarray a) r
    end.
  (** Specification: the same program on a mathematical list (newest first). *)
  Fixpoint run_list (l : list V) (ops : list op) : outcome (list V * list V) :=
    match ops with
    | [] => Ok ([], l)
    | Append v :: r => run_list (v :: l) r
    | Pop :: r => match l with
                  | [] => Exit
                  | v :: l' => do res <- run_list l' r ; Ok (v :: fst res, snd res)
                  end
    | Clear :: r | Delete :: r => run_list [] r
    end.

  (** The array holds the list [l] (newest first), inside its block. *)
  Definition holds (a : dy) (l : list V) : Prop :=
    length (block a) = capacity a /\ len a = length l /\ (len a <= capacity a)%nat /\
    (forall i, (i < len a)%nat -> nth_error (block a) i = Some (nth_error (rev l) i)) /\
    (capacity a <= Nat.max INIT_CAPACITY (4 * S (len a)))%nat.

  Lemma nth_error_put b : forall i v j, (i < length b)%nat ->
    nth_error (put_cell b i v) j = if (j =? i)%nat then Some (Some v) else nth_error b j.
  Proof.
    induction b as [|x b IH]; intros i v j H; [cbn in H; lia|].
    destruct i as [|i]; destruct j as [|j]; try reflexivity.
    cbn [put_cell nth_error]. rewrite IH by (cbn in H; lia). reflexivity.
  Qed.
  Lemma length_put b : forall i v, length (put_cell b i v) = length b.
  Proof. induction b as [|x b IH]; intros [|i] v; cbn [put_cell length]; rewrite ?IH; reflexivity. Qed.
  Lemma length_realloc b n : length (realloc b n) = n.
  Proof. unfold realloc. rewrite app_length, firstn_length, repeat_length. lia. Qed.
  Lemma nth_error_realloc b n i : (i < n)%nat -> (i < length b)%nat -> nth_error (realloc b n) i = nth_error b i.
  Proof.
    intros H H'. unfold realloc. rewrite nth_error_app1 by (rewrite firstn_length; lia).
    clear H'. revert n i H. induction b as [|x b IH]; intros n i H; destruct n; try lia; destruct i; try reflexivity.
    cbn [firstn nth_error]. apply IH. lia.
  Qed.

  Lemma realloc_holds a l n : holds a l -> (len a <= n)%nat ->
    (n <= Nat.max INIT_CAPACITY (4 * S (len a)))%nat -> holds (realloc_dyarray a n) l.
  Proof.
    intros (H1 & H2 & H3 & H4 & H5) Hn Hm. unfold holds, realloc_dyarray. cbn [block len capacity].
    split; [apply length_realloc|]. split; [exact H2|]. split; [exact Hn|]. split; [|exact Hm].
    intros i Hi. rewrite nth_error_realloc by lia. apply H4, Hi.
  Qed.

  Lemma append_holds a l v : holds a l -> exists a', append_dyarray a v = Ok a' /\ holds a' (v :: l).
  Proof.
    intros H. unfold append_dyarray. cbv zeta.
    set (a1 := if (len a =? capacity a)%nat then dyarray_double_capacity a else a).
    assert (G : holds a1 l /\ (len a1 < capacity a1)%nat /\ len a1 = len a).
    { unfold a1. destruct (Nat.eqb_spec (len a) (capacity a)) as [E|E].
      - destruct H as (H1 & H2 & H3 & H4 & H5). unfold dyarray_double_capacity. cbv zeta.
        split; [|split; [|reflexivity]].
        + apply realloc_holds; [repeat split; assumption| |]; destruct (Nat.eqb_spec (capacity a) 0); unfold INIT_CAPACITY in *; lia.
        + cbn [realloc_dyarray len capacity]. destruct (Nat.eqb_spec (capacity a) 0); unfold INIT_CAPACITY in *; lia.
      - destruct H as (H1 & H2 & H3 & H4 & H5). split; [repeat split; assumption|]. split; [lia | reflexivity]. }
    clearbody a1. destruct G as ((G1 & G2 & G3 & G4 & G5) & G6 & G7).
    unfold store. rewrite (proj2 (Nat.ltb_lt _ _)) by lia. cbn [obind].
    eexists. split; [reflexivity|]. unfold holds. cbn [block len capacity length].
    split; [rewrite length_put; exact G1|]. split; [lia|]. split; [lia|]. split; [|lia].
    intros i Hi. rewrite nth_error_put by lia. cbn [rev].
    destruct (Nat.eqb_spec i (len a1)) as [-> | N].
    - rewrite nth_error_app2 by (rewrite rev_length; lia).
      rewrite rev_length. replace (len a1 - length l)%nat with O by lia. reflexivity.
    - rewrite nth_error_app1 by (rewrite rev_length; lia). apply G4. lia.
  Qed.

  Lemma pop_holds a v l : holds a (v :: l) -> exists a', pop_dyarray a = Ok (v, a') /\ holds a' l.
  Proof.
    intros (H1 & H2 & H3 & H4 & H5). cbn [length] in H2.
    unfold pop_dyarray. rewrite (proj2 (Nat.ltb_ge _ _)) by lia. cbv zeta. cbn [len capacity block].
    replace (len a - 1)%nat with (length l) by lia.
    set (a0 := mkDy (block a) (length l) (capacity a)).
    set (a1 := if (4 * length l <? capacity a)%nat then dyarray_half_capacity a0 else a0).
    assert (Hl : nth_error (block a) (length l) = Some (Some v)).
    { rewrite H4 by lia. cbn [rev]. rewrite nth_error_app2 by (rewrite rev_length; lia).
      rewrite rev_length. replace (length l - length l)%nat with O by lia. reflexivity. }
    assert (Hp : forall i, (i < length l)%nat -> nth_error (block a) i = Some (nth_error (rev l) i)).
    { intros i Hi. rewrite H4 by lia. cbn [rev]. rewrite nth_error_app1 by (rewrite rev_length; lia). reflexivity. }
    assert (G : holds a1 l /\ len a1 = length l /\ nth_error (block a1) (length l) = Some (Some v)).
    { unfold a1. destruct (Nat.ltb_spec (4 * length l) (capacity a)) as [L|L].
      - unfold a0, dyarray_half_capacity, realloc_dyarray. cbn [capacity block len].
        pose proof (Nat.div_mod (capacity a) 2 ltac:(lia)) as DM.
        pose proof (Nat.mod_upper_bound (capacity a) 2 ltac:(lia)) as MB.
        assert (Hlt : (length l < Nat.max (Nat.div (capacity a) 2) INIT_CAPACITY)%nat).
        { unfold INIT_CAPACITY in *. lia. }
        split; [|split; [reflexivity|]].
        + unfold holds. cbn [block len capacity]. split; [apply length_realloc|]. split; [reflexivity|].
          split; [apply Nat.lt_le_incl, Hlt|]. split; [|unfold INIT_CAPACITY in *; lia].
          intros i Hi. rewrite nth_error_realloc by lia. apply Hp, Hi.
        + rewrite nth_error_realloc by lia. exact Hl.
      - split; [|split; [reflexivity | exact Hl]]. unfold holds, a0. cbn [block len capacity].
        split; [exact H1|]. split; [reflexivity|]. split; [lia|]. split; [exact Hp | lia]. }
    destruct G as (G1 & G2 & G3). clearbody a1.
    unfold load. rewrite G2, G3. cbn [obind]. exists a1. split; [reflexivity | exact G1].
  Qed.
  Lemma pop_empty a : holds a [] -> pop_dyarray a = Exit.
  Proof.
    intros (H1 & H2 & _). unfold pop_dyarray. rewrite H2. reflexivity.
  Qed.
  Lemma init_holds : holds init_dyarray [].
  Proof.
    unfold holds, init_dyarray. cbn [block len capacity length].
    split; [reflexivity|]. split; [reflexivity|]. split; [lia|].
    split; [intros i Hi; lia | unfold INIT_CAPACITY; lia].
  Qed.
  Lemma clear_holds a : holds (clear_dyarray a) [].
  Proof.
    unfold holds, clear_dyarray, realloc_dyarray. cbn [block len capacity].
    split; [apply length_realloc|]. split; [reflexivity|]. split; [lia|].
    split; [intros i Hi; lia | unfold INIT_CAPACITY; lia].
  Qed.
  Lemma delete_holds a : holds (delete_dyarray a) [].
  Proof.
    unfold holds, delete_dyarray. cbn [block len capacity length].
    split; [reflexivity|]. split; [reflexivity|]. split; [lia|]. split; [intros i Hi; lia | lia].
  Qed.

  Lemma run_correct : forall ops a l, holds a l ->
    match run_list l ops with
    | Ok (pops, l') => exists a', run a ops = Ok (pops, a') /\ holds a' l'
    | Exit => run a ops = Exit
    | UB => False
    end.
  Proof.
    induction ops as [|o ops IH]; intros a l H; cbn [run_list run].
    - exists a. split; [reflexivity | exact H].
    - destruct o as [v | | |].
      + destruct (append_holds a l v H) as (a' & E & H'). rewrite E. cbn [obind]. apply IH, H'.
      + destruct l as [|v l].
        * rewrite (pop_empty a H). reflexivity.
        * destruct (pop_holds a v l H) as (a' & E & H'). rewrite E. cbn [obind fst snd].
          specialize (IH a' l H'). destruct (run_list l ops) as [[pops l']| |]; cbn [obind fst snd].
          -- destruct IH as (a'' & E' & H''). rewrite E'. cbn [obind fst snd]. exists a''. split; [reflexivity | exact H''].
          -- exact IH.
          -- rewrite IH. reflexivity.
      + apply IH, clear_holds.
      + apply IH, delete_holds.
  Qed.
End Dy.

(** ** Descriptor selection *)
Local Open Scope Q_scope.
(** src/mlff/tools_mlff.c:111-125 [smallest] *)
Definition smallest (arr : list Q) : outcome Q :=
  match arr with
  | [] => UB
  | x :: r => Ok (fold_left (fun m y => if qltb y m then y else m) r x)
  end.
(** src/mlff/tools_mlff.c:141-148 [lin_search_double]; [None] is -1 *)
Fixpoint lin_search_from (i : nat) (arr : list Q) (x : Q) : option nat :=
  match arr with
  | [] => None
  | y :: r => if Qeq_bool y x then Some i else lin_search_from (S i) r x
  end.
Definition lin_search_double := lin_search_from 0.
Definition SENTINEL : Q := inject_Z 10000000000.
(** src/mlff/sparsification.c:103-109: the selection loop. *)
Fixpoint select_loop (n : nat) (w1 : list Q) (ids : list nat) : outcome (list nat) :=
  match n with
  | O => Ok ids
  | S n' =>
    do m <- smallest w1 ;
    match lin_search_double w1 m with
    | None => UB (* w1[-1] *)
    | Some k => select_loop n' (set_nth w1 k SENTINEL) (ids ++ [k])
    end
  end.
(** src/mlff/sparsification.c:81-109 after the eigensolver: [w] the
    eigenvalues and [K] the eigenvectors (row major). *)
Definition low (x : Q) : bool := qltb x (1 # 10000000000).
Definition n_low (w : list Q) (N_low_min : Z) : Z :=
  Z.max N_low_min (Z.of_nat (length (filter low w))).
Definition score (w : list Q) (K : nat -> nat -> Q) (N_low : Z) (i : nat) : Q :=
  fold_left (fun acc j => if low (nth j w 0) then acc + (1 / inject_Z N_low) * K i j * K i j else acc)
            (seq 0 (length w)) 0.
Definition CUR_select (w : list Q) (K : nat -> nat -> Q) (N_low_min : Z) (ids : list nat) : outcome (list nat) :=
  let n := length w in
  let N := n_low w N_low_min in
  select_loop (Z.to_nat (Z.of_nat n - N)) (map (score w K N) (seq 0 n)) ids.

(** *** Lemmas *)
Lemma fold_min_spec : forall r x,
  let m := fold_left (fun m y => if qltb y m then y else m) r x in
  (m = x \/ In m r) /\ m <= x /\ (forall y, In y r -> m <= y).
Proof.
  induction r as [|y r IH]; intros x; cbn [fold_left].
  - split; [left; reflexivity|]. split; [apply Qle_refl | intros y []].
  - cbv zeta in *. destruct (qltb y x) eqn:E.
    + apply qltb_lt in E. destruct (IH y) as (I1 & I2 & I3).
      split; [right; destruct I1 as [I1|I1]; [left; symmetry; exact I1 | right; exact I1]|].
      split; [apply Qle_trans with y; [exact I2 | apply Qlt_le_weak, E]|].
      intros z [<- | Hz]; [exact I2 | apply I3, Hz].
    + apply qltb_ge in E. destruct (IH x) as (I1 & I2 & I3).
      split; [destruct I1 as [I1|I1]; [left; exact I1 | right; right; exact I1]|].
      split; [exact I2|]. intros z [<- | Hz]; [apply Qle_trans with x; assumption | apply I3, Hz].
Qed.
Lemma smallest_spec arr m : smallest arr = Ok m -> In m arr /\ forall y, In y arr -> m <= y.
Proof.
  destruct arr as [|x r]; [discriminate|]. cbn [smallest]. intros H. injection H as <-.
  destruct (fold_min_spec r x) as (A & B & C). split.
  - destruct A as [A|A]; [left; symmetry; exact A | right; exact A].
  - intros y [<- | Hy]; [exact B | apply C, Hy].
Qed.
Lemma lin_search_spec arr x : forall i, (exists y, In y arr /\ y == x) ->
  exists k, lin_search_from i arr x = Some (i + k)%nat /\ (k < length arr)%nat /\ nth k arr 0 == x.
Proof.
  induction arr as [|y r IH]; intros i (z & Hz & Ez); [destruct Hz|]. cbn [lin_search_from].
  destruct (Qeq_bool y x) eqn:E.
  - apply Qeq_bool_iff in E. exists O. split; [f_equal; lia|]. split; [cbn; lia | exact E].
  - destruct Hz as [-> | Hz].
    + apply Qeq_bool_iff in Ez. congruence.
    + destruct (IH (S i)) as (k & E1 & E2 & E3); [exists z; split; assumption|].
      exists (S k). split; [rewrite E1; f_equal; lia|]. split; [cbn; lia | exact E3].
Qed.

Lemma NoDup_app_comm_one (l : list nat) k : NoDup l -> ~ In k l -> NoDup (l ++ [k]).
Proof.
  intros H N. apply (Permutation.Permutation_NoDup (l := k :: l)).
  - apply Permutation.Permutation_cons_append.
  - constructor; assumption.
Qed.

Lemma select_loop_spec (s : nat -> Q) (N : nat) :
  (forall i, (i < N)%nat -> s i < SENTINEL) ->
  forall n w1 picked ids,
  length w1 = N -> NoDup picked -> (forall i, In i picked -> (i < N)%nat) ->
  (n + length picked <= N)%nat ->
  (forall i, (i < N)%nat -> nth i w1 0 = if in_dec Nat.eq_dec i picked then SENTINEL else s i) ->
  (forall i j, In i picked -> (j < N)%nat -> ~ In j picked -> s i <= s j) ->
  exists sel, select_loop n w1 ids = Ok (ids ++ sel) /\ length sel = n /\
    NoDup (picked ++ sel) /\ (forall i, In i sel -> (i < N)%nat) /\
    (forall i j, In i (picked ++ sel) -> (j < N)%nat -> ~ In j (picked ++ sel) -> s i <= s j).
Proof.
  intros Hs. induction n as [|n IH]; intros w1 picked ids Hlen ND HB Hle Hw Hmin; cbn [select_loop].
  - exists []. rewrite !app_nil_r. split; [reflexivity|]. split; [reflexivity|].
    split; [exact ND|]. split; [intros i []|exact Hmin].
  - (* an index not yet picked *)
    assert (Hex : exists u, (u < N)%nat /\ ~ In u picked).
    { destruct (Forall_Exists_dec (fun u => In u picked) (fun u => in_dec Nat.eq_dec u picked) (seq 0 N)) as [A|A].
      - exfalso. rewrite Forall_forall in A.
        assert (length (seq 0 N) <= length picked)%nat.
        { apply NoDup_incl_length; [apply seq_NoDup | exact A]. }
        rewrite seq_length in *. lia.
      - apply Exists_exists in A. destruct A as (u & Hu & Nu). apply in_seq in Hu. exists u. split; [lia | exact Nu]. }
    destruct Hex as (u & Hu & Nu).
    destruct w1 as [|x0 r0] eqn:Ew; [cbn in Hlen; lia|]. rewrite <- Ew in *.
    assert (Em : exists m, smallest w1 = Ok m) by (rewrite Ew; eexists; reflexivity).
    destruct Em as (m & Em). rewrite Em. cbn [obind].
    destruct (smallest_spec w1 m Em) as (Hin & Hm).
    destruct (lin_search_spec w1 m 0 ltac:(exists m; split; [exact Hin | apply Qeq_refl])) as (k & Ek & Hk & Hkm).
    unfold lin_search_double. rewrite Ek. cbn [Nat.add].
    assert (Hu1 : m <= s u).
    { assert (X : nth u w1 0 = s u) by (rewrite Hw by exact Hu; destruct (in_dec Nat.eq_dec u picked); [contradiction | reflexivity]).
      rewrite <- X. apply Hm, nth_In. lia. }
    assert (Hkp : ~ In k picked).
    { intros C. rewrite Hw in Hkm by lia. destruct (in_dec Nat.eq_dec k picked); [|contradiction].
      apply (Qlt_irrefl SENTINEL). apply Qle_lt_trans with (s u); [rewrite Hkm; exact Hu1 | apply Hs, Hu]. }
    assert (Hks : s k == m).
    { rewrite Hw in Hkm by lia. destruct (in_dec Nat.eq_dec k picked); [contradiction | exact Hkm]. }
    destruct (IH (set_nth w1 k SENTINEL) (picked ++ [k]) (ids ++ [k])) as (sel & E & L & ND' & B' & M').
    + rewrite set_nth_len. exact Hlen.
    + apply NoDup_app_comm_one; assumption.
    + intros i Hi. apply in_app_or in Hi. destruct Hi as [Hi | [<- | []]]; [apply HB, Hi | lia].
    + rewrite app_length. cbn [length]. lia.
    + intros i Hi. rewrite set_nth_nth by lia.
      destruct (Nat.eqb_spec i k) as [-> | Nk].
      * destruct (in_dec Nat.eq_dec k (picked ++ [k])) as [_ | N1]; [reflexivity|].
        exfalso. apply N1, in_or_app. right. left. reflexivity.
      * rewrite Hw by exact Hi. destruct (in_dec Nat.eq_dec i picked) as [I1|I1]; destruct (in_dec Nat.eq_dec i (picked ++ [k])) as [I2|I2]; try reflexivity.
        -- exfalso. apply I2, in_or_app. left. exact I1.
        -- exfalso. apply in_app_or in I2. destruct I2 as [I2 | [I2 | []]]; [contradiction | congruence].
    + intros i j Hi Hj Nj. assert (Nj' : ~ In j picked) by (intros C; apply Nj, in_or_app; left; exact C).
      apply in_app_or in Hi. destruct Hi as [Hi | [<- | []]]; [apply Hmin; assumption|].
      rewrite Hks. assert (X : nth j w1 0 = s j) by (rewrite Hw by exact Hj; destruct (in_dec Nat.eq_dec j picked); [contradiction | reflexivity]).
      rewrite <- X. apply Hm, nth_In. lia.
    + exists (k :: sel). rewrite <- app_assoc in E. cbn [app] in E.
      replace (picked ++ k :: sel) with ((picked ++ [k]) ++ sel) by (rewrite <- app_assoc; reflexivity).
      split; [exact E|]. split; [cbn; lia|]. split; [exact ND'|]. split; [|exact M'].
      intros i [<- | Hi]; [lia | apply B', Hi].
Qed.
