(** C33 and C34. *)
From Coq Require Import ZArith List Lia Bool QArith Arith Permutation.
From Verif Require Import CBase Spline DyArray.
Import ListNotations.
Local Open Scope nat_scope.

(** C33.  Any sequence of append / pop / clear / delete, from a fresh array:
    it never touches memory outside its block, every pop returns what the
    same program on a mathematical list returns, popping an empty array is
    the documented error exit, and at the end the array holds that list (in
    order of insertion) within a capacity of at most max(4, 4*(len+1)). *)
Theorem C33_refines_list : forall (V : Type) (ops : list (@op V)),
  match run_list [] ops with
  | Ok (pops, l) => exists a, run init_dyarray ops = Ok (pops, a) /\
      len a = length l /\
      (forall i, i < length l -> nth_error (block a) i = Some (nth_error (rev l) i)) /\
      len a <= capacity a /\ capacity a = length (block a) /\
      capacity a <= Nat.max 4 (4 * (len a + 1))
  | Exit => run init_dyarray ops = Exit
  | UB => False
  end.
Proof.
  intros V ops. pose proof (run_correct ops init_dyarray [] init_holds) as H.
  destruct (run_list [] ops) as [[pops l]| |]; [|exact H|exact H].
  destruct H as (a & E & (H1 & H2 & H3 & H4 & H5)). exists a. split; [exact E|].
  split; [exact H2|]. split; [intros i Hi; apply H4; lia|]. split; [exact H3|].
  split; [symmetry; exact H1|]. replace (len a + 1) with (S (len a)) by lia. exact H5.
Qed.
Print Assumptions C33_refines_list.

(** When the list program does not pop an empty list the run is defined. *)
Theorem C33_pushes_then_pops : forall (V : Type) (l : list V),
  exists a, run init_dyarray (map Append l ++ repeat Pop (length l)) = Ok (rev l, a) /\ len a = 0.
Proof.
  intros V l.
  assert (G : forall ops m, run_list m (map Append l ++ ops) = run_list (rev l ++ m) ops).
  { induction l as [|v l IH]; intros ops m; [reflexivity|].
    cbn [map app run_list rev]. rewrite IH, <- app_assoc. reflexivity. }
  assert (P : forall m : list V, run_list m (repeat Pop (length m)) = Ok (m, [])).
  { induction m as [|v m IH]; [reflexivity|]. cbn [length repeat run_list]. rewrite IH. reflexivity. }
  pose proof (C33_refines_list V (map Append l ++ repeat Pop (length l))) as H.
  rewrite G, app_nil_r in H. pose proof (P (rev l)) as Pl. rewrite rev_length in Pl. rewrite Pl in H.
  destruct H as (a & E & L & _). exists a. split; [exact E | exact L].
Qed.
Print Assumptions C33_pushes_then_pops.

(** Growth past the initial capacity and shrinking back. *)
Example C33_run_example :
  run init_dyarray [Append 1; Append 2; Append 3; Append 4; Append 5; Pop; Pop; Pop; Pop; Append 9; Clear; Append 7; Delete; Append 8; Pop]
  = Ok ([5; 4; 3; 2; 8], mkDy [Some 8; None; None; None] 0 4).
Proof. reflexivity. Qed.
Example C33_pop_empty_example : run init_dyarray [Append 1; Pop; Pop] = @Exit (list nat * dyarray nat).
Proof. reflexivity. Qed.

Local Open Scope Q_scope.
(** C34.  What is selected: distinct indices, in range, exactly
    [n - N_low] of them (none when [N_low >= n]), appended to what the
    array already held, and no dropped descriptor scores lower than a kept
    one.  Every score must be below the marker value 1e10; the scores are
    averages of squares of entries of orthonormal vectors. *)
Theorem C34_selection : forall (w : list Q) (K : nat -> nat -> Q) (N_low_min : Z) (ids : list nat),
  let n := length w in
  let N_low := Z.max N_low_min (Z.of_nat (length (filter low w))) in
  let s := score w K N_low in
  (forall i, (i < n)%nat -> s i < inject_Z 10000000000) ->
  exists sel, CUR_select w K N_low_min ids = Ok (ids ++ sel) /\
    Z.of_nat (length sel) = Z.max 0 (Z.of_nat n - N_low) /\
    NoDup sel /\ (forall i, In i sel -> (i < n)%nat) /\
    (forall i j, In i sel -> (j < n)%nat -> ~ In j sel -> s i <= s j).
Proof.
  intros w K N_low_min ids n N_low s Hs.
  destruct (select_loop_spec s n Hs (Z.to_nat (Z.of_nat n - N_low)) (map s (seq 0 n)) [] ids)
    as (sel & E & L & ND & B & M).
  - rewrite map_length, seq_length. reflexivity.
  - constructor.
  - intros i [].
  - cbn [length]. lia.
  - intros i Hi. destruct (in_dec Nat.eq_dec i []) as [[]|_].
    rewrite nth_indep with (d' := s 0%nat) by (rewrite map_length, seq_length; exact Hi).
    rewrite (map_nth s), seq_nth by exact Hi. reflexivity.
  - intros i j [].
  - exists sel. split; [exact E|]. split; [rewrite L; clear; lia|]. split; [exact ND|]. split; [exact B | exact M].
Qed.
Print Assumptions C34_selection.

(** The condition on the scores holds for every matrix whose rows have
    squares summing to one (orthonormal eigenvectors) as soon as some
    eigenvalue is low. *)
Lemma score_le_rowsum (w : list Q) (K : nat -> nat -> Q) (N : Z) (i : nat) : (1 <= N)%Z ->
  forall js acc acc', acc <= acc' ->
  fold_left (fun acc j => if low (nth j w 0) then acc + (1 / inject_Z N) * K i j * K i j else acc) js acc
  <= fold_left (fun acc j => acc + K i j * K i j) js acc'.
Proof.
  intros HN. assert (H1 : 1 / inject_Z N <= 1).
  { apply Qle_shift_div_r; [change 0 with (inject_Z 0); rewrite <- Zlt_Qlt; lia|].
    rewrite Qmult_1_l. change 1 with (inject_Z 1). rewrite <- Zle_Qle. exact HN. }
  induction js as [|j js IH]; intros acc acc' Hacc; cbn [fold_left]; [exact Hacc|].
  apply IH. assert (Hsq : 0 <= K i j * K i j).
  { destruct (Qlt_le_dec (K i j) 0) as [L|L].
    - setoid_replace (K i j * K i j) with ((- K i j) * (- K i j)) by ring.
      apply Qmult_le_0_compat; rewrite <- (Qopp_involutive 0); apply Qopp_le_compat; apply Qlt_le_weak, L.
    - apply Qmult_le_0_compat; exact L. }
  destruct (low (nth j w 0)).
  - apply Qplus_le_compat; [exact Hacc|]. rewrite <- Qmult_assoc.
    setoid_replace (K i j * K i j) with (1 * (K i j * K i j)) at 2 by ring.
    apply Qmult_le_compat_r; assumption.
  - setoid_replace acc with (acc + 0) by ring. apply Qplus_le_compat; assumption.
Qed.
Theorem C34_orthonormal_rows : forall (w : list Q) (K : nat -> nat -> Q) (N_low_min : Z) (ids : list nat),
  let n := length w in
  let N_low := Z.max N_low_min (Z.of_nat (length (filter low w))) in
  let s := score w K N_low in
  (1 <= N_low)%Z ->
  (forall i, (i < n)%nat -> fold_left (fun acc j => acc + K i j * K i j) (seq 0 n) 0 == 1) ->
  exists sel, CUR_select w K N_low_min ids = Ok (ids ++ sel) /\
    Z.of_nat (length sel) = Z.max 0 (Z.of_nat n - N_low) /\
    NoDup sel /\ (forall i, In i sel -> (i < n)%nat) /\
    (forall i j, In i sel -> (j < n)%nat -> ~ In j sel -> s i <= s j).
Proof.
  intros w K N_low_min ids n N_low s HN Hrow. apply C34_selection. intros i Hi.
  apply Qle_lt_trans with 1; [|reflexivity]. rewrite <- (Hrow i Hi).
  apply score_le_rowsum; [exact HN | apply Qle_refl].
Qed.
Print Assumptions C34_orthonormal_rows.

(** Three descriptors, the last two nearly parallel: one low eigenvalue. *)
Definition ex_K (i j : nat) : Q :=
  match i, j with
  | 0%nat, 0%nat => 0 | 0%nat, 1%nat => 1 | 0%nat, _ => 0
  | 1%nat, 0%nat => 3 # 5 | 1%nat, 1%nat => 0 | 1%nat, _ => 4 # 5
  | _, 0%nat => - (4 # 5) | _, 1%nat => 0 | _, _ => 3 # 5
  end.
Example C34_example : CUR_select [0; 1; 2] ex_K 0 [] = Ok [0%nat; 1%nat].
Proof. reflexivity. Qed.
Example C34_example_rows : forall i, (i < 3)%nat ->
  fold_left (fun acc j => acc + ex_K i j * ex_K i j) (seq 0 3) 0 == 1.
Proof. intros i Hi. destruct i as [|[|[|i]]]; try reflexivity. Qed.

(** Without a bound on the scores the marker is not recognised and the same
    descriptor is selected repeatedly. *)
Theorem C34_large_scores_refuted : exists w K, exists ids,
  CUR_select w K 0 [] = Ok ids /\ ~ NoDup ids.
Proof.
  exists [0; 1; 1], (fun i j => if (j =? 0)%nat then inject_Z 200000 else 0), [0%nat; 0%nat].
  split; [vm_compute; reflexivity|]. intros H. inversion H as [|? ? A B]. apply A. left. reflexivity.
Qed.
Print Assumptions C34_large_scores_refuted.

(** With not-a-number scores (a zero descriptor makes [mlff_kernel_eval]
    divide 0 by 0) no element equals the minimum and the loop writes
    [w1\[-1\]]. *)
(** The same selection over doubles whose comparisons may involve NaN
    ([None]): src/mlff/tools_mlff.c:111-125, 141-148 *)
Definition ltb_nan (x y : option Q) : bool := match x, y with Some a, Some b => qltb a b | _, _ => false end.
Definition eqb_nan (x y : option Q) : bool := match x, y with Some a, Some b => Qeq_bool a b | _, _ => false end.
Fixpoint lin_search_nan (i : nat) (arr : list (option Q)) (x : option Q) : option nat :=
  match arr with [] => None | y :: r => if eqb_nan y x then Some i else lin_search_nan (S i) r x end.
Definition smallest_nan (arr : list (option Q)) : outcome (option Q) :=
  match arr with [] => UB | x :: r => Ok (fold_left (fun m y => if ltb_nan y m then y else m) r x) end.
(** src/mlff/sparsification.c:103-109 *)
Definition pick_nan (w1 : list (option Q)) : outcome nat :=
  do m <- smallest_nan w1 ;
  match lin_search_nan 0 w1 m with None => UB | Some k => Ok k end.
Theorem C34_nan_refuted : forall rest : list (option Q), pick_nan (None :: rest) = UB.
Proof.
  intros rest. unfold pick_nan. cbn [smallest_nan obind].
  assert (F : fold_left (fun m y => if ltb_nan y m then y else m) rest None = None).
  { induction rest as [|y r IH]; [reflexivity|]. cbn [fold_left].
    replace (ltb_nan y None) with false by (destruct y; reflexivity). exact IH. }
  rewrite F.
  assert (L : forall l i, lin_search_nan i l None = None).
  { induction l as [|y r IH]; intros i; [reflexivity|]. cbn [lin_search_nan].
    replace (eqb_nan y None) with false by (destruct y; reflexivity). apply IH. }
  rewrite L. reflexivity.
Qed.
Print Assumptions C34_nan_refuted.
