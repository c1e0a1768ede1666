(** C19: interval search and spline evaluation; C20: tridiagonal solver and
    spline slopes. *)
From Coq Require Import ZArith List Lia Bool QArith Qround Lqa Sorted Permutation Field Qcanon.
From Verif Require Import CBase Spline Tridiag.
Import ListNotations.
Local Open Scope Z_scope.

(** ** C19 *)
(** The binary search returns an interval of the table that contains the
    query, for both end points of the table as well. *)
Theorem C19_binary_search : forall X len x,
  increasing X len -> 2 <= len -> (X 0%Z <= x)%Q -> (x <= X (len - 1)%Z)%Q ->
  exists i, binary_interval_search X len x = Ok i /\ brackets X len i x.
Proof.
  intros X len x Hi Hl A B. unfold binary_interval_search.
  apply (bis_correct X len x Hi (Z.to_nat len) 0 (len - 1)); try lia; assumption.
Qed.
Print Assumptions C19_binary_search.

(** Whatever the table and the query hold, no read is outside the table and
    the result is a legal interval index. *)
Theorem C19_binary_search_safe : forall X len x, 2 <= len ->
  exists i, binary_interval_search X len x = Ok i /\ 0 <= i /\ i + 1 < len.
Proof.
  intros X len x Hl. unfold binary_interval_search.
  apply (bis_range X len x (Z.to_nat len) 0 (len - 1)); lia.
Qed.
Print Assumptions C19_binary_search_safe.

Definition tab (l : list Q) : Z -> Q := fun i => nth (Z.to_nat i) l 0%Q.

Example C19_binary_ex :
  binary_interval_search (tab [0; 1; 3; 7; 8]%Q) 5 8%Q = Ok 3 /\
  binary_interval_search (tab [0; 1; 3; 7; 8]%Q) 5 3%Q = Ok 2.
Proof. vm_compute. split; reflexivity. Qed.
Example C19_binary_hyp : increasing (tab [0; 1; 3; 7; 8]%Q) 5.
Proof.
  intros i A B. assert (i = 0 \/ i = 1 \/ i = 2 \/ i = 3) as [-> | [-> | [-> | ->]]] by lia;
  vm_compute; reflexivity.
Qed.

(** Sorted queries below the right end of the table: no read outside the
    tables, and every value is the Hermite cubic of an interval that contains
    the query. *)
Theorem C19_sorted_evaluation : forall X1 Y1 YD len1 X2,
  increasing X1 len1 -> 2 <= len1 -> StronglySorted Qle X2 ->
  Forall (fun q => (X1 0%Z <= q)%Q /\ (q < X1 (len1 - 1)%Z)%Q) X2 ->
  exists ys, SplineInterp X1 Y1 YD len1 X2 = Ok ys /\ Forall2 (spline_value X1 Y1 YD len1) X2 ys.
Proof. exact SplineInterp_ok. Qed.
Print Assumptions C19_sorted_evaluation.

(** Unsorted queries, for every index array the sort may produce: each query
    inside the table gets its own value. *)
Theorem C19_unsorted_evaluation : forall X1 Y1 YD len1 X2 ind,
  increasing X1 len1 -> 2 <= len1 -> sorts X2 ind ->
  Forall (fun q => (X1 0%Z <= q)%Q /\ ~ (q == X1 (len1 - 1)%Z)%Q) X2 ->
  exists Y2, SortSplineInterp X1 Y1 YD len1 X2 ind = Ok Y2 /\ length Y2 = length X2 /\
    forall t, (t < length X2)%nat -> (nth t X2 0 < X1 (len1 - 1)%Z)%Q ->
      spline_value X1 Y1 YD len1 (nth t X2 0%Q) (nth t Y2 0%Q).
Proof. exact SortSplineInterp_ok. Qed.
Print Assumptions C19_unsorted_evaluation.

(** Uniform tables: each query gets its value, and a query beyond the table
    leaves its slot alone. *)
Theorem C19_uniform_evaluation : forall X Y D len x0 d X2,
  uniform_grid X len x0 d -> 2 <= len ->
  Forall (fun q => (X 0%Z <= q)%Q /\ ~ (q == X (len - 1)%Z)%Q) X2 ->
  exists ys, SplineInterpUniform X Y D len X2 = Ok ys /\
    Forall2 (fun q r => ((X (len - 1)%Z < q)%Q /\ r = None) \/
                        ((q < X (len - 1)%Z)%Q /\ exists v, r = Some v /\ spline_value X Y D len q v)) X2 ys.
Proof.
  intros X Y D len x0 d X2 U Hl. unfold SplineInterpUniform.
  destruct (len <? 2) eqn:E; [apply Z.ltb_lt in E; lia|]. clear E.
  induction X2 as [|q r IH]; intros F.
  - exists []. split; [reflexivity | constructor].
  - inversion F as [|? ? [A B] F']; subst.
    destruct (uniform_one_ok X Y D len x0 d q U Hl A B) as (v & Ev & Pv).
    destruct (IH F') as (vs & Evs & Pvs).
    exists (v :: vs). cbn [uniform_loop]. rewrite Ev. cbn [obind]. rewrite Evs. cbn [obind].
    split; [reflexivity | constructor; assumption].
Qed.
Print Assumptions C19_uniform_evaluation.

(** The Hermite cubic passes through the table values at both ends of its
    interval, so neighbouring intervals agree at the shared node. *)
Theorem C19_nodes : forall X Y D j, (X j < X (j + 1)%Z)%Q ->
  (hermite X Y D j (X j) == Y j)%Q /\ (hermite X Y D j (X (j + 1)%Z) == Y (j + 1)%Z)%Q.
Proof.
  intros X Y D j H. unfold hermite. split; field; intros Z.
  all: apply (Qlt_irrefl (X j)); assert (X (j + 1)%Z == X j)%Q by lra; lra.
Qed.
Print Assumptions C19_nodes.

Example C19_sorted_ex :
  match SplineInterp (tab [0; 1; 3; 4]%Q) (tab [0; 1; 9; 16]%Q) (tab [0; 2; 6; 8]%Q) 4 [0; 1 # 2; 1; 2; 7 # 2]%Q with
  | Ok ys => map Qred ys = [0; 1 # 4; 1; 4; 49 # 4]%Q | _ => False end.
Proof. vm_compute. reflexivity. Qed.
Example C19_unsorted_ex :
  sorts [2; 1 # 2; 1]%Q [1; 2; 0]%nat /\
  match SortSplineInterp (tab [0; 1; 3; 4]%Q) (tab [0; 1; 9; 16]%Q) (tab [0; 2; 6; 8]%Q) 4 [2; 1 # 2; 1]%Q [1; 2; 0]%nat with
  | Ok ys => map Qred ys = [4; 1 # 4; 1]%Q | _ => False end.
Proof.
  split; [|vm_compute; reflexivity]. split.
  - cbn. apply Permutation_sym. apply (perm_trans (l' := [1; 0; 2]%nat)).
    + apply perm_swap.
    + apply perm_skip, perm_swap.
  - cbn. repeat constructor; cbn; discriminate.
Qed.
Example C19_uniform_hyp : uniform_grid (tab [1; 3; 5; 7]%Q) 4 1 2.
Proof.
  split; [reflexivity|]. intros j H.
  assert (j = 0 \/ j = 1 \/ j = 2 \/ j = 3) as [-> | [-> | [-> | ->]]] by lia; vm_compute; reflexivity.
Qed.

(** A query at the right end of the table, which the claim includes, can
    read one element past the tables. *)
Theorem C19_right_end_refuted : exists X1 Y1 YD len1 q,
  increasing X1 len1 /\ 2 <= len1 /\ (X1 0%Z <= q)%Q /\ (q <= X1 (len1 - 1)%Z)%Q /\
  SplineInterp X1 Y1 YD len1 [q] = UB /\
  SortSplineInterp X1 Y1 YD len1 [q] [0%nat] = UB /\
  SplineInterpUniform X1 Y1 YD len1 [q] = UB.
Proof.
  exists (tab [0; 1; 2]%Q), (tab [0; 1; 4]%Q), (tab [0; 2; 4]%Q), 3, 2%Q.
  split.
  { intros i A B. assert (i = 0 \/ i = 1) as [-> | ->] by lia; vm_compute; reflexivity. }
  split; [lia|]. split; [discriminate|]. split; [discriminate|].
  split; [vm_compute; reflexivity|]. split; vm_compute; reflexivity.
Qed.
Print Assumptions C19_right_end_refuted.

(** A query beyond the table: the uniform variant leaves its slot alone, the
    non-uniform variant leaves some sorted query abscissa in it. *)
Theorem C19_beyond_table_refuted : exists X1 Y1 YD len1 X2 ind U Y2,
  increasing X1 len1 /\ 2 <= len1 /\ sorts X2 ind /\
  (X1 (len1 - 1)%Z < nth 0 X2 0)%Q /\
  SplineInterpUniform X1 Y1 YD len1 X2 = Ok U /\ nth 0 U (Some 0%Q) = None /\
  SortSplineInterp X1 Y1 YD len1 X2 ind = Ok Y2 /\ (nth 0 Y2 0 == nth 1 X2 0)%Q.
Proof.
  exists (tab [0; 1; 2]%Q), (tab [0; 1; 4]%Q), (tab [0; 2; 4]%Q), 3, [5; 1 # 2]%Q, [1; 0]%nat.
  eexists. eexists. split.
  { intros i A B. assert (i = 0 \/ i = 1) as [-> | ->] by lia; vm_compute; reflexivity. }
  split; [lia|]. split.
  { split; [apply perm_swap | cbn; repeat constructor; cbn; discriminate]. }
  split; [reflexivity|]. split; [vm_compute; reflexivity|]. split; [reflexivity|].
  split; [vm_compute; reflexivity|]. vm_compute. reflexivity.
Qed.
Print Assumptions C19_beyond_table_refuted.

(** A query left of a uniform table reads before the tables. *)
Theorem C19_left_of_uniform_table_refuted : exists X1 Y1 YD len1 q,
  uniform_grid X1 len1 0 1 /\ 2 <= len1 /\ (q < X1 0%Z)%Q /\ SplineInterpUniform X1 Y1 YD len1 [q] = UB.
Proof.
  exists (tab [0; 1; 2]%Q), (tab [0; 1; 4]%Q), (tab [0; 2; 4]%Q), 3, (-1 # 2)%Q.
  split.
  { split; [reflexivity|]. intros j H. assert (j = 0 \/ j = 1 \/ j = 2) as [-> | [-> | ->]] by lia; vm_compute; reflexivity. }
  split; [lia|]. split; [reflexivity|]. vm_compute. reflexivity.
Qed.
Print Assumptions C19_left_of_uniform_table_refuted.

(** ** C20 *)
Section C20.
  Variable F : Type.
  Variables (zero one : F) (add mul sub : F -> F -> F) (opp : F -> F) (div : F -> F -> F) (inv : F -> F).
  Hypothesis Fth : field_theory zero one add mul sub opp div inv (@eq F).
  Variable small : F -> bool.
  Hypothesis small_zero : small zero = true.

  Notation td := (tridiag_gen F zero mul sub div small).
  Notation yd := (getYD_gen F zero one add mul sub div small).

  (** Every equation of the system holds for the returned vector. *)
  Theorem C20_every_equation : forall A B C D len x,
    td A B C D len = Ok x ->
    forall i, (i < len)%nat ->
      add (add (if (i =? 0)%nat then zero else mul (A i) (x (Nat.pred i))) (mul (B i) (x i)))
          (if (S i =? len)%nat then zero else mul (C i) (x (S i))) = D i.
  Proof. intros A B C D len x E. exact (tridiag_rows F zero one add mul sub opp div inv Fth small small_zero A B C D len x E). Qed.

  (** and no other vector does. *)
  Theorem C20_only_solution : forall A B C D len x y,
    td A B C D len = Ok x ->
    (forall i, (i < len)%nat ->
      add (add (if (i =? 0)%nat then zero else mul (A i) (y (Nat.pred i))) (mul (B i) (y i)))
          (if (S i =? len)%nat then zero else mul (C i) (y (S i))) = D i) ->
    forall i, (i < len)%nat -> y i = x i.
  Proof. intros A B C D len x y E. exact (tridiag_unique F zero one add mul sub opp div inv Fth small small_zero A B C D len x y E). Qed.

  (** The run ends with a result or with the error exit, the latter exactly
      when a pivot is small; it never reads outside its arrays. *)
  Theorem C20_exit_exactly_on_small_pivot : forall A B C D len, (1 <= len)%nat ->
    (td A B C D len = Exit <-> exists j, (j < len)%nat /\ small (piv F mul sub div A B C j) = true) /\
    td A B C D len <> UB.
  Proof. exact (tridiag_exit F zero mul sub div small small_zero). Qed.

  (** The slopes make the piecewise cubic twice continuously differentiable,
      with not-a-knot ends. *)
  Theorem C20_spline_slopes : forall X Y len d,
    (forall i, (S i < len)%nat -> h F sub X i <> zero) ->
    (forall i, (S (S i) < len)%nat -> add (h F sub X i) (h F sub X (S i)) <> zero) ->
    yd X Y len = Ok d ->
    (forall i, (S i < len)%nat ->
       cubic F one add mul sub div X Y d i zero = Y i /\
       cubic F one add mul sub div X Y d i (h F sub X i) = Y (S i)) /\
    (forall i, (S (S i) < len)%nat ->
       cubic1 F one add mul sub div X Y d i (h F sub X i) = cubic1 F one add mul sub div X Y d (S i) zero /\
       cubic2 F one add mul sub div X Y d i (h F sub X i) = cubic2 F one add mul sub div X Y d (S i) zero) /\
    cubic3 F one add mul sub div X Y d 0 = cubic3 F one add mul sub div X Y d 1 /\
    cubic3 F one add mul sub div X Y d (len - 3) = cubic3 F one add mul sub div X Y d (len - 2).
  Proof.
    intros X Y len d Hh Hs E.
    destruct (getYD_interior F zero one add mul sub opp div inv Fth small small_zero X Y len d Hh E)
      as (L & I2 & I0 & IL).
    pose proof (cubic_ends F zero one add mul sub opp div inv Fth X Y d) as CE.
    split; [|split; [|split]].
    - intros i Hi. destruct (CE i (Hh i Hi)) as (A & B & _ & _). split; assumption.
    - intros i Hi. split; [|apply I2, Hi].
      destruct (CE i) as (_ & _ & _ & A); [apply Hh; lia|].
      destruct (CE (S i)) as (_ & _ & B & _); [apply Hh; lia|]. congruence.
    - apply I0, Hs. lia.
    - apply IL. replace (len - 2)%nat with (S (len - 3)) by lia. apply Hs. lia.
  Qed.
End C20.
Print Assumptions C20_every_equation.
Print Assumptions C20_only_solution.
Print Assumptions C20_exit_exactly_on_small_pivot.
Print Assumptions C20_spline_slopes.

Definition qsmall (x : Qc) : bool := if Qc_eq_dec x 0 then true else false.
Definition arr (l : list Z) : nat -> Qc := fun i => Q2Qc (inject_Z (nth i l 0)).
Example C20_ex :
  match tridiag_gen Qc 0%Qc Qcmult Qcminus Qcdiv qsmall (arr [0; 1; 2]) (arr [2; 3; 4]) (arr [1; 1; 0]) (arr [4; 10; 16]) 3 with
  | Ok x => map (fun i => this (x i)) [0; 1; 2]%nat = [1; 2; 3]%Q | _ => False end.
Proof. vm_compute. reflexivity. Qed.
(** A table of squares: the slopes are 2x. *)
Example C20_slopes_ex :
  match getYD_gen Qc 0%Qc 1%Qc Qcplus Qcmult Qcminus Qcdiv qsmall (arr [0; 1; 3; 4]) (arr [0; 1; 9; 16]) 4 with
  | Ok x => map (fun i => this (x i)) [0; 1; 2; 3]%nat = [0; 2; 6; 8]%Q | _ => False end.
Proof. vm_compute. reflexivity. Qed.
Example C20_singular_ex :
  tridiag_gen Qc 0%Qc Qcmult Qcminus Qcdiv qsmall (arr [0; 1]) (arr [1; 1]) (arr [1; 0]) (arr [1; 1]) 2 = Exit.
Proof. vm_compute. reflexivity. Qed.
Example C20_field : field_theory 0%Qc 1%Qc Qcplus Qcmult Qcminus Qcopp Qcdiv Qcinv eq /\ qsmall 0%Qc = true.
Proof. split; [exact Qcft | reflexivity]. Qed.
(** With two nodes the slope routine reads X[2] and Y[2]. *)
Theorem C20_two_nodes_refuted : exists (X Y : nat -> Qc),
  h Qc Qcminus X 0 <> 0%Qc /\
  getYD_gen Qc 0%Qc 1%Qc Qcplus Qcmult Qcminus Qcdiv qsmall X Y 2 = UB.
Proof. exists (arr [0; 1]), (arr [0; 1]). split; [discriminate | reflexivity]. Qed.
Print Assumptions C20_two_nodes_refuted.
