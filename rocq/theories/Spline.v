(** Model of the interval searches and cubic spline evaluation of
    src/tools.c:450-670.  Values are exact rationals; reads outside a table
    are the outcome [UB]. *)
From Coq Require Import ZArith List Lia Bool QArith Qround Lqa Sorted Permutation Field.
From Verif Require Import CBase.
Import ListNotations.
Local Open Scope Q_scope.

Definition qltb (a b : Q) : bool := negb (Qle_bool b a).
Lemma qltb_lt a b : qltb a b = true <-> a < b.
Proof.
  unfold qltb. rewrite negb_true_iff. split; intros H.
  - apply Qnot_le_lt. intros L. apply Qle_bool_iff in L. congruence.
  - destruct (Qle_bool b a) eqn:E; [|reflexivity]. apply Qle_bool_iff in E.
    exfalso. apply (Qlt_not_le _ _ H E).
Qed.
Lemma qltb_ge a b : qltb a b = false <-> b <= a.
Proof.
  unfold qltb. rewrite negb_false_iff. apply Qle_bool_iff.
Qed.
Lemma qle_gt a b : Qle_bool a b = false <-> b < a.
Proof.
  split; intros H.
  - apply Qnot_le_lt. intros L. apply Qle_bool_iff in L. congruence.
  - destruct (Qle_bool a b) eqn:E; [|reflexivity]. apply Qle_bool_iff in E.
    exfalso. apply (Qlt_not_le _ _ H E).
Qed.

Local Open Scope Z_scope.

(** A read of element [j] of a table with [len] entries. *)
Definition rd (X : Z -> Q) (len j : Z) : outcome Q :=
  if (0 <=? j) && (j <? len) then Ok (X j) else UB.

Lemma rd_ok X len j : 0 <= j < len -> rd X len j = Ok (X j).
Proof.
  intros H. unfold rd.
  destruct (0 <=? j) eqn:A; destruct (j <? len) eqn:B; try reflexivity;
    rewrite ?Z.leb_gt, ?Z.ltb_ge in *; lia.
Qed.
Lemma rd_ub X len j : ~ 0 <= j < len -> rd X len j = UB.
Proof.
  intros H. unfold rd. destruct ((0 <=? j) && (j <? len)) eqn:E; [|reflexivity].
  apply andb_true_iff in E. destruct E as [A B]. apply Z.leb_le in A. apply Z.ltb_lt in B. lia.
Qed.

(** src/tools.c:653-670 [binary_interval_search]; [fuel] bounds the while
    loop, whose interval shrinks in every round. *)
Fixpoint bis_loop (X : Z -> Q) (len : Z) (x : Q) (fuel : nat) (first last middle : Z) : outcome Z :=
  match fuel with
  | O => Ok first
  | S f =>
    if first + 1 <? last then
      do a <- rd X len middle ;
      do hit <- (if Qle_bool a x then do b <- rd X len (middle + 1) ; Ok (qltb x b) else Ok false) ;
      if (hit : bool) then Ok middle
      else if qltb a x then bis_loop X len x f middle last (Z.quot (middle + last) 2)
           else bis_loop X len x f first middle (Z.quot (first + middle) 2)
    else Ok first
  end.
Definition binary_interval_search (X : Z -> Q) (len : Z) (x : Q) : outcome Z :=
  bis_loop X len x (Z.to_nat len) 0 (len - 1) (Z.quot (0 + (len - 1)) 2).

(** The cubic of one interval: left end, right end, A0..A3
    (src/tools.c:472-480, 574-583). *)
Record piece := mkP { p_left : Q; p_right : Q; a0 : Q; a1 : Q; a2 : Q; a3 : Q }.

Definition coefs (X1 Y1 YD : Z -> Q) (len1 j : Z) : outcome piece :=
  do p1 <- rd X1 len1 j ;
  do p3 <- rd X1 len1 (j + 1) ;
  do y0 <- rd Y1 len1 j ;
  do y1 <- rd Y1 len1 (j + 1) ;
  do d0 <- rd YD len1 j ;
  do d1 <- rd YD len1 (j + 1) ;
  let dx := (1 / (p3 - p1))%Q in
  let dy := ((y1 - y0) * dx)%Q in
  Ok (mkP p1 p3 y0 d0 (dx * (3 * dy - 2 * d0 - d1))%Q (dx * dx * (- (2) * dy + d0 + d1))%Q).

(** Horner's rule, src/tools.c:482-484, 585-586. *)
Definition horner (c : piece) (p2 : Q) : Q :=
  let x := (p2 - p_left c)%Q in (((a3 c * x + a2 c) * x + a1 c) * x + a0 c)%Q.

(** src/tools.c:470 [for (; j<len1 && p2>X1[j]; j++);] *)
Fixpoint scan_up (X1 : Z -> Q) (len1 : Z) (p2 : Q) (fuel : nat) (j : Z) : Z :=
  match fuel with
  | O => j
  | S f => if (j <? len1) && qltb (X1 j) p2 then scan_up X1 len1 p2 f (j + 1) else j
  end.

(** src/tools.c:465-486: the main loop over the queries. *)
Fixpoint interp_loop (X1 Y1 YD : Z -> Q) (len1 : Z) (X2 : list Q) (j : Z) (c : piece) : outcome (list Q) :=
  match X2 with
  | [] => Ok []
  | p2 :: rest =>
    do jc <- (if qltb (p_right c) p2 then
                let j := scan_up X1 len1 p2 (Z.to_nat len1) j in
                do xj <- rd X1 len1 j ;
                let j := if qltb p2 xj then j - 1 else j in
                do c' <- coefs X1 Y1 YD len1 j ;
                Ok (j, c')
              else Ok (j, c)) ;
    do ys <- interp_loop X1 Y1 YD len1 rest (fst jc) (snd jc) ;
    Ok (horner (snd jc) p2 :: ys)
  end.

(** src/tools.c:448-487 [SplineInterp]; the result list is what is written
    to Y2. *)
Definition SplineInterp (X1 Y1 YD : Z -> Q) (len1 : Z) (X2 : list Q) : outcome (list Q) :=
  match X2 with
  | [] => Ok []
  | q0 :: _ =>
    do x0 <- rd X1 len1 0 ;
    do xl <- rd X1 len1 (len1 - 1) ;
    if qltb q0 x0 || qltb xl (last X2 q0) then Exit
    else interp_loop X1 Y1 YD len1 X2 0 (mkP (q0 - 1)%Q (q0 - 1)%Q 0%Q 0%Q 0%Q 0%Q)
  end.

(** src/tools.c:552-591 [SplineInterpUniform]; [None] means that Y2[i] is
    not written. *)
Definition uniform_one (X1 Y1 YD : Z -> Q) (len1 : Z) (p2 : Q) : outcome (option Q) :=
  if qltb (X1 (len1 - 1)) p2 then Ok None
  else
    let j := Qfloor ((p2 - X1 0%Z) / (X1 1%Z - X1 0%Z)) in
    do c <- coefs X1 Y1 YD len1 j ;
    Ok (Some (horner c p2)).
Fixpoint uniform_loop (X1 Y1 YD : Z -> Q) (len1 : Z) (X2 : list Q) : outcome (list (option Q)) :=
  match X2 with
  | [] => Ok []
  | q :: r => do v <- uniform_one X1 Y1 YD len1 q ;
              do vs <- uniform_loop X1 Y1 YD len1 r ; Ok (v :: vs)
  end.
Definition SplineInterpUniform (X1 Y1 YD : Z -> Q) (len1 : Z) (X2 : list Q) : outcome (list (option Q)) :=
  if len1 <? 2 then Ok (map (fun _ => None) X2) else uniform_loop X1 Y1 YD len1 X2.

(** src/tools.c:533-534: drop the sorted queries beyond the table. *)
Fixpoint len_interp (xmax : Q) (sorted : list Q) : nat :=
  match sorted with
  | [] => O
  | q :: r => match len_interp xmax r with
              | O => if qltb xmax q then O else 1%nat
              | S k => S (S k)
              end
  end.
Definition set_nth (l : list Q) (i : nat) (v : Q) : list Q :=
  map (fun k => if (k =? i)%nat then v else nth k l 0%Q) (seq 0 (length l)).
(** src/tools.c:540-542: the permuted store. *)
Fixpoint scatter (Y2 : list Q) (ind : list nat) (v : list Q) : list Q :=
  match ind, v with
  | i :: ind', x :: v' => scatter (set_nth Y2 i x) ind' v'
  | _, _ => Y2
  end.
(** src/tools.c:517-546 [SortSplineInterp]; [ind] is the index array
    produced by [Sort] (src/tools.c:493-511, a library qsort). *)
Definition SortSplineInterp (X1 Y1 YD : Z -> Q) (len1 : Z) (X2 : list Q) (ind : list nat) : outcome (list Q) :=
  let Y2 := map (fun i => nth i X2 0%Q) ind in
  do xmax <- rd X1 len1 (len1 - 1) ;
  let n := len_interp xmax Y2 in
  do v <- SplineInterp X1 Y1 YD len1 (firstn n Y2) ;
  Ok (scatter Y2 ind v).

(** What [Sort] guarantees: [ind] is a permutation of the indices that
    lists the queries in non-decreasing order. *)
Definition sorts (X2 : list Q) (ind : list nat) : Prop :=
  Permutation ind (seq 0 (length X2)) /\
  StronglySorted Qle (map (fun i => nth i X2 0%Q) ind).

(** ** Specification *)
(** A strictly increasing table. *)
Definition increasing (X : Z -> Q) (len : Z) : Prop :=
  forall i, 0 <= i -> i + 1 < len -> (X i < X (i + 1)%Z)%Q.
(** [j] is an interval of the table and contains [q]. *)
Definition brackets (X : Z -> Q) (len j : Z) (q : Q) : Prop :=
  0 <= j /\ j + 1 < len /\ (X j <= q)%Q /\ (q <= X (j + 1)%Z)%Q.
(** Cubic Hermite interpolation on [X j, X (j+1)] by the four basis
    functions. *)
Definition hermite (X Y D : Z -> Q) (j : Z) (q : Q) : Q :=
  let h := (X (j + 1)%Z - X j)%Q in
  let t := ((q - X j) / h)%Q in
  ((2 * t * t * t - 3 * t * t + 1) * Y j + (t * t * t - 2 * t * t + t) * h * D j
   + (3 * t * t - 2 * t * t * t) * Y (j + 1)%Z + (t * t * t - t * t) * h * D (j + 1)%Z)%Q.
Definition spline_value (X Y D : Z -> Q) (len : Z) (q v : Q) : Prop :=
  exists j, brackets X len j q /\ (v == hermite X Y D j q)%Q.

(** ** Lemmas *)
Lemma increasing_le X len : increasing X len ->
  forall i j, 0 <= i -> i <= j -> j < len -> (X i <= X j)%Q.
Proof.
  intros H i j Hi Hij Hj.
  assert (G : forall n, i + Z.of_nat n < len -> (X i <= X (i + Z.of_nat n)%Z)%Q).
  { induction n as [|n IH]; intros L.
    - replace (i + Z.of_nat 0) with i by lia. apply Qle_refl.
    - apply Qle_trans with (X (i + Z.of_nat n)%Z); [apply IH; lia|].
      replace (i + Z.of_nat (S n)) with (i + Z.of_nat n + 1) by lia.
      apply Qlt_le_weak, H; lia. }
  specialize (G (Z.to_nat (j - i))). rewrite Z2Nat.id in G by lia.
  replace (i + (j - i)) with j in G by lia. apply G. lia.
Qed.
Lemma increasing_lt X len : increasing X len ->
  forall i j, 0 <= i -> i < j -> j < len -> (X i < X j)%Q.
Proof.
  intros H i j Hi Hij Hj. apply Qlt_le_trans with (X (i + 1)%Z).
  - apply H; lia.
  - apply (increasing_le X len H); lia.
Qed.

Lemma coefs_ok X1 Y1 YD len1 j : 0 <= j -> j + 1 < len1 -> (X1 j < X1 (j + 1)%Z)%Q ->
  exists c, coefs X1 Y1 YD len1 j = Ok c /\ p_left c = X1 j /\ p_right c = X1 (j + 1)%Z /\
    forall q, (horner c q == hermite X1 Y1 YD j q)%Q.
Proof.
  intros A B L. unfold coefs. rewrite !rd_ok by lia. cbn [obind]. cbv zeta.
  eexists. split; [reflexivity|]. split; [reflexivity|]. split; [reflexivity|].
  intros q. unfold horner, hermite. cbn [p_left a0 a1 a2 a3].
  field. intros Z. apply (Qlt_irrefl (X1 j)).
  assert (X1 (j + 1)%Z == X1 j)%Q by lra. lra.
Qed.
Lemma coefs_ub X1 Y1 YD len1 j : ~ (0 <= j /\ j + 1 < len1) -> coefs X1 Y1 YD len1 j = UB.
Proof.
  intros H. unfold coefs.
  destruct (Z_lt_dec j 0) as [N|N].
  - rewrite (rd_ub X1) by lia. reflexivity.
  - destruct (Z_lt_dec j len1) as [M|M].
    + rewrite rd_ok by lia. cbn [obind]. rewrite (rd_ub X1) by lia. reflexivity.
    + rewrite (rd_ub X1) by lia. reflexivity.
Qed.

(** ** Binary search *)
Lemma bis_correct X len x : increasing X len ->
  forall fuel first last,
    0 <= first -> first < last -> last < len -> last - first <= Z.of_nat fuel ->
    (X first <= x)%Q -> (x <= X last)%Q ->
    exists i, bis_loop X len x fuel first last (Z.quot (first + last) 2) = Ok i /\ brackets X len i x.
Proof.
  intros Hinc. induction fuel as [|f IH]; intros fi la H0 H1 H2 H3 L R; [lia|].
  cbn [bis_loop]. destruct (fi + 1 <? la) eqn:E.
  - apply Z.ltb_lt in E.
    assert (Hm : Z.quot (fi + la) 2 = (fi + la) / 2) by (apply Z.quot_div_nonneg; lia).
    rewrite Hm. set (m := (fi + la) / 2) in *.
    assert (Hm1 : fi < m) by (unfold m; apply Z.lt_le_trans with (fi + 1); [lia | apply Z.div_le_lower_bound; lia]).
    assert (Hm2 : m < la) by (unfold m; apply Z.div_lt_upper_bound; lia).
    rewrite (rd_ok X len m) by lia. cbn [obind].
    destruct (Qle_bool (X m) x) eqn:Ea.
    + rewrite (rd_ok X len (m + 1)) by lia. cbn [obind].
      apply Qle_bool_iff in Ea. destruct (qltb x (X (m + 1)%Z)) eqn:Eb.
      * exists m. split; [reflexivity|]. apply qltb_lt in Eb.
        unfold brackets. repeat split; try lia; try assumption. apply Qlt_le_weak, Eb.
      * apply qltb_ge in Eb.
        assert ((X m < x)%Q).
        { apply Qlt_le_trans with (X (m + 1)%Z); [apply Hinc; lia | exact Eb]. }
        apply qltb_lt in H. rewrite H. apply IH; try lia; try assumption.
    + cbn [obind]. apply qle_gt in Ea.
      destruct (qltb (X m) x) eqn:Ec.
      * apply qltb_lt in Ec. exfalso. apply (Qlt_irrefl x). apply Qlt_trans with (X m); assumption.
      * apply IH; try lia; try assumption. apply Qlt_le_weak, Ea.
  - apply Z.ltb_ge in E. exists fi. split; [reflexivity|].
    assert (la = fi + 1) by lia. subst la. repeat split; try lia; assumption.
Qed.

Lemma bis_range X len x : 
  forall fuel first last,
    0 <= first -> first < last -> last < len ->
    exists i, bis_loop X len x fuel first last (Z.quot (first + last) 2) = Ok i /\ 0 <= i /\ i + 1 < len.
Proof.
  induction fuel as [|f IH]; intros fi la H0 H1 H2; cbn [bis_loop].
  - exists fi. split; [reflexivity | lia].
  - destruct (fi + 1 <? la) eqn:E.
    + apply Z.ltb_lt in E.
      assert (Hm : Z.quot (fi + la) 2 = (fi + la) / 2) by (apply Z.quot_div_nonneg; lia).
      rewrite Hm. set (m := (fi + la) / 2) in *.
      assert (Hm1 : fi < m) by (unfold m; apply Z.lt_le_trans with (fi + 1); [lia | apply Z.div_le_lower_bound; lia]).
      assert (Hm2 : m < la) by (unfold m; apply Z.div_lt_upper_bound; lia).
      rewrite (rd_ok X len m) by lia. rewrite (rd_ok X len (m + 1)) by lia. cbn [obind].
      destruct (Qle_bool (X m) x); cbn [obind].
      * destruct (qltb x (X (m + 1)%Z)); [exists m; split; [reflexivity | lia]|].
        destruct (qltb (X m) x); apply IH; lia.
      * destruct (qltb (X m) x); apply IH; lia.
    + exists fi. split; [reflexivity | lia].
Qed.

(** ** Sorted interpolation *)
Lemma scan_up_spec X1 len1 p2 : increasing X1 len1 ->
  forall fuel j, 0 <= j -> j <= len1 -> len1 - j <= Z.of_nat fuel ->
    (exists k, j <= k < len1 /\ (p2 <= X1 k)%Q) ->
    let r := scan_up X1 len1 p2 fuel j in
    j <= r < len1 /\ (p2 <= X1 r)%Q /\ (j < r -> (X1 (r - 1)%Z < p2)%Q).
Proof.
  intros Hinc. induction fuel as [|f IH]; intros j A B C (k & Hk & Hp); [lia|].
  cbv zeta. cbn [scan_up]. destruct (Z.ltb_spec j len1) as [L|L]; [|lia].
  cbn [andb]. destruct (qltb (X1 j) p2) eqn:E.
  - apply qltb_lt in E. assert (k <> j).
    { intros ->. apply (Qlt_irrefl p2). apply Qle_lt_trans with (X1 j); assumption. }
    destruct (IH (j + 1)) as (I1 & I2 & I3); try lia.
    { exists k. split; [lia | exact Hp]. }
    split; [lia|]. split; [exact I2|]. intros Lr.
    destruct (Z.eq_dec (scan_up X1 len1 p2 f (j + 1)) (j + 1)) as [Er | Nr].
    + rewrite Er. replace (j + 1 - 1) with j by lia. exact E.
    + apply I3. lia.
  - apply qltb_ge in E. split; [lia|]. split; [exact E | lia].
Qed.

Lemma interp_loop_ok X1 Y1 YD len1 : increasing X1 len1 -> 2 <= len1 ->
  forall X2 j c,
    0 <= j < len1 ->
    StronglySorted Qle X2 ->
    Forall (fun q => (X1 0%Z <= q)%Q /\ (q < X1 (len1 - 1)%Z)%Q) X2 ->
    (* the remembered interval, if any, is interval j and lies left of or around the queries *)
    ((forall q, In q X2 -> (p_right c < q)%Q /\ j = 0) \/
     (j + 1 < len1 /\ p_right c = X1 (j + 1)%Z /\ (forall q, In q X2 -> (X1 j <= q)%Q) /\
      forall q, (horner c q == hermite X1 Y1 YD j q)%Q)) ->
    exists ys, interp_loop X1 Y1 YD len1 X2 j c = Ok ys /\ Forall2 (spline_value X1 Y1 YD len1) X2 ys.
Proof.
  intros Hinc Hlen. induction X2 as [|p2 rest IH]; intros j c Hj Hs Hr Hc.
  - exists []. split; [reflexivity | constructor].
  - cbn [interp_loop].
    inversion Hs as [|? ? Hs' Hall]; subst. inversion Hr as [|? ? [R1 R2] Hr']; subst.
    destruct (qltb (p_right c) p2) eqn:E.
    + apply qltb_lt in E.
      pose proof (scan_up_spec X1 len1 p2 Hinc (Z.to_nat len1) j) as Hsc.
      destruct Hsc as (S1 & S2 & S3); try lia.
      { exists (len1 - 1). split; [lia | apply Qlt_le_weak, R2]. }
      set (r := scan_up X1 len1 p2 (Z.to_nat len1) j) in *.
      rewrite (rd_ok X1 len1 r) by lia. cbn [obind]. cbv zeta.
      set (j' := if qltb p2 (X1 r) then r - 1 else r).
      assert (Hj' : 0 <= j' /\ j' + 1 < len1 /\ (X1 j' <= p2)%Q /\ (p2 <= X1 (j' + 1)%Z)%Q).
      { unfold j'. destruct (qltb p2 (X1 r)) eqn:Er.
        - apply qltb_lt in Er.
          assert (j < r).
          { destruct (Z.eq_dec r j) as [Ej | Nj]; [|lia]. exfalso.
            rewrite Ej in Er.
            destruct Hc as [Hc | (Hc1 & Hc2 & Hc3 & _)].
            - destruct (Hc p2 (or_introl eq_refl)) as [_ ->].
              apply (Qlt_irrefl p2). apply Qlt_le_trans with (X1 0%Z); assumption.
            - apply (Qlt_irrefl p2). apply Qlt_le_trans with (X1 j); [exact Er|].
              apply Hc3. left. reflexivity. }
          split; [lia|]. split; [lia|]. split; [apply Qlt_le_weak, S3; lia|].
          replace (r - 1 + 1) with r by lia. exact S2.
        - apply qltb_ge in Er.
          assert (r + 1 < len1).
          { destruct (Z.eq_dec r (len1 - 1)) as [Ez | Nz]; [|lia]. exfalso.
            rewrite Ez in Er. apply (Qlt_irrefl p2). apply Qlt_le_trans with (X1 (len1 - 1)%Z); assumption. }
          split; [lia|]. split; [lia|]. split; [exact Er|].
          apply Qle_trans with (X1 r); [exact S2|]. apply Qlt_le_weak, Hinc; lia. }
      destruct Hj' as (J1 & J2 & J3 & J4).
      destruct (coefs_ok X1 Y1 YD len1 j' J1 J2) as (c' & Ec & Pl & Pr & Ph); [apply Hinc; lia|].
      rewrite Ec. cbn [obind fst snd].
      destruct (IH j' c') as (ys & Ey & Fy); [lia | exact Hs' | exact Hr' | |].
      { right. split; [lia|]. split; [exact Pr|]. split; [|exact Ph].
        intros q Hq. apply Qle_trans with p2; [exact J3|]. rewrite Forall_forall in Hall. apply Hall, Hq. }
      rewrite Ey. cbn [obind]. eexists. split; [reflexivity|]. constructor; [|exact Fy].
      exists j'. split; [unfold brackets; repeat split; assumption | apply Ph].
    + apply qltb_ge in E. cbn [obind fst snd].
      destruct Hc as [Hc | (Hc1 & Hc2 & Hc3 & Hc4)].
      { destruct (Hc p2 (or_introl eq_refl)) as [Hlt _]. exfalso.
        apply (Qlt_irrefl p2). apply Qle_lt_trans with (p_right c); assumption. }
      destruct (IH j c) as (ys & Ey & Fy); [lia | exact Hs' | exact Hr' | |].
      { right. split; [lia|]. split; [exact Hc2|]. split; [|exact Hc4].
        intros q Hq. apply Hc3. right. exact Hq. }
      rewrite Ey. cbn [obind]. eexists. split; [reflexivity|]. constructor; [|exact Fy].
      exists j. split; [|apply Hc4]. unfold brackets. split; [lia|]. split; [lia|].
      split; [apply Hc3; left; reflexivity|]. rewrite <- Hc2. exact E.
Qed.

Lemma last_in (l : list Q) d : l <> [] -> In (last l d) l.
Proof.
  induction l as [|a l IH]; intros H; [congruence|]. destruct l as [|b l]; [left; reflexivity|].
  right. apply IH. discriminate.
Qed.

Lemma SplineInterp_ok X1 Y1 YD len1 X2 : increasing X1 len1 -> 2 <= len1 ->
  StronglySorted Qle X2 ->
  Forall (fun q => (X1 0%Z <= q)%Q /\ (q < X1 (len1 - 1)%Z)%Q) X2 ->
  exists ys, SplineInterp X1 Y1 YD len1 X2 = Ok ys /\ Forall2 (spline_value X1 Y1 YD len1) X2 ys.
Proof.
  intros Hinc Hlen Hs Hr. destruct X2 as [|q0 rest].
  - exists []. split; [reflexivity | constructor].
  - unfold SplineInterp. rewrite !rd_ok by lia. cbn [obind].
    assert (E1 : qltb q0 (X1 0%Z) = false).
    { apply qltb_ge. inversion Hr as [|? ? [A B] ?]; subst. exact A. }
    assert (E2 : qltb (X1 (len1 - 1)%Z) (last (q0 :: rest) q0) = false).
    { apply qltb_ge. rewrite Forall_forall in Hr.
      destruct (Hr (last (q0 :: rest) q0)) as [_ B]; [apply last_in; discriminate|]. apply Qlt_le_weak, B. }
    rewrite E1, E2. cbn [orb].
    apply interp_loop_ok; try assumption; [lia|].
    left. intros q Hq. split; [|reflexivity]. cbn [p_right].
    apply Qlt_le_trans with q0; [lra|].
    inversion Hs as [|? ? Hs' Hall]; subst. rewrite Forall_forall in Hall.
    destruct Hq as [-> | Hq]; [apply Qle_refl | apply Hall, Hq].
Qed.

(** ** Sort and scatter *)
Lemma set_nth_len l i v : length (set_nth l i v) = length l.
Proof. unfold set_nth. rewrite map_length, seq_length. reflexivity. Qed.
Lemma set_nth_nth l i v k : (k < length l)%nat ->
  nth k (set_nth l i v) 0%Q = if (k =? i)%nat then v else nth k l 0%Q.
Proof.
  intros H. unfold set_nth. set (f := fun k => if (k =? i)%nat then v else nth k l 0%Q).
  rewrite (nth_indep _ 0%Q (f 0%nat)) by (rewrite map_length, seq_length; exact H).
  rewrite (map_nth f). rewrite seq_nth by exact H. reflexivity.
Qed.
Lemma scatter_notin : forall ind v l k, (k < length l)%nat -> ~ In k ind ->
  nth k (scatter l ind v) 0%Q = nth k l 0%Q.
Proof.
  induction ind as [|i ind IH]; intros v l k H N; destruct v as [|x v]; try reflexivity.
  cbn [scatter]. rewrite IH.
  - rewrite set_nth_nth by exact H. destruct (Nat.eqb_spec k i); [|reflexivity].
    exfalso. apply N. left. symmetry. assumption.
  - rewrite set_nth_len. exact H.
  - intros C. apply N. right. exact C.
Qed.
Lemma scatter_in : forall ind v l p, NoDup ind -> (forall i, In i ind -> (i < length l)%nat) ->
  (p < length ind)%nat -> (p < length v)%nat ->
  nth (nth p ind O) (scatter l ind v) 0%Q = nth p v 0%Q.
Proof.
  induction ind as [|i ind IH]; intros v l p ND B P1 P2; [cbn in P1; lia|].
  destruct v as [|x v]; [cbn in P2; lia|]. inversion ND; subst. cbn [scatter].
  destruct p as [|p]; cbn [nth].
  - rewrite scatter_notin; [| rewrite set_nth_len; apply B; left; reflexivity | assumption].
    rewrite set_nth_nth by (apply B; left; reflexivity). now rewrite Nat.eqb_refl.
  - apply IH; [assumption | | cbn in P1; lia | cbn in P2; lia].
    intros k Hk. rewrite set_nth_len. apply B. right. exact Hk.
Qed.
Lemma scatter_len : forall ind v l, length (scatter l ind v) = length l.
Proof.
  induction ind as [|i ind IH]; intros v l; destruct v as [|x v]; try reflexivity.
  cbn [scatter]. rewrite IH. apply set_nth_len.
Qed.

Lemma len_interp_le xmax l : (len_interp xmax l <= length l)%nat.
Proof.
  induction l as [|q l IH]; cbn [len_interp length]; [lia|].
  destruct (len_interp xmax l); [destruct (qltb xmax q)|]; lia.
Qed.
Lemma len_interp_sorted xmax : forall l p, StronglySorted Qle l -> (p < length l)%nat ->
  ((p < len_interp xmax l)%nat <-> (nth p l 0%Q <= xmax)%Q).
Proof.
  induction l as [|q l IH]; intros p Hs Hp; [cbn in Hp; lia|].
  inversion Hs as [|? ? Hs' Hall]; subst. cbn [len_interp].
  destruct p as [|p]; cbn [nth].
  - destruct (len_interp xmax l) as [|k] eqn:E.
    + destruct (qltb xmax q) eqn:Eq.
      * apply qltb_lt in Eq. split; [lia|]. intros L. exfalso.
        apply (Qlt_irrefl q). apply Qle_lt_trans with xmax; assumption.
      * apply qltb_ge in Eq. split; [intros _; exact Eq | lia].
    + split; [intros _|lia].
      assert (Hk : (0 < length l)%nat) by (pose proof (len_interp_le xmax l); lia).
      pose proof (proj1 (IH 0%nat Hs' Hk)) as I. specialize (I ltac:(lia)).
      destruct l as [|b l]; [cbn in Hk; lia|]. cbn [nth] in I.
      inversion Hall; subst. apply Qle_trans with b; assumption.
  - cbn [length] in Hp. specialize (IH p Hs' ltac:(lia)).
    destruct (len_interp xmax l) as [|k] eqn:E.
    + rewrite <- IH. destruct (qltb xmax q); lia.
    + rewrite <- IH. lia.
Qed.

Lemma StronglySorted_firstn (l : list Q) : forall n, StronglySorted Qle l -> StronglySorted Qle (firstn n l).
Proof.
  induction l as [|q l IH]; intros n H; destruct n; cbn [firstn]; try constructor.
  - inversion H; subst. apply IH; assumption.
  - inversion H; subst. rewrite Forall_forall in *. intros x Hx. apply H3.
    rewrite <- (firstn_skipn n l). apply in_or_app. left. exact Hx.
Qed.
Lemma nth_firstn (l : list Q) : forall n p, (p < n)%nat -> nth p (firstn n l) 0%Q = nth p l 0%Q.
Proof.
  induction l as [|q l IH]; intros n p H; destruct n; try lia; destruct p; try reflexivity.
  cbn [firstn nth]. apply IH. lia.
Qed.

Lemma Forall2_len {A B} (P : A -> B -> Prop) l l' : Forall2 P l l' -> length l = length l'.
Proof. induction 1; cbn [length]; congruence. Qed.
Lemma Forall2_nth {A B} (P : A -> B -> Prop) l l' da db : Forall2 P l l' ->
  forall p, (p < length l)%nat -> P (nth p l da) (nth p l' db).
Proof.
  induction 1 as [|a b l l' H F IH]; intros p Hp; [cbn in Hp; lia|].
  destruct p; [exact H | apply IH; cbn in Hp; lia].
Qed.

Lemma SortSplineInterp_ok X1 Y1 YD len1 X2 ind :
  increasing X1 len1 -> 2 <= len1 -> sorts X2 ind ->
  Forall (fun q => (X1 0%Z <= q)%Q /\ ~ (q == X1 (len1 - 1)%Z)%Q) X2 ->
  exists Y2, SortSplineInterp X1 Y1 YD len1 X2 ind = Ok Y2 /\ length Y2 = length X2 /\
    forall t, (t < length X2)%nat -> (nth t X2 0 < X1 (len1 - 1)%Z)%Q ->
      spline_value X1 Y1 YD len1 (nth t X2 0%Q) (nth t Y2 0%Q).
Proof.
  intros Hinc Hlen [HP HS] Hr. unfold SortSplineInterp. cbv zeta.
  rewrite rd_ok by lia. cbn [obind].
  set (S := map (fun i => nth i X2 0%Q) ind) in *.
  set (xm := X1 (len1 - 1)%Z) in *. set (n := len_interp xm S).
  assert (Lind : length ind = length X2) by (rewrite (Permutation_length HP); apply seq_length).
  assert (LS : length S = length X2) by (unfold S; rewrite map_length; exact Lind).
  assert (Bind : forall i, In i ind -> (i < length X2)%nat).
  { intros i Hi. apply (Permutation_in _ HP) in Hi. apply in_seq in Hi. lia. }
  assert (NDi : NoDup ind) by (apply (Permutation_NoDup (Permutation_sym HP)), seq_NoDup).
  assert (nS : forall p, (p < length ind)%nat -> nth p S 0%Q = nth (nth p ind O) X2 0%Q).
  { intros p Hp. unfold S. set (f := fun i => nth i X2 0%Q).
    rewrite (nth_indep _ 0%Q (f O)) by (rewrite map_length; exact Hp).
    rewrite (map_nth f). reflexivity. }
  assert (Hn : (n <= length S)%nat) by apply len_interp_le.
  destruct (SplineInterp_ok X1 Y1 YD len1 (firstn n S) Hinc Hlen) as (ys & Ey & Fy).
  { apply StronglySorted_firstn, HS. }
  { rewrite Forall_forall. intros q Hq. apply (In_nth _ _ 0%Q) in Hq. destruct Hq as (p & Hp & <-).
    rewrite firstn_length in Hp. rewrite nth_firstn by lia.
    pose proof (proj1 (len_interp_sorted xm S p HS ltac:(lia)) ltac:(fold n; lia)) as Hle.
    rewrite nS in * by lia. rewrite Forall_forall in Hr.
    destruct (Hr (nth (nth p ind O) X2 0%Q)) as [R1 R2].
    { apply nth_In, Bind, nth_In. lia. }
    split; [exact R1|]. apply Qle_lteq in Hle. destruct Hle as [Hle|Hle]; [exact Hle | contradiction]. }
  rewrite Ey. cbn [obind]. eexists. split; [reflexivity|].
  split; [rewrite scatter_len; exact LS|].
  intros t Ht Hlt.
  assert (Hin : In t ind).
  { apply (Permutation_in _ (Permutation_sym HP)). apply in_seq. lia. }
  apply (In_nth _ _ O) in Hin. destruct Hin as (p & Hp & <-).
  assert (Hpn : (p < n)%nat).
  { apply (len_interp_sorted xm S p HS); [lia|]. rewrite nS by lia. apply Qlt_le_weak, Hlt. }
  assert (Ly : length ys = n).
  { rewrite <- (Forall2_len _ _ _ Fy). rewrite firstn_length. lia. }
  rewrite scatter_in; [| exact NDi | intros i Hi; rewrite LS; apply Bind, Hi | exact Hp | lia].
  pose proof (Forall2_nth _ _ _ 0%Q 0%Q Fy p) as G. rewrite firstn_length in G.
  specialize (G ltac:(lia)). rewrite nth_firstn in G by exact Hpn. rewrite nS in G by lia. exact G.
Qed.

(** ** Uniform grid *)
Definition uniform_grid (X : Z -> Q) (len : Z) (x0 d : Q) : Prop :=
  (0 < d)%Q /\ forall j, 0 <= j < len -> (X j == x0 + inject_Z j * d)%Q.

Lemma uniform_increasing X len x0 d : uniform_grid X len x0 d -> increasing X len.
Proof.
  intros [Hd H] i A B. rewrite (H i) by lia. rewrite (H (i + 1)) by lia.
  rewrite inject_Z_plus. change (inject_Z 1) with 1%Q.
  assert ((x0 + (inject_Z i + 1) * d == x0 + inject_Z i * d + d)%Q) as -> by ring. lra.
Qed.

Lemma uniform_floor X len x0 d q : uniform_grid X len x0 d -> 2 <= len ->
  (X 0%Z <= q)%Q -> (q < X (len - 1)%Z)%Q ->
  brackets X len (Qfloor ((q - X 0%Z) / (X 1%Z - X 0%Z))) q.
Proof.
  intros [Hd H] Hl A B.
  pose proof (H 0 ltac:(lia)) as H0. pose proof (H 1 ltac:(lia)) as H1.
  pose proof (H (len - 1) ltac:(lia)) as HL.
  set (u := ((q - X 0%Z) / (X 1%Z - X 0%Z))%Q).
  assert (Hu : (u == (q - x0) / d)%Q).
  { unfold u. rewrite H0, H1. change (inject_Z 0) with 0%Q. change (inject_Z 1) with 1%Q.
    field. repeat split; lra. }
  assert (Hq : (q == x0 + u * d)%Q) by (rewrite Hu; field; lra).
  assert (U0 : (0 <= u)%Q).
  { rewrite Hu. apply Qle_shift_div_l; [exact Hd|]. rewrite H0 in A. change (inject_Z 0) with 0%Q in A. lra. }
  assert (UL : (u < inject_Z (len - 1))%Q).
  { rewrite Hu. apply Qlt_shift_div_r; [exact Hd|]. rewrite HL in B. lra. }
  pose proof (Qfloor_le u) as F1. pose proof (Qlt_floor u) as F2.
  set (j := Qfloor u) in *.
  assert (J0 : 0 <= j).
  { assert (-1 < j)%Z; [|lia]. rewrite Zlt_Qlt. rewrite inject_Z_plus in F2.
    change (inject_Z (-1)) with (-1)%Q. change (inject_Z 1) with 1%Q in F2. lra. }
  assert (J1 : j < len - 1) by (rewrite Zlt_Qlt; apply Qle_lt_trans with u; assumption).
  unfold brackets. split; [lia|]. split; [lia|].
  rewrite (H j) by lia. rewrite (H (j + 1)) by lia.
  rewrite Hq. split.
  - apply Qplus_le_r, Qmult_le_compat_r; [exact F1 | lra].
  - apply Qplus_le_r, Qmult_le_compat_r; [apply Qlt_le_weak, F2 | lra].
Qed.

Lemma uniform_one_ok X Y D len x0 d q : uniform_grid X len x0 d -> 2 <= len ->
  (X 0%Z <= q)%Q -> ~ (q == X (len - 1)%Z)%Q ->
  exists r, uniform_one X Y D len q = Ok r /\
    (((X (len - 1)%Z < q)%Q /\ r = None) \/
     ((q < X (len - 1)%Z)%Q /\ exists v, r = Some v /\ spline_value X Y D len q v)).
Proof.
  intros U Hl A N. unfold uniform_one. destruct (qltb (X (len - 1)%Z) q) eqn:E.
  - apply qltb_lt in E. exists None. split; [reflexivity|]. left. split; [exact E | reflexivity].
  - apply qltb_ge in E. apply Qle_lteq in E. destruct E as [E|E]; [|contradiction].
    pose proof (uniform_floor X len x0 d q U Hl A E) as Hb. destruct Hb as (B1 & B2 & B3 & B4).
    destruct (coefs_ok X Y D len _ B1 B2) as (c & Ec & _ & _ & Ph).
    { apply (uniform_increasing X len x0 d U); assumption. }
    rewrite Ec. cbn [obind]. eexists. split; [reflexivity|]. right. split; [exact E|].
    eexists. split; [reflexivity|]. eexists. split; [split; [exact B1|]; split; [exact B2|]; split; [exact B3 | exact B4] | apply Ph].
Qed.
