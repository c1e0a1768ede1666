(** Model of [tridiag_gen] and [getYD_gen] (src/tools.c:372-443) over an
    arbitrary field. *)
From Coq Require Import List Lia Bool Field Arith.
From Verif Require Import CBase.
Import ListNotations.

Section Tridiag.
  Variable F : Type.
  Variables (zero one : F) (add mul sub : F -> F -> F) (opp : F -> F) (div : F -> F -> F) (inv : F -> F).
  Hypothesis Fth : field_theory zero one add mul sub opp div inv (@eq F).
  Add Field Fld : Fth.
  Infix "+" := add. Infix "*" := mul. Infix "-" := sub. Infix "/" := div.
  Notation "0" := zero. Notation "1" := one.
  Notation "2" := (1 + 1). Notation "3" := (1 + 1 + 1).

  (** The test [fabs(b) < 1e-50]. *)
  Variable small : F -> bool.

  Definition set (m : nat -> F) (i : nat) (v : F) : nat -> F :=
    fun j => if (j =? i)%nat then v else m j.

  (** src/tools.c:428-436: the elimination loop, [n] iterations from [i]. *)
  Fixpoint td_forward (A B C : nat -> F) (n i : nat) (b : F) (Fm D : nat -> F)
    : outcome ((nat -> F) * (nat -> F)) :=
    match n with
    | O => Ok (Fm, D)
    | S n' =>
      let Fm := set Fm i (C (Nat.pred i) / b) in
      let b := B i - A i * Fm i in
      if small b then Exit
      else td_forward A B C n' (S i) b Fm (set D i ((D i - D (Nat.pred i) * A i) / b))
    end.
  (** src/tools.c:438-439: back substitution, i = n-1, ..., 0. *)
  Fixpoint td_back (Fm : nat -> F) (n : nat) (D : nat -> F) : nat -> F :=
    match n with
    | O => D
    | S i => td_back Fm i (set D i (D i - D (S i) * Fm (S i)))
    end.
  (** src/tools.c:413-443 [tridiag_gen]; the result overwrites [D]. *)
  Definition tridiag_gen (A B C D : nat -> F) (len : nat) : outcome (nat -> F) :=
    match len with
    | O => UB (* reads B[0] *)
    | S m =>
      let b := B O in
      if small b then Exit
      else do fd <- td_forward A B C m 1 b (fun _ => 0) (set D O (D O / b)) ;
           Ok (td_back (fst fd) m (snd fd))
    end.

  (** src/tools.c:372-406 [getYD_gen]: the coefficient rows and right hand
      side, then the solver. *)
  Definition h (X : nat -> F) (i : nat) : F := X (S i) - X i.
  Definition slope (X Y : nat -> F) (i : nat) : F := (Y (S i) - Y i) / (X (S i) - X i).
  Definition getYD_gen (X Y : nat -> F) (len : nat) : outcome (nat -> F) :=
    if (len <? 3)%nat then UB (* reads X[2], Y[2] *)
    else
    let last := Nat.pred len in
    (* rows 1..len-2 *)
    let A := fun i => h X i in
    let B := fun i => 2 * (h X (Nat.pred i) + h X i) in
    let C := fun i => h X (Nat.pred i) in
    let D := fun i => 3 * (slope X Y (Nat.pred i) * h X i + slope X Y i * h X (Nat.pred i)) in
    (* row 0 *)
    let h0 := h X 0 in let h1 := h X 1 in
    let r0 := slope X Y 0 in let r1 := slope X Y 1 in
    let B := set B 0 (h1 * (h0 + h1)) in
    let C := set C 0 ((h0 + h1) * (h0 + h1)) in
    let D := set D 0 (r0 * (3 * h0 * h1 + 2 * h1 * h1) + r1 * h0 * h0) in
    (* last row: h0, h1, r0, r1 are those of the last loop iteration *)
    let h0 := h X (Nat.pred (Nat.pred last)) in let h1 := h X (Nat.pred last) in
    let r0 := slope X Y (Nat.pred (Nat.pred last)) in let r1 := slope X Y (Nat.pred last) in
    let A := set A last ((h0 + h1) * (h0 + h1)) in
    let B := set B last (h0 * (h0 + h1)) in
    let D := set D last (r0 * h1 * h1 + r1 * (3 * h0 * h1 + 2 * h0 * h0)) in
    tridiag_gen A B C D len.

  (** ** Correctness *)
    Lemma set_same m i v : set m i v i = v.
    Proof. unfold set. now rewrite Nat.eqb_refl. Qed.
    Lemma set_other m i j v : i <> j -> set m i v j = m j.
    Proof. intros H. unfold set. destruct (Nat.eqb_spec j i); [congruence | reflexivity]. Qed.

    (** Back substitution: the entry [n] and above are final. *)
    Lemma td_back_high Fm : forall n D0 j, (n <= j)%nat -> td_back Fm n D0 j = D0 j.
    Proof.
      induction n as [|n IH]; intros D0 j H; [reflexivity|]. cbn [td_back].
      rewrite IH by lia. apply set_other. lia.
    Qed.
    Lemma td_back_rec Fm : forall n D0 i, (i < n)%nat ->
      td_back Fm n D0 i = D0 i - td_back Fm n D0 (S i) * Fm (S i).
    Proof.
      induction n as [|n IH]; intros D0 i H; [lia|]. cbn [td_back].
      destruct (Nat.eq_dec i n) as [-> | N].
      - rewrite !td_back_high by lia. rewrite set_same, set_other by lia. reflexivity.
      - rewrite IH by lia. rewrite set_other by lia. reflexivity.
    Qed.
  (** Elimination quantities as recurrences. *)
  Section Rec.
    Variables A B C D : nat -> F.
    Fixpoint piv (i : nat) : F :=
      match i with O => B O | S j => B (S j) - A (S j) * (C j / piv j) end.
    Fixpoint dd (i : nat) : F :=
      match i with O => D O / piv O | S j => (D (S j) - dd j * A (S j)) / piv (S j) end.
    Definition ff (i : nat) : F := C (Nat.pred i) / piv (Nat.pred i).

    Lemma td_forward_ok : forall n i Fm D0 r,
      (1 <= i)%nat ->
      (forall j, (1 <= j < i)%nat -> Fm j = ff j) ->
      (forall j, (j < i)%nat -> D0 j = dd j) ->
      (forall j, (i <= j)%nat -> D0 j = D j) ->
      td_forward A B C n i (piv (Nat.pred i)) Fm D0 = Ok r ->
      (forall j, (1 <= j < i + n)%nat -> fst r j = ff j) /\
      (forall j, (j < i + n)%nat -> snd r j = dd j) /\
      (forall j, (i <= j < i + n)%nat -> small (piv j) = false).
    Proof.
      induction n as [|n IH]; intros i Fm D0 r Hi HF Hd HD E; cbn [td_forward] in E.
      - injection E as <-. cbn [fst snd].
        split; [intros j Hj; apply HF; lia|]. split; [intros j Hj; apply Hd; lia | intros j Hj; lia].
      - cbv zeta in E. rewrite set_same in E.
        destruct i as [|k]; [lia|]. cbn [Nat.pred] in *.
        change (B (S k) - A (S k) * (C k / piv k)) with (piv (S k)) in E.
        destruct (small (piv (S k))) eqn:Sm; [discriminate|].
        apply IH in E; clear IH.
        + destruct E as (E1 & E2 & E3).
          split; [intros j Hj; apply E1; lia|]. split; [intros j Hj; apply E2; lia|].
          intros j Hj. destruct (Nat.eq_dec j (S k)) as [-> | N]; [exact Sm | apply E3; lia].
        + lia.
        + intros j Hj. destruct (Nat.eq_dec j (S k)) as [-> | N].
          * rewrite set_same. reflexivity.
          * rewrite set_other by lia. apply HF; lia.
        + intros j Hj. destruct (Nat.eq_dec j (S k)) as [-> | N].
          * rewrite set_same. cbn [dd]. rewrite (HD (S k)) by lia. rewrite (Hd k) by lia. reflexivity.
          * rewrite set_other by lia. apply Hd; lia.
        + intros j Hj. rewrite set_other by lia. apply HD; lia.
    Qed.

  End Rec.

  Hypothesis small_zero : small 0 = true.

  Lemma small_nz b : small b = false -> b <> 0.
  Proof. intros H ->. congruence. Qed.

  (** One equation of the system: out-of-range neighbours do not occur. *)
  Definition row_lhs (A B C x : nat -> F) (len i : nat) : F :=
    (if (i =? 0)%nat then 0 else A i * x (Nat.pred i)) + B i * x i
    + (if (S i =? len)%nat then 0 else C i * x (S i)).

  Lemma tridiag_solved A B C D len x :
    tridiag_gen A B C D len = Ok x ->
    (1 <= len)%nat /\
    (forall i, (i < len)%nat -> small (piv A B C i) = false) /\
    (forall i, (i < len)%nat -> x i = dd A B C D i - (if (S i =? len)%nat then 0 else x (S i) * ff A B C (S i))).
  Proof.
    destruct len as [|m]; [discriminate|]. cbn [tridiag_gen]. cbv zeta.
    destruct (small (B O)) eqn:S0; [discriminate|].
    destruct (td_forward A B C m 1 (B O) (fun _ => 0) (set D O (D O / B O))) as [r| |] eqn:E; try discriminate.
    cbn [obind]. intros H. injection H as <-.
    change (B O) with (piv A B C (Nat.pred 1)) in E.
    apply (td_forward_ok A B C D) in E.
    - destruct E as (E1 & E2 & E3).
      split; [lia|]. split.
      + intros i Hi. destruct i; [exact S0 | apply E3; lia].
      + intros i Hi. destruct (Nat.eqb_spec (S i) (S m)) as [Em | Nm].
        * assert (i = m) as -> by lia. rewrite td_back_high by lia. rewrite E2 by lia. ring.
        * rewrite td_back_rec by lia. rewrite E2 by lia. rewrite E1 by lia. reflexivity.
    - lia.
    - intros j Hj. lia.
    - intros j Hj. assert (j = O) as -> by lia. rewrite set_same. reflexivity.
    - intros j Hj. apply set_other. lia.
  Qed.

  Lemma tridiag_rows A B C D len x :
    tridiag_gen A B C D len = Ok x ->
    forall i, (i < len)%nat -> row_lhs A B C x len i = D i.
  Proof.
    intros E i Hi. destruct (tridiag_solved _ _ _ _ _ _ E) as (_ & Hs & Hx).
    unfold row_lhs.
    destruct i as [|k].
    - change (0 =? 0)%nat with true. cbv iota. pose proof (small_nz _ (Hs O Hi)) as N0. cbn [piv] in N0.
      rewrite (Hx O Hi). cbn [dd piv]. unfold ff. cbn [Nat.pred piv].
      destruct (Nat.eqb_spec 1 len); field; exact N0.
    - change (S k =? 0)%nat with false. cbv iota. cbn [Nat.pred].
      pose proof (small_nz _ (Hs k ltac:(lia))) as Nk.
      pose proof (small_nz _ (Hs (S k) Hi)) as Nk1.
      assert (Hk : x k = dd A B C D k - x (S k) * ff A B C (S k)).
      { rewrite (Hx k) at 1 by lia. destruct (Nat.eqb_spec (S k) len); [lia | reflexivity]. }
      rewrite Hk. unfold ff. cbn [Nat.pred].
      pose proof (Hx (S k) Hi) as Hxk.
      cbn [dd] in Hxk.
      set (P := piv A B C k) in *. set (Q := piv A B C (S k)) in *.
      assert (HQ : B (S k) = Q + A (S k) * (C k / P)) by (unfold Q; cbn [piv]; fold P; field; exact Nk).
      rewrite HQ.
      set (d := dd A B C D k) in *.
      destruct (Nat.eqb_spec (S (S k)) len).
      + rewrite Hxk. field. split; assumption.
      + rewrite Hxk. unfold ff. cbn [Nat.pred]. fold Q. field. split; assumption.
  Qed.

  (** The solution of the system is unique. *)
  Lemma tridiag_unique A B C D len x y :
    tridiag_gen A B C D len = Ok x ->
    (forall i, (i < len)%nat -> row_lhs A B C y len i = D i) ->
    forall i, (i < len)%nat -> y i = x i.
  Proof.
    intros E Hy. destruct (tridiag_solved _ _ _ _ _ _ E) as (_ & Hs & Hx).
    (* elimination: every solution satisfies the back-substitution equations *)
    assert (G : forall i, (i < len)%nat ->
       y i = dd A B C D i - (if (S i =? len)%nat then 0 else y (S i) * ff A B C (S i))).
    { induction i as [|k IH]; intros Hi.
      - pose proof (Hy O Hi) as R. unfold row_lhs in R. change (0 =? 0)%nat with true in R. cbv iota in R.
        pose proof (small_nz _ (Hs O Hi)) as N0. cbn [piv] in N0.
        cbn [dd piv]. rewrite <- R. unfold ff. cbn [Nat.pred piv].
        destruct (Nat.eqb_spec 1 len); field; exact N0.
      - pose proof (IH ltac:(lia)) as Hk.
        destruct (Nat.eqb_spec (S k) len); [lia|].
        pose proof (Hy (S k) Hi) as R. unfold row_lhs in R. change (S k =? 0)%nat with false in R. cbv iota in R. cbn [Nat.pred] in R.
        pose proof (small_nz _ (Hs k ltac:(lia))) as Nk.
        pose proof (small_nz _ (Hs (S k) Hi)) as Nk1.
        cbn [dd]. rewrite <- R, Hk. unfold ff. cbn [Nat.pred].
        set (P := piv A B C k) in *. set (Q := piv A B C (S k)) in *.
        assert (HQ : B (S k) = Q + A (S k) * (C k / P)) by (unfold Q; cbn [piv]; fold P; field; exact Nk).
        rewrite HQ. destruct (Nat.eqb_spec (S (S k)) len); field; split; assumption. }
    (* downward induction *)
    assert (K : forall n i, (i < len)%nat -> (len - i <= n)%nat -> y i = x i).
    { induction n as [|n IH]; intros i Hi Hn; [lia|].
      rewrite (G i Hi), (Hx i Hi). destruct (Nat.eqb_spec (S i) len); [reflexivity|].
      rewrite (IH (S i)) by lia. reflexivity. }
    intros i Hi. apply (K len i); lia.
  Qed.

  (** The solver exits exactly when a pivot is small. *)
  Lemma td_forward_exit A B C : forall n i Fm D0,
    (1 <= i)%nat ->
    (td_forward A B C n i (piv A B C (Nat.pred i)) Fm D0 = Exit <->
     exists j, (i <= j < i + n)%nat /\ small (piv A B C j) = true).
  Proof.
    induction n as [|n IH]; intros i Fm D0 Hi; cbn [td_forward].
    - split; [discriminate | intros (j & Hj & _); lia].
    - cbv zeta. rewrite set_same. destruct i as [|k]; [lia|]. cbn [Nat.pred].
      change (B (S k) - A (S k) * (C k / piv A B C k)) with (piv A B C (S k)).
      destruct (small (piv A B C (S k))) eqn:Sm.
      + split; [|reflexivity]. intros _. exists (S k). split; [lia | exact Sm].
      + rewrite (IH (S (S k))) by lia. split.
        * intros (j & Hj & Hs). exists j. split; [lia | exact Hs].
        * intros (j & Hj & Hs). destruct (Nat.eq_dec j (S k)) as [-> | N]; [congruence|].
          exists j. split; [lia | exact Hs].
  Qed.
  Lemma td_forward_not_ub A B C : forall n i b Fm D0, td_forward A B C n i b Fm D0 <> UB.
  Proof.
    induction n as [|n IH]; intros i b Fm D0; cbn [td_forward]; [discriminate|]. cbv zeta.
    match goal with |- (if ?b then _ else _) <> _ => destruct b end; [discriminate | apply IH].
  Qed.
  Lemma tridiag_exit A B C D len : (1 <= len)%nat ->
    (tridiag_gen A B C D len = Exit <-> exists j, (j < len)%nat /\ small (piv A B C j) = true) /\
    tridiag_gen A B C D len <> UB.
  Proof.
    destruct len as [|m]; [lia|]. intros _. cbn [tridiag_gen]. cbv zeta.
    destruct (small (B O)) eqn:S0.
    - split; [|discriminate]. split; [|reflexivity]. intros _. exists O. split; [lia | exact S0].
    - pose proof (td_forward_exit A B C m 1 (fun _ => 0) (set D O (D O / B O)) (le_n 1)) as X.
      pose proof (td_forward_not_ub A B C m 1 (B O) (fun _ => 0) (set D O (D O / B O))) as Y.
      cbn [Nat.pred piv] in X.
      destruct (td_forward A B C m 1 (B O) (fun _ => 0) (set D O (D O / B O))) eqn:E; cbn [obind].
      + split; [|discriminate]. split; [discriminate|]. intros (j & Hj & Hs).
        destruct j as [|j]; [cbn [piv] in Hs; congruence|].
        destruct X as [_ X]. exfalso. enough (@Ok ((nat -> F) * (nat -> F)) p = Exit) by discriminate.
        apply X. exists (S j). split; [lia | exact Hs].
      + congruence.
      + split; [|discriminate]. split; [|reflexivity]. intros _. destruct X as [X _].
        destruct (X eq_refl) as (j & Hj & Hs). exists j. split; [lia | exact Hs].
  Qed.

  (** ** The slopes define a C2 cubic spline with not-a-knot ends *)
  (** The cubic on interval [i] determined by end values and end slopes
      (spec, written in the local coordinate t = x - X[i]): *)
  Definition c2 (X Y d : nat -> F) (i : nat) : F :=
    (3 * slope X Y i - 2 * d i - d (S i)) / h X i.
  Definition c3 (X Y d : nat -> F) (i : nat) : F :=
    (d i + d (S i) - 2 * slope X Y i) / (h X i * h X i).
  Definition cubic (X Y d : nat -> F) (i : nat) (t : F) : F :=
    Y i + t * (d i + t * (c2 X Y d i + t * c3 X Y d i)).
  (** first, second, third derivative of [cubic] in t *)
  Definition cubic1 (X Y d : nat -> F) (i : nat) (t : F) : F :=
    d i + t * (2 * c2 X Y d i + 3 * t * c3 X Y d i).
  Definition cubic2 (X Y d : nat -> F) (i : nat) (t : F) : F :=
    2 * c2 X Y d i + (2 * 3) * t * c3 X Y d i.
  Definition cubic3 (X Y d : nat -> F) (i : nat) : F := (2 * 3) * c3 X Y d i.

  Lemma cubic_ends X Y d i : h X i <> 0 ->
    cubic X Y d i 0 = Y i /\ cubic X Y d i (h X i) = Y (S i) /\
    cubic1 X Y d i 0 = d i /\ cubic1 X Y d i (h X i) = d (S i).
  Proof.
    intros N. unfold cubic, cubic1, c2, c3, slope. fold (h X i).
    split; [ring|]. split; [field; exact N|]. split; [ring | field; exact N].
  Qed.

  Lemma getYD_interior X Y len d :
    (forall i, (S i < len)%nat -> h X i <> 0) ->
    getYD_gen X Y len = Ok d ->
    (3 <= len)%nat /\
    (forall i, (S (S i) < len)%nat -> cubic2 X Y d i (h X i) = cubic2 X Y d (S i) 0) /\
    (h X 0 + h X 1 <> 0 -> cubic3 X Y d 0 = cubic3 X Y d 1) /\
    (h X (len - 3) + h X (len - 2) <> 0 -> cubic3 X Y d (len - 3) = cubic3 X Y d (len - 2)).
  Proof.
    intros Hh E. unfold getYD_gen in E. cbv zeta in E.
    destruct (len <? 3)%nat eqn:L; [discriminate|]. apply Nat.ltb_ge in L.
    pose proof (tridiag_rows _ _ _ _ _ _ E) as R. clear E.
    assert (Int : forall i, (S (S i) < len)%nat ->
       h X (S i) * d i + 2 * (h X i + h X (S i)) * d (S i) + h X i * d (S (S i))
       = 3 * (slope X Y i * h X (S i) + slope X Y (S i) * h X i)).
    { intros i Hi. specialize (R (S i) ltac:(lia)). unfold row_lhs in R.
      change (S i =? 0)%nat with false in R. cbv iota in R. cbn [Nat.pred] in R.
      rewrite !(set_other _ (Nat.pred len) (S i)) in R by lia.
      rewrite !(set_other _ 0 (S i)) in R by lia. cbn [Nat.pred] in R.
      destruct (Nat.eqb_spec (S (S i)) len); [lia|]. exact R. }
    split; [exact L|]. split; [|split].
    - intros i Hi. pose proof (Hh i ltac:(lia)) as N0. pose proof (Hh (S i) ltac:(lia)) as N1.
      specialize (Int i Hi). unfold cubic2, c2, c3.
      set (r0 := slope X Y i) in *. set (r1 := slope X Y (S i)) in *.
      set (h0 := h X i) in *. set (h1 := h X (S i)) in *.
      set (d0 := d i) in *. set (d1 := d (S i)) in *. set (d2 := d (S (S i))) in *.
      assert (Hd2 : d2 = (3 * (r0 * h1 + r1 * h0) - h1 * d0 - 2 * (h0 + h1) * d1) / h0).
      { rewrite <- Int. field. exact N0. }
      rewrite Hd2. field. split; assumption.
    - intros Ns. specialize (Int 0%nat ltac:(lia)).
      pose proof (Hh 0%nat ltac:(lia)) as N0. pose proof (Hh 1%nat ltac:(lia)) as N1.
      specialize (R 0%nat ltac:(lia)). unfold row_lhs in R. change (0 =? 0)%nat with true in R. cbv iota in R.
      rewrite !(set_other _ (Nat.pred len) 0) in R by lia.
      rewrite !set_same in R. destruct (Nat.eqb_spec 1 len); [lia|].
      unfold cubic3, c3.
      set (r0 := slope X Y 0) in *. set (r1 := slope X Y 1) in *.
      set (h0 := h X 0) in *. set (h1 := h X 1) in *.
      set (d0 := d 0%nat) in *. set (d1 := d 1%nat) in *. set (d2 := d 2%nat) in *.
      assert (Hd2 : d2 = (3 * (r0 * h1 + r1 * h0) - h1 * d0 - 2 * (h0 + h1) * d1) / h0).
      { rewrite <- Int. field. exact N0. }
      assert (Hd0 : d0 = (r0 * (3 * h0 * h1 + 2 * h1 * h1) + r1 * h0 * h0 - (h0 + h1) * (h0 + h1) * d1) / (h1 * (h0 + h1))).
      { rewrite <- R. field. split; assumption. }
      rewrite Hd2, Hd0. field. repeat split; assumption.
    - intros Ns. specialize (Int (len - 3)%nat ltac:(lia)).
      pose proof (Hh (len - 3)%nat ltac:(lia)) as N0. pose proof (Hh (len - 2)%nat ltac:(lia)) as N1.
      specialize (R (Nat.pred len) ltac:(lia)). unfold row_lhs in R.
      rewrite !set_same in R.
      replace (Nat.pred len =? 0)%nat with false in R by (symmetry; apply Nat.eqb_neq; lia).
      replace (S (Nat.pred len) =? len)%nat with true in R by (symmetry; apply Nat.eqb_eq; lia).
      replace (Nat.pred (Nat.pred (Nat.pred len))) with (len - 3)%nat in R by lia.
      replace (Nat.pred (Nat.pred len)) with (len - 2)%nat in R by lia.
      replace (S (len - 3)) with (len - 2)%nat in Int by lia.
      replace (S (len - 2)) with (len - 1)%nat in Int by lia.
      replace (Nat.pred len) with (len - 1)%nat in R by lia.
      unfold cubic3, c3.
      replace (S (len - 3)) with (len - 2)%nat by lia.
      replace (S (len - 2)) with (len - 1)%nat by lia.
      set (r0 := slope X Y (len - 3)) in *. set (r1 := slope X Y (len - 2)) in *.
      set (h0 := h X (len - 3)) in *. set (h1 := h X (len - 2)) in *.
      set (d0 := d (len - 3)%nat) in *. set (d1 := d (len - 2)%nat) in *. set (d2 := d (len - 1)%nat) in *.
      assert (Hd0 : d0 = (3 * (r0 * h1 + r1 * h0) - h0 * d2 - 2 * (h0 + h1) * d1) / h1).
      { rewrite <- Int. field. exact N1. }
      assert (Hd2 : d2 = (r0 * h1 * h1 + r1 * (3 * h0 * h1 + 2 * h0 * h0) - (h0 + h1) * (h0 + h1) * d1) / (h0 * (h0 + h1))).
      { rewrite <- R. field. split; assumption. }
      rewrite Hd0, Hd2. field. repeat split; assumption.
  Qed.
End Tridiag.
