(** C20, continued: the spline slopes exist for every increasing table of four or more nodes, are exact for cubics, and do
    not exist for three nodes. Real numbers; the threshold is that of src/tools.c:424, 432. *)
From Coq Require Import Reals Lra Lia ZArith List Bool RealField.
From Verif Require Import CBase Tridiag.
Local Open Scope R_scope.

(** fabs(b) < 1e-50 *)
Definition tiny (b : R) : bool := if Rlt_dec (Rabs b) (/ 10 ^ 50) then true else false.
Notation ydR := (getYD_gen R 0 1 Rplus Rmult Rminus Rdiv tiny).
Notation hR := (h R Rminus).
Notation pivR := (piv R Rmult Rminus Rdiv).
Notation setR := (set R).
Lemma RF : field_theory 0 1 Rplus Rmult Rminus Ropp Rdiv Rinv (@eq R).
Proof. exact Rfield. Qed.
Lemma tiny0 : tiny 0 = true.
Proof. unfold tiny. rewrite Rabs_R0. destruct (Rlt_dec 0 (/ 10 ^ 50)) as [|N]; [reflexivity|]. exfalso. apply N. apply Rinv_0_lt_compat, pow_lt. lra. Qed.
Lemma tiny_false b : / 10 ^ 50 <= b -> tiny b = false.
Proof.
  intros H. unfold tiny. destruct (Rlt_dec _ _) as [L|]; [|reflexivity]. assert (0 < / 10 ^ 50) by (apply Rinv_0_lt_compat, pow_lt; lra).
  rewrite Rabs_pos_eq in L by lra. lra.
Qed.
Lemma set_eq m i v : setR m i v i = v. Proof. unfold set. now rewrite Nat.eqb_refl. Qed.
Lemma set_ne m i j v : i <> j -> setR m i v j = m j.
Proof. intros N. unfold set. destruct (Nat.eqb_spec j i); [congruence|reflexivity]. Qed.

Section System.
  Variables (X : nat -> R) (len : nat).
  Notation hh := (hR X).
  Let last := Nat.pred len.
  Let A := setR (fun i => hh i) last ((hh (Nat.pred (Nat.pred last)) + hh (Nat.pred last)) * (hh (Nat.pred (Nat.pred last)) + hh (Nat.pred last))).
  Let B := setR (setR (fun i => (1 + 1) * (hh (Nat.pred i) + hh i)) 0 (hh 1%nat * (hh 0%nat + hh 1%nat))) last (hh (Nat.pred (Nat.pred last)) * (hh (Nat.pred (Nat.pred last)) + hh (Nat.pred last))).
  Let C := setR (fun i => hh (Nat.pred i)) 0 ((hh 0%nat + hh 1%nat) * (hh 0%nat + hh 1%nat)).
  Hypothesis L3 : (3 <= len)%nat.
  Hypothesis Hpos : forall i, (S i < len)%nat -> 0 < hh i.
  Lemma piv_0 : pivR A B C 0 = hh 1%nat * (hh 0%nat + hh 1%nat).
  Proof. cbn [piv]. unfold B. rewrite set_ne by (unfold last; lia). apply set_eq. Qed.
  Lemma piv_1 : pivR A B C 1 = hh 0%nat + hh 1%nat.
  Proof.
    cbn [piv]. rewrite ?piv_0. unfold A, B, C. rewrite !(set_ne _ last 1) by (unfold last; lia). rewrite (set_ne _ 0 1) by lia. rewrite set_eq. cbn [Nat.pred].
    pose proof (Hpos 0 ltac:(lia)). pose proof (Hpos 1 ltac:(lia)).
    change (B 0%nat) with (pivR A B C 0) || idtac. rewrite ?set_ne by (unfold last; lia). rewrite ?set_eq. field. lra.
  Qed.
  Lemma piv_mid i : (2 <= i)%nat -> (S i < len)%nat -> 2 * hh (Nat.pred i) + hh i <= pivR A B C i.
  Proof.
    intros H2. induction i as [|i IH]; [lia|]. intros Hi. cbn [piv]. unfold A at 1, B at 1, C at 1. rewrite !(set_ne _ last (S i)) by (unfold last; lia). rewrite (set_ne _ 0 (S i)) by lia.
    rewrite (set_ne _ 0 i) by lia. cbn [Nat.pred]. pose proof (Hpos i ltac:(lia)). pose proof (Hpos (S i) ltac:(lia)). pose proof (Hpos (Nat.pred i) ltac:(lia)).
    assert (P : hh (Nat.pred i) + hh i <= pivR A B C i).
    { destruct (Nat.eq_dec i 1) as [->|]; [rewrite piv_1; cbn [Nat.pred]; lra|]. specialize (IH ltac:(lia) ltac:(lia)). lra. }
    assert (Q : hh (Nat.pred i) / pivR A B C i <= 1) by (apply (Rmult_le_reg_r (pivR A B C i)); [lra|]; unfold Rdiv; rewrite Rmult_assoc, Rinv_l by lra; lra).
    assert (hh (S i) * (hh (Nat.pred i) / pivR A B C i) <= hh (S i) * 1) by (apply Rmult_le_compat_l; lra). lra.
  Qed.
  Lemma piv_last : pivR A B C last = (hh (Nat.pred (Nat.pred last)) + hh (Nat.pred last)) *
    (hh (Nat.pred (Nat.pred last)) - (hh (Nat.pred (Nat.pred last)) + hh (Nat.pred last)) * (hh (Nat.pred (Nat.pred last)) / pivR A B C (Nat.pred last))).
  Proof.
    assert (EL : last = S (Nat.pred last)) by (unfold last; lia). rewrite EL at 1. cbn [piv]. rewrite <- EL. unfold A at 1, B at 1, C at 1. rewrite !set_eq.
    rewrite (set_ne _ 0 (Nat.pred last)) by (unfold last; lia). unfold Rdiv. ring.
  Qed.
  Lemma piv_last3 : len = 3%nat -> pivR A B C 2 = 0.
  Proof.
    intros E. assert (EL : last = 2%nat) by (unfold last; lia). pose proof piv_last as P. rewrite EL in P. cbn [Nat.pred] in P. rewrite P, piv_1.
    pose proof (Hpos 0 ltac:(lia)). pose proof (Hpos 1 ltac:(lia)). field. lra.
  Qed.
  Lemma piv_last_big : (4 <= len)%nat -> let a := hh (Nat.pred (Nat.pred last)) in a * a / 2 <= pivR A B C last.
  Proof.
    intros L4 a. rewrite piv_last. fold a. set (b := hh (Nat.pred last)). set (p := pivR A B C (Nat.pred last)).
    assert (Pa : 0 < a) by (apply Hpos; unfold last; lia). assert (Pb : 0 < b) by (apply Hpos; unfold last; lia).
    assert (Pp : 2 * a + b <= p) by (apply piv_mid; unfold last; lia).
    assert (Q : a / p <= a / (2 * a + b)) by (unfold Rdiv; apply Rmult_le_compat_l; [lra|]; apply Rinv_le_contravar; lra).
    apply Rle_trans with ((a + b) * (a - (a + b) * (a / (2 * a + b)))).
    - replace ((a + b) * (a - (a + b) * (a / (2 * a + b)))) with (a * a / 2 + a * a * b / (2 * (2 * a + b))) by (field; lra).
      assert (0 <= a * a * b / (2 * (2 * a + b))); [|lra]. unfold Rdiv. apply Rmult_le_pos; [nra|]. left. apply Rinv_0_lt_compat. lra.
    - apply Rmult_le_compat_l; [lra|]. assert ((a + b) * (a / p) <= (a + b) * (a / (2 * a + b))) by (apply Rmult_le_compat_l; lra). lra.
  Qed.
End System.

(** Four or more nodes at least 1e-24 apart: the slopes are found, no pivot vanishes. *)
Theorem C20_runs : forall X Y len, (4 <= len)%nat -> (forall i, (S i < len)%nat -> / 10 ^ 24 <= X (S i) - X i) -> exists d, ydR X Y len = Ok d.
Proof.
  intros X Y len L H. set (e := / 10 ^ 24) in *. assert (He : 0 < e) by (apply Rinv_0_lt_compat, pow_lt; lra).
  assert (E2 : / 10 ^ 50 <= e * e / 2).
  { unfold e. replace (/ 10 ^ 24 * / 10 ^ 24 / 2) with (/ (10 ^ 24 * 10 ^ 24 * 2)) by (field; apply pow_nonzero; lra). apply Rinv_le_contravar.
    - repeat apply Rmult_lt_0_compat; try lra; apply pow_lt; lra.
    - replace 50%nat with (24 + (24 + 2))%nat by reflexivity. rewrite !pow_add. rewrite Rmult_assoc. repeat (apply Rmult_le_compat_l; [apply pow_le; lra|]). lra. }
  assert (E1 : / 10 ^ 50 <= e).
  { apply Rle_trans with (1 := E2). assert (e <= 1) by (unfold e; rewrite <- Rinv_1; apply Rinv_le_contravar; [lra|]; apply pow_R1_Rle; lra). nra. }
  assert (Hp : forall i, (S i < len)%nat -> 0 < hR X i) by (intros i Hi; unfold h; specialize (H i Hi); lra).
  unfold getYD_gen. replace (len <? 3)%nat with false by (symmetry; apply Nat.ltb_ge; lia). cbv zeta.
  match goal with |- exists d, tridiag_gen _ _ _ _ _ _ ?A ?B ?C ?D _ = _ => destruct (tridiag_exit R 0 Rmult Rminus Rdiv tiny tiny0 A B C D len ltac:(lia)) as [Q1 Q2];
    destruct (tridiag_gen R 0 Rmult Rminus Rdiv tiny A B C D len) as [d| |]; [eauto|contradiction|]; exfalso; destruct Q1 as [Q1 _]; destruct (Q1 eq_refl) as (j & Hj & T) end.
  cut (tiny (pivR (setR (fun i => hR X i) (Nat.pred len) ((hR X (Nat.pred (Nat.pred (Nat.pred len))) + hR X (Nat.pred (Nat.pred len))) * (hR X (Nat.pred (Nat.pred (Nat.pred len))) + hR X (Nat.pred (Nat.pred len)))))
     (setR (setR (fun i => (1 + 1) * (hR X (Nat.pred i) + hR X i)) 0 (hR X 1%nat * (hR X 0%nat + hR X 1%nat))) (Nat.pred len) (hR X (Nat.pred (Nat.pred (Nat.pred len))) * (hR X (Nat.pred (Nat.pred (Nat.pred len))) + hR X (Nat.pred (Nat.pred len)))))
     (setR (fun i => hR X (Nat.pred i)) 0 ((hR X 0%nat + hR X 1%nat) * (hR X 0%nat + hR X 1%nat))) j) = false); [intros F; rewrite T in F; discriminate F|].
  clear T Q1 Q2. apply tiny_false. destruct (Nat.eq_dec j (Nat.pred len)) as [->|Nl].
  - eapply Rle_trans; [|apply (piv_last_big X len ltac:(lia) Hp L)]. cbv zeta. eapply Rle_trans; [exact E2|].
    assert (e <= hR X (Nat.pred (Nat.pred (Nat.pred len)))) by (unfold h; apply H; lia).
    assert (e * e <= hR X (Nat.pred (Nat.pred (Nat.pred len))) * hR X (Nat.pred (Nat.pred (Nat.pred len)))) by (apply Rmult_le_compat; lra). lra.
  - destruct j as [|[|j]].
    + rewrite piv_0 by first [lia | exact Hp]. assert (e <= hR X 0%nat) by (unfold h; apply H; lia). assert (e <= hR X 1%nat) by (unfold h; apply H; lia).
      assert (e * e <= hR X 1%nat * (hR X 0%nat + hR X 1%nat)) by (apply Rmult_le_compat; lra). assert (0 < e * e) by (apply Rmult_lt_0_compat; lra). lra.
    + rewrite (piv_1 X len ltac:(lia) Hp). assert (e <= hR X 0%nat) by (unfold h; apply H; lia). assert (e <= hR X 1%nat) by (unfold h; apply H; lia). lra.
    + eapply Rle_trans; [|apply (piv_mid X len ltac:(lia) Hp (S (S j))); lia]. cbn [Nat.pred].
      assert (e <= hR X (S j)) by (unfold h; apply H; lia). assert (e <= hR X (S (S j))) by (unfold h; apply H; lia). lra.
Qed.
Print Assumptions C20_runs.

(** Three nodes: both ends ask for the same condition, the system is singular and the program always ends with an error. *)
Theorem C20_three_nodes : forall X Y, X 0%nat < X 1%nat -> X 1%nat < X 2%nat -> ydR X Y 3 = Exit.
Proof.
  intros X Y H0 H1. assert (Hp : forall i, (S i < 3)%nat -> 0 < hR X i) by (intros [|[|i]] Hi; unfold h; lra || lia).
  unfold getYD_gen. cbn [Nat.ltb Nat.leb]. cbv zeta.
  match goal with |- tridiag_gen _ _ _ _ _ _ ?A ?B ?C ?D _ = _ => apply (proj1 (tridiag_exit R 0 Rmult Rminus Rdiv tiny tiny0 A B C D 3 ltac:(lia))) end.
  exists 2%nat. split; [lia|]. pose proof (piv_last3 X 3 ltac:(lia) Hp eq_refl) as P. cbn [Nat.pred] in P |- *. rewrite P. apply tiny0.
Qed.
Print Assumptions C20_three_nodes.

(** Values of a cubic polynomial: the slopes are its derivative and every piece is the polynomial itself. *)
Theorem C20_cubics : forall X Y len d a b c e, (forall i, (S i < len)%nat -> X i < X (S i)) ->
  (forall i, (i < len)%nat -> Y i = a + b * X i + c * X i ^ 2 + e * X i ^ 3) -> ydR X Y len = Ok d ->
  (forall i, (i < len)%nat -> d i = b + 2 * c * X i + 3 * e * X i ^ 2) /\
  (forall i t, (S i < len)%nat -> cubic R 1 Rplus Rmult Rminus Rdiv X Y d i t = a + b * (X i + t) + c * (X i + t) ^ 2 + e * (X i + t) ^ 3).
Proof.
  intros X Y len d a b c e HX HY E. set (g := fun i => b + 2 * c * X i + 3 * e * X i ^ 2).
  assert (L : (3 <= len)%nat) by (unfold getYD_gen in E; destruct (Nat.ltb_spec len 3); [discriminate E|assumption]).
  assert (SL : forall i, (S i < len)%nat -> slope R Rminus Rdiv X Y i = b + c * (X i + X (S i)) + e * (X i ^ 2 + X i * X (S i) + X (S i) ^ 2)).
  { intros i Hi. unfold slope. rewrite !HY by lia. pose proof (HX i Hi). field. lra. }
  assert (D : forall i, (i < len)%nat -> d i = g i).
  { unfold getYD_gen in E. replace (len <? 3)%nat with false in E by (symmetry; apply Nat.ltb_ge; lia). cbv zeta in E.
    intros i Hi. symmetry. revert i Hi. apply (tridiag_unique R 0 1 Rplus Rmult Rminus Ropp Rdiv Rinv RF tiny tiny0 _ _ _ _ _ _ g E).
    intros i Hi. unfold row_lhs. destruct (Nat.eq_dec i (Nat.pred len)) as [->|Nl].
    - rewrite !set_eq. replace (Nat.pred len =? 0)%nat with false by (symmetry; apply Nat.eqb_neq; lia). replace (S (Nat.pred len) =? len)%nat with true by (symmetry; apply Nat.eqb_eq; lia).
      destruct len as [|[|[|m]]]; try lia. cbn [Nat.pred]. rewrite !SL by lia. unfold g, h. ring.
    - rewrite !(set_ne _ (Nat.pred len) i) by lia. destruct (Nat.eqb_spec (S i) len); [lia|]. destruct i as [|i].
      + rewrite !set_eq. cbn [Nat.eqb]. rewrite !SL by lia. unfold g, h. ring.
      + rewrite !(set_ne _ 0 (S i)) by lia. cbn [Nat.eqb Nat.pred]. rewrite !SL by lia. unfold g, h. ring. }
  split; [exact D|]. intros i t Hi. unfold cubic, c2, c3. rewrite !D by lia. rewrite SL by lia. rewrite HY by lia. unfold g, h. pose proof (HX i Hi). field. lra.
Qed.
Print Assumptions C20_cubics.

(** five nodes 0, 1, 2, 3, 4 and the values of x^3 meet the hypotheses *)
Example C20_runs_case : exists d, ydR INR (fun i => INR i ^ 3) 5 = Ok d /\ d 3%nat = 27.
Proof.
  destruct (C20_runs INR (fun i => INR i ^ 3) 5) as (d & E); [lia| |].
  - intros i _. rewrite S_INR. replace (INR i + 1 - INR i) with 1 by ring. rewrite <- Rinv_1. apply Rinv_le_contravar; [lra|]. apply pow_R1_Rle. lra.
  - exists d. split; [exact E|]. destruct (C20_cubics INR (fun i => INR i ^ 3) 5 d 0 0 0 1) as [D _]; [intros; rewrite S_INR; lra|intros; ring|exact E|].
    rewrite D by lia. cbn. ring.
Qed.
