(* Legendre polynomials: derivatives, and the normalised recursion of the code. *)

From Coq Require Import Reals List ZArith Lia Lra Arith.
From Coquelicot Require Import Coquelicot.
From Verif Require Import CBase SoapSpec Soap OfGrad.
Open Scope R_scope.

(** (2m-1)!! *)
Fixpoint dfac (m : nat) : R := match m with O => 1 | S k => (2 * INR k + 1) * dfac k end.
(** Column m: (q_{m+d,m}, q_{m+d-1,m}). *)
Fixpoint col (m d : nat) (x : R) : R * R :=
  match d with
  | O => (dfac m, 0)
  | S e => let '(a, a') := col m e x in
           (((2 * INR m + 2 * INR e + 1) * x * a - (2 * INR m + INR e) * a') / INR (S e), a)
  end.
Definition qa m d x := fst (col m d x).
Definition qb m d x := snd (col m d x).

Lemma qa_0 m x : qa m 0 x = dfac m. Proof. reflexivity. Qed.
Lemma qb_0 m x : qb m 0 x = 0. Proof. reflexivity. Qed.
Lemma qb_S m d x : qb m (S d) x = qa m d x.
Proof. unfold qb, qa. cbn [col]. destruct (col m d x). reflexivity. Qed.
Lemma qa_S m d x : INR (S d) * qa m (S d) x = (2 * INR m + 2 * INR d + 1) * x * qa m d x - (2 * INR m + INR d) * qb m d x.
Proof. unfold qb, qa. cbn [col]. destruct (col m d x) as [a a']. cbn [fst snd]. field. apply not_0_INR. lia. Qed.

Lemma col_ST m x d :
  INR (S d) * qa m (S d) x = x * qa (S m) d x - qb (S m) d x /\
  qa (S m) d x = x * qb (S m) d x + (2 * INR m + INR d + 1) * qa m d x.
Proof.
  induction d as [|d [IS IT]].
  - rewrite qa_S, !qa_0, !qb_0. cbn [dfac INR]. split; ring.
  - assert (HT : qa (S m) (S d) x = x * qb (S m) (S d) x + (2 * INR m + INR (S d) + 1) * qa m (S d) x).
    { apply (Rmult_eq_reg_l (INR (S d))); [|apply not_0_INR; lia].
      rewrite qa_S, qb_S. rewrite S_INR in *. rewrite S_INR in *.
      transitivity (x * ((INR d + 1) * qa (S m) d x) + (2 * INR m + (INR d + 1) + 1) * ((INR d + 1) * qa m (S d) x)); [|ring].
      rewrite IS. ring. }
    split; [|exact HT].
    rewrite qa_S, HT, !qb_S. rewrite !S_INR in *. 
    transitivity ((2 * INR m + 2 * (INR d + 1) + 1) * x * qa m (S d) x - ((2 * INR m + INR d + 1) * qa m d x)); [ring|].
    replace ((2 * INR m + INR d + 1) * qa m d x) with (qa (S m) d x - x * qb (S m) d x) by (rewrite IT at 1; ring).
    replace (qb (S m) d x) with (x * qa (S m) d x - (INR d + 1) * qa m (S d) x) by (rewrite IS; ring). ring.
Qed.

Lemma qa_derive m (x : R) : forall d, is_derive (fun t => qa m d t) x (qb (S m) d x) /\ is_derive (fun t => qa m (S d) t) x (qa (S m) d x).
Proof.
  assert (K : forall d t, qa m (S d) t = / INR (S d) * ((2 * INR m + 2 * INR d + 1) * (t * qa m d t) - (2 * INR m + INR d) * qb m d t)).
  { intros d t. apply (Rmult_eq_reg_l (INR (S d))); [|apply not_0_INR; lia]. rewrite qa_S, <- Rmult_assoc, Rinv_r by (apply not_0_INR; lia). ring. }
  assert (D : forall d u v, is_derive (fun t => qa m d t) x u -> is_derive (fun t => qb m d t) x v ->
     is_derive (fun t => qa m (S d) t) x (/ INR (S d) * ((2 * INR m + 2 * INR d + 1) * (qa m d x + x * u) - (2 * INR m + INR d) * v))).
  { intros d u v Hu Hv. apply (is_derive_ext (fun t => / INR (S d) * ((2 * INR m + 2 * INR d + 1) * (t * qa m d t) - (2 * INR m + INR d) * qb m d t))); [intros; now rewrite K|].
    apply (is_derive_scal (fun t => (2 * INR m + 2 * INR d + 1) * (t * qa m d t) - (2 * INR m + INR d) * qb m d t)).
    apply (is_derive_minus (fun t => (2 * INR m + 2 * INR d + 1) * (t * qa m d t)) (fun t => (2 * INR m + INR d) * qb m d t)).
    - apply (is_derive_scal (fun t => t * qa m d t)). eapply der_eq; [apply (mul_derive (fun t => t) (fun t => qa m d t)); [apply (@is_derive_id R_AbsRing)|exact Hu]|].
      change (@one R_AbsRing) with 1. ring.
    - apply (is_derive_scal (fun t => qb m d t)). exact Hv. }
  induction d as [|d [I1 I2]].
  - assert (H0 : is_derive (fun t => qa m 0 t) x 0) by (apply (is_derive_ext (fun _ => dfac m)); [reflexivity|apply const_derive]).
    split; [rewrite qb_0; exact H0|].
    eapply der_eq; [apply (D 0%nat 0 0 H0); apply (is_derive_ext (fun _ => 0)); [reflexivity|apply const_derive]|].
    rewrite !qa_0. cbn [INR dfac]. field.
  - split; [rewrite qb_S; exact I2|].
    eapply der_eq; [apply (D (S d) _ (qb (S m) d x) I2)|].
    + apply (is_derive_ext (fun t => qa m d t)); [intros; now rewrite qb_S|exact I1].
    + destruct (col_ST m x d) as [IS IT]. destruct (col_ST m x (S d)) as [_ IT'].
      rewrite IT', qb_S.
      replace (qb (S m) d x) with (x * qa (S m) d x - INR (S d) * qa m (S d) x) by (rewrite IS; ring).
      rewrite !S_INR. field. pose proof (pos_INR d). lra.
Qed.

(** q_{l,m}, zero for l < m. *)
Definition ql (l m : nat) (x : R) : R := if (m <=? l)%nat then qa m (l - m) x else 0.
Lemma ql_derive l m x : is_derive (fun t => ql l m t) x (ql l (S m) x).
Proof.
  unfold ql. destruct (Nat.leb_spec m l) as [H|H].
  - destruct (qa_derive m x (l - m - 1)) as [_ H2]. destruct (Nat.leb_spec (S m) l) as [H'|H'].
    + replace (S (l - m - 1)) with (l - m)%nat in H2 by lia. replace (l - S m)%nat with (l - m - 1)%nat by lia. exact H2.
    + replace (l - m)%nat with 0%nat by lia. destruct (qa_derive m x 0) as [H1 _]. exact H1.
  - destruct (Nat.leb_spec (S m) l); [lia|]. apply const_derive.
Qed.
Lemma leg_col l x : leg2 l x = col 0 l x.
Proof.
  induction l as [|l IH]; [reflexivity|]. cbn [leg2 col]. rewrite IH. destruct (col 0 l x) as [a b].
  f_equal. f_equal. change (INR 0) with 0. ring.
Qed.
Lemma ql_legendre l x : legendre l x = ql l 0 x.
Proof. unfold legendre, ql, qa. rewrite leg_col. cbn [Nat.leb]. now rewrite Nat.sub_0_r. Qed.
Lemma ql_derive_n l m : forall x, Derive_n (legendre l) m x = ql l m x.
Proof.
  induction m as [|m IH]; intros x; [apply ql_legendre|]. cbn [Derive_n].
  rewrite (Derive_ext _ (fun t => ql l m t)) by exact IH. apply is_derive_unique. apply ql_derive.
Qed.

(** The equation of Legendre, differentiated: raising and lowering. *)
Lemma ql_lower l k x : (1 <= k <= l)%nat ->
  INR ((l + k) * (l - k + 1)) * ql l (k - 1) x = 2 * INR k * x * ql l k x - (1 - x * x) * ql l (S k) x.
Proof.
  intros H. destruct k as [|k]; [lia|]. replace (S k - 1)%nat with k by lia.
  remember (l - S k)%nat as d eqn:Ed. assert (El : l = (S k + d)%nat) by lia. subst l. clear Ed H.
  unfold ql. replace (k <=? S k + d)%nat with true by (symmetry; apply Nat.leb_le; lia).
  replace (S k <=? S k + d)%nat with true by (symmetry; apply Nat.leb_le; lia).
  replace (S k + d - k)%nat with (S d) by lia. replace (S k + d - S k)%nat with d by lia.
  replace (d + 1)%nat with (S d) by lia.
  destruct (col_ST k x d) as [S1 _].
  (* q_{l-1,k+1} = qb (S k) d *)
  assert (K : INR (2 * S k + d) * qb (S k) d x = (1 - x * x) * (if (S (S k) <=? S k + d)%nat then qa (S (S k)) (S k + d - S (S k)) x else 0) + INR d * x * qa (S k) d x).
  { destruct d as [|d].
    - rewrite qb_0. replace (S (S k) <=? S k + 0)%nat with false by (symmetry; apply Nat.leb_gt; lia). cbn [INR]. ring.
    - replace (S (S k) <=? S k + S d)%nat with true by (symmetry; apply Nat.leb_le; lia). replace (S k + S d - S (S k))%nat with d by lia.
      rewrite qb_S. destruct (col_ST (S k) x d) as [S2 T2].
      replace (INR (2 * S k + S d)) with (2 * INR (S k) + INR d + 1) by (rewrite plus_INR, mult_INR, !S_INR; cbn [INR]; ring).
      replace ((2 * INR (S k) + INR d + 1) * qa (S k) d x) with (qa (S (S k)) d x - x * qb (S (S k)) d x) by (rewrite T2 at 1; ring).
      replace (qb (S (S k)) d x) with (x * qa (S (S k)) d x - INR (S d) * qa (S k) (S d) x) by (rewrite S2; ring). ring. }
  replace (S k + d + S k)%nat with (2 * S k + d)%nat by lia.
  rewrite mult_INR. rewrite Rmult_assoc, S1. rewrite Rmult_minus_distr_l, K.
  rewrite plus_INR, mult_INR. change (INR 2) with 2. ring.
Qed.

(** ** Normalisation *)
Definition wnorm (m d : nat) : R := (2 * INR (m + d) + 1) / (4 * PI) * (INR (fact d) / INR (fact (2 * m + d))).
Lemma ynorm_w m d : ynorm (m + d) m = (-1) ^ m * sqrt (wnorm m d).
Proof. unfold ynorm, wnorm. replace (m + d - m)%nat with d by lia. replace (m + d + m)%nat with (2 * m + d)%nat by lia. reflexivity. Qed.
Lemma wnorm_pos m d : 0 < wnorm m d.
Proof.
  unfold wnorm. pose proof PI_RGT_0. pose proof (pos_INR (m + d)).
  apply Rmult_lt_0_compat; apply Rdiv_lt_0_compat; try lra; apply INR_fact_lt_0.
Qed.
Ltac inr := repeat rewrite ?plus_INR, ?mult_INR, ?S_INR; change (INR 0) with 0.
Lemma fact_S n : INR (fact (S n)) = (INR n + 1) * INR (fact n).
Proof. change (fact (S n)) with ((S n) * fact n)%nat. rewrite mult_INR, S_INR. ring. Qed.

Lemma sqrt_eq a b : 0 <= b -> 0 <= a -> a = b * b -> sqrt a = b.
Proof. intros Hb Ha ->. apply sqrt_square. exact Hb. Qed.
Lemma sqrt_scale a b c : 0 <= c -> 0 <= b -> a = b * (c * c) -> sqrt a = sqrt b * c.
Proof. intros Hc Hb ->. rewrite sqrt_mult by nra. now rewrite sqrt_square. Qed.

(** sqrt(A^2) sqrt(w_{l-1}) *)
Lemma A_norm m d : Acoef (m + d + 2) m * sqrt (wnorm m (S d)) = sqrt (wnorm m (S (S d))) * ((2 * INR m + 2 * INR d + 3) / (INR d + 2)).
Proof.
  pose proof (pos_INR m). pose proof (pos_INR d). pose proof PI_RGT_0.
  unfold Acoef. rewrite <- sqrt_mult_alt.
  2:{ rewrite !plus_INR. cbn [INR]. apply Rlt_le, Rdiv_lt_0_compat; nra. }
  apply sqrt_scale; [apply Rlt_le, Rdiv_lt_0_compat; lra|apply Rlt_le, wnorm_pos|].
  unfold wnorm. replace (2 * m + S (S d))%nat with (S (S (2 * m + d))) by lia. replace (2 * m + S d)%nat with (S (2 * m + d)) by lia.
  rewrite !fact_S. inr.
  pose proof (INR_fact_lt_0 d). pose proof (INR_fact_lt_0 (2 * m + d)).
  field. repeat split; try nra; try lra.
Qed.
Lemma AB_norm m d : Acoef (m + d + 2) m * (Bcoef (m + d + 2) m * sqrt (wnorm m d)) = - (sqrt (wnorm m (S (S d))) * ((2 * INR m + INR d + 1) / (INR d + 2))).
Proof.
  pose proof (pos_INR m). pose proof (pos_INR d). pose proof PI_RGT_0.
  unfold Acoef, Bcoef. rewrite Ropp_mult_distr_l_reverse, Ropp_mult_distr_r_reverse. f_equal.
  replace (m + d + 2 - 1)%nat with (m + d + 1)%nat by lia.
  assert (Ha : 0 <= (4 * (INR (m + d + 2) * INR (m + d + 2)) - 1) / (INR (m + d + 2) * INR (m + d + 2) - INR m * INR m)).
  { rewrite !plus_INR. cbn [INR]. apply Rlt_le, Rdiv_lt_0_compat; nra. }
  assert (Hb : 0 <= (INR (m + d + 1) * INR (m + d + 1) - INR m * INR m) / (4 * (INR (m + d + 1) * INR (m + d + 1)) - 1)).
  { rewrite !plus_INR. cbn [INR]. apply Rlt_le, Rdiv_lt_0_compat; nra. }
  rewrite <- sqrt_mult_alt by exact Hb. rewrite <- sqrt_mult_alt by exact Ha.
  apply sqrt_scale; [apply Rlt_le, Rdiv_lt_0_compat; lra|apply Rlt_le, wnorm_pos|].
  unfold wnorm. replace (2 * m + S (S d))%nat with (S (S (2 * m + d))) by lia.
  rewrite !fact_S. inr.
  pose proof (INR_fact_lt_0 d). pose proof (INR_fact_lt_0 (2 * m + d)).
  field. repeat split; try nra; try lra.
Qed.
(** l = m + 1: x sqrt(2m+3) temp. *)
Lemma D1_norm m : sqrt (2 * INR m + 3) * sqrt (wnorm m 0) = sqrt (wnorm m 1) * (2 * INR m + 1).
Proof.
  pose proof (pos_INR m). pose proof PI_RGT_0.
  rewrite <- sqrt_mult_alt by lra. apply sqrt_scale; [lra|apply Rlt_le, wnorm_pos|].
  unfold wnorm. replace (2 * m + 1)%nat with (S (2 * m)) by lia. rewrite !Nat.add_0_r.
  change (fact 1) with 1%nat. change (fact 0) with 1%nat. rewrite fact_S. inr.
  pose proof (INR_fact_lt_0 (2 * m)).
  field. repeat split; try nra; try lra.
Qed.
(** the diagonal: sqrt(1 + 1/(2l)) temp. *)
Lemma D0_norm m : sqrt (1 + / 2 / INR (S m)) * sqrt (wnorm m 0) = sqrt (wnorm (S m) 0) * (2 * INR m + 1).
Proof.
  pose proof (pos_INR m). pose proof PI_RGT_0.
  assert (Hs : 0 < INR (S m)) by (rewrite S_INR; lra).
  rewrite <- sqrt_mult_alt.
  2:{ assert (0 < / 2 / INR (S m)) by (apply Rdiv_lt_0_compat; lra). lra. }
  apply sqrt_scale; [lra|apply Rlt_le, wnorm_pos|].
  unfold wnorm. replace (2 * S m + 0)%nat with (S (S (2 * m))) by lia. rewrite !Nat.add_0_r.
  change (fact 0) with 1%nat. rewrite !fact_S. inr.
  pose proof (INR_fact_lt_0 (2 * m)).
  field. repeat split; try nra; try lra.
Qed.
(** raising: sqrt((l-m)(l+m+1)) N_{l,m+1} = - N_lm. *)
Lemma raise_norm l m : (m < l)%nat -> sqrt (INR ((l - m) * (l + m + 1))) * ynorm l (S m) = - ynorm l m.
Proof.
  intros H. remember (l - m - 1)%nat as d eqn:Ed. assert (El : l = (m + S d)%nat) by lia. subst l. clear Ed.
  rewrite ynorm_w. replace (ynorm (m + S d) (S m)) with (ynorm (S m + d) (S m)) by (f_equal; lia). rewrite ynorm_w.
  replace (m + S d - m)%nat with (S d) by lia. replace (m + S d + m + 1)%nat with (2 * m + d + 2)%nat by lia.
  cbn [pow]. transitivity (- ((-1) ^ m * (sqrt (INR (S d * (2 * m + d + 2))) * sqrt (wnorm (S m) d)))); [ring|]. f_equal. f_equal.
  rewrite <- sqrt_mult_alt by apply pos_INR. f_equal.
  unfold wnorm. replace (2 * S m + d)%nat with (S (S (2 * m + d))) by lia. replace (2 * m + S d)%nat with (S (2 * m + d)) by lia.
  replace (S m + d)%nat with (m + S d)%nat by lia. rewrite mult_INR. 
  rewrite !fact_S. inr.
  pose proof (pos_INR m). pose proof (pos_INR d). pose proof PI_RGT_0. pose proof (INR_fact_lt_0 d). pose proof (INR_fact_lt_0 (2 * m + d)).
  field. repeat split; try nra; try lra.
Qed.

(** ** The recursion of computeP *)
Definition pl (x s : R) (l m : nat) : R := ynorm l m * (s ^ m * ql l m x).

Lemma pl_diag x s m : pl x s m m = (-1) ^ m * sqrt (wnorm m 0) * (s ^ m * dfac m).
Proof.
  unfold pl, ql. rewrite Nat.leb_refl, Nat.sub_diag, qa_0. replace (ynorm m m) with (ynorm (m + 0) m) by (now rewrite Nat.add_0_r). now rewrite ynorm_w.
Qed.
Lemma ql_col m d x : ql (m + d) m x = qa m d x.
Proof. unfold ql. replace (m <=? m + d)%nat with true by (symmetry; apply Nat.leb_le; lia). f_equal. lia. Qed.

Lemma p_rows_spec x s k :
  (forall m, (m <= k)%nat -> p_prev (p_rows x s k) m = pl x s k m) /\
  (forall m, (m <= k + 1)%nat -> p_row (p_rows x s k) m = pl x s (k + 1) m) /\
  p_tmp (p_rows x s k) = pl x s (k + 1) (k + 1).
Proof.
  assert (H00 : pl x s 0 0 = P00).
  { rewrite pl_diag. cbn [pow dfac]. unfold P00, wnorm. cbn [INR fact Nat.add Nat.mul]. rewrite Rmult_1_l.
    replace (((2 * 0 + 1) / (4 * PI) * (1 / 1))) with (/ (4 * PI)) by (field; pose proof PI_RGT_0; lra). ring. }
  assert (H11 : pl x s 1 1 = SQRT3DIV2 * s * P00).
  { rewrite pl_diag. cbn [pow dfac]. pose proof (D0_norm 0) as D. cbn [INR] in D. replace (2 * 0 + 1) with 1 in D by ring. rewrite Rmult_1_r in D. rewrite <- D.
    rewrite pl_diag in H00. cbn [pow dfac] in H00. rewrite <- H00. unfold SQRT3DIV2.
    replace (1 + / 2 / 1) with (3 / 2) by field. cbn [INR]. ring. }
  assert (H10 : pl x s 1 0 = x * SQRT3 * P00).
  { unfold pl. change 1%nat with (0 + 1)%nat at 1 2. rewrite ynorm_w. rewrite ql_col. cbn [pow].
    pose proof (D1_norm 0) as D. cbn [INR] in D. replace (2 * 0 + 1) with 1 in D by ring. rewrite Rmult_1_r in D. rewrite <- D.
    rewrite pl_diag in H00. cbn [pow dfac] in H00. rewrite <- H00. unfold SQRT3. replace (2 * 0 + 3) with 3 by ring.
    pose proof (qa_S 0 0 x) as Q. rewrite qa_0, qb_0 in Q. cbn [INR dfac] in Q. rewrite Rmult_1_l in Q. rewrite Q. ring. }
  induction k as [|k [I1 [I2 I3]]].
  - cbn [p_rows p_init p_prev p_row p_tmp Nat.add]. repeat split.
    + intros m Hm. replace m with 0%nat by lia. symmetry. exact H00.
    + intros m Hm. destruct m as [|[|m]]; [symmetry; exact H10|symmetry; exact H11|lia].
    + symmetry. exact H11.
  - cbn [p_rows]. assert (HT : p_tmp (p_step x s (k + 2) (p_rows x s k)) = pl x s (S k + 1) (S k + 1)).
    { cbn [p_step p_tmp]. rewrite I3. replace (S k + 1)%nat with (S (k + 1)) by lia. rewrite !pl_diag.
      replace (k + 2)%nat with (S (k + 1)) by lia. cbn [pow dfac].
      transitivity (- s * ((-1) ^ (k + 1) * (sqrt (1 + / 2 / INR (S (k + 1))) * sqrt (wnorm (k + 1) 0)) * (s ^ (k + 1) * dfac (k + 1)))); [ring|].
      rewrite D0_norm. ring. }
    repeat split.
    + intros m Hm. cbn [p_step p_prev]. replace (S k) with (k + 1)%nat by lia. apply I2. lia.
    + intros m Hm. cbn [p_step p_row]. replace (k + 2 - 1)%nat with (k + 1)%nat by lia.
      destruct (Nat.ltb_spec m (k + 1)) as [Hm1|Hm1].
      * rewrite I2 by lia. rewrite I1 by lia. remember (k - m)%nat as d eqn:Ed. assert (Ek : k = (m + d)%nat) by lia. subst k. clear Ed.
        replace (S (m + d) + 1)%nat with (m + S (S d))%nat by lia. replace (m + d + 1)%nat with (m + S d)%nat by lia.
        unfold pl. rewrite !ynorm_w, !ql_col.
        transitivity ((-1) ^ m * s ^ m * (x * qa m (S d) x * (Acoef (m + d + 2) m * sqrt (wnorm m (S d)))
            + qa m d x * (Acoef (m + d + 2) m * (Bcoef (m + d + 2) m * sqrt (wnorm m d))))); [ring|].
        rewrite A_norm, AB_norm.
        pose proof (qa_S m (S d) x) as Q. rewrite qb_S in Q. rewrite !S_INR in Q.
        assert (E : qa m (S (S d)) x = ((2 * INR m + 2 * INR d + 3) * x * qa m (S d) x - (2 * INR m + INR d + 1) * qa m d x) / (INR d + 2)).
        { pose proof (pos_INR d). apply (Rmult_eq_reg_l (INR d + 1 + 1)); [|lra]. rewrite Q. field. lra. }
        rewrite E. field. pose proof (pos_INR d). lra.
      * destruct (Nat.eqb_spec m (k + 1)) as [->|Hm2].
        -- rewrite I3, pl_diag. replace (S k + 1)%nat with (k + 1 + 1)%nat by lia. unfold pl. rewrite ynorm_w, ql_col.
           pose proof (qa_S (k + 1) 0 x) as Q. rewrite qa_0, qb_0 in Q. cbn [INR] in Q.
           transitivity (x * ((-1) ^ (k + 1) * (sqrt (2 * INR (k + 1) + 3) * sqrt (wnorm (k + 1) 0)) * (s ^ (k + 1) * dfac (k + 1)))); [ring|].
           rewrite D1_norm. rewrite Rmult_1_l in Q. rewrite Q. ring.
        -- replace m with (S k + 1)%nat by lia. replace (S k + 1 =? k + 2)%nat with true by (symmetry; apply Nat.eqb_eq; lia).
           cbn [p_step p_tmp] in HT. exact HT.
    + exact HT.
Qed.

(** computeP gives the textbook functions, for every l and m <= l. *)
Lemma legP_spec x s l m : (m <= l)%nat -> legP x s l m = pl x s l m.
Proof.
  intros H. destruct l as [|k].
  - replace m with 0%nat by lia. cbn [legP]. destruct (p_rows_spec x s 0) as [I1 _]. rewrite <- I1 by lia. reflexivity.
  - cbn [legP]. destruct (p_rows_spec x s k) as [_ [I2 _]]. rewrite I2 by lia. f_equal. lia.
Qed.

(** The limit at the poles is the column m = 1 with sin and cos replaced by 1. *)
Lemma ylim_rows_spec k :
  y_row (ylim_rows k) = p_row (p_rows 1 1 k) 1 /\ y_tmp (ylim_rows k) = p_tmp (p_rows 1 1 k) /\
  ((1 <= k)%nat -> y_prev (ylim_rows k) = p_prev (p_rows 1 1 k) 1).
Proof.
  induction k as [|k [I1 [I2 I3]]].
  - split; [reflexivity|split; [reflexivity|intros H; lia]].
  - cbn [ylim_rows p_rows ylim_step p_step y_row y_tmp y_prev p_row p_tmp p_prev]. rewrite I1, I2. repeat split.
    replace (k + 2 - 1)%nat with (k + 1)%nat by lia.
    destruct (Nat.ltb_spec 1 (k + 1)) as [H|H].
    + rewrite I3 by lia. f_equal. ring.
    + replace k with 0%nat by lia. cbn. ring.
Qed.
Lemma ylim_spec l : (1 <= l)%nat -> ylim l = ynorm l 1 * ql l 1 1.
Proof.
  intros H. destruct l as [|k]; [lia|]. cbn [ylim]. destruct (ylim_rows_spec k) as [-> _].
  transitivity (legP 1 1 (S k) 1); [reflexivity|]. rewrite legP_spec by lia. unfold pl. rewrite pow1. ring.
Qed.
