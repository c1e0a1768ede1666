(* The predicted forces add up to zero. *)

From Coq Require Import Reals List ZArith Lia Lra Arith.
From Coquelicot Require Import Coquelicot.
From Verif Require Import CBase SoapSpec Soap OfGrad SoapLem SoapGrad SoapForce SoapMain SoapRot XcGridLem.
Import ListNotations.
Open Scope R_scope.

Definition gval (h dh : nat -> nat -> R -> R) pos i n l m a (b : nbr) : C :=
  match nb_grad (h n l) (dh n l) (disp pos i b) l m a with Ok g => g | _ => RtoC 0 end.
Definition dcv h dh pos i nbs k a el n l m : C :=
  psum (fun b => if (n_el b =? el)%nat then (RtoC (sg i k b) * gval h dh pos i n l m a b)%C else RtoC 0) nbs.
Lemma dcnlm_val h dh pos i nbs k a el n l m :
  (forall b, In b nbs -> generic (disp pos i b) /\ forall n l, is_derive (h n l) (dist (disp pos i b)) (dh n l (dist (disp pos i b)))) ->
  (m <= l)%nat -> (a < 3)%nat -> dcnlm h dh pos i nbs k a el n l m = Ok (dcv h dh pos i nbs k a el n l m).
Proof.
  intros H Hm Ha. unfold dcnlm, dcv. apply csum_ok. intros b Hb. destruct (H b Hb) as [[G Ho] D]. pose proof (gen0_dist _ G) as P. pose proof tol_pos.
  destruct (nb_grad_exact (h n l) (dh n l) (disp pos i b) l m a ltac:(lra) (gen0_angles _ G) (or_introl Ho) Hm Ha (D n l)) as [g [E _]].
  unfold gval. rewrite E. unfold sg. destruct (n_el b =? el)%nat; [|reflexivity].
  destruct (Nat.eqb_spec (n_at b) i) as [Ei|Ei].
  - rewrite Ei. f_equal. destruct (i =? k)%nat; apply Ceq; cbn [fst snd Cmult RtoC]; ring.
  - destruct (Nat.eqb_spec k i) as [->|Ek].
    + rewrite Nat.eqb_refl. replace (n_at b =? i)%nat with false by (symmetry; now apply Nat.eqb_neq). cbn [obind]. f_equal. apply Ceq; cbn [fst snd Cmult RtoC Copp]; ring.
    + replace (i =? k)%nat with false by (symmetry; apply Nat.eqb_neq; congruence). destruct (n_at b =? k)%nat; f_equal; apply Ceq; cbn [fst snd Cmult RtoC]; ring.
Qed.

Lemma sg_sum i b n : (i < n)%nat -> (n_at b < n)%nat -> lsum (fun k => sg i k b) (seq 0 n) = 0.
Proof.
  intros Hi Hb. unfold sg.
  rewrite (lsum_ext _ (fun k => (if (k =? n_at b)%nat then 1 else 0) + -1 * (if (k =? i)%nat then 1 else 0))) by (intros k _; rewrite (Nat.eqb_sym (n_at b)), (Nat.eqb_sym i); destruct (k =? n_at b)%nat, (k =? i)%nat; ring).
  rewrite lsum_plus, lsum_scal. rewrite (lsum_one (fun _ => 1)) by (try apply seq_NoDup; apply in_seq; lia).
  rewrite (lsum_one (fun _ => 1)) by (try apply seq_NoDup; apply in_seq; lia). ring.
Qed.
Lemma psum_real_sum (F : nat -> nbr -> R) (G : nbr -> C) (P : nbr -> bool) nb ks :
  (forall b, In b nb -> lsum (fun k => F k b) ks = 0) ->
  psum (fun k => psum (fun b => if P b then (RtoC (F k b) * G b)%C else RtoC 0) nb) ks = RtoC 0.
Proof.
  intros H. rewrite psum_swap. rewrite (psum_ext _ (fun _ => RtoC 0)); [apply psum_zero|]. intros b Hb. destruct (P b); [|apply psum_zero].
  assert (E : forall l, psum (fun k => (RtoC (F k b) * G b)%C) l = (RtoC (lsum (fun k => F k b) l) * G b)%C).
  { clear. induction l as [|k l IH]; cbn [psum lsum]; [apply Ceq; cbn [fst snd Cmult RtoC]; ring|]. rewrite IH, RtoC_plus. ring. }
  rewrite E, H by exact Hb. apply Ceq; cbn [fst snd Cmult RtoC]; ring.
Qed.
Lemma dcv_sum h dh pos i nb a el n l m natom : (i < natom)%nat -> (forall b, In b nb -> (n_at b < natom)%nat) ->
  psum (fun k => dcv h dh pos i nb k a el n l m) (seq 0 natom) = RtoC 0.
Proof.
  intros Hi Hb. unfold dcv. apply (psum_real_sum (fun k b => sg i k b) (gval h dh pos i n l m a) (fun b => (n_el b =? el)%nat)).
  intros b H. apply sg_sum; auto.
Qed.
Lemma dx3_sum l m c1 c2 (f g : nat -> C) ks :
  lsum (fun k => dx3_term l m c1 c2 (f k) (g k)) ks = dx3_term l m c1 c2 (psum f ks) (psum g ks).
Proof.
  induction ks as [|k ks IH]; cbn [lsum psum].
  - unfold dx3_term, Re. destruct m; cbn [fst snd Cmult Cplus Cconj RtoC]; ring.
  - rewrite IH. unfold dx3_term, Re. destruct m; cbn [fst snd Cmult Cplus Cconj RtoC]; ring.
Qed.
Lemma dX3_sum h dh pos nbs i a t natom (D : nat -> R) :
  (forall b, In b (nbs i) -> generic (disp pos i b) /\ forall n l, is_derive (h n l) (dist (disp pos i b)) (dh n l (dist (disp pos i b)))) ->
  (a < 3)%nat -> (i < natom)%nat -> (forall b, In b (nbs i) -> (n_at b < natom)%nat) ->
  (forall k, dX3 h dh pos nbs i k a t = Ok (D k)) -> lsum D (seq 0 natom) = 0.
Proof.
  intros H Ha Hi Hb HD.
  set (l := x_l t). set (c1 := fun m => pcn h pos i (nbs i) (x_e1 t) (x_n1 t) l m). set (c2 := fun m => pcn h pos i (nbs i) (x_e2 t) (x_n2 t) l m).
  set (d1 := fun k m => dcv h dh pos i (nbs i) k a (x_e1 t) (x_n1 t) l m). set (d2 := fun k m => dcv h dh pos i (nbs i) k a (x_e2 t) (x_n2 t) l m).
  assert (E : forall k, D k = lsum (fun m => dx3_term l m (c1 m) (c2 m) (d1 k m) (d2 k m)) (seq 0 (l + 1))).
  { intros k. specialize (HD k). unfold dX3 in HD. rewrite (osum_ok _ (fun m => dx3_term l m (c1 m) (c2 m) (d1 k m) (d2 k m))) in HD; [now injection HD|].
    intros m Hm. apply in_seq in Hm. fold l in Hm |- *. rewrite !cnlm_ok by (try (intros b B; apply (H b B)); lia). cbn [obind].
    rewrite !(dcnlm_val h dh pos i (nbs i) k a) by (auto; lia). reflexivity. }
  rewrite (lsum_ext _ (fun k => lsum (fun m => dx3_term l m (c1 m) (c2 m) (d1 k m) (d2 k m)) (seq 0 (l + 1)))) by (intros; apply E).
  rewrite lsum_swap. apply lsum_zero. intros m _. rewrite (dx3_sum l m (c1 m) (c2 m) (fun k => d1 k m) (fun k => d2 k m)). unfold d1, d2. rewrite !dcv_sum by assumption.
  unfold dx3_term, Re. destruct m; cbn [fst snd Cmult Cplus Cconj RtoC]; ring.
Qed.

Lemma dot_sum_l idx (V : nat -> xidx -> R) T ks : lsum (fun k => dot idx (V k) T) ks = dot idx (fun t => lsum (fun k => V k t) ks) T.
Proof.
  unfold dot. rewrite lsum_swap. apply lsum_ext. intros t _. rewrite Rmult_comm, <- lsum_scal. apply lsum_ext. intros; ring.
Qed.
Lemma zval_sum idx A T (V : nat -> xidx -> R) ks : lsum (fun k => zval idx A T (V k)) ks = zval idx A T (fun t => lsum (fun k => V k t) ks).
Proof.
  unfold zval. rewrite (lsum_ext _ (fun k => / dot idx A T * dot idx (V k) T + - / dot idx A A * dot idx (V k) A)) by (intros k _; rewrite (dot_comm idx A (V k)); unfold Rdiv; ring).
  rewrite lsum_plus, !lsum_scal, !dot_sum_l. rewrite (dot_comm idx A (fun t => lsum (fun k => V k t) ks)). unfold Rdiv. ring.
Qed.
Lemma zval_0 idx A T v : (forall t, In t idx -> v t = 0) -> zval idx A T v = 0.
Proof.
  intros H. unfold zval.
  assert (E1 : dot idx v T = 0) by (unfold dot; apply lsum_zero; intros t Ht; rewrite H by exact Ht; ring).
  assert (E2 : dot idx A v = 0) by (unfold dot; apply lsum_zero; intros t Ht; rewrite H by exact Ht; ring).
  rewrite E1, E2. unfold Rdiv. ring.
Qed.
