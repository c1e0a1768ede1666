(* The predicted forces against the predicted energy, and the power spectrum as a sum over all m. *)

From Coq Require Import Reals List ZArith Lia Lra Arith.
From Coquelicot Require Import Coquelicot.
From Verif Require Import CBase SoapSpec Soap OfGrad SoapLeg SoapLem SoapGrad SoapForce MggaXLem XcGridLem.
Import ListNotations.
Open Scope R_scope.

Lemma loc_list {A} (P : A -> R -> Prop) (l : list A) : (forall x, In x l -> locally 0 (P x)) -> locally 0 (fun s => forall x, In x l -> P x s).
Proof.
  induction l as [|x l IH]; intros H.
  - apply filter_forall. intros s y [].
  - generalize (filter_and _ _ (H x (or_introl eq_refl)) (IH (fun y Hy => H y (or_intror Hy)))). apply filter_imp.
    intros s [H1 H2] y [<-|Hy]; auto.
Qed.
Lemma lsum_one (V : nat -> R) k l : NoDup l -> In k l -> lsum (fun j => if (j =? k)%nat then V j else 0) l = V k.
Proof.
  induction l as [|x l IH]; intros N I; [destruct I|]. inversion N as [|y l' Hx N']; subst. cbn [lsum]. destruct I as [->|I].
  - rewrite Nat.eqb_refl. rewrite lsum_zero; [ring|]. intros j Hj. destruct (Nat.eqb_spec j k) as [->|]; [contradiction|reflexivity].
  - destruct (Nat.eqb_spec x k) as [->|]; [contradiction|]. rewrite IH by assumption. ring.
Qed.
Lemma lsum_none (V : nat -> R) k l : ~ In k l -> lsum (fun j => if (j =? k)%nat then V j else 0) l = 0.
Proof. intros I. apply lsum_zero. intros j Hj. destruct (Nat.eqb_spec j k) as [->|]; [contradiction|reflexivity]. Qed.
Lemma dot_ext idx X X' Y Y' : (forall t, In t idx -> X t = X' t) -> (forall t, In t idx -> Y t = Y' t) -> dot idx X Y = dot idx X' Y'.
Proof. intros H1 H2. unfold dot. apply lsum_ext. intros t Ht. now rewrite H1, H2. Qed.

Section Structure.
Variable h dh : nat -> nat -> R -> R.
Variable pos : nat -> vec3.
Variable nbs : nat -> list nbr.
Variable idx : list xidx.
Variable xi3 : R.
Variable natom : nat.
Variable elem : nat -> nat.
Variable uniq : nat -> list nat.
Variable cols : list (tcol * R).
Variable X : nat -> xidx -> R.
Variable dX : nat -> nat -> nat -> xidx -> R.
Hypothesis Huniq : forall i, (i < natom)%nat -> NoDup (uniq i) /\ forall j, In j (uniq i) <-> j <> i /\ exists b, In b (nbs i) /\ n_at b = j.
Hypothesis Hgen : forall i b, (i < natom)%nat -> In b (nbs i) -> generic (disp pos i b) /\ forall n l, is_derive (h n l) (dist (disp pos i b)) (dh n l (dist (disp pos i b))).
Hypothesis HX : forall i t, (i < natom)%nat -> In t idx -> X3 h pos nbs i t = Ok (X i t).
Hypothesis HdX : forall i k a t, (i < natom)%nat -> (a < 3)%nat -> In t idx -> dX3 h dh pos nbs i k a t = Ok (dX i k a t).
Hypothesis Hdot : forall i c, (i < natom)%nat -> In c (map fst cols) -> elem i = t_el c -> 0 < dot idx (X i) (t_X c).

Definition zk (c : tcol) (i k a : nat) : R := if (elem i =? t_el c)%nat then xi3 * kval idx xi3 (X i) (t_X c) * zval idx (X i) (t_X c) (dX i k a) else 0.

Lemma zval_ext A T u v : (forall t, In t idx -> u t = v t) -> zval idx A T u = zval idx A T v.
Proof. intros H. unfold zval. rewrite (dot_ext idx u v T T) by auto. now rewrite (dot_ext idx A A u v) by auto. Qed.

Lemma k_force_ok Fsc c k a : (a < 3)%nat -> In c (map fst cols) ->
  k_force idx xi3 natom elem X dX uniq Fsc c k a = Ok (Fsc * lsum (fun i => zk c i k a) (seq 0 natom)).
Proof.
  intros Ha Hc. unfold k_force. rewrite <- lsum_scal. apply osum_ok. intros i Hi. apply in_seq in Hi. unfold zk.
  destruct (Nat.eqb_spec (elem i) (t_el c)) as [E|E]; [|f_equal; ring].
  pose proof (Hdot i c ltac:(lia) Hc E) as P. rewrite kernel_ok by exact P. cbn [obind].
  set (kk := kval idx xi3 (X i) (t_X c)). set (V := fun j => Fsc * xi3 * kk * zval idx (X i) (t_X c) (dX i j a)).
  rewrite (osum_ok _ (fun j => if (j =? k)%nat then V j else 0)).
  2:{ intros j _. destruct (j =? k)%nat; [|reflexivity]. rewrite zdot_ok by exact P. reflexivity. }
  destruct (Huniq i ltac:(lia)) as [ND HU].
  destruct (Nat.eqb_spec i k) as [->|Hik].
  - rewrite zdot_ok by exact P. cbn [obind]. rewrite lsum_none by (rewrite HU; tauto). f_equal. unfold kk. ring.
  - cbn [obind]. destruct (in_dec Nat.eq_dec k (uniq i)) as [I|I].
    + rewrite lsum_one by assumption. unfold V. f_equal. ring.
    + rewrite lsum_none by exact I. f_equal.
      assert (Z : zval idx (X i) (t_X c) (dX i k a) = 0).
      { rewrite (zval_ext _ _ _ (fun _ => 0)).
        - unfold zval. assert (Z1 : dot idx (fun _ => 0) (t_X c) = 0) by (apply lsum_zero; intros; ring).
          assert (Z2 : dot idx (X i) (fun _ => 0) = 0) by (apply lsum_zero; intros; ring). rewrite Z1, Z2. unfold Rdiv. ring.
        - intros t Ht. pose proof (HdX i k a t ltac:(lia) Ha Ht) as D. rewrite dX3_far in D; [injection D; auto| |auto|].
          + intros b Hb. apply (Hgen i b ltac:(lia) Hb).
          + intros b Hb Eb. apply I. apply HU. split; [auto|]. exists b. auto. }
      rewrite Z. ring.
Qed.

Lemma force_ok F_scale rel std_F k a : (a < 3)%nat -> rel <> 0 ->
  force idx xi3 natom elem X dX uniq F_scale rel std_F cols k a
  = Ok (- (F_scale * std_F * lsum (fun cw => lsum (fun i => zk (fst cw) i k a) (seq 0 natom) * snd cw) cols)).
Proof.
  intros Ha Hr. unfold force. rewrite (osum_ok _ (fun cw => F_scale * rel * (lsum (fun i => zk (fst cw) i k a) (seq 0 natom) * snd cw))).
  - cbn [obind]. f_equal. rewrite lsum_scal. field. exact Hr.
  - intros [c w] Hin. cbn [fst snd]. rewrite k_force_ok; [cbn [obind]; f_equal; ring|exact Ha|]. apply in_map_iff. exists (c, w). auto.
Qed.

(** The energy along the displacement. *)
Definition Epath (std_E mu_E : R) (k a : nat) (s : R) : R :=
  (lsum (fun cw => lsum (fun i => if (elem i =? t_el (fst cw))%nat then 1 / INR natom * kval idx xi3 (pX h (mv pos k a s) nbs i) (t_X (fst cw)) else 0) (seq 0 natom) * snd cw) cols * std_E + mu_E) * INR natom.

Lemma X_pX i t : (i < natom)%nat -> In t idx -> X i t = pX h pos nbs i t.
Proof.
  intros Hi Ht. pose proof (HX i t Hi Ht) as E. rewrite X3_ok in E; [now injection E|]. intros b Hb. apply (Hgen i b Hi Hb).
Qed.
Lemma pX_mv0 k a i t : pX h (mv pos k a 0) nbs i t = pX h pos nbs i t.
Proof.
  unfold pX. apply lsum_ext. intros m _.
  assert (Z0 : forall el n, pcn h (mv pos k a 0) i (nbs i) el n (x_l t) m = pcn h pos i (nbs i) el n (x_l t) m).
  { intros el n. unfold pcn. clear. induction (nbs i) as [|b l IH]; [reflexivity|]. cbn [psum]. rewrite mv_disp_0. now rewrite IH. }
  now rewrite !Z0.
Qed.
Lemma pX_path k a i t : (i < natom)%nat -> (a < 3)%nat -> In t idx -> is_derive (fun s => pX h (mv pos k a s) nbs i t) 0 (dX i k a t).
Proof.
  intros Hi Ha Ht. destruct (pX_der h dh pos nbs i k a t (fun b Hb => Hgen i b Hi Hb) Ha) as [v [E D]].
  rewrite HdX in E by assumption. injection E as ->. exact D.
Qed.
Lemma kval_ext A B T : (forall t, In t idx -> A t = B t) -> kval idx xi3 A T = kval idx xi3 B T.
Proof. intros H. unfold kval. rewrite (dot_ext idx A B T T) by auto. now rewrite (dot_ext idx A B A B) by auto. Qed.

Lemma Epath_derive std_E mu_E k a : (a < 3)%nat -> (0 < natom)%nat ->
  is_derive (Epath std_E mu_E k a) 0 (std_E * lsum (fun cw => lsum (fun i => zk (fst cw) i k a) (seq 0 natom) * snd cw) cols).
Proof.
  intros Ha Hn. assert (Hn' : 0 < INR natom) by (apply lt_0_INR; exact Hn).
  set (G := fun s cw => lsum (fun i => if (elem i =? t_el (fst cw))%nat then 1 / INR natom * kval idx xi3 (pX h (mv pos k a s) nbs i) (t_X (fst cw)) else 0) (seq 0 natom) * snd cw).
  assert (DG : is_derive (fun s => lsum (G s) cols) 0 (lsum (fun cw => (lsum (fun i => 1 / INR natom * zk (fst cw) i k a) (seq 0 natom)) * snd cw) cols)).
  { apply (lsum_derive G). intros [c w] Hin. unfold G. cbn [fst snd]. assert (Hc : In c (map fst cols)) by (apply in_map_iff; exists (c, w); auto).
    eapply der_eq; [apply (mul_derive (fun s => lsum (fun i => if (elem i =? t_el c)%nat then 1 / INR natom * kval idx xi3 (pX h (mv pos k a s) nbs i) (t_X c) else 0) (seq 0 natom)) (fun _ => w) 0 (lsum (fun i => 1 / INR natom * zk c i k a) (seq 0 natom)) 0); [|apply const_derive]|ring].
    apply (lsum_derive (fun s i => if (elem i =? t_el c)%nat then 1 / INR natom * kval idx xi3 (pX h (mv pos k a s) nbs i) (t_X c) else 0)).
    intros i Hi. apply in_seq in Hi. unfold zk. destruct (Nat.eqb_spec (elem i) (t_el c)) as [E|E].
    - apply (is_derive_scal (fun s => kval idx xi3 (pX h (mv pos k a s) nbs i) (t_X c))).
      assert (EX : forall t, In t idx -> pX h (mv pos k a 0) nbs i t = X i t) by (intros t Ht; rewrite pX_mv0; symmetry; apply X_pX; [lia|exact Ht]).
      pose proof (kval_derive idx xi3 (fun s t => pX h (mv pos k a s) nbs i t) (dX i k a) (t_X c) (fun t Ht => pX_path k a i t ltac:(lia) Ha Ht)) as K. cbv beta in K.
      assert (E1 : dot idx (fun t => pX h (mv pos k a 0) nbs i t) (t_X c) = dot idx (X i) (t_X c)) by (apply dot_ext; auto).
      specialize (K ltac:(rewrite E1; apply Hdot; [lia|exact Hc|exact E])).
      eapply der_eq; [exact K|]. f_equal; [f_equal; apply kval_ext; exact EX|].
      unfold zval. rewrite E1. rewrite (dot_ext idx (fun t => pX h (mv pos k a 0) nbs i t) (X i) (dX i k a) (dX i k a)) by auto.
      now rewrite (dot_ext idx (fun t => pX h (mv pos k a 0) nbs i t) (X i) (fun t => pX h (mv pos k a 0) nbs i t) (X i)) by auto.
    - rewrite Rmult_0_r. apply const_derive. }
  apply (is_derive_ext (fun s => (lsum (G s) cols * std_E + mu_E) * INR natom)); [reflexivity|].
  eapply der_eq.
  - apply (mul_derive (fun s => lsum (G s) cols * std_E + mu_E) (fun _ => INR natom) 0 (lsum (fun cw => (lsum (fun i => 1 / INR natom * zk (fst cw) i k a) (seq 0 natom)) * snd cw) cols * std_E) 0); [|apply const_derive].
    eapply der_eq; [apply (is_derive_plus (fun s => lsum (G s) cols * std_E) (fun _ => mu_E) 0 (lsum (fun cw => (lsum (fun i => 1 / INR natom * zk (fst cw) i k a) (seq 0 natom)) * snd cw) cols * std_E) 0); [|apply const_derive]|].
    + eapply der_eq; [apply (mul_derive (fun s => lsum (G s) cols) (fun _ => std_E) 0 _ 0 DG); apply const_derive|]. ring.
    + unfold plus; cbn. ring.
  - rewrite (lsum_ext (fun cw => (lsum (fun i => 1 / INR natom * zk (fst cw) i k a) (seq 0 natom)) * snd cw) (fun cw => 1 / INR natom * (lsum (fun i => zk (fst cw) i k a) (seq 0 natom) * snd cw))).
    + rewrite lsum_scal. field. lra.
    + intros cw _. rewrite lsum_scal. ring.
Qed.

Lemma etot_near std_E mu_E k a : (a < 3)%nat ->
  locally 0 (fun s =>
    (forall i t, (i < natom)%nat -> In t idx -> X3 h (mv pos k a s) nbs i t = Ok (pX h (mv pos k a s) nbs i t)) /\
    etot idx xi3 natom elem (pX h (mv pos k a s) nbs) std_E mu_E cols = Ok (Epath std_E mu_E k a s)).
Proof.
  intros Ha.
  assert (L1 : locally 0 (fun s => forall i, In i (seq 0 natom) -> forall b, In b (nbs i) -> gen0 (disp (mv pos k a s) i b))).
  { apply (loc_list (fun i s => forall b, In b (nbs i) -> gen0 (disp (mv pos k a s) i b))). intros i Hi. apply in_seq in Hi.
    apply (loc_list (fun b s => gen0 (disp (mv pos k a s) i b))). intros b Hb. destruct (Hgen i b ltac:(lia) Hb) as [[G0 _] _].
    generalize (gen0_open (disp pos i b) a (sg i k b) G0). apply filter_imp. intros s Hs. rewrite disp_mv. exact Hs. }
  assert (L2 : locally 0 (fun s => forall i, In i (seq 0 natom) -> forall c, In c (map fst cols) -> elem i = t_el c -> 0 < dot idx (pX h (mv pos k a s) nbs i) (t_X c))).
  { apply (loc_list (fun i s => forall c, In c (map fst cols) -> elem i = t_el c -> 0 < dot idx (pX h (mv pos k a s) nbs i) (t_X c))). intros i Hi. apply in_seq in Hi.
    apply (loc_list (fun c s => elem i = t_el c -> 0 < dot idx (pX h (mv pos k a s) nbs i) (t_X c))). intros c Hc.
    destruct (Nat.eq_dec (elem i) (t_el c)) as [E|E]; [|apply filter_forall; intros s E'; contradiction].
    generalize (loc_pos (fun s => dot idx (pX h (mv pos k a s) nbs i) (t_X c)) 0 (dot idx (dX i k a) (t_X c))).
    intros L. assert (P : locally 0 (fun s => 0 < dot idx (pX h (mv pos k a s) nbs i) (t_X c))).
    { apply L.
      - rewrite (dot_ext idx _ (X i) (t_X c) (t_X c)); [apply Hdot; auto; lia| |auto]. intros t Ht. rewrite pX_mv0. symmetry. apply X_pX; [lia|exact Ht].
      - apply (dot_derive idx (fun s t => pX h (mv pos k a s) nbs i t)). intros t Ht. apply pX_path; [lia|exact Ha|exact Ht]. }
    revert P. apply filter_imp. auto. }
  generalize (filter_and _ _ L1 L2). apply filter_imp. intros s [H1 H2]. split.
  - intros i t Hi Ht. apply X3_ok. intros b Hb. apply H1; [apply in_seq; lia|exact Hb].
  - unfold etot, Epath. rewrite (osum_ok _ (fun cw => lsum (fun i => if (elem i =? t_el (fst cw))%nat then 1 / INR natom * kval idx xi3 (pX h (mv pos k a s) nbs i) (t_X (fst cw)) else 0) (seq 0 natom) * snd cw)).
    + reflexivity.
    + intros [c w] Hin. cbn [fst snd]. unfold k_energy.
      rewrite (osum_ok _ (fun i => if (elem i =? t_el c)%nat then 1 / INR natom * kval idx xi3 (pX h (mv pos k a s) nbs i) (t_X c) else 0)); [reflexivity|].
      intros i Hi. destruct (Nat.eqb_spec (elem i) (t_el c)) as [E|E]; [|reflexivity].
      rewrite kernel_ok; [reflexivity|]. apply H2; [exact Hi| |exact E]. apply in_map_iff. exists (c, w). auto.
Qed.
End Structure.
