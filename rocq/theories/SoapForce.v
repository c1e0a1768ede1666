(* Derivatives of the descriptor, of the kernel and of the predicted energy. *)

From Coq Require Import Reals List ZArith Lia Lra Arith.
From Coquelicot Require Import Coquelicot.
From Verif Require Import CBase SoapSpec Soap OfGrad SoapLeg SoapLem SoapGrad MggaXLem XcGridLem.
Import ListNotations.
Open Scope R_scope.

(** ** Generic displacements *)
(** Open conditions under which the angles are right. *)
Definition gen0 (d : vec3) : Prop := temp_tol < Rabs (vz d) /\ (0 < vx d \/ vy d <> 0).
Definition generic (d : vec3) : Prop := gen0 d /\ off_axis (ang_theta d).

Lemma gen0_angles d : gen0 d -> angles_ok d.
Proof. intros [H1 H2]. unfold angles_ok. split; [now right|]. split; intros; destruct H2 as [H2|H2]; lra. Qed.
Lemma gen0_dist d : gen0 d -> temp_tol < dist d.
Proof.
  intros [H1 _]. pose proof tol_pos. apply Rlt_le_trans with (Rabs (vz d)); [exact H1|].
  rewrite <- sqrt_Rsqr_abs. unfold dist, Rsqr. apply sqrt_le_1_alt. nra.
Qed.
Lemma gen0_ok d : gen0 d -> dist_ok d = true.
Proof.
  intros H. pose proof (gen0_dist d H) as D. pose proof tol_pos. unfold dist_ok. rewrite Rabs_pos_eq by lra.
  destruct (Rlt_dec _ _) as [C|C]; [|reflexivity]. exfalso. unfold temp_tol in D.
  assert (/ 10 ^ 15 < / 10 ^ 10) by (apply Rinv_lt_contravar; [apply Rmult_lt_0_compat; apply pow_lt; lra|apply Rlt_pow; [lra|lia]]). lra.
Qed.
Lemma nb_val_true h d l m : gen0 d -> (m <= l)%nat -> nb_val h d l m = true_val h d l m.
Proof. intros H Hm. unfold nb_val, true_val. rewrite sphY_space; [reflexivity| |now apply gen0_angles|exact Hm]. pose proof (gen0_dist d H). pose proof tol_pos. lra. Qed.

Lemma lin_pos (p e : R) : 0 < p -> locally 0 (fun t => 0 < p + t * e).
Proof. intros H. apply (loc_pos (fun t => p + t * e) 0 e); [lra|]. auto_derive; [exact I|ring]. Qed.
Lemma gen0_open d a c : gen0 d -> locally 0 (fun t => gen0 (moved d a (c * t))).
Proof.
  intros [H1 H2].
  assert (A : locally 0 (fun t => temp_tol < Rabs (vz d + c * t * unit_a a 2))).
  { destruct (Rle_dec 0 (vz d)) as [P|P].
    - rewrite Rabs_pos_eq in H1 by exact P. generalize (lin_pos (vz d - temp_tol) (c * unit_a a 2) ltac:(lra)). apply filter_imp. intros t Ht.
      pose proof tol_pos. rewrite Rabs_pos_eq; nra.
    - rewrite Rabs_left in H1 by lra. generalize (lin_pos (- vz d - temp_tol) (- (c * unit_a a 2)) ltac:(lra)). apply filter_imp. intros t Ht.
      pose proof tol_pos. rewrite Rabs_left1; nra. }
  assert (B : locally 0 (fun t => 0 < vx d + c * t * unit_a a 0 \/ vy d + c * t * unit_a a 1 <> 0)).
  { destruct H2 as [H2|H2].
    - generalize (lin_pos (vx d) (c * unit_a a 0) H2). apply filter_imp. intros t Ht. left. nra.
    - destruct (Rlt_dec 0 (vy d)) as [P|P].
      + generalize (lin_pos (vy d) (c * unit_a a 1) P). apply filter_imp. intros t Ht. right. nra.
      + generalize (lin_pos (- vy d) (- (c * unit_a a 1)) ltac:(lra)). apply filter_imp. intros t Ht. right. nra. }
  generalize (filter_and _ _ A B). apply filter_imp. intros t [X Y]. split; assumption.
Qed.

(** ** Moving one atom *)
Definition mv (pos : nat -> vec3) (k a : nat) (t : R) : nat -> vec3 := fun j => if (j =? k)%nat then moved (pos j) a t else pos j.
Definition sg (i k : nat) (b : nbr) : R := (if (n_at b =? k)%nat then 1 else 0) - (if (i =? k)%nat then 1 else 0).
Lemma disp_mv pos i k a t b : disp (mv pos k a t) i b = moved (disp pos i b) a (sg i k b * t).
Proof.
  unfold disp, mv, moved, sg, vadd, vsub, vx, vy, vz. destruct (n_at b =? k)%nat, (i =? k)%nat; cbn [fst snd]; repeat apply (f_equal2 pair); ring.
Qed.
Lemma moved_0 d a : moved d a 0 = d.
Proof. destruct d as [[p q] s]. unfold moved, vx, vy, vz. cbn [fst snd]. repeat apply (f_equal2 pair); ring. Qed.
Lemma mv_disp_0 pos i k a b : disp (mv pos k a 0) i b = disp pos i b.
Proof. rewrite disp_mv, Rmult_0_r. apply moved_0. Qed.

(** ** c_nlm *)
Fixpoint psum {A} (f : A -> C) (l : list A) : C := match l with [] => RtoC 0 | x :: t => (f x + psum f t)%C end.
Lemma csum_ok {A} (f : A -> outcome C) g l : (forall x, In x l -> f x = Ok (g x)) -> csum f l = Ok (psum g l).
Proof.
  induction l as [|x l IH]; intros H; [reflexivity|]. cbn [csum psum]. rewrite H by (left; reflexivity). cbn [obind].
  rewrite IH by (intros; apply H; right; assumption). reflexivity.
Qed.
Lemma csum_der {A} (f : A -> outcome C) (F : R -> A -> C) l :
  (forall x, In x l -> exists g, f x = Ok g /\ cder (fun t => F t x) 0 g) ->
  exists v, csum f l = Ok v /\ cder (fun t => psum (F t) l) 0 v.
Proof.
  induction l as [|x l IH]; intros H.
  - exists (RtoC 0). split; [reflexivity|]. cbn [psum]. apply cder_const.
  - destruct (H x ltac:(left; reflexivity)) as [g [E D]]. destruct IH as [v [E2 D2]]; [intros; apply H; right; assumption|].
    exists (g + v)%C. cbn [csum psum]. rewrite E, E2. cbn [obind]. split; [reflexivity|]. apply (cder_plus (fun t => F t x) (fun t => psum (F t) l)); assumption.
Qed.
Definition pcn (h : nat -> nat -> R -> R) (pos : nat -> vec3) (i : nat) (nbs : list nbr) (el n l m : nat) : C :=
  psum (fun b => if (n_el b =? el)%nat then true_val (h n l) (disp pos i b) l m else RtoC 0) nbs.
Lemma cnlm_ok h pos i nbs el n l m : (forall b, In b nbs -> gen0 (disp pos i b)) -> (m <= l)%nat -> cnlm h pos i nbs el n l m = Ok (pcn h pos i nbs el n l m).
Proof.
  intros H Hm. unfold cnlm, pcn. apply csum_ok. intros b Hb. rewrite gen0_ok by auto. destruct (_ =? _)%nat; [|reflexivity]. now rewrite nb_val_true by auto.
Qed.
Lemma cder_const_fun (f : R -> C) t : (forall s, f s = f t) -> cder f t (RtoC 0).
Proof. intros H. apply (cder_ext (fun _ => f t)); [intros; symmetry; apply H|]. apply cder_const. Qed.
Lemma pcn_der h dh pos i nbs k a el n l m :
  (forall b, In b nbs -> generic (disp pos i b) /\ forall n l, is_derive (h n l) (dist (disp pos i b)) (dh n l (dist (disp pos i b)))) ->
  (m <= l)%nat -> (a < 3)%nat ->
  exists v, dcnlm h dh pos i nbs k a el n l m = Ok v /\ cder (fun t => pcn h (mv pos k a t) i nbs el n l m) 0 v.
Proof.
  intros H Hm Ha. unfold dcnlm, pcn.
  apply (csum_der _ (fun t b => if (n_el b =? el)%nat then true_val (h n l) (disp (mv pos k a t) i b) l m else RtoC 0)). intros b Hb.
  destruct (H b Hb) as [[G0 Go] Hd]. destruct (n_el b =? el)%nat; [|exists (RtoC 0); split; [reflexivity|apply cder_const]].
  assert (K : sg i k b = 0 -> exists g, @Ok C (RtoC 0) = Ok g /\ cder (fun t => true_val (h n l) (disp (mv pos k a t) i b) l m) 0 g).
  { intros E. exists (RtoC 0). split; [reflexivity|]. apply cder_const_fun. intros s. rewrite !disp_mv, E. now rewrite !Rmult_0_l. }
  assert (P : 0 < dist (disp pos i b)) by (pose proof (gen0_dist _ G0); pose proof tol_pos; lra).
  destruct (nb_grad_exact (h n l) (dh n l) (disp pos i b) l m a P (gen0_angles _ G0) (or_introl Go) Hm Ha (Hd n l)) as [g [Eg Dg]].
  assert (L : cder (fun t => true_val (h n l) (disp (mv pos k a t) i b) l m) 0 (RtoC (sg i k b) * g)%C).
  { apply (cder_ext (fun t => true_val (h n l) (moved (disp pos i b) a (sg i k b * t)) l m)); [intros; now rewrite disp_mv|].
    apply (cder_lin (fun t => true_val (h n l) (moved (disp pos i b) a t) l m)). now rewrite Rmult_0_r. }
  destruct (Nat.eqb_spec (n_at b) i) as [E1|E1].
  - apply K. unfold sg. rewrite E1. destruct (Nat.eqb_spec i k); ring.
  - destruct (Nat.eqb_spec k i) as [E2|E2].
    + rewrite Eg. cbn [obind]. eexists; split; [reflexivity|]. eapply cder_eq; [exact L|]. unfold sg.
      replace (n_at b =? k)%nat with false by (symmetry; apply Nat.eqb_neq; lia). replace (i =? k)%nat with true by (symmetry; apply Nat.eqb_eq; lia).
      apply Ceq; cbn [fst snd Cmult RtoC Copp]; ring.
    + destruct (Nat.eqb_spec (n_at b) k) as [E3|E3].
      * rewrite Eg. eexists; split; [reflexivity|]. eapply cder_eq; [exact L|]. unfold sg.
        replace (n_at b =? k)%nat with true by (symmetry; apply Nat.eqb_eq; lia). replace (i =? k)%nat with false by (symmetry; apply Nat.eqb_neq; lia).
        apply Ceq; cbn [fst snd Cmult RtoC]; ring.
      * apply K. unfold sg. replace (n_at b =? k)%nat with false by (symmetry; apply Nat.eqb_neq; lia). replace (i =? k)%nat with false by (symmetry; apply Nat.eqb_neq; lia). ring.
Qed.

(** ** The power spectrum *)
Lemma osum_ok {A} (f : A -> outcome R) g l : (forall x, In x l -> f x = Ok (g x)) -> osum f l = Ok (lsum g l).
Proof.
  induction l as [|x l IH]; intros H; [reflexivity|]. cbn [osum lsum]. rewrite H by (left; reflexivity). cbn [obind].
  rewrite IH by (intros; apply H; right; assumption). reflexivity.
Qed.
Lemma osum_der {A} (f : A -> outcome R) (F : R -> A -> R) l :
  (forall x, In x l -> exists g, f x = Ok g /\ is_derive (fun t => F t x) 0 g) ->
  exists v, osum f l = Ok v /\ is_derive (fun t => lsum (F t) l) 0 v.
Proof.
  induction l as [|x l IH]; intros H.
  - exists 0. split; [reflexivity|]. cbn [lsum]. apply const_derive.
  - destruct (H x ltac:(left; reflexivity)) as [g [E D]]. destruct IH as [v [E2 D2]]; [intros; apply H; right; assumption|].
    exists (g + v). cbn [osum lsum]. rewrite E, E2. cbn [obind]. split; [reflexivity|]. apply (is_derive_plus (fun t => F t x) (fun t => lsum (F t) l)); assumption.
Qed.
Lemma x3_der l m (f g : R -> C) u v : cder f 0 u -> cder g 0 v -> is_derive (fun t => x3_term l m (f t) (g t)) 0 (dx3_term l m (f 0) (g 0) u v).
Proof.
  intros Hf Hg. destruct (cder_mul _ _ _ _ _ Hf (cder_conj _ _ _ Hg)) as [D _].
  assert (D' : is_derive (fun t => Re (f t * Cconj (g t))%C) 0 (Re (u * Cconj (g 0) + f 0 * Cconj v)%C)) by exact D.
  unfold x3_term, dx3_term. destruct m as [|m].
  - apply (is_derive_scal (fun t => Re (f t * Cconj (g t))%C)). exact D'.
  - eapply der_eq; [apply (is_derive_scal (fun t => 2 * Re (f t * Cconj (g t))%C)); apply (is_derive_scal (fun t => Re (f t * Cconj (g t))%C)); exact D'|]. ring.
Qed.
Definition pX h pos (nbs : nat -> list nbr) i (t : xidx) : R :=
  lsum (fun m => x3_term (x_l t) m (pcn h pos i (nbs i) (x_e1 t) (x_n1 t) (x_l t) m) (pcn h pos i (nbs i) (x_e2 t) (x_n2 t) (x_l t) m)) (seq 0 (x_l t + 1)).
Lemma X3_ok h pos nbs i t : (forall b, In b (nbs i) -> gen0 (disp pos i b)) -> X3 h pos nbs i t = Ok (pX h pos nbs i t).
Proof.
  intros H. unfold X3, pX. apply osum_ok. intros m Hm. apply in_seq in Hm. rewrite !cnlm_ok by (auto; lia). reflexivity.
Qed.
Lemma pX_der h dh pos nbs i k a t :
  (forall b, In b (nbs i) -> generic (disp pos i b) /\ forall n l, is_derive (h n l) (dist (disp pos i b)) (dh n l (dist (disp pos i b)))) ->
  (a < 3)%nat -> exists v, dX3 h dh pos nbs i k a t = Ok v /\ is_derive (fun s => pX h (mv pos k a s) nbs i t) 0 v.
Proof.
  intros H Ha. unfold dX3, pX.
  apply (osum_der _ (fun s m => x3_term (x_l t) m (pcn h (mv pos k a s) i (nbs i) (x_e1 t) (x_n1 t) (x_l t) m) (pcn h (mv pos k a s) i (nbs i) (x_e2 t) (x_n2 t) (x_l t) m))).
  intros m Hm. apply in_seq in Hm. rewrite !cnlm_ok by (try (intros b Hb; apply (H b Hb)); lia). cbn [obind].
  destruct (pcn_der h dh pos i (nbs i) k a (x_e1 t) (x_n1 t) (x_l t) m H ltac:(lia) Ha) as [v1 [E1 D1]].
  destruct (pcn_der h dh pos i (nbs i) k a (x_e2 t) (x_n2 t) (x_l t) m H ltac:(lia) Ha) as [v2 [E2 D2]].
  rewrite E1, E2. cbn [obind]. eexists; split; [reflexivity|].
  pose proof (x3_der (x_l t) m _ _ _ _ D1 D2) as D. cbv beta in D.
  assert (Z0 : forall el n, pcn h (mv pos k a 0) i (nbs i) el n (x_l t) m = pcn h pos i (nbs i) el n (x_l t) m).
  { intros el n. unfold pcn. clear. induction (nbs i) as [|b l IH]; [reflexivity|]. cbn [psum]. rewrite mv_disp_0. now rewrite IH. }
  rewrite !Z0 in D. exact D.
Qed.

(** An atom that is neither i nor one of its neighbours has no part in it. *)
Lemma dX3_far h dh pos nbs i k a t :
  (forall b, In b (nbs i) -> gen0 (disp pos i b)) -> k <> i -> (forall b, In b (nbs i) -> n_at b <> k) -> dX3 h dh pos nbs i k a t = Ok 0.
Proof.
  intros H Hk Hb. unfold dX3.
  assert (D : forall el n l m, dcnlm h dh pos i (nbs i) k a el n l m = Ok (RtoC 0)).
  { intros el n l m. unfold dcnlm. rewrite (csum_ok _ (fun _ => RtoC 0)).
    - f_equal. clear. induction (nbs i) as [|b l IH]; [reflexivity|]. cbn [psum]. rewrite IH. apply Ceq; cbn; ring.
    - intros b Hin. destruct (_ =? _)%nat; [|reflexivity]. destruct (Nat.eqb_spec (n_at b) i); [reflexivity|].
      destruct (Nat.eqb_spec k i); [contradiction|]. destruct (Nat.eqb_spec (n_at b) k) as [E|E]; [now apply Hb in E|reflexivity]. }
  rewrite (osum_ok _ (fun _ => 0)); [f_equal; apply lsum_zero; reflexivity|]. intros m Hm. apply in_seq in Hm.
  rewrite !cnlm_ok by (auto; lia). cbn [obind]. rewrite !D. cbn [obind]. f_equal. unfold dx3_term. destruct m; cbn [Re Cmult Cplus Cconj RtoC fst snd]; unfold Re; cbn [fst snd]; ring.
Qed.

(** ** The kernel *)
Lemma dot_nonneg idx X : 0 <= dot idx X X.
Proof. unfold dot. induction idx as [|t l IH]; cbn [lsum]; [lra|]. nra. Qed.
Lemma dot_comm idx X Y : dot idx X Y = dot idx Y X.
Proof. unfold dot. apply lsum_ext. intros; ring. Qed.
Lemma dot_zero idx X Y : dot idx X X = 0 -> dot idx X Y = 0.
Proof.
  unfold dot. induction idx as [|t l IH]; cbn [lsum]; [reflexivity|]. intros H. pose proof (dot_nonneg l X) as N. unfold dot in N.
  assert (X t = 0) by nra. assert (E : lsum (fun t => X t * X t) l = 0) by nra. rewrite (IH E). rewrite H0. ring.
Qed.
Lemma dot_pos idx X Y : 0 < dot idx X Y -> 0 < dot idx X X /\ 0 < dot idx Y Y.
Proof.
  intros H. split.
  - destruct (Rle_lt_or_eq_dec _ _ (dot_nonneg idx X)) as [P|E]; [exact P|]. rewrite (dot_zero idx X Y) in H by auto. lra.
  - rewrite dot_comm in H. destruct (Rle_lt_or_eq_dec _ _ (dot_nonneg idx Y)) as [P|E]; [exact P|]. rewrite (dot_zero idx Y X) in H by auto. lra.
Qed.
Definition kval idx xi3 X T : R := Rpower (dot idx X T / (sqrt (dot idx X X) * sqrt (dot idx T T))) xi3.
Lemma dot_scaled idx X T p q : p <> 0 -> q <> 0 -> dot idx (fun t => X t / p) (fun t => T t / q) = dot idx X T / (p * q).
Proof.
  intros Hp Hq. unfold dot. rewrite (lsum_ext _ (fun t => / (p * q) * (X t * T t))) by (intros; field; auto). rewrite lsum_scal. unfold Rdiv. ring.
Qed.
Lemma kernel_ok idx xi3 X T : 0 < dot idx X T -> kernel idx xi3 X T = Ok (kval idx xi3 X T).
Proof.
  intros H. destruct (dot_pos idx X T H) as [HX HT]. pose proof (sqrt_lt_R0 _ HX) as SX. pose proof (sqrt_lt_R0 _ HT) as ST.
  unfold kernel, kval. destruct (Req_EM_T _ 0) as [E|E]; [lra|]. destruct (Req_EM_T (sqrt (dot idx T T)) 0) as [E2|E2]; [lra|].
  rewrite dot_scaled by lra. destruct (Rlt_dec 0 _) as [P|P]; [reflexivity|]. exfalso. apply P. apply Rdiv_lt_0_compat; [exact H|]. now apply Rmult_lt_0_compat.
Qed.
Definition zval idx X T v : R := dot idx v T / dot idx X T - dot idx X v / dot idx X X.
Lemma zdot_ok idx (X : nat -> xidx -> R) c i v : 0 < dot idx (X i) (t_X c) -> zdot idx X c i v = Ok (zval idx (X i) (t_X c) v).
Proof.
  intros H. destruct (dot_pos _ _ _ H) as [HX HT]. unfold zdot.
  set (nx := sqrt (dot idx (X i) (X i)) * sqrt (dot idx (X i) (X i))). assert (En : nx = dot idx (X i) (X i)) by (unfold nx; apply sqrt_sqrt; lra).
  rewrite (osum_ok _ (fun t => (t_X c t / dot idx (X i) (t_X c) - X i t / nx) * v t)).
  - f_equal. rewrite En. unfold zval.
    transitivity (lsum (fun t => / dot idx (X i) (t_X c) * (v t * t_X c t) + - / dot idx (X i) (X i) * (X i t * v t)) idx); [apply lsum_ext; intros; field; lra|].
    rewrite lsum_plus, !lsum_scal. fold (dot idx v (t_X c)). fold (dot idx (X i) v). unfold Rdiv. ring.
  - intros t _. unfold zit. fold nx. unfold qdiv. destruct (Req_EM_T _ 0); [lra|]. cbn [obind]. destruct (Req_EM_T nx 0); [lra|]. reflexivity.
Qed.
Lemma dot_derive idx (X : R -> xidx -> R) X' T : (forall t, In t idx -> is_derive (fun s => X s t) 0 (X' t)) -> is_derive (fun s => dot idx (X s) T) 0 (dot idx X' T).
Proof.
  intros H. unfold dot. apply (lsum_derive (fun s t => X s t * T t)). intros t Ht.
  eapply der_eq; [apply (mul_derive (fun s => X s t) (fun _ => T t) 0 _ 0 (H t Ht)); apply const_derive|]. ring.
Qed.
Lemma dot_derive2 idx (X : R -> xidx -> R) X' : (forall t, In t idx -> is_derive (fun s => X s t) 0 (X' t)) -> is_derive (fun s => dot idx (X s) (X s)) 0 (2 * dot idx (X 0) X').
Proof.
  intros H. unfold dot. rewrite <- lsum_scal. apply (lsum_derive (fun s t => X s t * X s t)). intros t Ht.
  eapply der_eq; [apply (mul_derive (fun s => X s t) (fun s => X s t) 0 _ _ (H t Ht) (H t Ht))|]. ring.
Qed.
Lemma kval_derive idx xi3 (X : R -> xidx -> R) X' T : (forall t, In t idx -> is_derive (fun s => X s t) 0 (X' t)) -> 0 < dot idx (X 0) T ->
  is_derive (fun s => kval idx xi3 (X s) T) 0 (xi3 * kval idx xi3 (X 0) T * zval idx (X 0) T X').
Proof.
  intros H P. destruct (dot_pos _ _ _ P) as [HX HT].
  pose proof (dot_derive idx X X' T H) as D1. pose proof (dot_derive2 idx X X' H) as D2.
  set (N := sqrt (dot idx T T)). assert (HN : 0 < N) by (apply sqrt_lt_R0; exact HT).
  set (f := fun s => dot idx (X s) T) in *. set (g := fun s => dot idx (X s) (X s)) in *.
  change (fun s => kval idx xi3 (X s) T) with (fun s => exp (xi3 * ln (f s / (sqrt (g s) * N)))).
  assert (Eg : 0 < g 0) by exact HX. assert (Ef : 0 < f 0) by exact P. pose proof (sqrt_lt_R0 _ Eg) as SG.
  assert (D3 : is_derive (fun s => sqrt (g s)) 0 (2 * dot idx (X 0) X' / (2 * sqrt (g 0)))).
  { eapply der_eq; [apply (is_derive_sqrt g 0 _ D2 Eg)|]. field. lra. }
  assert (D4 : is_derive (fun s => f s / (sqrt (g s) * N)) 0 ((dot idx X' T * (sqrt (g 0) * N) - f 0 * (2 * dot idx (X 0) X' / (2 * sqrt (g 0)) * N)) / (sqrt (g 0) * N) ^ 2)).
  { assert (D5 : is_derive (fun s => sqrt (g s) * N) 0 (2 * dot idx (X 0) X' / (2 * sqrt (g 0)) * N)).
    { eapply der_eq; [apply (mul_derive (fun s => sqrt (g s)) (fun _ => N) 0 _ 0 D3); apply const_derive|]. ring. }
    apply (is_derive_div f (fun s => sqrt (g s) * N) 0 _ _ D1 D5). apply Rmult_integral_contrapositive_currified; lra. }
  set (q := fun s => f s / (sqrt (g s) * N)) in *. match type of D4 with is_derive _ _ ?v => set (q' := v) in D4 end.
  assert (Q : 0 < q 0) by (unfold q; apply Rdiv_lt_0_compat; [exact Ef|apply Rmult_lt_0_compat; lra]).
  eapply der_eq; [apply (is_derive_comp (fun u => exp (xi3 * ln u)) q 0 (xi3 / q 0 * exp (xi3 * ln (q 0))) q')|].
  - auto_derive; [exact Q|]. field. lra.
  - exact D4.
  - unfold scal; cbn; unfold mult; cbn. unfold kval, Rpower. fold N. change (dot idx (X 0) T / (sqrt (dot idx (X 0) (X 0)) * N)) with (q 0).
    set (ex := exp (xi3 * ln (q 0))). unfold zval. change (dot idx (X 0) T) with (f 0). change (dot idx (X 0) (X 0)) with (g 0).
    assert (EG : g 0 = sqrt (g 0) * sqrt (g 0)) by (symmetry; apply sqrt_sqrt; lra). unfold q', q. set (G := sqrt (g 0)) in *. rewrite EG. field. repeat split; lra.
Qed.
