(** The Lanczos process of SqGauss.v: orthonormal vectors and the three-term
    relation. *)
From Coq Require Import ZArith Reals List Lia Lra Bool.
From Verif Require Import CBase Nloc NlocLem VnlOp VnlLem VnlMain SqGauss SqQl.
Import ListNotations.
Local Open Scope R_scope.

Section Lz.
Variable H : vec -> vec.
Variable N : Z.
(** [H] is symmetric on vectors of length [N]. *)
Hypothesis Hsym : forall u v, vdot N u (H v) = vdot N (H u) v.

Definition V (vs : list vec) (k : Z) : vec := nth (Z.to_nat k) vs (fun _ => 0).

Lemma V_app vs v k : (0 <= k < Z.of_nat (length vs))%Z -> V (vs ++ [v]) k = V vs k.
Proof. intros. unfold V. apply app_nth1. lia. Qed.
Lemma V_last vs v : V (vs ++ [v]) (Z.of_nat (length vs)) = v.
Proof. unfold V. rewrite Nat2Z.id, app_nth2 by lia. now rewrite Nat.sub_diag. Qed.

Lemma vdot_nonneg u : 0 <= vdot N u u.
Proof.
  unfold vdot. induction (zrange 0 (N - 1)) as [|x l IH]; cbn [map ksum]; [lra|]. nra.
Qed.
Lemma vdot_scal a u v : vdot N (fun x => a * u x) v = a * vdot N u v.
Proof. unfold vdot. rewrite <- (ksum_mul_l _ _ _ _ _ _ RTheory). apply ksum_ext. intros; ring. Qed.
Lemma unit_vdiv u v : vdiv u (norm2 N u) = Some v -> norm2 N u <> 0 /\ (forall i, u i = norm2 N u * v i) /\ vdot N v v = 1.
Proof.
  unfold vdiv. destruct (Req_EM_T (norm2 N u) 0) as [|A]; [discriminate|]. intros E0. injection E0 as <-.
  assert (NN : norm2 N u * norm2 N u = vdot N u u) by (apply sqrt_sqrt, vdot_nonneg).
  split; [exact A|]. split; [intros; field; exact A|].
  rewrite (vdot_ext N _ _ (fun x => / norm2 N u * u x) (fun x => / norm2 N u * u x)) by (intros; field; exact A).
  rewrite vdot_scal, vdot_comm, vdot_scal, <- NN. field. exact A.
Qed.

(** Part of [H v] outside of the three-term relation. *)
Definition resid (vs : list vec) (aa bb : vec) (k : Z) : vec := fun i =>
  H (V vs k) i - aa k * V vs k i - (if (0 <? k)%Z then bb (k - 1)%Z * V vs (k - 1) i else 0).

Record inv (c : Z) (vs : list vec) (aa bb : vec) : Prop := {
  i_orth : forall i j, (0 <= i <= c)%Z -> (0 <= j <= c)%Z -> vdot N (V vs i) (V vs j) = kd i j;
  i_three : forall k i, (0 <= k < c)%Z -> (0 <= i < N)%Z -> resid vs aa bb k i = bb k * V vs (k + 1) i }.

Lemma three c vs aa bb : inv c vs aa bb -> forall k, (0 <= k < c)%Z -> forall u,
  vdot N (H (V vs k)) u = (if (0 <? k)%Z then bb (k - 1)%Z * vdot N (V vs (k - 1)) u else 0) + aa k * vdot N (V vs k) u + bb k * vdot N (V vs (k + 1)) u.
Proof.
  intros I k Hk u.
  rewrite (vdot_ext N _ u (fun i => 1 * ((if (0 <? k)%Z then bb (k - 1)%Z else 0) * V vs (k - 1) i + aa k * V vs k i) + bb k * V vs (k + 1) i) u).
  - rewrite vdot_lin, vdot_lin. destruct (0 <? k)%Z; ring.
  - intros i Hi. rewrite <- (i_three _ _ _ _ I k i Hk Hi). unfold resid. destruct (0 <? k)%Z; ring.
  - reflexivity.
Qed.

(** The residual of the last vector is orthogonal to all vectors. *)
Lemma resid_orth c vs aa bb : (0 <= c)%Z -> inv c vs aa bb -> aa c = vdot N (V vs c) (H (V vs c)) ->
  forall j, (0 <= j <= c)%Z -> vdot N (resid vs aa bb c) (V vs j) = 0.
Proof.
  intros Hc I Ha j Hj.
  assert (X : vdot N (resid vs aa bb c) (V vs j) = vdot N (H (V vs c)) (V vs j) - aa c * kd c j - (if (0 <? c)%Z then bb (c - 1)%Z * kd (c - 1) j else 0)).
  { rewrite (vdot_ext N _ (V vs j) (fun i => 1 * (1 * H (V vs c) i + (- aa c) * V vs c i) + (if (0 <? c)%Z then - bb (c - 1)%Z else 0) * V vs (c - 1) i) (V vs j)).
    - rewrite vdot_lin, vdot_lin, (i_orth _ _ _ _ I c j) by lia. destruct (Z.ltb_spec 0 c); [rewrite (i_orth _ _ _ _ I (c - 1)%Z j) by lia|]; ring.
    - intros i Hi. unfold resid. destruct (0 <? c)%Z; ring.
    - reflexivity. }
  rewrite X. destruct (Z.eq_dec j c) as [->|A].
  - rewrite kd_refl, vdot_comm, <- Ha. destruct (Z.ltb_spec 0 c); [rewrite (kd_neq (c - 1) c) by lia|]; ring.
  - rewrite <- Hsym, vdot_comm, (three c vs aa bb I) by lia.
    rewrite (kd_neq c j) by lia.
    rewrite (i_orth _ _ _ _ I j c) by lia. rewrite (kd_neq j c) by lia. rewrite (i_orth _ _ _ _ I (j + 1)%Z c) by lia.
    destruct (Z.ltb_spec 0 c); [|lia].
    assert (Q : (if (0 <? j)%Z then bb (j - 1)%Z * vdot N (V vs (j - 1)) (V vs c) else 0) = 0).
    { destruct (Z.ltb_spec 0 j); [|reflexivity]. rewrite (i_orth _ _ _ _ I) by lia. rewrite kd_neq by lia. ring. }
    rewrite Q. destruct (Z.eq_dec (j + 1) c) as [B|B].
    + replace (c - 1)%Z with j by lia. rewrite B, !kd_refl. ring.
    + rewrite (kd_neq (j + 1) c), (kd_neq (c - 1) j) by lia. ring.
Qed.

Lemma resid_app vs v aa bb k i : (0 <= k < Z.of_nat (length vs))%Z -> resid (vs ++ [v]) aa bb k i = resid vs aa bb k i.
Proof.
  intros Hk. unfold resid. rewrite V_app by lia. destruct (Z.ltb_spec 0 k); [rewrite V_app by lia|]; reflexivity.
Qed.

(** Adding the normalised residual. *)
Lemma inv_next c vs aa bb v : (0 <= c)%Z -> Z.of_nat (length vs) = (c + 1)%Z -> inv c vs aa bb ->
  aa c = vdot N (V vs c) (H (V vs c)) -> bb c <> 0 -> (forall i, resid vs aa bb c i = bb c * v i) -> vdot N v v = 1 ->
  inv (c + 1) (vs ++ [v]) aa bb.
Proof.
  intros Hc HL I Ha B0 Bv B1.
  assert (Vl : V (vs ++ [v]) (c + 1) = v) by (rewrite <- HL; apply V_last).
  assert (Vo : forall j, (0 <= j <= c)%Z -> vdot N v (V vs j) = 0).
  { intros j Hj. apply Rmult_eq_reg_l with (bb c); [|exact B0]. rewrite <- vdot_scal.
    rewrite (vdot_ext N _ (V vs j) (resid vs aa bb c) (V vs j)) by (intros; first [reflexivity | symmetry; apply Bv]).
    rewrite (resid_orth c vs aa bb) by assumption. ring. }
  constructor.
  - intros i j Hi Hj. destruct (Z.eq_dec i (c + 1)) as [->|A], (Z.eq_dec j (c + 1)) as [->|B].
    + rewrite Vl, kd_refl. exact B1.
    + rewrite Vl, V_app, kd_neq by lia. apply Vo. lia.
    + rewrite Vl, V_app, kd_neq by lia. rewrite vdot_comm. apply Vo. lia.
    + rewrite !V_app by lia. apply (i_orth _ _ _ _ I); lia.
  - intros k i Hk Hi. rewrite resid_app by lia. destruct (Z.eq_dec k c) as [->|A].
    + rewrite Vl. apply Bv.
    + rewrite V_app by lia. apply (i_three _ _ _ _ I); lia.
Qed.

Lemma inv_upd c vs aa bb x y : inv c vs aa bb -> inv c vs (upd aa c x) bb /\ inv c vs aa (upd bb c y).
Proof.
  intros I. split; constructor; try (apply (i_orth _ _ _ _ I)); intros k i Hk Hi.
  - rewrite <- (i_three _ _ _ _ I k i Hk Hi). unfold resid. now rewrite upd_neq by lia.
  - rewrite upd_neq by lia. rewrite <- (i_three _ _ _ _ I k i Hk Hi). unfold resid.
    destruct (Z.ltb_spec 0 k); [rewrite upd_neq by lia|]; reflexivity.
Qed.

Section Run.
Variable npl : Z.

(** The state at the head of the loop. *)
Definition head (t0 : vec) (c : Z) (st : lz) : Prop :=
  inv (c + 1) (l_vs st) (l_aa st) (l_bb st) /\ Z.of_nat (length (l_vs st)) = (c + 2)%Z /\
  l_km1 st = V (l_vs st) c /\ l_vk st = Some (V (l_vs st) (c + 1)) /\
  (forall i, V (l_vs st) 0 i = t0 i / norm2 N t0).

(** The result. *)
Record done (t0 : vec) (st : lz) : Prop := {
  d_inv : inv (npl - 1) (l_vs st) (l_aa st) (l_bb st);
  d_len : Z.of_nat (length (l_vs st)) = npl;
  d_last : forall j, (0 <= j < npl)%Z -> vdot N (resid (l_vs st) (l_aa st) (l_bb st) (npl - 1)) (V (l_vs st) j) = 0;
  d_first : forall i, V (l_vs st) 0 i = t0 i / norm2 N t0 }.

Lemma init_ok t0 st : lz_init H N npl t0 = Ok st -> (2 <= npl)%Z /\ norm2 N t0 <> 0 /\ head t0 0 st.
Proof.
  unfold lz_init. destruct (vdiv t0 (norm2 N t0)) as [v0|] eqn:D0; [|discriminate]. cbn [use obind].
  unfold put at 1. cbn [length]. destruct (Z.ltb_spec (Z.of_nat 0) npl); [|discriminate]. cbn [obind app].
  set (a0 := vdot N v0 (H v0)). set (w := fun i => H v0 i - a0 * v0 i).
  destruct (vdiv w (norm2 N w)) as [v1|] eqn:D1; [|discriminate]. cbn [use obind].
  unfold put. cbn [length]. destruct (Z.ltb_spec (Z.of_nat 1) npl); [|discriminate]. cbn [obind]. intros E0. injection E0 as <-.
  split; [lia|]. apply unit_vdiv in D0. destruct D0 as (N0 & Nv & N1). split; [exact N0|].
  unfold head. cbn [l_vs l_aa l_bb l_km1 l_vk]. split; [|repeat split; intros].
  - assert (I0 : inv 0 [v0] (upd (fun _ => 0) 0 a0) (upd (fun _ => 0) 0 (norm2 N w))).
    { constructor; [|intros; lia]. intros i j Hi Hj. replace i with 0%Z by lia. replace j with 0%Z by lia. exact N1. }
    assert (RS : forall i, resid [v0] (upd (fun _ => 0) 0 a0) (upd (fun _ => 0) 0 (norm2 N w)) 0 i = w i)
      by (intros i; unfold resid; cbn [Z.ltb Z.compare]; rewrite upd_eq; unfold V, w; cbn; ring).
    change [v0; v1] with ([v0] ++ [v1]). apply (inv_next 0); try assumption; try lia; try reflexivity.
    + rewrite upd_eq. now apply unit_vdiv in D1.
    + intros i. rewrite RS, upd_eq. now apply unit_vdiv in D1.
    + now apply unit_vdiv in D1.
  - rewrite <- Rmult_1_r with (t0 i). unfold V. cbn. rewrite (Nv i). field. exact N0.
Qed.

Lemma step_ok t0 c st st' : (0 <= c <= npl - 2)%Z -> head t0 c st -> lz_step H N npl st c = Ok st' ->
  if (c =? npl - 2)%Z then done t0 st' else head t0 (c + 1) st'.
Proof.
  intros Hc (I & L & K & VK & F). unfold lz_step. rewrite VK. cbn [use obind].
  set (vk := V (l_vs st) (c + 1)) in *. set (a := vdot N vk (H vk)). rewrite upd_eq.
  set (w := fun i => H vk i - a * vk i - l_bb st c * l_km1 st i). set (b := norm2 N w).
  set (aa := upd (l_aa st) (c + 1) a). set (bb := upd (l_bb st) (c + 1) b).
  assert (RS : forall i, resid (l_vs st) aa bb (c + 1) i = w i).
  { intros i. unfold resid, w, aa, bb. rewrite upd_eq. destruct (Z.ltb_spec 0 (c + 1)); [|lia]. replace (c + 1 - 1)%Z with c by lia.
    rewrite upd_neq by lia. rewrite K. fold vk. ring. }
  assert (I' : inv (c + 1) (l_vs st) aa bb) by exact (proj2 (inv_upd _ _ _ _ 0 b (proj1 (inv_upd _ _ _ _ a 0 I)))).
  assert (A' : aa (c + 1)%Z = vdot N (V (l_vs st) (c + 1)) (H (V (l_vs st) (c + 1)))) by (unfold aa; now rewrite upd_eq).
  destruct (Z.eqb_spec c (npl - 2)) as [Q|Q].
  - cbn [obind]. intros E0. injection E0 as <-. constructor; cbn [l_vs l_aa l_bb].
    + replace (npl - 1)%Z with (c + 1)%Z by lia. exact I'.
    + lia.
    + intros j Hj. replace (npl - 1)%Z with (c + 1)%Z by lia. apply resid_orth; try assumption; lia.
    + exact F.
  - destruct (vdiv w b) as [v|] eqn:D; [|discriminate]. cbn [use obind].
    unfold put. destruct (Z.ltb_spec (Z.of_nat (length (l_vs st))) npl); [|discriminate]. cbn [obind]. intros E0. injection E0 as <-.
    unfold head. cbn [l_vs l_aa l_bb l_km1 l_vk]. split; [|repeat split].
    + apply (inv_next (c + 1)); try assumption; try lia.
      * unfold bb. rewrite upd_eq. now apply unit_vdiv in D.
      * intros i. rewrite RS. unfold bb. rewrite upd_eq. now apply unit_vdiv in D.
      * now apply unit_vdiv in D.
    + rewrite app_length. cbn [length]. lia.
    + rewrite V_app by lia. reflexivity.
    + f_equal. replace (c + 1 + 1)%Z with (Z.of_nat (length (l_vs st))) by lia. symmetry. apply V_last.
    + intros i. rewrite V_app by lia. apply F.
Qed.

Lemma lanczos_ok t0 st : lanczos H N npl t0 = Ok st -> (2 <= npl)%Z /\ norm2 N t0 <> 0 /\ done t0 st.
Proof.
  unfold lanczos. destruct (lz_init H N npl t0) as [s0| |] eqn:I0; try discriminate. cbn [obind]. apply init_ok in I0.
  destruct I0 as (Hn & N0 & Hd). intros R0. split; [exact Hn|]. split; [exact N0|].
  assert (L : forall k c s s', (0 <= c)%Z -> (c + Z.of_nat (S k) = npl - 1)%Z -> head t0 c s -> ofold (lz_step H N npl) s (zseq c (S k)) = Ok s' -> done t0 s').
  { induction k as [|k IH]; intros c s s' Hc HK HD; rewrite (eq_refl : zseq c (S _) = c :: zseq (c + 1) _); cbn [ofold];
    destruct (lz_step H N npl s c) as [s1| |] eqn:S1; try discriminate; cbn [obind]; apply (step_ok t0) in S1; try assumption; try lia;
    destruct (Z.eqb_spec c (npl - 2)); try lia.
    - cbn. intros E0. injection E0 as <-. exact S1.
    - apply IH; [lia|lia|exact S1]. }
  unfold zrange in R0. replace (Z.to_nat (npl - 2 - 0 + 1)) with (S (Z.to_nat (npl - 2))) in R0 by lia.
  revert R0. apply L; [lia|lia|exact Hd].
Qed.
End Run.
End Lz.
