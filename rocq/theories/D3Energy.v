(** Lemmas on the sums of the DFT-D3 energy. *)
From Coq Require Import ZArith Reals List Lia Lra Bool Permutation.
From Verif Require Import CBase Nloc NlocLem VnlOp VnlLem VnlMain D3 D3Spec D3ESpec D3Lem D3Der D3Main P_D3 P_D3Img.
Import ListNotations.
Local Open Scope R_scope.

(** ** Symmetric sums over triples *)
Lemma sym3 (G : Z -> Z -> Z -> R) : (forall i j k, G i k j = G i j k) -> (forall i j k, G j i k = G i j k) ->
  forall k, (0 <= k)%Z ->
  rsum (map (fun i => rsum (map (fun j => rsum (map (fun x => wgt3 i j x * G i j x) (zrange 0 j))) (zrange 0 i))) (zrange 0 (k - 1)))
  = / 6 * rsum (map (fun i => rsum (map (fun j => rsum (map (fun x => G i j x) (zrange 0 (k - 1)))) (zrange 0 (k - 1)))) (zrange 0 (k - 1))).
Proof.
  intros S1 S2. apply natlike_ind; [cbn; ring|]. intros k Hk IH. replace (Z.succ k - 1)%Z with k by lia.
  rewrite (rsum_last 0 k (fun i => rsum (map (fun j => rsum (map (fun x => wgt3 i j x * G i j x) (zrange 0 j))) (zrange 0 i)))) by lia.
  rewrite IH. clear IH. cbv beta.
  rewrite (rsum_last 0 k (fun j => rsum (map (fun x => wgt3 k j x * G k j x) (zrange 0 j)))) by lia. cbv beta.
  set (L := zrange 0 (k - 1)) in *.
  assert (InL : forall x, In x L -> (0 <= x < k)%Z) by (intros x Hx; apply in_zrange in Hx; lia).
  (* the new terms of the loop *)
  assert (E1 : rsum (map (fun j => rsum (map (fun x => wgt3 k j x * G k j x) (zrange 0 j))) L)
    = / 2 * rsum (map (fun j => rsum (map (G k j) L)) L)).
  { transitivity (rsum (map (fun j => rsum (map (fun x => (if (j =? x)%Z then / 2 else / 2 + / 2) * G k j x) (zrange 0 j))) L)).
    - apply ksum_ext. intros j Hj. apply InL in Hj. apply ksum_ext. intros x Hx. apply in_zrange in Hx. f_equal.
      unfold wgt3. replace (k =? j)%Z with false by (symmetry; apply Z.eqb_neq; lia). cbn [andb orb].
      destruct (j =? x)%Z; lra.
    - unfold L. rewrite <- (tri_sum (fun _ => / 2) (G k) (fun i j => S1 k i j) k Hk). apply (ksum_mul_l _ _ _ _ _ _ RTheory). }
  assert (E2 : rsum (map (fun x => wgt3 k k x * G k k x) (zrange 0 k)) = / 2 * rsum (map (G k k) L) + / 6 * G k k k).
  { rewrite (rsum_last 0 k (fun x => wgt3 k k x * G k k x)) by lia. fold L. cbv beta. f_equal.
    - rewrite <- (ksum_mul_l _ _ _ _ _ _ RTheory). apply ksum_ext. intros x Hx. apply InL in Hx. unfold wgt3.
      rewrite Z.eqb_refl. replace (k =? x)%Z with false by (symmetry; apply Z.eqb_neq; lia). cbn [andb orb]. lra.
    - unfold wgt3. rewrite Z.eqb_refl. cbn [andb]. lra. }
  rewrite E1, E2. clear E1 E2.
  (* the new terms of the full sum *)
  assert (F1 : forall i, rsum (map (fun j => rsum (map (fun x => G i j x) (zrange 0 k))) (zrange 0 k))
    = rsum (map (fun j => rsum (map (fun x => G i j x) L)) L) + 2 * rsum (map (fun j => G k i j) L) + G k k i).
  { intros i. rewrite (rsum_last 0 k (fun j => rsum (map (fun x => G i j x) (zrange 0 k)))) by lia. fold L. cbv beta.
    rewrite (rsum_last 0 k (fun x => G i k x)) by lia. fold L. cbv beta.
    transitivity (rsum (map (fun j => rsum (map (fun x => G i j x) L) + G k i j) L) + (rsum (map (fun x => G k i x) L) + G k k i)).
    - f_equal; [|f_equal].
      + apply ksum_ext. intros j _. rewrite (rsum_last 0 k (fun x => G i j x)) by lia. fold L. cbv beta. f_equal.
        rewrite (S2 i k j). apply (S1 i k j).
      + apply ksum_ext. intros x _. symmetry. apply S2.
      + rewrite (S1 k i k). apply S2.
    - rewrite (ksum_add _ _ _ _ _ _ RTheory). cbv beta. set (q1 := rsum (map (fun j => G k i j) L)). set (q2 := rsum (map (fun j => rsum (map (fun x => G i j x) L)) L)). ring. }
  rewrite (rsum_last 0 k (fun i => rsum (map (fun j => rsum (map (fun x => G i j x) (zrange 0 k))) (zrange 0 k)))) by lia.
  fold L. cbv beta. rewrite (F1 k).
  transitivity (/ 6 * (rsum (map (fun i => rsum (map (fun j => rsum (map (fun x => G i j x) L)) L) + 2 * rsum (map (fun j => G k i j) L) + G k k i) L)
    + (rsum (map (fun j => rsum (map (fun x => G k j x) L)) L) + 2 * rsum (map (fun j => G k k j) L) + G k k k))).
  2:{ f_equal. f_equal. apply ksum_ext. intros i _. symmetry. apply F1. }
  rewrite !(ksum_add _ _ _ _ _ _ RTheory), (ksum_mul_l _ _ _ _ _ _ RTheory).
  change (fun x : Z => G k k x) with (G k k). change (fun j : Z => G k k j) with (G k k).
  set (A := rsum (map (fun x => rsum (map (fun j => rsum (map (fun x0 => G x j x0) L)) L)) L)).
  change (fun i : Z => rsum (map (fun j : Z => G k i j) L)) with (fun j : Z => rsum (map (G k j) L)).
  change (fun j : Z => rsum (map (fun x : Z => G k j x) L)) with (fun j : Z => rsum (map (G k j) L)).
  field.
Qed.

(** A sum over an involution. *)
Lemma rsum_inv {A} (dec : forall x y : A, {x = y} + {x <> y}) (P : list A) (phi : A -> A) (f : A -> R) : NoDup P ->
  (forall x, phi (phi x) = x) -> (forall x, In x P -> In (phi x) P) ->
  rsum (map (fun x => f (phi x)) P) = rsum (map f P).
Proof.
  intros ND I C. rewrite <- (map_map phi f). apply (ksum_same _ _ _ _ _ _ RTheory dec).
  - apply FinFun.Injective_map_NoDup; [|exact ND]. intros x y E. rewrite <- (I x), E. apply I.
  - exact ND.
  - intros m H N. contradict N. apply in_map_iff in H. destruct H as (m' & <- & H). now apply C.
  - intros m H N. contradict N. apply in_map_iff. exists (phi m). split; [apply I|now apply C].
Qed.

Lemma v_e_sum {A} (F : A -> ev) l : v_e (esum (map F l)) = rsum (map (fun x => v_e (F x)) l).
Proof. induction l as [|x l IH]; cbn [map esum fold_right ksum]; [reflexivity|]. cbn [eadd v_e]. fold (esum (map F l)). now rewrite IH. Qed.

Definition pp := (img * img)%type.
Lemma pp_dec (x y : pp) : {x = y} + {x <> y}.
Proof. repeat decide equality. Defined.

(** Pairs of images at which all three differences are enumerated. *)
Definition PP (k : img) : list pp := flat_map (fun m => map (fun m' => (m, m')) (scope k m)) (imgs k).
Definition PN (N : img) : list pp := flat_map (fun m => map (fun m' => (m, m')) (imgs N)) (imgs N).

Lemma in_scope_iff k m m' : In m (imgs k) -> (In m' (scope k m) <-> In m' (imgs k) /\ In (isub m' m) (imgs k)).
Proof.
  intros H. split; [intros H'; now apply in_scope|]. intros [H1 H2]. unfold scope. destruct k as [[a b] c], m as [[x y] z], m' as [[x' y'] z'].
  rewrite in_imgs in *. cbn [isub] in H2. apply in_box. lia.
Qed.
Lemma in_PP k p : In p (PP k) <-> In (fst p) (imgs k) /\ In (snd p) (imgs k) /\ In (isub (snd p) (fst p)) (imgs k).
Proof.
  unfold PP. rewrite in_flat_map. split.
  - intros (m & H & H'). apply in_map_iff in H'. destruct H' as (m' & <- & H'). cbn [fst snd]. apply (in_scope_iff k m m' H) in H'. tauto.
  - destruct p as [m m']. cbn [fst snd]. intros (H & H1 & H2). exists m. split; [exact H|]. apply in_map. apply in_scope_iff; tauto.
Qed.
Lemma in_PN k p : In p (PN k) <-> In (fst p) (imgs k) /\ In (snd p) (imgs k).
Proof.
  unfold PN. rewrite in_flat_map. split.
  - intros (m & H & H'). apply in_map_iff in H'. destruct H' as (m' & <- & H'). cbn [fst snd]. tauto.
  - destruct p as [m m']. cbn [fst snd]. intros (H & H1). exists m. split; [exact H|]. apply in_map. exact H1.
Qed.
Lemma NoDup_pairs (L : list img) (M : img -> list img) : NoDup L -> (forall m, NoDup (M m)) ->
  NoDup (flat_map (fun m => map (fun m' => (m, m')) (M m)) L).
Proof.
  intros NL NM. induction NL as [|x L Hx NL IH]; cbn [flat_map]; [constructor|]. apply NoDup_app_disjoint.
  - apply FinFun.Injective_map_NoDup; [|apply NM]. intros a b E. now inversion E.
  - exact IH.
  - intros p H1 H2. apply in_map_iff in H1. destruct H1 as (m' & <- & _). apply in_flat_map in H2. destruct H2 as (y & Hy & H2).
    apply in_map_iff in H2. destruct H2 as (m2 & E & _). inversion E. subst. contradiction.
Qed.
Lemma NoDup_PP k : NoDup (PP k).
Proof. apply NoDup_pairs; [apply NoDup_imgs|]. intros [[x y] z]. unfold scope. destruct k as [[a b] c]. apply NoDup_box. Qed.
Lemma NoDup_PN k : NoDup (PN k).
Proof. apply NoDup_pairs; [apply NoDup_imgs|]. intros m. apply NoDup_imgs. Qed.
Lemma rsum_pairs (L : list img) (M : img -> list img) (f : img -> img -> R) :
  rsum (map (fun m => rsum (map (f m) (M m))) L) = rsum (map (fun p : pp => f (fst p) (snd p)) (flat_map (fun m => map (fun m' => (m, m')) (M m)) L)).
Proof.
  rewrite (ksum_flat_map _ _ _ _ _ _ RTheory). apply ksum_ext. intros m _. rewrite map_map. reflexivity.
Qed.

Definition sw (p : pp) : pp := (snd p, fst p).
Definition re (p : pp) : pp := (ineg (fst p), isub (snd p) (fst p)).
Lemma sw_inv p : sw (sw p) = p. Proof. now destruct p. Qed.
Lemma isub_neg m m' : isub m m' = ineg (isub m' m).
Proof. destruct m as [[x y] z], m' as [[x' y'] z']. cbn. f_equal; [f_equal|]; lia. Qed.
Lemma isub_re m m' : isub (isub m' m) (ineg m) = m'.
Proof. destruct m as [[x y] z], m' as [[x' y'] z']. cbn. f_equal; [f_equal|]; lia. Qed.
Lemma re_inv p : re (re p) = p.
Proof. destruct p as [m m']. unfold re. cbn [fst snd]. now rewrite ineg_inv, isub_re. Qed.
Lemma sw_in k p : In p (PP k) -> In (sw p) (PP k).
Proof. rewrite !in_PP. destruct p as [m m']. unfold sw. cbn [fst snd]. intros (H1 & H2 & H3). rewrite (isub_neg m m'). auto using in_ineg. Qed.
Lemma re_in k p : In p (PP k) -> In (re p) (PP k).
Proof. rewrite !in_PP. destruct p as [m m']. unfold re. cbn [fst snd]. rewrite isub_re. intros (H1 & H2 & H3). auto using in_ineg. Qed.

(** ** The symmetric form of a triple *)
Section TRI.
Variables (sq r0 : Z -> Z -> R) (cn_thr : R) (pos : Z -> vec) (l : lat).
Hypothesis SQ : forall i j, sq j i = sq i j.
Hypothesis R0 : forall i j, r0 j i = r0 i j.
Notation dd := (dq pos l).

Definition bad (x : R) : bool := if Rlt_dec cn_thr x then true else if Rlt_dec x (/ 10 ^ 15) then true else false.
Definition val (i j k : Z) (a b c : R) : R :=
  1 / (1 + 6 * ((4 / 3) / Rpower ((sqrt a / r0 i j) * (sqrt b / r0 i k) * (sqrt c / r0 j k)) (1 / 3)) ^ 16)
  * (sq i j * sq i k * sq j k)
  * (((3 / 8) * (a + c - b) * (a + b - c) * (b + c - a) / (a * c * b) + 1) / Rpower (a * c * b) (3 / 2)).
Definition X (i j k : Z) (p : pp) : R :=
  let a := dd i j (fst p) in let b := dd i k (snd p) in let c := dd j k (isub (snd p) (fst p)) in
  if bad a || bad b || bad c then 0 else val i j k a b c.

Lemma dq_neg i j m : dd j i (ineg m) = dd i j m.
Proof. exact (dq_sym (fun _ => pos) (fun _ => l) 0 i j m). Qed.

Lemma val_sw i j k a b c : val i k j b a c = val i j k a b c.
Proof.
  unfold val. rewrite (R0 j k), (SQ j k).
  replace (sqrt b / r0 i k * (sqrt a / r0 i j) * (sqrt c / r0 j k)) with (sqrt a / r0 i j * (sqrt b / r0 i k) * (sqrt c / r0 j k)) by ring.
  replace (b * c * a) with (a * c * b) by ring. replace (3 / 8 * (b + c - a) * (b + a - c) * (a + c - b)) with (3 / 8 * (a + c - b) * (a + b - c) * (b + c - a)) by ring.
  ring.
Qed.
Lemma val_re i j k a b c : val j i k a c b = val i j k a b c.
Proof.
  unfold val. rewrite (R0 i j), (SQ i j).
  replace (sqrt a / r0 i j * (sqrt c / r0 j k) * (sqrt b / r0 i k)) with (sqrt a / r0 i j * (sqrt b / r0 i k) * (sqrt c / r0 j k)) by ring.
  replace (a * b * c) with (a * c * b) by ring. replace (3 / 8 * (a + b - c) * (a + c - b) * (c + b - a)) with (3 / 8 * (a + c - b) * (a + b - c) * (b + c - a)) by ring.
  ring.
Qed.
Lemma X_sw i j k p : X i k j (sw p) = X i j k p.
Proof.
  destruct p as [m m']. unfold X, sw. cbn [fst snd]. rewrite (isub_neg m m'), dq_neg. cbv zeta.
  rewrite val_sw. rewrite (orb_comm (bad (dd i k m')) (bad (dd i j m))). reflexivity.
Qed.
Lemma X_re i j k p : X j i k (re p) = X i j k p.
Proof.
  destruct p as [m m']. unfold X, re. cbn [fst snd]. rewrite isub_re, dq_neg. cbv zeta.
  rewrite val_re. rewrite <- !orb_assoc, (orb_comm (bad (dd j k _))). reflexivity.
Qed.
Definition B (k0 : img) (i j k : Z) : R := rsum (map (X i j k) (PP k0)).
Lemma B_sw k0 i j k : B k0 i k j = B k0 i j k.
Proof.
  unfold B. rewrite <- (rsum_inv pp_dec (PP k0) sw (X i k j) (NoDup_PP k0) sw_inv (sw_in k0)). apply ksum_ext. intros p _. apply X_sw.
Qed.
Lemma B_re k0 i j k : B k0 j i k = B k0 i j k.
Proof.
  unfold B. rewrite <- (rsum_inv pp_dec (PP k0) re (X j i k) (NoDup_PP k0) re_inv (re_in k0)). apply ksum_ext. intros p _. apply X_re.
Qed.
End TRI.
