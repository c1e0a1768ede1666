(** Lemmas for XcStress.v: derivatives with respect to a strain. *)
From Coq Require Import Reals ZArith List Bool Lia Lra String.
From Coquelicot Require Import Coquelicot.
From Verif Require Import CBase Collect Halo HaloLem P_Halo Xc XcLem P_Xc XcSpin XcSpinLem P_XcSpin XcGrid XcGridLem XcGridVar XcGridMain XcStress XcStressSpec.
Import ListNotations.
Local Open Scope R_scope.

Lemma det_0 e : det (deform e 0) = 1.
Proof. unfold det, sum3, cof, deform, delta, next. cbn. ring. Qed.
Lemma det_derive e : is_derive (fun x => det (deform e x)) 0 (trace e).
Proof.
  unfold det, sum3, cof, deform, delta, next, trace. cbn. auto_derive; [exact I|]. unfold sum3. ring.
Qed.
Lemma invT_0 e a b : (a < 3)%nat -> (b < 3)%nat -> invT (deform e 0) a b = delta a b.
Proof.
  intros Ha Hb. unfold invT. rewrite det_0. destruct a as [|[|[|]]]; [| | |lia]; (destruct b as [|[|[|]]]; [| | |lia]);
  unfold cof, deform, delta, next; cbn; field.
Qed.
Lemma cof_derive e a b : (a < 3)%nat -> (b < 3)%nat ->
  is_derive (fun x => cof (deform e x) a b) 0 (delta a b * trace e - e b a).
Proof.
  intros Ha Hb. destruct a as [|[|[|]]]; [| | |lia]; (destruct b as [|[|[|]]]; [| | |lia]);
  unfold cof, deform, delta, next, trace, sum3; cbn; (auto_derive; [exact I|ring]).
Qed.
Lemma invT_derive e a b : (a < 3)%nat -> (b < 3)%nat -> is_derive (fun x => invT (deform e x) a b) 0 (- e b a).
Proof.
  intros Ha Hb. unfold invT.
  eapply is_derive_eq; [apply (is_derive_div (fun x => cof (deform e x) a b) (fun x => det (deform e x)) 0);
    [now apply cof_derive|apply det_derive|rewrite det_0; lra]|].
  cbv beta. rewrite det_0. replace (cof (deform e 0) a b) with (delta a b).
  - cbn. field.
  - rewrite <- (invT_0 e a b Ha Hb). unfold invT. rewrite det_0. field.
Qed.

Definition quad (e : mat) (g : R * R * R) : R := contract e (sym6 (fun k => prod6 k g)).

(** the squared gradient on the strained crystal *)
Lemma sigma_strain e (x y z : R -> R) x' y' z' : is_derive x 0 x' -> is_derive y 0 y' -> is_derive z 0 z' ->
  is_derive (fun t => strained_sigma e t (x t, y t, z t)) 0
    (2 * (x 0 * x' + y 0 * y' + z 0 * z') - 2 * quad e (x 0, y 0, z 0)).
Proof.
  intros Hx Hy Hz. unfold strained_sigma, norm2, apply3.
  set (r := fun a t => invT (deform e t) a 0%nat * x t + invT (deform e t) a 1%nat * y t + invT (deform e t) a 2%nat * z t).
  assert (Hr : forall a, (a < 3)%nat -> is_derive (r a) 0
    ((- e 0%nat a * x 0 + delta a 0 * x') + (- e 1%nat a * y 0 + delta a 1 * y') + (- e 2%nat a * z 0 + delta a 2 * z'))).
  { intros a Ha. unfold r.
    assert (M : forall b (f : R -> R) f', (b < 3)%nat -> is_derive f 0 f' ->
      is_derive (fun t => invT (deform e t) a b * f t) 0 (- e b a * f 0 + delta a b * f')).
    { intros b f f' Hb Hf. eapply is_derive_eq; [exact (der_mult _ _ _ _ _ (invT_derive e a b Ha Hb) Hf)|].
      cbv beta. rewrite invT_0 by assumption. ring. }
    apply (der_plus (fun t => invT (deform e t) a 0%nat * x t + invT (deform e t) a 1%nat * y t) (fun t => invT (deform e t) a 2%nat * z t)).
    - apply (der_plus (fun t => invT (deform e t) a 0%nat * x t) (fun t => invT (deform e t) a 1%nat * y t)); apply M; auto; lia.
    - apply M; auto; lia. }
  assert (R0 : forall a, (a < 3)%nat -> r a 0 = delta a 0 * x 0 + delta a 1 * y 0 + delta a 2 * z 0).
  { intros a Ha. unfold r. rewrite !invT_0 by lia. reflexivity. }
  eapply is_derive_eq.
  - apply (der_plus (fun t => r 0%nat t * r 0%nat t + r 1%nat t * r 1%nat t) (fun t => r 2%nat t * r 2%nat t)).
    + apply (der_plus (fun t => r 0%nat t * r 0%nat t) (fun t => r 1%nat t * r 1%nat t)).
      * exact (der_mult _ _ _ _ _ (Hr 0%nat ltac:(lia)) (Hr 0%nat ltac:(lia))).
      * exact (der_mult _ _ _ _ _ (Hr 1%nat ltac:(lia)) (Hr 1%nat ltac:(lia))).
    + exact (der_mult _ _ _ _ _ (Hr 2%nat ltac:(lia)) (Hr 2%nat ltac:(lia))).
  - rewrite !R0 by lia. unfold quad, contract, sum3, sym6, prod6, delta. cbn [Nat.eqb]. ring.
Qed.

Section S.
  Variables (N : pt) (per : nat -> bool) (D1 : nat -> Z -> R) (F : Z) (T G : nat -> R) (cell_typ : Z).
  Hypothesis HF : forall d, (d < 3)%nat -> (F <= at_ N d)%Z.
  (** the cell is orthogonal, or lapcT is gradT times its transpose (initialization.c:3583-3593) *)
  Definition sound_cell : Prop := cell_typ = 0%Z \/
    (10 < cell_typ < 20)%Z /\ forall i j, (i < 3)%nat -> (j < 3)%nat ->
      T (3 * i + j)%nat = sum3 (fun k => G (3 * i + k)%nat * G (3 * j + k)%nat).
  Hypothesis HC : sound_cell.
  Notation cart := (cart G cell_typ).
  Notation sq3 := (sq3 T cell_typ).
  Notation D := (D N per D1 F).
  Notation grad3 := (grad3 N per D1 F).
  Notation dot_g := (dot_g N per D1 F T cell_typ).

  Lemma cell_cases : (cell_typ = 0%Z /\ nonorth cell_typ = false) \/
    ((cell_typ =? 0)%Z = false /\ nonorth cell_typ = true /\ forall i j, (i < 3)%nat -> (j < 3)%nat ->
      T (3 * i + j)%nat = sum3 (fun k => G (3 * i + k)%nat * G (3 * j + k)%nat)).
  Proof. clear HF D1.
    destruct HC as [E|(R1 & E)]; [left; split; [exact E|]; rewrite E; reflexivity|right].
    split; [lia|]. split; [unfold nonorth; lia|exact E].
  Qed.
  Lemma cell_symmetric : lapcT_symmetric T cell_typ.
  Proof. clear HF D1.
    intros Hn. destruct cell_cases as [(_ & E)|(_ & _ & E)]; [congruence|].
    pose proof (E 0 1)%nat as E01. pose proof (E 1 0)%nat as E10. pose proof (E 0 2)%nat as E02. pose proof (E 2 0)%nat as E20.
    pose proof (E 1 2)%nat as E12. pose proof (E 2 1)%nat as E21. cbn in *.
    rewrite E01, E10, E02, E20, E12, E21 by lia. unfold sum3. repeat split; ring.
  Qed.
  (** the metric: products of Cartesian gradients *)
  Lemma cart_dot x y z x' y' z' :
    (let '(a, b, d) := cart (x, y, z) in let '(a', b', d') := cart (x', y', z') in a * a' + b * b' + d * d') =
    x' * drho_v2 T cell_typ 0 x y z 1 + y' * drho_v2 T cell_typ 1 x y z 1 + z' * drho_v2 T cell_typ 2 x y z 1.
  Proof. clear HF D1.
    unfold XcStress.cart, drho_v2. destruct cell_cases as [(E1 & E2)|(E1 & E2 & E)].
    - rewrite E1, E2 in *. cbn. ring.
    - rewrite E1, E2.
      pose proof (E 0 0)%nat as T0. pose proof (E 0 1)%nat as T1. pose proof (E 0 2)%nat as T2. pose proof (E 1 0)%nat as T3.
      pose proof (E 1 1)%nat as T4. pose proof (E 1 2)%nat as T5. pose proof (E 2 0)%nat as T6. pose proof (E 2 1)%nat as T7.
      pose proof (E 2 2)%nat as T8. cbn in *. rewrite T0, T1, T2, T3, T4, T5, T6, T7, T8 by lia. unfold sum3. ring.
  Qed.
  Lemma cart_norm g : norm2 (cart g) = sq3 g.
  Proof. clear HF D1.
    destruct g as [[x y] z]. pose proof (cart_dot x y z x y z) as H. pose proof cell_symmetric as HS. unfold norm2.
    destruct (cart (x, y, z)) as [[a b] d]. rewrite H. unfold XcGrid.sq3, norm_square, drho_v2.
    destruct (nonorth cell_typ) eqn:E; [|ring]. destruct (HS E) as (-> & -> & ->). ring.
  Qed.

  Lemma strain_col e (f : R -> field) f' p : In p (pts N) -> (forall q, In q (pts N) -> is_derive (fun x => f x q) 0 (f' q)) ->
    is_derive (fun x => strained_sigma e x (cart (grad3 (f x) p))) 0
      (2 * dot_g f' (grad3 (f 0) p) p - 2 * quad e (cart (grad3 (f 0) p))).
  Proof.
    intros Hp H.
    assert (HD : forall d, (d < 3)%nat -> is_derive (fun x => D d (f x) p) 0 (D d f' p)) by (intros; apply D_derive; assumption).
    pose proof (HD 0%nat ltac:(lia)) as H0. pose proof (HD 1%nat ltac:(lia)) as H1. pose proof (HD 2%nat ltac:(lia)) as H2.
    set (c := fun x => cart (grad3 (f x) p)). set (c' := cart (D 0 f' p, D 1 f' p, D 2 f' p)).
    assert (L : forall (a b d : R), is_derive (fun x => a * D 0 (f x) p + b * D 1 (f x) p + d * D 2 (f x) p) 0 (a * D 0 f' p + b * D 1 f' p + d * D 2 f' p)).
    { intros a b d. apply (der_plus (fun x => a * D 0 (f x) p + b * D 1 (f x) p) (fun x => d * D 2 (f x) p)).
      - apply (der_plus (fun x => a * D 0 (f x) p) (fun x => b * D 1 (f x) p)); now apply (der_scal (fun x => D _ (f x) p)).
      - now apply (der_scal (fun x => D _ (f x) p)). }
    assert (HDc : forall a, is_derive (fun x => comp (c x) a) 0 (comp c' a)).
    { intros a. unfold c, c', XcGrid.grad3, XcStress.cart. destruct (cell_typ =? 0)%Z; cbn [comp];
      destruct a as [|[|a]]; cbn [comp]; assumption || apply L. }
    apply (is_derive_ext (fun x => strained_sigma e x (comp (c x) 0%nat, comp (c x) 1%nat, comp (c x) 2%nat))).
    { intros x. unfold c. destruct (cart (grad3 (f x) p)) as [[u v] w]. reflexivity. }
    eapply is_derive_eq; [exact (sigma_strain e (fun x => comp (c x) 0%nat) (fun x => comp (c x) 1%nat) (fun x => comp (c x) 2%nat) _ _ _ (HDc 0%nat) (HDc 1%nat) (HDc 2%nat))|].
    cbv beta. f_equal.
    - f_equal. unfold XcGridMain.dot_g, XcGrid.grad3 at 1.
      rewrite <- (cart_dot (D 0 (f 0) p) (D 1 (f 0) p) (D 2 (f 0) p) (D 0 f' p) (D 1 f' p) (D 2 f' p)).
      unfold c, c'. fold (grad3 (f 0) p). destruct (cart (grad3 (f 0) p)) as [[u v] w]. destruct (cart (D 0 f' p, D 1 f' p, D 2 f' p)) as [[u' v'] w'].
      cbn [comp]. ring.
    - f_equal. f_equal. f_equal. unfold c. destruct (cart (grad3 (f 0) p)) as [[u v] w]. reflexivity.
  Qed.
  Lemma sigma_start e g : strained_sigma e 0 (cart g) = sq3 g.
  Proof. clear HF D1.
    rewrite <- cart_norm. unfold strained_sigma, apply3. destruct (cart g) as [[u v] w].
    rewrite !invT_0 by lia. unfold norm2, delta. cbn [Nat.eqb]. ring.
  Qed.
  Lemma quad_sum e (g : pt -> R * R * R) (w : field) :
    gsum N (fun p => w p * quad e (g p)) = contract e (sym6 (fun k => gsum N (fun p => prod6 k (g p) * w p))).
  Proof. clear HF D1.
    unfold quad, contract, sum3, sym6. rewrite <- !gsum_scal, <- !gsum_plus. apply gsum_ext. intros p _. ring.
  Qed.
  Lemma sum6_cols dV cols k : sum6 N G cell_typ dV cols k =
    dV * lsum (fun col => gsum N (fun p => prod6 k (cart (fst col p)) * snd col p)) cols.
  Proof. clear HF D1.
    unfold sum6. rewrite Rmult_comm. f_equal.
    assert (A : forall a, fold_left (fun a col => fold_left (fun a p => a + prod6 k (cart (fst col p)) * snd col p) (pts N) a) cols a =
      a + lsum (fun col => gsum N (fun p => prod6 k (cart (fst col p)) * snd col p)) cols).
    { induction cols as [|col cols IH]; intros a; cbn [fold_left lsum]; [ring|].
      rewrite IH, (fold_lsum (fun p => prod6 k (cart (fst col p)) * snd col p)). unfold gsum. apply Rplus_assoc. }
    rewrite A. ring.
  Qed.
End S.
