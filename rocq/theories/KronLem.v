(** Sums over an arbitrary commutative ring and the values computed by the
    gemm sequence of Lap_Kron. *)
From Coq Require Import Arith List Bool Lia ZArith Ring Ring_theory.
From Verif Require Import CBase Kron.
Import ListNotations.

Section Ring.
  Variables (K : Type) (zero one : K) (add mul sub : K -> K -> K) (opp : K -> K).
  Variable Rth : ring_theory zero one add mul sub opp (@eq K).
  Add Ring Kring : Rth.
  Notation "0" := zero. Notation "1" := one.
  Infix "+" := add. Infix "*" := mul.
  Notation sum := (sumn K zero add).

  Lemma sum_ext n f g : (forall i, (i < n)%nat -> f i = g i) -> sum n f = sum n g.
  Proof. induction n as [|n IH]; intros H; [reflexivity|]. cbn. rewrite IH, H; auto. Qed.
  Lemma sum_add n f g : sum n (fun i => f i + g i) = sum n f + sum n g.
  Proof. induction n as [|n IH]; cbn; [ring|]. rewrite IH. ring. Qed.
  Lemma sum_scale n c f : sum n (fun i => c * f i) = c * sum n f.
  Proof. induction n as [|n IH]; cbn; [ring|]. rewrite IH. ring. Qed.
  Lemma sum_scale_r n c f : sum n (fun i => f i * c) = sum n f * c.
  Proof. induction n as [|n IH]; cbn; [ring|]. rewrite IH. ring. Qed.
  Lemma sum_zero n : sum n (fun _ => 0) = 0.
  Proof. induction n as [|n IH]; cbn; [reflexivity|]. rewrite IH. ring. Qed.
  Lemma sum_swap n m (f : nat -> nat -> K) : sum n (fun i => sum m (fun j => f i j)) = sum m (fun j => sum n (fun i => f i j)).
  Proof.
    induction n as [|n IH]; cbn; [symmetry; apply sum_zero|]. rewrite IH. rewrite <- sum_add. reflexivity.
  Qed.
  Definition delta (i j : nat) : K := if (i =? j)%nat then 1 else 0.
  Lemma sum_delta n i f : (i < n)%nat -> sum n (fun j => delta i j * f j) = f i.
  Proof.
    induction n as [|n IH]; intros H; [lia|]. cbn. destruct (Nat.eq_dec i n) as [->|N].
    - rewrite (sum_ext n _ (fun _ => 0)), sum_zero.
      + unfold delta. rewrite Nat.eqb_refl. ring.
      + intros j Hj. unfold delta. destruct (Nat.eqb_spec n j); [lia|ring].
    - rewrite IH by lia. unfold delta. destruct (Nat.eqb_spec i n); [contradiction|ring].
  Qed.

  (** ** Triple sums *)
  Variables Nx Ny Nz : nat.
  Definition S3 (f : nat -> nat -> nat -> K) : K := sum Nz (fun c => sum Nx (fun a => sum Ny (fun b => f a b c))).
  Definition inside (a b c : nat) : Prop := (a < Nx /\ b < Ny /\ c < Nz)%nat.
  Lemma S3_ext f g : (forall a b c, inside a b c -> f a b c = g a b c) -> S3 f = S3 g.
  Proof. intros H. do 3 (apply sum_ext; intros). apply H. split; auto. Qed.
  Lemma S3_scale c f : S3 (fun x y z => c * f x y z) = c * S3 f.
  Proof.
    unfold S3. rewrite <- sum_scale. apply sum_ext; intros. rewrite <- sum_scale. apply sum_ext; intros. apply sum_scale.
  Qed.
  Lemma S3_add f g : S3 (fun x y z => f x y z + g x y z) = S3 f + S3 g.
  Proof.
    unfold S3. rewrite <- sum_add. apply sum_ext; intros. rewrite <- sum_add. apply sum_ext; intros. apply sum_add.
  Qed.
  Lemma S3_sum n (f : nat -> nat -> nat -> nat -> K) :
    S3 (fun a b c => sum n (fun i => f i a b c)) = sum n (fun i => S3 (f i)).
  Proof.
    unfold S3. rewrite (sum_swap n). apply sum_ext; intros. rewrite (sum_swap n). apply sum_ext; intros. apply sum_swap.
  Qed.
  Lemma S3_swap (f : nat -> nat -> nat -> nat -> nat -> nat -> K) :
    S3 (fun a b c => S3 (fun i j k => f a b c i j k)) = S3 (fun i j k => S3 (fun a b c => f a b c i j k)).
  Proof.
    transitivity (sum Nz (fun k => sum Nx (fun i => sum Ny (fun j => S3 (fun a b c => f a b c i j k))))); [|reflexivity].
    unfold S3 at 2. rewrite S3_sum. apply sum_ext; intros. rewrite S3_sum. apply sum_ext; intros. rewrite S3_sum. reflexivity.
  Qed.
  (** a product of one-dimensional factors *)
  Lemma S3_prod f g h : S3 (fun a b c => f a * g b * h c) = sum Nx f * sum Ny g * sum Nz h.
  Proof.
    unfold S3. rewrite <- sum_scale. apply sum_ext; intros c _. rewrite <- sum_scale_r, <- sum_scale_r.
    apply sum_ext; intros a _. rewrite <- sum_scale, <- sum_scale_r. reflexivity.
  Qed.
  Lemma S3_delta i j k f : inside i j k -> S3 (fun a b c => delta i a * delta j b * delta k c * f a b c) = f i j k.
  Proof.
    intros [Hi [Hj Hk]]. unfold S3.
    rewrite (sum_ext Nz _ (fun c => delta k c * f i j c)); [apply sum_delta; exact Hk|]. intros c Hc.
    rewrite (sum_ext Nx _ (fun a => delta i a * (delta k c * f a j c))).
    - rewrite sum_delta by exact Hi. reflexivity.
    - intros a Ha. rewrite (sum_ext Ny _ (fun b => delta j b * (delta i a * delta k c * f a b c))) by (intros; ring).
      rewrite sum_delta by exact Hj. ring.
  Qed.

  (** ** The transform V D W^T *)
  Section Transform.
    Variables (vx vy vz wx wy wz : nat -> nat -> K).
    (** value computed for diagonal [d] from input [v], in the order of the code *)
    Definition T (d v : nat -> nat -> nat -> K) (i j k : nat) : K :=
      sum Nz (fun c => sum Nx (fun a => vx i a * sum Ny (fun b =>
        (sum Nz (fun k' => sum Nx (fun i' => wx i' a * sum Ny (fun j' => v i' j' k' * wy j' b)) * wz k' c) * d a b c)
        * vy j b)) * vz k c).
    Definition T' (d v : nat -> nat -> nat -> K) (i j k : nat) : K :=
      S3 (fun a b c => vx i a * vy j b * vz k c * d a b c * S3 (fun i' j' k' => wx i' a * wy j' b * wz k' c * v i' j' k')).
    Lemma T_T' d v i j k : T d v i j k = T' d v i j k.
    Proof.
      unfold T, T'. unfold S3 at 1. apply sum_ext; intros c _. rewrite <- sum_scale_r. apply sum_ext; intros a _.
      rewrite <- sum_scale, <- sum_scale_r. apply sum_ext; intros b _.
      assert (E : sum Nz (fun k' => sum Nx (fun i' => wx i' a * sum Ny (fun j' => v i' j' k' * wy j' b)) * wz k' c)
                  = S3 (fun i' j' k' => wx i' a * wy j' b * wz k' c * v i' j' k')).
      { unfold S3. apply sum_ext; intros. rewrite <- sum_scale_r. apply sum_ext; intros. rewrite <- sum_scale, <- sum_scale_r.
        apply sum_ext; intros. ring. }
      rewrite E. ring.
    Qed.
    Lemma T'_ext d d' v v' i j k :
      (forall a b c, inside a b c -> d a b c = d' a b c) -> (forall a b c, inside a b c -> v a b c = v' a b c) ->
      T' d v i j k = T' d' v' i j k.
    Proof.
      intros H H'. unfold T'. apply S3_ext; intros a b c Hi. rewrite (H a b c Hi). f_equal. apply S3_ext; intros. rewrite H'; auto.
    Qed.
    Hypothesis ox : forall a b, (a < Nx)%nat -> (b < Nx)%nat -> sum Nx (fun i => wx i a * vx i b) = delta a b.
    Hypothesis oy : forall a b, (a < Ny)%nat -> (b < Ny)%nat -> sum Ny (fun i => wy i a * vy i b) = delta a b.
    Hypothesis oz : forall a b, (a < Nz)%nat -> (b < Nz)%nat -> sum Nz (fun i => wz i a * vz i b) = delta a b.
    Lemma T'_comp d1 d2 v i j k : T' d1 (T' d2 v) i j k = T' (fun a b c => d1 a b c * d2 a b c) v i j k.
    Proof.
      unfold T' at 1 3. apply S3_ext; intros a b c Hab.
      assert (E : S3 (fun i' j' k' => wx i' a * wy j' b * wz k' c * T' d2 v i' j' k')
                  = d2 a b c * S3 (fun i' j' k' => wx i' a * wy j' b * wz k' c * v i' j' k')); [|rewrite E; ring].
      unfold T'.
      rewrite (S3_ext _ (fun i' j' k' => S3 (fun a' b' c' => (wx i' a * vx i' a') * (wy j' b * vy j' b') * (wz k' c * vz k' c')
               * (d2 a' b' c' * S3 (fun i' j' k' => wx i' a' * wy j' b' * wz k' c' * v i' j' k'))))).
      2:{ intros. rewrite <- S3_scale. apply S3_ext; intros. ring. }
      rewrite S3_swap.
      rewrite (S3_ext _ (fun a' b' c' => delta a a' * delta b b' * delta c c' * (d2 a' b' c' * S3 (fun i' j' k' => wx i' a' * wy j' b' * wz k' c' * v i' j' k')))).
      - apply (S3_delta a b c (fun a' b' c' => d2 a' b' c' * S3 (fun i' j' k' => wx i' a' * wy j' b' * wz k' c' * v i' j' k'))). exact Hab.
      - intros a' b' c' [Ha' [Hb' Hc']]. destruct Hab as [Ha [Hb Hc]].
        rewrite (S3_ext _ (fun i j k => (d2 a' b' c' * S3 (fun i' j' k' => wx i' a' * wy j' b' * wz k' c' * v i' j' k'))
                  * ((wx i a * vx i a') * (wy j b * vy j b') * (wz k c * vz k c')))) by (intros; ring).
        rewrite S3_scale, (S3_prod (fun i => wx i a * vx i a') (fun j => wy j b * vy j b') (fun k => wz k c * vz k c')).
        rewrite ox, oy, oz by assumption. ring.
    Qed.
    Hypothesis cx : forall i i', (i < Nx)%nat -> (i' < Nx)%nat -> sum Nx (fun a => vx i a * wx i' a) = delta i i'.
    Hypothesis cy : forall i i', (i < Ny)%nat -> (i' < Ny)%nat -> sum Ny (fun a => vy i a * wy i' a) = delta i i'.
    Hypothesis cz : forall i i', (i < Nz)%nat -> (i' < Nz)%nat -> sum Nz (fun a => vz i a * wz i' a) = delta i i'.
    (** a diagonal that is a product of one-dimensional factors *)
    Lemma T'_prod f g h v i j k :
      T' (fun a b c => f a * g b * h c) v i j k
      = S3 (fun i' j' k' => sum Nx (fun a => vx i a * f a * wx i' a) * sum Ny (fun b => vy j b * g b * wy j' b)
                            * sum Nz (fun c => vz k c * h c * wz k' c) * v i' j' k').
    Proof.
      unfold T'.
      rewrite (S3_ext _ (fun a b c => S3 (fun i' j' k' => v i' j' k' * ((vx i a * f a * wx i' a) * (vy j b * g b * wy j' b) * (vz k c * h c * wz k' c))))).
      2:{ intros. rewrite <- S3_scale. apply S3_ext; intros. ring. }
      rewrite S3_swap. apply S3_ext; intros i' j' k' _. rewrite S3_scale.
      rewrite (S3_prod (fun a => vx i a * f a * wx i' a) (fun b => vy j b * g b * wy j' b) (fun c => vz k c * h c * wz k' c)). ring.
    Qed.
    Lemma T'_one v i j k : inside i j k -> T' (fun _ _ _ => 1) v i j k = v i j k.
    Proof.
      intros H. transitivity (T' (fun a b c => 1 * 1 * 1) v i j k); [apply T'_ext; intros; [ring|reflexivity]|].
      rewrite (T'_prod (fun _ => 1) (fun _ => 1) (fun _ => 1)).
      rewrite (S3_ext _ (fun i' j' k' => delta i i' * delta j j' * delta k k' * v i' j' k')); [apply S3_delta; exact H|].
      intros i' j' k' [Hi' [Hj' Hk']]. destruct H as [Hi [Hj Hk]].
      rewrite <- cx, <- cy, <- cz by assumption. f_equal. f_equal; [f_equal|]; apply sum_ext; intros; ring.
    Qed.
    Lemma T'_add d1 d2 v i j k : T' (fun a b c => d1 a b c + d2 a b c) v i j k = T' d1 v i j k + T' d2 v i j k.
    Proof. unfold T'. rewrite <- S3_add. apply S3_ext; intros. ring. Qed.

    Variables (lx ly lz : nat -> K) (Lx Ly Lz : nat -> nat -> K).
    Hypothesis ex : forall i i', (i < Nx)%nat -> (i' < Nx)%nat -> sum Nx (fun a => vx i a * lx a * wx i' a) = Lx i i'.
    Hypothesis ey : forall i i', (i < Ny)%nat -> (i' < Ny)%nat -> sum Ny (fun a => vy i a * ly a * wy i' a) = Ly i i'.
    Hypothesis ez : forall i i', (i < Nz)%nat -> (i' < Nz)%nat -> sum Nz (fun a => vz i a * lz a * wz i' a) = Lz i i'.
    Definition lap3 (v : nat -> nat -> nat -> K) (i j k : nat) : K :=
      sum Nx (fun a => Lx i a * v a j k) + sum Ny (fun b => Ly j b * v i b k) + sum Nz (fun c => Lz k c * v i j c).
    Lemma T'_lap v i j k : inside i j k -> T' (fun a b c => lx a + ly b + lz c) v i j k = lap3 v i j k.
    Proof.
      intros H. pose proof H as [Hi [Hj Hk]].
      transitivity (T' (fun a b c => lx a * 1 * 1 + 1 * ly b * 1 + 1 * 1 * lz c) v i j k); [apply T'_ext; intros; [ring|reflexivity]|].
      rewrite (T'_add (fun a b c => lx a * 1 * 1 + 1 * ly b * 1)), (T'_add (fun a b c => lx a * 1 * 1)).
      rewrite (T'_prod lx (fun _ => 1) (fun _ => 1)), (T'_prod (fun _ => 1) ly (fun _ => 1)), (T'_prod (fun _ => 1) (fun _ => 1) lz).
      assert (Ix : forall i', (i' < Nx)%nat -> sum Nx (fun a => vx i a * 1 * wx i' a) = delta i i').
      { intros i' Hi'. rewrite <- cx by assumption. apply sum_ext; intros; ring. }
      assert (Iy : forall i', (i' < Ny)%nat -> sum Ny (fun a => vy j a * 1 * wy i' a) = delta j i').
      { intros i' Hi'. rewrite <- cy by assumption. apply sum_ext; intros; ring. }
      assert (Iz : forall i', (i' < Nz)%nat -> sum Nz (fun a => vz k a * 1 * wz i' a) = delta k i').
      { intros i' Hi'. rewrite <- cz by assumption. apply sum_ext; intros; ring. }
      unfold lap3. f_equal; [f_equal|]; unfold S3.
      - rewrite (sum_ext Nz _ (fun c => delta k c * sum Nx (fun a => Lx i a * v a j c))).
        + rewrite sum_delta by exact Hk. reflexivity.
        + intros c Hc. rewrite <- sum_scale. apply sum_ext; intros a Ha. rewrite ex, Iz by assumption.
          rewrite (sum_ext Ny _ (fun b => delta j b * (delta k c * (Lx i a * v a b c)))).
          * rewrite sum_delta by exact Hj. reflexivity.
          * intros b Hb. rewrite Iy by assumption. ring.
      - rewrite (sum_ext Nz _ (fun c => delta k c * sum Ny (fun b => Ly j b * v i b c))).
        + rewrite sum_delta by exact Hk. reflexivity.
        + intros c Hc. rewrite Iz by assumption.
          rewrite (sum_ext Nx _ (fun a => delta i a * (delta k c * sum Ny (fun b => Ly j b * v a b c)))).
          * rewrite sum_delta by exact Hi. reflexivity.
          * intros a Ha. rewrite Ix by assumption. rewrite <- !sum_scale. apply sum_ext; intros b Hb. rewrite ey by assumption. ring.
      - apply sum_ext; intros c Hc. rewrite ez by assumption.
        rewrite (sum_ext Nx _ (fun a => delta i a * (Lz k c * v a j c))).
        + rewrite sum_delta by exact Hi. reflexivity.
        + intros a Ha. rewrite Ix by assumption.
          rewrite (sum_ext Ny _ (fun b => delta j b * (delta i a * (Lz k c * v a b c)))).
          * rewrite sum_delta by exact Hj. reflexivity.
          * intros b Hb. rewrite Iy by assumption. ring.
    Qed.
  End Transform.
End Ring.
