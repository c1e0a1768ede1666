(** Lemmas for XcGrid.v: sums over the grid, the finite-difference gradient is antisymmetric, loops. *)
From Coq Require Import Reals ZArith List Bool Lia Lra.
From Coquelicot Require Import Coquelicot.
From Verif Require Import CBase Collect Halo HaloLem P_Halo Xc XcSpin XcLem XcGrid.
Import ListNotations.
Local Open Scope R_scope.

(** ** Sums *)
Fixpoint lsum {A} (f : A -> R) (l : list A) : R := match l with [] => 0 | x :: t => f x + lsum f t end.
  Lemma lsum_ext {A : Type} (f g : A -> R) (l : list A) : (forall x, In x l -> f x = g x) -> lsum f l = lsum g l.
  Proof. induction l as [|a l IH]; intros H; [reflexivity|]. cbn [lsum]. rewrite H by (left; reflexivity). rewrite IH; [reflexivity|]. intros; apply H; right; assumption. Qed.
  Lemma lsum_app {A : Type} (f : A -> R) l1 l2 : lsum f (l1 ++ l2) = lsum f l1 + lsum f l2.
  Proof. induction l1 as [|a l IH]; cbn [lsum app]; [ring|]. rewrite IH. ring. Qed.
  Lemma lsum_plus {A : Type} (f g : A -> R) (l : list A) : lsum (fun x => f x + g x) l = lsum f l + lsum g l.
  Proof. induction l as [|a l IH]; cbn [lsum]; [ring|]. rewrite IH. ring. Qed.
  Lemma lsum_scal {A : Type} c (f : A -> R) (l : list A) : lsum (fun x => c * f x) l = c * lsum f l.
  Proof. induction l as [|a l IH]; cbn [lsum]; [ring|]. rewrite IH. ring. Qed.
  Lemma lsum_zero {A : Type} (f : A -> R) (l : list A) : (forall x, In x l -> f x = 0) -> lsum f l = 0.
  Proof. induction l as [|a l IH]; intros H; [reflexivity|]. cbn [lsum]. rewrite H by (left; reflexivity). rewrite IH; [ring|]. intros; apply H; right; assumption. Qed.
  Lemma lsum_map {A B : Type} (f : B -> R) (h : A -> B) (l : list A) : lsum f (map h l) = lsum (fun x => f (h x)) l.
  Proof. induction l as [|a l IH]; cbn [lsum map]; [reflexivity|]. now rewrite IH. Qed.
  Lemma lsum_flat {A B : Type} (f : B -> R) (h : A -> list B) (l : list A) : lsum f (flat_map h l) = lsum (fun x => lsum f (h x)) l.
  Proof. induction l as [|a l IH]; cbn [lsum flat_map]; [reflexivity|]. rewrite lsum_app. now rewrite IH. Qed.
  Lemma lsum_swap {A B : Type} (f : A -> B -> R) (l : list A) (l2 : list B) : lsum (fun x => lsum (f x) l2) l = lsum (fun y => lsum (fun x => f x y) l) l2.
  Proof.
    induction l as [|a l IH]; cbn [lsum]; [now rewrite lsum_zero|]. rewrite IH. now rewrite lsum_plus.
  Qed.
  Lemma fold_lsum {A : Type} (f : A -> R) (l : list A) : forall acc, fold_left (fun a p => a + f p) l acc = acc + lsum f l.
  Proof. induction l as [|a l IH]; intros acc; cbn [fold_left lsum]; [ring|]. rewrite IH. ring. Qed.
  Lemma lsum_derive {A : Type} (f : R -> A -> R) (f' : A -> R) t (l : list A) : (forall p, In p l -> is_derive (fun x => f x p) t (f' p)) ->
    is_derive (fun x => lsum (f x) l) t (lsum f' l).
  Proof.
    induction l as [|a l IH]; intros H; cbn [lsum]; [exact (is_derive_const 0 t)|].
    apply (der_plus (fun x => f x a) (fun x => lsum (f x) l)); [apply H; left; reflexivity|]. apply IH. intros; apply H; right; assumption.
  Qed.


(** ** One line of the grid *)
Lemma seq_shift_map (a : Z) (k : nat) : forall n, map (fun i => a + Z.of_nat i)%Z (seq k n) = map (fun i => a + Z.of_nat k + Z.of_nat i)%Z (seq 0 n).
Proof.
  intros n. rewrite <- (Nat.add_0_r k) at 1. generalize 0%nat as j. induction n as [|n IH]; intros j; [reflexivity|].
  cbn [seq map]. f_equal; [lia|]. rewrite <- (IH (S j)). f_equal. f_equal. lia.
Qed.
Lemma zr_split a m b : (a <= m <= b)%Z -> zr a b = zr a m ++ zr m b.
Proof.
  intros H. unfold zr, zrange. replace (Z.to_nat (b - a)) with (Z.to_nat (m - a) + Z.to_nat (b - m))%nat by lia.
  rewrite seq_app, map_app. f_equal. cbn [Nat.add]. rewrite seq_shift_map. apply map_ext. intros; lia.
Qed.
Lemma zr_in a b i : In i (zr a b) <-> (a <= i < b)%Z.
Proof.
  unfold zr, zrange. rewrite in_map_iff. split.
  - intros [k [<- H]]. apply in_seq in H. lia.
  - intros H. exists (Z.to_nat (i - a)). split; [lia|]. apply in_seq. lia.
Qed.
Lemma zr_shift f a b c : lsum f (zr (a + c) (b + c)) = lsum (fun i => f (i + c)%Z) (zr a b).
Proof.
  unfold zr, zrange. replace (b + c - (a + c))%Z with (b - a)%Z by lia. rewrite !lsum_map. apply lsum_ext. intros; f_equal; lia.
Qed.
(** the value at i of a function on [0, n): zero outside or wrapped once *)
Definition wrap1 (p : bool) (n : Z) (f : Z -> R) (i : Z) : R :=
  if (i <? 0)%Z then (if p then f (i + n)%Z else 0) else if (n <=? i)%Z then (if p then f (i - n)%Z else 0) else f i.
Lemma line_adj p n r (f g : Z -> R) : (0 <= r <= n)%Z ->
  lsum (fun i => f i * wrap1 p n g (i + r)) (zr 0 n) = lsum (fun i => wrap1 p n f (i - r) * g i) (zr 0 n).
Proof.
  intros H. rewrite (zr_split 0 (n - r) n) at 1 by lia. rewrite (zr_split 0 r n) by lia. rewrite !lsum_app.
  rewrite (lsum_ext (fun i => f i * wrap1 p n g (i + r)) (fun i => f i * g (i + r)%Z) (zr 0 (n - r))).
  2:{ intros i Hi. apply zr_in in Hi. unfold wrap1. replace (i + r <? 0)%Z with false by lia. replace (n <=? i + r)%Z with false by lia. reflexivity. }
  rewrite (lsum_ext (fun i => f i * wrap1 p n g (i + r)) (fun i => if p then f i * g (i + r - n)%Z else 0) (zr (n - r) n)).
  2:{ intros i Hi. apply zr_in in Hi. unfold wrap1. replace (i + r <? 0)%Z with false by lia. replace (n <=? i + r)%Z with true by lia. destruct p; ring. }
  rewrite (lsum_ext (fun i => wrap1 p n f (i - r) * g i) (fun i => if p then f (i - r + n)%Z * g i else 0) (zr 0 r)).
  2:{ intros i Hi. apply zr_in in Hi. unfold wrap1. replace (i - r <? 0)%Z with true by lia. destruct p; ring. }
  rewrite (lsum_ext (fun i => wrap1 p n f (i - r) * g i) (fun i => f (i - r)%Z * g i) (zr r n)).
  2:{ intros i Hi. apply zr_in in Hi. unfold wrap1. replace (i - r <? 0)%Z with false by lia. replace (n <=? i - r)%Z with false by lia. reflexivity. }
  replace (zr r n) with (zr (0 + r) (n - r + r)) by (f_equal; lia). rewrite zr_shift.
  replace (zr (n - r) n) with (zr (0 + (n - r)) (r + (n - r))) by (f_equal; lia). rewrite zr_shift.
  rewrite Rplus_comm. f_equal; apply lsum_ext; intros i _; [destruct p; [|reflexivity]; f_equal; f_equal; lia|].
  f_equal; f_equal; lia.
Qed.

(** ** The grid *)
Section G.
  Variables (N : pt) (per : nat -> bool) (D1 : nat -> Z -> R) (F : Z).
  Hypothesis HF : forall d, (d < 3)%nat -> (F <= at_ N d)%Z.
  Notation pts := (pts N).
  Notation D := (D N per D1 F).
  Definition gsum (f : field) : R := lsum f pts.
  Lemma pts_in p : In p pts <-> forall d, (d < 3)%nat -> (0 <= at_ p d < at_ N d)%Z.
  Proof.
    unfold XcGrid.pts. rewrite box_in. split; intros H d Hd; specialize (H d Hd); rewrite at_vec in * by exact Hd; exact H.
  Qed.
  Lemma gsum_nested f : gsum f = lsum (fun k => lsum (fun j => lsum (fun i => f (i, j, k)) (zr 0 (at_ N 0))) (zr 0 (at_ N 1))) (zr 0 (at_ N 2)).
  Proof.
    unfold gsum, XcGrid.pts, box. cbn [at_ vec]. rewrite lsum_flat. apply lsum_ext. intros k _. rewrite lsum_flat. apply lsum_ext. intros j _.
    now rewrite lsum_map.
  Qed.
  Notation gx f := (gx R 0 Rmult per N (fun _ => 1) f).
  Lemma gx_line f p d r : In p pts -> (d < 3)%nat ->
    gx f (move p d r) = wrap1 (per d) (at_ N d) (fun i => f (set_ p d i)) (at_ p d + r).
  Proof.
    intros Hp Hd. rewrite pts_in in Hp. destruct p as [[i j] k].
    pose proof (Hp 0%nat ltac:(lia)) as H0. pose proof (Hp 1%nat ltac:(lia)) as H1. pose proof (Hp 2%nat ltac:(lia)) as H2.
    cbn [at_] in H0, H1, H2. unfold P_Halo.gx, outb, image, move, wrap1.
    destruct d as [|[|[|]]]; try lia; cbn [at_ set_];
      repeat match goal with |- context [(?a <? ?b)%Z] => destruct (Z.ltb_spec a b); try lia
                           | |- context [(?a <=? ?b)%Z] => destruct (Z.leb_spec a b); try lia end; cbn [orb];
      try reflexivity; match goal with |- context [per ?e] => destruct (per e) end; try reflexivity; ring.
  Qed.
  Lemma in_set p d i : In p pts -> (d < 3)%nat -> (0 <= i < at_ N d)%Z -> In (set_ p d i) pts.
  Proof.
    rewrite !pts_in. intros Hp Hd Hi e He. rewrite at_set by assumption. destruct (Nat.eqb_spec e d) as [->|]; auto.
  Qed.
  Lemma set_at p d : set_ p d (at_ p d) = p.
  Proof. destruct p as [[i j] k]. destruct d as [|[|]]; reflexivity. Qed.
  Lemma shift_adj d r f g : (d < 3)%nat -> (0 <= r <= at_ N d)%Z ->
    gsum (fun p => f p * gx g (move p d r)) = gsum (fun p => gx f (move p d (- r)) * g p).
  Proof.
    intros Hd Hr.
    unfold gsum.
    rewrite (lsum_ext _ (fun p => f p * wrap1 (per d) (at_ N d) (fun i => g (set_ p d i)) (at_ p d + r)))
      by (intros p Hp; rewrite gx_line by assumption; reflexivity).
    rewrite (lsum_ext (fun p => gx f (move p d (- r)) * g p) (fun p => wrap1 (per d) (at_ N d) (fun i => f (set_ p d i)) (at_ p d - r) * g p))
      by (intros p Hp; rewrite gx_line by assumption; reflexivity).
    fold (gsum (fun p => f p * wrap1 (per d) (at_ N d) (fun i => g (set_ p d i)) (at_ p d + r))).
    fold (gsum (fun p => wrap1 (per d) (at_ N d) (fun i => f (set_ p d i)) (at_ p d - r) * g p)).
    rewrite !gsum_nested. destruct d as [|[|[|]]]; try lia; cbn [at_ set_] in *.
    - apply lsum_ext. intros k _. apply lsum_ext. intros j _. apply (line_adj (per 0%nat) (at_ N 0) r (fun i => f (i, j, k)) (fun i => g (i, j, k)) Hr).
    - apply lsum_ext. intros k _. rewrite !(lsum_swap _ (zr 0 (at_ N 1))). apply lsum_ext. intros i _.
      apply (line_adj (per 1%nat) (at_ N 1) r (fun j => f (i, j, k)) (fun j => g (i, j, k)) Hr).
    - rewrite !(lsum_swap _ (zr 0 (at_ N 2))). apply lsum_ext. intros j _. rewrite !(lsum_swap _ (zr 0 (at_ N 2))). apply lsum_ext. intros i _.
      apply (line_adj (per 2%nat) (at_ N 2) r (fun k => f (i, j, k)) (fun k => g (i, j, k)) Hr).
  Qed.
  Lemma gsum_ext f g : (forall p, In p pts -> f p = g p) -> gsum f = gsum g. Proof. apply lsum_ext. Qed.
  Lemma gsum_plus f g : gsum (fun p => f p + g p) = gsum f + gsum g. Proof. apply lsum_plus. Qed.
  Lemma gsum_scal c f : gsum (fun p => c * f p) = c * gsum f. Proof. apply lsum_scal. Qed.
  Lemma gsum_opp f : gsum (fun p => - f p) = - gsum f.
  Proof. rewrite (gsum_ext _ (fun p => (- (1)) * f p)) by (intros; ring). rewrite gsum_scal. ring. Qed.
  Lemma gsum_zero f : (forall p, In p pts -> f p = 0) -> gsum f = 0. Proof. apply lsum_zero. Qed.
  Lemma gsum_ksum (h : Z -> field) n : gsum (fun p => ksum R 0 Rplus (fun r => h r p) n) = ksum R 0 Rplus (fun r => gsum (h r)) n.
  Proof.
    induction n as [|n IH]; cbn [ksum]; [now apply gsum_zero|]. rewrite gsum_plus, IH. reflexivity.
  Qed.
  Lemma ksum_scal c h n : c * ksum R 0 Rplus h n = ksum R 0 Rplus (fun r => c * h r) n.
  Proof. induction n as [|n IH]; cbn [ksum]; [ring|]. rewrite <- IH. ring. Qed.
  Lemma D_eq d f p : D d f p = ksum R 0 Rplus (fun r => D1 d r * (gx f (move p d r) - gx f (move p d (- r)))) (Z.to_nat F).
  Proof. unfold XcGrid.D, grad_spec. rewrite Rmult_0_l. ring. Qed.
  (** summation by parts *)
  Lemma D_adj d f g : (d < 3)%nat -> gsum (fun p => f p * D d g p) = - gsum (fun p => D d f p * g p).
  Proof.
    intros Hd.
    rewrite (gsum_ext _ (fun p => ksum R 0 Rplus (fun r => D1 d r * (f p * gx g (move p d r)) + - (D1 d r * (f p * gx g (move p d (- r))))) (Z.to_nat F))).
    2:{ intros p _. rewrite D_eq, ksum_scal. apply ksum_ext. intros i _. ring. }
    rewrite (gsum_ext (fun p => D d f p * g p) (fun p => ksum R 0 Rplus (fun r => D1 d r * (gx f (move p d r) * g p) + - (D1 d r * (gx f (move p d (- r)) * g p))) (Z.to_nat F))).
    2:{ intros p _. rewrite D_eq, Rmult_comm, ksum_scal. apply ksum_ext. intros i _. ring. }
    rewrite !gsum_ksum.
    replace (- ksum R 0 Rplus (fun r => gsum (fun p => D1 d r * (gx f (move p d r) * g p) + - (D1 d r * (gx f (move p d (- r)) * g p)))) (Z.to_nat F))
      with ((- (1)) * ksum R 0 Rplus (fun r => gsum (fun p => D1 d r * (gx f (move p d r) * g p) + - (D1 d r * (gx f (move p d (- r)) * g p)))) (Z.to_nat F)) by ring.
    rewrite ksum_scal. apply ksum_ext. intros i Hi. pose proof (HF d Hd) as HFd.
    rewrite !gsum_plus, !gsum_opp, !gsum_scal.
    rewrite (shift_adj d (Z.of_nat i) f g Hd) by lia.
    assert (E : gsum (fun p => gx f (move p d (Z.of_nat i)) * g p) = gsum (fun p => f p * gx g (move p d (- Z.of_nat i)))).
    { rewrite (gsum_ext _ (fun p => g p * gx f (move p d (Z.of_nat i)))) by (intros; ring). rewrite (shift_adj d (Z.of_nat i) g f Hd) by lia.
      apply gsum_ext. intros; ring. }
    rewrite E. ring.
  Qed.
  Lemma wrap1_in (p : bool) n r f g i : (r <= n)%Z -> (0 <= i < n)%Z -> (Z.abs r <= n)%Z -> (forall j, (0 <= j < n)%Z -> f j = g j) ->
    wrap1 p n f (i + r) = wrap1 p n g (i + r).
  Proof.
    intros _ Hi Hr E. unfold wrap1. destruct (Z.ltb_spec (i + r) 0); [destruct p; [apply E; lia|reflexivity]|].
    destruct (Z.leb_spec n (i + r)); [destruct p; [apply E; lia|reflexivity]|]. apply E; lia.
  Qed.
  Lemma gx_ext d f g p r : (d < 3)%nat -> In p pts -> (Z.abs r <= at_ N d)%Z -> (forall q, In q pts -> f q = g q) ->
    gx f (move p d r) = gx g (move p d r).
  Proof.
    intros Hd Hp Hr E. rewrite !gx_line by assumption. apply wrap1_in; [lia| |lia|].
    - rewrite pts_in in Hp. auto.
    - intros j Hj. apply E. apply in_set; assumption.
  Qed.
  Lemma D_ext d f g p : (d < 3)%nat -> In p pts -> (forall q, In q pts -> f q = g q) -> D d f p = D d g p.
  Proof.
    intros Hd Hp E. rewrite !D_eq. apply ksum_ext. intros i Hi. pose proof (HF d Hd).
    rewrite !(gx_ext d f g) by (try assumption; lia). reflexivity.
  Qed.
  Lemma wrap1_lin (p : bool) n f g a b i : wrap1 p n (fun j => a * f j + b * g j) i = a * wrap1 p n f i + b * wrap1 p n g i.
  Proof. unfold wrap1. destruct (i <? 0)%Z, (n <=? i)%Z, p; ring. Qed.
  Lemma ksum_plus h k n : ksum R 0 Rplus (fun r => h r + k r) n = ksum R 0 Rplus h n + ksum R 0 Rplus k n.
  Proof. induction n as [|n IH]; cbn [ksum]; [ring|]. rewrite IH. ring. Qed.
  Lemma D_lin d a b f g p : (d < 3)%nat -> In p pts -> D d (fun q => a * f q + b * g q) p = a * D d f p + b * D d g p.
  Proof.
    intros Hd Hp. rewrite !D_eq, !ksum_scal, <- ksum_plus. apply ksum_ext. intros i _. rewrite !gx_line by assumption. rewrite !wrap1_lin. ring.
  Qed.
  (** derivatives pass through the stencil *)
  Lemma ksum_derive (h : R -> Z -> R) (h' : Z -> R) t n : (forall r, is_derive (fun x => h x r) t (h' r)) ->
    is_derive (fun x => ksum R 0 Rplus (h x) n) t (ksum R 0 Rplus h' n).
  Proof.
    intros H. induction n as [|n IH]; cbn [ksum]; [exact (is_derive_const 0 t)|].
    exact (der_plus _ _ _ _ _ IH (H (Z.of_nat (S n)))).
  Qed.
  Lemma wrap1_derive (p : bool) n (f : R -> Z -> R) f' t i : (forall j, (0 <= j < n)%Z -> is_derive (fun x => f x j) t (f' j)) ->
    (- n <= i < 2 * n)%Z -> is_derive (fun x => wrap1 p n (f x) i) t (wrap1 p n f' i).
  Proof.
    intros H Hi. unfold wrap1. destruct (Z.ltb_spec i 0); [destruct p; [apply H; lia|exact (is_derive_const 0 t)]|].
    destruct (Z.leb_spec n i); [destruct p; [apply H; lia|exact (is_derive_const 0 t)]|]. apply H; lia.
  Qed.
  Lemma D_derive d (f : R -> field) f' t p : (d < 3)%nat -> In p pts -> (forall q, In q pts -> is_derive (fun x => f x q) t (f' q)) ->
    is_derive (fun x => D d (f x) p) t (D d f' p).
  Proof.
    intros Hd Hp H. rewrite D_eq.
    apply (is_derive_ext (fun x => ksum R 0 Rplus (fun r => if (1 <=? r)%Z && (r <=? F)%Z then D1 d r * (gx (f x) (move p d r) - gx (f x) (move p d (- r))) else 0) (Z.to_nat F))).
    { intros x. rewrite D_eq. apply ksum_ext. intros i Hi. replace ((1 <=? Z.of_nat i)%Z && (Z.of_nat i <=? F)%Z) with true by lia. reflexivity. }
    rewrite (ksum_ext R 0 Rplus _ (fun r => if (1 <=? r)%Z && (r <=? F)%Z then D1 d r * (gx f' (move p d r) - gx f' (move p d (- r))) else 0)).
    2:{ intros i Hi. replace ((1 <=? Z.of_nat i)%Z && (Z.of_nat i <=? F)%Z) with true by lia. reflexivity. }
    apply (ksum_derive (fun x r => if (1 <=? r)%Z && (r <=? F)%Z then D1 d r * (gx (f x) (move p d r) - gx (f x) (move p d (- r))) else 0)).
    intros r. destruct ((1 <=? r)%Z && (r <=? F)%Z) eqn:Er; [|exact (is_derive_const 0 t)].
    pose proof (HF d Hd). rewrite pts_in in Hp. pose proof (Hp d Hd). rewrite <- pts_in in Hp.
    assert (Q : forall r, (Z.abs r <= F)%Z -> is_derive (fun x => gx (f x) (move p d r)) t (gx f' (move p d r))).
    { intros r0 Hr. rewrite gx_line by assumption.
      apply (is_derive_ext (fun x => wrap1 (per d) (at_ N d) (fun i => f x (set_ p d i)) (at_ p d + r0))); [intros x; symmetry; now apply gx_line|].
      apply (wrap1_derive _ _ (fun x i => f x (set_ p d i))); [|lia]. intros j Hj. apply H. apply in_set; assumption. }
    apply (is_derive_scal (fun x => gx (f x) (move p d r) - gx (f x) (move p d (- r))) t (D1 d r)).
    apply (is_derive_minus (V := R_NormedModule)); apply Q; lia.
  Qed.

  Lemma pt_eqb_true p q : pt_eqb p q = true <-> p = q.
  Proof. apply pt_eqb_eq. Qed.
End G.

(** ** Loops *)
Lemma fill_spec {A} (f : pt -> outcome A) (h : pt -> A) : forall l m, (forall p, In p l -> f p = Ok (h p)) ->
  exists r, fill f l m = Ok r /\ (forall p, In p l -> r p = h p).
Proof.
  induction l as [|a l IH]; intros m H; [exists m; split; [reflexivity|intros ? []]|].
  cbn [fill]. rewrite (H a) by (left; reflexivity). cbn [obind].
  destruct (IH (fun q => if pt_eqb q a then h a else m q)) as [r [E R]]; [intros; apply H; right; assumption|].
  exists r. split; [exact E|].
  assert (K : forall l m r, fill f l m = Ok r -> (forall p, In p l -> f p = Ok (h p)) -> forall p, (m p = h p) -> r p = h p).
  { clear. induction l as [|b l IH]; intros m r E H p M; cbn [fill] in E; [congruence|]. rewrite (H b) in E by (left; reflexivity). cbn [obind] in E.
    eapply IH; [exact E|intros; apply H; right; assumption|]. cbn beta. destruct (pt_eqb p b) eqn:Q; [apply pt_eqb_eq in Q; now subst|exact M]. }
  intros p [->|Hp]; [|now apply R]. eapply K; [exact E|intros; apply H; right; assumption|].
  cbn beta. replace (pt_eqb p p) with true; [reflexivity|]. symmetry. now apply pt_eqb_eq.
Qed.
