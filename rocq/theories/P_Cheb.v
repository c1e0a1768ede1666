(** C54: the Chebyshev filter. *)
From Coq Require Import Reals ZArith List Lia Lra Psatz FinFun.
From Verif Require Import CBase Cheb.
Import ListNotations.
Local Open Scope R_scope.

(** ** Specification: Chebyshev polynomials *)
Fixpoint T2 (k : nat) (x : R) : R * R := match k with O => (1, x) | S k => let '(p, q) := T2 k x in (q, 2 * x * q - p) end.
Definition T (k : nat) (x : R) : R := fst (T2 k x).
Lemma T2_snd k x : snd (T2 k x) = T (S k) x.
Proof. unfold T. cbn. destruct (T2 k x). reflexivity. Qed.
Lemma T_0 x : T 0 x = 1. Proof. reflexivity. Qed.
Lemma T_1 x : T 1 x = x. Proof. reflexivity. Qed.
Lemma T_SS k x : T (S (S k)) x = 2 * x * T (S k) x - T k x.
Proof. unfold T. cbn. destruct (T2 k x). reflexivity. Qed.

Lemma T_cos t : forall k, T k (cos t) = cos (INR k * t) /\ T (S k) (cos t) = cos (INR (S k) * t).
Proof.
  induction k as [|k [I1 I2]].
  - rewrite T_0, T_1. cbn. rewrite Rmult_0_l, cos_0, Rmult_1_l. auto.
  - split; [exact I2|]. rewrite T_SS, I1, I2. rewrite !S_INR.
    replace ((INR k + 1 + 1) * t) with ((INR k + 1) * t + t) by ring. replace (INR k * t) with ((INR k + 1) * t - t) by ring.
    rewrite cos_plus, cos_minus. ring.
Qed.
Lemma T_small k x : -1 <= x <= 1 -> Rabs (T k x) <= 1.
Proof. intros Hx. rewrite <- (cos_acos x Hx). destruct (T_cos (acos x) k) as [-> _]. apply Rabs_le. destruct (COS_bound (INR k * acos x)). lra. Qed.
Lemma T_opp x : forall k, T k (- x) = (-1) ^ k * T k x /\ T (S k) (- x) = (-1) ^ (S k) * T (S k) x.
Proof. induction k as [|k [I1 I2]]; [rewrite !T_0, !T_1; cbn; lra|]. split; [exact I2|]. rewrite !T_SS, I1, I2. cbn. ring. Qed.
Lemma T_grow x y : 1 <= x <= y -> forall k, 1 <= T k x <= T k y /\ 0 <= T (S k) x - T k x <= T (S k) y - T k y.
Proof.
  intros H. induction k as [|k (I1 & I2)]; [rewrite !T_0, !T_1; lra|].
  assert (1 <= T (S k) x <= T (S k) y) by lra. split; [assumption|]. rewrite !T_SS. 
  replace (2 * x * T (S k) x - T k x - T (S k) x) with ((T (S k) x - T k x) + 2 * (x - 1) * T (S k) x) by ring.
  replace (2 * y * T (S k) y - T k y - T (S k) y) with ((T (S k) y - T k y) + 2 * (y - 1) * T (S k) y) by ring.
  assert (0 <= 2 * (x - 1) * T (S k) x) by nra. assert (2 * (x - 1) * T (S k) x <= 2 * (y - 1) * T (S k) y) by nra. lra.
Qed.
Lemma T_lower x k : 1 <= x -> x * (2 * x - 1) ^ k <= T (S k) x.
Proof.
  intros H. induction k as [|k IH]; [rewrite T_1; cbn; lra|]. rewrite T_SS.
  pose proof (T_grow x x ltac:(lra) k) as [A B]. cbn [pow]. assert (0 <= 2 * x - 1) by lra. nra.
Qed.

Lemma pow_m1 k : (-1) ^ k = 1 \/ (-1) ^ k = -1.
Proof. induction k as [|k [E|E]]; cbn; [left; reflexivity|rewrite E; right; ring|rewrite E; left; ring]. Qed.
Lemma T_neg k x : x <= -1 -> T k x = (-1) ^ k * T k (- x) /\ 1 <= T k (- x) /\ T k x <> 0 /\ Rabs (T k x) = T k (- x).
Proof.
  intros H. assert (E : T k x = (-1) ^ k * T k (- x)). { rewrite <- (Ropp_involutive x) at 1. apply T_opp. }
  pose proof (T_grow (- x) (- x) ltac:(lra) k) as [[B _] _]. split; [exact E|]. split; [exact B|].
  destruct (pow_m1 k) as [P|P]; rewrite P in E.
  - split; [lra|]. rewrite E, Rmult_1_l. apply Rabs_pos_eq. lra.
  - split; [lra|]. rewrite E. replace (-1 * T k (- x)) with (- T k (- x)) by ring. rewrite Rabs_Ropp. apply Rabs_pos_eq. lra.
Qed.

(** ** Loops over the entries of the orbitals *)
Section Filter.
  Variable V : Type.
  Variable vadd : V -> V -> V.
  Variable vscal : R -> V -> V.
  Variable D : nat.
  Variable H : (nat -> V) -> (nat -> V).
  Notation upd := (upd V). Notation column := (column V). Notation cells := (cells D).

  Lemma upd_same m p v : upd m p v p = v. Proof. unfold Cheb.upd. rewrite Nat.eqb_refl. reflexivity. Qed.
  Lemma upd_other m p q v : q <> p -> upd m p v q = m q. Proof. intros E. unfold Cheb.upd. rewrite (proj2 (Nat.eqb_neq q p) E). reflexivity. Qed.
  Lemma cells_in ncol n i : In (n, i) (cells ncol) <-> (n < ncol /\ i < D)%nat.
  Proof.
    unfold Cheb.cells. rewrite in_flat_map. split.
    - intros (x & Hx & Hi). apply in_map_iff in Hi. destruct Hi as (j & E & Hj). inversion E; subst. apply in_seq in Hx, Hj. lia.
    - intros [Hn Hi]. exists n. split; [apply in_seq; lia|]. apply in_map_iff. exists i. split; [reflexivity|apply in_seq; lia].
  Qed.
  Lemma cells_nodup ncol : NoDup (cells ncol).
  Proof.
    unfold Cheb.cells. generalize (seq_NoDup ncol 0). induction (seq 0 ncol) as [|n l IH]; intros ND; [constructor|].
    inversion ND as [|? ? Nn ND']; subst. cbn [flat_map]. 
    assert (A : forall l1 l2 : list (nat * nat), NoDup l1 -> NoDup l2 -> (forall x, In x l1 -> ~ In x l2) -> NoDup (l1 ++ l2)).
    { clear. induction l1 as [|a l1 IH]; intros l2 H1 H2 Hd; [exact H2|]. inversion H1; subst. cbn. constructor.
      - rewrite in_app_iff. intros [?|?]; [contradiction|]. eapply Hd; [left; reflexivity|eassumption].
      - apply IH; auto. intros x Hx. apply Hd. right. exact Hx. }
    apply A.
    - apply Injective_map_NoDup; [intros x y E; inversion E; reflexivity|apply seq_NoDup].
    - apply IH. exact ND'.
    - intros x Hx Hx2. apply in_map_iff in Hx. destruct Hx as (i & <- & _). apply in_flat_map in Hx2. destruct Hx2 as (n' & Hn' & Hi).
      apply in_map_iff in Hi. destruct Hi as (j & E & _). inversion E; subst. contradiction.
  Qed.
  Lemma addr_inj ld n i n' i' : (D <= ld -> i < D -> i' < D -> i + n * ld = i' + n' * ld -> n = n' /\ i = i')%nat.
  Proof. intros Hl Hi Hi' E. destruct (Nat.lt_trichotomy n n') as [L|[->|L]]; [exfalso; nia|split; [reflexivity|lia]|exfalso; nia]. Qed.

  Definition ad (ld : nat) (p : nat * nat) : nat := (snd p + fst p * ld)%nat.
  Lemma fold_cells ld (g : nat * nat -> V -> V) : (D <= ld)%nat -> forall L Y0, NoDup L -> (forall p, In p L -> (snd p < D)%nat) ->
    let Y := fold_left (fun Y p => upd Y (ad ld p) (g p (Y (ad ld p)))) L Y0 in
    (forall p, In p L -> Y (ad ld p) = g p (Y0 (ad ld p))) /\ (forall q, (forall p, In p L -> q <> ad ld p) -> Y q = Y0 q).
  Proof.
    intros Hl. induction L as [|p L IH]; intros Y0 ND HL; [split; [intros p []|reflexivity]|].
    inversion ND as [|? ? Np ND']; subst. cbn [fold_left]. cbv zeta in IH |- *.
    destruct (IH (upd Y0 (ad ld p) (g p (Y0 (ad ld p)))) ND' (fun r Hr => HL r (or_intror Hr))) as [I1 I2].
    assert (NE : forall r, In r L -> ad ld r <> ad ld p).
    { intros r Hr E. destruct r as [n i], p as [n' i']. unfold ad in E. cbn [fst snd] in E.
      destruct (addr_inj ld n i n' i' Hl (HL (n, i) (or_intror Hr)) (HL (n', i') (or_introl eq_refl)) E) as [-> ->]. contradiction. }
    split.
    - intros r [<-|Hr].
      + rewrite I2 by (intros s Hs E; apply (NE s Hs); symmetry; exact E). apply upd_same.
      + rewrite I1 by exact Hr. rewrite upd_other by (apply NE; exact Hr). reflexivity.
    - intros q Hq. rewrite I2 by (intros s Hs; apply Hq; right; exact Hs). apply upd_other. apply Hq. left. reflexivity.
  Qed.
  Lemma cells_snd ncol p : In p (cells ncol) -> (snd p < D)%nat.
  Proof. destruct p as [n i]. intros Hp. apply cells_in in Hp. cbn. lia. Qed.

  (** an address of an entry of the first ncol columns *)
  Definition inside (ncol ld q : nat) : Prop := exists n i, (n < ncol /\ i < D /\ q = i + n * ld)%nat.
  Lemma not_inside ncol ld q : ~ inside ncol ld q -> forall p, In p (cells ncol) -> q <> ad ld p.
  Proof. intros N [n i] Hp E. apply cells_in in Hp. apply N. exists n, i. unfold ad in E. cbn in E. lia. Qed.

  Lemma hmult_spec c ncol X ldi Y ldo : (D <= ldo)%nat ->
    (forall n i, (n < ncol)%nat -> (i < D)%nat ->
      column (hmult V vadd vscal D H c ncol X ldi Y ldo) ldo n i = vadd (H (column X ldi n) i) (vscal c (column X ldi n i))) /\
    (forall q, ~ inside ncol ldo q -> hmult V vadd vscal D H c ncol X ldi Y ldo q = Y q).
  Proof.
    intros Hl. unfold hmult.
    destruct (fold_cells ldo (fun p _ => vadd (H (column X ldi (fst p)) (snd p)) (vscal c (X (snd p + fst p * ldi)%nat))) Hl
      (cells ncol) Y (cells_nodup ncol) (cells_snd ncol)) as [A B].
    split; [|intros q Hq; apply B; apply not_inside; exact Hq].
    intros n i Hn Hi. apply (A (n, i)). apply cells_in. lia.
  Qed.
  Lemma scale_spec s ncol Y ldo : (D <= ldo)%nat ->
    (forall n i, (n < ncol)%nat -> (i < D)%nat -> column (scale_cols V vscal D s ncol Y ldo) ldo n i = vscal s (column Y ldo n i)) /\
    (forall q, ~ inside ncol ldo q -> scale_cols V vscal D s ncol Y ldo q = Y q).
  Proof.
    intros Hl. unfold scale_cols.
    destruct (fold_cells ldo (fun _ v => vscal s v) Hl (cells ncol) Y (cells_nodup ncol) (cells_snd ncol)) as [A B].
    split; [|intros q Hq; apply B; apply not_inside; exact Hq].
    intros n i Hn Hi. apply (A (n, i)). apply cells_in. lia.
  Qed.

  Lemma update_spec s1 s2 ldi ldo : (D <= ldi)%nat -> (D <= ldo)%nat -> forall L X0 Y0 W0, NoDup L -> (forall p, In p L -> (snd p < D)%nat) ->
    let '(X, Y, W) := fold_left (update1 V vadd vscal D s1 s2 ldi ldo) L (X0, Y0, W0) in
    (forall p, In p L -> X (ad ldi p) = Y0 (ad ldo p) /\ Y (ad ldo p) = vadd (vscal s1 (W0 (ad D p))) (vscal (- s2) (X0 (ad ldi p)))) /\
    (forall q, (forall p, In p L -> q <> ad ldi p) -> X q = X0 q) /\ (forall q, (forall p, In p L -> q <> ad ldo p) -> Y q = Y0 q).
  Proof.
    intros Hl1 Hl2. induction L as [|p L IH]; intros X0 Y0 W0 ND HL; [cbn; split; [intros p []|split; reflexivity]|].
    inversion ND as [|? ? Np ND']; subst. cbn [fold_left].
    set (v := vadd (vscal s1 (W0 (ad D p))) (vscal (- s2) (X0 (ad ldi p)))).
    assert (Est : update1 V vadd vscal D s1 s2 ldi ldo (X0, Y0, W0) p =
      (upd X0 (ad ldi p) (Y0 (ad ldo p)), upd Y0 (ad ldo p) v, upd (upd W0 (ad D p) (vscal s1 (W0 (ad D p)))) (ad D p) v)).
    { unfold update1, v, ad. cbv zeta. rewrite !upd_same. reflexivity. }
    rewrite Est. clear Est.
    assert (NE : forall ld r, (D <= ld)%nat -> In r L -> ad ld r <> ad ld p).
    { intros ld r Hld Hr E. destruct r as [n i], p as [n' i']. unfold ad in E. cbn [fst snd] in E.
      destruct (addr_inj ld n i n' i' Hld (HL (n, i) (or_intror Hr)) (HL (n', i') (or_introl eq_refl)) E) as [-> ->]. contradiction. }
    specialize (IH (upd X0 (ad ldi p) (Y0 (ad ldo p))) (upd Y0 (ad ldo p) v) (upd (upd W0 (ad D p) (vscal s1 (W0 (ad D p)))) (ad D p) v) ND' (fun r Hr => HL r (or_intror Hr))).
    destruct (fold_left _ L _) as [[X Y] W]. destruct IH as (I1 & I2 & I3). split; [|split].
    - intros r [<-|Hr].
      + rewrite I2 by (intros s Hs E; apply (NE ldi s Hl1 Hs); symmetry; exact E).
        rewrite I3 by (intros s Hs E; apply (NE ldo s Hl2 Hs); symmetry; exact E). rewrite !upd_same. split; reflexivity.
      + destruct (I1 r Hr) as [J1 J2]. rewrite J1, J2.
        rewrite !(upd_other _ (ad ldo p)) by (apply NE; assumption). rewrite !(upd_other _ (ad D p)) by (apply NE; [lia|assumption]).
        rewrite !(upd_other _ (ad ldi p)) by (apply NE; assumption). split; reflexivity.
    - intros q Hq. rewrite I2 by (intros s Hs; apply Hq; right; exact Hs). apply upd_other. apply Hq. left. reflexivity.
    - intros q Hq. rewrite I3 by (intros s Hs; apply Hq; right; exact Hs). apply upd_other. apply Hq. left. reflexivity.
  Qed.

  (** ** The recurrence *)
  (** specification: Chebyshev polynomials of the shifted and scaled operator
      A = (H - c)/e applied to v *)
  Definition Aop (e c : R) (v : nat -> V) : nat -> V := fun i => vscal (/ e) (vadd (H v i) (vscal (- c) (v i))).
  Fixpoint Tvec2 (e c : R) (k : nat) (v : nat -> V) : (nat -> V) * (nat -> V) :=
    match k with
    | O => (v, Aop e c v)
    | S k => let '(p, q) := Tvec2 e c k v in (q, fun i => vadd (vscal 2 (Aop e c q i)) (vscal (-1) (p i)))
    end.
  Definition Tvec (e c : R) (k : nat) (v : nat -> V) : nat -> V := fst (Tvec2 e c k v).
  Lemma Tvec_SS e c k v : Tvec e c (S (S k)) v = fun i => vadd (vscal 2 (Aop e c (Tvec e c (S k) v) i)) (vscal (-1) (Tvec e c k v i)).
  Proof. unfold Tvec. cbn. destruct (Tvec2 e c k v). reflexivity. Qed.

  Hypothesis scal_scal : forall r s v, vscal r (vscal s v) = vscal (r * s) v.
  Hypothesis scal_add : forall r u v, vscal r (vadd u v) = vadd (vscal r u) (vscal r v).
  Hypothesis scal_1 : forall v, vscal 1 v = v.
  (** H is homogeneous and uses only the D entries of an orbital *)
  Hypothesis H_local : forall u v, (forall i, (i < D)%nat -> u i = v i) -> forall i, (i < D)%nat -> H u i = H v i.
  Hypothesis H_scal : forall r v i, (i < D)%nat -> H (fun j => vscal r (v j)) i = vscal r (H v i).

  Section Run.
    Variables (a b a0 : R) (ncol ldi ldo : nat).
    Hypothesis Hab : a0 < a < b.
    Hypothesis Hldi : (D <= ldi)%nat.
    Hypothesis Hldo : (D <= ldo)%nat.
    Let e := / 2 * (b - a).
    Let c := / 2 * (b + a).
    Let xi := (a0 - c) / e.
    Let He : 0 < e. Proof. unfold e. lra. Qed.
    Let Hxi : xi < -1.
    Proof.
      unfold xi. apply (Rmult_lt_reg_r e); [exact He|]. unfold Rdiv. rewrite Rmult_assoc, Rinv_l by (pose proof He; lra). unfold c, e. lra.
    Qed.
    Let HT k : T k xi <> 0. Proof. apply T_neg. pose proof Hxi. lra. Qed.

    Definition holds (x : nat -> nat -> V) (k : nat) (X Y : nat -> V) : Prop := forall n i, (n < ncol)%nat -> (i < D)%nat ->
      column X ldi n i = vscal (/ T k xi) (Tvec e c k (x n) i) /\ column Y ldo n i = vscal (/ T (S k) xi) (Tvec e c (S k) (x n) i).

    Lemma hshift r u v i : (i < D)%nat -> (forall j, (j < D)%nat -> u j = vscal r (v j)) ->
      vadd (H u i) (vscal (- c) (u i)) = vscal (r * e) (Aop e c v i).
    Proof.
      intros Hi E. rewrite (H_local u (fun j => vscal r (v j)) E i Hi), H_scal, (E i Hi) by exact Hi.
      unfold Aop. rewrite !scal_scal. replace (r * e * / e) with r by (field; pose proof He; lra).
      rewrite scal_add, !scal_scal. f_equal. f_equal. ring.
    Qed.

    Lemma loop_ok x : forall m k X Y W, holds x k X Y ->
      exists X' Y', cheb_loop V vadd vscal D H e c (2 * xi) ncol ldi ldo m (T k xi / T (S k) xi) X Y W = Ok (X', Y') /\ holds x (k + m) X' Y' /\
        (forall q, ~ inside ncol ldi q -> X' q = X q) /\ (forall q, ~ inside ncol ldo q -> Y' q = Y q).
    Proof.
      induction m as [|m IH]; intros k X Y W Hk.
      - exists X, Y. cbn. rewrite Nat.add_0_r. auto.
      - cbn [cheb_loop].
        assert (E1 : rdiv 1 (2 * xi - T k xi / T (S k) xi) = Ok (T (S k) xi / T (S (S k)) xi)).
        { unfold rdiv. pose proof (HT k). pose proof (HT (S k)). pose proof (HT (S (S k))) as Z2. rewrite T_SS in Z2.
          replace (2 * xi - T k xi / T (S k) xi) with ((2 * xi * T (S k) xi - T k xi) / T (S k) xi) by (field; assumption).
          destruct (Req_EM_T _ 0) as [E0|E0].
          - exfalso. apply Rmult_integral in E0. destruct E0 as [E0|E0]; [contradiction|]. apply (Rinv_neq_0_compat (T (S k) xi)); assumption.
          - f_equal. rewrite T_SS. field. split; assumption. }
        rewrite E1. cbn [obind].
        assert (E2 : rdiv (2 * (T (S k) xi / T (S (S k)) xi)) e = Ok (2 * (T (S k) xi / T (S (S k)) xi) / e)).
        { unfold rdiv. destruct (Req_EM_T e 0) as [E0|E0]; [exfalso; pose proof He; lra|reflexivity]. }
        rewrite E2. cbn [obind].
        set (s1 := 2 * (T (S k) xi / T (S (S k)) xi) / e). set (s2 := T k xi / T (S k) xi * (T (S k) xi / T (S (S k)) xi)).
        destruct (hmult_spec (- c) ncol Y ldo W D ltac:(lia)) as [W1 _]. set (W2 := hmult V vadd vscal D H (- c) ncol Y ldo W D) in *.
        pose proof (update_spec s1 s2 ldi ldo Hldi Hldo (cells ncol) X Y W2 (cells_nodup ncol) (cells_snd ncol)) as U.
        destruct (fold_left _ _ _) as [[X' Y'] W']. destruct U as (U1 & U2 & U3).
        assert (HS : holds x (S k) X' Y').
        { intros n i Hn Hi. destruct (U1 (n, i) (proj2 (cells_in ncol n i) (conj Hn Hi))) as [A1 A2]. destruct (Hk n i Hn Hi) as [B1 B2].
          split; [rewrite <- B2; exact A1|].
          change (column Y' ldo n i) with (Y' (ad ldo (n, i))). rewrite A2.
          change (W2 (ad D (n, i))) with (column W2 D n i). change (X (ad ldi (n, i))) with (column X ldi n i).
          rewrite (W1 n i Hn Hi), B1.
          rewrite (hshift (/ T (S k) xi) _ (Tvec e c (S k) (x n)) i Hi) by (intros j Hj; apply Hk; assumption).
          rewrite Tvec_SS. rewrite scal_add, !scal_scal. pose proof (HT k). pose proof (HT (S k)). pose proof (HT (S (S k))). pose proof He.
          f_equal; f_equal.
          - unfold s1. field. repeat split; try assumption; lra.
          - unfold s2. field. repeat split; assumption. }
        destruct (IH (S k) X' Y' W' HS) as (X'' & Y'' & L1 & L2 & L3 & L4). exists X'', Y''.
        split; [exact L1|]. split; [replace (k + S m)%nat with (S k + m)%nat by lia; exact L2|]. split.
        + intros q Hq. rewrite L3 by exact Hq. apply U2. apply not_inside. exact Hq.
        + intros q Hq. rewrite L4 by exact Hq. apply U3. apply not_inside. exact Hq.
    Qed.

    Theorem C54_filter : forall X Y W0 m, (1 <= m)%nat ->
      exists X' Y', ChebyshevFiltering V vadd vscal D H X ldi Y ldo ncol m a b a0 W0 = Ok (X', Y') /\
        (forall n i, (n < ncol)%nat -> (i < D)%nat ->
           column Y' ldo n i = vscal (/ T m xi) (Tvec e c m (column X ldi n) i) /\
           column X' ldi n i = vscal (/ T (m - 1) xi) (Tvec e c (m - 1) (column X ldi n) i)) /\
        (forall q, ~ inside ncol ldi q -> X' q = X q) /\ (forall q, ~ inside ncol ldo q -> Y' q = Y q).
    Proof.
      intros X Y W0 m Hm. unfold ChebyshevFiltering. fold e. fold c. pose proof He as He'. pose proof Hxi as Hxi'.
      assert (Exe : xi * e = a0 - c) by (unfold xi; field; lra).
      assert (Nac : a0 - c <> 0) by nra.
      assert (E1 : rdiv e (a0 - c) = Ok (/ xi)).
      { unfold rdiv. destruct (Req_EM_T _ 0) as [Z|Z]; [contradiction|]. f_equal. unfold xi. field. split; [lra|exact Z]. }
      rewrite E1. cbn [obind].
      assert (E2 : rdiv 2 (/ xi) = Ok (2 * xi)).
      { unfold rdiv. destruct (Req_EM_T _ 0) as [Z|Z]; [exfalso; apply (Rinv_neq_0_compat xi); [lra|exact Z]|]. f_equal. field. lra. }
      rewrite E2. cbn [obind].
      assert (E3 : rdiv (/ xi) e = Ok (/ xi / e)) by (unfold rdiv; destruct (Req_EM_T e 0); [exfalso; lra|reflexivity]).
      rewrite E3. cbn [obind].
      destruct (hmult_spec (- c) ncol X ldi Y ldo Hldo) as [A1 A2]. set (Y1 := hmult V vadd vscal D H (- c) ncol X ldi Y ldo) in *.
      destruct (scale_spec (/ xi / e) ncol Y1 ldo Hldo) as [B1 B2]. set (Y2 := scale_cols V vscal D (/ xi / e) ncol Y1 ldo) in *.
      assert (H0 : holds (column X ldi) 0 X Y2).
      { intros n i Hn Hi. split.
        - rewrite T_0, Rinv_1, scal_1. reflexivity.
        - rewrite (B1 n i Hn Hi), (A1 n i Hn Hi), T_1.
          rewrite (hshift 1 _ (column X ldi n) i Hi) by (intros; rewrite scal_1; reflexivity). rewrite scal_scal.
          change (Tvec e c 1 (column X ldi n)) with (Aop e c (column X ldi n)). f_equal. field. split; lra. }
      destruct (loop_ok (column X ldi) (m - 1) 0 X Y2 W0 H0) as (X' & Y' & L1 & L2 & L3 & L4).
      exists X', Y'. split; [rewrite T_0, T_1 in L1; replace (1 / xi) with (/ xi) in L1 by (field; lra); exact L1|]. split; [|split; [exact L3|]].
      - intros n i Hn Hi. destruct (L2 n i Hn Hi) as [C1 C2]. cbn [Nat.add] in C1, C2. replace (S (m - 1)) with m in C2 by lia. split; assumption.
      - intros q Hq. rewrite L4, B2, A2 by exact Hq. reflexivity.
    Qed.
  End Run.

  Hypothesis scal_plus : forall r s v, vadd (vscal r v) (vscal s v) = vscal (r + s) v.
  Lemma Tvec_eigen e c lam v : e <> 0 -> (forall i, (i < D)%nat -> H v i = vscal lam (v i)) ->
    forall k i, (i < D)%nat -> Tvec e c k v i = vscal (T k ((lam - c) / e)) (v i).
  Proof.
    intros He Ev. set (t := (lam - c) / e).
    assert (AE : forall r u, (forall i, (i < D)%nat -> u i = vscal r (v i)) -> forall i, (i < D)%nat -> Aop e c u i = vscal (t * r) (v i)).
    { intros r u Eu i Hi. unfold Aop. rewrite (H_local u (fun j => vscal r (v j)) Eu i Hi), H_scal, Ev, (Eu i Hi) by exact Hi.
      rewrite !scal_scal, scal_plus, scal_scal. f_equal. unfold t. field. exact He. }
    assert (P : forall k, (forall i, (i < D)%nat -> Tvec e c k v i = vscal (T k t) (v i)) /\ (forall i, (i < D)%nat -> Tvec e c (S k) v i = vscal (T (S k) t) (v i))).
    { induction k as [|k [I1 I2]].
      - split; [intros; rewrite T_0, scal_1; reflexivity|]. intros i Hi. rewrite T_1. change (Tvec e c 1 v i) with (Aop e c v i).
        rewrite (AE 1 v) by (try exact Hi; intros; rewrite scal_1; reflexivity). f_equal. ring.
      - split; [exact I2|]. intros i Hi. rewrite Tvec_SS, T_SS. rewrite (AE _ _ I2 i Hi), (I1 i Hi). rewrite !scal_scal, scal_plus. f_equal. ring. }
    intros k. apply P.
  Qed.

  (** An eigenvector with eigenvalue lam is multiplied by the gain. *)
  Definition gain (a b a0 : R) (m : nat) (lam : R) : R :=
    T m ((2 * lam - (b + a)) / (b - a)) / T m ((2 * a0 - (b + a)) / (b - a)).
  Theorem C54_eigenvector : forall a b a0 ncol ldi ldo X Y W0 m n lam,
    a0 < a < b -> (D <= ldi)%nat -> (D <= ldo)%nat -> (1 <= m)%nat -> (n < ncol)%nat ->
    (forall i, (i < D)%nat -> H (column X ldi n) i = vscal lam (column X ldi n i)) ->
    exists X' Y', ChebyshevFiltering V vadd vscal D H X ldi Y ldo ncol m a b a0 W0 = Ok (X', Y') /\
      forall i, (i < D)%nat -> column Y' ldo n i = vscal (gain a b a0 m lam) (column X ldi n i).
  Proof.
    intros a b a0 ncol ldi ldo X Y W0 m n lam Hab Hi Ho Hm Hn Ev.
    destruct (C54_filter a b a0 ncol ldi ldo Hab Hi Ho X Y W0 m Hm) as (X' & Y' & E & P & _). exists X', Y'. split; [exact E|].
    intros i HiD. destruct (P n i Hn HiD) as [-> _]. rewrite (Tvec_eigen _ _ lam) by (try exact Ev; try exact HiD; lra).
    rewrite scal_scal. f_equal. unfold gain, Rdiv. rewrite Rmult_comm. f_equal.
    - f_equal. field. lra.
    - f_equal. f_equal. field. lra.
  Qed.
End Filter.
Print Assumptions C54_filter.
Print Assumptions C54_eigenvector.

(** ** What the gain does *)
Section Gain.
  Variables (a b a0 : R).
  Hypothesis Hab : a0 < a < b.
  Let u (t : R) := (2 * t - (b + a)) / (b - a).
  Let u_mul t : u t * (b - a) = 2 * t - (b + a). Proof. unfold u. field. lra. Qed.
  Let u_low t : t <= a -> u t <= -1. Proof. intros H. pose proof (u_mul t). nra. Qed.
  Let u_mid t : a <= t <= b -> -1 <= u t <= 1. Proof. intros H. pose proof (u_mul t). nra. Qed.
  Let u_mono s t : s <= t -> u s <= u t. Proof. intros H. pose proof (u_mul s). pose proof (u_mul t). nra. Qed.
  Lemma gain_low m lam : lam <= a -> gain a b a0 m lam = T m (- u lam) / T m (- u a0) /\ 1 <= T m (- u lam) /\ 1 <= T m (- u a0).
  Proof.
    intros H. unfold gain. fold (u lam). fold (u a0). destruct (T_neg m (u lam) (u_low _ H)) as (E1 & B1 & _).
    destruct (T_neg m (u a0) (u_low a0 ltac:(lra))) as (E2 & B2 & _). rewrite E1, E2. split; [|split; assumption].
    destruct (pow_m1 m) as [P|P]; rewrite P; field; lra.
  Qed.
  Lemma gain_abs_mid m mu : a <= mu <= b -> Rabs (gain a b a0 m mu) <= / T m (- u a0).
  Proof.
    intros H. unfold gain. fold (u mu). fold (u a0). destruct (T_neg m (u a0) (u_low a0 ltac:(lra))) as (_ & B2 & N & A2).
    unfold Rdiv. rewrite Rabs_mult, Rabs_inv, A2. pose proof (T_small m (u mu) (u_mid _ H)).
    assert (0 < / T m (- u a0)) by (apply Rinv_0_lt_compat; lra). nra.
  Qed.
End Gain.

(** Below the cutoff the gain is positive, at most 1 from a0 on, 1 at a0,
    decreasing in the eigenvalue, and never smaller than any gain inside
    [a, b]; inside [a, b] it decays geometrically with the degree m, since
    (a+b-2 a0)/(b-a) > 1. *)
Theorem C54_gain : forall a b a0 m, a0 < a < b -> (1 <= m)%nat ->
  gain a b a0 m a0 = 1 /\
  (forall lam, lam <= a -> 0 < gain a b a0 m lam) /\
  (forall l1 l2, l1 <= l2 <= a -> gain a b a0 m l2 <= gain a b a0 m l1) /\
  (forall lam mu, lam <= a -> a <= mu <= b -> Rabs (gain a b a0 m mu) <= gain a b a0 m lam) /\
  (forall mu, a <= mu <= b ->
     let g := (a + b - 2 * a0) / (b - a) in 1 < g /\ Rabs (gain a b a0 m mu) <= / (g * (2 * g - 1) ^ (m - 1))).
Proof.
  intros a b a0 m Hab Hm. set (u := fun t => (2 * t - (b + a)) / (b - a)).
  assert (u_mul : forall t, u t * (b - a) = 2 * t - (b + a)) by (intros; unfold u; field; lra).
  assert (L0 : a0 <= a) by lra. destruct (gain_low a b a0 Hab m a0 L0) as (E0 & _ & B0). fold (u a0) in E0, B0.
  split; [|split; [|split; [|split]]].
  - rewrite E0. field. lra.
  - intros lam H. destruct (gain_low a b a0 Hab m lam H) as (E & B & _). fold (u lam) in E, B. fold (u a0) in E. rewrite E. apply Rdiv_lt_0_compat; lra.
  - intros l1 l2 [H1 H2]. destruct (gain_low a b a0 Hab m l1 ltac:(lra)) as (E1 & B1 & _). destruct (gain_low a b a0 Hab m l2 H2) as (E2 & B2 & _).
    rewrite E1, E2. fold (u l1) (u l2) (u a0). unfold Rdiv. apply Rmult_le_compat_r; [left; apply Rinv_0_lt_compat; lra|].
    apply T_grow. pose proof (u_mul l1). pose proof (u_mul l2). split; nra.
  - intros lam mu H1 H2. destruct (gain_low a b a0 Hab m lam H1) as (E1 & B1 & _). rewrite E1. fold (u lam) (u a0). fold (u lam) in B1.
    eapply Rle_trans; [apply gain_abs_mid; assumption|]. fold (u a0). unfold Rdiv. rewrite <- (Rmult_1_l (/ T m (- u a0))) at 1.
    apply Rmult_le_compat_r; [left; apply Rinv_0_lt_compat; lra|]. exact B1.
  - intros mu H g. assert (Eg : g = - u a0) by (unfold g, u; field; lra).
    assert (Pg : 1 < g) by (rewrite Eg; pose proof (u_mul a0); nra). split; [exact Pg|].
    eapply Rle_trans; [apply gain_abs_mid; assumption|]. fold (u a0). rewrite <- Eg.
    destruct m as [|m]; [lia|]. replace (S m - 1)%nat with m by lia.
    apply Rinv_le_contravar; [|apply T_lower; lra]. apply Rmult_lt_0_compat; [lra|]. apply pow_lt. lra.
Qed.
Print Assumptions C54_gain.

(** Real and complex entries are instances. *)
Example C54_complex_instance :
  let add (u v : R * R) := (fst u + fst v, snd u + snd v) in
  let sc r (v : R * R) := (r * fst v, r * snd v) in
  (forall r s v, sc r (sc s v) = sc (r * s) v) /\ (forall r u v, sc r (add u v) = add (sc r u) (sc r v)) /\
  (forall v, sc 1 v = v) /\ (forall r s v, add (sc r v) (sc s v) = sc (r + s) v).
Proof. cbv zeta. repeat split; intros; try (f_equal; cbn [fst snd]; ring). destruct v as [x y]. cbn [fst snd]. f_equal; ring. Qed.

(** The diagonal operator with eigenvalues -1/2 and 1 (D = 2), two orbitals
    with padding (ldi = 3): both entries of both orbitals get the gain. *)
Example C54_filter_instance : forall Y W0,
  let Hd (v : nat -> R) (i : nat) := (match i with O => - / 2 | _ => 1 end) * v i in
  let X (q : nat) := INR (q + 1) in
  exists X' Y', ChebyshevFiltering R Rplus Rmult 2 Hd X 3 Y 2 2 3 0 2 (-1) W0 = Ok (X', Y') /\ Y' 1%nat = 0 /\ X' 2%nat = 3.
Proof.
  intros Y W0 Hd X.
  destruct (C54_filter R Rplus Rmult 2 Hd ltac:(intros; ring) ltac:(intros; ring) ltac:(intros; ring)
    ltac:(intros u v E i Hi; unfold Hd; rewrite (E i Hi); reflexivity) ltac:(intros r v i Hi; unfold Hd; ring)
    0 2 (-1) 2 3 2 ltac:(lra) ltac:(lia) ltac:(lia) X Y W0 3 ltac:(lia)) as (X' & Y' & E & P & F & _).
  exists X', Y'. split; [exact E|]. split.
  - destruct (P 0%nat 1%nat ltac:(lia) ltac:(lia)) as [Q _]. change (Y' 1%nat) with (column R Y' 2 0 1). rewrite Q.
    unfold Tvec, Tvec2, Aop, column, Hd, X. cbn [fst Nat.add Nat.mul INR]. field. 
    match goal with |- T 3 ?x <> 0 => replace x with (-2) by field end. unfold T, T2. cbn [fst]. lra.
  - rewrite F; [unfold X; cbn; ring|]. intros (n & i & Hn & Hi & Q). lia.
Qed.

(** ** Number of filter steps *)
(** Over the SCF iterations 0..n the values of count are 0, 1, 2, ... without
    gap or repetition: rhoTrigger steps first, Nchefsi in each later one. *)
Theorem C54_counts : forall rhoTrigger Nchefsi n,
  flat_map (chefsi_counts rhoTrigger Nchefsi) (seq 0 (S n)) = seq 0 (rhoTrigger + n * Nchefsi) /\
  length (chefsi_counts rhoTrigger Nchefsi 0) = rhoTrigger /\
  length (chefsi_counts rhoTrigger Nchefsi (S n)) = Nchefsi.
Proof.
  intros r N n. split; [|split; unfold chefsi_counts; rewrite seq_length; lia].
  induction n as [|n IH]; [unfold chefsi_counts; cbn [seq flat_map]; rewrite app_nil_r; f_equal; lia|].
  rewrite seq_S, flat_map_app, IH. cbn [Nat.add flat_map]. rewrite app_nil_r. unfold chefsi_counts.
  replace (r + S n * N - (r + n * N))%nat with N by lia.
  replace (r + S n * N)%nat with ((r + n * N) + N)%nat by lia. rewrite (seq_app (r + n * N) N). reflexivity.
Qed.
Print Assumptions C54_counts.

(** ** Filter bounds *)
(** The first bounds satisfy the precondition of the filter whenever the
    estimates are ordered and the upper one is at least -10; later bounds do
    when the previous eigenvalues are sorted and stay 0.1 below the upper
    bound. *)
Theorem C54_bounds : forall emin emax, emin <= emax -> -10 < emax ->
  let bnd := bounds_first (emin, emax) in fst bnd < cutoff true bnd 0 < snd bnd.
Proof. intros. unfold bnd, bounds_first, cutoff. cbn [fst snd]. lra. Qed.
Print Assumptions C54_bounds.
Theorem C54_bounds_later : forall prev l1 ln, l1 <= ln -> ln + /10 < snd prev ->
  let bnd := bounds_later prev l1 in fst bnd < cutoff false bnd ln < snd bnd.
Proof. intros. unfold bnd, bounds_later, cutoff. cbn [fst snd]. lra. Qed.
Print Assumptions C54_bounds_later.
(** The 1% buffer is meant to push the bound up; for a negative estimate it
    moves it below the estimate, and below -10 the bounds are not even
    ordered. *)
Theorem C54_buffer_refuted : exists emin emax, emin <= emax /\ snd (bounds_first (emin, emax)) < emax.
Proof. exists (-2), (-1). unfold bounds_first. cbn [fst snd]. lra. Qed.
Print Assumptions C54_buffer_refuted.

(** ** Polynomial degree *)
Lemma up_mono x y : x <= y -> (up x <= up y)%Z.
Proof.
  intros H. destruct (archimed x) as [A1 A2], (archimed y) as [B1 B2]. apply Znot_gt_le. intros G.
  assert (IZR (up y) + 1 <= IZR (up x)) by (rewrite <- plus_IZR; apply IZR_le; lia). lra.
Qed.
Lemma up_eq x z : IZR z <= x < IZR z + 1 -> (up x = z + 1)%Z.
Proof. intros [H1 H2]. symmetry. apply tech_up; rewrite plus_IZR; lra. Qed.
(** The default degree interpolates the four data points, does not increase
    with the mesh spacing and lies between 14 and 72. *)
Theorem C54_default_degree :
  (Mesh2ChebDegree (/10) = 50 /\ Mesh2ChebDegree (2/10) = 35 /\ Mesh2ChebDegree (4/10) = 20 /\ Mesh2ChebDegree (7/10) = 14)%Z /\
  (forall h1 h2, 0 <= h1 <= h2 -> (Mesh2ChebDegree h2 <= Mesh2ChebDegree h1)%Z) /\
  (forall h, 0 <= h -> (14 <= Mesh2ChebDegree h <= 72)%Z).
Proof.
  assert (M : forall h1 h2, 0 <= h1 <= h2 -> (Mesh2ChebDegree h2 <= Mesh2ChebDegree h1)%Z).
  { intros h1 h2 H. unfold Mesh2ChebDegree.
    assert (P : forall x y, x <= y -> (((- (700 / 3) * y + 1240 / 3) * y + - (773 / 3)) * y + 1078 / 15 <= ((- (700 / 3) * x + 1240 / 3) * x + - (773 / 3)) * x + 1078 / 15)).
    { intros x y L. assert (0 <= 700 * (x * x + x * y + y * y) - 1240 * (x + y) + 773) by (pose proof (Rle_0_sqr (x + y - 124/105)) as S1; pose proof (Rle_0_sqr (x - y)) as S2; unfold Rsqr in S1, S2; lra).
      assert (0 <= (y - x) * (700 * (x * x + x * y + y * y) - 1240 * (x + y) + 773)) by (apply Rmult_le_pos; lra). lra. }
    destruct (Rlt_dec (7 / 10) h2) as [A|A], (Rlt_dec (7 / 10) h1) as [B|B]; try lra; try lia.
    - pose proof (P h1 (7/10) ltac:(lra)) as Q. assert (14 + / 2 <= ((- (700 / 3) * h1 + 1240 / 3) * h1 + - (773 / 3)) * h1 + 1078 / 15 + / 2) as Q2 by lra.
      apply up_mono in Q2. rewrite (up_eq (14 + / 2) 14) in Q2 by lra. lia.
    - pose proof (P h1 h2 ltac:(lra)) as Q. assert (Q2 := up_mono _ _ (Rplus_le_compat_r (/ 2) _ _ Q)). lia. }
  split; [|split; [exact M|]].
  - unfold Mesh2ChebDegree. repeat split; destruct (Rlt_dec _ _); try lra;
    [rewrite (up_eq _ 50) by lra|rewrite (up_eq _ 35) by lra|rewrite (up_eq _ 20) by lra|rewrite (up_eq _ 14) by lra]; reflexivity.
  - intros h Hh. split.
    + pose proof (M h (h + 1) ltac:(lra)) as Q. unfold Mesh2ChebDegree at 1 in Q. destruct (Rlt_dec (7 / 10) (h + 1)); [exact Q|lra].
    + pose proof (M 0 h ltac:(lra)) as Q. unfold Mesh2ChebDegree at 2 in Q. destruct (Rlt_dec (7 / 10) 0); [lra|].
      rewrite (up_eq _ 72) in Q by lra. exact Q.
Qed.
Print Assumptions C54_default_degree.

Local Open Scope Z_scope.
(** The adaptive degree stays between npl_min and the degree the SCF cycle
    started with, if that is at least 12. *)
Theorem C54_adaptive_degree : forall deg optmz large t st, 12 <= deg ->
  st = scf_start deg -> forall st', adjust_degree optmz large (Some t) st = Ok st' ->
  let '(d, mx, mn) := st' in mx = deg /\ Z.max (deg / 4) 12 <= d <= deg.
Proof.
  intros deg optmz large t st Hd -> st'. unfold scf_start, adjust_degree. rewrite quot_div_nonneg by lia.
  assert (B : deg / 4 <= deg) by (apply Z.div_le_upper_bound; lia). revert B. generalize (deg / 4). intros q B.
  destruct optmz; [destruct large|]; intros E; inversion E; subst; clear E; lia.
Qed.
Print Assumptions C54_adaptive_degree.
(** A requested degree below 12 is raised to 12 by the adaptive scheme. *)
Theorem C54_adaptive_degree_small_refuted : exists deg t d mx mn,
  1 <= deg /\ adjust_degree true false (Some t) (scf_start deg) = Ok (d, mx, mn) /\ deg < d.
Proof. exists 8, 0, 12, 8, 12. vm_compute. repeat split; discriminate. Qed.
Print Assumptions C54_adaptive_degree_small_refuted.
(** The next SCF cycle (next ionic step) takes the degree the last one ended
    with as its maximum, so the degree the user asked for is not restored even
    for a large error. *)
Theorem C54_degree_restored_refuted : exists deg t st1 st2,
  adjust_degree true false (Some t) (scf_start deg) = Ok st1 /\
  adjust_degree true true None (scf_start (fst (fst st1))) = Ok st2 /\ fst (fst st2) < deg.
Proof. exists 40, 0, (12, 40, 12), (12, 12, 12). vm_compute. repeat split. Qed.
Print Assumptions C54_degree_restored_refuted.
