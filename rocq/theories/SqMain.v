(** Main lemmas on the Gauss spectral quadrature. *)
From Coq Require Import ZArith Reals List Lia Lra Bool.
From Verif Require Import CBase Nloc NlocLem VnlOp VnlLem VnlMain SqGauss SqQl SqLz SqSpec.
Import ListNotations.
Local Open Scope R_scope.

Lemma rsum_last a b (f : Z -> R) : (a <= b)%Z -> rsum (map f (zrange a b)) = rsum (map f (zrange a (b - 1))) + f b.
Proof.
  intros H. rewrite (zrange_split a b b (b - 1)) by lia.
  replace (zrange b (b - 1)) with (@nil Z) by (unfold zrange; now replace (Z.to_nat (b - 1 - b + 1)) with 0%nat by lia).
  cbn [app]. replace (b - 1 + 1)%Z with b by lia.
  rewrite map_app, (ksum_app _ _ _ _ _ _ RTheory). f_equal.
  unfold zrange. replace (Z.to_nat (b - b + 1)) with 1%nat by lia. cbn. ring.
Qed.

Lemma sumn_rsum n f : sumn n f = rsum (map f (zrange 0 (n - 1))).
Proof.
  unfold sumn. destruct (Z_le_gt_dec 0 n) as [H|H].
  - pattern n. apply natlike_ind; [reflexivity| |exact H]. clear. intros n Hn IH.
    rewrite Z2Nat.inj_succ by lia. cbn [nsum]. rewrite IH, Z2Nat.id by lia. replace (Z.succ n - 1)%Z with n by lia.
    symmetry. apply rsum_last. lia.
  - replace (Z.to_nat n) with 0%nat by lia. unfold zrange. replace (Z.to_nat (n - 1 - 0 + 1)) with 0%nat by lia. reflexivity.
Qed.
Lemma inner_vdot n u v : inner n u v = vdot n u v.
Proof. unfold inner, vdot. apply sumn_rsum. Qed.
Lemma delta_kd i j : delta i j = kd i j.
Proof. unfold delta, kd. destruct (Z.eq_dec i j), (Z.eqb_spec i j); lia || reflexivity. Qed.

(** ** Sums *)
Lemma sumn_ext n f g : (forall i, (0 <= i < n)%Z -> f i = g i) -> sumn n f = sumn n g.
Proof. intros E0. rewrite !sumn_rsum. apply ksum_ext. intros i Hi. apply in_zrange in Hi. apply E0. lia. Qed.
Lemma sumn_add n f g : sumn n (fun i => f i + g i) = sumn n f + sumn n g.
Proof. rewrite !sumn_rsum. apply (ksum_add _ _ _ _ _ _ RTheory). Qed.
Lemma sumn_mul n c f : sumn n (fun i => c * f i) = c * sumn n f.
Proof. rewrite !sumn_rsum. apply (ksum_mul_l _ _ _ _ _ _ RTheory). Qed.
Lemma sumn_swap n m f : sumn n (fun i => sumn m (f i)) = sumn m (fun j => sumn n (fun i => f i j)).
Proof.
  rewrite (sumn_ext n _ (fun i => rsum (map (f i) (zrange 0 (m - 1))))) by (intros; apply sumn_rsum).
  rewrite (sumn_ext m _ (fun j => rsum (map (fun i => f i j) (zrange 0 (n - 1))))) by (intros; apply sumn_rsum).
  rewrite !sumn_rsum. apply (ksum_swap _ _ _ _ _ _ RTheory).
Qed.
Lemma sumn_one n f i : (0 <= i < n)%Z -> sumn n (fun j => delta i j * f j) = f i.
Proof.
  intros Hi. rewrite sumn_rsum, (ksum_only _ _ _ _ _ _ RTheory _ _ i).
  - rewrite delta_kd, kd_refl. ring.
  - apply NoDup_zrange.
  - apply in_zrange; lia.
  - intros x _ Hx. rewrite delta_kd, kd_neq by auto. ring.
Qed.
Lemma sumn_zero n f : (forall i, (0 <= i < n)%Z -> f i = 0) -> sumn n f = 0.
Proof. intros E0. rewrite sumn_rsum. apply (ksum_zero _ _ _ _ _ _ RTheory). intros i Hi. apply in_zrange in Hi. apply E0. lia. Qed.
Lemma sumn_S n f : (0 <= n)%Z -> sumn (n + 1) f = sumn n f + f n.
Proof. intros. rewrite !sumn_rsum. replace (n + 1 - 1)%Z with n by lia. apply rsum_last. lia. Qed.
Lemma sumn_shift n f : (0 <= n)%Z ->
  sumn n (fun x => if (0 <? x)%Z then f (x - 1)%Z else 0) = sumn n (fun x => if (x <? n - 1)%Z then f x else 0).
Proof.
  intros Hn.
  assert (A : forall m, (0 <= m)%Z -> sumn (m + 1) (fun x => if (0 <? x)%Z then f (x - 1)%Z else 0) = sumn m f).
  { apply natlike_ind; [change (0 + 0 = 0); lra|]. intros m Hm IH. rewrite sumn_S by lia. replace (Z.succ m) with (m + 1)%Z by lia.
    rewrite IH, sumn_S by lia. f_equal. destruct (Z.ltb_spec 0 (m + 1)); [|lia]. f_equal. lia. }
  destruct (Z.eq_dec n 0) as [->|]; [reflexivity|]. remember (n - 1)%Z as m. replace n with (m + 1)%Z by lia.
  rewrite A by lia. rewrite sumn_S by lia. destruct (Z.ltb_spec m m); [lia|].
  rewrite (sumn_ext m (fun x => if (x <? m)%Z then f x else 0) f); [ring|]. intros i Hi. destruct (Z.ltb_spec i m); [reflexivity|lia].
Qed.
Lemma sumn_le n f g : (forall i, (0 <= i < n)%Z -> f i <= g i) -> sumn n f <= sumn n g.
Proof.
  intros L. unfold sumn. assert (K : forall k, (Z.of_nat k <= n)%Z -> nsum k f <= nsum k g).
  { induction k; cbn [nsum]; intros; [lra|]. pose proof (IHk ltac:(lia)). pose proof (L (Z.of_nat k) ltac:(lia)). lra. }
  destruct (Z_le_gt_dec 0 n); [apply K; lia|]. replace (Z.to_nat n) with 0%nat by lia. cbn. lra.
Qed.

(** ** Operators on sums *)
Section Op.
Variable H : vec -> vec.
Variable N : Z.
Hypothesis SO : symmetric_op N H.

Lemma H_scal a u i : (0 <= i < N)%Z -> H (fun x => a * u x) i = a * H u i.
Proof.
  intros Hi. rewrite (so_ext _ _ SO _ (fun x => a * u x + 0 * u x)) by (intros; [ring|assumption] || (intros; ring) || assumption).
  rewrite (so_lin _ _ SO) by exact Hi. ring.
Qed.
Lemma H_sum n (y : Z -> R) (W : Z -> vec) i : (0 <= i < N)%Z ->
  H (fun q => sumn n (fun x => y x * W x q)) i = sumn n (fun x => y x * H (W x) i).
Proof.
  intros Hi. unfold sumn. induction (Z.to_nat n) as [|k IH]; cbn [nsum].
  - rewrite (so_ext _ _ SO _ (fun x => 0 * W 0%Z x)) by (intros; (ring || assumption)). rewrite H_scal by exact Hi. ring.
  - rewrite (so_ext _ _ SO _ (fun q => 1 * nsum k (fun x => y x * W x q) + y (Z.of_nat k) * W (Z.of_nat k) q)) by (intros; (ring || assumption)).
    rewrite (so_lin _ _ SO) by exact Hi. rewrite IH. ring.
Qed.

Lemma vsym u v : vdot N u (H v) = vdot N (H u) v.
Proof. rewrite <- !inner_vdot. apply (so_sym _ _ SO). Qed.

Lemma inner_sum_l n (y : Z -> R) (W : Z -> vec) v : inner N (fun q => sumn n (fun x => y x * W x q)) v = sumn n (fun x => y x * inner N (W x) v).
Proof.
  unfold inner. rewrite (sumn_ext N _ (fun i => sumn n (fun x => y x * (W x i * v i)))).
  - rewrite sumn_swap. apply sumn_ext. intros x _. apply sumn_mul.
  - intros i _. rewrite Rmult_comm, <- sumn_mul. apply sumn_ext. intros; ring.
Qed.
Lemma inner_comm u v : inner N u v = inner N v u.
Proof. unfold inner. apply sumn_ext. intros; ring. Qed.
Lemma inner_ext u v u' v' : (forall i, (0 <= i < N)%Z -> u i = u' i) -> (forall i, (0 <= i < N)%Z -> v i = v' i) -> inner N u v = inner N u' v'.
Proof. intros A B. unfold inner. apply sumn_ext. intros i Hi. rewrite A, B by exact Hi. reflexivity. Qed.

Fixpoint hp (k : nat) (v : vec) : vec := match k with O => v | S k => H (hp k v) end.

Lemma hp_swap k : forall u v, inner N (hp k u) v = inner N u (hp k v).
Proof.
  induction k as [|k IH]; intros u v; [reflexivity|]. cbn [hp]. rewrite <- (so_sym _ _ SO), IH.
  f_equal. clear. induction k as [|k IH]; [reflexivity|]. cbn [hp]. now rewrite IH.
Qed.
Lemma hp_add j k v : hp (j + k) v = hp j (hp k v).
Proof. induction j as [|j IH]; [reflexivity|]. cbn. now rewrite IH. Qed.
Lemma hp_r k v : hp k (H v) = H (hp k v).
Proof. induction k as [|k IH]; [reflexivity|]. cbn. now rewrite IH. Qed.

(** A polynomial is the sum of its powers. *)
Lemma pop_sum p : forall v i, pop H p v i = nsum (length p) (fun k => nth (Z.to_nat k) p 0 * hp (Z.to_nat k) v i).
Proof.
  induction p as [|c q IH]; intros v i; [reflexivity|]. cbn [pop length]. rewrite IH.
  assert (K : forall m f, nsum (S m) f = f 0%Z + nsum m (fun k => f (k + 1)%Z)).
  { induction m; intros f; [cbn; ring|]. cbn [nsum] in *. rewrite IHm. replace (Z.of_nat (S m)) with (Z.of_nat m + 1)%Z by lia. ring. }
  rewrite K. f_equal.
  assert (X : forall m f g, (forall k, (0 <= k)%Z -> f k = g k) -> nsum m f = nsum m g).
  { induction m; intros f g E0; [reflexivity|]. cbn [nsum]. rewrite (IHm f g E0), E0 by lia. reflexivity. }
  apply X. intros k Hk. rewrite Z2Nat.inj_add by lia. rewrite Nat.add_1_r. cbn [nth hp]. rewrite hp_r. reflexivity.
Qed.
Lemma pval_sum p : forall x, pval p x = nsum (length p) (fun k => nth (Z.to_nat k) p 0 * x ^ Z.to_nat k).
Proof.
  induction p as [|c q IH]; intros x; [reflexivity|]. cbn [pval length]. rewrite IH.
  assert (K : forall m f, nsum (S m) f = f 0%Z + nsum m (fun k => f (k + 1)%Z)).
  { induction m; intros f; [cbn; ring|]. cbn [nsum] in *. rewrite IHm. replace (Z.of_nat (S m)) with (Z.of_nat m + 1)%Z by lia. ring. }
  rewrite K. cbn [Z.to_nat nth pow]. rewrite Rmult_1_r. f_equal.
  assert (X : forall m f g, (forall k, (0 <= k)%Z -> x * f k = g k) -> x * nsum m f = nsum m g).
  { induction m; intros f g E0; cbn [nsum]; [ring|]. rewrite <- (IHm f g E0), <- E0 by lia. ring. }
  apply X. intros k Hk. rewrite Z2Nat.inj_add by lia. rewrite Nat.add_1_r. cbn [nth pow]. ring.
Qed.

Section Run.
Variables (npl : Z) (t0 : vec) (st : lz) (q : ql).
Hypothesis HL : lanczos H N npl t0 = Ok st.
Hypothesis HT : tridiag npl (l_aa st) (l_bb st) = Ok q.
Let vs := l_vs st.
Let a := l_aa st.
Let b := l_bb st.
Let z := q_z q.
Let d := q_d q.
Let W := V vs.

Lemma LOK : (2 <= npl)%Z /\ norm2 N t0 <> 0 /\ done H N npl t0 st.
Proof. apply lanczos_ok; [exact vsym|exact HL]. Qed.
Lemma n2 : (2 <= npl)%Z. Proof. apply LOK. Qed.
Lemma DN : done H N npl t0 st. Proof. apply LOK. Qed.
Lemma Worth i j : (0 <= i < npl)%Z -> (0 <= j < npl)%Z -> inner N (W i) (W j) = delta i j.
Proof. intros. rewrite inner_vdot, delta_kd. apply (i_orth _ _ _ _ _ _ (d_inv _ _ _ _ _ DN)); lia. Qed.

Definition res : vec := resid H vs a b (npl - 1).
Lemma res_orth j : (0 <= j < npl)%Z -> inner N res (W j) = 0.
Proof. intros. rewrite inner_vdot. now apply (d_last _ _ _ _ _ DN). Qed.

Lemma HW x i : (0 <= x < npl)%Z -> (0 <= i < N)%Z ->
  H (W x) i = (if (0 <? x)%Z then b (x - 1)%Z * W (x - 1)%Z i else 0) + a x * W x i
    + (if (x <? npl - 1)%Z then b x * W (x + 1)%Z i else 0) + delta (npl - 1) x * res i.
Proof.
  intros Hx Hi. destruct (Z.ltb_spec x (npl - 1)).
  - rewrite delta_kd, kd_neq by lia. pose proof (i_three _ _ _ _ _ _ (d_inv _ _ _ _ _ DN) x i ltac:(lia) Hi) as T.
    unfold resid in T. fold vs a b in T. fold (W x) in T. fold (W (x - 1)%Z) in T. fold (W (x + 1)%Z) in T.
    assert (E0 : H (W x) i = b x * W (x + 1)%Z i + a x * W x i + (if (0 <? x)%Z then b (x - 1)%Z * W (x - 1)%Z i else 0)) by (rewrite <- T; unfold W; ring).
    rewrite E0. ring.
  - replace x with (npl - 1)%Z by lia. rewrite delta_kd, kd_refl. unfold res, resid. fold (W (npl - 1)%Z) (W (npl - 1 - 1)%Z). ring.
Qed.

Definition comb (y : vec) : vec := fun i => sumn npl (fun x => y x * W x i).

Lemma H_comb y i : (0 <= i < N)%Z -> H (comb y) i = comb (Tmul npl a b y) i + y (npl - 1)%Z * res i.
Proof.
  intros Hi. pose proof n2. unfold comb. rewrite H_sum by exact Hi.
  rewrite (sumn_ext npl _ (fun x => ((if (0 <? x)%Z then y ((x - 1) + 1)%Z * b (x - 1)%Z * W (x - 1)%Z i else 0) + y x * a x * W x i)
     + ((if (x <? npl - 1)%Z then y x * b x * W (x + 1)%Z i else 0) + delta (npl - 1) x * (y x * res i)))).
  2:{ intros x Hx. rewrite HW by assumption. replace (x - 1 + 1)%Z with x by lia. destruct (0 <? x)%Z, (x <? npl - 1)%Z; ring. }
  rewrite !sumn_add, sumn_one by lia.
  rewrite (sumn_shift npl (fun x => y (x + 1)%Z * b x * W x i)) by lia.
  assert (S2 : sumn npl (fun x => if (x <? npl - 1)%Z then y x * b x * W (x + 1)%Z i else 0)
    = sumn npl (fun x => if (0 <? x)%Z then y (x - 1)%Z * b (x - 1)%Z * W x i else 0)).
  { rewrite <- (sumn_shift npl (fun x => y x * b x * W (x + 1)%Z i)) by lia. apply sumn_ext. intros x Hx. now replace (x - 1 + 1)%Z with x by lia. }
  rewrite S2. rewrite <- Rplus_assoc, <- !sumn_add. f_equal. apply sumn_ext. intros x Hx. unfold Tmul.
  destruct (0 <? x)%Z, (x <? npl - 1)%Z; ring.
Qed.

Lemma comb_ext y y' i : (forall x, (0 <= x < npl)%Z -> y x = y' x) -> comb y i = comb y' i.
Proof. intros E0. unfold comb. apply sumn_ext. intros x Hx. now rewrite E0. Qed.

(** Coordinates of the powers: T^k e_0. *)
Fixpoint yk (k : nat) : vec := match k with O => delta 0 | S k => Tmul npl a b (yk k) end.
Lemma yk_high k : forall x, (Z.of_nat k < x)%Z -> yk k x = 0.
Proof.
  induction k as [|k IH]; intros x Hx; cbn [yk].
  - rewrite delta_kd. apply kd_neq. lia.
  - unfold Tmul. rewrite (IH x), (IH (x + 1)%Z) by lia. rewrite (IH (x - 1)%Z) by lia. destruct (0 <? x)%Z, (x <? npl - 1)%Z; ring.
Qed.

Lemma hp_comb k : (Z.of_nat k < npl)%Z -> forall i, (0 <= i < N)%Z -> hp k (W 0) i = comb (yk k) i.
Proof.
  induction k as [|k IH]; intros Hk i Hi; cbn [hp yk].
  - unfold comb. rewrite (sumn_one npl (fun x => W x i)) by (pose proof n2; lia). reflexivity.
  - rewrite (so_ext _ _ SO _ (comb (yk k))) by (intros; (apply IH; [lia|assumption]) || assumption).
    rewrite H_comb by exact Hi. rewrite yk_high by lia. ring.
Qed.

(** One power more, up to the residual. *)
Lemma hp_comb_last k : (Z.of_nat k <= npl)%Z -> forall i, (0 <= i < N)%Z -> exists r, forall i, (0 <= i < N)%Z -> hp k (W 0) i = comb (yk k) i + r * res i.
Proof.
  intros Hk i0 Hi0. destruct k as [|k]; [exists 0; intros i Hi; rewrite (hp_comb 0 ltac:(pose proof n2; cbn; lia) i Hi); ring|].
  exists (yk k (npl - 1)%Z). intros i Hi. cbn [hp yk].
  rewrite (so_ext _ _ SO _ (comb (yk k))) by (intros; (apply hp_comb; [lia|assumption]) || assumption).
  now rewrite H_comb.
Qed.

Lemma comb_inner y y' : inner N (comb y) (comb y') = sumn npl (fun x => y x * y' x).
Proof.
  unfold comb at 1. rewrite inner_sum_l. apply sumn_ext. intros x Hx. f_equal.
  rewrite inner_comm. unfold comb. rewrite inner_sum_l.
  rewrite (sumn_ext npl _ (fun w => delta x w * y' w)); [apply sumn_one; exact Hx|].
  intros w Hw. rewrite inner_comm, Worth by assumption. ring.
Qed.
Lemma res_comb y : inner N res (comb y) = 0.
Proof.
  rewrite inner_comm. unfold comb. rewrite inner_sum_l. apply sumn_zero. intros x Hx. rewrite inner_comm, res_orth by exact Hx. ring.
Qed.

(** Eigenvectors. *)
Lemma TOK : orth npl z /\ forall j k, (0 <= j < npl)%Z -> (0 <= k < npl)%Z -> Tmul npl a b (fun x => z x j) k = d j * z k j.
Proof. apply tridiag_ok; [pose proof n2; lia|exact HT]. Qed.
Lemma zrow x y : (0 <= x < npl)%Z -> (0 <= y < npl)%Z -> sumn npl (fun j => z x j * z y j) = delta x y.
Proof. intros. rewrite delta_kd, <- (proj1 (proj1 TOK)) by assumption. rewrite <- inner_vdot. reflexivity. Qed.
Lemma zcol i j : (0 <= i < npl)%Z -> (0 <= j < npl)%Z -> sumn npl (fun x => z x i * z x j) = delta i j.
Proof. intros. rewrite delta_kd, <- (proj2 (proj1 TOK)) by assumption. rewrite <- inner_vdot. reflexivity. Qed.

Lemma Tmul_sum (y : Z -> R) (Q : Z -> vec) x : Tmul npl a b (fun w => sumn npl (fun j => y j * Q j w)) x = sumn npl (fun j => y j * Tmul npl a b (Q j) x).
Proof.
  unfold Tmul. unfold sumn. induction (Z.to_nat npl) as [|k IH]; cbn [nsum].
  - destruct (0 <? x)%Z, (x <? npl - 1)%Z; ring.
  - rewrite <- IH. destruct (0 <? x)%Z, (x <? npl - 1)%Z; ring.
Qed.

Lemma yk_spec k : forall x, (0 <= x < npl)%Z -> yk k x = sumn npl (fun j => (z 0%Z j * d j ^ k) * z x j).
Proof.
  pose proof n2. induction k as [|k IH]; intros x Hx; cbn [yk].
  - rewrite <- (zrow 0 x) by lia. apply sumn_ext. intros; cbn; ring.
  - transitivity (Tmul npl a b (fun w => sumn npl (fun j => (z 0%Z j * d j ^ k) * z w j)) x).
    + unfold Tmul. destruct (Z.ltb_spec 0 x), (Z.ltb_spec x (npl - 1)); rewrite ?(IH x), ?(IH (x - 1)%Z), ?(IH (x + 1)%Z) by lia; reflexivity.
    + rewrite (Tmul_sum _ (fun j w => z w j)). apply sumn_ext. intros j Hj. rewrite (proj2 TOK) by assumption. cbn [pow]. ring.
Qed.

(** Sums over eigenvectors. *)
Lemma spec_inner (f g : Z -> R) : sumn npl (fun x => sumn npl (fun j => f j * z x j) * sumn npl (fun j => g j * z x j)) = sumn npl (fun j => f j * g j).
Proof.
  rewrite (sumn_ext npl _ (fun x => sumn npl (fun j => f j * (z x j * sumn npl (fun k => g k * z x k))))).
  2:{ intros x _. rewrite Rmult_comm, <- sumn_mul. apply sumn_ext. intros; ring. }
  rewrite sumn_swap. apply sumn_ext. intros j Hj. rewrite sumn_mul. f_equal.
  rewrite (sumn_ext npl _ (fun x => sumn npl (fun k => g k * (z x j * z x k)))).
  2:{ intros x _. rewrite <- sumn_mul. apply sumn_ext. intros; ring. }
  rewrite sumn_swap. rewrite (sumn_ext npl _ (fun k => delta j k * g k)); [apply sumn_one; exact Hj|].
  intros k Hk. rewrite sumn_mul, zcol by assumption. ring.
Qed.

(** Moments. *)
Lemma moment k : (Z.of_nat k <= 2 * npl - 1)%Z -> inner N (W 0) (hp k (W 0)) = sumn npl (fun j => z 0%Z j * z 0%Z j * d j ^ k).
Proof.
  pose proof n2. intros Hk.
  assert (M : forall j l, (Z.of_nat j < npl)%Z -> (Z.of_nat l <= npl)%Z -> inner N (hp j (W 0)) (hp l (W 0)) = sumn npl (fun i => z 0%Z i * z 0%Z i * d i ^ (j + l))).
  { intros j l Hj Hl. destruct (Z_le_gt_dec N 0) as [HN|HN].
    - exfalso. pose proof (Worth 0 0 ltac:(lia) ltac:(lia)) as Q. unfold inner, sumn in Q. replace (Z.to_nat N) with 0%nat in Q by lia.
      rewrite delta_kd, kd_refl in Q. cbn in Q. lra.
    - destruct (hp_comb_last l Hl 0 ltac:(lia)) as [r Hr].
      rewrite (inner_ext _ _ (comb (yk j)) (fun i => 1 * comb (yk l) i + r * res i)).
      2:{ intros i Hi. now apply hp_comb. }
      2:{ intros i Hi. rewrite Hr by exact Hi. ring. }
      rewrite inner_comm, !inner_vdot, vdot_lin, <- !inner_vdot, res_comb, inner_comm, comb_inner.
      rewrite (sumn_ext npl _ (fun x => sumn npl (fun i => (z 0%Z i * d i ^ j) * z x i) * sumn npl (fun i => (z 0%Z i * d i ^ l) * z x i))).
      2:{ intros x Hx. rewrite !yk_spec by exact Hx. reflexivity. }
      rewrite spec_inner. rewrite (sumn_ext npl _ (fun i => z 0%Z i * z 0%Z i * d i ^ (j + l))); [ring|]. intros i _. rewrite pow_add. ring. }
  destruct (Z_lt_ge_dec (Z.of_nat k) npl).
  - exact (M 0%nat k ltac:(lia) ltac:(lia)).
  - replace k with ((k - Z.to_nat npl) + Z.to_nat npl)%nat by lia. rewrite hp_add, <- hp_swap. apply M; lia.
Qed.

Lemma nsum_scal k c f : nsum k (fun i => c * f i) = c * nsum k f.
Proof. induction k; cbn [nsum]; [ring|]. rewrite IHk. ring. Qed.
Lemma nsum_sumn k f : nsum k f = sumn (Z.of_nat k) f.
Proof. unfold sumn. now rewrite Nat2Z.id. Qed.

Lemma quad p : (Z.of_nat (length p) <= 2 * npl)%Z ->
  sumn npl (fun j => z 0%Z j * z 0%Z j * pval p (d j)) = inner N (W 0) (pop H p (W 0)).
Proof.
  intros Hp. unfold inner.
  rewrite (sumn_ext npl _ (fun j => sumn (Z.of_nat (length p)) (fun k => nth (Z.to_nat k) p 0 * (z 0%Z j * z 0%Z j * d j ^ Z.to_nat k)))).
  2:{ intros j _. rewrite pval_sum, nsum_sumn, <- sumn_mul. apply sumn_ext. intros; ring. }
  rewrite (sumn_ext N _ (fun i => sumn (Z.of_nat (length p)) (fun k => nth (Z.to_nat k) p 0 * (W 0%Z i * hp (Z.to_nat k) (W 0) i)))).
  2:{ intros j _. rewrite pop_sum, nsum_sumn, <- sumn_mul. apply sumn_ext. intros; ring. }
  rewrite (sumn_swap npl), (sumn_swap N). apply sumn_ext. intros k Hk. rewrite !sumn_mul. f_equal.
  rewrite <- moment by lia. reflexivity.
Qed.

(** The column: V Z f(D) Z^T e_0. *)
Definition column (f : R -> R) : vec := comb (fun x => sumn npl (fun j => (z 0%Z j * f (d j)) * z x j)).

Lemma column_exact p i : (Z.of_nat (length p) <= npl)%Z -> (0 <= i < N)%Z -> column (pval p) i = pop H p (W 0) i.
Proof.
  intros Hp Hi. rewrite pop_sum, nsum_sumn. unfold column.
  rewrite (comb_ext _ (fun x => sumn (Z.of_nat (length p)) (fun k => nth (Z.to_nat k) p 0 * yk (Z.to_nat k) x))).
  - unfold comb. rewrite (sumn_ext npl _ (fun x => sumn (Z.of_nat (length p)) (fun k => nth (Z.to_nat k) p 0 * (yk (Z.to_nat k) x * W x i)))).
    2:{ intros x _. rewrite Rmult_comm, <- sumn_mul. apply sumn_ext. intros; ring. }
    rewrite sumn_swap. apply sumn_ext. intros k Hk. rewrite sumn_mul. f_equal. symmetry. apply hp_comb; [lia|exact Hi].
  - intros x Hx. rewrite (sumn_ext npl _ (fun j => sumn (Z.of_nat (length p)) (fun k => nth (Z.to_nat k) p 0 * ((z 0%Z j * d j ^ Z.to_nat k) * z x j)))).
    2:{ intros j _. rewrite pval_sum, nsum_sumn.
        transitivity ((z 0%Z j * z x j) * sumn (Z.of_nat (length p)) (fun k => nth (Z.to_nat k) p 0 * d j ^ Z.to_nat k)); [ring|].
        rewrite <- sumn_mul. apply sumn_ext. intros; ring. }
    rewrite sumn_swap. apply sumn_ext. intros k Hk. rewrite sumn_mul. f_equal. symmetry. now apply yk_spec.
Qed.

(** Ritz vectors. *)
Definition ritz (j : Z) : vec := comb (fun x => z x j).
Lemma ritz_unit j : (0 <= j < npl)%Z -> inner N (ritz j) (ritz j) = 1.
Proof. intros Hj. unfold ritz. rewrite comb_inner, zcol, delta_kd, kd_refl by exact Hj. reflexivity. Qed.
Lemma ritz_val j : (0 <= j < npl)%Z -> inner N (ritz j) (H (ritz j)) = d j.
Proof.
  intros Hj. unfold ritz at 2.
  rewrite (inner_ext _ (H (comb (fun x => z x j))) (ritz j) (fun i => d j * ritz j i + z (npl - 1)%Z j * res i)).
  - rewrite inner_comm, inner_vdot, vdot_lin, <- !inner_vdot, ritz_unit by exact Hj. unfold ritz. rewrite res_comb. ring.
  - reflexivity.
  - intros i Hi. rewrite H_comb by exact Hi. f_equal. unfold ritz, comb. rewrite <- sumn_mul. apply sumn_ext. intros x Hx.
    rewrite (proj2 TOK) by assumption. ring.
Qed.
End Run.

(** ** Exact eigenvectors of the operator *)
Section Eig.
Variables (u : Z -> Z -> R) (lam : Z -> R).
Hypothesis EB : eigenbasis N H u lam.

Lemma expand v i : (0 <= i < N)%Z -> v i = sumn N (fun s => inner N (u s) v * u s i).
Proof.
  intros Hi. unfold inner. transitivity (sumn N (fun j => delta i j * v j)); [symmetry; now apply sumn_one|].
  rewrite (sumn_ext N _ (fun j => sumn N (fun s => (u s i * u s j) * v j))).
  2:{ intros j Hj. rewrite <- (eb_full _ _ _ _ EB i j) by assumption. rewrite Rmult_comm, <- sumn_mul. apply sumn_ext. intros; ring. }
  rewrite sumn_swap. apply sumn_ext. intros s _. rewrite (Rmult_comm _ (u s i)), <- sumn_mul. apply sumn_ext. intros; ring.
Qed.
Lemma hp_eig k v i : (0 <= i < N)%Z -> hp k v i = sumn N (fun s => (inner N (u s) v * lam s ^ k) * u s i).
Proof.
  revert i. induction k as [|k IH]; intros i Hi; cbn [hp].
  - rewrite (expand v i) by exact Hi. apply sumn_ext. intros; cbn; ring.
  - rewrite (so_ext _ _ SO _ (fun i => sumn N (fun s => (inner N (u s) v * lam s ^ k) * u s i))) by (intros; (apply IH; assumption) || assumption).
    rewrite H_sum by exact Hi. apply sumn_ext. intros s Hs. rewrite (eb_eig _ _ _ _ EB) by assumption. cbn [pow]. ring.
Qed.
Lemma pop_eig p v i : (0 <= i < N)%Z -> pop H p v i = sumn N (fun s => (inner N (u s) v * pval p (lam s)) * u s i).
Proof.
  intros Hi. rewrite pop_sum, nsum_sumn.
  rewrite (sumn_ext N _ (fun s => sumn (Z.of_nat (length p)) (fun k => nth (Z.to_nat k) p 0 * ((inner N (u s) v * lam s ^ Z.to_nat k) * u s i)))).
  2:{ intros s _. rewrite pval_sum, nsum_sumn.
      transitivity ((inner N (u s) v * u s i) * sumn (Z.of_nat (length p)) (fun k => nth (Z.to_nat k) p 0 * lam s ^ Z.to_nat k)); [ring|].
      rewrite <- sumn_mul. apply sumn_ext. intros; ring. }
  rewrite sumn_swap. apply sumn_ext. intros k Hk. rewrite sumn_mul. f_equal. now apply hp_eig.
Qed.
Lemma quad_eig p v : inner N v (pop H p v) = sumn N (fun s => inner N (u s) v * inner N (u s) v * pval p (lam s)).
Proof.
  rewrite inner_comm. rewrite (inner_ext _ v (fun i => sumn N (fun s => (inner N (u s) v * pval p (lam s)) * u s i)) v);
    [|intros; now apply pop_eig|reflexivity].
  rewrite inner_sum_l. apply sumn_ext. intros; ring.
Qed.
End Eig.
End Op.
