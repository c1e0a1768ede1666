(** Helpers for P_LapMax.v: the symbol of the stencil decreases from 0 to pi;
    quadratic forms on a periodic line. *)
From Coq Require Import Reals Lra Lia ZArith.
From Coquelicot Require Import Coquelicot.
From Verif Require Import CBase FDWeights ExxFft ExxFftLem LapMax LapMaxSpec.
Local Open Scope R_scope.

(** ** The symbol *)
Definition csn (p : nat) (t : R) : R := cos (INR p * t).

Lemma csn_rec p t : 2 * cos t * csn (S p) t = csn (S (S p)) t + csn p t.
Proof.
  unfold csn. rewrite !S_INR.
  replace ((INR p + 1 + 1) * t) with ((INR p + 1) * t + t) by ring.
  replace (INR p * t) with ((INR p + 1) * t - t) by ring.
  rewrite cos_plus, cos_minus. ring.
Qed.

(** a 0 + 2 sum a p cos p t *)
Definition cser (a : nat -> R) (n : nat) (t : R) : R := a O + 2 * psum (fun p => a p * csn p t) n.

Definition stepc (a : nat -> R) (p : nat) : R :=
  match p with O => a O - a 1%nat | S q => a (S q) - (a q + a (S (S q))) / 2 end.

Lemma cser_step a n t : cser (stepc a) n t =
  (1 - cos t) * cser a n t - a (S n) * csn n t + a n * csn (S n) t.
Proof.
  induction n as [|n IH].
  - unfold cser. cbn [psum stepc]. unfold csn. change (INR 0) with 0. change (INR 1) with 1.
    rewrite Rmult_0_l, cos_0, Rmult_1_l. ring.
  - unfold cser in *. cbn [psum]. rewrite !Rmult_plus_distr_l, <- !Rplus_assoc.
    rewrite IH. cbn [stepc]. pose proof (csn_rec n t) as E.
    replace (csn (S (S n)) t) with (2 * cos t * csn (S n) t - csn n t) by (rewrite E; ring). field.
Qed.

Lemma ratio_next n p : ratio (S n) (S p) =
  ratio n p * ((INR n + 1) * (INR n + 1) / ((INR n + INR p + 1) * (INR n + INR p + 2))).
Proof.
  pose proof (pos_INR n) as Hn.
  induction p as [|p IH].
  - cbn [ratio]. rewrite S_INR. change (INR 0) with 0. field. lra.
  - pose proof (pos_INR p) as Hp.
    change (ratio (S n) (S (S p))) with (ratio (S n) (S p) * ((INR (S n) - INR (S p)) / (INR (S n) + INR (S p) + 1))).
    rewrite IH. cbn [ratio]. rewrite !S_INR. field. lra.
Qed.

Definition alt (n p : nat) : R := - sgn p * ratio n p.

Lemma alt_step n p : (2 * INR n + 1) / (INR n + 1) * alt (S n) p = stepc (alt n) p.
Proof.
  pose proof (pos_INR n) as Hn. destruct p as [|p].
  - unfold alt, stepc. rewrite sgn_S. cbn [ratio]. change (sgn 0) with (IZR (-1)). change (INR 0) with 0. field. lra.
  - pose proof (pos_INR p) as Hp. unfold alt, stepc. rewrite !sgn_S, ratio_next. cbn [ratio]. rewrite !S_INR. field. lra.
Qed.

Lemma cser_scal c a n t : cser (fun p => c * a p) n t = c * cser a n t.
Proof.
  unfold cser. rewrite (psum_ext _ (fun p => c * (a p * csn p t))) by (intros; ring).
  rewrite psum_scal. ring.
Qed.

Lemma cser_ext a b n t : (forall p, (p <= n)%nat -> a p = b p) -> cser a n t = cser b n t.
Proof.
  intros H. unfold cser. rewrite (H O) by lia. f_equal. f_equal. apply psum_ext. intros p Hp. rewrite H by lia. reflexivity.
Qed.

(** 1 + 2 sum (-1)^p ratio n p cos p t is a positive multiple of (1 - cos t)^n. *)
Lemma cser_power n : exists c, 0 < c /\ forall t, cser (alt n) n t = c * (1 - cos t) ^ n.
Proof.
  induction n as [|n (c & Hc & IH)].
  - exists 1. split; [lra|]. intros t. unfold cser, alt. cbn [psum ratio pow]. change (sgn 0) with (IZR (-1)). lra.
  - pose proof (pos_INR n) as Hn. exists (c * ((INR n + 1) / (2 * INR n + 1))). split.
    + apply Rmult_lt_0_compat; [exact Hc|]. apply Rdiv_lt_0_compat; lra.
    + intros t.
      assert (E : (2 * INR n + 1) / (INR n + 1) * cser (alt (S n)) (S n) t = (1 - cos t) * cser (alt n) n t).
      { rewrite <- cser_scal. rewrite (cser_ext _ (stepc (alt n))) by (intros; apply alt_step).
        rewrite cser_step. unfold cser at 1. cbn [psum].
        assert (Z1 : alt n (S n) = 0) by (unfold alt; rewrite ratio_past by lia; ring).
        assert (Z2 : alt n (S (S n)) = 0) by (unfold alt; rewrite ratio_past by lia; ring).
        rewrite Z1, Z2. unfold cser. ring. }
      rewrite IH in E.
      apply (Rmult_eq_reg_l ((2 * INR n + 1) / (INR n + 1))).
      2:{ apply Rgt_not_eq. apply Rdiv_lt_0_compat; lra. }
      rewrite E. cbn [pow]. field. lra.
Qed.

(** The symbol of the second-derivative stencil. *)
Definition symb (w : nat -> R) (n : nat) (t : R) : R := cser w n t.

Definition D2w (n p : nat) : R := match p with O => w2_zero n | _ => sgn p * 2 * fract n p / (INR p * INR p) end.

Lemma FD2 n w : FDweights_D2 n = Ok w -> w = D2w n.
Proof.
  unfold FDweights_D2. destruct (_ <=? _)%Z; [|discriminate]. intros E. injection E as <-. reflexivity.
Qed.

Lemma psum_is_derive (f f' : nat -> R -> R) n t : (forall p, is_derive (f p) t (f' p t)) ->
  is_derive (fun t => psum (fun p => f p t) n) t (psum (fun p => f' p t) n).
Proof.
  intros H. induction n as [|n IH]; cbn [psum].
  - apply (is_derive_const 0 t).
  - apply (is_derive_plus (fun t => psum (fun p => f p t) n) (f (S n))); [exact IH|apply H].
Qed.

Definition symb1 (n : nat) (t : R) : R := - 2 * psum (fun p => INR p * (D2w n p * sin (INR p * t))) n.

Lemma symb_derive n t : is_derive (symb (D2w n) n) t (symb1 n t).
Proof.
  unfold symb, cser, symb1.
  replace (- 2 * psum (fun p => INR p * (D2w n p * sin (INR p * t))) n)
    with (0 + 2 * psum (fun p => D2w n p * (- (INR p * sin (INR p * t)))) n).
  2:{ rewrite <- !psum_scal. rewrite Rplus_0_l. apply psum_ext. intros; ring. }
  apply (is_derive_plus (fun _ => D2w n 0) (fun t => 2 * psum (fun p => D2w n p * csn p t) n)).
  - apply (is_derive_const (D2w n 0) t).
  - apply (is_derive_scal (fun t => psum (fun p => D2w n p * csn p t) n)).
    apply (psum_is_derive (fun p t => D2w n p * csn p t) (fun p t => D2w n p * (- (INR p * sin (INR p * t))))).
    intros p. unfold csn. auto_derive; [exact I|]. ring.
Qed.

Lemma symb1_derive n t : is_derive (symb1 n) t (2 * (cser (alt n) n t - 1)).
Proof.
  unfold symb1.
  replace (2 * (cser (alt n) n t - 1)) with (- 2 * psum (fun p => INR p * (D2w n p * (INR p * csn p t))) n).
  - apply (is_derive_scal (fun t => psum (fun p => INR p * (D2w n p * sin (INR p * t))) n)).
    apply (psum_is_derive (fun p t => INR p * (D2w n p * sin (INR p * t))) (fun p t => INR p * (D2w n p * (INR p * csn p t)))).
    intros p. unfold csn. auto_derive; [exact I|]. ring.
  - unfold cser. replace (alt n 0) with 1.
    2:{ unfold alt. cbn [ratio]. change (sgn 0) with (IZR (-1)). lra. }
    replace (2 * (1 + 2 * psum (fun p => alt n p * csn p t) n - 1)) with (4 * psum (fun p => alt n p * csn p t) n) by ring.
    rewrite <- !psum_scal. apply psum_ext. intros p Hp. destruct p as [|p]; [lia|].
    unfold D2w, alt. rewrite fract_ratio.
    assert (0 < INR (S p)) by (apply lt_0_INR; lia). field. lra.
Qed.

Lemma symb1_neg n t : 0 <= t <= PI -> symb1 n t <= 0.
Proof.
  intros Ht. destruct (Rle_lt_dec (symb1 n t) 0) as [L|L]; [exact L|exfalso].
  destruct (cser_power n) as (c & Hc & HP).
  assert (E0 : symb1 n 0 = 0).
  { unfold symb1. rewrite psum_zero; [ring|]. intros p _. rewrite Rmult_0_r, sin_0. ring. }
  assert (E1 : symb1 n PI = 0).
  { unfold symb1. rewrite psum_zero; [ring|]. intros p _.
    rewrite (INR_IZR_INZ p), (sin_eq_0_1 (IZR (Z.of_nat p) * PI)); [ring|now exists (Z.of_nat p)]. }
  assert (T0 : 0 < t) by (destruct (Req_dec t 0) as [->|N]; lra).
  assert (T1 : t < PI) by (destruct (Req_dec t PI) as [->|N]; lra).
  assert (Cn : forall x, continuity_pt (symb1 n) x).
  { intros x. apply derivable_continuous_pt. eexists. apply is_derive_Reals. apply symb1_derive. }
  destruct (MVT_gen (symb1 n) 0 t (fun x => 2 * (cser (alt n) n x - 1))) as (a & Ha & Ea).
  { intros; apply symb1_derive. } { intros; apply Cn. }
  destruct (MVT_gen (symb1 n) t PI (fun x => 2 * (cser (alt n) n x - 1))) as (b & Hb & Eb).
  { intros; apply symb1_derive. } { intros; apply Cn. }
  rewrite Rmin_left, Rmax_right in Ha, Hb by lra.
  rewrite E0 in Ea. rewrite E1 in Eb.
  assert (A : cser (alt n) n a <= cser (alt n) n b).
  { rewrite !HP. apply Rmult_le_compat_l; [lra|]. apply pow_incr.
    pose proof (COS_bound a). split; [lra|].
    assert (cos b <= cos a); [|lra].
    destruct (Req_dec a b) as [->|N]; [lra|]. apply Rlt_le, cos_decreasing_1; lra. }
  assert (X1 : 0 < cser (alt n) n a - 1) by nra.
  assert (X2 : cser (alt n) n b - 1 < 0) by nra. lra.
Qed.

Lemma symb_decr n a b : 0 <= a <= b -> b <= PI -> symb (D2w n) n b <= symb (D2w n) n a.
Proof.
  intros Ha Hb. destruct (Req_dec a b) as [->|N]; [lra|].
  destruct (MVT_gen (symb (D2w n) n) a b (symb1 n)) as (x & Hx & Ex).
  { intros; apply symb_derive. }
  { intros x _. apply derivable_continuous_pt. eexists. apply is_derive_Reals. apply symb_derive. }
  rewrite Rmin_left, Rmax_right in Hx by lra.
  pose proof (symb1_neg n x ltac:(lra)). nra.
Qed.

Lemma symb_0 n : symb (D2w n) n 0 = 0.
Proof.
  unfold symb, cser. cbn [D2w]. rewrite w2_zero_sum.
  rewrite (psum_ext (fun p => D2w n p * csn p 0) (fun p => 2 * (sgn p * ratio n p / (INR p * INR p)))).
  - rewrite psum_scal. ring.
  - intros p Hp. destruct p as [|p]; [lia|]. unfold D2w, csn. rewrite Rmult_0_r, cos_0, fract_ratio.
    assert (0 < INR (S p)) by (apply lt_0_INR; lia). field. lra.
Qed.

(** ** Sums over a period *)
Lemma nsum_ext N f g : (forall i, (0 <= i < Z.of_nat N)%Z -> f i = g i) -> nsum N f = nsum N g.
Proof. induction N as [|N IH]; intros H; cbn; [reflexivity|]. rewrite IH by (intros; apply H; lia). rewrite H by lia. reflexivity. Qed.
Lemma nsum_plus N f g : nsum N (fun i => f i + g i) = nsum N f + nsum N g.
Proof. induction N as [|N IH]; cbn; [|rewrite IH]; lra. Qed.
Lemma nsum_scal N c f : nsum N (fun i => c * f i) = c * nsum N f.
Proof. induction N as [|N IH]; cbn; [|rewrite IH]; lra. Qed.
Lemma nsum_zero N f : (forall i, (0 <= i < Z.of_nat N)%Z -> f i = 0) -> nsum N f = 0.
Proof. induction N as [|N IH]; intros H; cbn; [reflexivity|]. rewrite IH by (intros; apply H; lia). rewrite H by lia. lra. Qed.
Lemma nsum_swap N M f : nsum N (fun i => nsum M (fun j => f i j)) = nsum M (fun j => nsum N (fun i => f i j)).
Proof.
  induction N as [|N IH]; cbn.
  - symmetry. apply nsum_zero. reflexivity.
  - rewrite IH, <- nsum_plus. reflexivity.
Qed.
Lemma nsum_le N f g : (forall i, (0 <= i < Z.of_nat N)%Z -> f i <= g i) -> nsum N f <= nsum N g.
Proof.
  induction N as [|N IH]; intros H; cbn; [lra|]. pose proof (H (Z.of_nat N) ltac:(lia)).
  assert (nsum N f <= nsum N g) by (apply IH; intros; apply H; lia). lra.
Qed.
Lemma nsum_one N f a : (0 <= a < Z.of_nat N)%Z -> (forall i, (0 <= i < Z.of_nat N)%Z -> i <> a -> f i = 0) -> nsum N f = f a.
Proof.
  induction N as [|N IH]; intros Ha H; [lia|]. cbn.
  destruct (Z.eq_dec a (Z.of_nat N)) as [->|E].
  - rewrite nsum_zero; [lra|]. intros; apply H; lia.
  - rewrite (H (Z.of_nat N)) by lia. rewrite IH; [lra|lia|]. intros; apply H; lia.
Qed.
Lemma nsum_ssum N f n : nsum N (fun i => ssum (fun p => f p i) n) = ssum (fun p => nsum N (f p)) n.
Proof.
  induction n as [|n IH]; cbn.
  - apply nsum_zero. reflexivity.
  - rewrite <- IH, <- nsum_plus. reflexivity.
Qed.
Lemma ssum_psum f n : ssum f n = psum f n.
Proof. induction n as [|n IH]; cbn; [|rewrite IH]; reflexivity. Qed.

(** ** Cosine sums *)
Definition ang (N : nat) (k : Z) : R := 2 * PI * IZR k / INR N.

Lemma nsum_fst N (g : nat -> C) : nsum N (fun k => fst (g (Z.to_nat k))) = fst (csum N g).
Proof. induction N as [|N IH]; cbn [nsum csum]; [reflexivity|]. rewrite IH, Nat2Z.id. reflexivity. Qed.

Lemma cos_mod N d k : (0 < N)%nat ->
  cos (IZR d * ang N k) = cos (IZR (d mod Z.of_nat N) * ang N k).
Proof.
  intros HN. assert (0 < INR N) by (apply lt_0_INR; lia).
  set (q := (d / Z.of_nat N)%Z).
  assert (E : IZR d * ang N k = IZR (d mod Z.of_nat N) * ang N k + 2 * PI * IZR (q * k)).
  { unfold ang. rewrite (Z.div_mod d (Z.of_nat N)) at 1 by lia. fold q.
    rewrite plus_IZR, !mult_IZR, <- INR_IZR_INZ. field. lra. }
  rewrite E. pose proof (cis_shift (IZR (d mod Z.of_nat N) * ang N k) (q * k)) as X.
  unfold cis in X. injection X as X _. exact X.
Qed.

Lemma cos_sum N d : (0 < N)%nat -> nsum N (fun k => cos (IZR d * ang N k)) =
  if (d mod Z.of_nat N =? 0)%Z then INR N else 0.
Proof.
  intros HN. assert (HP : 0 < INR N) by (apply lt_0_INR; lia).
  rewrite (nsum_ext _ _ (fun k => cos (IZR (d mod Z.of_nat N) * ang N k))) by (intros; now apply cos_mod).
  pose proof (Z.mod_pos_bound d (Z.of_nat N) ltac:(lia)) as B. set (r := (d mod Z.of_nat N)%Z) in *.
  pose proof (orth N (Z.to_nat r) 0 ltac:(lia) ltac:(lia)) as O.
  apply (f_equal fst) in O. rewrite <- nsum_fst in O.
  transitivity (nsum N (fun k => fst (Cmult (cis (2 * PI * (INR (Z.to_nat r) * INR (Z.to_nat k) / INR N)))
    (cis (- (2 * PI * (INR 0 * INR (Z.to_nat k) / INR N))))))).
  - apply nsum_ext. intros k Hk. rewrite cis_add. unfold cis. cbn [fst]. f_equal.
    unfold ang. rewrite !INR_IZR_INZ, !Z2Nat.id by lia. cbn. rewrite <- INR_IZR_INZ. field. lra.
  - rewrite O. destruct (Z.eqb_spec r 0) as [->|E].
    + reflexivity.
    + destruct (Nat.eqb_spec (Z.to_nat r) 0); [lia|reflexivity].
Qed.

(** ** A periodic line *)
Definition perio (N : nat) (v : Z -> R) : Prop := forall i, v (i + Z.of_nat N)%Z = v i.

Lemma perio_mul N v i q : perio N v -> v (i + q * Z.of_nat N)%Z = v i.
Proof.
  intros H.
  assert (P : forall m j, v (j + Z.of_nat m * Z.of_nat N)%Z = v j).
  { induction m as [|m IH]; intros j; [f_equal; lia|].
    replace (j + Z.of_nat (S m) * Z.of_nat N)%Z with ((j + Z.of_nat m * Z.of_nat N) + Z.of_nat N)%Z by lia.
    rewrite H. apply IH. }
  destruct (Z_le_gt_dec 0 q) as [Hq|Hq].
  - rewrite <- (Z2Nat.id q) by lia. apply P.
  - rewrite <- (P (Z.to_nat (- q)) (i + q * Z.of_nat N)%Z). f_equal. rewrite Z2Nat.id by lia. lia.
Qed.

Lemma perio_mod N v i : (0 < N)%nat -> perio N v -> v (i mod Z.of_nat N)%Z = v i.
Proof.
  intros HN H. rewrite (Z.div_mod i (Z.of_nat N)) at 2 by lia.
  rewrite Z.add_comm, Z.mul_comm. symmetry. now apply perio_mul.
Qed.

(** |Fourier coefficient|^2 *)
Definition Sk (N : nat) (v : Z -> R) (k : Z) : R :=
  nsum N (fun i => nsum N (fun j => v i * v j * cos (IZR (i - j) * ang N k))).

Lemma Sk_sq N v k : Sk N v k =
  (nsum N (fun i => v i * cos (IZR i * ang N k))) * (nsum N (fun i => v i * cos (IZR i * ang N k))) +
  (nsum N (fun i => v i * sin (IZR i * ang N k))) * (nsum N (fun i => v i * sin (IZR i * ang N k))).
Proof.
  unfold Sk.
  set (A := nsum N (fun i => v i * cos (IZR i * ang N k))). set (B := nsum N (fun i => v i * sin (IZR i * ang N k))).
  transitivity (nsum N (fun i => A * (v i * cos (IZR i * ang N k)) + B * (v i * sin (IZR i * ang N k)))).
  - apply nsum_ext. intros i _. unfold A, B.
    rewrite !(Rmult_comm (nsum _ _)), <- !nsum_scal, <- nsum_plus. apply nsum_ext. intros j _.
    rewrite minus_IZR, Rmult_minus_distr_r, cos_minus. ring.
  - rewrite nsum_plus, !nsum_scal. fold A B. reflexivity.
Qed.

Lemma Sk_pos N v k : 0 <= Sk N v k.
Proof. rewrite Sk_sq. nra. Qed.

Lemma pick N v d : (0 < N)%nat -> perio N v ->
  nsum N (fun j => v j * (if ((d - j) mod Z.of_nat N =? 0)%Z then INR N else 0)) = INR N * v d.
Proof.
  intros HN H. pose proof (Z.mod_pos_bound d (Z.of_nat N) ltac:(lia)) as B.
  rewrite (nsum_one N _ (d mod Z.of_nat N)%Z).
  - rewrite Zminus_mod_idemp_r, Z.sub_diag, Z.mod_0_l by lia. cbn [Z.eqb]. rewrite perio_mod by assumption. ring.
  - lia.
  - intros j Hj Ej. destruct (Z.eqb_spec ((d - j) mod Z.of_nat N) 0) as [E|E]; [|ring].
    exfalso. apply Ej. apply Z.mod_divide in E; [|lia]. destruct E as [q Eq].
    replace d with (j + q * Z.of_nat N)%Z by lia. rewrite Z.mod_add by lia. rewrite Z.mod_small by lia. reflexivity.
Qed.

Lemma corr N v p : (0 < N)%nat -> perio N v ->
  INR N * nsum N (fun i => v i * (v (i + p)%Z + v (i - p)%Z)) =
  nsum N (fun k => 2 * (Sk N v k * cos (IZR p * ang N k))).
Proof.
  intros HN H.
  transitivity (nsum N (fun i => nsum N (fun j => nsum N (fun k =>
    v i * (v j * (cos (IZR (i + p - j) * ang N k) + cos (IZR (i - p - j) * ang N k))))))).
  - rewrite <- nsum_scal. apply nsum_ext. intros i Hi.
    transitivity (v i * nsum N (fun j => v j * ((if ((i + p - j) mod Z.of_nat N =? 0)%Z then INR N else 0) +
      (if ((i - p - j) mod Z.of_nat N =? 0)%Z then INR N else 0)))).
    + rewrite (nsum_ext _ _ (fun j => v j * (if ((i + p - j) mod Z.of_nat N =? 0)%Z then INR N else 0) +
        v j * (if ((i - p - j) mod Z.of_nat N =? 0)%Z then INR N else 0))) by (intros; ring).
      rewrite nsum_plus, !pick by assumption. ring.
    + rewrite <- nsum_scal. apply nsum_ext. intros j Hj.
      rewrite !nsum_scal, nsum_plus, !cos_sum by assumption. reflexivity.
  - rewrite (nsum_ext _ _ (fun i => nsum N (fun k => nsum N (fun j =>
      v i * (v j * (cos (IZR (i + p - j) * ang N k) + cos (IZR (i - p - j) * ang N k))))))) by (intros; apply nsum_swap).
    rewrite nsum_swap. apply nsum_ext. intros k _. unfold Sk.
    replace (2 * (nsum N (fun i => nsum N (fun j => v i * v j * cos (IZR (i - j) * ang N k))) * cos (IZR p * ang N k)))
      with (2 * cos (IZR p * ang N k) * nsum N (fun i => nsum N (fun j => v i * v j * cos (IZR (i - j) * ang N k)))) by ring.
    rewrite <- nsum_scal. apply nsum_ext. intros i _. rewrite <- nsum_scal. apply nsum_ext. intros j _.
    replace (IZR (i + p - j) * ang N k) with (IZR (i - j) * ang N k + IZR p * ang N k)
      by (rewrite !minus_IZR, plus_IZR; ring).
    replace (IZR (i - p - j) * ang N k) with (IZR (i - j) * ang N k - IZR p * ang N k)
      by (rewrite !minus_IZR; ring).
    rewrite cos_plus, cos_minus. ring.
Qed.

Local Opaque psum ssum.
(** The form of the stencil is a mean of values of the symbol. *)
Lemma line_form N n c v : (0 < N)%nat -> perio N v ->
  INR N * nsum N (fun i => v i * line n c v i) = nsum N (fun k => Sk N v k * symb c n (ang N k)).
Proof.
  intros HN H.
  assert (E0 : INR N * nsum N (fun i => v i * v i) = nsum N (fun k => Sk N v k)).
  { pose proof (corr N v 0 HN H) as E.
    rewrite (nsum_ext _ _ (fun i => 2 * (v i * v i))) in E by (intros; rewrite Z.add_0_r, Z.sub_0_r; ring).
    rewrite (nsum_ext _ (fun k => 2 * (Sk N v k * cos (0 * ang N k))) (fun k => 2 * Sk N v k)) in E
      by (intros; rewrite Rmult_0_l, cos_0; ring).
    rewrite (nsum_scal N 2 (fun i => v i * v i)), (nsum_scal N 2 (fun k => Sk N v k)) in E. lra. }
  transitivity (c O * nsum N (fun k => Sk N v k) +
    psum (fun p => c p * nsum N (fun k => 2 * (Sk N v k * cos (IZR (Z.of_nat p) * ang N k)))) n).
  - unfold line.
    rewrite (nsum_ext _ _ (fun i => c O * (v i * v i) +
      ssum (fun p => c p * (v i * (v (i + Z.of_nat p)%Z + v (i - Z.of_nat p)%Z))) n)).
    2:{ intros i _. rewrite !ssum_psum, Rmult_plus_distr_l, <- psum_scal. f_equal; [ring|]. apply psum_ext. intros; ring. }
    rewrite nsum_plus, nsum_scal, nsum_ssum, ssum_psum, Rmult_plus_distr_l, <- E0, <- psum_scal.
    f_equal; [ring|]. apply psum_ext. intros p _. rewrite nsum_scal, <- corr by assumption. ring.
  - unfold symb, cser.
    rewrite (nsum_ext N (fun k => Sk N v k * (c O + 2 * psum (fun p => c p * csn p (ang N k)) n)) (fun k => c O * Sk N v k +
      ssum (fun p => c p * (2 * (Sk N v k * cos (IZR (Z.of_nat p) * ang N k)))) n)).
    2:{ intros k _. rewrite Rmult_plus_distr_l. f_equal; [ring|].
        rewrite (ssum_psum (fun p => c p * (2 * (Sk N v k * cos (IZR (Z.of_nat p) * ang N k))))).
        rewrite <- !psum_scal. apply psum_ext. intros p _. unfold csn. rewrite INR_IZR_INZ. ring. }
    rewrite (nsum_plus N (fun k => c O * Sk N v k)), (nsum_scal N (c O) (fun k => Sk N v k)). f_equal.
    rewrite (nsum_ssum N (fun p k => c p * (2 * (Sk N v k * cos (IZR (Z.of_nat p) * ang N k))))).
    etransitivity; [|symmetry; apply ssum_psum]. apply psum_ext. intros p _. symmetry. apply nsum_scal.
Qed.

Local Transparent psum ssum.
(** ** Bounds on the symbol at the wave numbers of the grid *)
Lemma symb_refl c n t : symb c n (2 * PI - t) = symb c n t.
Proof.
  unfold symb, cser. f_equal. f_equal. apply psum_ext. intros p _. f_equal. unfold csn.
  replace (INR p * (2 * PI - t)) with (- (INR p * t) + 2 * INR p * PI) by ring.
  rewrite cos_period, cos_neg. reflexivity.
Qed.

Lemma symb_grid n N k : (0 <= k < Z.of_nat N)%Z ->
  symb (D2w n) n (PI * (IZR (Z.of_nat N - Z.rem (Z.of_nat N) 2) / IZR (Z.of_nat N))) <= symb (D2w n) n (ang N k) <= 0.
Proof.
  intros Hk. assert (HN : 0 < INR N) by (apply lt_0_INR; lia). pose proof PI_RGT_0 as HP.
  set (M := (Z.of_nat N - Z.rem (Z.of_nat N) 2)%Z).
  assert (R2 : (Z.rem (Z.of_nat N) 2 = 0 \/ Z.rem (Z.of_nat N) 2 = 1)%Z).
  { pose proof (Z.rem_bound_pos (Z.of_nat N) 2 ltac:(lia) ltac:(lia)). lia. }
  pose proof (Z.quot_rem' (Z.of_nat N) 2) as Q.
  assert (G : forall q, (0 <= 2 * q <= M)%Z ->
    symb (D2w n) n (PI * (IZR M / IZR (Z.of_nat N))) <= symb (D2w n) n (ang N q) <= 0).
  { intros q Hq. rewrite <- INR_IZR_INZ.
    assert (B1 : IZR (2 * q) <= IZR M) by (apply IZR_le; lia). rewrite mult_IZR in B1.
    assert (B0 : 0 <= IZR q) by (apply IZR_le; lia).
    assert (B2 : IZR M <= INR N) by (rewrite INR_IZR_INZ; apply IZR_le; unfold M; lia).
    assert (X1 : 0 <= ang N q).
    { unfold ang. apply Rdiv_le_0_compat; nra. }
    assert (X2 : ang N q <= PI * (IZR M / INR N)).
    { unfold ang. replace (2 * PI * IZR q / INR N) with (PI * ((2 * IZR q) / INR N)) by (field; lra).
      apply Rmult_le_compat_l; [lra|]. apply Rmult_le_compat_r; [|exact B1]. apply Rlt_le, Rinv_0_lt_compat, HN. }
    assert (X3 : PI * (IZR M / INR N) <= PI).
    { rewrite <- (Rmult_1_r PI) at 2. apply Rmult_le_compat_l; [lra|]. apply Rle_div_l; lra. }
    split; [apply symb_decr; lra|]. rewrite <- (symb_0 n). apply symb_decr; lra. }
  destruct (Z_le_gt_dec (2 * k) (Z.of_nat N)) as [L|L].
  - apply G. unfold M. lia.
  - replace (symb (D2w n) n (ang N k)) with (symb (D2w n) n (ang N (Z.of_nat N - k))).
    + apply G. unfold M. lia.
    + rewrite <- symb_refl. f_equal. unfold ang. rewrite minus_IZR, <- INR_IZR_INZ. field. lra.
Qed.

Lemma symb_scal a c n t : symb (fun p => a * c p) n t = a * symb c n t.
Proof. apply cser_scal. Qed.

(** The form of a line with coefficients a D2w, a >= 0. *)
Lemma line_bound N n a v : (0 < N)%nat -> perio N v -> 0 <= a ->
  a * symb (D2w n) n (PI * (IZR (Z.of_nat N - Z.rem (Z.of_nat N) 2) / IZR (Z.of_nat N))) * nsum N (fun i => v i * v i)
    <= nsum N (fun i => v i * line n (fun p => a * D2w n p) v i) <= 0.
Proof.
  intros HN H Ha. assert (HP : 0 < INR N) by (apply lt_0_INR; lia).
  set (m := symb (D2w n) n (PI * _)).
  pose proof (line_form N n (fun p => a * D2w n p) v HN H) as E.
  assert (E0 : INR N * nsum N (fun i => v i * v i) = nsum N (fun k => Sk N v k)).
  { pose proof (line_form N 0 (fun _ => 1) v HN H) as E0. unfold line, symb, cser in E0. cbn [ssum psum] in E0.
    rewrite (nsum_ext _ _ (fun i => v i * v i)) in E0 by (intros; ring). rewrite E0. apply nsum_ext. intros; ring. }
  split.
  - apply (Rmult_le_reg_l (INR N)); [exact HP|]. rewrite E.
    replace (INR N * (a * m * nsum N (fun i => v i * v i))) with (a * m * (INR N * nsum N (fun i => v i * v i))) by ring.
    rewrite E0, <- nsum_scal. apply nsum_le. intros k Hk. rewrite symb_scal.
    pose proof (symb_grid n N k Hk) as [G _]. fold m in G. pose proof (Sk_pos N v k).
    replace (a * m * Sk N v k) with (Sk N v k * (a * m)) by ring.
    apply Rmult_le_compat_l; [assumption|]. now apply Rmult_le_compat_l.
  - apply (Rmult_le_reg_l (INR N)); [exact HP|]. rewrite E, Rmult_0_r.
    rewrite <- (nsum_zero N (fun _ => 0)) by reflexivity. apply nsum_le. intros k Hk. rewrite symb_scal.
    pose proof (symb_grid n N k Hk) as [_ G]. pose proof (Sk_pos N v k).
    assert (a * symb (D2w n) n (ang N k) <= 0) by nra. nra.
Qed.
