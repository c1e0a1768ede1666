(** Lemmas for ExxFft: triple loops, complex sums, roots of unity, the shift table. *)
From Coq Require Import Reals ZArith List Bool Lia Lra.
From Coquelicot Require Import Rcomplements Complex.
From Verif Require Import CBase BandK Lattice ExxKernel ExxFft.
Import ListNotations.
Open Scope R_scope.

(** ** Triple loops *)
Section Lists.
Lemma flat_map_nth {A} (h : nat -> list A) (n : nat) : forall m s a b,
  (forall x, (s <= x < s + m)%nat -> length (h x) = n) -> (a < m)%nat -> (b < n)%nat ->
  nth_error (flat_map h (seq s m)) (b + a * n)%nat = nth_error (h (s + a)%nat) b.
Proof.
  induction m as [|m IH]; intros s a b L Ha Hb; [lia|]. simpl seq. simpl flat_map.
  assert (Ls : length (h s) = n) by (apply L; lia).
  destruct a as [|a].
  - rewrite nth_error_app1 by lia. f_equal; [f_equal|]; lia.
  - rewrite nth_error_app2 by (simpl; lia). rewrite Ls.
    replace (b + Datatypes.S a * n - n)%nat with (b + a * n)%nat by (simpl; lia).
    rewrite IH; try lia; [|intros x Hx; apply L; lia]. f_equal. f_equal. lia.
Qed.
Lemma flat_map_len {A} (h : nat -> list A) (n : nat) : forall m s,
  (forall x, (s <= x < s + m)%nat -> length (h x) = n) -> length (flat_map h (seq s m)) = (m * n)%nat.
Proof.
  induction m as [|m IH]; intros s L; [reflexivity|]. simpl. rewrite app_length, IH; [|intros; apply L; lia]. rewrite L by lia. lia.
Qed.
Lemma grid3_len {A} nx ny nz (f : nat -> nat -> nat -> A) : length (grid3 nx ny nz f) = (nx * ny * nz)%nat.
Proof.
  unfold grid3. rewrite (flat_map_len _ (ny * nx)); [lia|]. intros k _.
  rewrite (flat_map_len _ nx); [lia|]. intros. rewrite map_length, seq_length. reflexivity.
Qed.
Lemma grid3_nth {A} nx ny nz (f : nat -> nat -> nat -> A) i j k : (i < nx)%nat -> (j < ny)%nat -> (k < nz)%nat ->
  nth_error (grid3 nx ny nz f) (ix nx ny i j k) = Some (f i j k).
Proof.
  intros Hi Hj Hk. unfold grid3, ix.
  assert (B : (i + j * nx < ny * nx)%nat) by nia.
  replace (k * (nx * ny))%nat with (k * (ny * nx))%nat by lia.
  rewrite (flat_map_nth _ (ny * nx)%nat); try lia.
  2:{ intros x _. rewrite (flat_map_len _ nx); [lia|]. intros. rewrite map_length, seq_length. reflexivity. }
  rewrite (flat_map_nth _ nx); try lia.
  2:{ intros. rewrite map_length, seq_length. reflexivity. }
  simpl. apply map_nth_error with (f := fun i => f i j k).
  rewrite (nth_error_nth' _ 0%nat) by (rewrite seq_length; lia). rewrite seq_nth by lia. reflexivity.
Qed.
Lemma grid3_get {A} nx ny nz (f : nat -> nat -> nat -> A) i j k d : (i < nx)%nat -> (j < ny)%nat -> (k < nz)%nat ->
  nth (ix nx ny i j k) (grid3 nx ny nz f) d = f i j k.
Proof. intros. apply nth_error_nth. apply grid3_nth; auto. Qed.
Lemma ix_lt nx ny nz i j k : (i < nx)%nat -> (j < ny)%nat -> (k < nz)%nat -> (ix nx ny i j k < nx * ny * nz)%nat.
Proof. intros. unfold ix. assert (i + j * nx < nx * ny)%nat by nia. nia. Qed.
Lemma ix_onto nx ny nz m : (m < nx * ny * nz)%nat -> exists i j k, (i < nx)%nat /\ (j < ny)%nat /\ (k < nz)%nat /\ m = ix nx ny i j k.
Proof.
  intros H. assert (nx <> 0 /\ ny <> 0)%nat as [Hx Hy] by (split; intros ->; lia).
  exists (m mod nx)%nat, ((m / nx) mod ny)%nat, (m / nx / ny)%nat.
  pose proof (Nat.mod_upper_bound m nx Hx). pose proof (Nat.mod_upper_bound (m / nx) ny Hy).
  split; [auto|]. split; [auto|]. split.
  - rewrite Nat.div_div by auto. apply Nat.div_lt_upper_bound; lia.
  - unfold ix. pose proof (Nat.div_mod m nx Hx). pose proof (Nat.div_mod (m / nx) ny Hy).
    set (p := (m / nx)%nat) in *. set (u := (m mod nx)%nat) in *. set (v := (p mod ny)%nat) in *. set (w := (p / ny)%nat) in *. nia.
Qed.
Lemma list_is_grid {A} nx ny nz (f : nat -> nat -> nat -> A) l : length l = (nx * ny * nz)%nat ->
  (forall i j k, (i < nx)%nat -> (j < ny)%nat -> (k < nz)%nat -> nth_error l (ix nx ny i j k) = Some (f i j k)) ->
  l = grid3 nx ny nz f.
Proof.
  intros L H. apply nth_ext with (d := f 0%nat 0%nat 0%nat) (d' := f 0%nat 0%nat 0%nat); [rewrite grid3_len; auto|].
  intros m Hm. rewrite L in Hm. destruct (ix_onto _ _ _ _ Hm) as [i [j [k [Hi [Hj [Hk ->]]]]]].
  rewrite grid3_get by auto. apply nth_error_nth. auto.
Qed.
Lemma grid3_ext {A} nx ny nz (f h : nat -> nat -> nat -> A) :
  (forall i j k, (i < nx)%nat -> (j < ny)%nat -> (k < nz)%nat -> f i j k = h i j k) -> grid3 nx ny nz f = grid3 nx ny nz h.
Proof. intros E. apply list_is_grid; [apply grid3_len|]. intros. rewrite grid3_nth by auto. rewrite E; auto. Qed.

Lemma mapo_ok {A} (f : nat -> outcome A) (h : nat -> A) is : (forall i, In i is -> f i = Ok (h i)) -> mapo f is = Ok (map h is).
Proof.
  induction is as [|i r IH]; intros H; [reflexivity|]. simpl. rewrite H by (left; auto). simpl. rewrite IH by (intros; apply H; right; auto). reflexivity.
Qed.
Lemma mapo_grid {A} nx ny nz (f : nat -> outcome A) (h : nat -> nat -> nat -> A) :
  (forall i j k, (i < nx)%nat -> (j < ny)%nat -> (k < nz)%nat -> f (ix nx ny i j k) = Ok (h i j k)) ->
  mapo f (seq 0 (nx * ny * nz)) = Ok (grid3 nx ny nz h).
Proof.
  intros H. destruct (Nat.eq_dec (nx * ny * nz) 0) as [Z | Z].
  { rewrite Z. simpl. f_equal. symmetry. apply length_zero_iff_nil. rewrite grid3_len. exact Z. }
  rewrite (mapo_ok f (fun m => match f m with Ok v => v | _ => h 0%nat 0%nat 0%nat end)).
  - f_equal. apply list_is_grid; [rewrite map_length, seq_length; auto|].
    intros i j k Hi Hj Hk. erewrite map_nth_error.
    2:{ rewrite (nth_error_nth' _ 0%nat) by (rewrite seq_length; apply ix_lt; auto). rewrite seq_nth by (apply ix_lt; auto). reflexivity. }
    simpl. rewrite H by auto. reflexivity.
  - intros m Hm. apply in_seq in Hm. destruct (ix_onto nx ny nz m) as [i [j [k [Hi [Hj [Hk ->]]]]]]; [lia|].
    rewrite H by auto. reflexivity.
Qed.
(** Entry (i,j,k) of slice l of a table of slices. *)
Lemma slice_get {A} nx ny nz (f : nat -> nat -> nat -> nat -> A) n l i j k :
  (l < n)%nat -> (i < nx)%nat -> (j < ny)%nat -> (k < nz)%nat ->
  get (flat_map (fun l => grid3 nx ny nz (f l)) (seq 0 n)) (ix nx ny i j k + l * (nx * ny * nz)) = Ok (f l i j k).
Proof.
  intros. unfold get. rewrite (flat_map_nth _ (nx * ny * nz)%nat).
  - simpl. rewrite grid3_nth by auto. reflexivity.
  - intros. apply grid3_len.
  - auto.
  - apply ix_lt; auto.
Qed.
End Lists.

(** ** Complex sums *)
Section Sums.
Open Scope C_scope.
Lemma csum_ext n (f h : nat -> C) : (forall i, (i < n)%nat -> f i = h i) -> csum n f = csum n h.
Proof. induction n; intros H; [reflexivity|]. simpl. rewrite IHn, H by auto. reflexivity. Qed.
Lemma csum_plus n (f h : nat -> C) : csum n (fun i => f i + h i) = csum n f + csum n h.
Proof. induction n; simpl; [ring|]. rewrite IHn. ring. Qed.
Lemma csum_scal n (c : C) (f : nat -> C) : csum n (fun i => c * f i) = c * csum n f.
Proof. induction n; simpl; [ring|]. rewrite IHn. ring. Qed.
Lemma csum_scal_r n (c : C) (f : nat -> C) : csum n (fun i => f i * c) = csum n f * c.
Proof. induction n; simpl; [ring|]. rewrite IHn. ring. Qed.
Lemma csum_zero n : csum n (fun _ => RtoC 0) = 0.
Proof. induction n; simpl; [reflexivity|]. rewrite IHn. ring. Qed.
Lemma csum_swap n m (f : nat -> nat -> C) : csum n (fun i => csum m (fun j => f i j)) = csum m (fun j => csum n (fun i => f i j)).
Proof. induction n; simpl; [symmetry; apply csum_zero|]. rewrite IHn, csum_plus. reflexivity. Qed.
Lemma csum_delta n (f : nat -> C) a : (a < n)%nat -> (forall i, (i < n)%nat -> i <> a -> f i = 0) -> csum n f = f a.
Proof.
  induction n; intros Ha H; [lia|]. simpl. destruct (Nat.eq_dec a n) as [->|N].
  - rewrite (csum_ext n f (fun _ => RtoC 0)) by (intros; apply H; lia). rewrite csum_zero. ring.
  - rewrite IHn by (try lia; intros; apply H; lia). rewrite (H n) by lia. ring.
Qed.
Lemma csum_shift n (f : nat -> C) : csum (Datatypes.S n) f = f 0%nat + csum n (fun i => f (Datatypes.S i)).
Proof. induction n; [simpl; ring|]. change (csum (Datatypes.S (Datatypes.S n)) f) with (csum (Datatypes.S n) f + f (Datatypes.S n)). rewrite IHn. simpl. ring. Qed.
Lemma csum_rev n (f : nat -> C) : csum n (fun i => f (n - 1 - i)%nat) = csum n f.
Proof.
  induction n; [reflexivity|]. rewrite csum_shift. replace (Datatypes.S n - 1 - 0)%nat with n by lia. simpl. rewrite <- IHn.
  rewrite Cplus_comm. f_equal. apply csum_ext. intros i Hi. f_equal. lia.
Qed.
Lemma csum_opp1 n (f : nat -> C) : csum n (fun a => f (opp1 n a)) = csum n f.
Proof.
  destruct n as [|n]; [reflexivity|]. rewrite !csum_shift. f_equal. rewrite <- (csum_rev n (fun i => f (Datatypes.S i))).
  apply csum_ext. intros i Hi. unfold opp1. simpl. f_equal. lia.
Qed.
Lemma csum_conj n (f : nat -> C) : Cconj (csum n f) = csum n (fun i => Cconj (f i)).
Proof. induction n; simpl; [apply injective_projections; simpl; ring|]. rewrite <- IHn. apply injective_projections; simpl; ring. Qed.

Lemma csum3_ext nx ny nz (f h : nat -> nat -> nat -> C) :
  (forall i j k, (i < nx)%nat -> (j < ny)%nat -> (k < nz)%nat -> f i j k = h i j k) -> csum3 nx ny nz f = csum3 nx ny nz h.
Proof. intros H. unfold csum3. do 3 (apply csum_ext; intros). apply H; auto. Qed.
Lemma csum3_scal nx ny nz (c : C) f : csum3 nx ny nz (fun i j k => c * f i j k) = c * csum3 nx ny nz f.
Proof.
  unfold csum3. rewrite <- csum_scal. apply csum_ext. intros. rewrite <- csum_scal. apply csum_ext. intros. rewrite <- csum_scal. reflexivity.
Qed.
Lemma csum3_scal_r nx ny nz (c : C) f : csum3 nx ny nz (fun i j k => f i j k * c) = csum3 nx ny nz f * c.
Proof. rewrite Cmult_comm, <- csum3_scal. apply csum3_ext. intros. ring. Qed.
Lemma csum_csum3 n nx ny nz (f : nat -> nat -> nat -> nat -> C) :
  csum n (fun a => csum3 nx ny nz (f a)) = csum3 nx ny nz (fun i j k => csum n (fun a => f a i j k)).
Proof.
  unfold csum3. rewrite csum_swap. apply csum_ext; intros. rewrite csum_swap. apply csum_ext; intros. rewrite csum_swap. reflexivity.
Qed.
Lemma csum3_swap nx ny nz mx my mz (f : nat -> nat -> nat -> nat -> nat -> nat -> C) :
  csum3 nx ny nz (fun i j k => csum3 mx my mz (fun a b c => f i j k a b c))
  = csum3 mx my mz (fun a b c => csum3 nx ny nz (fun i j k => f i j k a b c)).
Proof.
  unfold csum3 at 1.
  rewrite (csum_ext nz _ (fun k => csum3 mx my mz (fun a b c => csum ny (fun j => csum nx (fun i => f i j k a b c))))).
  2:{ intros k _. rewrite (csum_ext ny _ (fun j => csum3 mx my mz (fun a b c => csum nx (fun i => f i j k a b c)))).
      - apply csum_csum3.
      - intros j _. apply csum_csum3. }
  rewrite csum_csum3. reflexivity.
Qed.
Lemma csum3_prod nx ny nz (u v w : nat -> C) : csum3 nx ny nz (fun i j k => u i * v j * w k) = csum nx u * csum ny v * csum nz w.
Proof.
  unfold csum3. rewrite <- csum_scal. apply csum_ext. intros k _. 
  rewrite (csum_ext ny _ (fun j => csum nx (fun i => u i * v j) * w k)) by (intros; apply csum_scal_r).
  rewrite csum_scal_r. f_equal.
  rewrite <- csum_scal. apply csum_ext. intros j _. rewrite csum_scal_r. reflexivity.
Qed.
Lemma csum3_delta nx ny nz (f : nat -> nat -> nat -> C) a b c : (a < nx)%nat -> (b < ny)%nat -> (c < nz)%nat ->
  (forall i j k, (i < nx)%nat -> (j < ny)%nat -> (k < nz)%nat -> (i <> a \/ j <> b \/ k <> c) -> f i j k = 0) ->
  csum3 nx ny nz f = f a b c.
Proof.
  intros Ha Hb Hc H. unfold csum3. rewrite (csum_delta nz _ c Hc).
  - rewrite (csum_delta ny _ b Hb).
    + apply (csum_delta nx (fun i => f i b c) a); auto.
    + intros j Hj N. rewrite (csum_ext nx _ (fun _ => RtoC 0)) by (intros; apply H; auto). apply csum_zero.
  - intros k Hk N. rewrite (csum_ext ny _ (fun _ => RtoC 0)); [apply csum_zero|]. intros j Hj.
    rewrite (csum_ext nx _ (fun _ => RtoC 0)) by (intros; apply H; auto). apply csum_zero.
Qed.
Lemma csum3_opp nx ny nz (f : nat -> nat -> nat -> C) :
  csum3 nx ny nz (fun a b c => f (opp1 nx a) (opp1 ny b) (opp1 nz c)) = csum3 nx ny nz f.
Proof.
  unfold csum3. etransitivity; [exact (csum_opp1 nz (fun c => csum ny (fun b => csum nx (fun a => f (opp1 nx a) (opp1 ny b) c))))|].
  apply csum_ext. intros c _. etransitivity; [exact (csum_opp1 ny (fun b => csum nx (fun a => f (opp1 nx a) b c)))|].
  apply csum_ext. intros b _. exact (csum_opp1 nx (fun a => f a b c)).
Qed.
Lemma csum3_conj nx ny nz f : Cconj (csum3 nx ny nz f) = csum3 nx ny nz (fun i j k => Cconj (f i j k)).
Proof. unfold csum3. rewrite csum_conj. apply csum_ext. intros. rewrite csum_conj. apply csum_ext. intros. apply csum_conj. Qed.
End Sums.

(** ** Roots of unity *)
Section Roots.
Lemma cis_add a b : Cmult (cis a) (cis b) = cis (a + b).
Proof. unfold cis, Cmult. simpl. rewrite cos_plus, sin_plus. f_equal; ring. Qed.
Lemma cis_0 : cis 0 = RtoC 1.
Proof. unfold cis, RtoC. rewrite cos_0, sin_0. reflexivity. Qed.
Lemma cis_conj a : Cconj (cis a) = cis (- a).
Proof. unfold cis, Cconj. simpl. rewrite cos_neg, sin_neg. reflexivity. Qed.
Lemma cis_nat n : cis (2 * PI * INR n) = RtoC 1.
Proof.
  unfold cis, RtoC. pose proof (cos_period 0 n) as Cp. pose proof (sin_period 0 n) as Sp.
  rewrite cos_0 in Cp. rewrite sin_0 in Sp.
  replace (2 * PI * INR n) with (0 + 2 * INR n * PI) by ring. rewrite Cp, Sp. reflexivity.
Qed.
Lemma cis_Z z : cis (2 * PI * IZR z) = RtoC 1.
Proof.
  destruct (Z_le_gt_dec 0 z) as [H | H].
  - rewrite <- (Z2Nat.id z H), <- INR_IZR_INZ. apply cis_nat.
  - replace (2 * PI * IZR z) with (- (2 * PI * IZR (- z))) by (rewrite opp_IZR; ring).
    rewrite <- cis_conj. rewrite <- (Z2Nat.id (- z)) by lia. rewrite <- INR_IZR_INZ, cis_nat.
    unfold Cconj, RtoC. simpl. f_equal. ring.
Qed.
Lemma cis_shift a z : cis (a + 2 * PI * IZR z) = cis a.
Proof. rewrite <- cis_add, cis_Z. ring. Qed.
Lemma cis_not1 t : 0 < t < 2 * PI -> cis t <> RtoC 1.
Proof.
  intros H E. unfold cis, RtoC in E. injection E as E1 E2.
  assert (S : 0 < sin (t / 2)) by (apply sin_gt_0; lra).
  replace t with (2 * (t / 2)) in E1 by lra. rewrite cos_2a_sin in E1. nra.
Qed.

(** Geometric sum. *)
Lemma geo n t : Cmult (Cminus (cis t) (RtoC 1)) (csum n (fun i => cis (INR i * t))) = Cminus (cis (INR n * t)) (RtoC 1).
Proof.
  induction n.
  - simpl csum. simpl INR. rewrite Rmult_0_l, cis_0. ring.
  - simpl csum. rewrite Cmult_plus_distr_l, IHn. rewrite S_INR.
    replace ((INR n + 1) * t) with (t + INR n * t) by ring. rewrite <- cis_add. ring.
Qed.
Lemma orth N a b : (a < N)%nat -> (b < N)%nat ->
  csum N (fun i => Cmult (cis (2 * PI * (INR a * INR i / INR N))) (cis (- (2 * PI * (INR b * INR i / INR N)))))
  = if (a =? b)%nat then RtoC (INR N) else RtoC 0.
Proof.
  intros Ha Hb. assert (HN : 0 < INR N) by (apply lt_0_INR; lia).
  destruct (Nat.eqb_spec a b) as [->|NE].
  - rewrite (csum_ext _ _ (fun _ => RtoC 1)).
    2:{ intros. rewrite cis_add, Rplus_opp_r. apply cis_0. }
    clear. induction N; [reflexivity|]. cbn [csum]. rewrite IHN, S_INR, RtoC_plus. reflexivity.
  - set (t := 2 * PI * ((INR a - INR b) / INR N)).
    rewrite (csum_ext _ _ (fun i => cis (INR i * t))).
    2:{ intros. rewrite cis_add. f_equal. unfold t. field. lra. }
    pose proof (geo N t) as G.
    assert (E : cis (INR N * t) = RtoC 1).
    { replace (INR N * t) with (2 * PI * IZR (Z.of_nat a - Z.of_nat b)).
      2:{ rewrite minus_IZR, <- !INR_IZR_INZ. unfold t. field. lra. }
      apply cis_Z. }
    rewrite E in G. replace (Cminus (RtoC 1) (RtoC 1)) with (RtoC 0) in G by ring.
    assert (NZ : Cminus (cis t) (RtoC 1) <> RtoC 0).
    { intros Z. assert (Q : cis t = RtoC 1).
      { replace (cis t) with (Cplus (Cminus (cis t) (RtoC 1)) (RtoC 1)) by ring. rewrite Z. ring. }
      assert (P := PI_RGT_0).
      assert (Ab : 0 <= INR a < INR N) by (split; [apply pos_INR|apply lt_INR; auto]).
      assert (Bb : 0 <= INR b < INR N) by (split; [apply pos_INR|apply lt_INR; auto]).
      destruct (Rlt_dec (INR b) (INR a)) as [G1|G1].
      - revert Q. apply cis_not1. unfold t. split.
        + apply Rmult_lt_0_compat; [lra|]. apply Rdiv_lt_0_compat; lra.
        + replace (2 * PI) with (2 * PI * 1) at 2 by ring. apply Rmult_lt_compat_l; [lra|]. apply Rlt_div_l; lra.
      - assert (INR a <> INR b) by (intros X; apply INR_eq in X; auto).
        assert (Q' : cis (t + 2 * PI * IZR 1) = RtoC 1) by (rewrite cis_shift; exact Q).
        revert Q'. apply cis_not1. unfold t.
        assert (-1 < (INR a - INR b) / INR N < 0).
        { split; [apply Rlt_div_r; lra|]. apply Rlt_div_l; lra. }
        split; nra. }
    apply (f_equal (fun z => Cmult (Cinv (Cminus (cis t) (RtoC 1))) z)) in G.
    rewrite Cmult_assoc, Cinv_l in G by exact NZ. rewrite Cmult_1_l, Cmult_0_r in G. exact G.
Qed.
End Roots.

(** ** The transforms are inverse to each other *)
Section Dft.
Open Scope C_scope.
Variables nx ny nz : nat.
Hypothesis Hx : (0 < nx)%nat.
Hypothesis Hy : (0 < ny)%nat.
Hypothesis Hz : (0 < nz)%nat.
Let ang := angle nx ny nz.
Definition term (n a i : nat) : C := cis (2 * PI * (INR a * INR i / INR n)).
Definition term' (n a i : nat) : C := cis (- (2 * PI * (INR a * INR i / INR n))).
Lemma cis_angle a b c i j k : cis (ang a b c i j k) = term nx a i * term ny b j * term nz c k.
Proof. unfold term. rewrite !cis_add. f_equal. unfold ang, angle. ring. Qed.
Lemma cis_angle' a b c i j k : cis (- ang a b c i j k) = term' nx a i * term' ny b j * term' nz c k.
Proof. unfold term'. rewrite !cis_add. f_equal. unfold ang, angle. ring. Qed.
Lemma term_sym n a i : term n a i = term n i a.
Proof. unfold term. do 2 f_equal. unfold Rdiv. ring. Qed.
Lemma term'_sym n a i : term' n a i = term' n i a.
Proof. unfold term'. do 3 f_equal. unfold Rdiv. ring. Qed.
Definition NN : C := RtoC (INR (nx * ny * nz)).
Lemma NN_prod : RtoC (INR nx) * RtoC (INR ny) * RtoC (INR nz) = NN.
Proof. unfold NN. rewrite !mult_INR, !RtoC_mult. reflexivity. Qed.
Lemma NN_nz : NN <> 0.
Proof. unfold NN. intros E. apply RtoC_inj in E. apply (not_0_INR (nx * ny * nz)); [|exact E]. assert (0 < nx * ny)%nat by nia. nia. Qed.
Lemma orth3 a b c a' b' c' : (a < nx)%nat -> (b < ny)%nat -> (c < nz)%nat -> (a' < nx)%nat -> (b' < ny)%nat -> (c' < nz)%nat ->
  csum3 nx ny nz (fun i j k => cis (ang a b c i j k) * cis (- ang a' b' c' i j k))
  = (if (a =? a')%nat then RtoC (INR nx) else 0) * (if (b =? b')%nat then RtoC (INR ny) else 0) * (if (c =? c')%nat then RtoC (INR nz) else 0).
Proof.
  intros. rewrite <- !orth by auto. rewrite <- csum3_prod. apply csum3_ext. intros.
  rewrite cis_angle, cis_angle'. unfold term, term'. ring.
Qed.
Lemma orth3' i j k i' j' k' : (i < nx)%nat -> (j < ny)%nat -> (k < nz)%nat -> (i' < nx)%nat -> (j' < ny)%nat -> (k' < nz)%nat ->
  csum3 nx ny nz (fun a b c => cis (ang a b c i j k) * cis (- ang a b c i' j' k'))
  = (if (i =? i')%nat then RtoC (INR nx) else 0) * (if (j =? j')%nat then RtoC (INR ny) else 0) * (if (k =? k')%nat then RtoC (INR nz) else 0).
Proof.
  intros. rewrite <- orth3 by auto. apply csum3_ext. intros. rewrite !cis_angle, !cis_angle'.
  rewrite (term_sym nx), (term_sym ny), (term_sym nz), (term'_sym nx), (term'_sym ny), (term'_sym nz). ring.
Qed.
(** The transform of a sum of waves. *)
Lemma dft_waves (c : nat -> nat -> nat -> C) :
  dft nx ny nz (grid3 nx ny nz (fun i j k => csum3 nx ny nz (fun a b d => c a b d * cis (ang a b d i j k))))
  = grid3 nx ny nz (fun a b d => NN * c a b d).
Proof.
  unfold dft. apply grid3_ext. intros a b d Ha Hb Hd. fold ang.
  rewrite (csum3_ext nx ny nz _ (fun i j k => csum3 nx ny nz (fun a' b' d' => c a' b' d' * (cis (ang a' b' d' i j k) * cis (- ang a b d i j k))))).
  2:{ intros. rewrite grid3_get by auto. rewrite <- csum3_scal_r. apply csum3_ext. intros. ring. }
  rewrite csum3_swap. rewrite (csum3_delta _ _ _ _ a b d Ha Hb Hd).
  - rewrite csum3_scal, orth3 by auto. rewrite !Nat.eqb_refl, NN_prod. ring.
  - intros a' b' d' Ha' Hb' Hd' N. rewrite csum3_scal, orth3 by auto.
    destruct (Nat.eqb_spec a' a), (Nat.eqb_spec b' b), (Nat.eqb_spec d' d); try ring. lia.
Qed.
Lemma idft_coeffs (c : nat -> nat -> nat -> C) :
  idft nx ny nz (grid3 nx ny nz (fun a b d => NN * c a b d))
  = grid3 nx ny nz (fun i j k => csum3 nx ny nz (fun a b d => c a b d * cis (ang a b d i j k))).
Proof.
  unfold idft. apply grid3_ext. intros i j k Hi Hj Hk. fold ang. fold NN.
  rewrite (csum3_ext nx ny nz _ (fun a b d => NN * (c a b d * cis (ang a b d i j k)))).
  2:{ intros. rewrite grid3_get by auto. ring. }
  rewrite csum3_scal. field. exact NN_nz.
Qed.
(** Every array is a sum of waves. *)
Lemma waves_complete (f : nat -> nat -> nat -> C) : exists c : nat -> nat -> nat -> C,
  forall i j k, (i < nx)%nat -> (j < ny)%nat -> (k < nz)%nat -> csum3 nx ny nz (fun a b d => c a b d * cis (ang a b d i j k)) = f i j k.
Proof.
  exists (fun a b d => / NN * csum3 nx ny nz (fun i j k => f i j k * cis (- ang a b d i j k))).
  intros i j k Hi Hj Hk.
  rewrite (csum3_ext nx ny nz _ (fun a b d => csum3 nx ny nz (fun i' j' k' => (/ NN * f i' j' k') * (cis (ang a b d i j k) * cis (- ang a b d i' j' k'))))).
  2:{ intros. rewrite <- csum3_scal, <- csum3_scal_r. apply csum3_ext. intros. ring. }
  rewrite csum3_swap. rewrite (csum3_delta _ _ _ _ i j k Hi Hj Hk).
  - rewrite csum3_scal, orth3' by auto. rewrite !Nat.eqb_refl, NN_prod. field. exact NN_nz.
  - intros i' j' k' Hi' Hj' Hk' N. rewrite csum3_scal, orth3' by auto.
    destruct (Nat.eqb_spec i i'), (Nat.eqb_spec j j'), (Nat.eqb_spec k k'); try ring. lia.
Qed.
(** The coefficients are determined by the array. *)
Lemma waves_unique (c d : nat -> nat -> nat -> C) :
  (forall i j k, (i < nx)%nat -> (j < ny)%nat -> (k < nz)%nat ->
    csum3 nx ny nz (fun a b e => c a b e * cis (ang a b e i j k)) = csum3 nx ny nz (fun a b e => d a b e * cis (ang a b e i j k))) ->
  forall a b e, (a < nx)%nat -> (b < ny)%nat -> (e < nz)%nat -> c a b e = d a b e.
Proof.
  intros E a b e Ha Hb He. pose proof (dft_waves c) as P. rewrite (grid3_ext nx ny nz _ _ E), dft_waves in P.
  apply (f_equal (fun l => nth (ix nx ny a b e) l (RtoC 0))) in P. rewrite !grid3_get in P by auto.
  apply (f_equal (fun z => / NN * z)) in P. rewrite !Cmult_assoc, !Cinv_l, !Cmult_1_l in P by exact NN_nz. auto.
Qed.
End Dft.

(** ** The shift table *)
Section Shifts.
Definition close (a b : vec) : Prop := Rabs (vx a - vx b) < TOL /\ Rabs (vy a - vy b) < TOL /\ Rabs (vz a - vz b) < TOL.
Lemma Rltb_iff a b : Rltb a b = true <-> a < b.
Proof. unfold Rltb. destruct (Rlt_dec a b); split; intros; try discriminate; auto; contradiction. Qed.
Lemma near_iff a b : near a b = true <-> close a b.
Proof. unfold near, close. rewrite !andb_true_iff, !Rltb_iff. tauto. Qed.
Lemma tiny_iff a : tiny a = true <-> close a vzero.
Proof. unfold tiny, close. rewrite !andb_true_iff, !Rltb_iff. cbn [vzero vx vy vz]. rewrite !Rminus_0_r. tauto. Qed.
Lemma close_sym a b : close a b -> close b a.
Proof. unfold close. intros [H1 [H2 H3]]. rewrite (Rabs_minus_sym (vx b)), (Rabs_minus_sym (vy b)), (Rabs_minus_sym (vz b)). auto. Qed.
Lemma TOL_pos : 0 < TOL.
Proof. unfold TOL. lra. Qed.
Lemma close_refl a : close a a.
Proof. unfold close. rewrite !Rminus_diag_eq by reflexivity. rewrite Rabs_R0. pose proof TOL_pos. auto. Qed.
Lemma near_dec a b : {close a b} + {~ close a b}.
Proof. destruct (near a b) eqn:E; [left; apply near_iff; auto|right; rewrite <- near_iff, E; discriminate]. Qed.
Lemma near_false a b : near a b = false <-> ~ close a b.
Proof. rewrite <- near_iff. destruct (near a b); split; congruence. Qed.
Lemma tiny_false a : tiny a = false <-> ~ close a vzero.
Proof. rewrite <- tiny_iff. destruct (tiny a); split; congruence. Qed.
Lemma find_flag_cases r : forall i t, (1 <= i)%nat ->
  (find_flag i r t = 0%nat /\ forall s, In s r -> ~ close s t) \/
  exists j s, find_flag i r t = (i + j)%nat /\ nth_error r j = Some s /\ close s t.
Proof.
  induction r as [|s r IH]; intros i t Hi; simpl; [left; split; [reflexivity|intros ? []]|].
  destruct (near s t) eqn:N.
  - right. exists 0%nat, s. apply near_iff in N. split; [lia|]. split; [reflexivity|exact N].
  - apply near_false in N. destruct (IH (Datatypes.S i) t ltac:(lia)) as [[E A] | [j [s' [E [A B]]]]].
    + left. split; [exact E|]. intros s' [<- | I]; auto.
    + right. exists (Datatypes.S j), s'. split; [rewrite E; lia|]. split; auto.
Qed.
(** One step from a table whose first entry is the zero shift. *)
Lemma step_cases cap u mp t :
  (close t vzero /\ shift_step cap (vzero :: u, mp) t = Ok (vzero :: u, mp ++ [0%nat])) \/
  (~ close t vzero /\ (exists j s, nth_error u j = Some s /\ close s t /\
      shift_step cap (vzero :: u, mp) t = Ok (vzero :: u, mp ++ [Datatypes.S j]))) \/
  (~ close t vzero /\ (forall s, In s u -> ~ close s t) /\
      shift_step cap (vzero :: u, mp) t =
        if (Datatypes.S (length u) <? cap)%nat then Ok (vzero :: u ++ [t], mp ++ [Datatypes.S (length u)]) else UB).
Proof.
  unfold shift_step. destruct (tiny t) eqn:T.
  - left. split; [apply tiny_iff; auto|reflexivity].
  - right. apply tiny_false in T. cbn [find_flag].
    assert (N : near vzero t = false) by (apply near_false; intros C; apply T, close_sym, C). rewrite N.
    destruct (find_flag_cases u 1 t (le_n 1)) as [[E A] | [j [s [E [A B]]]]].
    + right. split; [exact T|]. split; [exact A|]. rewrite E. reflexivity.
    + left. split; [exact T|]. exists j, s. split; [exact A|]. split; [exact B|]. rewrite E. reflexivity.
Qed.

Record table (done : list vec) (u : list vec) (mp : list nat) : Prop := {
  t_len : length mp = length done;
  t_map : forall m t, nth_error done m = Some t -> exists l s, nth_error mp m = Some l /\ nth_error (vzero :: u) l = Some s /\
            close s t /\ (l = 0%nat <-> close t vzero);
  t_in : forall s, In s u -> In s done /\ ~ close s vzero;
  t_sep : forall i j a b, (i < j)%nat -> nth_error u i = Some a -> nth_error u j = Some b -> ~ close a b }.

Lemma nth_snoc {A} (l : list A) x m y : nth_error (l ++ [x]) m = Some y -> nth_error l m = Some y \/ (m = length l /\ y = x).
Proof.
  intros H. destruct (Nat.lt_ge_cases m (length l)).
  - left. rewrite nth_error_app1 in H by auto. auto.
  - right. rewrite nth_error_app2 in H by auto. destruct (m - length l)%nat eqn:E; simpl in H.
    + injection H as <-. split; [lia|auto].
    + destruct n; discriminate.
Qed.
Lemma nth_last {A} (l : list A) x : nth_error (l ++ [x]) (length l) = Some x.
Proof. rewrite nth_error_app2, Nat.sub_diag by auto. reflexivity. Qed.
Lemma nth_keep {A} (l r : list A) m y : nth_error l m = Some y -> nth_error (l ++ r) m = Some y.
Proof. intros H. rewrite nth_error_app1; [auto|]. apply nth_error_Some. congruence. Qed.
Lemma table_step done u mp t cap st : table done u mp -> shift_step cap (vzero :: u, mp) t = Ok st ->
  exists u' mp', st = (vzero :: u', mp') /\ table (done ++ [t]) u' mp'.
Proof.
  intros [TL TM TI TS] E. destruct (step_cases cap u mp t) as [[C S] | [[C [j [s [Hj [Cs S]]]]] | [C [F S]]]]; rewrite S in E.
  - injection E as <-. exists u, (mp ++ [0%nat]). split; [reflexivity|]. split.
    + rewrite !app_length, TL. reflexivity.
    + intros m t' H. apply nth_snoc in H. destruct H as [H | [-> ->]].
      * destruct (TM m t' H) as [l [s [A [B D]]]]. exists l, s. split; [apply nth_keep; auto|]. auto.
      * exists 0%nat, vzero. rewrite <- TL. split; [apply nth_last|]. split; [reflexivity|]. split; [apply close_sym, C|]. tauto.
    + intros s I. destruct (TI s I). split; auto. apply in_or_app. auto.
    + exact TS.
  - injection E as <-. exists u, (mp ++ [Datatypes.S j]). split; [reflexivity|]. split.
    + rewrite !app_length, TL. reflexivity.
    + intros m t' H. apply nth_snoc in H. destruct H as [H | [-> ->]].
      * destruct (TM m t' H) as [l [s' [A [B D]]]]. exists l, s'. split; [apply nth_keep; auto|]. auto.
      * exists (Datatypes.S j), s. rewrite <- TL. split; [apply nth_last|]. split; [exact Hj|]. split; [exact Cs|].
        split; [discriminate|]. intros; contradiction.
    + intros s' I. destruct (TI s' I). split; auto. apply in_or_app. auto.
    + exact TS.
  - destruct (Datatypes.S (length u) <? cap)%nat; [|discriminate]. injection E as <-.
    exists (u ++ [t]), (mp ++ [Datatypes.S (length u)]). split; [reflexivity|]. split.
    + rewrite !app_length, TL. reflexivity.
    + intros m t' H. apply nth_snoc in H. destruct H as [H | [-> ->]].
      * destruct (TM m t' H) as [l [s' [A [B D]]]]. exists l, s'. split; [apply nth_keep; auto|].
        split; [|auto]. change (vzero :: u ++ [t]) with ((vzero :: u) ++ [t]). apply nth_keep; auto.
      * exists (Datatypes.S (length u)), t. rewrite <- TL. split; [apply nth_last|]. split; [apply nth_last|]. split; [apply close_refl|].
        split; [discriminate|]. intros; contradiction.
    + intros s' I. apply in_app_or in I. destruct I as [I | [<- | []]].
      * destruct (TI s' I). split; auto. apply in_or_app. auto.
      * split; auto. apply in_or_app. right. left. auto.
    + intros i j a b L A B. apply nth_snoc in A. apply nth_snoc in B. destruct A as [A | [-> ->]], B as [B | [-> ->]].
      * eapply TS; eauto.
      * apply F. eapply nth_error_In; eauto.
      * exfalso. assert (nth_error u j <> None) by congruence. apply nth_error_Some in H. lia.
      * lia.
Qed.
Lemma table_loop cap : forall ts done u mp st, table done u mp -> shift_loop cap ts (vzero :: u, mp) = Ok st ->
  exists u' mp', st = (vzero :: u', mp') /\ table (done ++ ts) u' mp'.
Proof.
  induction ts as [|t r IH]; intros done u mp st T E.
  - injection E as <-. exists u, mp. rewrite app_nil_r. auto.
  - cbn [shift_loop] in E. destruct (shift_step cap (vzero :: u, mp) t) as [st1| |] eqn:S; try discriminate.
    destruct (table_step _ _ _ _ _ _ T S) as [u1 [mp1 [-> T1]]]. cbn [obind] in E.
    destruct (IH _ _ _ _ T1 E) as [u' [mp' [-> T']]]. exists u', mp'. split; [reflexivity|].
    rewrite <- app_assoc in T'. exact T'.
Qed.
Lemma table_nil : table [] [] [].
Proof.
  split; [reflexivity| | |]; simpl.
  - intros m t H. destruct m; discriminate.
  - intros s [].
  - intros i j a b L H. destruct i; discriminate.
Qed.
Lemma find_k_shift_table ks qs sh mp : find_k_shift ks qs = Ok (sh, mp) -> exists u, sh = vzero :: u /\ table (diffs ks qs) u mp.
Proof.
  unfold find_k_shift. destruct (length ks * length qs =? 0)%nat; [discriminate|]. intros E.
  destruct (table_loop _ _ _ _ _ _ table_nil E) as [u [mp' [[= -> ->] T]]]. exists u. auto.
Qed.

(** Overflow. *)
Fixpoint fresh (u ts : list vec) : Prop :=
  match ts with [] => True | t :: r => ~ close t vzero /\ (forall s, In s u -> ~ close s t) /\ fresh (u ++ [t]) r end.
Lemma loop_small cap : forall ts u mp, (length u + length ts < cap)%nat -> exists st, shift_loop cap ts (vzero :: u, mp) = Ok st.
Proof.
  induction ts as [|t r IH]; intros u mp L; [eexists; reflexivity|]. cbn [shift_loop]. simpl in L.
  destruct (step_cases cap u mp t) as [[C S] | [[C [j [s [Hj [Cs S]]]]] | [C [F S]]]]; rewrite S.
  - cbn [obind]. apply IH. lia.
  - cbn [obind]. apply IH. lia.
  - destruct (Nat.ltb_spec (Datatypes.S (length u)) cap); [|lia]. cbn [obind]. apply IH. rewrite app_length. simpl. lia.
Qed.
Lemma loop_full cap : forall ts u mp, ts <> [] -> (length u + length ts = cap)%nat ->
  (fresh u ts /\ shift_loop cap ts (vzero :: u, mp) = UB) \/ (~ fresh u ts /\ exists st, shift_loop cap ts (vzero :: u, mp) = Ok st).
Proof.
  induction ts as [|t r IH]; intros u mp NE L; [contradiction|]. cbn [shift_loop fresh]. simpl in L.
  destruct (step_cases cap u mp t) as [[C S] | [[C [j [s [Hj [Cs S]]]]] | [C [F S]]]]; rewrite S.
  - right. split; [tauto|]. cbn [obind]. apply loop_small. lia.
  - right. split.
    + intros [_ [A _]]. apply (A s); [eapply nth_error_In; eauto|exact Cs].
    + cbn [obind]. apply loop_small. lia.
  - destruct r as [|t' r'].
    + left. destruct (Nat.ltb_spec (Datatypes.S (length u)) cap); [simpl in L; lia|]. simpl. auto.
    + destruct (Nat.ltb_spec (Datatypes.S (length u)) cap); [|simpl in L; lia]. cbn [obind].
      destruct (IH (u ++ [t]) (mp ++ [Datatypes.S (length u)]) ltac:(discriminate) ltac:(rewrite app_length; simpl in *; lia)) as [[A B] | [A B]].
      * left. auto.
      * right. split; [tauto|exact B].
Qed.
Lemma fresh_iff : forall ts u, fresh u ts <->
  (forall m t, nth_error ts m = Some t -> ~ close t vzero /\ forall s, In s u -> ~ close s t) /\
  (forall m n a b, (m < n)%nat -> nth_error ts m = Some a -> nth_error ts n = Some b -> ~ close a b).
Proof.
  induction ts as [|t r IH]; intros u; simpl.
  - split; [|auto]. intros _. split; [intros m t H; destruct m; discriminate|intros m n a b _ H; destruct m; discriminate].
  - rewrite IH. split.
    + intros [A [B [D E]]]. split.
      * intros [|m] t' H; simpl in H; [injection H as <-; auto|]. destruct (D m t' H) as [D1 D2]. split; [exact D1|].
        intros s I. apply D2. apply in_or_app. auto.
      * intros [|m] [|n] a b L Ha Hb; simpl in *; try lia.
        -- injection Ha as <-. destruct (D n b Hb) as [_ D2]. apply D2. apply in_or_app. right. left. auto.
        -- apply (E m n); auto. lia.
    + intros [A B]. destruct (A 0%nat t eq_refl) as [A1 A2]. split; [exact A1|]. split; [exact A2|]. split.
      * intros m t' H. destruct (A (Datatypes.S m) t' H) as [A3 A4]. split; [exact A3|].
        intros s I. apply in_app_or in I. destruct I as [I | [<- | []]]; [auto|]. apply (B 0%nat (Datatypes.S m)); auto. lia.
      * intros m n a b L Ha Hb. apply (B (Datatypes.S m) (Datatypes.S n)); auto. lia.
Qed.
Lemma diffs_len ks : forall qs, length (diffs ks qs) = (length ks * length qs)%nat.
Proof. induction qs as [|q r IH]; simpl; [lia|]. rewrite app_length, map_length. fold (diffs ks r). rewrite IH. lia. Qed.
Lemma diffs_nth ks : forall qs i j k q, nth_error ks i = Some k -> nth_error qs j = Some q ->
  nth_error (diffs ks qs) (i + j * length ks) = Some (vsub k q).
Proof.
  induction qs as [|q0 r IH]; intros i j k q Hi Hj; [destruct j; discriminate|].
  assert (Li : (i < length ks)%nat) by (apply nth_error_Some; congruence).
  unfold diffs. cbn [flat_map]. destruct j as [|j].
  - injection Hj as ->. rewrite nth_error_app1 by (rewrite map_length; lia). replace (i + 0 * length ks)%nat with i by lia.
    apply map_nth_error with (f := fun k => vsub k q). exact Hi.
  - rewrite nth_error_app2 by (rewrite map_length; simpl; lia). rewrite map_length.
    replace (i + Datatypes.S j * length ks - length ks)%nat with (i + j * length ks)%nat by (simpl; lia). apply IH; auto.
Qed.
Lemma diffs_inv ks qs m t : nth_error (diffs ks qs) m = Some t ->
  exists i j k q, nth_error ks i = Some k /\ nth_error qs j = Some q /\ m = (i + j * length ks)%nat /\ t = vsub k q.
Proof.
  intros H. assert (L : (m < length ks * length qs)%nat) by (rewrite <- diffs_len; apply nth_error_Some; congruence).
  assert (K : (length ks <> 0)%nat) by (intros Z; rewrite Z in L; lia).
  pose proof (Nat.div_mod m _ K) as DM. pose proof (Nat.mod_upper_bound m _ K) as MB.
  assert (DB : (m / length ks < length qs)%nat) by (apply Nat.div_lt_upper_bound; lia).
  destruct (nth_error ks (m mod length ks)) as [k|] eqn:Ek; [|apply nth_error_None in Ek; lia].
  destruct (nth_error qs (m / length ks)) as [q|] eqn:Eq; [|apply nth_error_None in Eq; lia].
  exists (m mod length ks)%nat, (m / length ks)%nat, k, q. split; [exact Ek|]. split; [exact Eq|].
  assert (M : m = (m mod length ks + m / length ks * length ks)%nat) by lia. split; [exact M|].
  pose proof (diffs_nth _ _ _ _ _ _ Ek Eq) as D. rewrite <- M in D. congruence.
Qed.
End Shifts.
