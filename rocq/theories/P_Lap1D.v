(** C51: the dense 1-D Laplacian matrices are the stencil operator. *)
From Coq Require Import Arith List Bool Lia ZArith Ring Ring_theory.
From Verif Require Import CBase Kron KronLem Lap1D.
Import ListNotations.

Section Ring.
  Variables (K : Type) (zero one : K) (add mul sub : K -> K -> K) (opp : K -> K).
  Variable conj : K -> K.
  Variable Rth : ring_theory zero one add mul sub opp (@eq K).
  Add Ring Kring : Rth.

  (** ** Specification *)
  Fixpoint Sum (n : nat) (f : nat -> K) : K :=
    match n with 0 => zero | S m => add (Sum m f) (f m) end.
  (** centred stencil with weights w(0..F) applied at integer position i to a
      function of all integers *)
  Definition stencil (F : nat) (w : nat -> K) (e : Z -> K) (i : Z) : K :=
    Sum (2 * F + 1) (fun k => let p := (Z.of_nat k - Z.of_nat F)%Z in mul (w (Z.abs_nat p)) (e (i + p)%Z)).
  (** extensions of a function of 0..N-1 to all integers *)
  Definition zero_ext (N : nat) (u : nat -> K) (m : Z) : K :=
    if ((0 <=? m) && (m <? Z.of_nat N))%Z then u (Z.to_nat m) else zero.
  Definition periodic_ext (N : nat) (u : nat -> K) (m : Z) : K := u (Z.to_nat (m mod Z.of_nat N)).
  Fixpoint power (x : K) (n : nat) : K := match n with 0 => one | S m => mul x (power x m) end.
  (** u(m + N) = phase u(m), u(m - N) = conj(phase) u(m) *)
  Definition bloch_ext (N : nat) (phase : K) (u : nat -> K) (m : Z) : K :=
    let q := (m / Z.of_nat N)%Z in
    mul (if (0 <=? q)%Z then power phase (Z.to_nat q) else power (conj phase) (Z.to_nat (- q)))
        (u (Z.to_nat (m mod Z.of_nat N))).
  (** row i of the matrix stored by columns, applied to u *)
  Definition apply (N : nat) (M : nat -> K) (u : nat -> K) (i : nat) : K := Sum N (fun j => mul (M (j * N + i)) (u j)).
  Definition in_int (N FDn : nat) : Prop :=
    (Z.of_nat N * Z.of_nat N <= 2147483647 /\ Z.of_nat N + Z.of_nat N + Z.of_nat FDn <= 2147483647)%Z.

  (** ** Lemmas *)
  Notation sum := (sumn K zero add).
  Lemma Sum_sumn n f : Sum n f = sum n f.
  Proof. induction n; cbn; congruence. Qed.
  Ltac sumify := repeat change Sum with (sumn K zero add) in *.
  Let ext := sum_ext K zero add.
  Let sadd := sum_add K zero one add mul sub opp Rth.
  Let sscale := sum_scale K zero one add mul sub opp Rth.
  Let sswap := sum_swap K zero one add mul sub opp Rth.
  Let sdelta := sum_delta K zero one add mul sub opp Rth.
  Let szero := sum_zero K zero one add mul sub opp Rth.
  Notation delta := (delta K zero one).
  Lemma delta_sym i j : delta i j = delta j i.
  Proof. unfold KronLem.delta. rewrite Nat.eqb_sym. reflexivity. Qed.

  Fixpoint lsum (l : list Z) (f : Z -> K) : K := match l with [] => zero | j :: r => add (f j) (lsum r f) end.
  Lemma lsum_app l r f : lsum (l ++ r) f = add (lsum l f) (lsum r f).
  Proof. induction l as [|a l IH]; cbn; [ring|]. rewrite IH. ring. Qed.
  Lemma zseq_S a n : zseq a (S n) = zseq a n ++ [(a + Z.of_nat n)%Z].
  Proof. unfold zseq. rewrite seq_S, map_app. reflexivity. Qed.
  Lemma lsum_zseq a n f : lsum (zseq a n) f = sum n (fun k => f (a + Z.of_nat k)%Z).
  Proof. induction n as [|n IH]; [reflexivity|]. rewrite zseq_S, lsum_app, IH. cbn. ring. Qed.
  Lemma zseq_in a n j : In j (zseq a n) -> (a <= j < a + Z.of_nat n)%Z.
  Proof. unfold zseq. rewrite in_map_iff. intros [k [<- Hk]]. apply in_seq in Hk. lia. Qed.

  Lemma int_ok_spec N FDn : in_int N FDn -> int_ok N FDn = true.
  Proof. unfold in_int, int_ok, INT_MAX. intros [A B]. rewrite andb_true_iff. split; apply Z.leb_le; assumption. Qed.

  Lemma apply_upd N M i i' jn v u : jn < N -> i < N -> i' < N ->
    apply N (upd K M (jn * N + i) (add (M (jn * N + i)) v)) u i' = add (apply N M u i') (if i' =? i then mul v (u jn) else zero).
  Proof.
    intros Hj Hi Hi'. unfold apply. sumify.
    rewrite (ext N _ (fun j => add (mul (M (j * N + i')) (u j)) (mul (delta jn j) (if i' =? i then mul v (u j) else zero)))).
    - rewrite sadd, sdelta by exact Hj. destruct (i' =? i); reflexivity.
    - intros j Hj'. unfold upd. destruct (Nat.eqb_spec (j * N + i') (jn * N + i)) as [E|E].
      + assert (j = jn) by nia. subst j. assert (i' = i) by lia. subst i'. rewrite Nat.eqb_refl.
        unfold KronLem.delta. rewrite Nat.eqb_refl. ring.
      + destruct (Nat.eqb_spec i' i) as [->|N1]; [|ring]. unfold KronLem.delta.
        destruct (Nat.eqb_spec jn j) as [->|N2]; [contradiction|ring].
  Qed.

  (** the accumulating loops in general *)
  Section Acc.
    Variables (N : nat) (g : nat -> Z -> K).
    Hypothesis PN : 1 <= N.
    Definition col (j : Z) : Z := Z.rem (j + Z.of_nat N) (Z.of_nat N).
    Lemma col_mod j : (- Z.of_nat N <= j)%Z -> col j = (j mod Z.of_nat N)%Z /\ (0 <= col j < Z.of_nat N)%Z.
    Proof.
      intros H. unfold col. rewrite Z.rem_mod_nonneg by lia.
      assert (E : ((j + Z.of_nat N) mod Z.of_nat N = j mod Z.of_nat N)%Z).
      { replace (j + Z.of_nat N)%Z with (j + 1 * Z.of_nat N)%Z by lia. apply Z.mod_add. lia. }
      split; [exact E|]. rewrite E. apply Z.mod_pos_bound. lia.
    Qed.
    Definition rowstep (i : nat) (o : outcome (nat -> K)) (j : Z) : outcome (nat -> K) :=
      do M <- o ; put K (N * N) M (col j * Z.of_nat N + Z.of_nat i) (fun x => add x (g i j)).
    Lemma row_acc i : i < N -> forall l M, (forall j, In j l -> (- Z.of_nat N <= j)%Z) ->
      exists M', fold_left (rowstep i) l (Ok M) = Ok M' /\
        forall u i', i' < N -> apply N M' u i' = add (apply N M u i') (if i' =? i then lsum l (fun j => mul (g i j) (u (Z.to_nat (j mod Z.of_nat N)))) else zero).
    Proof.
      intros Hi. induction l as [|j l IH]; intros M Hl.
      - exists M. split; [reflexivity|]. intros u i' Hi'. cbn. destruct (i' =? i); ring.
      - destruct (col_mod j (Hl j (or_introl eq_refl))) as [E [B1 B2]].
        assert (Off : (col j * Z.of_nat N + Z.of_nat i)%Z = Z.of_nat (Z.to_nat (col j) * N + i)) by (rewrite Nat2Z.inj_add, Nat2Z.inj_mul, Z2Nat.id; lia).
        assert (Hc : Z.to_nat (col j) < N) by lia.
        cbn [fold_left]. unfold rowstep at 2. cbn [obind]. unfold put. rewrite Off, Nat2Z.id.
        destruct (Z.leb_spec 0 (Z.of_nat (Z.to_nat (col j) * N + i))) as [_|C]; [|lia].
        destruct (Z.ltb_spec (Z.of_nat (Z.to_nat (col j) * N + i)) (Z.of_nat (N * N))) as [_|C]; [|nia]. cbn [andb].
        destruct (IH (upd K M (Z.to_nat (col j) * N + i) (add (M (Z.to_nat (col j) * N + i)) (g i j)))) as [M' [EM' VM']].
        { intros j' Hj'. apply Hl. right. exact Hj'. }
        exists M'. split; [exact EM'|]. intros u i' Hi'. rewrite VM', apply_upd by assumption. cbn [lsum]. rewrite <- E.
        destruct (i' =? i); ring.
    Qed.
    Lemma rows_acc F : F <= N -> forall n m M, m + n <= N ->
      (forall u i, i < N -> apply N M u i = if i <? m then lsum (zseq (Z.of_nat i - Z.of_nat F) (2 * F + 1)) (fun j => mul (g i j) (u (Z.to_nat (j mod Z.of_nat N)))) else zero) ->
      exists M', for_k (seq m n) (fun M i => fold_left (rowstep i) (zseq (Z.of_nat i - Z.of_nat F) (2 * F + 1)) (Ok M)) M = Ok M' /\
        forall u i, i < N -> apply N M' u i = if i <? m + n then lsum (zseq (Z.of_nat i - Z.of_nat F) (2 * F + 1)) (fun j => mul (g i j) (u (Z.to_nat (j mod Z.of_nat N)))) else zero.
    Proof.
      intros HF. induction n as [|n IH]; intros m M Hm H.
      - exists M. split; [reflexivity|]. rewrite Nat.add_0_r. exact H.
      - cbn [seq for_k]. destruct (row_acc m ltac:(lia) (zseq (Z.of_nat m - Z.of_nat F) (2 * F + 1)) M) as [M1 [E1 V1]].
        { intros j Hj. apply zseq_in in Hj. lia. }
        rewrite E1. cbn [obind]. destruct (IH (S m) M1) as [M' [E' V']]; [lia| |].
        + intros u i Hi. rewrite V1, H by exact Hi. destruct (Nat.eqb_spec i m) as [->|Ne].
          * destruct (Nat.ltb_spec m m); [lia|]. destruct (Nat.ltb_spec m (S m)); [|lia]. ring.
          * destruct (Nat.ltb_spec i m); destruct (Nat.ltb_spec i (S m)); try lia; ring.
        + exists M'. split; [exact E'|]. intros u i Hi. rewrite V' by exact Hi. replace (S m + n) with (m + S n) by lia. reflexivity.
    Qed.
    Lemma acc F : F <= N ->
      exists M', for_k (seq 0 N) (fun M i => fold_left (rowstep i) (zseq (Z.of_nat i - Z.of_nat F) (2 * F + 1)) (Ok M)) (fun _ => zero) = Ok M' /\
        forall u i, i < N -> apply N M' u i = sum (2 * F + 1) (fun k => let j := (Z.of_nat i + (Z.of_nat k - Z.of_nat F))%Z in mul (g i j) (u (Z.to_nat (j mod Z.of_nat N)))).
    Proof.
      intros HF. destruct (rows_acc F HF N 0 (fun _ => zero)) as [M' [E V]]; [lia| |].
      - intros u i Hi. cbn [Nat.ltb Nat.leb]. unfold apply. sumify. rewrite (ext N _ (fun _ => zero)); [apply szero|]. intros; ring.
      - exists M'. split; [exact E|]. intros u i Hi. rewrite V by exact Hi. destruct (Nat.ltb_spec i (0 + N)); [|lia].
        rewrite lsum_zseq. apply ext. intros k Hk. cbv zeta. replace (Z.of_nat i - Z.of_nat F + Z.of_nat k)%Z with (Z.of_nat i + (Z.of_nat k - Z.of_nat F))%Z by lia. reflexivity.
    Qed.
  End Acc.

  (** entries from the action on unit vectors *)
  Lemma entry_apply N M i j : j < N -> M (j * N + i) = apply N M (fun m => delta j m) i.
  Proof.
    intros Hj. unfold apply. sumify. rewrite (ext N _ (fun m => mul (delta j m) (M (m * N + i)))) by (intros; ring).
    symmetry. apply (sdelta N j (fun m => M (m * N + i))). exact Hj.
  Qed.
  Lemma sum_front n f : sum (S n) f = add (f 0) (sum n (fun k => f (S k))).
  Proof. induction n as [|n IH]; [cbn; ring|]. change (sum (S (S n)) f) with (add (sum (S n) f) (f (S n))). rewrite IH. cbn. ring. Qed.
  Lemma sum_rev n f : sum n f = sum n (fun k => f (n - 1 - k)).
  Proof.
    induction n as [|n IH]; [reflexivity|]. rewrite (sum_front n (fun k => f (S n - 1 - k))).
    change (sum (S n) f) with (add (sum n f) (f n)). rewrite IH.
    replace (S n - 1 - 0) with n by lia. rewrite (ext n (fun k => f (n - 1 - k)) (fun k => f (S n - 1 - S k))) by (intros; f_equal; lia). ring.
  Qed.

  (** ** Periodic *)
  Theorem C51_periodic FDn w N : 1 <= N -> FDn <= N -> in_int N FDn ->
    exists M, Lap_1D_Periodic K zero add FDn w N = Ok M /\
      (forall u i, i < N -> apply N M u i = stencil FDn w (periodic_ext N u) (Z.of_nat i)) /\
      (forall i j, i < N -> j < N -> M (j * N + i) = M (i * N + j)) /\
      (forall i, i < N -> Sum N (fun j => M (j * N + i)) = Sum (2 * FDn + 1) (fun k => w (Z.abs_nat (Z.of_nat k - Z.of_nat FDn)))).
  Proof.
    intros PN HF HI. unfold Lap_1D_Periodic. rewrite int_ok_spec by exact HI. cbn [negb].
    destruct (acc N (fun i j => w (Z.abs_nat (j - Z.of_nat i))) PN FDn HF) as [M [E V]].
    exists M. split; [exact E|].
    assert (A : forall u i, i < N -> apply N M u i = stencil FDn w (periodic_ext N u) (Z.of_nat i)).
    { intros u i Hi. rewrite V by exact Hi. unfold stencil. sumify. apply ext. intros k Hk. cbv zeta.
      replace (Z.of_nat i + (Z.of_nat k - Z.of_nat FDn) - Z.of_nat i)%Z with (Z.of_nat k - Z.of_nat FDn)%Z by lia. reflexivity. }
    split; [exact A|]. split.
    - intros i j Hi Hj. rewrite (entry_apply N M i j Hj), (entry_apply N M j i Hi), !A by assumption.
      unfold stencil. sumify; rewrite (sum_rev (2 * FDn + 1)). apply ext. intros k Hk. cbv zeta.
      replace (Z.of_nat (2 * FDn + 1 - 1 - k) - Z.of_nat FDn)%Z with (- (Z.of_nat k - Z.of_nat FDn))%Z by lia.
      set (p := (Z.of_nat k - Z.of_nat FDn)%Z). replace (Z.abs_nat (- p)) with (Z.abs_nat p) by lia. f_equal.
      unfold periodic_ext, KronLem.delta.
      assert (Q : ((Z.of_nat i + - p) mod Z.of_nat N = Z.of_nat j <-> (Z.of_nat j + p) mod Z.of_nat N = Z.of_nat i)%Z).
      { split; intros Q.
        - rewrite <- Q. rewrite Z.add_mod_idemp_l by lia. replace (Z.of_nat i + - p + p)%Z with (Z.of_nat i) by lia. apply Z.mod_small. lia.
        - rewrite <- Q. rewrite Z.add_mod_idemp_l by lia. replace (Z.of_nat j + p + - p)%Z with (Z.of_nat j) by lia. apply Z.mod_small. lia. }
      pose proof (Z.mod_pos_bound (Z.of_nat i + - p) (Z.of_nat N) ltac:(lia)). pose proof (Z.mod_pos_bound (Z.of_nat j + p) (Z.of_nat N) ltac:(lia)).
      destruct (Nat.eqb_spec j (Z.to_nat ((Z.of_nat i + - p) mod Z.of_nat N))); destruct (Nat.eqb_spec i (Z.to_nat ((Z.of_nat j + p) mod Z.of_nat N))); try reflexivity; lia.
    - intros i Hi. transitivity (apply N M (fun _ => one) i).
      + unfold apply. sumify. apply ext. intros; ring.
      + rewrite A by exact Hi. unfold stencil, periodic_ext. sumify. apply ext. intros; cbv zeta; ring.
  Qed.

  (** ** Bloch-periodic *)
  Theorem C51_bloch FDn w N phase : 1 <= N -> FDn <= N -> in_int N FDn ->
    exists M, Lap_1D_Periodic_complex K zero add mul conj FDn w N phase = Ok M /\
      (forall u i, i < N -> apply N M u i = stencil FDn w (bloch_ext N phase u) (Z.of_nat i)) /\
      ((forall x y, conj (add x y) = add (conj x) (conj y)) -> (forall x y, conj (mul x y) = mul (conj x) (conj y)) ->
       (forall x, conj (conj x) = x) -> (forall p, conj (w p) = w p) ->
       forall i j, i < N -> j < N -> M (j * N + i) = conj (M (i * N + j))).
  Proof.
    intros PN HF HI. unfold Lap_1D_Periodic_complex. rewrite int_ok_spec by exact HI. cbn [negb].
    set (ph := fun j : Z => if (j <? 0)%Z then conj phase else if (Z.of_nat N <=? j)%Z then phase else one).
    destruct (acc N (fun i j => mul (w (Z.abs_nat (j - Z.of_nat i))) (ph j)) PN FDn HF) as [M [E V]].
    exists M. split.
    { rewrite <- E. clear E V M. generalize (seq 0 N). generalize (fun _ : nat => zero). intros M l. revert M.
      induction l as [|i l IH]; intros M; [reflexivity|]. cbn [for_k].
      assert (R : forall js o, fold_left (fun (o : outcome (nat -> K)) (j : Z) => do M0 <- o ;
            let j_ := Z.rem (j + Z.of_nat N) (Z.of_nat N) in
            put K (N * N) M0 (j_ * Z.of_nat N + Z.of_nat i) (fun x =>
              if (j <? 0)%Z then add x (mul (w (Z.abs_nat (j - Z.of_nat i))) (conj phase))
              else if (Z.of_nat N <=? j)%Z then add x (mul (w (Z.abs_nat (j - Z.of_nat i))) phase)
              else add x (w (Z.abs_nat (j - Z.of_nat i))))) js o
          = fold_left (rowstep N (fun i0 j => mul (w (Z.abs_nat (j - Z.of_nat i0))) (ph j)) i) js o).
      { induction js as [|j js IHj]; intros o; [reflexivity|]. cbn [fold_left]. rewrite IHj. f_equal.
        destruct o as [M0| |]; cbn [obind rowstep]; [|reflexivity|reflexivity]. unfold put, col, ph. cbv zeta.
        destruct (_ && _); [|reflexivity]. do 2 f_equal. destruct (j <? 0)%Z; [reflexivity|]. destruct (Z.of_nat N <=? j)%Z; [reflexivity|]. ring. }
      rewrite R. destruct (fold_left _ _ _) as [M1| |]; [|reflexivity|reflexivity]. cbn [obind]. apply IH. }
    assert (PH : forall m, (- Z.of_nat N <= m < 2 * Z.of_nat N)%Z ->
       (if (0 <=? m / Z.of_nat N)%Z then power phase (Z.to_nat (m / Z.of_nat N)) else power (conj phase) (Z.to_nat (- (m / Z.of_nat N)))) = ph m).
    { intros m Hm. unfold ph. destruct (Z.ltb_spec m 0).
      - replace (m / Z.of_nat N)%Z with (-1)%Z; [change (Z.to_nat (- -1)) with 1; cbn; ring|]. apply Z.div_unique with (r := (m + Z.of_nat N)%Z); [left; lia|lia].
      - destruct (Z.leb_spec (Z.of_nat N) m).
        + replace (m / Z.of_nat N)%Z with 1%Z; [change (Z.to_nat 1) with 1; cbn; ring|]. apply Z.div_unique with (r := (m - Z.of_nat N)%Z); [left; lia|lia].
        + rewrite Z.div_small by lia. reflexivity. }
    assert (A : forall u i, i < N -> apply N M u i = stencil FDn w (bloch_ext N phase u) (Z.of_nat i)).
    { intros u i Hi. rewrite V by exact Hi. unfold stencil. sumify. apply ext. intros k Hk. cbv zeta. unfold bloch_ext. cbv zeta.
      rewrite PH by lia.
      replace (Z.of_nat i + (Z.of_nat k - Z.of_nat FDn) - Z.of_nat i)%Z with (Z.of_nat k - Z.of_nat FDn)%Z by lia. ring. }
    split; [exact A|].
    intros Ca Cm Cc Cw i j Hi Hj.
    assert (C0 : conj zero = zero).
    { assert (Z2 : conj zero = add (conj zero) (conj zero)) by (rewrite <- Ca; f_equal; ring).
      transitivity (sub (add (conj zero) (conj zero)) (conj zero)); [ring|rewrite <- Z2; ring]. }
    assert (C1 : conj one = one) by (transitivity (mul (conj one) (conj (conj one))); [rewrite Cc; ring|rewrite <- Cm; transitivity (conj (conj one)); [f_equal; ring|apply Cc]]).
    rewrite (entry_apply N M i j Hj), (entry_apply N M j i Hi), !V by assumption.
    assert (Cs : forall n f, conj (sum n f) = sum n (fun k => conj (f k))).
    { induction n as [|n IH]; intros f; cbn; [exact C0|]. rewrite Ca, IH. reflexivity. }
    rewrite Cs, (sum_rev (2 * FDn + 1)). apply ext. intros k Hk. cbv zeta.
    replace (Z.of_nat (2 * FDn + 1 - 1 - k) - Z.of_nat FDn)%Z with (- (Z.of_nat k - Z.of_nat FDn))%Z by lia.
    set (p := (Z.of_nat k - Z.of_nat FDn)%Z). assert (Hp : (- Z.of_nat N <= p <= Z.of_nat N)%Z) by lia.
    replace (Z.abs_nat (Z.of_nat i + - p - Z.of_nat i)) with (Z.abs_nat p) by lia.
    replace (Z.abs_nat (Z.of_nat j + p - Z.of_nat j)) with (Z.abs_nat p) by lia.
    rewrite !Cm, Cw. unfold KronLem.delta.
    assert (Q : forall a b m : Z, (0 <= a < Z.of_nat N -> 0 <= b < Z.of_nat N -> - Z.of_nat N <= m <= Z.of_nat N ->
       (a + m) mod Z.of_nat N = b -> a + m = b \/ a + m = b + Z.of_nat N \/ a + m = b - Z.of_nat N)%Z).
    { intros a b m Ha Hb Hm Q. pose proof (Z.div_mod (a + m) (Z.of_nat N) ltac:(lia)) as D. rewrite Q in D.
      assert ((a + m) / Z.of_nat N = 0 \/ (a + m) / Z.of_nat N = 1 \/ (a + m) / Z.of_nat N = -1)%Z as [R|[R|R]] by nia; rewrite R in D; lia. }
    pose proof (Z.mod_pos_bound (Z.of_nat i + - p) (Z.of_nat N) ltac:(lia)). pose proof (Z.mod_pos_bound (Z.of_nat j + p) (Z.of_nat N) ltac:(lia)).
    assert (Q' : ((Z.of_nat i + - p) mod Z.of_nat N = Z.of_nat j <-> (Z.of_nat j + p) mod Z.of_nat N = Z.of_nat i)%Z).
    { split; intros Q'.
      - rewrite <- Q'. rewrite Z.add_mod_idemp_l by lia. replace (Z.of_nat i + - p + p)%Z with (Z.of_nat i) by lia. apply Z.mod_small. lia.
      - rewrite <- Q'. rewrite Z.add_mod_idemp_l by lia. replace (Z.of_nat j + p + - p)%Z with (Z.of_nat j) by lia. apply Z.mod_small. lia. }
    pose proof (Q (Z.of_nat i) (Z.of_nat j) (- p)%Z ltac:(lia) ltac:(lia) ltac:(lia)) as Q1. clear Q.
    generalize dependent ((Z.of_nat i + - p) mod Z.of_nat N)%Z. generalize dependent ((Z.of_nat j + p) mod Z.of_nat N)%Z.
    intros x2 B2 x1 B1 Q' Q1. clear V A E HI PH. clearbody p. clear Hk.
    destruct (Nat.eqb_spec j (Z.to_nat x1)) as [e1|e1];
      destruct (Nat.eqb_spec i (Z.to_nat x2)) as [e2|e2]; try lia.
    - rewrite C1. f_equal. f_equal. unfold ph.
      destruct (Q1 ltac:(lia)) as [R|[R|R]].
      + destruct (Z.ltb_spec (Z.of_nat i + - p) 0); [lia|]. destruct (Z.leb_spec (Z.of_nat N) (Z.of_nat i + - p)); [lia|].
        destruct (Z.ltb_spec (Z.of_nat j + p) 0); [lia|]. destruct (Z.leb_spec (Z.of_nat N) (Z.of_nat j + p)); [lia|]. symmetry; exact C1.
      + destruct (Z.ltb_spec (Z.of_nat i + - p) 0); [lia|]. destruct (Z.leb_spec (Z.of_nat N) (Z.of_nat i + - p)); [|lia].
        destruct (Z.ltb_spec (Z.of_nat j + p) 0); [|lia]. symmetry; apply Cc.
      + destruct (Z.ltb_spec (Z.of_nat i + - p) 0); [|lia].
        destruct (Z.ltb_spec (Z.of_nat j + p) 0); [lia|]. destruct (Z.leb_spec (Z.of_nat N) (Z.of_nat j + p)); [|lia]. reflexivity.
    - rewrite C0. ring.
  Qed.

  (** ** Dirichlet *)
  Lemma row_set N (w : nat -> K) i (lo : Z) : i < N -> (0 <= lo)%Z -> forall n M, (lo + Z.of_nat n <= Z.of_nat N)%Z ->
    exists M', fold_left (fun o j => do M <- o ; put K (N * N) M (j * Z.of_nat N + Z.of_nat i) (fun _ => w (Z.abs_nat (j - Z.of_nat i)))) (zseq lo n) (Ok M) = Ok M' /\
      forall i' j, i' < N -> j < N -> M' (j * N + i') =
        if (i' =? i) && (lo <=? Z.of_nat j)%Z && (Z.of_nat j <? lo + Z.of_nat n)%Z then w (Z.abs_nat (Z.of_nat j - Z.of_nat i)) else M (j * N + i').
  Proof.
    intros Hi Hlo. induction n as [|n IH]; intros M Hn.
    - exists M. split; [reflexivity|]. intros i' j Hi' Hj. destruct (Z.leb_spec lo (Z.of_nat j)); destruct (Z.ltb_spec (Z.of_nat j) (lo + Z.of_nat 0)); try lia; rewrite ?andb_false_r; reflexivity.
    - destruct (IH M ltac:(lia)) as [M1 [E1 V1]]. rewrite zseq_S, fold_left_app, E1. cbn [fold_left obind]. unfold put.
      set (jn := Z.to_nat (lo + Z.of_nat n)).
      assert (Hjn : (lo + Z.of_nat n)%Z = Z.of_nat jn) by (unfold jn; lia). rewrite Hjn.
      replace (Z.of_nat jn * Z.of_nat N + Z.of_nat i)%Z with (Z.of_nat (jn * N + i)) by lia. rewrite Nat2Z.id.
      destruct (Z.leb_spec 0 (Z.of_nat (jn * N + i))) as [_|C]; [|lia].
      destruct (Z.ltb_spec (Z.of_nat (jn * N + i)) (Z.of_nat (N * N))) as [_|C]; [|nia]. cbn [andb].
      eexists. split; [reflexivity|]. intros i' j Hi' Hj. unfold upd.
      destruct (Nat.eqb_spec (j * N + i') (jn * N + i)) as [E|E].
      + assert (j = jn) by nia. subst j. assert (i' = i) by lia. subst i'. rewrite Nat.eqb_refl.
        destruct (Z.leb_spec lo (Z.of_nat jn)); [|lia]. destruct (Z.ltb_spec (Z.of_nat jn) (lo + Z.of_nat (S n))); [|lia]. reflexivity.
      + rewrite V1 by assumption. destruct (Nat.eqb_spec i' i) as [->|Ne]; [|reflexivity]. cbn [andb].
        assert (j <> jn) by (intros ->; apply E; reflexivity).
        destruct (Z.leb_spec lo (Z.of_nat j)); cbn [andb]; [|reflexivity].
        destruct (Z.ltb_spec (Z.of_nat j) (lo + Z.of_nat n)); destruct (Z.ltb_spec (Z.of_nat j) (lo + Z.of_nat (S n))); try lia; reflexivity.
  Qed.

  Theorem C51_dirichlet FDn w N : in_int N FDn ->
    exists M, Lap_1D_Dirichlet K zero FDn w N = Ok M /\
      (forall u i, i < N -> apply N M u i = stencil FDn w (zero_ext N u) (Z.of_nat i)) /\
      (forall i j, i < N -> j < N -> M (j * N + i) = M (i * N + j)).
  Proof.
    intros HI. unfold Lap_1D_Dirichlet. rewrite int_ok_spec by exact HI. cbn [negb].
    set (tgt := fun i j : nat => if (Z.abs_nat (Z.of_nat j - Z.of_nat i) <=? FDn) then w (Z.abs_nat (Z.of_nat j - Z.of_nat i)) else zero).
    assert (L : forall n m M, m + n <= N -> (forall i j, i < N -> j < N -> M (j * N + i) = if i <? m then tgt i j else zero) ->
      exists M', for_k (seq m n) (fun M i =>
        let lo := Z.max 0 (Z.of_nat i - Z.of_nat FDn) in
        let hi := Z.min (Z.of_nat N - 1) (Z.of_nat i + Z.of_nat FDn) in
        fold_left (fun o j => do M <- o ; put K (N * N) M (j * Z.of_nat N + Z.of_nat i) (fun _ => w (Z.abs_nat (j - Z.of_nat i))))
          (zseq lo (Z.to_nat (hi - lo + 1))) (Ok M)) M = Ok M' /\
        forall i j, i < N -> j < N -> M' (j * N + i) = if i <? m + n then tgt i j else zero).
    { induction n as [|n IH]; intros m M Hm H.
      - exists M. split; [reflexivity|]. rewrite Nat.add_0_r. exact H.
      - cbn [seq for_k]. cbv zeta.
        set (lo := Z.max 0 (Z.of_nat m - Z.of_nat FDn)). set (hi := Z.min (Z.of_nat N - 1) (Z.of_nat m + Z.of_nat FDn)).
        destruct (row_set N w m lo ltac:(lia) ltac:(lia) (Z.to_nat (hi - lo + 1)) M) as [M1 [E1 V1]]; [lia|].
        rewrite E1. cbn [obind]. destruct (IH (S m) M1) as [M' [E' V']]; [lia| |].
        + intros i j Hi Hj. rewrite V1, H by assumption. destruct (Nat.eqb_spec i m) as [->|Ne]; cbn [andb].
          * destruct (Nat.ltb_spec m m); [lia|]. destruct (Nat.ltb_spec m (S m)); [|lia]. unfold tgt.
            destruct (Z.leb_spec lo (Z.of_nat j)); destruct (Z.ltb_spec (Z.of_nat j) (lo + Z.of_nat (Z.to_nat (hi - lo + 1)))); cbn [andb];
              destruct (Nat.leb_spec (Z.abs_nat (Z.of_nat j - Z.of_nat m)) FDn); try reflexivity; lia.
          * destruct (Nat.ltb_spec i m); destruct (Nat.ltb_spec i (S m)); try lia; reflexivity.
        + exists M'. split; [exact E'|]. intros i j Hi Hj. rewrite V' by assumption. replace (S m + n) with (m + S n) by lia. reflexivity. }
    destruct (L N 0 (fun _ => zero)) as [M [E V]]; [lia|intros; reflexivity|]. clear L.
    exists M. split; [exact E|].
    assert (V' : forall i j, i < N -> j < N -> M (j * N + i) = tgt i j).
    { intros i j Hi Hj. rewrite V by assumption. destruct (Nat.ltb_spec i (0 + N)); [reflexivity|lia]. }
    split.
    - intros u i Hi. unfold stencil, apply. sumify.
      rewrite (ext (2 * FDn + 1) _ (fun k => sum N (fun j => mul (if (Z.of_nat i + (Z.of_nat k - Z.of_nat FDn) =? Z.of_nat j)%Z then w (Z.abs_nat (Z.of_nat j - Z.of_nat i)) else zero) (u j)))).
      + rewrite sswap. apply ext. intros j Hj. rewrite V' by assumption.
        rewrite (ext (2 * FDn + 1) _ (fun k => mul (u j) (if (Z.of_nat i + (Z.of_nat k - Z.of_nat FDn) =? Z.of_nat j)%Z then w (Z.abs_nat (Z.of_nat j - Z.of_nat i)) else zero))) by (intros; ring).
        rewrite sscale. unfold tgt. destruct (Nat.leb_spec (Z.abs_nat (Z.of_nat j - Z.of_nat i)) FDn) as [H|H].
        * set (k0 := Z.to_nat (Z.of_nat j - Z.of_nat i + Z.of_nat FDn)).
          rewrite (ext (2 * FDn + 1) _ (fun k => mul (delta k0 k) (w (Z.abs_nat (Z.of_nat j - Z.of_nat i))))).
          -- rewrite (sdelta (2 * FDn + 1) k0 (fun _ => w (Z.abs_nat (Z.of_nat j - Z.of_nat i)))) by (unfold k0; lia). ring.
          -- intros k Hk. unfold KronLem.delta. destruct (Z.eqb_spec (Z.of_nat i + (Z.of_nat k - Z.of_nat FDn)) (Z.of_nat j));
               destruct (Nat.eqb_spec k0 k); unfold k0 in *; try lia; ring.
        * rewrite (ext (2 * FDn + 1) _ (fun _ => zero)).
          -- rewrite szero. ring.
          -- intros k Hk. destruct (Z.eqb_spec (Z.of_nat i + (Z.of_nat k - Z.of_nat FDn)) (Z.of_nat j)); [lia|reflexivity].
      + intros k Hk. cbv zeta. unfold zero_ext. set (m := (Z.of_nat i + (Z.of_nat k - Z.of_nat FDn))%Z).
        destruct (Z.leb_spec 0 m); destruct (Z.ltb_spec m (Z.of_nat N)); cbn [andb].
        * rewrite (ext N _ (fun j => mul (delta (Z.to_nat m) j) (mul (w (Z.abs_nat (Z.of_nat j - Z.of_nat i))) (u j)))).
          -- rewrite (sdelta N (Z.to_nat m) (fun j => mul (w (Z.abs_nat (Z.of_nat j - Z.of_nat i))) (u j))) by lia.
             do 2 f_equal. unfold m. lia.
          -- intros j Hj. unfold KronLem.delta. destruct (Z.eqb_spec m (Z.of_nat j)); destruct (Nat.eqb_spec (Z.to_nat m) j); try lia; ring.
        * rewrite (ext N _ (fun _ => zero)); [rewrite szero; ring|]. intros j Hj. destruct (Z.eqb_spec m (Z.of_nat j)); [lia|ring].
        * rewrite (ext N _ (fun _ => zero)); [rewrite szero; ring|]. intros j Hj. destruct (Z.eqb_spec m (Z.of_nat j)); [lia|ring].
        * rewrite (ext N _ (fun _ => zero)); [rewrite szero; ring|]. intros j Hj. destruct (Z.eqb_spec m (Z.of_nat j)); [lia|ring].
    - intros i j Hi Hj. rewrite !V' by assumption. unfold tgt.
      replace (Z.abs_nat (Z.of_nat i - Z.of_nat j)) with (Z.abs_nat (Z.of_nat j - Z.of_nat i)) by lia. reflexivity.
  Qed.

  (** ** Meshes smaller than the stencil *)
  Theorem C51_out_of_bounds FDn w N phase : 2 <= N -> N < FDn ->
    Lap_1D_Periodic K zero add FDn w N = UB /\ Lap_1D_Periodic_complex K zero add mul conj FDn w N phase = UB.
  Proof.
    intros PN HF. unfold Lap_1D_Periodic, Lap_1D_Periodic_complex. destruct (int_ok N FDn); [|split; reflexivity]. cbn [negb].
    assert (Ub : forall (f : outcome (nat -> K) -> Z -> outcome (nat -> K)) l, (forall j, f UB j = UB) -> fold_left f l UB = UB).
    { intros f. induction l as [|j l IH]; intros H; [reflexivity|]. cbn. rewrite H. apply IH, H. }
    (* the first row meets a column below 0 before it has finished *)
    assert (G : forall (h : Z -> K -> K) a n M, (a <= - Z.of_nat N - 1 < a + Z.of_nat n)%Z ->
      fold_left (fun o j => do M <- o ; put K (N * N) M (Z.rem (j + Z.of_nat N) (Z.of_nat N) * Z.of_nat N + Z.of_nat 0) (h j)) (zseq a n) (Ok M) = UB).
    { intros h a n. revert a. induction n as [|n IH]; intros a M Ha; [lia|].
      assert (ZS : zseq a (S n) = a :: zseq (a + 1) n).
      { unfold zseq. cbn [seq map]. rewrite Z.add_0_r. f_equal. rewrite <- seq_shift, map_map. apply map_ext. intros k. lia. }
      rewrite ZS. cbn [fold_left obind]. unfold put at 2.
      destruct (Z.eq_dec a (- Z.of_nat N - 1)) as [->|Na].
      - replace (Z.rem (- Z.of_nat N - 1 + Z.of_nat N) (Z.of_nat N)) with (-1)%Z.
        2:{ replace (- Z.of_nat N - 1 + Z.of_nat N)%Z with (- (1))%Z by lia. rewrite Z.rem_opp_l by lia. rewrite Z.rem_small by lia. reflexivity. }
        destruct (Z.leb_spec 0 (-1 * Z.of_nat N + Z.of_nat 0)); [lia|]. cbn [andb]. apply Ub. reflexivity.
      - destruct (_ && _); [|apply Ub; reflexivity]. apply IH. lia. }
    destruct N as [|N']; [lia|]. cbn [seq for_k]. split.
    - rewrite (G (fun j x => add x (w (Z.abs_nat (j - Z.of_nat 0)))) (Z.of_nat 0 - Z.of_nat FDn)%Z) by lia. reflexivity.
    - rewrite (G (fun j x => if (j <? 0)%Z then add x (mul (w (Z.abs_nat (j - Z.of_nat 0))) (conj phase))
            else if (Z.of_nat (S N') <=? j)%Z then add x (mul (w (Z.abs_nat (j - Z.of_nat 0))) phase)
            else add x (w (Z.abs_nat (j - Z.of_nat 0)))) (Z.of_nat 0 - Z.of_nat FDn)%Z) by lia. reflexivity.
  Qed.
End Ring.

(** With a single mesh point no access is out of bounds, but the Bloch factors
    are wrong beyond the first neighbour cell (phase -1, weights 1, 0, 1). *)
Theorem C51_bloch_single_point_refuted : exists (w : nat -> Z) FDn phase M u,
  (phase * phase = 1)%Z /\
  Lap_1D_Periodic_complex Z 0%Z Z.add Z.mul (fun x => x) FDn w 1 phase = Ok M /\
  apply Z 0%Z Z.add Z.mul 1 M u 0 <> stencil Z 0%Z Z.add Z.mul FDn w (bloch_ext Z 1%Z Z.mul (fun x => x) 1 phase u) 0%Z.
Proof.
  exists (fun p => nth p [1; 0; 1]%Z 0%Z), 2, (-1)%Z. eexists. exists (fun _ => 1%Z). split; [reflexivity|]. split; [reflexivity|].
  vm_compute. discriminate.
Qed.

(** Mesh with fewer points than the stencil half-width: writes outside the matrix. *)
Theorem C51_small_mesh_refuted : exists (w : nat -> Z) FDn N, 1 <= N /\ Lap_1D_Periodic Z 0%Z Z.add FDn w N = UB.
Proof. exists (fun _ => 1%Z), 6, 4. split; [lia|]. vm_compute. reflexivity. Qed.

(** N = 3 = FDn with weights -2, 1, 0, 5: the third neighbours wrap onto the diagonal. *)
Example C51_ex : let w := fun p => nth p [-2; 1; 0; 5]%Z 0%Z in
  match Lap_1D_Periodic Z 0%Z Z.add 3 w 3 with Ok M => map M (seq 0 9) | _ => [] end = [8; 1; 1; 1; 8; 1; 1; 1; 8]%Z
  /\ in_int 3 3.
Proof. split; [vm_compute; reflexivity|]. unfold in_int. lia. Qed.
Print Assumptions C51_periodic.
Print Assumptions C51_bloch.
Print Assumptions C51_dirichlet.
Print Assumptions C51_out_of_bounds.
Print Assumptions C51_bloch_single_point_refuted.
Print Assumptions C51_small_mesh_refuted.
