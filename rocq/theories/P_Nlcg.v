(** C60: relaxation with nonlinear conjugate gradients. *)
From Coq Require Import ZArith List Lia Bool Reals Lra FunctionalExtensionality.
From Verif Require Import CBase Halo Lbfgs LbfgsLem Relax P_Relax P_Fire Nlcg.
Import ListNotations.
Local Open Scope R_scope.

(** ** Specification *)
(** the secant method for a zero of phi: pairs (previous, current) *)
Fixpoint sec (phi : R -> R) (t0 t1 : R) (j : nat) : R * R :=
  match j with
  | O => (t0, t1)
  | S i => let '(p, c) := sec phi t0 t1 i in (c, c - phi c * (c - p) / (phi c - phi p))
  end.
(** slope of the energy along d *)
Definition slope (n : nat) (force : vecR -> vecR) (x d : vecR) (t : R) : R := - rdot n (force (fun i => x i + t * d i)) d.
(** largest component *)
Definition sup (n : nat) (v : vecR) (m : R) : Prop := (forall i, (i < n)%nat -> Rabs (v i) <= m) /\ (m = 0 \/ exists i, (i < n)%nat /\ m = Rabs (v i)).
(** the force does not see the wrapping *)
Definition periodic (force wrap : vecR -> vecR) : Prop := forall x u, force (fun i => wrap x i + u i) = force (fun i => x i + u i).
(** Polak-Ribiere number *)
Definition pr (n : nat) (F F' : vecR) : R := rdot n F' (fun i => F' i - F i) / rdot n F F.

Lemma rdiv_ok x y z : rdiv x y = Ok z -> y <> 0 /\ z = x / y.
Proof. unfold rdiv. destruct (Req_EM_T y 0); [discriminate|]. intros E. injection E as <-. auto. Qed.
Lemma maxabs_sup n v : sup n v (maxabs n v).
Proof.
  unfold maxabs, sup. induction n as [|n IH]; [cbn; split; [lia|auto]|]. rewrite seq_S, rev_app_distr. cbn [rev app fold_right Nat.add]. set (e := fold_right _ 0 (rev (seq 0 n))) in *.
  destruct IH as [I1 I2]. unfold rlt. destruct (Rlt_dec e (Rabs (v n))) as [L|L].
  - split; [|right; exists n; auto]. intros i Hi. destruct (Nat.eq_dec i n) as [-> | N]; [lra|]. specialize (I1 i ltac:(lia)). lra.
  - split.
    + intros i Hi. destruct (Nat.eq_dec i n) as [-> | N]; [lra|]. apply I1. lia.
    + destruct I2 as [I2|[i [Hi I2]]]; [auto|]. right. exists i. split; [lia|exact I2].
Qed.
Lemma sup_unique n v a b : sup n v a -> sup n v b -> a = b.
Proof.
  intros [A1 A2] [B1 B2]. destruct A2 as [-> |[i [Hi ->]]], B2 as [-> |[j [Hj ->]]].
  - reflexivity.
  - specialize (A1 j Hj). pose proof (Rabs_pos (v j)). lra.
  - specialize (B1 i Hi). pose proof (Rabs_pos (v i)). lra.
  - specialize (A1 j Hj). specialize (B1 i Hi). lra.
Qed.
Lemma sec_S phi t0 t1 j : sec phi t0 t1 (S j) = (snd (sec phi t0 t1 j), snd (sec phi t0 t1 j) - phi (snd (sec phi t0 t1 j)) * (snd (sec phi t0 t1 j) - fst (sec phi t0 t1 j)) / (phi (snd (sec phi t0 t1 j)) - phi (fst (sec phi t0 t1 j)))).
Proof. cbn [sec]. destruct (sec phi t0 t1 j). reflexivity. Qed.

Section Line.
  Variables (n : nat) (sigma sectol : R) (force wrap : vecR -> vecR).
  Hypothesis per : periodic force wrap.
  (** positions that the force field does not distinguish *)
  Definition same (x y : vecR) : Prop := forall u, force (fun i => x i + u i) = force (fun i => y i + u i).
  Lemma same_force x y : same x y -> force x = force y.
  Proof. intros H. specialize (H (fun _ => 0)). cbv beta in H. replace (fun i => x i + 0) with x in H by (extensionality i; lra). replace (fun i => y i + 0) with y in H by (extensionality i; lra). exact H. Qed.
  Lemma same_wrap x : same (wrap x) x.
  Proof. intros u. apply per. Qed.
  Lemma same_move x y a d b : same x (fun i => y i + a * d i) -> same (fun i => x i + b * d i) (fun i => y i + (a + b) * d i).
  Proof.
    intros H u. specialize (H (fun i => b * d i + u i)). replace (fun i => x i + b * d i + u i) with (fun i => x i + (b * d i + u i)) by (extensionality i; lra).
    rewrite H. f_equal. extensionality i. lra.
  Qed.
  Lemma same_trans x y z : same x y -> same y z -> same x z.
  Proof. intros H1 H2 u. rewrite H1. apply H2. Qed.

  Lemma secant_ok fuel d dd x0 (phi := slope n force x0 d) : forall j x F xF,
    same x (fun i => x0 i + snd (sec phi sigma 0 j) * d i) -> F = force x ->
    secant n sectol force wrap fuel d dd (snd (sec phi sigma 0 j) - fst (sec phi sigma 0 j)) (phi (fst (sec phi sigma 0 j))) x F = Ok xF ->
    exists k, (S j <= k <= j + Nat.max 1 fuel)%nat /\ same (fst xF) (fun i => x0 i + snd (sec phi sigma 0 k) * d i) /\ snd xF = force (fst xF) /\
      (forall i, (S j <= i <= k)%nat -> phi (snd (sec phi sigma 0 (i - 1))) <> phi (fst (sec phi sigma 0 (i - 1)))) /\
      (forall i, (S j <= i < k)%nat -> sectol < Rabs (snd (sec phi sigma 0 i) - fst (sec phi sigma 0 i)) * dd) /\
      (k = (j + Nat.max 1 fuel)%nat \/ Rabs (snd (sec phi sigma 0 k) - fst (sec phi sigma 0 k)) * dd <= sectol).
  Proof.
    induction fuel as [|fuel IH].
    - intros j x F xF HS HF E. cbn [secant] in E. set (p := fst (sec phi sigma 0 j)) in *. set (c := snd (sec phi sigma 0 j)) in *.
      assert (EE : - rdot n F d = phi c) by (unfold phi, slope; rewrite HF, (same_force _ _ HS); reflexivity). rewrite EE in E.
      destruct (rdiv (phi c) (phi p - phi c)) as [q| |] eqn:EQ; try discriminate. cbn [obind] in E. apply rdiv_ok in EQ. destruct EQ as [Q0 ->]. injection E as <-. cbn [fst snd].
      assert (ST : c + (c - p) * (phi c / (phi p - phi c)) = snd (sec phi sigma 0 (S j))).
      { rewrite sec_S. cbn [snd]. fold p c. field. split; lra. }
      exists (S j). split; [lia|]. split.
      { eapply same_trans; [apply same_wrap|]. rewrite <- ST. apply same_move. exact HS. }
      split; [reflexivity|]. split; [|split; [intros; lia|left; lia]]. intros i Hi. replace i with (S j) by lia. cbn [Nat.sub]. rewrite Nat.sub_0_r. fold p c. lra.
    - intros j x F xF HS HF E. cbn [secant] in E. set (p := fst (sec phi sigma 0 j)) in *. set (c := snd (sec phi sigma 0 j)) in *.
      assert (EE : - rdot n F d = phi c) by (unfold phi, slope; rewrite HF, (same_force _ _ HS); reflexivity). rewrite EE in E.
      destruct (rdiv (phi c) (phi p - phi c)) as [q| |] eqn:EQ; try discriminate. cbn [obind] in E. apply rdiv_ok in EQ. destruct EQ as [Q0 ->].
      assert (ST : c + (c - p) * (phi c / (phi p - phi c)) = snd (sec phi sigma 0 (S j))).
      { rewrite sec_S. cbn [snd]. fold p c. field. split; lra. }
      assert (DF : (c - p) * (phi c / (phi p - phi c)) = snd (sec phi sigma 0 (S j)) - fst (sec phi sigma 0 (S j))) by (rewrite <- ST, sec_S; cbn [fst]; fold c; lra).
      set (x' := wrap (fun i => x i + (c - p) * (phi c / (phi p - phi c)) * d i)) in *.
      assert (HS' : same x' (fun i => x0 i + snd (sec phi sigma 0 (S j)) * d i)).
      { eapply same_trans; [apply same_wrap|]. rewrite <- ST. apply same_move. exact HS. }
      assert (ND : phi (snd (sec phi sigma 0 (S j - 1))) <> phi (fst (sec phi sigma 0 (S j - 1)))) by (cbn [Nat.sub]; rewrite Nat.sub_0_r; fold p c; lra).
      assert (STOP : forall P : Prop, (P \/ Rabs (snd (sec phi sigma 0 (S j)) - fst (sec phi sigma 0 (S j))) * dd <= sectol) -> xF = (x', force x') ->
        exists k, k = S j /\ same (fst xF) (fun i => x0 i + snd (sec phi sigma 0 k) * d i) /\ snd xF = force (fst xF) /\
        (forall i, (S j <= i <= k)%nat -> phi (snd (sec phi sigma 0 (i - 1))) <> phi (fst (sec phi sigma 0 (i - 1)))) /\
        (forall i, (S j <= i < k)%nat -> sectol < Rabs (snd (sec phi sigma 0 i) - fst (sec phi sigma 0 i)) * dd) /\ (P \/ Rabs (snd (sec phi sigma 0 k) - fst (sec phi sigma 0 k)) * dd <= sectol)).
      { intros P HP ->. exists (S j). cbn [fst snd]. split; [reflexivity|]. split; [exact HS'|]. split; [reflexivity|]. split; [|split; [intros; lia|exact HP]].
        intros i Hi. replace i with (S j) by lia. exact ND. }
      destruct fuel as [|f].
      + injection E as <-. destruct (STOP (S j = j + Nat.max 1 1)%nat ltac:(left; lia) eq_refl) as [k [-> R]]. exists (S j). split; [lia|]. exact R.
      + destruct (rlt sectol (Rabs ((c - p) * (phi c / (phi p - phi c))) * dd)) eqn:HL.
        * apply rlt_t in HL. rewrite DF in HL. rewrite DF in E.
          specialize (IH (S j) x' (force x') xF HS' eq_refl).
          replace (fst (sec phi sigma 0 (S j))) with c in * by (rewrite sec_S; reflexivity).
          destruct (IH E) as [k [K1 [K2 [K3 [K4 [K5 K6]]]]]]. exists k. split; [lia|]. split; [exact K2|]. split; [exact K3|]. split; [|split].
          -- intros i Hi. destruct (Nat.eq_dec i (S j)) as [-> | N]; [exact ND|]. apply K4. lia.
          -- intros i Hi. destruct (Nat.eq_dec i (S j)) as [-> | N]; [replace (fst (sec phi sigma 0 (S j))) with c by (rewrite sec_S; reflexivity); exact HL|]. apply K5. lia.
          -- destruct K6 as [K6|K6]; [left; lia|right; exact K6].
        * apply rlt_f in HL. rewrite DF in HL. injection E as <-. destruct (STOP (S j = j + Nat.max 1 (S (S f)))%nat (or_intror HL) eq_refl) as [k [-> R]]. exists (S j). split; [lia|]. exact R.
  Qed.
End Line.

(** states of a run: the stored residual is the force *)
Definition goodn (n : nat) (force : vecR -> vecR) (s : ncg) : Prop := nfrc s = force (npos s) /\ nres s = nfrc s /\ ndelta s = rdot n (nfrc s) (nfrc s).
Lemma nstart_good n force x : goodn n force (nstart n force x).
Proof. split; [reflexivity|]. split; reflexivity. Qed.
Lemma pr_eq n F F' : (rdot n F' F' - rdot n F' F) / rdot n F F = pr n F F'.
Proof. unfold pr. rewrite rdot_sub. reflexivity. Qed.

(** ** C60 *)
(** One iteration: at most six secant steps on the slope of the energy along
    the search direction, started from 0 and sigma, stopped when the last one
    moved no coordinate by more than the tolerance; then the direction of
    Polak and Ribiere, reset to the force when it would be negative and every
    30th step. *)
Theorem C60_step : forall n sigma sectol force wrap iter s s', periodic force wrap -> goodn n force s ->
  nbody n sigma sectol force wrap iter s = Ok s' ->
  let phi := slope n force (npos s) (ndir s) in
  let t := fun j => snd (sec phi sigma 0 j) in
  goodn n force s' /\
  (exists k D, (1 <= k <= 6)%nat /\ sup n (ndir s) D /\ same force (npos s') (fun i => npos s i + t k * ndir s i) /\
     (forall j, (1 <= j < k)%nat -> sectol < Rabs (t j - t (j - 1)%nat) * D) /\ (k = 6%nat \/ Rabs (t k - t (k - 1)%nat) * D <= sectol)) /\
  ndir s' = (if (Z.rem iter 30 =? 0)%Z then nfrc s' else fun i => nfrc s' i + Rmax 0 (pr n (nfrc s) (nfrc s')) * ndir s i).
Proof.
  intros n sigma sectol force wrap iter s s' per [G1 [G2 G3]] E phi t. unfold nbody in E. set (d := ndir s) in *.
  assert (EP : - rdot n (force (wrap (fun i => npos s i + sigma * d i))) d = phi sigma).
  { unfold phi, slope. rewrite (same_force force _ _ (same_wrap force wrap per (fun i => npos s i + sigma * d i))). reflexivity. }
  rewrite EP in E. destruct (secant n sectol force wrap jmax d (maxabs n d) (- sigma) (phi sigma) (npos s) (nfrc s)) as [xF| |] eqn:ES; try discriminate. cbn [obind] in E.
  destruct (rdiv _ (ndelta s)) as [beta| |] eqn:EB; try discriminate. cbn [obind] in E. apply rdiv_ok in EB. destruct EB as [D0 EB].
  unfold c_mod, nreset in E. cbn [Z.eqb obind] in E. injection E as <-. cbn [npos nfrc ndir nres ndelta].
  assert (X0 : same force (npos s) (fun i => npos s i + snd (sec phi sigma 0 0) * d i)). { intros u. f_equal. extensionality i. cbn. lra. }
  destruct (secant_ok n sigma sectol force wrap per jmax d (maxabs n d) (npos s) 0 (npos s) (nfrc s) xF X0 G1) as [k [K1 [K2 [K3 [_ [K5 K6]]]]]].
  { fold phi. cbn [sec fst snd]. replace (0 - sigma) with (- sigma) by lra. exact ES. }
  assert (PV : forall j, (1 <= j)%nat -> fst (sec phi sigma 0 j) = t (j - 1)%nat). { intros [|j] Hj; [lia|]. rewrite sec_S. cbn [fst Nat.sub]. rewrite Nat.sub_0_r. reflexivity. }
  split; [split; [exact K3|split; reflexivity]|]. split.
  - exists k, (maxabs n d). unfold jmax in *. split; [lia|]. split; [apply maxabs_sup|]. split; [exact K2|]. split.
    + intros j Hj. rewrite <- PV by lia. apply K5. lia.
    + rewrite <- PV by lia. destruct K6 as [K6|K6]; [left; lia|right; exact K6].
  - rewrite G3 in EB. rewrite G2, pr_eq in EB. rewrite <- EB. destruct (Z.rem iter 30 =? 0)%Z; [reflexivity|]. cbn [orb]. destruct (rlt 0 beta) eqn:HB; cbn [negb].
    + apply rlt_t in HB. rewrite Rmax_right by lra. reflexivity.
    + apply rlt_f in HB. rewrite Rmax_left by lra. extensionality i. lra.
Qed.
(** Where the energy is a parabola along the search direction the line search
    is exact: the new force is orthogonal to the direction, and the next
    direction is downhill. *)
Lemma sec_affine phi sigma a k : sigma <> 0 -> k <> 0 -> (forall t, phi t = a + k * t) -> forall j, phi (snd (sec phi sigma 0 (S j))) = 0.
Proof.
  intros Hs Hk H j. induction j as [|j IH].
  - cbn. rewrite !H. field. intros Z. assert (Q : k * sigma = 0) by lra. apply Rmult_integral in Q. tauto.
  - rewrite sec_S. cbn [snd]. rewrite IH. replace (0 * _ / _) with 0 by (unfold Rdiv; ring). rewrite Rminus_0_r. exact IH.
Qed.
Theorem C60_exact : forall n sigma sectol force wrap iter s, periodic force wrap -> goodn n force s ->
  forall a k, sigma <> 0 -> 0 <= sectol -> k <> 0 -> 0 < rdot n (nfrc s) (nfrc s) -> (forall t, slope n force (npos s) (ndir s) t = a + k * t) ->
  exists s', nbody n sigma sectol force wrap iter s = Ok s' /\ rdot n (nfrc s') (ndir s) = 0 /\ rdot n (nfrc s') (ndir s') = rdot n (nfrc s') (nfrc s').
Proof.
  intros n sigma sectol force wrap iter s per [G1 [G2 G3]] a k Hs Ht Hk HF HA. set (d := ndir s). set (phi := slope n force (npos s) d) in *.
  assert (EP : forall t, - rdot n (force (wrap (fun i => npos s i + t * d i))) d = phi t).
  { intros t. unfold phi, slope. rewrite (same_force force _ _ (same_wrap force wrap per (fun i => npos s i + t * d i))). reflexivity. }
  assert (E0 : - rdot n (nfrc s) d = phi 0). { unfold phi, slope. rewrite G1. do 2 f_equal. f_equal. extensionality i. lra. }
  assert (ED : exists xF, secant n sectol force wrap jmax d (maxabs n d) (- sigma) (phi sigma) (npos s) (nfrc s) = Ok xF).
  { unfold jmax. cbn [secant]. rewrite E0. unfold rdiv at 1. destruct (Req_EM_T (phi sigma - phi 0) 0) as [Z|Z].
    { exfalso. rewrite !HA in Z. assert (k * sigma = 0) by lra. apply Rmult_integral in H. tauto. }
    cbn [obind]. set (al := - sigma * (phi 0 / (phi sigma - phi 0))).
    destruct (rlt sectol (Rabs al * maxabs n d)) eqn:H1; [|eexists; reflexivity]. apply rlt_t in H1.
    assert (EA : phi al = 0). { unfold al. rewrite !HA in *. field. intros Q. apply Z. lra. }
    rewrite EP, EA. assert (A0 : al <> 0). { intros Q. rewrite Q, Rabs_R0 in H1. lra. }
    assert (P0 : phi 0 <> 0). { intros Q. apply A0. unfold al. rewrite Q. unfold Rdiv. ring. }
    unfold rdiv at 1. destruct (Req_EM_T (phi 0 - 0) 0) as [Z2|Z2]; [lra|]. cbn [obind]. replace (al * (0 / (phi 0 - 0))) with 0 by (unfold Rdiv; ring).
    rewrite Rabs_R0, Rmult_0_l. replace (rlt sectol 0) with false by (symmetry; apply rlt_f; lra). eexists. reflexivity. }
  destruct ED as [xF EX].
  assert (EB : exists s', nbody n sigma sectol force wrap iter s = Ok s').
  { unfold nbody. fold d. rewrite EP, EX. cbn [obind]. unfold rdiv. rewrite G3. destruct (Req_EM_T _ 0) as [Z|Z]; [lra|]. cbn [obind]. unfold c_mod, nreset. cbn [Z.eqb obind]. eexists. reflexivity. }
  destruct EB as [s' EB]. exists s'. split; [exact EB|].
  destruct (C60_step n sigma sectol force wrap iter s s' per (conj G1 (conj G2 G3)) EB) as [[P1 _] [[j [D [J1 [_ [J2 _]]]]] PD]]. fold d phi in J2, PD.
  assert (O : rdot n (nfrc s') d = 0).
  { rewrite P1, (same_force force _ _ J2). destruct j as [|j]; [lia|]. pose proof (sec_affine phi sigma a k Hs Hk HA j) as Q. unfold phi at 1, slope in Q. lra. }
  split; [exact O|]. rewrite PD. destruct (Z.rem iter 30 =? 0)%Z; [reflexivity|]. rewrite rdot_add, rdot_scale, O. lra.
Qed.

(** *** Quadratic energies *)
Definition mapply (n : nat) (A : nat -> nat -> R) (v : vecR) : vecR := fun i => rsum n (fun j => A i j * v j).
Record quadratic (n : nat) (A : nat -> nat -> R) (b : vecR) (force : vecR -> vecR) : Prop := Q {
  q_sym : forall i j, A i j = A j i;
  q_pos : forall v, 0 < rdot n v v -> 0 < rdot n v (mapply n A v);
  q_force : forall x i, (i < n)%nat -> force x i = b i - mapply n A x i }.
Definition energy (n : nat) (A : nat -> nat -> R) (b x : vecR) : R := rdot n x (mapply n A x) / 2 - rdot n b x.
(** a run of K steps, no force vanishing *)
Definition cgrun (n : nat) sigma sectol force (st : nat -> ncg) (K : nat) : Prop :=
  (exists x, st O = nstart n force x) /\ (forall k, (k < K)%nat -> nbody n sigma sectol force (fun x => x) (2 + Z.of_nat k) (st k) = Ok (st (S k))) /\
  (forall k, (k <= K)%nat -> 0 < rdot n (nfrc (st k)) (nfrc (st k))).

Section Quad.
  Variables (n : nat) (A : nat -> nat -> R) (b : vecR) (force : vecR -> vecR) (sigma sectol : R).
  Hypothesis HQ : quadratic n A b force.
  Notation MV := (mapply n A).
  Lemma mapply_lin x d t i : MV (fun j => x j + t * d j) i = MV x i + t * MV d i.
  Proof. unfold mapply. rewrite <- rsum_scale, <- rsum_add. apply rsum_ext. intros. ring. Qed.
  Lemma AD_sym u v : rdot n u (MV v) = rdot n v (MV u).
  Proof.
    unfold rdot, mapply. rewrite (rsum_ext n _ (fun i => rsum n (fun j => u i * (A i j * v j)))) by (intros; symmetry; apply rsum_scale).
    rewrite rsum_swap. apply rsum_ext. intros i Hi. rewrite <- rsum_scale. apply rsum_ext. intros j Hj. rewrite (q_sym _ _ _ _ HQ i j). ring.
  Qed.
  Lemma force_lin x d t i : (i < n)%nat -> force (fun j => x j + t * d j) i = force x i - t * MV d i.
  Proof. intros Hi. rewrite !(q_force _ _ _ _ HQ) by exact Hi. rewrite mapply_lin. ring. Qed.
  Lemma slope_quad x d t : slope n force x d t = - rdot n (force x) d + rdot n d (MV d) * t.
  Proof.
    unfold slope. rewrite (rdot_comm n _ d), (rdot_ext n d d _ (fun i => force x i - t * MV d i) (fun _ _ => eq_refl) (fun i Hi => force_lin x d t i Hi)).
    rewrite rdot_sub, rdot_scale, (rdot_comm n d (force x)). ring.
  Qed.
  Lemma energy_line x d t : energy n A b (fun j => x j + t * d j) = energy n A b x - t * rdot n (force x) d + t * t / 2 * rdot n d (MV d).
  Proof.
    unfold energy. rewrite (rdot_ext n _ (fun j => x j + t * d j) (MV (fun j => x j + t * d j)) (fun i => MV x i + t * MV d i) (fun _ _ => eq_refl) (fun i _ => mapply_lin x d t i)).
    rewrite rdot_add, rdot_scale, rdot_add, rdot_scale. rewrite !(rdot_comm n (fun j => _ + _)), !rdot_add, !rdot_scale. rewrite (rdot_comm n (MV x) x), (rdot_comm n (MV x) d), (rdot_comm n (MV d) x), (rdot_comm n (MV d) d).
    rewrite (AD_sym d x). rewrite (rdot_comm n (force x) d), (rdot_ext n d d (force x) (fun i => b i - MV x i) (fun _ _ => eq_refl) (fun i Hi => q_force _ _ _ _ HQ x i Hi)), rdot_sub, (AD_sym d x), (rdot_comm n d b). field.
  Qed.
  Hypothesis (Hs : sigma <> 0) (Ht : 0 <= sectol).
  Variables (st : nat -> ncg) (K : nat).
  Hypothesis (HR : cgrun n sigma sectol force st K) (HK : (K <= 28)%nat).
  Notation r k := (nfrc (st k)).
  Notation d k := (ndir (st k)).
  Lemma per_id : periodic force (fun x => x).
  Proof. intros x u. reflexivity. Qed.
  Lemma run_good k : (k <= K)%nat -> goodn n force (st k).
  Proof.
    destruct HR as [[x H0] [H1 _]]. induction k as [|k IH]; intros Hk; [rewrite H0; apply nstart_good|].
    exact (proj1 (C60_step n sigma sectol force _ _ _ _ per_id (IH ltac:(lia)) (H1 k ltac:(lia)))).
  Qed.
  (** one step of conjugate gradients *)
  Lemma cg_step k : (k < K)%nat -> 0 < rdot n (d k) (d k) -> exists t be,
    (forall i, (i < n)%nat -> r (S k) i = r k i - t * MV (d k) i) /\ rdot n (r (S k)) (d k) = 0 /\
    (forall i, d (S k) i = r (S k) i + be * d k i) /\ be = Rmax 0 (pr n (r k) (r (S k))) /\ same force (npos (st (S k))) (fun i => npos (st k) i + t * d k i).
  Proof.
    intros Hk Hd. pose proof (run_good k ltac:(lia)) as G. destruct HR as [_ [H1 H2]].
    destruct (C60_step n sigma sectol force _ _ _ _ per_id G (H1 k Hk)) as [[G1 _] [[j [D [_ [_ [J _]]]]] HD]].
    destruct (C60_exact n sigma sectol force _ (2 + Z.of_nat k) _ per_id G (- rdot n (r k) (d k)) (rdot n (d k) (MV (d k))) Hs Ht) as [s' [E [O _]]].
    { pose proof (q_pos _ _ _ _ HQ (d k) Hd). lra. }
    { apply H2. lia. }
    { intros t. rewrite slope_quad. rewrite (proj1 G). reflexivity. }
    rewrite (H1 k Hk) in E. injection E as <-.
    eexists _, _. split; [|split; [exact O|split; [|split; [reflexivity|exact J]]]].
    - intros i Hi. rewrite G1, (same_force force _ _ J), force_lin by exact Hi. rewrite (proj1 G). reflexivity.
    - intros i. rewrite HD. replace (Z.rem (2 + Z.of_nat k) 30 =? 0)%Z with false; [reflexivity|]. rewrite Z.rem_small by lia. lia.
  Qed.
  Definition conj_upto (k : nat) : Prop := forall j, (j <= k)%nat -> rdot n (r j) (d j) = rdot n (r j) (r j) /\
    forall i, (i < j)%nat -> rdot n (r j) (r i) = 0 /\ rdot n (r j) (d i) = 0 /\ rdot n (d j) (MV (d i)) = 0.
  Lemma dpos k : (k <= K)%nat -> rdot n (r k) (d k) = rdot n (r k) (r k) -> 0 < rdot n (d k) (d k).
  Proof.
    intros Hk E. destruct HR as [_ [_ H2]]. specialize (H2 k Hk). destruct (Rle_lt_or_eq_dec 0 _ (rdot_nonneg n (d k))) as [L|L]; [exact L|]. exfalso.
    assert (rdot n (r k) (d k) = 0). { apply rsum_zero. intros i Hi. rewrite (rdot_zero n (d k) (eq_sym L) i Hi). lra. } lra.
  Qed.
  Lemma conj_all k : (k <= K)%nat -> conj_upto k.
  Proof.
    induction k as [|k IH]; intros Hk.
    - intros j Hj. replace j with O by lia. split; [|intros; lia]. destruct HR as [[x ->] _]. reflexivity.
    - specialize (IH ltac:(lia)).  pose proof (proj2 (proj2 HR)) as RP.
      destruct (cg_step k ltac:(lia) (dpos k ltac:(lia) (proj1 (IH k (le_n k))))) as [t [be [R1 [O [D1 [EB _]]]]]].
      assert (RD : forall u, rdot n u (r (S k)) = rdot n u (r k) - t * rdot n u (MV (d k))).
      { intros u. rewrite (rdot_ext n u u _ _ (fun _ _ => eq_refl) R1), rdot_sub, rdot_scale. reflexivity. }
      pose proof (dpos k ltac:(lia) (proj1 (IH k (le_n k)))) as DP. pose proof (q_pos _ _ _ _ HQ (d k) DP) as AP.
      assert (TK : t * rdot n (d k) (MV (d k)) = rdot n (r k) (r k)).
      { rewrite (rdot_comm n (r (S k)) (d k)), RD, (rdot_comm n (d k) (r k)), (proj1 (IH k (le_n k))) in O. lra. }
      assert (T0 : t <> 0). { intros Z. rewrite Z in TK. specialize (RP k ltac:(lia)). lra. }
      (* new residual against old directions *)
      assert (RDi : forall i, (i <= k)%nat -> rdot n (r (S k)) (d i) = 0).
      { intros i Hi. destruct (Nat.eq_dec i k) as [-> | N]; [exact O|]. rewrite (rdot_comm n (r (S k))), RD, (rdot_comm n (d i) (r k)).
        destruct (proj2 (IH k (le_n k)) i ltac:(lia)) as [_ [-> Q]]. rewrite AD_sym, Q. lra. }
      assert (RRi : forall i, (i <= k)%nat -> rdot n (r (S k)) (r i) = 0).
      { intros i Hi. destruct i as [|i].
        - pose proof (RDi 0%nat ltac:(lia)) as Q. destruct HR as [[x E0] _]. rewrite E0 in Q |- *. exact Q.
        - destruct (cg_step i ltac:(lia) (dpos i ltac:(lia) (proj1 (IH i ltac:(lia))))) as [t' [be' [_ [_ [D' _]]]]].
          pose proof (RDi (S i) Hi) as Q. rewrite (rdot_ext n _ (r (S k)) (d (S i)) (fun l => r (S i) l + be' * d i l) (fun _ _ => eq_refl) (fun l _ => D' l)), rdot_add, rdot_scale, (RDi i ltac:(lia)) in Q. lra. }
      assert (BE : be = rdot n (r (S k)) (r (S k)) / rdot n (r k) (r k)).
      { rewrite EB, <- pr_eq, (RRi k (le_n k)), Rminus_0_r. apply Rmax_right. apply Rlt_le. apply Rdiv_lt_0_compat; apply RP; lia. }
      assert (DDot : forall u, rdot n u (d (S k)) = rdot n u (r (S k)) + be * rdot n u (d k)).
      { intros u. rewrite (rdot_ext n u u _ _ (fun _ _ => eq_refl) (fun i _ => D1 i)), rdot_add, rdot_scale. reflexivity. }
      intros j Hj. destruct (Nat.eq_dec j (S k)) as [-> | N]; [|apply IH; lia]. split.
      + rewrite DDot, O. lra.
      + intros i Hi. split; [apply RRi; lia|]. split; [apply RDi; lia|].
        rewrite (rdot_comm n (d (S k))), DDot, (rdot_comm n _ (r (S k))), (rdot_comm n _ (d k)).
        destruct (Nat.eq_dec i k) as [-> | N].
        * assert (Q : rdot n (r (S k)) (MV (d k)) * t = - rdot n (r (S k)) (r (S k))).
          { pose proof (RD (r (S k))) as Q. rewrite (RRi k (le_n k)) in Q. lra. }
          specialize (RP k ltac:(lia)). rewrite BE. apply (Rmult_eq_reg_r t); [|exact T0]. rewrite Rmult_plus_distr_r, Q, Rmult_0_l.
          replace (rdot n (r (S k)) (r (S k)) / rdot n (r k) (r k) * rdot n (d k) (MV (d k)) * t) with (rdot n (r (S k)) (r (S k)) / rdot n (r k) (r k) * (t * rdot n (d k) (MV (d k)))) by ring.
          rewrite TK. field. lra.
        * destruct (proj2 (IH k (le_n k)) i ltac:(lia)) as [_ [_ ->]].
          destruct (cg_step i ltac:(lia) (dpos i ltac:(lia) (proj1 (IH i ltac:(lia))))) as [ti [bi [Ri _]]].
          assert (Qi : rdot n (r (S k)) (r (S i)) = rdot n (r (S k)) (r i) - ti * rdot n (r (S k)) (MV (d i))).
          { rewrite (rdot_ext n _ (r (S k)) (r (S i)) _ (fun _ _ => eq_refl) Ri), rdot_sub, rdot_scale. reflexivity. }
          rewrite (RRi i ltac:(lia)), (RRi (S i) ltac:(lia)) in Qi.
          assert (Ti : ti <> 0).
          { intros Z. specialize (RP i ltac:(lia)). pose proof (proj2 (IH (S i) ltac:(lia)) i ltac:(lia)) as [W _].
            assert (Q2 : rdot n (r i) (r (S i)) = rdot n (r i) (r i) - ti * rdot n (r i) (MV (d i))) by (rewrite (rdot_ext n (r i) (r i) (r (S i)) _ (fun _ _ => eq_refl) Ri), rdot_sub, rdot_scale; reflexivity).
            rewrite (rdot_comm n (r i) (r (S i))), W, Z in Q2. lra. }
          assert (Q3 : rdot n (r (S k)) (MV (d i)) = 0). { apply (Rmult_eq_reg_l ti); [lra|exact Ti]. } rewrite Q3. lra.
  Qed.
End Quad.

(** On a positive definite quadratic energy the first 29 iterations are the
    conjugate gradient method: forces mutually orthogonal, directions mutually
    conjugate, each step to the minimum on its line. *)
Theorem C60_conjugate : forall n A b force sigma sectol st K, quadratic n A b force -> sigma <> 0 -> 0 <= sectol -> cgrun n sigma sectol force st K -> (K <= 28)%nat ->
  (forall i j, (i < j <= K)%nat -> rdot n (nfrc (st i)) (nfrc (st j)) = 0 /\ rdot n (ndir (st i)) (mapply n A (ndir (st j))) = 0) /\
  (forall k t, (k < K)%nat -> energy n A b (npos (st (S k))) <= energy n A b (fun i => npos (st (S k)) i + t * ndir (st k) i)).
Proof.
  intros n A b force sigma sectol st K HQ Hs Ht HR HK. pose proof (conj_all n A b force sigma sectol HQ Hs Ht st K HR HK K (le_n K)) as C. split.
  - intros i j Hij. destruct (proj2 (C j ltac:(lia)) i ltac:(lia)) as [C1 [_ C2]]. split; [rewrite rdot_comm; exact C1|]. rewrite (AD_sym n A b force HQ). exact C2.
  - intros k t Hk. rewrite (energy_line n A b force HQ). rewrite <- (proj1 (run_good n force sigma sectol st K HR HK (S k) Hk)), (proj1 (proj2 (proj2 (C (S k) ltac:(lia)) k ltac:(lia)))).
    pose proof (q_pos _ _ _ _ HQ (ndir (st k)) (dpos n force sigma sectol st K HR k ltac:(lia) (proj1 (C k ltac:(lia))))) as P.
    pose proof (Rle_0_sqr t) as Q. unfold Rsqr in Q. pose proof (Rmult_le_pos _ _ Q (Rlt_le _ _ P)). lra.
Qed.

(** orthogonal nonzero vectors: at most n of them *)
Section Bessel.
  Variables (n K : nat) (v : nat -> vecR).
  Hypothesis (Ho : forall i j, (i < j <= K)%nat -> rdot n (v i) (v j) = 0) (Hp : forall k, (k <= K)%nat -> 0 < rdot n (v k) (v k)).
  Fixpoint rem (e : vecR) (m : nat) : vecR := match m with O => e | S m => fun i => rem e m i - rdot n e (v m) / rdot n (v m) (v m) * v m i end.
  Lemma rem_dot e m : (m <= S K)%nat -> forall k, (m <= k <= K)%nat -> rdot n (v k) (rem e m) = rdot n e (v k).
  Proof.
    induction m as [|m IH]; intros Hm k Hk; [apply rdot_comm|]. cbn [rem]. rewrite rdot_sub, rdot_scale, (IH ltac:(lia) k ltac:(lia)), (rdot_comm n (v k) (v m)), (Ho m k ltac:(lia)). lra.
  Qed.
  Lemma rem_len e m : (m <= S K)%nat -> rdot n (rem e m) (rem e m) = rdot n e e - rsum m (fun k => rdot n e (v k) * rdot n e (v k) / rdot n (v k) (v k)).
  Proof.
    induction m as [|m IH]; intros Hm; [cbn; lra|].
    cbn [rem rsum]. rewrite rdot_sub, rdot_scale, !(rdot_comm n (fun i => _ - _)), !rdot_sub, !rdot_scale, (IH ltac:(lia)), (rdot_comm n (rem e m) (v m)), (rem_dot e m ltac:(lia) m ltac:(lia)).
    pose proof (Hp m ltac:(lia)). field. lra.
  Qed.
  Lemma rsum_le k f g : (forall i, (i < k)%nat -> f i <= g i) -> rsum k f <= rsum k g.
  Proof. induction k as [|k IH]; intros H; cbn; [lra|]. pose proof (H k ltac:(lia)). pose proof (IH (fun i Hi => H i ltac:(lia))). lra. Qed.
  Lemma rsum_const k c : rsum k (fun _ => c) = INR k * c.
  Proof. induction k as [|k IH]; [cbn; lra|]. rewrite S_INR. cbn [rsum]. rewrite IH. lra. Qed.
  Lemma bessel : (S K <= n)%nat.
  Proof.
    set (e := fun (i : nat) => (fun k => if Nat.eqb i k then 1 else 0) : vecR).
    assert (E : forall i u, (i < n)%nat -> rdot n (e i) u = u i). { intros i u Hi. unfold rdot, e. apply rsum_delta. exact Hi. }
    assert (B : forall i, (i < n)%nat -> rsum (S K) (fun k => v k i * v k i / rdot n (v k) (v k)) <= 1).
    { intros i Hi. pose proof (rdot_nonneg n (rem (e i) (S K))) as P. rewrite (rem_len (e i) (S K) (le_n _)), E in P by exact Hi. unfold e in P at 1. rewrite Nat.eqb_refl in P.
      rewrite (rsum_ext (S K) _ (fun k => v k i * v k i / rdot n (v k) (v k))) in P; [lra|]. intros k _. rewrite E by exact Hi. reflexivity. }
    pose proof (rsum_le n _ _ B) as L. rewrite rsum_const, rsum_swap in L.
    rewrite (rsum_ext (S K) _ (fun _ => 1)), rsum_const in L; [apply INR_le; lra|].
    intros k Hk. rewrite (rsum_ext n _ (fun i => / rdot n (v k) (v k) * (v k i * v k i))) by (intros; unfold Rdiv; ring). rewrite rsum_scale. fold (rdot n (v k) (v k)). apply Rinv_l. pose proof (Hp k ltac:(lia)). lra.
  Qed.
End Bessel.
(** so a quadratic energy of up to 28 degrees of freedom is relaxed after at
    most as many steps *)
Theorem C60_converges : forall n A b force sigma sectol x, quadratic n A b force -> sigma <> 0 -> 0 <= sectol -> (n <= 28)%nat ->
  exists k s, (k <= n)%nat /\ steps (nbody n sigma sectol force (fun x => x)) k 2 (nstart n force x) = Ok s /\ forall i, (i < n)%nat -> nfrc s i = 0.
Proof.
  intros n A b force sigma sectol x HQ Hs Ht Hn. set (bd := nbody n sigma sectol force (fun x => x)).
  assert (P : forall K, (K <= n)%nat -> (exists k s, (k <= K)%nat /\ steps bd k 2 (nstart n force x) = Ok s /\ rdot n (nfrc s) (nfrc s) = 0) \/
     exists st, cgrun n sigma sectol force st K /\ forall k, (k <= K)%nat -> steps bd k 2 (nstart n force x) = Ok (st k)).
  { induction K as [|K IH]; intros HK.
    - destruct (Rle_lt_or_eq_dec 0 _ (rdot_nonneg n (force x))) as [L|L].
      + right. exists (fun _ => nstart n force x). split; [split; [exists x; reflexivity|split; [intros; lia|]]|]; [intros; exact L|]. intros k Hk. replace k with O by lia. reflexivity.
      + left. exists O, (nstart n force x). split; [lia|]. split; [reflexivity|]. symmetry. exact L.
    - destruct (IH ltac:(lia)) as [[k [s [H1 H2]]]|[st [HR HS]]]; [left; exists k, s; split; [lia|exact H2]|].
      pose proof (conj_all n A b force sigma sectol HQ Hs Ht st K HR ltac:(lia) K (le_n K)) as C. pose proof (run_good n force sigma sectol st K HR ltac:(lia) K (le_n K)) as G.
      pose proof (dpos n force sigma sectol st K HR K (le_n K) (proj1 (C K (le_n K)))) as D. pose proof (q_pos _ _ _ _ HQ _ D) as AP.
      destruct (C60_exact n sigma sectol force _ (2 + Z.of_nat K) _ (per_id force) G (- rdot n (nfrc (st K)) (ndir (st K))) (rdot n (ndir (st K)) (mapply n A (ndir (st K)))) Hs Ht ltac:(lra)) as [s' [E _]].
      { apply (proj2 (proj2 HR)). lia. }
      { intros t. rewrite (slope_quad n A b force HQ), (proj1 G). reflexivity. }
      assert (ES : steps bd (S K) 2 (nstart n force x) = Ok s'). { cbn [steps]. rewrite (HS K (le_n K)). cbn [obind]. exact E. }
      destruct (Rle_lt_or_eq_dec 0 _ (rdot_nonneg n (nfrc s'))) as [L|L]; [|left; exists (S K), s'; split; [lia|split; [exact ES|symmetry; exact L]]].
      right. exists (fun k => if Nat.leb k K then st k else s'). destruct HR as [R0 [R1 R2]].
      split; [split; [exact R0|split]|].
      + intros k Hk. rewrite (proj2 (Nat.leb_le k K)) by lia. destruct (Nat.leb_spec (S k) K); [apply R1; lia|]. replace k with K by lia. exact E.
      + intros k Hk. destruct (Nat.leb_spec k K); [apply R2; lia|exact L].
      + intros k Hk. destruct (Nat.leb_spec k K); [apply HS; lia|]. replace k with (S K) by lia. exact ES. }
  destruct (P n (le_n n)) as [[k [s [H1 [H2 H3]]]]|[st [HR HS]]].
  - exists k, s. split; [exact H1|]. split; [exact H2|]. apply rdot_zero. exact H3.
  - exfalso. assert (S n <= n)%nat; [|lia]. apply (bessel n n (fun k => nfrc (st k))); [|exact (proj2 (proj2 HR))].
    intros i j Hij. apply (proj1 (C60_conjugate n A b force sigma sectol st n HQ Hs Ht HR Hn)). exact Hij.
Qed.

(** A restart file of this method gives back the state. *)
Lemma steps_good n sigma sectol force wrap : periodic force wrap -> forall j first a b, goodn n force a -> steps (nbody n sigma sectol force wrap) j first a = Ok b -> goodn n force b.
Proof.
  intros per. induction j as [|j IH]; intros first a b G J; cbn [steps] in J; [injection J as <-; exact G|].
  destruct (steps (nbody n sigma sectol force wrap) j first a) as [c| |] eqn:E; try discriminate. cbn [obind] in J. exact (proj1 (C60_step _ _ _ _ _ _ _ _ per (IH _ _ _ G E) J)).
Qed.
Theorem C60_continued : forall n sigma sectol force wrap unconverged niter fq evs x r l b, periodic force wrap ->
  call (nbody n sigma sectol force wrap) unconverged niter true fq evs new_run (nstart n force x) = Ok r -> In (l, b) (r_files r) ->
  nrestart n force (nprint b) = Ok b /\
  exists j, l = (1 + Z.of_nat j)%Z /\ forall k, steps (nbody n sigma sectol force wrap) k (l + 1) b = steps (nbody n sigma sectol force wrap) (j + k) 2 (nstart n force x).
Proof.
  intros n sigma sectol force wrap unc niter fq evs x r l b per EC Hin.
  destruct (C58_new_run _ _ _ _ _ _ _ _ _ EC) as [k [_ [_ [_ [HF _]]]]]. destruct (HF l b Hin) as [j [_ [-> J]]]. split.
  - destruct (steps_good _ _ _ _ _ per _ _ _ _ (nstart_good n force x) J) as [G1 [G2 G3]]. unfold nrestart, nprint. cbn [fst snd]. destruct b as [p f d rs dl]. cbn [npos nfrc ndir nres ndelta] in *. subst. reflexivity.
  - exists j. split; [reflexivity|]. intros k0. rewrite <- (steps_app _ j 2 _ b J k0). f_equal. lia.
Qed.

(** *** What fails *)
(** A secant iteration finds a zero of the slope, also a maximum: from an
    energy that curves down the step goes up, to the top, where the forces
    vanish and the loop ends as converged. *)
Theorem C60_downhill_refuted : exists (force : vecR -> vecR) x s',
  (forall u, force u O = - (- u O)) /\ nbody 1 (1 / 2) (1 / 100) force (fun u => u) 2 (nstart 1 force x) = Ok s' /\
  - (x O * x O) / 2 < - (npos s' O * npos s' O) / 2 /\ nfrc s' O = 0.
Proof.
  set (f := fun (u : vecR) => u). set (x := (fun _ => 1) : vecR).
  destruct (C60_exact 1 (1 / 2) (1 / 100) f (fun u => u) 2 (nstart 1 f x) (per_id f) (nstart_good 1 f x) (-1) (-1)) as [s' [E [O _]]]; try lra.
  { unfold rdot, nstart, f, x. cbn. lra. }
  { intros t. unfold slope, rdot, nstart, f, x. cbn. lra. }
  exists f, x, s'. split; [intros; unfold f; lra|]. split; [exact E|].
  pose proof (proj1 (C60_step 1 (1 / 2) (1 / 100) f _ 2 _ s' (per_id f) (nstart_good 1 f x) E)) as [G _].
  unfold rdot, nstart, f, x in O. cbn in O. assert (Z : nfrc s' 0%nat = 0) by lra. split; [|exact Z].
  rewrite G in Z. unfold f in Z. rewrite Z. unfold x. lra.
Qed.
(** Along a direction in which the force does not change the two slopes are
    equal and the step length is a division by zero: the positions become
    infinite or not-a-number. *)
Theorem C60_uniform_refuted : exists (force : vecR -> vecR) x, 0 < rdot 1 (force x) (force x) /\ nbody 1 (1 / 2) (1 / 100) force (fun u => u) 2 (nstart 1 force x) = Exit.
Proof.
  exists (fun _ _ => 1), (fun _ => 0). split; [unfold rdot; cbn; lra|]. unfold nbody, nstart, jmax. cbn [npos nfrc ndir nres ndelta secant]. unfold rdiv at 1.
  destruct (Req_EM_T _ 0) as [Z|Z]; [reflexivity|]. exfalso. apply Z. ring.
Qed.
(** Reading the restart file of another method: the search direction is
    memory that was never written. *)
Theorem C60_other_method_refuted : exists n force f, nrestart n force f = UB.
Proof. exists 1%nat, (fun x => x), ((fun _ => 0), None). reflexivity. Qed.

(** *** Examples *)
(** a periodic force and wrapping into the unit cell *)
Lemma cos_nat x k : cos (x + 2 * INR k * PI) = cos x.
Proof. induction k as [|k IH]; [cbn; f_equal; lra|]. rewrite S_INR. replace (x + 2 * (INR k + 1) * PI) with ((x + 2 * INR k * PI) + 2 * PI) by ring. rewrite cos_plus, cos_2PI, sin_2PI, IH. lra. Qed.
Lemma cos_Z x z : cos (x + 2 * IZR z * PI) = cos x.
Proof.
  destruct (Z_le_gt_dec 0 z) as [H|H].
  - rewrite <- (Z2Nat.id z H), <- INR_IZR_INZ. apply cos_nat.
  - rewrite <- (cos_nat (x + 2 * IZR z * PI) (Z.to_nat (- z))). f_equal. rewrite INR_IZR_INZ, Z2Nat.id by lia. rewrite opp_IZR. ring.
Qed.
Example C60_step_example : periodic (fun x i => cos (2 * PI * x i)) (fun x i => x i - IZR (Int_part (x i))).
Proof.
  intros x u. extensionality i. rewrite <- (cos_Z (2 * PI * (x i - IZR (Int_part (x i)) + u i)) (Int_part (x i))). f_equal. ring.
Qed.
(** two coupled springs *)
Definition ex_A (i j : nat) : R := if Nat.eqb i j then 2 else 1.
Example C60_converges_example : let force := fun (x : vecR) i => 1 - mapply 2 ex_A x i in
  quadratic 2 ex_A (fun _ => 1) force /\ 0 < rdot 2 (force (fun i => INR i)) (force (fun i => INR i)).
Proof.
  cbv zeta. split.
  - constructor.
    + intros i j. unfold ex_A. rewrite Nat.eqb_sym. reflexivity.
    + intros v. unfold rdot, mapply, ex_A. cbn. intros H. pose proof (Rle_0_sqr (v 0%nat + v 1%nat)) as Q. unfold Rsqr in Q. lra.
    + reflexivity.
  - unfold rdot, mapply, ex_A. cbn. lra.
Qed.
Example C60_continued_example : exists r, call (nbody 1 (1 / 2) (1 / 100) (fun x i => - x i) (fun x => x)) (fun _ => true) 1 true 1 [(true, false)] new_run (nstart 1 (fun x i => - x i) (fun _ => 1)) = Ok r /\
  exists l b, In (l, b) (r_files r) /\ npos b 0%nat = 1.
Proof. eexists. split; [reflexivity|]. eexists _, _. split; [left; reflexivity|]. reflexivity. Qed.
Print Assumptions C60_step.
Print Assumptions C60_exact.
Print Assumptions C60_conjugate.
Print Assumptions C60_converges.
Print Assumptions C60_continued.
Print Assumptions C60_downhill_refuted.
Print Assumptions C60_uniform_refuted.
Print Assumptions C60_other_method_refuted.
