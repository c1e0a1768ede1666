(** Derivatives of the terms of the DFT-D3 energy. *)
From Coq Require Import ZArith Reals List Lia Lra Bool.
From Coquelicot Require Import Coquelicot.
From Verif Require Import CBase Nloc VnlOp VnlLem D3.
Import ListNotations.
Local Open Scope R_scope.

Lemma D_rsum {A} (f : R -> A -> R) (df : A -> R) (l : list A) :
  (forall x, In x l -> is_derive (fun t => f t x) 0 (df x)) ->
  is_derive (fun t => rsum (map (f t) l)) 0 (rsum (map df l)).
Proof.
  induction l as [|x l IH]; intros H; cbn [map ksum].
  - apply (is_derive_const (K := R_AbsRing) (V := R_NormedModule)).
  - apply (is_derive_plus (K := R_AbsRing) (V := R_NormedModule) (fun t => f t x) (fun t => rsum (map (f t) l))).
    + apply H; now left.
    + apply IH. intros y Hy. apply H; now right.
Qed.

Lemma D_val (f : R -> R) (d d' : R) : is_derive f 0 d -> d = d' -> is_derive f 0 d'.
Proof. intros H <-. exact H. Qed.

Lemma D_mult (f g : R -> R) (df dg : R) : is_derive f 0 df -> is_derive g 0 dg ->
  is_derive (fun t => f t * g t) 0 (df * g 0 + f 0 * dg).
Proof.
  intros Hf Hg. apply (is_derive_mult (K := R_AbsRing) f g 0 df dg Hf Hg). intros; apply Rmult_comm.
Qed.

Lemma D_plus (f g : R -> R) (df dg : R) : is_derive f 0 df -> is_derive g 0 dg ->
  is_derive (fun t => f t + g t) 0 (df + dg).
Proof. intros Hf Hg. exact (is_derive_plus (K := R_AbsRing) (V := R_NormedModule) f g 0 df dg Hf Hg). Qed.

Lemma D_comp (F f : R -> R) (dF df : R) : is_derive F (f 0) dF -> is_derive f 0 df ->
  is_derive (fun t => F (f t)) 0 (dF * df).
Proof.
  intros HF Hf. apply (D_val _ (scal df dF)); [exact (is_derive_comp F f 0 dF df HF Hf)|].
  unfold scal; cbn. unfold Hierarchy.mult; cbn. ring.
Qed.

Lemma D_const (c : R) : is_derive (fun _ => c) 0 0.
Proof. apply (is_derive_const (K := R_AbsRing) (V := R_NormedModule)). Qed.

Lemma D_scal (c : R) (f : R -> R) (df : R) : is_derive f 0 df -> is_derive (fun t => c * f t) 0 (c * df).
Proof. intros H. apply (D_val _ (0 * f 0 + c * df)); [|ring]. exact (D_mult (fun _ => c) f 0 df (D_const c) H). Qed.

Lemma D_cont (f : R -> R) (df : R) : is_derive f 0 df -> continuous f 0.
Proof. intros H. apply (ex_derive_continuous (K := R_AbsRing) (V := R_NormedModule)). now exists df. Qed.

(** A strict inequality at 0 holds near 0. *)
Lemma near_lt (f : R -> R) (df c : R) : is_derive f 0 df -> f 0 < c -> locally 0 (fun t => f t < c).
Proof. intros H L. exact (D_cont f df H (fun y => y < c) (open_lt c (f 0) L)). Qed.
Lemma near_gt (f : R -> R) (df c : R) : is_derive f 0 df -> c < f 0 -> locally 0 (fun t => c < f t).
Proof. intros H L. exact (D_cont f df H (fun y => c < y) (open_gt c (f 0) L)). Qed.

Lemma D_sqrt (q : R -> R) (dq : R) : is_derive q 0 dq -> 0 < q 0 ->
  is_derive (fun t => sqrt (q t)) 0 (dq / (2 * sqrt (q 0))).
Proof.
  intros H P. apply (D_val _ (/ (2 * sqrt (q 0)) * dq)); [|unfold Rdiv; ring].
  apply (D_comp sqrt q); [|exact H]. apply is_derive_Reals. apply derivable_pt_lim_sqrt. exact P.
Qed.

(** ** Coordination numbers *)
Lemma D_cn rc r : 0 < r -> is_derive (fun r => 1 / (1 + exp (- K1 * (rc / r - 1)))) r
  (- K1 * rc * exp (- K1 * (rc / r - 1)) / (r * (exp (- K1 * (rc / r - 1)) + 1)) ^ 2).
Proof.
  intros P. pose proof (exp_pos (- K1 * (rc / r - 1))) as E.
  auto_derive.
  - split; [lra|]. split; [unfold Rdiv, Rminus in E; lra|exact I].
  - change (rc * / r + - (1)) with (rc / r - 1). field. split; [lra|]. lra.
Qed.

(** ** Two-body terms *)
Lemma pow_even_nn x k : 0 <= x ^ (2 * k).
Proof. rewrite pow_mult. apply pow_le. apply pow2_ge_0. Qed.

Definition damp (k : nat) (a r0 r : R) : R := 1 / (1 + 6 * (a * (r0 / r)) ^ (2 * k)).
Lemma damp_den k a r0 r : 0 < 1 + 6 * (a * (r0 / r)) ^ (2 * k).
Proof. pose proof (pow_even_nn (a * (r0 / r)) k). lra. Qed.

Lemma D_inv6 (T : R -> R) r dT : is_derive T r dT -> 1 + 6 * T r <> 0 ->
  is_derive (fun r => 1 / (1 + 6 * T r)) r (- (6 * dT) / (1 + 6 * T r) ^ 2).
Proof.
  intros D E. auto_derive.
  - split; [now exists dT|]. split; [exact E|exact I].
  - replace (Derive (fun x => T x) r) with dT by (symmetry; exact (is_derive_unique T r dT D)). field. exact E.
Qed.

Lemma D_damp k a r0 r : 0 < r -> is_derive (damp k a r0) r
  (6 * INR (2 * k) * (a * (r0 / r)) ^ (2 * k) / r * (damp k a r0 r) ^ 2).
Proof.
  intros P. unfold damp.
  assert (D1 : is_derive (fun r => (a * (r0 / r)) ^ (2 * k)) r (- INR (2 * k) * (a * (r0 / r)) ^ (2 * k) / r)).
  { destruct k as [|k].
    - change (2 * 0)%nat with 0%nat. cbn [pow INR]. replace (- 0 * 1 / r) with 0 by (field; lra).
      apply (is_derive_const (K := R_AbsRing) (V := R_NormedModule)).
    - replace (2 * S k)%nat with (S (2 * k + 1)) by lia.
      assert (D0 : is_derive (fun r => a * (r0 / r)) r (- (a * (r0 / r)) / r)).
      { auto_derive; [lra|]. field. lra. }
      pose proof (is_derive_pow _ (S (2 * k + 1)) r _ D0) as D. cbn [Nat.pred] in D.
      replace (- INR (S (2 * k + 1)) * (a * (r0 / r)) ^ S (2 * k + 1) / r)
        with (INR (S (2 * k + 1)) * (- (a * (r0 / r)) / r) * (a * (r0 / r)) ^ (2 * k + 1)); [exact D|].
      rewrite <- tech_pow_Rmult. field. lra. }
  pose proof (damp_den k a r0 r) as E.
  replace (6 * INR (2 * k) * (a * (r0 / r)) ^ (2 * k) / r * (1 / (1 + 6 * (a * (r0 / r)) ^ (2 * k))) ^ 2)
    with (- (6 * (- INR (2 * k) * (a * (r0 / r)) ^ (2 * k) / r)) / (1 + 6 * (a * (r0 / r)) ^ (2 * k)) ^ 2) by (field; lra).
  apply (D_inv6 (fun r => (a * (r0 / r)) ^ (2 * k))); [exact D1|lra].
Qed.

Lemma is_derive_val (f : R -> R) (x d d' : R) : is_derive f x d -> d = d' -> is_derive f x d'.
Proof. intros H <-. exact H. Qed.

Lemma D_two0 (A B : R -> R) c r dA dB : 0 < r -> is_derive A r dA -> is_derive B r dB ->
  is_derive (fun r => 1 / (r ^ 2) ^ 3 * A r + c / ((r ^ 2) ^ 3 * r ^ 2) * B r) r
    (- 6 / ((r ^ 2) ^ 3 * r) * A r + 1 / (r ^ 2) ^ 3 * dA
     - 8 * c / ((r ^ 2) ^ 3 * r ^ 2 * r) * B r + c / ((r ^ 2) ^ 3 * r ^ 2) * dB).
Proof.
  intros P DA DB. auto_derive.
  - assert (N : r <> 0) by lra.
    repeat split; try (now exists dA); try (now exists dB); repeat apply Rmult_integral_contrapositive_currified; lra.
  - replace (Derive (fun x => A x) r) with dA by (symmetry; exact (is_derive_unique A r dA DA)).
    replace (Derive (fun x => B x) r) with dB by (symmetry; exact (is_derive_unique B r dB DB)).
    field. lra.
Qed.

(** The two-body sum of a pair at distance r, without C6. *)
Definition two (rs6 s8 q r0 r : R) : R :=
  1 / (r ^ 2) ^ 3 * damp 7 rs6 r0 r + 3 * s8 * q / ((r ^ 2) ^ 3 * r ^ 2) * damp 8 1 r0 r.

Lemma D_two rs6 s8 q r0 r : 0 < r ->
  let t6 := (rs6 * (r0 / r)) ^ 14 in
  let t8 := (1 * (r0 / r)) ^ 16 in
  let d6 := 1 / (1 + 6 * t6) in
  let d8 := 1 / (1 + 6 * t8) in
  is_derive (two rs6 s8 q r0) r
    (- (6 * d6 / ((r ^ 2) ^ 3 * r) + 4 * (s8 * 6 * q * d8 / ((r ^ 2) ^ 3 * r ^ 2 * r)))
     + (6 * d6 / ((r ^ 2) ^ 3 * r) * 14 * t6 * d6 + 3 * (s8 * 6 * q * d8 / ((r ^ 2) ^ 3 * r ^ 2 * r)) * 16 * t8 * d8)).
Proof.
  intros P t6 t8 d6 d8. unfold two.
  assert (D6 : is_derive (damp 7 rs6 r0) r (6 * 14 * t6 / r * d6 ^ 2)).
  { pose proof (D_damp 7 rs6 r0 r P) as D. replace (INR (2 * 7)) with 14 in D by (cbn [Nat.mul Nat.add INR]; lra). exact D. }
  assert (D8 : is_derive (damp 8 1 r0) r (6 * 16 * t8 / r * d8 ^ 2)).
  { pose proof (D_damp 8 1 r0 r P) as D. replace (INR (2 * 8)) with 16 in D by (cbn [Nat.mul Nat.add INR]; lra). exact D. }
  assert (V6 : damp 7 rs6 r0 r = d6) by reflexivity.
  assert (V8 : damp 8 1 r0 r = d8) by reflexivity.
  eapply is_derive_val; [exact (D_two0 (damp 7 rs6 r0) (damp 8 1 r0) (3 * s8 * q) r _ _ P D6 D8)|].
  rewrite V6, V8. clearbody d6 d8 t6 t8. field. lra.
Qed.

(** ** Three-body terms *)

(** The angular term of a triangle with sides a, b, c. *)
Definition angr (a b c : R) : R :=
  (3 / 8 * (a ^ 2 + c ^ 2 - b ^ 2) * (a ^ 2 + b ^ 2 - c ^ 2) * (b ^ 2 + c ^ 2 - a ^ 2) / (a ^ 2 * c ^ 2 * b ^ 2) + 1)
  / (a ^ 2 * c ^ 2 * b ^ 2 * (a * b * c)).
Definition dangr (a b c : R) : R :=
  - (3 / 8) * ((a * a) * (a * a) * (a * a) + (a * a) * (a * a) * (b * b + c * c)
    + (a * a) * (3 * (b * b) * (b * b) + 2 * (b * b) * (c * c) + 3 * (c * c) * (c * c))
    - 5 * (b * b - c * c) * (b * b - c * c) * (b * b + c * c)) / (a * ((a * b * c) ^ 2 * (a * b * c) ^ 2 * (a * b * c))).

Lemma D_angr (a b c : R -> R) da db dc : is_derive a 0 da -> is_derive b 0 db -> is_derive c 0 dc ->
  0 < a 0 -> 0 < b 0 -> 0 < c 0 ->
  is_derive (fun t => angr (a t) (b t) (c t)) 0
    (dangr (a 0) (b 0) (c 0) * da + dangr (b 0) (a 0) (c 0) * db + dangr (c 0) (b 0) (a 0) * dc).
Proof.
  intros DA DB DC A B C. unfold angr. auto_derive.
  - assert (a 0 <> 0) by lra. assert (b 0 <> 0) by lra. assert (c 0 <> 0) by lra.
    repeat split; try (now exists da); try (now exists db); try (now exists dc);
      repeat apply Rmult_integral_contrapositive_currified; lra.
  - replace (Derive (fun x => a x) 0) with da by (symmetry; exact (is_derive_unique a 0 da DA)).
    replace (Derive (fun x => b x) 0) with db by (symmetry; exact (is_derive_unique b 0 db DB)).
    replace (Derive (fun x => c x) 0) with dc by (symmetry; exact (is_derive_unique c 0 dc DC)).
    unfold dangr. field. lra.
Qed.

Definition u16 (p : R) : R := ((4 / 3) / Rpower p (1 / 3)) ^ 16.
Lemma u16_pos p : 0 < u16 p.
Proof. apply pow_lt. apply Rdiv_lt_0_compat; [lra|]. apply exp_pos. Qed.

Lemma D_u16 (p : R -> R) dp : is_derive p 0 dp -> 0 < p 0 ->
  is_derive (fun t => u16 (p t)) 0 (- (16 / 3) * u16 (p 0) * (dp / p 0)).
Proof.
  intros D P. unfold u16.
  assert (D1 : is_derive (fun t => Rpower (p t) (1 / 3)) 0 (Rpower (p 0) (1 / 3) * (1 / 3 * (dp / p 0)))).
  { unfold Rpower. auto_derive.
    - split; [now exists dp|]. split; [exact P|exact I].
    - replace (Derive (fun x => p x) 0) with dp by (symmetry; exact (is_derive_unique p 0 dp D)).
      change (1 * / 3) with (1 / 3). field. lra. }
  assert (E : 0 < Rpower (p 0) (1 / 3)) by apply exp_pos.
  assert (D2 : is_derive (fun t => (4 / 3) / Rpower (p t) (1 / 3)) 0
                 (- (1 / 3) * ((4 / 3) / Rpower (p 0) (1 / 3)) * (dp / p 0))).
  { eapply is_derive_val; [apply (is_derive_div (fun _ => 4 / 3) _ 0 0 _ (D_const _) D1); lra|].
    unfold minus, plus, opp; cbn. field. lra. }
  pose proof (is_derive_pow _ 16 0 _ D2) as D3. eapply is_derive_val; [exact D3|].
  replace (INR 16) with 16 by (cbn [INR]; lra). cbn [Nat.pred]. field. lra.
Qed.

Lemma D_damp3 (p : R -> R) dp : is_derive p 0 dp -> 0 < p 0 ->
  is_derive (fun t => 1 / (1 + 6 * u16 (p t))) 0 (32 * u16 (p 0) * (1 / (1 + 6 * u16 (p 0))) ^ 2 * (dp / p 0)).
Proof.
  intros D P. pose proof (u16_pos (p 0)).
  eapply is_derive_val; [apply (D_inv6 (fun t => u16 (p t)) 0 _ (D_u16 p dp D P)); lra|]. field. lra.
Qed.

(** ** C6 *)
Lemma D_weight (ci cj : R -> R) di dj s : is_derive ci 0 di -> is_derive cj 0 dj ->
  is_derive (fun t => weight (ci t) (cj t) s) 0
    (weight (ci 0) (cj 0) s * 2 * K3 * (ci 0 - snd (fst s)) * di + weight (ci 0) (cj 0) s * 2 * K3 * (cj 0 - snd s) * dj).
Proof.
  intros DI DJ. unfold weight, sdist. auto_derive.
  - split; [now exists di|]. split; [now exists dj|exact I].
  - replace (Derive (fun x => ci x) 0) with di by (symmetry; exact (is_derive_unique ci 0 di DI)).
    replace (Derive (fun x => cj x) 0) with dj by (symmetry; exact (is_derive_unique cj 0 dj DJ)).
    cbn [pow].
    set (E := exp _). ring.
Qed.

Definition wsum (all : list sample) (ci cj : R) : R :=
  rsum (map (weight ci cj) (filter (fun s => if Rlt_dec 0 (s_c6 s) then true else false) all)).

Lemma D_c6 (all : list sample) (ci cj : R -> R) di dj : is_derive ci 0 di -> is_derive cj 0 dj ->
  tiny < wsum all (ci 0) (cj 0) ->
  is_derive (fun t => fst (fst (c6_pair all (ci t) (cj t)))) 0
    (snd (fst (c6_pair all (ci 0) (cj 0))) * di + snd (c6_pair all (ci 0) (cj 0)) * dj).
Proof.
  intros DI DJ W0. unfold c6_pair. cbv zeta. fold (wsum all (ci 0) (cj 0)). 
  unfold wsum in *. set (ss := filter _ all) in *.
  assert (T0 : 0 < tiny) by (unfold tiny; apply Rinv_0_lt_compat; apply pow_lt; lra).
  set (W := fun t => rsum (map (weight (ci t) (cj t)) ss)). change (tiny < W 0) in W0.
  set (T := fun t => rsum (map (fun s => weight (ci t) (cj t) s * s_c6 s) ss)).
  pose proof (D_rsum (fun t s => weight (ci t) (cj t) s) _ ss (fun s _ => D_weight ci cj di dj s DI DJ)) as DW.
  assert (DT : is_derive T 0 (rsum (map (fun s =>
    (weight (ci 0) (cj 0) s * 2 * K3 * (ci 0 - snd (fst s)) * s_c6 s * di + weight (ci 0) (cj 0) s * 2 * K3 * (cj 0 - snd s) * s_c6 s * dj)) ss))).
  { apply D_rsum. intros s _. eapply D_val; [apply (D_mult (fun t => weight (ci t) (cj t) s) (fun _ => s_c6 s) _ 0 (D_weight ci cj di dj s DI DJ) (D_const _))|]. cbn beta. ring. }
  rewrite (ksum_add _ _ _ _ _ _ RTheory) in DW, DT.
  rewrite !(ksum_mul_r _ _ _ _ _ _ RTheory) in DW, DT.
  destruct (Rlt_dec tiny (rsum (map (weight (ci 0) (cj 0)) ss))) as [_|n]; [|now contradict n].
  apply (is_derive_ext_loc (fun t => T t / W t)).
  - apply (filter_imp (fun t => tiny < W t)); [|exact (near_gt W _ tiny DW W0)].
    intros t L. unfold W in L. destruct (Rlt_dec tiny (rsum (map (weight (ci t) (cj t)) ss))) as [_|n]; [reflexivity|now contradict n].
  - eapply is_derive_val; [apply (is_derive_div T W 0 _ _ DT DW); lra|].
    cbn [fst snd]. fold (W 0) (T 0). unfold minus, plus, opp, Rdiv; cbn.
    set (X := rsum _). set (Y := rsum _). set (X' := rsum _). set (Y' := rsum _). field. lra.
Qed.

Lemma c6_pos all ci cj : tiny < wsum all ci cj -> 0 < fst (fst (c6_pair all ci cj)).
Proof.
  intros W0. unfold c6_pair. cbv zeta. unfold wsum in W0. set (ss := filter _ all) in *.
  assert (T0 : 0 < tiny) by (unfold tiny; apply Rinv_0_lt_compat; apply pow_lt; lra).
  destruct (Rlt_dec tiny (rsum (map (weight ci cj) ss))) as [_|n]; [|now contradict n]. cbn [fst].
  apply Rdiv_lt_0_compat; [|lra].
  assert (P : List.Forall (fun s => 0 < s_c6 s) ss).
  { apply Forall_forall. intros s Hs. apply filter_In in Hs. destruct Hs as [_ Hs]. now destruct (Rlt_dec 0 (s_c6 s)). }
  assert (N : ss <> []) by (intros E; rewrite E in W0; cbn [map ksum] in W0; lra).
  clearbody ss. clear W0. induction P as [|s ss Ps P IH]; [easy|]. cbn [map ksum].
  assert (0 < weight ci cj s * s_c6 s) by (apply Rmult_lt_0_compat; [apply exp_pos|exact Ps]).
  destruct ss as [|s' ss]; [cbn; lra|]. specialize (IH ltac:(discriminate)). lra.
Qed.

(** A symmetric table gives equal derivatives. *)
Lemma c6_sym all c : Permutation.Permutation (map (fun s : sample => (s_c6 s, snd s, snd (fst s))) all) all ->
  snd (fst (c6_pair all c c)) = snd (c6_pair all c c).
Proof.
  intros P. unfold c6_pair. cbv zeta. set (f := fun s : sample => if Rlt_dec 0 (s_c6 s) then true else false).
  destruct (Rlt_dec _ _) as [HW|_]; [clear HW|reflexivity]. cbn [fst snd]. f_equal.
  assert (Q : Permutation.Permutation (map (fun s : sample => (s_c6 s, snd s, snd (fst s))) (filter f all)) (filter f all)).
  { assert (E : map (fun s : sample => (s_c6 s, snd s, snd (fst s))) (filter f all) = filter f (map (fun s : sample => (s_c6 s, snd s, snd (fst s))) all)).
    { clear. induction all as [|s all IH]; [reflexivity|]. cbn [map filter].
      change (f (s_c6 s, snd s, snd (fst s))) with (f s). destruct (f s); cbn [map]; now rewrite IH. }
    rewrite E. clear E. revert P. generalize (map (fun s : sample => (s_c6 s, snd s, snd (fst s))) all) as l1. intros l1 P.
    induction P as [|x u v P IH|x y u|u v w P1 IH1 P2 IH2]; cbn [filter].
    - constructor.
    - destruct (f x); [exact (Permutation.perm_skip x IH)|exact IH].
    - destruct (f x), (f y); first [apply Permutation.perm_swap|apply Permutation.Permutation_refl].
    - exact (Permutation.perm_trans IH1 IH2). }
  assert (G : forall h : sample -> R, rsum (map h (filter f all)) = rsum (map (fun s : sample => h (s_c6 s, snd s, snd (fst s))) (filter f all))).
  { intros h. rewrite <- (ksum_perm _ _ _ _ _ _ RTheory _ _ (Permutation.Permutation_map h Q)). now rewrite map_map. }
  assert (Wt : forall s, weight c c (s_c6 s, snd s, snd (fst s)) = weight c c s).
  { intros s. unfold weight, sdist. cbn [fst snd]. f_equal. ring. }
  f_equal; f_equal; symmetry; rewrite G; apply ksum_ext; intros s _; rewrite Wt; cbn [fst snd s_c6]; reflexivity.
Qed.
