(** Finite-difference weights (src/initialization.c:2112-2147, src/tools.c:725-735) over the reals.

    Simplification: doubles are real numbers. The [int] product [p*p] of the
    second-derivative weights is checked for overflow. *)
From Coq Require Import Reals Lra List Lia ZArith.
From Verif Require Import CBase.
Import ListNotations.
Local Open Scope R_scope.

(** src/tools.c:728-731: [for (i = lo; ...) acc *= i], [cnt] factors *)
Fixpoint iprod (i : Z) (cnt : nat) (acc : R) : R :=
  match cnt with O => acc | S c => iprod (i + 1) c (acc * IZR i) end.

(** src/tools.c:725-735 *)
Definition fract (n k : nat) : R :=
  let Nr := iprod (Z.of_nat n - Z.of_nat k + 1) k 1 in
  let Dr := iprod (Z.of_nat n + 1) k 1 in
  Nr / Dr.

(** [2*(p%2)-1], src/initialization.c:2115 *)
Definition sgn (p : nat) : R := IZR (2 * (Z.of_nat p mod 2) - 1).

(** src/initialization.c:2113-2116 *)
Definition FDweights_D1 (n p : nat) : R :=
  match p with O => 0 | _ => sgn p * fract n p / INR p end.

(** loop over p of src/initialization.c:2118-2122; entry 0 *)
Fixpoint w2_zero (n : nat) : R :=
  match n with O => 0 | S p => w2_zero p - 2 / (INR (S p) * INR (S p)) end.
(** src/initialization.c:2118-2122 *)
Definition FDweights_D2 (n : nat) : outcome (nat -> R) :=
  if (Z.of_nat n * Z.of_nat n <=? INT_MAX)%Z
  then Ok (fun p => match p with
                    | O => w2_zero n
                    | _ => sgn p * 2 * fract n p / (INR p * INR p)
                    end)
  else UB.

(** [sum_{p=1}^{n} f p] in the order of the C loops *)
Fixpoint psum (f : nat -> R) (n : nat) : R :=
  match n with O => 0 | S m => psum f m + f (S m) end.

(** first-derivative stencil, coefficients of src/initialization.c:2124-2134,
    used as in src/gradVecRoutines.c:318-360 *)
Definition apply_D1 (n : nat) (h : R) (f : R -> R) (x : R) : R :=
  psum (fun p => (f (x + INR p * h) - f (x - INR p * h)) * (FDweights_D1 n p * (1 / h))) n.

(** second-derivative stencil, coefficients of src/initialization.c:2136-2147,
    used as in src/lapVecRoutines.c:168-178 (one axis) *)
Definition apply_D2 (n : nat) (h : R) (f : R -> R) (x : R) : outcome R :=
  do w <- FDweights_D2 n ;
  Ok (w O * (1 / (h * h)) * f x
      + psum (fun p => (f (x + INR p * h) + f (x - INR p * h)) * (w p * (1 / (h * h)))) n).

(** ** Sums *)
Lemma psum_ext f g n : (forall p, (1 <= p <= n)%nat -> f p = g p) -> psum f n = psum g n.
Proof.
  induction n as [|n IH]; intros H; cbn; [reflexivity|].
  rewrite IH by (intros; apply H; lia). rewrite H by lia. reflexivity.
Qed.
Lemma psum_plus f g n : psum (fun p => f p + g p) n = psum f n + psum g n.
Proof. induction n as [|n IH]; cbn; [|rewrite IH]; lra. Qed.
Lemma psum_minus f g n : psum (fun p => f p - g p) n = psum f n - psum g n.
Proof. induction n as [|n IH]; cbn; [|rewrite IH]; lra. Qed.
Lemma psum_scal c f n : psum (fun p => c * f p) n = c * psum f n.
Proof. induction n as [|n IH]; cbn; [|rewrite IH]; lra. Qed.
Lemma psum_zero f n : (forall p, (1 <= p <= n)%nat -> f p = 0) -> psum f n = 0.
Proof.
  induction n as [|n IH]; intros H; cbn; [reflexivity|].
  rewrite IH by (intros; apply H; lia). rewrite H by lia. lra.
Qed.

(** ** The ratio n!^2/((n-p)!(n+p)!) by its recurrence *)
Fixpoint ratio (n p : nat) : R :=
  match p with O => 1 | S q => ratio n q * ((INR n - INR q) / (INR n + INR q + 1)) end.

Lemma iprod_acc c i a : iprod i c a = a * iprod i c 1.
Proof.
  revert i a; induction c as [|c IH]; intros i a; cbn; [lra|].
  rewrite IH, (IH _ (1 * IZR i)). lra.
Qed.
Lemma iprod_cons i c : iprod i (S c) 1 = IZR i * iprod (i + 1) c 1.
Proof. cbn. rewrite iprod_acc. lra. Qed.
Lemma iprod_snoc c i : iprod i (S c) 1 = iprod i c 1 * IZR (i + Z.of_nat c).
Proof.
  revert i; induction c as [|c IH]; intros i.
  - cbn. rewrite Z.add_0_r. lra.
  - rewrite iprod_cons, IH, iprod_cons.
    replace (i + 1 + Z.of_nat c)%Z with (i + Z.of_nat (S c))%Z by lia. lra.
Qed.
Lemma iprod_pos c i : (0 < i)%Z -> 0 < iprod i c 1.
Proof.
  revert i; induction c as [|c IH]; intros i Hi; [cbn; lra|].
  rewrite iprod_cons. apply Rmult_lt_0_compat; [apply IZR_lt; lia|apply IH; lia].
Qed.
Lemma den_pos n p : 0 < INR n + INR p + 1.
Proof. pose proof (pos_INR n); pose proof (pos_INR p); lra. Qed.
Lemma fract_ratio n p : fract n p = ratio n p.
Proof.
  induction p as [|p IH].
  - unfold fract; cbn. field.
  - cbn [ratio]. rewrite <- IH. unfold fract.
    rewrite iprod_cons, iprod_snoc.
    replace (Z.of_nat n - Z.of_nat (S p) + 1)%Z with (Z.of_nat n - Z.of_nat p)%Z by lia.
    replace (Z.of_nat n + 1 + Z.of_nat p)%Z with (Z.of_nat n + Z.of_nat p + 1)%Z by lia.
    pose proof (iprod_pos p (Z.of_nat n + 1) ltac:(lia)) as D.
    pose proof (den_pos n p) as E.
    rewrite !plus_IZR, minus_IZR, <- !INR_IZR_INZ. field. split; lra.
Qed.

Lemma ratio_past n p : (n < p)%nat -> ratio n p = 0.
Proof.
  intros H. induction p as [|p IH]; [lia|]. cbn.
  destruct (Nat.eq_dec n p) as [->|N].
  - replace (INR p - INR p) with 0 by lra. unfold Rdiv. lra.
  - rewrite IH by lia. lra.
Qed.

(** ratio (n+1) p and ratio n p *)
Lemma ratio_up n p :
  INR (S n) * INR (S n) * ratio n p = (INR (S n) * INR (S n) - INR p * INR p) * ratio (S n) p.
Proof.
  induction p as [|p IH].
  - cbn [ratio]. change (INR 0) with 0. lra.
  - cbn [ratio].
    transitivity ((INR (S n) * INR (S n) * ratio n p) * ((INR n - INR p) / (INR n + INR p + 1))); [lra|].
    rewrite IH. rewrite !S_INR in *.
    pose proof (den_pos n p). pose proof (pos_INR n). pose proof (pos_INR p).
    field. split; lra.
Qed.

Lemma sgn_S p : sgn (S p) = - sgn p.
Proof.
  unfold sgn. rewrite <- opp_IZR. f_equal.
  pose proof (Z.mod_pos_bound (Z.of_nat p) 2 ltac:(lia)).
  pose proof (Z.mod_pos_bound (Z.of_nat (S p)) 2 ltac:(lia)).
  pose proof (Z.div_mod (Z.of_nat p) 2 ltac:(lia)).
  pose proof (Z.div_mod (Z.of_nat (S p)) 2 ltac:(lia)). lia.
Qed.

(** partial alternating sums telescope *)
Lemma alt_partial n k :
  psum (fun p => sgn p * ratio (S n) p) k
  = / 2 + sgn k * ratio (S n) k * (INR (S n) - INR k) / (2 * INR (S n)).
Proof.
  pose proof (pos_INR n) as Hn.
  induction k as [|k IH].
  - cbn [psum ratio]. change (INR 0) with 0. rewrite S_INR.
    replace (sgn 0) with (-1) by reflexivity. field. lra.
  - cbn [psum]. rewrite IH, sgn_S. cbn [ratio]. rewrite !S_INR.
    pose proof (pos_INR k). field. split; lra.
Qed.

(** even moments of the alternating ratios *)
Definition mom (N n j : nat) : R := psum (fun p => sgn p * ratio n p * INR p ^ (2 * j)) N.

Lemma mom_trim n N j : (n <= N)%nat -> mom N n j = mom n n j.
Proof.
  intros H. induction N as [|N IH].
  - replace n with O by lia. reflexivity.
  - destruct (Nat.eq_dec n (S N)) as [->|E]; [reflexivity|].
    rewrite <- IH by lia. unfold mom. cbn [psum]. rewrite (ratio_past n (S N)) by lia. lra.
Qed.
Lemma mom0 n : mom (S n) (S n) 0 = / 2.
Proof.
  unfold mom. rewrite (psum_ext _ (fun p => sgn p * ratio (S n) p)).
  - rewrite alt_partial. replace (INR (S n) - INR (S n)) with 0 by lra. unfold Rdiv. lra.
  - intros p _. cbn. lra.
Qed.
Lemma mom_step n j :
  mom (S n) (S n) (S j) = INR (S n) * INR (S n) * (mom (S n) (S n) j - mom n n j).
Proof.
  rewrite <- (mom_trim n (S n) j) by lia. unfold mom.
  rewrite <- psum_minus, <- psum_scal. apply psum_ext; intros p _.
  replace (2 * S j)%nat with (2 + 2 * j)%nat by lia. rewrite pow_add.
  pose proof (ratio_up n p) as R.
  transitivity (sgn p * INR p ^ (2 * j) * (INR p * INR p * ratio (S n) p)); [cbn [pow]; lra|].
  replace (INR p * INR p * ratio (S n) p)
    with (INR (S n) * INR (S n) * (ratio (S n) p - ratio n p)) by lra.
  lra.
Qed.
Lemma mom_zero j n : (1 <= j < n)%nat -> mom n n j = 0.
Proof.
  revert n; induction j as [|j IH]; intros n H; [lia|].
  destruct n as [|n]; [lia|]. rewrite mom_step.
  destruct j as [|j].
  - rewrite mom0. destruct n as [|n]; [lia|]. rewrite mom0. lra.
  - rewrite (IH (S n)), (IH n) by lia. lra.
Qed.

(** the harmonic sum behind the centre weight *)
Lemma sum_inv2_step n :
  psum (fun p => sgn p * ratio (S n) p / (INR p * INR p)) (S n)
  = psum (fun p => sgn p * ratio n p / (INR p * INR p)) n + / (2 * (INR (S n) * INR (S n))).
Proof.
  assert (T : psum (fun p => sgn p * ratio n p / (INR p * INR p)) n
              = psum (fun p => sgn p * ratio n p / (INR p * INR p)) (S n)).
  { cbn [psum]. rewrite (ratio_past n (S n)) by lia. unfold Rdiv. lra. }
  rewrite T. pose proof (mom0 n) as M. unfold mom in M.
  assert (Hn : 0 < INR (S n)) by (apply lt_0_INR; lia).
  replace (/ (2 * (INR (S n) * INR (S n)))) with (/ (INR (S n) * INR (S n)) * / 2) by (field; lra).
  rewrite <- M, <- psum_scal, <- psum_plus. apply psum_ext; intros p Hp.
  assert (0 < INR p) by (apply lt_0_INR; lia).
  pose proof (ratio_up n p) as R. change (INR p ^ (2 * 0)) with 1.
  apply Rmult_eq_reg_l with (INR (S n) * INR (S n) * (INR p * INR p)).
  2:{ apply Rmult_integral_contrapositive_currified; apply Rmult_integral_contrapositive_currified; lra. }
  transitivity (sgn p * (INR (S n) * INR (S n) * ratio (S n) p)); [field; lra|].
  transitivity (sgn p * (INR (S n) * INR (S n) * ratio n p + INR p * INR p * ratio (S n) p)). 2:{ field. lra. }
  rewrite R. lra.
Qed.
Lemma w2_zero_sum n : w2_zero n = - (4) * psum (fun p => sgn p * ratio n p / (INR p * INR p)) n.
Proof.
  induction n as [|n IH]; [cbn; lra|]. cbn [w2_zero]. rewrite IH, sum_inv2_step.
  assert (0 < INR (S n)) by (apply lt_0_INR; lia). field. lra.
Qed.

(** ** Polynomials as coefficient lists (lowest first) *)
Fixpoint peval (l : list R) (x : R) : R :=
  match l with [] => 0 | c :: l' => c + x * peval l' x end.
Fixpoint padd (u v : list R) : list R :=
  match u, v with
  | [], _ => v
  | _, [] => u
  | x :: u', y :: v' => (x + y) :: padd u' v'
  end.
Fixpoint pderiv (l : list R) : list R :=
  match l with [] => [] | _ :: l' => padd l' (0 :: pderiv l') end.

Lemma padd_eval u v x : peval (padd u v) x = peval u x + peval v x.
Proof.
  revert v; induction u as [|a u IH]; intros [|b v]; cbn; try lra. rewrite IH. lra.
Qed.
Lemma padd_length u v : length (padd u v) = Nat.max (length u) (length v).
Proof. revert v; induction u as [|a u IH]; intros [|b v]; cbn; auto. Qed.
Lemma padd_nth u v i : nth i (padd u v) 0 = nth i u 0 + nth i v 0.
Proof.
  revert v i; induction u as [|a u IH]; intros v i.
  - cbn. destruct i; lra.
  - destruct v as [|b v]; cbn; [destruct i; lra|]. destruct i; [reflexivity|apply IH].
Qed.
Lemma pscale_eval a l x : peval (map (Rmult a) l) x = a * peval l x.
Proof. induction l as [|c l IH]; cbn; [|rewrite IH]; lra. Qed.

Lemma pshift l x : exists l', length l' = length l /\ forall t, peval l (x + t) = peval l' t.
Proof.
  induction l as [|c l [q [Lq Hq]]].
  - exists []. split; reflexivity.
  - exists (padd (c :: q) (map (Rmult x) q)). split.
    + rewrite padd_length, map_length. cbn [length]. lia.
    + intros t. rewrite padd_eval, pscale_eval. cbn. rewrite Hq. lra.
Qed.

Lemma peval_deriv l x : derivable_pt_lim (peval l) x (peval (pderiv l) x).
Proof.
  revert x; induction l as [|c l IH]; intros x.
  - cbn. exact (derivable_pt_lim_const 0 x).
  - cbn [pderiv]. rewrite padd_eval. cbn [peval].
    replace (peval l x + (0 + x * peval (pderiv l) x))
      with (0 + (1 * peval l x + x * peval (pderiv l) x)) by lra.
    exact (derivable_pt_lim_plus (fun _ => c) (fun x => x * peval l x) x _ _
             (derivable_pt_lim_const c x)
             (derivable_pt_lim_mult id (peval l) x _ _ (derivable_pt_lim_id x) (IH x))).
Qed.
Lemma peval_0 l : peval l 0 = nth 0 l 0.
Proof. destruct l; cbn; lra. Qed.
Lemma pderiv_nth0 l : nth 0 (pderiv l) 0 = nth 1 l 0.
Proof. destruct l as [|c l]; [reflexivity|]. cbn [pderiv]. rewrite padd_nth. cbn. lra. Qed.
Lemma pderiv_nth1 l : nth 1 (pderiv l) 0 = 2 * nth 2 l 0.
Proof.
  destruct l as [|c l]; [cbn; lra|]. cbn [pderiv]. rewrite padd_nth. cbn [nth].
  rewrite pderiv_nth0. cbn [nth]. lra.
Qed.

(** derivative of a shifted polynomial *)
Lemma shift_lim f g x v : (forall t, f (x + t) = g t) -> derivable_pt_lim g 0 v -> derivable_pt_lim f x v.
Proof.
  intros H D eps He. destruct (D eps He) as [d Hd]. exists d. intros t Ht Hd'.
  specialize (Hd t Ht Hd'). rewrite H. rewrite Rplus_0_l in Hd.
  replace (f x) with (g 0); [exact Hd|]. rewrite <- H. f_equal. lra.
Qed.
Lemma shift_deriv l l' x : (forall t, peval l (x + t) = peval l' t) ->
  forall t, peval (pderiv l) (x + t) = peval (pderiv l') t.
Proof.
  intros H t. apply (uniqueness_limite (peval l) (x + t)); [apply peval_deriv|].
  pose proof (peval_deriv l' t) as D.
  intros eps He. destruct (D eps He) as [d Hd]. exists d. intros s Hs Hd'.
  specialize (Hd s Hs Hd'). rewrite Rplus_assoc, !H. exact Hd.
Qed.

(** ** Stencils on monomials *)
Lemma pow_neg_even a j : (- a) ^ (2 * j) = a ^ (2 * j).
Proof. rewrite !pow_mult. f_equal. cbn. lra. Qed.

Lemma D1_monomial n h j : (1 <= n)%nat -> h <> 0 -> (j <= 2 * n)%nat ->
  apply_D1 n h (fun t => t ^ j) 0 = if (j =? 1)%nat then 1 else 0.
Proof.
  intros Hn Hh Hj. unfold apply_D1.
  destruct (Nat.Even_or_Odd j) as [[i ->]|[i ->]].
  - replace ((2 * i =? 1)%nat) with false by (symmetry; apply Nat.eqb_neq; lia).
    apply psum_zero; intros p Hp.
    replace (0 - INR p * h) with (- (INR p * h)) by lra.
    rewrite Rplus_0_l, pow_neg_even. lra.
  - transitivity (2 * h ^ (2 * i) * mom n n i).
    + unfold mom. rewrite <- psum_scal. apply psum_ext; intros p Hp.
      replace (0 - INR p * h) with (- (INR p * h)) by lra. rewrite Rplus_0_l.
      replace (2 * i + 1)%nat with (S (2 * i)) by lia. cbn [pow].
      rewrite pow_neg_even, Rpow_mult_distr.
      unfold FDweights_D1. destruct p as [|p]; [lia|]. rewrite fract_ratio.
      assert (0 < INR (S p)) by (apply lt_0_INR; lia). field. lra.
    + destruct i as [|i].
      * destruct n as [|n]; [lia|]. rewrite mom0. cbn. lra.
      * rewrite mom_zero by lia.
        replace ((2 * S i + 1 =? 1)%nat) with false by (symmetry; apply Nat.eqb_neq; lia). lra.
Qed.

Lemma D1_shifted n h (l : list R) k : (1 <= n)%nat -> h <> 0 -> (k + length l <= 2 * n + 1)%nat ->
  apply_D1 n h (fun t => t ^ k * peval l t) 0
  = if (k <=? 1)%nat then nth (1 - k) l 0 else 0.
Proof.
  intros Hn Hh. revert k; induction l as [|c l IH]; intros k Hk.
  - replace (if (k <=? 1)%nat then nth (1 - k) [] 0 else 0) with 0
      by (destruct (k <=? 1)%nat; [destruct (1 - k)%nat|]; reflexivity).
    unfold apply_D1. apply psum_zero; intros p _. cbn. lra.
  - cbn [length] in Hk.
    transitivity (c * apply_D1 n h (fun t => t ^ k) 0 + apply_D1 n h (fun t => t ^ S k * peval l t) 0).
    + unfold apply_D1. rewrite <- psum_scal, <- psum_plus. apply psum_ext; intros p _. cbn. lra.
    + rewrite D1_monomial by (assumption || lia). rewrite IH by lia.
      destruct k as [|[|k]]; cbn; lra.
Qed.

Lemma D2_ok n h f x : (Z.of_nat n <= 46340)%Z ->
  apply_D2 n h f x =
  Ok (w2_zero n * (1 / (h * h)) * f x
      + psum (fun p => (f (x + INR p * h) + f (x - INR p * h))
                       * (sgn p * 2 * fract n p / (INR p * INR p) * (1 / (h * h)))) n).
Proof.
  intros H. unfold apply_D2, FDweights_D2.
  replace (Z.of_nat n * Z.of_nat n <=? INT_MAX)%Z with true by (unfold INT_MAX; nia).
  cbn [obind]. do 2 f_equal. apply psum_ext; intros p Hp. destruct p; [lia|reflexivity].
Qed.

Definition D2v (n : nat) (h : R) (f : R -> R) : R :=
  w2_zero n * (1 / (h * h)) * f 0
  + psum (fun p => (f (INR p * h) + f (- (INR p * h)))
                   * (sgn p * 2 * fract n p / (INR p * INR p) * (1 / (h * h)))) n.

Lemma D2_monomial n h j : (1 <= n)%nat -> h <> 0 -> (j <= 2 * n + 1)%nat ->
  D2v n h (fun t => t ^ j) = if (j =? 2)%nat then 2 else 0.
Proof.
  intros Hn Hh Hj. unfold D2v.
  destruct (Nat.Even_or_Odd j) as [[i ->]|[i ->]].
  - destruct i as [|i].
    + change (2 * 0)%nat with 0%nat. cbn [Nat.eqb pow].
      rewrite (psum_ext _ (fun p => 4 * (1 / (h * h)) * (sgn p * ratio n p / (INR p * INR p)))).
      * rewrite w2_zero_sum, psum_scal. ring.
      * intros p Hp. rewrite fract_ratio.
        assert (0 < INR p) by (apply lt_0_INR; lia). field. split; lra.
    + transitivity (4 * h ^ (2 * i) * mom n n i).
      * replace (0 ^ (2 * S i)) with 0 by (rewrite pow_i; [reflexivity|lia]).
        rewrite Rmult_0_r, Rplus_0_l. unfold mom. rewrite <- psum_scal.
        apply psum_ext; intros p Hp. rewrite pow_neg_even, Rpow_mult_distr, fract_ratio.
        replace (2 * S i)%nat with (2 + 2 * i)%nat by lia. rewrite !pow_add.
        assert (0 < INR p) by (apply lt_0_INR; lia). cbn [pow]. field. split; lra.
      * destruct i as [|i].
        -- destruct n as [|n]; [lia|]. rewrite mom0. cbn. lra.
        -- rewrite mom_zero by lia.
           replace ((2 * S (S i) =? 2)%nat) with false by (symmetry; apply Nat.eqb_neq; lia). lra.
  - replace ((2 * i + 1 =? 2)%nat) with false by (symmetry; apply Nat.eqb_neq; lia).
    rewrite psum_zero.
    + rewrite pow_i by lia. lra.
    + intros p Hp. replace (2 * i + 1)%nat with (S (2 * i)) by lia. cbn [pow].
      rewrite pow_neg_even. lra.
Qed.

Lemma D2_shifted n h (l : list R) k : (1 <= n)%nat -> h <> 0 -> (k + length l <= 2 * n + 2)%nat ->
  D2v n h (fun t => t ^ k * peval l t) = if (k <=? 2)%nat then 2 * nth (2 - k) l 0 else 0.
Proof.
  intros Hn Hh. revert k; induction l as [|c l IH]; intros k Hk.
  - replace (if (k <=? 2)%nat then 2 * nth (2 - k) [] 0 else 0) with 0.
    + unfold D2v. rewrite psum_zero; [cbn; lra|]. intros p _. cbn. lra.
    + destruct (k <=? 2)%nat; [destruct (2 - k)%nat|]; cbn; lra.
  - cbn [length] in Hk.
    transitivity (c * D2v n h (fun t => t ^ k) + D2v n h (fun t => t ^ S k * peval l t)).
    + unfold D2v. rewrite Rmult_plus_distr_l, <- psum_scal.
      match goal with |- _ = ?a + ?b + (?d + ?e) => transitivity (a + d + (b + e)); [|lra] end.
      f_equal.
      * cbn. lra.
      * rewrite <- psum_plus. apply psum_ext; intros p _. cbn. lra.
    + rewrite D2_monomial by (assumption || lia). rewrite IH by lia.
      destruct k as [|[|[|k]]]; cbn; lra.
Qed.
