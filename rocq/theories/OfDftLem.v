(** Lemmas on OfDft.v. *)
From Coq Require Import ZArith Reals List Lia Lra Bool.
From Coquelicot Require Import Coquelicot.
From Verif Require Import CBase Nloc SqSpec SqMain OfDft.
Import ListNotations.
Local Open Scope R_scope.

(** ** Brent *)
Lemma trial_in (s : bst) tol1 : 0 < tol1 -> b_a s <= b_x s <= b_b s ->
  ~ Rabs (b_x s - / 2 * (b_a s + b_b s)) <= 2 * tol1 - / 2 * (b_b s - b_a s) ->
  let '(e, d) := newstep s (/ 2 * (b_a s + b_b s)) tol1 (2 * tol1) in
  let u := trial (b_x s) d tol1 in b_a s + tol1 <= u <= b_b s - tol1 /\ tol1 <= Rabs (u - b_x s).
Proof.
  intros Ht Hx Hn.
  assert (Rab : forall y, tol1 <= y \/ y <= - tol1 -> tol1 <= Rabs y) by (intros y H0; unfold Rabs; destruct (Rcase_abs y); lra).
  assert (G : let '(e, d) := golden s (/ 2 * (b_a s + b_b s)) in let u := trial (b_x s) d tol1 in b_a s + tol1 <= u <= b_b s - tol1 /\ tol1 <= Rabs (u - b_x s)).
  { unfold golden. destruct s as [a b d e x w v fx fw fv tr]. cbn [b_a b_b b_x] in *. unfold trial, cgold.
    destruct (Rle_dec (/ 2 * (a + b)) x) as [C|C].
    - rewrite (Rabs_right (x - _)) in Hn by lra. assert (A : 2 * tol1 < x - a) by lra.
      rewrite Rabs_left by lra. destruct (Rle_dec 0 _); [lra|]. rewrite (Rabs_right tol1) by lra. destruct (Rle_dec tol1 _); (split; [lra|apply Rab; lra]).
    - rewrite (Rabs_left (x - _)) in Hn by lra. assert (A : 2 * tol1 < b - x) by lra.
      rewrite Rabs_right by lra. destruct (Rle_dec 0 _); [|lra]. rewrite (Rabs_right tol1) by lra. destruct (Rle_dec tol1 _); (split; [lra|apply Rab; lra]). }
  unfold newstep. destruct s as [a b d e x w v fx fw fv tr]. cbn [b_a b_b b_x] in *. cbv zeta.
  destruct (Rlt_dec tol1 (Rabs e)); [|exact G].
  set (q0 := 2 * _). set (p0 := if Rlt_dec 0 q0 then _ else _). clearbody p0. set (q := Rabs q0). assert (Hq : 0 <= q) by apply Rabs_pos. clearbody q.
  destruct (Rle_dec _ (Rabs p0)); [exact G|]. destruct (Rle_dec p0 _) as [|P1]; [exact G|]. destruct (Rle_dec _ p0) as [|P2]; [exact G|].
  assert (Q : 0 < q) by (destruct Hq as [|<-]; [assumption|lra]).
  assert (D1 : a - x < p0 / q) by (apply Rmult_lt_reg_r with q; [exact Q|]; unfold Rdiv; rewrite Rmult_assoc, Rinv_l by lra; lra).
  assert (D2 : p0 / q < b - x) by (apply Rmult_lt_reg_r with q; [exact Q|]; unfold Rdiv; rewrite Rmult_assoc, Rinv_l by lra; lra).
  set (dp := p0 / q) in *. clearbody dp.
  assert (T : let d := if Rle_dec 0 (/ 2 * (a + b) - x) then Rabs tol1 else - Rabs tol1 in a + tol1 <= trial x d tol1 <= b - tol1 /\ tol1 <= Rabs (trial x d tol1 - x)).
  { cbv zeta. rewrite (Rabs_right tol1) by lra. unfold trial. destruct (Rle_dec 0 _).
    - rewrite (Rabs_right tol1) by lra. destruct (Rle_dec tol1 tol1); [|lra]. rewrite Rabs_left1 in Hn by lra. split; [lra|apply Rab; lra].
    - rewrite (Rabs_left (- tol1)) by lra. destruct (Rle_dec tol1 (- - tol1)); [|lra]. rewrite Rabs_right in Hn by lra. split; [lra|apply Rab; lra]. }
  destruct (Rlt_dec (x + dp - a) _); [exact T|]. destruct (Rlt_dec (b - (x + dp)) _); [exact T|].
  unfold trial. rewrite (Rabs_right tol1) by lra. destruct (Rle_dec tol1 (Rabs dp)) as [L|L].
  - split; [lra|]. replace (x + dp - x) with dp by ring. exact L.
  - apply Rnot_le_lt, Rabs_def2 in L. destruct (Rle_dec 0 dp); (split; [lra|apply Rab; lra]).
Qed.

Lemma zeps_pos : 0 < zeps.
Proof. apply Rinv_0_lt_compat, pow_lt. lra. Qed.

Lemma zeps_half : zeps < / 2.
Proof. unfold zeps. apply Rinv_lt_contravar; [apply Rmult_lt_0_compat; [lra|apply pow_lt; lra]|]. simpl. lra. Qed.

(** Invariant of the loop, [f] the function minimised. *)
Record binv (f : R -> outcome R) (s : bst) : Prop := {
  bi_01 : 0 <= b_a s /\ b_b s <= 1;
  bi_x : b_a s <= b_x s <= b_b s;
  bi_tr : In (b_x s, b_fx s) (b_tr s);
  bi_all : forall t ft, In (t, ft) (b_tr s) -> zeps <= t <= 1 - zeps /\ f t = Ok ft /\ b_fx s <= ft;
  bi_a : b_a s = 0 \/ exists fa, In (b_a s, fa) (b_tr s);
  bi_b : b_b s = 1 \/ exists fb, In (b_b s, fb) (b_tr s) }.

Lemma account_x s e d u fu : b_x (account s e d u fu) = if Rle_dec fu (b_fx s) then u else b_x s.
Proof. unfold account. destruct (Rle_dec fu (b_fx s)); [destruct (Rle_dec (b_x s) u); reflexivity|].
  destruct (Rlt_dec u (b_x s)); repeat (destruct (Rle_dec _ _) || destruct (Req_EM_T _ _)); reflexivity. Qed.
Lemma account_fx s e d u fu : b_fx (account s e d u fu) = if Rle_dec fu (b_fx s) then fu else b_fx s.
Proof. unfold account. destruct (Rle_dec fu (b_fx s)); [destruct (Rle_dec (b_x s) u); reflexivity|].
  destruct (Rlt_dec u (b_x s)); repeat (destruct (Rle_dec _ _) || destruct (Req_EM_T _ _)); reflexivity. Qed.
Lemma account_tr s e d u fu : b_tr (account s e d u fu) = (u, fu) :: b_tr s.
Proof. unfold account. destruct (Rle_dec fu (b_fx s)); [destruct (Rle_dec (b_x s) u); reflexivity|].
  destruct (Rlt_dec u (b_x s)); repeat (destruct (Rle_dec _ _) || destruct (Req_EM_T _ _)); reflexivity. Qed.
Lemma account_ab s e d u fu : (b_a (account s e d u fu), b_b (account s e d u fu)) =
  if Rle_dec fu (b_fx s) then (if Rle_dec (b_x s) u then (b_x s, b_b s) else (b_a s, b_x s))
  else (if Rlt_dec u (b_x s) then (u, b_b s) else (b_a s, u)).
Proof. unfold account. destruct (Rle_dec fu (b_fx s)); [destruct (Rle_dec (b_x s) u); reflexivity|].
  destruct (Rlt_dec u (b_x s)); repeat (destruct (Rle_dec _ _) || destruct (Req_EM_T _ _)); reflexivity. Qed.

Lemma account_inv f s e d u fu : binv f s -> b_a s + zeps <= u <= b_b s - zeps -> zeps <= Rabs (u - b_x s) -> f u = Ok fu -> binv f (account s e d u fu).
Proof.
  intros I Hu Hd Hf. pose proof zeps_pos. assert (Hne : u <> b_x s) by (intros ->; replace (b_x s - b_x s) with 0 in Hd by ring; rewrite Rabs_R0 in Hd; lra). destruct I as [I1 I2 I3 I4 I5 I6].
  pose proof (account_x s e d u fu) as X. pose proof (account_fx s e d u fu) as FX. pose proof (account_tr s e d u fu) as TR. pose proof (account_ab s e d u fu) as AB.
  set (t := account s e d u fu) in *. clearbody t. destruct (Rle_dec fu (b_fx s)) as [C|C].
  - assert (E0 : b_a t = (if Rle_dec (b_x s) u then b_x s else b_a s) /\ b_b t = (if Rle_dec (b_x s) u then b_b s else b_x s)) by (destruct (Rle_dec (b_x s) u); injection AB; auto).
    destruct E0 as [EA EB]. constructor; rewrite ?X, ?FX, ?TR, ?EA, ?EB.
    + destruct (Rle_dec (b_x s) u); lra.
    + destruct (Rle_dec (b_x s) u); lra.
    + now left.
    + intros t0 ft [E1|I0]; [injection E1 as <- <-; split; [lra|split; [exact Hf|lra]]|]. destruct (I4 _ _ I0) as (A & B & D). split; [exact A|split; [exact B|lra]].
    + destruct (Rle_dec (b_x s) u); [right; exists (b_fx s); now right|]. destruct I5 as [|[fa Ia]]; [now left|right; exists fa; now right].
    + destruct (Rle_dec (b_x s) u); [|right; exists (b_fx s); now right]. destruct I6 as [|[fa Ia]]; [now left|right; exists fa; now right].
  - assert (E0 : b_a t = (if Rlt_dec u (b_x s) then u else b_a s) /\ b_b t = (if Rlt_dec u (b_x s) then b_b s else u)) by (destruct (Rlt_dec u (b_x s)); injection AB; auto).
    destruct E0 as [EA EB]. constructor; rewrite ?X, ?FX, ?TR, ?EA, ?EB.
    + destruct (Rlt_dec u (b_x s)); lra.
    + destruct (Rlt_dec u (b_x s)); lra.
    + now right.
    + intros t0 ft [E1|I0]; [injection E1 as <- <-; split; [lra|split; [exact Hf|lra]]|]. destruct (I4 _ _ I0) as (A & B & D). split; [exact A|split; [exact B|lra]].
    + destruct (Rlt_dec u (b_x s)); [right; exists fu; now left|]. destruct I5 as [|[fa Ia]]; [now left|right; exists fa; now right].
    + destruct (Rlt_dec u (b_x s)); [|right; exists fu; now left]. destruct I6 as [|[fa Ia]]; [now left|right; exists fa; now right].
Qed.

Definition stopped (tol : R) (s : bst) : Prop :=
  Rabs (b_x s - / 2 * (b_a s + b_b s)) <= 2 * (tol * Rabs (b_x s) + zeps) - / 2 * (b_b s - b_a s).


(** Induction principle of the loop. *)
Lemma brent_ind tol f (P : bst -> Prop) : 0 <= tol ->
  (forall s e d u fu, binv f s -> P s -> b_a s + zeps <= u <= b_b s - zeps -> zeps <= Rabs (u - b_x s) -> f u = Ok fu -> P (account s e d u fu)) ->
  forall k s r c, binv f s -> P s -> brent_loop tol f k s = Ok (r, c) ->
  binv f r /\ P r /\ (c = true -> stopped tol r) /\ (length (b_tr r) <= k + length (b_tr s))%nat.
Proof.
  intros Ht HP. induction k as [|k IH]; intros s r c I Ps E0; cbn [brent_loop] in E0.
  - injection E0 as <- <-. split; [exact I|]. split; [exact Ps|]. split; [discriminate|]. lia.
  - destruct (Rle_dec _ _) as [C|C].
    + injection E0 as <- <-. split; [exact I|]. split; [exact Ps|]. split; [intros _; exact C|]. lia.
    + pose proof zeps_pos. pose proof (Rabs_pos (b_x s)). assert (T1 : 0 < tol * Rabs (b_x s) + zeps) by nra.
      pose proof (trial_in s _ T1 (bi_x _ _ I) C) as TI. destruct (newstep _ _ _ _) as [e d]. cbv zeta in TI. destruct TI as [U1' U2'].
      assert (TZ : zeps <= tol * Rabs (b_x s) + zeps) by nra.
      set (u := trial _ _ _) in *.
      assert (U1 : b_a s + zeps <= u <= b_b s - zeps) by lra. assert (U2 : zeps <= Rabs (u - b_x s)) by lra.
      destruct (f u) as [fu| |] eqn:Ef; cbn [obind] in E0; try discriminate.
      apply IH in E0; [|apply account_inv; assumption|apply HP; assumption]. rewrite account_tr in E0. cbn [length] in E0.
      destruct E0 as (A & B & D & E1). split; [exact A|]. split; [exact B|]. split; [exact D|]. lia.
Qed.

Local Opaque brent_loop.
Lemma brent_gen tol f (P : bst -> Prop) : 0 <= tol ->
  (forall f0, f (/ 2) = Ok f0 -> P (mkB 0 1 0 0 (/ 2) (/ 2) (/ 2) f0 f0 f0 [(/ 2, f0)])) ->
  (forall s e d u fu, binv f s -> P s -> b_a s + zeps <= u <= b_b s - zeps -> zeps <= Rabs (u - b_x s) -> f u = Ok fu -> P (account s e d u fu)) ->
  forall r c, brent tol f = Ok (r, c) -> binv f r /\ P r /\ (c = true -> stopped tol r) /\ (length (b_tr r) <= 100)%nat.
Proof.
  intros Ht H0 HS r c E0. unfold brent in E0. destruct (f (/ 2)) as [f0| |] eqn:Ef; cbn [obind] in E0; [|discriminate E0|discriminate E0].
  revert E0. change 100%nat with (99 + 1)%nat. generalize 99%nat. intros k E0.
  apply (brent_ind tol f P Ht HS) in E0; [exact E0| |now apply H0].
  constructor; cbn [b_a b_b b_x b_fx b_tr]; try lra.
  - now left.
  - intros t ft [E1|[]]. injection E1 as <- <-. pose proof zeps_half. split; [lra|]. split; [exact Ef|lra].
Qed.

Local Transparent brent_loop.
(** The only failure is one of [f] at a point of the open interval. *)
Lemma brent_loop_ub tol f : 0 <= tol -> forall k s, binv f s ->
  match brent_loop tol f k s with Ok _ => True | UB => exists u, 0 < u < 1 /\ f u = UB | Exit => exists u, 0 < u < 1 /\ f u = Exit end.
Proof.
  intros Ht. induction k as [|k IH]; intros s I; cbn [brent_loop]; [trivial|].
  destruct (Rle_dec _ _) as [C|C]; [trivial|].
  pose proof zeps_pos. pose proof (Rabs_pos (b_x s)). assert (T1 : 0 < tol * Rabs (b_x s) + zeps) by nra.
  pose proof (trial_in s _ T1 (bi_x _ _ I) C) as TI. destruct (newstep _ _ _ _) as [e d]. cbv zeta in TI. destruct TI as [U1' U2'].
  assert (TZ : zeps <= tol * Rabs (b_x s) + zeps) by nra.
  set (u := trial _ _ _) in *.
  assert (U1 : b_a s + zeps <= u <= b_b s - zeps) by lra. assert (U2 : zeps <= Rabs (u - b_x s)) by lra.
  pose proof (bi_01 _ _ I). destruct (f u) as [fu| |] eqn:Ef; cbn [obind].
  - apply IH. apply account_inv; assumption.
  - exists u. split; [lra|exact Ef].
  - exists u. split; [lra|exact Ef].
Qed.
Local Opaque brent_loop.
Lemma brent_fail tol f : 0 <= tol ->
  match brent tol f with Ok _ => True | UB => exists u, 0 < u < 1 /\ f u = UB | Exit => exists u, 0 < u < 1 /\ f u = Exit end.
Proof.
  intros Ht. unfold brent. destruct (f (/ 2)) as [f0| |] eqn:Ef; cbn [obind].
  - apply brent_loop_ub; [exact Ht|].
    constructor; cbn [b_a b_b b_x b_fx b_tr]; try lra; [now left|]. intros t ft [E1|[]]. injection E1 as <- <-. pose proof zeps_half. split; [lra|]. split; [exact Ef|lra].
  - exists (/ 2). split; [lra|exact Ef].
  - exists (/ 2). split; [lra|exact Ef].
Qed.
Lemma brent_ub tol f : 0 <= tol -> (forall u, 0 < u < 1 -> exists v, f u = Ok v) -> exists r, brent tol f = Ok r.
Proof.
  intros Ht Hf. pose proof (brent_fail tol f Ht) as K. destruct (brent tol f) as [r| |]; [now exists r| |];
  destruct K as (u & Hu & E0); destruct (Hf u Hu) as [v E1]; rewrite E1 in E0; discriminate.
Qed.

(** An energy least at 1/2 alone: the search keeps 1/2 and ends on another point. *)
Local Transparent brent_loop.
Lemma brent_half tol f f0 : 0 <= tol < / 4 -> f (/ 2) = Ok f0 -> (forall s, 0 < s < 1 -> s <> / 2 -> exists e, f s = Ok e /\ f0 < e) ->
  exists r c sl fl tl, brent tol f = Ok (r, c) /\ b_x r = / 2 /\ b_tr r = (sl, fl) :: tl /\ f sl = Ok fl /\ f0 < fl.
Proof.
  intros Ht F0 Hf. assert (HT : exists r, brent tol f = Ok r).
  { apply brent_ub; [lra|]. intros u Hu. destruct (Req_EM_T u (/ 2)) as [->|Hne]; [now exists f0|]. destruct (Hf u Hu Hne) as (e & E0 & _). now exists e. }
  destruct HT as [[r c] E0]. 
  set (P := fun s => b_x s = / 2 /\ exists sl fl tl, b_tr s = (sl, fl) :: tl /\ f0 < fl).
  assert (Step : forall s e d u fu, binv f s -> b_x s = / 2 -> b_a s + zeps <= u <= b_b s - zeps -> zeps <= Rabs (u - b_x s) -> f u = Ok fu -> P (account s e d u fu)).
  { intros s e d u fu I X U1 U2 Fu. pose proof zeps_pos. pose proof (bi_01 _ _ I).
    assert (Hne : u <> / 2) by (intros ->; rewrite X in U2; replace (/ 2 - / 2) with 0 in U2 by ring; rewrite Rabs_R0 in U2; lra).
    destruct (Hf u ltac:(lra) Hne) as (e' & E1 & L). rewrite Fu in E1. injection E1 as <-.
    destruct (bi_all _ _ I _ _ (bi_tr _ _ I)) as (_ & FX & _). rewrite X, F0 in FX. injection FX as FX.
    split; [rewrite account_x; destruct (Rle_dec fu (b_fx s)); [lra|exact X]|]. exists u, fu, (b_tr s). split; [apply account_tr|exact L]. }
  set (s0 := mkB 0 1 0 0 (/ 2) (/ 2) (/ 2) f0 f0 f0 [(/ 2, f0)]).
  assert (I0 : binv f s0).
  { constructor; cbn [s0 b_a b_b b_x b_fx b_tr]; try lra; [now left|]. intros t ft [E1|[]]. injection E1 as <- <-. pose proof zeps_half. split; [lra|]. split; [exact F0|lra]. }
  assert (EL : brent tol f = brent_loop tol f (S 98) s0) by (unfold brent; rewrite F0; reflexivity).
  assert (K : P r /\ binv f r).
  { rewrite EL in E0. revert E0. generalize 98%nat. intros k E0. cbn [brent_loop] in E0. destruct (Rle_dec _ _) as [C|C].
    - exfalso. cbn [s0 b_a b_b b_x] in C. rewrite (Rabs_right (/ 2)) in C by lra. replace (/ 2 - / 2 * (0 + 1)) with 0 in C by lra. rewrite Rabs_R0 in C.
      assert (zeps < / 10) by (unfold zeps; apply Rinv_lt_contravar; [apply Rmult_lt_0_compat; [lra|apply pow_lt; lra]|simpl; lra]). lra.
    - pose proof zeps_pos. pose proof (Rabs_pos (b_x s0)). assert (T1 : 0 < tol * Rabs (b_x s0) + zeps) by nra.
      pose proof (trial_in s0 _ T1 (bi_x _ _ I0) C) as TI. destruct (newstep _ _ _ _) as [e d]. cbv zeta in TI. destruct TI as [U1' U2'].
      assert (TZ : zeps <= tol * Rabs (b_x s0) + zeps) by nra. set (u := trial _ _ _) in *.
      assert (U1 : b_a s0 + zeps <= u <= b_b s0 - zeps) by lra. assert (U2 : zeps <= Rabs (u - b_x s0)) by lra.
      destruct (f u) as [fu| |] eqn:Ef; cbn [obind] in E0; try discriminate.
      apply (brent_ind tol f P ltac:(lra)) in E0; [destruct E0 as (A & B & _); split; assumption| | |].
      + intros s e' d' u' fu' I Ps. apply Step; [exact I|apply Ps].
      + apply account_inv; assumption.
      + apply Step; try assumption; reflexivity. }
  destruct K as [[X (sl & fl & tl & T & L)] I]. exists r, c, sl, fl, tl. split; [exact E0|]. split; [exact X|]. split; [exact T|]. split; [|exact L].
  apply (bi_all _ _ I sl fl). rewrite T. now left.
Qed.
Local Opaque brent_loop.

Lemma brent_stop_ge f tol r : stopped tol r -> binv f r -> b_b r - b_x r <= 2 * (tol * Rabs (b_x r) + zeps) /\ b_x r - b_a r <= 2 * (tol * Rabs (b_x r) + zeps).
Proof. intros S I. pose proof (bi_x _ _ I). unfold stopped in S. revert S. unfold Rabs at 1. destruct (Rcase_abs _); intros; lra. Qed.

(** ** The update *)
Lemma nsum_sq_nonneg n (f : Z -> R) : 0 <= sumn n (fun i => f i * f i).
Proof. unfold sumn. induction (Z.to_nat n) as [|k IH]; cbn [nsum]; [lra|]. pose proof (Rle_0_sqr (f (Z.of_nat k))). unfold Rsqr in *. lra. Qed.
Lemma sumn_sq_0 n (f : Z -> R) : sumn n (fun i => f i * f i) = 0 -> forall i, (0 <= i < n)%Z -> f i = 0.
Proof.
  intros S i Hi. rewrite <- (Z2Nat.id n) in Hi by lia. revert S Hi. unfold sumn. induction (Z.to_nat n) as [|k IH]; intros S Hi; [lia|]. cbn [nsum] in S.
  assert (0 <= nsum k (fun i => f i * f i)). { pose proof (nsum_sq_nonneg (Z.of_nat k) f) as Q. unfold sumn in Q. now rewrite Nat2Z.id in Q. }
  pose proof (Rle_0_sqr (f (Z.of_nat k))) as Q. unfold Rsqr in Q.
  destruct (Z.eq_dec i (Z.of_nat k)) as [->|]; [|apply IH; [lra|lia]]. destruct (Rmult_integral (f (Z.of_nat k)) (f (Z.of_nat k))); lra.
Qed.

Section Upd.
Variables (N : Z) (dV Ne : R).
Hypothesis HV : 0 < dV.
Hypothesis HE : 0 < Ne.
Lemma cst2 : cst dV Ne * cst dV Ne = Ne / dV.
Proof. unfold cst. apply sqrt_sqrt. apply Rlt_le, Rdiv_lt_0_compat; assumption. Qed.
Lemma cst_pos : 0 < cst dV Ne.
Proof. unfold cst. apply sqrt_lt_R0, Rdiv_lt_0_compat; assumption. Qed.
Lemma extend_inv u d s nu : extend N dV Ne u d s = Ok nu ->
  let n := sqrt (inner N (fun i => u i + s * d i) (fun i => u i + s * d i)) in
  0 < n /\ n * n = inner N (fun i => u i + s * d i) (fun i => u i + s * d i) /\ nu = (fun i => Rabs ((u i + s * d i) * (cst dV Ne / n))).
Proof.
  unfold extend. cbv zeta. set (n := sqrt _). destruct (Req_EM_T n 0) as [|Hn]; [discriminate|]. intros E0. injection E0 as <-.
  pose proof (nsum_sq_nonneg N (fun i => u i + s * d i)) as Q. assert (P : 0 <= n) by apply sqrt_pos. split; [lra|]. split; [|reflexivity].
  unfold n. apply sqrt_sqrt. exact Q.
Qed.
Lemma extend_norm u d s nu : extend N dV Ne u d s = Ok nu -> (forall i, 0 <= nu i) /\ inner N nu nu * dV = Ne.
Proof.
  intros E0. destruct (extend_inv _ _ _ _ E0) as (P & Q & ->). set (n := sqrt _) in *. split; [intros; apply Rabs_pos|].
  unfold inner. rewrite (sumn_ext N _ (fun i => (cst dV Ne / n) * (cst dV Ne / n) * ((u i + s * d i) * (u i + s * d i)))).
  2:{ intros i _. rewrite <- Rabs_mult, Rabs_right; [ring|]. apply Rle_ge, Rle_0_sqr. }
  rewrite sumn_mul. fold (inner N (fun i => u i + s * d i) (fun i => u i + s * d i)). rewrite <- Q.
  replace (cst dV Ne / n * (cst dV Ne / n) * (n * n)) with (cst dV Ne * cst dV Ne) by (field; lra). rewrite cst2. field. lra.
Qed.
Lemma extend_def u d s : (exists nu, extend N dV Ne u d s = Ok nu) \/
  (extend N dV Ne u d s = UB /\ forall i, (0 <= i < N)%Z -> u i + s * d i = 0).
Proof.
  unfold extend. cbv zeta. set (n := sqrt _). destruct (Req_EM_T n 0) as [Hn|]; [right|left; eexists; reflexivity]. split; [reflexivity|].
  intros i Hi. apply (sumn_sq_0 N (fun i => u i + s * d i)); [|exact Hi]. apply sqrt_eq_0 in Hn; [exact Hn|]. apply nsum_sq_nonneg.
Qed.
Lemma inner_line u d s : inner N (fun i => u i + s * d i) (fun i => u i + s * d i) = inner N u u + 2 * s * inner N u d + s * s * inner N d d.
Proof.
  unfold inner. rewrite (sumn_ext N _ (fun i => u i * u i + (2 * s * (u i * d i) + s * s * (d i * d i)))) by (intros; ring).
  rewrite !sumn_add, !sumn_mul. ring.
Qed.
(** The zero direction leaves a normalised vector alone. *)
Lemma extend_0 u s nu : (forall i, 0 <= u i) -> inner N u u * dV = Ne -> extend N dV Ne u (fun _ => 0) s = Ok nu -> forall i, nu i = u i.
Proof.
  intros P Q E0 i. destruct (extend_inv _ _ _ _ E0) as (Hn & Hq & ->). set (n := sqrt _) in *.
  assert (C : n = cst dV Ne).
  { unfold n, cst. f_equal. rewrite <- Q. replace (inner N u u * dV / dV) with (inner N u u) by (field; lra). apply inner_ext; intros; ring. }
  rewrite C. pose proof cst_pos. replace ((u i + s * 0) * (cst dV Ne / cst dV Ne)) with (u i) by (field; lra). apply Rabs_right. specialize (P i). lra.
Qed.
End Upd.
