(** Derivative of the orbital-free energy along the normalised line. *)
From Coq Require Import ZArith Reals List Lia Lra Bool.
From Coquelicot Require Import Coquelicot.
From Verif Require Import CBase Nloc SqSpec SqMain OfDft OfDftLem.
Import ListNotations.
Local Open Scope R_scope.

Definition vpath (N : Z) (w : R -> Z -> R) (w' : Z -> R) : Prop :=
  forall i, (0 <= i < N)%Z -> is_derive (fun s => w s i) 0 (w' i).

Lemma const_derive (c x : R) : is_derive (fun _ : R => c) x 0.
Proof. apply (@is_derive_const R_AbsRing R_NormedModule). Qed.
Lemma sumn_derive n (f : R -> Z -> R) f' : vpath n f f' -> is_derive (fun s => sumn n (f s)) 0 (sumn n f').
Proof.
  unfold vpath, sumn. intros H. assert (K : forall k, (Z.of_nat k <= n)%Z -> is_derive (fun s => nsum k (f s)) 0 (nsum k f')).
  { induction k as [|k IH]; intros Hk; cbn [nsum]; [apply const_derive|]. apply (is_derive_plus (fun s => nsum k (f s)) (fun s => f s (Z.of_nat k))); [apply IH; lia|apply H; lia]. }
  destruct (Z_le_gt_dec 0 n); [apply K; lia|]. replace (Z.to_nat n) with 0%nat by lia. cbn [nsum]. apply const_derive.
Qed.
Lemma mul_derive (f g : R -> R) (x a b : R) : is_derive f x a -> is_derive g x b -> is_derive (fun s => f s * g s) x (a * g x + f x * b).
Proof. intros Hf Hg. apply (is_derive_mult f g x a b Hf Hg). intros; apply Rmult_comm. Qed.
Lemma der_eq (f : R -> R) (x a b : R) : is_derive f x a -> @eq R a b -> is_derive f x b.
Proof. now intros H <-. Qed.
Lemma inner_derive N u v u' v' : vpath N u u' -> vpath N v v' -> is_derive (fun s => inner N (u s) (v s)) 0 (inner N u' (v 0) + inner N (u 0) v').
Proof.
  intros Hu Hv. unfold inner. rewrite <- sumn_add. apply sumn_derive. intros i Hi. apply (mul_derive (fun s => u s i) (fun s => v s i)); [apply Hu|apply Hv]; exact Hi.
Qed.

(** A linear operator commutes with the derivative. *)
Lemma op_derive N G w w' : symmetric_op N G -> vpath N w w' -> vpath N (fun s => G (w s)) (G w').
Proof.
  intros SO Hw i Hi.
  assert (K : forall v, G v i = sumn N (fun j => v j * G (delta j) i)).
  { intros v. rewrite <- (H_sum G N SO N v delta i Hi). apply (so_ext _ _ SO); [|exact Hi]. intros j Hj. symmetry.
    rewrite (sumn_ext N _ (fun x => delta j x * v x)); [now apply sumn_one|]. intros x _. unfold delta. destruct (Z.eq_dec x j), (Z.eq_dec j x); subst; try congruence; ring. }
  rewrite K. apply (is_derive_ext (fun s => sumn N (fun j => w s j * G (delta j) i))); [intros; symmetry; apply K|].
  apply sumn_derive. intros j Hj. eapply der_eq; [apply (mul_derive (fun s => w s j) (fun _ => G (delta j) i) 0 (w' j) 0); [now apply Hw|apply const_derive]|]. ring.
Qed.
Lemma quad_derive N G w w' : symmetric_op N G -> vpath N w w' -> is_derive (fun s => inner N (w s) (G (w s))) 0 (2 * inner N (G (w 0)) w').
Proof.
  intros SO Hw. eapply der_eq; [apply inner_derive; [exact Hw|apply op_derive; eassumption]|].
  rewrite (so_sym _ _ SO), (inner_comm _ w'). ring.
Qed.

Lemma cpow_pos x y : 0 < x -> cpow x y = Rpower x y.
Proof. intros Hx. unfold cpow. destruct (Req_EM_T x 0); [lra|reflexivity]. Qed.
Lemma cpow_derive x y : 0 < x -> is_derive (fun t => cpow t y) x (y * cpow x (y - 1)).
Proof.
  intros Hx. apply (is_derive_ext_loc (fun t => Rpower t y)).
  - exists (mkposreal x Hx). intros t Ht. symmetry. apply cpow_pos. unfold ball in Ht. cbn in Ht. unfold AbsRing_ball, abs, minus, plus, opp in Ht. cbn in Ht.
    revert Ht. unfold Rabs. destruct (Rcase_abs _); lra.
  - rewrite cpow_pos by exact Hx. replace (y * Rpower x (y - 1)) with (y * / x * Rpower x y).
    2:{ unfold Rminus. rewrite Rpower_plus, Rpower_Ropp, Rpower_1 by exact Hx. ring. }
    unfold Rpower. auto_derive; [exact Hx|]. field. lra.
Qed.

Section Grad.
Variable N : Z.
Variables (dV Ne lambda natom esc : R).
Variable b : vec.
Variables (poisson vxc : vec -> vec) (exc : vec -> R) (lap G : vec -> vec).
Hypothesis HV : 0 < dV.
Hypothesis HE : 0 < Ne.
Hypothesis HP : forall rho i, (0 <= i < N)%Z -> poisson rho i = G (fun j => rho j + b j) i.
Hypothesis HG : symmetric_op N G.
Hypothesis HL : symmetric_op N lap.
Hypothesis HX : forall rho rho', (forall i, (0 <= i < N)%Z -> 0 < rho 0 i) -> vpath N rho rho' -> is_derive (fun s => exc (rho s)) 0 (dV * inner N (vxc (rho 0)) rho').

Hypothesis HVX : forall rho rho' : vec, (forall i, (0 <= i < N)%Z -> rho i = rho' i) -> forall i, (0 <= i < N)%Z -> vxc rho i = vxc rho' i.

Notation energy := (energy N dV lambda esc b poisson exc lap).
Notation hamil := (hamil lambda poisson vxc lap).

Lemma energy_derive w w' : (forall i, (0 <= i < N)%Z -> 0 < w 0 i) -> vpath N w w' ->
  is_derive (fun s => energy (square (w s)) (w s)) 0 (2 * dV * inner N (hamil (w 0)) w').
Proof.
  intros Hp Hw. unfold OfDft.energy. cbv zeta.
  assert (D : vpath N (fun s => square (w s)) (fun i => 2 * w 0 i * w' i)).
  { intros i Hi. unfold square. eapply der_eq; [apply (mul_derive (fun s => w s i) (fun s => w s i)); now apply Hw|]. cbv beta. ring. }
  assert (DP : forall i, (0 <= i < N)%Z -> 0 < square (w 0) i) by (intros i Hi; unfold square; specialize (Hp i Hi); nra).
  set (rho := fun s => square (w s)) in *.
  assert (Dx := HX rho _ DP D).
  assert (De : is_derive (fun s => / 2 * dV * inner N b (poisson (rho s)) + / 2 * dV * inner N (rho s) (poisson (rho s))) 0 (dV * inner N (poisson (rho 0)) (fun i => 2 * w 0 i * w' i))).
  { apply (is_derive_ext (fun s => (/ 2 * dV) * inner N (fun j => rho s j + b j) (G (fun j => rho s j + b j)))).
    { intros s. rewrite (inner_ext N (rho s) (poisson (rho s)) (rho s) (G (fun j => rho s j + b j))), (inner_ext N b (poisson (rho s)) b (G (fun j => rho s j + b j))) by (intros; (reflexivity || now apply HP)).
      rewrite <- Rmult_plus_distr_l. f_equal. unfold inner. rewrite <- sumn_add. apply sumn_ext. intros; ring. }
    eapply der_eq; [apply (is_derive_scal (fun s => inner N (fun j => rho s j + b j) (G (fun j => rho s j + b j)))); apply (quad_derive N G (fun s j => rho s j + b j) (fun i => 2 * w 0 i * w' i) HG)|].
    - intros i Hi. eapply der_eq; [apply (is_derive_plus (fun s => rho s i) (fun _ => b i)); [now apply D|apply const_derive]|]. unfold plus, zero. cbn. ring.
    - rewrite (inner_ext N (poisson (rho 0)) (fun i => 2 * w 0 i * w' i) (G (fun j => rho 0 j + b j)) (fun i => 2 * w 0 i * w' i)) by (intros; (reflexivity || now apply HP)). unfold scal; cbn; unfold mult; cbn. field. }
  assert (Dt : is_derive (fun s => sumn N (fun i => cpow (rho s i) (5 / 3)) * (Cf * dV)) 0 (dV * inner N (fun i => 5 / 3 * Cf * cpow (rho 0 i) (2 / 3)) (fun i => 2 * w 0 i * w' i))).
  { eapply der_eq; [apply (mul_derive (fun s => sumn N (fun i => cpow (rho s i) (5 / 3))) (fun _ => Cf * dV)); [apply (sumn_derive N (fun s i => cpow (rho s i) (5 / 3)) (fun i => (2 * w 0 i * w' i) * (5 / 3 * cpow (rho 0 i) (2 / 3))))|apply const_derive]|].
    - intros i Hi. eapply der_eq; [apply (is_derive_comp (fun t => cpow t (5 / 3)) (fun s => rho s i)); [apply cpow_derive; now apply DP|now apply D]|].
      unfold scal; cbn; unfold mult; cbn. replace (5 / 3 - 1) with (2 / 3) by field. reflexivity.
    - unfold inner. rewrite Rmult_0_r, Rplus_0_r.
      rewrite (sumn_ext N (fun i => 5 / 3 * Cf * cpow (rho 0 i) (2 / 3) * (2 * w 0 i * w' i)) (fun i => Cf * (2 * w 0 i * w' i * (5 / 3 * cpow (rho 0 i) (2 / 3))))) by (intros; ring).
      rewrite sumn_mul. ring. }
  assert (Dl : is_derive (fun s => inner N (w s) (lap (w s)) * (- / 2 * dV)) 0 (- dV * inner N (lap (w 0)) w')).
  { eapply der_eq; [apply (mul_derive (fun s => inner N (w s) (lap (w s))) (fun _ => - / 2 * dV)); [apply (quad_derive N lap w w' HL Hw)|apply const_derive]|].
    field. }
  eapply der_eq.
  { apply (is_derive_plus (fun s => exc (rho s) + (/ 2 * dV * inner N b (poisson (rho s)) + / 2 * dV * inner N (rho s) (poisson (rho s))) + (sumn N (fun i => cpow (rho s i) (5 / 3)) * (Cf * dV) + lambda * (inner N (w s) (lap (w s)) * (- / 2 * dV)))) (fun _ => esc)); [|apply const_derive].
    apply (is_derive_plus (fun s => exc (rho s) + (/ 2 * dV * inner N b (poisson (rho s)) + / 2 * dV * inner N (rho s) (poisson (rho s)))) (fun s => sumn N (fun i => cpow (rho s i) (5 / 3)) * (Cf * dV) + lambda * (inner N (w s) (lap (w s)) * (- / 2 * dV)))).
    - apply (is_derive_plus (fun s => exc (rho s))); [exact Dx|exact De].
    - apply (is_derive_plus (fun s => sumn N (fun i => cpow (rho s i) (5 / 3)) * (Cf * dV))); [exact Dt|]. apply (is_derive_scal (fun s => inner N (w s) (lap (w s)) * (- / 2 * dV))). exact Dl. }
  unfold plus, scal; cbn; unfold mult; cbn.
  replace (inner N (hamil (w 0)) w') with (inner N (fun i => / 2 * vxc (rho 0) i) (fun i => 2 * w 0 i * w' i) + inner N (fun i => / 2 * poisson (rho 0) i) (fun i => 2 * w 0 i * w' i)
    + inner N (fun i => / 2 * (5 / 3 * Cf * cpow (rho 0 i) (2 / 3))) (fun i => 2 * w 0 i * w' i) + - / 2 * lambda * inner N (lap (w 0)) w').
  2:{ unfold inner. rewrite <- sumn_mul, <- !sumn_add. apply sumn_ext. intros i Hi. unfold OfDft.hamil, rho. cbv zeta. field. }
  assert (HH : forall f g : Z -> R, inner N (fun i => / 2 * f i) g = / 2 * inner N f g).
  { intros f g. unfold inner. rewrite <- sumn_mul. apply sumn_ext. intros; ring. }
  rewrite (HH (vxc (rho 0))), (HH (poisson (rho 0))), (HH (fun i => 5 / 3 * Cf * cpow (rho 0 i) (2 / 3))). field.
Qed.

(** Derivative of the normalised line at its start. *)
Lemma line_derive u d : (forall i, (0 <= i < N)%Z -> 0 < u i) -> inner N u u * dV = Ne ->
  vpath N (fun s i => Rabs ((u i + s * d i) * (cst dV Ne / sqrt (inner N (fun i => u i + s * d i) (fun i => u i + s * d i)))))
    (fun i => d i - u i * (inner N u d * (dV / Ne))).
Proof.
  intros Hp Hq i Hi. set (n2 := fun s => inner N (fun i => u i + s * d i) (fun i => u i + s * d i)).
  assert (U : inner N u u = Ne / dV) by (rewrite <- Hq; field; lra).
  assert (EN : n2 0 = Ne / dV) by (unfold n2; rewrite inner_line, U; ring).
  assert (P0 : 0 < Ne / dV) by (apply Rdiv_lt_0_compat; assumption).
  assert (Dn : is_derive n2 0 (2 * inner N u d)).
  { apply (is_derive_ext (fun s => inner N u u + 2 * s * inner N u d + s * s * inner N d d)); [intros; symmetry; apply inner_line|]. auto_derive; [trivial|ring]. }
  assert (Ds : is_derive (fun s => sqrt (n2 s)) 0 (inner N u d / sqrt (Ne / dV))).
  { eapply der_eq; [apply (is_derive_sqrt n2 0 _ Dn); rewrite EN; exact P0|]. rewrite EN. field. apply Rgt_not_eq, sqrt_lt_R0, P0. }
  assert (C : sqrt (n2 0) = cst dV Ne) by (rewrite EN; reflexivity). pose proof (cst_pos dV Ne HV HE) as Cp. pose proof (cst2 dV Ne HV HE) as C2.
  change (sqrt (Ne / dV)) with (cst dV Ne) in Ds.
  assert (Dq : is_derive (fun s => (u i + s * d i) * (cst dV Ne / sqrt (n2 s))) 0 (d i - u i * (inner N u d * (dV / Ne)))).
  { eapply der_eq; [apply (mul_derive (fun s => u i + s * d i) (fun s => cst dV Ne / sqrt (n2 s)) 0 (d i) (- cst dV Ne * (inner N u d / cst dV Ne) / (sqrt (n2 0)) ^ 2))|].
    - auto_derive; [trivial|ring].
    - eapply der_eq; [apply (is_derive_div (fun _ => cst dV Ne) (fun s => sqrt (n2 s))); [apply const_derive|exact Ds|rewrite C; lra]|]. unfold minus, scal, plus, opp; cbn; unfold mult; cbn. rewrite C. field. lra.
    - cbv beta. rewrite C. replace (d i * (cst dV Ne / cst dV Ne)) with (d i) by (field; lra).
      replace ((u i + 0 * d i) * (- cst dV Ne * (inner N u d / cst dV Ne) / cst dV Ne ^ 2)) with (- (u i * (inner N u d / (cst dV Ne * cst dV Ne)))) by (field; lra).
      rewrite C2. field. lra. }
  eapply der_eq; [apply (is_derive_Rabs (fun s => (u i + s * d i) * (cst dV Ne / sqrt (n2 s)))); [exact Dq|]|]; rewrite C.
  - replace ((u i + 0 * d i) * (cst dV Ne / cst dV Ne)) with (u i) by (field; lra). specialize (Hp i Hi). lra.
  - replace ((u i + 0 * d i) * (cst dV Ne / cst dV Ne)) with (u i) by (field; lra). rewrite sign_eq_1 by now apply Hp. ring.
Qed.

Lemma econ_derive u d : (forall i, (0 <= i < N)%Z -> 0 < u i) -> inner N u u * dV = Ne -> 
  is_derive (fun s => match econ N dV Ne lambda natom esc b poisson exc lap u d s with Ok e => e | _ => 0 end) 0
    (- dV * inner N (residual N dV Ne lambda poisson vxc lap u) d / natom).
Proof.
  intros Hp Hq. pose proof (line_derive u d Hp Hq) as L. set (w := fun s i => Rabs _) in L.
  assert (U : inner N u u = Ne / dV) by (rewrite <- Hq; field; lra).
  assert (P0 : 0 < Ne / dV) by (apply Rdiv_lt_0_compat; assumption).
  assert (W0 : forall i, (0 <= i < N)%Z -> w 0 i = u i).
  { intros i Hi. unfold w. rewrite inner_line, U. replace (Ne / dV + 2 * 0 * inner N u d + 0 * 0 * inner N d d) with (Ne / dV) by ring.
    fold (cst dV Ne). pose proof (cst_pos dV Ne HV HE). replace ((u i + 0 * d i) * (cst dV Ne / cst dV Ne)) with (u i) by (field; lra). apply Rabs_right. specialize (Hp i Hi). lra. }
  apply (is_derive_ext_loc (fun s => energy (square (w s)) (w s) / natom)).
  { set (n2 := fun s => inner N u u + 2 * s * inner N u d + s * s * inner N d d).
    assert (LP : locally 0 (fun s => 0 < n2 s)).
    { assert (Cn : continuous n2 0). { apply (ex_derive_continuous n2). unfold n2. auto_derive. trivial. }
      apply (Cn (fun y => 0 < y)). apply (open_gt 0). unfold n2. rewrite U. lra. }
    revert LP. apply filter_imp. intros s Hs. unfold econ, extend. cbv zeta. rewrite inner_line. fold (n2 s).
    destruct (Req_EM_T (sqrt (n2 s)) 0) as [C|C]; [pose proof (sqrt_lt_R0 _ Hs); lra|]. cbn [obind]. unfold w. rewrite inner_line. reflexivity. }
  assert (DE : is_derive (fun s => energy (square (w s)) (w s)) 0 (2 * dV * inner N (hamil (w 0)) (fun i => d i - u i * (inner N u d * (dV / Ne))))) by (apply (energy_derive w _); [intros i Hi; rewrite W0; [apply Hp|]; exact Hi|exact L]).
  unfold Rdiv at 1. eapply der_eq; [apply (mul_derive (fun s => energy (square (w s)) (w s)) (fun _ => / natom) 0 _ 0 DE); apply const_derive|].
  rewrite Rmult_0_r, Rplus_0_r. apply (Rmult_eq_compat_r (/ natom)).
  assert (EH : forall i, (0 <= i < N)%Z -> hamil (w 0) i = hamil u i).
  { intros i Hi. unfold OfDft.hamil. cbv zeta. assert (S0 : forall j, (0 <= j < N)%Z -> square (w 0) j = square u j) by (intros j Hj; unfold square; now rewrite W0).
    rewrite (so_ext _ _ HL (w 0) u W0 i Hi), W0 by exact Hi. rewrite !(HP _ i Hi). rewrite (so_ext _ _ HG (fun j => square (w 0) j + b j) (fun j => square u j + b j)) by (intros; rewrite ?S0; auto).
    rewrite (HVX _ _ S0 i Hi), S0 by exact Hi. reflexivity. }
  unfold residual. cbv zeta. rewrite (inner_ext N (hamil (w 0)) _ (hamil u) _ EH (fun i _ => eq_refl)).
  set (F := hamil u). 
  assert (A : inner N F (fun i => d i - u i * (inner N u d * (dV / Ne))) = inner N F d - inner N F u * (inner N u d * (dV / Ne))).
  { unfold inner at 1. rewrite (sumn_ext N _ (fun i => F i * d i + (- (inner N u d * (dV / Ne))) * (F i * u i))) by (intros; ring). rewrite sumn_add, sumn_mul. unfold inner. ring. }
  assert (B : inner N (fun i => -2 * (F i - inner N F u * (dV / Ne) * u i)) d = -2 * inner N F d + 2 * (inner N F u * (dV / Ne)) * inner N u d).
  { unfold inner at 1. rewrite (sumn_ext N _ (fun i => -2 * (F i * d i) + (2 * (inner N F u * (dV / Ne))) * (u i * d i))) by (intros; ring). rewrite sumn_add, !sumn_mul. unfold inner. ring. }
  rewrite A, B. ring.
Qed.

(** The residual is orthogonal to [u]. *)
Lemma residual_orth u : inner N u u * dV = Ne -> inner N u (residual N dV Ne lambda poisson vxc lap u) = 0.
Proof.
  clear - HE HV. intros Hq. unfold residual. cbv zeta. set (F := hamil u).
  assert (B : inner N u (fun i => -2 * (F i - inner N F u * (dV / Ne) * u i)) = -2 * inner N F u + 2 * (inner N F u * (dV / Ne)) * inner N u u).
  { unfold inner at 1. rewrite (sumn_ext N _ (fun i => -2 * (F i * u i) + (2 * (inner N F u * (dV / Ne))) * (u i * u i))) by (intros; ring). rewrite sumn_add, !sumn_mul. unfold inner. ring. }
  rewrite B. replace (inner N u u) with (Ne / dV) by (rewrite <- Hq; field; lra). field. lra.
Qed.
End Grad.
