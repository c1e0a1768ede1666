(** C45: the finite-difference weights differentiate polynomials exactly.

    Specification: the standard library's [derivable_pt_lim] (limit of
    difference quotients); nothing of the weight formulas occurs in it. *)
From Coq Require Import Reals Lra List Lia ZArith.
From Verif Require Import CBase FDWeights.
Import ListNotations.
Local Open Scope R_scope.

(** For half-width [n] the first-derivative stencil applied to a polynomial
    with at most 2n+1 coefficients (degree at most 2n) is its derivative. *)
Theorem C45_first_derivative_exact n h x (l : list R) :
  (1 <= n)%nat -> h <> 0 -> (length l <= 2 * n + 1)%nat ->
  derivable_pt_lim (peval l) x (apply_D1 n h (peval l) x).
Proof.
  intros Hn Hh Hl. destruct (pshift l x) as [l' [Ll Hs]].
  replace (apply_D1 n h (peval l) x) with (peval (pderiv l') 0).
  - eapply shift_lim; [exact Hs|apply peval_deriv].
  - rewrite peval_0, pderiv_nth0.
    transitivity (apply_D1 n h (fun t => t ^ 0 * peval l' t) 0).
    + rewrite D1_shifted by (assumption || cbn; lia). reflexivity.
    + unfold apply_D1. apply psum_ext; intros p _. unfold Rminus. rewrite !Hs. cbn [pow].
      rewrite !Rmult_1_l, !Rplus_0_l. reflexivity.
Qed.
Print Assumptions C45_first_derivative_exact.

(** Second derivative, degree at most 2n+1, whenever the [int] products do not
    overflow (n <= 46340); the code then has no undefined behaviour. *)
Theorem C45_second_derivative_exact n h x (l : list R) :
  (1 <= n)%nat -> (Z.of_nat n <= 46340)%Z -> h <> 0 -> (length l <= 2 * n + 2)%nat ->
  exists f' v,
    (forall y, derivable_pt_lim (peval l) y (f' y)) /\
    apply_D2 n h (peval l) x = Ok v /\ derivable_pt_lim f' x v.
Proof.
  intros Hn HI Hh Hl. destruct (pshift l x) as [l' [Ll Hs]].
  exists (peval (pderiv l)). eexists. split; [|split].
  - intros y; apply peval_deriv.
  - rewrite D2_ok by exact HI. reflexivity.
  - match goal with |- derivable_pt_lim _ _ ?v => replace v with (peval (pderiv (pderiv l')) 0) end.
    + eapply shift_lim; [apply shift_deriv; exact Hs|apply peval_deriv].
    + rewrite peval_0, pderiv_nth0, pderiv_nth1.
      transitivity (D2v n h (fun t => t ^ 0 * peval l' t)).
      * rewrite D2_shifted by (assumption || cbn; lia). reflexivity.
      * unfold D2v. f_equal.
        -- f_equal. rewrite <- (Rplus_0_r x) at 1. rewrite Hs. cbn. lra.
        -- apply psum_ext; intros p _. unfold Rminus. rewrite !Hs. cbn [pow].
           rewrite !Rmult_1_l. reflexivity.
Qed.
Print Assumptions C45_second_derivative_exact.

(** The products [p*p] leave [int] exactly for half-widths above 46340. *)
Theorem C45_weight_overflow n : FDweights_D2 n = UB <-> (46340 < Z.of_nat n)%Z.
Proof.
  unfold FDweights_D2, INT_MAX.
  destruct (Z.leb_spec (Z.of_nat n * Z.of_nat n) 2147483647); split; intros; try discriminate; try reflexivity; nia.
Qed.
Print Assumptions C45_weight_overflow.

(** One degree more is not differentiated exactly: the bound 2n is sharp for
    the smallest order already (h^2 error of the three-point formula). *)
Example C45_bound_is_sharp : exists l, length l = 4%nat /\
  ~ derivable_pt_lim (peval l) 0 (apply_D1 1 1 (peval l) 0).
Proof.
  exists [0; 0; 0; 1]. split; [reflexivity|]. intros D.
  pose proof (uniqueness_limite _ _ _ _ D (peval_deriv [0;0;0;1] 0)) as E.
  unfold apply_D1, FDweights_D1, fract, sgn in E. cbn in E. lra.
Qed.

(** Concrete case: order 4 (n = 2), the classical weights 2/3, -1/12 and
    -5/2, 4/3, -1/12. *)
Example C45_example_order4 :
  FDweights_D1 2 1 = 2 / 3 /\ FDweights_D1 2 2 = - (1 / 12) /\
  (forall w, FDweights_D2 2 = Ok w -> w O = - (5 / 2) /\ w 1%nat = 4 / 3 /\ w 2%nat = - (1 / 12)).
Proof.
  unfold FDweights_D1, FDweights_D2, fract, sgn. cbn.
  split; [lra|split; [lra|]]. intros w [= <-]. cbn. lra.
Qed.
Example C45_example_hyps :
  derivable_pt_lim (peval [1; 2; 0; 5; 7]) 3 (apply_D1 2 (1 / 10) (peval [1; 2; 0; 5; 7]) 3).
Proof. apply C45_first_derivative_exact; cbn; try lia; lra. Qed.
