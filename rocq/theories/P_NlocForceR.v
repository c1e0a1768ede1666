(** C79: real and complex orbitals (/repo/src/forces.c:750-1392). *)
From Coq Require Import ZArith QArith List Reals Lra.
From Coquelicot Require Import Complex Coquelicot.
From Verif Require Import CBase Nloc NlocSpec VnlOp VnlSpec VnlKpt NlocForce NlocForceSpec NlocForceGrp P_NlocForce.
Import ListNotations.
Local Open Scope R_scope.

(** A k-point of the code: [bloch_fac] of the first integral is
    [cos(theta) - sin(theta) * I] (forces.c:1198-1199), of the second
    [cos(theta) + sin(theta) * I] (1272-1273). *)
Definition code_kp (k : kpoint) (c : cell) (wt : C) : kp C := Kp (bloch2 k c) (bloch1 k c) wt.

(** [creal] as a complex number. *)
Definition creal (z : C) : C := RtoC (fst z).

(** The hypotheses of [C79_forces] about conjugation hold for the complex
    conjugate, for real projectors and for the k-points of the code. *)
Theorem C79_setting :
  ring_theory (RtoC 0) (RtoC 1) Cplus Cmult Cminus Copp eq /\
  conjugation (RtoC 0) Cplus Cmult Cconj /\ (forall z, Cconj (Cconj z) = z) /\ (forall x : R, Cconj (RtoC x) = RtoC x) /\
  (forall z, Cplus (creal z) (creal z) = Cplus z (Cconj z)) /\
  (forall k c wt r, kp_a (code_kp k c wt) r = Cconj (kp_b (code_kp k c wt) r)) /\
  ring_theory 0 1 Rplus Rmult Rminus Ropp eq /\ conjugation 0 Rplus Rmult (fun z => z).
Proof.
  split; [exact C_ring_theory|]. split.
  { split; [|split].
    - intros [a b] [a' b']. unfold Cplus, Cconj. cbn [fst snd]. f_equal. ring.
    - intros [a b] [a' b']. unfold Cmult, Cconj. cbn [fst snd]. f_equal; ring.
    - unfold Cconj, RtoC. cbn [fst snd]. f_equal. ring. }
  split. { intros [a b]. unfold Cconj. cbn [fst snd]. f_equal. ring. }
  split. { intros x. unfold Cconj, RtoC. cbn [fst snd]. f_equal. ring. }
  split. { intros [a b]. unfold creal, Cplus, Cconj, RtoC. cbn [fst snd]. f_equal; ring. }
  split. { intros k c wt [[x y] z]. unfold code_kp. cbn [kp_a kp_b]. unfold bloch1, bloch2, Cconj. reflexivity. }
  split. { exact RTheory. }
  repeat split.
Qed.
Print Assumptions C79_setting.

(** The force is minus the derivative of the atom's nonlocal energy along the
    displacement of all orbitals by their derivatives: at the Gamma point with
    real orbitals, and at k-points with complex ones. *)
Theorem C79_hellmann_feynman :
  (forall chi gamma dV occfac c pos All grid os st d,
    is_derive (fun t => atom_energy 0 Rplus Rmult chi gamma dV occfac (fun z => z) c pos All grid
        (fun o nd => o_psi o nd + t * o_d o d nd) os st) 0
      (- atom_force 0 1 Rplus Rmult Ropp chi gamma dV occfac (fun z => z) (fun z => z) c pos All grid os st d)) /\
  (forall chi gamma (dV : R) occfac c pos All grid os st d,
    is_derive (fun t : R => fst (atom_energy (RtoC 0) Cplus Cmult chi gamma (RtoC dV) occfac Cconj c pos All grid
        (fun o nd => Cplus (o_psi o nd) (Cmult (RtoC t) (o_d o d nd))) os st)) 0
      (- fst (atom_force (RtoC 0) (RtoC 1) Cplus Cmult Copp chi gamma (RtoC dV) occfac Cconj creal c pos All grid os st d))).
Proof.
  destruct C79_setting as (S1 & S2 & S3 & S4 & S5 & _ & S7 & S8). split.
  - intros chi gamma dV occfac c pos All grid os st d.
    set (E0 := atom_energy 0 Rplus Rmult chi gamma dV occfac (fun z => z) c pos All grid o_psi os st).
    set (E2 := atom_energy 0 Rplus Rmult chi gamma dV occfac (fun z => z) c pos All grid (fun o => o_d o d) os st).
    set (F := atom_force _ _ _ _ _ _ _ _ _ _ _ _ _ _ _ _ _ _).
    apply (is_derive_ext (fun t => E0 - t * F + t * t * E2)).
    { intros t. symmetry. unfold E0, E2, F. apply (C79_derivative R 0 1 Rplus Rmult Rminus Ropp S7); auto. }
    auto_derive; [exact I|]. ring.
  - intros chi gamma dV occfac c pos All grid os st d.
    set (E0 := atom_energy (RtoC 0) Cplus Cmult chi gamma (RtoC dV) occfac Cconj c pos All grid o_psi os st).
    set (E2 := atom_energy (RtoC 0) Cplus Cmult chi gamma (RtoC dV) occfac Cconj c pos All grid (fun o => o_d o d) os st).
    set (F := atom_force _ _ _ _ _ _ _ _ _ _ _ _ _ _ _ _ _ _).
    apply (is_derive_ext (fun t => fst E0 - t * fst F + t * t * fst E2)).
    { intros t. symmetry.
      transitivity (fst (Cplus (Cminus E0 (Cmult (RtoC t) F)) (Cmult (Cmult (RtoC t) (RtoC t)) E2))).
      - f_equal. unfold E0, E2, F. apply (C79_derivative C (RtoC 0) (RtoC 1) Cplus Cmult Cminus Copp S1); auto.
      - destruct E0 as [a b], E2 as [a' b'], F as [a2 b2]. unfold Cminus, Cplus, Copp, Cmult, RtoC. cbn [fst snd]. match goal with |- @eq _ ?x ?y => change (@eq R x y) end. ring. }
    generalize (fst E0) (fst F) (fst E2). clear. intros a b e. auto_derive; [exact I|]. ring.
Qed.
Print Assumptions C79_hellmann_feynman.

(** One s projector of value 1 at the only node, Gamma 2, psi = 3,
    derivative 5: energy 2 (3 + 5 t)^2, force - 60. *)
Example C79_hellmann_feynman_example :
  let chi := fun (_ : nat) (_ : Z * Z * Z) (_ : Q * Q * Q) => 1 in
  let st := Site 0 (Psp 1 [1; 0]%Z) 1%Q 0 in
  let o := Orb 1 1 (fun _ => 1) (fun _ => 3) (fun _ _ => 5) in
  atom_force 0 1 Rplus Rmult Ropp chi (fun _ => [2]) 1 1 (fun z => z) (fun z => z)
    (Cell (Axis 0 1 1 0 0) (Axis 0 1 1 0 0) (Axis 0 1 1 0 0) 0 1 0 0 1 0 1 false) [(0%Q, 0%Q, 0%Q)]
    (fun _ => [(0, 0, 0)%Z]) [(0, 0, 0)%Z] [o] st 0%Z = - 60.
Proof.
  cbv zeta. unfold atom_force, form, coef, projector, gamma_of. cbn [map st_psp].
  change (cols (Psp 1 [1; 0]%Z)) with [(0, 0, 0)%Z]. cbn. ring.
Qed.
