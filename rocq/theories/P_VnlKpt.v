(** C70, k-point part: [Vnl_vec_mult_kpt]
    (/repo/src/nlocVecRoutines.c:889-1003). *)
From Coq Require Import ZArith QArith Qround Qreals Reals List Lia Lra Permutation.
From Coquelicot Require Import Complex.
From Verif Require Import CBase Nloc NlocSpec NlocLem P_Nloc VnlOp VnlLem VnlSpec VnlMain P_Vnl VnlKpt.
Import ListNotations.
Local Open Scope R_scope.

(** Phase of a plane wave of wave vector [k] over the lattice vector of the
    image [im]. *)
Definition k_dot (k : kpoint) (c : cell) (im : tri) : R :=
  let '(p, q, r) := im in
  k1 k * (IZR p * Q2R (a_len (ax c))) + k2 k * (IZR q * Q2R (a_len (ay c))) +
  k3 k * (IZR r * Q2R (a_len (az c))).

Lemma floor_shift (a : axis) x p : (0 < a_len a)%Q ->
  floor_L a (x + a_len a * inject_Z p)%Q = floor_L a x + IZR p * Q2R (a_len a).
Proof.
  intros H. unfold floor_L.
  assert (E : Qfloor ((x + a_len a * inject_Z p) / a_len a) = (Qfloor (x / a_len a) + p)%Z).
  { assert (EQ : ((x + a_len a * inject_Z p) / a_len a == x / a_len a + inject_Z p)%Q).
    { field. intros E. rewrite E in H. now apply Qlt_irrefl in H. }
    rewrite (Qfloor_comp _ _ EQ).
    apply Z.le_antisymm.
    - assert (G : (inject_Z (Qfloor (x / a_len a + inject_Z p) - p) <= x / a_len a)%Q).
      { unfold Zminus. rewrite inject_Z_plus, inject_Z_opp.
        pose proof (Qfloor_le (x / a_len a + inject_Z p)). apply (Qplus_le_l _ _ (inject_Z p)).
        setoid_replace (inject_Z (Qfloor (x / a_len a + inject_Z p)) + - inject_Z p + inject_Z p)%Q
          with (inject_Z (Qfloor (x / a_len a + inject_Z p))) by ring. assumption. }
      apply le_floor in G. lia.
    - apply le_floor. rewrite inject_Z_plus. apply Qplus_le_compat; [apply Qfloor_le|apply Qle_refl]. }
  rewrite E, plus_IZR. ring.
Qed.

Lemma theta_image k c p0 im : (0 < a_len (ax c))%Q -> (0 < a_len (ay c))%Q -> (0 < a_len (az c))%Q ->
  theta k c (image_pos c p0 im) = theta k c p0 - k_dot k c im.
Proof.
  intros Hx Hy Hz. destruct p0 as [[x y] z], im as [[p q] r]. unfold theta, image_pos, k_dot.
  rewrite !floor_shift by assumption. ring.
Qed.

(** The product of the two factors, for two images of one atom, is the phase
    of the Bloch wave between the two images, whatever the position of the
    atom in the cell. *)
Theorem C70_bloch : forall k c p0 im im',
  (0 < a_len (ax c))%Q -> (0 < a_len (ay c))%Q -> (0 < a_len (az c))%Q ->
  let phi := k_dot k c im - k_dot k c im' in
  Cmult (bloch2 k c (image_pos c p0 im)) (bloch1 k c (image_pos c p0 im')) = (cos phi, sin phi).
Proof.
  intros k c p0 im im' Hx Hy Hz. cbv zeta. unfold bloch1, bloch2, Cmult. cbn [fst snd].
  rewrite !theta_image by assumption.
  set (t := theta k c p0). set (a := k_dot k c im). set (b := k_dot k c im').
  replace (a - b) with ((t - b) - (t - a)) by ring. rewrite (cos_minus (t - b) (t - a)), (sin_minus (t - b) (t - a)).
  apply injective_projections; cbn [fst snd]; ring.
Qed.
Print Assumptions C70_bloch.

(** At k = 0 the factors are 1: the operator is that of the Gamma point. *)
Theorem C70_gamma_point : forall c r, bloch1 (Kpoint 0 0 0) c r = RtoC 1 /\ bloch2 (Kpoint 0 0 0) c r = RtoC 1.
Proof.
  intros c [[x y] z]. unfold bloch1, bloch2, theta. cbn [k1 k2 k3].
  replace (- 0 * floor_L (ax c) x - 0 * floor_L (ay c) y - 0 * floor_L (az c) z) with 0 by ring.
  rewrite cos_0, sin_0. split; apply injective_projections; cbn; ring.
Qed.
Print Assumptions C70_gamma_point.

(** The operator of a k-point is Hermitian. *)
Theorem C70_kpt : forall chi gamma (dV : R) k c pos ats ps, 
  let chi' := fun ty cl v => RtoC (chi ty cl v) in
  let gamma' := fun ty => map RtoC (gamma ty) in
  data_ok (RtoC 0) chi' gamma' c ats ps ->
  forall grid All, all_images c pos grid (sites 0 0 ats ps) All ->
  forall ncol ldi ldo X prs, (0 <= ncol)%Z -> prs <> [] ->
  Forall (process_ok c pos ats ncol ldi ldo X) prs ->
  Permutation (flat_map (fun pr => nodes (pr_dom pr)) prs) grid ->
  exists V hs,
    Vnl_all (RtoC 0) Cplus Cmult chi' gamma' (by_row (bloch1 k c)) (by_row (bloch2 k c)) (RtoC dV) c
      (combine (map t_n ats) ps) ncol ldi ldo prs = Ok hs /\
    adds Cplus ncol ldo (fun n => V (X n)) prs hs /\
    forall f g, let ip u v := ksum (RtoC 0) Cplus (map (fun nd : tri => Cmult (Cconj (u nd)) (v nd)) grid) in
      ip g (V f) = Cconj (ip f (V g)).
Proof.
  intros chi gamma dV k c pos ats ps chi' gamma' HD grid All HA ncol ldi ldo X prs Hnc NE HP HG.
  destruct (C70_operator C (RtoC 0) (RtoC 1) Cplus Cmult Cminus Copp C_ring_theory chi' gamma' (RtoC dV)
    (bloch1 k c) (bloch2 k c) c pos ats ps grid All HD HA ncol ldi ldo X prs Hnc NE HP HG) as (hs & E & A).
  eexists (Vnl_spec (RtoC 0) Cplus Cmult chi' gamma' (RtoC dV) c pos All (bloch1 k c) (bloch2 k c) grid (sites 0 0 ats ps)),
    hs. split; [exact E|]. split; [exact A|].
  assert (CR : forall x : R, Cconj (RtoC x) = RtoC x) by (intros x; apply injective_projections; cbn; ring).
  apply (C70_hermitian C (RtoC 0) (RtoC 1) Cplus Cmult Cminus Copp C_ring_theory Cconj).
  - intros [a b] [a' b']. apply injective_projections; cbn; ring.
  - intros [a b] [a' b']. apply injective_projections; cbn; ring.
  - apply CR.
  - intros [a b]. apply injective_projections; cbn; ring.
  - intros. apply CR.
  - intros ty x Hx. apply in_map_iff in Hx. destruct Hx as (y & <- & _). apply CR.
  - apply CR.
  - reflexivity.
Qed.
Print Assumptions C70_kpt.

(** A half lattice vector: neighbouring images have opposite sign. *)
Example C70_bloch_example :
  Cmult (bloch2 (Kpoint (PI / 6) 0 0) ex_cell (image_pos ex_cell (4%Q, 1%Q, 1%Q) (-1, 0, 0)%Z))
        (bloch1 (Kpoint (PI / 6) 0 0) ex_cell (image_pos ex_cell (4%Q, 1%Q, 1%Q) (0, 0, 0)%Z)) = RtoC (-1).
Proof.
  rewrite C70_bloch by reflexivity. unfold k_dot. cbn [k1 k2 k3 ex_cell ex_axis a_len ax ay az].
  assert (E6 : Q2R 6 = 6) by (unfold Q2R; cbn; lra). rewrite E6.
  replace (PI / 6 * (IZR (-1) * 6) + 0 * (IZR 0 * 6) + 0 * (IZR 0 * 6) -
    (PI / 6 * (IZR 0 * 6) + 0 * (IZR 0 * 6) + 0 * (IZR 0 * 6))) with (- PI) by field.
  rewrite cos_neg, sin_neg, cos_PI, sin_PI. apply injective_projections; cbn; ring.
Qed.
