(** C75: the images that are enumerated are enough. *)
From Coq Require Import ZArith Reals List Lia Lra Bool.
From Verif Require Import CBase Nloc NlocLem VnlOp D3 D3Spec D3Lem.
Import ListNotations.
Local Open Scope R_scope.

Lemma cauchy u w : dotv u w ^ 2 <= n2 u * n2 w.
Proof.
  destruct u as [[a b] c], w as [[x y] z]. cbn [dotv n2].
  assert (E : (a ^ 2 + b ^ 2 + c ^ 2) * (x ^ 2 + y ^ 2 + z ^ 2) - (a * x + b * y + c * z) ^ 2
    = (a * y - b * x) ^ 2 + (a * z - c * x) ^ 2 + (b * z - c * y) ^ 2) by ring.
  pose proof (pow2_ge_0 (a * y - b * x)). pose proof (pow2_ge_0 (a * z - c * x)). pose proof (pow2_ge_0 (b * z - c * y)). lra.
Qed.

Lemma sq_le x y : 0 <= y -> x ^ 2 <= y ^ 2 -> x <= y.
Proof. intros Y H. destruct (Rle_lt_dec x y) as [|L]; [assumption|]. nra. Qed.

(** The coordinate of a vector along a lattice vector is at most its length over
    the height of the cell. *)
Lemma coord_bound lim f s t a b c : 0 < dotv f (cross s t) -> 0 <= lim ->
  n2 (vadd (vadd (vscal a f) (vscal b s)) (vscal c t)) <= lim -> Rabs a <= sqrt lim / solve_cos f s t.
Proof.
  intros D L H. set (u := vadd (vadd (vscal a f) (vscal b s)) (vscal c t)) in *. set (w := cross s t) in *.
  assert (E : dotv u w = a * dotv f w).
  { unfold u, w. destruct f as [[f1 f2] f3], s as [[s1 s2] s3], t as [[t1 t2] t3]. cbn. ring. }
  pose proof (cauchy u w) as CS. rewrite E in CS.
  assert (Pw : 0 < n2 w).
  { destruct (Rle_lt_or_eq_dec 0 (n2 w)) as [|Z]; [destruct w as [[x y] z]; cbn; nra|assumption|].
    pose proof (cauchy f w) as C2. rewrite <- Z in C2. nra. }
  unfold solve_cos. fold w. set (q := sqrt (n2 w)). assert (Q : 0 < q) by (apply sqrt_lt_R0; exact Pw).
  assert (Qq : q ^ 2 = n2 w) by (apply pow2_sqrt; lra).
  set (g := sqrt lim). assert (G : 0 <= g) by apply sqrt_pos. assert (Gg : g ^ 2 = lim) by (apply pow2_sqrt; lra).
  replace (g / (dotv f w / q)) with (g * q / dotv f w) by (field; lra).
  apply (Rmult_le_reg_r (dotv f w)); [exact D|]. unfold Rdiv. rewrite Rmult_assoc, Rinv_l, Rmult_1_r by lra.
  apply sq_le; [nra|]. rewrite !Rpow_mult_distr, <- (Rsqr_pow2 (Rabs a)), <- Rsqr_abs, Rsqr_pow2.
  rewrite Rpow_mult_distr in CS. rewrite Gg, Qq. apply (Rle_trans _ _ _ CS). apply Rmult_le_compat_r; lra.
Qed.

Lemma n_image_bound lim f s t x a b c (fi fj : R) : 0 < dotv f (cross s t) -> 0 <= lim ->
  0 <= fi < 1 -> 0 <= fj < 1 -> a = fj - fi + IZR x ->
  n2 (vadd (vadd (vscal a f) (vscal b s)) (vscal c t)) <= lim ->
  (- n_image lim true f s t <= x <= n_image lim true f s t)%Z.
Proof.
  intros D L Fi Fj E H. pose proof (coord_bound _ _ _ _ _ _ _ D L H) as B. cbn [n_image].
  set (rho := sqrt lim / solve_cos f s t) in *. destruct (archimed rho) as [U _].
  assert (X : Rabs (IZR x) < IZR (up rho) + 1).
  { assert (Rabs (IZR x) <= Rabs a + Rabs (fi - fj)).
    { replace (IZR x) with (a + (fi - fj)) by lra. apply Rabs_triang. }
    assert (Rabs (fi - fj) < 1) by (apply Rabs_def1; lra). lra. }
  rewrite <- plus_IZR in X. apply Rabs_def2 in X. destruct X as [X1 X2]. rewrite <- opp_IZR in X2.
  apply lt_IZR in X1. apply lt_IZR in X2. lia.
Qed.

(** Every lattice image of every atom within the limit is enumerated. *)
Theorem C75_images (lim : R) (bc : bool * bool * bool) (l : lat) (pos : Z -> vec) (i j : Z) (m : img) :
  0 <= lim -> 0 < detLattice l -> in_cell bc l (pos i) -> in_cell bc l (pos j) -> lattice_point bc m ->
  dist2 pos l i j m <= lim -> In m (imgs (set_criteria lim bc l)).
Proof.
  intros L D Ci Cj M H. destruct l as [[l0 l1] l2], bc as [[p0 p1] p2], m as [[x y] z].
  destruct Ci as (a0 & a1 & a2 & Ei & A0 & A1 & A2). destruct Cj as (b0 & b1 & b2 & Ej & B0 & B1 & B2).
  destruct M as (M0 & M1 & M2). apply in_imgs. cbn [set_criteria].
  assert (H' : n2 (vadd (vadd (vscal (b0 - a0 + IZR x) l0) (vscal (b1 - a1 + IZR y) l1)) (vscal (b2 - a2 + IZR z) l2)) <= lim).
  { unfold dist2 in H. rewrite Ei, Ej in H. eapply Rle_trans; [|exact H]. apply Req_le. unfold ivec.
    destruct l0 as [[? ?] ?], l1 as [[? ?] ?], l2 as [[? ?] ?]. cbn. ring. }
  assert (D0 : 0 < dotv l0 (cross l1 l2)).
  { eapply Rlt_le_trans; [exact D|]. apply Req_le. destruct l0 as [[? ?] ?], l1 as [[? ?] ?], l2 as [[? ?] ?]. cbn. ring. }
  assert (D1 : 0 < dotv l1 (cross l2 l0)).
  { eapply Rlt_le_trans; [exact D|]. apply Req_le. destruct l0 as [[? ?] ?], l1 as [[? ?] ?], l2 as [[? ?] ?]. cbn. ring. }
  assert (D2 : 0 < dotv l2 (cross l0 l1)).
  { eapply Rlt_le_trans; [exact D|]. apply Req_le. destruct l0 as [[? ?] ?], l1 as [[? ?] ?], l2 as [[? ?] ?]. cbn. ring. }
  repeat match goal with |- _ /\ _ => split end.
  all: try (destruct p0; [|rewrite (M0 eq_refl); cbn; lia]; pose proof (n_image_bound lim l0 l1 l2 x _ _ _ a0 b0 D0 L (A0 eq_refl) (B0 eq_refl) eq_refl H'); lia).
  all: try (destruct p1; [|rewrite (M1 eq_refl); cbn; lia];
    assert (H1 : n2 (vadd (vadd (vscal (b1 - a1 + IZR y) l1) (vscal (b2 - a2 + IZR z) l2)) (vscal (b0 - a0 + IZR x) l0)) <= lim)
      by (eapply Rle_trans; [|exact H']; apply Req_le; destruct l0 as [[? ?] ?], l1 as [[? ?] ?], l2 as [[? ?] ?]; cbn; ring);
    pose proof (n_image_bound lim l1 l2 l0 y _ _ _ a1 b1 D1 L (A1 eq_refl) (B1 eq_refl) eq_refl H1); lia).
  all: destruct p2; [|rewrite (M2 eq_refl); cbn; lia];
    assert (H1 : n2 (vadd (vadd (vscal (b2 - a2 + IZR z) l2) (vscal (b0 - a0 + IZR x) l0)) (vscal (b1 - a1 + IZR y) l1)) <= lim)
      by (eapply Rle_trans; [|exact H']; apply Req_le; destruct l0 as [[? ?] ?], l1 as [[? ?] ?], l2 as [[? ?] ?]; cbn; ring);
    pose proof (n_image_bound lim l2 l0 l1 z _ _ _ a2 b2 D2 L (A2 eq_refl) (B2 eq_refl) eq_refl H1); lia.
Qed.
Print Assumptions C75_images.

Lemma n_image_mono lim lim' p f s t : 0 < dotv f (cross s t) -> 0 <= lim <= lim' ->
  (0 <= n_image lim p f s t <= n_image lim' p f s t)%Z.
Proof.
  intros D L. destruct p; cbn [n_image]; [|lia].
  assert (Pw : 0 < n2 (cross s t)).
  { destruct (Rle_lt_or_eq_dec 0 (n2 (cross s t))) as [|Z]; [destruct (cross s t) as [[x y] z]; cbn; nra|assumption|].
    pose proof (cauchy f (cross s t)) as C2. rewrite <- Z in C2. nra. }
  assert (Q : 0 < solve_cos f s t) by (apply Rdiv_lt_0_compat; [exact D|apply sqrt_lt_R0; exact Pw]).
  assert (R1 : 0 <= sqrt lim / solve_cos f s t) by (apply Rmult_le_pos; [apply sqrt_pos|apply Rlt_le, Rinv_0_lt_compat, Q]).
  assert (R2 : sqrt lim / solve_cos f s t <= sqrt lim' / solve_cos f s t).
  { apply Rmult_le_compat_r; [apply Rlt_le, Rinv_0_lt_compat, Q|]. apply sqrt_le_1; lra. }
  destruct (archimed (sqrt lim / solve_cos f s t)) as [U1 U2]. destruct (archimed (sqrt lim' / solve_cos f s t)) as [U3 U4].
  split.
  - assert (0 < up (sqrt lim / solve_cos f s t))%Z by (apply lt_IZR; lra). lia.
  - assert (up (sqrt lim / solve_cos f s t) < up (sqrt lim' / solve_cos f s t) + 1)%Z by (apply lt_IZR; rewrite plus_IZR; lra). lia.
Qed.

(** So the numbers of images that the code sets meet the conditions on the images
    that the gradient needs. *)
Theorem C75_setup (cn_thr rthr : R) (bc : bool * bool * bool) (l : lat) (pos : Z -> vec) (n : Z) :
  0 <= cn_thr <= rthr -> 0 < detLattice l -> (forall i, (0 <= i < n)%Z -> in_cell bc l (pos i)) ->
  (let '(a, b, c) := set_criteria cn_thr bc l in let '(a', b', c') := set_criteria rthr bc l in
   (0 <= a <= a' /\ 0 <= b <= b' /\ 0 <= c <= c')%Z) /\
  (forall i j m, (0 <= i < n)%Z -> (0 <= j < n)%Z -> In m (imgs (set_criteria rthr bc l)) ->
     ~ In m (imgs (set_criteria cn_thr bc l)) -> cn_thr < dist2 pos l i j m).
Proof.
  intros T D C. split.
  - destruct l as [[l0 l1] l2], bc as [[p0 p1] p2]. cbn [set_criteria].
    assert (D0 : 0 < dotv l0 (cross l1 l2)).
    { eapply Rlt_le_trans; [exact D|]. apply Req_le. destruct l0 as [[? ?] ?], l1 as [[? ?] ?], l2 as [[? ?] ?]. cbn. ring. }
    assert (D1 : 0 < dotv l1 (cross l2 l0)).
    { eapply Rlt_le_trans; [exact D|]. apply Req_le. destruct l0 as [[? ?] ?], l1 as [[? ?] ?], l2 as [[? ?] ?]. cbn. ring. }
    assert (D2 : 0 < dotv l2 (cross l0 l1)).
    { eapply Rlt_le_trans; [exact D|]. apply Req_le. destruct l0 as [[? ?] ?], l1 as [[? ?] ?], l2 as [[? ?] ?]. cbn. ring. }
    split; [|split]; apply n_image_mono; assumption.
  - intros i j m Hi Hj Hm Hn. destruct (Rlt_le_dec cn_thr (dist2 pos l i j m)) as [|L]; [assumption|]. exfalso. apply Hn.
    apply (C75_images cn_thr bc l pos i j m); try assumption; [lra|now apply C|now apply C|].
    destruct l as [[l0 l1] l2], bc as [[p0 p1] p2], m as [[x y] z]. apply in_imgs in Hm. cbn [set_criteria] in Hm.
    unfold lattice_point. repeat split; intros ->; cbn [n_image] in Hm; lia.
Qed.
Print Assumptions C75_setup.
