(** Lemmas for MggaX.v: the variables, the switching functions and the enhancement factors along a path. *)
From Coq Require Import Reals ZArith Bool Lra Psatz.
From Coquelicot Require Import Coquelicot.
From Verif Require Import CBase Xc XcLem MggaX.
Local Open Scope R_scope.

(** ** Locality *)
Lemma der_ext_open (c f g : R -> R) (t c' l : R) :
  0 < c t -> is_derive c t c' -> (forall x, 0 < c x -> f x = g x) -> is_derive g t l -> is_derive f t l.
Proof. intros. eapply der_ext_pos; eauto. Qed.
Lemma loc_pos (c : R -> R) (t c' : R) : 0 < c t -> is_derive c t c' -> locally t (fun x => 0 < c x).
Proof.
  intros N D. assert (Cn : continuous c t) by exact (ex_derive_continuous c t (ex_intro _ c' D)).
  exact (Cn _ (open_gt 0 (c t) N)).
Qed.
Lemma der_loc (P : R -> Prop) (f g : R -> R) (t l : R) :
  locally t P -> (forall x, P x -> f x = g x) -> is_derive g t l -> is_derive f t l.
Proof.
  intros L E G. apply (is_derive_ext_loc g); [|exact G]. revert L. apply filter_imp. intros x Hx. symmetry. now apply E.
Qed.

(** ** Derivatives in the two densities and the kinetic energy density along a path *)
Section Path.
  Variables n g u : R -> R.
  Variables t n' g' u' : R.
  Hypothesis Hn : is_derive n t n'.
  Hypothesis Hg : is_derive g t g'.
  Hypothesis Hu : is_derive u t u'.
  Hypothesis Pn : 0 < n t.
  Definition dpath (F : R -> R) (a b c : R) : Prop := is_derive F t (a * n' + b * g' + c * u').

  Definition Sf (n g : R) : R := g / (2 * c13 * Rpower n (4 / 3)).
  Definition Snf (n g : R) : R := -2 * g / (3 * c13 * Rpower n (7 / 3)).
  Definition Sgf (n g : R) : R := 1 / (2 * c13 * Rpower n (4 / 3)).
  Definition twf (n g : R) : R := g * g / (8 * n).
  Definition tuf (n : R) : R := 3 / 10 * c23 * Rpower n (5 / 3).
  Definition twnf (n g : R) : R := - g * g / (8 * n * n).
  Definition twgf (n g : R) : R := g / (4 * n).
  Definition tunf (n : R) : R := c23 / 2 * Rpower n (2 / 3).
  Lemma c13_pos : 0 < c13. Proof. apply Rpower_pos. Qed.
  Lemma c23_pos : 0 < c23. Proof. pose proof c13_pos. now apply Rmult_lt_0_compat. Qed.
  Lemma pow73 x : 0 < x -> Rpower x (7 / 3) = Rpower x (4 / 3) * x.
  Proof. intros H. replace (7 / 3) with (4 / 3 + 1) by field. now rewrite Rpower_plus, Rpower_1. Qed.
  Lemma pow53 x : 0 < x -> Rpower x (5 / 3) = Rpower x (2 / 3) * x.
  Proof. intros H. replace (5 / 3) with (2 / 3 + 1) by field. now rewrite Rpower_plus, Rpower_1. Qed.
  Lemma basic_run r d : 0 < r -> basic r d = Ok ((Sf r d, Snf r d, Sgf r d), twf r d, tuf r, twnf r d, twgf r d, tunf r).
  Proof.
    intros H. pose proof c13_pos. pose proof (Rpower_pos r (4 / 3)). pose proof (Rpower_pos r (7 / 3)).
    assert (0 < 2 * c13 * Rpower r (4 / 3)) by (repeat apply Rmult_lt_0_compat; lra).
    assert (0 < 3 * c13 * Rpower r (7 / 3)) by (repeat apply Rmult_lt_0_compat; lra).
    assert (0 < 8 * r * r) by (repeat apply Rmult_lt_0_compat; lra).
    apply wp_ok. unfold basic.
    apply wp_pow; [exact H|]. apply wp_div; [lra|]. apply wp_div; [lra|]. apply wp_pow; [exact H|]. cbv zeta.
    apply wp_pow; [exact H|]. apply wp_div; [lra|]. apply wp_div; [lra|]. apply wp_div; [lra|]. apply wp_div; [lra|].
    apply wp_pow; [exact H|]. reflexivity.
  Qed.
  Lemma S_der : dpath (fun x => Sf (n x) (g x)) (Snf (n t) (g t)) (Sgf (n t) (g t)) 0.
  Proof.
    pose proof c13_pos. pose proof (Rpower_pos (n t) (4 / 3)). unfold dpath.
    eapply is_derive_eq.
    - unfold Sf, Rdiv. apply der_mult; [exact Hg|]. apply der_inv.
      + assert (0 < 2 * c13 * Rpower (n t) (4 * / 3)) by (repeat apply Rmult_lt_0_compat; try lra; exact (Rpower_pos _ _)). lra.
      + apply der_scal. apply der_pow; [exact Pn|exact Hn].
    - unfold Snf, Sgf. rewrite pow73 by exact Pn. cbv beta. change (4 * / 3) with (4 / 3).
      set (y := Rpower (n t) (4 / 3)) in *. clearbody y. field. lra.
  Qed.
  Lemma tw_der : dpath (fun x => twf (n x) (g x)) (twnf (n t) (g t)) (twgf (n t) (g t)) 0.
  Proof.
    unfold dpath. eapply is_derive_eq.
    - unfold twf, Rdiv. apply der_mult; [apply der_mult; exact Hg|]. apply der_inv; [lra|]. apply der_scal. exact Hn.
    - unfold twnf, twgf. cbv beta. field. lra.
  Qed.
  Lemma tu_der : dpath (fun x => tuf (n x)) (tunf (n t)) 0 0.
  Proof.
    unfold dpath. eapply is_derive_eq.
    - unfold tuf. apply der_scal. apply der_pow; [exact Pn|exact Hn].
    - unfold tunf. rewrite pow53 by exact Pn. cbv beta. field. lra.
  Qed.
  Lemma tu_pos r : 0 < tuf r.
  Proof. pose proof c23_pos. pose proof (Rpower_pos r (5 / 3)). unfold tuf. apply Rmult_lt_0_compat; [apply Rmult_lt_0_compat; lra|lra]. Qed.
  Lemma tw_nonneg r d : 0 < r -> 0 <= twf r d.
  Proof. intros H. unfold twf. apply Rmult_le_pos; [nra|]. left. apply Rinv_0_lt_compat. lra. Qed.

  (** alpha = (tau - tauw) / (tauUnif + c + eta tauw) *)
  Variables c eta : R.
  Hypothesis Pc : 0 <= c.
  Hypothesis Pe : 0 <= eta.
  Definition Df (n g : R) : R := tuf n + c + eta * twf n g.
  Definition Af (n g u : R) : R := (u - twf n g) / Df n g.
  Definition Anf (n g u : R) : R := (- twnf n g * Df n g - (u - twf n g) * (tunf n + eta * twnf n g)) / (Df n g * Df n g).
  Definition Agf (n g u : R) : R := (- twgf n g * Df n g - (u - twf n g) * (eta * twgf n g)) / (Df n g * Df n g).
  Lemma D_pos r d : 0 < r -> 0 < Df r d.
  Proof. intros H. pose proof (tu_pos r). pose proof (tw_nonneg r d H). unfold Df. assert (0 <= eta * twf r d) by now apply Rmult_le_pos. lra. Qed.
  Lemma A_der : dpath (fun x => Af (n x) (g x) (u x)) (Anf (n t) (g t) (u t)) (Agf (n t) (g t) (u t)) (1 / Df (n t) (g t)).
  Proof.
    pose proof (D_pos _ (g t) Pn) as DP. pose proof tw_der as TW. pose proof tu_der as TU. unfold dpath in *.
    assert (DD : is_derive (fun x => Df (n x) (g x)) t ((tunf (n t) + eta * twnf (n t) (g t)) * n' + eta * twgf (n t) (g t) * g')).
    { eapply is_derive_eq.
      - unfold Df. apply der_plus; [apply der_plus; [exact TU|apply der_const]|apply der_scal; exact TW].
      - cbv beta. ring. }
    eapply is_derive_eq.
    - unfold Af, Rdiv. apply der_mult.
      + apply (der_ext (fun x => u x + (- (1)) * twf (n x) (g x))); [intros; ring|]. apply der_plus; [exact Hu|]. apply der_scal. exact TW.
      + apply der_inv; [lra|exact DD].
    - unfold Anf, Agf. cbv beta. set (D := Df _ _) in *. clearbody D. field. lra.
  Qed.

  (** composition with a function of one variable, and products *)
  Lemma dp_eq F a b c0 a2 b2 c2 : dpath F a b c0 -> a = a2 -> b = b2 -> c0 = c2 -> dpath F a2 b2 c2.
  Proof. now intros H <- <- <-. Qed.
  Lemma dp_comp (f F : R -> R) (d a b c0 : R) : is_derive f (F t) d -> dpath F a b c0 -> dpath (fun x => f (F x)) (d * a) (d * b) (d * c0).
  Proof. unfold dpath. intros A B. eapply is_derive_eq; [exact (der_comp f F t _ _ A B)|]. ring. Qed.
  Lemma dp_mult (F G : R -> R) a b c0 a2 b2 c2 : dpath F a b c0 -> dpath G a2 b2 c2 ->
    dpath (fun x => F x * G x) (a * G t + F t * a2) (b * G t + F t * b2) (c0 * G t + F t * c2).
  Proof. unfold dpath. intros A B. eapply is_derive_eq; [exact (der_mult _ _ _ _ _ A B)|]. ring. Qed.
  Lemma dp_plus (F G : R -> R) a b c0 a2 b2 c2 : dpath F a b c0 -> dpath G a2 b2 c2 ->
    dpath (fun x => F x + G x) (a + a2) (b + b2) (c0 + c2).
  Proof. unfold dpath. intros A B. eapply is_derive_eq; [exact (der_plus _ _ _ _ _ A B)|]. ring. Qed.
  Lemma dp_const k : dpath (fun _ => k) 0 0 0.
  Proof. unfold dpath. eapply is_derive_eq; [apply der_const|]. ring. Qed.
  Lemma dp_ext (F G : R -> R) a b c0 : (forall x, F x = G x) -> dpath F a b c0 -> dpath G a b c0.
  Proof. unfold dpath. intros E. apply der_ext. exact E. Qed.
  Lemma dp_n : dpath n 1 0 0.
  Proof. unfold dpath. eapply is_derive_eq; [exact Hn|]. ring. Qed.

  (** ** The last lines *)
  Definition eu (r : R) : R := - (3) / (4 * PI) * Rpower (3 * PI * PI * r) (1 / 3).
  Definition deu (r : R) : R := - c13 / (4 * PI) * Rpower r (- (2 / 3)).
  Lemma eu_split r : 0 < r -> eu r = - (3) / (4 * PI) * (c13 * Rpower r (1 / 3)).
  Proof.
    intros H. pose proof PI_RGT_0. unfold eu, c13. rewrite Rpower_mult_distr; [reflexivity| |exact H].
    assert (0 < PI * PI) by now apply Rmult_lt_0_compat. lra.
  Qed.
  Lemma eu_derive r : 0 < r -> is_derive eu r (deu r).
  Proof.
    intros H. pose proof PI_RGT_0. pose proof c13_pos.
    apply (der_ext_pos (fun x => x) _ (fun x => - (3) / (4 * PI) * (c13 * Rpower x (1 / 3))) r 1); [exact H|apply der_id|exact eu_split|].
    eapply is_derive_eq; [apply der_scal, der_scal, der_pow; [exact H|apply der_id]|].
    unfold deu. cbv beta. replace (- (2 / 3)) with (1 / 3 + - (1)) by field. rewrite Rpower_plus, Rpower_Ropp, Rpower_1 by exact H.
    field. lra.
  Qed.
  Definition mixF (h f g : R) : R := (h + f * (hx0 - h)) * g.
  Lemma assemble_run r h hn hg hu f fn fg fu gx gn gg : 0 < r ->
    assemble r (h, hn, hg, hu) (f, fn, fg, fu) (gx, gn, gg) =
    Ok (eu r * mixF h f gx,
        (eu r + r * deu r) * mixF h f gx + r * eu r * ((h + f * (hx0 - h)) * gn + gx * (1 - f) * hn + gx * (hx0 - h) * fn),
        r * eu r * ((h + f * (hx0 - h)) * gg + gx * (1 - f) * hg + gx * (hx0 - h) * fg),
        r * eu r * (gx * (1 - f) * hu + gx * (hx0 - h) * fu)).
  Proof.
    intros H. pose proof PI_RGT_0. assert (0 < 3 * PI * PI * r) by (apply Rmult_lt_0_compat; [apply Rmult_lt_0_compat; lra|exact H]).
    apply wp_ok. unfold assemble. apply wp_pow; [lra|]. cbv zeta. apply wp_pow; [exact H|]. reflexivity.
  Qed.
  Lemma assemble_der (h f gx : R -> R) hn hg hu fn fg fu gn gg :
    dpath h hn hg hu -> dpath f fn fg fu -> dpath gx gn gg 0 ->
    exists e v w z, assemble (n t) (h t, hn, hg, hu) (f t, fn, fg, fu) (gx t, gn, gg) = Ok (e, v, w, z) /\
      e = eu (n t) * mixF (h t) (f t) (gx t) /\
      dpath (fun x => n x * (eu (n x) * mixF (h x) (f x) (gx x))) v w z.
  Proof.
    intros A B C0. rewrite assemble_run by exact Pn. do 4 eexists. split; [reflexivity|]. split; [reflexivity|].
    assert (M : dpath (fun x => mixF (h x) (f x) (gx x))
      ((h t + f t * (hx0 - h t)) * gn + gx t * (1 - f t) * hn + gx t * (hx0 - h t) * fn)
      ((h t + f t * (hx0 - h t)) * gg + gx t * (1 - f t) * hg + gx t * (hx0 - h t) * fg)
      (gx t * (1 - f t) * hu + gx t * (hx0 - h t) * fu)).
    { eapply dp_eq.
      - unfold mixF. apply dp_mult; [|exact C0].
        eapply (dp_plus h _); [exact A|]. apply dp_mult; [exact B|].
        apply (dp_ext (fun x => hx0 + (- (1)) * h x)); [intros; ring|]. apply dp_plus; [apply dp_const|]. apply dp_mult; [apply dp_const|exact A].
      - cbv beta. ring.
      - cbv beta. ring.
      - cbv beta. ring. }
    eapply dp_eq.
    - apply dp_mult; [exact dp_n|]. apply dp_mult; [|exact M].
      exact (dp_comp eu n _ _ _ _ (eu_derive _ Pn) dp_n).
    - cbv beta. ring.
    - cbv beta. ring.
    - cbv beta. ring.
  Qed.
End Path.

(** ** Switching functions *)
Definition hi_f (c2 d a : R) : R := - d * exp (c2 / (1 - a)).
Definition hi_d (c2 d a : R) : R := - d * exp (c2 / (1 - a)) * (c2 / (1 - a) / (1 - a)).
Definition lo_f (c1 a : R) : R := exp (- c1 * a / (1 - a)).
Definition lo_d (c1 a : R) : R := exp (- c1 * a / (1 - a)) * (- c1 / (1 - a) / (1 - a)).
Lemma hi_run c2 d a : a <> 1 -> sw_hi c2 d a = Ok (hi_f c2 d a, hi_d c2 d a).
Proof. intros H. apply wp_ok. unfold sw_hi. do 3 (apply wp_div; [lra|]). reflexivity. Qed.
Lemma lo_run c1 a : a <> 1 -> sw_lo c1 a = Ok (lo_f c1 a, lo_d c1 a).
Proof. intros H. apply wp_ok. unfold sw_lo. do 3 (apply wp_div; [lra|]). reflexivity. Qed.
Lemma one_minus a : is_derive (fun x => 1 - x) a (- (1)).
Proof. apply (der_ext (fun x => 1 + (- (1)) * x)); [intros; ring|]. eapply is_derive_eq; [apply der_plus; [apply der_const|apply der_scal, der_id]|]. ring. Qed.
Lemma hi_derive c2 d a : a <> 1 -> is_derive (hi_f c2 d) a (hi_d c2 d a).
Proof.
  intros H. unfold hi_f. eapply is_derive_eq.
  - apply der_scal, der_exp. unfold Rdiv. apply der_scal. apply der_inv; [lra|apply one_minus].
  - unfold hi_d. cbv beta. change (c2 * / (1 - a)) with (c2 / (1 - a)). set (y := exp _). clearbody y. field. lra.
Qed.
Lemma lo_derive c1 a : a <> 1 -> is_derive (lo_f c1) a (lo_d c1 a).
Proof.
  intros H. unfold lo_f. eapply is_derive_eq.
  - apply der_exp. unfold Rdiv. apply der_mult; [apply der_scal, der_id|]. apply der_inv; [lra|apply one_minus].
  - unfold lo_d. cbv beta. change (- c1 * a * / (1 - a)) with (- c1 * a / (1 - a)). set (y := exp _). clearbody y. field. lra.
Qed.
Lemma poly_derive k a : is_derive (poly k) a (dpoly k a).
Proof.
  unfold poly, dpoly. cbv zeta.
  pose proof (der_id a) as D1. pose proof (der_mult _ _ _ _ _ D1 D1) as D2. pose proof (der_mult _ _ _ _ _ D2 D1) as D3.
  pose proof (der_mult _ _ _ _ _ D3 D1) as D4. pose proof (der_mult _ _ _ _ _ D4 D1) as D5.
  pose proof (der_mult _ _ _ _ _ D5 D1) as D6. pose proof (der_mult _ _ _ _ _ D6 D1) as D7. cbv beta in *.
  eapply is_derive_eq.
  - apply der_plus; [apply der_plus; [apply der_plus; [apply der_plus; [apply der_plus; [apply der_plus; [apply der_plus|]|]|]|]|]|].
    1: apply der_const. 1: apply der_scal, D1. 1: apply der_scal, D2. 1: apply der_scal, D3. 1: apply der_scal, D4.
    1: apply der_scal, D5. 1: apply der_scal, D6. apply der_scal, D7.
  - cbv beta. ring.
Qed.
Definition scan_f (c1 c2 d a : R) : R := if Rlt_dec 1 a then hi_f c2 d a else lo_f c1 a.
Definition scan_d (c1 c2 d a : R) : R := if Rlt_dec 1 a then hi_d c2 d a else lo_d c1 a.
Lemma scan_run c1 c2 d a : a <> 1 -> sw_scan c1 c2 d a = Ok (scan_f c1 c2 d a, scan_d c1 c2 d a).
Proof. intros H. unfold sw_scan, scan_f, scan_d. destruct (Rlt_dec 1 a); [now apply hi_run|now apply lo_run]. Qed.
Lemma der_gt (f g : R -> R) (b a l : R) : b < a -> (forall x, b < x -> f x = g x) -> is_derive g a l -> is_derive f a l.
Proof. intros H E. apply (der_loc (fun x => b < x)); [exact (open_gt b a H)|exact E]. Qed.
Lemma der_lt (f g : R -> R) (b a l : R) : a < b -> (forall x, x < b -> f x = g x) -> is_derive g a l -> is_derive f a l.
Proof. intros H E. apply (der_loc (fun x => x < b)); [exact (open_lt b a H)|exact E]. Qed.
Lemma scan_derive c1 c2 d a : a <> 1 -> is_derive (scan_f c1 c2 d) a (scan_d c1 c2 d a).
Proof.
  intros H. unfold scan_d. destruct (Rlt_dec 1 a) as [L|L].
  - apply (der_gt _ (hi_f c2 d) 1); [exact L| |now apply hi_derive]. intros x X. unfold scan_f. destruct (Rlt_dec 1 x); [reflexivity|lra].
  - apply (der_lt _ (lo_f c1) 1); [lra| |now apply lo_derive]. intros x X. unfold scan_f. destruct (Rlt_dec 1 x); [lra|reflexivity].
Qed.
Definition rscan_f (k : nat -> R) (c1 c2 d a : R) : R :=
  if Rlt_dec (5 / 2) a then hi_f c2 d a else if Rlt_dec 0 a then poly k a else lo_f c1 a.
Definition rscan_d (k : nat -> R) (c1 c2 d a : R) : R :=
  if Rlt_dec (5 / 2) a then hi_d c2 d a else if Rlt_dec 0 a then dpoly k a else lo_d c1 a.
Lemma rscan_run k c1 c2 d a : sw_rscan k c1 c2 d a = Ok (rscan_f k c1 c2 d a, rscan_d k c1 c2 d a).
Proof.
  unfold sw_rscan, rscan_f, rscan_d. destruct (Rlt_dec (5 / 2) a); [apply hi_run; lra|].
  destruct (Rlt_dec 0 a); [reflexivity|apply lo_run; lra].
Qed.
(** two functions that agree to first order at a point can be joined there *)
Lemma der_glue (f g h : R -> R) (a l : R) : (forall x, x <= a -> h x = f x) -> (forall x, a < x -> h x = g x) -> f a = g a ->
  is_derive f a l -> is_derive g a l -> is_derive h a l.
Proof.
  intros Hf Hg E DF DG. apply is_derive_Reals in DF. apply is_derive_Reals in DG. apply is_derive_Reals.
  intros eps He. destruct (DF eps He) as [d1 D1]. destruct (DG eps He) as [d2 D2].
  assert (0 < Rmin d1 d2) by (apply Rmin_glb_lt; [apply cond_pos|apply cond_pos]).
  exists (mkposreal _ H). intros x X XL. cbn in XL. pose proof (Rmin_l d1 d2). pose proof (Rmin_r d1 d2).
  rewrite (Hf a) by lra. destruct (Rle_dec x 0).
  - rewrite Hf by lra. apply D1; [exact X|lra].
  - rewrite Hg by lra. rewrite E. apply D2; [exact X|lra].
Qed.
Lemma rscan_derive k c1 c2 d a : k 1%nat = - c1 -> a <> 5 / 2 -> is_derive (rscan_f k c1 c2 d) a (rscan_d k c1 c2 d a).
Proof.
  intros K H. unfold rscan_d. destruct (Rlt_dec (5 / 2) a) as [L|L].
  { apply (der_gt _ (hi_f c2 d) (5 / 2)); [exact L| |apply hi_derive; lra]. intros x X. unfold rscan_f. destruct (Rlt_dec (5 / 2) x); [reflexivity|lra]. }
  destruct (Rlt_dec 0 a) as [M|M].
  { apply (der_lt _ (fun x => if Rlt_dec 0 x then poly k x else lo_f c1 x) (5 / 2)); [lra| |].
    - intros x X. unfold rscan_f. destruct (Rlt_dec (5 / 2) x); [lra|reflexivity].
    - apply (der_gt _ (poly k) 0); [exact M| |apply poly_derive]. intros x X. destruct (Rlt_dec 0 x); [reflexivity|lra]. }
  apply (der_lt _ (fun x => if Rlt_dec 0 x then poly k x else lo_f c1 x) (5 / 2)); [lra| |].
  { intros x X. unfold rscan_f. destruct (Rlt_dec (5 / 2) x); [lra|reflexivity]. }
  destruct (Req_dec a 0) as [->|N].
  - apply (der_glue (lo_f c1) (poly k)).
    + intros x X. destruct (Rlt_dec 0 x); [lra|reflexivity].
    + intros x X. destruct (Rlt_dec 0 x); [reflexivity|lra].
    + unfold lo_f, poly. replace (- c1 * 0 / (1 - 0)) with 0 by field. rewrite exp_0. cbv zeta. ring.
    + apply lo_derive. lra.
    + eapply is_derive_eq; [apply poly_derive|]. unfold lo_d, dpoly. replace (- c1 * 0 / (1 - 0)) with 0 by field. rewrite exp_0, K. cbv zeta. field.
  - apply (der_lt _ (lo_f c1) 0); [lra| |apply lo_derive; lra]. intros x X. destruct (Rlt_dec 0 x); [lra|reflexivity].
Qed.

(** ** The SCAN enhancement factor *)
Definition xf (s a : R) : R :=
  mu_ak * s ^ 2 * (1 + b4 * s ^ 2 / mu_ak * exp (- Rabs b4 * s ^ 2 / mu_ak))
  + (b1 * s ^ 2 + b2 * (1 - a) * exp (- b3 * (1 - a) ^ 2)) ^ 2.
Definition h1f (x : R) : R := 1 + k1 - k1 / (1 + x / k1).
Definition gf (s : R) : R := 1 - exp (- (a1 / sqrt s)).
Lemma b2_pos : 0 < b2. Proof. unfold b2. apply sqrt_lt_R0. lra. Qed.
Lemma b1_sq : b1 * b1 = (511 / 13500) ^ 2 / (4 * (5913 / 405000)).
Proof.
  pose proof b2_pos. assert (E : b2 * b2 = 5913 / 405000) by (unfold b2; apply sqrt_sqrt; lra).
  unfold b1. rewrite <- E. field. lra.
Qed.
Lemma b4_pos : 0 < b4.
Proof. unfold b4. rewrite b1_sq. unfold mu_ak, k1. lra. Qed.
Lemma xf_nonneg s a : 0 <= xf s a.
Proof.
  unfold xf. pose proof b4_pos as B. pose proof (pow2_ge_0 s) as S. apply Rplus_le_le_0_compat; [|apply pow2_ge_0].
  apply Rmult_le_pos; [unfold mu_ak; lra|]. pose proof (exp_pos (- Rabs b4 * s ^ 2 / mu_ak)) as E.
  assert (0 <= b4 * s ^ 2 / mu_ak). { unfold mu_ak. assert (0 <= b4 * s ^ 2) by (apply Rmult_le_pos; lra). lra. }
  assert (0 <= b4 * s ^ 2 / mu_ak * exp (- Rabs b4 * s ^ 2 / mu_ak)) by (apply Rmult_le_pos; lra). lra.
Qed.
Lemma xf_derive (S A : R -> R) (t S' A' : R) : is_derive S t S' -> is_derive A t A' ->
  let s := S t in let a := A t in
  let es := exp (- Rabs b4 * s ^ 2 / mu_ak) in let ea := exp (- b3 * (1 - a) ^ 2) in
  let T3 := b1 * s ^ 2 + b2 * (1 - a) * ea in
  is_derive (fun x => xf (S x) (A x)) t
    (2 * s * (mu_ak * (1 + b4 * s ^ 2 / mu_ak * es + s ^ 2 * (b4 / mu_ak * es + b4 * s ^ 2 / mu_ak * es * (- Rabs b4 / mu_ak))) + 2 * b1 * T3) * S'
     + 2 * T3 * (b2 * (- ea + (1 - a) * ea * (2 * b3 * (1 - a)))) * A').
Proof.
  intros DS DA s a es ea T3.
  assert (M : 0 < mu_ak) by (unfold mu_ak; lra).
  assert (D2 : is_derive (fun x => S x ^ 2) t (2 * s * S')).
  { apply (der_ext (fun x => S x * S x)); [intros; ring|]. eapply is_derive_eq; [apply der_mult; exact DS|]. unfold s. ring. }
  assert (D1 : is_derive (fun x => 1 - A x) t (- A')).
  { apply (der_ext (fun x => 1 + (- (1)) * A x)); [intros; ring|]. eapply is_derive_eq; [apply der_plus; [apply der_const|apply der_scal, DA]|]. ring. }
  assert (DE : is_derive (fun x => exp (- Rabs b4 * S x ^ 2 / mu_ak)) t (es * (- Rabs b4 * (2 * s * S') / mu_ak))).
  { eapply is_derive_eq. apply der_exp. apply (der_ext (fun x => (- Rabs b4 / mu_ak) * S x ^ 2)); [intros; field; lra|]. apply der_scal. exact D2.
    unfold es, s. cbv beta. set (y := exp _). clearbody y. field. lra. }
  assert (DA2 : is_derive (fun x => exp (- b3 * (1 - A x) ^ 2)) t (ea * (2 * b3 * (1 - a) * A'))).
  { eapply is_derive_eq. apply der_exp. apply (der_ext (fun x => (- b3) * ((1 - A x) * (1 - A x)))); [intros; ring|]. apply der_scal. apply der_mult; exact D1.
    unfold ea, a. cbv beta. set (y := exp _). clearbody y. ring. }
  assert (DT : is_derive (fun x => b1 * S x ^ 2 + b2 * (1 - A x) * exp (- b3 * (1 - A x) ^ 2)) t
     (b1 * (2 * s * S') + b2 * (- ea + (1 - a) * ea * (2 * b3 * (1 - a))) * A')).
  { eapply is_derive_eq. apply der_plus; [apply der_scal, D2|]. apply der_mult; [apply der_scal, D1|exact DA2].
    cbv beta. fold a. fold ea. ring. }
  eapply is_derive_eq.
  - unfold xf. apply der_plus.
    + apply der_mult; [apply der_scal, D2|]. apply der_plus; [apply der_const|]. apply der_mult; [|exact DE].
      apply (der_ext (fun x => (b4 / mu_ak) * S x ^ 2)); [intros; field; lra|]. apply der_scal, D2.
    + apply (der_ext (fun x => (b1 * S x ^ 2 + b2 * (1 - A x) * exp (- b3 * (1 - A x) ^ 2)) * (b1 * S x ^ 2 + b2 * (1 - A x) * exp (- b3 * (1 - A x) ^ 2)))); [intros; ring|].
      apply der_mult; exact DT.
  - cbv beta. fold s a. fold es ea. fold T3. clearbody es ea T3 s a. field. lra.
Qed.
Lemma h1_derive x : 0 <= x -> is_derive h1f x (1 / (1 + x / k1) / (1 + x / k1)).
Proof.
  intros H. assert (K : 0 < k1) by (unfold k1; lra). assert (0 <= x / k1) by (apply Rmult_le_pos; [exact H|left; now apply Rinv_0_lt_compat]).
  apply (der_ext (fun x => (1 + k1) + (- k1) * / (1 + / k1 * x))); [intros y; unfold h1f, Rdiv; rewrite (Rmult_comm (/ k1) y); ring|].
  eapply is_derive_eq.
  - apply der_plus; [apply der_const|]. apply der_scal. apply der_inv.
    + replace (/ k1 * x) with (x / k1) by (unfold Rdiv; ring). lra.
    + apply der_plus; [apply der_const|]. apply der_scal, der_id.
  - cbv beta. replace (/ k1 * x) with (x / k1) by (unfold Rdiv; ring).
    assert (1 + x / k1 <> 0) by lra. replace (x / k1) with ((x + k1) / k1 - 1) in * by (field; lra).
    assert (x + k1 <> 0). { intros E. apply H1. rewrite E. field. lra. } field. split; [lra|lra].
Qed.
Lemma g_derive s : 0 < s -> is_derive gf s (- exp (- (a1 / sqrt s)) * (a1 / 2 / sqrt s / s)).
Proof.
  intros H. pose proof (sqrt_lt_R0 _ H) as Q. assert (E : sqrt s * sqrt s = s) by (apply sqrt_sqrt; lra).
  apply (der_ext (fun s => 1 + (- (1)) * exp ((- a1) * / sqrt s))).
  { intros y. unfold gf, Rdiv. rewrite Ropp_mult_distr_l. ring. }
  eapply is_derive_eq.
  - apply der_plus; [apply der_const|]. apply der_scal, der_exp, der_scal, der_inv; [lra|]. apply der_sqrt; [exact H|apply der_id].
  - cbv beta. replace (- a1 * / sqrt s) with (- (a1 / sqrt s)) by (unfold Rdiv; ring). set (y := exp _). clearbody y.
    set (q := sqrt s) in *. clearbody q. rewrite <- E. field. lra.
Qed.

Definition xc (s alpha : R) : R :=
  let s2 := s * s in
  let ea := exp (- b3 * (1 - alpha) * (1 - alpha)) in
  let es := exp (- Rabs b4 * s2 / mu_ak) in
  let term1 := 1 + b4 * s2 / mu_ak * es in
  let xFir := mu_ak * s2 * term1 in
  let term3 := 2 * (b1 * s2 + b2 * (1 - alpha) * ea) in
  let xSec := term3 / 2 * (term3 / 2) in
  xFir + xSec.
Lemma xc_xf s a : xc s a = xf s a.
Proof.
  unfold xc, xf. cbv zeta. replace (s ^ 2) with (s * s) by ring.
  replace (- b3 * (1 - a) ^ 2) with (- b3 * (1 - a) * (1 - a)) by ring. set (y := exp _). set (z := exp _). clearbody y z. field. unfold mu_ak. lra.
Qed.
Section Calc.
  Variables n g u : R -> R.
  Variables t n' g' u' : R.
  Hypothesis Hn : is_derive n t n'.
  Hypothesis Pn : 0 < n t.
  Notation dp := (dpath t n' g' u').
  Lemma scanx_der (S A : R -> R) sn sg an ag au sw (f df : R -> R) :
    0 < S t -> dp S sn sg 0 -> dp A an ag au -> sw (A t) = Ok (f (A t), df (A t)) ->
    dp (fun x => f (A x)) (df (A t) * an) (df (A t) * ag) (df (A t) * au) ->
    exists e v w z, calculate_scanx sw (n t) (S t, sn, sg) (A t, an, ag, au) = Ok (e, v, w, z) /\
      e = eu (n t) * mixF (h1f (xf (S t) (A t))) (f (A t)) (gf (S t)) /\
      dp (fun x => n x * (eu (n x) * mixF (h1f (xf (S x) (A x))) (f (A x)) (gf (S x)))) v w z.
  Proof using Hn Pn.
    intros PS DS DA SW DFA.
    pose proof (sqrt_lt_R0 _ PS) as QS. pose proof (xf_nonneg (S t) (A t)) as XN.
    assert (K : 0 < k1) by (unfold k1; lra). assert (M : 0 < mu_ak) by (unfold mu_ak; lra).
    assert (X1 : 0 < 1 + xc (S t) (A t) / k1).
    { rewrite xc_xf. assert (0 <= xf (S t) (A t) / k1) by (apply Rmult_le_pos; [exact XN|left; now apply Rinv_0_lt_compat]). lra. }
    pose (DxDs := let s := S t in let alpha := A t in let s2 := s * s in
      let ea := exp (- b3 * (1 - alpha) * (1 - alpha)) in let es := exp (- Rabs b4 * s2 / mu_ak) in
      let term1 := 1 + b4 * s2 / mu_ak * es in let term3 := 2 * (b1 * s2 + b2 * (1 - alpha) * ea) in
      let term2 := s2 * (b4 / mu_ak * es + b4 * s2 / mu_ak * es * (- Rabs b4 / mu_ak)) in
      2 * s * (mu_ak * (term1 + term2) + b1 * term3)).
    pose (DxDa := let s := S t in let alpha := A t in let s2 := s * s in
      let ea := exp (- b3 * (1 - alpha) * (1 - alpha)) in
      let term3 := 2 * (b1 * s2 + b2 * (1 - alpha) * ea) in
      let term4 := b2 * (- ea + (1 - alpha) * ea * (2 * b3 * (1 - alpha))) in term3 * term4).
    pose (dh := 1 / (1 + xc (S t) (A t) / k1) / (1 + xc (S t) (A t) / k1)).
    assert (DX : dp (fun x => xc (S x) (A x)) (sn * DxDs + an * DxDa) (sg * DxDs + ag * DxDa) (au * DxDa)).
    { unfold dpath. apply (der_ext (fun x => xf (S x) (A x))); [intros; symmetry; apply xc_xf|].
      eapply is_derive_eq; [exact (xf_derive S A t _ _ DS DA)|]. cbv zeta.
      unfold DxDs, DxDa. cbv zeta. replace (S t ^ 2) with (S t * S t) by ring.
      replace (- b3 * (1 - A t) ^ 2) with (- b3 * (1 - A t) * (1 - A t)) by ring.
      set (y := exp _). set (z := exp _). clearbody y z. field. lra. }
    assert (DH : dp (fun x => h1f (xc (S x) (A x))) ((sn * DxDs + an * DxDa) * dh) ((sg * DxDs + ag * DxDa) * dh) (au * DxDa * dh)).
    { eapply dp_eq.
      - refine (dp_comp t n' g' u' h1f (fun x => xc (S x) (A x)) dh _ _ _ _ DX). unfold dh. apply h1_derive. now rewrite xc_xf.
      - ring.
      - ring.
      - ring. }
    pose proof (dp_comp t n' g' u' gf S _ _ _ _ (g_derive _ PS) DS) as DG. rewrite Rmult_0_r in DG.
    destruct (assemble_der n t n' g' u' Hn Pn _ _ _ _ _ _ _ _ _ _ _ DH DFA DG) as (e & v & w & z & E1 & E2 & E3).
    cbv beta in E1, E2. exists e, v, w, z. split; [|split].
    - rewrite <- E1. clear E1 E2 E3 e v w z.
      unfold calculate_scanx. unfold cdiv, csqrt.
      destruct (Req_EM_T (1 + _ / k1) 0) as [B|_]; [exfalso; revert B; apply Rgt_not_eq; exact X1|].
      cbn [obind]. rewrite SW. cbn [obind]. destruct (Rle_dec 0 (S t)); [|lra]. cbn [obind].
      destruct (Req_EM_T (sqrt (S t)) 0); [lra|]. cbn [obind]. destruct (Req_EM_T (S t) 0); [lra|]. cbn [obind]. reflexivity.
    - rewrite E2, xc_xf. reflexivity.
    - revert E3. apply dp_ext. intros x. now rewrite xc_xf.
  Qed.
End Calc.

(** ** The r2SCAN enhancement factor *)
Definition xr2 (p : R) : R := (Ceta * C2_ * exp (- p * p / dp4) + mu_ak) * p.
Definition gr2 (p : R) : R := 1 - exp (- (a1 / Rpower p (1 / 4))).
Lemma dp4_pos : 0 < dp4. Proof. unfold dp4. apply pow_lt. lra. Qed.
Lemma xr2_nonneg p : 0 <= p -> 0 <= xr2 p.
Proof.
  intros H. unfold xr2. apply Rmult_le_pos; [|exact H].
  assert (E : exp (- p * p / dp4) <= 1).
  { rewrite <- exp_0. pose proof dp4_pos. assert (0 <= p * p / dp4) by (apply Rmult_le_pos; [nra|left; now apply Rinv_0_lt_compat]).
    assert (- p * p / dp4 = - (p * p / dp4)) by (field; lra). destruct (Req_dec (- p * p / dp4) 0) as [->|N]; [lra|left; apply exp_increasing; lra]. }
  pose proof (exp_pos (- p * p / dp4)). set (y := exp _) in *. clearbody y. unfold Ceta, C2_, mu_ak. lra.
Qed.
Lemma xr2_derive p : is_derive xr2 p (Ceta * C2_ * exp (- p * p / dp4) + mu_ak + Ceta * C2_ * exp (- p * p / dp4) * (-2 * p / dp4) * p).
Proof.
  pose proof dp4_pos. eapply is_derive_eq.
  - unfold xr2. apply der_mult; [|apply der_id]. apply der_plus; [|apply der_const]. apply der_scal, der_exp.
    apply (der_ext (fun p => (- (1) / dp4) * (p * p))); [intros; field; lra|]. apply der_scal. apply der_mult; apply der_id.
  - cbv beta. set (y := exp _). clearbody y. field. lra.
Qed.
Lemma gr2_derive p : 0 < p -> is_derive gr2 p (- exp (- (a1 / Rpower p (1 / 4))) * (a1 / 4 / Rpower p (1 / 4) / p)).
Proof.
  intros H. pose proof (Rpower_pos p (1 / 4)) as Q.
  apply (der_ext (fun p => 1 + (- (1)) * exp ((- a1) * / Rpower p (1 / 4)))).
  { intros y. unfold gr2, Rdiv. rewrite Ropp_mult_distr_l. ring. }
  eapply is_derive_eq.
  - apply der_plus; [apply der_const|]. apply der_scal, der_exp, der_scal, der_inv; [lra|]. apply der_pow; [exact H|apply der_id].
  - cbv beta. replace (- a1 * / Rpower p (1 / 4)) with (- (a1 / Rpower p (1 / 4))) by (unfold Rdiv; ring). set (y := exp _). clearbody y.
    set (q := Rpower _ _) in *. clearbody q. field. lra.
Qed.
Section Calc2.
  Variables n : R -> R.
  Variables t n' g' u' : R.
  Hypothesis Hn : is_derive n t n'.
  Hypothesis Pn : 0 < n t.
  Notation dp := (dpath t n' g' u').
  Lemma r2scanx_der (P A : R -> R) pn pg an ag au : let f := rscan_f kx c1x c2x dx_ in let df := rscan_d kx c1x c2x dx_ in
    0 < P t -> dp P pn pg 0 -> dp A an ag au -> dp (fun x => f (A x)) (df (A t) * an) (df (A t) * ag) (df (A t) * au) ->
    exists e v w z, calculate_r2scanx (n t) (P t, pn, pg) (A t, an, ag, au) = Ok (e, v, w, z) /\
      e = eu (n t) * mixF (h1f (xr2 (P t))) (f (A t)) (gr2 (P t)) /\
      dp (fun x => n x * (eu (n x) * mixF (h1f (xr2 (P x))) (f (A x)) (gr2 (P x)))) v w z.
  Proof using Hn Pn.
    intros f df PP DP DA DFA. pose proof (Rpower_pos (P t) (1 / 4)) as Q. pose proof (xr2_nonneg (P t) ltac:(lra)) as XN.
    assert (K : 0 < k1) by (unfold k1; lra).
    assert (X1 : 0 < 1 + xr2 (P t) / k1).
    { assert (0 <= xr2 (P t) / k1) by (apply Rmult_le_pos; [exact XN|left; now apply Rinv_0_lt_compat]). lra. }
    assert (X2 : 0 < (1 + xr2 (P t) / k1) * (1 + xr2 (P t) / k1)) by now apply Rmult_lt_0_compat.
    pose (dx := Ceta * C2_ * exp (- P t * P t / dp4) + mu_ak + Ceta * C2_ * exp (- P t * P t / dp4) * (-2 * P t / dp4) * P t).
    pose (dh := 1 / ((1 + xr2 (P t) / k1) * (1 + xr2 (P t) / k1))).
    assert (DH : dp (fun x => h1f (xr2 (P x))) (dx * pn * dh) (dx * pg * dh) 0).
    { eapply dp_eq.
      - refine (dp_comp t n' g' u' h1f (fun x => xr2 (P x)) dh _ _ _ _ (dp_comp t n' g' u' xr2 P dx _ _ _ (xr2_derive _) DP)).
        eapply is_derive_eq; [apply h1_derive; exact XN|]. unfold dh. set (y := 1 + _) in *. clearbody y. field. lra.
      - ring.
      - ring.
      - ring. }
    pose proof (dp_comp t n' g' u' gr2 P _ _ _ _ (gr2_derive _ PP) DP) as DG. rewrite Rmult_0_r in DG.
    destruct (assemble_der n t n' g' u' Hn Pn _ _ _ _ _ _ _ _ _ _ _ DH DFA DG) as (e & v & w & z & E1 & E2 & E3).
    cbv beta in E1, E2. exists e, v, w, z. split; [|split; [exact E2|exact E3]].
    rewrite <- E1. clear E1 E2 E3 e v w z. unfold calculate_r2scanx. rewrite rscan_run. unfold cdiv, cpow.
    destruct (Rlt_dec 0 (P t)); [|lra]. cbn [obind]. cbv zeta.
    destruct (Req_EM_T (1 + _ / k1) 0) as [B|_]; [exfalso; revert B; apply Rgt_not_eq; exact X1|]. cbn [obind].
    destruct (Req_EM_T (Rpower _ _) 0); [lra|]. cbn [obind]. destruct (Req_EM_T (P t) 0); [lra|]. cbn [obind].
    destruct (Req_EM_T ((1 + _ / k1) * _) 0) as [B|_]; [exfalso; revert B; apply Rgt_not_eq; exact X2|]. cbn [obind]. reflexivity.
  Qed.
End Calc2.

(** ** The variables *)
Definition alphaP (a : R) : R := a ^ 3 / (a ^ 2 + 1 / 1000).
Definition dalphaP (a : R) : R := (3 * (a * a) * (a * a + 1 / 1000) - a * a * a * (2 * a)) / ((a * a + 1 / 1000) * (a * a + 1 / 1000)).
Lemma alphaP_derive a : is_derive alphaP a (dalphaP a).
Proof.
  assert (H : 0 <= a * a) by nra.
  apply (der_ext (fun a => a * a * a * / (a * a + 1 / 1000))); [intros y; unfold alphaP, Rdiv; replace (y ^ 3) with (y * y * y) by ring; now replace (y ^ 2) with (y * y) by ring|].
  eapply is_derive_eq.
  - apply der_mult; [apply der_mult; [apply der_mult; apply der_id|apply der_id]|]. apply der_inv; [lra|]. apply der_plus; [apply der_mult; apply der_id|apply der_const].
  - unfold dalphaP. cbv beta. field. lra.
Qed.
Ltac pos := apply Rgt_not_eq; unfold Rgt; apply Rmult_lt_0_compat; lra.
Lemma mgga_vars r d u : 0 < r -> exists an ag au, basic_MGGA_variables r d u = Ok ((Sf r d, Snf r d, Sgf r d), (Af 0 0 r d u, an, ag, au)) /\
  an = Anf 0 0 r d u /\ ag = Agf 0 0 r d u /\ au = 1 / Df 0 0 r d.
Proof.
  intros H. pose proof (tu_pos r) as T. unfold basic_MGGA_variables. rewrite basic_run by exact H. cbn [obind].
  assert (E : Df 0 0 r d = tuf r) by (unfold Df; ring).
  unfold cdiv. destruct (Req_EM_T (tuf r) 0); [lra|]. cbn [obind].
  destruct (Req_EM_T (tuf r * tuf r) 0) as [B|_]; [exfalso; revert B; pos|]. cbn [obind].
  unfold Af, Anf, Agf. rewrite E. do 3 eexists. split; [reflexivity|]. set (T0 := tuf r) in *. clearbody T0.
  split; [|split]; field; lra.
Qed.
Lemma rscan_vars r d u : 0 < r -> let a := Af (1 / 10000) 0 r d u in exists aP an ag au,
  basic_rscan_variables r d u = Ok ((Sf r d, Snf r d, Sgf r d), (aP, an, ag, au)) /\
  aP = alphaP a /\ an = dalphaP a * Anf (1 / 10000) 0 r d u /\ ag = dalphaP a * Agf (1 / 10000) 0 r d u /\ au = dalphaP a * (1 / Df (1 / 10000) 0 r d).
Proof.
  intros H a. pose proof (tu_pos r) as T. unfold basic_rscan_variables. rewrite basic_run by exact H. cbn [obind].
  assert (E : Df (1 / 10000) 0 r d = tuf r + 1 / 10000) by (unfold Df; ring).
  unfold cdiv. destruct (Req_EM_T (tuf r + 1 / 10000) 0); [lra|]. cbn [obind].
  assert (EA : (u - twf r d) / (tuf r + 1 / 10000) = a) by (unfold a, Af; now rewrite E). rewrite EA. clearbody a.
  assert (0 <= a * a) by nra.
  destruct (Req_EM_T (a * a + 1 / 1000) 0); [lra|]. cbn [obind].
  destruct (Req_EM_T ((tuf r + _) * _) 0) as [B|_]; [exfalso; revert B; pos|]. cbn [obind].
  destruct (Req_EM_T ((a * a + 1 / 1000) * _) 0) as [B|_]; [exfalso; revert B; pos|]. cbn [obind].
  unfold Anf, Agf. rewrite E. do 4 eexists. split; [reflexivity|]. set (T0 := tuf r) in *. clearbody T0.
  split; [unfold alphaP; replace (a ^ 2) with (a * a) by ring; now replace (a ^ 3) with (a * a * a) by ring|].
  fold (dalphaP a). set (y := dalphaP a). split; [|split]; field; lra.
Qed.
Lemma r2scan_vars r d u : 0 < r -> let e := 1 / 1000 in exists an ag au,
  basic_r2scanx_variables r d u = Ok ((Sf r d * Sf r d, 2 * Sf r d * Snf r d, 2 * Sf r d * Sgf r d), (Af 0 e r d u, an, ag, au)) /\
  an = Anf 0 e r d u /\ ag = Agf 0 e r d u /\ au = 1 / Df 0 e r d.
Proof.
  intros H e. pose proof (tu_pos r) as T. pose proof (D_pos 0 e ltac:(lra) ltac:(unfold e; lra) r d H) as D.
  unfold basic_r2scanx_variables. rewrite basic_run by exact H. cbn [obind].
  assert (E : tuf r + 1 / 1000 * twf r d = Df 0 e r d) by (unfold Df, e; ring). cbv zeta. rewrite !E.
  unfold cdiv. destruct (Req_EM_T (Df 0 e r d) 0); [lra|]. cbn [obind].
  destruct (Req_EM_T (Df 0 e r d * _) 0) as [B|_]; [exfalso; revert B; pos|]. cbn [obind].
  unfold Af, Anf, Agf. do 3 eexists. split; [reflexivity|]. set (T0 := Df _ _ _ _) in *. clearbody T0. unfold e.
  split; [|split]; field; lra.
Qed.
