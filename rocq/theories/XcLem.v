(** Lemmas about the model of exchangeCorrelation.c: derivatives of the building blocks and the run of each
    function inside its domain. *)
From Coq Require Import Machin Ratan.
From Coq Require Import Reals ZArith Bool Lra Psatz.
From Coquelicot Require Import Coquelicot.
From Verif Require Import CBase Xc.
Local Open Scope R_scope.

(** ** Running the model *)
Definition wp {A} (m : outcome A) (P : A -> Prop) : Prop := match m with Ok a => P a | _ => False end.
Lemma wp_div {B} a b (k : R -> outcome B) P : b <> 0 -> wp (k (a / b)) P -> wp (obind (cdiv a b) k) P.
Proof. intros H W. unfold cdiv. destruct (Req_EM_T b 0); [easy|exact W]. Qed.
Lemma wp_log {B} x (k : R -> outcome B) P : 0 < x -> wp (k (ln x)) P -> wp (obind (clog x) k) P.
Proof. intros H W. unfold clog. destruct (Rlt_dec 0 x); [exact W|easy]. Qed.
Lemma wp_sqrt {B} x (k : R -> outcome B) P : 0 <= x -> wp (k (sqrt x)) P -> wp (obind (csqrt x) k) P.
Proof. intros H W. unfold csqrt. destruct (Rle_dec 0 x); [exact W|easy]. Qed.
Lemma wp_pow {B} x y (k : R -> outcome B) P : 0 < x -> wp (k (Rpower x y)) P -> wp (obind (cpow x y) k) P.
Proof. intros H W. unfold cpow. destruct (Rlt_dec 0 x); [exact W|easy]. Qed.
Lemma wp_bind {A B} (m : outcome A) (k : A -> outcome B) Q P :
  wp m Q -> (forall a, Q a -> wp (k a) P) -> wp (obind m k) P.
Proof. destruct m; cbn; intros H K; [now apply K|easy|easy]. Qed.
Lemma wp_ok {A} (m : outcome A) a : wp m (fun x => x = a) -> m = Ok a.
Proof. destruct m; cbn; [now intros ->|easy|easy]. Qed.
Lemma wp_elim {A} (m : outcome A) P : wp m P -> exists a, m = Ok a /\ P a.
Proof. destruct m; cbn; [eauto|easy|easy]. Qed.

(** ** Powers *)
Lemma Rpower_pos x y : 0 < Rpower x y. Proof. apply exp_pos. Qed.
Lemma cbrt_pos x : 0 < x -> cbrt x = Rpower x (1 / 3).
Proof.
  intros H. unfold cbrt. destruct (Req_EM_T x 0); [lra|]. destruct (Rlt_dec 0 x); [reflexivity|lra].
Qed.
Lemma Rpower_third3 x : 0 < x -> Rpower x (- (1 / 3)) ^ 3 = / x.
Proof.
  intros H. rewrite <- Rpower_pow by apply Rpower_pos. rewrite Rpower_mult.
  replace (- (1 / 3) * INR 3) with (- (1)) by (simpl; lra). now rewrite Rpower_Ropp, Rpower_1.
Qed.
Lemma Rpower_inv x y : Rpower x (- y) = / Rpower x y.
Proof. apply Rpower_Ropp. Qed.

Lemma is_derive_eq (f : R -> R) (x l l' : R) : is_derive f x l -> l = l' -> is_derive f x l'.
Proof. now intros H <-. Qed.
Lemma der_id x : is_derive (fun y : R => y) x 1.
Proof. exact (is_derive_id (K := R_AbsRing) x). Qed.
Lemma der_const (c x : R) : is_derive (fun _ : R => c) x 0.
Proof. exact (is_derive_const (K := R_AbsRing) (V := R_NormedModule) c x). Qed.
Lemma der_mult (f g : R -> R) (x f' g' : R) :
  is_derive f x f' -> is_derive g x g' -> is_derive (fun y => f y * g y) x (f' * g x + f x * g').
Proof. intros F G. exact (is_derive_mult f g x f' g' F G (fun a b : R => Rmult_comm a b)). Qed.
Lemma der_plus (f g : R -> R) (x f' g' : R) :
  is_derive f x f' -> is_derive g x g' -> is_derive (fun y => f y + g y) x (f' + g').
Proof. intros F G. exact (is_derive_plus f g x f' g' F G). Qed.
Lemma der_scal (f : R -> R) (c x f' : R) : is_derive f x f' -> is_derive (fun y => c * f y) x (c * f').
Proof. intros F. now apply is_derive_scal. Qed.
Lemma der_comp (f g : R -> R) (x f' g' : R) :
  is_derive f (g x) f' -> is_derive g x g' -> is_derive (fun y => f (g y)) x (f' * g').
Proof.
  intros F G. eapply is_derive_eq; [exact (is_derive_comp f g x f' g' F G)|].
  unfold scal; simpl; unfold mult; simpl; ring.
Qed.
Lemma der_inv (f : R -> R) (x f' : R) : f x <> 0 -> is_derive f x f' ->
  is_derive (fun y => / f y) x (- f' / (f x * f x)).
Proof. intros N F. eapply is_derive_eq; [now apply (is_derive_inv f x f')|]. simpl. field. easy. Qed.
Lemma der_ln (f : R -> R) (x f' : R) : 0 < f x -> is_derive f x f' -> is_derive (fun y => ln (f y)) x (f' / f x).
Proof.
  intros N F. eapply is_derive_eq; [exact (der_comp ln f x _ _ (is_derive_ln _ N) F)|]. field. lra.
Qed.
Lemma der_exp (f : R -> R) (x f' : R) : is_derive f x f' -> is_derive (fun y => exp (f y)) x (exp (f x) * f').
Proof. intros F. exact (der_comp exp f x _ _ (is_derive_exp _) F). Qed.
Lemma der_pow (f : R -> R) (a x f' : R) : 0 < f x -> is_derive f x f' ->
  is_derive (fun y => Rpower (f y) a) x (a * (Rpower (f x) a / f x) * f').
Proof.
  intros N F. unfold Rpower.
  eapply is_derive_eq; [apply der_exp; apply der_scal; apply der_ln; [exact N|exact F]|]. cbv beta. field. lra.
Qed.
Lemma der_sqrt (f : R -> R) (x f' : R) : 0 < f x -> is_derive f x f' ->
  is_derive (fun y => sqrt (f y)) x (f' / (2 * sqrt (f x))).
Proof.
  intros N F. eapply is_derive_eq; [exact (is_derive_sqrt f x f' F N)|].
  pose proof (sqrt_lt_R0 _ N). simpl. field. lra.
Qed.
Lemma der_ext (f g : R -> R) (x l : R) : (forall y : R, @eq R (f y) (g y)) -> is_derive f x l -> is_derive g x l.
Proof. intros E. exact (is_derive_ext f g x l E). Qed.
Lemma der_ext_pos (r : R -> R) (f g : R -> R) (t r' l : R) :
  0 < r t -> is_derive r t r' -> (forall x, 0 < r x -> f x = g x) -> is_derive g t l -> is_derive f t l.
Proof.
  intros N D E G. apply (is_derive_ext_loc g); [|exact G].
  assert (Cn : continuous r t) by exact (ex_derive_continuous r t (ex_intro _ r' D)).
  assert (L : locally (r t) (fun y => 0 < y)) by exact (open_gt 0 (r t) N).
  specialize (Cn _ L). unfold filtermap in Cn. revert Cn. apply filter_imp. intros x Hx. symmetry. now apply E.
Qed.

(** ** The PW92 fit *)
Section PW92.
  Variables aa a1 b1 b2 b3 b4 : R.
  Definition q1f (rs : R) : R := 2 * aa * (b1 * sqrt rs + b2 * rs + b3 * (rs * sqrt rs) + b4 * (rs * rs)).
  Definition q1pf (rs : R) : R := aa * (b1 / sqrt rs + 2 * b2 + 3 * b3 * sqrt rs + 4 * b4 * rs).
  Definition eG (rs : R) : R := -2 * aa * (1 + a1 * rs) * ln (1 + 1 / q1f rs).
  Definition dG (rs : R) : R :=
    -2 * aa * a1 * ln (1 + 1 / q1f rs) + 2 * aa * (1 + a1 * rs) * q1pf rs / (q1f rs * (q1f rs + 1)).
  Hypothesis Paa : 0 < aa. Hypothesis Pa1 : 0 < a1. Hypothesis P1 : 0 < b1.
  Hypothesis P2 : 0 < b2. Hypothesis P3 : 0 < b3. Hypothesis P4 : 0 < b4.
  Lemma q1f_pos rs : 0 < rs -> 0 < q1f rs.
  Proof using Paa P1 P2 P3 P4.
    intros H. pose proof (sqrt_lt_R0 _ H). unfold q1f.
    apply Rmult_lt_0_compat; [lra|].
    assert (0 < b1 * sqrt rs) by now apply Rmult_lt_0_compat.
    assert (0 < b2 * rs) by now apply Rmult_lt_0_compat.
    assert (0 < b3 * (rs * sqrt rs)) by (apply Rmult_lt_0_compat; [easy|now apply Rmult_lt_0_compat]).
    assert (0 < b4 * (rs * rs)) by (apply Rmult_lt_0_compat; [easy|now apply Rmult_lt_0_compat]). lra.
  Qed.
  Lemma q1f_derive rs : 0 < rs -> is_derive q1f rs (q1pf rs).
  Proof using.
    intros H. pose proof (sqrt_lt_R0 _ H) as S.
    assert (S2 : sqrt rs * sqrt rs = rs) by (apply sqrt_sqrt; lra).
    pose proof (der_id rs) as I.
    pose proof (der_sqrt _ rs _ H I) as DS.
    eapply is_derive_eq.
    - unfold q1f. apply der_scal. apply der_plus; [apply der_plus; [apply der_plus|]|].
      + apply der_scal, DS.
      + apply der_scal, I.
      + apply der_scal. apply der_mult; [exact I|exact DS].
      + apply der_scal. apply der_mult; exact I.
    - unfold q1pf. cbv beta. clear DS I H. generalize dependent (sqrt rs). intros q Q <-. field. lra.
  Qed.
  Lemma eG_derive rs : 0 < rs -> is_derive eG rs (dG rs).
  Proof using Paa P1 P2 P3 P4.
    intros H. pose proof (q1f_pos rs H) as Q.
    assert (N : 0 < 1 + 1 / q1f rs) by (pose proof (Rdiv_lt_0_compat 1 _ Rlt_0_1 Q); lra).
    eapply is_derive_eq.
    - unfold eG. apply der_mult.
      + apply der_scal. apply der_plus; [apply der_const|apply der_scal, der_id].
      + apply der_ln; [exact N|]. apply der_plus; [apply der_const|]. unfold Rdiv. apply der_scal.
        apply der_inv; [lra|]. now apply q1f_derive.
    - unfold dG. cbv beta. field. repeat split; lra.
  Qed.
  Lemma eG_neg rs : 0 < rs -> eG rs < 0.
  Proof using Paa Pa1 P1 P2 P3 P4.
    intros H. pose proof (q1f_pos rs H) as Q. unfold eG.
    assert (0 < 1 / q1f rs) by (apply Rdiv_lt_0_compat; lra).
    assert (0 < ln (1 + 1 / q1f rs)) by (rewrite <- ln_1; apply ln_increasing; lra).
    assert (0 < a1 * rs) by now apply Rmult_lt_0_compat.
    assert (0 < 2 * aa * (1 + a1 * rs) * ln (1 + 1 / q1f rs)).
    { apply Rmult_lt_0_compat; [apply Rmult_lt_0_compat; lra|easy]. }
    lra.
  Qed.
  (** The run of the PW92 lines. *)
  Lemma pw92_run rs : 0 < rs -> pw92 aa a1 b1 b2 b3 b4 rs (sqrt rs) (1 / sqrt rs) = Ok (eG rs, dG rs).
  Proof using Paa P1 P2 P3 P4.
    intros H. pose proof (sqrt_lt_R0 _ H) as S. pose proof (q1f_pos rs H) as Q.
    unfold pw92. cbv zeta.
    replace (2 * aa * (b1 * sqrt rs + b2 * rs + b3 * rs * sqrt rs + b4 * rs * rs)) with (q1f rs)
      by (unfold q1f; ring).
    apply wp_ok. assert (0 < q1f rs * q1f rs) by now apply Rmult_lt_0_compat.
    apply wp_div; [lra|].
    apply wp_log.
    { apply Rmult_lt_0_compat; [easy|]. apply Rdiv_lt_0_compat; lra. }
    cbn [wp].
    assert (E : - ln (q1f rs * q1f rs * (1 / (q1f rs * q1f rs + q1f rs))) = ln (1 + 1 / q1f rs)).
    { rewrite <- ln_Rinv.
      - f_equal. field. repeat split; lra.
      - apply Rmult_lt_0_compat; [easy|]. apply Rdiv_lt_0_compat; lra. }
    rewrite E. unfold eG, dG, q1pf. f_equal. field. repeat split; lra.
  Qed.
End PW92.

(** ** The Wigner-Seitz radius *)
Definition rsr (c rho : R) : R := c * Rpower rho (- (1 / 3)).
Lemma rsr_pos c rho : 0 < c -> 0 < rsr c rho.
Proof. intros H. apply Rmult_lt_0_compat; [easy|apply Rpower_pos]. Qed.
Lemma rsr_derive c (r : R -> R) (t r' : R) : 0 < r t -> is_derive r t r' ->
  is_derive (fun x => rsr c (r x)) t (- (rsr c (r t) / (3 * r t)) * r').
Proof.
  intros H D. eapply is_derive_eq.
  - unfold rsr. apply der_scal. apply der_pow; [exact H|exact D].
  - unfold rsr. cbv beta. field. lra.
Qed.
Lemma rsr_div c rho : 0 < rho -> c / Rpower rho (1 / 3) = rsr c rho.
Proof. intros _. unfold rsr, Rdiv. now rewrite Rpower_inv. Qed.
Lemma lda_chain c (e : R -> R) (rho d : R) : 0 < c -> 0 < rho -> is_derive e (rsr c rho) d ->
  is_derive (fun r => r * e (rsr c r)) rho (e (rsr c rho) - rsr c rho / 3 * d).
Proof.
  intros C0 H D. eapply is_derive_eq.
  - apply der_mult; [apply der_id|]. exact (der_comp e (rsr c) rho _ _ D (rsr_derive c (fun x => x) rho 1 H (der_id rho))).
  - cbv beta. field. lra.
Qed.

(** ** Local functionals *)
Definition eG0 : R -> R :=
  eG (31091 / 1000000) (21370 / 100000) (75957 / 10000) (35876 / 10000) (16382 / 10000) (49294 / 100000).
Definition dG0 : R -> R :=
  dG (31091 / 1000000) (21370 / 100000) (75957 / 10000) (35876 / 10000) (16382 / 10000) (49294 / 100000).
Lemma C31_pos : 0 < C31. Proof. unfold C31; lra. Qed.
Lemma pw_run rho : 0 < rho ->
  pw rho = Ok (eG0 (rsr C31 rho), eG0 (rsr C31 rho) - rsr C31 rho / 3 * dG0 (rsr C31 rho)).
Proof.
  intros H. unfold pw. cbv zeta. rewrite cbrt_pos by easy. apply wp_ok.
  apply wp_div; [pose proof (Rpower_pos rho (1 / 3)); lra|]. rewrite rsr_div by easy.
  pose proof (rsr_pos _ rho C31_pos) as P. set (rs := rsr C31 rho) in *. clearbody rs.
  pose proof (sqrt_lt_R0 _ P) as S.
  apply wp_sqrt; [lra|].
  assert (Q : 0 < q1f (31091 / 1000000) (75957 / 10000) (35876 / 10000) (16382 / 10000) (49294 / 100000) rs)
    by (apply q1f_pos; lra).
  replace (2 * (31091 / 1000000) * _) with
    (q1f (31091 / 1000000) (75957 / 10000) (35876 / 10000) (16382 / 10000) (49294 / 100000) rs)
    by (unfold q1f; ring).
  apply wp_div; [lra|].
  assert (0 < 1 / q1f (31091 / 1000000) (75957 / 10000) (35876 / 10000) (16382 / 10000) (49294 / 100000) rs)
    by (apply Rdiv_lt_0_compat; lra).
  apply wp_log; [lra|]. apply wp_div; [lra|]. apply wp_div; [apply Rgt_not_eq; apply Rmult_lt_0_compat; lra|].
  cbn [wp]. unfold eG0, dG0, eG, dG, q1pf. f_equal.
Qed.

Definition pz_lo (rs : R) : R :=
  311 / 10000 * ln rs + - (48 / 1000) + 2 / 1000 * rs * ln rs + - (116 / 10000) * rs.
Definition pz_lo_d (rs : R) : R := 311 / 10000 / rs + 2 / 1000 * (ln rs + 1) + - (116 / 10000).
Definition pz_hi (rs : R) : R := - (1423 / 10000) / (1 + 10529 / 10000 * sqrt rs + 3334 / 10000 * rs).
Definition pz_hi_d (rs : R) : R :=
  1423 / 10000 * (10529 / 10000 / (2 * sqrt rs) + 3334 / 10000)
  / ((1 + 10529 / 10000 * sqrt rs + 3334 / 10000 * rs) * (1 + 10529 / 10000 * sqrt rs + 3334 / 10000 * rs)).
Lemma pz_lo_derive rs : 0 < rs -> is_derive pz_lo rs (pz_lo_d rs).
Proof.
  intros H. pose proof (der_id rs) as I. pose proof (der_ln _ rs _ H I) as L. eapply is_derive_eq.
  - unfold pz_lo. apply der_plus; [apply der_plus; [apply der_plus|]|].
    + apply der_scal, L.
    + apply der_const.
    + apply der_mult; [apply der_scal, I|exact L].
    + apply der_scal, I.
  - unfold pz_lo_d. cbv beta. field. lra.
Qed.
Lemma pz_hi_derive rs : 0 < rs -> is_derive pz_hi rs (pz_hi_d rs).
Proof.
  intros H. pose proof (der_id rs) as I. pose proof (der_sqrt _ rs _ H I) as L.
  pose proof (sqrt_lt_R0 _ H) as S. eapply is_derive_eq.
  - unfold pz_hi, Rdiv at 1. apply der_scal. apply der_inv; [lra|].
    apply der_plus; [apply der_plus; [apply der_const|apply der_scal, L]|apply der_scal, I].
  - unfold pz_hi_d. cbv beta. field. repeat split; lra.
Qed.
Lemma pz_run_lo rho : 0 < rho -> rsr C31 rho < 1 ->
  pz rho = Ok (pz_lo (rsr C31 rho), pz_lo (rsr C31 rho) - rsr C31 rho / 3 * pz_lo_d (rsr C31 rho)).
Proof.
  intros H L. unfold pz. cbv zeta. rewrite cbrt_pos by easy. apply wp_ok.
  apply wp_div; [pose proof (Rpower_pos rho (1 / 3)); lra|]. rewrite rsr_div by easy.
  pose proof (rsr_pos _ rho C31_pos) as P. set (rs := rsr C31 rho) in *. clearbody rs.
  destruct (Rlt_dec rs 1); [|easy]. apply wp_log; [easy|]. cbn [wp]. unfold pz_lo, pz_lo_d. f_equal. field. lra.
Qed.
Lemma pz_run_hi rho : 0 < rho -> 1 <= rsr C31 rho ->
  pz rho = Ok (pz_hi (rsr C31 rho), pz_hi (rsr C31 rho) - rsr C31 rho / 3 * pz_hi_d (rsr C31 rho)).
Proof.
  intros H L. unfold pz. cbv zeta. rewrite cbrt_pos by easy. apply wp_ok.
  apply wp_div; [pose proof (Rpower_pos rho (1 / 3)); lra|]. rewrite rsr_div by easy.
  pose proof (rsr_pos _ rho C31_pos) as P. set (rs := rsr C31 rho) in *. clearbody rs.
  destruct (Rlt_dec rs 1); [lra|]. pose proof (sqrt_lt_R0 _ P) as S.
  assert (S2 : sqrt rs * sqrt rs = rs) by (apply sqrt_sqrt; lra).
  apply wp_sqrt; [lra|]. apply wp_div; [lra|]. apply wp_div; [apply Rgt_not_eq; apply Rmult_lt_0_compat; lra|].
  cbn [wp]. unfold pz_hi, pz_hi_d. f_equal. clear P L H n. generalize dependent (sqrt rs). intros q Q <-.
  assert (0 < q * q) by now apply Rmult_lt_0_compat. field. lra.
Qed.

(** ** PBE correlation: the gradient contribution *)
Section HH.
  Variables be ga : R.
  Hypothesis Pb : 0 < be. Hypothesis Pg : 0 < ga.
  Definition bbf (e p : R) : R := e / (ga * p ^ 3).
  Definition ccf (e p : R) : R := 1 / (exp (- bbf e p) - 1).
  Definition aaf (e p : R) : R := be / ga / p ^ 2 * ccf e p.
  Definition padef (x : R) : R := (1 + x) * (1 / (1 + x * (1 + x))).
  Definition dpx (x : R) : R := - x * (2 + x) * ((1 / (1 + x * (1 + x))) * (1 / (1 + x * (1 + x)))).
  Definition argf (e p t : R) : R := 1 + be / ga * (t / p ^ 2 * padef (aaf e p * t)).
  Definition hhf (e p t : R) : R := p ^ 3 * (ga * ln (argf e p t)).
  Definition dcb (e p : R) : R := ccf e p * ccf e p * exp (- bbf e p).
  Definition hh_e (e p t : R) : R :=
    p ^ 3 * (be / argf e p t * (t / p ^ 2 * (dpx (aaf e p * t) * (be / ga / p ^ 2 * (dcb e p / (ga * p ^ 3)) * t)))).
  Definition hh_t (e p t : R) : R :=
    p ^ 3 * (be / argf e p t * (padef (aaf e p * t) / p ^ 2 + t / p ^ 2 * (dpx (aaf e p * t) * aaf e p))).
  Definition hh_p (e p t : R) : R :=
    p ^ 3 * (be / argf e p t
             * (t / p ^ 2 * (dpx (aaf e p * t)
                             * ((-2 * aaf e p / p + be / ga / p ^ 2 * (dcb e p * (-3 * bbf e p / p))) * t)
                             - 2 * padef (aaf e p * t) / p))
             + 3 * (ga * ln (argf e p t)) / p).
  Lemma exp_gt1 x : 0 < x -> 1 < exp x.
  Proof using. intros H. rewrite <- exp_0. now apply exp_increasing. Qed.
  Lemma cc_pos e p : e < 0 -> 0 < p -> 0 < exp (- bbf e p) - 1.
  Proof using Pg.
    intros E P. assert (0 < - bbf e p).
    { unfold bbf. replace (- (e / (ga * p ^ 3))) with (- e / (ga * p ^ 3)).
      - apply Rdiv_lt_0_compat; [lra|]. apply Rmult_lt_0_compat; [easy|now apply pow_lt].
      - unfold Rdiv. ring. }
    pose proof (exp_gt1 _ H). lra.
  Qed.
  Lemma aa_pos e p : e < 0 -> 0 < p -> 0 < aaf e p.
  Proof using Pb Pg.
    intros E P. unfold aaf, ccf. pose proof (cc_pos e p E P).
    assert (0 < p ^ 2) by now apply pow_lt.
    apply Rmult_lt_0_compat; [|apply Rdiv_lt_0_compat; lra].
    apply Rdiv_lt_0_compat; [|easy]. now apply Rdiv_lt_0_compat.
  Qed.
  Lemma den_pos x : 0 <= x -> 0 < 1 + x * (1 + x).
  Proof using. intros H. assert (0 <= x * (1 + x)) by (apply Rmult_le_pos; lra). lra. Qed.
  Lemma pade_pos x : 0 <= x -> 0 < padef x.
  Proof using.
    intros H. unfold padef. pose proof (den_pos x H). apply Rmult_lt_0_compat; [lra|]. apply Rdiv_lt_0_compat; lra.
  Qed.
  Lemma arg_ge1 e p t : e < 0 -> 0 < p -> 0 <= t -> 1 <= argf e p t.
  Proof using Pb Pg.
    intros E P T. unfold argf. pose proof (aa_pos e p E P) as A.
    assert (0 <= aaf e p * t) by (apply Rmult_le_pos; lra).
    pose proof (pade_pos _ H). assert (0 < p ^ 2) by now apply pow_lt.
    assert (0 <= t / p ^ 2) by (apply Rmult_le_pos; [lra|left; now apply Rinv_0_lt_compat]).
    assert (0 < be / ga) by now apply Rdiv_lt_0_compat.
    assert (0 <= be / ga * (t / p ^ 2 * padef (aaf e p * t))).
    { apply Rmult_le_pos; [lra|]. apply Rmult_le_pos; lra. } lra.
  Qed.
  Lemma bbf_derive (e p : R -> R) (x e' p' : R) : 0 < p x -> is_derive e x e' -> is_derive p x p' ->
    is_derive (fun y => bbf (e y) (p y)) x (e' / (ga * p x ^ 3) - 3 * bbf (e x) (p x) / p x * p').
  Proof using Pg.
    intros N E P. assert (NN : ga * (p x * (p x * p x)) <> 0).
    { apply Rgt_not_eq. repeat apply Rmult_lt_0_compat; easy. }
    apply (der_ext (fun y => e y * / (ga * (p y * (p y * p y))))).
    { intros y. unfold bbf, Rdiv. f_equal. f_equal. simpl. ring. }
    eapply is_derive_eq.
    - apply der_mult; [exact E|]. apply der_inv; [exact NN|]. apply der_scal.
      apply der_mult; [exact P|]. apply der_mult; exact P.
    - cbv beta. unfold bbf. field. lra.
  Qed.
  Lemma ccf_derive (e p : R -> R) (x e' p' : R) : e x < 0 -> 0 < p x -> is_derive e x e' -> is_derive p x p' ->
    is_derive (fun y => ccf (e y) (p y)) x
      (dcb (e x) (p x) * (e' / (ga * p x ^ 3) - 3 * bbf (e x) (p x) / p x * p')).
  Proof using Pg.
    intros N Np E P. pose proof (cc_pos _ _ N Np) as CP.
    pose proof (bbf_derive e p x e' p' Np E P) as B. unfold ccf, dcb.
    generalize dependent (e' / (ga * p x ^ 3) - 3 * bbf (e x) (p x) / p x * p'). intros l B.
    eapply is_derive_eq.
    - unfold Rdiv. apply der_scal. apply der_inv; [cbv beta; lra|].
      apply der_plus; [|apply der_const]. apply der_exp.
      apply (der_ext (fun y => (-1) * bbf (e y) (p y))); [intros; ring|]. apply der_scal, B.
    - cbv beta. unfold ccf. field. lra.
  Qed.
  Lemma aaf_derive (e p : R -> R) (x e' p' : R) : e x < 0 -> 0 < p x -> is_derive e x e' -> is_derive p x p' ->
    is_derive (fun y => aaf (e y) (p y)) x
      (-2 * aaf (e x) (p x) / p x * p' + be / ga / p x ^ 2
         * (dcb (e x) (p x) * (e' / (ga * p x ^ 3) - 3 * bbf (e x) (p x) / p x * p'))).
  Proof using Pg.
    intros N Np E P. pose proof (ccf_derive e p x e' p' N Np E P) as B. unfold aaf.
    generalize dependent (dcb (e x) (p x) * (e' / (ga * p x ^ 3) - 3 * bbf (e x) (p x) / p x * p')).
    intros l B.
    assert (NN : p x * p x <> 0) by (apply Rgt_not_eq; now apply Rmult_lt_0_compat).
    apply (der_ext (fun y => be / ga * / (p y * p y) * ccf (e y) (p y))).
    { intros y. unfold Rdiv. f_equal. f_equal. f_equal. simpl. ring. }
    eapply is_derive_eq.
    - apply der_mult; [|exact B]. apply der_scal. apply der_inv; [exact NN|]. apply der_mult; exact P.
    - cbv beta. field. split; lra.
  Qed.
  Lemma pade_derive (X : R -> R) (x X' : R) : 0 <= X x -> is_derive X x X' ->
    is_derive (fun y => padef (X y)) x (dpx (X x) * X').
  Proof using.
    intros N D. pose proof (den_pos _ N) as DP. eapply is_derive_eq.
    - unfold padef, Rdiv. apply der_mult.
      + apply der_plus; [apply der_const|exact D].
      + apply der_scal. apply der_inv; [cbv beta; lra|].
        apply der_plus; [apply der_const|]. apply der_mult; [exact D|]. apply der_plus; [apply der_const|exact D].
    - cbv beta. unfold dpx. field. lra.
  Qed.
  Lemma hhf_derive (e p t : R -> R) (x e' p' t' : R) :
    e x < 0 -> 0 < p x -> 0 <= t x -> is_derive e x e' -> is_derive p x p' -> is_derive t x t' ->
    is_derive (fun y => hhf (e y) (p y) (t y)) x
      (hh_e (e x) (p x) (t x) * e' + hh_p (e x) (p x) (t x) * p' + hh_t (e x) (p x) (t x) * t').
  Proof using Pb Pg.
    intros Ne Np Nt E P T. pose proof (aa_pos _ _ Ne Np) as AP.
    pose proof (arg_ge1 _ _ _ Ne Np Nt) as AR.
    assert (XP : 0 <= aaf (e x) (p x) * t x) by (apply Rmult_le_pos; lra).
    pose proof (aaf_derive e p x e' p' Ne Np E P) as A.
    pose proof (pade_derive (fun y => aaf (e y) (p y) * t y) x _ XP
                  (der_mult _ t x _ _ A T)) as PD. cbv beta in PD.
    assert (NN : p x * p x <> 0) by (apply Rgt_not_eq; now apply Rmult_lt_0_compat).
    assert (AD : is_derive (fun y => argf (e y) (p y) (t y)) x
      (be / ga * ((t' / p x ^ 2 - 2 * t x / p x ^ 3 * p') * padef (aaf (e x) (p x) * t x)
        + t x / p x ^ 2 * (dpx (aaf (e x) (p x) * t x)
          * ((-2 * aaf (e x) (p x) / p x * p' + be / ga / p x ^ 2
         * (dcb (e x) (p x) * (e' / (ga * p x ^ 3) - 3 * bbf (e x) (p x) / p x * p'))) * t x + aaf (e x) (p x) * t'))))).
    { apply (der_ext (fun y => 1 + be / ga * (t y * / (p y * p y) * padef (aaf (e y) (p y) * t y)))).
      { intros y. unfold argf, Rdiv. f_equal. f_equal. f_equal. f_equal. f_equal. simpl. ring. }
      eapply is_derive_eq.
      - apply der_plus; [apply der_const|]. apply der_scal. apply der_mult; [|exact PD].
        apply der_mult; [exact T|]. apply der_inv; [exact NN|]. apply der_mult; exact P.
      - cbv beta. unfold Rdiv at 4. generalize (dpx (aaf (e x) (p x) * t x)) (padef (aaf (e x) (p x) * t x))
          (aaf (e x) (p x)) (dcb (e x) (p x)) (bbf (e x) (p x)). intros. field. repeat split; lra. }
    apply (der_ext (fun y => p y * (p y * p y) * (ga * ln (argf (e y) (p y) (t y))))).
    { intros y. unfold hhf. f_equal. simpl. ring. }
    eapply is_derive_eq.
    - apply der_mult; [apply der_mult; [exact P|apply der_mult; exact P]|]. apply der_scal.
      apply der_ln; [cbv beta; lra|exact AD].
    - cbv beta. unfold hh_e, hh_p, hh_t. assert (AR' : 0 < argf (e x) (p x) (t x)) by lra.
      generalize dependent (argf (e x) (p x) (t x)). intros ar. intros.
      generalize (dpx (aaf (e x) (p x) * t x)) (padef (aaf (e x) (p x) * t x))
          (aaf (e x) (p x)) (dcb (e x) (p x)) (bbf (e x) (p x)) (ln ar). intros. field. repeat split; lra.
  Qed.
  Lemma hhf_bound e p t : e < 0 -> 0 < p -> 0 <= t -> 0 <= hhf e p t < - e.
  Proof using Pb Pg.
    intros Ne Np Nt. pose proof (arg_ge1 _ _ _ Ne Np Nt) as AR. pose proof (cc_pos _ _ Ne Np) as CP.
    pose proof (aa_pos _ _ Ne Np) as AP.
    assert (XP : 0 <= aaf e p * t) by (apply Rmult_le_pos; lra). pose proof (den_pos _ XP) as DP.
    assert (P3 : 0 < p ^ 3) by now apply pow_lt. assert (P2 : 0 < p ^ 2) by now apply pow_lt. split.
    - unfold hhf. apply Rmult_le_pos; [lra|]. apply Rmult_le_pos; [lra|].
      rewrite <- ln_1. destruct (Req_dec 1 (argf e p t)) as [<-|NE]; [lra|]. left. apply ln_increasing; lra.
    - assert (L : argf e p t < exp (- bbf e p)).
      { unfold argf. replace (be / ga * (t / p ^ 2 * padef (aaf e p * t)))
          with ((exp (- bbf e p) - 1) * (aaf e p * t * padef (aaf e p * t))).
        - set (x := aaf e p * t) in *. unfold padef.
          assert (x * ((1 + x) * (1 / (1 + x * (1 + x)))) < 1).
          { replace (x * ((1 + x) * (1 / (1 + x * (1 + x))))) with (1 - 1 / (1 + x * (1 + x))) by (field; lra).
            assert (0 < 1 / (1 + x * (1 + x))) by (apply Rdiv_lt_0_compat; lra). lra. }
          assert ((exp (- bbf e p) - 1) * (x * ((1 + x) * (1 / (1 + x * (1 + x))))) < (exp (- bbf e p) - 1) * 1)
            by now apply Rmult_lt_compat_l. lra.
        - generalize (padef (aaf e p * t)). intros pd. unfold aaf, ccf. field. repeat split; lra. }
      unfold hhf. apply ln_increasing in L; [|lra]. rewrite ln_exp in L.
      apply Rmult_lt_compat_l with (r := p ^ 3 * ga) in L; [|now apply Rmult_lt_0_compat].
      replace (p ^ 3 * ga * - bbf e p) with (- e) in L; [lra|]. unfold bbf. field. split; lra.
  Qed.
End HH.

(** ** PBE-type exchange *)
Lemma kappa_pos i : 0 < kappa_ i. Proof. unfold kappa_. destruct (_ =? _)%Z; lra. Qed.
Lemma mu_pos i : 0 < mu_ i. Proof. unfold mu_. destruct (_ =? _)%Z; lra. Qed.
Definition divf (i : Z) (ss : R) : R :=
  if (i =? 3)%Z then exp (- (mu_ i / kappa_ i) * ss) else 1 / (1 + mu_ i / kappa_ i * ss).
Definition dfx (i : Z) (ss : R) : R := if (i =? 3)%Z then mu_ i * divf i ss else mu_ i * (divf i ss * divf i ss).
Lemma muk_pos i : 0 < mu_ i / kappa_ i.
Proof. apply Rdiv_lt_0_compat; [apply mu_pos|apply kappa_pos]. Qed.
Lemma divden_pos i ss : 0 <= ss -> 0 < 1 + mu_ i / kappa_ i * ss.
Proof. intros H. pose proof (muk_pos i). assert (0 <= mu_ i / kappa_ i * ss) by (apply Rmult_le_pos; lra). lra. Qed.
Lemma divf_bound i ss : 0 <= ss -> 0 < divf i ss <= 1.
Proof.
  intros H. unfold divf. pose proof (muk_pos i). pose proof (divden_pos i ss H) as D.
  assert (M : 0 <= mu_ i / kappa_ i * ss) by (apply Rmult_le_pos; lra).
  destruct (i =? 3)%Z.
  - split; [apply exp_pos|]. destruct (Req_dec (- (mu_ i / kappa_ i) * ss) 0) as [->|N]; [rewrite exp_0; lra|].
    left. rewrite <- exp_0. apply exp_increasing. lra.
  - split; [apply Rdiv_lt_0_compat; lra|]. apply Rmult_le_reg_r with (r := 1 + mu_ i / kappa_ i * ss); [easy|].
    unfold Rdiv at 1. rewrite Rmult_assoc, Rinv_l by lra. lra.
Qed.
Lemma enhance_run i ss : 0 <= ss -> enhance i ss = Ok (divf i ss, dfx i ss).
Proof.
  intros H. unfold enhance, dfx, divf. cbv zeta. destruct (i =? 3)%Z; [reflexivity|]. apply wp_ok.
  apply wp_div; [pose proof (divden_pos i ss H); lra|]. reflexivity.
Qed.
Lemma fx_derive i (s : R -> R) (t s' : R) : 0 <= s t -> is_derive s t s' ->
  is_derive (fun x => 1 + kappa_ i * (1 - divf i (s x))) t (dfx i (s t) * s').
Proof.
  intros N D. pose proof (kappa_pos i) as K. pose proof (divden_pos i _ N) as DP. unfold dfx, divf.
  destruct (i =? 3)%Z.
  - eapply is_derive_eq.
    + apply der_plus; [apply der_const|]. apply der_scal.
      apply (der_ext (fun x => 1 + (-1) * exp (- (mu_ i / kappa_ i) * s x))); [intros; ring|].
      apply der_plus; [apply der_const|]. apply der_scal. apply der_exp. apply der_scal, D.
    + cbv beta. generalize (exp (- (mu_ i / kappa_ i) * s t)). intros. field. lra.
  - eapply is_derive_eq.
    + apply der_plus; [apply der_const|]. apply der_scal.
      apply (der_ext (fun x => 1 + (-1) * / (1 + mu_ i / kappa_ i * s x))); [intros; unfold Rdiv; ring|].
      apply der_plus; [apply der_const|]. apply der_scal. apply der_inv; [cbv beta; lra|].
      apply der_plus; [apply der_const|]. apply der_scal, D.
    + cbv beta. set (m := mu_ i / kappa_ i) in *. assert (E : mu_ i = m * kappa_ i) by (unfold m; field; lra).
      clearbody m. rewrite E. field. lra.
Qed.

Definition exl (u rho : R) : R := - threefourth_divpi * sixpi2_1_3 * (u * u * (rho / 2)).
Definition cfs (u : R) : R := 1 / 4 * (1 / sixpi2_1_3) * (1 / sixpi2_1_3) * (u * u * u * (u * u * u) * u * u).
Definition umot (rho : R) : R := Rpower (rho / 2) (- (1 / 3)).
Definition ssf (rho sigma : R) : R := sigma / 4 * cfs (umot rho).
Definition pbex_e (i : Z) (rho sigma : R) : R := exl (umot rho) rho * (1 + kappa_ i * (1 - divf i (ssf rho sigma))).
Definition pbex_v (i : Z) (rho sigma : R) : R :=
  let u := umot rho in let ss := ssf rho sigma in
  exl u rho * (4 / 3 * (1 + kappa_ i * (1 - divf i ss)) + rho / 2 * (dfx i ss * (- (8 / 3) * (ss * (u * u * u))))).
Definition pbex_v2 (i : Z) (rho sigma : R) : R :=
  let u := umot rho in 1 / 2 * exl u rho * (rho / 2) * (dfx i (ssf rho sigma) * (2 * cfs u)).
Lemma cfs_pos u : 0 < u -> 0 < cfs u.
Proof.
  intros U. unfold cfs. assert (0 < sixpi2_1_3) by apply Rpower_pos.
  assert (0 < 1 / sixpi2_1_3) by (apply Rdiv_lt_0_compat; lra).
  repeat apply Rmult_lt_0_compat; lra.
Qed.
Lemma ssf_nonneg rho sigma : 0 <= sigma -> 0 <= ssf rho sigma.
Proof.
  intros S. unfold ssf. apply Rmult_le_pos; [lra|]. left. apply cfs_pos. apply Rpower_pos.
Qed.
Lemma pbex_run i rho sigma : (1 <= i <= 4)%Z -> 0 < rho -> 0 <= sigma ->
  pbex i rho sigma = Ok (pbex_e i rho sigma, pbex_v i rho sigma, pbex_v2 i rho sigma).
Proof.
  intros I H S. unfold pbex.
  replace ((i <? 1)%Z || (4 <? i)%Z) with false by (symmetry; apply orb_false_intro; apply Z.ltb_ge; tauto).
  cbv zeta. apply wp_ok. apply wp_pow; [lra|].
  change (Rpower (rho / 2) (- (1 / 3))) with (umot rho).
  change (sigma / 4 * _) with (ssf rho sigma).
  rewrite (enhance_run i _ (ssf_nonneg rho sigma S)). reflexivity.
Qed.
Lemma umot_cube rho : 0 < rho -> umot rho ^ 3 = 2 / rho.
Proof. intros H. unfold umot. rewrite Rpower_third3 by lra. field. lra. Qed.
Lemma umot_rho rho : 0 < rho -> rho = 2 / (umot rho * umot rho * umot rho).
Proof.
  intros H. pose proof (umot_cube rho H) as E.
  replace (umot rho * umot rho * umot rho) with (umot rho ^ 3) by ring. rewrite E. field. lra.
Qed.
Lemma umot_derive (r : R -> R) (t r' : R) : 0 < r t -> is_derive r t r' ->
  is_derive (fun x => umot (r x)) t (- umot (r t) / (3 * r t) * r').
Proof.
  intros H D. eapply is_derive_eq.
  - unfold umot. apply der_pow; [cbv beta; lra|]. unfold Rdiv. apply der_mult; [exact D|apply der_const].
  - unfold umot. cbv beta. unfold Rdiv. field. lra.
Qed.
Lemma cfs_derive (u : R -> R) (t u' : R) : 0 < u t -> is_derive u t u' ->
  is_derive (fun x => cfs (u x)) t (8 * cfs (u t) / u t * u').
Proof.
  intros N U. assert (0 < sixpi2_1_3) by apply Rpower_pos. eapply is_derive_eq.
  - unfold cfs. apply der_scal. apply der_mult; [apply der_mult; [apply der_mult|]|]; try exact U;
      apply der_mult; try exact U; apply der_mult; exact U.
  - cbv beta. unfold cfs. field. lra.
Qed.
Lemma pbex_derive i (r s : R -> R) (t r' s' : R) : 0 < r t -> 0 <= s t -> is_derive r t r' -> is_derive s t s' ->
  is_derive (fun x => r x * pbex_e i (r x) (s x)) t (pbex_v i (r t) (s t) * r' + pbex_v2 i (r t) (s t) / 2 * s').
Proof.
  intros Hr Hs D S. pose proof (umot_derive r t r' Hr D) as U. pose proof (Rpower_pos (r t / 2) (- (1 / 3))) as UP.
  fold (umot (r t)) in UP.
  assert (SD : is_derive (fun x => ssf (r x) (s x)) t (s' / 4 * cfs (umot (r t))
     + s t / 4 * (8 * cfs (umot (r t)) / umot (r t) * (- umot (r t) / (3 * r t) * r')))).
  { unfold ssf. eapply is_derive_eq.
    - apply (der_mult (fun x => s x / 4) (fun x => cfs (umot (r x)))).
      + unfold Rdiv. apply der_mult; [exact S|apply der_const].
      + apply (cfs_derive (fun x => umot (r x))); [exact UP|exact U].
    - cbv beta. field. lra. }
  pose proof (fx_derive i _ t _ (ssf_nonneg (r t) (s t) Hs) SD) as FD.
  eapply is_derive_eq.
  - unfold pbex_e. apply der_mult; [exact D|]. apply der_mult; [|exact FD].
    unfold exl. apply der_scal. apply der_mult; [apply der_mult; exact U|].
    unfold Rdiv. apply der_mult; [exact D|apply der_const].
  - cbv beta. unfold pbex_v, pbex_v2. cbv zeta.
    generalize (divf i (ssf (r t) (s t))) (dfx i (ssf (r t) (s t))). intros dv df.
    unfold ssf, exl. generalize (cfs (umot (r t))). intros cf.
    pose proof (umot_rho (r t) Hr) as E. generalize dependent (umot (r t)). intros u U UP SD FD E.
    clear U SD FD. generalize dependent (r t). intros rt _ ->. unfold Rdiv. field. lra.
Qed.

(** ** Refitted PW86 exchange *)
Definition pref : R := 618733545256027 / 100000000000000.
Definition Ax : R := - (738558766382022 / 1000000000000000).
Definition Pol (s : R) : R := 1 + 1851 / 1000 * (s * s) + 1733 / 100 * (s * s * s * s) + 163 / 1000 * (s * s * s * (s * s) * s).
Definition dPol (s : R) : R := 2 * (1851 / 1000) * s + 4 * (1733 / 100) * (s * s * s) + 6 * (163 / 1000) * (s * s * s * (s * s)).
Definition fsf (s : R) : R := Rpower (Pol s) (1 / 15).
Definition dff (s : R) : R := 1 / (15 * fsf s ^ 14) * dPol s.
Lemma Pol_pos s : 0 < Pol s.
Proof.
  unfold Pol. assert (0 <= s * s) by apply Rle_0_sqr.
  assert (0 <= s * s * s * s) by (replace (s * s * s * s) with ((s * s) * (s * s)) by ring; apply Rle_0_sqr).
  assert (0 <= s * s * s * (s * s) * s).
  { replace (s * s * s * (s * s) * s) with ((s * s * s) * (s * s * s)) by ring. apply Rle_0_sqr. } lra.
Qed.
Lemma Pol_derive (s : R -> R) (t s' : R) : is_derive s t s' -> is_derive (fun x => Pol (s x)) t (dPol (s t) * s').
Proof.
  intros S. pose proof (der_mult s s t _ _ S S) as S2. pose proof (der_mult _ s t _ _ S2 S) as S3.
  pose proof (der_mult _ s t _ _ S3 S) as S4. cbv beta in *.
  eapply is_derive_eq.
  - unfold Pol. apply der_plus; [apply der_plus; [apply der_plus; [apply der_const|]|]|].
    + apply der_scal, S2.
    + apply der_scal, S4.
    + apply der_scal. apply der_mult; [|exact S]. apply der_mult; [exact S3|exact S2].
  - cbv beta. unfold dPol. field.
Qed.
Lemma fsf15 s : fsf s ^ 15 = Pol s.
Proof.
  unfold fsf. rewrite <- Rpower_pow by apply Rpower_pos. rewrite Rpower_mult.
  replace (1 / 15 * INR 15) with 1 by (simpl; lra). apply Rpower_1, Pol_pos.
Qed.
Lemma fsf_pos s : 0 < fsf s. Proof. apply Rpower_pos. Qed.
Lemma fsf_derive (s : R -> R) (t s' : R) : is_derive s t s' -> is_derive (fun x => fsf (s x)) t (dff (s t) * s').
Proof.
  intros S. eapply is_derive_eq.
  - unfold fsf. apply der_pow; [apply Pol_pos|]. apply Pol_derive, S.
  - cbv beta. fold (fsf (s t)). unfold dff. rewrite <- (fsf15 (s t)). pose proof (fsf_pos (s t)). field. lra.
Qed.
Lemma Rpower_43 r : 0 < r -> Rpower r (4 / 3) = r * Rpower r (1 / 3).
Proof.
  intros H. replace (4 / 3) with (1 + 1 / 3) by lra. now rewrite Rpower_plus, Rpower_1.
Qed.
Definition sred (rho sigma : R) : R := sqrt sigma / (pref * Rpower rho (4 / 3)).
Definition rpw_e (rho sigma : R) : R := Ax * Rpower rho (1 / 3) * fsf (sred rho sigma).
Definition rpw_v (rho sigma : R) : R :=
  Ax * (4 / 3) * (Rpower rho (1 / 3) * fsf (sred rho sigma) - sqrt sigma / (pref * rho) * dff (sred rho sigma)).
Definition rpw_v2 (rho sigma : R) : R := Ax * dff (sred rho sigma) / (pref * sqrt sigma).
Lemma rpw_run rho sigma : 0 < rho ->
  rPW86x rho sigma =
    let sg := if Rlt_dec sigma sigma_floor then sigma_floor else sigma in
    Ok (rpw_e rho sg, rpw_v rho sg, rpw_v2 rho sg, sg).
Proof.
  intros H. unfold rPW86x. cbv zeta. set (sg := if Rlt_dec _ _ then _ else _).
  assert (P : 0 < sg) by (unfold sg, sigma_floor; destruct (Rlt_dec _ _); unfold sigma_floor in *; lra).
  clearbody sg. pose proof (sqrt_lt_R0 _ P). pose proof (Rpower_pos rho (4 / 3)). apply wp_ok.
  apply wp_sqrt; [lra|]. apply wp_pow; [easy|].
  apply wp_div; [apply Rgt_not_eq; apply Rmult_lt_0_compat; lra|].
  change (618733545256027 / 100000000000000) with pref. change (- (738558766382022 / 1000000000000000)) with Ax.
  change (sqrt sg / (pref * Rpower rho (4 / 3))) with (sred rho sg). set (s := sred rho sg).
  change (1 + 1851 / 1000 * (s * s) + 1733 / 100 * (s * s * s * s) + 163 / 1000 * (s * s * s * (s * s) * s))
    with (Pol s).
  apply wp_pow; [apply Pol_pos|]. change (Rpower (Pol s) (1 / 15)) with (fsf s).
  apply wp_pow; [easy|]. apply wp_div.
  { apply Rgt_not_eq. apply Rmult_lt_0_compat; [lra|]. apply pow_lt, fsf_pos. }
  assert (0 < pref) by (unfold pref; lra).
  apply wp_div; [apply Rgt_not_eq; apply Rmult_lt_0_compat; lra|].
  apply wp_div; [apply Rgt_not_eq; apply Rmult_lt_0_compat; lra|]. reflexivity.
Qed.
Lemma rpw_derive (r s : R -> R) (t r' s' : R) : 0 < r t -> 0 < s t -> is_derive r t r' -> is_derive s t s' ->
  is_derive (fun x => r x * rpw_e (r x) (s x)) t (rpw_v (r t) (s t) * r' + rpw_v2 (r t) (s t) / 2 * s').
Proof.
  intros Hr Hs D S. pose proof (sqrt_lt_R0 _ Hs) as SP. assert (PP : 0 < pref) by (unfold pref; lra).
  pose proof (der_sqrt s t s' Hs S) as DS. pose proof (der_pow r (1 / 3) t r' Hr D) as DR.
  pose proof (der_pow r (4 / 3) t r' Hr D) as DR4.
  pose proof (Rpower_pos (r t) (1 / 3)) as P13. pose proof (Rpower_pos (r t) (4 / 3)) as P43.
  assert (SD : is_derive (fun x => sred (r x) (s x)) t
    (s' / (2 * sqrt (s t)) / (pref * Rpower (r t) (4 / 3))
      - sqrt (s t) * (4 / 3 * (Rpower (r t) (4 / 3) / r t) * r') / (pref * (Rpower (r t) (4 / 3) * Rpower (r t) (4 / 3))))).
  { unfold sred, Rdiv at 1. eapply is_derive_eq.
    - apply der_mult; [exact DS|]. apply der_inv; [apply Rgt_not_eq; apply Rmult_lt_0_compat; lra|].
      apply der_scal. exact DR4.
    - cbv beta. unfold Rdiv. field. repeat split; lra. }
  pose proof (fsf_derive _ t _ SD) as FD.
  eapply is_derive_eq.
  - unfold rpw_e. apply der_mult; [exact D|]. apply der_mult; [|exact FD]. apply der_scal. exact DR.
  - cbv beta. unfold rpw_v, rpw_v2. generalize (dff (sred (r t) (s t))) (fsf (sred (r t) (s t))). intros df fs.
    rewrite (Rpower_43 _ Hr). unfold Rdiv. field. repeat split; lra.
Qed.

(** ** PBE correlation *)
Lemma ln2_lt1 : ln 2 < 1.
Proof.
  rewrite <- (ln_exp 1). apply ln_increasing; [lra|]. pose proof (exp_ineq1 1). lra.
Qed.
Lemma gamma_pos : 0 < gamma.
Proof.
  unfold gamma. pose proof ln2_lt1. pose proof PI_RGT_0. apply Rdiv_lt_0_compat; [lra|now apply Rmult_lt_0_compat].
Qed.
Lemma beta_pos i : 0 < beta_ i. Proof. unfold beta_. destruct (_ =? _)%Z; lra. Qed.
Lemma coeff_tt_pos : 0 < coeff_tt.
Proof.
  unfold coeff_tt. pose proof PI_RGT_0. pose proof (Rpower_pos (3 * PI * PI) (1 / 3)).
  apply Rdiv_lt_0_compat; [lra|]. apply Rmult_lt_0_compat; [apply Rdiv_lt_0_compat; lra|easy].
Qed.
Lemma rsfac_pos : 0 < rsfac. Proof. unfold rsfac; lra. Qed.
Definition uu (rho : R) : R := Rpower rho (- (1 / 3)).
Definition ttf (rho sigma : R) : R := coeff_tt * sigma * uu rho ^ 7.
Lemma uu_pos rho : 0 < uu rho. Proof. apply Rpower_pos. Qed.
Lemma uu_cube rho : 0 < rho -> uu rho ^ 3 = / rho. Proof. apply Rpower_third3. Qed.
Lemma uu_derive (r : R -> R) (t r' : R) : 0 < r t -> is_derive r t r' ->
  is_derive (fun x => uu (r x)) t (- (uu (r t) / (3 * r t)) * r').
Proof.
  intros H D. eapply is_derive_eq; [unfold uu; apply der_pow; [exact H|exact D]|]. unfold uu. cbv beta. field. lra.
Qed.
Lemma ttf_derive (r s : R -> R) (t r' s' : R) : 0 < r t -> is_derive r t r' -> is_derive s t s' ->
  is_derive (fun x => ttf (r x) (s x)) t
    (- (7 / 3) * ttf (r t) (s t) / r t * r' + coeff_tt * uu (r t) ^ 7 * s').
Proof.
  intros H D S. pose proof (uu_derive r t r' H D) as U.
  pose proof (der_mult _ _ t _ _ U U) as U2. pose proof (der_mult _ _ t _ _ U2 U2) as U4. cbv beta in *.
  apply (der_ext (fun x => coeff_tt * s x * (uu (r x) * uu (r x) * (uu (r x) * uu (r x))
                                             * (uu (r x) * uu (r x)) * uu (r x)))).
  { intros y. unfold ttf. simpl. ring. }
  eapply is_derive_eq.
  - apply der_mult; [apply der_scal, S|]. apply der_mult; [|exact U]. apply der_mult; [exact U4|exact U2].
  - cbv beta. unfold ttf. field. lra.
Qed.
Lemma rsm rho : 0 < rho ->
  sqrt rsfac * sqrt (uu rho) = sqrt (rsfac * uu rho) /\
  1 / sqrt rsfac * (rho * uu rho * uu rho * sqrt (uu rho)) = 1 / sqrt (rsfac * uu rho).
Proof.
  intros H. pose proof (uu_pos rho) as U. pose proof rsfac_pos as RP.
  rewrite sqrt_mult by lra. split; [reflexivity|].
  pose proof (sqrt_lt_R0 _ U) as S. pose proof (sqrt_lt_R0 _ RP) as SR.
  assert (E : rho * uu rho ^ 3 = 1) by (rewrite (uu_cube rho H); field; lra).
  assert (E2 : sqrt (uu rho) * sqrt (uu rho) = uu rho) by (apply sqrt_sqrt; lra).
  apply Rmult_eq_reg_r with (r := sqrt rsfac * sqrt (uu rho)); [|apply Rgt_not_eq; now apply Rmult_lt_0_compat].
  replace (1 / sqrt rsfac * (rho * uu rho * uu rho * sqrt (uu rho)) * (sqrt rsfac * sqrt (uu rho)))
    with (rho * uu rho * uu rho * (sqrt (uu rho) * sqrt (uu rho))) by (field; lra).
  rewrite E2. replace (rho * uu rho * uu rho * uu rho) with (rho * uu rho ^ 3) by ring. rewrite E. field. lra.
Qed.
Lemma rho13_2 rho : 0 < rho -> Rpower 2 (- (1 / 3)) * Rpower (rho / 2) (- (1 / 3)) = uu rho.
Proof.
  intros H. unfold uu. rewrite Rpower_mult_distr by lra. f_equal. field.
Qed.
Definition pbec_e (i : Z) (rho sigma : R) : R :=
  eG0 (rsr rsfac rho) + hhf (beta_ i) gamma (eG0 (rsr rsfac rho)) 1 (ttf rho sigma).
Definition pbec_v (i : Z) (rho sigma : R) : R :=
  let rs := rsr rsfac rho in let e := eG0 rs in let t := ttf rho sigma in
  e - rs / 3 * dG0 rs
  + (hhf (beta_ i) gamma e 1 t - 1 / 3 * rs * (hh_e (beta_ i) gamma e 1 t * dG0 rs)
     - 7 / 3 * t * hh_t (beta_ i) gamma e 1 t).
Definition pbec_v2 (i : Z) (rho sigma : R) : R :=
  rho * (2 * coeff_tt * uu rho ^ 7) * hh_t (beta_ i) gamma (eG0 (rsr rsfac rho)) 1 (ttf rho sigma).
Lemma eG0_neg rs : 0 < rs -> eG0 rs < 0. Proof. apply eG_neg; lra. Qed.
Lemma eG0_derive rs : 0 < rs -> is_derive eG0 rs (dG0 rs). Proof. apply eG_derive; lra. Qed.
Lemma pbec_run i rho sigma : (1 <= i <= 3)%Z -> 0 < rho -> 0 <= sigma ->
  pbec i rho sigma = Ok (pbec_e i rho sigma, pbec_v i rho sigma, pbec_v2 i rho sigma).
Proof.
  intros I H Sg. unfold pbec.
  replace ((i <? 1)%Z || (3 <? i)%Z) with false by (symmetry; apply orb_false_intro; apply Z.ltb_ge; tauto).
  cbv zeta. apply wp_ok. apply wp_pow; [lra|]. rewrite rho13_2 by easy.
  pose proof (uu_pos rho) as U. apply wp_sqrt; [lra|].
  destruct (rsm rho H) as [-> ->]. change (rsfac * uu rho) with (rsr rsfac rho).
  pose proof (rsr_pos rsfac rho rsfac_pos) as RP.
  assert (PE : pw92_0 (rsr rsfac rho) (sqrt (rsr rsfac rho)) (1 / sqrt (rsr rsfac rho))
               = Ok (eG0 (rsr rsfac rho), dG0 (rsr rsfac rho))).
  { unfold pw92_0, eG0, dG0. apply pw92_run; lra. }
  rewrite PE. cbn [obind fst snd]. clear PE.
  pose proof (eG0_neg _ RP) as EN. pose proof gamma_pos as GP. pose proof (beta_pos i) as BP.
  set (e := eG0 (rsr rsfac rho)) in *. set (de := dG0 (rsr rsfac rho)). 
  assert (TE : 1 / 2 * sigma * (2 * (uu rho * uu rho * uu rho) * (uu rho * uu rho * uu rho) * uu rho * coeff_tt)
               = ttf rho sigma) by (unfold ttf; field).
  assert (TP : 0 <= ttf rho sigma).
  { unfold ttf. apply Rmult_le_pos; [apply Rmult_le_pos; [left; apply coeff_tt_pos|easy]|left; now apply pow_lt]. }
  assert (BE : - (e * (1 / gamma)) = - bbf gamma e 1) by (unfold bbf; field; lra).
  pose proof (cc_pos gamma GP e 1 EN Rlt_0_1) as CP. rewrite BE.
  apply wp_div; [lra|]. rewrite TE. set (t := ttf rho sigma) in *.
  change (1 / (exp (- bbf gamma e 1) - 1)) with (ccf gamma e 1).
  assert (AE : beta_ i * (1 / gamma) * 1 * 1 * ccf gamma e 1 = aaf (beta_ i) gamma e 1)
    by (unfold aaf; field; lra).
  rewrite AE. pose proof (aa_pos (beta_ i) gamma BP GP e 1 EN Rlt_0_1) as AP.
  assert (XP : 0 <= aaf (beta_ i) gamma e 1 * t) by (apply Rmult_le_pos; lra).
  pose proof (den_pos _ XP) as DP. apply wp_div; [lra|].
  set (x := aaf (beta_ i) gamma e 1 * t) in *.
  change ((1 + x) * (1 / (1 + x * (1 + x)))) with (padef x).
  assert (AG : 1 + beta_ i * (1 / gamma) * (t * 1 * 1 * padef x) = argf (beta_ i) gamma e 1 t).
  { unfold argf. fold x. field. lra. }
  rewrite AG. pose proof (arg_ge1 (beta_ i) gamma BP GP e 1 t EN Rlt_0_1 TP) as A1.
  apply wp_div; [lra|]. apply wp_log; [lra|]. cbn [wp].
  change (- x * (2 + x) * (1 / (1 + x * (1 + x)) * (1 / (1 + x * (1 + x))))) with (dpx x).
  unfold pbec_e, pbec_v, pbec_v2. cbv zeta. fold e de t. unfold hhf, hh_e, hh_t. fold x.
  generalize (dpx x) (padef x). intros dp pd.
  unfold dcb. fold (aaf (beta_ i) gamma e 1).
  set (ar := argf (beta_ i) gamma e 1 t) in *. clearbody ar. set (lr := ln ar). clearbody lr.
  set (cc := ccf gamma e 1). clearbody cc. clearbody x.
  generalize (exp (- bbf gamma e 1)) (aaf (beta_ i) gamma e 1). intros ex aa.
  f_equal; [f_equal|].
  - ring.
  - field. repeat split; lra.
  - field. repeat split; lra.
Qed.
Lemma pbec_derive i (r s : R -> R) (t r' s' : R) : 0 < r t -> 0 <= s t -> is_derive r t r' -> is_derive s t s' ->
  is_derive (fun x => r x * pbec_e i (r x) (s x)) t (pbec_v i (r t) (s t) * r' + pbec_v2 i (r t) (s t) / 2 * s').
Proof.
  intros Hr Hs D S. pose proof (rsr_pos rsfac (r t) rsfac_pos) as RP.
  pose proof (rsr_derive rsfac r t r' Hr D) as RD.
  pose proof (der_comp eG0 (fun x => rsr rsfac (r x)) t _ _ (eG0_derive _ RP) RD) as ED. cbv beta in ED.
  pose proof (ttf_derive r s t r' s' Hr D S) as TD.
  assert (TP : 0 <= ttf (r t) (s t)).
  { unfold ttf. apply Rmult_le_pos; [apply Rmult_le_pos; [left; apply coeff_tt_pos|easy]|].
    left. apply pow_lt, uu_pos. }
  pose proof (hhf_derive (beta_ i) gamma (beta_pos i) gamma_pos _ (fun _ => 1) _ t _ 0 _
                (eG0_neg _ RP) Rlt_0_1 TP ED (der_const 1 t) TD) as HD.
  eapply is_derive_eq.
  - unfold pbec_e. apply der_mult; [exact D|]. apply der_plus; [exact ED|exact HD].
  - cbv beta. unfold pbec_v, pbec_v2. cbv zeta. field. lra.
Qed.

(** ** Bounds on pi and on cube roots *)
Lemma tg_val n : tg_alt PI_2_3_7_tg n
  = IZR ((-1) ^ Z.of_nat n) * (2 * / IZR (3 ^ Z.of_nat (2 * n + 1) * Z.of_nat (2 * n + 1)) + / IZR (7 ^ Z.of_nat (2 * n + 1) * Z.of_nat (2 * n + 1))).
Proof.
  unfold tg_alt, PI_2_3_7_tg, Ratan_seq. rewrite INR_IZR_INZ, !mult_IZR, <- !pow_IZR, !Rinv_mult, !pow_inv. reflexivity.
Qed.
Lemma PI_bounds : 3141592653589793 / 1000000000000000 < PI < 3141592653589794 / 1000000000000000.
Proof.
  pose proof (PI_2_3_7_ineq 8) as [L U]. cbn [Nat.mul Nat.add sum_f_R0] in L, U.
  repeat rewrite tg_val in L; repeat rewrite tg_val in U.
  repeat match goal with H : context [IZR (?a ^ ?b)] |- _ => let v := eval vm_compute in (a ^ b)%Z in change (a ^ b)%Z with v in H
   | H : context [IZR (?a ^ ?b * ?c)] |- _ => let v := eval vm_compute in (a ^ b * c)%Z in change (a ^ b * c)%Z with v in H end.
  split; lra.
Qed.

Lemma cube_lt a x : 0 < x -> a * a * a < x -> a < Rpower x (1 / 3).
Proof.
  intros X A. pose proof (Rpower_pos x (1 / 3)) as P. set (y := Rpower x (1 / 3)) in *.
  assert (E : y * y * y = x).
  { unfold y. rewrite <- !Rpower_plus. replace (1 / 3 + 1 / 3 + 1 / 3) with 1 by lra. now apply Rpower_1. }
  clearbody y. rewrite <- E in A. apply Rnot_le_lt. intros L.
  assert (y * y <= a * a) by (apply Rmult_le_compat; lra).
  assert (y * y * y <= a * a * a) by (apply Rmult_le_compat; try lra; apply Rle_0_sqr). lra.
Qed.
Lemma cube_gt b x : 0 < x -> 0 < b -> x < b * b * b -> Rpower x (1 / 3) < b.
Proof.
  intros X B A. pose proof (Rpower_pos x (1 / 3)) as P. set (y := Rpower x (1 / 3)) in *.
  assert (E : y * y * y = x).
  { unfold y. rewrite <- !Rpower_plus. replace (1 / 3 + 1 / 3 + 1 / 3) with 1 by lra. now apply Rpower_1. }
  clearbody y. rewrite <- E in A. apply Rnot_le_lt. intros L.
  assert (b * b <= y * y) by (apply Rmult_le_compat; lra).
  assert (b * b * b <= y * y * y) by (apply Rmult_le_compat; try lra; apply Rle_0_sqr). lra.
Qed.
Lemma der_ext_pos2 (r s : R -> R) (f g : R -> R) (lo t r' s' l : R) :
  0 < r t -> lo < s t -> is_derive r t r' -> is_derive s t s' ->
  (forall x, 0 < r x -> lo < s x -> f x = g x) -> is_derive g t l -> is_derive f t l.
Proof.
  intros N Ns D Ds E G. apply (is_derive_ext_loc g); [|exact G].
  assert (Cn : continuous r t) by exact (ex_derive_continuous r t (ex_intro _ r' D)).
  assert (Cs : continuous s t) by exact (ex_derive_continuous s t (ex_intro _ s' Ds)).
  assert (L : locally (r t) (fun y => 0 < y)) by exact (open_gt 0 (r t) N).
  assert (L' : locally (s t) (fun y => lo < y)) by exact (open_gt lo (s t) Ns).
  specialize (Cn _ L). specialize (Cs _ L'). unfold filtermap in *.
  apply (filter_imp (fun x => 0 < r x /\ lo < s x)); [intros x [A B]; symmetry; now apply E|].
  now apply filter_and.
Qed.
