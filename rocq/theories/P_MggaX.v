(** C67: meta-GGA exchange (SCAN, rSCAN, r2SCAN; one and two spins). *)
From Coq Require Import Reals ZArith Bool Lra Psatz.
From Coquelicot Require Import Coquelicot.
From Verif Require Import CBase Xc XcLem P_Xc XcGridVar MggaX MggaXLem.
Local Open Scope R_scope.

(** ** Specification *)
(** Published variables: reduced gradient, von Weizsaecker and uniform-gas kinetic energy densities, and the
    iso-orbital indicators of SCAN (Sun, Ruzsinszky, Perdew 2015), rSCAN (Bartok, Yates 2019), r2SCAN (Furness et al. 2020). *)
Definition sred (rho sigma : R) : R := sqrt sigma / (2 * kF rho * rho).
Definition tauW (rho sigma : R) : R := sigma / (8 * rho).
Definition tauU (rho : R) : R := 3 / 10 * kF rho ^ 2 * rho.
Definition alpha_scan (rho sigma tau : R) : R := (tau - tauW rho sigma) / tauU rho.
Definition alpha_rscan (rho sigma tau : R) : R :=
  let a := (tau - tauW rho sigma) / (tauU rho + 0.0001) in a ^ 3 / (a ^ 2 + 0.001).
Definition alpha_r2scan (rho sigma tau : R) : R := (tau - tauW rho sigma) / (tauU rho + 0.001 * tauW rho sigma).
(** Enhancement factors, from s and the indicator *)
Definition B2 : R := sqrt (5913 / 405000).
Definition B1 : R := (511 / 13500) / (2 * B2).
Definition B4 : R := (10 / 81) ^ 2 / 0.065 - 1606 / 18225 - B1 ^ 2.
Definition h1x (x : R) : R := 1 + 0.065 - 0.065 / (1 + x / 0.065).
Definition Fscan_with (f : R -> R) (s a : R) : R :=
  let x := 10 / 81 * s ^ 2 * (1 + B4 * s ^ 2 / (10 / 81) * exp (- Rabs B4 * s ^ 2 / (10 / 81)))
           + (B1 * s ^ 2 + B2 * (1 - a) * exp (- 0.5 * (1 - a) ^ 2)) ^ 2 in
  (h1x x + f a * (1.174 - h1x x)) * (1 - exp (- (4.9479 / sqrt s))).
Definition f_scan (a : R) : R := if Rle_dec a 1 then exp (- 0.667 * a / (1 - a)) else - 1.24 * exp (0.8 / (1 - a)).
Definition f_rscan (a : R) : R :=
  if Rle_dec a 0 then exp (- 0.667 * a / (1 - a))
  else if Rle_dec a 2.5 then
    1 - 0.667 * a - 0.4445555 * a ^ 2 - 0.663086601049 * a ^ 3 + 1.451297044490 * a ^ 4 - 0.887998041597 * a ^ 5
    + 0.234528941479 * a ^ 6 - 0.023185843322 * a ^ 7
  else - 1.24 * exp (0.8 / (1 - a)).
Definition Fr2scan (s a : R) : R :=
  let x := ((20 / 27 + 0.001 * 5 / 3) * - 0.162742 * exp (- s ^ 4 / 0.361 ^ 4) + 10 / 81) * s ^ 2 in
  (h1x x + f_rscan a * (1.174 - h1x x)) * (1 - exp (- (4.9479 / sqrt s))).
(** Spin: the energy (per volume) and its derivatives, along a path of the densities, the squared gradients and the
    kinetic energy densities of the two channels *)
Definition enx (o : outcome resx_s) : R := match o with Ok (e, _, _, _) => e | _ => 0 end.
Definition spin_at (F : R * R * R -> R * R * R -> R * R * R -> outcome resx_s) (u0 d0 su0 sd0 tu0 td0 : R) : Prop :=
  forall (u d su sd tu td so to : R -> R) (t u' d' su' sd' tu' td' : R),
  u t = u0 -> d t = d0 -> su t = su0 -> sd t = sd0 -> tu t = tu0 -> td t = td0 ->
  is_derive u t u' -> is_derive d t d' -> is_derive su t su' -> is_derive sd t sd' -> is_derive tu t tu' -> is_derive td t td' ->
  exists e vu vd wu wd zu zd,
    F (u0 + d0, u0, d0) (so t, su0, sd0) (to t, tu0, td0) = Ok (e, (vu, vd), (wu, wd), (zu, zd)) /\
    is_derive (fun x => (u x + d x) * enx (F (u x + d x, u x, d x) (so x, su x, sd x) (to x, tu x, td x))) t
      (vu * u' + vd * d' + (wu / 2 * su' + wd / 2 * sd') + (zu * tu' + zd * td')).

(** ** Bridges *)
Lemma eu_eunif r : eu r = eunif r.
Proof. pose proof PI_RGT_0. unfold eu, eunif, kF. field. lra. Qed.
Lemma kF_c13 r : 0 < r -> kF r = c13 * Rpower r (1 / 3).
Proof.
  intros H. pose proof PI_RGT_0. unfold kF, c13. rewrite Rpower_mult_distr; [reflexivity| |exact H].
  assert (0 < PI * PI) by now apply Rmult_lt_0_compat. lra.
Qed.
Lemma Sf_sred r s : 0 < r -> Sf r (sqrt s) = sred r s.
Proof.
  intros H. unfold Sf, sred. rewrite kF_c13 by exact H. replace (4 / 3) with (1 / 3 + 1) by field. rewrite Rpower_plus, Rpower_1 by exact H.
  pose proof c13_pos. pose proof (Rpower_pos r (1 / 3)). field. lra.
Qed.
Lemma sred_pos r s : 0 < r -> 0 < s -> 0 < sred r s.
Proof.
  intros H S. unfold sred. pose proof (kF_pos r). apply Rdiv_lt_0_compat; [now apply sqrt_lt_R0|].
  apply Rmult_lt_0_compat; [lra|exact H].
Qed.
Lemma tw_tauW r s : 0 < r -> 0 < s -> twf r (sqrt s) = tauW r s.
Proof. intros H S. unfold twf, tauW. rewrite sqrt_sqrt by lra. reflexivity. Qed.
Lemma tu_tauU r : 0 < r -> tuf r = tauU r.
Proof.
  intros H. unfold tuf, tauU. rewrite kF_c13 by exact H. replace (5 / 3) with (1 / 3 + 1 / 3 + 1) by field.
  rewrite !Rpower_plus, Rpower_1 by exact H. unfold c23. ring.
Qed.
Lemma mix_scan f f2 s a : (forall x, f x = f2 x) -> mixF (h1f (xf s a)) (f a) (gf s) = Fscan_with f2 s a.
Proof.
  intros E. assert (E2 : b2 = B2) by reflexivity. assert (E1 : b1 = B1) by reflexivity.
  assert (E4 : b4 = B4). { unfold b4, B4, mu_ak, k1. rewrite E1. dec. field. }
  unfold mixF, Fscan_with, gf, a1. rewrite E. clear E.
  assert (X : xf s a = 10 / 81 * s ^ 2 * (1 + B4 * s ^ 2 / (10 / 81) * exp (- Rabs B4 * s ^ 2 / (10 / 81)))
           + (B1 * s ^ 2 + B2 * (1 - a) * exp (- 0.5 * (1 - a) ^ 2)) ^ 2).
  { unfold xf. rewrite E1, E2, E4. unfold mu_ak, b3. replace (- 0.5) with (- (1 / 2)) by (dec; field). reflexivity. }
  rewrite X. set (x := _ + _ ^ 2). clearbody x. unfold h1f, h1x, k1, hx0.
  replace 4.9479 with (49479 / 10000) by (dec; field). replace 0.065 with (65 / 1000) by (dec; field). replace 1.174 with (1174 / 1000) by (dec; field).
  reflexivity.
Qed.
Lemma scan_f_spec a : a <> 1 -> scan_f c1x c2x dx_ a = f_scan a.
Proof.
  intros H. unfold scan_f, f_scan, hi_f, lo_f, c1x, c2x, dx_. replace (- 0.667) with (- (667 / 1000)) by (dec; field).
  replace 0.8 with (8 / 10) by (dec; field). replace (- 1.24) with (- (124 / 100)) by (dec; field).
  destruct (Rlt_dec 1 a), (Rle_dec a 1); try lra; reflexivity.
Qed.
Lemma rscan_f_spec a : rscan_f kx c1x c2x dx_ a = f_rscan a.
Proof.
  unfold rscan_f, f_rscan, hi_f, lo_f, c1x, c2x, dx_. replace (- 0.667) with (- (667 / 1000)) by (dec; field).
  replace 0.8 with (8 / 10) by (dec; field). replace (- 1.24) with (- (124 / 100)) by (dec; field). replace 2.5 with (5 / 2) by (dec; field).
  destruct (Rlt_dec (5 / 2) a), (Rle_dec a 0), (Rlt_dec 0 a), (Rle_dec a (5 / 2)); try lra; try reflexivity.
  unfold poly, kx. dec. field.
Qed.
Lemma mix_r2 s a : 0 < s -> mixF (h1f (xr2 (s * s))) (rscan_f kx c1x c2x dx_ a) (gr2 (s * s)) = Fr2scan s a.
Proof.
  intros H. unfold mixF, Fr2scan, gr2, a1. rewrite rscan_f_spec.
  assert (X : xr2 (s * s) = ((20 / 27 + 0.001 * 5 / 3) * - 0.162742 * exp (- s ^ 4 / 0.361 ^ 4) + 10 / 81) * s ^ 2).
  { unfold xr2, Ceta, C2_, mu_ak, dp4. replace (- (s * s) * (s * s) / (361 / 1000) ^ 4) with (- s ^ 4 / 0.361 ^ 4) by (dec; field).
    set (y := exp _). clearbody y. dec. field. }
  rewrite X. set (x := _ * s ^ 2). clearbody x.
  assert (Q : Rpower (s * s) (1 / 4) = sqrt s).
  { rewrite <- (Rpower_sqrt s H). rewrite <- Rpower_mult_distr by exact H. rewrite <- Rpower_plus. f_equal. field. }
  rewrite Q. unfold h1f, h1x, k1, hx0.
  replace 4.9479 with (49479 / 10000) by (dec; field). replace 0.065 with (65 / 1000) by (dec; field). replace 1.174 with (1174 / 1000) by (dec; field).
  reflexivity.
Qed.

(** From a statement along every path to [meta_at] *)
Definition path_ok (f : R -> R -> R -> outcome (R * R * R * R)) (E : R -> R -> R -> R) (r s u : R -> R) (t r' s' u' : R) : Prop :=
  exists e v w z, f (r t) (s t) (u t) = Ok (e, v, w, z) /\ e = E (r t) (s t) (u t) /\
    is_derive (fun x => r x * E (r x) (s x) (u x)) t (v * r' + w / 2 * s' + z * u').
Lemma meta_of_path f E (P : R -> R -> R -> Prop) r0 s0 u0 : 0 < r0 -> 0 < s0 -> P r0 s0 u0 ->
  (forall r s u, 0 < r -> 0 < s -> P r s u -> en4 (f r s u) = E r s u) ->
  (forall (r s u : R -> R) (t r' s' u' : R), 0 < r t -> 0 < s t -> P (r t) (s t) (u t) ->
     is_derive r t r' -> is_derive s t s' -> is_derive u t u' -> locally t (fun x => P (r x) (s x) (u x))) ->
  (forall (r s u : R -> R) (t r' s' u' : R), r t = r0 -> s t = s0 -> u t = u0 ->
     is_derive r t r' -> is_derive s t s' -> is_derive u t u' -> path_ok f E r s u t r' s' u') ->
  meta_at f r0 s0 u0.
Proof.
  intros R0 S0 HP HE HL HK r s u t r' s' u' Er Es Eu Hr Hs Hu.
  destruct (HK r s u t r' s' u' Er Es Eu Hr Hs Hu) as (e & v & w & z & A & _ & B). rewrite Er, Es, Eu in A.
  exists e, v, w, z. split; [exact A|]. revert B.
  apply (der_loc (fun x => 0 < r x /\ 0 < s x /\ P (r x) (s x) (u x))).
  - pose proof (loc_pos r t r' ltac:(lra) Hr) as L1. pose proof (loc_pos s t s' ltac:(lra) Hs) as L2.
    assert (L3 : locally t (fun x => P (r x) (s x) (u x))).
    { apply (HL r s u t r' s' u'); try assumption; rewrite ?Er, ?Es, ?Eu; assumption. }
    generalize (filter_and (F := locally t) _ _ L1 (filter_and (F := locally t) _ _ L2 L3)). apply filter_imp. tauto.
  - intros x (X1 & X2 & X3). rewrite HE by assumption. reflexivity.
Qed.
(** the gradient enters through its norm *)
Lemma wrap_path vars calc (E : R -> R -> R -> R) (r s u : R -> R) (t r' s' u' : R) :
  0 < s t -> is_derive s t s' ->
  (forall g', is_derive (fun x => sqrt (s x)) t g' ->
   exists S A e v w z, vars (r t) (sqrt (s t)) (u t) = Ok (S, A) /\ calc (r t) S A = Ok (e, v, w, z) /\ e = E (r t) (s t) (u t) /\
     dpath t r' g' u' (fun x => r x * E (r x) (s x) (u x)) v w z) ->
  path_ok (wrap vars calc) E r s u t r' s' u'.
Proof.
  intros S0 Hs K. pose proof (sqrt_lt_R0 _ S0) as Q.
  destruct (K _ (der_sqrt s t s' S0 Hs)) as (S & A & e & v & w & z & V & C0 & Ee & D).
  exists e, v, (w / sqrt (s t)), z. split; [|split; [exact Ee|]].
  - unfold wrap, csqrt. destruct (Rle_dec 0 (s t)); [|lra]. cbn [obind]. rewrite V. cbn [obind fst snd]. rewrite C0. cbn [obind].
    unfold cdiv. destruct (Req_EM_T (sqrt (s t)) 0); [lra|]. reflexivity.
  - eapply is_derive_eq; [exact D|]. field. lra.
Qed.
Lemma alpha_loc (a : R -> R) (t a' b : R) : a t <> b -> is_derive a t a' -> locally t (fun x => a x <> b).
Proof.
  intros N D. assert (L : locally t (fun x => 0 < (a x - b) * (a x - b))).
  { assert (D2 : is_derive (fun x => a x - b) t a').
    { apply (der_ext (fun x => a x + - b)); [intros; ring|]. eapply is_derive_eq; [apply der_plus; [exact D|apply der_const]|]. ring. }
    apply (loc_pos (fun x => (a x - b) * (a x - b)) t _ ltac:(nra) (der_mult _ _ _ _ _ D2 D2)). }
  revert L. apply filter_imp. intros x X Y. rewrite Y in X. lra.
Qed.

(** ** The three functions in the model's own variables *)
Definition Em (c : R) (f : R -> R) (tr : R -> R) (r s u : R) : R :=
  let S := Sf r (sqrt s) in let a := tr (Af c 0 r (sqrt s) u) in eu r * mixF (h1f (xf S a)) (f a) (gf S).
Definition Em2 (r s u : R) : R :=
  let S := Sf r (sqrt s) in let a := Af 0 (1 / 1000) r (sqrt s) u in
  eu r * mixF (h1f (xr2 (S * S))) (rscan_f kx c1x c2x dx_ a) (gr2 (S * S)).
Lemma Sf_pos r s : 0 < r -> 0 < s -> 0 < Sf r (sqrt s).
Proof. intros. rewrite Sf_sred by assumption. now apply sred_pos. Qed.
Section Paths.
  Variables r s u : R -> R.
  Variables t r' s' u' : R.
  Hypothesis Hr : is_derive r t r'.
  Hypothesis Hs : is_derive s t s'.
  Hypothesis Hu : is_derive u t u'.
  Hypothesis Pr : 0 < r t.
  Hypothesis Ps : 0 < s t.
  Lemma A_path c eta g' : 0 <= c -> 0 <= eta -> is_derive (fun x => sqrt (s x)) t g' ->
    dpath t r' g' u' (fun x => Af c eta (r x) (sqrt (s x)) (u x)) (Anf c eta (r t) (sqrt (s t)) (u t))
      (Agf c eta (r t) (sqrt (s t)) (u t)) (1 / Df c eta (r t) (sqrt (s t))).
  Proof using Hr Hu Pr. intros C0 E0 G. exact (A_der r (fun x => sqrt (s x)) u t r' g' u' Hr G Hu Pr c eta C0 E0). Qed.
  (** a path that does not move *)
  Definition still : Prop := forall x, r x = r t /\ s x = s t /\ u x = u t.
  Lemma switch_path (A : R -> R -> R -> R) g' an ag au : let f := rscan_f kx c1x c2x dx_ in let df := rscan_d kx c1x c2x dx_ in
    let a := fun x => A (r x) (sqrt (s x)) (u x) in
    is_derive (fun x => sqrt (s x)) t g' ->
    dpath t r' g' u' a an ag au -> a t <> 5 / 2 \/ still ->
    dpath t r' g' u' (fun x => f (a x)) (df (a t) * an) (df (a t) * ag) (df (a t) * au).
  Proof using Hr Hs Hu.
    intros f df a G D [N|St].
    - assert (KX : kx 1%nat = - c1x) by (unfold kx, c1x; lra). exact (dp_comp _ _ _ _ _ _ _ _ _ _ (rscan_derive kx c1x c2x dx_ _ KX N) D).
    - assert (Z : forall F : R -> R, (forall x, F x = F t) -> forall l, is_derive F t l -> l = 0).
      { intros F Q l L. assert (L2 : is_derive F t 0) by (apply (der_ext (fun _ => F t)); [intros y; symmetry; apply Q|apply der_const]).
        rewrite <- (is_derive_unique _ _ _ L). exact (is_derive_unique _ _ _ L2). }
      assert (Er : r' = 0) by (apply (Z r); [intros x; apply St|exact Hr]).
      assert (Eu : u' = 0) by (apply (Z u); [intros x; apply St|exact Hu]).
      assert (Eg : g' = 0) by (apply (Z (fun x => sqrt (s x))); [intros x; f_equal; apply St|exact G]).
      unfold dpath. apply (der_ext (fun _ => f (a t))).
      { intros y. unfold a. destruct (St y) as (-> & -> & ->). reflexivity. }
      eapply is_derive_eq; [apply der_const|]. rewrite Er, Eu, Eg. ring.
  Qed.
  Lemma scan_path : Af 0 0 (r t) (sqrt (s t)) (u t) <> 1 ->
    path_ok scanx (Em 0 (scan_f c1x c2x dx_) (fun a => a)) r s u t r' s' u'.
  Proof using Hr Hs Hu Pr Ps.
    intros NA. apply wrap_path; [exact Ps|exact Hs|]. intros g' G.
    pose proof (S_der r (fun x => sqrt (s x)) t r' g' u' Hr G Pr) as DS.
    pose proof (A_path 0 0 g' ltac:(lra) ltac:(lra) G) as DA.
    destruct (mgga_vars (r t) (sqrt (s t)) (u t) Pr) as (an & ag & au & V & E1 & E2 & E3). rewrite <- E1, <- E2, <- E3 in DA.
    pose proof (dp_comp t r' g' u' (scan_f c1x c2x dx_) (fun x => Af 0 0 (r x) (sqrt (s x)) (u x)) _ _ _ _ (scan_derive _ _ _ _ NA) DA) as DFA.
    destruct (scanx_der r t r' g' u' Hr Pr _ _ _ _ _ _ _ (sw_scan c1x c2x dx_) (scan_f c1x c2x dx_) (scan_d c1x c2x dx_)
       (Sf_pos _ _ Pr Ps) DS DA (scan_run _ _ _ _ NA) DFA) as (e & v & w & z & C0 & Ee & D).
    exists (Sf (r t) (sqrt (s t)), Snf (r t) (sqrt (s t)), Sgf (r t) (sqrt (s t))), (Af 0 0 (r t) (sqrt (s t)) (u t), an, ag, au), e, v, w, z.
    split; [exact V|]. split; [exact C0|]. split; [exact Ee|exact D].
  Qed.
  Lemma rscan_path : (alphaP (Af (1 / 10000) 0 (r t) (sqrt (s t)) (u t)) <> 5 / 2 \/ still) ->
    path_ok rscanx (Em (1 / 10000) (rscan_f kx c1x c2x dx_) alphaP) r s u t r' s' u'.
  Proof using Hr Hs Hu Pr Ps.
    intros NA. apply wrap_path; [exact Ps|exact Hs|]. intros g' G.
    pose proof (S_der r (fun x => sqrt (s x)) t r' g' u' Hr G Pr) as DS.
    pose proof (A_path (1 / 10000) 0 g' ltac:(lra) ltac:(lra) G) as DA0.
    pose proof (dp_comp t r' g' u' alphaP _ _ _ _ _ (alphaP_derive _) DA0) as DA. clear DA0.
    destruct (rscan_vars (r t) (sqrt (s t)) (u t) Pr) as (aP & an & ag & au & V & E0 & E1 & E2 & E3). cbv beta in DA. rewrite <- E1, <- E2, <- E3 in DA.
    pose proof (switch_path (fun r g u => alphaP (Af (1 / 10000) 0 r g u)) _ _ _ _ G DA NA) as DFA.
    destruct (scanx_der r t r' g' u' Hr Pr _ _ _ _ _ _ _ (sw_rscan kx c1x c2x dx_) (rscan_f kx c1x c2x dx_) (rscan_d kx c1x c2x dx_)
       (Sf_pos _ _ Pr Ps) DS DA (rscan_run _ _ _ _ _) DFA) as (e & v & w & z & C0 & Ee & D).
    exists (Sf (r t) (sqrt (s t)), Snf (r t) (sqrt (s t)), Sgf (r t) (sqrt (s t))), (aP, an, ag, au), e, v, w, z.
    split; [exact V|]. rewrite E0. split; [exact C0|]. split; [exact Ee|exact D].
  Qed.
  Lemma r2scan_path : (Af 0 (1 / 1000) (r t) (sqrt (s t)) (u t) <> 5 / 2 \/ still) -> path_ok r2scanx Em2 r s u t r' s' u'.
  Proof using Hr Hs Hu Pr Ps.
    intros NA. apply wrap_path; [exact Ps|exact Hs|]. intros g' G.
    pose proof (S_der r (fun x => sqrt (s x)) t r' g' u' Hr G Pr) as DS.
    pose proof (A_path 0 (1 / 1000) g' ltac:(lra) ltac:(lra) G) as DA.
    pose proof (Sf_pos _ _ Pr Ps) as SP.
    assert (DP : dpath t r' g' u' (fun x => Sf (r x) (sqrt (s x)) * Sf (r x) (sqrt (s x)))
       (2 * Sf (r t) (sqrt (s t)) * Snf (r t) (sqrt (s t))) (2 * Sf (r t) (sqrt (s t)) * Sgf (r t) (sqrt (s t))) 0).
    { eapply dp_eq; [apply dp_mult; exact DS| | |]; cbv beta; ring. }
    destruct (r2scan_vars (r t) (sqrt (s t)) (u t) Pr) as (an & ag & au & V & E1 & E2 & E3). rewrite <- E1, <- E2, <- E3 in DA.
    destruct (r2scanx_der r t r' g' u' Hr Pr _ _ _ _ _ _ _ (Rmult_lt_0_compat _ _ SP SP) DP DA (switch_path (Af 0 (1 / 1000)) _ _ _ _ G DA NA)) as (e & v & w & z & C0 & Ee & D).
    do 6 eexists. split; [exact V|]. split; [exact C0|]. split; [exact Ee|exact D].
  Qed.
End Paths.

(** the energies for any input, also on the joins of the switching function *)
Lemma scan_en r s u : 0 < r -> 0 < s -> Af 0 0 r (sqrt s) u <> 1 -> en4 (scanx r s u) = Em 0 (scan_f c1x c2x dx_) (fun a => a) r s u.
Proof.
  intros H1 H2 H3. destruct (scan_path (fun _ => r) (fun _ => s) (fun _ => u) 0 0 0 0 (der_const _ _) (der_const _ _) (der_const _ _) H1 H2 H3)
    as (e & v & w & z & A & B & _). rewrite A. exact B.
Qed.
Lemma rscan_en r s u : 0 < r -> 0 < s -> en4 (rscanx r s u) = Em (1 / 10000) (rscan_f kx c1x c2x dx_) alphaP r s u.
Proof.
  intros H1 H2. assert (St : still (fun _ => r) (fun _ => s) (fun _ => u) 0) by (unfold still; tauto).
  destruct (rscan_path (fun _ => r) (fun _ => s) (fun _ => u) 0 0 0 0 (der_const _ _) (der_const _ _) (der_const _ _) H1 H2 (or_intror St))
    as (e & v & w & z & A & B & _). rewrite A. exact B.
Qed.
Lemma r2scan_en r s u : 0 < r -> 0 < s -> en4 (r2scanx r s u) = Em2 r s u.
Proof.
  intros H1 H2. assert (St : still (fun _ => r) (fun _ => s) (fun _ => u) 0) by (unfold still; tauto).
  destruct (r2scan_path (fun _ => r) (fun _ => s) (fun _ => u) 0 0 0 0 (der_const _ _) (der_const _ _) (der_const _ _) H1 H2 (or_intror St))
    as (e & v & w & z & A & B & _). rewrite A. exact B.
Qed.

(** ** Bridges, continued *)
Lemma Af_scan r s u : 0 < r -> 0 < s -> Af 0 0 r (sqrt s) u = alpha_scan r s u.
Proof. intros H S. unfold Af, Df, alpha_scan. rewrite tw_tauW, tu_tauU by assumption. f_equal. ring. Qed.
Lemma Af_rscan r s u : 0 < r -> 0 < s -> alphaP (Af (1 / 10000) 0 r (sqrt s) u) = alpha_rscan r s u.
Proof.
  intros H S. unfold Af, Df, alpha_rscan, alphaP. rewrite tw_tauW, tu_tauU by assumption.
  replace (tauU r + 1 / 10000 + 0 * tauW r s) with (tauU r + 0.0001) by (dec; field). cbv zeta.
  replace 0.001 with (1 / 1000) by (dec; field). reflexivity.
Qed.
Lemma Af_r2scan r s u : 0 < r -> 0 < s -> Af 0 (1 / 1000) r (sqrt s) u = alpha_r2scan r s u.
Proof. intros H S. unfold Af, Df, alpha_r2scan. rewrite tw_tauW, tu_tauU by assumption. f_equal. dec. field. Qed.
Lemma tauU_pos r : 0 < r -> 0 < tauU r. Proof. intros H. rewrite <- tu_tauU by exact H. apply tu_pos. Qed.
Lemma tauW_pos r s : 0 < r -> 0 < s -> 0 < tauW r s. Proof. intros H S. unfold tauW. apply Rdiv_lt_0_compat; lra. Qed.
Definition Escan (r s u : R) : R := eunif r * Fscan_with f_scan (sred r s) (alpha_scan r s u).
Definition Erscan (r s u : R) : R := eunif r * Fscan_with f_rscan (sred r s) (alpha_rscan r s u).
Definition Er2scan (r s u : R) : R := eunif r * Fr2scan (sred r s) (alpha_r2scan r s u).
Lemma Fscan_ext f g s a : f a = g a -> Fscan_with f s a = Fscan_with g s a.
Proof. intros E. unfold Fscan_with. now rewrite E. Qed.
Lemma scan_en_pub r s u : 0 < r -> 0 < s -> alpha_scan r s u <> 1 -> en4 (scanx r s u) = Escan r s u.
Proof.
  intros H S N. rewrite scan_en; [|assumption|assumption|now rewrite Af_scan]. unfold Em, Escan. cbv zeta.
  rewrite Af_scan, Sf_sred, eu_eunif by assumption. f_equal. rewrite (mix_scan _ (scan_f c1x c2x dx_)) by reflexivity.
  apply Fscan_ext. now apply scan_f_spec.
Qed.
Lemma rscan_en_pub r s u : 0 < r -> 0 < s -> en4 (rscanx r s u) = Erscan r s u.
Proof.
  intros H S. rewrite rscan_en by assumption. unfold Em, Erscan. cbv zeta. rewrite Af_rscan, Sf_sred, eu_eunif by assumption. f_equal.
  apply mix_scan. exact rscan_f_spec.
Qed.
Lemma r2scan_en_pub r s u : 0 < r -> 0 < s -> en4 (r2scanx r s u) = Er2scan r s u.
Proof.
  intros H S. rewrite r2scan_en by assumption. unfold Em2, Er2scan. cbv zeta. rewrite Af_r2scan, Sf_sred, eu_eunif by assumption. f_equal.
  apply mix_r2. now apply sred_pos.
Qed.
Lemma alpha_local (c eta : R) (tr : R -> R) (b : R) (r s u : R -> R) (t r' s' u' : R) : 0 <= c -> 0 <= eta -> (forall a : R, exists a' : R, is_derive tr a a') ->
  0 < r t -> 0 < s t -> is_derive r t r' -> is_derive s t s' -> is_derive u t u' ->
  tr (Af c eta (r t) (sqrt (s t)) (u t)) <> b -> locally t (fun x => tr (Af c eta (r x) (sqrt (s x)) (u x)) <> b).
Proof.
  intros C0 E0 T Pr Ps Hr Hs Hu N. pose proof (der_sqrt s t s' Ps Hs) as G.
  pose proof (A_path r s u t r' u' Hr Hu Pr c eta _ C0 E0 G) as D. unfold dpath in D.
  destruct (T (Af c eta (r t) (sqrt (s t)) (u t))) as [a' TA].
  pose proof (der_comp tr (fun x => Af c eta (r x) (sqrt (s x)) (u x)) t _ _ TA D) as DT.
  exact (alpha_loc (fun x => tr (Af c eta (r x) (sqrt (s x)) (u x))) t _ b N DT).
Qed.
Definition okat (f : R -> R -> R -> outcome (R * R * R * R)) r s u : Prop := exists e v w z, f r s u = Ok (e, v, w, z).
Lemma scan_ok r s u : 0 < r -> 0 < s -> Af 0 0 r (sqrt s) u <> 1 -> okat scanx r s u.
Proof.
  intros H1 H2 H3. destruct (scan_path (fun _ => r) (fun _ => s) (fun _ => u) 0 0 0 0 (der_const _ _) (der_const _ _) (der_const _ _) H1 H2 H3)
    as (e & v & w & z & A & B & _). exists e, v, w, z. exact A.
Qed.
Lemma rscan_ok r s u : 0 < r -> 0 < s -> okat rscanx r s u.
Proof.
  intros H1 H2. assert (St : still (fun _ => r) (fun _ => s) (fun _ => u) 0) by (unfold still; tauto).
  destruct (rscan_path (fun _ => r) (fun _ => s) (fun _ => u) 0 0 0 0 (der_const _ _) (der_const _ _) (der_const _ _) H1 H2 (or_intror St))
    as (e & v & w & z & A & B & _). exists e, v, w, z. exact A.
Qed.
Lemma r2scan_ok r s u : 0 < r -> 0 < s -> okat r2scanx r s u.
Proof.
  intros H1 H2. assert (St : still (fun _ => r) (fun _ => s) (fun _ => u) 0) by (unfold still; tauto).
  destruct (r2scan_path (fun _ => r) (fun _ => s) (fun _ => u) 0 0 0 0 (der_const _ _) (der_const _ _) (der_const _ _) H1 H2 (or_intror St))
    as (e & v & w & z & A & B & _). exists e, v, w, z. exact A.
Qed.

(** ** Theorems: one spin *)
(** For a positive density and gradient the SCAN exchange energy is the published one and its potentials are its first
    variation, except where the indicator is exactly 1. *)
Theorem C67_scanx rho sigma tau : 0 < rho -> 0 < sigma -> alpha_scan rho sigma tau <> 1 ->
  en4 (scanx rho sigma tau) = eunif rho * Fscan_with f_scan (sred rho sigma) (alpha_scan rho sigma tau) /\
  meta_at scanx rho sigma tau.
Proof.
  intros H S N. split; [now apply scan_en_pub|].
  apply (meta_of_path scanx (Em 0 (scan_f c1x c2x dx_) (fun a => a)) (fun r s u => Af 0 0 r (sqrt s) u <> 1)); [exact H|exact S|now rewrite Af_scan|..].
  - intros. now apply scan_en.
  - intros r s u t r' s' u' Pr Ps NA Hr Hs Hu.
    apply (alpha_local 0 0 (fun a => a) 1 r s u t r' s' u'); try assumption; try lra. intros a. exists 1. apply der_id.
  - intros r s u t r' s' u' Er Es Eu Hr Hs Hu. apply scan_path; try assumption; rewrite ?Er, ?Es, ?Eu; try assumption. now rewrite Af_scan.
Qed.
(** rSCAN: the energy and the values are defined everywhere; the potentials are the first variation except where the
    two formulas of the switching function meet at 2.5. *)
Theorem C67_rscanx rho sigma tau : 0 < rho -> 0 < sigma ->
  okat rscanx rho sigma tau /\
  en4 (rscanx rho sigma tau) = eunif rho * Fscan_with f_rscan (sred rho sigma) (alpha_rscan rho sigma tau) /\
  (alpha_rscan rho sigma tau <> 2.5 -> meta_at rscanx rho sigma tau).
Proof.
  intros H S. split; [now apply rscan_ok|]. split; [now apply rscan_en_pub|]. intros N.
  assert (N2 : alphaP (Af (1 / 10000) 0 rho (sqrt sigma) tau) <> 5 / 2).
  { rewrite Af_rscan by assumption. intros E. apply N. rewrite E. dec. field. }
  apply (meta_of_path rscanx (Em (1 / 10000) (rscan_f kx c1x c2x dx_) alphaP) (fun r s u => alphaP (Af (1 / 10000) 0 r (sqrt s) u) <> 5 / 2)); [exact H|exact S|exact N2|..].
  - intros. now apply rscan_en.
  - intros r s u t r' s' u' Pr Ps NA Hr Hs Hu.
    apply (alpha_local (1 / 10000) 0 alphaP (5 / 2) r s u t r' s' u'); try assumption; try lra. intros a. exists (dalphaP a). apply alphaP_derive.
  - intros r s u t r' s' u' Er Es Eu Hr Hs Hu. apply rscan_path; try assumption; rewrite ?Er, ?Es, ?Eu; try assumption. now left.
Qed.
Theorem C67_r2scanx rho sigma tau : 0 < rho -> 0 < sigma ->
  okat r2scanx rho sigma tau /\
  en4 (r2scanx rho sigma tau) = eunif rho * Fr2scan (sred rho sigma) (alpha_r2scan rho sigma tau) /\
  (alpha_r2scan rho sigma tau <> 2.5 -> meta_at r2scanx rho sigma tau).
Proof.
  intros H S. split; [now apply r2scan_ok|]. split; [now apply r2scan_en_pub|]. intros N.
  assert (N2 : Af 0 (1 / 1000) rho (sqrt sigma) tau <> 5 / 2).
  { rewrite Af_r2scan by assumption. intros E. apply N. rewrite E. dec. field. }
  apply (meta_of_path r2scanx Em2 (fun r s u => Af 0 (1 / 1000) r (sqrt s) u <> 5 / 2)); [exact H|exact S|exact N2|..].
  - intros. now apply r2scan_en.
  - intros r s u t r' s' u' Pr Ps NA Hr Hs Hu.
    apply (alpha_local 0 (1 / 1000) (fun a => a) (5 / 2) r s u t r' s' u'); try assumption; try lra. intros a. exists 1. apply der_id.
  - intros r s u t r' s' u' Er Es Eu Hr Hs Hu. apply r2scan_path; try assumption; rewrite ?Er, ?Es, ?Eu; try assumption. now left.
Qed.
(** With tau at least the von Weizsaecker value, as for any set of orbitals, the SCAN exchange energy is negative and
    respects the strongly tightened bound F < 1.174. *)
Lemma h1x_bounds x : 0 <= x -> 1 <= h1x x < 1.065.
Proof.
  intros H. unfold h1x. assert (E : 0 <= x / 0.065) by (dec; lra).
  assert (P : 0 < 0.065 / (1 + x / 0.065)) by (apply Rdiv_lt_0_compat; [dec; lra|lra]).
  assert (0.065 / (1 + x / 0.065) <= 0.065).
  { apply (Rmult_le_reg_r (1 + x / 0.065)); [lra|]. unfold Rdiv at 1. rewrite Rmult_assoc, Rinv_l by lra. revert E. generalize (x / 0.065). intros y Y. dec. lra. }
  split; [lra|]. revert P. generalize (0.065 / (1 + x / 0.065)). intros y Y. dec. lra.
Qed.
Lemma f_scan_bounds a : 0 <= a -> a <> 1 -> - 1.24 < f_scan a <= 1.
Proof.
  intros H N. unfold f_scan. destruct (Rle_dec a 1) as [L|L].
  - pose proof (exp_pos (- 0.667 * a / (1 - a))) as P. split; [apply Rlt_trans with 0; [dec; lra|exact P]|]. apply Rle_trans with (exp 0); [|rewrite exp_0; lra].
    assert (Q : 0 <= 0.667 * a / (1 - a)).
    { apply Rmult_le_pos; [|left; apply Rinv_0_lt_compat; lra]. revert H. dec. lra. }
    replace (- 0.667 * a / (1 - a)) with (- (0.667 * a / (1 - a))) by (dec; field; lra).
    destruct (Req_dec (0.667 * a / (1 - a)) 0) as [->|E]; [rewrite Ropp_0; lra|]. left. apply exp_increasing. lra.
  - pose proof (exp_pos (0.8 / (1 - a))) as P. assert (exp (0.8 / (1 - a)) < 1).
    { apply Rlt_le_trans with (exp 0); [|rewrite exp_0; lra]. apply exp_increasing. unfold Rdiv. assert (/ (1 - a) < 0) by (apply Rinv_lt_0_compat; lra).
      assert (0 < 0.8) by (dec; lra). nra. }
    revert H0 P. generalize (exp (0.8 / (1 - a))). intros y Y P. split; dec; lra.
Qed.
Theorem C67_scanx_bounds rho sigma tau : 0 < rho -> 0 < sigma -> tauW rho sigma <= tau -> alpha_scan rho sigma tau <> 1 ->
  1.174 * eunif rho < en4 (scanx rho sigma tau) < 0.
Proof.
  intros H S T N. rewrite scan_en_pub by assumption. unfold Escan.
  assert (A : 0 <= alpha_scan rho sigma tau).
  { unfold alpha_scan. apply Rmult_le_pos; [lra|]. left. apply Rinv_0_lt_compat. now apply tauU_pos. }
  assert (E : eunif rho < 0).
  { unfold eunif. pose proof (kF_pos rho). pose proof PI_RGT_0. assert (0 < 3 / (4 * PI)) by (apply Rdiv_lt_0_compat; lra). nra. }
  pose proof (sred_pos rho sigma H S) as P. set (s := sred rho sigma) in *. set (a := alpha_scan rho sigma tau) in *. clearbody s a.
  assert (B : 0 < Fscan_with f_scan s a < 1.174).
  { pose proof (f_scan_bounds a A N) as F. pose proof (xf_nonneg s a) as X. rewrite <- (mix_scan f_scan f_scan) by reflexivity.
    unfold mixF. assert (Hh : h1f (xf s a) = h1x (xf s a)).
    { unfold h1f, h1x, k1. replace 0.065 with (65 / 1000) by (dec; field). reflexivity. }
    rewrite Hh. pose proof (h1x_bounds _ X) as HB.
    assert (G : 0 < gf s < 1).
    { unfold gf. pose proof (exp_pos (- (a1 / sqrt s))). assert (exp (- (a1 / sqrt s)) < 1).
      { rewrite <- exp_0. apply exp_increasing. assert (0 < a1 / sqrt s) by (apply Rdiv_lt_0_compat; [unfold a1; lra|now apply sqrt_lt_R0]). lra. }
      lra. }
    set (h := h1x _) in *. set (f := f_scan a) in *. set (g := gf s) in *. clearbody h f g. unfold hx0.
    assert (M : 0 < h + f * (1174 / 1000 - h) <= 1174 / 1000) by (revert HB F; dec; intros; split; nra).
    replace 1.174 with (1174 / 1000) by (dec; field). nra. }
  revert B. generalize (Fscan_with f_scan s a). intros F B. split; nra.
Qed.
(** Where the indicator is exactly 1, its value in a uniform electron gas, the function divides by zero. *)
Theorem C67_alpha1 rho sigma tau : 0 < rho -> 0 < sigma -> alpha_scan rho sigma tau = 1 -> scanx rho sigma tau = UB.
Proof.
  intros H S A. unfold scanx, wrap, csqrt. destruct (Rle_dec 0 sigma); [|lra]. cbn [obind].
  destruct (mgga_vars rho (sqrt sigma) tau H) as (an & ag & au & V & _). rewrite V. cbn [obind fst snd].
  rewrite Af_scan, A by assumption. unfold calculate_scanx, cdiv at 1.
  destruct (Req_EM_T (1 + _ / k1) 0); [reflexivity|]. cbn [obind]. unfold sw_scan. destruct (Rlt_dec 1 1); [lra|].
  unfold sw_lo, cdiv at 1. destruct (Req_EM_T (1 - 1) 0); [reflexivity|lra].
Qed.
Theorem C67_alpha1_refuted : exists rho sigma tau, 0 < rho /\ 0 < sigma /\ tauW rho sigma < tau /\ scanx rho sigma tau = UB.
Proof.
  exists 1, 8, (tauW 1 8 + tauU 1). pose proof (tauU_pos 1 ltac:(lra)) as T.
  split; [lra|]. split; [lra|]. split; [lra|]. apply C67_alpha1; [lra|lra|]. unfold alpha_scan. field. lra.
Qed.

(** ** Theorems: two spins *)
Lemma chan_scan u su tu : scanx_chan u su tu =
  match scanx (u * 2) (su * 4) (tu * 2) with Ok (e, v, w, z) => Ok (e, v, w * 2, z) | UB => UB | Exit => Exit end.
Proof.
  unfold scanx_chan, scanx, wrap, csqrt. destruct (Rle_dec 0 su) as [L|L], (Rle_dec 0 (su * 4)) as [M|M]; try lra; [|reflexivity].
  assert (E : sqrt (su * 4) = 2 * sqrt su).
  { rewrite sqrt_mult by lra. replace 4 with (2 * 2) by ring. rewrite sqrt_square by lra. ring. }
  cbn [obind]. rewrite E, !(Rmult_comm _ 2). destruct (basic_MGGA_variables _ _ _) as [[S A]| |]; [|reflexivity|reflexivity]. cbn [obind fst snd].
  destruct (calculate_scanx _ _ _ _) as [[[[e v] w] z]| |]; [|reflexivity|reflexivity]. cbn [obind].
  unfold cdiv. destruct (Req_EM_T (sqrt su) 0) as [Z|Z], (Req_EM_T (2 * sqrt su) 0) as [Y|Y]; try lra; [reflexivity|].
  cbn [obind]. replace (w / (2 * sqrt su) * 2) with (w / sqrt su) by (field; lra). reflexivity.
Qed.
Lemma scanx_spin_eq rho sigma tau : scanx_spin rho sigma tau = xspin scanx rho sigma tau.
Proof.
  destruct rho as [[n u] d], sigma as [[so su] sd], tau as [[to tu] td]. unfold scanx_spin, xspin. rewrite !chan_scan.
  destruct (scanx (u * 2) _ _) as [[[[eu vu] wu] zu]| |]; [|reflexivity|reflexivity]. cbn [obind].
  destruct (scanx (d * 2) _ _) as [[[[ed vd] wd] zd]| |]; [|reflexivity|reflexivity]. cbn [obind].
  replace (eu * u + ed * d) with (u * eu + d * ed) by ring. reflexivity.
Qed.
(** the combined energy *)
Lemma xspin_run f n u d so su sd to tu td : n <> 0 -> okat f (2 * u) (4 * su) (2 * tu) -> okat f (2 * d) (4 * sd) (2 * td) ->
  exists e vu vd wu wd zu zd eu ed, xspin f (n, u, d) (so, su, sd) (to, tu, td) = Ok (e, (vu, vd), (wu * 2, wd * 2), (zu, zd)) /\
    f (2 * u) (4 * su) (2 * tu) = Ok (eu, vu, wu, zu) /\ f (2 * d) (4 * sd) (2 * td) = Ok (ed, vd, wd, zd) /\
    e = (eu * u + ed * d) / n.
Proof.
  intros N (eu & vu & wu & zu & A) (ed & vd & wd & zd & B). unfold xspin.
  rewrite (Rmult_comm u 2), (Rmult_comm su 4), (Rmult_comm tu 2), (Rmult_comm d 2), (Rmult_comm sd 4), (Rmult_comm td 2).
  rewrite A, B. cbn [obind]. unfold cdiv. destruct (Req_EM_T n 0); [lra|]. cbn [obind].
  do 9 eexists. split; [reflexivity|]. split; [reflexivity|]. split; reflexivity.
Qed.
Lemma spin_of_meta f (P : R -> R -> R -> Prop) u0 d0 su0 sd0 tu0 td0 :
  (forall r s u, 0 < r -> 0 < s -> P r s u -> okat f r s u) ->
  (forall (r s u : R -> R) (t r' s' u' : R), 0 < r t -> 0 < s t -> P (r t) (s t) (u t) ->
     is_derive r t r' -> is_derive s t s' -> is_derive u t u' -> locally t (fun x => P (r x) (s x) (u x))) ->
  0 < u0 -> 0 < d0 -> 0 < su0 -> 0 < sd0 ->
  P (2 * u0) (4 * su0) (2 * tu0) -> P (2 * d0) (4 * sd0) (2 * td0) ->
  meta_at f (2 * u0) (4 * su0) (2 * tu0) -> meta_at f (2 * d0) (4 * sd0) (2 * td0) ->
  spin_at (xspin f) u0 d0 su0 sd0 tu0 td0.
Proof.
  intros OK LOC Pu Pd Psu Psd Cu Cd Mu Md u d su sd tu td so to t u' d' su' sd' tu' td' Eu Ed Esu Esd Etu Etd Hu Hd Hsu Hsd Htu Htd.
  destruct (Mu (fun x => 2 * u x) (fun x => 4 * su x) (fun x => 2 * tu x) t (2 * u') (4 * su') (2 * tu')) as (eu & vu & wu & zu & A & DA);
    [rewrite Eu; reflexivity|rewrite Esu; reflexivity|rewrite Etu; reflexivity|now apply der_scal|now apply der_scal|now apply der_scal|].
  destruct (Md (fun x => 2 * d x) (fun x => 4 * sd x) (fun x => 2 * td x) t (2 * d') (4 * sd') (2 * td')) as (ed & vd & wd & zd & B & DB);
    [rewrite Ed; reflexivity|rewrite Esd; reflexivity|rewrite Etd; reflexivity|now apply der_scal|now apply der_scal|now apply der_scal|].
  destruct (xspin_run f (u0 + d0) u0 d0 (so t) su0 sd0 (to t) tu0 td0 ltac:(lra)) as (e & vu2 & vd2 & wu2 & wd2 & zu2 & zd2 & eu2 & ed2 & X & A2 & B2 & _);
    [repeat eexists; exact A|repeat eexists; exact B|].
  rewrite A in A2. rewrite B in B2. injection A2 as <- <- <- <-. injection B2 as <- <- <- <-.
  exists e, vu, vd, (wu * 2), (wd * 2), zu, zd. split; [exact X|].
  apply (der_loc (fun x => (0 < u x /\ 0 < su x /\ P (2 * u x) (4 * su x) (2 * tu x)) /\ (0 < d x /\ 0 < sd x /\ P (2 * d x) (4 * sd x) (2 * td x))) _
    (fun x => / 2 * (2 * u x * en4 (f (2 * u x) (4 * su x) (2 * tu x))) + / 2 * (2 * d x * en4 (f (2 * d x) (4 * sd x) (2 * td x))))).
  - pose proof (loc_pos u t u' ltac:(lra) Hu) as L1. pose proof (loc_pos su t su' ltac:(lra) Hsu) as L2.
    pose proof (loc_pos d t d' ltac:(lra) Hd) as L4. pose proof (loc_pos sd t sd' ltac:(lra) Hsd) as L5.
    assert (L3 : locally t (fun x => P (2 * u x) (4 * su x) (2 * tu x))).
    { apply (LOC (fun x => 2 * u x) (fun x => 4 * su x) (fun x => 2 * tu x) t (2 * u') (4 * su') (2 * tu'));
        [rewrite Eu; lra|rewrite Esu; lra|rewrite Eu, Esu, Etu; exact Cu|now apply der_scal|now apply der_scal|now apply der_scal]. }
    assert (L6 : locally t (fun x => P (2 * d x) (4 * sd x) (2 * td x))).
    { apply (LOC (fun x => 2 * d x) (fun x => 4 * sd x) (fun x => 2 * td x) t (2 * d') (4 * sd') (2 * td'));
        [rewrite Ed; lra|rewrite Esd; lra|rewrite Ed, Esd, Etd; exact Cd|now apply der_scal|now apply der_scal|now apply der_scal]. }
    generalize (filter_and (F := locally t) _ _ (filter_and (F := locally t) _ _ L1 (filter_and (F := locally t) _ _ L2 L3))
      (filter_and (F := locally t) _ _ L4 (filter_and (F := locally t) _ _ L5 L6))).
    apply filter_imp. tauto.
  - intros x ((X1 & X2 & X3) & (X4 & X5 & X6)).
    destruct (xspin_run f (u x + d x) (u x) (d x) (so x) (su x) (sd x) (to x) (tu x) (td x) ltac:(lra)) as (e1 & ? & ? & ? & ? & ? & ? & eu1 & ed1 & Y & A1 & B1 & E1);
      [apply OK; [lra|lra|exact X3]|apply OK; [lra|lra|exact X6]|].
    rewrite Y, A1, B1. cbn [enx en4]. rewrite E1. field. lra.
  - eapply is_derive_eq; [apply der_plus; apply der_scal; [exact DA|exact DB]|]. field.
Qed.
Theorem C67_scanx_spin u d su sd tu td : 0 < u -> 0 < d -> 0 < su -> 0 < sd ->
  alpha_scan (2 * u) (4 * su) (2 * tu) <> 1 -> alpha_scan (2 * d) (4 * sd) (2 * td) <> 1 ->
  spin_at scanx_spin u d su sd tu td.
Proof.
  intros Pu Pd Psu Psd Nu Nd. 
  assert (Q : spin_at (xspin scanx) u d su sd tu td).
  { apply (spin_of_meta scanx (fun r s u => Af 0 0 r (sqrt s) u <> 1)); try assumption.
    - intros. now apply scan_ok.
    - intros r s v t r' s' v' Pr Ps NA Hr Hs Hv.
      apply (alpha_local 0 0 (fun a => a) 1 r s v t r' s' v'); try assumption; try lra. intros a. exists 1. apply der_id.
    - rewrite Af_scan by lra. exact Nu.
    - rewrite Af_scan by lra. exact Nd.
    - apply C67_scanx; [lra|lra|exact Nu].
    - apply C67_scanx; [lra|lra|exact Nd]. }
  intros u1 d1 su1 sd1 tu1 td1 so to t u' d' su' sd' tu' td' Eu Ed Esu Esd Etu Etd Hu Hd Hsu Hsd Htu Htd.
  destruct (Q u1 d1 su1 sd1 tu1 td1 so to t u' d' su' sd' tu' td' Eu Ed Esu Esd Etu Etd Hu Hd Hsu Hsd Htu Htd)
    as (e & vu & vd & wu & wd & zu & zd & X & D).
  exists e, vu, vd, wu, wd, zu, zd. rewrite scanx_spin_eq. split; [exact X|]. revert D. apply der_ext. intros y. now rewrite scanx_spin_eq.
Qed.
Theorem C67_rscanx_spin u d su sd tu td : 0 < u -> 0 < d -> 0 < su -> 0 < sd ->
  alpha_rscan (2 * u) (4 * su) (2 * tu) <> 2.5 -> alpha_rscan (2 * d) (4 * sd) (2 * td) <> 2.5 ->
  spin_at rscanx_spin u d su sd tu td.
Proof.
  intros Pu Pd Psu Psd Nu Nd. apply (spin_of_meta rscanx (fun _ _ _ => True)); try assumption; try exact I.
  - intros. now apply rscan_ok.
  - intros. apply (filter_imp (fun _ => True)); [easy|]. apply filter_true.
  - apply C67_rscanx; [lra|lra|exact Nu].
  - apply C67_rscanx; [lra|lra|exact Nd].
Qed.
Theorem C67_r2scanx_spin u d su sd tu td : 0 < u -> 0 < d -> 0 < su -> 0 < sd ->
  alpha_r2scan (2 * u) (4 * su) (2 * tu) <> 2.5 -> alpha_r2scan (2 * d) (4 * sd) (2 * td) <> 2.5 ->
  spin_at r2scanx_spin u d su sd tu td.
Proof.
  intros Pu Pd Psu Psd Nu Nd. apply (spin_of_meta r2scanx (fun _ _ _ => True)); try assumption; try exact I.
  - intros. now apply r2scan_ok.
  - intros. apply (filter_imp (fun _ => True)); [easy|]. apply filter_true.
  - apply C67_r2scanx; [lra|lra|exact Nu].
  - apply C67_r2scanx; [lra|lra|exact Nd].
Qed.
(** The energy per electron is the spin-scaled one: the density-weighted mean of the unpolarised energies at twice the channel's
    density, four times its squared gradient and twice its kinetic energy density. *)
Definition spin_scaled (E : R -> R -> R -> R) (u d su sd tu td : R) : R :=
  (u * E (2 * u) (4 * su) (2 * tu) + d * E (2 * d) (4 * sd) (2 * td)) / (u + d).
Lemma spin_energy f (E : R -> R -> R -> R) u d so su sd to tu td : 0 < u -> 0 < d ->
  okat f (2 * u) (4 * su) (2 * tu) -> okat f (2 * d) (4 * sd) (2 * td) ->
  en4 (f (2 * u) (4 * su) (2 * tu)) = E (2 * u) (4 * su) (2 * tu) -> en4 (f (2 * d) (4 * sd) (2 * td)) = E (2 * d) (4 * sd) (2 * td) ->
  enx (xspin f (u + d, u, d) (so, su, sd) (to, tu, td)) = spin_scaled E u d su sd tu td.
Proof.
  intros Pu Pd A B EA EB.
  destruct (xspin_run f (u + d) u d so su sd to tu td ltac:(lra) A B) as (e & ? & ? & ? & ? & ? & ? & eu & ed & Y & A1 & B1 & E1).
  rewrite Y. rewrite A1 in EA. rewrite B1 in EB. cbn [enx en4] in *. rewrite E1, EA, EB. unfold spin_scaled. field. lra.
Qed.
Theorem C67_spin_energy u d so su sd to tu td : 0 < u -> 0 < d -> 0 < su -> 0 < sd ->
  (alpha_scan (2 * u) (4 * su) (2 * tu) <> 1 -> alpha_scan (2 * d) (4 * sd) (2 * td) <> 1 ->
   enx (scanx_spin (u + d, u, d) (so, su, sd) (to, tu, td)) =
   spin_scaled (fun r s v => eunif r * Fscan_with f_scan (sred r s) (alpha_scan r s v)) u d su sd tu td) /\
  enx (rscanx_spin (u + d, u, d) (so, su, sd) (to, tu, td)) =
   spin_scaled (fun r s v => eunif r * Fscan_with f_rscan (sred r s) (alpha_rscan r s v)) u d su sd tu td /\
  enx (r2scanx_spin (u + d, u, d) (so, su, sd) (to, tu, td)) =
   spin_scaled (fun r s v => eunif r * Fr2scan (sred r s) (alpha_r2scan r s v)) u d su sd tu td.
Proof.
  intros Pu Pd Psu Psd. split; [|split].
  - intros Nu Nd. rewrite scanx_spin_eq. apply spin_energy; try assumption; try (apply scan_ok; [lra|lra|rewrite Af_scan by lra; assumption]).
    + apply scan_en_pub; [lra|lra|exact Nu].
    + apply scan_en_pub; [lra|lra|exact Nd].
  - apply spin_energy; try assumption; try (apply rscan_ok; lra); apply rscan_en_pub; lra.
  - apply spin_energy; try assumption; try (apply r2scan_ok; lra); apply r2scan_en_pub; lra.
Qed.

(** ** Inputs meeting the hypotheses *)
Example C67_example : exists e v w z, scanx 1 8 (tauW 1 8) = Ok (e, v, w, z) /\ 1.174 * eunif 1 < e < 0 /\ meta_at scanx 1 8 (tauW 1 8).
Proof.
  assert (N : alpha_scan 1 8 (tauW 1 8) <> 1).
  { unfold alpha_scan. pose proof (tauU_pos 1 ltac:(lra)). replace (tauW 1 8 - tauW 1 8) with 0 by ring. unfold Rdiv. rewrite Rmult_0_l. lra. }
  destruct (scan_ok 1 8 (tauW 1 8)) as (e & v & w & z & Q); [lra|lra|now rewrite Af_scan by lra|].
  exists e, v, w, z. split; [exact Q|]. split.
  - pose proof (C67_scanx_bounds 1 8 (tauW 1 8) ltac:(lra) ltac:(lra) ltac:(lra) N) as B. rewrite Q in B. exact B.
  - now apply C67_scanx; [lra|lra|].
Qed.
(** one orbital in each channel: both indicators are 0 *)
Example C67_spin_example : spin_at scanx_spin 1 2 8 8 (tauW 1 8) (tauW 2 8) /\ spin_at r2scanx_spin 1 2 8 8 (tauW 1 8) (tauW 2 8).
Proof.
  assert (E1 : tauW (2 * 1) (4 * 8) = 2 * tauW 1 8) by (unfold tauW; field).
  assert (E2 : tauW (2 * 2) (4 * 8) = 2 * tauW 2 8) by (unfold tauW; field).
  split.
  - apply C67_scanx_spin; try lra; unfold alpha_scan; rewrite ?E1, ?E2, Rminus_eq_0; unfold Rdiv; rewrite Rmult_0_l; lra.
  - apply C67_r2scanx_spin; try lra; unfold alpha_r2scan; rewrite ?E1, ?E2, Rminus_eq_0; unfold Rdiv; rewrite Rmult_0_l; dec; lra.
Qed.

Print Assumptions C67_scanx.
Print Assumptions C67_rscanx.
Print Assumptions C67_r2scanx.
Print Assumptions C67_scanx_bounds.
Print Assumptions C67_alpha1.
Print Assumptions C67_alpha1_refuted.
Print Assumptions C67_scanx_spin.
Print Assumptions C67_rscanx_spin.
Print Assumptions C67_r2scanx_spin.
Print Assumptions C67_spin_energy.
