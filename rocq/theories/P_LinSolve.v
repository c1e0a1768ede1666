(** Property C32: the linear solvers AAR and CG. *)
From Coq Require Import ZArith List Lia Bool QArith Qabs Qcanon Arith Lqa Field Floats.SpecFloat.
From Verif Require Import CBase Spline LinSolve.
Import ListNotations.
Local Open Scope nat_scope.

Section Generic.
  Variable K : Type.
  Variables (k0 k1 : K) (kadd kmul ksub : K -> K -> K) (kopp : K -> K) (kdiv : K -> K -> K) (kinv : K -> K).
  Variable Kf : field_theory k0 k1 kadd kmul ksub kopp kdiv kinv (@eq K).
  Notation vec := (list K).
  Notation plus := (vplus K kadd). Notation minus := (vminus K ksub). Notation smul := (vscale K kmul).
  Notation dot := (vdot K k0 kadd kmul). Notation lin n := (linear K kadd kmul n).
  Notation aar_run := (AAR K k0 kadd kmul ksub kopp).
  Notation aar_it := (aar_iter K kadd kmul ksub kopp).
  Notation start := (aar_init K k0).
  Notation store := (aar_store K ksub).

  (** *** Spec
      AAR returns an iterate; if it says it stopped before the limit, the
      residual of the returned iterate, computed by the caller's residual
      function, is within tolerance.  Needs m > 0 and p > 0 (else division by
      zero in the C remainder). *)
  Theorem C32_aar_stop norm res prec coeff omega beta m p n (x0 fold0 b : vec) (tolr : Q) max_iter :
    0 < m -> 0 < p ->
    let tol := (tolr * norm b)%Q in
    exists s, aar_run Q (fun a c => qltb c a) norm res prec coeff omega beta m p n x0 fold0 tol (tol + 1)%Q max_iter = Ok s /\
      ait K Q s <= max_iter /\
      (ait K Q s < max_iter -> (norm (res (ax K Q s)) <= tolr * norm b)%Q).
  Proof.
    intros Hm Hp tol.
    assert (T : forall s, exists s', aar_body K kadd kmul ksub kopp Q norm res prec coeff omega beta m p s = Ok s').
    { intros s. unfold aar_body, aar_store. rewrite (proj2 (Nat.eqb_neq m 0)), (proj2 (Nat.eqb_neq p 0)) by lia.
      destruct (0 <? ait K Q s); cbn [obind]; destruct (_ && _); eexists; reflexivity. }
    assert (R : forall fuel s, exists s', aar_loop K kadd kmul ksub kopp Q (fun a c => qltb c a) norm res prec coeff omega beta m p tol fuel s = Ok s' /\ ait K Q s' <= ait K Q s + fuel).
    { induction fuel as [|fuel IH]; intros s; cbn [aar_loop]; destruct (qltb tol (arn K Q s)); try (exists s; split; [reflexivity | lia]).
      destruct (T s) as [s1 E1]. rewrite E1. cbn [obind]. destruct (IH s1) as (s2 & E2 & L). exists s2. split; [exact E2|].
      destruct (aar_body_it _ _ _ _ _ _ _ _ _ _ _ _ _ _ _ _ E1) as [Hi _]. lia. }
    destruct (R max_iter (start Q res n x0 fold0 (tol + 1)%Q)) as (s & E & L). exists s. split; [exact E|]. split; [exact L|].
    intros Hlt.
    assert (big : qltb tol (tol + 1)%Q = true) by (apply qltb_lt; lra).
    destruct (aar_loop_stop K kadd kmul ksub kopp Q (fun a c => qltb c a) norm res prec coeff omega beta m p tol max_iter (start Q res n x0 fold0 (tol + 1)%Q) s eq_refl (or_introl big) E (or_introl Hlt)) as (G & Hn & _).
    rewrite Hn in G. apply qltb_ge in G. exact G.
  Qed.

  (** In exact arithmetic, for a linear system and a linear preconditioner,
      at every iteration k and for any coefficients G the extrapolated
      residual F-combination is the preconditioned residual of the
      extrapolated point X-combination; and coefficients that make it
      orthogonal to the columns of F give the smallest one (the difference is
      a sum of squares). *)
  Theorem C32_aar_extrapolation (N : Type) (norm : vec -> N) res prec coeff omega beta m p n A b x0 fold0 big k s f X F :
    lin n A -> lin n prec -> length b = n -> length x0 = n -> (forall x, length x = n -> res x = minus b (A x)) ->
    aar_it N norm res prec coeff omega beta m p k (start N res n x0 fold0 big) = Ok s ->
    store N prec m s = Ok (f, X, F) ->
    (forall G, prec (res (wavg K kadd kmul kopp m G X (ax K N s))) = wavg K kadd kmul kopp m G F f) /\
    (forall G, (forall j, j < m -> dot (F j) (wavg K kadd kmul kopp m G F f) = k0) ->
       forall G', exists w, dot (wavg K kadd kmul kopp m G' F f) (wavg K kadd kmul kopp m G' F f) =
                            kadd (dot (wavg K kadd kmul kopp m G F f) (wavg K kadd kmul kopp m G F f)) (dot w w)).
  Proof.
    intros HA HP Hb Hx0 Hres E St.
    assert (I : aar_inv K k1 kmul kopp N res prec n A s).
    { eapply (aar_iter_inv K k0 k1 kadd kmul ksub kopp kdiv kinv Kf N (fun _ _ => true) norm res prec coeff omega beta m p n A b HA HP Hb Hres); [|exact E].
      apply (aar_init_inv K k0 k1 kadd kmul ksub kopp kdiv kinv Kf N (fun _ _ => true) norm res prec coeff n A b HA HP Hb Hres). exact Hx0. }
    destruct (aar_store_inv K k0 k1 kadd kmul ksub kopp kdiv kinv Kf N (fun _ _ => true) norm res prec coeff m n A b HA HP Hb Hres s f X F I St) as [-> HC].
    split.
    - intros G. apply (wavg_residual K k0 k1 kadd kmul ksub kopp kdiv kinv Kf res prec n A b HA HP Hb Hres); [exact HC | apply I].
    - intros G HO G'. eexists.
      apply (wavg_pythagoras K k0 k1 kadd kmul ksub kopp kdiv kinv Kf N (fun _ _ => true) norm res coeff m n A b Hb Hres); [| |exact HO].
      + intros j. apply (col_F_len K k1 kadd kmul kopp prec n A HA HP (X j)), HC.
      + apply (prec_res_len K k1 kadd kmul ksub res prec n A b HA HP Hb Hres). apply I.
  Qed.

  (** The history holds the last min(k, m) steps: column (k-1-j) mod m is the
      difference of the iterates k-j and k-j-1, and of their preconditioned
      residuals.  A solver that kept overwriting one column, or dropped steps,
      would not satisfy this. *)
  Theorem C32_aar_history (N : Type) (norm : vec -> N) res prec coeff omega beta m p n x0 fold0 big k s f X F :
    let x i s := aar_it N norm res prec coeff omega beta m p i (start N res n x0 fold0 big) = Ok s in
    x k s -> store N prec m s = Ok (f, X, F) ->
    f = prec (ar K N s) /\
    forall j, j < m -> j < k -> exists s1 s0, x (k - j) s1 /\ x (k - 1 - j) s0 /\
      X ((k - 1 - j) mod m) = minus (ax K N s1) (ax K N s0) /\
      F ((k - 1 - j) mod m) = minus (prec (ar K N s1)) (prec (ar K N s0)).
  Proof.
    intros x.
    pose (C := fun (k : nat) (X F : nat -> vec) => forall j, j < m -> j < k -> exists s1 s0, x (k - j) s1 /\ x (k - 1 - j) s0 /\
      X ((k - 1 - j) mod m) = minus (ax K N s1) (ax K N s0) /\ F ((k - 1 - j) mod m) = minus (prec (ar K N s1)) (prec (ar K N s0))).
    pose (P := fun (k : nat) s => x k s /\ ait K N s = k /\ C (k - 1) (aX K N s) (aF K N s) /\
      (0 < k -> exists s0, x (k - 1) s0 /\ axold K N s = ax K N s0 /\ afold K N s = prec (ar K N s0))).
    assert (St : forall k s f X F, P k s -> store N prec m s = Ok (f, X, F) -> f = prec (ar K N s) /\ C k X F).
    { clear k s f X F. intros k s f X F (Hx & Hi & HC & Ho) E. unfold aar_store in E. rewrite Hi in E.
      destruct (Nat.ltb_spec 0 k) as [Pk|Zk].
      - destruct (Nat.eqb_spec m 0) as [|Pm]; [discriminate|]. injection E as <- <- <-. split; [reflexivity|].
        destruct (Ho Pk) as (s0 & Hx0 & E1 & E2). intros j Hj Hjk. destruct j as [|j].
        + exists s, s0. rewrite !Nat.sub_0_r, Nat.eqb_refl, E1, E2. auto.
        + assert (Ne : (k - 1 - S j) mod m <> (k - 1) mod m).
          { pose proof (Nat.div_mod (k - 1 - S j) m Pm). pose proof (Nat.div_mod (k - 1) m Pm). intros Eq. rewrite Eq in *.
            assert (m * ((k - 1) / m) = m * ((k - 1 - S j) / m) + S j) by lia. assert ((k - 1) / m > (k - 1 - S j) / m) by nia. nia. }
          rewrite (proj2 (Nat.eqb_neq _ _) Ne). destruct (HC j ltac:(lia) ltac:(lia)) as (s1 & s2 & Q1 & Q2 & Q3 & Q4).
          exists s1, s2. replace (k - S j) with (k - 1 - j) by lia. replace (k - 1 - S j) with (k - 1 - 1 - j) by lia. auto.
      - injection E as <- <- <-. split; [reflexivity|]. intros j _ Hj. lia. }
    assert (I : forall k s, x k s -> P k s).
    { clear k s f X F. induction k as [|k IH]; intros s E.
      - pose proof E as E'. unfold x in E'. cbn [aar_iter] in E'. injection E' as <-. split; [exact E|]. split; [reflexivity|]. split; [intros j _ Hj; lia|lia].
      - pose proof E as E'. unfold x in E'. cbn [aar_iter] in E'. destruct (aar_it N norm res prec coeff omega beta m p k (start N res n x0 fold0 big)) as [s1| |] eqn:E1; cbn [obind] in E'; try discriminate.
        pose proof (IH s1 E1) as P1. unfold aar_body in E'. destruct (store N prec m s1) as [[[f X] F]| |] eqn:S1; cbn [obind] in E'; try discriminate.
        destruct (St k s1 f X F P1 S1) as [Hf HC]. destruct P1 as (_ & Hi & _).
        destruct (p =? 0); [discriminate|].
        destruct (_ && _); injection E' as <-; (split; [exact E|]); cbn [ait aX aF axold afold]; replace (S k - 1) with k by lia;
          (split; [lia|]); (split; [exact HC|]); intros _; exists s1; repeat split; auto. }
    intros E S. exact (St k s f X F (I k s E) S).
  Qed.

  (** AAR leaves an exact solution alone. *)
  Theorem C32_aar_keeps_solution (N : Type) (norm : vec -> N) res prec coeff omega beta m p n x0 fold0 big k s :
    lin n prec -> length x0 = n -> res x0 = zeros K k0 n ->
    aar_it N norm res prec coeff omega beta m p k (start N res n x0 fold0 big) = Ok s ->
    ax K N s = x0 /\ ar K N s = zeros K k0 n.
  Proof.
    intros HP Hx Hr. set (Z := zeros K k0 n).
    assert (PZ : prec Z = Z) by (apply (linear_zeros K k0 k1 kadd kmul ksub kopp kdiv kinv Kf n prec HP)).
    assert (SZ : forall a, smul a Z = Z) by (intros a; apply (vscale_zeros K k0 k1 kadd kmul ksub kopp kdiv kinv Kf)).
    assert (XZ : plus x0 Z = x0) by (apply (vplus_zeros_r K k0 k1 kadd kmul ksub kopp kdiv kinv Kf), Hx).
    assert (ZZ : plus Z Z = Z) by (apply (vplus_zeros_r K k0 k1 kadd kmul ksub kopp kdiv kinv Kf), zeros_len).
    assert (MX : minus x0 x0 = Z).
    { rewrite (vminus_as_plus _ _ _ _ _ _ _ _ _ Kf), (vplus_scale_m1 _ _ _ _ _ _ _ _ _ Kf), Hx. reflexivity. }
    assert (MZ : minus Z Z = Z).
    { rewrite (vminus_as_plus _ _ _ _ _ _ _ _ _ Kf), SZ. exact ZZ. }
    assert (W : forall M v, (forall j, M j = Z) -> plus v Z = v -> forall G q, wavg K kadd kmul kopp q G M v = v).
    { intros M v HM Hv G. induction q as [|q IH]; cbn [wavg]; [reflexivity|]. rewrite IH, HM, SZ. exact Hv. }
    enough (H : forall k s, aar_it N norm res prec coeff omega beta m p k (start N res n x0 fold0 big) = Ok s ->
      ax K N s = x0 /\ axold K N s = x0 /\ ar K N s = Z /\ (0 < ait K N s -> afold K N s = Z) /\ (forall j, aX K N s j = Z) /\ (forall j, aF K N s j = Z)).
    { intros E. destruct (H k s E) as (H1 & _ & H3 & _). split; assumption. }
    clear k s. induction k as [|k IH]; intros s E; cbn [aar_iter] in E.
    - injection E as <-. unfold aar_init. cbn. repeat split; try assumption; try reflexivity; try lia.
    - destruct (aar_it N norm res prec coeff omega beta m p k (start N res n x0 fold0 big)) as [s1| |]; cbn [obind] in E; try discriminate.
      destruct (IH s1 eq_refl) as (J1 & J2 & J3 & J4 & J5 & J6). clear IH.
      unfold aar_body in E. destruct (store N prec m s1) as [[[f X] F]| |] eqn:St; cbn [obind] in E; try discriminate.
      assert (Q : f = Z /\ (forall j, X j = Z) /\ (forall j, F j = Z)).
      { unfold aar_store in St. rewrite J1, J2, J3, PZ in St. destruct (Nat.ltb_spec 0 (ait K N s1)).
        - destruct (m =? 0); [discriminate|]. injection St as <- <- <-. split; [reflexivity|]. rewrite (J4 ltac:(lia)).
          split; intros j; destruct (j =? _); try assumption; auto.
        - injection St as <- <- <-. auto. }
      destruct Q as (-> & QX & QF). rewrite J1 in E.
      destruct (p =? 0); [discriminate|].
      destruct (_ && _); injection E as <-; cbn [ax axold ar ait afold aX aF].
      + unfold Anderson. rewrite (W X x0), (W F Z), SZ, XZ by auto. repeat split; auto.
      + rewrite SZ, XZ. repeat split; auto.
  Qed.

  (** *** CG *)
  Section CGth.
    Variable keqb : K -> K -> bool.
    Hypothesis keqb_ok : forall x y, keqb x y = true <-> x = y.
    Notation cg_it := (cg_iter K k0 kadd kmul kopp kdiv keqb).
    Notation cg0 := (cg_init K kadd).

    (** At every iteration, restarted or not, CG's residual is the true
        residual of its iterate (equation -A x = b). *)
    Theorem C32_cg_residual norm A b sqrt_n n x0 k s :
      lin n A -> length b = n -> length x0 = n ->
      cg_it norm A b sqrt_n k (cg0 norm A b x0) = Ok s ->
      cr K s = plus b (A (cx K s)) /\ cit K s = k.
    Proof.
      intros HA Hb Hx E. destruct (cg_iter_inv _ _ _ _ _ _ _ _ _ Kf keqb keqb_ok norm (fun _ _ => true) A b sqrt_n n HA Hb x0 Hx k s E) as [I J].
      split; [apply I | exact J].
    Qed.

    (** Stopping before the limit: residual within tolerance. *)
    Theorem C32_cg_stop norm kgt A b sqrt_n n x0 tol big max_iter s e :
      lin n A -> length b = n -> length x0 = n -> kgt big tol = true ->
      CG K k0 kadd kmul kopp kdiv keqb norm kgt A b sqrt_n x0 tol big max_iter = Ok (s, e) ->
      cit K s < max_iter \/ kgt e tol = false ->
      kgt (norm (plus b (A (cx K s)))) tol = false.
    Proof.
      intros HA Hb Hx Hbig E L.
      destruct (cg_loop_stop _ _ _ _ _ _ _ _ _ Kf keqb keqb_ok norm kgt A b sqrt_n n HA Hb tol max_iter big (cg0 norm A b x0) s e) as (_ & G & He).
      - apply (cg_init_inv K k1 kadd kmul norm A b n HA Hb x0 Hx).
      - left. exact Hbig.
      - exact E.
      - exact L.
      - rewrite <- He. exact G.
    Qed.

    (** Symmetric operator, exact norms: all residuals are mutually
        orthogonal, all directions A-conjugate. *)
    Theorem C32_cg_orthogonal norm A b sqrt_n n x0 i j s t :
      lin n A -> length b = n -> length x0 = n ->
      (forall u v, length u = n -> length v = n -> dot u (A v) = dot (A u) v) ->
      (forall k s, cg_it norm A b sqrt_n k (cg0 norm A b x0) = Ok s -> kmul (norm (cr K s)) (norm (cr K s)) = dot (cr K s) (cr K s)) ->
      cg_it norm A b sqrt_n i (cg0 norm A b x0) = Ok s -> cg_it norm A b sqrt_n j (cg0 norm A b x0) = Ok t -> i <> j ->
      dot (cr K s) (cr K t) = k0 /\ dot (cd K s) (A (cd K t)) = k0.
    Proof.
      intros HA Hb Hx HS Hn Ei Ej Hij.
      assert (O : forall i j s t, cg_it norm A b sqrt_n i (cg0 norm A b x0) = Ok s -> cg_it norm A b sqrt_n j (cg0 norm A b x0) = Ok t -> i < j ->
        dot (cr K t) (cr K s) = k0 /\ dot (cd K t) (A (cd K s)) = k0).
      { clear i j s t Ei Ej Hij. intros i j s t Ei Ej H.
        destruct (cg_orth _ _ _ _ _ _ _ _ _ Kf keqb keqb_ok norm (fun _ _ => true) A b sqrt_n n HA Hb HS x0 Hx Hn j t Ej) as (_ & O2 & O3 & _).
        split; [apply (O2 i s Ei H) | apply (O3 i s Ei H)]. }
      destruct (Nat.lt_total i j) as [H|[H|H]]; [|lia|].
      - destruct (O i j s t Ei Ej H) as [O1 O2]. rewrite (vdot_sym _ _ _ _ _ _ _ _ _ Kf (cr K s)). split; [exact O1|].
        rewrite HS, (vdot_sym _ _ _ _ _ _ _ _ _ Kf); [exact O2 | |].
        + apply (cg_iter_inv K k0 k1 kadd kmul ksub kopp kdiv kinv Kf keqb keqb_ok norm (fun _ _ => true) A b sqrt_n n HA Hb x0 Hx i s Ei).
        + apply (cg_iter_inv K k0 k1 kadd kmul ksub kopp kdiv kinv Kf keqb keqb_ok norm (fun _ _ => true) A b sqrt_n n HA Hb x0 Hx j t Ej).
      - apply (O j i t s Ej Ei H).
    Qed.

    (** CG started at an exact solution divides zero by zero. *)
    Theorem C32_cg_exact_start_undefined norm kgt A b sqrt_n n x0 tol big max_iter :
      lin n A -> length x0 = n -> plus b (A x0) = zeros K k0 n -> kgt big tol = true -> 0 < max_iter ->
      CG K k0 kadd kmul kopp kdiv keqb norm kgt A b sqrt_n x0 tol big max_iter = UB.
    Proof.
      intros HA Hx Hr Hbig Hm. unfold CG. destruct max_iter as [|q]; [lia|]. cbn [cg_loop]. rewrite Hbig.
      unfold cg_step, cg_init. rewrite Hr. cbn [cd cdelta cx cr cit].
      rewrite (vdot_zeros _ _ _ _ _ _ _ _ _ Kf).
      rewrite (proj2 (keqb_ok k0 k0) eq_refl). reflexivity.
    Qed.
  End CGth.
End Generic.
Print Assumptions C32_aar_stop.
Print Assumptions C32_aar_extrapolation.
Print Assumptions C32_aar_history.
Print Assumptions C32_aar_keeps_solution.
Print Assumptions C32_cg_residual.
Print Assumptions C32_cg_stop.
Print Assumptions C32_cg_orthogonal.
Print Assumptions C32_cg_exact_start_undefined.

(** *** IEEE doubles: a diverging run is taken for a converged one.
    1x1 system 1e200 * x = 1, no preconditioner, m = 1, p = 2, omega = beta =
    1; Gamma from the 1x1 normal equation F*F*Gamma = F*f.  F*F overflows,
    Gamma and then x and r become nan; nan > tol is false, so the loop stops
    after 2 of 100 iterations. *)
Definition f64_add := SFadd 53 1024. Definition f64_mul := SFmul 53 1024. Definition f64_sub := SFsub 53 1024.
Definition f64_div := SFdiv 53 1024.
Definition f64_opp (x : spec_float) := SFopp x.
Definition f64_zero := S754_zero false.
Definition f64_one := S754_finite false 4503599627370496 (-52).
(** 2^664, about 1e200 *)
Definition f64_big := S754_finite false 4503599627370496 612.
Definition f64_tol := S754_finite false 4503599627370496 (-72).
Definition f64_norm (v : list spec_float) : spec_float :=
  SFsqrt 53 1024 (vdot spec_float f64_zero f64_add f64_mul v v).
Definition f64_gt (a b : spec_float) : bool := SFltb b a.
Definition f64_res (x : list spec_float) : list spec_float := map (fun y => f64_sub f64_one (f64_mul f64_big y)) x.
Definition f64_coeff (m : nat) (F : nat -> list spec_float) (f : list spec_float) (j : nat) : spec_float :=
  f64_div (vdot _ f64_zero f64_add f64_mul (F O) f) (vdot _ f64_zero f64_add f64_mul (F O) (F O)).
Definition f64_AAR := AAR spec_float f64_zero f64_add f64_mul f64_sub f64_opp spec_float f64_gt f64_norm f64_res (fun v => v) f64_coeff f64_one f64_one 1 2 1.
Theorem C32_aar_nan_refuted :
  exists s, f64_AAR [f64_zero] [f64_zero] f64_tol (f64_add f64_tol f64_one) 100 = Ok s /\
    ait _ _ s = 2 /\ f64_gt (f64_add f64_tol f64_one) f64_tol = true /\
    SFleb (f64_norm (f64_res (ax _ _ s))) f64_tol = false.
Proof.
  assert (E : match f64_AAR [f64_zero] [f64_zero] f64_tol (f64_add f64_tol f64_one) 100 with
              | Ok s => (ait _ _ s, SFleb (f64_norm (f64_res (ax _ _ s))) f64_tol) = (2, false) | _ => False end)
    by (vm_compute; reflexivity).
  destruct (f64_AAR [f64_zero] [f64_zero] f64_tol (f64_add f64_tol f64_one) 100) as [s| |]; try contradiction.
  exists s. split; [reflexivity|]. apply pair_equal_spec in E. destruct E as [E1 E2]. split; [exact E1|].
  split; [vm_compute; reflexivity | exact E2].
Qed.
Print Assumptions C32_aar_nan_refuted.

(** *** Examples over the rationals *)
Definition qc (z : Z) : Qc := Q2Qc (inject_Z z).
Definition ex_A (v : list Qc) : list Qc := match v with [x; y] => [(- x)%Qc; (qc (-2) * y)%Qc] | _ => [] end.
Lemma ex_A_linear : linear Qc Qcplus Qcmult 2 ex_A.
Proof.
  split.
  - intros [|x [|y [|]]]; cbn; try discriminate. reflexivity.
  - intros [|x [|y [|]]] [|z [|w [|]]] a H1 H2; cbn in *; try discriminate. f_equal; [ring|]. f_equal. ring.
Qed.
Lemma ex_A_sym u v : length u = 2 -> length v = 2 ->
  vdot Qc 0%Qc Qcplus Qcmult u (ex_A v) = vdot Qc 0%Qc Qcplus Qcmult (ex_A u) v.
Proof. destruct u as [|x [|y [|]]]; destruct v as [|z [|w [|]]]; cbn; try discriminate. intros _ _. ring. Qed.
(** exact square root of a rational square *)
Definition ex_norm (v : list Qc) : Qc :=
  let q := this (vdot Qc 0%Qc Qcplus Qcmult v v) in Q2Qc (Z.sqrt (Qnum q) # Pos.sqrt (Qden q)).
Definition ex_eqb (x y : Qc) : bool := Qeq_bool x y.
Lemma ex_eqb_ok x y : ex_eqb x y = true <-> x = y.
Proof. unfold ex_eqb. split; [intros H; apply Qc_is_canon, Qeq_bool_eq, H | intros ->; apply Qeq_eq_bool; reflexivity]. Qed.
Definition ex_cg := cg_iter Qc 0%Qc Qcplus Qcmult Qcopp Qcdiv ex_eqb ex_norm ex_A [qc 3; qc 4] 1.
Definition ex_start := cg_init Qc Qcplus ex_norm ex_A [qc 3; qc 4] [qc 0; qc 0].
(** two CG steps solve the 2x2 system; a third divides by zero; norms are
    exact along the run *)
Definition ex_exact (s : cg Qc) : bool :=
  ex_eqb (ex_norm (cr Qc s) * ex_norm (cr Qc s))%Qc (vdot Qc 0%Qc Qcplus Qcmult (cr Qc s) (cr Qc s)).
Definition ex_same (u : list Qc) (v : list Q) : bool := forallb (fun p => Qeq_bool (this (fst p)) (snd p)) (combine u v).
Definition ex_run (f : nat -> outcome (cg Qc)) : bool :=
  match f 0, f 1, f 2, f 3 with
  | Ok s0, Ok s1, Ok s2, UB =>
      (ex_same (cx Qc s2) [3 # 1; 2 # 1]%Q && ex_same (cr Qc s1) [48 # 41; -36 # 41]%Q) && (ex_exact s0 && ex_exact s1 && ex_exact s2)
  | _, _, _, _ => false
  end.
Example C32_cg_ex : ex_run (fun k => ex_cg k ex_start) = true.
Proof. vm_compute. reflexivity. Qed.
(** every iterate of this run is one of those three: the hypotheses of
    C32_cg_orthogonal hold *)
Lemma ex_run_norms f : ex_run f = true -> (f 3 = UB -> forall k, f (S (S (S k))) = UB) -> forall k s, f k = Ok s ->
  (ex_norm (cr Qc s) * ex_norm (cr Qc s))%Qc = vdot Qc 0%Qc Qcplus Qcmult (cr Qc s) (cr Qc s).
Proof.
  intros H U. unfold ex_run in H.
  destruct (f 0) as [s0| |] eqn:E0; try discriminate.
  destruct (f 1) as [s1| |] eqn:E1; try discriminate.
  destruct (f 2) as [s2| |] eqn:E2; try discriminate.
  destruct (f 3) as [s3| |] eqn:E3; try discriminate.
  apply andb_true_iff in H. destruct H as [_ H]. apply andb_true_iff in H. destruct H as [H X2]. apply andb_true_iff in H. destruct H as [X0 X1].
  intros [|[|[|k]]] s E.
  - apply ex_eqb_ok. replace s with s0 by congruence. exact X0.
  - apply ex_eqb_ok. replace s with s1 by congruence. exact X1.
  - apply ex_eqb_ok. replace s with s2 by congruence. exact X2.
  - rewrite U in E by reflexivity. discriminate.
Qed.
Lemma ex_cg_UB st : ex_cg 3 st = UB -> forall k, ex_cg (S (S (S k))) st = UB.
Proof.
  unfold ex_cg. intros U3. induction k as [|k IH]; [exact U3|].
  remember (S (S (S k))) as q. cbn [cg_iter]. rewrite IH. reflexivity.
Qed.
Lemma C32_cg_ex_norms : forall k s, ex_cg k ex_start = Ok s ->
  (ex_norm (cr Qc s) * ex_norm (cr Qc s))%Qc = vdot Qc 0%Qc Qcplus Qcmult (cr Qc s) (cr Qc s).
Proof. exact (ex_run_norms (fun k => ex_cg k ex_start) C32_cg_ex (ex_cg_UB ex_start)). Qed.
Example C32_cg_ex_orth : forall s t, ex_cg 0 ex_start = Ok s -> ex_cg 1 ex_start = Ok t ->
  vdot Qc 0%Qc Qcplus Qcmult (cr Qc s) (cr Qc t) = 0%Qc /\ vdot Qc 0%Qc Qcplus Qcmult (cd Qc s) (ex_A (cd Qc t)) = 0%Qc.
Proof.
  intros s t Es Et.
  refine (C32_cg_orthogonal Qc 0%Qc 1%Qc Qcplus Qcmult Qcminus Qcopp Qcdiv Qcinv Qcft ex_eqb ex_eqb_ok ex_norm ex_A [qc 3; qc 4] 1 2 [qc 0; qc 0] 0 1 s t
    ex_A_linear eq_refl eq_refl ex_A_sym C32_cg_ex_norms Es Et _). discriminate.
Qed.
(** AAR: converges on a 1x1 system, stops by tolerance after 2 of 10. *)
Definition exr (v : list Qc) : list Qc := map (fun y => (qc 1 - qc 2 * y)%Qc) v.
Definition ex_coeff (m : nat) (F : nat -> list Qc) (f : list Qc) (j : nat) : Qc :=
  (vdot _ 0 Qcplus Qcmult (F O) f / vdot _ 0 Qcplus Qcmult (F O) (F O))%Qc.
Definition ex_aar : bool :=
  match AAR Qc 0%Qc Qcplus Qcmult Qcminus Qcopp Q (fun a c => qltb c a) (fun v => Qabs.Qabs (this (hd 0%Qc v))) exr (fun v => v) ex_coeff
          (qc 1) (qc 1) 1 2 1 [qc 0] [qc 0] (1 # 100)%Q (101 # 100)%Q 10 with
  | Ok s => (ait _ _ s =? 2) && ex_same (ax _ _ s) [1 # 2]%Q
  | _ => false
  end.
Example C32_aar_ex : ex_aar = true.
Proof. vm_compute. reflexivity. Qed.
