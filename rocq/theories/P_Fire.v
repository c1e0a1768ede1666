(** C59: relaxation with FIRE. *)
From Coq Require Import ZArith List Lia Bool Reals Lra.
From Verif Require Import CBase Halo Lbfgs LbfgsLem Relax P_Relax Fire.
Import ListNotations.
Local Open Scope R_scope.

(** ** Specification *)
(** a run as the list of its steps, newest first: was the step downhill? *)
Fixpoint streak (h : list bool) : nat := match h with true :: t => S (streak t) | _ => O end.
(** downhill steps needed before the time step may grow *)
Definition wait (h : list bool) : nat := if existsb negb h then 6 else 5.
Fixpoint sched_dt (dt0 : R) (h : list bool) : R :=
  match h with
  | [] => dt0
  | false :: t => sched_dt dt0 t / 2
  | true :: t => if (wait h <=? streak h)%nat then Rmin (11 / 10 * sched_dt dt0 t) (10 * dt0) else sched_dt dt0 t
  end.
Fixpoint sched_alpha (h : list bool) : R :=
  match h with
  | [] => 1 / 10
  | false :: _ => 1 / 10
  | true :: t => if (wait h <=? streak h)%nat then 99 / 100 * sched_alpha t else sched_alpha t
  end.
Definition vlen (n : nat) (v : vecR) : R := sqrt (rdot n v v).

Section Spec.
  Variables (n : nat) (mass maxmov dt0 : R) (force wrap : vecR -> vecR).
  Notation body := (fbody n mass maxmov dt0 force wrap).
  (** velocity Verlet: the velocity after the move from s, given the new forces *)
  Definition verlet (s : fire) (F' : vecR) : vecR := fun i => vel s i + dtNow s / 2 * (frc s i / mass + F' i / mass).
  Definition power (s : fire) (F' : vecR) : R := rdot n F' (verlet s F').
  (** runs: hist h s, s is the state after the steps h of a new run *)
  Inductive hist : list bool -> fire -> Prop :=
  | hist_start x s : start mass dt0 force x = Ok s -> hist [] s
  | hist_step h s s' b : hist h s -> body (2 + Z.of_nat (length h)) s = Ok s' -> (b = true <-> 0 <= power s (frc s')) -> hist (b :: h) s'.

  Lemma vdiv_ok v x w : vdiv v x = Ok w -> x <> 0 /\ w = fun i => v i / x.
  Proof. unfold vdiv, rdiv. destruct (Req_EM_T x 0) as [E|E]; cbn; [discriminate|]. intros H. injection H as <-. auto. Qed.
  Lemma vdiv_def v x : x <> 0 -> vdiv v x = Ok (fun i => v i / x).
  Proof. intros H. unfold vdiv, rdiv. destruct (Req_EM_T x 0) as [E|E]; [contradiction|reflexivity]. Qed.
  Lemma rlt_t x y : rlt x y = true <-> x < y.
  Proof. unfold rlt. destruct (Rlt_dec x y); split; intros; auto; try discriminate; contradiction. Qed.
  Lemma rlt_f x y : rlt x y = false <-> y <= x.
  Proof. unfold rlt. destruct (Rlt_dec x y); split; intros; auto; try discriminate; lra. Qed.

  (** states of a run: acc belongs to the forces *)
  Definition good (s : fire) : Prop := frc s = force (pos s) /\ acc s = (fun i => frc s i / mass).
  (** what a step does *)
  Lemma body_spec iter s s' : good s -> body iter s = Ok s' ->
    let v := verlet s (frc s') in
    mass <> 0 /\ vlen n (frc s') <> 0 /\ good s' /\ pos s' = wrap (fun i => pos s i + moveby maxmov s i) /\
    (0 <= power s (frc s') ->
       dtNow s' = (if (5 <? iter - resetIter s)%Z then rmin (dtNow s * fInc) (dtMax dt0) else dtNow s) /\
       alpha s' = (if (5 <? iter - resetIter s)%Z then alpha s * fAlpha else alpha s) /\ resetIter s' = resetIter s /\
       (forall i, (i < n)%nat -> vel s' i = (1 - alpha s') * v i + alpha s' * vlen n v * (frc s' i / vlen n (frc s')))) /\
    (power s (frc s') < 0 -> dtNow s' = dtNow s / 2 /\ alpha s' = 1 / 10 /\ resetIter s' = iter /\ (forall i, vel s' i = 0)).
  Proof.
    intros [G1 G2] E. unfold fbody in E. set (x := wrap _) in E.
    destruct (vdiv (force x) mass) as [a| |] eqn:EA; try discriminate. cbn [obind] in E. apply vdiv_ok in EA. destruct EA as [M0 ->].
    set (v0 := fun i => half s i + 1 / 2 * (force x i / mass) * dtNow s) in E.
    assert (EV : forall i, v0 i = verlet s (force x) i). { intros i. unfold v0, verlet, half. rewrite G2. field. exact M0. }
    assert (EP : vdot n (force x) v0 = power s (force x)). { unfold vdot, power. apply rdot_ext; intros; [reflexivity|apply EV]. }
    assert (EN : vnrm n v0 = vlen n (verlet s (force x))). { unfold vnrm, vlen. f_equal. apply rdot_ext; intros; apply EV. }
    rewrite EP in E. destruct (rlt (power s (force x)) 0) eqn:HP.
    - apply rlt_t in HP. destruct (vdiv (force x) (vnrm n (force x))) as [u| |] eqn:EU; try discriminate. cbn [obind] in E. apply vdiv_ok in EU. destruct EU as [U0 ->].
      injection E as <-. cbn [frc pos vel dtNow alpha resetIter]. split; [exact M0|]. split; [exact U0|]. split; [split; reflexivity|]. split; [reflexivity|]. split; [intros; lra|]. intros _.
      split; [unfold fDec; lra|]. split; [reflexivity|]. split; [reflexivity|]. intros i.
      replace (vnrm n (fun _ : nat => 0)) with 0; [unfold alphaStart; lra|]. unfold vnrm. replace (rdot n (fun _ => 0) (fun _ => 0)) with 0; [symmetry; apply sqrt_0|].
      symmetry. apply rsum_zero. intros. lra.
    - apply rlt_f in HP. unfold nMIN in E. destruct (5 <? iter - resetIter s)%Z;
      (destruct (vdiv (force x) (vnrm n (force x))) as [u| |] eqn:EU; try discriminate; cbn [obind] in E; apply vdiv_ok in EU; destruct EU as [U0 ->];
       injection E as <-; cbn [frc pos vel dtNow alpha resetIter]; split; [exact M0|]; split; [exact U0|]; split; [split; reflexivity|]; split; [reflexivity|]; split; [|intros; lra];
       intros _; split; [reflexivity|]; split; [reflexivity|]; split; [reflexivity|]; intros i Hi; rewrite EV, EN; reflexivity).
  Qed.
  Lemma start_spec x s : start mass dt0 force x = Ok s -> good s /\ dtNow s = dt0 /\ alpha s = 1 / 10 /\ resetIter s = 0%Z /\ (forall i, vel s i = 0) /\ pos s = x.
  Proof.
    unfold start. destruct (vdiv (force x) mass) as [a| |] eqn:EA; try discriminate. cbn [obind]. apply vdiv_ok in EA. destruct EA as [M0 ->].
    intros E. injection E as <-. repeat split.
  Qed.
  Lemma hist_good h s : hist h s -> good s.
  Proof.
    induction 1 as [x s E|h s s' b Hh IH E Hb]; [exact (proj1 (start_spec x s E))|]. exact (proj1 (proj2 (proj2 (body_spec _ _ _ IH E)))).
  Qed.
End Spec.

(** ** C59 *)
Lemma streak_le h : (streak h <= length h)%nat.
Proof. induction h as [|[] t IH]; cbn; lia. Qed.
Lemma streak_all h : existsb negb h = false -> streak h = length h.
Proof. induction h as [|[] t IH]; cbn; intros H; [reflexivity|rewrite IH by exact H; reflexivity|discriminate]. Qed.
Lemma streak_lt h : existsb negb h = true -> (streak h < length h)%nat.
Proof. induction h as [|[] t IH]; cbn; intros H; [discriminate|specialize (IH H); lia|lia]. Qed.
(** Time step and mixing follow the published schedule: five downhill steps at
    the start (six after an uphill one) before the time step grows by 1.1 up to
    ten times the given one; halved after an uphill step. *)
Theorem C59_schedule : forall n mass maxmov dt0 force wrap h s, hist n mass maxmov dt0 force wrap h s ->
  dtNow s = sched_dt dt0 h /\ alpha s = sched_alpha h.
Proof.
  intros n mass maxmov dt0 force wrap h s H.
  assert (G : dtNow s = sched_dt dt0 h /\ alpha s = sched_alpha h /\
    resetIter s = (if existsb negb h then 2 + Z.of_nat (length h - streak h - 1) else 0)%Z); [|tauto].
  induction H as [x s E|h s s' b Hh IH E Hb].
  - destruct (start_spec mass dt0 force x s E) as [_ [H1 [H2 [H3 _]]]]. cbn. auto.
  - destruct IH as [I1 [I2 I3]]. destruct (body_spec n mass maxmov dt0 force wrap _ _ _ (hist_good _ _ _ _ _ _ _ _ Hh) E) as [_ [_ [_ [_ [P1 P2]]]]].
    destruct b.
    + specialize (P1 (proj1 Hb eq_refl)). destruct P1 as [Q1 [Q2 [Q3 _]]].
      assert (W : (5 <? 2 + Z.of_nat (length h) - resetIter s)%Z = (wait (true :: h) <=? streak (true :: h))%nat).
      { rewrite I3. unfold wait. cbn [existsb negb orb streak]. destruct (existsb negb h) eqn:Ex.
        - pose proof (streak_lt h Ex). lia.
        - rewrite (streak_all h Ex). lia. }
      rewrite W in Q1, Q2. split; [|split].
      * cbn [sched_dt]. rewrite Q1, I1. destruct (wait (true :: h) <=? streak (true :: h))%nat; [|reflexivity].
        unfold rmin, fInc, dtMax, Rmin. unfold rlt. rewrite (Rmult_comm (sched_dt dt0 h) (11 / 10)). destruct (Rlt_dec (11 / 10 * sched_dt dt0 h) (10 * dt0)), (Rle_dec (11 / 10 * sched_dt dt0 h) (10 * dt0)); lra.
      * cbn [sched_alpha]. rewrite Q2, I2. destruct (wait (true :: h) <=? streak (true :: h))%nat; [unfold fAlpha; lra|reflexivity].
      * rewrite Q3, I3. cbn [existsb negb orb length streak]. destruct (existsb negb h); [|reflexivity]. reflexivity.
    + assert (PN : power n mass s (frc s') < 0).
      { destruct (Rlt_le_dec (power n mass s (frc s')) 0) as [L|L]; [exact L|]. apply Hb in L. discriminate. }
      destruct (P2 PN) as [Q1 [Q2 [Q3 _]]]. split; [|split].
      * cbn [sched_dt]. rewrite Q1, I1. reflexivity.
      * cbn [sched_alpha]. exact Q2.
      * rewrite Q3. cbn [existsb negb orb length streak]. lia.
Qed.
(** The time step stays between zero and ten times the given one, the mixing
    between zero and a tenth; the velocity never points against the force. *)
Lemma cauchy n u v : rdot n u v * rdot n u v <= rdot n u u * rdot n v v.
Proof.
  destruct (Rle_lt_or_eq_dec 0 (rdot n v v) (rdot_nonneg n v)) as [L|L].
  - pose proof (rdot_nonneg n (fun i => rdot n v v * u i - rdot n u v * v i)) as H. rewrite rdot_sub in H.
    rewrite (rdot_scale n (rdot n v v) _ u), (rdot_scale n (rdot n u v) _ v), !(rdot_comm n (fun i => _ - _)), !rdot_sub, !rdot_scale in H.
    rewrite (rdot_comm n v u) in H. nra.
  - assert (Z : rdot n u v = 0). { apply rsum_zero. intros i Hi. rewrite (rdot_zero n v (eq_sym L) i Hi). lra. } rewrite Z, <- L. lra.
Qed.
Lemma dot_le n u v : rdot n u v <= vlen n u * vlen n v.
Proof.
  unfold vlen. rewrite <- sqrt_mult by apply rdot_nonneg. destruct (Rle_lt_dec (rdot n u v) 0) as [L|L].
  - pose proof (sqrt_pos (rdot n u u * rdot n v v)). lra.
  - rewrite <- (sqrt_square (rdot n u v)) by lra. apply sqrt_le_1_alt. apply cauchy.
Qed.
Lemma vlen_sq n v : vlen n v * vlen n v = rdot n v v.
Proof. apply sqrt_sqrt. apply rdot_nonneg. Qed.
Lemma vlen_nonneg n v : 0 <= vlen n v.
Proof. apply sqrt_pos. Qed.
Definition mixed (n : nat) (al : R) (v F : vecR) : vecR := fun i => (1 - al) * v i + al * vlen n v * (F i / vlen n F).
Lemma mixed_dot n al v F w : rdot n w (mixed n al v F) = (1 - al) * rdot n w v + al * vlen n v / vlen n F * rdot n w F.
Proof.
  unfold mixed. rewrite rdot_add. rewrite (rdot_scale n (1 - al) w v). f_equal. rewrite <- rdot_scale. apply rdot_ext; intros; [reflexivity|]. unfold Rdiv. ring.
Qed.
Lemma mixed_len n al v F : vlen n F <> 0 -> 0 <= al <= 1 -> vlen n (mixed n al v F) <= vlen n v.
Proof.
  intros HF Ha. set (L := vlen n v). assert (HL : 0 <= L) by apply vlen_nonneg. assert (PF : 0 < vlen n F) by (pose proof (vlen_nonneg n F); lra).
  assert (D : rdot n v F <= L * vlen n F) by apply dot_le.
  assert (B : rdot n (mixed n al v F) (mixed n al v F) <= L * L).
  { rewrite mixed_dot. rewrite (rdot_comm n (mixed n al v F) v), (rdot_comm n (mixed n al v F) F), !mixed_dot. rewrite (rdot_comm n F v).
    rewrite <- !vlen_sq. fold L. set (f := vlen n F) in *. set (c := rdot n v F) in *.
    replace ((1 - al) * ((1 - al) * (L * L) + al * L / f * c) + al * L / f * ((1 - al) * c + al * L / f * (f * f)))
      with ((1 - al) * (1 - al) * (L * L) + al * al * (L * L) + 2 * (al * (1 - al)) * (L * (c / f))) by (field; lra).
    assert (c / f <= L). { apply (Rmult_le_reg_r f); [exact PF|]. unfold Rdiv. rewrite Rmult_assoc, Rinv_l by lra. lra. }
    assert (L * (c / f) <= L * L) by nra. assert (0 <= al * (1 - al)) by nra. nra. }
  unfold vlen at 1. rewrite <- (sqrt_square L HL). apply sqrt_le_1_alt. exact B.
Qed.
Lemma mixed_down n al v F : vlen n F <> 0 -> 0 <= al <= 1 -> 0 <= rdot n F v -> (1 - al) * rdot n F v + al * vlen n v * vlen n F = rdot n F (mixed n al v F) /\ 0 <= rdot n F (mixed n al v F).
Proof.
  intros HF Ha HP. rewrite mixed_dot. assert (PF : 0 < vlen n F) by (pose proof (vlen_nonneg n F); lra).
  assert (E : al * vlen n v / vlen n F * rdot n F F = al * vlen n v * vlen n F) by (rewrite <- vlen_sq; field; lra).
  rewrite E. split; [reflexivity|]. pose proof (vlen_nonneg n v). assert (0 <= vlen n v * vlen n F) by nra. nra.
Qed.
Lemma sched_limits dt0 h : 0 < dt0 -> 0 < sched_dt dt0 h <= 10 * dt0 /\ 0 < sched_alpha h <= 1 / 10.
Proof.
  intros H. induction h as [|b t [I1 I2]]; [cbn; lra|]. destruct b; cbn [sched_dt sched_alpha]; [|lra].
  destruct (wait (true :: t) <=? streak (true :: t))%nat; [|lra]. unfold Rmin. destruct (Rle_dec (11 / 10 * sched_dt dt0 t) (10 * dt0)); lra.
Qed.
Theorem C59_limits : forall n mass maxmov dt0 force wrap h s, hist n mass maxmov dt0 force wrap h s -> 0 < dt0 ->
  0 < dtNow s <= 10 * dt0 /\ 0 < alpha s <= 1 / 10 /\ 0 <= rdot n (frc s) (vel s).
Proof.
  intros n mass maxmov dt0 force wrap h s H D. destruct (C59_schedule _ _ _ _ _ _ _ _ H) as [-> ->]. destruct (sched_limits dt0 h D) as [L1 L2].
  split; [exact L1|]. split; [exact L2|]. destruct H as [x s E|h s s' b Hh E Hb].
  - destruct (start_spec mass dt0 force x s E) as [_ [_ [_ [_ [HV _]]]]]. right. symmetry. apply rsum_zero. intros i _. rewrite HV. lra.
  - pose proof (C59_schedule _ _ _ _ _ _ _ _ (hist_step _ _ _ _ _ _ _ _ _ _ Hh E Hb)) as [_ EA].
    destruct (body_spec n mass maxmov dt0 force wrap _ _ _ (hist_good _ _ _ _ _ _ _ _ Hh) E) as [_ [F0 [_ [_ [P1 P2]]]]].
    destruct (Rlt_le_dec (power n mass s (frc s')) 0) as [L|L].
    + destruct (P2 L) as [_ [_ [_ HV]]]. right. symmetry. apply rsum_zero. intros i _. rewrite HV. lra.
    + destruct (P1 L) as [_ [_ [_ HV]]]. rewrite (rdot_ext n (frc s') (frc s') (vel s') (mixed n (alpha s') (verlet mass s (frc s')) (frc s')) (fun _ _ => eq_refl) HV).
      apply (mixed_down n (alpha s') _ (frc s') F0); [rewrite EA; lra|exact L].
Qed.
(** One step: velocity Verlet with every displacement cut at FIRE_maxmov; then
    the velocity is dropped if the power is negative, otherwise turned towards
    the force without growing. *)
Theorem C59_step : forall n mass maxmov dt0 force wrap h s s', 0 <= maxmov -> 0 < dt0 -> hist n mass maxmov dt0 force wrap h s ->
  fbody n mass maxmov dt0 force wrap (2 + Z.of_nat (length h)) s = Ok s' ->
  let v := verlet mass s (frc s') in
  frc s' = force (pos s') /\
  (exists u, pos s' = wrap (fun i => pos s i + u i) /\ (forall i, Rabs (u i) <= maxmov) /\
     forall i, u i = Rmax (- maxmov) (Rmin maxmov (dtNow s * vel s i + dtNow s * dtNow s / 2 * (frc s i / mass)))) /\
  (power n mass s (frc s') < 0 -> forall i, vel s' i = 0) /\
  (0 <= power n mass s (frc s') -> (forall i, (i < n)%nat -> vel s' i = mixed n (alpha s') v (frc s') i) /\
     vlen n (vel s') <= vlen n v /\ rdot n (frc s') (vel s') = (1 - alpha s') * power n mass s (frc s') + alpha s' * vlen n v * vlen n (frc s')).
Proof.
  intros n mass maxmov dt0 force wrap h s s' Hm D Hh E v.
  pose proof (hist_good _ _ _ _ _ _ _ _ Hh) as [G1 G2].
  destruct (body_spec n mass maxmov dt0 force wrap _ _ _ (conj G1 G2) E) as [M0 [F0 [[G3 _] [EP [P1 P2]]]]].
  split; [exact G3|]. split; [|split].
  - exists (moveby maxmov s). split; [exact EP|].
    assert (C : forall i, moveby maxmov s i = Rmax (- maxmov) (Rmin maxmov (dtNow s * vel s i + dtNow s * dtNow s / 2 * (frc s i / mass)))).
    { intros i. unfold moveby, half. rewrite G2. replace ((vel s i + 1 / 2 * dtNow s * (frc s i / mass)) * dtNow s) with (dtNow s * vel s i + dtNow s * dtNow s / 2 * (frc s i / mass)) by (field; exact M0).
      set (y := dtNow s * vel s i + _). unfold clamp, rlt, Rmax, Rmin. destruct (Rlt_dec maxmov y), (Rle_dec maxmov y); try lra;
      repeat match goal with |- context [Rle_dec ?a ?b] => destruct (Rle_dec a b) | |- context [Rlt_dec ?a ?b] => destruct (Rlt_dec a b) end; lra. }
    split; [|exact C]. intros i. rewrite C. unfold Rmax, Rmin. repeat match goal with |- context [Rle_dec ?a ?b] => destruct (Rle_dec a b) end; apply Rabs_le; lra.
  - intros L. exact (proj2 (proj2 (proj2 (P2 L)))).
  - intros L. destruct (P1 L) as [_ [_ [_ HV]]]. split; [exact HV|].
    assert (AL : 0 <= alpha s' <= 1).
    { assert (H' : hist n mass maxmov dt0 force wrap (true :: h) s') by (apply (hist_step n mass maxmov dt0 force wrap h s s' true Hh E); tauto).
      rewrite (proj2 (C59_schedule _ _ _ _ _ _ _ _ H')). destruct (sched_limits dt0 (true :: h) D). lra. }
    split.
    + replace (vlen n (vel s')) with (vlen n (mixed n (alpha s') v (frc s'))); [apply mixed_len; assumption|].
      unfold vlen. f_equal. apply rdot_ext; intros; symmetry; apply HV; assumption.
    + rewrite (rdot_ext n (frc s') (frc s') (vel s') (mixed n (alpha s') v (frc s')) (fun _ _ => eq_refl) HV).
      symmetry. exact (proj1 (mixed_down n (alpha s') v (frc s') F0 AL L)).
Qed.
(** A step is defined unless all new forces vanish (or the mass is zero). *)
Theorem C59_defined : forall n mass maxmov dt0 force wrap iter s, mass <> 0 ->
  match fbody n mass maxmov dt0 force wrap iter s with
  | Ok s' => 0 < rdot n (frc s') (frc s')
  | Exit => exists u, (forall i, Rabs (u i) <= Rabs maxmov) /\ forall i, (i < n)%nat -> force (wrap (fun i => pos s i + u i)) i = 0
  | UB => False
  end.
Proof.
  intros n mass maxmov dt0 force wrap iter s M0. unfold fbody. set (x := wrap _). rewrite (vdiv_def (force x) mass M0). cbn [obind].
  set (v := fun i => half s i + 1 / 2 * (force x i / mass) * dtNow s).
  set (q := if rlt (vdot n (force x) v) 0 then _ else _). destruct q as [[[v1 d1] a1] r1].
  unfold vdiv, rdiv. destruct (Req_EM_T (vnrm n (force x)) 0) as [Z|Z]; cbn [obind].
  - exists (moveby maxmov s). split.
    + intros i. unfold moveby, clamp, rlt. destruct (Rlt_dec maxmov (half s i * dtNow s)); [lra|]. destruct (Rlt_dec (half s i * dtNow s) (- maxmov)); [rewrite Rabs_Ropp; lra|].
      unfold Rabs. repeat destruct (Rcase_abs _); lra.
    + fold x. apply rdot_zero. unfold vnrm in Z. apply sqrt_eq_0 in Z; [exact Z|apply rdot_nonneg].
  - cbn [frc]. destruct (Rle_lt_or_eq_dec 0 _ (rdot_nonneg n (force x))) as [L|L]; [exact L|]. exfalso. apply Z. unfold vnrm. rewrite <- L. apply sqrt_0.
Qed.
(** Restart: what the file holds is the whole state, so a continued run takes
    the same steps as an uninterrupted one. *)
Theorem C59_restart : forall n mass maxmov dt0 force wrap h s, hist n mass maxmov dt0 force wrap h s -> restart mass force (print s) = Ok s.
Proof.
  intros n mass maxmov dt0 force wrap h s H. assert (M0 : mass <> 0).
  { destruct H as [x s E|h s s' b Hh E Hb].
    - unfold start in E. destruct (vdiv (force x) mass) as [a| |] eqn:EA; try discriminate. exact (proj1 (vdiv_ok _ _ _ EA)).
    - exact (proj1 (body_spec n mass maxmov dt0 force wrap _ _ _ (hist_good _ _ _ _ _ _ _ _ Hh) E)). }
  destruct (hist_good _ _ _ _ _ _ _ _ H) as [G1 G2]. unfold restart, print. cbn [f_pos f_fire]. rewrite (vdiv_def _ _ M0). cbn [obind].
  destruct s as [p f a v d al r]. cbn [pos frc acc vel dtNow alpha resetIter] in *. subst f a. reflexivity.
Qed.
Lemma steps_app {A} (body : Z -> A -> outcome A) j first a b : steps body j first a = Ok b -> forall k, steps body k (first + Z.of_nat j) b = steps body (j + k) first a.
Proof.
  intros E k. induction k as [|k IH]; [rewrite Nat.add_0_r; cbn; auto|]. rewrite Nat.add_succ_r. cbn [steps]. rewrite IH. f_equal. apply FunctionalExtensionality.functional_extensionality. intros c. f_equal. lia.
Qed.
Theorem C59_continued : forall n mass maxmov dt0 force wrap unconverged niter fq evs x a r l b,
  start mass dt0 force x = Ok a ->
  call (fbody n mass maxmov dt0 force wrap) unconverged niter true fq evs new_run a = Ok r -> In (l, b) (r_files r) ->
  restart mass force (print b) = Ok b /\
  exists j, l = (1 + Z.of_nat j)%Z /\ forall k, steps (fbody n mass maxmov dt0 force wrap) k (l + 1) b = steps (fbody n mass maxmov dt0 force wrap) (j + k) 2 a.
Proof.
  intros n mass maxmov dt0 force wrap unc niter fq evs x a r l b ES EC Hin.
  destruct (C58_new_run _ _ _ _ _ _ _ _ _ EC) as [k [_ [_ [_ [HF _]]]]]. destruct (HF l b Hin) as [j [_ [-> J]]]. split.
  - assert (exists h, length h = j /\ hist n mass maxmov dt0 force wrap h b) as [h [_ Hh]].
    { clear HF Hin. revert b J. induction j as [|j IH]; intros b J; cbn [steps] in J.
      - injection J as <-. exists []. split; [reflexivity|]. apply (hist_start n mass maxmov dt0 force wrap x a ES).
      - destruct (steps (fbody n mass maxmov dt0 force wrap) j 2 a) as [c| |]; try discriminate. cbn [obind] in J. destruct (IH c eq_refl) as [h [L Hh]].
        exists ((if Rle_dec 0 (power n mass c (frc b)) then true else false) :: h). split; [cbn; lia|]. apply (hist_step n mass maxmov dt0 force wrap h c b); [exact Hh|rewrite L; exact J|].
        destruct (Rle_dec 0 (power n mass c (frc b))); split; intros; auto; try discriminate; contradiction. }
    exact (C59_restart _ _ _ _ _ _ _ _ Hh).
  - exists j. split; [reflexivity|]. intros k0. rewrite <- (steps_app _ j 2 a b J k0). f_equal. lia.
Qed.

(** The loop stops when no force component exceeds the tolerance. *)
Theorem C59_error : forall n s tol, 0 <= tol -> (rlt tol (ferr n s) = false <-> forall i, (i < n)%nat -> Rabs (frc s i) <= tol).
Proof.
  intros n s tol Ht. rewrite rlt_f. unfold ferr. induction n as [|n IH].
  - cbn. split; intros; [lia|lra].
  - rewrite seq_S, rev_app_distr. cbn [rev app fold_right Nat.add]. set (e := fold_right _ 0 (rev (seq 0 n))) in *. unfold rlt. destruct (Rlt_dec e (Rabs (frc s n))) as [L|L].
    + split; [|intros H; apply H; lia]. intros H i Hi. destruct (Nat.eq_dec i n) as [-> | N]; [exact H|]. apply IH; [lra|lia].
    + split.
      * intros H i Hi. destruct (Nat.eq_dec i n) as [-> | N]; [lra|]. apply IH; [exact H|lia].
      * intros H. apply IH. intros i Hi. apply H. lia.
Qed.

(** ** Examples *)
(** one coordinate in a uniform field: the first step *)
Lemma one_len (v : vecR) : v O = 1 -> vnrm 1 v = 1.
Proof. intros E. unfold vnrm, rdot. cbn [rsum]. rewrite E. replace (0 + 1 * 1) with 1 by lra. apply sqrt_1. Qed.
Lemma ex_step iter : exists s s', start 1 1 (fun _ _ => 1) (fun _ => 0) = Ok s /\ fbody 1 1 2 1 (fun _ _ => 1) (fun x => x) iter s = Ok s' /\
  pos s' O = 1 / 2 /\ vel s' O = 1 /\ 0 <= power 1 1 s (frc s') /\ dtNow s' = (if (5 <? iter)%Z then 11 / 10 else 1).
Proof.
  assert (ES : start 1 1 (fun _ _ => 1) (fun _ : nat => 0) = Ok (FI (fun _ => 0) (fun _ => 1) (fun _ => 1 / 1) (fun _ => 0) 1 alphaStart 0)).
  { unfold start. rewrite vdiv_def by lra. reflexivity. }
  rewrite ES. set (s := FI _ _ _ _ _ _ _). exists s. assert (HM : moveby 2 s O = 1 / 2).
  { unfold moveby, half, clamp. cbn [vel dtNow acc s]. replace (rlt 2 _) with false by (symmetry; apply rlt_f; lra). replace (rlt _ (- (2))) with false by (symmetry; apply rlt_f; lra). lra. }
  unfold fbody. rewrite vdiv_def by lra. cbn [obind]. set (v := fun i : nat => half s i + 1 / 2 * (1 / 1) * dtNow s).
  assert (V0 : v O = 1) by (unfold v, half; cbn [vel dtNow acc s]; lra).
  assert (PW : vdot 1 (fun _ => 1) v = 1) by (unfold vdot, rdot; cbn [rsum]; rewrite V0; lra).
  rewrite PW. replace (rlt 1 0) with false by (symmetry; apply rlt_f; lra).
  assert (PP : 0 <= power 1 1 s (fun _ => 1)).
  { unfold power, verlet, rdot. cbn [rsum s vel dtNow frc]. lra. }
  replace (iter - resetIter s)%Z with iter by (cbn; lia). unfold nMIN. destruct (5 <? iter)%Z.
  - rewrite (one_len v V0), (one_len (fun _ => 1) eq_refl), vdiv_def by lra. cbn [obind]. eexists. split; [reflexivity|]. split; [reflexivity|]. cbn [pos vel frc dtNow]. split; [rewrite HM; cbn; lra|].
    split; [rewrite V0; lra|]. split; [exact PP|]. cbn [dtNow s]. unfold rmin, fInc, dtMax. replace (rlt _ _) with true by (symmetry; apply rlt_t; lra). lra.
  - rewrite (one_len v V0), (one_len (fun _ => 1) eq_refl), vdiv_def by lra. cbn [obind]. eexists. split; [reflexivity|]. split; [reflexivity|]. cbn [pos vel frc dtNow]. split; [rewrite HM; cbn; lra|].
    split; [rewrite V0; lra|]. split; [exact PP|]. reflexivity.
Qed.
Example C59_ex : exists s, hist 1 1 2 1 (fun _ _ => 1) (fun x => x) [true] s /\ pos s O = 1 / 2 /\ vel s O = 1.
Proof.
  destruct (ex_step 2) as [s [s' [E1 [E2 [E3 [E4 [E5 _]]]]]]]. exists s'. split; [|auto]. apply (hist_step 1 1 2 1 _ _ [] s s'); [apply (hist_start 1 1 2 1 _ _ (fun _ => 0)); exact E1|exact E2|tauto].
Qed.
Example C59_ex_sched : sched_dt 1 [true; true; true; true; true; true; true; false; true] = 1 / 2 * (11 / 10) * (11 / 10).
Proof. cbn. unfold Rmin. repeat destruct (Rle_dec _ _); lra. Qed.

(** ** What fails *)
(** In a full relaxation (RelaxFlag 3) the unit conversion of FIRE_dt is
    repeated at every volume. *)
Theorem C59_units_refuted : exists fs2atu dt a b c, 41 < fs2atu /\ full_dts 3 fs2atu dt = [a; b; c] /\ a = dt * fs2atu /\ 41 * a < b /\ 41 * b < c.
Proof.
  exists (413413733364930 / 10000000000000), 1. eexists _, _, _. split; [lra|]. split; [reflexivity|]. split; [lra|]. split; lra.
Qed.
(** ... and the time step grows after the first downhill step, since the step
    number runs on while FIRE_resetIter starts at zero. *)
Theorem C59_wait_refuted : exists n mass maxmov dt0 force wrap iter x s s', start mass dt0 force x = Ok s /\ (2 < iter)%Z /\
  fbody n mass maxmov dt0 force wrap iter s = Ok s' /\ dtNow s = dt0 /\ dtNow s' <> dt0 /\ 0 <= power n mass s (frc s').
Proof.
  destruct (ex_step 12) as [s [s' [E1 [E2 [_ [_ [E5 E6]]]]]]]. exists 1%nat, 1, 2, 1, (fun _ _ => 1), (fun x => x), 12%Z, (fun _ => 0), s, s'.
  split; [exact E1|]. split; [lia|]. split; [exact E2|]. split; [exact (proj1 (proj2 (start_spec 1 1 _ _ _ E1)))|]. split; [rewrite E6; cbn; lra|exact E5].
Qed.
(** A restart file written by another method has no velocities; they are then
    read from memory that was never written. *)
Theorem C59_other_method_refuted : exists mass force f, mass <> 0 /\ restart mass force f = UB.
Proof. exists 1, (fun _ _ => 1), (RF (fun _ => 0) None). split; [lra|]. unfold restart. cbn [f_pos f_fire]. rewrite vdiv_def by lra. reflexivity. Qed.
Print Assumptions C59_schedule.
Print Assumptions C59_limits.
Print Assumptions C59_step.
Print Assumptions C59_defined.
Print Assumptions C59_restart.
Print Assumptions C59_continued.
Print Assumptions C59_error.
Print Assumptions C59_units_refuted.
Print Assumptions C59_wait_refuted.
Print Assumptions C59_other_method_refuted.
