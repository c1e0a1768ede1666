(** C58: numbering of the relaxation steps. *)
From Coq Require Import ZArith List Lia Bool.
From Verif Require Import CBase Relax.
Import ListNotations.
Local Open Scope Z_scope.

(** ** Specification *)
(** k steps, the first with number [first] *)
Fixpoint steps {A} (body : Z -> A -> outcome A) (k : nat) (first : Z) (a : A) : outcome A :=
  match k with O => Ok a | S j => do b <- steps body j first a ; body (first + Z.of_nat j) b end.
(** the numbers first, first+1, ..., (k of them) *)
Definition consecutive (k : nat) (first : Z) : list Z := map (fun i => first + Z.of_nat i) (seq 0 k).

Lemma consecutive_S k first : consecutive (S k) first = consecutive k first ++ [first + Z.of_nat k].
Proof. unfold consecutive. rewrite seq_S, map_app. reflexivity. Qed.
Lemma consecutive_app j k first : consecutive (j + k) first = consecutive j first ++ consecutive k (first + Z.of_nat j).
Proof.
  induction k as [|k IH]; [rewrite Nat.add_0_r; cbn; rewrite app_nil_r; reflexivity|].
  rewrite Nat.add_succ_r, !consecutive_S, IH, app_assoc. f_equal. f_equal. lia.
Qed.

Section Num.
  Context {A : Type}.
  Variables (body : Z -> A -> outcome A) (unconverged : A -> bool) (niter : Z) (printrestart : bool) (fq : Z).
  Notation loop' := (loop body unconverged printrestart fq).

  (** the loop runs consecutive steps; k counts them *)
  Lemma loop_ok evs imax : forall iter c a labels files r,
    loop' imax evs iter c a labels files = Ok r -> iter = RelaxCount c + restartCount c + fresh1 c ->
    exists k fs, steps body k iter a = Ok (r_state r) /\ r_labels r = labels ++ consecutive k iter /\ r_files r = files ++ fs /\
      r_count r = RelaxCount c + Z.of_nat k /\ (k <> O -> iter + Z.of_nat k <= imax) /\
      (forall l b, In (l, b) fs -> exists j, (j < k)%nat /\ l = iter + Z.of_nat j /\ steps body (S j) iter a = Ok b).
  Proof.
    induction evs as [|[intime stop] rest IH]; intros iter c a labels files r E Hi; cbn [loop] in E.
    - injection E as <-. exists O, []. cbn. rewrite !app_nil_r. split; [reflexivity|]. split; [reflexivity|]. split; [reflexivity|]. split; [lia|]. split; [congruence|]. intros l b [].
    - destruct ((iter <? imax) && unconverged a && intime) eqn:Hc.
      2: { injection E as <-. exists O, []. cbn. rewrite !app_nil_r. split; [reflexivity|]. split; [reflexivity|]. split; [reflexivity|]. split; [lia|]. split; [congruence|]. intros l b []. }
      destruct (body iter a) as [a'| |] eqn:EB; try discriminate. cbn [obind] in E.
      assert (L1 : iter < imax). { apply andb_true_iff in Hc. destruct Hc as [Hc _]. apply andb_true_iff in Hc. lia. }
      destruct (if printrestart then do r0 <- c_mod iter fq; Ok (r0 =? 0) else Ok false) as [due| |] eqn:ED; try discriminate. cbn [obind] in E.
      set (f1 := if due then [(file_label c, a')] else []).
      assert (EF : (if due then files ++ [(file_label c, a')] else files) = files ++ f1) by (unfold f1; destruct due; [reflexivity|rewrite app_nil_r; reflexivity]).
      rewrite EF in E.
      assert (S1 : forall l b, In (l, b) f1 -> l = iter /\ a' = b).
      { unfold f1. destruct due; [|intros l b []]. intros l b [H|[]]. injection H as <- <-. unfold file_label. auto. }
      destruct stop.
      + injection E as <-. exists 1%nat, f1. cbn [r_state r_labels r_files r_count steps obind]. rewrite Z.add_0_r. split; [exact EB|].
        split; [cbn; rewrite Z.add_0_r; reflexivity|]. split; [reflexivity|]. split; [lia|]. split; [lia|].
        intros l b Hin. exists O. destruct (S1 l b Hin) as [-> <-]. split; [lia|]. split; [lia|]. cbn. rewrite Z.add_0_r. exact EB.
      + destruct (IH (iter + 1) (bump c 1) a' (labels ++ [iter]) (files ++ f1) r E) as [k [fs [H1 [H2 [H3 [H4 [H5 H6]]]]]]].
        { cbn [bump RelaxCount restartCount]. unfold fresh1 in *. cbn [restarting bump]. lia. }
        assert (ST : forall j b, steps body j (iter + 1) a' = Ok b -> steps body (S j) iter a = Ok b).
        { induction j as [|j IHj]; intros b Hb.
          - cbn in Hb. injection Hb as <-. cbn. rewrite Z.add_0_r. exact EB.
          - cbn [steps] in Hb. destruct (steps body j (iter + 1) a') as [b0| |] eqn:Eb; try discriminate. cbn [obind] in Hb.
            change (steps body (S (S j)) iter a) with (do b <- steps body (S j) iter a ; body (iter + Z.of_nat (S j)) b).
            rewrite (IHj b0 eq_refl). cbn [obind]. rewrite <- Hb. f_equal. lia. }
        exists (S k), (f1 ++ fs). split; [apply ST; exact H1|]. split.
        { rewrite H2, <- app_assoc. f_equal. change (S k) with (1 + k)%nat. rewrite consecutive_app. cbn [consecutive seq map Z.of_nat]. rewrite Z.add_0_r. f_equal. }
        split; [rewrite H3, <- app_assoc; reflexivity|]. split; [rewrite H4; cbn [bump RelaxCount]; lia|]. split.
        { intros _. destruct k as [|k]; [lia|]. specialize (H5 ltac:(lia)). lia. }
        intros l b Hin. apply in_app_or in Hin. destruct Hin as [Hin|Hin].
        * exists O. destruct (S1 l b Hin) as [-> <-]. split; [lia|]. split; [lia|]. cbn. rewrite Z.add_0_r. exact EB.
        * destruct (H6 l b Hin) as [j [J1 [J2 J3]]]. exists (S j). split; [lia|]. split; [lia|]. apply ST. exact J3.
  Qed.
End Num.

(** ** C58 *)
(** A new run: steps 1, 2, ..., 1+k in the output, at most Relax_Niter of them
    (the first ground state is step 1); every restart file holds the state of
    the step it names, and the last one names the last step. *)
Theorem C58_new_run : forall A (body : Z -> A -> outcome A) unconverged niter (printrestart : bool) fq evs (a : A) r,
  call body unconverged niter printrestart fq evs new_run a = Ok r ->
  exists k, steps body k 2 a = Ok (r_state r) /\ r_labels r = consecutive (S k) 1 /\ (Z.of_nat (S k) <= Z.max 1 niter) /\
    (forall l b, In (l, b) (r_files r) -> exists j, (j <= k)%nat /\ l = 1 + Z.of_nat j /\ steps body j 2 a = Ok b) /\
    (printrestart = true -> exists l, last (r_files r) (0, a) = (l, r_state r) /\ l = 1 + Z.of_nat k).
Proof.
  intros A body unc niter pr fq evs a r E. unfold call, new_run in E. cbn [bump RelaxCount restartCount restarting fresh1] in E.
  change (0 + 1 + 0 + 1) with 2 in E. change (0 + 1) with 1 in E.
  destruct (loop body unc pr fq (niter + 0 + 1) evs 2 (bump (CN 0 0 false) 1) a [1] []) as [r0| |] eqn:EL; try discriminate. cbn [obind] in E.
  destruct (loop_ok body unc pr fq evs (niter + 0 + 1) 2 _ a [1] [] r0 EL eq_refl) as [k [fs [H1 [H2 [H3 [H4 [H5 H6]]]]]]].
  assert (H6' : forall l b, In (l, b) (r_files r0) -> exists j, (j <= k)%nat /\ l = 1 + Z.of_nat j /\ steps body j 2 a = Ok b).
  { intros l b Hin. rewrite H3 in Hin. destruct (H6 l b Hin) as [j [J1 [J2 J3]]]. exists (S j). split; [lia|]. split; [lia|exact J3]. }
  assert (H5' : Z.of_nat (S k) <= Z.max 1 niter). { destruct k as [|k]; [lia|]. specialize (H5 ltac:(lia)). lia. }
  assert (HL : r_labels r0 = consecutive (S k) 1). { rewrite H2. reflexivity || (change (S k) with (1 + k)%nat; rewrite consecutive_app; reflexivity). }
  destruct pr.
  - injection E as <-. exists k. cbn [r_state r_labels r_files]. split; [exact H1|]. split; [exact HL|]. split; [exact H5'|]. split.
    + intros l b Hin. apply in_app_or in Hin. destruct Hin as [Hin|[Hin|[]]]; [exact (H6' l b Hin)|]. injection Hin as <- <-. exists k. split; [lia|]. split; [|exact H1].
      rewrite H4. unfold fresh1, bump. cbn. lia.
    + intros _. eexists. split; [rewrite last_last; reflexivity|]. rewrite H4. unfold fresh1, bump. cbn. lia.
  - injection E as <-. exists k. split; [exact H1|]. split; [exact HL|]. split; [exact H5'|]. split; [exact H6'|]. discriminate.
Qed.
(** A run continued from the file of step l: steps l+1, l+2, ..., at most
    Relax_Niter of them; files and last file as above. *)
Theorem C58_restarted_run : forall A (body : Z -> A -> outcome A) unconverged niter (printrestart : bool) fq evs (a : A) l0 r,
  call body unconverged niter printrestart fq evs (restart_run l0) a = Ok r ->
  exists k, steps body k (l0 + 1) a = Ok (r_state r) /\ r_labels r = consecutive k (l0 + 1) /\ (Z.of_nat k <= Z.max 0 niter) /\
    (forall l b, In (l, b) (r_files r) -> exists j, (j <= k)%nat /\ l = l0 + Z.of_nat j /\ steps body j (l0 + 1) a = Ok b) /\
    (printrestart = true -> exists l, last (r_files r) (0, a) = (l, r_state r) /\ l = l0 + Z.of_nat k).
Proof.
  intros A body unc niter pr fq evs a l0 r E. unfold call, restart_run in E. cbn [bump RelaxCount restartCount restarting fresh1] in E.
  replace (0 + 1 + l0 + 0) with (l0 + 1) in E by lia. change (0 + 1) with 1 in E.
  destruct (loop body unc pr fq (niter + l0 + 1) evs (l0 + 1) (bump (CN 0 l0 true) 1) a [] []) as [r0| |] eqn:EL; try discriminate. cbn [obind] in E.
  destruct (loop_ok body unc pr fq evs (niter + l0 + 1) (l0 + 1) _ a [] [] r0 EL ltac:(unfold fresh1, bump; cbn [RelaxCount restartCount restarting]; lia)) as [k [fs [H1 [H2 [H3 [H4 [H5 H6]]]]]]].
  assert (H6' : forall l b, In (l, b) (r_files r0) -> exists j, (j <= k)%nat /\ l = l0 + Z.of_nat j /\ steps body j (l0 + 1) a = Ok b).
  { intros l b Hin. rewrite H3 in Hin. destruct (H6 l b Hin) as [j [J1 [J2 J3]]]. exists (S j). split; [lia|]. split; [lia|exact J3]. }
  assert (H5' : Z.of_nat k <= Z.max 0 niter). { destruct k as [|k]; [lia|]. specialize (H5 ltac:(lia)). lia. }
  destruct pr.
  - injection E as <-. exists k. cbn [r_state r_labels r_files]. split; [exact H1|]. split; [exact H2|]. split; [exact H5'|]. split.
    + intros l b Hin. apply in_app_or in Hin. destruct Hin as [Hin|[Hin|[]]]; [exact (H6' l b Hin)|]. injection Hin as <- <-. exists k. split; [lia|]. split; [|exact H1].
      rewrite H4. unfold fresh1, bump. cbn [RelaxCount restartCount restarting]. lia.
    + intros _. eexists. split; [rewrite last_last; reflexivity|]. rewrite H4. unfold fresh1, bump. cbn [RelaxCount restartCount restarting]. lia.
  - injection E as <-. exists k. split; [exact H1|]. split; [exact H2|]. split; [exact H5'|]. split; [exact H6'|]. discriminate.
Qed.
(** How a run ends: with forces below the tolerance, with the full number of
    steps, or because of the clock or the stop file. *)
Theorem C58_end : forall A (body : Z -> A -> outcome A) unconverged niter (printrestart : bool) fq evs (a : A) r,
  call body unconverged niter printrestart fq evs new_run a = Ok r -> unconverged (r_state r) = true ->
  (forall e, In e evs -> e = (true, false)) -> niter <= Z.of_nat (length evs) ->
  Z.of_nat (length (r_labels r)) = Z.max 1 niter.
Proof.
  intros A body unc niter pr fq evs a r E U HE HL. unfold call, new_run in E. cbn [bump RelaxCount restartCount restarting fresh1] in E.
  change (0 + 1 + 0 + 1) with 2 in E. change (0 + 1) with 1 in E.
  destruct (loop body unc pr fq (niter + 0 + 1) evs 2 (bump (CN 0 0 false) 1) a [1] []) as [r0| |] eqn:EL; try discriminate. cbn [obind] in E.
  assert (RL : r_labels r = r_labels r0 /\ r_state r = r_state r0) by (destruct pr; injection E as <-; auto). destruct RL as [RL RS']. rewrite RL. rewrite RS' in U. clear E RL RS' r.
  assert (G : forall evs iter c a labels files, loop body unc pr fq (niter + 0 + 1) evs iter c a labels files = Ok r0 ->
    (forall e, In e evs -> e = (true, false)) -> niter + 1 - iter <= Z.of_nat (length evs) -> Z.of_nat (length (r_labels r0)) = Z.of_nat (length labels) + Z.max 0 (niter + 1 - iter)).
  { clear EL HE HL evs a. induction evs as [|[tm st] rest IH]; intros iter c a labels files EL HE HL; cbn [loop] in EL.
    - injection EL as <-. cbn [r_labels r_state length] in *. lia.
    - pose proof (HE (tm, st) (or_introl eq_refl)) as Q. injection Q as -> ->.
      destruct (iter <? niter + 0 + 1) eqn:Hlt; cbn [andb] in EL.
      2: { injection EL as <-. cbn [r_labels]. lia. }
      destruct (unc a) eqn:Ua; cbn [andb] in EL.
      2: { injection EL as <-. cbn [r_state] in U. congruence. }
      destruct (body iter a) as [a'| |]; try discriminate. cbn [obind] in EL.
      destruct (if pr then do r1 <- c_mod iter fq; Ok (r1 =? 0) else Ok false) as [due| |]; try discriminate. cbn [obind] in EL.
      specialize (IH _ _ _ _ _ EL (fun e H => HE e (or_intror H))). rewrite app_length in IH. cbn [length] in IH, HL. lia. }
  specialize (G evs 2 _ a [1] [] EL HE ltac:(lia)). cbn [length] in G. lia.
Qed.
(** The step count of a full relaxation (RelaxFlag 3) runs on from volume to
    volume. *)
Theorem C58_full_relaxation : forall A (body : Z -> A -> outcome A) unconverged niter next runs (a : A) ls n,
  calls body unconverged niter next runs new_run a = Ok (ls, n) -> ls = consecutive (length ls) 1 /\ n = Z.of_nat (length ls).
Proof.
  intros A body unc niter next runs. assert (G : forall runs c (a : A) ls n, restartCount c = 0 -> restarting c = false ->
    calls body unc niter next runs c a = Ok (ls, n) -> ls = consecutive (length ls) (RelaxCount c + 1) /\ n = RelaxCount c + Z.of_nat (length ls)).
  { clear runs. induction runs as [|evs rest IH]; intros c a ls n C0 C1 E; cbn [calls] in E.
    - injection E as <- <-. split; [reflexivity|cbn; lia].
    - destruct (call body unc niter false 1 evs c a) as [r| |] eqn:EC; try discriminate. cbn [obind] in E.
      destruct (calls body unc niter next rest (CN (r_count r) (restartCount c) (restarting c)) (next (r_state r))) as [[ls2 n2]| |] eqn:E2; try discriminate. cbn [obind fst snd] in E. injection E as <- <-.
      destruct (IH (CN (r_count r) (restartCount c) (restarting c)) _ _ _ C0 C1 E2) as [P1 P2]. cbn [RelaxCount] in P1, P2.
      unfold call in EC. rewrite (C1 : restarting (bump c 1) = false) in EC.
      match type of EC with obind ?L _ = _ => destruct L as [r0| |] eqn:EL end; try discriminate. cbn [obind] in EC. injection EC as <-.
      destruct (loop_ok _ _ _ _ _ _ _ _ _ _ _ _ EL eq_refl) as [k [fs [H1 [H2 [H3 [H4 _]]]]]].
      assert (HL : r_labels r0 = consecutive (S k) (RelaxCount c + 1)).
      { rewrite H2. change (S k) with (1 + k)%nat. rewrite consecutive_app. cbn [consecutive seq map]. unfold fresh1. cbn [bump RelaxCount restartCount restarting]. rewrite C0, C1. cbn [Z.of_nat app].
        rewrite Z.add_0_r. reflexivity. }
      assert (LL : length (r_labels r0) = S k) by (rewrite HL; unfold consecutive; rewrite map_length, seq_length; reflexivity).
      rewrite app_length, LL. split.
      + rewrite consecutive_app, <- HL. f_equal. rewrite P1 at 1. f_equal. rewrite H4. cbn [bump RelaxCount]. lia.
      + rewrite P2, H4. cbn [bump RelaxCount]. lia. }
  intros a ls n E. destruct (G runs new_run a ls n eq_refl eq_refl E) as [P1 P2]. auto.
Qed.

(** ** Example: three steps, stopped by the file, then a restart *)
Definition ex_body : Z -> list Z -> outcome (list Z) := fun iter a => Ok (a ++ [iter]).
Example C58_ex : call ex_body (fun _ => true) 300 true 2 [(true, false); (true, false); (true, true)] new_run [1] = Ok (RS [1; 2; 3; 4] [1; 2; 3; 4] [(2, [1; 2]); (4, [1; 2; 3; 4]); (4, [1; 2; 3; 4])] 3).
Proof. reflexivity. Qed.
Example C58_ex_restart : call ex_body (fun _ => true) 2 true 1 [(true, false); (true, false); (true, false)] (restart_run 4) [1; 2; 3; 4] =
  Ok (RS [1; 2; 3; 4; 5; 6] [5; 6] [(5, [1; 2; 3; 4; 5]); (6, [1; 2; 3; 4; 5; 6]); (6, [1; 2; 3; 4; 5; 6])] 2).
Proof. reflexivity. Qed.
Example C58_ex_full : calls ex_body (fun _ => true) 3 (fun a => a) [[(true, false); (true, false); (true, false)]; [(true, false); (true, false); (true, false)]] new_run [] = Ok ([1; 2; 3; 4; 5; 6], 6).
Proof. reflexivity. Qed.

(** ** What fails *)
(** PRINT_RESTART_FQ: 0 is accepted (readfiles.c:621) and divides by zero. *)
Theorem C58_fq_refuted : exists (evs : list (bool * bool)), call ex_body (fun _ => true) 300 true 0 evs new_run [1] = UB.
Proof. exists [(true, false)]. reflexivity. Qed.
(** The clock is read by every process on its own (lines 170, 398, 813): two
    processes whose clocks differ take a different number of steps, and the
    ground state they call is a collective operation. *)
Theorem C58_agree_refuted : exists (evs0 evs1 : list (bool * bool)) r0 r1, map snd evs0 = map snd evs1 /\
  call ex_body (fun _ => true) 300 false 1 evs0 new_run [1] = Ok r0 /\ call ex_body (fun _ => true) 300 false 1 evs1 new_run [1] = Ok r1 /\ r_state r0 <> r_state r1.
Proof. exists [(true, false); (true, false)], [(true, false); (false, false)]. eexists _, _. split; [reflexivity|]. split; [reflexivity|]. split; [reflexivity|]. cbn. discriminate. Qed.
Print Assumptions C58_new_run.
Print Assumptions C58_restarted_run.
Print Assumptions C58_end.
Print Assumptions C58_full_relaxation.
Print Assumptions C58_fq_refuted.
Print Assumptions C58_agree_refuted.
