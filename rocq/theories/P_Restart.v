(** C38, C39, C40: MD step numbering, restart files, restart broadcast. *)
From Coq Require Import ZArith List Lia Bool.
From Verif Require Import CBase Restart.
Import ListNotations.
Local Open Scope Z_scope.

(** ** C39 *)
(** One run.  A fresh run (RestartFlag 0) counts the initial configuration
    as step 1 and executes 2, 3, ... ; a restarted run executes
    restartCount + 1, restartCount + 2, ... ; in both cases the executed
    numbers are consecutive up to [last], the final snapshot carries [last],
    a periodic snapshot is written exactly at the executed multiples of the
    frequency and carries the number of the step just executed; and without
    interruption [last] is max 1 N respectively restartCount + N. *)
Theorem C39_one_run : forall f go stop,
  print_rst f = true -> rst_fq f <> 0 -> 0 <= rcount f -> 0 <= nstep f ->
  (flag f = 0 -> rcount f = 0) -> rcount f + nstep f + 1 < INT_MAX ->
  exists ev last, md_run f go stop = Ok ev /\
    let before := if flag f =? 0 then 1 else rcount f in
    let target := if flag f =? 0 then Z.max 1 (nstep f) else rcount f + nstep f in
    before <= last <= target /\
    execs ev = zseq (before + 1) (Z.to_nat (last - before)) /\
    finals ev = [last] /\
    snaps ev = filter (fun k => Z.rem k (rst_fq f) =? 0) (execs ev) /\
    ((forall k, go k = true) -> (forall k, stop k = false) -> last = target).
Proof.
  intros f go stop Hp Hq Hr Hn Hf Hm. unfold md_run.
  assert (E1 : fits (rcount f + nstep f) = true) by (unfold fits; lia).
  rewrite E1. cbn [negb].
  replace (if print_md f && (0 <? nstep f) then -1 + 1 else 0) with 0 by (destruct (print_md f && _); reflexivity).
  set (cnt := 0 + 1 + rcount f + b2z (flag f =? 0)).
  assert (Hc : cnt = snap_no f (0 + 1)) by (unfold cnt, snap_no; lia).
  assert (E2 : fits cnt = true).
  { unfold fits, cnt, b2z. destruct (flag f =? 0) eqn:E; unfold INT_MAX in *; lia. }
  rewrite E2. cbn [negb].
  destruct (md_loop_spec f go stop (rcount f + nstep f) Hp Hq ltac:(lia) (Z.to_nat (rcount f + nstep f - cnt + 1)) (0 + 1) cnt)
    as (ev & last & E & HL & HE & HF & HS & HA); [unfold fits in E2; lia | exact Hc | lia |].
  exists ev, last. split; [exact E|]. cbv zeta.
  assert (Hb : cnt = (if flag f =? 0 then 1 else rcount f) + 1).
  { unfold cnt, b2z. destruct (Z.eqb_spec (flag f) 0) as [Ef|]; [rewrite (Hf Ef)|]; lia. }
  assert (Ht : Z.max (cnt - 1) (rcount f + nstep f) = if flag f =? 0 then Z.max 1 (nstep f) else rcount f + nstep f).
  { unfold cnt, b2z. destruct (Z.eqb_spec (flag f) 0) as [Ef|]; [rewrite (Hf Ef)|]; lia. }
  rewrite Ht in HL, HA. split; [lia|]. split; [|split; [|split]]; auto.
  rewrite HE, Hb. f_equal. lia.
Qed.
Print Assumptions C39_one_run.

(** Any chain of runs, each restarted from the final snapshot of the one
    before, with any requested step counts and any interruptions by the wall
    time or the stop file: the executed step numbers, in order, are
    2, 3, ..., last (step 1 being the initial configuration), each exactly
    once, and the last snapshot carries the number of the last executed
    step. *)
Theorem C39_restart_chain : forall pm fq runs fl rc,
  fq <> 0 -> 0 <= rc -> (fl = 0 -> rc = 0) ->
  Forall (fun r => 0 <= fst (fst r)) runs ->
  rc + fold_right (fun r a => fst (fst r) + a) 0 runs + 1 + Z.of_nat (length runs) < INT_MAX ->
  exists ks last, md_runs pm fq fl rc runs = Ok (ks, last) /\
    match runs with
    | [] => ks = [] /\ last = rc
    | _ => let before := if fl =? 0 then 1 else rc in
           before <= last /\ ks = zseq (before + 1) (Z.to_nat (last - before)) /\ NoDup ks
    end.
Proof.
  intros pm fq runs. induction runs as [|[[n go] stop] runs IH]; intros fl rc Hq Hr Hf Hn Hm.
  - exists [], rc. repeat split.
  - cbn [md_runs]. inversion_clear Hn as [|? ? Hn0 Hn']. cbn [fst] in Hn0. cbn [fst fold_right length] in Hm.
    assert (Hs : 0 <= fold_right (fun r a => fst (fst r) + a) 0 runs) by (clear - Hn'; induction Hn' as [|r l H _ IH]; cbn [fold_right]; lia).
    destruct (C39_one_run (Cfg fl rc n pm true fq) go stop) as (ev & last & -> & HH); cbn [print_rst rst_fq rcount nstep flag]; auto.
    { lia. }
    cbn [flag rcount nstep] in HH. destruct HH as (HL & HE & HF & _). cbn [obind]. rewrite HF.
    set (before := if fl =? 0 then 1 else rc) in *.
    assert (Hlast : last <= Z.max 1 (rc + n)).
    { destruct (Z.eqb_spec fl 0) as [E|]; [rewrite (Hf E)|]; lia. }
    assert (Hb : 0 <= before) by (unfold before; destruct (fl =? 0); lia).
    destruct (IH 1 last Hq ltac:(lia) ltac:(lia) Hn') as (ks & l2 & -> & Hks).
    { lia. }
    cbn [obind fst snd]. exists (execs ev ++ ks), l2. split; [reflexivity|].
    assert (G : before <= l2 /\ execs ev ++ ks = zseq (before + 1) (Z.to_nat (l2 - before))).
    { destruct runs as [|r0 runs'].
      - destruct Hks as [-> ->]. rewrite app_nil_r. split; [lia | exact HE].
      - cbv zeta in Hks. change (1 =? 0) with false in Hks. cbv iota in Hks. destruct Hks as (Hl & -> & _).
        split; [lia|]. rewrite HE. replace (Z.to_nat (l2 - before)) with (Z.to_nat (last - before) + Z.to_nat (l2 - last))%nat by lia.
        rewrite zseq_app. f_equal. f_equal. lia. }
    destruct G as [G1 G2]. split; [exact G1|]. split; [exact G2|]. rewrite G2. apply NoDup_zseq.
Qed.
Print Assumptions C39_restart_chain.

(** Three runs of 5, 3 and 4 steps, the second stopped by the stop file
    after step 7: steps 2..11, each once. *)
Example C39_example :
  md_runs true 2 0 0 [(5, (fun _ => true), (fun _ => false)); (3, (fun _ => true), (fun k => k =? 7)); (4, (fun _ => true), (fun _ => false))]
  = Ok ([2; 3; 4; 5; 6; 7; 8; 9; 10; 11], 11).
Proof. vm_compute. reflexivity. Qed.

(** A restart frequency of 0 is accepted by the reader
    (src/readfiles.c:620-622) and makes the first step undefined. *)
Theorem C39_zero_frequency_refuted : forall f go stop, print_rst f = true -> rst_fq f = 0 ->
  2 <= nstep f -> 0 <= rcount f -> rcount f + nstep f < INT_MAX -> (forall k, go k = true) -> md_run f go stop = UB.
Proof.
  intros f go stop Hp Hq Hn Hr Hm Hg. unfold md_run.
  assert (E1 : fits (rcount f + nstep f) = true) by (unfold fits; lia). rewrite E1. cbn [negb].
  replace (if print_md f && (0 <? nstep f) then -1 + 1 else 0) with 0 by (destruct (print_md f && _); reflexivity).
  set (cnt := 0 + 1 + rcount f + b2z (flag f =? 0)).
  assert (Hb : b2z (flag f =? 0) = 0 \/ b2z (flag f =? 0) = 1) by (destruct (flag f =? 0); cbn; auto).
  assert (E2 : fits cnt = true) by (unfold fits, cnt, INT_MAX in *; lia). rewrite E2. cbn [negb].
  destruct (Z.to_nat (rcount f + nstep f - cnt + 1)) as [|fuel] eqn:Ef; [exfalso; unfold cnt in *; lia|].
  cbn [md_loop]. rewrite Hg. destruct (Z.leb_spec cnt (rcount f + nstep f)); [|unfold cnt in *; lia].
  cbn [andb]. rewrite Hp. unfold c_mod. rewrite Hq. reflexivity.
Qed.
Print Assumptions C39_zero_frequency_refuted.

(** ** C38 *)
Lemma app_c k n : forall r p w, do_ops (repeat AppC n) (Fs r (Some (File k w)) p) = Fs r (Some (File k (w + n)%nat)) p.
Proof.
  induction n as [|n IH]; intros r p w; cbn [repeat do_ops fold_left].
  - replace (w + 0)%nat with w by lia. reflexivity.
  - cbn [do_op app1 cfile rst pfile fstep written]. change (fold_left do_op ?l ?s) with (do_ops l s). rewrite IH. do 3 f_equal. lia.
Qed.
Lemma app_r k n : forall c p w, do_ops (repeat AppR n) (Fs (Some (File k w)) c p) = Fs (Some (File k (w + n)%nat)) c p.
Proof.
  induction n as [|n IH]; intros c p w; cbn [repeat do_ops fold_left].
  - replace (w + 0)%nat with w by lia. reflexivity.
  - cbn [do_op app1 cfile rst pfile fstep written]. change (fold_left do_op ?l ?s) with (do_ops l s). rewrite IH. do 3 f_equal. lia.
Qed.
Lemma do_ops_app a b s : do_ops (a ++ b) s = do_ops b (do_ops a s).
Proof. apply fold_left_app. Qed.

(** The moments inside one periodic snapshot: before it, after the rename,
    and after 0 .. full sections. *)
Definition snap_moment (k : Z) (j : nat) : list op := firstn j (snap_ops k).
Lemma snap_moment_spec k j s : (2 <= j <= 2 + full)%nat ->
  do_ops (snap_moment k j) s = Fs (rst s) (Some (File k (j - 2))) (match cfile s with Some g => Some g | None => pfile s end).
Proof.
  intros Hj. unfold snap_moment, snap_ops.
  replace (firstn j (Rename :: OpenC k :: repeat AppC full)) with (Rename :: OpenC k :: repeat AppC (j - 2)).
  2:{ destruct j as [|[|j]]; try lia. cbn [firstn]. do 2 f_equal. replace (S (S j) - 2)%nat with j by lia.
      destruct j as [|[|[|[|[|[|j]]]]]]; try reflexivity. unfold full in Hj. lia. }
  cbn [do_ops fold_left do_op]. destruct s as [r [c|] p]; cbn; apply (app_c k (j - 2)).
Qed.
Definition snaps_ops (ks : list Z) : list op := flat_map snap_ops ks.

(** Killed outside the writing of a file - between snapshots, or between the
    rename and the creation of the new file - a run that has written the
    snapshots [ks] resumes from the last of them, provided there was no
    .restart file. *)
Theorem C38_resume_between : forall ks k s,
  rst s = None ->
  resume (do_ops (snaps_ops (ks ++ [k])) s) = Ok (Some k) /\
  forall k', resume (do_ops (snaps_ops (ks ++ [k]) ++ firstn 1 (snap_ops k')) s) = Ok (Some k).
Proof.
  intros ks k s Hr.
  assert (R : forall ks s, rst (do_ops (snaps_ops ks) s) = rst s).
  { induction ks0 as [|k0 ks0 IH]; intros s0; [reflexivity|]. cbn [snaps_ops flat_map]. rewrite do_ops_app. rewrite IH.
    change (snap_ops k0) with (snap_moment k0 (2 + full)). rewrite snap_moment_spec by lia. reflexivity. }
  assert (S : do_ops (snaps_ops (ks ++ [k])) s = Fs None (Some (File k full))
    (match cfile (do_ops (snaps_ops ks) s) with Some g => Some g | None => pfile (do_ops (snaps_ops ks) s) end)).
  { unfold snaps_ops. rewrite flat_map_app. cbn [flat_map]. rewrite app_nil_r, do_ops_app.
    change (snap_ops k) with (snap_moment k (2 + full)). rewrite snap_moment_spec by lia.
    fold (snaps_ops ks). rewrite R, Hr. reflexivity. }
  split.
  - rewrite S. reflexivity.
  - intros k'. rewrite do_ops_app, S. cbn. reflexivity.
Qed.
Print Assumptions C38_resume_between.

(** At every moment after the first complete periodic snapshot, the last
    complete one is intact in the C file or in the P file. *)
Theorem C38_copy_survives : forall ks k k' j s, (j <= 2 + full)%nat ->
  let t := do_ops (snaps_ops (ks ++ [k]) ++ firstn j (snap_ops k')) s in
  cfile t = Some (File k full) \/ pfile t = Some (File k full) \/ (j = 2 + full)%nat.
Proof.
  intros ks k k' j s Hj t. unfold t.
  assert (S : exists r p, do_ops (snaps_ops (ks ++ [k])) s = Fs r (Some (File k full)) p).
  { unfold snaps_ops. rewrite flat_map_app. cbn [flat_map]. rewrite app_nil_r, do_ops_app.
    change (snap_ops k) with (snap_moment k (2 + full)). rewrite snap_moment_spec by lia. eexists _, _. reflexivity. }
  destruct S as (r & p & S). rewrite do_ops_app, S.
  destruct j as [|[|j]].
  - left. reflexivity.
  - right. left. reflexivity.
  - right. left. change (firstn (Datatypes.S (Datatypes.S j)) (snap_ops k')) with (snap_moment k' (Datatypes.S (Datatypes.S j))).
    rewrite snap_moment_spec by lia. reflexivity.
Qed.
Print Assumptions C38_copy_survives.

(** A completed final snapshot is what the next run resumes from. *)
Theorem C38_resume_final : forall ops k s, resume (do_ops (ops ++ final_ops k) s) = Ok (Some k).
Proof.
  intros ops k s. rewrite do_ops_app. destruct (do_ops ops s) as [r c p]. unfold final_ops.
  cbn [do_ops fold_left]. change (fold_left do_op ?l ?x) with (do_ops l x). cbn [do_op rst cfile pfile].
  rewrite app_r. reflexivity.
Qed.
Print Assumptions C38_resume_final.

(** The full claim is false. (a) Killed while a periodic snapshot is being
    written, the next run reads the partial C file although the complete
    previous snapshot is in P: undefined (uninitialised velocities) until
    the third section is there. *)
Theorem C38_partial_write_refuted : forall ks k k' j s, rst s = None -> (2 <= j < 5)%nat ->
  let t := do_ops (snaps_ops (ks ++ [k]) ++ firstn j (snap_ops k')) s in
  pfile t = Some (File k full) /\ resume t = UB.
Proof.
  intros ks k k' j s Hr Hj t. unfold t.
  assert (R : forall ks s, rst (do_ops (snaps_ops ks) s) = rst s).
  { induction ks0 as [|k0 ks0 IH]; intros s0; [reflexivity|]. cbn [snaps_ops flat_map]. rewrite do_ops_app. rewrite IH.
    change (snap_ops k0) with (snap_moment k0 (2 + full)). rewrite snap_moment_spec by lia. reflexivity. }
  assert (S : exists p, do_ops (snaps_ops (ks ++ [k])) s = Fs None (Some (File k full)) p).
  { unfold snaps_ops. rewrite flat_map_app. cbn [flat_map]. rewrite app_nil_r, do_ops_app.
    change (snap_ops k) with (snap_moment k (2 + full)). rewrite snap_moment_spec by lia. fold (snaps_ops ks). rewrite R, Hr. eexists. reflexivity. }
  destruct S as (p & S). rewrite do_ops_app, S. fold (snap_moment k' j). rewrite snap_moment_spec by (unfold full; lia).
  split; [reflexivity|]. unfold resume. cbn [choose rst cfile written].
  destruct (Nat.ltb_spec (j - 2) 3); [reflexivity | lia].
Qed.
Print Assumptions C38_partial_write_refuted.

(** (b) A .restart file left by an earlier run hides every later periodic
    snapshot: the run resumes from the old step. *)
Theorem C38_stale_final_refuted : forall k0 k c p, k0 < k ->
  let s := Fs (Some (File k0 full)) c p in
  resume (do_ops (snap_ops k) s) = Ok (Some k0) /\ cfile (do_ops (snap_ops k) s) = Some (File k full).
Proof.
  intros k0 k c p H s. change (snap_ops k) with (snap_moment k (2 + full)). rewrite snap_moment_spec by lia. split; reflexivity.
Qed.
Print Assumptions C38_stale_final_refuted.

(** (c) Killed while the final snapshot is being written, the next run reads
    the truncated .restart file although C holds a complete snapshot. *)
Theorem C38_partial_final_refuted : forall k p j, (1 <= j < 4)%nat ->
  resume (do_ops (firstn j (final_ops k)) (Fs None (Some (File k full)) p)) = UB.
Proof.
  intros k p j Hj. destruct j as [|[|[|[|j]]]]; try lia; reflexivity.
Qed.
Print Assumptions C38_partial_final_refuted.

Example C38_example :
  resume (do_ops (snaps_ops [2; 4; 6]) (Fs None None None)) = Ok (Some 6) /\
  resume (do_ops (snaps_ops [2; 4; 6] ++ [Rename]) (Fs None None None)) = Ok (Some 6) /\
  resume (do_ops (snaps_ops [2; 4; 6] ++ [Rename; OpenC 8]) (Fs None None None)) = UB.
Proof. repeat split. Qed.

(** ** C40 *)
Definition total_size (n c : Z) (vs : list var) : Z :=
  fold_right (fun v a => count n c v * elt_size v + a) 0 vs.
Definition needs_chain (v : var) : bool := match v with Qmass | Vlogs | Xlogs => true | _ => false end.
Fixpoint ordered (have : bool) (vs : list var) : bool :=
  match vs with
  | [] => true
  | v :: vs' => (have || negb (needs_chain v)) && ordered (match v with Nnos => true | _ => have end) vs'
  end.

Section C40.
  Variable E : Type.
  Variable as_int : E -> Z.
  (** Rank 0 holds as many elements of each variable as its chain length and
      the number of atoms say. *)
  Definition well_sized (n : Z) (s0 : state E) (vs : list var) : Prop :=
    forall v, In v vs -> Z.of_nat (length (s0 v)) = count n (chain_len E as_int s0) v.

  Lemma count_needs n c c' v : needs_chain v = false -> count n c v = count n c' v.
  Proof. destruct v; cbn; congruence. Qed.

  Lemma pack_spec n s0 : forall vs room, well_sized n s0 vs ->
    pack E as_int n room vs s0 =
    if total_size n (chain_len E as_int s0) vs <=? room then Ok (concat (map s0 vs)) else if Nat.eqb (length vs) 0 then Ok [] else Exit.
  Proof.
    induction vs as [|v vs IH]; intros room Hw; cbn [pack total_size fold_right map concat length Nat.eqb].
    - destruct (0 <=? room); reflexivity.
    - assert (Hv : Z.of_nat (length (s0 v)) = count n (chain_len E as_int s0) v) by (apply Hw; left; reflexivity).
      assert (Hw' : well_sized n s0 vs) by (intros w I; apply Hw; right; exact I).
      assert (Hp : 0 <= elt_size v) by (unfold elt_size; destruct (is_int v); lia).
      assert (Ht : 0 <= total_size n (chain_len E as_int s0) vs).
      { clear - Hw'. induction vs as [|w vs IH]; cbn; [lia|]. 
        assert (0 <= total_size n (chain_len E as_int s0) vs) by (apply IH; intros x I; apply Hw'; right; exact I).
        assert (Hwv : Z.of_nat (length (s0 w)) = count n (chain_len E as_int s0) w) by (apply Hw'; left; reflexivity).
        assert (0 <= elt_size w) by (unfold elt_size; destruct (is_int w); lia). unfold total_size in *. nia. }
      fold (total_size n (chain_len E as_int s0) vs).
      set (k := count n (chain_len E as_int s0) v) in *. set (t := total_size n (chain_len E as_int s0) vs) in *.
      destruct (Z.ltb_spec (room - k * elt_size v) 0).
      + destruct (Z.leb_spec (k * elt_size v + t) room); [lia | reflexivity].
      + rewrite IH by exact Hw'. fold t. replace (Z.to_nat k) with (length (s0 v)) by lia. rewrite firstn_all.
        destruct (Z.leb_spec t (room - k * elt_size v)), (Z.leb_spec (k * elt_size v + t) room); try lia; [reflexivity|].
        destruct vs as [|w vs]; [|reflexivity]. exfalso. unfold t, total_size in *. cbn in *. lia.
  Qed.

  Lemma chain_len_upd s v x : v <> Nnos -> chain_len E as_int (upd E s v x) = chain_len E as_int s.
  Proof. intros H. unfold chain_len, upd. destruct (var_eq_dec Nnos v); [congruence | reflexivity]. Qed.

  Lemma unpack_spec n s0 : forall vs have s, well_sized n s0 vs -> NoDup vs -> ordered have vs = true ->
    (have = true -> chain_len E as_int s = chain_len E as_int s0) ->
    exists s', unpack E as_int n vs (concat (map s0 vs)) s = Ok s' /\
      (forall v, In v vs -> s' v = s0 v) /\ (forall v, ~ In v vs -> s' v = s v).
  Proof.
    induction vs as [|v vs IH]; intros have s Hw Hd Ho Hh.
    - exists s. cbn. split; [reflexivity|]. split; [intros v []|auto].
    - cbn [unpack map concat]. cbn [ordered] in Ho. apply andb_prop in Ho. destruct Ho as [Ho1 Ho2].
      assert (Hv : Z.of_nat (length (s0 v)) = count n (chain_len E as_int s0) v) by (apply Hw; left; reflexivity).
      assert (Hk : Z.to_nat (count n (chain_len E as_int s) v) = length (s0 v)).
      { destruct (needs_chain v) eqn:En.
        - rewrite orb_false_r in Ho1. rewrite (Hh Ho1), <- Hv. lia.
        - rewrite (count_needs n _ (chain_len E as_int s0) v En), <- Hv. lia. }
      rewrite Hk. rewrite app_length. destruct (Nat.ltb_spec (length (s0 v) + length (concat (map s0 vs))) (length (s0 v))); [lia|].
      rewrite skipn_app, skipn_all, Nat.sub_diag. cbn [skipn app].
      rewrite firstn_app, firstn_all, Nat.sub_diag. cbn [firstn]. rewrite app_nil_r.
      inversion_clear Hd as [|? ? Hn Hd'].
      destruct (IH (match v with Nnos => true | _ => have end) (upd E s v (s0 v))) as (s' & -> & A & B).
      + intros w I. apply Hw. right. exact I.
      + exact Hd'.
      + exact Ho2.
      + intros Hb. destruct (var_eq_dec v Nnos) as [->|N].
        * unfold chain_len, upd. destruct (var_eq_dec Nnos Nnos); [reflexivity | congruence].
        * rewrite chain_len_upd by exact N. apply Hh. destruct v; auto; congruence.
      + exists s'. split; [reflexivity|]. split.
        * intros w [->|I]; [|apply A; exact I]. destruct (in_dec var_eq_dec w vs) as [I|I]; [apply A; exact I|].
          rewrite B by exact I. unfold upd. destruct (var_eq_dec w w); [reflexivity | congruence].
        * intros w I. rewrite B by (intros Q; apply I; right; exact Q). unfold upd.
          destruct (var_eq_dec w v) as [->|]; [exfalso; apply I; left; reflexivity | reflexivity].
  Qed.

  (** The whole of RestartMD for rank 0 holding [s0] after reading the file
      and another rank holding [s]; [c] is the chain length of the input
      file, known to all ranks. *)
  Definition bcast (fl : Z) (m : meth) (n c : Z) (s0 s : state E) : outcome (state E) :=
    do b <- pack E as_int n (l_buff fl m n c) (pack_vars fl m) s0 ;
    unpack E as_int n (unpack_vars fl m) b s.

  Lemma pack_nodup fl m : NoDup (pack_vars fl m) /\ ordered false (pack_vars fl m) = true /\ unpack_vars fl m = pack_vars fl m.
  Proof.
    split; [|split].
    - unfold pack_vars. destruct (fl =? 1), m; cbn [app]; repeat constructor; cbn; intuition discriminate.
    - unfold pack_vars. destruct (fl =? 1), m; reflexivity.
    - unfold pack_vars, unpack_vars. reflexivity.
  Qed.

  (** How much is packed, against the buffer. *)
  Lemma packed_size fl m n c c' : fl = 1 \/ fl = -1 ->
    total_size n c' (pack_vars fl m) <= l_buff fl m n c <-> (fl = 1 -> m = NPT_NH -> 3 * (c' - c) <= 4).
  Proof.
    intros [-> | ->]; unfold pack_vars, l_buff.
    - change (1 =? 1) with true. destruct m; cbn [app total_size fold_right count elt_size is_int]; split; intros H; try lia;
        try (intros _ X; discriminate X); try (intros _ _; lia); specialize (H eq_refl eq_refl); lia.
    - change (-1 =? 1) with false. cbn [app total_size fold_right count elt_size is_int]. split; intros H; [discriminate | lia].
  Qed.

  (** Every rank ends with rank 0's value of every packed variable and its
      own value of the others, whenever the chain length in the restart file
      exceeds the one in the input file by at most one (always for the other
      methods); otherwise packing fails. *)
  Theorem C40_ranks_agree : forall fl m n c s0 s,
    fl = 1 \/ fl = -1 -> well_sized n s0 (pack_vars fl m) ->
    (fl = 1 -> m = NPT_NH -> chain_len E as_int s0 <= c + 1) ->
    exists s', bcast fl m n c s0 s = Ok s' /\
      (forall v, In v (pack_vars fl m) -> s' v = s0 v) /\ (forall v, ~ In v (pack_vars fl m) -> s' v = s v).
  Proof.
    intros fl m n c s0 s Hf Hw Hc. destruct (pack_nodup fl m) as (Nd & Or & Eq).
    unfold bcast. rewrite pack_spec by exact Hw.
    destruct (Z.leb_spec (total_size n (chain_len E as_int s0) (pack_vars fl m)) (l_buff fl m n c)) as [L|L].
    - cbn [obind]. rewrite Eq. apply (unpack_spec n s0 (pack_vars fl m) false s Hw Nd Or). discriminate.
    - exfalso. apply Z.lt_nge in L. apply L. apply packed_size; [exact Hf|]. intros A B. specialize (Hc A B). lia.
  Qed.

  Theorem C40_buffer_refuted : forall n c s0 s, well_sized n s0 (pack_vars 1 NPT_NH) ->
    c + 1 < chain_len E as_int s0 -> bcast 1 NPT_NH n c s0 s = Exit.
  Proof.
    intros n c s0 s Hw Hc. unfold bcast. rewrite pack_spec by exact Hw.
    destruct (Z.leb_spec (total_size n (chain_len E as_int s0) (pack_vars 1 NPT_NH)) (l_buff 1 NPT_NH n c)) as [L|L]; [|reflexivity].
    apply (packed_size 1 NPT_NH n c (chain_len E as_int s0) (or_introl eq_refl)) in L; auto. lia.
  Qed.

  (** RestartFlag 1: every variable PrintMD wrote, except NPT_NP_Pm, reaches
      every rank with the value in the file, for every method. *)
  Theorem C40_restored : forall m n c (file : var -> option (list E)) s0 s v x,
    (forall v, In v (written_vars m) -> exists y, file v = Some y) ->
    let r0 := read_file E (read_vars 1 m) file s0 in
    well_sized n r0 (pack_vars 1 m) -> (m = NPT_NH -> chain_len E as_int r0 <= c + 1) ->
    In v (written_vars m) -> v <> NPPm -> file v = Some x ->
    exists s', bcast 1 m n c r0 s = Ok s' /\ s' v = x /\ r0 v = x.
  Proof.
    intros m n c file s0 s v x Hf r0 Hw Hc Hv Hn Hx.
    destruct (C40_ranks_agree 1 m n c r0 s (or_introl eq_refl) Hw (fun _ => Hc)) as (s' & E' & A & _).
    assert (Ir : In v (read_vars 1 m)).
    { clear - Hv Hn. destruct m; cbn in *; intuition (subst; congruence || auto 20). }
    assert (Ip : In v (pack_vars 1 m)).
    { clear - Hv Hn. destruct m; cbn in *; intuition (subst; congruence || auto 20). }
    exists s'. split; [exact E'|]. rewrite (A v Ip).
    assert (R : r0 v = x).
    { unfold r0, read_file. destruct (in_dec var_eq_dec v (read_vars 1 m)) as [_|N]; [|contradiction]. rewrite Hx. reflexivity. }
    auto.
  Qed.

  (** RestartFlag -1 with a constant-pressure method: the cell size is taken
      from the file by rank 0 only. *)
  Theorem C40_flag_minus_one_refuted : forall m n c (file : var -> option (list E)) s x,
    m = NPT_NH \/ m = NPT_NP -> file RangeX = Some x -> x <> s RangeX ->
    let r0 := read_file E (read_vars (-1) m) file s in
    well_sized n r0 (pack_vars (-1) m) ->
    exists s', bcast (-1) m n c r0 s = Ok s' /\ r0 RangeX = x /\ s' RangeX = s RangeX /\ s' RangeX <> r0 RangeX.
  Proof.
    intros m n c file s x Hm Hx Hne r0 Hw.
    destruct (C40_ranks_agree (-1) m n c r0 s (or_intror eq_refl) Hw ltac:(discriminate)) as (s' & E' & _ & B).
    assert (R : r0 RangeX = x).
    { unfold r0, read_file. destruct (in_dec var_eq_dec RangeX (read_vars (-1) m)) as [_|N]; [rewrite Hx; reflexivity|].
      exfalso. apply N. destruct Hm as [-> | ->]; cbn; auto 20. }
    assert (S : s' RangeX = s RangeX).
    { apply B. destruct Hm as [-> | ->]; cbn; intuition discriminate. }
    exists s'. repeat split; auto. rewrite S, R. congruence.
  Qed.
End C40.
Print Assumptions C40_ranks_agree.
Print Assumptions C40_buffer_refuted.
Print Assumptions C40_restored.
Print Assumptions C40_flag_minus_one_refuted.

(** A two-atom NPT_NH restart with a chain of 2 meets the hypotheses. *)
Example C40_example :
  let s0 : state Z := fun v => match v with Pos => [1;2;3;4;5;6] | Vel => [7;8;9;10;11;12] | Nnos => [2]
                                 | Qmass => [20;21] | Vlogs => [22;23] | Xlogs => [24;25] | NPPm => [0;0;0] | _ => [99] end in
  let s : state Z := fun _ => [] in
  well_sized Z (fun z => z) 2 s0 (pack_vars 1 NPT_NH) /\
  match bcast Z (fun z => z) 1 NPT_NH 2 2 s0 s with
  | Ok s' => s' Pos = s0 Pos /\ s' Xlogs = [24; 25] /\ s' Prtarget = [99]
  | _ => False
  end /\
  (forall n c, l_buff 1 NPT_NH n c = total_size n c (pack_vars 1 NPT_NH) + 32).
Proof.
  split; [|split].
  - intros v Hv. cbn in Hv. repeat (destruct Hv as [<- | Hv]; [reflexivity|]). destruct Hv.
  - vm_compute. auto.
  - intros. unfold l_buff, pack_vars. change (1 =? 1) with true.
    cbn [app total_size fold_right count elt_size is_int]. lia.
Qed.
