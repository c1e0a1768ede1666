(** C84: the warning about atoms that are too close. *)
From Coq Require Import Reals Lra Lia ZArith List Bool.
From Verif Require Import CBase BandK AtomCheck.
Import ListNotations.
Local Open Scope R_scope.

(** ** Specification *)
(** [r] is the radius of a type: zero or one of its first lmax+1 cutoffs, and not below any of these *)
Definition radius_of (lmax : nat) (rc : list R) (r : R) : Prop :=
  0 <= r /\ (r = 0 \/ In r (firstn (S lmax) rc)) /\ forall x, In x (firstn (S lmax) rc) -> x <= r.
(** the radii of the atoms, type after type *)
Definition radii (psd : list (nat * nat * list R)) (rs : list R) : Prop :=
  exists tr, Forall2 (fun q r => radius_of (snd (fst q)) (snd q) r) psd tr /\ rs = concat (map (fun qr => repeat (snd qr) (fst (fst (fst qr)))) (combine psd tr)).
Definition distance (p q : vec) : R := sqrt (dot (vsub p q) (vsub p q)).
(** atoms [i] and [j] are closer than half the sum of their radii *)
Definition close (pos : list vec) (rs : list R) (i j : nat) : Prop :=
  distance (nth i pos (V 0 0 0)) (nth j pos (V 0 0 0)) < (nth i rs 0 + nth j rs 0) / 2.
Definition pair_before (i j i' j' : nat) : Prop := (i < i' \/ i = i' /\ j < j')%nat.

(** ** Lemmas *)
Lemma rd_ok {A} (l : list A) i d : (i < length l)%nat -> rd l i = Ok (nth i l d).
Proof. intros H. unfold rd. now rewrite (nth_error_nth' l d H). Qed.
Lemma firstn_S_nth (l : list R) k : (k < length l)%nat -> firstn (S k) l = firstn k l ++ [nth k l 0].
Proof.
  revert k. induction l as [|x l IH]; intros k H; [cbn in H; lia|]. destruct k as [|k]; [reflexivity|].
  rewrite !firstn_cons. cbn [nth app]. rewrite IH by (cbn in H; lia). reflexivity.
Qed.
Lemma rc_of_ok lmax rc : (lmax < length rc)%nat -> exists r, rc_of lmax rc = Ok r /\ radius_of lmax rc r.
Proof.
  intros H. unfold rc_of.
  assert (Q : forall m, (m <= S lmax)%nat -> exists r, fold_left (fun acc i => do m <- acc ; do r <- rd rc i ; Ok (Rmax m r)) (seq 0 m) (Ok 0) = Ok r /\
    0 <= r /\ (r = 0 \/ In r (firstn m rc)) /\ forall x, In x (firstn m rc) -> x <= r).
  { induction m as [|m IH]; intros Hm.
    - exists 0. split; [reflexivity|]. split; [lra|]. split; [now left|]. intros x [].
    - destruct (IH ltac:(lia)) as (r & E & P & I & U). rewrite seq_S, fold_left_app, E. cbn [fold_left Nat.add obind].
      rewrite (rd_ok rc m 0) by lia. cbn [obind]. exists (Rmax r (nth m rc 0)). split; [reflexivity|].
      pose proof (Rmax_l r (nth m rc 0)). pose proof (Rmax_r r (nth m rc 0)). split; [lra|]. rewrite firstn_S_nth by lia. split.
      + unfold Rmax. destruct (Rle_dec r (nth m rc 0)); [right; apply in_or_app; right; left; reflexivity|]. destruct I as [I|I]; [now left|right; apply in_or_app; now left].
      + intros x Hx. apply in_app_or in Hx. destruct Hx as [Hx|[<-|[]]]; [specialize (U x Hx); lra|lra]. }
  rewrite Nat.add_1_r. apply Q. lia.
Qed.
Definition expand (ts : list (nat * R)) : list R := concat (map (fun t => repeat (snd t) (fst t)) ts).
Lemma nth_repeat_lt (r : R) n i : (i < n)%nat -> nth i (repeat r n) 0 = r.
Proof. revert i. induction n as [|n IH]; intros [|i] H; try lia; cbn; [reflexivity|]. apply IH. lia. Qed.
Lemma find_ok ts : forall count a old, (count <= a < count + length (expand ts))%nat -> find_rc count ts a old = nth (a - count) (expand ts) 0.
Proof.
  unfold expand. induction ts as [|[m r] ts IH]; intros count a old H; cbn [map concat length find_rc fst snd] in *; [lia|].
  rewrite app_length, repeat_length in H. destruct (Nat.ltb_spec a (count + m)).
  - rewrite app_nth1 by (rewrite repeat_length; lia). rewrite nth_repeat_lt by lia. reflexivity.
  - rewrite app_nth2 by (rewrite repeat_length; lia). rewrite repeat_length. rewrite IH by lia. f_equal. lia.
Qed.
Lemma dist_val p q : dist p q = distance p q.
Proof. unfold dist, distance. rewrite Rabs_pos_eq by apply sqrt_pos. f_equal. unfold dot, vsub. cbn. ring. Qed.
Lemma all_rc_ok psd : (forall m lmax rc, In (m, lmax, rc) psd -> (lmax < length rc)%nat) ->
  exists tr, all_rc psd = Ok (combine (map (fun q => fst (fst q)) psd) tr) /\ Forall2 (fun q r => radius_of (snd (fst q)) (snd q) r) psd tr.
Proof.
  induction psd as [|[[m lmax] rc] psd IH]; intros H; [exists []; split; [reflexivity|constructor]|].
  destruct (rc_of_ok lmax rc) as (r & E & Q); [apply (H m lmax rc); left; reflexivity|].
  destruct IH as (tr & E2 & F); [intros; eapply H; right; eassumption|].
  exists (r :: tr). cbn [all_rc map combine fst]. rewrite E. cbn [obind]. rewrite E2. cbn [obind]. split; [reflexivity|]. constructor; [exact Q|exact F].
Qed.
Lemma expand_combine psd : forall tr : list R, length tr = length psd -> expand (combine (map (fun q : nat * nat * list R => fst (fst q)) psd) tr) =
  concat (map (fun qr : (nat * nat * list R) * R => repeat (snd qr) (fst (fst (fst qr)))) (combine psd tr)).
Proof. unfold expand. induction psd as [|q psd IH]; intros [|r tr] H; try discriminate H; cbn; [reflexivity|]. rewrite IH by (cbn in H; lia). reflexivity. Qed.

Section Loops.
  Variables (ts : list (nat * R)) (pos : list vec) (n : nat).
  Hypothesis Hpos : length pos = n.
  Hypothesis Hts : length (expand ts) = n.
  Notation rs := (expand ts).
  Notation cl := (close pos rs).
  Notation ds i j := (distance (nth i pos (V 0 0 0)) (nth j pos (V 0 0 0))).
  Lemma inner_ok a : (a < n)%nat -> forall len b rc2, (b + len <= n)%nat ->
    exists w rc2', inner ts pos a (nth a rs 0) (seq b len) rc2 = Ok (w, rc2') /\
      match w with
      | None => forall j, (b <= j < b + len)%nat -> ~ cl a j
      | Some d => exists j, (b <= j < b + len)%nat /\ cl a j /\ d = ds a j /\ forall j', (b <= j' < j)%nat -> ~ cl a j'
      end.
  Proof.
    intros Ha. induction len as [|len IH]; intros b rc2 Hb; cbn [seq inner]; [exists None, rc2; split; [reflexivity|]; intros; lia|].
    rewrite (find_ok ts 0 b) by lia. rewrite Nat.sub_0_r. rewrite (rd_ok pos a (V 0 0 0)), (rd_ok pos b (V 0 0 0)) by lia. cbn [obind]. rewrite dist_val.
    assert (CL : ds a b < (1 - tol_close) * (nth a rs 0 + nth b rs 0) <-> cl a b) by (unfold close, tol_close; split; lra).
    destruct (Rlt_dec _ _) as [Q|Q].
    - exists (Some (ds a b)), (nth b rs 0). split; [reflexivity|]. exists b. split; [lia|]. split; [now apply CL|]. split; [reflexivity|]. intros; lia.
    - assert (NQ : ~ cl a b) by (intros X; apply Q; now apply CL).
      destruct (IH (S b) (nth b rs 0) ltac:(lia)) as (w & r & E & S1). exists w, r. split; [exact E|]. destruct w as [d|].
      + destruct S1 as (j & J1 & J2 & J3 & J4). exists j. split; [lia|]. split; [exact J2|]. split; [exact J3|]. intros j' Hj'.
        destruct (Nat.eq_dec j' b) as [->|]; [exact NQ|apply J4; lia].
      + intros j Hj. destruct (Nat.eq_dec j b) as [->|]; [exact NQ|apply S1; lia].
  Qed.
  Lemma outer_ok : forall len a rc1 rc2, (a + len <= n - 1)%nat ->
    exists w, outer ts pos n (seq a len) rc1 rc2 = Ok w /\
      match w with
      | None => forall i j, (a <= i < a + len)%nat -> (i < j < n)%nat -> ~ cl i j
      | Some d => exists i j, (a <= i < a + len)%nat /\ (i < j < n)%nat /\ cl i j /\ d = ds i j /\
          forall i' j', (a <= i')%nat -> (i' < j' < n)%nat -> pair_before i' j' i j -> ~ cl i' j'
      end.
  Proof.
    induction len as [|len IH]; intros a rc1 rc2 Ha; cbn [seq outer]; [exists None; split; [reflexivity|]; intros; lia|].
    rewrite (find_ok ts 0 a) by lia. rewrite Nat.sub_0_r.
    destruct (inner_ok a ltac:(lia) (n - (a + 1)) (a + 1) rc2 ltac:(lia)) as (w & r & E & S1). rewrite E. cbn [obind fst snd]. destruct w as [d|].
    - exists (Some d). split; [reflexivity|]. destruct S1 as (j & J1 & J2 & J3 & J4). exists a, j. split; [lia|]. split; [lia|]. split; [exact J2|]. split; [exact J3|].
      intros i' j' Hi Hj B. destruct B as [B|[-> B]]; [lia|]. apply J4. lia.
    - destruct (IH (S a) (nth a rs 0) r ltac:(lia)) as (w & E2 & S2). exists w. split; [exact E2|].
      assert (Na : forall j, (a < j < n)%nat -> ~ cl a j) by (intros j Hj; apply S1; lia). destruct w as [d|].
      + destruct S2 as (i & j & I1 & I2 & I3 & I4 & I5). exists i, j. split; [lia|]. split; [lia|]. split; [exact I3|]. split; [exact I4|].
        intros i' j' Hi Hj B. destruct (Nat.eq_dec i' a) as [->|]; [apply Na; lia|apply I5; lia || exact B].
      + intros i j Hi Hj. destruct (Nat.eq_dec i a) as [->|]; [apply Na; lia|apply S2; lia].
  Qed.
End Loops.

(** One warning at most; it is written exactly when two atoms of the cell are closer than half the sum of their radii, with
    the distance of the first such pair. *)
Theorem C84_warning : forall psd n pos, (forall m lmax rc, In (m, lmax, rc) psd -> (lmax < length rc)%nat) -> length pos = n ->
  fold_right (fun q s => fst (fst q) + s)%nat 0%nat psd = n ->
  exists w rs, check_close psd n pos = Ok w /\ radii psd rs /\ length rs = n /\
    (w = None <-> forall i j, (i < j < n)%nat -> ~ close pos rs i j) /\
    (forall d, w = Some d -> exists i j, (i < j < n)%nat /\ close pos rs i j /\ d = distance (nth i pos (V 0 0 0)) (nth j pos (V 0 0 0)) /\
       forall i' j', (i' < j' < n)%nat -> pair_before i' j' i j -> ~ close pos rs i' j').
Proof.
  intros psd n pos Hrc Hpos Hn. unfold check_close. destruct (all_rc_ok psd Hrc) as (tr & E & F). rewrite E. cbn [obind].
  set (ts := combine _ tr). assert (Lt : length tr = length psd) by (clear - F; induction F; cbn; congruence).
  assert (HL : length (expand ts) = n).
  { rewrite <- Hn. unfold ts, expand. clear - Lt. revert tr Lt. induction psd as [|q psd IH]; intros [|r tr] H; try discriminate H; [reflexivity|].
    cbn [map combine concat fst snd fold_right]. rewrite app_length, repeat_length, IH by (cbn in H; lia). reflexivity. }
  destruct (outer_ok ts pos n Hpos HL (n - 1) 0 0 0 ltac:(lia)) as (w & -> & S1). exists w, (expand ts). split; [reflexivity|]. split.
  { exists tr. split; [exact F|]. unfold ts. now apply expand_combine. }
  split; [exact HL|]. destruct w as [d|].
  - destruct S1 as (i & j & I1 & I2 & I3 & I4 & I5). split.
    + split; [discriminate|]. intros H. exfalso. exact (H i j I2 I3).
    + intros d' Q. injection Q as <-. exists i, j. split; [exact I2|]. split; [exact I3|]. split; [exact I4|]. intros i' j' Hj B. apply I5; [lia|exact Hj|exact B].
  - split; [|discriminate]. split; [|reflexivity]. intros _ i j H. apply S1; lia.
Qed.
Print Assumptions C84_warning.

(** The images are not looked at: two atoms 1/5 apart through a face of a periodic cell of length 10 give no warning,
    though the same two atoms moved into the cell together would. *)
Theorem C84_images_refuted : exists psd (p q : vec) (a : R), check_close psd 2 [p; q] = Ok None /\
  exists d, check_close psd 2 [vadd p (V a 0 0); q] = Ok (Some d) /\ a = 10 /\ 0 <= vx p < 10 /\ 0 <= vx q < 10.
Proof.
  exists [(2%nat, 0%nat, [1])], (V (/10) 0 0), (V (99/10) 0 0), 10.
  assert (S1 : sqrt ((/10 - 99/10) ^ 2 + (0 - 0) ^ 2 + (0 - 0) ^ 2) = 98/10) by (replace ((/10 - 99/10) ^ 2 + (0 - 0) ^ 2 + (0 - 0) ^ 2) with (98/10 * (98/10)) by field; apply sqrt_square; lra).
  assert (S2 : sqrt ((/10 + 10 - 99/10) ^ 2 + (0 + 0 - 0) ^ 2 + (0 + 0 - 0) ^ 2) = 1/5) by (replace ((/10 + 10 - 99/10) ^ 2 + (0 + 0 - 0) ^ 2 + (0 + 0 - 0) ^ 2) with (1/5 * (1/5)) by field; apply sqrt_square; lra).
  assert (M : Rmax 0 1 = 1) by (apply Rmax_right; lra).
  split; [|exists (1/5); split; [|cbn; lra]]; unfold check_close, all_rc, rc_of, dist, vadd, tol_close; cbn -[sqrt pow Rabs Rmax]; unfold dist, tol_close; cbn [vx vy vz]; rewrite M; rewrite ?S1, ?S2, Rabs_pos_eq by lra.
  - destruct (Rlt_dec _ _); [lra|reflexivity].
  - destruct (Rlt_dec _ _); [reflexivity|lra].
Qed.
Print Assumptions C84_images_refuted.

Example C84_warning_case : let psd := [(1%nat, 1%nat, [1; 2]); (2%nat, 0%nat, [3])] in
  (forall m lmax rc, In (m, lmax, rc) psd -> (lmax < length rc)%nat) /\ fold_right (fun q s => fst (fst q) + s)%nat 0%nat psd = 3%nat /\ radii psd [2; 3; 3].
Proof.
  cbv zeta. split; [|split; [reflexivity|]].
  - intros m lmax rc [H|[H|[]]]; injection H as <- <- <-; cbn; lia.
  - exists [2; 3]. split; [|reflexivity].
    apply Forall2_cons; [|apply Forall2_cons; [|apply Forall2_nil]]; (split; [lra|split; [right; cbn; auto|]]); cbn; intros x Hx;
      repeat (destruct Hx as [<-|Hx]; [lra|]); destruct Hx.
Qed.
