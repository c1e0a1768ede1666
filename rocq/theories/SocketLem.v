(** Lemmas about the socket models. *)
From Coq Require Import ZArith List Lia Bool QArith.
From Verif Require Import CBase Text Socket.
Import ListNotations.
Local Open Scope Z_scope.

(** ** readBuffer *)
Lemma wf_conn_tail e c : wf_conn (e :: c) -> wf_conn c.
Proof. intros H b Hb. apply H. right. exact Hb. Qed.

(** One read with room for at least one byte. *)
Lemma sys_read_data c req : wf_conn c -> (0 < req)%nat ->
  let '(nr, got, c') := sys_read c req in
  (stream c <> [] /\ got <> [] /\ nr = Z.of_nat (length got) /\ (length got <= req)%nat /\
   stream c = got ++ stream c' /\ fails c' = fails c /\ wf_conn c') \/
  (stream c = [] /\ got = [] /\ nr = (if fails c then -1 else 0)).
Proof.
  intros W R. destruct req as [|q]; [lia|]. unfold sys_read.
  destruct c as [|[b| |] r].
  - right. repeat split; reflexivity.
  - assert (b <> []) by (apply W; left; reflexivity).
    left. destruct b as [|x b]; [congruence|]. cbn [stream fails].
    split; [discriminate|]. split; [discriminate|]. split; [reflexivity|].
    split; [apply firstn_le_length|].
    assert (Hs : forall rest, (x :: b) = firstn (S q) (x :: b) ++ rest -> skipn (S q) (x :: b) = rest).
    { intros rest E. rewrite <- (firstn_skipn (S q) (x :: b)) in E at 1.
      apply app_inv_head in E. exact E. }
    pose proof (firstn_skipn (S q) (x :: b)) as FS.
    destruct (skipn (S q) (x :: b)) as [|y t] eqn:E.
    + rewrite app_nil_r in FS. split; [rewrite FS; reflexivity|]. split; [reflexivity|].
      apply (wf_conn_tail _ _ W).
    + split; [cbn [stream]; rewrite app_assoc, FS; reflexivity|]. split; [reflexivity|].
      intros b' [Hb | Hb]; [injection Hb as <-; discriminate | apply W; right; exact Hb].
  - right. repeat split; reflexivity.
  - right. repeat split; reflexivity.
Qed.

(** The loop, entered with [n] bytes stored and the last read positive. *)
Lemma rb_loop_spec : forall fuel c len n nr buf,
  wf_conn c -> (0 < nr) -> n = Z.of_nat (length buf) -> (length buf <= len)%nat ->
  (len - length buf < fuel)%nat ->
  let '(n', buf', c') := rb_loop fuel c len n nr buf in
  if (len - length buf <=? length (stream c))%nat
  then n' = Z.of_nat len /\ buf' = buf ++ firstn (len - length buf) (stream c) /\
       stream c = firstn (len - length buf) (stream c) ++ stream c' /\ fails c' = fails c /\ wf_conn c'
  else n' = Z.of_nat (length buf + length (stream c)) + (if fails c then -1 else 0) /\
       buf' = buf ++ stream c.
Proof.
  induction fuel as [|f IH]; intros c len n nr buf W Hnr Hn Hb Hf; [lia|].
  cbn [rb_loop]. apply Z.ltb_lt in Hnr. rewrite Hnr. cbn [andb].
  destruct (n <? Z.of_nat len) eqn:E.
  - apply Z.ltb_lt in E.
    pose proof (sys_read_data c (len - Z.to_nat n) W ltac:(lia)) as R.
    replace (Z.to_nat n) with (length buf) in * by lia.
    destruct (sys_read c (len - length buf)) as [[nr' got] c'] eqn:SR.
    destruct R as [(Hne & Hg & Hnr' & Hlen & Hst & Hfa & Hwf) | (Hst & Hg & Hnr')].
    + assert (0 < length got)%nat by (destruct got; [congruence | cbn; lia]).
      specialize (IH c' len (n + nr') nr' (buf ++ got) Hwf ltac:(lia)
                    ltac:(rewrite app_length; lia) ltac:(rewrite app_length; lia)
                    ltac:(rewrite app_length; lia)).
      destruct (rb_loop f c' len (n + nr') nr' (buf ++ got)) as [[n2 buf2] c2].
      rewrite app_length in IH.
      assert (Hls : length (stream c) = (length got + length (stream c'))%nat) by (rewrite Hst; apply app_length).
      replace (len - (length buf + length got))%nat with (len - length buf - length got)%nat in IH by lia.
      destruct (len - length buf <=? length (stream c))%nat eqn:G.
      * apply Nat.leb_le in G.
        replace (len - length buf - length got <=? length (stream c'))%nat with true in IH
          by (symmetry; apply Nat.leb_le; lia).
        destruct IH as (I1 & I2 & I3 & I4 & I5).
        assert (Hfn : firstn (len - length buf) (stream c) = got ++ firstn (len - length buf - length got) (stream c')).
        { rewrite Hst. rewrite firstn_app. rewrite (firstn_all2 got) by lia. reflexivity. }
        split; [exact I1|]. split; [rewrite Hfn, I2, app_assoc; reflexivity|].
        split; [rewrite Hfn, <- app_assoc, <- I3; exact Hst|]. split; [congruence | exact I5].
      * apply Nat.leb_gt in G.
        replace (len - length buf - length got <=? length (stream c'))%nat with false in IH
          by (symmetry; apply Nat.leb_gt; lia).
        destruct IH as (I1 & I2). split.
        -- rewrite I1, Hfa. rewrite Hls. lia.
        -- rewrite I2, Hst, app_assoc. reflexivity.
    + subst got nr'. rewrite Hst. cbn [length].
      replace (len - length buf <=? 0)%nat with false by (symmetry; apply Nat.leb_gt; lia).
      rewrite app_nil_r. destruct f as [|f]; cbn [rb_loop].
      * split; [|reflexivity]. lia.
      * replace (0 <? (if fails c then -1 else 0)) with false by (destruct (fails c); reflexivity).
        cbn [andb]. split; [lia | reflexivity].
  - apply Z.ltb_ge in E. assert (len = length buf) by lia. subst len.
    replace (length buf - length buf)%nat with O by lia. cbn [Nat.leb firstn app].
    rewrite app_nil_r. repeat split; try reflexivity; assumption.
Qed.

Lemma readBuffer_spec c len : wf_conn c -> (0 < len)%nat ->
  let '(ret, buf, c') := readBuffer c len in
  if (len <=? length (stream c))%nat
  then ret = 0 /\ buf = firstn len (stream c) /\ stream c = buf ++ stream c' /\ fails c' = fails c /\ wf_conn c'
  else buf = stream c /\
       ret = (if (match length (stream c), fails c with
                  | O, false => true | 1%nat, true => true | _, _ => false end) then -1 else 0).
Proof.
  intros W L. unfold readBuffer.
  pose proof (sys_read_data c len W L) as R.
  destruct (sys_read c len) as [[nr got] c1] eqn:SR.
  destruct R as [(Hne & Hg & Hnr & Hlen & Hst & Hfa & Hwf) | (Hst & Hg & Hnr)].
  - assert (Hgl : (0 < length got)%nat) by (destruct got; [congruence | cbn; lia]).
    pose proof (rb_loop_spec (S len) c1 len nr nr got Hwf ltac:(lia) Hnr Hlen ltac:(lia)) as I.
    destruct (rb_loop (S len) c1 len nr nr got) as [[n buf] c2].
    assert (Hls : length (stream c) = (length got + length (stream c1))%nat) by (rewrite Hst; apply app_length).
    destruct (len <=? length (stream c))%nat eqn:G.
    + apply Nat.leb_le in G.
      replace (len - length got <=? length (stream c1))%nat with true in I by (symmetry; apply Nat.leb_le; lia).
      destruct I as (I1 & I2 & I3 & I4 & I5).
      assert (Hfn : firstn len (stream c) = got ++ firstn (len - length got) (stream c1)).
      { rewrite Hst, firstn_app, (firstn_all2 got) by lia. reflexivity. }
      split; [rewrite I1; replace (Z.of_nat len =? 0) with false by (symmetry; apply Z.eqb_neq; lia); reflexivity|].
      split; [rewrite Hfn; exact I2|].
      split; [rewrite I2, <- app_assoc, <- I3; exact Hst|]. split; [congruence | exact I5].
    + apply Nat.leb_gt in G.
      replace (len - length got <=? length (stream c1))%nat with false in I by (symmetry; apply Nat.leb_gt; lia).
      destruct I as (I1 & I2). split; [rewrite I2; symmetry; exact Hst|].
      rewrite I1, Hfa, Hls.
      destruct (length got + length (stream c1))%nat as [|[|m]] eqn:Em; [lia | |].
      * destruct (fails c); reflexivity.
      * destruct (fails c); rewrite (proj2 (Z.eqb_neq _ _)) by lia; reflexivity.
  - subst got nr. cbn [rb_loop]. rewrite Hst. cbn [length].
    replace (0 <? (if fails c then -1 else 0)) with false by (destruct (fails c); reflexivity).
    cbn [andb]. replace (len <=? 0)%nat with false by (symmetry; apply Nat.leb_gt; lia).
    split; [reflexivity|]. destruct (fails c); reflexivity.
Qed.

(** ** Protocol *)
Definition kind (e : event) : option msg :=
  match e with Ev h _ _ => Some (read_socket_header h) | Closed => None end.
(** Specification by search through the history, newest message first. *)
Fixpoint search (rhist : list event) : option event :=
  match rhist with
  | [] => None
  | e :: r => match kind e with Some MPosdata | Some MGetforce => Some e | _ => search r end
  end.
Definition undelivered (hist : list event) : bool :=
  match search (rev hist) with Some e => match kind e with Some MPosdata => true | _ => false end | None => false end.
Definition is_pos (e : event) : bool := match kind e with Some MPosdata => true | _ => false end.
Definition cfg_of (e : event) : option Z :=
  match e with Ev _ (PosOk c) _ => if is_pos e then Some c else None | _ => None end.
Fixpoint newest_cfg (rhist : list event) : option Z :=
  match rhist with [] => None | e :: r => match cfg_of e with Some c => Some c | None => newest_cfg r end end.
Definition expected_reply (hist : list event) (e : event) : list reply :=
  match kind e with
  | Some MStatus => [if undelivered hist then HaveData else Ready]
  | Some MGetforce => [Force (newest_cfg (rev hist))]
  | _ => []
  end.
Definition pos_count (es : list event) : Z := Z.of_nat (length (filter is_pos es)).
(** Messages that neither end the run nor fail. *)
Definition healthy (e : event) : Prop :=
  match e with
  | Closed => False
  | Ev h p wok => wok = true /\ read_socket_header h <> MOther /\
                  (read_socket_header h = MPosdata -> exists c, p = PosOk c)
  end.

Lemma header_kinds h : In (read_socket_header h) [MStatus; MPosdata; MGetforce; MSetparam; MOther].
Proof.
  unfold read_socket_header.
  destruct (header_is h K_STATUS); [cbn; tauto|]. destruct (header_is h K_POSDATA); [cbn; tauto|].
  destruct (header_is h K_GETFORCE); [cbn; tauto|]. destruct (header_is h K_SETPARAM); cbn; tauto.
Qed.

Lemma pos_count_app a b : pos_count (a ++ b) = pos_count a + pos_count b.
Proof. unfold pos_count. rewrite filter_app, app_length. lia. Qed.
Lemma pos_count_nonneg a : 0 <= pos_count a.
Proof. unfold pos_count. lia. Qed.

Definition matches (s : sst) (hist : list event) : Prop :=
  count s = pos_count hist /\ hasdata s = undelivered hist /\ last_cfg s = newest_cfg (rev hist).

Lemma matches_step s hist e : matches s hist -> healthy e ->
  match e with
  | Closed => False
  | Ev h p wok =>
    match read_socket_header h with
    | MStatus => matches (add_reply s (if hasdata s then HaveData else Ready)) (hist ++ [e])
    | MPosdata => forall c, p = PosOk c -> matches (mkS (count s + 1) true (Some c) (computed s ++ [c]) (replies s)) (hist ++ [e])
    | MGetforce => matches (mkS (count s) false (last_cfg s) (computed s) (replies s ++ [Force (last_cfg s)])) (hist ++ [e])
    | MSetparam => matches s (hist ++ [e])
    | _ => True
    end
  end.
Proof.
  intros (M1 & M2 & M3) H. destruct e as [h p wok |]; [|exact H].
  unfold matches, undelivered in *. rewrite pos_count_app.
  pose proof (header_kinds h) as K.
  assert (P : pos_count [Ev h p wok] = match read_socket_header h with MPosdata => 1 | _ => 0 end).
  { unfold pos_count, is_pos. cbn [filter kind]. destruct (read_socket_header h); reflexivity. }
  rewrite P. rewrite !rev_app_distr. cbn [rev app search newest_cfg kind].
  destruct (read_socket_header h) eqn:EK; try exact I; cbn [count hasdata last_cfg add_reply].
  - split; [lia|]. split; [exact M2|]. rewrite M3.
    unfold cfg_of. destruct p; try reflexivity. unfold is_pos. cbn [kind]. rewrite EK. reflexivity.
  - intros c ->. split; [lia|]. split; [cbn [kind]; rewrite EK; reflexivity|]. unfold cfg_of, is_pos. cbn [kind]. rewrite EK. reflexivity.
  - split; [lia|]. split; [cbn [kind]; rewrite EK; reflexivity|]. rewrite M3.
    unfold cfg_of. destruct p; try reflexivity. unfold is_pos. cbn [kind]. rewrite EK. reflexivity.
  - split; [lia|]. split; [exact M2|]. rewrite M3.
    unfold cfg_of. destruct p; try reflexivity. unfold is_pos. cbn [kind]. rewrite EK. reflexivity.
Qed.

Fixpoint expected (hist es : list event) : list reply :=
  match es with
  | [] => []
  | e :: r => expected_reply hist e ++ expected (hist ++ [e]) r
  end.

Lemma main_Socket_open max : forall es hist s,
  matches s hist -> Forall healthy es -> pos_count (hist ++ es) <= max ->
  exists s', main_Socket max s es = (s', Waiting) /\ matches s' (hist ++ es) /\
    replies s' = replies s ++ expected hist es.
Proof.
  induction es as [|e r IH]; intros hist s M H C.
  - rewrite app_nil_r in *. exists s. cbn [main_Socket expected]. rewrite app_nil_r.
    destruct M as (M1 & M2 & M3). rewrite (proj2 (Z.leb_le _ _)) by lia.
    split; [reflexivity|]. split; [repeat split; assumption | reflexivity].
  - inversion H as [|? ? He Hr]; subst.
    pose proof (matches_step s hist e M He) as St.
    assert (Hc : count s <= max).
    { destruct M as (M1 & _ & _). rewrite pos_count_app in C. pose proof (pos_count_nonneg (e :: r)). lia. }
    replace (hist ++ e :: r) with ((hist ++ [e]) ++ r) in * by (rewrite <- app_assoc; reflexivity).
    destruct e as [h p wok |]; [|destruct He].
    cbn [main_Socket]. rewrite (proj2 (Z.leb_le _ _) Hc).
    cbn [expected]. unfold expected_reply. cbn [kind].
    destruct He as (Hw & Ho & Hp). subst wok.
    destruct M as (M1 & M2 & M3).
    pose proof (header_kinds h) as K.
    destruct (read_socket_header h) eqn:EK; try (cbn in K; intuition discriminate).
    + destruct (IH _ _ St Hr C) as (s' & E & M' & R). exists s'.
      split; [exact E|]. split; [exact M'|]. rewrite R. cbn [add_reply replies].
      rewrite <- app_assoc, M2. reflexivity.
    + destruct (Hp eq_refl) as (c & ->).
      destruct (IH _ _ (St c eq_refl) Hr C) as (s' & E & M' & R). exists s'.
      split; [exact E|]. split; [exact M'|]. rewrite R. reflexivity.
    + destruct (IH _ _ St Hr C) as (s' & E & M' & R). exists s'.
      split; [exact E|]. split; [exact M'|]. rewrite R. cbn [add_reply replies].
      rewrite <- app_assoc, M3. reflexivity.
    + destruct (IH _ _ St Hr C) as (s' & E & M' & R). exists s'.
      split; [exact E|]. split; [exact M'|]. rewrite R. reflexivity.
Qed.

(** The number of computed configurations never exceeds the limit plus one. *)
Lemma main_Socket_bound max : forall es s,
  Z.of_nat (length (computed s)) <= count s -> count s <= Z.max 0 (max + 1) ->
  Z.of_nat (length (computed (fst (main_Socket max s es)))) <= Z.max 0 (max + 1).
Proof.
  induction es as [|e r IH]; intros s A B; cbn [main_Socket].
  - destruct (count s <=? max); cbn [fst]; lia.
  - destruct (count s <=? max) eqn:E; [|cbn [fst]; lia]. apply Z.leb_le in E.
    destruct e as [h p wok |]; [|cbn [fst]; lia].
    destruct (read_socket_header h); try (cbn [fst computed]; lia).
    + destruct wok; [apply IH; cbn; lia | cbn [fst]; lia].
    + destruct p; try (cbn [fst computed]; lia). apply IH; cbn [count computed].
      * rewrite app_length. cbn [length]. lia.
      * lia.
    + destruct wok; [apply IH; cbn; lia | cbn [fst]; lia].
Qed.

(** ** Reply codes *)
Lemma land_one_odd a : Z.land 1 a = if Z.odd a then 1 else 0.
Proof.
  rewrite Z.land_comm. change 1 with (Z.ones 1). rewrite Z.land_ones by lia.
  change (2 ^ 1) with 2. rewrite Zmod_odd. reflexivity.
Qed.
Lemma forces_fold_zero rs : fold_left (fun a r => Z.land a (r + 1)) rs 0 = 0.
Proof. induction rs as [|r rs IH]; [reflexivity|]. cbn [fold_left]. rewrite Z.land_0_l. exact IH. Qed.
Lemma forces_ret_spec rs : forces_ret rs = if forallb Z.even rs then 0 else -1.
Proof.
  unfold forces_ret. induction rs as [|r rs IH]; [reflexivity|].
  cbn [fold_left forallb]. rewrite land_one_odd.
  replace (Z.odd (r + 1)) with (Z.even r) by (rewrite Z.add_1_r, Z.odd_succ; reflexivity).
  destruct (Z.even r); cbn [andb]; [exact IH|]. rewrite forces_fold_zero. reflexivity.
Qed.
