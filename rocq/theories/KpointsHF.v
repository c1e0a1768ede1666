(** Lemmas about the Hartree-Fock k-point maps of Kpoints.v (no new model code). *)
From Coq Require Import ZArith QArith Qabs List Lia Bool Lqa Permutation.
From Verif Require Import CBase Spline Wrap Kpoints.
Import ListNotations.
Local Open Scope nat_scope.

(** ** Counting the chosen points *)
Lemma count_multiples s k : 0 < s ->
  length (filter (fun i => (i + 1) mod s =? 0) (seq 0 k)) = k / s.
Proof.
  intros Hs. induction k as [|k IH]; [rewrite Nat.div_0_l by lia; reflexivity|].
  rewrite seq_S, filter_app, app_length, IH. cbn [filter Nat.add].
  pose proof (Nat.div_mod k s ltac:(lia)) as D. pose proof (Nat.mod_upper_bound k s ltac:(lia)) as U.
  destruct (Nat.eqb_spec ((k + 1) mod s) 0) as [E|E]; cbn [length].
  - pose proof (Nat.div_mod (k + 1) s ltac:(lia)) as D'. rewrite E in D'.
    replace (S k) with (k + 1) by lia. nia.
  - pose proof (Nat.div_mod (k + 1) s ltac:(lia)) as D'. pose proof (Nat.mod_upper_bound (k + 1) s ltac:(lia)) as U'.
    replace (S k) with (k + 1) by lia. nia.
Qed.

Definition cnt (d : dir) (s : Z) : nat := length (filter (flag_c d s) (range d)).

Lemma filter_map_length {A B} (f : A -> B) p (l : list A) : length (filter p (map f l)) = length (filter (fun a => p (f a)) l).
Proof. induction l as [|a l IH]; cbn; [reflexivity|]. destruct (p (f a)); cbn; lia. Qed.
Lemma filter_length_ext {A} (p q : A -> bool) l : (forall a, In a l -> p a = q a) -> length (filter p l) = length (filter q l).
Proof. induction l as [|a l IH]; cbn; intros H; [reflexivity|]. rewrite (H a) by auto. destruct (q a); cbn; rewrite IH; auto. Qed.
Lemma all_equal_le1 {A} (l : list A) : NoDup l -> (forall a b, In a l -> In b l -> a = b) -> length l <= 1.
Proof.
  intros N H. destruct l as [|a [|b l]]; cbn; [lia|lia|].
  apply NoDup_cons_iff in N. exfalso. apply (proj1 N). rewrite (H a b); cbn; auto.
Qed.

Lemma cnt_pos d s : (0 < K d)%Z -> (0 < s)%Z -> Z.rem (K d) s = 0%Z -> Z.of_nat (cnt d s) = K_hf d s.
Proof.
  intros HK Hs Hr. unfold cnt, range, K_hf. replace (s =? 0)%Z with false by (symmetry; apply Z.eqb_neq; lia).
  rewrite filter_map_length.
  rewrite (filter_length_ext _ (fun i => (i + 1) mod Z.to_nat s =? 0)).
  - rewrite count_multiples by lia. rewrite Z.quot_div_nonneg by lia.
    rewrite Nat2Z.inj_div, !Z2Nat.id by lia. reflexivity.
  - intros i _. unfold flag_c. replace (s =? 0)%Z with false by (symmetry; apply Z.eqb_neq; lia).
    apply eq_true_iff_eq. rewrite Z.eqb_eq, Nat.eqb_eq.
    replace (n_start d + Z.of_nat i - n_start d + 1)%Z with (Z.of_nat (i + 1)) by lia.
    rewrite Z.rem_mod_nonneg by lia. rewrite <- (Z2Nat.id s) at 1 by lia. rewrite <- Nat2Z.inj_mod. lia.
Qed.
Lemma cnt_zero_le d : dir_ok d -> cnt d 0 <= 1.
Proof.
  intros Od. unfold cnt. apply all_equal_le1; [apply NoDup_filter, range_nodup|].
  intros a b Ha Hb. apply filter_In in Ha. apply filter_In in Hb. destruct Ha as [Ra Fa]. destruct Hb as [Rb Fb].
  unfold flag_c in *. cbn in Fa, Fb. destruct (zero_unique d a b Od Fa Fb) as [z E]. exact (window d a b z Ra Rb E).
Qed.
Lemma cnt_le d s : dir_ok d -> ds_rejected d s = false -> (Z.of_nat (cnt d s) <= K_hf d s)%Z.
Proof.
  intros Od R. unfold ds_rejected in R. apply orb_false_iff in R. destruct R as [R1 R2]. apply Z.ltb_ge in R1.
  destruct (Z.eq_dec s 0) as [->|Hs].
  - pose proof (cnt_zero_le d Od). unfold K_hf. cbn. lia.
  - apply andb_false_iff in R2. destruct R2 as [R2|R2]; [apply Z.ltb_ge in R2; lia|].
    apply negb_false_iff, Z.eqb_eq in R2. rewrite cnt_pos by (apply Od || lia). lia.
Qed.
Lemma cnt_eq d s : dir_ok d -> ds_rejected d s = false -> (s = 0%Z -> cnt d 0 <> 0) -> Z.of_nat (cnt d s) = K_hf d s.
Proof.
  intros Od R Hz. unfold ds_rejected in R. apply orb_false_iff in R. destruct R as [R1 R2]. apply Z.ltb_ge in R1.
  destruct (Z.eq_dec s 0) as [->|Hs].
  - pose proof (cnt_zero_le d Od). specialize (Hz eq_refl). unfold K_hf. cbn. lia.
  - apply andb_false_iff in R2. destruct R2 as [R2|R2]; [apply Z.ltb_ge in R2; lia|].
    apply negb_false_iff, Z.eqb_eq in R2. rewrite cnt_pos by (apply Od || lia). lia.
Qed.

Lemma filter_flat_map {A B} p (h : A -> list B) l : filter p (flat_map h l) = flat_map (fun a => filter p (h a)) l.
Proof. induction l as [|a l IH]; cbn; [reflexivity|]. rewrite filter_app, IH. reflexivity. Qed.
Lemma flat_map_cond_length {A B} (h : A -> list B) (p : A -> bool) k l :
  (forall a, In a l -> length (h a) = if p a then k else 0) -> length (flat_map h l) = length (filter p l) * k.
Proof.
  induction l as [|a l IH]; intros H; cbn; [reflexivity|]. rewrite app_length, IH by (intros; apply H; right; auto).
  rewrite (H a) by (left; auto). destruct (p a); cbn; lia.
Qed.
Lemma chosen_count m s : length (filter (chosen m s) (grid m)) = cnt (dx m) (sx s) * (cnt (dy m) (sy s) * cnt (dz m) (sz s)).
Proof.
  unfold grid. rewrite filter_flat_map.
  rewrite (flat_map_cond_length _ (flag_c (dx m) (sx s)) (cnt (dy m) (sy s) * cnt (dz m) (sz s))); [reflexivity|].
  intros a _. rewrite filter_flat_map. destruct (flag_c (dx m) (sx s) a) eqn:Ea.
  - rewrite (flat_map_cond_length _ (flag_c (dy m) (sy s)) (cnt (dz m) (sz s))); [reflexivity|].
    intros b _. rewrite filter_map_length. unfold chosen, cnt; cbn.
    destruct (flag_c (dy m) (sy s) b).
    + apply filter_length_ext. intros c _. rewrite Ea. reflexivity.
    + rewrite (filter_length_ext _ (fun _ => false)); [|intros; rewrite andb_false_r; reflexivity].
      induction (range (dz m)); cbn; auto.
  - rewrite (flat_map_cond_length _ (fun _ => false) 0); [lia|].
    intros b _. rewrite filter_map_length. unfold chosen; cbn. rewrite Ea.
    rewrite (filter_length_ext _ (fun _ => false)) by reflexivity. induction (range (dz m)); cbn; auto.
Qed.

Lemma hf_store_ok m s cap is : forall l, length l + length (filter (chosen m s) is) <= cap ->
  hf_store m s cap is l = Ok (l ++ map (red m) (filter (chosen m s) is)).
Proof.
  induction is as [|i is IH]; intros l H; cbn [hf_store filter]; [cbn; rewrite app_nil_r; reflexivity|].
  cbn in H. destruct (chosen m s i).
  - cbn in H. replace (length l <? cap) with true by (symmetry; apply Nat.ltb_lt; lia).
    rewrite IH by (rewrite app_length; cbn; lia). rewrite <- app_assoc. reflexivity.
  - rewrite IH by lia. reflexivity.
Qed.

Lemma gamma_missing_false d s (comp : idx -> Z) g :
  (forall n, In n (range d) <-> exists i, In i g /\ comp i = n) -> gamma_missing d s comp g = false ->
  s = 0%Z -> cnt d 0 <> 0.
Proof.
  intros Hc H ->. unfold gamma_missing in H. cbn in H. apply negb_false_iff, existsb_exists in H.
  destruct H as [i [Hi Fi]]. unfold cnt. intros Z.
  assert (X : In (comp i) (filter (flag_c d 0) (range d))).
  { apply filter_In. split; [apply Hc; eauto|exact Fi]. }
  destruct (filter (flag_c d 0) (range d)); [destruct X|discriminate].
Qed.
Lemma range_nonempty d : (0 < K d)%Z -> In (n_start d) (range d).
Proof. intros. apply in_range. lia. Qed.
Lemma grid_comp m : mesh_ok m ->
  (forall n, In n (range (dx m)) <-> exists i, In i (grid m) /\ i1 i = n) /\
  (forall n, In n (range (dy m)) <-> exists i, In i (grid m) /\ i2 i = n) /\
  (forall n, In n (range (dz m)) <-> exists i, In i (grid m) /\ i3 i = n).
Proof.
  intros [[Hx _] [[Hy _] [Hz _]]].
  pose proof (range_nonempty _ Hx). pose proof (range_nonempty _ Hy). pose proof (range_nonempty _ Hz).
  split; [|split]; intros n; (split; [intros Hn|intros [i [Hi <-]]; apply in_grid in Hi; tauto]).
  - exists (Ix n (n_start (dy m)) (n_start (dz m))). rewrite in_grid. cbn. tauto.
  - exists (Ix (n_start (dx m)) n (n_start (dz m))). rewrite in_grid. cbn. tauto.
  - exists (Ix (n_start (dx m)) (n_start (dy m)) n). rewrite in_grid. cbn. tauto.
Qed.

(** ** Links *)
Lemma find_same_spec m ks h : forall i,
  match find_same m i ks h with
  | Some k => exists q, nth_error ks (k - i) = Some q /\ i <= k /\ same m q h = true
  | None => forall q, In q ks -> same m q h = false
  end.
Proof.
  induction ks as [|q ks IH]; intros i; cbn; [intros q []|].
  destruct (same m q h) eqn:E.
  - exists q. rewrite Nat.sub_diag. auto.
  - specialize (IH (S i)). destruct (find_same m (S i) ks h) as [k|].
    + destruct IH as [q' [H1 [H2 H3]]]. exists q'. replace (k - i) with (S (k - S i)) by lia. cbn. repeat split; auto; lia.
    + intros q' [<-|H]; auto.
Qed.
Lemma find_opp_spec m ks h : forall i cur,
  (exists q, In q ks /\ opposite m q h = true) ->
  exists q, nth_error ks (find_opp m i ks h cur - i) = Some q /\ i <= find_opp m i ks h cur /\ opposite m q h = true.
Proof.
  induction ks as [|q ks IH]; intros i cur [q' [Hq Ho]]; [destruct Hq|]. cbn [find_opp].
  destruct (existsb (fun x => opposite m x h) ks) eqn:X.
  - apply existsb_exists in X. destruct (IH (S i) (if opposite m q h then i else cur)) as [x [H1 [H2 H3]]]; [exact X|].
    exists x. set (r := find_opp _ _ _ _ _) in *. replace (r - i) with (S (r - S i)) by lia. cbn. repeat split; auto; lia.
  - assert (N : forall x, In x ks -> opposite m x h = false).
    { intros x Hx. destruct (opposite m x h) eqn:Y; [|reflexivity].
      assert (existsb (fun x => opposite m x h) ks = true) by (apply existsb_exists; eauto). congruence. }
    assert (Hqq : q = q') by (destruct Hq as [Hq|Hq]; [exact Hq|rewrite N in Ho by exact Hq; discriminate]).
    subst q'. rewrite Ho.
    assert (F : forall l j c, (forall x, In x l -> opposite m x h = false) -> find_opp m j l h c = c).
    { induction l as [|x l IHl]; intros j c Hl; cbn; [reflexivity|]. rewrite (Hl x) by (left; auto). apply IHl. intros; apply Hl; right; auto. }
    rewrite F by exact N. exists q. rewrite Nat.sub_diag. auto.
Qed.

Definition g_pt (m : mesh) (g : list gent) : list pt := map (fun e : gent => red m (fst e)) g.

(** what a link says: the ghost entry at the index owns the grid point *)
Lemma hf_link_spec m g i : mesh_ok m -> ghost m (grid m) g -> In i (grid m) ->
  exists e, nth_error g (fst (hf_link m (g_pt m g) (red m i))) = Some e /\
    ((snd (hf_link m (g_pt m g) (red m i)) = true /\ fst e = i) \/
     (snd (hf_link m (g_pt m g) (red m i)) = false /\ snd e = Some i)).
Proof.
  intros Om [Pm Ho] Hi.
  assert (HG : forall e j, In e g -> In j (g_idx e) -> In j (grid m)).
  { intros e j He Hj. eapply Permutation_in; [apply Permutation_sym; exact Pm|]. apply in_flat_map. eauto. }
  unfold hf_link. pose proof (find_same_spec m (g_pt m g) (red m i) 0) as FS.
  destruct (find_same m 0 (g_pt m g) (red m i)) as [k|].
  - destruct FS as [q [H1 [_ H3]]]. rewrite Nat.sub_0_r in H1. unfold g_pt in H1.
    rewrite nth_error_map in H1. destruct (nth_error g k) as [e|] eqn:E; cbn in H1; [|discriminate].
    injection H1 as <-. cbn [fst snd]. exists e. split; [exact E|]. left. split; [reflexivity|].
    eapply same_unique; [exact Om| |exact Hi|exact H3]. apply (HG e); [eapply nth_error_In; eassumption|left; reflexivity].
  - pose proof (Permutation_in _ Pm Hi) as Hf. apply in_flat_map in Hf. destruct Hf as [[f o] [He Hie]].
    assert (o = Some i).
    { destruct Hie as [<-|Hie].
      - exfalso. assert (F : same m (red m f) (red m f) = false).
        { apply FS. apply in_map_iff. exists (f, o). auto. }
        rewrite same_refl in F by exact Om. discriminate.
      - cbn in Hie. destruct o; [|destruct Hie]. destruct Hie as [<-|[]]. reflexivity. }
    subst o. pose proof (Ho _ _ He) as Hopp.
    destruct (find_opp_spec m (g_pt m g) (red m i) 0 0) as [q [H1 [_ H3]]].
    { exists (red m f). split; [apply in_map_iff; exists (f, Some i); auto|]. rewrite opposite_sym. exact Hopp. }
    cbn [fst snd]. set (k := find_opp m 0 (g_pt m g) (red m i) 0) in *. rewrite Nat.sub_0_r in H1. unfold g_pt in H1.
    rewrite nth_error_map in H1. destruct (nth_error g k) as [[f' o']|] eqn:E; cbn in H1; [|discriminate].
    injection H1 as <-. exists (f', o'). split; [reflexivity|]. right. split; [reflexivity|]. cbn.
    pose proof (nth_error_In _ _ E) as He'.
    assert (f' = f).
    { eapply opposite_unique; [exact Om| | |exact H3|rewrite opposite_sym; exact Hopp].
      - apply (HG (f', o')); [exact He'|left; reflexivity].
      - apply (HG (f, Some i)); [exact He|left; reflexivity]. }
    subst f'.
    assert (N : NoDup (flat_map g_idx g)) by (eapply Permutation_NoDup; [exact Pm|apply grid_nodup]).
    clear - He He' N.
    assert (U : forall a b, In a g -> In b g -> fst a = fst b -> a = b).
    { clear - N. induction g as [|x g IH]; intros a b Ha Hb Hab; [destruct Ha|]. cbn [flat_map] in N.
      assert (N2 : NoDup (flat_map g_idx g)).
      { clear - N. induction (g_idx x); cbn in N; [exact N|]. apply NoDup_cons_iff in N. apply IHl, N. }
      assert (D : forall y, In y g -> fst y <> fst x).
      { intros y Hy C. unfold g_idx in N at 1. cbn in N. apply NoDup_cons_iff in N. apply (proj1 N).
        rewrite <- C. apply in_or_app. right. apply in_flat_map. exists y. split; [exact Hy|left; reflexivity]. }
      destruct Ha as [<-|Ha], Hb as [<-|Hb]; auto.
      - exfalso. apply (D b Hb). auto.
      - exfalso. apply (D a Ha). auto. }
    specialize (U _ _ He He' eq_refl). congruence.
Qed.

(** ** The reduced list *)
Definition indof (m : mesh) (ks : list pt) (i : idx) : nat := fst (hf_link m ks (red m i)).

Lemma red_loop_spec cap inds : forall seen acc,
  NoDup acc -> (forall k, In k seen <-> In k acc) -> (forall k, In k seen -> k < cap) -> (forall k, In k inds -> k < cap) ->
  exists rl, red_loop cap seen inds acc = Ok rl /\ NoDup rl /\ (forall k, In k rl <-> In k seen \/ In k inds).
Proof.
  induction inds as [|k inds IH]; intros seen acc N S B C; cbn [red_loop].
  - exists acc. split; [reflexivity|]. split; [exact N|]. intros k. rewrite S. cbn. tauto.
  - destruct (existsb (Nat.eqb k) seen) eqn:E.
    + apply existsb_exists in E. destruct E as [x [Hx Ex]]. apply Nat.eqb_eq in Ex. subst x.
      destruct (IH (seen ++ [k]) acc N) as [rl [R1 [R2 R3]]].
      * intros j. rewrite in_app_iff. cbn. rewrite <- S. split; [intros [H|[<-|[]]]; auto|auto].
      * intros j. rewrite in_app_iff. cbn. intros [H|[<-|[]]]; auto.
      * intros; apply C; right; auto.
      * exists rl. split; [exact R1|]. split; [exact R2|]. intros j. rewrite R3, in_app_iff. cbn. tauto.
    + assert (Hk : ~ In k seen).
      { intros H. assert (existsb (Nat.eqb k) seen = true) by (apply existsb_exists; exists k; split; [exact H|apply Nat.eqb_refl]). congruence. }
      assert (Nk : NoDup (k :: acc)) by (constructor; [rewrite <- S; exact Hk|exact N]).
      assert (L : length (k :: acc) <= cap).
      { rewrite <- (seq_length cap 0). apply NoDup_incl_length; [exact Nk|]. intros j [<-|Hj]; apply in_seq.
        - specialize (C k (or_introl eq_refl)). lia.
        - apply S in Hj. apply B in Hj. lia. }
      cbn in L. replace (length acc <? cap) with true by (symmetry; apply Nat.ltb_lt; lia).
      destruct (IH (seen ++ [k]) (acc ++ [k])) as [rl [R1 [R2 R3]]].
      * eapply Permutation_NoDup; [apply Permutation_cons_append|exact Nk].
      * intros j. rewrite !in_app_iff, S. tauto.
      * intros j. rewrite in_app_iff. cbn. intros [H|[<-|[]]]; [auto|apply C; left; reflexivity].
      * intros; apply C; right; auto.
      * exists rl. split; [exact R1|]. split; [exact R2|]. intros j. rewrite R3, in_app_iff. cbn. tauto.
Qed.
Lemma hf_red_list_spec cap inds : inds <> [] -> (forall k, In k inds -> k < cap) ->
  exists rl, hf_red_list cap inds = Ok rl /\ NoDup rl /\ (forall k, In k rl <-> In k inds).
Proof.
  intros H C. destruct inds as [|k inds]; [contradiction|]. cbn [hf_red_list].
  replace (0 <? cap) with true by (symmetry; apply Nat.ltb_lt; specialize (C k (or_introl eq_refl)); lia).
  destruct (red_loop_spec cap inds [k] [k]) as [rl [R1 [R2 R3]]].
  - constructor; [intros []|constructor].
  - tauto.
  - intros j [<-|[]]. apply C. left; auto.
  - intros; apply C; right; auto.
  - exists rl. split; [exact R1|]. split; [exact R2|]. intros j. rewrite R3. cbn. tauto.
Qed.

(** ** The inverse map *)
(** positions of [k] in [l] *)
Definition pos (l : list nat) (k : nat) : list nat := filter (fun a => nth a l 0 =? k) (seq 0 (length l)).
Lemma pos_app l x k : pos (l ++ [x]) k = pos l k ++ (if x =? k then [length l] else []).
Proof.
  unfold pos. rewrite app_length, seq_app, filter_app. cbn [length seq filter Nat.add].
  rewrite app_nth2, Nat.sub_diag by lia. cbn [nth]. f_equal.
  apply filter_ext_in. intros a Ha. apply in_seq in Ha. rewrite app_nth1 by lia. reflexivity.
Qed.
Lemma pos_length l k : length (pos l k) = count_occ Nat.eq_dec l k.
Proof.
  induction l as [|x l IH] using rev_ind; [reflexivity|]. rewrite pos_app, app_length, IH, count_occ_app. cbn.
  destruct (Nat.eqb_spec x k); destruct (Nat.eq_dec x k); cbn; try lia; contradiction.
Qed.
Lemma find_nat_spec l k : forall i, match find_nat i l k with
  | Some j => i <= j /\ nth_error l (j - i) = Some k
  | None => ~ In k l end.
Proof.
  induction l as [|x l IH]; intros i; cbn; [tauto|]. destruct (Nat.eqb_spec k x) as [->|H].
  - rewrite Nat.sub_diag. auto.
  - specialize (IH (S i)). destruct (find_nat (S i) l k) as [j|].
    + destruct IH as [L E]. split; [lia|]. replace (j - i) with (S (j - S i)) by lia. exact E.
    + intros [C|C]; [congruence|contradiction].
Qed.
Lemma inv_loop_spec rl inds : NoDup rl -> forall pre rws ir,
  (forall k, In k inds -> In k rl) -> (forall k, count_occ Nat.eq_dec (pre ++ inds) k <= 2) ->
  (forall j k, nth_error rl j = Some k -> rws j = pos pre k) ->
  (length ir = length pre) -> (forall a k, nth_error pre a = Some k -> exists j, nth_error ir a = Some j /\ nth_error rl j = Some k) ->
  exists rws' ir', inv_loop rl (length pre) inds rws ir = Ok (rws', ir') /\
    (forall j k, nth_error rl j = Some k -> rws' j = pos (pre ++ inds) k) /\
    length ir' = length (pre ++ inds) /\
    (forall a k, nth_error (pre ++ inds) a = Some k -> exists j, nth_error ir' a = Some j /\ nth_error rl j = Some k).
Proof.
  intros N. induction inds as [|k inds IH]; intros pre rws ir HI HC HR HL HA.
  - exists rws, ir. rewrite app_nil_r. cbn. auto.
  - cbn [inv_loop]. pose proof (find_nat_spec rl k 0) as F.
    destruct (find_nat 0 rl k) as [j|]; [|exfalso; apply F, HI; left; auto].
    destruct F as [_ F]. rewrite Nat.sub_0_r in F. unfold push.
    assert (Lc : length (rws j) < 2).
    { rewrite (HR j k F), pos_length. specialize (HC k). rewrite count_occ_app in HC. cbn in HC.
      destruct (Nat.eq_dec k k); [lia|contradiction]. }
    replace (length (rws j) <? 2) with true by (symmetry; apply Nat.ltb_lt; exact Lc). cbn [obind].
    replace (S (length pre)) with (length (pre ++ [k])) by (rewrite app_length; cbn; lia).
    destruct (IH (pre ++ [k]) (fun j0 => if j0 =? j then rws j ++ [length pre] else rws j0) (ir ++ [j])) as [rw [ir' [R1 [R2 [R3 R4]]]]].
    + intros; apply HI; right; auto.
    + intros x. rewrite <- app_assoc. apply HC.
    + intros j' k' H. rewrite pos_app. destruct (Nat.eqb_spec j' j) as [->|Hj].
      * rewrite F in H. injection H as <-. rewrite Nat.eqb_refl, (HR j k F). reflexivity.
      * destruct (Nat.eqb_spec k k') as [<-|Hk]; [|rewrite app_nil_r; apply HR; exact H].
        exfalso. apply Hj. apply (proj1 (NoDup_nth_error rl) N).
        -- apply nth_error_Some. congruence.
        -- congruence.
    + rewrite !app_length, HL. reflexivity.
    + intros a x H. destruct (Nat.lt_ge_cases a (length pre)) as [La|La].
      * rewrite nth_error_app1 in H by exact La. rewrite nth_error_app1 by lia. apply HA. exact H.
      * rewrite nth_error_app2 in H by lia. destruct (a - length pre) as [|z] eqn:Ea; cbn in H; [|destruct z; discriminate].
        injection H as <-. exists j. rewrite nth_error_app2 by lia. rewrite HL, Ea. auto.
    + exists rw, ir'. rewrite <- app_assoc in R2, R3, R4. auto.
Qed.

Lemma count_occ_map_filter {A} (f : A -> nat) l k : count_occ Nat.eq_dec (map f l) k = length (filter (fun a => f a =? k) l).
Proof.
  induction l as [|a l IH]; cbn; [reflexivity|]. destruct (Nat.eq_dec (f a) k) as [E|E].
  - rewrite E, Nat.eqb_refl. cbn. lia.
  - replace (f a =? k) with false by (symmetry; apply Nat.eqb_neq; exact E). exact IH.
Qed.
