(** Lemmas on the model of the set-up of the DFT+U correction. *)
From Coq Require Import ZArith QArith Qround List Lia Bool Lqa.
From Verif Require Import CBase Nloc NlocLem VnlOp VnlLem HubInit HubInitSpec.
Import ListNotations.
Local Open Scope Z_scope.

Lemma zseq_seq a n : zseq a n = map (fun i => a + Z.of_nat i) (seq 0 n).
Proof.
  revert a. induction n as [|n IH]; intros a; cbn [zseq seq map]; [reflexivity|].
  rewrite IH, <- seq_shift, map_map. f_equal; [lia|]. apply map_ext. intros i. lia.
Qed.

Lemma zrange_seq n : zrange 0 (Z.of_nat n - 1) = map Z.of_nat (seq 0 n).
Proof.
  unfold zrange. replace (Z.to_nat (Z.of_nat n - 1 - 0 + 1)) with n by lia.
  rewrite zseq_seq. apply map_ext. intros i. lia.
Qed.

Lemma corr_eq (U : Z -> Q) (l : Z) : negb (Qltb (U l) TEMP_TOL) = Qle_bool (1 # 1000000000000) (U l).
Proof. unfold Qltb, TEMP_TOL. now rewrite negb_involutive. Qed.

(** ** Sizes *)
Lemma rdU_ok U l : 0 <= l <= 3 -> rdU U l = Ok (U l).
Proof. intros H. unfold rdU. destruct (Z.leb_spec 0 l), (Z.leb_spec l 3); try lia. reflexivity. Qed.

Lemma orbs_app l m : orbs (l ++ m) = orbs l ++ orbs m.
Proof. unfold orbs. apply flat_map_app. Qed.

Lemma orbs_cons l ls : orbs (l :: ls) = repeat l (Z.to_nat (2 * l + 1)) ++ orbs ls.
Proof. reflexivity. Qed.

Lemma orbs_in ls l : In l (orbs ls) -> In l ls.
Proof.
  unfold orbs. rewrite in_flat_map. intros (x & Hx & Hl). apply repeat_spec in Hl. now subst.
Qed.

Lemma angnum_gen t ls n : (forall l, In l ls -> 0 <= l <= 3) ->
  ofold (fun n l => do u <- rdU (h_U t) l ; if Qltb u TEMP_TOL then Ok n else Ok (n + (2 * l + 1))) n ls
  = Ok (n + Z.of_nat (length (orbs (filter (fun l => Qle_bool (1 # 1000000000000) (h_U t l)) ls)))).
Proof.
  revert n. induction ls as [|l ls IH]; intros n H; cbn [ofold filter].
  - f_equal. cbn. lia.
  - assert (HL : 0 <= l <= 3) by (apply H; now left).
    rewrite rdU_ok by exact HL. cbn [obind].
    rewrite <- corr_eq. destruct (Qltb (h_U t l) TEMP_TOL); cbn [obind negb].
    + apply IH. intros; apply H; now right.
    + rewrite IH by (intros; apply H; now right). f_equal.
      rewrite orbs_cons, app_length, repeat_length. lia.
Qed.

Lemma in_ls t l : (length (h_shells t) <= 4)%nat -> In l (map Z.of_nat (seq 0 (length (h_shells t)))) -> 0 <= l <= 3.
Proof. intros H. rewrite in_map_iff. intros (i & <- & Hi). apply in_seq in Hi. lia. Qed.

Lemma angnum_ok t : (length (h_shells t) <= 4)%nat -> angnum t = Ok (norb t).
Proof.
  intros H. unfold angnum, maxl. rewrite zrange_seq, angnum_gen.
  - reflexivity.
  - intros l. now apply in_ls.
Qed.

Lemma wr_seq {A} (x : A) : forall n a c s, 0 <= c -> c + Z.of_nat n <= sz a ->
  exists a', ofold (fun st (_ : Z) => do b <- wr (fst st) (snd st) x ; Ok (b, snd st + 1)) (a, c) (zseq s n)
    = Ok (a', c + Z.of_nat n) /\ sz a' = sz a /\
  forall i, at_ a' i = if (c <=? i) && (i <? c + Z.of_nat n) then x else at_ a i.
Proof.
  induction n as [|n IH]; intros a c s H0 H1; cbn [zseq ofold].
  - exists a. split; [do 2 f_equal; lia|]. split; [reflexivity|]. intros i.
    destruct (Z.leb_spec c i), (Z.ltb_spec i (c + Z.of_nat 0)); cbn; try reflexivity; lia.
  - cbn [fst snd]. rewrite wr_ok by lia. cbn [obind].
    destruct (IH (Arr (sz a) (fun j => if j =? c then x else at_ a j)) (c + 1) (s + 1))
      as (a' & E & SZ & V); [lia|cbn [sz]; lia|].
    exists a'. split; [rewrite E; do 2 f_equal; lia|]. split; [exact SZ|]. intros i. rewrite V. cbn [at_].
    destruct (Z.leb_spec (c + 1) i), (Z.ltb_spec i (c + 1 + Z.of_nat n)), (Z.leb_spec c i),
      (Z.ltb_spec i (c + Z.of_nat (S n))), (Z.eqb_spec i c); cbn; try reflexivity; lia.
Qed.

Lemma fill_gen {A} t (v : Z -> outcome A) (w : Z -> A) (d : A) ls :
  (forall l, In l ls -> 0 <= l <= 3) ->
  (forall l, In l (filter (fun l => Qle_bool (1 # 1000000000000) (h_U t l)) ls) -> v l = Ok (w l)) ->
  forall a c, let os := orbs (filter (fun l => Qle_bool (1 # 1000000000000) (h_U t l)) ls) in
  0 <= c -> c + Z.of_nat (length os) <= sz a ->
  exists a', ofold (fun st l =>
    do u <- rdU (h_U t) l ;
    if Qltb u TEMP_TOL then Ok st else
    do x <- v l ;
    ofold (fun st (_ : Z) => do b <- wr (fst st) (snd st) x ; Ok (b, snd st + 1)) st (zrange (- l) l))
    (a, c) ls = Ok (a', c + Z.of_nat (length os)) /\ sz a' = sz a /\
  forall i, at_ a' i = if (c <=? i) && (i <? c + Z.of_nat (length os))
                       then nth (Z.to_nat (i - c)) (map w os) d else at_ a i.
Proof.
  induction ls as [|l ls IH]; intros HL HV a c os H0 H1; cbn [ofold].
  - exists a. unfold os. cbn [filter orbs flat_map length]. split; [do 2 f_equal; lia|]. split; [reflexivity|].
    intros i. destruct (Z.leb_spec c i), (Z.ltb_spec i (c + Z.of_nat 0)); cbn; try reflexivity; lia.
  - assert (H3 : 0 <= l <= 3) by (apply HL; now left).
    rewrite rdU_ok by exact H3. cbn [obind]. unfold os in *. cbn [filter] in *.
    rewrite <- corr_eq in *. destruct (Qltb (h_U t l) TEMP_TOL) eqn:EU; cbn [negb obind] in *.
    + apply (IH (fun l' H => HL l' (or_intror H)) HV a c H0 H1).
    + rewrite (HV l) by now left. cbn [obind].
      rewrite orbs_cons in *. rewrite app_length, repeat_length in *.
      change (zrange (- l) l) with (zseq (- l) (Z.to_nat (l - - l + 1))).
      replace (Z.to_nat (l - - l + 1)) with (Z.to_nat (2 * l + 1)) by lia.
      destruct (wr_seq (w l) (Z.to_nat (2 * l + 1)) a c (- l)) as (a1 & E1 & S1 & V1); [lia|lia|].
      rewrite E1. cbn [obind].
      destruct (IH (fun l' H => HL l' (or_intror H)) (fun l' H => HV l' (or_intror H)) a1 (c + Z.of_nat (Z.to_nat (2 * l + 1))))
        as (a2 & E2 & S2 & V2); [lia|rewrite S1; lia|].
      exists a2. split; [rewrite E2; do 2 f_equal; lia|]. split; [congruence|]. intros i.
      rewrite V2, V1, map_app.
      set (n1 := Z.to_nat (2 * l + 1)) in *. set (os' := orbs _) in *.
      destruct (Z.leb_spec (c + Z.of_nat n1) i), (Z.ltb_spec i (c + Z.of_nat n1 + Z.of_nat (length os'))),
        (Z.leb_spec c i), (Z.ltb_spec i (c + Z.of_nat (n1 + length os'))), (Z.ltb_spec i (c + Z.of_nat n1));
        cbn; try reflexivity; try lia.
      * rewrite app_nth2 by (rewrite map_length, repeat_length; lia).
        rewrite map_length, repeat_length. f_equal. lia.
      * rewrite app_nth1 by (rewrite map_length, repeat_length; lia).
        rewrite (nth_indep _ d (w l)) by (rewrite map_length, repeat_length; lia).
        rewrite map_nth. now rewrite (nth_repeat l).
Qed.

Lemma nth_map_in {A B} (f : A -> B) l i d e : (i < length l)%nat -> nth i (map f l) d = f (nth i l e).
Proof. intros H. rewrite (nth_indep _ d (f e)) by (now rewrite map_length). apply map_nth. Qed.

Lemma fill_ok {A} t (v : Z -> outcome A) (w : Z -> A) (d : A) a :
  (length (h_shells t) <= 4)%nat -> (forall l, In l (chosen t) -> v l = Ok (w l)) -> sz a = norb t ->
  exists a', fill t v a = Ok a' /\ sz a' = norb t /\
    forall i, 0 <= i < norb t -> at_ a' i = w (orb t i).
Proof.
  intros H HV Ha. unfold fill, maxl. rewrite zrange_seq.
  destruct (fill_gen t v w d (map Z.of_nat (seq 0 (length (h_shells t)))) (fun l => in_ls t l H) HV a 0)
    as (a' & E & SZ & V); [lia|unfold norb in Ha; fold (chosen t); lia|].
  rewrite E. cbn [obind fst]. exists a'. split; [reflexivity|]. split; [congruence|]. intros i Hi.
  fold (chosen t) in V. rewrite V. unfold norb in Hi.
  destruct (Z.leb_spec 0 i), (Z.ltb_spec i (0 + Z.of_nat (length (orbs (chosen t))))); try lia. cbn [andb].
  unfold orb. rewrite Z.sub_0_r. apply nth_map_in. lia.
Qed.

(** The occupation of an l *)
Lemma fold_add (f : Z -> Z) ls d : fold_left (fun d l => d + f l) ls d = d + zsum (map f ls).
Proof.
  revert d. induction ls as [|l ls IH]; intros d; cbn [fold_left map]; [cbn; lia|].
  rewrite IH. cbn [zsum fold_right]. fold (zsum (map f ls)). lia.
Qed.

Lemma concat_pre {A} (gs : list (list A)) n :
  zsum (map (fun l => Z.of_nat (length (nth (Z.to_nat l) gs []))) (map Z.of_nat (seq 0 n)))
  = Z.of_nat (length (concat (firstn n gs))).
Proof.
  revert gs. induction n as [|n IH]; intros gs; [reflexivity|].
  cbn [seq map]. rewrite <- seq_shift, !map_map. destruct gs as [|g gs].
  - cbn [firstn concat length]. change (zsum (?x :: ?l)) with (x + zsum l).
    replace (map _ (seq 0 n)) with (map (fun _ : nat => 0) (seq 0 n)).
    + clear. cbn [nth Z.of_nat Z.to_nat length]. change (Z.of_nat 0) with 0.
      induction (seq 0 n) as [|x l IHl]; [reflexivity|]. cbn [map]. change (zsum (?x :: ?l)) with (x + zsum l). lia.
    + apply map_ext. intros i. destruct (Z.to_nat (Z.of_nat (S i))); reflexivity.
  - cbn [firstn concat]. change (zsum (?x :: ?l)) with (x + zsum l). rewrite app_length, Nat2Z.inj_add.
    f_equal. rewrite <- IH, map_map. f_equal. apply map_ext. intros i.
    replace (Z.to_nat (Z.of_nat (S i))) with (S i) by lia. rewrite Nat2Z.id. reflexivity.
Qed.

Lemma last_nth {A} (l : list A) d : last l d = nth (length l - 1) l d.
Proof.
  induction l as [|a l IH]; [reflexivity|]. destruct l as [|b l]; [reflexivity|].
  change (last (a :: b :: l) d) with (last (b :: l) d). rewrite IH. cbn [length].
  replace (S (S (length l)) - 1)%nat with (S (S (length l) - 1)) by lia. reflexivity.
Qed.

Lemma l_occ_ok t l : 0 <= l -> (nth (Z.to_nat l) (h_shells t) [] <> []) -> l_occ_of t l = Ok (electrons t l).
Proof.
  intros H0 HN. unfold l_occ_of. rewrite fold_add.
  replace (zrange 0 l) with (map Z.of_nat (seq 0 (S (Z.to_nat l)))).
  2:{ rewrite <- zrange_seq. f_equal. lia. }
  unfold ppl. rewrite concat_pre. set (n := Z.to_nat l) in *.
  assert (HL : (n < length (h_shells t))%nat).
  { destruct (Nat.lt_ge_cases n (length (h_shells t))) as [|G]; [assumption|].
    now rewrite nth_overflow in HN by lia. }
  set (g := nth n (h_shells t) []) in *.
  destruct (nth_split (h_shells t) [] HL) as (l1 & l2 & SP & L1). fold g in SP.
  assert (CP : concat (firstn (S n) (h_shells t)) = concat l1 ++ g).
  { rewrite SP. rewrite firstn_app, L1. replace (S n - n)%nat with 1%nat by lia.
    rewrite firstn_all2 by lia. cbn [firstn]. now rewrite concat_app; cbn [concat]; rewrite app_nil_r. }
  assert (CA : concat (h_shells t) = (concat l1 ++ g) ++ concat l2).
  { rewrite SP, concat_app. cbn [concat]. now rewrite app_assoc. }
  assert (GL : (0 < length g)%nat) by (destruct g; [congruence|cbn; lia]).
  rewrite CP. unfold occ. rewrite rd_ok; cbn [sz at_].
  2:{ rewrite CA, !app_length. lia. }
  rewrite CA. f_equal. rewrite app_nth1 by (rewrite app_length; lia).
  rewrite app_nth2 by (rewrite app_length; lia). unfold electrons. fold n. fold g. rewrite last_nth.
  f_equal. rewrite app_length. lia.
Qed.

Lemma chosen_in t l : In l (chosen t) -> 0 <= l < Z.of_nat (length (h_shells t)).
Proof.
  unfold chosen. rewrite filter_In, in_map_iff. intros ((i & <- & Hi) & _). apply in_seq in Hi. lia.
Qed.

Lemma orb_in t m : 0 <= m < norb t -> In (orb t m) (chosen t).
Proof. intros H. apply orbs_in. apply nth_In. unfold norb in H. lia. Qed.

(** ** Sums over the orbitals *)
Local Open Scope Q_scope.
Lemma qsum_app l m : qsum (l ++ m) == qsum l + qsum m.
Proof.
  unfold qsum. induction l as [|x l IH]; cbn [app fold_right].
  - now rewrite Qplus_0_l.
  - rewrite IH. ring.
Qed.

Lemma qsum_ext {A} (f g : A -> Q) l : (forall x, In x l -> f x == g x) -> qsum (map f l) == qsum (map g l).
Proof.
  induction l as [|x l IH]; intros H; cbn [map qsum fold_right]; [reflexivity|].
  fold (qsum (map f l)) (qsum (map g l)). rewrite (H x) by now left. rewrite IH; [reflexivity|].
  intros; apply H; now right.
Qed.

Lemma qsum_repeat (f : Z -> Q) x n : qsum (map f (repeat x n)) == inject_Z (Z.of_nat n) * f x.
Proof.
  induction n as [|n IH]; [cbn; ring|].
  cbn [repeat map qsum fold_right]. fold (qsum (map f (repeat x n))). rewrite IH, Nat2Z.inj_succ.
  unfold Z.succ. rewrite inject_Z_plus. ring.
Qed.

Lemma qsum_orbs (f : Z -> Q) ls : (forall l, In l ls -> (0 <= l)%Z) ->
  qsum (map f (orbs ls)) == qsum (map (fun l => inject_Z (2 * l + 1) * f l) ls).
Proof.
  induction ls as [|l ls IH]; intros H; [reflexivity|].
  rewrite orbs_cons, map_app, qsum_app, qsum_repeat, IH by (intros; apply H; now right).
  specialize (H l (or_introl eq_refl)). rewrite Z2Nat.id by lia. reflexivity.
Qed.

Lemma qsum_index (f : Z -> Q) (os : list Z) :
  qsum (map (fun i => f (nth (Z.to_nat i) os 0%Z)) (map Z.of_nat (seq 0 (length os)))) == qsum (map f os).
Proof.
  induction os as [|o os IH]; [reflexivity|]. cbn [length seq map qsum fold_right].
  rewrite <- seq_shift, !map_map in *.
  fold (qsum (map f os)). rewrite <- IH. cbn [Z.of_nat Z.to_nat nth]. apply Qplus_comp; [reflexivity|].
  unfold qsum. apply qsum_ext. intros i _. rewrite SuccNat2Pos.id_succ, Nat2Z.id. reflexivity.
Qed.

Lemma trace_ok t a (f : Z -> Q) :
  (forall i, (0 <= i < norb t)%Z -> at_ a (i * norb t + i)%Z == f (orb t i)) ->
  trace (norb t) a == qsum (map (fun l => inject_Z (2 * l + 1) * f l) (chosen t)).
Proof.
  intros H. unfold trace. rewrite (qsum_ext _ (fun i => f (orb t i))).
  - unfold orb, norb. rewrite Nat2Z.id, qsum_index. apply qsum_orbs. intros l Hl.
    apply chosen_in in Hl. lia.
  - intros i Hi. apply H. apply in_map_iff in Hi. destruct Hi as (k & <- & Hk). apply in_seq in Hk. lia.
Qed.
Local Close Scope Q_scope.

(** ** Writing a diagonal *)
Lemma mul_inj n r c m : 0 <= r < n -> 0 <= c < n -> 0 <= m < n -> r * n + c = m * n + m -> r = m /\ c = m.
Proof. intros. assert (r = m) by nia. split; [assumption|]. subst. lia. Qed.

Lemma nonmag_ok n st oc : 0 <= n -> sz st = n -> sz oc = n ->
  exists a, nonmag_mat n st oc = Ok a /\ diag_mat n a /\
    forall i, 0 <= i < n -> at_ a (i * n + i) = ((1 # 2) * inject_Z (at_ oc i) / inject_Z (at_ st i))%Q.
Proof.
  intros Hn Hs Ho. unfold nonmag_mat.
  assert (G : forall k, (k <= Z.to_nat n)%nat -> exists a,
    ofold (fun a m => do o <- rd oc m ; do s <- rd st m ;
      wr a (m * n + m) ((1 # 2) * inject_Z o / inject_Z s)%Q)
      (Arr (n * n) (fun _ => 0%Q)) (map Z.of_nat (seq 0 k)) = Ok a /\ diag_mat n a /\
    (forall i, 0 <= i < Z.of_nat k -> at_ a (i * n + i) = ((1 # 2) * inject_Z (at_ oc i) / inject_Z (at_ st i))%Q)).
  { induction k as [|k IH]; intros Hk.
    - eexists. split; [reflexivity|]. split; [now split|]. intros; lia.
    - destruct IH as (a & E & (Sa & Da) & V); [lia|].
      rewrite seq_S, map_app, ofold_app, E. cbn [obind map ofold].
      change (0 + k)%nat with k. rewrite !rd_ok by lia. cbn [obind]. rewrite wr_ok by (rewrite Sa; nia).
      cbn [obind]. eexists. split; [reflexivity|]. cbn [at_ sz]. split.
      + split; [exact Sa|]. cbn [at_]. intros r c Hr Hc Hrc. destruct (Z.eqb_spec (r * n + c) (Z.of_nat k * n + Z.of_nat k)) as [e|_].
        * apply mul_inj in e; lia.
        * now apply Da.
      + intros i Hi. destruct (Z.eqb_spec (i * n + i) (Z.of_nat k * n + Z.of_nat k)) as [e|ne].
        * apply mul_inj in e; try lia. destruct e as [-> _]. reflexivity.
        * apply V. destruct (Z.eq_dec i (Z.of_nat k)) as [->|]; [congruence|lia]. }
  destruct (G (Z.to_nat n)) as (a & E & D & V); [lia|].
  replace (zrange 0 (n - 1)) with (map Z.of_nat (seq 0 (Z.to_nat n))).
  2:{ rewrite <- zrange_seq. f_equal. lia. }
  exists a. split; [exact E|]. split; [exact D|]. intros i Hi. apply V. lia.
Qed.

Definition maj_val (o s : Z) : Q := if s <=? o then 1%Q else qdiv (o - s) s.
Definition min_val (o s : Z) : Q := if s <=? o then qdiv (o - s) s else 0%Q.

Lemma mag_ok n st oc : 0 <= n -> sz st = n -> sz oc = n ->
  exists a b, mag_mats n st oc = Ok (a, b) /\ diag_mat n a /\ diag_mat n b /\
    forall i, 0 <= i < n -> at_ a (i * n + i) = maj_val (at_ oc i) (at_ st i) /\
                            at_ b (i * n + i) = min_val (at_ oc i) (at_ st i).
Proof.
  intros Hn Hs Ho. unfold mag_mats.
  set (f := fun mm m => do o <- rd oc m ; do s <- rd st m ; _).
  assert (G : forall k, (k <= Z.to_nat n)%nat -> exists a b,
    ofold f (Arr (n * n) (fun _ => 0%Q), Arr (n * n) (fun _ => 0%Q)) (map Z.of_nat (seq 0 k)) = Ok (a, b) /\
    diag_mat n a /\ diag_mat n b /\
    (forall i, 0 <= i < n -> at_ a (i * n + i) = (if i <? Z.of_nat k then maj_val (at_ oc i) (at_ st i) else 0%Q) /\
       at_ b (i * n + i) = (if i <? Z.of_nat k then min_val (at_ oc i) (at_ st i) else 0%Q))).
  { induction k as [|k IH]; intros Hk.
    - do 2 eexists. split; [reflexivity|]. split; [now split|]. split; [now split|]. intros i Hi.
      destruct (Z.ltb_spec i (Z.of_nat 0)); [lia|]. now split.
    - destruct IH as (a & b & E & (Sa & Da) & (Sb & Db) & V); [lia|].
      rewrite seq_S, map_app, ofold_app, E. cbn [obind map ofold].
      change (0 + k)%nat with k. unfold f at 1. rewrite !rd_ok by lia. cbn [obind fst snd].
      assert (DD : forall (a : arr Q) v, diag_mat n a ->
        diag_mat n (Arr (sz a) (fun j => if j =? Z.of_nat k * n + Z.of_nat k then v else at_ a j))).
      { intros a0 v [S0 D0]. split; [exact S0|]. cbn [at_]. intros r c Hr Hc Hrc.
        destruct (Z.eqb_spec (r * n + c) (Z.of_nat k * n + Z.of_nat k)) as [e|_].
        - apply mul_inj in e; lia.
        - now apply D0. }
      destruct (Z.leb_spec (at_ st (Z.of_nat k)) (at_ oc (Z.of_nat k))) as [HH|HH].
      + rewrite wr_ok by (rewrite Sa; nia). cbn [obind]. rewrite wr_ok by (rewrite Sb; nia). cbn [obind].
        do 2 eexists. split; [reflexivity|]. split; [apply DD; now split|]. split; [apply DD; now split|].
        cbn [at_]. intros i Hi. destruct (V i Hi) as [V1 V2].
        destruct (Z.eqb_spec (i * n + i) (Z.of_nat k * n + Z.of_nat k)) as [e|ne].
        * apply mul_inj in e; try lia. destruct e as [-> _].
          destruct (Z.ltb_spec (Z.of_nat k) (Z.of_nat (S k))); [|lia]. unfold maj_val, min_val.
          destruct (Z.leb_spec (at_ st (Z.of_nat k)) (at_ oc (Z.of_nat k))); [|lia]. now split.
        * rewrite V1, V2. assert (i <> Z.of_nat k) by (intros ->; now apply ne).
          destruct (Z.ltb_spec i (Z.of_nat k)), (Z.ltb_spec i (Z.of_nat (S k))); try lia; now split.
      + rewrite wr_ok by (rewrite Sa; nia). cbn [obind].
        do 2 eexists. split; [reflexivity|]. split; [apply DD; now split|]. split; [now split|].
        cbn [at_]. intros i Hi. destruct (V i Hi) as [V1 V2].
        destruct (Z.eqb_spec (i * n + i) (Z.of_nat k * n + Z.of_nat k)) as [e|ne].
        * apply mul_inj in e; try lia. destruct e as [-> _]. rewrite V2.
          destruct (Z.ltb_spec (Z.of_nat k) (Z.of_nat (S k))); [|lia].
          destruct (Z.ltb_spec (Z.of_nat k) (Z.of_nat k)); [lia|]. unfold maj_val, min_val.
          destruct (Z.leb_spec (at_ st (Z.of_nat k)) (at_ oc (Z.of_nat k))); [lia|]. now split.
        * rewrite V1, V2. assert (i <> Z.of_nat k) by (intros ->; now apply ne).
          destruct (Z.ltb_spec i (Z.of_nat k)), (Z.ltb_spec i (Z.of_nat (S k))); try lia; now split. }
  destruct (G (Z.to_nat n)) as (a & b & E & D & D' & V); [lia|].
  replace (zrange 0 (n - 1)) with (map Z.of_nat (seq 0 (Z.to_nat n))).
  2:{ rewrite <- zrange_seq. f_equal. lia. }
  exists a, b. split; [exact E|]. split; [exact D|]. split; [exact D'|]. intros i Hi.
  destruct (V i Hi) as [V1 V2]. rewrite V1, V2. destruct (Z.ltb_spec i (Z.of_nat (Z.to_nat n))); [now split|lia].
Qed.

(** ** Broadcast *)
Lemma pack_type (a : arr Q) (U : Z -> Q) c : 0 <= c -> c * 3 + 3 < sz a ->
  exists a', ofold (fun a l => do v <- rdU U l ; wr a (c * 3 + l) v) a (zrange 0 3) = Ok a' /\
    sz a' = sz a /\
    forall i, at_ a' i = if (c * 3 <=? i) && (i <=? c * 3 + 3) then U (i - c * 3) else at_ a i.
Proof.
  intros H0 H1. change (zrange 0 3) with [0; 1; 2; 3]. cbn [ofold].
  do 4 (rewrite rdU_ok by lia; cbn [obind]; rewrite wr_ok by (cbn [sz]; lia); cbn [obind sz at_]).
  eexists. split; [reflexivity|]. split; [reflexivity|]. cbn [at_]. intros i.
  destruct (Z.eqb_spec i (c * 3 + 3)) as [->|]; [|destruct (Z.eqb_spec i (c * 3 + 2)) as [->|];
    [|destruct (Z.eqb_spec i (c * 3 + 1)) as [->|]; [|destruct (Z.eqb_spec i (c * 3 + 0)) as [->|]]]];
  match goal with |- _ = (if (?a <=? ?b) && (?c <=? ?d) then _ else _) =>
    destruct (Z.leb_spec a b), (Z.leb_spec c d) end; cbn [andb]; try lia; try reflexivity; f_equal; lia.
Qed.

Definition sent (cs : list hub) (junk : Z -> Q) (i : Z) : Q :=
  let n := Z.of_nat (length cs) in
  if (0 <=? i) && (i <? 3 * n) then h_U (nth (Z.to_nat (i / 3)) cs (Hub false 0 junk [])) (i mod 3)
  else if (i =? 3 * n) && (1 <=? n) then h_U (nth (Z.to_nat (n - 1)) cs (Hub false 0 junk [])) 3
  else junk i.

Lemma sent_snoc cs t junk i :
  sent (cs ++ [t]) junk i = if (Z.of_nat (length cs) * 3 <=? i) && (i <=? Z.of_nat (length cs) * 3 + 3)
    then h_U t (i - Z.of_nat (length cs) * 3) else sent cs junk i.
Proof.
  unfold sent. rewrite app_length. cbn [length]. set (n := length cs).
  replace (Z.of_nat (n + 1)) with (Z.of_nat n + 1) by lia.
  destruct (Z.leb_spec (Z.of_nat n * 3) i) as [A|A]; cbn [andb].
  - destruct (Z.leb_spec i (Z.of_nat n * 3 + 3)) as [B|B].
    + destruct (Z.eqb_spec i (3 * (Z.of_nat n + 1))) as [->|C].
      * rewrite Z.ltb_irrefl, andb_false_r. replace (1 <=? Z.of_nat n + 1) with true by (symmetry; lia).
        cbn [andb]. replace (Z.to_nat (Z.of_nat n + 1 - 1)) with n by lia. rewrite app_nth2 by (unfold n; lia).
        unfold n. rewrite Nat.sub_diag. cbn [nth]. f_equal. lia.
      * replace ((0 <=? i) && (i <? 3 * (Z.of_nat n + 1))) with true by (symmetry; lia).
        assert (D : i / 3 = Z.of_nat n) by (symmetry; apply Z.div_unique with (i - Z.of_nat n * 3); lia).
        assert (M : i mod 3 = i - Z.of_nat n * 3) by (pose proof (Z.div_mod i 3); lia).
        rewrite D, M, Nat2Z.id, app_nth2 by (unfold n; lia). unfold n. rewrite Nat.sub_diag. reflexivity.
    + replace ((0 <=? i) && (i <? 3 * (Z.of_nat n + 1))) with false by (symmetry; lia).
      replace ((i =? 3 * (Z.of_nat n + 1)) && (1 <=? Z.of_nat n + 1)) with false by (symmetry; lia).
      replace ((0 <=? i) && (i <? 3 * Z.of_nat n)) with false by (symmetry; lia).
      replace ((i =? 3 * Z.of_nat n) && (1 <=? Z.of_nat n)) with false by (symmetry; lia). reflexivity.
  - destruct (Z.leb_spec 0 i); cbn [andb].
    + destruct (Z.ltb_spec i (3 * (Z.of_nat n + 1))), (Z.ltb_spec i (3 * Z.of_nat n)); try lia.
      rewrite app_nth1; [reflexivity|]. assert (i / 3 < Z.of_nat n) by (apply Z.div_lt_upper_bound; lia).
      assert (0 <= i / 3) by (apply Z.div_pos; lia). lia.
    + replace ((i =? 3 * (Z.of_nat n + 1)) && (1 <=? Z.of_nat n + 1)) with false by (symmetry; lia).
      replace ((i =? 3 * Z.of_nat n) && (1 <=? Z.of_nat n)) with false by (symmetry; lia). reflexivity.
Qed.

Lemma pack_ok junk ts : exists a, pack_U junk ts = Ok a /\ sz a = 4 * Z.of_nat (length (filter h_solve ts)) /\
  forall i, at_ a i = sent (filter h_solve ts) junk i.
Proof.
  unfold pack_U. set (cs := filter h_solve ts). clearbody cs.
  assert (G : forall k, (k <= length cs)%nat -> exists a,
    ofold (fun st t =>
     do a <- ofold (fun a l => do v <- rdU (h_U t) l ; wr a (snd st * 3 + l) v) (fst st) (zrange 0 3) ;
     Ok (a, snd st + 1)) (Arr (4 * Z.of_nat (length cs)) junk, 0) (firstn k cs) = Ok (a, Z.of_nat k)
    /\ sz a = 4 * Z.of_nat (length cs) /\ forall i, at_ a i = sent (firstn k cs) junk i).
  { induction k as [|k IH]; intros Hk.
    - eexists. split; [reflexivity|]. split; [reflexivity|]. cbn [at_]. intros i. unfold sent. cbn [firstn length].
      change (Z.of_nat 0) with 0. replace ((0 <=? i) && (i <? 3 * 0)) with false by (symmetry; lia).
      now rewrite andb_false_r.
    - destruct IH as (a & E & Sa & V); [lia|].
      destruct (nth_error cs k) as [t|] eqn:ET; [|apply nth_error_None in ET; lia].
      assert (FS : firstn (S k) cs = firstn k cs ++ [t]).
      { apply nth_error_split in ET. destruct ET as (l1 & l2 & -> & <-).
        rewrite !firstn_app, firstn_all, Nat.sub_diag. rewrite (firstn_all2 l1) by lia.
        replace (S (length l1) - length l1)%nat with 1%nat by lia. cbn [firstn]. now rewrite app_nil_r. }
      rewrite FS, ofold_app, E. cbn [obind ofold fst snd].
      destruct (pack_type a (h_U t) (Z.of_nat k)) as (a' & E' & S' & V'); [lia|lia|].
      rewrite E'. cbn [obind]. exists a'. split; [do 2 f_equal; lia|]. split; [congruence|]. intros i.
      rewrite V', sent_snoc, firstn_length_le by lia. now rewrite V. }
  destruct (G (length cs) (le_n _)) as (a & E & Sa & V). rewrite firstn_all in E, V. rewrite E. cbn [obind fst].
  exists a. auto.
Qed.

(** ** Displacements *)
Lemma displ_run b : forall k s iat, 1 <= iat -> 0 <= d_i s -> d_i s + Z.of_nat k < sz (d_arr s) ->
  exists s', ofold (displ_atom b) s (zseq iat k) = Ok s' /\ sz (d_arr s') = sz (d_arr s) /\
    d_i s' = d_i s + Z.of_nat k /\ d_i2 s' = d_i2 s /\ d_id s' = d_id s /\
    forall i, at_ (d_arr s') i = if (d_i s <? i) && (i <=? d_i s + Z.of_nat k)
      then at_ (d_arr s) (d_i s) + (i - d_i s) * b else at_ (d_arr s) i.
Proof.
  induction k as [|k IH]; intros s iat Hi H0 H1; cbn [zseq ofold].
  - exists s. split; [reflexivity|]. repeat (split; [reflexivity || lia|]). intros i.
    destruct (Z.ltb_spec (d_i s) i), (Z.leb_spec i (d_i s + Z.of_nat 0)); cbn; try reflexivity; lia.
  - unfold displ_atom at 1. destruct (Z.eqb_spec iat 0); [lia|]. cbn [andb obind].
    rewrite rd_ok by lia. cbn [obind]. rewrite wr_ok by lia. cbn [obind].
    set (s1 := Dst _ _ _ _).
    destruct (IH s1 (iat + 1)) as (s' & E & Sz' & Di & Di2 & Did & V); [lia|cbn; lia|cbn [s1 d_i d_arr sz]; lia|].
    exists s'. split; [exact E|]. cbn [s1 d_i d_i2 d_id d_arr sz at_] in *.
    split; [congruence|]. split; [lia|]. split; [congruence|]. split; [congruence|]. intros i. rewrite V.
    rewrite Z.eqb_refl.
    destruct (Z.ltb_spec (d_i s + 1) i), (Z.leb_spec i (d_i s + 1 + Z.of_nat k)), (Z.ltb_spec (d_i s) i),
      (Z.leb_spec i (d_i s + Z.of_nat (S k))), (Z.eqb_spec i (d_i s + 1)); cbn [andb]; try lia; try reflexivity; subst; lia.
Qed.

Lemma before_app al bl j : 0 <= j <= Z.of_nat (length al) -> before (al ++ bl) j = before al j.
Proof.
  intros H. unfold before. rewrite firstn_app. replace (Z.to_nat j - length al)%nat with 0%nat by lia.
  cbn [firstn]. now rewrite app_nil_r.
Qed.

Lemma before_all al j : Z.of_nat (length al) <= j -> before al j = zsum (map snd al).
Proof. intros H. unfold before. rewrite firstn_all2 by lia. reflexivity. Qed.

Lemma zsum_repeat (x : bool * Z) n : zsum (map snd (repeat x n)) = Z.of_nat n * snd x.
Proof.
  induction n as [|n IH]; [reflexivity|]. cbn [repeat map]. change (zsum (?a :: ?l)) with (a + zsum l). lia.
Qed.

Lemma before_repeat al x n j : 0 <= j <= Z.of_nat n ->
  before (al ++ repeat x n) (Z.of_nat (length al) + j) = zsum (map snd al) + j * snd x.
Proof.
  intros H. unfold before. rewrite firstn_app.
  replace (Z.to_nat (Z.of_nat (length al) + j)) with (length al + Z.to_nat j)%nat by lia.
  rewrite (firstn_all2 al) by lia. replace (length al + Z.to_nat j - length al)%nat with (Z.to_nat j) by lia.
  assert (F : firstn (Z.to_nat j) (repeat x n) = repeat x (Z.to_nat j)).
  { replace n with (Z.to_nat j + (n - Z.to_nat j))%nat at 1 by lia. rewrite repeat_app, firstn_app, repeat_length.
    rewrite Nat.sub_diag. cbn [firstn]. rewrite app_nil_r. apply firstn_all2. now rewrite repeat_length. }
  rewrite F, map_app, zsum_app, zsum_repeat, Z2Nat.id by lia. reflexivity.
Qed.

(** Invariant after the types whose atoms are [al]; [z] tells whether one of
    them was corrected. *)
Definition dinv (N : Z) (al : list (bool * Z)) (z : bool) (s : dst) : Prop :=
  sz (d_arr s) = N + 1 /\ d_i s = Z.of_nat (length al) /\
  (if z then d_id s = 1 /\ 0 <= d_i2 s <= d_i s /\ at_ (d_arr s) (d_i2 s) = zsum (map snd al) /\
      (forall i, d_i2 s < i -> at_ (d_arr s) i = -1) /\
      (forall j, 0 <= j < Z.of_nat (length al) -> fst (nth (Z.to_nat j) al (false, 0)) = true ->
         at_ (d_arr s) j = before al j /\ j < d_i2 s)
   else d_id s = 0 /\ d_i2 s = d_i s /\ (forall i, at_ (d_arr s) i = -1) /\ Forall (fun x => x = (false, 0)) al).

Lemma dinv_step N al z s sv nt b : dinv N al z s -> 1 <= nt ->
  Z.of_nat (length al) + nt <= N ->
  exists s', displ_type s (sv, nt, b) = Ok s' /\
    dinv N (al ++ repeat (sv, if sv then b else 0) (Z.to_nat nt)) (z || sv) s'.
Proof.
  intros (HS & HI & HZ) Hn HN. unfold displ_type. destruct sv; cbn [negb].
  - (* corrected *)
    rewrite orb_true_r.
    assert (PRE : exists s1, (if d_id s =? 0 then
                do a <- wr (d_arr s) (d_i s) 0 ; Ok (Dst a (d_i s) (d_i2 s) 1)
              else Ok s) = Ok s1 /\ sz (d_arr s1) = N + 1 /\ d_i s1 = d_i s /\ d_id s1 = 1 /\
              0 <= d_i2 s1 <= d_i s1 /\ at_ (d_arr s1) (d_i2 s1) = zsum (map snd al) /\
              (forall i, d_i2 s1 < i -> at_ (d_arr s1) i = -1) /\
              (forall j, 0 <= j < Z.of_nat (length al) -> fst (nth (Z.to_nat j) al (false, 0)) = true ->
                 at_ (d_arr s1) j = before al j /\ j < d_i2 s1)).
    { destruct z.
      - destruct HZ as (Hid & HZ). rewrite Hid. cbn [Z.eqb]. exists s. rewrite Hid in *. intuition.
      - destruct HZ as (Hid & H2 & HA & HF). rewrite Hid. cbn [Z.eqb]. rewrite wr_ok by lia. cbn [obind].
        eexists. split; [reflexivity|]. cbn [d_arr d_i d_i2 d_id sz at_]. repeat (split; [lia || reflexivity|]).
        split; [rewrite H2, Z.eqb_refl; clear -HF; induction HF as [|x l -> _ IH]; [reflexivity|];
                cbn [map snd]; change (zsum (?a :: ?l)) with (a + zsum l); lia|].
        split.
        + intros i Hi. rewrite H2 in Hi. destruct (Z.eqb_spec i (d_i s)); [lia|apply HA].
        + intros j Hj Hf. rewrite Forall_forall in HF. rewrite (HF (nth (Z.to_nat j) al (false, 0))) in Hf; [discriminate|].
          apply nth_In. lia. }
    destruct PRE as (s1 & -> & S1 & I1 & ID1 & B1 & V1 & M1 & C1). cbn [obind].
    replace (zrange 0 (nt - 1)) with (0 :: zseq 1 (Z.to_nat (nt - 1))).
    2:{ unfold zrange. replace (Z.to_nat (nt - 1 - 0 + 1)) with (S (Z.to_nat (nt - 1))) by lia. reflexivity. }
    cbn [ofold]. unfold displ_atom at 1. rewrite ID1. cbn [Z.eqb negb andb].
    rewrite rd_ok by lia. cbn [obind]. rewrite wr_ok by lia. cbn [obind].
    rewrite rd_ok by (cbn [sz]; lia). cbn [obind]. rewrite wr_ok by (cbn [sz]; lia). cbn [obind at_ sz].
    rewrite Z.eqb_refl. set (s2 := Dst _ _ _ _).
    destruct (displ_run b (Z.to_nat (nt - 1)) s2 1) as (s3 & E3 & S3 & I3 & I23 & ID3 & V3);
      [lia|cbn [s2 d_i]; lia|cbn [s2 d_i d_arr sz]; lia|].
    rewrite E3. cbn [obind]. eexists. split; [reflexivity|].
    cbn [s2 d_arr d_i d_i2 d_id sz at_] in *. rewrite Z2Nat.id in * by lia.
    (* the values at all places *)
    assert (W : forall i, at_ (d_arr s3) i = if (d_i s <=? i) && (i <=? d_i s + nt)
              then zsum (map snd al) + (i - d_i s) * b else at_ (d_arr s1) i).
    { intros i. rewrite V3. rewrite Z.eqb_refl, I1, V1.
      destruct (Z.ltb_spec (d_i s + 1) i), (Z.leb_spec i (d_i s + 1 + (nt - 1))), (Z.leb_spec (d_i s) i),
        (Z.leb_spec i (d_i s + nt)), (Z.eqb_spec i (d_i s + 1)), (Z.eqb_spec i (d_i s)); cbn [andb];
        try lia; try reflexivity; subst; lia. }
    split; [cbn [d_arr]; congruence|]. split.
    { cbn [d_i]. rewrite app_length, repeat_length. lia. }
    cbn [d_id d_i2 d_i d_arr]. rewrite app_length, repeat_length, map_app, zsum_app, zsum_repeat.
    cbn [snd]. rewrite !Z2Nat.id by lia. split; [congruence|]. split; [lia|]. split.
    { rewrite W. replace ((d_i s <=? d_i s3) && (d_i s3 <=? d_i s + nt)) with true by (symmetry; lia). nia. }
    split.
    { intros i Hi. rewrite W. replace ((d_i s <=? i) && (i <=? d_i s + nt)) with false by (symmetry; lia).
      apply M1. lia. }
    intros j Hj Hf. rewrite Nat2Z.inj_add in Hj. rewrite W.
    destruct (Z.leb_spec (d_i s) j) as [J|J]; cbn [andb].
    + replace (j <=? d_i s + nt) with true by (symmetry; lia).
      replace j with (Z.of_nat (length al) + (j - d_i s)) at 2 by lia.
      rewrite before_repeat by lia. cbn [snd]. split; [reflexivity|lia].
    + rewrite app_nth1 in Hf by lia. rewrite before_app by lia.
      destruct (C1 j) as [Q1 Q2]; [lia|exact Hf|]. split; [exact Q1|lia].
  - (* not corrected *)
    rewrite orb_false_r. eexists. split; [reflexivity|]. cbn [d_arr d_i d_i2 d_id].
    split; [exact HS|]. split; [cbn [d_i]; rewrite app_length, repeat_length; lia|].
    cbn [d_arr d_i d_i2 d_id]. rewrite map_app, zsum_app, zsum_repeat. cbn [snd].
    destruct z.
    + destruct HZ as (Hid & B & V & M & C). rewrite Hid. cbn [Z.eqb]. split; [reflexivity|].
      split; [lia|]. split; [lia|]. split; [exact M|].
      intros j Hj Hf. destruct (Z.lt_ge_cases j (Z.of_nat (length al))) as [J|J].
      * rewrite app_nth1 in Hf by lia. rewrite before_app by lia. apply C; [lia|exact Hf].
      * rewrite app_length, repeat_length in Hj. rewrite app_nth2 in Hf by lia.
        rewrite nth_repeat in Hf. discriminate.
    + destruct HZ as (Hid & B & M & F). rewrite Hid. cbn [Z.eqb]. split; [reflexivity|]. split; [reflexivity|].
      split; [exact M|]. apply Forall_app. split; [exact F|]. apply Forall_forall. intros x Hx.
      now apply repeat_spec in Hx.
Qed.

Lemma atoms_len ts : Forall (fun t : bool * Z * Z => 1 <= snd (fst t)) ts ->
  Z.of_nat (length (atoms ts)) = zsum (map (fun t : bool * Z * Z => snd (fst t)) ts).
Proof.
  induction ts as [|t ts IH]; intros F; [reflexivity|]. inversion F; subst.
  cbn [atoms flat_map map]. rewrite app_length, repeat_length. change (zsum (?a :: ?l)) with (a + zsum l).
  fold (atoms ts). rewrite <- IH by assumption. lia.
Qed.

Lemma displ_inv N : forall ts al z s, Forall (fun t : bool * Z * Z => 1 <= snd (fst t)) ts ->
  dinv N al z s -> Z.of_nat (length (al ++ atoms ts)) <= N ->
  exists s', ofold displ_type s ts = Ok s' /\
    dinv N (al ++ atoms ts) (z || existsb (fun t : bool * Z * Z => fst (fst t)) ts) s'.
Proof.
  induction ts as [|[[sv nt] b] ts IH]; intros al z s F HI HN; cbn [ofold existsb].
  - exists s. cbn. rewrite app_nil_r, orb_false_r. now split.
  - inversion F; subst. cbn [fst snd] in *. cbn [atoms flat_map fst snd] in *.
    rewrite app_assoc in *. fold (atoms ts) in *.
    destruct (dinv_step N al z s sv nt b HI) as (s1 & E1 & I1); [assumption| |].
    { rewrite !app_length, repeat_length in HN. lia. }
    rewrite E1. cbn [obind]. destruct (IH _ _ s1 H2 I1 HN) as (s2 & E2 & I2).
    exists s2. split; [exact E2|]. now rewrite orb_assoc.
Qed.

Lemma last_idx_ok a : forall k jj r, jj = r + Z.of_nat k -> 0 <= r -> jj < sz a ->
  0 <= at_ a r -> (forall i, r < i -> at_ a i = -1) ->
  forall f, (k < f)%nat -> last_idx a f jj = Ok r.
Proof.
  induction k as [|k IH]; intros jj r -> H0 H1 H2 H3 [|f] Hf; try lia; cbn [last_idx].
  - rewrite rd_ok by lia. cbn [obind]. rewrite Z.add_0_r. destruct (Z.leb_spec 0 (at_ a r)); [reflexivity|lia].
  - rewrite rd_ok by lia. cbn [obind]. rewrite H3 by lia. cbn [Z.leb Z.compare]. apply IH; try assumption; lia.
Qed.

Lemma last_idx_none a : (forall i, at_ a i = -1) -> forall f jj, jj < sz a -> Z.of_nat f <= jj + 1 ->
  last_idx a f jj = Ok (-1).
Proof.
  intros H. induction f as [|f IH]; intros jj H1 H2; cbn [last_idx]; [reflexivity|].
  rewrite rd_ok by lia. cbn [obind]. rewrite H. cbn [Z.leb Z.compare]. apply IH; lia.
Qed.
