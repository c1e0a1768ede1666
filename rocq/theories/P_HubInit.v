(** C73: the set-up of the DFT+U correction. *)
From Coq Require Import ZArith QArith Qround List Lia Bool Lqa Field.
From Verif Require Import CBase Nloc NlocLem VnlOp VnlLem HubInit HubInitSpec HubInitLem.
Import ListNotations.
Local Open Scope Z_scope.

(** ** The type named in the input *)
Lemma lower_same a b : lower a = lower b <-> same_letter a b.
Proof.
  unfold lower, same_letter.
  destruct (Z.leb_spec 65 a), (Z.leb_spec a 90), (Z.leb_spec 65 b), (Z.leb_spec b 90); cbn [andb]; lia.
Qed.

Lemma streq_spec s : forall t, streq s t = true <-> same_name s t.
Proof.
  unfold same_name. induction s as [|a s IH]; intros [|b t]; cbn [streq].
  - split; [constructor|reflexivity].
  - split; [discriminate|]. intros H. inversion H.
  - split; [discriminate|]. intros H. inversion H.
  - rewrite andb_true_iff, Z.eqb_eq, IH, lower_same. split; [intros [H1 H2]; now constructor|]. intros H. now inversion H.
Qed.

Lemma same_name_len s t : same_name s t -> length s = length t.
Proof. intros H. induction H; cbn [length]; congruence. Qed.

Lemma find_gen s : forall names jj,
  match find_type jj s names with
  | None => forall i nm, nth_error names i = Some nm -> ~ same_name s (firstn (length s) nm)
  | Some j => exists i nm, j = jj + Z.of_nat i /\ nth_error names i = Some nm /\
      same_name s (firstn (length s) nm) /\
      forall i' nm', (i' < i)%nat -> nth_error names i' = Some nm' -> ~ same_name s (firstn (length s) nm')
  end.
Proof.
  induction names as [|nm names IH]; intros jj; cbn [find_type].
  - intros [|i] nm H; discriminate H.
  - destruct (streq s (firstn (length s) nm)) eqn:E.
    + exists O, nm. split; [lia|]. split; [reflexivity|]. split; [now apply streq_spec|]. intros; lia.
    + assert (NE : ~ same_name s (firstn (length s) nm)) by (rewrite <- streq_spec; congruence).
      specialize (IH (jj + 1)). destruct (find_type (jj + 1) s names) as [j|].
      * destruct IH as (i & nm1 & -> & H1 & H2 & H3). exists (S i), nm1. split; [lia|]. split; [exact H1|].
        split; [exact H2|]. intros [|i'] nm' Hi Hn; cbn in Hn; [now inversion Hn; subst|].
        apply (H3 i' nm'); [lia|exact Hn].
      * intros [|i] nm1 Hn; cbn in Hn; [now inversion Hn; subst|]. now apply (IH i nm1).
Qed.

(** A type that bears the name is chosen if no earlier type has a name that
    begins with it; if no name begins with it, none is chosen. *)
Theorem C73_name : forall s names k nm,
  nth_error names k = Some nm -> same_name s nm ->
  (forall i nm', (i < k)%nat -> nth_error names i = Some nm' -> ~ same_name s (firstn (length s) nm')) ->
  find_type 0 s names = Some (Z.of_nat k).
Proof.
  intros s names k nm Hk Hs Hi. pose proof (find_gen s names 0) as G.
  assert (L : length s = length nm) by now apply same_name_len.
  assert (P : same_name s (firstn (length s) nm)) by (rewrite L, firstn_all; exact Hs).
  destruct (find_type 0 s names) as [j|].
  - destruct G as (i & nm1 & -> & H1 & H2 & H3). f_equal.
    destruct (Nat.lt_trichotomy i k) as [A|[->|A]]; [|lia|].
    + exfalso. exact (Hi i nm1 A H1 H2).
    + exfalso. exact (H3 k nm A Hk P).
  - exfalso. exact (G k nm Hk P).
Qed.

Theorem C73_name_none : forall s names, find_type 0 s names = None ->
  forall k nm, nth_error names k = Some nm -> ~ same_name s nm.
Proof.
  intros s names E k nm Hk Hs. pose proof (find_gen s names 0) as G. rewrite E in G.
  assert (L : length s = length nm) by now apply same_name_len.
  apply (G k nm Hk). rewrite L, firstn_all. exact Hs.
Qed.

(** An earlier type with a longer name is taken instead: with the types Ni and
    N, "U_ATOM_TYPE: N" puts the correction on nickel. *)
Theorem C73_name_refuted : exists s names k nm j,
  nth_error names k = Some nm /\ same_name s nm /\ find_type 0 s names = Some j /\ j <> Z.of_nat k.
Proof.
  exists [78], [[78; 105]; [78]], 1%nat, [78], 0. split; [reflexivity|]. split; [apply streq_spec; reflexivity|].
  split; [reflexivity|discriminate].
Qed.

Example C73_name_example : find_type 0 [110; 73] [[79]; [78; 105]] = Some 1.
Proof.
  apply (C73_name [110; 73] [[79]; [78; 105]] 1 [78; 105]); [reflexivity|apply streq_spec; reflexivity|].
  intros [|i] nm Hi E; [|lia]. inversion E. intros H. apply streq_spec in H. discriminate.
Qed.

(** ** Broadcast *)

(** Every process receives the U values of s, p and d of every corrected type
    and that of f of the last one; in place of that of f of the others it
    receives the value of s of the following corrected type. *)
Theorem C73_broadcast : forall junk ts c t, nth_error (filter h_solve ts) c = Some t ->
  exists ua, pack_U junk ts = Ok ua /\
    unpack_U ua (Z.of_nat c) = Ok [h_U t 0; h_U t 1; h_U t 2;
      match nth_error (filter h_solve ts) (S c) with None => h_U t 3 | Some t' => h_U t' 0 end].
Proof.
  intros junk ts c t Hc. destruct (pack_ok junk ts) as (ua & E & Sa & V). exists ua. split; [exact E|].
  set (cs := filter h_solve ts) in *.
  assert (HL : (c < length cs)%nat) by (apply nth_error_Some; congruence).
  unfold unpack_U. rewrite (omap_val _ (fun l => at_ ua (Z.of_nat c * 3 + l))).
  2:{ intros l Hl. apply in_zrange in Hl. apply rd_ok. lia. }
  change (zrange 0 3) with [0; 1; 2; 3]. cbn [map].
  set (d := Hub false 0 junk []).
  assert (N0 : nth c cs d = t) by now apply nth_error_nth.
  assert (L : forall l, 0 <= l < 3 -> at_ ua (Z.of_nat c * 3 + l) = h_U t l).
  { intros l Hl. rewrite V. unfold sent. fold d.
    replace ((0 <=? Z.of_nat c * 3 + l) && (Z.of_nat c * 3 + l <? 3 * Z.of_nat (length cs))) with true by (symmetry; lia).
    assert (D : (Z.of_nat c * 3 + l) / 3 = Z.of_nat c) by (symmetry; apply Z.div_unique with l; lia).
    assert (M : (Z.of_nat c * 3 + l) mod 3 = l) by (symmetry; apply Z.mod_unique with (Z.of_nat c); lia).
    rewrite D, M, Nat2Z.id, N0. reflexivity. }
  rewrite !L by lia. f_equal. f_equal. f_equal. f_equal. f_equal.
  rewrite V. unfold sent. fold d.
  destruct (nth_error cs (S c)) as [t'|] eqn:ES.
  - assert (HL' : (S c < length cs)%nat) by (apply nth_error_Some; congruence).
    replace ((0 <=? Z.of_nat c * 3 + 3) && (Z.of_nat c * 3 + 3 <? 3 * Z.of_nat (length cs))) with true by (symmetry; lia).
    assert (D : (Z.of_nat c * 3 + 3) / 3 = Z.of_nat (S c)) by (symmetry; apply Z.div_unique with 0; lia).
    assert (M : (Z.of_nat c * 3 + 3) mod 3 = 0) by (symmetry; apply Z.mod_unique with (Z.of_nat (S c)); lia).
    rewrite D, M, Nat2Z.id. f_equal. now rewrite (nth_error_nth _ _ d ES).
  - apply nth_error_None in ES. assert (LE : length cs = S c) by lia.
    replace ((0 <=? Z.of_nat c * 3 + 3) && (Z.of_nat c * 3 + 3 <? 3 * Z.of_nat (length cs))) with false by (symmetry; lia).
    replace ((Z.of_nat c * 3 + 3 =? 3 * Z.of_nat (length cs)) && (1 <=? Z.of_nat (length cs))) with true by (symmetry; lia).
    rewrite LE. replace (Z.to_nat (Z.of_nat (S c) - 1)) with c by lia. now rewrite N0.
Qed.

(** So a correction on f of a type that is not the last is lost: the root
    process works with 7 projectors per atom, the others with none. *)
Definition ce : hub := Hub true 1 (fun l => if l =? 3 then 1 # 5 else 0)%Q [[2; 2]; [6]; [1]; [1]].
Definition ni : hub := Hub true 1 (fun l => if l =? 2 then 1 # 5 else 0)%Q [[2]; []; [8]].
Theorem C73_broadcast_refuted : exists ts t ua us,
  nth_error (filter h_solve ts) 0 = Some t /\ pack_U (fun _ => 0%Q) ts = Ok ua /\ unpack_U ua 0 = Ok us /\
  nprojU t = Ok 7 /\ nprojU (Hub (h_solve t) (h_nat t) (fun l => nth (Z.to_nat l) us 0%Q) (h_shells t)) = Ok 0.
Proof.
  destruct (C73_broadcast (fun _ => 0%Q) [ce; ni] 0 ce eq_refl) as (ua & E & E').
  exists [ce; ni], ce, ua. eexists. split; [reflexivity|]. split; [exact E|]. split; [exact E'|].
  split; vm_compute; reflexivity.
Qed.

Example C73_broadcast_example : exists ua,
  pack_U (fun _ => 0%Q) [ni; Hub false 2 (fun _ => 0%Q) [[1]]; ce] = Ok ua /\
  unpack_U ua 1 = Ok [0%Q; 0%Q; 0%Q; 1 # 5].
Proof. apply (C73_broadcast (fun _ => 0%Q) [ni; Hub false 2 (fun _ => 0%Q) [[1]]; ce] 1 ce eq_refl). Qed.

(** ** Sizes *)
Lemma nproj_gen t ls : (forall l, In l ls -> 0 <= l <= 3 /\
    (h_U t l == 0 \/ 1 # 1000000000000 <= h_U t l)%Q /\ (~ (h_U t l == 0)%Q -> ppl t l = 1)) ->
  forall n, ofold (fun n l => do u <- rdU (h_U t) l ;
    if Qeq_bool u 0 then Ok n else Ok (n + ppl t l * (2 * l + 1))) n ls
  = Ok (n + Z.of_nat (length (orbs (filter (fun l => Qle_bool (1 # 1000000000000) (h_U t l)) ls)))).
Proof.
  induction ls as [|l ls IH]; intros H n; cbn [ofold filter].
  - f_equal. cbn. lia.
  - destruct (H l) as (H3 & HT & HP); [now left|]. rewrite rdU_ok by exact H3. cbn [obind].
    destruct (Qeq_bool (h_U t l) 0) eqn:E.
    + apply Qeq_bool_iff in E.
      destruct (Qle_bool (1 # 1000000000000) (h_U t l)) eqn:E2.
      { apply Qle_bool_iff in E2. rewrite E in E2. exfalso. revert E2. now apply Qlt_not_le. }
      cbn [obind]. apply IH. intros; apply H; now right.
    + apply Qeq_bool_neq in E. destruct HT as [HT|HT]; [contradiction|].
      apply Qle_bool_iff in HT. rewrite HT. cbn [obind].
      rewrite IH by (intros; apply H; now right). rewrite HP by exact E. f_equal.
      rewrite orbs_cons, app_length, repeat_length. lia.
Qed.

(** Every U is 0 or at least 1e-12, and one shell of the isolated atom belongs
    to every corrected l: then the projectors of an atom, the columns of its
    occupation matrix and the entries of [Uval] are its corrected orbitals. *)
Definition sizes_hyp (t : hub) : Prop :=
  (length (h_shells t) <= 4)%nat /\
  forall l, 0 <= l < Z.of_nat (length (h_shells t)) ->
    ((h_U t l == 0 \/ 1 # 1000000000000 <= h_U t l) /\
     (~ h_U t l == 0 -> exists e, nth (Z.to_nat l) (h_shells t) [] = [e]))%Q.

Theorem C73_sizes : forall t, sizes_hyp t ->
  nprojU t = Ok (norb t) /\ angnum t = Ok (norb t) /\
  exists u, uval t = Ok u /\ sz u = norb t /\ forall m, 0 <= m < norb t -> at_ u m = h_U t (orb t m).
Proof.
  intros t [H4 H]. split; [|split].
  - unfold nprojU, maxl. rewrite zrange_seq, nproj_gen; [reflexivity|].
    intros l Hl. split; [now apply (in_ls t)|]. apply in_map_iff in Hl. destruct Hl as (i & <- & Hi).
    apply in_seq in Hi. destruct (H (Z.of_nat i)) as [A B]; [lia|]. split; [exact A|]. intros N.
    destruct (B N) as [e Ee]. unfold ppl. rewrite Ee. reflexivity.
  - now apply angnum_ok.
  - unfold uval. rewrite angnum_ok by exact H4. cbn [obind].
    apply (fill_ok t _ (h_U t) 0%Q); [exact H4| |reflexivity].
    intros l Hl. apply rdU_ok. apply chosen_in in Hl. lia.
Qed.

(** Otherwise they differ.  A negative U, which the reader accepts, yields
    projectors but no matrix; a second shell of a corrected l (semicore states)
    yields more projectors than columns; a corrected l without a shell yields
    columns but no projectors. *)
Theorem C73_sizes_refuted :
  (exists t, (length (h_shells t) <= 4)%nat /\ (h_U t 2 < 0)%Q /\ nprojU t = Ok 5 /\ angnum t = Ok 0) /\
  (exists t, (length (h_shells t) <= 4)%nat /\ (forall l, 0 <= h_U t l)%Q /\
     nprojU t = Ok 6 /\ angnum t = Ok 3) /\
  (exists t, (length (h_shells t) <= 4)%nat /\ (forall l, 0 <= h_U t l)%Q /\
     nprojU t = Ok 0 /\ angnum t = Ok 3).
Proof.
  assert (P : forall k l, (0 <= (if l =? k then 1 # 5 else 0))%Q)
    by (intros k l; destruct (l =? k); discriminate).
  split; [|split].
  - exists (Hub true 1 (fun l => if l =? 2 then - (1 # 5) else 0)%Q [[2]; []; [8]]).
    repeat split; cbn; lia.
  - exists (Hub true 1 (fun l => if l =? 1 then 1 # 5 else 0)%Q [[2]; [6; 1]]).
    split; [cbn; lia|]. split; [apply P|]. split; vm_compute; reflexivity.
  - exists (Hub true 1 (fun l => if l =? 1 then 1 # 5 else 0)%Q [[2]; []; [8]]).
    split; [cbn; lia|]. split; [apply P|]. split; vm_compute; reflexivity.
Qed.

Example C73_sizes_example : nprojU ni = Ok 5 /\ angnum ni = Ok 5.
Proof.
  destruct (C73_sizes ni) as (A & B & _).
  - split; [cbn; lia|]. cbn [ni h_shells length]. intros l Hl.
    assert (l = 0 \/ l = 1 \/ l = 2) as [-> | [-> | ->]] by lia; cbn.
    + split; [left; reflexivity|]. intros F. destruct F. reflexivity.
    + split; [left; reflexivity|]. intros F. destruct F. reflexivity.
    + split; [right; discriminate|]. intros _. now exists 8.
  - split; [exact A|exact B].
Qed.

(** ** Initial occupation *)

(** A shell of the isolated atom for every corrected l. *)
Definition shells_hyp (t : hub) : Prop :=
  (length (h_shells t) <= 4)%nat /\ forall l, In l (chosen t) -> nth (Z.to_nat l) (h_shells t) [] <> [].

Lemma lists_ok t : shells_hyp t -> exists st oc,
  fill t (fun l => Ok (2 * l + 1)) (Arr (norb t) (fun _ => 0)) = Ok st /\
  fill t (l_occ_of t) (Arr (norb t) (fun _ => 0)) = Ok oc /\ sz st = norb t /\ sz oc = norb t /\
  forall i, 0 <= i < norb t -> at_ st i = 2 * orb t i + 1 /\ at_ oc i = electrons t (orb t i).
Proof.
  intros [H4 HN].
  destruct (fill_ok t (fun l => Ok (2 * l + 1)) (fun l => 2 * l + 1) 0 (Arr (norb t) (fun _ => 0)) H4) as (st & E1 & S1 & V1);
    [reflexivity|reflexivity|].
  destruct (fill_ok t (l_occ_of t) (electrons t) 0 (Arr (norb t) (fun _ => 0)) H4) as (oc & E2 & S2 & V2);
    [|reflexivity|].
  { intros l Hl. apply l_occ_ok; [|now apply HN]. apply chosen_in in Hl. lia. }
  exists st, oc. split; [exact E1|]. split; [exact E2|]. split; [exact S1|]. split; [exact S2|].
  intros i Hi. split; [now apply V1|now apply V2].
Qed.

Lemma orb_nonneg t i : 0 <= i < norb t -> 0 <= orb t i.
Proof. intros H. apply orb_in, chosen_in in H. lia. Qed.

Lemma norb_nonneg t : 0 <= norb t.
Proof. unfold norb. lia. Qed.

Lemma Qltb_false a b : ((b <= a)%Q) -> Qltb a b = false.
Proof. intros H. unfold Qltb. apply Qle_bool_iff in H. now rewrite H. Qed.
Lemma Qltb_true a b : ((a < b)%Q) -> Qltb a b = true.
Proof.
  intros H. unfold Qltb. destruct (Qle_bool b a) eqn:E; [|reflexivity].
  apply Qle_bool_iff in E. exfalso. now apply (Qlt_not_le _ _ H).
Qed.

Lemma qmul_div (a b : Q) : ~ (b == 0)%Q -> (b * (a / b) == a)%Q.
Proof. intros H. now rewrite Qmult_div_r. Qed.

Lemma inj_nz l : 0 <= l -> ~ (inject_Z (2 * l + 1) == 0)%Q.
Proof. intros H E. unfold Qeq, inject_Z in E. cbn [Qnum Qden] in E. lia. Qed.

Lemma inj_pos l : 0 <= l -> (0 < inject_Z (2 * l + 1))%Q.
Proof. intros H. change 0%Q with (inject_Z 0). rewrite <- Zlt_Qlt. lia. Qed.

Definition val (t : hub) : Q := qsum (map (fun l => inject_Z (electrons t l)) (chosen t)).

Lemma qsum_scal c (f : Z -> Q) ls : (qsum (map (fun l => c * f l) ls) == c * qsum (map f ls))%Q.
Proof.
  unfold qsum. induction ls as [|l ls IH]; cbn [map fold_right]; [ring|]. rewrite IH. ring.
Qed.
Lemma qsum_plus (f g : Z -> Q) ls : (qsum (map (fun l => f l + g l) ls) == qsum (map f ls) + qsum (map g ls))%Q.
Proof.
  unfold qsum. induction ls as [|l ls IH]; cbn [map fold_right]; [ring|]. rewrite IH. ring.
Qed.

(** Without spin, or for an atom without moment, the electrons of every
    corrected shell are spread evenly over its spin orbitals. *)
Theorem C73_initial : forall spin_typ mag t, shells_hyp t ->
  spin_typ = 0 \/ (spin_typ = 1 /\ (mag == 0)%Q) ->
  exists ms, init_occ spin_typ mag t = Ok ms /\ Z.of_nat (length ms) = spin_typ + 1 /\
    forall a, In a ms -> diag_mat (norb t) a /\
      (forall i, 0 <= i < norb t ->
         (at_ a (i * norb t + i) == inject_Z (electrons t (orb t i)) / inject_Z (2 * (2 * orb t i + 1)))%Q) /\
      (2 * trace (norb t) a == val t)%Q.
Proof.
  intros sp mag t HS Hsp. unfold init_occ.
  replace (sp =? 2) with false by (symmetry; lia).
  rewrite angnum_ok by apply HS. cbn [obind].
  destruct (lists_ok t HS) as (st & oc & -> & -> & S1 & S2 & V). cbn [obind].
  replace ((sp =? 1) && Qltb 0 mag) with false.
  2:{ destruct Hsp as [->|[-> Hm]]; [reflexivity|]. cbn. symmetry. apply Qltb_false. rewrite Hm. apply Qle_refl. }
  replace ((sp =? 1) && Qltb mag 0) with false.
  2:{ destruct Hsp as [->|[-> Hm]]; [reflexivity|]. cbn. symmetry. apply Qltb_false. rewrite Hm. apply Qle_refl. }
  destruct (nonmag_ok (norb t) st oc (norb_nonneg t) S1 S2) as (a & E & D & A).
  rewrite (omap_val _ (fun _ => a)) by (intros; exact E).
  eexists. split; [reflexivity|]. split.
  { rewrite map_length. destruct Hsp as [->|[-> _]]; reflexivity. }
  intros a0 Ha. apply in_map_iff in Ha. destruct Ha as (_ & <- & _). split; [exact D|].
  assert (VA : forall i, 0 <= i < norb t ->
         (at_ a (i * norb t + i) == inject_Z (electrons t (orb t i)) / inject_Z (2 * (2 * orb t i + 1)))%Q).
  { intros i Hi. rewrite A by exact Hi. destruct (V i Hi) as [-> ->]. rewrite (inject_Z_mult 2).
    pose proof (inj_nz _ (orb_nonneg t i Hi)). change (inject_Z 2) with 2%Q. field. exact H. }
  split; [exact VA|].
  rewrite (trace_ok t a (fun l => inject_Z (electrons t l) / inject_Z (2 * (2 * l + 1)))%Q VA).
  rewrite <- qsum_scal. unfold val. apply qsum_ext. intros l Hl. apply chosen_in in Hl.
  rewrite (inject_Z_mult 2). change (inject_Z 2) with 2%Q. pose proof (inj_nz l ltac:(lia)). field. exact H.
Qed.

(** An atom with a moment whose corrected shells are at least half filled: the
    spin along the moment is full and the other one takes the rest, so that both
    spins together hold the electrons of the shells, every entry is between 0
    and 1, and the moment is the largest possible one. *)
Theorem C73_initial_magnetic : forall mag t, shells_hyp t -> ~ (mag == 0)%Q ->
  (forall l, In l (chosen t) -> 2 * l + 1 <= electrons t l) ->
  exists up dw, init_occ 1 mag t = Ok [up; dw] /\ diag_mat (norb t) up /\ diag_mat (norb t) dw /\
    (trace (norb t) up + trace (norb t) dw == val t)%Q /\
    ((if Qle_bool 0 mag then 1 else -1) * (trace (norb t) up - trace (norb t) dw)
       == qsum (map (fun l => inject_Z (2 * (2 * l + 1) - electrons t l)) (chosen t)))%Q /\
    ((forall l, In l (chosen t) -> electrons t l <= 2 * (2 * l + 1)) ->
      forall i a, 0 <= i < norb t -> In a [up; dw] -> (0 <= at_ a (i * norb t + i) <= 1)%Q).
Proof.
  intros mag t HS Hm HH. unfold init_occ. cbn [Z.eqb].
  rewrite angnum_ok by apply HS. cbn [obind].
  destruct (lists_ok t HS) as (st & oc & -> & -> & S1 & S2 & V). cbn [obind].
  destruct (mag_ok (norb t) st oc (norb_nonneg t) S1 S2) as (a & b & E & Da & Db & A).
  assert (VA : forall i, 0 <= i < norb t -> (at_ a (i * norb t + i) == 1)%Q /\
     (at_ b (i * norb t + i) == inject_Z (electrons t (orb t i) - (2 * orb t i + 1)) / inject_Z (2 * orb t i + 1))%Q).
  { intros i Hi. destruct (A i Hi) as [-> ->]. destruct (V i Hi) as [-> ->].
    pose proof (HH _ (orb_in t i Hi)) as HL. unfold maj_val, min_val, qdiv.
    destruct (Z.leb_spec (2 * orb t i + 1) (electrons t (orb t i))); [|lia]. split; reflexivity. }
  assert (Ta : (trace (norb t) a == qsum (map (fun l => inject_Z (2 * l + 1)) (chosen t)))%Q).
  { rewrite (trace_ok t a (fun _ => 1%Q)) by (intros i Hi; now apply VA).
    apply qsum_ext. intros; ring. }
  assert (Tb : (trace (norb t) b == qsum (map (fun l => inject_Z (electrons t l - (2 * l + 1))) (chosen t)))%Q).
  { rewrite (trace_ok t b (fun l => inject_Z (electrons t l - (2 * l + 1)) / inject_Z (2 * l + 1))%Q) by (intros i Hi; now apply VA).
    apply qsum_ext. intros l Hl. apply chosen_in in Hl. apply qmul_div, inj_nz. lia. }
  assert (TS : (trace (norb t) a + trace (norb t) b == val t)%Q).
  { rewrite Ta, Tb, <- qsum_plus. unfold val. apply qsum_ext. intros l _. rewrite <- inject_Z_plus.
    apply inject_Z_injective. lia. }
  assert (TD : (trace (norb t) a - trace (norb t) b ==
     qsum (map (fun l => inject_Z (2 * (2 * l + 1) - electrons t l)) (chosen t)))%Q).
  { rewrite Ta, Tb. unfold Qminus.
    setoid_replace (- qsum (map (fun l => inject_Z (electrons t l - (2 * l + 1))) (chosen t)))%Q
      with ((-1 # 1) * qsum (map (fun l => inject_Z (electrons t l - (2 * l + 1))) (chosen t)))%Q by ring.
    rewrite <- qsum_scal, <- qsum_plus. apply qsum_ext. intros l _.
    change (-1 # 1)%Q with (inject_Z (-1)). rewrite <- inject_Z_mult, <- inject_Z_plus.
    apply inject_Z_injective. lia. }
  assert (RG : (forall l, In l (chosen t) -> electrons t l <= 2 * (2 * l + 1)) ->
      forall i c, 0 <= i < norb t -> In c [a; b] -> (0 <= at_ c (i * norb t + i) <= 1)%Q).
  { intros HU i c Hi Hc. destruct (VA i Hi) as [A1 B1].
    pose proof (orb_in t i Hi) as Ho. pose proof (HU _ Ho). pose proof (HH _ Ho).
    pose proof (orb_nonneg t i Hi) as HO0. pose proof (inj_pos _ HO0) as HP.
    destruct Hc as [<-|[<-|[]]].
    - rewrite A1. split; discriminate.
    - rewrite B1. split.
      + apply Qle_shift_div_l; [exact HP|]. rewrite Qmult_0_l. change 0%Q with (inject_Z 0). rewrite <- Zle_Qle. lia.
      + apply Qle_shift_div_r; [exact HP|]. rewrite Qmult_1_l, <- Zle_Qle. lia. }
  destruct (Qlt_le_dec 0 mag) as [P|P].
  - rewrite (Qltb_true 0 mag P). rewrite E. cbn [obind fst snd andb].
    exists a, b. split; [reflexivity|]. split; [exact Da|]. split; [exact Db|]. split; [exact TS|]. split; [|exact RG].
    replace (Qle_bool 0 mag) with true by (symmetry; apply Qle_bool_iff; now apply Qlt_le_weak).
    rewrite Qmult_1_l. exact TD.
  - assert (N : (mag < 0)%Q).
    { apply Qle_lteq in P. destruct P as [P|P]; [exact P|contradiction]. }
    rewrite (Qltb_false 0 mag P), (Qltb_true mag 0 N). cbn [andb]. rewrite E. cbn [obind fst snd].
    exists b, a. split; [reflexivity|]. split; [exact Db|]. split; [exact Da|].
    split; [rewrite <- TS; ring|]. split.
    + destruct (Qle_bool 0 mag) eqn:EQ.
      { apply Qle_bool_iff in EQ. exfalso. now apply (Qlt_not_le _ _ N). }
      rewrite <- TD. ring.
    + intros HU i c Hi Hc. apply (RG HU i c Hi). destruct Hc as [<-|[<-|[]]]; [right; now left|now left].
Qed.

(** An atom with a moment and a corrected shell less than half filled: the
    matrices hold a negative number of electrons.  With two d electrons the spin
    along the moment gets the occupation (2 - 5)/5 and the other one none. *)
Theorem C73_initial_refuted : exists mag t, shells_hyp t /\ ~ (mag == 0)%Q /\
  (forall l, In l (chosen t) -> 0 <= electrons t l <= 2 * (2 * l + 1)) /\
  exists up dw, init_occ 1 mag t = Ok [up; dw] /\ (at_ up 0 == - (3 # 5))%Q /\
    (trace (norb t) up + trace (norb t) dw == -3)%Q /\ (val t == 2)%Q.
Proof.
  exists 1%Q, (Hub true 1 (fun l => if l =? 2 then 1 # 5 else 0)%Q [[2]; []; [2]]).
  split.
  { split; [cbn; lia|]. vm_compute. intros l [<-|[]]. discriminate. }
  split; [discriminate|]. split.
  { intros l Hl. vm_compute in Hl. destruct Hl as [<-|[]]. vm_compute. split; discriminate. }
  do 2 eexists. split; [vm_compute; reflexivity|]. split; [reflexivity|]. split; vm_compute; reflexivity.
Qed.

Example C73_initial_example : exists up dw, init_occ 1 (-2) ni = Ok [up; dw] /\ (val ni == 8)%Q /\
  (trace 5 up + trace 5 dw == 8)%Q /\ (trace 5 dw - trace 5 up == 2)%Q.
Proof.
  destruct (C73_initial_magnetic (-2) ni) as (up & dw & E & _ & _ & T1 & T2 & _).
  - split; [cbn; lia|]. vm_compute. intros l [<-|[]]. discriminate.
  - discriminate.
  - vm_compute. intros l [<-|[]]. discriminate.
  - exists up, dw. split; [exact E|]. split; [reflexivity|].
    change (norb ni) with 5 in *. split; [rewrite T1; reflexivity|].
    change (Qle_bool 0 (-2)) with false in T2. cbv iota in T2.
    setoid_replace (trace 5 dw - trace 5 up)%Q with (-1 * (trace 5 up - trace 5 dw))%Q by ring. rewrite T2. reflexivity.
Qed.

(** ** Displacements *)

(** For all types with at least one atom each: the block of a corrected atom
    starts where the blocks of the corrected atoms before it end, and the length
    found by the search from the end is that of all blocks. *)
Theorem C73_slots : forall n_atom ts,
  Forall (fun t => 1 <= snd (fst t) /\ 0 <= snd t) ts -> n_atom = zsum (map (fun t => snd (fst t)) ts) ->
  exists a, displ n_atom ts = Ok a /\ sz a = n_atom + 1 /\
    (forall j, 0 <= j < n_atom -> fst (nth (Z.to_nat j) (atoms ts) (false, 0)) = true ->
       at_ a j = before (atoms ts) j) /\
    (existsb (fun t => fst (fst t)) ts = true -> displ_total n_atom a = Ok (before (atoms ts) n_atom)).
Proof.
  intros N ts F HN.
  assert (F1 : Forall (fun t : bool * Z * Z => 1 <= snd (fst t)) ts) by (eapply Forall_impl; [|exact F]; cbn; tauto).
  assert (LA : Z.of_nat (length (atoms ts)) = N) by (rewrite atoms_len; auto).
  destruct (displ_inv N ts [] false (Dst (Arr (N + 1) (fun _ => -1)) 0 0 0) F1) as (s & E & HS & HI & HZ).
  { split; [reflexivity|]. split; [reflexivity|]. cbn. auto. }
  { cbn [app]. lia. }
  cbn [app orb] in *. unfold displ. rewrite E. cbn [obind]. exists (d_arr s). split; [reflexivity|]. split; [exact HS|].
  assert (NN : 0 <= N) by lia.
  destruct (existsb (fun t : bool * Z * Z => fst (fst t)) ts).
  - destruct HZ as (_ & B & V & M & C). split.
    + intros j Hj Hf. apply C; [lia|exact Hf].
    + intros _. unfold displ_total, atm_idx.
      assert (S0 : 0 <= zsum (map snd (atoms ts))).
      { clear -F. induction F as [|t ts [A B] F IH]; [cbn; lia|]. cbn [atoms flat_map]. fold (atoms ts).
        rewrite map_app, zsum_app, zsum_repeat. cbn [snd]. destruct (fst (fst t)); nia. }
      rewrite (last_idx_ok (d_arr s) (Z.to_nat (N - d_i2 s)) N (d_i2 s)) by (exact M || lia).
      cbn [obind]. rewrite rd_ok by lia. now rewrite V, before_all by lia.
  - destruct HZ as (_ & _ & M & Fa). split; [|discriminate].
    intros j Hj Hf. rewrite Forall_forall in Fa.
    rewrite (Fa (nth (Z.to_nat j) (atoms ts) (false, 0))) in Hf; [discriminate|]. apply nth_In. lia.
Qed.

(** So the blocks of two corrected atoms do not overlap, and all lie inside. *)
Theorem C73_slots_disjoint : forall n_atom ts a tot,
  Forall (fun t => 1 <= snd (fst t) /\ 0 <= snd t) ts -> n_atom = zsum (map (fun t => snd (fst t)) ts) ->
  displ n_atom ts = Ok a -> displ_total n_atom a = Ok tot ->
  forall i j x y, 0 <= i < j -> j < n_atom ->
    nth_error (atoms ts) (Z.to_nat i) = Some (true, x) -> nth_error (atoms ts) (Z.to_nat j) = Some (true, y) ->
    0 <= at_ a i /\ at_ a i + x <= at_ a j /\ at_ a j + y <= tot.
Proof.
  intros N ts a tot F HN E ET i j x y Hij Hj Hx Hy.
  destruct (C73_slots N ts F HN) as (a' & E' & _ & V & T). rewrite E in E'. inversion E'; subst a'. clear E'.
  assert (P : forall z, In z (atoms ts) -> 0 <= snd z).
  { intros z Hz. unfold atoms in Hz. apply in_flat_map in Hz. destruct Hz as (t & Ht & Hz).
    apply repeat_spec in Hz. subst z. rewrite Forall_forall in F. destruct (F t Ht). cbn [snd].
    destruct (fst (fst t)); lia. }
  assert (EX : existsb (fun t : bool * Z * Z => fst (fst t)) ts = true).
  { apply existsb_exists. apply nth_error_In in Hx. unfold atoms in Hx. apply in_flat_map in Hx.
    destruct Hx as (t & Ht & Hx). apply repeat_spec in Hx. exists t. split; [exact Ht|].
    now apply (f_equal fst) in Hx. }
  rewrite (T EX) in ET. inversion ET; subst tot. clear ET.
  assert (Vi : at_ a i = before (atoms ts) i) by (apply V; [lia|now rewrite (nth_error_nth _ _ (false, 0) Hx)]).
  assert (Vj : at_ a j = before (atoms ts) j) by (apply V; [lia|now rewrite (nth_error_nth _ _ (false, 0) Hy)]).
  rewrite Vi, Vj.
  assert (NN : forall l, (forall z, In z l -> 0 <= snd z) -> 0 <= zsum (map (@snd bool Z) l)).
  { induction l as [|z l IH]; intros H; [cbn; lia|]. cbn [map]. change (zsum (?a :: ?l)) with (a + zsum l).
    pose proof (H z (or_introl eq_refl)). pose proof (IH (fun w Hw => H w (or_intror Hw))). lia. }
  assert (ST : forall p q w (l : list (bool * Z)), (p < q)%nat -> nth_error l p = Some w -> (forall z, In z l -> 0 <= snd z) ->
     zsum (map snd (firstn p l)) + snd w <= zsum (map snd (firstn q l))).
  { induction p as [|p IH]; intros q w l Hpq Hw HP; destruct l as [|z l]; try discriminate Hw; destruct q as [|q]; try lia;
      cbn [firstn map].
    - cbn in Hw. inversion Hw; subst z. change (zsum (?a :: ?l)) with (a + zsum l).
      assert (0 <= zsum (map snd (firstn q l))).
      { apply NN. intros v Hv. apply HP. right. rewrite <- (firstn_skipn q l). apply in_app_iff. now left. }
      cbn [zsum map fold_right]. lia.
    - change (zsum (?a :: ?l)) with (a + zsum l) at 2. change (zsum (snd z :: ?l)) with (snd z + zsum l).
      pose proof (IH q w l ltac:(lia) Hw (fun v Hv => HP v (or_intror Hv))). lia. }
  unfold before. split; [|split].
  - apply NN. intros v Hv. apply P. rewrite <- (firstn_skipn (Z.to_nat i) (atoms ts)). apply in_app_iff. now left.
  - apply (ST _ _ (true, x)); [lia|exact Hx|exact P].
  - apply (ST _ _ (true, y)); [lia|exact Hy|exact P].
Qed.

(** Without a corrected type the length is read at index -1 (the reader refuses
    that input: readfiles.c:1937-1940). *)
Theorem C73_slots_none : forall n_atom ts,
  Forall (fun t => 1 <= snd (fst t) /\ 0 <= snd t) ts -> n_atom = zsum (map (fun t => snd (fst t)) ts) ->
  existsb (fun t => fst (fst t)) ts = false ->
  exists a, displ n_atom ts = Ok a /\ displ_total n_atom a = UB.
Proof.
  intros N ts F HN EX.
  assert (F1 : Forall (fun t : bool * Z * Z => 1 <= snd (fst t)) ts) by (eapply Forall_impl; [|exact F]; cbn; tauto).
  assert (LA : Z.of_nat (length (atoms ts)) = N) by (rewrite atoms_len; auto).
  destruct (displ_inv N ts [] false (Dst (Arr (N + 1) (fun _ => -1)) 0 0 0) F1) as (s & E & HS & HI & HZ).
  { split; [reflexivity|]. split; [reflexivity|]. cbn. auto. }
  { cbn [app]. lia. }
  cbn [app orb] in *. rewrite EX in HZ. destruct HZ as (_ & _ & M & _).
  unfold displ. rewrite E. cbn [obind]. exists (d_arr s). split; [reflexivity|].
  unfold displ_total, atm_idx. rewrite last_idx_none by (try exact M; lia). reflexivity.
Qed.

Example C73_slots_example : exists a, displ 6 [(false, 1, 9); (true, 2, 5); (false, 1, 9); (true, 2, 3)] = Ok a /\
  at_ a 1 = 0 /\ at_ a 2 = 5 /\ at_ a 4 = 10 /\ at_ a 5 = 13 /\ displ_total 6 a = Ok 16.
Proof.
  destruct (C73_slots 6 [(false, 1, 9); (true, 2, 5); (false, 1, 9); (true, 2, 3)]) as (a & E & _ & V & T).
  - repeat constructor; cbn; lia.
  - reflexivity.
  - exists a. split; [exact E|]. rewrite T by reflexivity. rewrite !V by (lia || reflexivity).
    vm_compute. auto.
Qed.

Print Assumptions C73_name.
Print Assumptions C73_name_none.
Print Assumptions C73_name_refuted.
Print Assumptions C73_broadcast.
Print Assumptions C73_broadcast_refuted.
Print Assumptions C73_sizes.
Print Assumptions C73_sizes_refuted.
Print Assumptions C73_initial.
Print Assumptions C73_initial_magnetic.
Print Assumptions C73_initial_refuted.
Print Assumptions C73_slots.
Print Assumptions C73_slots_disjoint.
Print Assumptions C73_slots_none.
