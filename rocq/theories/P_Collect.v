(** C53: collect_all_lambda gives every working process all eigenvalues. *)
From Coq Require Import ZArith List Bool Lia FinFun.
From Coq Require Import ZifyBool.
From Verif Require Import CBase BlockDecomp WorkSplit P_BlockDecomp Collect.
Import ListNotations.
Local Open Scope Z_scope.

(** ** Lists *)
Lemma zrange_in a n x : In x (zrange a n) <-> a <= x < a + Z.of_nat n.
Proof.
  unfold zrange. rewrite in_map_iff. split.
  - intros [i [<- H]]. apply in_seq in H. lia.
  - intros H. exists (Z.to_nat (x - a)). split; [lia|]. apply in_seq. lia.
Qed.
Lemma zrange_nodup a n : NoDup (zrange a n).
Proof. unfold zrange. apply FinFun.Injective_map_NoDup; [intros x y; lia|]. apply seq_NoDup. Qed.
Lemma seq_off m : forall n, seq n m = map (fun i => (n + i)%nat) (seq 0 m).
Proof. induction m as [|m IH]; intros n; [reflexivity|]. cbn [seq map]. f_equal; [lia|]. rewrite (IH (S n)), <- seq_shift, map_map. apply map_ext. intros; lia. Qed.
Lemma zrange_app a n m : zrange a (n + m) = zrange a n ++ zrange (a + Z.of_nat n) m.
Proof. unfold zrange. rewrite seq_app, map_app. f_equal. rewrite (seq_off m (0 + n)), map_map. apply map_ext. intros; lia. Qed.
Lemma filter_none {A} (p : A -> bool) l : (forall y, In y l -> p y = false) -> filter p l = [].
Proof. induction l as [|a l IH]; intros H; [reflexivity|]. cbn. rewrite (H a (or_introl eq_refl)). apply IH. intros y Hy. apply H. right. exact Hy. Qed.
Lemma filter_one {A} (p : A -> bool) l x : NoDup l -> In x l -> p x = true -> (forall y, In y l -> p y = true -> y = x) -> filter p l = [x].
Proof.
  induction l as [|a l IH]; intros ND Hx Px U; [destruct Hx|]. inversion ND as [|? ? Na ND']; subst. cbn. destruct Hx as [->|Hx].
  - rewrite Px. f_equal. apply filter_none. intros y Hy. destruct (p y) eqn:E; [|reflexivity].
    rewrite (U y (or_intror Hy) E) in Hy. contradiction.
  - destruct (p a) eqn:E; [rewrite (U a (or_introl eq_refl) E) in Na; contradiction|]. apply IH; auto. intros y Hy. apply U. right. exact Hy.
Qed.
Lemma flat_map_nil {A B} (f : A -> list B) l : (forall x, In x l -> f x = []) -> flat_map f l = [].
Proof. induction l as [|a l IH]; intros H; [reflexivity|]. cbn. rewrite (H a (or_introl eq_refl)), IH; [reflexivity|]. intros; apply H; right; assumption. Qed.
Lemma flat_map_ext_in {A B} (f g : A -> list B) l : (forall x, In x l -> f x = g x) -> flat_map f l = flat_map g l.
Proof. induction l as [|a l IH]; intros H; [reflexivity|]. cbn. rewrite (H a (or_introl eq_refl)), IH; [reflexivity|]. intros; apply H; right; assumption. Qed.
Lemma flat_map_single {A B} (f : A -> B) l : flat_map (fun x => [f x]) l = map f l.
Proof. induction l as [|a l IH]; [reflexivity|]. cbn. rewrite IH. reflexivity. Qed.
Lemma filter_interval p a n b m : (a <= b) -> b + Z.of_nat m <= a + Z.of_nat n ->
  (forall y, a <= y < a + Z.of_nat n -> p y = true <-> b <= y < b + Z.of_nat m) -> filter p (zrange a n) = zrange b m.
Proof.
  intros H1 H2 H. set (n1 := Z.to_nat (b - a)). set (n2 := Z.to_nat (a + Z.of_nat n - b - Z.of_nat m)).
  replace n with (n1 + (m + n2))%nat by lia. rewrite !zrange_app, !filter_app. replace (a + Z.of_nat n1) with b by lia.
  rewrite filter_none.
  2:{ intros y Hy. apply zrange_in in Hy. destruct (p y) eqn:E; [|reflexivity]. apply H in E; lia. }
  rewrite (filter_none p (zrange (b + Z.of_nat m) n2)).
  2:{ intros y Hy. apply zrange_in in Hy. destruct (p y) eqn:E; [|reflexivity]. apply H in E; lia. }
  rewrite app_nil_r. cbn [app]. clear -H H1 H2. assert (A : forall l, (forall y, In y l -> p y = true) -> filter p l = l).
  { induction l as [|y l IH]; intros G; [reflexivity|]. cbn. rewrite (G y (or_introl eq_refl)). f_equal. apply IH. intros; apply G; right; assumption. }
  apply A. intros y Hy. apply zrange_in in Hy. apply H; lia.
Qed.

(** MPI_Comm_split when each key in 0..m-1 has exactly one member f(key). *)
Lemma split_unique nproc a n color key r f m : 0 <= m <= nproc ->
  (forall y, a <= y < a + Z.of_nat n -> color y = color r -> 0 <= key y < m /\ y = f (key y)) ->
  (forall v, 0 <= v < m -> a <= f v < a + Z.of_nat n /\ color (f v) = color r /\ key (f v) = v) ->
  comm_split nproc (zrange a n) color key r = map f (zrange 0 (Z.to_nat m)).
Proof.
  intros Hm H1 H2. unfold comm_split.
  replace (Z.to_nat nproc + 2)%nat with (1 + (Z.to_nat m + Z.to_nat (nproc - m + 1)))%nat by lia.
  rewrite !zrange_app, !flat_map_app. change (-1 + Z.of_nat 1) with 0. replace (0 + Z.of_nat (Z.to_nat m)) with m by lia.
  rewrite (flat_map_nil _ (zrange (-1) 1)), (flat_map_nil _ (zrange m _)).
  - cbn [app]. rewrite app_nil_r. rewrite <- flat_map_single. apply flat_map_ext_in. intros v Hv. apply zrange_in in Hv.
    destruct (H2 v ltac:(lia)) as (A & B & C). apply filter_one.
    + apply zrange_nodup.
    + apply zrange_in. exact A.
    + rewrite B, C, !Z.eqb_refl. reflexivity.
    + intros y Hy E. apply zrange_in in Hy. apply andb_true_iff in E. destruct E as [E1 E2].
      apply Z.eqb_eq in E1, E2. destruct (H1 y Hy E1) as [_ Ey]. rewrite E2 in Ey. exact Ey.
  - intros v Hv. apply zrange_in in Hv. apply filter_none. intros y Hy. apply zrange_in in Hy.
    destruct (Z.eqb_spec (color y) (color r)) as [E1|]; [|reflexivity]. destruct (H1 y Hy E1) as [B _].
    destruct (Z.eqb_spec (key y) v); [lia|reflexivity].
  - intros v Hv. apply zrange_in in Hv. apply filter_none. intros y Hy. apply zrange_in in Hy.
    destruct (Z.eqb_spec (color y) (color r)) as [E1|]; [|reflexivity]. destruct (H1 y Hy E1) as [B _].
    destruct (Z.eqb_spec (key y) v); [lia|reflexivity].
Qed.

(** ** Process coordinates *)
Section Coord.
  Variables (nproc ps pk pb npNd : Z) (Nspin Nk Ns : Z).
  Hypothesis Hn : 1 <= nproc <= INT_MAX.
  Hypothesis Hps : 1 <= ps <= nproc.
  Let ss := Z.quot nproc ps.
  Hypothesis Hpk : 1 <= pk <= ss.
  Hypothesis HpN : pk <= Nk.
  Let sk := Z.quot ss pk.
  Hypothesis Hpb : 1 <= pb.
  Hypothesis HNs : 0 <= Ns.
  Hypothesis HNspin : ps * Z.quot Nspin ps = Nspin /\ 0 <= Nspin <= 2.
  Definition rank_of (s q t : Z) : Z := s * ss + (q * sk + t).
  Let Ess : ps * ss = nproc - Z.rem nproc ps /\ 0 <= Z.rem nproc ps < ps := quot_le nproc ps ltac:(lia) ltac:(lia).
  Let Pss : 1 <= ss := quot_pos nproc ps ltac:(lia).
  Let Esk : pk * sk = ss - Z.rem ss pk /\ 0 <= Z.rem ss pk < pk := quot_le ss pk ltac:(lia) ltac:(lia).
  Let Psk : 1 <= sk := quot_pos ss pk ltac:(lia).

  Let Brem : nproc - Z.rem nproc ps <= nproc := ltac:(lia).

  Lemma spin_coords s u : 0 <= s < ps -> 0 <= u < ss ->
    0 <= s * ss + u < nproc - Z.rem nproc ps /\ si nproc ps (s * ss + u) = s /\ rs nproc ps (s * ss + u) = u.
  Proof.
    intros Hs Hu. assert (B : 0 <= s * ss + u < nproc - Z.rem nproc ps) by (apply (mixed_radix s ps ss); [lia|lia|apply Ess]).
    split; [exact B|]. unfold si, rs, spincomm_index, rank_spincomm, size_spincomm. fold ss.
    replace (s * ss + u <? nproc - Z.rem nproc ps) with true by lia.
    rewrite quot_div_nonneg, rem_mod_nonneg by lia. split.
    - symmetry. apply (Z.div_unique _ _ _ u); [left; lia|ring].
    - symmetry. apply (Z.mod_unique _ _ s); [left; lia|ring].
  Qed.
  Lemma coords s q t : 0 <= s < ps -> 0 <= q < pk -> 0 <= t < sk ->
    let x := rank_of s q t in
    0 <= x < nproc - Z.rem nproc ps /\ si nproc ps x = s /\ rs nproc ps x = q * sk + t /\
    0 <= q * sk + t < ss - Z.rem ss pk /\ ki nproc ps pk x = q /\ rk nproc ps pk x = t.
  Proof.
    intros Hs Hq Ht x. assert (B : 0 <= q * sk + t < ss - Z.rem ss pk) by (apply (mixed_radix q pk sk); [lia|lia|apply Esk]).
    destruct (spin_coords s (q * sk + t) Hs ltac:(lia)) as (B1 & E1 & E2). fold (rank_of s q t) in B1, E1, E2. fold x in B1, E1, E2.
    split; [exact B1|]. split; [exact E1|]. split; [exact E2|]. split; [exact B|].
    unfold ki, rk. rewrite E1, E2. unfold kptcomm_index, rank_kptcomm, size_kptcomm, size_spincomm. fold ss. fold sk.
    replace (s =? -1) with false by lia. replace (q * sk + t <? ss - Z.rem ss pk) with true by lia. cbn [negb andb].
    rewrite quot_div_nonneg, rem_mod_nonneg by lia. split.
    - symmetry. apply (Z.div_unique _ _ _ t); [left; lia|ring].
    - symmetry. apply (Z.mod_unique _ _ q); [left; lia|ring].
  Qed.
  Lemma spin_uncoords x : 0 <= x < nproc - Z.rem nproc ps -> exists s u, 0 <= s < ps /\ 0 <= u < ss /\ x = s * ss + u.
  Proof.
    intros Hx. exists (x / ss), (x mod ss). pose proof (Z.div_mod x ss ltac:(lia)). pose proof (Z.mod_pos_bound x ss ltac:(lia)).
    split; [|split; lia]. split; [apply Z.div_pos; lia|]. apply Z.div_lt_upper_bound; lia.
  Qed.
  Lemma uncoords x : 0 <= x < nproc -> in_dmcomm nproc ps pk pb npNd x = true ->
    exists s q t, 0 <= s < ps /\ 0 <= q < pk /\ 0 <= t < sk /\ x = rank_of s q t.
  Proof.
    intros Hx H. unfold in_dmcomm in H. apply andb_true_iff in H. destruct H as [H _]. apply negb_true_iff, Z.eqb_neq in H.
    unfold bandcomm_index in H. destruct (_ && _) eqn:E in H; [|contradiction]. apply andb_true_iff in E. destruct E as [_ E].
    apply negb_true_iff, Z.eqb_neq in E. unfold ki in E. destruct (kpt_active _ _ _ _ E) as [E1 E2].
    unfold si, spincomm_index in E1. destruct (x <? nproc - Z.rem nproc ps) eqn:B; [|contradiction]. clear E1.
    destruct (spin_uncoords x ltac:(lia)) as (s & u & Hs & Hu & ->). destruct (spin_coords s u Hs Hu) as (_ & _ & Er).
    rewrite Er in E2. unfold size_spincomm in E2. fold ss in E2.
    exists s, (u / sk), (u mod sk). pose proof (Z.div_mod u sk ltac:(lia)). pose proof (Z.mod_pos_bound u sk ltac:(lia)).
    split; [exact Hs|]. split; [|split; [lia|unfold rank_of; lia]]. split; [apply Z.div_pos; lia|]. apply Z.div_lt_upper_bound; lia.
  Qed.
  (** whether a process works depends only on its rank in the k-point group *)
  Lemma dm_same s q s' q' t : 0 <= s < ps -> 0 <= q < pk -> 0 <= t < sk -> 0 <= s' < ps -> 0 <= q' < pk ->
    in_dmcomm nproc ps pk pb npNd (rank_of s q t) = in_dmcomm nproc ps pk pb npNd (rank_of s' q' t).
  Proof.
    intros Hs Hq Ht Hs' Hq'. destruct (coords s q t Hs Hq Ht) as (_ & _ & _ & _ & E1 & E2).
    destruct (coords s' q' t Hs' Hq' Ht) as (_ & _ & _ & _ & E3 & E4). unfold in_dmcomm. rewrite E1, E2, E3, E4.
    unfold bandcomm_index. replace (q =? -1) with false by lia. replace (q' =? -1) with false by lia. reflexivity.
  Qed.
  Lemma spin_bridge s q t : 0 <= s < ps -> 0 <= q < pk -> 0 <= t < sk ->
    spin_bridge_comm nproc ps (rank_of s q t) = map (fun v => rank_of v q t) (zrange 0 (Z.to_nat ps)).
  Proof.
    intros Hs Hq Ht. unfold spin_bridge_comm, world. destruct (coords s q t Hs Hq Ht) as (B & _ & Er & B2 & _).
    apply split_unique; [lia| |].
    - intros y Hy. replace (rank_of s q t <? nproc - Z.rem nproc ps) with true by lia. rewrite Er.
      destruct (Z.ltb_spec y (nproc - Z.rem nproc ps)) as [Ly|Ly]; [|intros E; exfalso; nia].
      destruct (spin_uncoords y ltac:(lia)) as (s' & u & Hs' & Hu & ->). destruct (spin_coords s' u Hs' Hu) as (_ & E1 & E2).
      rewrite E1, E2. intros ->. split; [lia|]. unfold rank_of. reflexivity.
    - intros v Hv. destruct (coords v q t Hv Hq Ht) as (B' & E1 & E2 & _).
      replace (rank_of s q t <? nproc - Z.rem nproc ps) with true by lia.
      replace (rank_of v q t <? nproc - Z.rem nproc ps) with true by lia. rewrite Er, E2. split; [lia|]. split; [reflexivity|exact E1].
  Qed.
  Lemma spincomm_all s u : 0 <= s < ps -> 0 <= u < ss -> spincomm nproc ps (s * ss + u) = zrange (s * ss) (Z.to_nat ss).
  Proof.
    intros Hs Hu. unfold spincomm, comm_split, world. destruct (spin_coords s u Hs Hu) as (B & E1 & E2). rewrite E1.
    replace (0 <=? s) with true by lia.
    replace (Z.to_nat nproc + 2)%nat with (1 + (1 + (Z.to_nat nproc)))%nat by lia. rewrite !zrange_app, !flat_map_app.
    rewrite (flat_map_nil _ (zrange (-1) 1)), (flat_map_nil _ (zrange (-1 + Z.of_nat 1 + Z.of_nat 1) _)).
    - cbn [app zrange seq map flat_map]. rewrite !app_nil_r.
      assert (SB : s * ss + ss <= nproc) by nia.
      apply filter_interval; [nia|lia|].
      intros y Hy. change (0 =? _) with true. rewrite andb_true_r. rewrite Z.eqb_eq. split.
      + intros E. unfold si, spincomm_index in E. destruct (Z.ltb_spec y (nproc - Z.rem nproc ps)) as [Ly|Ly].
        * destruct (spin_uncoords y ltac:(lia)) as (s' & u' & Hs' & Hu' & ->). destruct (spin_coords s' u' Hs' Hu') as (_ & E1' & _).
          unfold si, spincomm_index in E1'. replace (s' * ss + u' <? nproc - Z.rem nproc ps) with true in E1' by lia. rewrite E1' in E.
          replace (0 <=? s') with true in E by lia. subst s'. lia.
        * change (0 <=? -1) with false in E. cbv iota in E. nia.
      + intros H. replace y with (s * ss + (y - s * ss)) by ring. destruct (spin_coords s (y - s * ss) Hs ltac:(lia)) as (_ & E & _).
        rewrite E. replace (0 <=? s) with true by lia. reflexivity.
    - intros v Hv. apply zrange_in in Hv. apply filter_none. intros y _. replace (0 =? v) with false by lia. apply andb_false_r.
    - intros v Hv. apply zrange_in in Hv. apply filter_none. intros y _. replace (0 =? v) with false by lia. apply andb_false_r.
  Qed.
  Lemma kpt_bridge s q t : 0 <= s < ps -> 0 <= q < pk -> 0 <= t < sk ->
    kpt_bridge_comm nproc ps pk (rank_of s q t) = map (fun v => rank_of s v t) (zrange 0 (Z.to_nat pk)).
  Proof.
    intros Hs Hq Ht. destruct (coords s q t Hs Hq Ht) as (B & _ & Er & B2 & _ & Ek). unfold kpt_bridge_comm.
    assert (EP : spincomm nproc ps (rank_of s q t) = zrange (s * ss) (Z.to_nat ss)) by (apply spincomm_all; lia).
    rewrite EP. unfold size_spincomm. fold ss. apply split_unique; [nia| |].
    - intros y Hy. rewrite Er. replace (q * sk + t <? ss - Z.rem ss pk) with true by lia. rewrite Ek.
      replace y with (s * ss + (y - s * ss)) by ring. set (u := y - s * ss). assert (Hu : 0 <= u < ss) by lia.
      destruct (spin_coords s u Hs Hu) as (_ & E1 & E2). rewrite E2.
      destruct (Z.ltb_spec u (ss - Z.rem ss pk)) as [Lu|Lu].
      + pose proof (Z.div_mod u sk ltac:(lia)) as D. pose proof (Z.mod_pos_bound u sk ltac:(lia)) as Mb.
        assert (Hq' : 0 <= u / sk < pk) by (split; [apply Z.div_pos; lia|]; apply Z.div_lt_upper_bound; lia).
        assert (EU : s * ss + u = rank_of s (u / sk) (u mod sk)) by (unfold rank_of; lia). rewrite EU.
        destruct (coords s (u / sk) (u mod sk) Hs Hq' Mb) as (_ & _ & _ & _ & K1 & K2). rewrite K1, K2. intros ->. split; [lia|reflexivity].
      + intros E. exfalso. nia.
    - intros v Hv. destruct (coords s v t Hs Hv Ht) as (B' & _ & E2 & B3 & E3 & E4).
      rewrite Er, E2. replace (q * sk + t <? ss - Z.rem ss pk) with true by lia. replace (v * sk + t <? ss - Z.rem ss pk) with true by lia.
      rewrite Ek, E4. split; [unfold rank_of; lia|]. split; [reflexivity|exact E3].
  Qed.
  Lemma loc_sizes s q t : 0 <= s < ps -> 0 <= q < pk -> 0 <= t < sk ->
    let x := rank_of s q t in
    nspin_loc nproc ps Nspin x = Z.quot Nspin ps /\ spin_start nproc ps Nspin x = s * Z.quot Nspin ps /\
    nkpt_loc nproc ps pk Nk x = block_decompose Nk pk q /\
    kpt_start ss pk Nk (si nproc ps x) (rs nproc ps x) = block_decompose_nstart Nk pk q.
  Proof.
    intros Hs Hq Ht x. destruct (coords s q t Hs Hq Ht) as (B & E1 & E2 & B2 & E3 & E4). fold x in B, E1, E2, E3, E4.
    unfold nspin_loc, spin_start, Nspin_spincomm. fold (si nproc ps x). rewrite E1.
    replace (x <? nproc - Z.rem nproc ps) with true by lia. replace (s =? -1) with false by lia.
    split; [reflexivity|]. split; [reflexivity|].
    unfold nkpt_loc. rewrite E1, E2. unfold size_spincomm. fold ss.
    destruct (kpt_is_block ss pk Nk s (q * sk + t)) as (_ & A1 & A2); try lia.
    assert (EK : kptcomm_index ss pk s (q * sk + t) = q).
    { unfold ki in E3. rewrite E1, E2 in E3. exact E3. }
    rewrite EK in A1, A2. split; [exact A1|exact A2].
  Qed.

  (** ** The gathered arrays *)
  Variables (K : Type) (zero : K).
  Variable G : Z -> Z -> Z -> K.
  Definition bands (s k : Z) : list K := map (G s k) (zrange 0 (Z.to_nat Ns)).
  Definition ks (s k0 n : Z) : list K := flat_map (bands s) (zrange k0 (Z.to_nat n)).
  Definition spins (s0 n k0 m : Z) : list K := flat_map (fun s => ks s k0 m) (zrange s0 (Z.to_nat n)).
  Lemma bands_len s k : Z.of_nat (length (bands s k)) = Ns.
  Proof. unfold bands, zrange. rewrite !map_length, seq_length. lia. Qed.
  Lemma flat_len {A} (f : A -> list K) c l : (forall x, Z.of_nat (length (f x)) = c) -> Z.of_nat (length (flat_map f l)) = Z.of_nat (length l) * c.
  Proof. intros H. induction l as [|a l IH]; [reflexivity|]. cbn [flat_map length]. rewrite app_length, Nat2Z.inj_add, IH, H. lia. Qed.
  Lemma zrange_len a n : length (zrange a n) = n.
  Proof. unfold zrange. rewrite map_length, seq_length. reflexivity. Qed.
  Lemma ks_len s k0 n : 0 <= n -> Z.of_nat (length (ks s k0 n)) = n * Ns.
  Proof. intros H. unfold ks. rewrite (flat_len _ Ns) by (intros; apply bands_len). rewrite zrange_len. lia. Qed.
  Lemma spins_len s0 n k0 m : 0 <= n -> 0 <= m -> Z.of_nat (length (spins s0 n k0 m)) = n * (m * Ns).
  Proof. intros H1 H2. unfold spins. rewrite (flat_len _ (m * Ns)) by (intros; apply ks_len; lia). rewrite zrange_len. lia. Qed.

  (** consecutive placements fill the buffer from left to right *)
  Lemma place_all_consecutive : forall (l : list (Z * list K)) pre rest,
    (forall i, (i < length l)%nat -> fst (nth i l (0, [])) = Z.of_nat (length pre) + Z.of_nat (length (concat (map snd (firstn i l))))) ->
    (length (concat (map snd l)) <= length rest)%nat ->
    place_all K (pre ++ rest) l = Ok (pre ++ concat (map snd l) ++ skipn (length (concat (map snd l))) rest).
  Proof.
    induction l as [|[off v] l IH]; intros pre rest H L.
    - cbn. reflexivity.
    - cbn [place_all]. pose proof (H 0%nat ltac:(cbn; lia)) as H0. cbn in H0. rewrite Z.add_0_r in H0. subst off.
      cbn [map concat] in L |- *. cbn [snd] in L |- *. rewrite app_length in L.
      unfold place. rewrite app_length. replace (0 <=? Z.of_nat (length pre)) with true by lia.
      replace (Z.of_nat (length pre) + Z.of_nat (length v) <=? Z.of_nat (length pre + length rest)) with true by lia. cbn [andb obind].
      rewrite Nat2Z.id. rewrite firstn_app, firstn_all, Nat.sub_diag. cbn [firstn]. rewrite app_nil_r.
      rewrite skipn_app. rewrite skipn_all2 by lia. replace (length pre + length v - length pre)%nat with (length v) by lia. cbn [app].
      rewrite app_assoc. rewrite IH.
      + rewrite <- app_assoc. do 2 f_equal. rewrite <- app_assoc. f_equal. f_equal. rewrite app_length. rewrite Nat.add_comm.
        clear. revert rest. induction (length v) as [|n IHn]; intros rest; [rewrite Nat.add_0_r; reflexivity|].
        rewrite Nat.add_succ_r. destruct rest; [rewrite skipn_nil; reflexivity|]. cbn [skipn]. apply IHn.
      + intros i Hi. specialize (H (S i) ltac:(cbn; lia)). cbn [nth firstn map concat snd] in H. rewrite H, !app_length. lia.
      + rewrite skipn_length. lia.
  Qed.

  Lemma combine_map_seq {A} (f : Z -> A) m n : combine (seq n m) (map f (zrange (Z.of_nat n) m)) = map (fun i => (i, f (Z.of_nat i))) (seq n m).
  Proof.
    unfold zrange. revert n. induction m as [|m IH]; intros n; [reflexivity|]. cbn [seq map combine]. rewrite Z.add_0_r. f_equal.
    rewrite <- IH. f_equal. rewrite <- seq_shift, !map_map. apply map_ext. intros i. f_equal. lia.
  Qed.
  Lemma map_zrange_len {A} (f : Z -> A) a m : length (map f (zrange a m)) = m.
  Proof. rewrite map_length. apply zrange_len. Qed.
  Lemma concat_seq (h : Z -> list K) m : concat (map (fun i => h (Z.of_nat i)) (seq 0 m)) = flat_map h (zrange 0 m).
  Proof. unfold zrange. rewrite flat_map_concat_map, map_map. reflexivity. Qed.
  Lemma firstn_seq i m : (i <= m)%nat -> firstn i (seq 0 m) = seq 0 i.
  Proof. intros H. replace m with (i + (m - i))%nat by lia. rewrite seq_app, firstn_app, seq_length, Nat.sub_diag. cbn. rewrite app_nil_r. rewrite firstn_all2; [reflexivity|rewrite seq_length; lia]. Qed.

  (** a gather whose blocks are [h 0, h 1, ...], with displacements equal to
      the accumulated lengths *)
  Lemma gather_blocks f h m cnt dsp pre rest (send : Z -> list K) :
    (forall v, 0 <= v < Z.of_nat m -> in_dmcomm nproc ps pk pb npNd (f v) = true /\ send (f v) = h v) ->
    (forall i, (i < m)%nat -> cnt i = Z.of_nat (length (h (Z.of_nat i)))) ->
    (forall i, (i < m)%nat -> dsp i = Z.of_nat (length (flat_map h (zrange 0 i)))) ->
    (length (flat_map h (zrange 0 m)) <= length rest)%nat ->
    allgatherv nproc ps pk pb npNd K (map f (zrange 0 m)) send cnt dsp (pre ++ rest) (Z.of_nat (length pre))
    = Ok (pre ++ flat_map h (zrange 0 m) ++ skipn (length (flat_map h (zrange 0 m))) rest).
  Proof.
    intros H1 H2 H3 H4. unfold allgatherv. rewrite map_zrange_len.
    change (zrange 0 m) with (zrange (Z.of_nat 0) m) at 2 3. rewrite combine_map_seq.
    assert (A1 : forallb (in_dmcomm nproc ps pk pb npNd) (map f (zrange 0 m)) = true).
    { apply forallb_forall. intros y Hy. apply in_map_iff in Hy. destruct Hy as (v & <- & Hv). apply zrange_in in Hv. apply H1. lia. }
    rewrite A1. cbn [andb].
    assert (A2 : forallb (fun p : nat * Z => Z.of_nat (length (send (snd p))) =? cnt (fst p)) (map (fun i => (i, f (Z.of_nat i))) (seq 0 m)) = true).
    { apply forallb_forall. intros y Hy. apply in_map_iff in Hy. destruct Hy as (i & <- & Hi). apply in_seq in Hi. cbn [fst snd].
      destruct (H1 (Z.of_nat i) ltac:(lia)) as [_ ->]. apply Z.eqb_eq. symmetry. apply H2. lia. }
    rewrite A2. rewrite map_map. cbn [fst snd].
    assert (E : map snd (map (fun i => (Z.of_nat (length pre) + dsp i, send (f (Z.of_nat i)))) (seq 0 m)) = map (fun i => h (Z.of_nat i)) (seq 0 m)).
    { rewrite map_map. apply map_ext_in. intros i Hi. apply in_seq in Hi. cbn [snd]. apply H1. lia. }
    rewrite place_all_consecutive; rewrite ?E, ?concat_seq; [reflexivity| |exact H4].
    intros i Hi. rewrite map_length, seq_length in Hi. rewrite firstn_map, firstn_seq by lia.
    replace (map snd (map (fun i0 => (Z.of_nat (length pre) + dsp i0, send (f (Z.of_nat i0)))) (seq 0 i))) with (map (fun i => h (Z.of_nat i)) (seq 0 i)).
    - rewrite concat_seq.
      assert (N : forall (g : nat -> Z * list K), nth i (map g (seq 0 m)) (0, []) = g i).
      { intros g. rewrite (nth_indep _ (0, []) (g 0%nat)) by (rewrite map_length, seq_length; exact Hi). rewrite map_nth, seq_nth by exact Hi. reflexivity. }
      rewrite N. cbn [fst]. rewrite H3 by exact Hi. reflexivity.
    - rewrite map_map. apply map_ext_in. intros j Hj. apply in_seq in Hj. cbn [snd]. symmetry. apply H1. lia.
  Qed.

  Lemma flat_map_flat_map_blocks s (m : nat) : (Z.of_nat m <= pk) ->
    flat_map (fun q => ks s (block_decompose_nstart Nk pk q) (block_decompose Nk pk q)) (zrange 0 m) = ks s 0 (block_decompose_nstart Nk pk (Z.of_nat m)).
  Proof.
    intros Hm. induction m as [|m IH].
    - rewrite bd_start_0 by lia. reflexivity.
    - replace (S m) with (m + 1)%nat at 1 by lia. rewrite zrange_app, flat_map_app, IH by lia.
      replace (Z.of_nat (S m)) with (Z.of_nat m + 1) by lia. rewrite bd_start_S by lia.
      cbn [zrange seq map flat_map]. rewrite app_nil_r. replace (0 + Z.of_nat m + Z.of_nat 0) with (Z.of_nat m) by lia.
      assert (0 <= block_decompose_nstart Nk pk (Z.of_nat m)) by (rewrite <- (bd_start_0 Nk pk) by lia; apply bd_start_mono; lia).
      pose proof (bd_nonneg Nk pk (Z.of_nat m) ltac:(lia) ltac:(lia)).
      unfold ks. rewrite Z2Nat.inj_add by lia. rewrite zrange_app, flat_map_app. rewrite Z2Nat.id by lia. reflexivity.
  Qed.
  Lemma flat_map_spin_blocks n1 (m : nat) : 0 <= n1 ->
    flat_map (fun v => spins (v * n1) n1 0 Nk) (zrange 0 m) = spins 0 (Z.of_nat m * n1) 0 Nk.
  Proof.
    intros Hn1. induction m as [|m IH]; [reflexivity|]. replace (S m) with (m + 1)%nat at 1 by lia.
    rewrite zrange_app, flat_map_app, IH. cbn [zrange seq map flat_map]. rewrite app_nil_r. replace (0 + Z.of_nat m + Z.of_nat 0) with (Z.of_nat m) by lia.
    unfold spins. replace (Z.of_nat (S m) * n1) with (Z.of_nat m * n1 + n1) by lia. rewrite Z2Nat.inj_add by lia.
    rewrite zrange_app, flat_map_app. rewrite Z2Nat.id by lia. reflexivity.
  Qed.

  (** what each working process holds before the call *)
  Definition holds (lambda : Z -> list K) : Prop := forall x, 0 <= x < nproc -> in_dmcomm nproc ps pk pb npNd x = true ->
    lambda x = spins (spin_start nproc ps Nspin x) (nspin_loc nproc ps Nspin x)
                     (kpt_start ss pk Nk (si nproc ps x) (rs nproc ps x)) (nkpt_loc nproc ps pk Nk x).

  Lemma slice_spins s0 n k0 m sp : 0 <= sp < n -> 0 <= m ->
    slice K (spins s0 n k0 m) (sp * (Ns * m)) (Ns * m) = ks (s0 + sp) k0 m.
  Proof.
    intros H Hm. unfold slice, spins.
    replace (Z.to_nat n) with (Z.to_nat sp + (1 + Z.to_nat (n - sp - 1)))%nat by lia. rewrite !zrange_app, !flat_map_app.
    set (A := flat_map _ (zrange s0 (Z.to_nat sp))).
    assert (LA : length A = Z.to_nat (sp * (Ns * m))).
    { assert (Z.of_nat (length A) = sp * (m * Ns)) by (unfold A; apply spins_len; lia). lia. }
    rewrite skipn_app, skipn_all2 by lia. rewrite LA, Nat.sub_diag. cbn [app skipn].
    replace (s0 + Z.of_nat (Z.to_nat sp)) with (s0 + sp) by lia. cbn [zrange seq map flat_map]. rewrite app_nil_r, Z.add_0_r.
    pose proof (ks_len (s0 + sp) k0 m Hm) as LK. rewrite firstn_app. rewrite firstn_all2 by lia.
    replace (Z.to_nat (Ns * m) - length (ks (s0 + sp) k0 m))%nat with 0%nat by lia. cbn [firstn]. apply app_nil_r.
  Qed.

  Lemma gather_kpt_ok lambda s q t sp pre rest : holds lambda -> 0 <= s < ps -> 0 <= q < pk -> 0 <= t < sk ->
    in_dmcomm nproc ps pk pb npNd (rank_of s q t) = true -> 0 <= sp < Z.quot Nspin ps ->
    Nk * Ns <= Z.of_nat (length rest) ->
    gather_kpt nproc ps pk pb npNd Nk Ns K lambda (rank_of s q t) sp (pre ++ rest) (Z.of_nat (length pre))
    = Ok (pre ++ ks (s * Z.quot Nspin ps + sp) 0 Nk ++ skipn (Z.to_nat (Nk * Ns)) rest).
  Proof.
    intros HL Hs Hq Ht Hd Hsp Lr. unfold gather_kpt. rewrite kpt_bridge by assumption.
    set (S0 := s * Z.quot Nspin ps + sp).
    set (h := fun v => ks S0 (block_decompose_nstart Nk pk v) (block_decompose Nk pk v)).
    assert (Eh : flat_map h (zrange 0 (Z.to_nat pk)) = ks S0 0 Nk).
    { unfold h. rewrite flat_map_flat_map_blocks by lia. rewrite Z2Nat.id by lia. rewrite bd_start_p by lia. reflexivity. }
    pose proof (ks_len S0 0 Nk ltac:(lia)) as LK.
    rewrite (gather_blocks (fun v => rank_of s v t) h).
    - rewrite Eh. do 3 f_equal. f_equal. lia.
    - intros v Hv. assert (Dv : in_dmcomm nproc ps pk pb npNd (rank_of s v t) = true) by (rewrite <- Hd; apply dm_same; lia).
      split; [exact Dv|]. destruct (coords s v t Hs ltac:(lia) Ht) as (Bv & _).
      destruct (loc_sizes s v t Hs ltac:(lia) Ht) as (L1 & L2 & L3 & L4). cbv zeta in *.
      rewrite (HL _ (conj (proj1 Bv) (Z.lt_le_trans _ _ _ (proj2 Bv) Brem)) Dv), L1, L2, L3, L4. apply slice_spins; [lia|apply bd_nonneg; lia].
    - intros i Hi. unfold counts, h. rewrite ks_len by (apply bd_nonneg; lia). reflexivity.
    - intros i Hi. unfold displs, h. rewrite kptBridge_displ_start by lia. rewrite flat_map_flat_map_blocks by lia. rewrite ks_len; [reflexivity|].
      rewrite <- (bd_start_0 Nk pk) by lia. apply bd_start_mono; lia.
    - rewrite Eh. lia.
  Qed.

  Lemma collect_ok gamma lambda x : (gamma = true -> Nk = 1) -> (Z.quot Nspin ps = 1 \/ Z.quot Nspin ps = 2) ->
    holds lambda -> 0 <= x < nproc -> in_dmcomm nproc ps pk pb npNd x = true ->
    collect_all_lambda nproc ps pk pb npNd Nspin Nk Ns K zero gamma lambda x = Ok (spins 0 Nspin 0 Nk).
  Proof.
    intros HG H12 HL Hx Hd. destruct (uncoords x Hx Hd) as (s & q & t & Hs & Hq & Ht & ->).
    unfold collect_all_lambda. rewrite Hd. cbn [negb].
    destruct (loc_sizes s q t Hs Hq Ht) as (L1 & L2 & L3 & L4). cbv zeta in L1, L2, L3, L4.
    pose proof (spins_len 0 Nspin 0 Nk ltac:(lia) ltac:(lia)) as LT.
    assert (LZ : Z.of_nat (length (zeros K zero (Nspin * Nk * Ns))) = Nspin * (Nk * Ns)) by (unfold zeros; rewrite repeat_length; nia).
    set (n1 := Z.quot Nspin ps) in *. assert (Pn1 : 0 < n1) by lia.
    (* the gather over the spin bridge, given what is sent *)
    assert (GS : forall send, (forall v, 0 <= v < ps -> send (rank_of v q t) = spins (v * n1) n1 0 Nk) ->
      allgather nproc ps pk pb npNd K (spin_bridge_comm nproc ps (rank_of s q t)) send (n1 * (Nk * Ns)) (zeros K zero (Nspin * Nk * Ns)) = Ok (spins 0 Nspin 0 Nk)).
    { intros send Hsend. rewrite spin_bridge by assumption. unfold allgather.
      assert (EB : flat_map (fun v => spins (v * n1) n1 0 Nk) (zrange 0 (Z.to_nat ps)) = spins 0 Nspin 0 Nk).
      { rewrite flat_map_spin_blocks by lia. f_equal. rewrite Z2Nat.id by lia. apply HNspin. }
      pose proof (gather_blocks (fun v => rank_of v q t) (fun v => spins (v * n1) n1 0 Nk) (Z.to_nat ps)
        (fun _ => n1 * (Nk * Ns)) (fun i => Z.of_nat i * (n1 * (Nk * Ns))) [] (zeros K zero (Nspin * Nk * Ns)) send) as GB.
      cbn [app length] in GB. rewrite EB in GB. change (Z.of_nat 0) with 0 in GB. rewrite GB; [f_equal|..].
      - rewrite (skipn_all2 (n := length (spins 0 Nspin 0 Nk))) by lia. apply app_nil_r.
      - intros v Hv. split; [rewrite <- Hd; apply dm_same; lia|apply Hsend; lia].
      - intros i Hi. rewrite spins_len by lia. reflexivity.
      - intros i Hi. rewrite flat_map_spin_blocks by lia. rewrite spins_len by lia. lia.
      - lia. }
    destruct gamma.
    - specialize (HG eq_refl). rewrite L1. replace (n1 * Ns) with (n1 * (Nk * Ns)) by (rewrite HG; lia). apply GS.
      intros v Hv. destruct (coords v q t Hv Hq Ht) as (Bv & _). destruct (loc_sizes v q t Hv Hq Ht) as (M1 & M2 & M3 & M4). cbv zeta in *.
      assert (Dv : in_dmcomm nproc ps pk pb npNd (rank_of v q t) = true) by (rewrite <- Hd; apply dm_same; lia).
      rewrite (HL _ (conj (proj1 Bv) (Z.lt_le_trans _ _ _ (proj2 Bv) Brem)) Dv), M1, M2, M3, M4. fold n1.
      assert (pk = 1) by lia. assert (q = 0) by lia. subst q. rewrite bd_start_0 by lia.
      assert (EB : block_decompose Nk pk 0 = Nk).
      { pose proof (bd_start_S Nk pk 0 ltac:(lia) ltac:(lia) ltac:(lia)) as Q. rewrite bd_start_0 in Q by lia. replace (0 + 1) with pk in Q by lia. rewrite bd_start_p in Q by lia. lia. }
      rewrite EB. unfold slice. cbn [Z.to_nat skipn]. apply firstn_all2. pose proof (spins_len (v * n1) n1 0 Nk ltac:(lia) ltac:(lia)). rewrite HG in *. lia.
    - rewrite L1. destruct H12 as [E1|E2].
      + rewrite E1. cbn [Z.eqb Pos.eqb].
        assert (SA : forall v, 0 <= v < ps -> gather_kpt nproc ps pk pb npNd Nk Ns K lambda (rank_of v q t) 0 (zeros K zero (Ns * Nk)) 0 = Ok (ks v 0 Nk)).
        { intros v Hv. assert (Dv : in_dmcomm nproc ps pk pb npNd (rank_of v q t) = true) by (rewrite <- Hd; apply dm_same; lia).
          pose proof (gather_kpt_ok lambda v q t 0 [] (zeros K zero (Ns * Nk)) HL Hv Hq Ht Dv ltac:(fold n1; lia)) as Q.
          cbn [app length] in Q. change (Z.of_nat 0) with 0 in Q. rewrite Q by (unfold zeros; rewrite repeat_length; lia).
          rewrite skipn_all2 by (unfold zeros; rewrite repeat_length; lia). rewrite app_nil_r. f_equal. f_equal. fold n1. rewrite E1. lia. }
        assert (FB : forallb (fun y => ok K (gather_kpt nproc ps pk pb npNd Nk Ns K lambda y 0 (zeros K zero (Ns * Nk)) 0)) (spin_bridge_comm nproc ps (rank_of s q t)) = true).
        { apply forallb_forall. intros y Hy. rewrite spin_bridge in Hy by assumption. apply in_map_iff in Hy. destruct Hy as (v & <- & Hv). apply zrange_in in Hv. rewrite SA by lia. reflexivity. }
        rewrite FB. assert (EC : Ns * Nk = n1 * (Nk * Ns)) by (rewrite E1; lia). pattern (Ns * Nk) at 2. rewrite EC. cbv beta. apply GS.
        intros v Hv. rewrite SA by exact Hv. cbn [got]. rewrite E1. unfold spins. rewrite Z.mul_1_r. change (Z.to_nat 1) with 1%nat. unfold zrange at 1. cbn [seq map flat_map].
        change (Z.of_nat 0) with 0. rewrite Z.add_0_r, app_nil_r. reflexivity.
      + rewrite E2. cbn [Z.eqb Pos.eqb].
        assert (Eps : Nspin = 2 * ps) by lia.
        pose proof (gather_kpt_ok lambda s q t 0 [] (zeros K zero (Nspin * Nk * Ns)) HL Hs Hq Ht Hd ltac:(fold n1; lia)) as Q.
        cbn [app length] in Q. change (Z.of_nat 0) with 0 in Q. rewrite Q by nia. clear Q. cbn [obind].
        fold n1. rewrite E2. replace (s * 2 + 0) with (s * 2) by lia.
        set (A := ks (s * 2) 0 Nk). pose proof (ks_len (s * 2) 0 Nk ltac:(lia)) as LA. fold A in LA.
        replace (Ns * Nk) with (Z.of_nat (length A)) by lia.
        rewrite gather_kpt_ok; try assumption; [|fold n1; lia|rewrite skipn_length; nia].
        assert (ps = 1) by lia. assert (s = 0) by lia. subst s.
        assert (SK : skipn (Z.to_nat (Nk * Ns)) (skipn (Z.to_nat (Nk * Ns)) (zeros K zero (Nspin * Nk * Ns))) = []) by (apply skipn_all2; rewrite skipn_length; nia).
        rewrite SK.
        rewrite app_nil_r. fold n1. rewrite E2. unfold spins, A. replace (Z.to_nat Nspin) with 2%nat by lia.
        cbn [zrange seq map flat_map]. rewrite app_nil_r. reflexivity.
  Qed.
End Coord.

(** ** C53 *)
(** The eigenvalues G s k n in the order spin, k-point, band. *)
Definition spectrum {K} (G : Z -> Z -> Z -> K) (s0 ns k0 nk Ns : Z) : list K :=
  flat_map (fun s => flat_map (fun k => map (G s k) (zrange 0 (Z.to_nat Ns))) (zrange k0 (Z.to_nat nk))) (zrange s0 (Z.to_nat ns)).

Theorem C53_collect_all_lambda : forall (K : Type) (zero : K) (G : Z -> Z -> Z -> K) nproc npspin npkpt npband npNd Nspin Nk Ns gamma lambda x,
  1 <= nproc <= INT_MAX -> 0 <= npspin -> 0 <= npkpt -> 0 <= npband -> (Nspin = 1 \/ Nspin = 2) -> 1 <= Nk -> 1 <= Ns ->
  (gamma = true -> Nk = 1) ->
  let ps := npspin_eff npspin nproc Nspin in
  let ss := size_spincomm nproc ps in
  let pk := npkpt_eff npkpt ss Nk in
  let pb := npband_eff npband (size_kptcomm ss pk) Ns in
  (forall y, 0 <= y < nproc -> in_dmcomm nproc ps pk pb npNd y = true ->
     lambda y = spectrum G (spin_start nproc ps Nspin y) (nspin_loc nproc ps Nspin y)
                           (kpt_start ss pk Nk (si nproc ps y) (rs nproc ps y)) (nkpt_loc nproc ps pk Nk y) Ns) ->
  0 <= x < nproc -> in_dmcomm nproc ps pk pb npNd x = true ->
  collect_all_lambda nproc ps pk pb npNd Nspin Nk Ns K zero gamma lambda x = Ok (spectrum G 0 Nspin 0 Nk Ns).
Proof.
  intros K zero G nproc npspin npkpt npband npNd Nspin Nk Ns gamma lambda x Hn H1 H2 H3 HNs HNk HNs' HG ps ss pk pb HL Hx Hd.
  destruct (npspin_eff_ok npspin nproc Nspin H1 ltac:(lia) HNs) as [P1 P2]. fold ps in P1, P2.
  assert (Pss : 1 <= ss) by (apply (quot_pos nproc ps); lia).
  destruct (npkpt_eff_ok npkpt ss Nk H2 Pss HNk) as [P3 P4]. fold pk in P3, P4.
  assert (Psk : 1 <= size_kptcomm ss pk) by (apply (quot_pos ss pk); lia).
  pose proof (npband_eff_ok npband (size_kptcomm ss pk) Ns H3 Psk HNs') as P5. fold pb in P5.
  assert (D : ps * Z.quot Nspin ps = Nspin /\ (Z.quot Nspin ps = 1 \/ Z.quot Nspin ps = 2)).
  { clear -HNs P1 P2. clearbody ps. destruct HNs as [-> | ->].
    - assert (ps = 1) by lia. subst ps. split; [reflexivity|left; reflexivity].
    - assert (ps = 1 \/ ps = 2) as [-> | ->] by lia; split; [reflexivity|right; reflexivity|reflexivity|left; reflexivity]. }
  destruct D as [D1 D2].
  assert (D3 : 0 <= Nspin <= 2) by lia. assert (P6 : 1 <= pb) by lia. assert (P7 : 0 <= Ns) by lia.
  apply (collect_ok nproc ps pk pb npNd Nspin Nk Ns Hn P1 P3 P4 P6 P7 (conj D1 D3) K zero G gamma lambda x HG D2 HL Hx Hd).
Qed.
Print Assumptions C53_collect_all_lambda.

Lemma flat_map_nth {K} (f : Z -> list K) c d : forall n a i j, (forall x, length (f x) = c) -> (i < n)%nat -> (j < c)%nat ->
  nth (i * c + j) (flat_map f (zrange a n)) d = nth j (f (a + Z.of_nat i)) d.
Proof.
  induction n as [|n IH]; intros a i j L Hi Hj; [lia|]. replace (S n) with (1 + n)%nat by lia. rewrite zrange_app, flat_map_app.
  change (flat_map f (zrange a 1)) with (f (a + 0) ++ []). rewrite app_nil_r.
  destruct i as [|i].
  - cbn [Nat.mul Nat.add]. rewrite app_nth1 by (rewrite L; exact Hj). reflexivity.
  - rewrite app_nth2 by (rewrite L; cbn; lia). rewrite L. replace (S i * c + j - c)%nat with (i * c + j)%nat by (cbn; lia).
    rewrite IH by (try exact L; lia). do 2 f_equal. lia.
Qed.
(** Reading: entry (s Nk + k) Ns + n is the eigenvalue of band n at k-point k
    of spin s, which is the index calculate_electron_density and the
    occupation routines use. *)
Theorem C53_layout : forall (K : Type) (d : K) (G : Z -> Z -> Z -> K) Nspin Nk Ns s k n,
  0 <= s < Nspin -> 0 <= k < Nk -> 0 <= n < Ns ->
  nth (Z.to_nat ((s * Nk + k) * Ns + n)) (spectrum G 0 Nspin 0 Nk Ns) d = G s k n.
Proof.
  intros K d G Nspin Nk Ns s k n Hs Hk Hn. unfold spectrum.
  assert (L1 : forall s k, length (map (G s k) (zrange 0 (Z.to_nat Ns))) = Z.to_nat Ns) by (intros; rewrite map_length; apply zrange_len).
  assert (L2 : forall s, length (flat_map (fun k => map (G s k) (zrange 0 (Z.to_nat Ns))) (zrange 0 (Z.to_nat Nk))) = (Z.to_nat Nk * Z.to_nat Ns)%nat).
  { intros s'. generalize (zrange_len 0 (Z.to_nat Nk)). generalize (zrange 0 (Z.to_nat Nk)) as l. intros l <-. induction l as [|a l IH]; [reflexivity|].
    cbn [flat_map length]. rewrite app_length, L1, IH. cbn. lia. }
  replace (Z.to_nat ((s * Nk + k) * Ns + n)) with (Z.to_nat s * (Z.to_nat Nk * Z.to_nat Ns) + (Z.to_nat k * Z.to_nat Ns + Z.to_nat n))%nat by nia.
  rewrite (flat_map_nth (fun s => flat_map (fun k => map (G s k) (zrange 0 (Z.to_nat Ns))) (zrange 0 (Z.to_nat Nk)))); [|exact L2|lia|nia].
  rewrite (flat_map_nth (fun k => map (G (0 + Z.of_nat (Z.to_nat s)) k) (zrange 0 (Z.to_nat Ns))) (Z.to_nat Ns)); [|intros; apply L1|lia|lia].
  rewrite !Z2Nat.id, !Z.add_0_l by lia. unfold zrange. rewrite map_map.
  rewrite (nth_indep _ d (G s k (0 + Z.of_nat 0))) by (rewrite map_length, seq_length; lia).
  rewrite (map_nth (fun i => G s k (0 + Z.of_nat i))), seq_nth by lia. f_equal. lia.
Qed.
Print Assumptions C53_layout.

(** 11 processes, two spin groups, three k-points on two groups, two bands:
    one process is left out, and every process of the band communicators
    gets the whole spectrum. *)
Example C53_example :
  let ps := npspin_eff 2 11 2 in let ss := size_spincomm 11 ps in let pk := npkpt_eff 2 ss 3 in
  let pb := npband_eff 0 (size_kptcomm ss pk) 2 in
  let G s k n := 100 * s + 10 * k + n in
  let lambda y := spectrum G (spin_start 11 ps 2 y) (nspin_loc 11 ps 2 y)
       (kpt_start ss pk 3 (si 11 ps y) (rs 11 ps y)) (nkpt_loc 11 ps pk 3 y) 2 in
  in_dmcomm 11 ps pk pb 1 6 = true /\ in_dmcomm 11 ps pk pb 1 10 = false /\
  lambda 6 = [100; 101; 110; 111] /\
  collect_all_lambda 11 ps pk pb 1 2 3 2 Z 0 false lambda 6 = Ok [0; 1; 10; 11; 20; 21; 100; 101; 110; 111; 120; 121].
Proof. vm_compute. repeat split; reflexivity. Qed.
