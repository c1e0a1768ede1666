(** C74, second part: the occupation matrix. *)
From Coq Require Import ZArith QArith Qround List Lia Bool Permutation Ring Reals Lra.
From Verif Require Import CBase Nloc NlocSpec NlocLem VnlOp VnlLem VnlMain HubInit HubInitSpec HubInitLem P_HubInit Hub HubSpec HubLem HubMain P_Hub HubOcc.
Import ListNotations.
Local Open Scope Z_scope.

Section RING.
Context {K : Type} (zero one : K) (add mul sub : K -> K -> K) (opp : K -> K).
Context (Rth : ring_theory zero one add mul sub opp eq).
Add Ring KRq : Rth.
Declare Scope kq_scope.
Infix "+" := add : kq_scope.
Infix "*" := mul : kq_scope.
Delimit Scope kq_scope with k.
Notation ksum := (ksum zero add).
Notation isum := (isum zero add).
Notation otype := (otype (K:=K)).
Notation row := (row (K:=K)).
Notation ogroup := (ogroup (K:=K)).
Notation orbital := (orbital zero add mul).
Notation proj := (proj zero add mul).
Notation vmat := (vmat zero mul sub).

Variables (cj : K -> K) (dV isq : K) (Ns : Z) (pol : bool) (nsp s : Z) (phk : ogroup -> Z -> entry -> K).
Notation share := (share zero add mul cj dV isq Ns pol nsp s phk).
Notation group_ok := (group_ok Ns pol nsp s).
Notation ocol := (ocol mul isq nsp s).

(** The entry (r, c) of the matrix of atom J: the sum over band groups, k-point
    groups, k-points and bands of w f <r|x> conj <c|x>. *)
Definition occ_entry (ts : list otype) (Gs : list (list ogroup)) (J r c : Z) : K :=
  ksum (map (fun bg => ksum (map (fun G => isum 0 (og_nk G) (share ts G J r c)) bg)) Gs).

Lemma ld_nth {A} (l : list A) d : 0 <= d < Z.of_nat (length l) -> exists x, ld l d = Ok x /\ In x l.
Proof.
  intros H. destruct (nth_error l (Z.to_nat d)) as [x|] eqn:E.
  - exists x. split; [apply ld_ok; [lia|exact E]|]. eapply nth_error_In. exact E.
  - apply nth_error_None in E. lia.
Qed.

(** The reduced matrices of every process hold these entries. *)
Theorem C74_occupation : forall acc ts (Gs : list (list ogroup)) d,
  types_ok ts ->
  Forall (fun bg => bg <> [] /\ Forall (fun G => group_ok ts G /\ (acc = true \/ og_nk G = 1) /\
     0 <= d < Z.of_nat (length (og_procs G))) bg) Gs ->
  exists rmd m, rho_displ ts = Ok rmd /\
    occ_reduced zero add mul cj dV isq Ns pol nsp s phk acc ts Gs d = Ok m /\
    forall t J r c, In (t, J) (catoms 0 ts) -> 0 <= r < o_np t -> 0 <= c < o_np t ->
      0 <= at_ rmd J + c * o_np t + r < sz m /\
      at_ m (at_ rmd J + c * o_np t + r) = occ_entry ts Gs J r c.
Proof.
  intros acc ts Gs d (TOK & EX) HG.
  destruct (lay_ok o_np ts TOK EX) as (ipd & tot & E1 & E2 & LAY).
  destruct (lay_ok (fun t : otype => o_np t * o_np t) ts) as (rmd & rtot & E3 & E4 & RLAY); [|exact EX|].
  { eapply Forall_impl; [|exact TOK]. cbn. intros t [A B]. split; [exact A|nia]. }
  exists rmd. unfold occ_reduced, ip_displU, rho_displ. unfold trip in E1, E3. rewrite E1, E3. cbn [obind].
  rewrite E4. cbn [obind].
  assert (A : exists bs, omap (fun kgs =>
      do rs <- omap (fun G => do l <- occ_group zero add mul cj dV isq Ns pol nsp s phk acc ts ipd rmd G ; ld l d) kgs ;
      do r0 <- ld rs 0 ;
      Ok (allreduce zero add rs r0)) Gs = Ok bs /\
    Forall2 (fun bg b => forall t J r c, In (t, J) (catoms 0 ts) -> 0 <= r < o_np t -> 0 <= c < o_np t ->
      at_ b (rslot rmd t J r c) = ksum (map (fun G => isum 0 (og_nk G) (share ts G J r c)) bg)) Gs bs).
  { induction HG as [|bg Gs (NE & HB) HG IH]; cbn [omap].
    - exists []. split; [reflexivity|constructor].
    - assert (B : exists rs, omap (fun G => do l <- occ_group zero add mul cj dV isq Ns pol nsp s phk acc ts ipd rmd G ; ld l d) bg = Ok rs /\
        Forall2 (fun G rho => forall t J r c, In (t, J) (catoms 0 ts) -> 0 <= r < o_np t -> 0 <= c < o_np t ->
          at_ rho (rslot rmd t J r c) = isum 0 (og_nk G) (share ts G J r c)) bg rs).
      { clear NE IH. induction HB as [|G bg (G1 & G2 & G3) HB IH]; cbn [omap].
        - exists []. split; [reflexivity|constructor].
        - destruct (occ_group_ok _ _ _ _ _ _ cj Rth dV isq Ns pol nsp s phk ts ipd rmd tot rtot TOK LAY RLAY E2 acc G G1 E4 G2)
            as (rhos & Eo & Lo & Fo).
          rewrite Eo. cbn [obind]. destruct (ld_nth rhos d ltac:(lia)) as (x & Ex & Ix). rewrite Ex. cbn [obind].
          destruct IH as (rs & Er & Fr). rewrite Er. cbn [obind]. exists (x :: rs). split; [reflexivity|].
          constructor; [|exact Fr]. rewrite Forall_forall in Fo. apply (Fo x Ix). }
      destruct B as (rs & Er & Fr). rewrite Er. cbn [obind].
      assert (LR : (0 < length rs)%nat).
      { destruct bg; [contradiction|]. inversion Fr. cbn [length]. lia. }
      destruct (ld_nth rs 0 ltac:(lia)) as (r0 & E0 & I0). rewrite E0. cbn [obind].
      destruct IH as (bs & Eb & Fb). rewrite Eb. cbn [obind]. exists (allreduce zero add rs r0 :: bs). split; [reflexivity|].
      constructor; [|exact Fb]. intros t J r c HJ Hr Hc.
      rewrite (proj1 (allreduce_at _ _ _ _ _ _ Rth rs r0 _ I0)). symmetry.
      apply (ksum_Forall2 _ _ _ _ _ _ _ Fr). intros G rho _ _ V. symmetry. now apply V. }
  destruct A as (bs & Eb & Fb). rewrite Eb. cbn [obind]. eexists. split; [reflexivity|]. split; [reflexivity|].
  intros t J r c HJ Hr Hc. cbn [sz at_].
  split; [change (0 <= rslot rmd t J r c < rtot); eapply rslot_range; eassumption|].
  fold (rslot rmd t J r c). unfold occ_entry. symmetry.
  apply (ksum_Forall2 _ _ _ _ _ _ _ Fb). intros bg b _ _ V. symmetry. now apply V.
Qed.

(** ** Storing the matrix *)

(** Gamma point: the stored matrix is symmetric, and it is the computed block
    (with [ang] = number of projectors) if that is symmetric. *)
Theorem C74_store_gamma : forall ang rm (rho : arr K), 0 <= ang -> 0 <= rm -> rm + ang * ang <= sz rho ->
  exists m, store_gamma zero ang rm rho = Ok m /\ sz m = ang * ang /\
    forall r c, 0 <= r < ang -> 0 <= c < ang ->
      at_ m (c * ang + r) = at_ rho (rm + Z.max r c * ang + Z.min r c).
Proof.
  intros ang rm rho HA HR HS. unfold store_gamma.
  rewrite (omap_val _ (fun i => at_ rho (rm + i))).
  2:{ intros i Hi. apply in_zrange in Hi. apply rd_ok. lia. }
  cbn [obind]. set (m0 := Arr (ang * ang) _).
  assert (M0 : forall i, 0 <= i < ang * ang -> at_ m0 i = at_ rho (rm + i)).
  { intros i Hi. unfold m0. cbn [at_].
    rewrite (nth_indep _ zero (at_ rho (rm + 0))).
    2:{ rewrite map_length. apply Nat2Z.inj_lt. rewrite zrange_len by lia. lia. }
    rewrite (map_nth (fun i => at_ rho (rm + i))).
    rewrite (nth_error_nth _ _ 0 (nth_error_zrange0 (ang * ang) (Z.to_nat i) ltac:(lia))). now rewrite Z2Nat.id by lia. }
  rewrite (ofold_nest (fun m c r => do v <- rd m (r * ang + c) ; wr m (c * ang + r) v) (fun c => zrange c (ang - 1))).
  (* every pair (c, r) with c <= r gets the entry below the diagonal *)
  assert (G : forall (l : list (Z * Z)) (m : arr K), (forall cr, In cr l -> 0 <= fst cr <= snd cr /\ snd cr < ang) -> sz m = ang * ang ->
     exists m', ofold (fun m (cr : Z * Z) => do v <- rd m (snd cr * ang + fst cr) ; wr m (fst cr * ang + snd cr) v) m l = Ok m' /\
       sz m' = ang * ang /\
       (forall r c, 0 <= c < r -> r < ang -> at_ m' (r * ang + c) = at_ m (r * ang + c)) /\
       (forall r c, 0 <= c <= r -> r < ang ->
          (In (c, r) l \/ at_ m (c * ang + r) = at_ m (r * ang + c)) -> at_ m' (c * ang + r) = at_ m (r * ang + c))).
  { induction l as [|[c0 r0] l IH]; intros m HL Sm; cbn [ofold].
    - exists m. split; [reflexivity|]. split; [exact Sm|]. split; [reflexivity|]. intros r c _ _ [[]|E]. exact E.
    - destruct (HL _ (or_introl eq_refl)) as ((B1 & B2) & B3). cbn [fst snd] in *.
      rewrite rd_ok by nia. cbn [obind]. rewrite wr_ok by nia. cbn [obind]. set (m1 := Arr _ _).
      destruct (IH m1 (fun cr h => HL cr (or_intror h))) as (m' & E' & S' & V' & W'); [exact Sm|].
      exists m'. split; [exact E'|]. split; [exact S'|].
      assert (LOW : forall r c, 0 <= c < r -> r < ang -> at_ m1 (r * ang + c) = at_ m (r * ang + c)).
      { intros r c H1 H2. unfold m1. cbn [at_]. destruct (Z.eqb_spec (r * ang + c) (c0 * ang + r0)) as [E|]; [|reflexivity].
        exfalso. assert (r = c0) by nia. nia. }
      split; [intros r c H1 H2; rewrite V' by assumption; now apply LOW|].
      intros r c H1 H2 H3.
      assert (D : at_ m1 (r * ang + c) = at_ m (r * ang + c)).
      { destruct (Z.eq_dec c r) as [->|]; [|apply LOW; lia]. unfold m1. cbn [at_].
        destruct (Z.eqb_spec (r * ang + r) (c0 * ang + r0)) as [E|]; [|reflexivity].
        assert (r = c0) by nia. assert (r = r0) by nia. subst. reflexivity. }
      rewrite <- D. apply W'; [lia|lia|]. destruct (Z.eq_dec c c0) as [->|N1].
      + destruct (Z.eq_dec r r0) as [->|N2].
        * right. rewrite D. unfold m1. cbn [at_]. now rewrite Z.eqb_refl.
        * destruct H3 as [[E|H3]|H3]; [exfalso; congruence|now left|right].
          rewrite D. unfold m1. cbn [at_]. destruct (Z.eqb_spec (c0 * ang + r) (c0 * ang + r0)); [lia|exact H3].
      + destruct H3 as [[E|H3]|H3]; [exfalso; congruence|now left|right].
        rewrite D. unfold m1. cbn [at_]. destruct (Z.eqb_spec (c * ang + r) (c0 * ang + r0)) as [E|]; [|exact H3].
        exfalso. assert (c = c0) by nia. contradiction. }
  destruct (G (flat_map (fun x => map (pair x) (zrange x (ang - 1))) (zrange 0 (ang - 1))) m0) as (m & E & S1 & V & W).
  { intros [c r] H. apply in_flat_map in H. destruct H as (c' & H1 & H2). apply in_map_iff in H2.
    destruct H2 as (r' & E & H2). inversion E; subst. apply in_zrange in H1, H2. cbn [fst snd]. lia. }
  { reflexivity. }
  exists m. split; [exact E|]. split; [exact S1|]. intros r c Hr Hc.
  destruct (Z.le_gt_cases c r) as [L|L].
  - rewrite Z.max_l, Z.min_r by lia. rewrite W; [rewrite M0 by nia; f_equal; lia|lia|lia|].
    left. apply in_flat_map. exists c. split; [apply in_zrange; lia|]. apply in_map_iff. exists r. split; [reflexivity|].
    apply in_zrange. lia.
  - rewrite Z.max_r, Z.min_l by lia. rewrite V by lia. rewrite M0 by nia. f_equal. lia.
Qed.

(** k-points: what is stored is the real part of the Hermitian part, provided the
    number of projectors is the order of the matrix. *)
Variables (half : K) (re : K -> K).
Hypothesis re_re : forall a, re (re a) = re a.

Lemma herm_ok np rm (rho : arr K) : 0 <= np -> 0 <= rm -> rm + np * np <= sz rho ->
  (forall a, cj (cj a) = a) ->
  exists m, herm add mul cj half re np rm rho = Ok m /\ sz m = sz rho /\
    (forall r c, 0 <= c < r -> r < np ->
       at_ m (rm + c * np + r) = mul half (add (at_ rho (rm + c * np + r)) (cj (at_ rho (rm + r * np + c)))) /\
       at_ m (rm + r * np + c) = cj (mul half (add (at_ rho (rm + c * np + r)) (cj (at_ rho (rm + r * np + c)))))) /\
    (forall c, 0 <= c < np -> at_ m (rm + c * np + c) = re (at_ rho (rm + c * np + c))).
Proof.
  intros HA HR HS CC. unfold herm.
  set (avg := fun (m : arr K) c r => mul half (add (at_ m (rm + c * np + r)) (cj (at_ m (rm + r * np + c))))).
  (* the inner loop for column c *)
  assert (IN : forall c (m : arr K), 0 <= c < np -> sz m = sz rho ->
    exists m1, ofold (fun m r => do a <- rd m (rm + c * np + r) ; do b <- rd m (rm + r * np + c) ;
        let avg := mul half (add a (cj b)) in
        do m' <- wr m (rm + c * np + r) avg ;
        wr m' (rm + r * np + c) (cj avg)) m (zrange (c + 1) (np - 1)) = Ok m1 /\ sz m1 = sz rho /\
      (forall r, c < r < np -> at_ m1 (rm + c * np + r) = avg m c r /\ at_ m1 (rm + r * np + c) = cj (avg m c r)) /\
      (forall i, (forall r, c < r < np -> i <> rm + c * np + r /\ i <> rm + r * np + c) -> at_ m1 i = at_ m i)).
  { intros c m Hc Sm.
    assert (G : forall (l : list Z) (m : arr K), NoDup l -> (forall r, In r l -> c < r < np) -> sz m = sz rho ->
      exists m1, ofold (fun m r => do a <- rd m (rm + c * np + r) ; do b <- rd m (rm + r * np + c) ;
        let avg := mul half (add a (cj b)) in
        do m' <- wr m (rm + c * np + r) avg ;
        wr m' (rm + r * np + c) (cj avg)) m l = Ok m1 /\ sz m1 = sz rho /\
      (forall r, In r l -> at_ m1 (rm + c * np + r) = avg m c r /\ at_ m1 (rm + r * np + c) = cj (avg m c r)) /\
      (forall i, (forall r, In r l -> i <> rm + c * np + r /\ i <> rm + r * np + c) -> at_ m1 i = at_ m i)).
    { clear m Sm. induction l as [|r0 l IH]; intros m ND HL Sm; cbn [ofold].
      - exists m. split; [reflexivity|]. split; [exact Sm|]. split; [intros r []|reflexivity].
      - inversion ND as [|? ? NI ND']; subst. pose proof (HL r0 (or_introl eq_refl)) as B.
        assert (X1 : 0 <= rm + c * np + r0 < sz rho) by nia.
        assert (X2 : 0 <= rm + r0 * np + c < sz rho) by nia.
        rewrite !rd_ok by lia. cbn [obind]. cbv zeta. rewrite wr_ok by lia. cbn [obind].
        rewrite wr_ok by (cbn [sz]; lia). cbn [obind sz at_]. set (m2 := Arr _ _).
        destruct (IH m2 ND' (fun r h => HL r (or_intror h)) Sm) as (m1 & E1 & S1 & V1 & W1).
        exists m1. split; [exact E1|]. split; [exact S1|].
        assert (K2 : forall i, i <> rm + c * np + r0 -> i <> rm + r0 * np + c -> at_ m2 i = at_ m i).
        { intros i N1 N2. unfold m2. cbn [at_]. destruct (Z.eqb_spec i (rm + r0 * np + c)); [lia|].
          destruct (Z.eqb_spec i (rm + c * np + r0)); [lia|reflexivity]. }
        assert (NEQ : rm + c * np + r0 <> rm + r0 * np + c) by nia.
        assert (SEP : forall r, In r l -> (rm + c * np + r0 <> rm + c * np + r /\ rm + c * np + r0 <> rm + r * np + c) /\
                       (rm + r0 * np + c <> rm + c * np + r /\ rm + r0 * np + c <> rm + r * np + c)).
        { intros r Hr. pose proof (HL r (or_intror Hr)). assert (r <> r0) by (intros ->; contradiction).
          assert (r < r0 \/ r0 < r) by lia. repeat split; nia. }
        split.
        + intros r [<-|Hr].
          * rewrite (W1 (rm + c * np + r0)) by (intros r Hr; apply (SEP r Hr)).
            rewrite (W1 (rm + r0 * np + c)) by (intros r Hr; apply (SEP r Hr)).
            unfold m2. cbn [at_]. rewrite Z.eqb_refl.
            destruct (Z.eqb_spec (rm + c * np + r0) (rm + r0 * np + c)); [lia|]. rewrite Z.eqb_refl.
            split; [reflexivity|]. f_equal.
          * destruct (V1 r Hr) as (A1 & A2). rewrite A1, A2. unfold avg.
            destruct (SEP r Hr) as ((Q1 & Q2) & Q3 & Q4).
            rewrite !K2 by (intros e; lia). split; reflexivity.
        + intros i Hi. rewrite W1 by (intros r Hr; apply Hi; now right). apply K2; apply (Hi r0); now left. }
    destruct (G (zrange (c + 1) (np - 1)) m (NoDup_zrange _ _)) as (m1 & E1 & S1 & V1 & W1).
    { intros r Hr. apply in_zrange in Hr. lia. }
    { exact Sm. }
    exists m1. split; [exact E1|]. split; [exact S1|]. split.
    - intros r Hr. apply V1. apply in_zrange. lia.
    - intros i Hi. apply W1. intros r Hr. apply in_zrange in Hr. apply Hi. lia. }
  (* all columns up to c0 *)
  assert (OUT : forall n, (Z.of_nat n <= np) ->
    exists m, ofold (fun m c =>
      do m1 <- ofold (fun m r =>
        do a <- rd m (rm + c * np + r) ; do b <- rd m (rm + r * np + c) ;
        let avg := mul half (add a (cj b)) in
        do m' <- wr m (rm + c * np + r) avg ;
        wr m' (rm + r * np + c) (cj avg))
      m (zrange (c + 1) (np - 1)) ;
      do d <- rd m1 (rm + c * np + c) ;
      wr m1 (rm + c * np + c) (re d)) rho (zrange 0 (Z.of_nat n - 1)) = Ok m /\ sz m = sz rho /\
    (forall r c, 0 <= c < r -> r < np -> c < Z.of_nat n ->
       at_ m (rm + c * np + r) = avg rho c r /\ at_ m (rm + r * np + c) = cj (avg rho c r)) /\
    (forall c, 0 <= c < Z.of_nat n -> at_ m (rm + c * np + c) = re (at_ rho (rm + c * np + c))) /\
    (forall r c, 0 <= c < np -> 0 <= r < np -> Z.of_nat n <= c -> Z.of_nat n <= r -> at_ m (rm + c * np + r) = at_ rho (rm + c * np + r))).
  { induction n as [|n IH]; intros Hn.
    - exists rho. split; [reflexivity|]. split; [reflexivity|]. repeat split; intros; try lia.
    - destruct (IH ltac:(lia)) as (m & E & S1 & V & D & U).
      replace (zrange 0 (Z.of_nat (S n) - 1)) with (zrange 0 (Z.of_nat n - 1) ++ [Z.of_nat n]).
      2:{ rewrite (zrange_app1 0 (Z.of_nat (S n) - 1)) by lia. f_equal; [f_equal; lia|f_equal; lia]. }
      rewrite ofold_app, E. cbn [obind ofold].
      set (c := Z.of_nat n) in *. destruct (IN c m ltac:(lia) S1) as (m1 & E1 & S2 & V1 & W1). cbv zeta in E1. rewrite E1. cbn [obind].
      assert (X1 : 0 <= rm + c * np + c < sz rho) by nia.
      rewrite rd_ok by lia. cbn [obind]. rewrite wr_ok by lia. cbn [obind]. eexists. split; [reflexivity|].
      cbn [sz at_]. split; [exact S2|].
      assert (KEEP : forall i j, 0 <= i < np -> 0 <= j < np -> i <> c -> j <> c ->
        (if rm + i * np + j =? rm + c * np + c then re (at_ m1 (rm + c * np + c)) else at_ m1 (rm + i * np + j)) = at_ m (rm + i * np + j)).
      { intros i j Hi Hj N1 N2. destruct (Z.eqb_spec (rm + i * np + j) (rm + c * np + c)) as [e|].
        - exfalso. assert (i < c \/ c < i) by lia. nia.
        - apply W1. intros r Hr. split.
          + intros e. assert (i < c \/ c < i) by lia. nia.
          + intros e. assert (i < r \/ i = r \/ r < i) by lia. nia. }
      split; [|split].
      + intros r c1 H1 H2 H3. destruct (Z.eq_dec c1 c) as [->|N].
        * destruct (V1 r ltac:(lia)) as (A1 & A2).
          destruct (Z.eqb_spec (rm + c * np + r) (rm + c * np + c)); [lia|].
          destruct (Z.eqb_spec (rm + r * np + c) (rm + c * np + c)); [nia|].
          rewrite A1, A2. unfold avg. rewrite !U by lia. split; reflexivity.
        * destruct (V r c1 H1 H2 ltac:(lia)) as (A1 & A2). rewrite <- A2, <- A1.
          destruct (Z.eq_dec r c) as [->|N2].
          -- split.
             ++ destruct (Z.eqb_spec (rm + c1 * np + c) (rm + c * np + c)); [nia|]. apply W1. intros r Hr. split; nia.
             ++ destruct (Z.eqb_spec (rm + c * np + c1) (rm + c * np + c)); [lia|]. apply W1. intros r Hr. split; nia.
          -- split; apply KEEP; lia.
      + intros c1 H1. destruct (Z.eq_dec c1 c) as [->|N].
        * rewrite Z.eqb_refl. f_equal. rewrite W1 by (intros r Hr; split; nia). apply U; lia.
        * rewrite <- D by lia. apply KEEP; lia.
      + intros r c1 H1 H2 H3 H4. rewrite KEEP by lia. apply U; lia. }
  destruct (OUT (Z.to_nat np) ltac:(lia)) as (m & E & S1 & V & D & _). rewrite Z2Nat.id in E, V, D by lia.
  exists m. split; [exact E|]. split; [exact S1|]. split.
  - intros r c H1 H2. apply V; lia.
  - exact D.
Qed.

Theorem C74_store_kpt : forall np rm (rho : arr K), 0 <= np -> 0 <= rm -> rm + np * np <= sz rho ->
  (forall a, cj (cj a) = a) -> (forall a, re (cj a) = re a) ->
  exists m, store_kpt zero add mul cj half re np np rm rho = Ok m /\ sz m = np * np /\
    forall r c, 0 <= r < np -> 0 <= c < np ->
      (c = r -> at_ m (c * np + r) = re (at_ rho (rm + c * np + r))) /\
      (c <> r -> at_ m (c * np + r) = re (mul half (add (at_ rho (rm + Z.min r c * np + Z.max r c)) (cj (at_ rho (rm + Z.max r c * np + Z.min r c)))))) /\
      at_ m (c * np + r) = at_ m (r * np + c).
Proof.
  intros np rm rho H0 HR HS CC RC. unfold store_kpt.
  destruct (herm_ok np rm rho H0 HR HS CC) as (h & E & Sh & V & D). rewrite E. cbn [obind].
  rewrite (ofold_nest (fun o c r => do v <- rd h (rm + c * np + r) ; wr o (c * np + r) (re v)) (fun _ => zrange 0 (np - 1))).
  destruct (oupd_ok (np * np) (fun o (cr : Z * Z) => do v <- rd h (rm + fst cr * np + snd cr) ; wr o (fst cr * np + snd cr) (re v))
    (fun cr => fst cr * np + snd cr) (fun cr _ => re (at_ h (rm + fst cr * np + snd cr)))
    (flat_map (fun a => map (pair a) (zrange 0 (np - 1))) (zrange 0 (np - 1)))) with (a := Arr (np * np) (fun _ : Z => zero)) as (m & E1 & S1 & V1 & _).
  - intros [c r] a Hx Ha. apply in_pairs in Hx. cbn [fst snd] in *. rewrite !in_zrange in Hx.
    rewrite rd_ok by nia. cbn [obind]. rewrite wr_ok by nia. now rewrite Ha.
  - apply NoDup_pairs; try apply NoDup_zrange. intros [c r] [c' r']. cbn [fst snd]. rewrite !in_zrange. intros.
    assert (c = c') by nia. subst. f_equal. lia.
  - reflexivity.
  - exists m. split; [exact E1|]. split; [exact S1|].
    assert (VV : forall r c, 0 <= r < np -> 0 <= c < np -> at_ m (c * np + r) = re (at_ h (rm + c * np + r))).
    { intros r c Hr Hc. apply (V1 (c, r)). apply in_pairs. cbn [fst snd]. rewrite !in_zrange. lia. }
    assert (OFF : forall r c, 0 <= r < np -> 0 <= c < np -> c <> r -> at_ m (c * np + r) =
       re (mul half (add (at_ rho (rm + Z.min r c * np + Z.max r c)) (cj (at_ rho (rm + Z.max r c * np + Z.min r c)))))).
    { intros r c Hr Hc N. rewrite VV by assumption. destruct (Z.lt_trichotomy c r) as [L|[L|L]]; [|lia|].
      - rewrite Z.min_r, Z.max_l by lia. now rewrite (proj1 (V r c ltac:(lia) ltac:(lia))).
      - rewrite Z.min_l, Z.max_r by lia. rewrite (proj2 (V c r ltac:(lia) ltac:(lia))). apply RC. }
    intros r c Hr Hc. split; [|split].
    + intros ->. rewrite VV, D by assumption. apply re_re.
    + now apply OFF.
    + destruct (Z.eq_dec c r) as [->|N]; [reflexivity|]. rewrite !OFF by (try assumption; lia).
      now rewrite (Z.min_comm r c), (Z.max_comm r c).
Qed.

(** ** The matrix is a sum of squares *)
Hypothesis cj_add : forall a b, cj (a + b)%k = (cj a + cj b)%k.
Hypothesis cj_mul : forall a b, cj (a * b)%k = (cj a * cj b)%k.
Hypothesis cj_zero : cj zero = zero.
Hypothesis cj_cj : forall a, cj (cj a) = a.

Lemma cj_isum a b f : cj (isum a b f) = isum a b (fun i => cj (f i)).
Proof. unfold HubSpec.isum. apply (conj_ksum zero add cj cj_add cj_zero). Qed.

(** v* N v = sum of w f |<sum_r v_r r | x>|^2. *)
Theorem C74_gram : forall ts Gs (t : otype) J (v : Z -> K),
  isum 0 (o_np t) (fun r => isum 0 (o_np t) (fun c => mul (mul (cj (v r)) (occ_entry ts Gs J r c)) (v c))) =
  ksum (map (fun bg => ksum (map (fun G => isum 0 (og_nk G) (fun k => isum 0 (og_ncol G) (fun n =>
    let z := isum 0 (o_np t) (fun r => mul (cj (v r)) (proj (phk G k) dV ts (ocol G k n) J r)) in
    mul (mul (og_w G k) (at_ (og_occ G) (occ_at Ns pol s G k n))) (mul z (cj z))))) bg)) Gs).
Proof.
  intros ts Gs t J v. unfold occ_entry.
  (* move the two sums over orbitals inside, one level at a time *)
  assert (MV : forall {A} (l : list A) (F : A -> Z -> Z -> K),
    isum 0 (o_np t) (fun r => isum 0 (o_np t) (fun c => mul (mul (cj (v r)) (ksum (map (fun x => F x r c) l))) (v c))) =
    ksum (map (fun x => isum 0 (o_np t) (fun r => isum 0 (o_np t) (fun c => mul (mul (cj (v r)) (F x r c)) (v c)))) l)).
  { intros A l F. unfold HubSpec.isum. set (Z0 := zrange 0 (o_np t - 1)).
    transitivity (ksum (map (fun r => ksum (map (fun x => ksum (map (fun c => mul (mul (cj (v r)) (F x r c)) (v c)) Z0)) l)) Z0)).
    - apply ksum_ext. intros r _.
      transitivity (ksum (map (fun c => ksum (map (fun x => mul (mul (cj (v r)) (F x r c)) (v c)) l)) Z0)).
      + apply ksum_ext. intros c _. rewrite (ksum_mul_r _ _ _ _ _ _ Rth), (ksum_mul_l _ _ _ _ _ _ Rth). reflexivity.
      + apply (ksum_swap _ _ _ _ _ _ Rth).
    - apply (ksum_swap _ _ _ _ _ _ Rth). }
  etransitivity; [exact (MV _ Gs (fun bg r c => ksum (map (fun G => isum 0 (og_nk G) (share ts G J r c)) bg)))|].
  apply ksum_ext. intros bg _.
  etransitivity; [exact (MV _ bg (fun G r c => isum 0 (og_nk G) (share ts G J r c)))|].
  apply ksum_ext. intros G _.
  etransitivity; [exact (MV _ (zrange 0 (og_nk G - 1)) (fun k r c => share ts G J r c k))|].
  apply ksum_ext. intros k _.
  etransitivity; [exact (MV _ (zrange 0 (og_ncol G - 1)) (fun n r c => mul (mul (mul (og_w G k) (at_ (og_occ G) (occ_at Ns pol s G k n)))
    (proj (phk G k) dV ts (ocol G k n) J r)) (cj (proj (phk G k) dV ts (ocol G k n) J c))))|].
  apply ksum_ext. intros n _. cbv zeta.
  rewrite cj_isum. set (a := fun r => proj (phk G k) dV ts (ocol G k n) J r). set (w := mul (og_w G k) _).
  transitivity (mul w (isum 0 (o_np t) (fun r => mul (mul (cj (v r)) (a r)) (isum 0 (o_np t) (fun c => cj (mul (cj (v c)) (a c))))))).
  - unfold HubSpec.isum. rewrite <- (ksum_mul_l _ _ _ _ _ _ Rth). apply ksum_ext. intros r _.
    transitivity (mul (mul w (mul (cj (v r)) (a r))) (ksum (map (fun c => cj (mul (cj (v c)) (a c))) (zrange 0 (o_np t - 1))))); [|ring].
    rewrite <- (ksum_mul_l _ _ _ _ _ _ Rth). apply ksum_ext. intros c _. rewrite cj_mul, cj_cj. unfold a. ring.
  - f_equal. unfold HubSpec.isum. rewrite (ksum_mul_r _ _ _ _ _ _ Rth). reflexivity.
Qed.

(** ** Energy *)
Lemma vec_gen {A} (h : A -> list (list row) * Z) (z : A -> Z -> K) : forall (l : list A) (y : nat -> Z -> K) a,
  (forall i x, nth_error l i = Some x -> y (a + i)%nat = z x) ->
  map (fun ip : nat * (list (list row) * Z) => (fst (snd ip), snd (snd ip), y (fst ip))) (combine (seq a (length (map h l))) (map h l))
  = map (fun x => (fst (h x), snd (h x), z x)) l.
Proof.
  induction l as [|x l IH]; intros y a H; cbn [map length seq combine]; [reflexivity|]. cbn [fst snd]. f_equal.
  - f_equal. specialize (H 0%nat x eq_refl). now rewrite Nat.add_0_r in H.
  - apply IH. intros i x' E. specialize (H (S i) x' E). now rewrite Nat.add_succ_r in H.
Qed.

(** Images and number of nodes of the processes of a group; a column of the
    k-point, divided by sqrt(dV), on them. *)
Definition gprocs (G : ogroup) : list (list (list row) * Z) := map (fun pr => (fst (fst pr), snd pr)) (og_procs G).
Definition gcol (G : ogroup) (k n : Z) (i : nat) : Z -> K :=
  match nth_error (og_procs G) i with
  | Some pr => xcol mul isq nsp s G (snd (fst pr)) (snd pr) k n
  | None => fun _ => zero
  end.

(** The weighted expectation values of the correction over all k-points and
    bands are the traces of V N. *)
Theorem C74_trace : forall ts rho (Gs : list (list ogroup)),
  cj dV = dV ->
  (forall bg G p tr i, In bg Gs -> In G bg -> In p (gprocs G) -> In tr (images ts (fst p)) ->
     cj (at_ (w_orb (snd tr)) i) = at_ (w_orb (snd tr)) i) ->
  ksum (map (fun bg => ksum (map (fun G => isum 0 (og_nk G) (fun k => isum 0 (og_ncol G) (fun n =>
    mul (mul (og_w G k) (at_ (og_occ G) (occ_at Ns pol s G k n)))
        (form zero add mul sub (phk G k) (fun e => cj (phk G k e)) dV half cj ts rho (gprocs G) (gcol G k n) (gcol G k n))))) bg)) Gs)
  = ksum (map (fun tJ => isum 0 (o_np (fst tJ)) (fun r => isum 0 (o_np (fst tJ)) (fun c =>
      mul (vmat half (fst tJ) (rho (snd tJ)) r c) (occ_entry ts Gs (snd tJ) c r)))) (catoms 0 ts)).
Proof.
  intros ts rho Gs HD HO.
  assert (VE : forall G k n, vec (gprocs G) (gcol G k n) = ocol G k n).
  { intros G k n. unfold vec, gprocs, HubOcc.ocol.
    rewrite (vec_gen (fun pr : list (list row) * arr K * Z => (fst (fst pr), snd pr))
      (fun pr => xcol mul isq nsp s G (snd (fst pr)) (snd pr) k n)); [reflexivity|].
    intros i x E. cbn [Nat.add]. unfold gcol. now rewrite E. }
  assert (MV : forall {A} (l : list A) (F : A -> Z -> otype * Z -> Z -> K),
    ksum (map (fun tJ => isum 0 (o_np (fst tJ)) (fun r => isum 0 (o_np (fst tJ)) (fun c =>
      mul (vmat half (fst tJ) (rho (snd tJ)) r c) (ksum (map (fun x => F x r tJ c) l))))) (catoms 0 ts)) =
    ksum (map (fun x => ksum (map (fun tJ => isum 0 (o_np (fst tJ)) (fun r => isum 0 (o_np (fst tJ)) (fun c =>
      mul (vmat half (fst tJ) (rho (snd tJ)) r c) (F x r tJ c)))) (catoms 0 ts))) l)).
  { intros A l F. unfold HubSpec.isum.
    transitivity (ksum (map (fun tJ => ksum (map (fun x => ksum (map (fun r => ksum (map (fun c =>
      mul (vmat half (fst tJ) (rho (snd tJ)) r c) (F x r tJ c)) (zrange 0 (o_np (fst tJ) - 1)))) (zrange 0 (o_np (fst tJ) - 1)))) l)) (catoms 0 ts)));
      [|apply (ksum_swap _ _ _ _ _ _ Rth)].
    apply ksum_ext. intros tJ _. set (Z0 := zrange 0 (o_np (fst tJ) - 1)).
    transitivity (ksum (map (fun r => ksum (map (fun x => ksum (map (fun c =>
      mul (vmat half (fst tJ) (rho (snd tJ)) r c) (F x r tJ c)) Z0)) l)) Z0)); [|apply (ksum_swap _ _ _ _ _ _ Rth)].
    apply ksum_ext. intros r _.
    transitivity (ksum (map (fun c => ksum (map (fun x => mul (vmat half (fst tJ) (rho (snd tJ)) r c) (F x r tJ c)) l)) Z0));
      [|apply (ksum_swap _ _ _ _ _ _ Rth)].
    apply ksum_ext. intros c _. rewrite (ksum_mul_l _ _ _ _ _ _ Rth). reflexivity. }
  symmetry. unfold occ_entry.
  etransitivity; [exact (MV _ Gs (fun bg r tJ c => ksum (map (fun G => isum 0 (og_nk G) (share ts G (snd tJ) c r)) bg)))|].
  apply ksum_ext. intros bg Hbg.
  etransitivity; [exact (MV _ bg (fun G r tJ c => isum 0 (og_nk G) (share ts G (snd tJ) c r)))|].
  apply ksum_ext. intros G HG.
  etransitivity; [exact (MV _ (zrange 0 (og_nk G - 1)) (fun k r tJ c => share ts G (snd tJ) c r k))|].
  apply ksum_ext. intros k _.
  etransitivity; [exact (MV _ (zrange 0 (og_ncol G - 1)) (fun n r tJ c => mul (mul (mul (og_w G k) (at_ (og_occ G) (occ_at Ns pol s G k n)))
        (proj (phk G k) dV ts (ocol G k n) (snd tJ) c)) (cj (proj (phk G k) dV ts (ocol G k n) (snd tJ) r))))|].
  apply ksum_ext. intros n _.
  rewrite (C74_form zero one add mul sub opp Rth (phk G k) (fun e => cj (phk G k e)) dV half cj cj_add cj_mul cj_zero ts rho (gprocs G)
    (gcol G k n) (gcol G k n)); [|reflexivity|exact HD|].
  2:{ intros p tr i Hp Htr. exact (HO bg G p tr i Hbg HG Hp Htr). }
  rewrite VE. rewrite <- (ksum_mul_l _ _ _ _ _ _ Rth). apply ksum_ext. intros [t J] _. cbn [fst snd].
  unfold HubSpec.isum. rewrite <- (ksum_mul_l _ _ _ _ _ _ Rth). apply ksum_ext. intros r _.
  rewrite <- (ksum_mul_l _ _ _ _ _ _ Rth). apply ksum_ext. intros c _. ring.
Qed.
End RING.
Print Assumptions C74_occupation.
Print Assumptions C74_store_gamma.
Print Assumptions C74_store_kpt.
Print Assumptions C74_gram.
Print Assumptions C74_trace.

(** With fewer than [nproj] squared entries in the stored matrix (U on a type
    with a second shell of the same l, see C73_sizes_refuted) the copy leaves the
    array. *)
Theorem C74_store_refuted : exists ang np rm (rho : arr Z), 0 < ang < np /\ 0 <= rm /\ rm + np * np <= sz rho /\
  store_kpt 0 Z.add Z.mul (fun a => a) 1 (fun a => a) ang np rm rho = UB.
Proof. exists 1, 2, 0, (Arr 4 (fun i => i)). repeat split; cbn; lia. Qed.
Print Assumptions C74_store_refuted.

(** ** Examples *)

(** Two types, the second corrected with two orbitals and two atoms; two processes
    with two and one nodes. *)
Definition ex_ts : list (otype (K:=Z)) :=
  [OT false 1 0 (Arr 0 (fun _ => 0)); OT true 2 2 (Arr 2 (fun _ => 6))].
Definition ex_L1 : list (list (row (K:=Z))) :=
  [[]; [Row (Entry 0 0 0 1 2 [1; 0]) (Arr 4 (fun i => i + 1)); Row (Entry 0 0 0 2 1 [1]) (Arr 2 (fun i => 3 - i))]].
Definition ex_L2 : list (list (row (K:=Z))) :=
  [[]; [Row (Entry 0 0 0 1 1 [0]) (Arr 2 (fun i => 2 * i - 1))]].
Definition ex_rho (J : Z) : arr Z := Arr 4 (fun i => if (i =? 0) || (i =? 3) then J else 1).
Definition ex_pz : list (hproc (K:=Z) * Z) :=
  [(HP ex_L1 (Arr 6 (fun i => i + 1)) 3 (Arr 4 (fun i => 100 * i)) 2, 2);
   (HP ex_L2 (Arr 2 (fun i => 5 - i)) 1 (Arr 2 (fun i => 7)) 1, 1)].

Lemma ex_types_ok : types_ok ex_ts.
Proof. split; [repeat constructor; cbn; lia|reflexivity]. Qed.

Example C74_operator_example :
  types_ok ex_ts /\ Forall (proc_ok ex_ts 2) ex_pz /\
  (forall t J, In (t, J) (catoms 0 ex_ts) -> o_np t * o_np t <= sz (ex_rho J) /\ o_np t <= sz (o_uval t)) /\
  (do hs <- Vhub_all 0 Z.add Z.mul Z.sub (fun _ => 1) (fun _ => 1) 1 1 ex_ts 2 ex_rho (map fst ex_pz) ;
   Ok (map (fun h => map (at_ h) (zrange 0 (sz h - 1))) hs)) =
  Ok [[-156; -272; -436; -822]; [103; 163]].
Proof.
  split; [exact ex_types_ok|]. split.
  { unfold ex_pz. apply Forall_cons; [|apply Forall_cons; [|apply Forall_nil]]; (split; [|cbn; lia]);
      repeat (apply Forall_cons || apply Forall_nil); (split; [first [left; reflexivity | right; left; reflexivity]|]); (split; [reflexivity|]); (split; [reflexivity|]);
      cbn; lia. }
  split; [intros t J [H|[H|[]]]; inversion H; subst; cbn; lia|].
  vm_compute. reflexivity.
Qed.

(** Two orbitals with different U (two shells of one atom) and an off-diagonal
    occupation: the operator is not symmetric. *)
Definition ex_ts2 : list (otype (K:=Z)) := [OT true 1 2 (Arr 2 (fun i => i + 1))].
Definition ex_L3 : list (list (row (K:=Z))) := [[Row (Entry 0 0 0 0 2 [0; 1]) (Arr 4 (fun i => if (i =? 0) || (i =? 3) then 1 else 0))]].
Theorem C74_hermitian_refuted : exists ts rho pz y x,
  types_ok ts /\ Forall (fun p : list (list (row (K:=Z))) * Z => Forall (image_ok ts (snd p)) (images ts (fst p))) pz /\
  (forall t J r c, In (t, J) (catoms 0 ts) -> 0 <= r < o_np t -> 0 <= c < o_np t ->
     at_ (rho J) (o_np t * r + c) = at_ (rho J) (o_np t * c + r)) /\
  form 0 Z.add Z.mul Z.sub (fun _ => 1) (fun _ => 1) 1 1 (fun a => a) ts rho pz y x <>
  form 0 Z.add Z.mul Z.sub (fun _ => 1) (fun _ => 1) 1 1 (fun a => a) ts rho pz x y.
Proof.
  exists ex_ts2, (fun _ => Arr 4 (fun i => if (i =? 0) || (i =? 3) then 0 else 1)), [(ex_L3, 2)], (fun _ g => g), (fun _ g => 1 - g).
  split; [split; [repeat constructor; cbn; lia|reflexivity]|].
  split.
  { apply Forall_cons; [|apply Forall_nil]. apply Forall_cons; [|apply Forall_nil].
    split; [left; reflexivity|]. split; [reflexivity|]. split; [reflexivity|]. cbn. lia. }
  split.
  - intros t J r c [H|[]] Hr Hc. inversion H; subst. cbn [o_np at_] in *. assert (R1 : r = 0 \/ r = 1) by lia.
    assert (C1 : c = 0 \/ c = 1) by lia. destruct R1 as [-> | ->], C1 as [-> | ->]; reflexivity.
  - vm_compute. discriminate.
Qed.
Print Assumptions C74_hermitian_refuted.

(** Two k-point groups in one band group and one in another, two bands. *)
Definition ex_G (w : Z) : ogroup (K:=Z) :=
  OG 2 1 2 (fun k => w + k) (Arr 6 (fun i => i))
     [(ex_L1, Arr 8 (fun i => i - 2), 2); (ex_L2, Arr 4 (fun i => i), 1)].
Example C74_occupation_example :
  Forall (fun bg => bg <> [] /\ Forall (fun G => group_ok 3 false 1 0 ex_ts G /\ (true = true \/ og_nk G = 1) /\
     0 <= 1 < Z.of_nat (length (og_procs G))) bg) [[ex_G 1; ex_G 2]; [ex_G 3]] /\
  (do m <- occ_reduced 0 Z.add Z.mul (fun a => a) 1 1 3 false 1 0 (fun _ _ _ => 1) true ex_ts [[ex_G 1; ex_G 2]; [ex_G 3]] 1 ;
   Ok (map (at_ m) (zrange 0 (sz m - 1)))) =
  Ok [5550; 19050; 19050; 65934; 13203; 8802; 8802; 5868].
Proof.
  split.
  - assert (O : forall w, group_ok 3 false 1 0 ex_ts (ex_G w)).
    { intros w. split; [cbn; lia|]. split; [lia|]. split.
      - intros k n Hk Hn. unfold occ_at. cbn [og_nk og_ncol og_nstart og_occ ex_G sz] in *. lia.
      - apply Forall_cons; [|apply Forall_cons; [|apply Forall_nil]]; (split; [cbn; lia|]); (split; [|cbn; lia]);
          repeat (apply Forall_cons || apply Forall_nil); (split; [first [left; reflexivity | right; left; reflexivity]|]); (split; [reflexivity|]); (split; [reflexivity|]);
          cbn; lia. }
    assert (P1 : forall w, group_ok 3 false 1 0 ex_ts (ex_G w) /\ (true = true \/ og_nk (ex_G w) = 1) /\
      0 <= 1 < Z.of_nat (length (og_procs (ex_G w)))).
    { intros w. split; [apply O|]. split; [now left|]. cbn [og_procs ex_G length]. lia. }
    apply Forall_cons; [|apply Forall_cons; [|apply Forall_nil]]; (split; [discriminate|]).
    + apply Forall_cons; [apply P1|]. apply Forall_cons; [apply P1|]. apply Forall_nil.
    + apply Forall_cons; [apply P1|]. apply Forall_nil.
  - vm_compute. reflexivity.
Qed.

Example C74_store_example :
  (do m <- store_kpt 0 Z.add Z.mul (fun a => a) 1 (fun a => a) 2 2 1 (Arr 5 (fun i => i)) ;
   Ok (map (at_ m) [0; 1; 2; 3])) = Ok [1; 5; 5; 4] /\
  (do m <- store_gamma 0 2 1 (Arr 5 (fun i => i)) ; Ok (map (at_ m) [0; 1; 2; 3])) = Ok [1; 3; 3; 4].
Proof. split; vm_compute; reflexivity. Qed.

(** ** Positive matrices at gamma: real numbers, occupations and weights >= 0. *)
Theorem C74_positive : forall dV isq Ns pol nsp s (phk : ogroup (K:=R) -> Z -> entry -> R) ts Gs (t : otype (K:=R)) J v,
  (forall bg G k n, In bg Gs -> In G bg -> (0 <= k < og_nk G)%Z -> (0 <= n < og_ncol G)%Z ->
     (0 <= og_w G k /\ 0 <= at_ (og_occ G) (occ_at Ns pol s G k n))%R) ->
  (0 <= isum 0 Rplus 0 (o_np t) (fun r => isum 0 Rplus 0 (o_np t) (fun c =>
     v r * occ_entry 0 Rplus Rmult (fun a => a) dV isq Ns pol nsp s phk ts Gs J r c * v c)))%R.
Proof.
  intros dV isq Ns pol nsp s phk ts Gs t J v H.
  rewrite (C74_gram 0%R 1%R Rplus Rmult Rminus Ropp RTheory (fun a => a) dV isq Ns pol nsp s phk ltac:(reflexivity) ltac:(reflexivity) ltac:(reflexivity)
    ltac:(reflexivity) ts Gs t J v).
  assert (POS : forall A (f : A -> R) l, (forall x, In x l -> (0 <= f x)%R) -> (0 <= ksum 0%R Rplus (map f l))%R).
  { intros A f l. induction l as [|x l IH]; intros Hl; cbn [map ksum]; [lra|].
    pose proof (Hl x (or_introl eq_refl)). specialize (IH (fun y h => Hl y (or_intror h))). lra. }
  apply POS. intros bg Hbg. apply POS. intros G HG. apply POS. intros k Hk. apply POS. intros n Hn.
  apply in_zrange in Hk, Hn. cbv zeta. destruct (H bg G k n Hbg HG ltac:(lia) ltac:(lia)) as (A & B).
  apply Rmult_le_pos; [now apply Rmult_le_pos|]. apply Rle_0_sqr.
Qed.
Print Assumptions C74_positive.
