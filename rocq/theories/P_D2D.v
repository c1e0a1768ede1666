(** Properties C05, C06: redistribution between two domain decompositions. *)
From Coq Require Import ZArith List Lia Bool.
From Coq Require Import ZifyBool ZifyNat.
From Verif Require Import CBase BlockDecomp WorkSplit Mem NdGrid D2D.
Import ListNotations.
Local Open Scope Z_scope.

(** ** Specification *)
(** First and last global node, in direction [i], of the process at coordinate [c]. *)
Definition first_node (n p c : v3) (i : nat) : Z :=
  block_decompose_nstart (at3 n i) (at3 p i) (at3 c i).
Definition count_nodes (n p c : v3) (i : nat) : Z :=
  block_decompose (at3 n i) (at3 p i) (at3 c i).
(** Array [m] of process [c] holds its block of the global field [gl]. *)
Definition holds_block {A} (gl : Z -> Z -> Z -> A) (n p c : v3) (m : mem A) : Prop :=
  forall i j k, 0 <= i < count_nodes n p c 0 -> 0 <= j < count_nodes n p c 1 ->
    0 <= k < count_nodes n p c 2 ->
    m (k * count_nodes n p c 1 * count_nodes n p c 0 + j * count_nodes n p c 0 + i)
    = gl (first_node n p c 0 + i) (first_node n p c 1 + j) (first_node n p c 2 + k).
(** Two processes share grid points. *)
Definition share_point (n p1 c1 p2 c2 : v3) : Prop :=
  exists x : nat -> Z, forall i, (i < 3)%nat ->
    first_node n p1 c1 i <= x i < first_node n p1 c1 i + count_nodes n p1 c1 i /\
    first_node n p2 c2 i <= x i < first_node n p2 c2 i + count_nodes n p2 c2 i.

Lemma share_meets n p1 c1 p2 c2 : share_point n p1 c1 p2 c2 <-> meets n p1 c1 p2 c2.
Proof.
  unfold share_point, meets, vhi, vlo, first_node, count_nodes. split.
  - intros (x & H) i Hi. specialize (H i Hi). lia.
  - intros H. exists (fun i => Z.max (vlo n p1 c1 i) (vlo n p2 c2 i)).
    intros i Hi. specialize (H i Hi). unfold vlo. lia.
Qed.
Lemma meets_sym n p1 c1 p2 c2 : meets n p1 c1 p2 c2 -> meets n p2 c2 p1 c1.
Proof. intros H i Hi. specialize (H i Hi). lia. Qed.

(** C06: the partner lists computed independently by the two sides match. *)
Theorem C06_partner_lists_match : forall n sp rp sc rc,
  dims_ok n sp -> dims_ok n rp -> coord_ok sp sc -> coord_ok rp rc ->
  exists ls lr,
    partners n rp (vlo n sp sc) (vhi n sp sc) = Ok ls /\
    partners n sp (vlo n rp rc) (vhi n rp rc) = Ok lr /\
    NoDup ls /\ NoDup lr /\
    (In rc ls <-> share_point n rp rc sp sc) /\
    (In sc lr <-> share_point n rp rc sp sc) /\
    (forall d, In d ls -> coord_ok rp d) /\ (forall d, In d lr -> coord_ok sp d).
Proof.
  intros n sp rp sc rc Hs Hr Hsc Hrc.
  destruct (partners_spec n sp rp sc Hs Hr Hsc) as (ls & Els & Nls & Hls).
  destruct (partners_spec n rp sp rc Hr Hs Hrc) as (lr & Elr & Nlr & Hlr).
  exists ls, lr. split; [exact Els|]. split; [exact Elr|]. split; [exact Nls|].
  split; [exact Nlr|]. rewrite share_meets. split; [|split; [|split]].
  - rewrite Hls. tauto.
  - rewrite Hlr. split; [intros [_ H]; now apply meets_sym|].
    intros H. split; [assumption|now apply meets_sym].
  - intros d Hd. now apply Hls.
  - intros d Hd. now apply Hlr.
Qed.
Print Assumptions C06_partner_lists_match.

Lemma ilo_sym n sp rp sc rc i : ilo n rp (vlo n sp sc) rc i = ilo n sp (vlo n rp rc) sc i.
Proof. apply Z.max_comm. Qed.
Lemma ihi_sym n sp rp sc rc i : ihi n rp (vhi n sp sc) rc i = ihi n sp (vhi n rp rc) sc i.
Proof. apply Z.min_comm. Qed.
Lemma inx_sym n sp rp sc rc i :
  inx n rp (vlo n sp sc) (vhi n sp sc) rc i = inx n sp (vlo n rp rc) (vhi n rp rc) sc i.
Proof. unfold inx. now rewrite ilo_sym, ihi_sym. Qed.

(** The number of items sent equals the number expected, equals the number of
    shared points, and is positive whenever a message is sent. *)
Theorem C06_message_lengths_match : forall n sp rp sc rc,
  DMnd n rp (vlo n sp sc) (vhi n sp sc) rc = DMnd n sp (vlo n rp rc) (vhi n rp rc) sc /\
  (share_point n rp rc sp sc -> 0 < DMnd n rp (vlo n sp sc) (vhi n sp sc) rc).
Proof.
  intros. split.
  - unfold DMnd. now rewrite (inx_sym n sp rp sc rc 0), (inx_sym n sp rp sc rc 1), (inx_sym n sp rp sc rc 2).
  - rewrite share_meets. intros H. unfold DMnd.
    assert (P : forall i, (i < 3)%nat -> 0 < inx n rp (vlo n sp sc) (vhi n sp sc) rc i).
    { intros i Hi. specialize (H i Hi). unfold inx, ihi, ilo. lia. }
    apply Z.mul_pos_pos; [apply Z.mul_pos_pos|]; apply P; lia.
Qed.
Print Assumptions C06_message_lengths_match.

Lemma shift_max a b x y : x + Z.max a b - a + y = Z.max a b - a + (x + y).
Proof. ring. Qed.

(** What the packed buffer contains: the shared box, and nothing outside it. *)
Lemma pack_value {A} (junk : A) gl n sp rp sc rc sdata i j k :
  holds_block gl n sp sc sdata ->
  let lo := vlo n sp sc in let hi := vhi n sp sc in
  0 <= i < inx n rp lo hi rc 0 -> 0 <= j < inx n rp lo hi rc 1 -> 0 <= k < inx n rp lo hi rc 2 ->
  pack junk n sp rp sc rc sdata (idx3 (inx n rp lo hi rc 0) (inx n rp lo hi rc 1) i j k)
  = gl (ilo n rp lo rc 0 + i) (ilo n rp lo rc 1 + j) (ilo n rp lo rc 2 + k).
Proof.
  intros Hh lo hi Hi Hj Hk. unfold pack. apply run_writes_in.
  - eexists. apply in_loop3. exists k, j, i.
    split; [exact Hk|]. split; [exact Hj|]. split; [exact Hi|]. reflexivity.
  - intros w Hw. apply in_loop3 in Hw. destruct Hw as (k' & j' & i' & Hk' & Hj' & Hi' & E).
    injection E as E1 E2.
    apply idx3_inj in E1; [|assumption..]. destruct E1 as (<- & <- & <-).
    rewrite E2. clear E2 w.
    assert (Hx : forall d t, (d < 3)%nat -> 0 <= t < inx n rp lo hi rc d ->
        0 <= t + ilo n rp lo rc d - lo d < count_nodes n sp sc d).
    { intros d t Hd. unfold inx, ihi, ilo, lo, hi, vhi, count_nodes.
      fold (vlo n sp sc d). lia. }
    assert (Hc : forall d, hi d - lo d + 1 = count_nodes n sp sc d).
    { intros d. unfold hi, lo, vhi, count_nodes. lia. }
    specialize (Hh (i + ilo n rp lo rc 0 - lo 0%nat) (j + ilo n rp lo rc 1 - lo 1%nat)
                   (k + ilo n rp lo rc 2 - lo 2%nat)
                   (Hx 0%nat i ltac:(lia) Hi) (Hx 1%nat j ltac:(lia) Hj) (Hx 2%nat k ltac:(lia) Hk)).
    fold lo hi. rewrite !Hc. unfold idx3. rewrite Hh.
    unfold first_node. fold (vlo n sp sc 0) (vlo n sp sc 1) (vlo n sp sc 2). fold lo.
    f_equal; ring.
Qed.

Theorem C06_pack_stays_in_buffer : forall A (junk : A) n sp rp sc rc sdata t,
  t < 0 \/ DMnd n rp (vlo n sp sc) (vhi n sp sc) rc <= t ->
  pack junk n sp rp sc rc sdata t = junk.
Proof.
  intros A junk n sp rp sc rc sdata t Ht. unfold pack. apply run_writes_notin.
  intros v Hv. apply in_loop3 in Hv. destruct Hv as (k & j & i & Hk & Hj & Hi & E).
  injection E as E _.
  pose proof (idx3_bound _ _ _ _ _ _ Hi Hj Hk) as B. rewrite <- E in B.
  unfold DMnd in Ht. lia.
Qed.
Print Assumptions C06_pack_stays_in_buffer.

Lemma find_self {B} (f : v3 -> B) rc l : In rc l ->
  find (fun m => v3_eqb (fst m) rc) (map (fun x => (x, f x)) l) = Some (rc, f rc).
Proof.
  induction l as [|a l IH]; intros H; [easy|]. cbn [map find fst].
  destruct (v3_eqb a rc) eqn:E.
  - apply v3_eqb_eq in E. now subst.
  - destruct H as [->|H]; [|now apply IH].
    assert (v3_eqb rc rc = true) by now apply v3_eqb_eq. congruence.
Qed.

(** C05: every receiver ends with exactly its block of the field the senders held,
    nothing else is touched, no receive is left unmatched. *)
Theorem C05_redistribution_correct :
  forall A (junk : A) (gl : Z -> Z -> Z -> A) n sp rp (sdata : v3 -> mem A) rc rdata,
  dims_ok n sp -> dims_ok n rp -> coord_ok rp rc ->
  (forall sc, coord_ok sp sc -> holds_block gl n sp sc (sdata sc)) ->
  exists m, d2d junk n sp rp sdata rc rdata = Ok m /\
    holds_block gl n rp rc m /\
    (forall t, t < 0 \/ count_nodes n rp rc 0 * count_nodes n rp rc 1 * count_nodes n rp rc 2 <= t ->
       m t = rdata t).
Proof.
  intros A junk gl n sp rp sdata rc rdata Hs Hr Hrc Hh.
  destruct (partners_spec n rp sp rc Hr Hs Hrc) as (lr & Elr & Nlr & Hlr).
  unfold d2d. rewrite Elr. cbn [obind].
  assert (D : forall sc, In sc lr ->
     delivered junk n sp rp sdata rc sc = Ok (pack junk n sp rp sc rc (sdata sc))).
  { intros sc Hsc. apply Hlr in Hsc. destruct Hsc as [Hok Hm].
    destruct (partners_spec n sp rp sc Hs Hr Hok) as (ls & Els & Nls & Hls).
    unfold delivered, d2d_send. rewrite Els. cbn [obind].
    rewrite (find_self (fun rc => (DMnd n rp (vlo n sp sc) (vhi n sp sc) rc,
               pack junk n sp rp sc rc (sdata sc)))).
    2:{ apply Hls. split; [assumption|]. now apply meets_sym. }
    rewrite (proj1 (C06_message_lengths_match n sp rp sc rc)), Z.eqb_refl. reflexivity. }
  rewrite (recv_all_writes junk n sp rp sdata rc lr _ rdata D).
  set (ws := flat_map _ lr).
  eexists. split; [reflexivity|].
  assert (Hc : forall d, vhi n rp rc d - vlo n rp rc d + 1 = count_nodes n rp rc d).
  { intros d. unfold vhi, count_nodes. lia. }
  assert (W : forall t v, In (t, v) ws <-> exists sc k j i, In sc lr /\
      0 <= k < inx n sp (vlo n rp rc) (vhi n rp rc) sc 2 /\
      0 <= j < inx n sp (vlo n rp rc) (vhi n rp rc) sc 1 /\
      0 <= i < inx n sp (vlo n rp rc) (vhi n rp rc) sc 0 /\
      t = idx3 (count_nodes n rp rc 0) (count_nodes n rp rc 1)
            (i + ilo n sp (vlo n rp rc) sc 0 - vlo n rp rc 0)
            (j + ilo n sp (vlo n rp rc) sc 1 - vlo n rp rc 1)
            (k + ilo n sp (vlo n rp rc) sc 2 - vlo n rp rc 2) /\
      v = gl (ilo n sp (vlo n rp rc) sc 0 + i) (ilo n sp (vlo n rp rc) sc 1 + j)
             (ilo n sp (vlo n rp rc) sc 2 + k)).
  { intros t v. unfold ws. rewrite in_flat_map. split.
    - intros (sc & Hsc & Hin). apply in_loop3 in Hin.
      destruct Hin as (k & j & i & Hk & Hj & Hi & E). rewrite !Hc in E. injection E as E1 E2.
      exists sc, k, j, i. repeat split; try assumption; try lia.
      rewrite E2. apply Hlr in Hsc. destruct Hsc as [Hok Hm].
      rewrite <- (inx_sym n sp rp sc rc 0) in Hi |- *.
      rewrite <- (inx_sym n sp rp sc rc 1) in Hj |- *.
      rewrite <- (inx_sym n sp rp sc rc 2) in Hk.
      rewrite (pack_value junk gl) by (try assumption; now apply Hh).
      now rewrite (ilo_sym n sp rp sc rc 0), (ilo_sym n sp rp sc rc 1), (ilo_sym n sp rp sc rc 2).
    - intros (sc & k & j & i & Hsc & Hk & Hj & Hi & -> & ->).
      exists sc. split; [assumption|]. apply in_loop3. exists k, j, i.
      split; [assumption|]. split; [assumption|]. split; [assumption|].
      rewrite !Hc. f_equal.
      apply Hlr in Hsc. destruct Hsc as [Hok Hm].
      rewrite <- (inx_sym n sp rp sc rc 0) in Hi |- *.
      rewrite <- (inx_sym n sp rp sc rc 1) in Hj |- *.
      rewrite <- (inx_sym n sp rp sc rc 2) in Hk.
      rewrite (pack_value junk gl) by (try assumption; now apply Hh).
      now rewrite (ilo_sym n sp rp sc rc 0), (ilo_sym n sp rp sc rc 1), (ilo_sym n sp rp sc rc 2). }
  assert (Loc : forall sc d t, 0 <= t < inx n sp (vlo n rp rc) (vhi n rp rc) sc d ->
      0 <= t + ilo n sp (vlo n rp rc) sc d - vlo n rp rc d < count_nodes n rp rc d).
  { intros sc d t. unfold inx, ihi, ilo. specialize (Hc d). lia. }
  split.
  - intros i j k Hi Hj Hk.
    change (k * count_nodes n rp rc 1 * count_nodes n rp rc 0 + j * count_nodes n rp rc 0 + i)
      with (idx3 (count_nodes n rp rc 0) (count_nodes n rp rc 1) i j k).
    apply run_writes_in.
    + (* some sender owns the point *)
      assert (Ow : forall d t, (d < 3)%nat -> 0 <= t < count_nodes n rp rc d ->
        exists c, 0 <= c < at3 sp d /\
          block_decompose_nstart (at3 n d) (at3 sp d) c <= first_node n rp rc d + t
          < block_decompose_nstart (at3 n d) (at3 sp d) c + block_decompose (at3 n d) (at3 sp d) c).
      { intros d t Hd Ht. apply bd_owner_exists; [specialize (Hs d Hd); lia|].
        destruct (box_in_mesh n rp rc d Hr Hrc Hd) as [Q1 Q2]. specialize (Hc d).
        unfold first_node. fold (vlo n rp rc d). lia. }
      destruct (Ow 0%nat i ltac:(lia) Hi) as (c0 & Hc0 & O0).
      destruct (Ow 1%nat j ltac:(lia) Hj) as (c1 & Hc1 & O1).
      destruct (Ow 2%nat k ltac:(lia) Hk) as (c2 & Hc2 & O2).
      set (sc := (c0, c1, c2) : v3).
      assert (F0 : vlo n sp sc 0 <= vlo n rp rc 0 + i <= vhi n sp sc 0)
        by (unfold vhi, vlo; change (at3 sc 0) with c0; unfold first_node in O0; clear - O0; lia).
      assert (F1 : vlo n sp sc 1 <= vlo n rp rc 1 + j <= vhi n sp sc 1)
        by (unfold vhi, vlo; change (at3 sc 1) with c1; unfold first_node in O1; clear - O1; lia).
      assert (F2 : vlo n sp sc 2 <= vlo n rp rc 2 + k <= vhi n sp sc 2)
        by (unfold vhi, vlo; change (at3 sc 2) with c2; unfold first_node in O2; clear - O2; lia).
      assert (G : forall d t, (d < 3)%nat -> 0 <= t < count_nodes n rp rc d ->
          vlo n sp sc d <= vlo n rp rc d + t <= vhi n sp sc d ->
          Z.max (vlo n sp sc d) (vlo n rp rc d) <= Z.min (vhi n sp sc d) (vhi n rp rc d) /\
          0 <= vlo n rp rc d + t - ilo n sp (vlo n rp rc) sc d
            < inx n sp (vlo n rp rc) (vhi n rp rc) sc d).
      { intros d t Hd Ht Hv. unfold inx, ihi, ilo. specialize (Hc d).
        clear - Hc Ht Hv. lia. }
      assert (G0 := G 0%nat i ltac:(lia) Hi F0). assert (G1 := G 1%nat j ltac:(lia) Hj F1).
      assert (G2 := G 2%nat k ltac:(lia) Hk F2).
      eexists. apply W.
      exists sc, (vlo n rp rc 2 + k - ilo n sp (vlo n rp rc) sc 2),
        (vlo n rp rc 1 + j - ilo n sp (vlo n rp rc) sc 1),
        (vlo n rp rc 0 + i - ilo n sp (vlo n rp rc) sc 0).
      split; [|split; [apply G2|split; [apply G1|split; [apply G0|split; [|reflexivity]]]]].
      * apply Hlr. split.
        -- intros [|[|[|d]]] Hd; assumption.
        -- intros [|[|[|d]]] Hd; [apply G0|apply G1|apply G2|exfalso; clear - Hd; lia].
      * f_equal; ring.
    + intros w Hw. apply W in Hw.
      destruct Hw as (sc & k' & j' & i' & Hsc & Hk' & Hj' & Hi' & E & ->).
      apply idx3_inj in E; [|assumption|assumption|now apply Loc|now apply Loc].
      destruct E as (-> & -> & ->). unfold first_node.
      fold (vlo n rp rc 0) (vlo n rp rc 1) (vlo n rp rc 2). f_equal; ring.
  - intros t Ht. apply run_writes_notin. intros v Hv. apply W in Hv.
    destruct Hv as (sc & k & j & i & _ & Hk & Hj & Hi & E & _).
    apply Loc in Hk. apply Loc in Hj. apply Loc in Hi.
    pose proof (idx3_bound _ _ _ _ _ _ Hi Hj Hk) as B. rewrite <- E in B. lia.
Qed.
Print Assumptions C05_redistribution_correct.

(** The precondition "at least one node per process" is needed: with an empty
    sender block the target computation divides by zero. *)
Theorem C05_empty_block_refuted :
  exists n sp rp sc, coord_ok sp sc /\ (forall i, 1 <= at3 n i) /\ (forall i, 1 <= at3 sp i) /\
    dims_ok n rp /\ partners n rp (vlo n sp sc) (vhi n sp sc) = UB.
Proof.
  exists (1, 1, 1), (2, 1, 1), (1, 1, 1), (1, 0, 0).
  repeat split; try (intros [|[|[|i]]]; cbn [at3]; lia).
  all: destruct i as [|[|[|i]]]; cbn [at3]; lia.
Qed.
Print Assumptions C05_empty_block_refuted.

(** A concrete redistribution: 5x4x3 mesh, 2x2x1 -> 3x1x2, receiver (1,0,1). *)
Example C05_example :
  let n := (5, 4, 3) : v3 in let sp := (2, 2, 1) : v3 in let rp := (3, 1, 2) : v3 in
  let gl x y z := 100 * x + 10 * y + z in
  let sdata (c : v3) : mem Z := fun t =>
     let nx := count_nodes n sp c 0 in let ny := count_nodes n sp c 1 in
     gl (first_node n sp c 0 + t mod nx) (first_node n sp c 1 + (t / nx) mod ny)
        (first_node n sp c 2 + t / nx / ny) in
  dims_ok n sp /\ dims_ok n rp /\ coord_ok rp (1, 0, 1) /\
  exists m, d2d (-1) n sp rp sdata (1, 0, 1) (fun _ => -5) = Ok m /\
    map m (zseq 0 9) = [202; 302; 212; 312; 222; 322; 232; 332; -5].
Proof.
  cbv zeta. split; [|split; [|split]].
  1-3: intros [|[|[|i]]] Hi; cbn [at3]; lia.
  eexists. split; vm_compute; reflexivity.
Qed.
