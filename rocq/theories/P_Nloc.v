(** C69: the list of atoms with a nonlocal influence on a process
    (/repo/src/nlocVecRoutines.c:43-385). *)
From Coq Require Import ZArith QArith Qround Lqa List Lia Bool.
From Verif Require Import CBase Nloc NlocSpec NlocLem.
Import ListNotations.
Local Open Scope Z_scope.

(** The radius used for a type is the largest of its radii. *)
Theorem C69_cutoff : forall t, cutoff t (max_rc t).
Proof.
  intros t. unfold cutoff, max_rc.
  assert (G : forall l m, (0 <= m)%Q ->
    let r := fold_left Qmaxc l m in
    (0 <= r)%Q /\ (m <= r)%Q /\ (forall x, In x l -> x <= r)%Q /\ (r = m \/ In r l)).
  { induction l as [|a l IH]; intros m Hm; cbn [fold_left].
    - cbv zeta. repeat split; auto; [lra|]. intros x [].
    - assert (M : (m <= Qmaxc m a)%Q /\ (a <= Qmaxc m a)%Q /\ (Qmaxc m a = m \/ Qmaxc m a = a)).
      { unfold Qmaxc. destruct (Qle_bool a m) eqn:E.
        - apply Qle_bool_iff in E. repeat split; auto; lra.
        - apply Qle_bool_false in E. repeat split; auto; lra. }
      destruct M as (M1 & M2 & M3).
      destruct (IH (Qmaxc m a)) as (I1 & I2 & I3 & I4); [lra|].
      cbv zeta in *. split; [exact I1|]. split; [lra|]. split.
      + intros x [<-|Hx]; [lra|]. now apply I3.
      + destruct I4 as [I4|I4]; [|right; now right].
        destruct M3 as [M3|M3]; rewrite I4, M3; [now left|right; now left]. }
  destruct (G (t_rc t) 0%Q) as (A & _ & B & C0); [lra|]. auto.
Qed.
Print Assumptions C69_cutoff.

Example C69_cutoff_example :
  max_rc (Atyp [1%Q; (5 # 2)%Q; 2%Q] 0 0 0 1) = (5 # 2)%Q.
Proof. reflexivity. Qed.

(** In an orthogonal cell the search box always contains the ball. *)
Theorem C69_orthogonal_box : forall c t, c_typ c = 0 ->
  covers c (rcbox c t) (max_rc t).
Proof.
  intros c t E. destruct (C69_cutoff t) as (H0 & _). unfold rcbox. rewrite E. cbn [Z.eqb].
  unfold covers. set (rc := max_rc t) in *. clearbody rc. intros x y z. unfold norm2. rewrite E.
  cbn [Z.eqb].
  assert (S : forall u : Q, (0 <= u * u)%Q).
  { intros u. destruct (Qlt_le_dec u 0); [|apply Qmult_le_0_compat; assumption].
    setoid_replace (u * u)%Q with ((- u) * (- u))%Q by ring. apply Qmult_le_0_compat; lra. }
  pose proof (S x). pose proof (S y). pose proof (S z).
  assert (L : forall u, (u * u <= rc * rc)%Q -> (- rc <= u <= rc)%Q).
  { intros u Hu. split; apply Qnot_lt_le; intros K; apply (Qle_not_lt _ _ Hu); nra. }
  assert (L' : forall u, (u * u < rc * rc)%Q -> (- rc < u /\ u < rc)%Q).
  { intros u Hu. split; apply Qnot_le_lt; intros K; apply (Qlt_not_le _ _ Hu); nra. }
  split; intros Hn; (split; [|split]); first [apply L; lra | apply L'; lra].
Qed.
Print Assumptions C69_orthogonal_box.

(** Preconditions of a call. *)
Definition call_ok (c : cell) (D : dom) (pos : list (Q * Q * Q)) (ts : list atyp) : Prop :=
  (c_typ c = 0 \/ 10 < c_typ c < 20) /\
  Forall (fun t => box_ok c D (rcbox c t) /\ covers c (rcbox c t) (max_rc t) /\ 0 <= t_n t) ts /\
  Forall (in_cell c) pos /\ zsum (map t_n ts) = Z.of_nat (length pos).

(** What the rows of a type should be: one row for every image of an atom of
    the type with a node of the box inside the ball, none for an image
    without a node in the closed ball, no image twice; every row holds the
    coordinates of its image, its atom, and all nodes of the box in the
    closed ball, in increasing order. *)
Definition exact_rows (c : cell) (D : dom) (pos : list (Q * Q * Q)) (first n : Z) (rc : Q)
    (es : list entry) : Prop :=
  exists ims : list (Z * tri),
    NoDup ims /\
    Forall2 (fun ai e => exists p0, nth_error pos (Z.to_nat (fst ai)) = Some p0 /\
               good_entry c D p0 rc (fst ai) (snd ai) e) ims es /\
    (forall a im, In (a, im) ims -> first <= a < first + n /\ is_image c im /\
       exists p0 nd, nth_error pos (Z.to_nat a) = Some p0 /\ In nd (nodes D) /\
         (norm2 c (disp c p0 im nd) <= rc * rc)%Q) /\
    (forall a im p0 nd, first <= a < first + n -> is_image c im ->
       nth_error pos (Z.to_nat a) = Some p0 -> In nd (nodes D) ->
       (norm2 c (disp c p0 im nd) < rc * rc)%Q -> In (a, im) ims).

Theorem C69_list : forall c D pos ts, call_ok c D pos ts ->
  exists L, GetInfluencingAtoms_nloc c D pos ts = Ok L /\ length L = length ts /\
    forall ty t es, nth_error ts ty = Some t -> nth_error L ty = Some es ->
      exact_rows c D pos (first_atom ts ty) (t_n t) (max_rc t) es.
Proof.
  intros c D pos ts (HT & HF & HP & HN).
  destruct (type_loop_ok c D pos HT HP ts 0 HF) as (L & E & LL & H); [lia|lia|].
  exists L. split; [exact E|]. split; [exact LL|]. intros ty t es H1 H2.
  destruct (H ty t es H1 H2) as (ims & ND & F & HI). cbv zeta in HI.
  rewrite Z.add_0_l in HI.
  assert (HX : box_ok c D (rcbox c t) /\ covers c (rcbox c t) (max_rc t) /\ 0 <= t_n t).
  { rewrite Forall_forall in HF. apply HF. eapply nth_error_In. exact H1. }
  destruct HX as (HB & HC & _).
  exists ims. split; [exact ND|]. split; [|split].
  - clear - F. induction F as [|x y l m (_ & HR) F IH]; constructor; auto.
  - intros a im Hin. apply HI in Hin. destruct Hin as (A & p0 & B & C0 & n & D1 & D2).
    split; [exact A|]. split; [|exists p0, n; auto].
    destruct (rcbox c t) as [[bx by_] bz]. destruct p0 as [[x0 y0] z0]. destruct im as [[p q] r].
    exact (proj1 C0).
  - intros a im p0 nd A B C0 D1 D2. apply HI. split; [exact A|]. exists p0. split; [exact C0|].
    split; [|exists nd; split; [exact D1|now apply Qlt_le_weak]].
    eapply near_kept; eauto.
Qed.
Print Assumptions C69_list.

(** The preconditions hold of a periodic cube with 6 nodes a side, cut in two
    in the x direction, and two types of atoms. *)
Definition ex_axis : axis := Axis 0 6 1 0 0.
Definition ex_cell : cell := Cell ex_axis ex_axis ex_axis 0 1 0 0 1 0 1 false.
Definition ex_lo : dom := Dom 0 2 0 5 0 5.
Definition ex_hi : dom := Dom 3 5 0 5 0 5.
Definition ex_all : dom := Dom 0 5 0 5 0 5.
Definition ex_pos : list (Q * Q * Q) := [(4%Q, 1%Q, 1%Q); (0%Q, (1 # 2)%Q, 3%Q); (1%Q, 1%Q, 1%Q)].
Definition ex_ts : list atyp := [Atyp [1%Q; 2%Q] 0 0 0 2; Atyp [(3 # 2)%Q] 0 0 0 1].

Ltac qd := unfold Qle, Qlt, Qeq; cbn; lia.
Ltac ax_ok := constructor; cbn; try lia; try qd; intros; repeat split; try lia; qd.

Lemma ex_ok : call_ok ex_cell ex_lo ex_pos ex_ts /\ call_ok ex_cell ex_hi ex_pos ex_ts /\
  call_ok ex_cell ex_all ex_pos ex_ts.
Proof.
  assert (IC : Forall (in_cell ex_cell) ex_pos).
  { unfold ex_pos. apply Forall_forall. intros p [<-|[<-|[<-|[]]]]; (split; [|split]); intros _; split; qd. }
  assert (G : forall D, (forall t, In t ex_ts -> box_ok ex_cell D (rcbox ex_cell t)) ->
    call_ok ex_cell D ex_pos ex_ts).
  { intros D H. split; [now left|]. split; [|split; [exact IC|reflexivity]].
    apply Forall_forall. intros t Ht. split; [now apply H|].
    split; [now apply C69_orthogonal_box|].
    destruct Ht as [<-|[<-|[]]]; cbn; lia. }
  split; [|split]; apply G; intros t [<-|[<-|[]]]; cbv [rcbox ex_cell c_typ Z.eqb box_ok];
  (split; [ax_ok|split; [ax_ok|split; [ax_ok|cbn; unfold INT_MAX; lia]]]).
Qed.

(** The two halves of the cube see the first atom through different images. *)
Definition view (o : outcome (list (list entry))) : list (list (Z * Q * Z)) :=
  match o with
  | Ok L => map (map (fun e => (e_atom e, Qred (e_x e), e_ndc e))) L
  | _ => []
  end.
Example C69_example :
  view (GetInfluencingAtoms_nloc ex_cell ex_lo ex_pos ex_ts) =
    [[(0, (-2)%Q, 1); (1, 0%Q, 16); (1, 0%Q, 4)]; [(2, 1%Q, 19)]] /\
  view (GetInfluencingAtoms_nloc ex_cell ex_hi ex_pos ex_ts) =
    [[(0, 4%Q, 29); (1, 6%Q, 7); (1, 6%Q, 1)]; []].
Proof. split; vm_compute; reflexivity. Qed.

(** A node counts as influenced by an atom when a row of the atom names it. *)
Definition influenced (D : dom) (L : list (list entry)) (a : Z) (nd : tri) : Prop :=
  exists es e, In es L /\ In e es /\ e_atom e = a /\ In (local_index D nd) (e_pos e).

Definition influencedb (D : dom) (L : list (list entry)) (a : Z) (nd : tri) : bool :=
  existsb (existsb (fun e => (e_atom e =? a) && existsb (Z.eqb (local_index D nd)) (e_pos e))) L.

Lemma influenced_dec D L a nd : influencedb D L a nd = true <-> influenced D L a nd.
Proof.
  unfold influencedb, influenced. rewrite existsb_exists. split.
  - intros (es & H1 & H2). apply existsb_exists in H2. destruct H2 as (e & H3 & H4).
    apply andb_true_iff in H4. destruct H4 as [H4 H5]. apply existsb_exists in H5.
    destruct H5 as (x & H5 & H6). apply Z.eqb_eq in H4, H6. subst x. exists es, e. auto.
  - intros (es & e & H1 & H2 & H3 & H4). exists es. split; [exact H1|].
    apply existsb_exists. exists e. split; [exact H2|]. rewrite H3, Z.eqb_refl. cbn [andb].
    apply existsb_exists. exists (local_index D nd). split; [exact H4|apply Z.eqb_refl].
Qed.

(** A node at distance exactly [rc] below an atom is named when it is inside
    the box of the process, and lost when it is the last node of the box: the
    list depends on how the grid is divided. *)
Theorem C69_edge_refuted : exists c D D' pos ts t L L' nd p0,
  call_ok c D pos ts /\ call_ok c D' pos ts /\
  GetInfluencingAtoms_nloc c D pos ts = Ok L /\ GetInfluencingAtoms_nloc c D' pos ts = Ok L' /\
  nth_error ts 0 = Some t /\ nth_error pos 0 = Some p0 /\
  In nd (nodes D) /\ In nd (nodes D') /\
  (norm2 c (disp c p0 (0, 0, 0)%Z nd) == max_rc t * max_rc t)%Q /\
  influenced D L 0 nd /\ ~ influenced D' L' 0 nd.
Proof.
  destruct ex_ok as (O1 & _ & O3).
  destruct (C69_list _ _ _ _ O3) as (L & E & _). destruct (C69_list _ _ _ _ O1) as (L' & E' & _).
  exists ex_cell, ex_all, ex_lo, ex_pos, ex_ts, (Atyp [1%Q; 2%Q] 0 0 0 2), L, L', (2, 1, 1),
    (4%Q, 1%Q, 1%Q).
  split; [exact O3|]. split; [exact O1|]. split; [exact E|]. split; [exact E'|].
  split; [reflexivity|]. split; [reflexivity|].
  split; [apply in_nodes; cbn; lia|]. split; [apply in_nodes; cbn; lia|].
  split; [reflexivity|].
  split.
  - apply influenced_dec.
    vm_compute in E. injection E as <-. vm_compute. reflexivity.
  - intros H. apply influenced_dec in H.
    vm_compute in E'. injection E' as <-. vm_compute in H. discriminate H.
Qed.
Print Assumptions C69_edge_refuted.

(** In a skewed cell the search box of [CUTOFF_x/y/z] need not contain the
    ball even when its half-widths are at least [rc]; nodes strictly inside
    the ball are then lost. *)
Definition skew_cell : cell :=
  Cell (Axis 0 12 1 0 0) (Axis 0 12 1 0 0) (Axis 0 12 1 0 0) 11 1 (8 # 5) 0 1 0 1 false.
Definition skew_dom : dom := Dom 0 11 0 11 0 11.
Definition skew_ts : list atyp := [Atyp [2%Q] 2 2 2 1].
Definition skew_pos : list (Q * Q * Q) := [(6%Q, 6%Q, 6%Q)].

Theorem C69_skew_box_refuted : exists c D pos ts t L nd p0 bx by_ bz,
  (10 < c_typ c < 20) /\ box_ok c D (rcbox c t) /\ ts = [t] /\ pos = [p0] /\ in_cell c p0 /\
  (forall x y z, (0 <= norm2 c (x, y, z))%Q) /\
  rcbox c t = (bx, by_, bz) /\ (max_rc t <= bx /\ max_rc t <= by_ /\ max_rc t <= bz)%Q /\
  GetInfluencingAtoms_nloc c D pos ts = Ok L /\ In nd (nodes D) /\
  (norm2 c (disp c p0 (0, 0, 0)%Z nd) < max_rc t * max_rc t)%Q /\ ~ influenced D L 0 nd.
Proof.
  destruct (GetInfluencingAtoms_nloc skew_cell skew_dom skew_pos skew_ts) as [L| |] eqn:E;
    [|vm_compute in E; discriminate E|vm_compute in E; discriminate E].
  exists skew_cell, skew_dom, skew_pos, skew_ts, (Atyp [2%Q] 2 2 2 1), L, (9, 4, 6),
    (6%Q, 6%Q, 6%Q), 2%Q, 2%Q, 2%Q.
  split; [cbn; lia|].
  split. { cbv [rcbox skew_cell c_typ Z.eqb Pos.eqb box_ok t_cx t_cy t_cz].
    split; [ax_ok|split; [ax_ok|split; [ax_ok|cbn; unfold INT_MAX; lia]]]. }
  split; [reflexivity|]. split; [reflexivity|].
  split; [(split; [|split]); intros _; split; qd|].
  split.
  { intros x y z. unfold norm2, skew_cell. cbn [c_typ Z.eqb Pos.eqb m0 m1 m2 m4 m5 m8].
    setoid_replace (1 * (x * x) + (8 # 5) * (x * y) + 0 * (x * z) + 1 * (y * y) + 0 * (y * z) + 1 * (z * z))%Q
      with ((x + (4 # 5) * y) * (x + (4 # 5) * y) + (9 # 25) * (y * y) + z * z)%Q by ring.
    assert (S : forall u : Q, (0 <= u * u)%Q).
    { intros u. destruct (Qlt_le_dec u 0); [|apply Qmult_le_0_compat; assumption].
      setoid_replace (u * u)%Q with ((- u) * (- u))%Q by ring. apply Qmult_le_0_compat; lra. }
    pose proof (S (x + (4 # 5) * y)%Q). pose proof (S y). pose proof (S z). lra. }
  split; [reflexivity|]. split; [repeat split; discriminate|]. split; [exact E|].
  split; [apply in_nodes; cbn; lia|]. split; [reflexivity|].
  intros H. apply influenced_dec in H.
  vm_compute in E. injection E as <-. vm_compute in H. discriminate H.
Qed.
Print Assumptions C69_skew_box_refuted.

(** For any other [cell_typ] the distance is never assigned: using it is
    undefined as soon as one node is looked at. *)
Theorem C69_cell_typ_refuted : exists c D pos ts,
  c_typ c = 20 /\ Forall (fun t => box_ok c D (rcbox c t)) ts /\ Forall (in_cell c) pos /\
  GetInfluencingAtoms_nloc c D pos ts = UB.
Proof.
  exists (Cell ex_axis ex_axis ex_axis 20 1 0 0 1 0 1 false), ex_all,
    [(4%Q, 1%Q, 1%Q)], [Atyp [1%Q] 2 2 2 1].
  split; [reflexivity|]. split.
  { constructor; [|constructor]. cbv [rcbox c_typ Z.eqb Pos.eqb box_ok t_cx t_cy t_cz].
    split; [ax_ok|split; [ax_ok|split; [ax_ok|cbn; unfold INT_MAX; lia]]]. }
  split; [|vm_compute; reflexivity].
  constructor; [|constructor]. (split; [|split]); intros _; split; qd.
Qed.
Print Assumptions C69_cell_typ_refuted.
