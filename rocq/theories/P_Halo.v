(** C55: the halo exchange and stencil loops compute, on every block of the
    domain decomposition, the global finite-difference operator. *)
From Coq Require Import ZArith List Bool Lia FinFun Ring.
From Coq Require Import ZifyBool.
From Verif Require Import CBase BlockDecomp Text Collect P_Collect Halo HaloLem.
Import ListNotations.
Local Open Scope Z_scope.

(** ** Neighbours and message matching *)
Lemma slots_cases s : In s slots <-> (fst s < 3)%nat.
Proof.
  split.
  - unfold slots. cbn [In]. intuition (subst; cbn; lia).
  - destruct s as [d b]. cbn [fst]. intros H. unfold slots. cbn [In]. destruct d as [|[|[|]]]; destruct b; try lia; tauto.
Qed.
Lemma slots_nodup : NoDup slots.
Proof. unfold slots. repeat constructor; cbn [In]; intuition discriminate. Qed.
Lemma slot_eqb_eq a b : slot_eqb a b = true <-> a = b.
Proof.
  unfold slot_eqb. destruct a as [d x], b as [d' y]. cbn [fst snd]. split.
  - intros H. apply andb_prop in H as [H1 H2]. apply Nat.eqb_eq in H1. apply eqb_prop in H2. congruence.
  - intros H. injection H as -> ->. rewrite Nat.eqb_refl, eqb_reflx. reflexivity.
Qed.
Section Topo.
  Variables (dims : pt) (per : nat -> bool).
  Hypothesis Hdims : forall d, (d < 3)%nat -> 1 <= at_ dims d.
  Notation nbr := (nbr dims per).
  Notation slots_to := (slots_to dims per).
  Notation match_slot := (match_slot dims per).
  Notation pack_slot := (pack_slot dims per).

  Definition step (b : bool) : Z := if b then 1 else -1.
  Lemma nbr_spec p d b : (d < 3)%nat -> 0 <= at_ p d < at_ dims d ->
    nbr p (d, b) = (if (0 <=? at_ p d + step b) && (at_ p d + step b <? at_ dims d) then Some (set_ p d (at_ p d + step b))
                    else if per d then Some (set_ p d (if b then 0 else at_ dims d - 1)) else None).
  Proof.
    intros Hd Hp. unfold Halo.nbr, step. pose proof (Hdims d Hd) as D. destruct b.
    - destruct ((0 <=? at_ p d + 1) && (at_ p d + 1 <? at_ dims d)) eqn:E; [reflexivity|]. destruct (per d); [|reflexivity].
      f_equal. f_equal. replace (at_ p d + 1) with (at_ dims d) by lia. apply Z.mod_same. lia.
    - change (at_ p d - 1) with (at_ p d + -1).
      destruct ((0 <=? at_ p d + -1) && (at_ p d + -1 <? at_ dims d)) eqn:E; [reflexivity|]. destruct (per d); [|reflexivity].
      f_equal. f_equal. replace (at_ p d + -1) with (-1) by lia. symmetry. apply (Z.mod_unique _ _ (-1)); lia.
  Qed.
  (** the coordinate of the neighbour *)
  Definition ncoord (p : pt) (d : nat) (b : bool) : Z :=
    if (0 <=? at_ p d + step b) && (at_ p d + step b <? at_ dims d) then at_ p d + step b else if b then 0 else at_ dims d - 1.
  Lemma nbr_some p d b q : (d < 3)%nat -> 0 <= at_ p d < at_ dims d -> nbr p (d, b) = Some q ->
    q = set_ p d (ncoord p d b) /\ (per d = true \/ 0 <= at_ p d + step b < at_ dims d).
  Proof.
    intros Hd Hp H. rewrite nbr_spec in H by assumption. unfold ncoord.
    destruct ((0 <=? at_ p d + step b) && (at_ p d + step b <? at_ dims d)) eqn:E.
    - injection H as <-. split; [reflexivity|right; lia].
    - destruct (per d); [|discriminate]. injection H as <-. auto.
  Qed.
  Lemma is_nbr_spec p q d b : (d < 3)%nat -> 0 <= at_ p d < at_ dims d ->
    is_nbr dims per p q (d, b) = true <-> q = set_ p d (ncoord p d b) /\ (per d = true \/ 0 <= at_ p d + step b < at_ dims d).
  Proof.
    intros Hd Hp. unfold is_nbr. destruct (nbr p (d, b)) as [q'|] eqn:E.
    - apply nbr_some in E as [-> E]; try assumption. rewrite pt_eqb_eq. split; [intros <-; auto|intros [-> _]; reflexivity].
    - split; [discriminate|]. intros [_ H]. rewrite nbr_spec in E by assumption. exfalso.
      destruct ((0 <=? at_ p d + step b) && (at_ p d + step b <? at_ dims d)) eqn:E'; [discriminate|]. destruct (per d); [discriminate|]. lia.
  Qed.
  Definition okp (p : pt) : Prop := forall d, (d < 3)%nat -> 0 <= at_ p d < at_ dims d.
  Lemma set_at p d : (d < 3)%nat -> set_ p d (at_ p d) = p.
  Proof. intros H. apply pt_ext. intros d' H'. rewrite at_set by assumption. destruct (Nat.eqb d' d) eqn:E; [|reflexivity]. apply Nat.eqb_eq in E. subst. reflexivity. Qed.
  Lemma nbr_ok p s q : In s slots -> okp p -> nbr p s = Some q -> okp q.
  Proof.
    destruct s as [d b]. intros Hs Hp H. apply slots_cases in Hs. cbn [fst] in Hs. apply nbr_some in H as [-> H]; auto.
    intros d' Hd'. rewrite at_set by assumption. destruct (Nat.eqb d' d) eqn:E; [|apply Hp; exact Hd'].
    apply Nat.eqb_eq in E. subst d'. unfold ncoord. pose proof (Hp d Hs). pose proof (Hdims d Hs).
    destruct ((0 <=? at_ p d + step b) && (at_ p d + step b <? at_ dims d)) eqn:E; [lia|]. destruct b; lia.
  Qed.
  (** the slots of q that point back to p *)
  Lemma is_nbr_back p d b q d' b' : (d < 3)%nat -> (d' < 3)%nat -> okp p -> nbr p (d, b) = Some q ->
    is_nbr dims per q p (d', b') = true <->
    (if at_ dims d =? 1 then at_ dims d' = 1 /\ per d' = true
     else d' = d /\ (b' = negb b \/ at_ dims d = 2 /\ per d = true)).
  Proof.
    intros Hd Hd' Hp H. pose proof (nbr_ok p (d, b) q ltac:(apply slots_cases; exact Hd) Hp H) as Hq.
    rewrite is_nbr_spec by auto. apply nbr_some in H as [-> H]; [|auto|auto].
    pose proof (Hp d Hd) as Pd. pose proof (Hdims d Hd) as Dd. pose proof (Hdims d' Hd') as Dd'. pose proof (Hp d' Hd') as Pd'.
    set (c := ncoord p d b) in *.
    assert (Hc : c = at_ p d + step b /\ 0 <= c < at_ dims d \/ c = (if b then 0 else at_ dims d - 1) /\ per d = true /\ at_ p d = (if b then at_ dims d - 1 else 0)).
    { unfold c, ncoord. destruct ((0 <=? at_ p d + step b) && (at_ p d + step b <? at_ dims d)) eqn:E; [left; lia|right].
      destruct H as [H|H]; [|lia]. unfold step in E. destruct b; repeat split; try assumption; lia. }
    clearbody c. clear H.
    assert (EQ : p = set_ (set_ p d c) d' (ncoord (set_ p d c) d' b') <-> at_ p d' = ncoord (set_ p d c) d' b' /\ (d' = d \/ c = at_ p d)).
    { split.
      - intros E. split.
        + rewrite E at 1. rewrite at_set, Nat.eqb_refl by assumption. reflexivity.
        + destruct (Nat.eq_dec d' d) as [|N]; [left; assumption|right]. apply (f_equal (fun z => at_ z d)) in E. rewrite at_set in E by assumption.
          replace (Nat.eqb d d') with false in E by (symmetry; apply Nat.eqb_neq; congruence). rewrite at_set, Nat.eqb_refl in E by assumption. symmetry; exact E.
      - intros [E1 E2]. apply pt_ext. intros e He. rewrite at_set by assumption. destruct (Nat.eqb e d') eqn:E.
        + apply Nat.eqb_eq in E. subst e. exact E1.
        + rewrite at_set by assumption. destruct (Nat.eqb e d) eqn:E3; [|reflexivity]. apply Nat.eqb_eq in E3. subst e.
          destruct E2 as [->|E2]; [rewrite Nat.eqb_refl in E; discriminate|symmetry; exact E2]. }
    rewrite EQ. clear EQ. unfold ncoord. rewrite at_set by assumption. unfold step in *.
    destruct (Nat.eqb d' d) eqn:Ed.
    - apply Nat.eqb_eq in Ed. subst d'. destruct (at_ dims d =? 1) eqn:E1.
      + destruct b, b', (per d) eqn:Ep;
        repeat match goal with |- context [if ?x && ?y then _ else _] => destruct (x && y) eqn:? end;
        (split; [intros [[X1 X2] X3]; split; [lia|]; try reflexivity; try lia | intros [X1 X2]; try discriminate; repeat split; auto; lia]); exfalso; try discriminate; lia.
      + destruct b, b', (per d) eqn:Ep; cbn [negb];
        repeat match goal with |- context [if ?x && ?y then _ else _] => destruct (x && y) eqn:? end;
        (split; [intros [[X1 X2] X3]; split; [reflexivity|]; first [left; reflexivity | right; split; [lia|reflexivity] | exfalso; destruct X3; first [discriminate | lia]]
               | intros [X1 [X2|[X2 X3]]]; try discriminate; repeat split; auto; try lia ]).
    - apply Nat.eqb_neq in Ed. destruct (at_ dims d =? 1) eqn:E1.
      + destruct b, b', (per d') eqn:Ep;
        repeat match goal with |- context [if ?x && ?y then _ else _] => destruct (x && y) eqn:? end;
        (split; [intros [[X1 X2] X3]; split; [lia|]; try reflexivity; exfalso; destruct X3; first [discriminate|lia]
               | intros [X1 X2]; try discriminate; repeat split; auto; try lia]).
      + split.
        * intros [[X1 [X2|X2]] X3]; [exfalso; congruence|]. exfalso. destruct b; lia.
        * intros [X1 _]. exfalso. congruence.
  Qed.
  Lemma pos_nth l s : In s l -> nth_error l (pos l s) = Some s.
  Proof.
    induction l as [|x l IH]; intros H; [destruct H|]. cbn [pos]. destruct (slot_eqb x s) eqn:E.
    - apply slot_eqb_eq in E. subst. reflexivity.
    - destruct H as [->|H]; [|apply IH; exact H]. assert (slot_eqb s s = true) by (apply slot_eqb_eq; reflexivity). congruence.
  Qed.
  Lemma bool_iff (a b : bool) : (a = true <-> b = true) -> a = b.
  Proof. intros [H1 H2]. destruct a, b; auto. symmetry. auto. Qed.
  (** the message that arrives in slot r was packed from the box on the side
      facing p *)
  Lemma match_ok p d b q : (d < 3)%nat -> okp p -> nbr p (d, b) = Some q ->
    exists s, match_slot p q (d, b) = Some s /\ fst s = d /\ pack_slot s = (d, negb b).
  Proof.
    intros Hd Hp H.
    assert (Hq : okp q) by (eapply nbr_ok; [apply slots_cases|exact Hp|exact H]; exact Hd).
    assert (Back : nbr q (d, negb b) = Some p).
    { assert (B : is_nbr dims per q p (d, negb b) = true).
      { apply (is_nbr_back p d b q d (negb b) Hd Hd Hp H). destruct (at_ dims d =? 1) eqn:E; [|auto]. split; [lia|].
        apply nbr_some in H as [_ [H|H]]; auto. pose proof (Hp d Hd). unfold step in H. destruct b; lia. }
      unfold is_nbr in B. destruct (nbr q (d, negb b)); [|discriminate]. apply pt_eqb_eq in B. congruence. }
    unfold match_slot, Halo.match_slot, Halo.slots_to.
    destruct (at_ dims d =? 1) eqn:E1.
    - (* p = q along this direction *)
      assert (P1 : per d = true).
      { apply nbr_some in H as [_ [H|H]]; auto. pose proof (Hp d Hd). unfold step in H. destruct b; lia. }
      assert (E : filter (is_nbr dims per q p) slots = filter (is_nbr dims per p q) slots).
      { apply filter_ext_in. intros [d' b'] Hs. apply slots_cases in Hs. cbn [fst] in Hs. apply bool_iff.
        rewrite (is_nbr_back p d b q d' b' Hd Hs Hp H), (is_nbr_back q d (negb b) p d' b' Hd Hs Hq Back), E1. tauto. }
      exists (d, b). rewrite E. split; [|split; [reflexivity|]].
      + apply pos_nth. apply filter_In. split; [apply slots_cases; exact Hd|].
        apply (is_nbr_back q d (negb b) p d b Hd Hd Hq Back). rewrite E1. split; [lia|exact P1].
      + unfold Halo.pack_slot. cbn [fst]. replace (at_ dims d <? 3) with true by lia. rewrite P1. reflexivity.
    - set (two := (at_ dims d =? 2) && per d).
      assert (EF : forall u v u', nbr u (d, u') = Some v -> okp u ->
        filter (is_nbr dims per v u) slots = filter (fun s => Nat.eqb (fst s) d && (two || Bool.eqb (snd s) (negb u'))) slots).
      { intros u v u' Hu Ou. apply filter_ext_in. intros [d' b'] Hs. apply slots_cases in Hs. cbn [fst snd] in *. apply bool_iff.
        rewrite (is_nbr_back u d u' v d' b' Hd Hs Ou Hu), E1. rewrite andb_true_iff, orb_true_iff, Nat.eqb_eq, eqb_true_iff.
        unfold two. rewrite andb_true_iff, Z.eqb_eq. tauto. }
      rewrite (EF p q b H Hp), (EF q p (negb b) Back Hq).
      destruct two eqn:E2; unfold two in E2.
      + exists (d, b). split; [|split; [reflexivity|]].
        * destruct d as [|[|[|]]]; destruct b; try lia; reflexivity.
        * apply andb_prop in E2 as [E2 E3]. unfold Halo.pack_slot. cbn [fst]. replace (at_ dims d <? 3) with true by lia. rewrite E3. reflexivity.
      + exists (d, negb b). split; [|split; [reflexivity|]].
        * destruct d as [|[|[|]]]; destruct b; try lia; reflexivity.
        * unfold Halo.pack_slot. cbn [fst]. pose proof (Hdims d Hd). replace ((at_ dims d <? 3) && per d) with false; [reflexivity|].
          destruct (per d); [|rewrite andb_false_r; reflexivity]. rewrite andb_true_r in E2 |- *. lia.
  Qed.
End Topo.

(** ** Consecutive segments *)
Section Seg.
  Variable K : Type.
  Variable act : nat -> bool.
  Variable F : Z.
  Notation count := (count F act).
  Definition csum (l : list slot) (n : pt) : Z := fold_right (fun s z => count n s + z) 0 l.
  Lemma displ_pre pre s t n : ~ In s pre -> displ_in F act (pre ++ s :: t) n s = csum pre n.
  Proof.
    induction pre as [|x pre IH]; intros H.
    - cbn. replace (slot_eqb s s) with true by (symmetry; apply slot_eqb_eq; reflexivity). reflexivity.
    - cbn [app displ_in csum fold_right]. destruct (slot_eqb x s) eqn:E.
      + apply slot_eqb_eq in E. exfalso. apply H. left. exact E.
      + rewrite IH by (intros X; apply H; right; exact X). reflexivity.
  Qed.
  Variable f : slot -> list K.
  Variable n : pt.
  Lemma csum_len l : (forall s, In s l -> Z.of_nat (length (f s)) = count n s) -> Z.of_nat (length (flat_map f l)) = csum l n.
  Proof.
    induction l as [|x l IH]; intros H; [reflexivity|]. cbn [flat_map csum fold_right]. rewrite app_length, Nat2Z.inj_add, (H x (or_introl eq_refl)), IH; [reflexivity|].
    intros; apply H; right; assumption.
  Qed.
  Lemma slice_seg s : In s slots -> (forall s, In s slots -> Z.of_nat (length (f s)) = count n s) ->
    slice K (flat_map f slots) (displ F act n s) (count n s) = Ok (f s).
  Proof.
    intros Hs H. destruct (in_split _ _ Hs) as [pre [t E]].
    assert (N : ~ In s pre). { pose proof slots_nodup as N. rewrite E in N. apply NoDup_remove_2 in N. intros X. apply N. apply in_or_app. left. exact X. }
    unfold displ. rewrite E. rewrite (displ_pre pre s t n N).
    rewrite flat_map_app. cbn [flat_map].
    assert (L1 : Z.of_nat (length (flat_map f pre)) = csum pre n) by (apply csum_len; intros; apply H; rewrite E; apply in_or_app; left; assumption).
    pose proof (H s Hs) as L2. unfold slice. rewrite !app_length.
    replace ((0 <=? csum pre n) && (0 <=? count n s) && (csum pre n + count n s <=? Z.of_nat (length (flat_map f pre) + (length (f s) + length (flat_map f t))))) with true by lia.
    rewrite <- L1, <- L2, !Nat2Z.id. rewrite skipn_app, skipn_all, Nat.sub_diag. cbn [skipn app]. rewrite firstn_app, firstn_all, Nat.sub_diag. cbn [firstn]. rewrite app_nil_r. reflexivity.
  Qed.
End Seg.

(** ** Specification: the global field and its extension by one lattice step.
    [gx] is g inside the global domain; outside, zero in a direction with
    Dirichlet boundary conditions, and the phase factor of the side times the
    periodic image in a periodic one. *)
Section Spec.
  Variable K : Type.
  Variables (k0 : K) (kadd kmul ksub : K -> K -> K).
  Variables (per : nat -> bool) (N : pt) (ph : slot -> K) (g : pt -> K).
  Definition outb (d : nat) (G : pt) : bool := (at_ G d <? 0) || (at_ N d <=? at_ G d).
  Definition image (d : nat) (G : pt) : K :=
    if per d then (if at_ G d <? 0 then kmul (g (set_ G d (at_ G d + at_ N d))) (ph (d, false))
                   else kmul (g (set_ G d (at_ G d - at_ N d))) (ph (d, true)))
    else k0.
  Definition gx (G : pt) : K :=
    if outb 0 G then image 0 G else if outb 1 G then image 1 G else if outb 2 G then image 2 G else g G.
  Definition move (G : pt) (d : nat) (r : Z) : pt := set_ G d (at_ G d + r).
  (** the sum of f over 1..n *)
  Fixpoint ksum (f : Z -> K) (n : nat) : K := match n with O => k0 | S m => kadd (ksum f m) (f (Z.of_nat n)) end.
  (** (a Lap + b diag(v) + c) g at the global point G *)
  Definition lap_spec (D2 : nat -> Z -> K) (F : Z) (a b c : K) (v : pt -> K) (G : pt) : K :=
    let dir d := kadd (kmul (D2 d 0) (g G)) (ksum (fun r => kmul (D2 d r) (kadd (gx (move G d r)) (gx (move G d (- r))))) (Z.to_nat F)) in
    kadd (kadd (kmul a (kadd (kadd (dir 0%nat) (dir 1%nat)) (dir 2%nat))) (kmul b (kmul (v G) (g G)))) (kmul c (g G)).
  (** (d/dx_dir + c) g at G *)
  Definition grad_spec (D1 : nat -> Z -> K) (F : Z) (dir : nat) (c : K) (G : pt) : K :=
    kadd (ksum (fun r => kmul (D1 dir r) (ksub (gx (move G dir r)) (gx (move G dir (- r))))) (Z.to_nat F)) (kmul c (g G)).
End Spec.

(** ** The loops over the radius *)
Section Radius.
  Variable K : Type.
  Variables (k0 k1 : K) (kadd kmul ksub : K -> K -> K) (kopp : K -> K).
  Hypothesis KR : ring_theory k0 k1 kadd kmul ksub kopp eq.
  Add Ring KRing0 : KR.
  Notation ksum := (ksum K k0 kadd).
  Lemma ksum_ext f h n : (forall i, (1 <= i <= n)%nat -> f (Z.of_nat i) = h (Z.of_nat i)) -> ksum f n = ksum h n.
  Proof.
    induction n as [|n IH]; intros H; [reflexivity|]. cbn [P_Halo.ksum]. rewrite IH by (intros; apply H; lia). rewrite H by lia. reflexivity.
  Qed.
  Lemma ksum_first f n : ksum f (S n) = kadd (f 1) (ksum (fun i => f (i + 1)) n).
  Proof.
    induction n as [|n IH]; [cbn; ring|].
    change (ksum f (S (S n))) with (kadd (ksum f (S n)) (f (Z.of_nat (S (S n))))).
    change (ksum (fun i => f (i + 1)) (S n)) with (kadd (ksum (fun i => f (i + 1)) n) (f (Z.of_nat (S n) + 1))).
    rewrite IH. replace (Z.of_nat (S n) + 1) with (Z.of_nat (S (S n))) by lia. ring.
  Qed.
  Lemma radius_ok f h : forall n r0 acc, (forall r, r0 <= r < r0 + Z.of_nat n -> f r = Ok (h r)) ->
    radius_sum K kadd f r0 n acc = Ok (kadd acc (ksum (fun i => h (r0 - 1 + i)) n)).
  Proof.
    induction n as [|n IH]; intros r0 acc H; [cbn; f_equal; ring|].
    cbn [radius_sum]. rewrite H by lia. cbn [obind]. rewrite IH by (intros; apply H; lia). f_equal.
    rewrite ksum_first. replace (r0 - 1 + 1) with r0 by lia.
    rewrite (ksum_ext (fun i => h (r0 + 1 - 1 + i)) (fun i => h (r0 - 1 + (i + 1)))) by (intros; f_equal; lia). ring.
  Qed.
End Radius.

Section Ext.
  Variable K : Type.
  Variables (k0 k1 : K) (kadd kmul ksub : K -> K -> K) (kopp : K -> K).
  Hypothesis KR : ring_theory k0 k1 kadd kmul ksub kopp eq.
  Add Ring KRing : KR.
  Variables (dims : pt) (per : nat -> bool) (N : pt) (F : Z) (act : nat -> bool) (ph : slot -> K) (blk : bool).
  Hypothesis Hdims : forall d, (d < 3)%nat -> 1 <= at_ dims d.
  Hypothesis HF : 1 <= F.
  Hypothesis HN : forall d, (d < 3)%nat -> 0 <= at_ N d.
  Hypothesis HNF : forall d, (d < 3)%nat -> act d = true -> F * at_ dims d <= at_ N d.
  Variable g : pt -> K.
  Notation okp := (okp dims).
  Notation sz := (sz dims N).
  Notation st := (st dims N).
  Notation szx := (szx dims N F act).
  Notation w := (w F act).
  Notation nbr := (nbr dims per).
  Notation gx := (gx K k0 kmul per N ph g).
  Notation count := (count F act).
  Notation send_lo := (send_lo F).
  Notation send_hi := (send_hi F).
  Notation recv_lo := (recv_lo F act).
  Notation recv_hi := (recv_hi F act).

  Notation msel := (match_slot dims per).

  (** every process holds its block of g *)
  Definition holds (f : pt -> K) (x : pt -> Z -> K) : Prop :=
    forall q b, okp q -> inblk (sz q) b -> x q (lin (sz q) b) = f (addp (st q) b).
  Variable x : pt -> Z -> K.
  Hypothesis Hx : holds g x.

  Lemma sz_at p d : (d < 3)%nat -> at_ (sz p) d = block_decompose (at_ N d) (at_ dims d) (at_ p d).
  Proof. intros H. unfold Halo.sz. rewrite at_vec by exact H. reflexivity. Qed.
  Lemma st_at p d : (d < 3)%nat -> at_ (st p) d = block_decompose_nstart (at_ N d) (at_ dims d) (at_ p d).
  Proof. intros H. unfold Halo.st. rewrite at_vec by exact H. reflexivity. Qed.
  Lemma blk_facts d c : (d < 3)%nat -> 0 <= c < at_ dims d ->
    let n := block_decompose (at_ N d) (at_ dims d) c in let s := block_decompose_nstart (at_ N d) (at_ dims d) c in
    0 <= n /\ 0 <= s /\ s + n <= at_ N d /\ (act d = true -> F <= n) /\ (c = 0 -> s = 0) /\ (c = at_ dims d - 1 -> s + n = at_ N d) /\
    (1 <= c -> act d = true -> F <= s) /\ (c + 1 < at_ dims d -> act d = true -> s + n + F <= at_ N d).
  Proof.
    intros Hd Hc n s. pose proof (HN d Hd) as Nd. pose proof (Hdims d Hd) as Dd.
    assert (GE : forall c, act d = true -> F <= block_decompose (at_ N d) (at_ dims d) c).
    { intros c' A. unfold block_decompose. pose proof (HNF d Hd A). rewrite quot_div_nonneg by lia.
      assert (F <= at_ N d / at_ dims d) by (apply Z.div_le_lower_bound; lia). destruct (_ <? _); lia. }
    assert (N0 : 0 <= n) by (apply bd_nonneg; lia).
    pose proof (bd_start_0 (at_ N d) (at_ dims d) Nd ltac:(lia)) as S0.
    pose proof (bd_start_p (at_ N d) (at_ dims d) Nd ltac:(lia)) as SP.
    pose proof (bd_start_S (at_ N d) (at_ dims d) c Nd ltac:(lia) ltac:(lia)) as SS. fold n s in SS.
    pose proof (bd_start_mono (at_ N d) (at_ dims d) 0 c Nd ltac:(lia) ltac:(lia)) as M1.
    pose proof (bd_start_mono (at_ N d) (at_ dims d) (c + 1) (at_ dims d) Nd ltac:(lia) ltac:(lia)) as M2.
    fold s in M1. repeat split; try lia.
    - intros A. apply GE. exact A.
    - intros ->. exact S0.
    - intros ->. rewrite <- SS. replace (at_ dims d - 1 + 1) with (at_ dims d) by lia. exact SP.
    - intros H1 A. pose proof (bd_start_S (at_ N d) (at_ dims d) (c - 1) Nd ltac:(lia) ltac:(lia)) as S1. replace (c - 1 + 1) with c in S1 by lia. fold s in S1.
      pose proof (bd_start_mono (at_ N d) (at_ dims d) 0 (c - 1) Nd ltac:(lia) ltac:(lia)). pose proof (GE (c - 1) A). lia.
    - intros H1 A. pose proof (bd_start_S (at_ N d) (at_ dims d) (c + 1) Nd ltac:(lia) ltac:(lia)) as S1.
      pose proof (bd_start_mono (at_ N d) (at_ dims d) (c + 1 + 1) (at_ dims d) Nd ltac:(lia) ltac:(lia)). pose proof (GE (c + 1) A). lia.
  Qed.
  Lemma pt_facts p d : (d < 3)%nat -> okp p ->
    0 <= at_ (sz p) d /\ 0 <= at_ (st p) d /\ at_ (st p) d + at_ (sz p) d <= at_ N d /\ (act d = true -> F <= at_ (sz p) d).
  Proof. intros Hd Hp. rewrite sz_at, st_at by exact Hd. pose proof (blk_facts d (at_ p d) Hd (Hp d Hd)) as H. cbv zeta in H. intuition lia. Qed.

  (** the global point of a point of the extended block *)
  Definition glob (p b : pt) : pt := vec (fun e => at_ b e - w e + at_ (st p) e).
  (** the point of the neighbour's block that fills halo point b *)
  Definition src (n n' : pt) (r : slot) (b : pt) : pt := vec (fun e => at_ b e - at_ (recv_lo n r) e + at_ (send_lo n' (opp r)) e).
  Definition rcv (p : pt) (r : slot) (b : pt) : K :=
    match nbr p r with None => k0 | Some q => g (addp (st q) (src (sz p) (sz q) r b)) end.

  Lemma recv_in n r b d : (d < 3)%nat -> In b (box (recv_lo n r) (recv_hi n r)) ->
    if Nat.eqb d (fst r) then (if snd r then at_ n d + w d <= at_ b d < at_ n d + 2 * w d else 0 <= at_ b d < w d) else w d <= at_ b d < at_ n d + w d.
  Proof.
    intros Hd H. rewrite box_in in H. specialize (H d Hd). unfold Halo.recv_lo, Halo.recv_hi in H. rewrite !at_vec in H by exact Hd.
    destruct (Nat.eqb d (fst r)), (snd r); exact H.
  Qed.

  Lemma gx_dir d G : (d < 3)%nat -> (forall e, (e < 3)%nat -> e <> d -> outb N e G = false) ->
    gx G = if outb N d G then image K k0 kmul per N ph g d G else g G.
  Proof.
    intros Hd H. unfold P_Halo.gx.
    destruct d as [|[|[|]]]; try lia.
    - rewrite (H 1%nat), (H 2%nat) by lia. reflexivity.
    - rewrite (H 0%nat), (H 2%nat) by lia. reflexivity.
    - rewrite (H 0%nat), (H 1%nat) by lia. reflexivity.
  Qed.
  Lemma outside_or p t : is_grid_outside (at_ t 0) (at_ t 1) (at_ t 2) (- w 0) (- w 1) (- w 2)
      (DM (at_ (st p) 0) (at_ (st p) 0 + at_ (sz p) 0 - 1) (at_ (st p) 1) (at_ (st p) 1 + at_ (sz p) 1 - 1) (at_ (st p) 2) (at_ (st p) 2 + at_ (sz p) 2 - 1))
      (at_ N 0) (at_ N 1) (at_ N 2) = (outb N 0 (glob p t) || outb N 1 (glob p t)) || outb N 2 (glob p t).
  Proof. unfold is_grid_outside, outb, glob. rewrite !at_vec by lia. cbn [v0 v2 v4]. lia. Qed.

  Lemma phased_ok p d b c : (d < 3)%nat -> act d = true -> okp p -> In c (box (recv_lo (sz p) (d, b)) (recv_hi (sz p) (d, b))) ->
    phased K kmul dims N F act ph blk p (d, b) c (rcv p (d, b) c) = gx (glob p c).
  Proof.
    intros Hd A Hp Hc.
    assert (OUT : forall e t, (e < 3)%nat -> e <> d -> t = c \/ t = recv_lo (sz p) (d, b) -> outb N e (glob p t) = false).
    { intros e t He Hne Ht. unfold outb, glob. rewrite at_vec by exact He. pose proof (recv_in _ _ _ e He Hc) as R. cbn [fst] in R.
      replace (Nat.eqb e d) with false in R by (symmetry; apply Nat.eqb_neq; exact Hne). pose proof (pt_facts p e He Hp).
      destruct Ht as [-> | ->]; [lia|]. unfold Halo.recv_lo. rewrite at_vec by exact He. cbn [fst]. replace (Nat.eqb e d) with false by (symmetry; apply Nat.eqb_neq; exact Hne). lia. }
    unfold phased. cbv zeta. rewrite outside_or.
    set (t := if blk then recv_lo (sz p) (d, b) else c).
    assert (Ht : t = c \/ t = recv_lo (sz p) (d, b)) by (unfold t; destruct blk; auto).
    assert (OR : (outb N 0 (glob p t) || outb N 1 (glob p t)) || outb N 2 (glob p t) = outb N d (glob p t)).
    { pose proof (fun e He Hne => OUT e t He Hne Ht) as O. destruct d as [|[|[|]]]; try lia.
      - rewrite (O 1%nat), (O 2%nat) by lia. rewrite !orb_false_r. reflexivity.
      - rewrite (O 0%nat), (O 2%nat) by lia. rewrite !orb_false_r. reflexivity.
      - rewrite (O 0%nat), (O 1%nat) by lia. reflexivity. }
    rewrite OR. rewrite (gx_dir d) by (auto; intros; apply OUT; auto).
    pose proof (recv_in _ _ _ d Hd Hc) as R. cbn [fst snd] in R. rewrite Nat.eqb_refl in R.
    assert (W : w d = F) by (unfold Halo.w; rewrite A; reflexivity). rewrite W in R.
    pose proof (blk_facts d (at_ p d) Hd (Hp d Hd)) as B. cbv zeta in B. rewrite <- sz_at, <- st_at in B by exact Hd.
    destruct B as [B0 [B1 [B2 [B3 [B4 [B5 [B6 B7]]]]]]]. specialize (B3 A).
    pose proof (Hp d Hd) as Pd. pose proof (Hdims d Hd) as Dd.
    assert (GD : at_ (glob p c) d = at_ c d - F + at_ (st p) d) by (unfold glob; rewrite at_vec, W by exact Hd; reflexivity).
    assert (GT : at_ (glob p t) d = if blk then (if b then at_ (sz p) d + at_ (st p) d else at_ (st p) d - F) else at_ (glob p c) d).
    { unfold t. destruct blk; [|reflexivity]. unfold glob, Halo.recv_lo. rewrite !at_vec by exact Hd. cbn [fst snd]. rewrite Nat.eqb_refl, W. destruct b; lia. }
    assert (OT : outb N d (glob p t) = outb N d (glob p c)).
    { unfold outb. rewrite GT, GD. destruct blk; [|reflexivity].
      destruct b.
      - destruct (Z.eq_dec (at_ p d) (at_ dims d - 1)) as [E|E]; [specialize (B5 E); lia|]. specialize (B7 ltac:(lia) A). lia.
      - destruct (Z.eq_dec (at_ p d) 0) as [E|E]; [specialize (B4 E); lia|]. specialize (B6 ltac:(lia) A). lia. }
    rewrite OT. clear OT GT OR Ht. clear t.
    unfold rcv. destruct (nbr p (d, b)) as [q|] eqn:EN.
    - assert (Hq : okp q) by (apply (nbr_ok dims per Hdims p (d, b) q); [apply (proj2 (slots_cases (d, b))); exact Hd|exact Hp|exact EN]).
      apply nbr_some in EN as [EQ EN]; auto.
      assert (SRC : forall e, (e < 3)%nat -> at_ (addp (st q) (src (sz p) (sz q) (d, b) c)) e =
         if Nat.eqb e d then (if b then at_ (st q) d + (at_ c d - at_ (sz p) d - F) else at_ (st q) d + at_ c d + at_ (sz q) d - F) else at_ (glob p c) e).
      { intros e He. unfold addp, src, glob, Halo.recv_lo, Halo.send_lo, opp. rewrite !at_vec by exact He. cbn [fst snd].
        destruct (Nat.eqb e d) eqn:E; cbn [andb].
        - apply Nat.eqb_eq in E. subst e. rewrite W. destruct b; cbn [negb]; lia.
        - rewrite !st_at by exact He. rewrite EQ, at_set, E by assumption. lia. }
      assert (QD : at_ q d = ncoord dims p d b) by (rewrite EQ, at_set, Nat.eqb_refl by assumption; reflexivity).
      pose proof (blk_facts d (at_ q d) Hd (Hq d Hd)) as C. cbv zeta in C. rewrite <- sz_at, <- st_at in C by exact Hd.
      destruct C as [C0 [C1 [C2 [C3 [C4 [C5 [C6 C7]]]]]]].
      assert (PTEQ : forall v, (if b then at_ (st q) d + (at_ c d - at_ (sz p) d - F) else at_ (st q) d + at_ c d + at_ (sz q) d - F) = v ->
         addp (st q) (src (sz p) (sz q) (d, b) c) = set_ (glob p c) d v).
      { intros v Ev. apply pt_ext. intros e He. rewrite SRC, at_set by assumption. destruct (Nat.eqb e d); auto. }
      unfold ncoord in QD.
      destruct ((0 <=? at_ p d + step b) && (at_ p d + step b <? at_ dims d)) eqn:ES.
      + (* an interior neighbour *)
        assert (NO : outb N d (glob p c) = false).
        { unfold outb. rewrite GD. unfold step in ES. destruct b; [specialize (B7 ltac:(lia) A)|specialize (B6 ltac:(lia) A)]; lia. }
        rewrite NO. rewrite (PTEQ (at_ (glob p c) d)); [rewrite set_at by exact Hd; reflexivity|].
        rewrite GD. pose proof (HN d Hd) as Nd. unfold step in QD, ES. destruct b.
        * pose proof (bd_start_S (at_ N d) (at_ dims d) (at_ p d) Nd ltac:(lia) ltac:(lia)) as S1. rewrite <- sz_at, <- st_at in S1 by exact Hd.
          rewrite <- QD in S1. rewrite <- st_at in S1 by exact Hd. lia.
        * pose proof (bd_start_S (at_ N d) (at_ dims d) (at_ q d) Nd ltac:(lia) ltac:(lia)) as S1. rewrite <- sz_at, <- st_at in S1 by exact Hd.
          replace (at_ q d + 1) with (at_ p d) in S1 by lia. rewrite <- st_at in S1 by exact Hd. lia.
      + (* across the periodic boundary *)
        destruct EN as [EN|EN]; [|unfold step in *; lia].
        assert (NO : outb N d (glob p c) = true).
        { unfold outb. rewrite GD. unfold step in ES. destruct b; [specialize (B5 ltac:(lia))|specialize (B4 ltac:(lia))]; lia. }
        rewrite NO. unfold image. rewrite EN. unfold step in ES. destruct b.
        * specialize (B5 ltac:(lia)). specialize (C4 QD). replace (at_ (glob p c) d <? 0) with false by lia.
          rewrite (PTEQ (at_ (glob p c) d - at_ N d)) by lia. reflexivity.
        * specialize (B4 ltac:(lia)). specialize (C5 QD). replace (at_ (glob p c) d <? 0) with true by lia.
          rewrite (PTEQ (at_ (glob p c) d + at_ N d)) by lia. reflexivity.
    - (* no neighbour *)
      rewrite nbr_spec in EN by auto.
      destruct ((0 <=? at_ p d + step b) && (at_ p d + step b <? at_ dims d)) eqn:ES; [discriminate|]. destruct (per d) eqn:EP; [discriminate|].
      assert (NO : outb N d (glob p c) = true).
      { unfold outb. rewrite GD. unfold step in ES. destruct b; [specialize (B5 ltac:(lia))|specialize (B4 ltac:(lia))]; lia. }
      rewrite NO. unfold image. rewrite EP. ring.
  Qed.

  Notation pack_slot := (pack_slot dims per).
  Definition sendvals (q : pt) (s : slot) : list K :=
    if act (fst s) then map (fun b => g (addp (st q) b)) (box (send_lo (sz q) (pack_slot s)) (send_hi (sz q) (pack_slot s))) else [].
  Definition recvvals (p : pt) (r : slot) : list K :=
    if act (fst r) then map (rcv p r) (box (recv_lo (sz p) r) (recv_hi (sz p) r)) else [].

  Lemma flat_map_filter {A B} (f : A -> list B) c l : flat_map f (filter c l) = flat_map (fun a => if c a then f a else []) l.
  Proof. induction l as [|a l IH]; [reflexivity|]. cbn. destruct (c a); cbn; rewrite IH; reflexivity. Qed.
  Lemma sz_nonneg q : okp q -> forall d, (d < 3)%nat -> 0 <= at_ (sz q) d.
  Proof. intros Hq d Hd. pose proof (pt_facts q d Hd Hq). lia. Qed.
  Lemma pack_slot_fst s : fst (pack_slot s) = fst s.
  Proof. unfold Halo.pack_slot, opp. destruct (_ && _); reflexivity. Qed.
  Lemma send_len q s : okp q -> (fst s < 3)%nat -> act (fst s) = true ->
    Z.of_nat (length (box (send_lo (sz q) s) (send_hi (sz q) s))) = count (sz q) s.
  Proof.
    intros Hq Hs A. pose proof (sz_nonneg q Hq) as NN. pose proof (pt_facts q (fst s) Hs Hq) as [_ [_ [_ G]]]. specialize (G A).
    rewrite box_len.
    - unfold Halo.send_lo, Halo.send_hi, Halo.count. rewrite A. destruct s as [d b]. cbn [fst snd] in *.
      rewrite !at_vec by lia. destruct d as [|[|[|]]]; try lia; destruct b; cbn [Nat.eqb andb negb]; ring.
    - intros e He. unfold Halo.send_lo, Halo.send_hi. rewrite !at_vec by exact He. pose proof (NN e He). destruct s as [d b]. cbn [fst snd] in *.
      destruct (Nat.eqb e d) eqn:E; cbn [andb]; [|lia]. apply Nat.eqb_eq in E. subst e. destruct b; cbn [negb]; lia.
  Qed.
  Lemma recv_len q s : okp q -> (fst s < 3)%nat -> act (fst s) = true ->
    Z.of_nat (length (box (recv_lo (sz q) s) (recv_hi (sz q) s))) = count (sz q) s.
  Proof.
    intros Hq Hs A. pose proof (sz_nonneg q Hq) as NN.
    assert (W : w (fst s) = F) by (unfold Halo.w; rewrite A; reflexivity).
    rewrite box_len.
    - unfold Halo.recv_lo, Halo.recv_hi, Halo.count. rewrite A. destruct s as [d b]. cbn [fst snd] in *.
      rewrite !at_vec by lia. destruct d as [|[|[|]]]; try lia; destruct b; cbn [Nat.eqb]; rewrite ?W; ring.
    - intros e He. unfold Halo.recv_lo, Halo.recv_hi. rewrite !at_vec by exact He. pose proof (NN e He). destruct s as [d b]. cbn [fst snd] in *.
      destruct (Nat.eqb e d) eqn:E; [|lia]. apply Nat.eqb_eq in E. subst e. destruct b; lia.
  Qed.
  Lemma count_opp n s : count n (opp s) = count n s.
  Proof. reflexivity. Qed.
  Lemma count_fst n s s' : fst s = fst s' -> count n s = count n s'.
  Proof. intros H. unfold Halo.count. rewrite H. reflexivity. Qed.
  Lemma sendvals_len q s : okp q -> In s slots -> Z.of_nat (length (sendvals q s)) = count (sz q) s.
  Proof.
    intros Hq Hs. apply slots_cases in Hs. unfold sendvals. destruct (act (fst s)) eqn:A.
    - rewrite map_length, send_len; auto; rewrite ?pack_slot_fst; auto. apply count_fst. apply pack_slot_fst.
    - unfold Halo.count. rewrite A. reflexivity.
  Qed.
  Lemma recvvals_len q s : okp q -> In s slots -> Z.of_nat (length (recvvals q s)) = count (sz q) s.
  Proof.
    intros Hq Hs. apply slots_cases in Hs. unfold recvvals. destruct (act (fst s)) eqn:A.
    - rewrite map_length, recv_len; auto.
    - unfold Halo.count. rewrite A. reflexivity.
  Qed.
  Lemma csum_buf n : csum act F slots n = nd_buf F act n.
  Proof. unfold csum, slots, Halo.count, nd_buf. cbn [fold_right fst]. destruct (act 0%nat), (act 1%nat), (act 2%nat); ring. Qed.

  Lemma rdx_ok q b : okp q -> inblk (sz q) b -> rdx K (sz q) (x q) (lin (sz q) b) = Ok (g (addp (st q) b)).
  Proof.
    intros Hq Hb. unfold rdx. pose proof (lin_bound _ _ Hb). replace ((0 <=? lin (sz q) b) && (lin (sz q) b <? nd (sz q))) with true by lia.
    rewrite Hx by assumption. reflexivity.
  Qed.
  Lemma send_in q s b : okp q -> (fst s < 3)%nat -> act (fst s) = true -> In b (box (send_lo (sz q) s) (send_hi (sz q) s)) -> inblk (sz q) b.
  Proof.
    intros Hq Hs A Hb d Hd. rewrite box_in in Hb. specialize (Hb d Hd). unfold Halo.send_lo, Halo.send_hi in Hb. rewrite !at_vec in Hb by exact Hd.
    destruct s as [e t]. cbn [fst snd] in *. destruct (Nat.eqb d e) eqn:E; cbn [andb] in Hb; [|exact Hb].
    apply Nat.eqb_eq in E. subst e. pose proof (pt_facts q d Hd Hq) as [_ [_ [_ G]]]. specialize (G A). destruct t; cbn [negb] in Hb; lia.
  Qed.
  Lemma pack_ok q : okp q -> pack K dims per F act (sz q) (x q) = Ok (flat_map (sendvals q) slots).
  Proof.
    intros Hq. unfold pack.
    rewrite (omap_ok _ (fun b => g (addp (st q) b))).
    2:{ intros b Hb. apply in_flat_map in Hb as [s [Hs Hb]]. apply filter_In in Hs as [Hs A]. apply slots_cases in Hs.
        apply rdx_ok; [exact Hq|]. apply (send_in q (pack_slot s)); rewrite ?pack_slot_fst; auto. }
    cbn [obind]. unfold act_slots. rewrite flat_map_filter, map_flat_map.
    rewrite (flat_map_ext_in _ (sendvals q)).
    2:{ intros s _. unfold sendvals. destruct (act (fst s)); reflexivity. }
    rewrite (csum_len K act F (sendvals q) (sz q)) by (intros; apply sendvals_len; auto). rewrite csum_buf, Z.leb_refl. reflexivity.
  Qed.

  Lemma message_ok p r : okp p -> In r slots ->
    message K dims per N F act msel x p r = Ok (match nbr p r with None => None | Some _ => Some (recvvals p r) end).
  Proof.
    intros Hp Hr. unfold message. destruct (nbr p r) as [q|] eqn:EN; [|reflexivity].
    assert (Hq : okp q) by (apply (nbr_ok dims per Hdims p r q); assumption).
    pose proof Hr as Hr'. apply slots_cases in Hr'. destruct r as [d b]. cbn [fst] in Hr'.
    destruct (match_ok dims per Hdims p d b q Hr' Hp EN) as [s [E1 [E2 E3]]]. rewrite E1.
    assert (Hs : In s slots) by (apply slots_cases; rewrite E2; exact Hr').
    rewrite pack_ok by exact Hq. cbn [obind]. rewrite (slice_seg K act F (sendvals q) (sz q) s Hs) by (intros; apply sendvals_len; auto). cbn [obind].
    assert (E : sendvals q s = recvvals p (d, b)).
    { unfold sendvals, recvvals. rewrite E2, E3. cbn [fst]. destruct (act d) eqn:A; [|reflexivity].
      assert (W : w d = F) by (unfold Halo.w; rewrite A; reflexivity).
      rewrite (box_same (recv_lo (sz p) (d, b)) (recv_hi (sz p) (d, b))).
      - rewrite map_map. apply map_ext. intros c. unfold rcv. rewrite EN. reflexivity.
      - intros e He. unfold Halo.recv_lo, Halo.recv_hi, Halo.send_lo, Halo.send_hi. rewrite !at_vec by exact He. cbn [fst snd].
        destruct (Nat.eqb e d) eqn:Ed; cbn [andb].
        + apply Nat.eqb_eq in Ed. subst e. rewrite W. destruct b; cbn [negb]; lia.
        + apply nbr_some in EN as [-> _]; auto. rewrite !sz_at by exact He. rewrite at_set, Ed by assumption. lia. }
    rewrite E. rewrite recvvals_len by auto. rewrite Z.eqb_refl. reflexivity.
  Qed.

  Lemma receive_ok p : okp p -> forall l pre, slots = pre ++ l ->
    receive K dims per N F act msel x p l (flat_map (recvvals p) pre ++ repeat k0 (Z.to_nat (csum act F l (sz p)))) = Ok (flat_map (recvvals p) slots).
  Proof.
    intros Hp. induction l as [|r l IH]; intros pre E.
    - change (Z.to_nat (csum act F [] (sz p))) with O. cbn [repeat receive]. rewrite !app_nil_r in *. rewrite E. reflexivity.
    - assert (Hr : In r slots) by (rewrite E; apply in_or_app; right; left; reflexivity).
      assert (Hin : forall s, In s slots -> Z.of_nat (length (recvvals p s)) = count (sz p) s) by (intros; apply recvvals_len; auto).
      assert (Cnn : 0 <= count (sz p) r) by (rewrite <- (Hin r Hr); lia).
      assert (Lnn : 0 <= csum act F l (sz p)).
      { rewrite <- (csum_len K act F (recvvals p) (sz p)); [lia|]. intros s Hs. apply Hin. rewrite E. apply in_or_app. right. right. exact Hs. }
      assert (Pre : Z.of_nat (length (flat_map (recvvals p) pre)) = csum act F pre (sz p)).
      { apply csum_len. intros s Hs. apply Hin. rewrite E. apply in_or_app. left. exact Hs. }
      cbn [csum fold_right]. fold (csum act F l (sz p)). rewrite Z2Nat.inj_add by assumption.
      rewrite repeat_app. cbn [receive]. rewrite message_ok by assumption. cbn [obind].
      assert (E' : slots = (pre ++ [r]) ++ l) by (rewrite <- app_assoc; exact E).
      specialize (IH (pre ++ [r]) E'). rewrite flat_map_app in IH. cbn [flat_map] in IH. rewrite app_nil_r, <- app_assoc in IH.
      destruct (nbr p r) as [q|] eqn:EN.
      + assert (ND : ~ In r pre). { pose proof slots_nodup as ND. rewrite E in ND. apply NoDup_remove_2 in ND. intros X. apply ND. apply in_or_app. left. exact X. }
        unfold displ. rewrite E at 1. rewrite displ_pre by exact ND. rewrite <- Pre.
        assert (LR : length (recvvals p r) = Z.to_nat (count (sz p) r)) by (pose proof (Hin r Hr); lia).
        unfold place. rewrite !app_length, !repeat_length.
        match goal with |- context [if ?c then _ else _] => replace c with true by lia end. cbn [obind].
        rewrite !Nat2Z.id. rewrite firstn_app, firstn_all, Nat.sub_diag. cbn [firstn]. rewrite app_nil_r.
        rewrite skipn_app. rewrite skipn_all2 by lia. rewrite skipn_app, skipn_all2 by (rewrite repeat_length; lia).
        rewrite repeat_length. cbn [app].
        replace (length (flat_map (recvvals p) pre) + length (recvvals p r) - length (flat_map (recvvals p) pre) - Z.to_nat (count (sz p) r))%nat with 0%nat by lia.
        cbn [skipn]. exact IH.
      + cbn [obind]. replace (repeat k0 (Z.to_nat (count (sz p) r))) with (recvvals p r); [exact IH|].
        pose proof (Hin r Hr) as LR. unfold recvvals in *. destruct (act (fst r)) eqn:A.
        * rewrite <- LR, map_length, Nat2Z.id. generalize (box (recv_lo (sz p) r) (recv_hi (sz p) r)) as l0. intros l0.
          clear - EN. induction l0 as [|c l0 IH]; [reflexivity|]. cbn [map length repeat]. rewrite <- IH. unfold rcv at 1. rewrite EN. reflexivity.
        * unfold Halo.count. rewrite A. reflexivity.
  Qed.

  Definition targets (p : pt) : list (slot * pt) :=
    flat_map (fun s => map (fun q => (s, q)) (box (recv_lo (sz p) s) (recv_hi (sz p) s))) (act_slots act).
  Lemma halo_recv_ok p : okp p ->
    halo_recv K k0 kmul dims per N F act ph blk msel x p = Ok (map (fun z => (lin (szx p) (snd z), gx (glob p (snd z)))) (targets p)).
  Proof.
    intros Hp. unfold halo_recv. cbv zeta. rewrite <- csum_buf.
    pose proof (receive_ok p Hp slots [] eq_refl) as R. cbn [flat_map app] in R. rewrite R. clear R. cbn [obind]. fold (targets p).
    assert (E : flat_map (recvvals p) slots = map (fun z => rcv p (fst z) (snd z)) (targets p)).
    { unfold targets, act_slots. rewrite map_flat_map, flat_map_filter. apply flat_map_ext_in. intros s _. unfold recvvals.
      destruct (act (fst s)); [|reflexivity]. rewrite map_map. reflexivity. }
    rewrite E, map_length, Z.leb_refl. rewrite combine_map, map_map. f_equal. apply map_ext_in. intros [[d b] c] Hz. cbn [fst snd]. f_equal.
    unfold targets in Hz. apply in_flat_map in Hz as [s [Hs Hz]]. apply in_map_iff in Hz as [c' [Ez Hc]]. injection Ez as -> ->.
    apply filter_In in Hs as [Hs A]. apply slots_cases in Hs. cbn [fst] in *. apply phased_ok; assumption.
  Qed.

  Lemma omap_concat {A B} (f : A -> outcome (list B)) (h : A -> list B) l : (forall a, In a l -> f a = Ok (h a)) ->
    (do ls <- omap f l ; Ok (concat ls)) = Ok (flat_map h l).
  Proof. intros H. rewrite (omap_ok f h l H). cbn [obind]. rewrite <- flat_map_concat_map. reflexivity. Qed.
  Lemma halo_self_ok p : okp p -> nproc dims = 1 ->
    halo_self K k0 kmul dims per N F act ph blk x p = Ok (map (fun z => (lin (szx p) (snd z), gx (glob p (snd z)))) (targets p)).
  Proof.
    intros Hp H1.
    assert (D1 : forall d, (d < 3)%nat -> at_ dims d = 1).
    { intros d Hd. unfold nproc in H1. pose proof (Hdims 0 ltac:(lia)). pose proof (Hdims 1 ltac:(lia)). pose proof (Hdims 2 ltac:(lia)).
      assert (at_ dims 0 * at_ dims 1 * at_ dims 2 >= at_ dims 0 * at_ dims 1) by nia.
      assert (at_ dims 0 * at_ dims 1 >= at_ dims 0) by nia. assert (at_ dims 0 * at_ dims 1 >= at_ dims 1) by nia. assert (at_ dims 0 * at_ dims 1 * at_ dims 2 >= at_ dims 2) by nia.
      destruct d as [|[|[|]]]; lia. }
    assert (SELF : forall d b, (d < 3)%nat -> nbr p (d, b) = if per d then Some p else None).
    { intros d b Hd. rewrite nbr_spec by auto. pose proof (D1 d Hd). pose proof (Hp d Hd). unfold step.
      destruct b; match goal with |- context [if ?x && ?y then _ else _] => replace (x && y) with false by lia end;
      (destruct (per d); [|reflexivity]); f_equal; rewrite <- (set_at p d Hd) at 2; f_equal; lia. }
    unfold halo_self. cbv zeta.
    rewrite (omap_concat _ (fun s => map (fun q => (lin (szx p) q, gx (glob p q))) (box (recv_lo (sz p) s) (recv_hi (sz p) s)))).
    - f_equal. unfold targets. rewrite map_flat_map. apply flat_map_ext. intros s. rewrite map_map. reflexivity.
    - intros [d b] Hs. apply filter_In in Hs as [Hs A]. apply slots_cases in Hs. cbn [fst] in *.
      assert (V : forall c, In c (box (recv_lo (sz p) (d, b)) (recv_hi (sz p) (d, b))) -> phased K kmul dims N F act ph blk p (d, b) c (rcv p (d, b) c) = gx (glob p c)) by (intros; apply phased_ok; assumption).
      unfold rcv in V. rewrite (SELF d b Hs) in V. destruct (per d) eqn:EP.
      + rewrite (omap_ok _ (fun c => g (addp (st p) c))).
        2:{ intros c Hc. apply rdx_ok; [exact Hp|]. apply (send_in p (opp (d, b))); auto. }
        cbn [obind]. f_equal.
        assert (W : w d = F) by (unfold Halo.w; rewrite A; reflexivity).
        rewrite (box_same (recv_lo (sz p) (d, b)) (recv_hi (sz p) (d, b)) (send_lo (sz p) (opp (d, b))) (send_hi (sz p) (opp (d, b)))).
        * rewrite map_map, combine_map, map_map. apply map_ext_in. intros c Hc. cbn [fst snd]. rewrite <- (V c Hc). reflexivity.
        * intros e He. unfold Halo.recv_lo, Halo.recv_hi, Halo.send_lo, Halo.send_hi, opp. rewrite !at_vec by exact He. cbn [fst snd].
          destruct (Nat.eqb e d) eqn:Ed; cbn [andb]; [|lia]. apply Nat.eqb_eq in Ed. subst e. rewrite W. destruct b; cbn [negb]; lia.
      + f_equal. apply map_ext_in. intros c Hc. rewrite <- (V c Hc). unfold phased. f_equal.
        destruct (is_grid_outside _ _ _ _ _ _ _ _ _ _); [ring|reflexivity].
  Qed.

  (** ** x_ex *)
  Definition needed (p b : pt) : Prop :=
    (exists d, (d < 3)%nat /\ act d = true /\ 0 <= at_ b d < at_ (szx p) d /\ forall e, (e < 3)%nat -> e <> d -> w e <= at_ b e < at_ (sz p) e + w e) \/
    (forall e, (e < 3)%nat -> w e <= at_ b e < at_ (sz p) e + w e).
  Lemma w_nonneg d : 0 <= w d.
  Proof. unfold Halo.w. destruct (act d); lia. Qed.
  Lemma szx_at p d : (d < 3)%nat -> at_ (szx p) d = at_ (sz p) d + 2 * w d.
  Proof. intros H. unfold Halo.szx. rewrite at_vec by exact H. reflexivity. Qed.
  Lemma target_in p z : In z (targets p) -> inblk (szx p) (snd z).
  Proof.
    intros Hz. unfold targets in Hz. apply in_flat_map in Hz as [[d b] [Hs Hz]]. apply in_map_iff in Hz as [c [<- Hc]]. cbn [snd].
    apply filter_In in Hs as [Hs A]. apply slots_cases in Hs. cbn [fst] in *. intros e He. rewrite szx_at by exact He.
    pose proof (recv_in _ _ _ e He Hc) as R. cbn [fst snd] in R. pose proof (w_nonneg e). rewrite box_in in Hc. specialize (Hc e He).
    unfold Halo.recv_lo, Halo.recv_hi in Hc. rewrite !at_vec in Hc by exact He. cbn [fst snd] in *.
    destruct (Nat.eqb e d) eqn:Ed; [|lia]. apply Nat.eqb_eq in Ed. subst e. destruct b; [|].
    - assert (0 <= at_ (sz p) d); [|lia]. unfold Halo.sz. rewrite at_vec by exact He. apply bd_nonneg; [apply HN; exact He|]. pose proof (Hdims d He). lia.
    - assert (0 <= at_ (sz p) d); [|lia]. unfold Halo.sz. rewrite at_vec by exact He. apply bd_nonneg; [apply HN; exact He|]. pose proof (Hdims d He). lia.
  Qed.
  Lemma inner_gx p b : okp p -> (forall e, (e < 3)%nat -> w e <= at_ b e < at_ (sz p) e + w e) -> gx (glob p b) = g (glob p b).
  Proof.
    intros Hp Hb. assert (O : forall e, (e < 3)%nat -> outb N e (glob p b) = false).
    { intros e He. unfold outb, glob. rewrite at_vec by exact He. pose proof (Hb e He). pose proof (pt_facts p e He Hp). lia. }
    unfold P_Halo.gx. rewrite !O by lia. reflexivity.
  Qed.
  Theorem extend_ok p : okp p -> exists m, extend K k0 kmul dims per N F act ph blk msel x p = Ok m /\
    forall b, needed p b -> inblk (szx p) b /\ m (lin (szx p) b) = Some (gx (glob p b)).
  Proof.
    intros Hp. unfold extend. cbv zeta.
    set (inner := box (vec w) (vec (fun d => at_ (sz p) d + w d))).
    pose proof (sz_nonneg p Hp) as NN.
    assert (EI : inner = map (fun q => vec (fun d => at_ q d - 0 + w d)) (box (vec (fun _ => 0)) (sz p))).
    { unfold inner. rewrite (box_same (vec (fun _ => 0)) (sz p)).
      - apply map_ext. intros q. apply pt_ext. intros d Hd. rewrite !at_vec by exact Hd. reflexivity.
      - intros d Hd. rewrite !at_vec by exact Hd. lia. }
    assert (LI : length inner = Z.to_nat (nd (sz p))).
    { rewrite EI, map_length. rewrite <- (map_length (lin (sz p))), lin_box by exact NN. unfold zrange. rewrite map_length, seq_length. reflexivity. }
    rewrite LI, <- (lin_box (sz p) NN).
    rewrite (omap_ok _ (x p)).
    2:{ intros a Ha. apply in_map_iff in Ha as [c [<- Hc]]. unfold rdx. rewrite box_in in Hc.
        assert (Ic : inblk (sz p) c) by (intros d Hd; specialize (Hc d Hd); rewrite at_vec in Hc by exact Hd; exact Hc).
        pose proof (lin_bound _ _ Ic). replace ((0 <=? lin (sz p) c) && (lin (sz p) c <? nd (sz p))) with true by lia. reflexivity. }
    cbn [obind]. rewrite map_map. rewrite EI, map_map.
    assert (CM : forall (A B C : Type) (f1 : A -> B) (f2 : A -> C) l, combine (map f1 l) (map f2 l) = map (fun a => (f1 a, f2 a)) l) by (intros A B C f1 f2 l; induction l as [|a l IH]; [reflexivity|cbn; rewrite IH; reflexivity]).
    rewrite CM.
    destruct (wr_all_fun K (nd (szx p)) (fun a => gx (glob p (unlin (szx p) a)))
      (map (fun q => (lin (szx p) (vec (fun d => at_ q d - 0 + w d)), x p (lin (sz p) q))) (box (vec (fun _ => 0)) (sz p))) (fun _ => None)) as [m1 [E1 M1]].
    { intros a v Hav. apply in_map_iff in Hav as [c [Ec Hc]]. injection Ec as <- <-. rewrite box_in in Hc.
      assert (Ic : inblk (sz p) c) by (intros d Hd; specialize (Hc d Hd); rewrite at_vec in Hc by exact Hd; exact Hc).
      assert (Iw : inblk (szx p) (vec (fun d => at_ c d - 0 + w d))).
      { intros d Hd. rewrite at_vec, szx_at by exact Hd. pose proof (Ic d Hd). pose proof (w_nonneg d). lia. }
      split; [apply lin_bound; exact Iw|]. rewrite unlin_lin by exact Iw. rewrite Hx by assumption. rewrite inner_gx.
      - f_equal. apply pt_ext. intros d Hd. unfold addp, glob. rewrite !at_vec by exact Hd. lia.
      - exact Hp.
      - intros d Hd. rewrite at_vec by exact Hd. pose proof (Ic d Hd). lia. }
    rewrite E1. cbn [obind].
    assert (EH : (if 1 <? nproc dims then halo_recv K k0 kmul dims per N F act ph blk msel x p else halo_self K k0 kmul dims per N F act ph blk x p) =
      Ok (map (fun z => (lin (szx p) (snd z), gx (glob p (snd z)))) (targets p))).
    { destruct (1 <? nproc dims) eqn:EN; [apply halo_recv_ok; exact Hp|]. apply halo_self_ok; [exact Hp|].
      assert (1 <= nproc dims); [|lia]. unfold nproc. pose proof (Hdims 0 ltac:(lia)). pose proof (Hdims 1 ltac:(lia)). pose proof (Hdims 2 ltac:(lia)). nia. }
    rewrite EH. cbn [obind].
    destruct (wr_all_fun K (nd (szx p)) (fun a => gx (glob p (unlin (szx p) a))) (map (fun z => (lin (szx p) (snd z), gx (glob p (snd z)))) (targets p)) m1) as [m2 [E2 M2]].
    { intros a v Hav. apply in_map_iff in Hav as [z [Ez Hz]]. injection Ez as <- <-. pose proof (target_in p z Hz) as I. split; [apply lin_bound; exact I|]. rewrite unlin_lin by exact I. reflexivity. }
    exists m2. split; [exact E2|]. intros b Hb.
    assert (Ib : inblk (szx p) b).
    { intros d Hd. rewrite szx_at by exact Hd. pose proof (w_nonneg d). destruct Hb as [[e [He [A [H1 H2]]]]|H2].
      - destruct (Nat.eq_dec d e) as [->|Ne]; [rewrite szx_at in H1 by exact He; lia|]. specialize (H2 d Hd Ne). lia.
      - specialize (H2 d Hd). lia. }
    split; [exact Ib|]. destruct (M2 (lin (szx p) b)) as [F1 F2]. rewrite unlin_lin in F1, F2 by exact Ib.
    assert (INN : (forall e, (e < 3)%nat -> w e <= at_ b e < at_ (sz p) e + w e) -> m2 (lin (szx p) b) = Some (gx (glob p b))).
    { intros H. apply F2. destruct (M1 (lin (szx p) b)) as [G1 _]. rewrite unlin_lin in G1 by exact Ib. apply G1. rewrite map_map. cbn [fst].
      apply in_map_iff. exists (vec (fun d => at_ b d - w d)). split.
      - f_equal. apply pt_ext. intros d Hd. rewrite !at_vec by exact Hd. lia.
      - apply box_in. intros d Hd. rewrite !at_vec by exact Hd. pose proof (H d Hd). lia. }
    destruct Hb as [[d [Hd [A [H1 H2]]]]|H2]; [|apply INN; exact H2].
    destruct (Z_lt_dec (at_ b d) (w d)) as [L|L]; [|destruct (Z_lt_dec (at_ b d) (at_ (sz p) d + w d)) as [L2|L2]].
    3:{ apply F1. rewrite map_map. apply in_map_iff. exists ((d, true), b). split; [reflexivity|]. unfold targets. apply in_flat_map. exists (d, true). split.
        - apply filter_In. split; [apply slots_cases; exact Hd|exact A].
        - apply in_map_iff. exists b. split; [reflexivity|]. apply box_in. intros e He. unfold Halo.recv_lo, Halo.recv_hi. rewrite !at_vec by exact He. cbn [fst snd].
          destruct (Nat.eqb e d) eqn:Ed; [apply Nat.eqb_eq in Ed; subst e; rewrite szx_at in H1 by exact Hd; lia|]. apply Nat.eqb_neq in Ed. apply H2; assumption. }
    - apply F1. rewrite map_map. apply in_map_iff. exists ((d, false), b). split; [reflexivity|]. unfold targets. apply in_flat_map. exists (d, false). split.
      + apply filter_In. split; [apply slots_cases; exact Hd|exact A].
      + apply in_map_iff. exists b. split; [reflexivity|]. apply box_in. intros e He. unfold Halo.recv_lo, Halo.recv_hi. rewrite !at_vec by exact He. cbn [fst snd].
        destruct (Nat.eqb e d) eqn:Ed; [apply Nat.eqb_eq in Ed; subst e; lia|]. apply Nat.eqb_neq in Ed. apply H2; assumption.
    - apply INN. intros e He. destruct (Nat.eq_dec e d) as [->|Ne]; [lia|apply H2; assumption].
  Qed.

  (** reads of x_ex around a point of the block *)
  Definition shiftd (ex : pt) (d : nat) : Z := match d with O => 1 | S O => at_ ex 0 | _ => at_ ex 0 * at_ ex 1 end.
  Lemma lin_move ex b d r : (d < 3)%nat -> lin ex (move b d r) = lin ex b + r * shiftd ex d.
  Proof.
    intros Hd. unfold lin, move, shiftd. rewrite !at_set by lia. destruct d as [|[|[|]]]; try lia; cbn [Nat.eqb]; ring.
  Qed.
  Lemma rd_move p m q d r : okp p -> (forall b, needed p b -> inblk (szx p) b /\ m (lin (szx p) b) = Some (gx (glob p b))) ->
    inblk (sz p) q -> (d < 3)%nat -> act d = true -> - F <= r <= F ->
    rd K (nd (szx p)) m (lin (szx p) (vec (fun d => at_ q d + w d)) + r * shiftd (szx p) d) = Ok (gx (move (addp (st p) q) d r)).
  Proof.
    intros Hp M Hq Hd A Hr. rewrite <- lin_move by exact Hd. set (b := vec (fun d => at_ q d + w d)).
    assert (W : w d = F) by (unfold Halo.w; rewrite A; reflexivity).
    assert (AB : forall e, (e < 3)%nat -> at_ b e = at_ q e + w e) by (intros e He; unfold b; apply at_vec; exact He).
    destruct (M (move b d r)) as [I V].
    { left. exists d. split; [exact Hd|]. split; [exact A|]. split.
      - unfold move. rewrite at_set, Nat.eqb_refl, AB, szx_at, W by exact Hd. pose proof (Hq d Hd). lia.
      - intros e He Ne. unfold move. rewrite at_set by assumption. replace (Nat.eqb e d) with false by (symmetry; apply Nat.eqb_neq; exact Ne).
        rewrite AB by exact He. pose proof (Hq e He). lia. }
    unfold rd. pose proof (lin_bound _ _ I). replace ((0 <=? lin (szx p) (move b d r)) && (lin (szx p) (move b d r) <? nd (szx p))) with true by lia.
    rewrite V. f_equal. f_equal. apply pt_ext. intros e He. unfold glob. rewrite at_vec by exact He. unfold move. rewrite !at_set by assumption.
    unfold addp. destruct (Nat.eqb e d) eqn:E.
    - apply Nat.eqb_eq in E. subst e. rewrite at_vec, AB by exact Hd. lia.
    - rewrite at_vec, AB by exact He. lia.
  Qed.
  Lemma rd_centre p m q : okp p -> (forall b, needed p b -> inblk (szx p) b /\ m (lin (szx p) b) = Some (gx (glob p b))) ->
    inblk (sz p) q -> rd K (nd (szx p)) m (lin (szx p) (vec (fun d => at_ q d + w d))) = Ok (g (addp (st p) q)).
  Proof.
    intros Hp M Hq. set (b := vec (fun d => at_ q d + w d)).
    assert (AB : forall e, (e < 3)%nat -> at_ b e = at_ q e + w e) by (intros e He; unfold b; apply at_vec; exact He).
    assert (IN : forall e, (e < 3)%nat -> w e <= at_ b e < at_ (sz p) e + w e).
    { intros e He. rewrite AB by exact He. pose proof (Hq e He). lia. }
    destruct (M b) as [I V]; [right; exact IN|].
    unfold rd. pose proof (lin_bound _ _ I). replace ((0 <=? lin (szx p) b) && (lin (szx p) b <? nd (szx p))) with true by lia.
    rewrite V. f_equal. rewrite inner_gx by assumption. f_equal. apply pt_ext. intros e He. unfold glob, addp. rewrite !at_vec, AB by exact He. lia.
  Qed.
End Ext.

(** ** C55 *)
Section C55.
  Variable K : Type.
  Variables (k0 k1 : K) (kadd kmul ksub : K -> K -> K) (kopp : K -> K).
  Hypothesis KR : ring_theory k0 k1 kadd kmul ksub kopp eq.
  Add Ring KRing2 : KR.
  Variables (dims : pt) (per : nat -> bool) (N : pt) (F : Z) (ph : slot -> K) (blk : bool).
  Hypothesis Hdims : forall d, (d < 3)%nat -> 1 <= at_ dims d.
  Hypothesis HF : 1 <= F.
  Variable g : pt -> K.
  Notation sz := (sz dims N).
  Notation st := (st dims N).
  Notation ksum := (ksum K k0 kadd).

  Lemma ksum_add f h n : ksum (fun i => kadd (f i) (h i)) n = kadd (ksum f n) (ksum h n).
  Proof. induction n as [|n IH]; cbn [P_Halo.ksum]; [|rewrite IH]; ring. Qed.
  Lemma ksum_scale a f n : ksum (fun i => kmul a (f i)) n = kmul a (ksum f n).
  Proof. induction n as [|n IH]; cbn [P_Halo.ksum]; [|rewrite IH]; ring. Qed.

  (** every point of the global grid belongs to the block of a process *)
  Theorem C55_cover : forall G, inblk N G -> exists p q, okp dims p /\ inblk (sz p) q /\ addp (st p) q = G.
  Proof.
    intros G HG.
    assert (E : forall d, (d < 3)%nat -> exists c, 0 <= c < at_ dims d /\ block_decompose_nstart (at_ N d) (at_ dims d) c <= at_ G d < block_decompose_nstart (at_ N d) (at_ dims d) c + block_decompose (at_ N d) (at_ dims d) c).
    { intros d Hd. destruct (bd_rank_ok (at_ N d) (at_ dims d) (at_ G d) ltac:(pose proof (Hdims d Hd); lia) (HG d Hd)) as [c [_ H]]. exists c. exact H. }
    destruct (E 0%nat ltac:(lia)) as [c0 [A0 B0]]. destruct (E 1%nat ltac:(lia)) as [c1 [A1 B1]]. destruct (E 2%nat ltac:(lia)) as [c2 [A2 B2]].
    exists (c0, c1, c2), (vec (fun d => at_ G d - at_ (st (c0, c1, c2)) d)). repeat split.
    - destruct d as [|[|[|]]]; cbn [at_]; lia.
    - destruct d as [|[|[|]]]; cbn [at_]; lia.
    - unfold Halo.st, Halo.std. rewrite !at_vec by assumption. destruct d as [|[|[|]]]; cbn [at_] in *; try lia.
    - unfold Halo.sz, Halo.st, Halo.std, Halo.szd. rewrite !at_vec by assumption. destruct d as [|[|[|]]]; cbn [at_] in *; try lia.
    - apply pt_ext. intros d Hd. unfold addp. rewrite !at_vec by assumption. lia.
  Qed.

  (** The Laplacian (orthogonal cell; real version with ph = 1, k-point version
      with the Bloch phases): if the block of every process is at least FDn wide
      in every direction and each process holds its block of g, then the routine
      succeeds on every process and returns the block of
      (a Lap + b diag(v) + c) g. *)
  Theorem C55_laplacian :
    forall (D2 : nat -> Z -> K) (useb : bool) (a b c : K) (v x : pt -> Z -> K) (vg : pt -> K) (p : pt),
    (forall d, (d < 3)%nat -> F * at_ dims d <= at_ N d) ->
    holds K dims N g x -> (useb = true -> holds K dims N vg v) -> okp dims p ->
    exists y, lap_mult K k0 kadd kmul dims per N F (fun _ => true) ph blk (match_slot dims per) D2 useb a b c v x p = Ok y /\
      forall q, inblk (sz p) q ->
        y (lin (sz p) q) = Some (lap_spec K k0 kadd kmul per N ph g D2 F a (if useb then b else k0) c vg (addp (st p) q)).
  Proof.
    intros D2 useb a b c v x vg p HNF Hx Hv Hp.
    assert (HN : forall d, (d < 3)%nat -> 0 <= at_ N d) by (intros d Hd; pose proof (HNF d Hd); pose proof (Hdims d Hd); nia).
    destruct (extend_ok K k0 k1 kadd kmul ksub kopp KR dims per N F (fun _ => true) ph blk Hdims HF HN (fun d Hd _ => HNF d Hd) g x Hx p Hp) as [m [E M]].
    unfold lap_mult. cbv zeta. rewrite E. cbn [obind]. clear E.
    destruct (sweep_fun K (sz p) (lap_point K kadd kmul F (fun _ => true) D2 (szx dims N F (fun _ => true) p) m (sz p) a (if useb then b else k0) c (if useb then v p else x p))
      (fun q => lap_spec K k0 kadd kmul per N ph g D2 F a (if useb then b else k0) c vg (addp (st p) q)) (box (vec (fun _ => 0)) (sz p)) (fun _ => None)) as [y [Y1 Y2]].
    - intros q Hq.
      assert (Iq : inblk (sz p) q) by (rewrite box_in in Hq; intros d Hd; specialize (Hq d Hd); rewrite at_vec in Hq by exact Hd; exact Hq).
      split; [exact Iq|]. unfold lap_point. cbv zeta.
      rewrite (rd_centre K k0 kmul dims per N F (fun _ => true) ph Hdims HN (fun d Hd _ => HNF d Hd) g) by assumption. cbn [obind].
      set (G := addp (st p) q).
      set (gxx := gx K k0 kmul per N ph g).
      rewrite (radius_ok K k0 k1 kadd kmul ksub kopp KR _ (fun r =>
         kadd (kadd (kmul (kadd (gxx (move G 0 (- r))) (gxx (move G 0 r))) (kmul (D2 0%nat r) a))
                    (kmul (kadd (gxx (move G 1 (- r))) (gxx (move G 1 r))) (kmul (D2 1%nat r) a)))
              (kmul (kadd (gxx (move G 2 (- r))) (gxx (move G 2 r))) (kmul (D2 2%nat r) a)))).
      2:{ intros r Hr.
          pose proof (fun d Hd r Hr' => rd_move K k0 kmul dims per N F (fun _ => true) ph Hdims HN (fun d Hd _ => HNF d Hd) g p m q d r Hp M Iq Hd eq_refl Hr') as RD.
          unfold Z.sub.
          rewrite <- !Z.mul_opp_l.
          pose proof (RD 0%nat ltac:(lia) (- r) ltac:(lia)) as R0. pose proof (RD 0%nat ltac:(lia) r ltac:(lia)) as R0'.
          pose proof (RD 1%nat ltac:(lia) (- r) ltac:(lia)) as R1. pose proof (RD 1%nat ltac:(lia) r ltac:(lia)) as R1'.
          pose proof (RD 2%nat ltac:(lia) (- r) ltac:(lia)) as R2. pose proof (RD 2%nat ltac:(lia) r ltac:(lia)) as R2'.
          unfold shiftd in R0, R0', R1, R1', R2, R2'.
          rewrite R0, R0', R1, R1', R2, R2'. reflexivity. }
      cbn [obind]. unfold rdx. pose proof (lin_bound _ _ Iq). replace ((0 <=? lin (sz p) q) && (lin (sz p) q <? nd (sz p))) with true by lia. cbn [obind].
      f_equal. unfold lap_spec. cbv zeta. fold gxx.
      assert (VT : kmul (if useb then b else k0) (kmul ((if useb then v p else x p) (lin (sz p) q)) (g G)) = kmul (if useb then b else k0) (kmul (vg G) (g G))).
      { destruct useb; [|ring]. rewrite (Hv eq_refl p q Hp Iq). reflexivity. }
      rewrite VT. clear VT.
      transitivity (kadd (kadd (kmul (kadd (kadd (kadd (kmul (D2 0%nat 0) a) (kmul (D2 1%nat 0) a)) (kmul (D2 2%nat 0) a)) c) (g G))
        (kadd (kadd (kmul a (ksum (fun r => kmul (D2 0%nat r) (kadd (gxx (move G 0 r)) (gxx (move G 0 (- r))))) (Z.to_nat F)))
                    (kmul a (ksum (fun r => kmul (D2 1%nat r) (kadd (gxx (move G 1 r)) (gxx (move G 1 (- r))))) (Z.to_nat F))))
              (kmul a (ksum (fun r => kmul (D2 2%nat r) (kadd (gxx (move G 2 r)) (gxx (move G 2 (- r))))) (Z.to_nat F)))))
        (kmul (if useb then b else k0) (kmul (vg G) (g G)))); [|ring].
      f_equal. f_equal. rewrite <- !ksum_scale, <- !ksum_add. apply (ksum_ext K k0 kadd). intros i Hi.
      replace (1 - 1 + Z.of_nat i) with (Z.of_nat i) by lia. ring.
    - exists y. split; [exact Y1|]. intros q Iq. apply (proj1 (Y2 q Iq)). apply box_in. intros d Hd. rewrite at_vec by exact Hd. apply Iq. exact Hd.
  Qed.

  (** The gradient in direction dir: only the blocks in that direction need to
      be FDn wide. *)
  Theorem C55_gradient :
    forall (D1 : nat -> Z -> K) (dir : nat) (c : K) (x : pt -> Z -> K) (p : pt),
    (dir < 3)%nat -> F * at_ dims dir <= at_ N dir -> (forall d, (d < 3)%nat -> 0 <= at_ N d) ->
    holds K dims N g x -> okp dims p ->
    exists y, grad_mult K k0 kadd kmul ksub dims per N F (Nat.eqb dir) ph blk (match_slot dims per) D1 dir c x p = Ok y /\
      forall q, inblk (sz p) q ->
        y (lin (sz p) q) = Some (grad_spec K k0 kadd kmul ksub per N ph g D1 F dir c (addp (st p) q)).
  Proof.
    intros D1 dir c x p Hdir HNF HN Hx Hp.
    assert (HNF' : forall d, (d < 3)%nat -> Nat.eqb dir d = true -> F * at_ dims d <= at_ N d) by (intros d Hd A; apply Nat.eqb_eq in A; subst d; exact HNF).
    destruct (extend_ok K k0 k1 kadd kmul ksub kopp KR dims per N F (Nat.eqb dir) ph blk Hdims HF HN HNF' g x Hx p Hp) as [m [E M]].
    unfold grad_mult. rewrite E. cbn [obind]. clear E.
    destruct (sweep_fun K (sz p) (grad_point K kadd kmul ksub F (Nat.eqb dir) D1 dir (szx dims N F (Nat.eqb dir) p) m c)
      (fun q => grad_spec K k0 kadd kmul ksub per N ph g D1 F dir c (addp (st p) q)) (box (vec (fun _ => 0)) (sz p)) (fun _ => None)) as [y [Y1 Y2]].
    - intros q Hq.
      assert (Iq : inblk (sz p) q) by (rewrite box_in in Hq; intros d Hd; specialize (Hq d Hd); rewrite at_vec in Hq by exact Hd; exact Hq).
      split; [exact Iq|]. unfold grad_point. cbv zeta.
      rewrite (rd_centre K k0 kmul dims per N F (Nat.eqb dir) ph Hdims HN HNF' g) by assumption. cbn [obind].
      set (G := addp (st p) q).
      set (gxx := gx K k0 kmul per N ph g).
      rewrite (radius_ok K k0 k1 kadd kmul ksub kopp KR _ (fun r => kmul (ksub (gxx (move G dir r)) (gxx (move G dir (- r)))) (D1 dir r))).
      2:{ intros r Hr.
          pose proof (fun r Hr' => rd_move K k0 kmul dims per N F (Nat.eqb dir) ph Hdims HN HNF' g p m q dir r Hp M Iq Hdir (Nat.eqb_refl dir) Hr') as RD.
          unfold Z.sub. rewrite <- !Z.mul_opp_l.
          pose proof (RD (- r) ltac:(lia)) as R0. pose proof (RD r ltac:(lia)) as R0'. unfold shiftd in R0, R0'. rewrite R0, R0'. reflexivity. }
      f_equal. unfold grad_spec. fold gxx.
      transitivity (kadd (ksum (fun r => kmul (D1 dir r) (ksub (gxx (move G dir r)) (gxx (move G dir (- r))))) (Z.to_nat F)) (kmul (g G) c)); [|ring].
      rewrite (ksum_ext K k0 kadd (fun i => kmul (ksub (gxx (move G dir (1 - 1 + i))) (gxx (move G dir (- (1 - 1 + i))))) (D1 dir (1 - 1 + i))) (fun r => kmul (D1 dir r) (ksub (gxx (move G dir r)) (gxx (move G dir (- r)))))); [ring|].
      intros i Hi. replace (1 - 1 + Z.of_nat i) with (Z.of_nat i) by lia. ring.
    - exists y. split; [exact Y1|]. intros q Iq. apply (proj1 (Y2 q Iq)). apply box_in. intros d Hd. rewrite at_vec by exact Hd. apply Iq. exact Hd.
  Qed.
End C55.

(** The number of processes and their arrangement do not change the result. *)
Theorem C55_grid_independent :
  forall (K : Type) (k0 k1 : K) (kadd kmul ksub : K -> K -> K) (kopp : K -> K), ring_theory k0 k1 kadd kmul ksub kopp eq ->
  forall (per : nat -> bool) (N : pt) (F : Z) (ph : slot -> K) (g vg : pt -> K) (D2 : nat -> Z -> K) (useb : bool) (a b c : K),
  1 <= F ->
  forall (dims1 dims2 : pt) (b1 b2 : bool) (v1 x1 v2 x2 : pt -> Z -> K) (p1 q1 p2 q2 : pt),
  (forall d, (d < 3)%nat -> 1 <= at_ dims1 d /\ F * at_ dims1 d <= at_ N d /\ 1 <= at_ dims2 d /\ F * at_ dims2 d <= at_ N d) ->
  holds K dims1 N g x1 -> holds K dims1 N vg v1 -> holds K dims2 N g x2 -> holds K dims2 N vg v2 ->
  okp dims1 p1 -> inblk (sz dims1 N p1) q1 -> okp dims2 p2 -> inblk (sz dims2 N p2) q2 ->
  addp (st dims1 N p1) q1 = addp (st dims2 N p2) q2 ->
  exists y1 y2 r,
    lap_mult K k0 kadd kmul dims1 per N F (fun _ => true) ph b1 (match_slot dims1 per) D2 useb a b c v1 x1 p1 = Ok y1 /\
    lap_mult K k0 kadd kmul dims2 per N F (fun _ => true) ph b2 (match_slot dims2 per) D2 useb a b c v2 x2 p2 = Ok y2 /\
    y1 (lin (sz dims1 N p1) q1) = Some r /\ y2 (lin (sz dims2 N p2) q2) = Some r.
Proof.
  intros K k0 k1 kadd kmul ksub kopp KR per N F ph g vg D2 useb a b c HF dims1 dims2 b1 b2 v1 x1 v2 x2 p1 q1 p2 q2 HD X1 V1 X2 V2 P1 Q1 P2 Q2 E.
  destruct (C55_laplacian K k0 k1 kadd kmul ksub kopp KR dims1 per N F ph b1 (fun d Hd => proj1 (HD d Hd)) HF g D2 useb a b c v1 x1 vg p1) as [y1 [E1 Y1]]; auto.
  { intros d Hd. apply HD. exact Hd. }
  destruct (C55_laplacian K k0 k1 kadd kmul ksub kopp KR dims2 per N F ph b2 (fun d Hd => proj1 (proj2 (proj2 (HD d Hd)))) HF g D2 useb a b c v2 x2 vg p2) as [y2 [E2 Y2]]; auto.
  { intros d Hd. apply HD. exact Hd. }
  exists y1, y2, (lap_spec K k0 kadd kmul per N ph g D2 F a (if useb then b else k0) c vg (addp (st dims1 N p1) q1)).
  repeat split; auto. rewrite E. apply Y2. exact Q2.
Qed.

(** ** Examples and limits, over the integers *)
Definition scatter (dims N : pt) (f : pt -> Z) (p : pt) (a : Z) : Z := f (addp (st dims N p) (unlin (sz dims N p) a)).
Lemma scatter_holds dims N f : holds Z dims N f (scatter dims N f).
Proof. intros q b _ Hb. unfold scatter. rewrite unlin_lin by exact Hb. reflexivity. Qed.
Definition gz (G : pt) : Z := 1 + at_ G 0 * at_ G 0 * at_ G 0 + 5 * at_ G 1 * at_ G 1 + 7 * at_ G 2 - at_ G 0 * at_ G 2.
Definition vz (G : pt) : Z := at_ G 0 + 2 * at_ G 1 - at_ G 2.
Definition dz (d : nat) (r : Z) : Z := (Z.of_nat d + 2) * (3 - 2 * r).
Definition phz (s : slot) : Z := 3 + 2 * Z.of_nat (slot_id s).
Definition lapz (msel : pt -> (nat -> bool) -> pt -> pt -> slot -> option slot) (dims N : pt) (per : nat -> bool) (F : Z) (p q : pt) : outcome (option Z) :=
  do y <- lap_mult Z 0 Z.add Z.mul dims per N F (fun _ => true) phz false (msel dims per) dz true 2 3 4 (scatter dims N vz) (scatter dims N gz) p ;
  Ok (y (lin (sz dims N p) q)).
Definition lapz_spec (N : pt) (per : nat -> bool) (F : Z) (G : pt) : Z := lap_spec Z 0 Z.add Z.mul per N phz gz dz F 2 3 4 vz G.
Definition perz (d : nat) : bool := negb (Nat.eqb d 1).

(** 2 x 3 x 1 processes, 5 x 7 x 2 points, FDn = 2, y not periodic: a corner of
    the last block *)
Example C55_ex : lapz match_slot (2, 3, 1) (5, 7, 2) perz 2 (1, 2, 0) (1, 1, 1) = Ok (Some (lapz_spec (5, 7, 2) perz 2 (4, 6, 1))) /\
  lapz match_slot (1, 1, 1) (5, 7, 2) perz 2 (0, 0, 0) (4, 6, 1) = Ok (Some (lapz_spec (5, 7, 2) perz 2 (4, 6, 1))) /\
  lapz_spec (5, 7, 2) perz 2 (4, 6, 1) <> 0.
Proof. vm_compute. repeat split; congruence. Qed.
Example C55_ex_hyp : (forall d, (d < 3)%nat -> 1 <= at_ (2, 3, 1) d /\ 2 * at_ (2, 3, 1) d <= at_ (5, 7, 2) d) /\
  okp (2, 3, 1) (1, 2, 0) /\ inblk (sz (2, 3, 1) (5, 7, 2) (1, 2, 0)) (1, 1, 1) /\ addp (st (2, 3, 1) (5, 7, 2) (1, 2, 0)) (1, 1, 1) = (4, 6, 1) /\
  holds Z (2, 3, 1) (5, 7, 2) gz (scatter (2, 3, 1) (5, 7, 2) gz).
Proof.
  repeat split; try apply scatter_holds; try (destruct d as [|[|[|]]]; vm_compute; congruence || lia).
Qed.

(** A grid narrower than FDn (possible with FD_GRID, which does not apply the
    bound of src/initialization.c:1931-1938) makes the wrap-around copy read
    before the start of x. *)
Theorem C55_narrow_refuted : exists (dims N : pt) (per : nat -> bool) (F : Z) (p : pt),
  (forall d, (d < 3)%nat -> at_ dims d = 1 /\ 1 <= at_ N d) /\ 1 <= F /\ okp dims p /\
  forall q, lapz match_slot dims N per F p q = UB.
Proof.
  exists (1, 1, 1), (1, 1, 1), (fun _ => true), 2, (0, 0, 0). repeat split; try lia; try (destruct d as [|[|[|]]]; vm_compute; congruence || lia).
Qed.

(** The swap of the packed boxes for dims < 3 relies on in-order matching of
    the messages between a pair of processes. If instead the message sent in
    direction -1 is received in direction +1 also when both neighbours are the
    same process, the result is wrong. *)
Definition match_direction (dims : pt) (per : nat -> bool) (p q : pt) (r : slot) : option slot := Some (opp r).
Theorem C55_direction_matching_refuted : exists (dims N p q : pt) (per : nat -> bool) (F : Z) (y : Z),
  (forall d, (d < 3)%nat -> 1 <= at_ dims d /\ F * at_ dims d <= at_ N d) /\ 1 <= F /\ okp dims p /\ inblk (sz dims N p) q /\
  lapz match_direction dims N per F p q = Ok (Some y) /\ y <> lapz_spec N per F (addp (st dims N p) q).
Proof.
  exists (2, 1, 1), (4, 1, 1), (0, 0, 0), (0, 0, 0), (fun _ => true), 1.
  exists (match lapz match_direction (2, 1, 1) (4, 1, 1) (fun _ => true) 1 (0, 0, 0) (0, 0, 0) with Ok (Some y) => y | _ => 0 end).
  split; [|split; [|split; [|split; [|split]]]].
  - intros d Hd. destruct d as [|[|[|]]]; cbn; lia.
  - lia.
  - intros d Hd. destruct d as [|[|[|]]]; cbn; lia.
  - intros d Hd. destruct d as [|[|[|]]]; vm_compute; split; congruence.
  - vm_compute. reflexivity.
  - vm_compute. congruence.
Qed.
Print Assumptions C55_cover.
Print Assumptions C55_laplacian.
Print Assumptions C55_gradient.
Print Assumptions C55_grid_independent.
Print Assumptions C55_narrow_refuted.
Print Assumptions C55_direction_matching_refuted.
