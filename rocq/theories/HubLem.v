(** Lemmas on the model of the DFT+U operator. *)
From Coq Require Import ZArith QArith Qround List Lia Bool Permutation Ring.
From Verif Require Import CBase Nloc NlocSpec NlocLem VnlOp VnlLem VnlMain HubInit HubInitSpec HubInitLem P_HubInit Hub HubSpec.
Import ListNotations.
Local Open Scope Z_scope.

Lemma ofold_nest {S A B} (f : S -> A -> B -> outcome S) (g : A -> list B) l : forall s,
  ofold (fun s x => ofold (fun s y => f s x y) s (g x)) s l
  = ofold (fun s xy => f s (fst xy) (snd xy)) s (flat_map (fun x => map (pair x) (g x)) l).
Proof.
  induction l as [|x l IH]; intros s; cbn [ofold flat_map]; [reflexivity|].
  rewrite ofold_app. assert (E : forall m s, ofold (fun s y => f s x y) s m
    = ofold (fun s xy => f s (fst xy) (snd xy)) s (map (pair x) m)).
  { induction m as [|y m IHm]; intros s0; cbn [ofold map]; [reflexivity|]. cbn [fst snd].
    destruct (f s0 x y); cbn [obind]; [apply IHm|reflexivity|reflexivity]. }
  rewrite <- E. destruct (ofold (fun s0 y => f s0 x y) s (g x)); cbn [obind]; [apply IH|reflexivity|reflexivity].
Qed.

(** Writing at different places. *)
Lemma oupd_ok {K A} (N : Z) (f : arr K -> A -> outcome (arr K)) (idx : A -> Z) (val : A -> K -> K) l :
  (forall x a, In x l -> sz a = N ->
     f a x = Ok (Arr N (fun j => if j =? idx x then val x (at_ a (idx x)) else at_ a j))) ->
  NoDup (map idx l) -> forall a, sz a = N ->
  exists a', ofold f a l = Ok a' /\ sz a' = N /\
    (forall x, In x l -> at_ a' (idx x) = val x (at_ a (idx x))) /\
    (forall i, ~ In i (map idx l) -> at_ a' i = at_ a i).
Proof.
  induction l as [|x l IH]; intros H ND a Ha; cbn [ofold].
  - exists a. split; [reflexivity|]. split; [exact Ha|]. split; [intros x []|reflexivity].
  - rewrite H by (try (now left); exact Ha). cbn [obind]. cbn [map] in ND. inversion ND as [|? ? NI ND']; subst.
    destruct (IH (fun y b Hy => H y b (or_intror Hy)) ND' (Arr (sz a) (fun j => if j =? idx x then val x (at_ a (idx x)) else at_ a j)) eq_refl)
      as (a' & E & S' & V & W).
    exists a'. split; [exact E|]. split; [exact S'|]. cbn [at_] in *. split.
    + intros y [<-|Hy].
      * rewrite W by exact NI. now rewrite Z.eqb_refl.
      * rewrite V by exact Hy. destruct (Z.eqb_spec (idx y) (idx x)) as [e|_]; [|reflexivity].
        exfalso. apply NI. rewrite <- e. now apply in_map.
    + intros i Hi. cbn [map In] in Hi. rewrite W by tauto.
      destruct (Z.eqb_spec i (idx x)) as [->|_]; [tauto|reflexivity].
Qed.

Lemma in_pairs (l m : list Z) x : In x (flat_map (fun a => map (pair a) m) l) <-> In (fst x) l /\ In (snd x) m.
Proof.
  rewrite in_flat_map. split.
  - intros (a & Ha & Hx). apply in_map_iff in Hx. destruct Hx as (b & <- & Hb). now split.
  - intros [H1 H2]. exists (fst x). split; [exact H1|]. apply in_map_iff. exists (snd x). split; [now destruct x|exact H2].
Qed.

Lemma NoDup_pairs (m : list Z) (idx : Z * Z -> Z) : NoDup m -> forall l, NoDup l ->
  (forall x y, In (fst x) l -> In (snd x) m -> In (fst y) l -> In (snd y) m -> idx x = idx y -> x = y) ->
  NoDup (map idx (flat_map (fun a => map (pair a) m) l)).
Proof.
  intros Hm l Hl HI.
  assert (ND : NoDup (flat_map (fun a => map (pair a) m) l)).
  { clear HI. induction Hl as [|a l Ha Hl IH]; cbn [flat_map]; [constructor|].
    apply NoDup_app_disjoint.
    - apply FinFun.Injective_map_NoDup; [|exact Hm]. intros u v E. now inversion E.
    - exact IH.
    - intros x Hx Hy. apply in_map_iff in Hx. destruct Hx as (b & <- & _). apply in_pairs in Hy. cbn in Hy. tauto. }
  revert ND HI. generalize (flat_map (fun a => map (pair a) m) l) (fun x => in_pairs l m x). intros q Hq ND HI.
  assert (HI' : forall x y, In x q -> In y q -> idx x = idx y -> x = y).
  { intros x y Hx Hy. apply Hq in Hx, Hy. apply HI; tauto. }
  clear Hq HI. induction ND as [|x q Hx ND IH]; cbn [map]; [constructor|]. constructor.
  - intros H. apply in_map_iff in H. destruct H as (y & E & Hy). apply Hx.
    rewrite <- (HI' y x); [exact Hy|now right|now left|exact E].
  - apply IH. intros; apply HI'; try (now right). assumption.
Qed.

(** ** Slots of the atoms *)
Lemma before_S al i x : nth_error al i = Some x -> before al (Z.of_nat i + 1) = before al (Z.of_nat i) + snd x.
Proof.
  intros H. unfold before. replace (Z.to_nat (Z.of_nat i + 1)) with (S i) by lia. rewrite Nat2Z.id.
  revert i H. induction al as [|a al IH]; intros [|i] H; cbn in H; try discriminate.
  - inversion H. subst. cbn. lia.
  - specialize (IH i H). change (firstn (S (S i)) (a :: al)) with (a :: firstn (S i) al).
    change (firstn (S i) (a :: al)) with (a :: firstn i al). cbn [map].
    change (zsum (?a :: ?l)) with (a + zsum l). lia.
Qed.

Lemma before_mono al i j : (forall z, In z al -> 0 <= snd z) -> 0 <= i <= j -> before al i <= before al j.
Proof.
  intros P H. unfold before.
  assert (G : forall n (l : list (bool * Z)), (forall z, In z l -> 0 <= snd z) -> 0 <= zsum (map snd (firstn n l))).
  { induction n as [|n IH]; intros l Q; [cbn; lia|]. destruct l as [|a l]; [cbn; lia|]. cbn [firstn map].
    change (zsum (?a :: ?l)) with (a + zsum l). pose proof (Q a (or_introl eq_refl)).
    pose proof (IH l (fun z Hz => Q z (or_intror Hz))). lia. }
  assert (forall n m (l : list (bool * Z)), (n <= m)%nat -> (forall z, In z l -> 0 <= snd z) ->
    zsum (map snd (firstn n l)) <= zsum (map snd (firstn m l))).
  { induction n as [|n IH]; intros m l L Q; [cbn [firstn map]; change (zsum []) with 0; apply G; exact Q|].
    destruct m as [|m]; [lia|]. destruct l as [|a l]; [cbn; lia|]. cbn [firstn map].
    change (zsum (?a :: ?l)) with (a + zsum l). pose proof (IH m l ltac:(lia) (fun z Hz => Q z (or_intror Hz))). lia. }
  apply H0; [lia|exact P].
Qed.

Section SLOTS.
Context {K : Type}.
Notation otype := (otype (K:=K)).
Variable b : otype -> Z.
Definition trip (t : otype) : bool * Z * Z := (o_solve t, o_nat t, b t).

Lemma n_atom_nonneg (ts : list otype) : Forall (fun t => 1 <= o_nat t) ts -> 0 <= n_atom ts.
Proof.
  intros F. unfold n_atom. induction F as [|t ts H F IH]; cbn [map]; [cbn; lia|].
  change (zsum (?a :: ?l)) with (a + zsum l). lia.
Qed.

Lemma catoms_nth (ts : list otype) : Forall (fun t => 1 <= o_nat t) ts -> forall J0 t J, In (t, J) (catoms J0 ts) ->
  J0 <= J < J0 + n_atom ts /\ In t ts /\ o_solve t = true /\
  nth_error (atoms (map trip ts)) (Z.to_nat (J - J0)) = Some (true, b t).
Proof.
  intros F. induction F as [|t0 ts H F IH]; intros J0 t J HI; [destruct HI|].
  cbn [catoms] in HI. apply in_app_iff in HI.
  assert (NN : 0 <= n_atom ts).
  { now apply n_atom_nonneg. }
  assert (NA : n_atom (t0 :: ts) = o_nat t0 + n_atom ts) by reflexivity.
  change (atoms (map trip (t0 :: ts))) with
    (repeat (o_solve t0, if o_solve t0 then b t0 else 0) (Z.to_nat (o_nat t0)) ++ atoms (map trip ts)).
  destruct HI as [HI|HI].
  - destruct (o_solve t0) eqn:ES; [|destruct HI]. apply in_map_iff in HI. destruct HI as (j & E & Hj).
    inversion E; subst t j. apply in_zrange in Hj. split; [lia|]. split; [now left|]. split; [exact ES|].
    rewrite nth_error_app1 by (rewrite repeat_length; lia). apply nth_error_repeat. lia.
  - specialize (IH (J0 + o_nat t0) t J HI). destruct IH as (A & B & C & D). split; [lia|]. split; [now right|].
    split; [exact C|]. rewrite nth_error_app2 by (rewrite repeat_length; lia).
    rewrite repeat_length. replace (Z.to_nat (J - J0) - Z.to_nat (o_nat t0))%nat with (Z.to_nat (J - (J0 + o_nat t0))) by lia.
    exact D.
Qed.

(** The places of the blocks: no overlap, all within [tot]. *)
Definition lay (ts : list otype) (a : arr Z) (tot : Z) : Prop :=
  sz a = n_atom ts + 1 /\ 0 <= tot /\
  (forall t J, In (t, J) (catoms 0 ts) -> 0 <= J < n_atom ts /\ 0 <= at_ a J /\ at_ a J + b t <= tot) /\
  (forall t J t' J', In (t, J) (catoms 0 ts) -> In (t', J') (catoms 0 ts) -> J < J' -> at_ a J + b t <= at_ a J').

Lemma lay_ok (ts : list otype) : Forall (fun t => 1 <= o_nat t /\ 0 <= b t) ts -> existsb o_solve ts = true ->
  exists a tot, displ (n_atom ts) (map trip ts) = Ok a /\ displ_total (n_atom ts) a = Ok tot /\ lay ts a tot.
Proof.
  intros F EX.
  assert (FT : Forall (fun t : bool * Z * Z => 1 <= snd (fst t) /\ 0 <= snd t) (map trip ts)).
  { apply Forall_map. eapply Forall_impl; [|exact F]. cbn. tauto. }
  assert (F1 : Forall (fun t => 1 <= o_nat t) ts) by (eapply Forall_impl; [|exact F]; cbn; tauto).
  assert (HN : n_atom ts = zsum (map (fun t : bool * Z * Z => snd (fst t)) (map trip ts))).
  { rewrite map_map. reflexivity. }
  destruct (C73_slots _ _ FT HN) as (a & E & S1 & V & T).
  assert (ET : existsb (fun t : bool * Z * Z => fst (fst t)) (map trip ts) = true).
  { clear - EX. induction ts as [|t ts IH]; [discriminate|]. cbn in *. apply orb_true_iff in EX. apply orb_true_iff.
    destruct EX; [now left|right; auto]. }
  specialize (T ET). exists a, (before (atoms (map trip ts)) (n_atom ts)). split; [exact E|]. split; [exact T|].
  assert (P : forall z, In z (atoms (map trip ts)) -> 0 <= snd z).
  { intros z Hz. unfold atoms in Hz. apply in_flat_map in Hz. destruct Hz as (t & Ht & Hz).
    apply repeat_spec in Hz. subst z. rewrite Forall_forall in FT. destruct (FT t Ht). cbn [snd].
    destruct (fst (fst t)); lia. }
  assert (B0 : before (atoms (map trip ts)) 0 = 0) by reflexivity.
  assert (G : forall t J, In (t, J) (catoms 0 ts) -> 0 <= J < n_atom ts /\ at_ a J = before (atoms (map trip ts)) J /\
     before (atoms (map trip ts)) (J + 1) = before (atoms (map trip ts)) J + b t).
  { intros t J HI. destruct (catoms_nth ts F1 0 t J HI) as (A1 & _ & _ & A4). rewrite Z.sub_0_r in A4.
    split; [lia|]. split.
    - apply V; [lia|]. now rewrite (nth_error_nth _ _ _ A4).
    - apply before_S in A4. rewrite Z2Nat.id in A4 by lia. exact A4. }
  split; [exact S1|]. split.
  { assert (0 <= n_atom ts). { now apply n_atom_nonneg. }
    rewrite <- B0. apply before_mono; [exact P|lia]. }
  split.
  - intros t J HI. destruct (G t J HI) as (A1 & A2 & A3). split; [exact A1|]. rewrite A2. split.
    + rewrite <- B0. apply before_mono; [exact P|lia].
    + rewrite <- A3. apply before_mono; [exact P|lia].
  - intros t J t' J' H1 H2 L. destruct (G t J H1) as (A1 & A2 & A3), (G t' J' H2) as (B1 & B2 & _).
    rewrite A2, B2, <- A3. apply before_mono; [exact P|lia].
Qed.

Lemma catoms_fun (ts : list otype) : Forall (fun t => 1 <= o_nat t) ts -> forall J0 t t' J,
  In (t, J) (catoms J0 ts) -> In (t', J) (catoms J0 ts) -> t = t'.
Proof.
  intros F. induction F as [|t0 ts H F IH]; intros J0 t t' J H1 H2; [destruct H1|].
  cbn [catoms] in H1, H2. apply in_app_iff in H1, H2.
  assert (L : forall u, In (u, J) (if o_solve t0 then map (pair t0) (zrange J0 (J0 + o_nat t0 - 1)) else []) -> u = t0 /\ J < J0 + o_nat t0).
  { intros u Hu. destruct (o_solve t0); [|destruct Hu]. apply in_map_iff in Hu. destruct Hu as (j & E & Hj).
    inversion E; subst. apply in_zrange in Hj. split; [reflexivity|lia]. }
  destruct H1 as [H1|H1], H2 as [H2|H2].
  - destruct (L _ H1), (L _ H2). congruence.
  - destruct (L _ H1). destruct (catoms_nth ts F _ _ _ H2). lia.
  - destruct (L _ H2). destruct (catoms_nth ts F _ _ _ H1). lia.
  - exact (IH _ _ _ _ H1 H2).
Qed.

Lemma catoms_NoDup (ts : list otype) : Forall (fun t => 1 <= o_nat t) ts -> forall J0, NoDup (map snd (catoms J0 ts)).
Proof.
  intros F. induction F as [|t0 ts H F IH]; intros J0; cbn [catoms map]; [constructor|].
  rewrite map_app. apply NoDup_app_disjoint; [|apply IH|].
  - destruct (o_solve t0); [|constructor]. rewrite map_map. cbn [snd]. rewrite map_id. apply NoDup_zrange.
  - intros J H1 H2. apply in_map_iff in H2. destruct H2 as ([t J'] & E & H2). cbn in E. subst J'.
    destruct (catoms_nth ts F _ _ _ H2) as (A & _).
    destruct (o_solve t0); [|destruct H1]. rewrite map_map in H1. cbn [snd] in H1. rewrite map_id in H1.
    apply in_zrange in H1. lia.
Qed.
End SLOTS.

(** Place of (J, n, p) among the inner products: different triples, different
    places. *)
Lemma slot_inj {K} (ts : list (otype (K:=K))) a tot ncol t J n p t' J' n' p' :
  lay o_np ts a tot -> Forall (fun t => 1 <= o_nat t /\ 0 <= o_np t) ts ->
  In (t, J) (catoms 0 ts) -> In (t', J') (catoms 0 ts) ->
  0 <= n < ncol -> 0 <= p < o_np t -> 0 <= n' < ncol -> 0 <= p' < o_np t' ->
  at_ a J * ncol + n * o_np t + p = at_ a J' * ncol + n' * o_np t' + p' -> J = J' /\ n = n' /\ p = p'.
Proof.
  intros (_ & _ & _ & L) F H1 H2 Hn Hp Hn' Hp' E.
  assert (F1 : Forall (fun t : otype (K:=K) => 1 <= o_nat t) ts) by (eapply Forall_impl; [|exact F]; cbn; tauto).
  destruct (Z.lt_trichotomy J J') as [A|[A|A]].
  - pose proof (L _ _ _ _ H1 H2 A). exfalso.
    assert ((at_ a J + o_np t) * ncol <= at_ a J' * ncol) by nia. nia.
  - subst J'. pose proof (catoms_fun o_np ts F1 _ _ _ _ H1 H2). subst t'. split; [reflexivity|].
    assert (n = n') by nia. subst. split; [reflexivity|lia].
  - pose proof (L _ _ _ _ H2 H1 A). exfalso.
    assert ((at_ a J' + o_np t') * ncol <= at_ a J * ncol) by nia. nia.
Qed.

Section RING.
Context {K : Type} (zero one : K) (add mul sub : K -> K -> K) (opp : K -> K).
Context (Rth : ring_theory zero one add mul sub opp eq).
Add Ring KRh : Rth.
Declare Scope kh_scope.
Infix "+" := add : kh_scope.
Infix "*" := mul : kh_scope.
Delimit Scope kh_scope with k.
Notation ksum := (ksum zero add).
Notation isum := (isum zero add).
Notation otype := (otype (K:=K)).
Notation row := (row (K:=K)).
Notation sel := (sel zero).

Lemma isum_ext a b f g : (forall i, a <= i < b -> f i = g i) -> isum a b f = isum a b g.
Proof. intros H. apply ksum_ext. intros i Hi. apply in_zrange in Hi. apply H. lia. Qed.

Lemma isum_only a b f i0 : a <= i0 < b -> (forall i, a <= i < b -> i <> i0 -> f i = zero) -> isum a b f = f i0.
Proof.
  intros H0 H. apply (ksum_only _ _ _ _ _ _ Rth); [apply NoDup_zrange|apply in_zrange; lia|].
  intros i Hi. apply in_zrange in Hi. apply H. lia.
Qed.

Lemma isum_zero a b f : (forall i, a <= i < b -> f i = zero) -> isum a b f = zero.
Proof. intros H. apply (ksum_zero _ _ _ _ _ _ Rth). intros i Hi. apply in_zrange in Hi. apply H. lia. Qed.

Lemma zrange_app1 a b : a <= b -> zrange a b = zrange a (b - 1) ++ [b].
Proof.
  intros H. remember (Z.to_nat (b - a)) as n eqn:E. revert a H E. induction n as [|n IH]; intros a H E.
  - replace b with a by lia. unfold zrange. replace (Z.to_nat (a - a + 1)) with 1%nat by lia.
    replace (Z.to_nat (a - 1 - a + 1)) with 0%nat by lia. reflexivity.
  - rewrite (zrange_S a b), (zrange_S a (b - 1)) by lia. cbn [app]. f_equal. apply IH; lia.
Qed.

Lemma osum_ok (f : Z -> outcome K) (g : Z -> K) l : (forall i, In i l -> f i = Ok (g i)) ->
  osum zero add f l = Ok (ksum (map g l)).
Proof.
  induction l as [|i l IH]; intros H; cbn [osum map VnlOp.ksum]; [reflexivity|].
  rewrite (H i) by now left. cbn [obind]. rewrite IH by (intros; apply H; now right). reflexivity.
Qed.

(** A matrix of [ndc] rows with one row per node of the image. *)
Definition mat_ok (np : Z) (e : entry) (ch : arr K) : Prop :=
  e_ndc e = Z.of_nat (length (e_pos e)) /\ sz ch = e_ndc e * np.

Definition pos (e : entry) (j : Z) : Z := nth (Z.to_nat j) (e_pos e) 0.

Lemma pos_in e j : 0 <= j < Z.of_nat (length (e_pos e)) -> In (pos e j) (e_pos e).
Proof. intros H. apply nth_In. lia. Qed.

Lemma dot_gen np e ch p (h : Z -> K) : mat_ok np e ch -> 0 <= p < np ->
  dot zero add mul ch (p * e_ndc e) (map h (e_pos e)) =
    Ok (isum 0 (e_ndc e) (fun j => at_ ch (p * e_ndc e + j)%Z * h (pos e j))%k).
Proof.
  intros (HN & HS) Hp.
  assert (G : forall l pre, e_pos e = pre ++ l ->
    dot zero add mul ch (p * e_ndc e + Z.of_nat (length pre)) (map h l) =
    Ok (isum (Z.of_nat (length pre)) (e_ndc e) (fun j => at_ ch (p * e_ndc e + j)%Z * h (pos e j))%k)).
  { induction l as [|g l IH]; intros pre E.
    - cbn [map dot]. f_equal. symmetry. apply isum_zero. rewrite app_nil_r in E. subst pre. rewrite <- HN. lia.
    - assert (LL : Z.of_nat (length pre) < e_ndc e) by (rewrite HN, E, app_length; cbn [length]; lia).
      cbn [map dot]. rewrite rd_ok by (rewrite HS; nia). cbn [obind].
      specialize (IH (pre ++ [g])). rewrite app_length in IH. cbn [length] in IH.
      replace (p * e_ndc e + Z.of_nat (length pre) + 1) with (p * e_ndc e + Z.of_nat (length pre + 1)) by lia.
      rewrite IH by (rewrite <- app_assoc; exact E). cbn [obind]. f_equal.
      unfold HubSpec.isum at 2. rewrite (zrange_S (Z.of_nat (length pre))) by lia. cbn [map VnlOp.ksum].
      unfold HubSpec.isum. replace (Z.of_nat (length pre + 1)) with (Z.of_nat (length pre) + 1) by lia. f_equal.
      f_equal. unfold pos. rewrite Nat2Z.id, E, app_nth2, Nat.sub_diag by lia. reflexivity. }
  specialize (G (e_pos e) [] eq_refl). cbn [length] in G. rewrite Z.add_0_r in G. exact G.
Qed.

Lemma dot2_gen np e ch al j off : mat_ok np e ch -> 0 <= j < e_ndc e -> 0 <= off -> off + np <= sz al ->
  dot2 zero add mul ch al j (e_ndc e) off (zrange 0 (np - 1)) =
    Ok (isum 0 np (fun p => at_ ch (p * e_ndc e + j)%Z * at_ al (off + p)%Z)%k).
Proof.
  intros (HN & HS) Hj H0 H1. unfold HubSpec.isum.
  assert (G : forall ps, (forall p, In p ps -> 0 <= p < np) ->
    dot2 zero add mul ch al j (e_ndc e) off ps =
    Ok (ksum (map (fun p => at_ ch (p * e_ndc e + j)%Z * at_ al (off + p)%Z)%k ps))).
  { induction ps as [|p ps IH]; intros F; cbn [dot2 map VnlOp.ksum]; [reflexivity|].
    assert (0 <= p < np) by (apply F; now left).
    rewrite rd_ok by (rewrite HS; nia). cbn [obind]. rewrite rd_ok by lia. cbn [obind].
    rewrite IH by (intros; apply F; now right). reflexivity. }
  apply G. intros p Hp. apply in_zrange in Hp. lia.
Qed.

(** One entry of each product of an image. *)
Definition ival (e : entry) (ch x : arr K) (ldi : Z) (a : K) (n p : Z) : K :=
  (a * isum 0 (e_ndc e) (fun j => at_ ch (p * e_ndc e + j)%Z * at_ x (n * ldi + pos e j)%Z))%k.
Definition sval (e : entry) (ch al : arr K) (np off : Z) (b : K) (n j : Z) : K :=
  (b * isum 0 np (fun p => at_ ch (p * e_ndc e + j)%Z * at_ al (off + n * np + p)%Z))%k.

Lemma inner_gen np e ch x ldi ncol off a al N : mat_ok np e ch -> 
  (forall n g, 0 <= n < ncol -> In g (e_pos e) -> 0 <= n * ldi + g < sz x) ->
  sz al = N -> 0 <= off -> off + ncol * np <= N ->
  exists al', inner zero add mul ch x ldi ncol np off a e al = Ok al' /\ sz al' = N /\
    forall i, at_ al' i = (at_ al i + isum 0 ncol (fun n => isum 0 np (fun p =>
        sel i (off + n * np + p)%Z (ival e ch x ldi a n p))))%k.
Proof.
  intros HM HX HN H0 H1. unfold inner, HubSpec.isum.
  apply (ofold_acc _ _ _ _ _ _ Rth _ (fun n i => isum 0 np (fun p =>
        sel i (off + n * np + p)%Z (ival e ch x ldi a n p)))); [|exact HN].
  intros n al0 Hn Hal. apply in_zrange in Hn.
  unfold gather. rewrite (omap_val _ (fun g => at_ x (n * ldi + g))).
  2:{ intros g Hg. apply rd_ok. apply HX; [lia|exact Hg]. }
  cbn [obind].
  apply (ofold_acc _ _ _ _ _ _ Rth _ (fun p i => sel i (off + n * np + p) (ival e ch x ldi a n p))); [|exact Hal].
  intros p al1 Hp Hal1. apply in_zrange in Hp.
  rewrite (dot_gen np) by (try exact HM; lia). cbn [obind].
  apply (wr_add _ _ _ _ _ _ Rth); [exact Hal1|]. nia.
Qed.

Lemma scatter_gen np e ch al ldo ncol off b h N : mat_ok np e ch -> 0 <= np ->
  (forall n g, 0 <= n < ncol -> In g (e_pos e) -> 0 <= n * ldo + g < N) ->
  sz h = N -> 0 <= off -> off + ncol * np <= sz al ->
  exists h', scatter zero add mul ch al ldo ncol np off b e h = Ok h' /\ sz h' = N /\
    forall i, at_ h' i = (at_ h i + isum 0 ncol (fun n => isum 0 (e_ndc e) (fun j =>
        sel i (n * ldo + pos e j)%Z (sval e ch al np off b n j))))%k.
Proof.
  intros HM Hnp HX HN H0 H1. unfold scatter, HubSpec.isum.
  apply (ofold_acc _ _ _ _ _ _ Rth _ (fun n i => isum 0 (e_ndc e) (fun j =>
        sel i (n * ldo + pos e j) (sval e ch al np off b n j)))); [|exact HN].
  intros n h0 Hn Hh. apply in_zrange in Hn.
  assert (NN : e_ndc e = Z.of_nat (length (e_pos e))) by apply HM.
  assert (G : forall l pre h1, e_pos e = pre ++ l -> sz h1 = N ->
    exists h2, ofold (fun st g =>
      do s0 <- dot2 zero add mul ch al (snd st) (e_ndc e) (off + n * np) (zrange 0 (np - 1)) ;
      do o <- rd (fst st) (n * ldo + g) ;
      do h3 <- wr (fst st) (n * ldo + g) (add o (mul b s0)) ;
      Ok (h3, snd st + 1)) (h1, Z.of_nat (length pre)) l = Ok (h2, Z.of_nat (length pre) + Z.of_nat (length l))
    /\ sz h2 = N /\ forall i, at_ h2 i = (at_ h1 i +
       isum (Z.of_nat (length pre)) (e_ndc e) (fun j => sel i (n * ldo + pos e j)%Z (sval e ch al np off b n j)))%k).
  { induction l as [|g l IH]; intros pre h1 E Hh1; cbn [ofold].
    - exists h1. split; [f_equal; f_equal; cbn; lia|]. split; [exact Hh1|]. intros i.
      rewrite isum_zero; [ring|]. rewrite app_nil_r in E. subst pre. rewrite <- NN. lia.
    - assert (LL : Z.of_nat (length pre) < e_ndc e) by (rewrite NN, E, app_length; cbn [length]; lia).
      cbn [fst snd]. rewrite (dot2_gen np) by (try exact HM; nia).
      cbn [obind].
      assert (B : 0 <= n * ldo + g < N).
      { apply HX; [lia|]. rewrite E. apply in_app_iff. right. now left. }
      rewrite rd_ok by lia. cbn [obind]. rewrite wr_ok by lia. cbn [obind].
      set (h3 := Arr _ _).
      specialize (IH (pre ++ [g]) h3). rewrite app_length in IH. cbn [length] in IH.
      replace (Z.of_nat (length pre + 1)) with (Z.of_nat (length pre) + 1) in IH by lia.
      destruct IH as (h2 & E2 & S2 & V2); [rewrite <- app_assoc; exact E|exact Hh1|].
      exists h2. split; [rewrite E2; f_equal; f_equal; cbn [length]; lia|].
      split; [exact S2|]. intros i. rewrite V2. unfold h3. cbn [at_].
      unfold HubSpec.isum at 3. rewrite (zrange_S (Z.of_nat (length pre))) by lia. cbn [map VnlOp.ksum].
      unfold HubSpec.isum at 2.
      assert (EP : pos e (Z.of_nat (length pre)) = g).
      { unfold pos. rewrite Nat2Z.id, E, app_nth2, Nat.sub_diag by lia. reflexivity. }
      rewrite EP. fold (sval e ch al np off b n (Z.of_nat (length pre))).
      unfold VnlLem.sel at 2. destruct (Z.eqb_spec i (n * ldo + g)) as [->|_]; ring. }
  destruct (G (e_pos e) [] h0 eq_refl Hh) as (h2 & E2 & S2 & V2). cbn [length] in E2, V2.
  change (Z.of_nat 0) with 0 in E2, V2.
  rewrite E2. cbn [obind fst]. exists h2. auto.
Qed.
End RING.
