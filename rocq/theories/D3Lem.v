(** The loops of the DFT-D3 energy as sums of contributions. *)
From Coq Require Import ZArith Reals List Lia Lra Bool.
From Verif Require Import CBase Nloc NlocLem VnlOp VnlLem VnlMain D3.
Import ListNotations.
Local Open Scope R_scope.

(** ** Images *)
Lemma in_box a a' b b' c c' m : In m (box a a' b b' c c') <->
  let '(x, y, z) := m in (a <= x <= a' /\ b <= y <= b' /\ c <= z <= c')%Z.
Proof.
  destruct m as [[x y] z]. unfold box. rewrite in_flat_map. split.
  - intros (x' & Hx & H). apply in_zrange in Hx. apply in_flat_map in H. destruct H as (y' & Hy & H).
    apply in_zrange in Hy. apply in_map_iff in H. destruct H as (z' & E & Hz). apply in_zrange in Hz.
    injection E as <- <- <-. lia.
  - intros (Hx & Hy & Hz). exists x. split; [now apply in_zrange|]. apply in_flat_map. exists y.
    split; [now apply in_zrange|]. apply in_map_iff. exists z. split; [reflexivity|now apply in_zrange].
Qed.

Lemma NoDup_box a a' b b' c c' : NoDup (box a a' b b' c c').
Proof.
  unfold box. apply NoDup_flat_map; [apply NoDup_zrange| |].
  - intros x _. apply NoDup_flat_map; [apply NoDup_zrange| |].
    + intros y _. apply FinFun.Injective_map_NoDup; [|apply NoDup_zrange]. intros z z' E. now injection E.
    + intros y y' m _ _ H H'. apply in_map_iff in H, H'. destruct H as (z & <- & _), H' as (z' & E & _). now injection E.
  - intros x x' m _ _ H H'. apply in_flat_map in H, H'. destruct H as (y & _ & H), H' as (y' & _ & H').
    apply in_map_iff in H, H'. destruct H as (z & <- & _), H' as (z' & E & _). now injection E.
Qed.

Definition nn (k : img) : Prop := let '(a, b, c) := k in (0 <= a /\ 0 <= b /\ 0 <= c)%Z.
Definition ile (k k' : img) : Prop := let '(a, b, c) := k in let '(a', b', c') := k' in (a <= a' /\ b <= b' /\ c <= c')%Z.

Lemma in_imgs k m : In m (imgs k) <->
  let '(a, b, c) := k in let '(x, y, z) := m in (- a <= x <= a /\ - b <= y <= b /\ - c <= z <= c)%Z.
Proof. destruct k as [[a b] c]. apply in_box. Qed.
Lemma NoDup_imgs k : NoDup (imgs k).
Proof. destruct k as [[a b] c]. apply NoDup_box. Qed.

Lemma mix_range u U v V : (0 <= u <= U)%Z -> (0 <= v <= V)%Z -> (0 <= u * (V + 1) + v <= (U + 1) * (V + 1) - 1)%Z.
Proof. intros. nia. Qed.

Lemma count_range k m : nn k -> In m (imgs k) -> (0 <= count_image m k < numimg k)%Z.
Proof.
  intros N H. apply in_imgs in H. destruct k as [[a b] c], m as [[x y] z]. unfold nn, count_image, numimg in *.
  assert (0 <= (x + a) <= 2 * a)%Z by lia. assert (0 <= y + b <= 2 * b)%Z by lia. assert (0 <= z + c <= 2 * c)%Z by lia.
  replace ((x + a) * (2 * b + 1) * (2 * c + 1) + (y + b) * (2 * c + 1) + (z + c))%Z
    with (((x + a) * (2 * b + 1) + (y + b)) * (2 * c + 1) + (z + c))%Z by ring.
  pose proof (mix_range (x + a) (2 * a) (y + b) (2 * b) ltac:(lia) ltac:(lia)) as A1.
  pose proof (mix_range ((x + a) * (2 * b + 1) + (y + b)) ((2 * a + 1) * (2 * b + 1) - 1) (z + c) (2 * c) ltac:(lia) ltac:(lia)) as A2.
  replace ((a * 2 + 1) * (b * 2 + 1) * (c * 2 + 1))%Z with (((2 * a + 1) * (2 * b + 1) - 1 + 1) * (2 * c + 1))%Z by ring. lia.
Qed.

Lemma count_inj k m m' : nn k -> In m (imgs k) -> In m' (imgs k) -> count_image m k = count_image m' k -> m = m'.
Proof.
  intros N H H' E. apply in_imgs in H, H'. destruct k as [[a b] c], m as [[x y] z], m' as [[x' y'] z']. unfold nn, count_image, numimg in *.
  replace ((x + a) * (2 * b + 1) * (2 * c + 1) + (y + b) * (2 * c + 1) + (z + c))%Z
    with (((x + a) * (2 * b + 1) + (y + b)) * (2 * c + 1) + (z + c))%Z in E by ring.
  replace ((x' + a) * (2 * b + 1) * (2 * c + 1) + (y' + b) * (2 * c + 1) + (z' + c))%Z
    with (((x' + a) * (2 * b + 1) + (y' + b)) * (2 * c + 1) + (z' + c))%Z in E by ring.
  assert (Ez : (z + c = z' + c /\ (x + a) * (2 * b + 1) + (y + b) = (x' + a) * (2 * b + 1) + (y' + b))%Z).
  { assert (A := Z.div_mod_unique (2 * c + 1) ((x + a) * (2 * b + 1) + (y + b)) ((x' + a) * (2 * b + 1) + (y' + b)) (z + c) (z' + c)).
    destruct A as [A1 A2]; [lia|lia|lia|]. split; [exact A2|exact A1]. }
  destruct Ez as [Ez Exy].
  assert (A := Z.div_mod_unique (2 * b + 1) (x + a) (x' + a) (y + b) (y' + b)).
  destruct A as [A1 A2]; [lia|lia|lia|]. f_equal; [f_equal|]; lia.
Qed.

(** The numbering of the images is [count_image]. *)
Lemma combine_map_r {A B} (f : B -> A) l : combine (map f l) l = map (fun x => (f x, x)) l.
Proof. induction l; cbn; [reflexivity|now rewrite IHl]. Qed.

Lemma zseq_map (s : Z) k : zseq s k = map (fun i => (s + i)%Z) (zseq 0 k).
Proof.
  revert s. induction k as [|k IH]; intros s; [reflexivity|]. cbn [zseq map]. f_equal; [lia|].
  rewrite IH, (IH (0 + 1)%Z), map_map. apply map_ext. intros; lia.
Qed.

Lemma zrange_shift a b d : zrange (a + d) (b + d) = map (fun x => (x + d)%Z) (zrange a b).
Proof.
  unfold zrange. replace (b + d - (a + d) + 1)%Z with (b - a + 1)%Z by lia.
  rewrite (zseq_map (a + d)), (zseq_map a), map_map. apply map_ext. intros; lia.
Qed.

(** Counting a product of ranges. *)
Lemma zrange_cut a b c : (a <= b + 1)%Z -> (b <= c)%Z -> zrange a c = zrange a b ++ zrange (b + 1) c.
Proof.
  intros H1 H2. rewrite (zrange_split a c (b + 1) b) by lia. replace (b + 1 - 1)%Z with b by lia. f_equal.
  unfold zrange at 1. replace (Z.to_nat (b - (b + 1) + 1)) with 0%nat by lia. reflexivity.
Qed.

Lemma zrange_prod p q : (0 <= p)%Z -> (0 <= q)%Z ->
  zrange 0 ((p + 1) * (q + 1) - 1) = flat_map (fun x => map (fun y => (x * (q + 1) + y)%Z) (zrange 0 q)) (zrange 0 p).
Proof.
  intros P Q. revert p P. apply natlike_ind.
  - change (zrange 0 0) with [0%Z]. cbn [flat_map]. rewrite app_nil_r.
    replace ((0 + 1) * (q + 1) - 1)%Z with q by lia. rewrite (map_ext _ (fun y => y)) by (intros; lia). now rewrite map_id.
  - intros x Hx IH.
    rewrite (zrange_cut 0 x (Z.succ x)) by lia. rewrite flat_map_app, <- IH.
    rewrite (zrange_cut 0 ((x + 1) * (q + 1) - 1) ((Z.succ x + 1) * (q + 1) - 1)) by nia. f_equal.
    replace (zrange (x + 1) (Z.succ x)) with [(x + 1)%Z].
    2:{ unfold zrange. replace (Z.to_nat (Z.succ x - (x + 1) + 1)) with 1%nat by lia. reflexivity. }
    cbn [flat_map]. rewrite app_nil_r.
    replace ((x + 1) * (q + 1) - 1 + 1)%Z with (0 + (x + 1) * (q + 1))%Z by lia.
    replace ((Z.succ x + 1) * (q + 1) - 1)%Z with (q + (x + 1) * (q + 1))%Z by lia.
    rewrite zrange_shift. apply map_ext. intros; lia.
Qed.

Lemma flat_map_map {A B C} (f : B -> list C) (g : A -> B) l : flat_map f (map g l) = flat_map (fun x => f (g x)) l.
Proof. induction l; cbn; [reflexivity|now rewrite IHl]. Qed.
Lemma map_flat_map {A B C} (f : B -> C) (g : A -> list B) l : map f (flat_map g l) = flat_map (fun x => map f (g x)) l.
Proof. induction l; cbn; [reflexivity|now rewrite map_app, IHl]. Qed.
Lemma flat_flat {A B C} (f : B -> list C) (g : A -> list B) l : flat_map f (flat_map g l) = flat_map (fun x => flat_map f (g x)) l.
Proof. induction l; cbn; [reflexivity|now rewrite flat_map_app, IHl]. Qed.
Lemma flat_ext {A B} (f g : A -> list B) l : (forall x, f x = g x) -> flat_map f l = flat_map g l.
Proof. intros H. induction l; cbn; [reflexivity|now rewrite H, IHl]. Qed.

Lemma count_imgs k : nn k -> map (fun m => count_image m k) (imgs k) = zrange 0 (numimg k - 1).
Proof.
  destruct k as [[a b] c]. intros (Ha & Hb & Hc). unfold numimg, imgs, box.
  replace ((a * 2 + 1) * (b * 2 + 1) * (c * 2 + 1) - 1)%Z
    with ((((2 * a + 1) * (2 * b + 1) - 1) + 1) * (2 * c + 1) - 1)%Z by ring.
  rewrite zrange_prod by nia. rewrite zrange_prod by lia. rewrite flat_flat, map_flat_map.
  replace (- a)%Z with (0 + - a)%Z by lia. replace (zrange (0 + - a) a) with (zrange (0 + - a) (2 * a + - a)) by (f_equal; lia).
  rewrite zrange_shift, flat_map_map. apply flat_ext. intros x.
  rewrite map_flat_map, flat_map_map.
  replace (- b)%Z with (0 + - b)%Z by lia. replace (zrange (0 + - b) b) with (zrange (0 + - b) (2 * b + - b)) by (f_equal; lia).
  rewrite zrange_shift, flat_map_map. apply flat_ext. intros y.
  replace (- c)%Z with (0 + - c)%Z by lia. replace (zrange (0 + - c) c) with (zrange (0 + - c) (2 * c + - c)) by (f_equal; lia).
  rewrite zrange_shift, !map_map. apply map_ext. intros z. cbn. ring.
Qed.

Lemma numbered_ok k : nn k -> numbered k = map (fun m => (count_image m k, m)) (imgs k).
Proof. intros N. unfold numbered. rewrite <- count_imgs by exact N. apply combine_map_r. Qed.

(** ** Contributions *)
Definition loc := (img * Z * Z)%type.
Definition loc_dec (x y : loc) : {x = y} + {x <> y}.
Proof. repeat decide equality. Defined.

Record ev := Ev { v_e : R; v_d : list (loc * R); v_f : list (Z * R) }.
Definition eadd (u v : ev) : ev := Ev (v_e u + v_e v) (v_d u ++ v_d v) (v_f u ++ v_f v).
Definition ezero : ev := Ev 0 [] [].
Definition esum (l : list ev) : ev := fold_right eadd ezero l.

Definition getd (d : list (loc * R)) (p : loc) : R := rsum (map (fun e => if loc_dec (fst e) p then snd e else 0) d).
Definition getf (f : list (Z * R)) (i : Z) : R := rsum (map (fun e => if (fst e =? i)%Z then snd e else 0) f).

Lemma getd_app d d' p : getd (d ++ d') p = getd d p + getd d' p.
Proof. unfold getd. rewrite map_app. apply (ksum_app _ _ _ _ _ _ RTheory). Qed.
Lemma getf_app d d' p : getf (d ++ d') p = getf d p + getf d' p.
Proof. unfold getf. rewrite map_app. apply (ksum_app _ _ _ _ _ _ RTheory). Qed.

(** Pairing of a contribution with derivatives of the distances and of the
    coordination numbers. *)
Definition pairing (g : loc -> R) (h : Z -> R) (v : ev) : R :=
  rsum (map (fun e => snd e * g (fst e)) (v_d v)) + rsum (map (fun e => snd e * h (fst e)) (v_f v)).

Lemma pairing_add g h u v : pairing g h (eadd u v) = pairing g h u + pairing g h v.
Proof. unfold pairing. cbn [eadd v_d v_f]. rewrite !map_app, !(ksum_app _ _ _ _ _ _ RTheory). ring. Qed.

Definition ev_in (Q : loc -> Prop) (S : Z -> Prop) (v : ev) : Prop :=
  (forall e, In e (v_d v) -> Q (fst e)) /\ (forall e, In e (v_f v) -> S (fst e)).
Lemma ev_in_sum {A} Q S (F : A -> ev) l : (forall x, In x l -> ev_in Q S (F x)) -> ev_in Q S (esum (map F l)).
Proof.
  induction l as [|x l IH]; intros H; cbn [map esum fold_right]; [split; intros e []|].
  destruct (H x (or_introl eq_refl)) as [A1 A2]. destruct (IH (fun y Hy => H y (or_intror Hy))) as [B1 B2].
  split; intros e He; cbn [eadd v_d v_f] in He; apply in_app_iff in He; destruct He as [He|He]; auto.
Qed.
Lemma ev_in_add Q S u v : ev_in Q S u -> ev_in Q S v -> ev_in Q S (eadd u v).
Proof.
  intros [A1 A2] [B1 B2].
  split; intros e He; cbn [eadd v_d v_f] in He; apply in_app_iff in He; destruct He as [He|He]; auto.
Qed.

Lemma rsum_pick_d d (L : list loc) (g : loc -> R) : NoDup L -> (forall e, In e d -> In (fst e) L) ->
  rsum (map (fun e => snd e * g (fst e)) d) = rsum (map (fun p => getd d p * g p) L).
Proof.
  intros N. induction d as [|e d IH]; intros H.
  - cbn [map ksum]. symmetry. apply (ksum_zero _ _ _ _ _ _ RTheory). intros p _. unfold getd. cbn. ring.
  - cbn [map ksum]. rewrite IH by (intros e' He'; apply H; now right).
    transitivity (rsum (map (fun p => (if loc_dec (fst e) p then snd e else 0) * g p + getd d p * g p) L)).
    2:{ apply ksum_ext. intros p _. unfold getd. cbn [map ksum]. ring. }
    rewrite (ksum_add _ _ _ _ _ _ RTheory). f_equal.
    rewrite (ksum_only _ _ _ _ _ _ RTheory _ L (fst e) N); [|apply H; now left|].
    + destruct (loc_dec (fst e) (fst e)) as [_|n]; [reflexivity|now contradict n].
    + intros p _ Hp. destruct (loc_dec (fst e) p) as [E|_]; [now contradict Hp|ring].
Qed.

Lemma rsum_pick_f d (L : list Z) (g : Z -> R) : NoDup L -> (forall e, In e d -> In (fst e) L) ->
  rsum (map (fun e => snd e * g (fst e)) d) = rsum (map (fun p => getf d p * g p) L).
Proof.
  intros N. induction d as [|e d IH]; intros H.
  - cbn [map ksum]. symmetry. apply (ksum_zero _ _ _ _ _ _ RTheory). intros p _. unfold getf. cbn. ring.
  - cbn [map ksum]. rewrite IH by (intros e' He'; apply H; now right).
    transitivity (rsum (map (fun p => (if (fst e =? p)%Z then snd e else 0) * g p + getf d p * g p) L)).
    2:{ apply ksum_ext. intros p _. unfold getf. cbn [map ksum]. ring. }
    rewrite (ksum_add _ _ _ _ _ _ RTheory). f_equal.
    rewrite (ksum_only _ _ _ _ _ _ RTheory _ L (fst e) N); [|apply H; now left|].
    + now rewrite Z.eqb_refl.
    + intros p _ Hp. destruct (Z.eqb_spec (fst e) p) as [E|_]; [now contradict Hp|ring].
Qed.

Lemma getd_none d p : (forall e, In e d -> fst e <> p) -> getd d p = 0.
Proof.
  intros H. apply (ksum_zero _ _ _ _ _ _ RTheory). intros e He. destruct (loc_dec (fst e) p) as [E|_]; [|reflexivity].
  exfalso. exact (H e He E).
Qed.

(** ** The effect of a step on the accumulators *)
Section EFF.
Variables (n : Z) (rcov r2r4 : Z -> R) (r0ab : Z -> Z -> R) (smp : Z -> Z -> list sample).
Variables (rs6 s8 cn_thr rthr : R) (nCN nEG : img).
Hypothesis NEG : nn nEG.

Definition etot (s : st) : R := t_e6 s + t_e8 s - t_e63 s.
Definition eff (s s' : st) (v : ev) : Prop :=
  etot s' = etot s + v_e v /\
  (forall m i j, In m (imgs nEG) -> (j <= i)%Z ->
     t_dr s' (count_image m nEG) i j = t_dr s (count_image m nEG) i j + getd (v_d v) (m, i, j)) /\
  (forall i, t_F s' i = t_F s i + getf (v_f v) i).

Lemma eff_refl s : eff s s ezero.
Proof. unfold eff, getd, getf. cbn. repeat split; intros; ring. Qed.
Lemma eff_trans s s1 s2 u v : eff s s1 u -> eff s1 s2 v -> eff s s2 (eadd u v).
Proof.
  intros (A1 & A2 & A3) (B1 & B2 & B3). unfold eff. cbn [eadd v_e v_d v_f]. repeat split.
  - rewrite B1, A1. ring.
  - intros m i j Hm Hj. rewrite B2, A2 by assumption. rewrite getd_app. ring.
  - intros i. rewrite B3, A3, getf_app. ring.
Qed.
Lemma eff_same s s' u v : eff s s' u -> v_e u = v_e v -> (forall p, getd (v_d u) p = getd (v_d v) p) ->
  (forall i, getf (v_f u) i = getf (v_f v) i) -> eff s s' v.
Proof. intros (A1 & A2 & A3) E1 E2 E3. unfold eff. rewrite <- E1. repeat split; [exact A1| |]; intros; rewrite <- ?E2, <- ?E3; auto. Qed.

Lemma ofold_eff {A} (f : st -> A -> outcome st) (F : A -> ev) l :
  (forall x s, In x l -> exists s', f s x = Ok s' /\ eff s s' (F x)) ->
  forall s, exists s', ofold f s l = Ok s' /\ eff s s' (esum (map F l)).
Proof.
  induction l as [|x l IH]; intros H s; cbn [ofold map esum fold_right].
  - exists s. split; [reflexivity|apply eff_refl].
  - destruct (H x s (or_introl eq_refl)) as (s1 & E1 & F1). rewrite E1. cbn [obind].
    destruct (IH (fun y t Hy => H y t (or_intror Hy)) s1) as (s2 & E2 & F2). exists s2. split; [exact E2|].
    exact (eff_trans _ _ _ _ _ F1 F2).
Qed.

Lemma inr_ok i k : (0 <= i < k)%Z -> inr i k = true.
Proof. intros H. unfold inr. apply andb_true_intro. split; [apply Z.leb_le|apply Z.ltb_lt]; lia. Qed.

Lemma dr_add_eff s m i j v : In m (imgs nEG) -> (0 <= i < n)%Z -> (0 <= j < n)%Z ->
  exists s', dr_add n nEG s (count_image m nEG) i j v = Ok s' /\ eff s s' (Ev 0 [((m, i, j), v)] []).
Proof.
  intros Hm Hi Hj. unfold dr_add, dr_set. rewrite !inr_ok by (try exact Hi; try exact Hj; now apply count_range). cbn [andb].
  eexists. split; [reflexivity|]. unfold eff, etot. cbn [v_e v_d v_f t_e6 t_e8 t_e63 t_dr t_F]. repeat split.
  - ring.
  - intros m' i' j' Hm' _. unfold getd. cbn [map ksum fst snd].
    destruct (loc_dec (m, i, j) (m', i', j')) as [E|E].
    + injection E as <- <- <-. rewrite !Z.eqb_refl. cbn [andb]. ring.
    + destruct (Z.eqb_spec (count_image m' nEG) (count_image m nEG)) as [Ec|_]; cbn [andb]; [|ring].
      destruct (Z.eqb_spec i' i) as [->|_]; cbn [andb]; [|ring].
      destruct (Z.eqb_spec j' j) as [->|_]; cbn [andb]; [|ring].
      contradict E. f_equal. f_equal. symmetry. now apply (count_inj nEG).
  - intros i'. unfold getf. cbn. ring.
Qed.

(** Writes to the upper half and copies of an entry to itself are not seen. *)
Lemma dr_copy_eff s m i j i0 j0 : In m (imgs nEG) -> (0 <= i < n)%Z -> (0 <= j < n)%Z ->
  ((i < j)%Z \/ (i = i0 /\ j = j0)) ->
  exists s', dr_set n nEG s (count_image m nEG) i j (t_dr s (count_image m nEG) i0 j0) = Ok s' /\ eff s s' ezero.
Proof.
  intros Hm Hi Hj C. unfold dr_set. rewrite !inr_ok by (try exact Hi; try exact Hj; now apply count_range). cbn [andb].
  eexists. split; [reflexivity|]. unfold eff, etot. cbn [v_e v_d v_f t_e6 t_e8 t_e63 t_dr t_F ezero]. unfold getd, getf. cbn [map ksum]. repeat split.
  - ring.
  - intros m' i' j' Hm' Hj'.
    destruct (Z.eqb_spec (count_image m' nEG) (count_image m nEG)) as [Ec|_]; cbn [andb]; [|ring].
    destruct (Z.eqb_spec i' i) as [->|_]; cbn [andb]; [|ring].
    destruct (Z.eqb_spec j' j) as [->|_]; cbn [andb]; [|ring].
    destruct C as [C|[-> ->]]; [lia|]. rewrite Ec. ring.
  - intros i'. ring.
Qed.

Lemma F_add_eff s i v : (0 <= i < n)%Z -> exists s', F_add n s i v = Ok s' /\ eff s s' (Ev 0 [] [(i, v)]).
Proof.
  intros Hi. unfold F_add. rewrite inr_ok by exact Hi. eexists. split; [reflexivity|].
  unfold eff, etot. cbn [v_e v_d v_f t_e6 t_e8 t_e63 t_dr t_F]. unfold getd, getf. cbn [map ksum fst snd]. repeat split.
  - ring.
  - intros. ring.
  - intros i'. rewrite (Z.eqb_sym i i'). destruct (i' =? i)%Z; ring.
Qed.

Lemma e_sub_eff s a b c : eff s (e_sub s a b c) (Ev (- a - b + c) [] []).
Proof. unfold eff, etot, e_sub, getd, getf. cbn. repeat split; intros; ring. Qed.

Section CONF.
Variables (pos : Z -> vec) (l : lat).
Notation c6of := (c6of n rcov smp cn_thr nCN pos l).
Notation dC6 := (dC6 n rcov smp cn_thr nCN pos l).
Notation sq6 := (sq6 n rcov smp cn_thr nCN pos l).

(** Squared distance of atom j in image m from atom i. *)
Definition dv (i j : Z) (m : img) : vec := vadd (vsub (pos j) (pos i)) (ivec l m).
Definition dq (i j : Z) (m : img) : R := n2 (dv i j m).

Lemma dq_rel i j m : n2 (vsub (vsub (pos i) (pos j)) (ivec l m)) = dq i j m.
Proof.
  unfold dq, dv. destruct (pos i) as [[a b] c], (pos j) as [[a' b'] c'], (ivec l m) as [[x y] z]. cbn. ring.
Qed.
Lemma ivec_sub m m' : ivec l (isub m' m) = vsub (ivec l m') (ivec l m).
Proof.
  destruct l as [[[[a b] c] [[d e] f]] [[g h] k]], m as [[x y] z], m' as [[x' y'] z']. cbn.
  rewrite !minus_IZR. f_equal; [f_equal|]; ring.
Qed.
Lemma dq_jk j k m m' : n2 (vadd (vsub (vsub (pos k) (pos j)) (ivec l m)) (ivec l m')) = dq j k (isub m' m).
Proof.
  unfold dq, dv. rewrite ivec_sub.
  destruct (pos j) as [[a b] c], (pos k) as [[a' b'] c'], (ivec l m) as [[x y] z], (ivec l m') as [[x' y'] z']. cbn. ring.
Qed.

Definition wgt2 (i j : Z) : R := if (i =? j)%Z then / 2 else 1.
(** Contribution of an image of a pair. *)
Definition pair_ev (i j : Z) (m : img) : ev :=
  let x := dq i j m in
  if Rlt_dec rthr x then ezero else if Rlt_dec x (/ 10 ^ 15) then ezero else
  let c6 := fst (fst (c6of i j)) in
  let q := r2r4 i * r2r4 j in
  let r := sqrt x in
  let rr := r0ab i j / r in
  let t6 := (rs6 * rr) ^ 14 in
  let t8 := (1 * rr) ^ 16 in
  let damp6 := 1 / (1 + 6 * t6) in
  let damp8 := 1 / (1 + 6 * t8) in
  let de6dr := 1 * 6 * damp6 * c6 / (x ^ 3 * r) in
  let de8dr := s8 * 6 * c6 * q * damp8 / (x ^ 3 * x * r) in
  let F := 1 / x ^ 3 * damp6 + 3 * s8 * q / (x ^ 3 * x) * damp8 in
  Ev (- (F * c6 * wgt2 i j))
     [((m, i, j), (- (de6dr + 4 * de8dr) + (de6dr * 14 * t6 * damp6 + 3 * de8dr * 16 * t8 * damp8)) * wgt2 i j)]
     [(i, F * snd (fst (c6of i j)) * wgt2 i j); (j, F * snd (c6of i j) * wgt2 i j)].

Lemma pair_image_eff i j m s : (0 <= j <= i)%Z -> (i < n)%Z -> In m (imgs nEG) ->
  exists s', pair_image n rcov r2r4 r0ab smp rs6 s8 cn_thr rthr nCN nEG pos l i j s (count_image m nEG, m) = Ok s' /\
    eff s s' (pair_ev i j m).
Proof.
  intros Hj Hi Hm. unfold pair_image, pair_ev. rewrite dq_rel. set (x := dq i j m).
  destruct (c6of i j) as [[c6 dI] dJ]. cbn [fst snd].
  destruct (Rlt_dec rthr x); [exists s; split; [reflexivity|apply eff_refl]|].
  destruct (Rlt_dec x (/ 10 ^ 15)); [exists s; split; [reflexivity|apply eff_refl]|].
  cbv zeta. set (q := r2r4 i * r2r4 j). set (r := sqrt x). set (t6 := (rs6 * (r0ab i j / r)) ^ 14). set (t8 := (1 * (r0ab i j / r)) ^ 16).
  unfold wgt2. destruct (Z.eqb_spec i j) as [E|E].
  - match goal with |- context [dr_add n nEG s _ i j ?V] => destruct (dr_add_eff s m i j V Hm ltac:(lia) ltac:(lia)) as (s1 & E1 & F1) end.
    rewrite E1. cbn [obind].
    match goal with |- context [dr_add n nEG s1 _ i j ?V] => destruct (dr_add_eff s1 m i j V Hm ltac:(lia) ltac:(lia)) as (s2 & E2 & F2) end.
    rewrite E2. cbn [obind].
    match goal with |- context [F_add n (e_sub s2 ?A ?B ?C) i ?V] =>
      pose proof (e_sub_eff s2 A B C) as F3; destruct (F_add_eff (e_sub s2 A B C) i V ltac:(lia)) as (s4 & E4 & F4) end.
    exists s4. split; [exact E4|].
    eapply eff_same; [exact (eff_trans _ _ _ _ _ F1 (eff_trans _ _ _ _ _ F2 (eff_trans _ _ _ _ _ F3 F4)))| | |]; cbn [eadd v_e v_d v_f app].
    + unfold Rdiv. ring.
    + intros p. unfold getd. cbn [map ksum fst snd]. destruct (loc_dec (m, i, j) p); unfold Rdiv; ring.
    + intros k. unfold getf. cbn [map ksum fst snd]. rewrite <- E. destruct (i =? k)%Z; unfold Rdiv; ring.
  - match goal with |- context [dr_add n nEG s _ i j ?V] => destruct (dr_add_eff s m i j V Hm ltac:(lia) ltac:(lia)) as (s1 & E1 & F1) end.
    rewrite E1. cbn [obind].
    match goal with |- context [dr_add n nEG s1 _ i j ?V] => destruct (dr_add_eff s1 m i j V Hm ltac:(lia) ltac:(lia)) as (s2 & E2 & F2) end.
    rewrite E2. cbn [obind].
    destruct (dr_copy_eff s2 m j i i j Hm ltac:(lia) ltac:(lia) ltac:(left; lia)) as (s3 & E3 & F3). rewrite E3. cbn [obind].
    match goal with |- context [F_add n (e_sub s3 ?A ?B ?C) i ?V] =>
      pose proof (e_sub_eff s3 A B C) as F4; destruct (F_add_eff (e_sub s3 A B C) i V ltac:(lia)) as (s5 & E5 & F5) end.
    rewrite E5. cbn [obind].
    match goal with |- context [F_add n s5 j ?V] => destruct (F_add_eff s5 j V ltac:(lia)) as (s6 & E6 & F6) end.
    exists s6. split; [exact E6|].
    eapply eff_same; [exact (eff_trans _ _ _ _ _ F1 (eff_trans _ _ _ _ _ F2 (eff_trans _ _ _ _ _ F3 (eff_trans _ _ _ _ _ F4 (eff_trans _ _ _ _ _ F5 F6)))))| | |]; cbn [eadd v_e v_d v_f app ezero].
    + unfold Rdiv. ring.
    + intros p. unfold getd. cbn [map ksum fst snd]. destruct (loc_dec (m, i, j) p); unfold Rdiv; ring.
    + intros k. unfold getf. cbn [map ksum fst snd]. destruct (i =? k)%Z, (j =? k)%Z; unfold Rdiv; ring.
Qed.

Definition pairs_ev : ev :=
  esum (map (fun i => esum (map (fun j => esum (map (pair_ev i j) (imgs nEG))) (zrange 0 i))) (zrange 0 (n - 1))).

Lemma ofold_map {A B} (f : st -> B -> outcome st) (g : A -> B) xs s : ofold f s (map g xs) = ofold (fun s x => f s (g x)) s xs.
Proof. revert s. induction xs as [|x xs IH]; intros s; cbn [map ofold]; [reflexivity|]. destruct (f s (g x)); cbn [obind]; auto. Qed.

Lemma pair_loop_eff s : exists s',
  pair_loop n rcov r2r4 r0ab smp rs6 s8 cn_thr rthr nCN nEG pos l s = Ok s' /\ eff s s' pairs_ev.
Proof.
  unfold pair_loop, pairs_ev. apply ofold_eff. intros i s1 Hi. apply in_zrange in Hi.
  apply ofold_eff. intros j s2 Hj. apply in_zrange in Hj. rewrite numbered_ok by exact NEG. rewrite ofold_map.
  apply ofold_eff. intros m s3 Hm. apply pair_image_eff; [lia|lia|exact Hm].
Qed.

Definition wgt3 (i j k : Z) : R :=
  if (i =? j)%Z && (i =? k)%Z then 1 / 6 else if (i =? j)%Z || (j =? k)%Z then 1 / 2 else 1.

(** Contribution of a triangle. *)
Definition tri_ev (i j : Z) (m : img) (k : Z) (m' : img) : ev :=
  let a := dq i j m in let b := dq i k m' in let c := dq j k (isub m' m) in
  if Rlt_dec cn_thr b then ezero else if Rlt_dec b (/ 10 ^ 15) then ezero else
  if Rlt_dec cn_thr c then ezero else if Rlt_dec c (/ 10 ^ 15) then ezero else
  let c9 := sq6 i j * sq6 i k * sq6 j k in
  let geo := Rpower ((sqrt a / r0ab i j) * (sqrt b / r0ab i k) * (sqrt c / r0ab j k)) (1 / 3) in
  let u := ((4 / 3) / geo) ^ 16 in
  let damp3 := 1 / (1 + 6 * u) in
  let D := a * c * b in
  let ang := ((3 / 8) * (a + c - b) * (a + b - c) * (b + c - a) / D + 1) / Rpower D (3 / 2) in
  let w := wgt3 i j k in
  let dF := -2 * 16 * u * damp3 ^ 2 in
  Ev (damp3 * c9 * ang * w)
    [((m, i, j), (dF / sqrt a * c9 * ang - dAng a c b D * c9 * damp3) * w);
     ((isub m' m, j, k), (dF / sqrt c * c9 * ang - dAng c b a D * c9 * damp3) * w);
     ((m', i, k), (dF / sqrt b * c9 * ang - dAng b c a D * c9 * damp3) * w)]
    [(i, - (ang * damp3 * w * (1 / 2) * c9 * (dC6 i j / (sq6 i j * sq6 i j) + dC6 i k / (sq6 i k * sq6 i k))));
     (j, - (ang * damp3 * w * (1 / 2) * c9 * (dC6 j i / (sq6 i j * sq6 i j) + dC6 j k / (sq6 j k * sq6 j k))));
     (k, - (ang * damp3 * w * (1 / 2) * c9 * (dC6 k i / (sq6 i k * sq6 i k) + dC6 k j / (sq6 j k * sq6 j k))))].

Hypothesis (ILE : ile nCN nEG).

Lemma in_scope m m' : In m (imgs nCN) -> In m' (scope nCN m) -> In m' (imgs nCN) /\ In (isub m' m) (imgs nCN).
Proof.
  clear. intros H H'. unfold scope in H'. rewrite !in_imgs. apply in_imgs in H. destruct nCN as [[a b] c], m as [[x y] z].
  apply in_box in H'. destruct m' as [[x' y'] z']. cbn [isub]. lia.
Qed.
Lemma imgs_le m : In m (imgs nCN) -> In m (imgs nEG).
Proof.
  clear - ILE. rewrite !in_imgs. destruct nCN as [[a b] c], nEG as [[a' b'] c'], m as [[x y] z]. cbn [ile] in ILE. lia.
Qed.

Lemma tri_dr_eff s m i j w dF r c9 ang da d3 : In m (imgs nEG) -> (0 <= i < n)%Z -> (0 <= j < n)%Z ->
  exists s', tri_dr n nEG w s (count_image m nEG) i j dF r c9 ang da d3 = Ok s' /\
    eff s s' (Ev 0 [((m, i, j), (dF / r * c9 * ang - da * c9 * d3) * w)] []).
Proof.
  intros Hm Hi Hj. unfold tri_dr.
  destruct (dr_add_eff s m i j (dF / r * c9 * ang * w) Hm Hi Hj) as (s1 & E1 & F1). rewrite E1. cbn [obind].
  destruct (dr_add_eff s1 m i j (- (da * c9 * d3 * w)) Hm Hi Hj) as (s2 & E2 & F2). exists s2. split; [exact E2|].
  eapply eff_same; [exact (eff_trans _ _ _ _ _ F1 F2)| | |]; cbn [eadd v_e v_d v_f app].
  - ring.
  - intros p. unfold getd. cbn [map ksum fst snd]. destruct (loc_dec (m, i, j) p); ring.
  - intros k. unfold getf. cbn. ring.
Qed.

Lemma copy_if s m i j i0 j0 (b : bool) : In m (imgs nEG) -> (0 <= i < n)%Z -> (0 <= j < n)%Z ->
  ((i < j)%Z \/ (i = i0 /\ j = j0)) ->
  exists s', (if b then Ok s else dr_set n nEG s (count_image m nEG) i j (t_dr s (count_image m nEG) i0 j0)) = Ok s' /\ eff s s' ezero.
Proof.
  intros Hm Hi Hj C. destruct b; [exists s; split; [reflexivity|apply eff_refl]|]. now apply dr_copy_eff.
Qed.

Lemma triangle_eff i j m k m' s : (0 <= k <= j)%Z -> (j <= i)%Z -> (i < n)%Z ->
  In m (imgs nCN) -> In m' (scope nCN m) ->
  exists s', triangle n rcov r0ab smp cn_thr nCN nEG pos l i j m k s m' = Ok s' /\ eff s s' (tri_ev i j m k m').
Proof.
  intros Hk Hj Hi Hm Hs. destruct (in_scope m m' Hm Hs) as [Hm' Hd].
  apply imgs_le in Hm, Hm', Hd.
  unfold triangle, tri_ev. rewrite dq_jk. fold (dv i j m) (dv i k m'). fold (dq i j m) (dq i k m').
  set (a := dq i j m). set (b := dq i k m'). set (c := dq j k (isub m' m)).
  destruct (Rlt_dec cn_thr b); [exists s; split; [reflexivity|apply eff_refl]|].
  destruct (Rlt_dec b (/ 10 ^ 15)); [exists s; split; [reflexivity|apply eff_refl]|].
  destruct (Rlt_dec cn_thr c); [exists s; split; [reflexivity|apply eff_refl]|].
  destruct (Rlt_dec c (/ 10 ^ 15)); [exists s; split; [reflexivity|apply eff_refl]|].
  cbv zeta. fold (wgt3 i j k). set (w := wgt3 i j k).
  set (c9 := sq6 i j * sq6 i k * sq6 j k).
  set (u := (4 / 3 / Rpower (sqrt a / r0ab i j * (sqrt b / r0ab i k) * (sqrt c / r0ab j k)) (1 / 3)) ^ 16).
  set (d3 := 1 / (1 + 6 * u)). set (ang := (3 / 8 * (a + c - b) * (a + b - c) * (b + c - a) / (a * c * b) + 1) / Rpower (a * c * b) (3 / 2)).
  set (dF := -2 * 16 * u * d3 ^ 2). set (d1 := dAng a c b (a * c * b)). set (d2 := dAng c b a (a * c * b)). set (d4 := dAng b c a (a * c * b)).
  pose proof (e_sub_eff s 0 0 (d3 * c9 * ang * w)) as F0.
  set (s0 := e_sub s 0 0 (d3 * c9 * ang * w)) in *.
  destruct (tri_dr_eff s0 m i j w dF (sqrt a) c9 ang d1 d3 Hm ltac:(lia) ltac:(lia)) as (s1 & E1 & F1). rewrite E1. cbn [obind].
  destruct (copy_if s1 m j i i j ((i =? j)%Z && (i =? k)%Z) Hm ltac:(lia) ltac:(lia) ltac:(lia)) as (s2 & E2 & F2). rewrite E2. cbn [obind].
  destruct (tri_dr_eff s2 (isub m' m) j k w dF (sqrt c) c9 ang d2 d3 Hd ltac:(lia) ltac:(lia)) as (s3 & E3 & F3). rewrite E3. cbn [obind].
  destruct (copy_if s3 (isub m' m) k j k j ((i =? j)%Z && (i =? k)%Z) Hd ltac:(lia) ltac:(lia) ltac:(lia)) as (s4 & E4 & F4). rewrite E4. cbn [obind].
  destruct (tri_dr_eff s4 m' i k w dF (sqrt b) c9 ang d4 d3 Hm' ltac:(lia) ltac:(lia)) as (s5 & E5 & F5). rewrite E5. cbn [obind].
  destruct (copy_if s5 m' k i i k ((i =? j)%Z && (i =? k)%Z) Hm' ltac:(lia) ltac:(lia) ltac:(lia)) as (s6 & E6 & F6). rewrite E6. cbn [obind].
  match goal with |- context [F_add n s6 i ?V] => destruct (F_add_eff s6 i V ltac:(lia)) as (s7 & E7 & F7) end. rewrite E7. cbn [obind].
  match goal with |- context [F_add n s7 j ?V] => destruct (F_add_eff s7 j V ltac:(lia)) as (s8' & E8 & F8) end. rewrite E8. cbn [obind].
  match goal with |- context [F_add n s8' k ?V] => destruct (F_add_eff s8' k V ltac:(lia)) as (s9 & E9 & F9) end.
  exists s9. split; [exact E9|].
  eapply eff_same; [exact (eff_trans _ _ _ _ _ F0 (eff_trans _ _ _ _ _ F1 (eff_trans _ _ _ _ _ F2 (eff_trans _ _ _ _ _ F3
    (eff_trans _ _ _ _ _ F4 (eff_trans _ _ _ _ _ F5 (eff_trans _ _ _ _ _ F6 (eff_trans _ _ _ _ _ F7 (eff_trans _ _ _ _ _ F8 F9)))))))))| | |]; cbn [eadd v_e v_d v_f app ezero].
  - ring.
  - intros p. reflexivity.
  - intros p. unfold getf. cbn [map ksum fst snd]. destruct (i =? p)%Z, (j =? p)%Z, (k =? p)%Z; ring.
Qed.

Definition tri_image_ev (i j : Z) (m : img) : ev :=
  if Rlt_dec cn_thr (dq i j m) then ezero else if Rlt_dec (dq i j m) (/ 10 ^ 15) then ezero else
  esum (map (fun k => esum (map (tri_ev i j m k) (scope nCN m))) (zrange 0 j)).
Definition tris_ev : ev :=
  esum (map (fun i => esum (map (fun j => esum (map (tri_image_ev i j) (imgs nCN))) (zrange 0 i))) (zrange 0 (n - 1))).

Lemma tri_loop_eff s : exists s',
  tri_loop n rcov r0ab smp cn_thr nCN nEG pos l s = Ok s' /\ eff s s' tris_ev.
Proof.
  unfold tri_loop, tris_ev. apply ofold_eff. intros i s1 Hi. apply in_zrange in Hi.
  apply ofold_eff. intros j s2 Hj. apply in_zrange in Hj.
  apply ofold_eff. intros m s3 Hm. unfold tri_image, tri_image_ev. fold (dv i j m). fold (dq i j m).
  destruct (Rlt_dec cn_thr (dq i j m)); [exists s3; split; [reflexivity|apply eff_refl]|].
  destruct (Rlt_dec (dq i j m) (/ 10 ^ 15)); [exists s3; split; [reflexivity|apply eff_refl]|].
  apply ofold_eff. intros k s4 Hk. apply in_zrange in Hk.
  apply ofold_eff. intros m' s5 Hm'. apply triangle_eff; [lia|lia|lia|exact Hm|exact Hm'].
Qed.

Definition all_ev : ev := eadd pairs_ev tris_ev.

(** Where the contributions go. *)
Definition okloc (p : loc) : Prop :=
  let '(m, i, j) := p in In m (imgs nEG) /\ (0 <= j <= i)%Z /\ (i < n)%Z /\ dq i j m <= rthr.
Hypothesis THR : cn_thr <= rthr.

Lemma ezero_in Q S : ev_in Q S ezero.
Proof. split; intros e []. Qed.

Lemma all_ev_in : ev_in okloc (fun i => 0 <= i < n)%Z all_ev.
Proof.
  apply ev_in_add.
  - unfold pairs_ev. apply ev_in_sum. intros i Hi. apply in_zrange in Hi. apply ev_in_sum. intros j Hj. apply in_zrange in Hj.
    apply ev_in_sum. intros m Hm. unfold pair_ev.
    destruct (Rlt_dec rthr (dq i j m)) as [_|L]; [apply ezero_in|]. destruct (Rlt_dec (dq i j m) (/ 10 ^ 15)); [apply ezero_in|].
    cbv zeta. split; cbn [v_d v_f]; intros e He; repeat (destruct He as [<-|He]; cbn [fst]); try (now destruct He); try lia.
    cbn. repeat split; try lia; [exact Hm|lra].
  - unfold tris_ev. apply ev_in_sum. intros i Hi. apply in_zrange in Hi. apply ev_in_sum. intros j Hj. apply in_zrange in Hj.
    apply ev_in_sum. intros m Hm. unfold tri_image_ev.
    destruct (Rlt_dec cn_thr (dq i j m)) as [_|La]; [apply ezero_in|]. destruct (Rlt_dec (dq i j m) (/ 10 ^ 15)); [apply ezero_in|].
    apply ev_in_sum. intros k Hk. apply in_zrange in Hk. apply ev_in_sum. intros m' Hm'.
    destruct (in_scope m m' Hm Hm') as [Hm2 Hd]. unfold tri_ev.
    destruct (Rlt_dec cn_thr (dq i k m')) as [_|Lb]; [apply ezero_in|]. destruct (Rlt_dec (dq i k m') (/ 10 ^ 15)); [apply ezero_in|].
    destruct (Rlt_dec cn_thr (dq j k (isub m' m))) as [_|Lc]; [apply ezero_in|]. destruct (Rlt_dec (dq j k (isub m' m)) (/ 10 ^ 15)); [apply ezero_in|].
    cbv zeta. split; cbn [v_d v_f]; intros e He; repeat (destruct He as [<-|He]; cbn [fst]); try (now destruct He); try lia;
      cbn; repeat split; try lia; try (apply imgs_le; assumption); lra.
Qed.

(** The run of the whole function. *)
Definition st0 : st := St 0 0 0 (fun _ _ _ => 0) (fun _ => 0).
Lemma d3_run_ok : exists s,
  d3_run n rcov r2r4 r0ab smp rs6 s8 cn_thr rthr nCN nEG pos l
    = Ok (D3Out (v_e all_ev) (fst (grad_loop n rcov cn_thr rthr nEG pos l s)) (snd (grad_loop n rcov cn_thr rthr nEG pos l s))) /\
  (forall m i j, In m (imgs nEG) -> (j <= i)%Z -> t_dr s (count_image m nEG) i j = getd (v_d all_ev) (m, i, j)) /\
  (forall i, t_F s i = getf (v_f all_ev) i).
Proof.
  unfold d3_run. fold st0. destruct (pair_loop_eff st0) as (s1 & E1 & F1). rewrite E1. cbn [obind].
  destruct (tri_loop_eff s1) as (s2 & E2 & F2). rewrite E2. cbn [obind]. exists s2.
  destruct (eff_trans _ _ _ _ _ F1 F2) as (A1 & A2 & A3). fold all_ev in A1, A2, A3. split; [|split].
  - cbv zeta. unfold etot at 1 in A1. rewrite A1. unfold etot, st0. cbn [t_e6 t_e8 t_e63].
    replace (0 + 0 - 0 + v_e all_ev) with (v_e all_ev) by ring. reflexivity.
  - intros m i j Hm Hj. rewrite A2 by assumption. unfold st0. cbn [t_dr]. ring.
  - intros i. rewrite A3. unfold st0. cbn [t_F]. ring.
Qed.
End CONF.
End EFF.
