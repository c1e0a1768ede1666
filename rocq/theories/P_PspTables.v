(** C85: projector tables of a pseudopotential file, their spline slopes and the projectors made of them. *)
From Coq Require Import Reals Lra Lia List Arith Bool FinFun.
From Verif Require Import CBase PspTables.
Import ListNotations.
Local Open Scope nat_scope.

(** position of projector [kk] of degree [i] when the degrees come one after the other, [ns] projectors each *)
Definition place (ns : list nat) (i kk : nat) : nat := list_sum (firstn i ns) + kk.

(** Every table of [UdV] holds the values of its own projector over the radius, the value at the origin being that of the
    next point; the tables of the local degree are zero; nothing outside of the array is touched. *)
Theorem C85_udv : forall size r v loc ppl, 2 <= size -> exists m, read_udv size r v loc ppl = Ok m /\
  (forall l kk jj, l < length ppl -> kk < nth l ppl 0 -> jj < size ->
   m (place ppl l kk * size + jj) = if l =? loc then 0%R else (v l kk (Nat.max 1 jj) / r (Nat.max 1 jj))%R).
Proof.
  intros size r v loc ppl H2. unfold read_udv.
  assert (NS : forall i, i < length ppl -> list_sum (firstn i ppl) + nth i ppl 0 <= list_sum ppl).
  { clear. induction ppl as [|n ppl IH]; intros [|i] Hi; cbn in *; try lia. specialize (IH i ltac:(lia)). unfold list_sum in IH. lia. }
  destruct (blocks_ok (list_sum ppl) size r v loc H2 ppl ppl 0 0 0 (fun _ => 0%R)) as (m & E & A & Z & L & _); [lia|lia| |].
  - intros i Hi _ _. apply NS, Hi.
  - exists m. split; [exact E|]. intros l kk jj Hl Hk Hj. unfold place. destruct (Nat.eqb_spec l loc) as [e|n].
    + apply (L l kk jj Hl e Hk Hj).
    + destruct jj as [|jj]; [rewrite Nat.add_0_r; apply (Z l kk Hl n Hk eq_refl)|]. rewrite Nat.max_r by lia. apply (A l kk (S jj) Hl n Hk). lia.
Qed.
Print Assumptions C85_udv.

(** The same for the spin-orbit tables, degrees from 1 on, when the two lists of numbers of projectors have the same partial
    sums at every degree that is read: the code looks up the value for the origin with the offsets of the other list. *)
Theorem C85_soc : forall size r v loc ppl soc, 2 <= size -> length soc <= length ppl ->
  (forall i, i < length soc -> S i <> loc -> 0 < nth i soc 0 -> list_sum (firstn i ppl) = list_sum (firstn i soc)) ->
  exists m, read_soc size r v loc ppl soc = Ok m /\
  (forall i kk jj, i < length soc -> kk < nth i soc 0 -> jj < size ->
   m (place soc i kk * size + jj) = if S i =? loc then 0%R else (v (S i) kk (Nat.max 1 jj) / r (Nat.max 1 jj))%R).
Proof.
  intros size r v loc ppl soc H2 HL HO. unfold read_soc.
  assert (NS : forall i, i < length soc -> list_sum (firstn i soc) + nth i soc 0 <= list_sum soc).
  { clear. induction soc as [|n soc IH]; intros [|i] Hi; cbn in *; try lia. specialize (IH i ltac:(lia)). unfold list_sum in IH. lia. }
  destruct (blocks_ok (list_sum soc) size r v loc H2 soc ppl 1 0 0 (fun _ => 0%R)) as (m & E & A & Z & L & _); [lia|lia| |].
  - intros i Hi Hl Hn. unfold off. rewrite HO by assumption. apply NS, Hi.
  - exists m. split; [exact E|]. intros l kk jj Hl Hk Hj. unfold place. destruct (Nat.eqb_spec (S l) loc) as [e|n].
    + apply (L l kk jj Hl e Hk Hj).
    + destruct jj as [|jj].
      * rewrite Nat.add_0_r. apply (Z l kk Hl n Hk). unfold off. rewrite HO by (assumption || lia). reflexivity.
      * rewrite Nat.max_r by lia. apply (A l kk (S jj) Hl n Hk). lia.
Qed.
Print Assumptions C85_soc.

(** Without that condition the values away from the origin are right whenever the look-up stays inside the array ... *)
Theorem C85_soc_away : forall size r v loc ppl soc, 2 <= size -> length soc <= length ppl ->
  (forall i, i < length soc -> S i <> loc -> 0 < nth i soc 0 -> list_sum (firstn i ppl) + nth i soc 0 <= list_sum soc) ->
  exists m, read_soc size r v loc ppl soc = Ok m /\
  (forall i kk jj, i < length soc -> S i <> loc -> kk < nth i soc 0 -> 1 <= jj < size -> m (place soc i kk * size + jj) = (v (S i) kk jj / r jj)%R).
Proof.
  intros size r v loc ppl soc H2 HL HO. unfold read_soc.
  destruct (blocks_ok (list_sum soc) size r v loc H2 soc ppl 1 0 0 (fun _ => 0%R)) as (m & E & A & _); [lia|lia|exact HO|].
  exists m. split; [exact E|]. intros. unfold place. now apply A.
Qed.
Print Assumptions C85_soc_away.

(** ... but the value at the origin is that of another projector: one projector of degree 0, two of 1 and 2; the second degree's
    first projector gets its origin from the first degree's second. *)
Theorem C85_origin_refuted : exists size r v loc ppl soc m, 2 <= size /\ length soc <= length ppl /\ read_soc size r v loc ppl soc = Ok m /\
  m (place soc 1 0 * size) = (v 1%nat 1%nat 1%nat / r 1%nat)%R /\ m (place soc 1 0 * size) <> (v 2%nat 0%nat 1%nat / r 1%nat)%R.
Proof.
  exists 2, (fun j => INR j), (fun l k j => INR (l + 3 * k)), 7, [1; 2; 2], [2; 2].
  eexists. split; [lia|]. split; [cbn; lia|]. split; [reflexivity|]. unfold place. cbn. split; [reflexivity|]. unfold Rdiv. rewrite Rinv_1. lra.
Qed.
Print Assumptions C85_origin_refuted.

(** And it may be looked up past the end of the array: two projectors of degree 0, one spin-orbit projector of degrees 1 and 2. *)
Theorem C85_overrun_refuted : exists size r v loc ppl soc, 2 <= size /\ length soc <= length ppl /\ read_soc size r v loc ppl soc = UB.
Proof. exists 2, (fun j => INR j), (fun l k j => 1%R), 7, [2; 2; 2], [1; 1]. split; [lia|]. split; [cbn; lia|]. reflexivity. Qed.
Print Assumptions C85_overrun_refuted.

Lemma spl_snd loc : forall ppl l c2 c, map snd (spl loc l c2 c ppl) = seq c (spl_size loc l ppl).
Proof.
  induction ppl as [|n ppl IH]; intros l c2 c; cbn [spl spl_size]; [reflexivity|]. destruct (l =? loc); [apply IH|].
  rewrite map_app, map_map, IH. cbn [snd]. rewrite seq_app. f_equal. clear. revert c. induction n as [|n IH]; intros c; [reflexivity|].
  cbn [seq map]. rewrite Nat.add_0_r. f_equal. rewrite <- seq_shift, map_map. rewrite <- (IH (S c)). apply map_ext. intros; lia.
Qed.
Lemma spl_in loc : forall ppl l c2 c a b, In (a, b) (spl loc l c2 c ppl) -> exists i np, i < length ppl /\ l + i <> loc /\ np < nth i ppl 0 /\ a = c2 + place ppl i np.
Proof.
  induction ppl as [|n ppl IH]; intros l c2 c a b H; [destruct H|]. cbn [spl] in H.
  assert (T : forall c', In (a, b) (spl loc (S l) (c2 + n) c' ppl) -> exists i np, i < length (n :: ppl) /\ l + i <> loc /\ np < nth i (n :: ppl) 0 /\ a = c2 + place (n :: ppl) i np).
  { intros c' I. apply IH in I. destruct I as (i & np & A & B & D & E). exists (S i), np. cbn [length nth]. unfold place in *. cbn [firstn list_sum fold_right]. unfold list_sum in E. repeat split; lia. }
  destruct (Nat.eqb_spec l loc) as [e|ne]; [now apply (T c)|]. apply in_app_or in H. destruct H as [H|H]; [|now apply (T (c + n))].
  apply in_map_iff in H. destruct H as (np & E & I). injection E as <- <-. apply in_seq in I. exists 0, np. unfold place. cbn. repeat split; lia.
Qed.
Lemma chi_in loc : forall ppl l c2 c d m a b, In (d, m, (a, b)) (chi loc l c2 c ppl) ->
  In (a, b) (spl loc l c2 c ppl) /\ exists i np, d = l + i /\ i < length ppl /\ d <> loc /\ np < nth i ppl 0 /\ m < 2 * d + 1 /\ a = c2 + place ppl i np.
Proof.
  induction ppl as [|n ppl IH]; intros l c2 c d m a b H; [destruct H|]. cbn [chi spl] in *.
  assert (T : forall c', In (d, m, (a, b)) (chi loc (S l) (c2 + n) c' ppl) -> In (a, b) (spl loc (S l) (c2 + n) c' ppl) /\
    exists i np, d = l + i /\ i < length (n :: ppl) /\ d <> loc /\ np < nth i (n :: ppl) 0 /\ m < 2 * d + 1 /\ a = c2 + place (n :: ppl) i np).
  { intros c' I. apply IH in I. destruct I as (I & i & np & A & B & D & E & G & K). split; [exact I|]. exists (S i), np. cbn [length nth]. unfold place in *. cbn [firstn list_sum fold_right]. unfold list_sum in K. repeat split; lia. }
  destruct (Nat.eqb_spec l loc) as [e|ne]; [now apply T|]. apply in_app_or in H. destruct H as [H|H]; [|apply T in H; destruct H as [H1 H2]; split; [apply in_or_app; now right|exact H2]].
  apply in_flat_map in H. destruct H as (np & I & H). apply in_map_iff in H. destruct H as (m' & E & J). injection E as <- <- <- <-. split.
  - apply in_or_app. left. apply in_map_iff. exists np. split; [reflexivity|exact I].
  - apply in_seq in I, J. exists 0, np. unfold place. cbn. repeat split; lia.
Qed.
Lemma chi_all loc : forall ppl l c2 c i np m, i < length ppl -> l + i <> loc -> np < nth i ppl 0 -> m < 2 * (l + i) + 1 -> exists b, In (l + i, m, (c2 + place ppl i np, b)) (chi loc l c2 c ppl).
Proof.
  induction ppl as [|n ppl IH]; intros l c2 c i np m Hi Hl Hn Hm; [cbn in Hi; lia|]. cbn [chi]. destruct i as [|i]; cbn [length nth] in *.
  - rewrite Nat.add_0_r in *. destruct (Nat.eqb_spec l loc); [contradiction|]. exists (c + np). apply in_or_app. left. apply in_flat_map. exists np. split; [apply in_seq; lia|].
    apply in_map_iff. exists m. split; [reflexivity|]. apply in_seq. lia.
  - assert (P : c2 + place (n :: ppl) (S i) np = c2 + n + place ppl i np) by (unfold place; cbn [firstn list_sum fold_right]; unfold list_sum; lia). rewrite P.
    replace (l + S i) with (S l + i) in * by lia. destruct (Nat.eqb_spec l loc).
    + apply IH; lia.
    + destruct (IH (S l) (c2 + n) (c + n) i np m) as (b & I); [lia|lia|lia|lia|]. exists b. apply in_or_app. now right.
Qed.
Lemma chi_len loc : forall ppl l c2 c, length (chi loc l c2 c ppl) = chi_size loc l ppl.
Proof.
  induction ppl as [|n ppl IH]; intros l c2 c; cbn [chi chi_size]; [reflexivity|]. destruct (l =? loc); [apply IH|]. rewrite app_length, IH. f_equal.
  assert (G : forall k s, length (flat_map (fun np => map (fun m => (l, m, (c2 + np, c + np))) (seq 0 (2 * l + 1))) (seq s k)) = k * (2 * l + 1)); [|apply G].
  induction k as [|k IHk]; intros s; [reflexivity|]. cbn [seq flat_map]. rewrite app_length, IHk, map_length, seq_length. lia.
Qed.

(** The slopes of the projectors fill the allocated tables one by one, each computed from a projector of a degree that is not
    the local one. *)
Theorem C85_slopes : forall loc ppl, map snd (spl loc 0 0 0 ppl) = seq 0 (spl_size loc 0 ppl) /\
  (forall a b, In (a, b) (spl loc 0 0 0 ppl) -> exists l np, l < length ppl /\ l <> loc /\ np < nth l ppl 0 /\ a = place ppl l np).
Proof. intros loc ppl. split; [apply spl_snd|]. intros a b H. apply spl_in in H. exact H. Qed.
Print Assumptions C85_slopes.

(** The columns of the projector matrix fill the allocated columns; there is one for every projector and order of every degree but
    the local one, made of the table of this projector and of the slopes computed from this very table. *)
Theorem C85_columns : forall loc ppl, length (chi loc 0 0 0 ppl) = chi_size loc 0 ppl /\
  (forall l m a b, In (l, m, (a, b)) (chi loc 0 0 0 ppl) -> In (a, b) (spl loc 0 0 0 ppl) /\ l <> loc /\ m < 2 * l + 1 /\ exists np, l < length ppl /\ np < nth l ppl 0 /\ a = place ppl l np) /\
  (forall l np m, l < length ppl -> l <> loc -> np < nth l ppl 0 -> m < 2 * l + 1 -> exists b, In (l, m, (place ppl l np, b)) (chi loc 0 0 0 ppl)).
Proof.
  intros loc ppl. split; [apply chi_len|]. split.
  - intros l m a b H. apply chi_in in H. destruct H as (I & i & np & -> & A & B & D & E & G). split; [exact I|]. split; [exact B|]. split; [exact E|]. exists np. auto.
  - intros l np m A B D E. apply (chi_all loc ppl 0 0 0 l np m A B D E).
Qed.
Print Assumptions C85_columns.

(** degree, order and table of values of a column *)
Definition key (x : nat * nat * (nat * nat)) : nat * nat * nat := (fst (fst x), snd (fst x), fst (snd x)).
Lemma chi_deg loc : forall ppl l c2 c x, In x (chi loc l c2 c ppl) -> l <= fst (fst x).
Proof. intros ppl l c2 c [[d m] [a b]] H. apply chi_in in H. destruct H as (_ & i & np & -> & _). cbn. lia. Qed.
Lemma NoDup_app2 T (xs ys : list T) : NoDup xs -> NoDup ys -> (forall x, In x xs -> ~ In x ys) -> NoDup (xs ++ ys).
Proof.
  induction 1 as [|x xs N1 N2 IH]; intros H D; cbn [app]; [exact H|]. constructor.
  - intros I. apply in_app_or in I. destruct I as [I|I]; [contradiction|]. apply (D x); [now left|exact I].
  - apply IH; [exact H|]. intros y Hy. apply D. now right.
Qed.
Lemma chi_nodup loc : forall ppl l c2 c, NoDup (map key (chi loc l c2 c ppl)).
Proof.
  induction ppl as [|n ppl IH]; intros l c2 c; cbn [chi]; [constructor|]. destruct (l =? loc); [apply IH|]. rewrite map_app. apply NoDup_app2; [|apply IH|].
  - assert (G : forall k s, NoDup (map key (flat_map (fun np => map (fun m => (l, m, (c2 + np, c + np))) (seq 0 (2 * l + 1))) (seq s k)))); [|apply G].
    induction k as [|k IHk]; intros s; [constructor|]. cbn [seq flat_map]. rewrite map_app. apply NoDup_app2; [|apply IHk|].
    + rewrite map_map. cbn. apply FinFun.Injective_map_NoDup; [|apply seq_NoDup]. intros x y E. now injection E.
    + intros x I J. apply in_map_iff in I, J. destruct I as (y & <- & I), J as (z & E & J). apply in_map_iff in I. destruct I as (m & <- & _).
      apply in_flat_map in J. destruct J as (np & J1 & J2). apply in_map_iff in J2. destruct J2 as (m' & <- & _). apply in_seq in J1. unfold key in E. cbn in E. injection E. lia.
  - intros x I J. apply in_map_iff in I, J. destruct I as (y & <- & I), J as (z & E & J). apply chi_deg in J. apply in_flat_map in I. destruct I as (np & _ & I).
    apply in_map_iff in I. destruct I as (m & <- & _). unfold key in E. cbn in E. injection E. lia.
Qed.
(** No projector and order has two columns. *)
Theorem C85_once : forall loc ppl, NoDup (map key (chi loc 0 0 0 ppl)).
Proof. intros. apply chi_nodup. Qed.
Print Assumptions C85_once.

(** two projectors of degrees 0 and 1, degree 2 local, one projector of degree 3 *)
Example C85_case : map snd (spl 2 0 0 0 [2; 2; 1; 1]) = [0; 1; 2; 3; 4] /\ map fst (spl 2 0 0 0 [2; 2; 1; 1]) = [0; 1; 2; 3; 5] /\ length (chi 2 0 0 0 [2; 2; 1; 1]) = 15.
Proof. repeat split. Qed.
Example C85_soc_case : exists m, read_soc 3 INR (fun l k j => INR (l * j * j)) 7 [2; 2; 1] [2; 1] = Ok m /\ m (place [2; 1] 1 0 * 3) = 2%R.
Proof.
  destruct (C85_soc 3 INR (fun l k j => INR (l * j * j)) 7 [2; 2; 1] [2; 1]) as (m & E & A); [lia|cbn; lia| |].
  - intros [|[|i]] Hi _ _; cbn in *; lia.
  - exists m. split; [exact E|]. specialize (A 1 0 0). rewrite Nat.add_0_r in A. rewrite A by (cbn; lia). cbn. field.
Qed.
