(** C70: the nonlocal operator (/repo/src/nlocVecRoutines.c:394-1003). *)
From Coq Require Import ZArith QArith Qround List Lia Bool Permutation Ring Lqa.
From Verif Require Import CBase Nloc NlocSpec NlocLem P_Nloc VnlOp VnlLem VnlSpec VnlMain.
Import ListNotations.
Local Open Scope Z_scope.

(** ** The columns of the projector matrix *)
Lemma cols_in : forall ppl l d loc cl, 0 <= l -> Forall (fun n => 0 <= n) ppl ->
  In cl (cols_from l d loc ppl) <->
  (let '(l', g, m) := cl in l <= l' < l + Z.of_nat (length ppl) /\ l' <> loc /\ - l' <= m <= l' /\
   d + zsum (firstn (Z.to_nat (l' - l)) ppl) <= g < d + zsum (firstn (S (Z.to_nat (l' - l))) ppl)).
Proof.
  induction ppl as [|n ppl IH]; intros l d loc [[l' g] m] Hl HF; cbn [cols_from].
  - cbn. lia.
  - inversion HF as [|? ? Hn HF']; subst. rewrite in_app_iff, (IH (l + 1) (d + n) loc (l', g, m)) by (auto; lia).
    assert (Z1 : forall k, zsum (firstn (S k) (n :: ppl)) = n + zsum (firstn k ppl)) by reflexivity.
    assert (H0 : In (l', g, m) (if l =? loc then [] else
        flat_map (fun np => map (fun m => (l, d + np, m)) (zrange (- l) l)) (zrange 0 (n - 1))) <->
      l' = l /\ l <> loc /\ - l <= m <= l /\ d <= g < d + n).
    { destruct (Z.eqb_spec l loc) as [->|NE]; [cbn; lia|]. rewrite in_flat_map. split.
      - intros (np & A & B). apply in_zrange in A. apply in_map_iff in B. destruct B as (m' & E & B).
        apply in_zrange in B. injection E as <- <- <-. lia.
      - intros (-> & _ & Hm & Hg). exists (g - d). split; [apply in_zrange; lia|].
        apply in_map_iff. exists m. split; [f_equal; f_equal; lia|apply in_zrange; lia]. }
    rewrite H0. cbn [length]. split.
    + intros [(-> & A & B & D0)|(A & B & D0 & E0)].
      * rewrite Z.sub_diag. cbn [Z.to_nat]. rewrite Z1. cbn [firstn zsum fold_right]. lia.
      * replace (Z.to_nat (l' - l)) with (S (Z.to_nat (l' - (l + 1)))) by lia. rewrite !Z1. lia.
    + intros (A & B & D0 & E0). destruct (Z.eq_dec l' l) as [->|NE].
      * left. rewrite Z.sub_diag in E0. cbn [Z.to_nat] in E0. rewrite Z1 in E0.
        cbn [firstn zsum fold_right] in E0. lia.
      * right. replace (Z.to_nat (l' - l)) with (S (Z.to_nat (l' - (l + 1)))) in E0 by lia.
        rewrite !Z1 in E0. lia.
Qed.

Lemma cols_nodup : forall ppl l d loc, 0 <= l -> Forall (fun n => 0 <= n) ppl -> NoDup (cols_from l d loc ppl).
Proof.
  induction ppl as [|n ppl IH]; intros l d loc Hl HF; cbn [cols_from]; [constructor|].
  inversion HF as [|? ? Hn HF']; subst. apply NoDup_app_disjoint.
  - destruct (l =? loc); [constructor|]. apply NoDup_flat_map; [apply NoDup_zrange| |].
    + intros np _. apply NoDup_map_inj; [|apply NoDup_zrange]. intros x y _ _ E. now injection E.
    + intros x y b _ _ A B. apply in_map_iff in A, B. destruct A as (? & <- & _), B as (? & E & _).
      injection E. lia.
  - apply IH; [lia|assumption].
  - intros [[l' g] m] A B. apply (cols_in ppl (l + 1)) in B; [|lia|assumption].
    destruct (l =? loc); [easy|]. apply in_flat_map in A. destruct A as (np & _ & A).
    apply in_map_iff in A. destruct A as (m' & E & _). injection E. lia.
Qed.

(** Every projector of the pseudopotential has exactly one column. *)
Theorem C70_projectors : forall s, psp_ok s ->
  NoDup (cols s) /\ (forall cl, In cl (cols s) <-> is_projector s cl) /\
  Z.of_nat (length (cols s)) = nproj s.
Proof.
  intros s Hs. split; [|split].
  - apply cols_nodup; [lia|exact Hs].
  - intros [[l g] m]. unfold cols. rewrite cols_in by (auto; lia).
    unfold is_projector. rewrite Z.sub_0_r. split; intros (A & B & C0 & D0); repeat split; auto; lia.
  - now apply cols_len.
Qed.
Print Assumptions C70_projectors.

(** Three channels, the middle one local. *)
Example C70_projectors_example :
  psp_ok (Psp 1 [2; 1; 1]) /\
  cols (Psp 1 [2; 1; 1]) = [(0, 0, 0); (0, 1, 0); (2, 3, -2); (2, 3, -1); (2, 3, 0); (2, 3, 1); (2, 3, 2)].
Proof. split; [repeat constructor; lia|reflexivity]. Qed.

(** ** The operator *)
(** What the caller has to provide about atoms and pseudopotentials: sizes,
    an origin at 0, and projectors that depend on the displacement only and
    vanish from the cutoff on. *)
Record data_ok {K} (zero : K) (chi : nat -> Z * Z * Z -> Q * Q * Q -> K) (gamma : nat -> list K)
    (c : cell) (ats : list atyp) (ps : list psp) : Prop := {
  do_inst : inst_ok ats ps;
  do_org : (a_org (ax c) == 0 /\ a_org (ay c) == 0 /\ a_org (az c) == 0)%Q;
  do_ext : forall ty cl x y z x' y' z', (x == x')%Q -> (y == y')%Q -> (z == z')%Q ->
    chi ty cl (x, y, z) = chi ty cl (x', y', z');
  do_zero : forall ty t cl v, nth_error ats ty = Some t -> (max_rc t * max_rc t <= norm2 c v)%Q ->
    chi ty cl v = zero;
  do_gamma : forall ty s, nth_error ps ty = Some s -> zsum (p_ppl s) <= Z.of_nat (length (gamma ty)) }.

(** A process: its box meets the preconditions of C69, its influence list is
    the one the code builds, its columns hold the values [X n nd] of the
    vectors, and its arrays are long enough. *)
Record process_ok {K} (c : cell) (pos : list (Q * Q * Q)) (ats : list atyp) (ncol ldi ldo : Z)
    (X : Z -> tri -> K) (pr : @proc K) : Prop := {
  pk_call : call_ok c (pr_dom pr) pos ats;
  pk_list : GetInfluencingAtoms_nloc c (pr_dom pr) pos ats = Ok (pr_inf pr);
  pk_x : in_x (pr_dom pr) ncol ldi (pr_x pr) X;
  pk_ldo : DMnx (pr_dom pr) * DMny (pr_dom pr) * (ze_ (pr_dom pr) - zs_ (pr_dom pr) + 1) <= ldo;
  pk_ldo0 : 0 <= ldo;
  pk_h : (ncol - 1) * ldo + DMnx (pr_dom pr) * DMny (pr_dom pr) * (ze_ (pr_dom pr) - zs_ (pr_dom pr) + 1)
         <= sz (pr_h pr) }.

(** The results [hs] are the arrays [Hx] of the processes with [V n nd] added
    at node [nd] of column [n], and nothing else changed. *)
Definition adds {K} (add : K -> K -> K) (ncol ldo : Z) (V : Z -> tri -> K) (prs : list (@proc K))
    (hs : list (arr K)) : Prop :=
  Forall2 (fun pr h => sz h = sz (pr_h pr) /\
    (forall n nd, 0 <= n < ncol -> In nd (nodes (pr_dom pr)) ->
      at_ h (n * ldo + local_index (pr_dom pr) nd) =
      add (at_ (pr_h pr) (n * ldo + local_index (pr_dom pr) nd)) (V n nd)) /\
    (forall i, (forall n nd, 0 <= n < ncol -> In nd (nodes (pr_dom pr)) ->
        i <> n * ldo + local_index (pr_dom pr) nd) -> at_ h i = at_ (pr_h pr) i)) prs hs.

(** Weights of the images as functions of the row. *)
Definition by_row {K} (w : Q * Q * Q -> K) (e : entry) : K := w (e_x e, e_y e, e_z e).

Lemma range_pos ats (pos : list (Q * Q * Q)) : Forall (fun t => 0 <= t_n t) ats ->
  zsum (map t_n ats) = Z.of_nat (length pos) -> forall k t, nth_error ats k = Some t ->
  0 <= first_atom ats k /\ first_atom ats k + t_n t <= Z.of_nat (length pos).
Proof.
  intros HF <-. induction HF as [|t0 ats Ht HF IH]; intros [|k] t E; try discriminate E.
  - cbn in E. injection E as ->. change (first_atom (t :: ats) 0) with 0.
    change (zsum (map t_n (t :: ats))) with (t_n t + zsum (map t_n ats)).
    assert (0 <= zsum (map t_n ats)); [|lia].
    clear - HF. induction HF as [|t ats Ht HF IH]; cbn; [lia|]. unfold zsum in IH. lia.
  - cbn in E. specialize (IH k t E). change (first_atom (t0 :: ats) (S k)) with (t_n t0 + first_atom ats k).
    change (zsum (map t_n (t0 :: ats))) with (t_n t0 + zsum (map t_n ats)). lia.
Qed.

Theorem C70_operator : forall (K : Type) (zero one : K) add mul sub opp,
  ring_theory zero one add mul sub opp eq ->
  forall chi gamma dV (w1 w2 : Q * Q * Q -> K) c pos ats ps grid All,
  data_ok zero chi gamma c ats ps -> all_images c pos grid (sites 0 0 ats ps) All ->
  forall ncol ldi ldo X prs, 0 <= ncol -> prs <> [] ->
  Forall (process_ok c pos ats ncol ldi ldo X) prs ->
  Permutation (flat_map (fun pr => nodes (pr_dom pr)) prs) grid ->
  exists hs,
    Vnl_all zero add mul chi gamma (by_row w1) (by_row w2) dV c (combine (map t_n ats) ps) ncol ldi ldo prs = Ok hs /\
    adds add ncol ldo (fun n => Vnl_spec zero add mul chi gamma dV c pos All w1 w2 grid (sites 0 0 ats ps) (X n)) prs hs.
Proof.
  intros K zero one add mul sub opp Rth chi gamma dV w1 w2 c pos ats ps grid All [D1 D2 D3 D4 D5] HA
    ncol ldi ldo X prs Hnc NE HP HG.
  assert (HPos : forall k t, nth_error ats k = Some t ->
    0 <= first_atom ats k /\ first_atom ats k + t_n t <= Z.of_nat (length pos)).
  { destruct prs as [|pr prs]; [now destruct NE|]. inversion HP as [|? ? [(_ & _ & _ & HN) _ _ _ _ _] _]; subst.
    apply range_pos; [apply D1|exact HN]. }
  refine (Vnl_ok zero one add mul sub opp Rth chi gamma w1 w2 dV c pos ats ps grid All D1 D2 D3 _ HPos HA D5
    ncol ldi ldo X prs Hnc _ HG).
  - intros st cl v Hst Hn. apply in_sites in Hst. destruct Hst as (k & t & s & A & _ & B & _ & C0 & _).
    rewrite B. apply (D4 _ t); [exact A|]. now rewrite <- C0.
  - apply Forall_forall. intros pr Hpr. rewrite Forall_forall in HP.
    destruct (HP pr Hpr) as [P1 P2 P3 P4 P5 P6].
    destruct (C69_list _ _ _ _ P1) as (L & E & LL & HR). rewrite P2 in E. injection E as <-.
    constructor; auto. constructor; auto.
    + destruct P1 as (_ & HF & _). eapply Forall_impl; [|exact HF]. intros t (HB & _). eauto.
    + intros nd Hnd. eapply Permutation_in; [exact HG|]. apply in_flat_map. eauto.
Qed.
Print Assumptions C70_operator.

(** A list of all images that matter always exists. *)
Theorem C70_images : forall c pos ats ps doms, inst_ok ats ps -> Forall (fun D => call_ok c D pos ats) doms ->
  exists All, all_images c pos (flat_map nodes doms) (sites 0 0 ats ps) All.
Proof.
  intros c pos ats ps doms HO HD. induction HD as [|D doms HC HD (All & IH)].
  - exists (fun _ => []). intros st _. split; [constructor|]. split; [easy|]. intros im nd _ [].
  - destruct (C69_list _ _ _ _ HC) as (L & _ & LL & HR).
    assert (J : forall k, (k <= length ats)%nat -> exists J : list (Z * tri),
      (forall x, In x J -> is_image c (snd x)) /\
      forall ty t a im p0 nd, (ty < k)%nat -> nth_error ats ty = Some t ->
        first_atom ats ty <= a < first_atom ats ty + t_n t -> is_image c im ->
        nth_error pos (Z.to_nat a) = Some p0 -> In nd (nodes D) ->
        (norm2 c (disp c p0 im nd) < max_rc t * max_rc t)%Q -> In (a, im) J).
    { induction k as [|k IHk]; intros Hk.
      - exists []. split; [easy|]. intros; lia.
      - destruct IHk as (J & J1 & J2); [lia|].
        destruct (nth_error ats k) as [t|] eqn:EA; [|apply nth_error_None in EA; lia].
        destruct (nth_error L k) as [es|] eqn:EL; [|apply nth_error_None in EL; lia].
        destruct (HR k t es EA EL) as (ims & _ & _ & I1 & I2). exists (ims ++ J). split.
        + intros [a im] H. apply in_app_iff in H. destruct H as [H|H]; [|now apply J1].
          now apply (I1 a im).
        + intros ty t' a im p0 nd LT E1 Ha Him Hp Hnd Hn. apply in_app_iff.
          destruct (Nat.eq_dec ty k) as [->|N].
          * left. rewrite EA in E1. injection E1 as <-. eapply I2; eauto.
          * right. eapply (J2 ty); eauto. lia. }
    destruct (J (length ats) (le_n _)) as (ims & J1 & J2).
    exists (fun a => nodup tri_dec (map snd (filter (fun x => fst x =? a) ims) ++ All a)).
    intros st Hst. destruct (IH st Hst) as (A & B & C0). split; [apply NoDup_nodup|]. split.
    + intros im Him. apply nodup_In, in_app_iff in Him. destruct Him as [Him|Him]; [|now apply B].
      apply in_map_iff in Him. destruct Him as (x & <- & Hx). apply filter_In in Hx. now apply J1.
    + intros im nd Him Hnd Hn. apply nodup_In, in_app_iff. cbn [flat_map] in Hnd. apply in_app_iff in Hnd.
      destruct Hnd as [Hnd|Hnd]; [left|right; now apply (C0 im nd)].
      apply in_sites in Hst. destruct Hst as (k & t & s & E1 & _ & _ & _ & E2 & R).
      rewrite !Z.add_0_l in R. rewrite E2 in Hn.
      destruct HC as (_ & _ & _ & HN). pose proof (range_pos ats pos (io_n _ _ HO) HN k t E1) as RP.
      destruct (nth_error pos (Z.to_nat (st_atom st))) as [p0|] eqn:EP; [|apply nth_error_None in EP; lia].
      unfold atom_pos in Hn. rewrite (nth_error_nth pos (Z.to_nat (st_atom st)) (0%Q, 0%Q, 0%Q) EP) in Hn.
      apply in_map_iff. exists (st_atom st, im). split; [reflexivity|]. apply filter_In. cbn [fst].
      split; [|apply Z.eqb_refl]. eapply (J2 k); eauto.
      apply nth_error_Some. congruence.
Qed.
Print Assumptions C70_images.

(** The operator does not depend on the division of the grid among processes,
    nor on the leading dimensions: two runs on the same vectors add the same
    values at the same nodes. *)
Theorem C70_division : forall (K : Type) (zero one : K) add mul sub opp,
  ring_theory zero one add mul sub opp eq ->
  forall chi gamma dV (w1 w2 : Q * Q * Q -> K) c pos ats ps, data_ok zero chi gamma c ats ps ->
  forall ncol X ldi ldo prs ldi' ldo' prs', 0 <= ncol -> prs <> [] -> prs' <> [] ->
  Forall (process_ok c pos ats ncol ldi ldo X) prs -> Forall (process_ok c pos ats ncol ldi' ldo' X) prs' ->
  Permutation (flat_map (fun pr => nodes (pr_dom pr)) prs) (flat_map (fun pr => nodes (pr_dom pr)) prs') ->
  exists V hs hs',
    Vnl_all zero add mul chi gamma (by_row w1) (by_row w2) dV c (combine (map t_n ats) ps) ncol ldi ldo prs = Ok hs /\
    Vnl_all zero add mul chi gamma (by_row w1) (by_row w2) dV c (combine (map t_n ats) ps) ncol ldi' ldo' prs' = Ok hs' /\
    adds add ncol ldo V prs hs /\ adds add ncol ldo' V prs' hs'.
Proof.
  intros K zero one add mul sub opp Rth chi gamma dV w1 w2 c pos ats ps HD ncol X ldi ldo prs ldi' ldo' prs'
    Hnc N1 N2 P1 P2 HG.
  destruct (C70_images c pos ats ps (map pr_dom prs')) as (All & HA).
  { apply HD. }
  { apply Forall_forall. intros D H. apply in_map_iff in H. destruct H as (pr & <- & H).
    rewrite Forall_forall in P2. apply P2. exact H. }
  assert (EG : flat_map nodes (map pr_dom prs') = flat_map (fun pr => nodes (pr_dom pr)) prs').
  { clear. induction prs' as [|p l IH]; cbn; [reflexivity|]. now rewrite IH. }
  rewrite EG in HA.
  destruct (C70_operator K zero one add mul sub opp Rth chi gamma dV w1 w2 c pos ats ps _ All HD HA
    ncol ldi ldo X prs Hnc N1 P1 HG) as (hs & E & A).
  destruct (C70_operator K zero one add mul sub opp Rth chi gamma dV w1 w2 c pos ats ps _ All HD HA
    ncol ldi' ldo' X prs' Hnc N2 P2 (Permutation_refl _)) as (hs' & E' & A').
  eexists _, hs, hs'. eauto.
Qed.
Print Assumptions C70_division.

(** ** Linear and Hermitian *)
Section ALG.
Context {K : Type} (zero one : K) (add mul sub : K -> K -> K) (opp : K -> K).
Context (Rth : ring_theory zero one add mul sub opp eq).
Add Ring KR3 : Rth.
Notation ksum := (ksum zero add).

Lemma overlap_lin chi dV c pos All w grid a f g st cl :
  overlap zero add mul chi dV c pos All w grid (fun nd => add (mul a (f nd)) (g nd)) st cl =
  add (mul a (overlap zero add mul chi dV c pos All w grid f st cl))
      (overlap zero add mul chi dV c pos All w grid g st cl).
Proof.
  unfold overlap. rewrite <- (ksum_mul_l _ _ _ _ _ _ Rth), <- (ksum_add _ _ _ _ _ _ Rth).
  apply ksum_ext. intros nd _. ring.
Qed.

Lemma spec_lin chi gamma dV (w1 w2 : Q * Q * Q -> K) c pos All grid ss a f g nd :
  Vnl_spec zero add mul chi gamma dV c pos All w1 w2 grid ss (fun nd => add (mul a (f nd)) (g nd)) nd =
  add (mul a (Vnl_spec zero add mul chi gamma dV c pos All w1 w2 grid ss f nd))
      (Vnl_spec zero add mul chi gamma dV c pos All w1 w2 grid ss g nd).
Proof.
  unfold Vnl_spec. rewrite <- (ksum_mul_l _ _ _ _ _ _ Rth), <- (ksum_add _ _ _ _ _ _ Rth).
  apply ksum_ext. intros st _. rewrite <- (ksum_mul_l _ _ _ _ _ _ Rth), <- (ksum_add _ _ _ _ _ _ Rth).
  apply ksum_ext. intros cl _. rewrite overlap_lin. ring.
Qed.

Lemma spec_herm : forall cj : K -> K,
  (forall x y, cj (add x y) = add (cj x) (cj y)) -> (forall x y, cj (mul x y) = mul (cj x) (cj y)) ->
  cj zero = zero -> (forall x, cj (cj x) = x) ->
  forall chi gamma dV (w1 w2 : Q * Q * Q -> K) c pos All grid ss,
  (forall ty cl v, cj (chi ty cl v) = chi ty cl v) -> (forall ty x, In x (gamma ty) -> cj x = x) -> cj dV = dV ->
  (forall r, w2 r = cj (w1 r)) ->
  forall f g,
  let V := Vnl_spec zero add mul chi gamma dV c pos All w1 w2 grid ss in
  let ip u v := VnlOp.ksum zero add (map (fun nd : tri => mul (cj (u nd)) (v nd)) grid) in
  ip g (V f) = cj (ip f (V g)).
Proof.
  intros cj cja cjm cj0 cjj chi gamma dV w1 w2 c pos All grid ss Hchi Hgam HdV Hw f g.
  cbv zeta.
  assert (CS : forall (A : Type) (h : A -> K) l, cj (VnlOp.ksum zero add (map h l)) =
     VnlOp.ksum zero add (map (fun x => cj (h x)) l)).
  { intros A h l. induction l as [|x l IH]; cbn [map VnlOp.ksum]; [exact cj0|]. now rewrite cja, IH. }
  assert (P2 : forall st cl nd, projector zero add mul chi c pos All w2 st cl nd =
     cj (projector zero add mul chi c pos All w1 st cl nd)).
  { intros st cl nd. unfold projector. rewrite CS. apply ksum_ext. intros im _. rewrite cjm, Hw, Hchi. reflexivity. }
  assert (G : forall st cl, cj (gamma_of zero gamma st cl) = gamma_of zero gamma st cl).
  { intros st cl. unfold gamma_of. destruct (nth_in_or_default (Z.to_nat (snd (fst cl))) (gamma (st_typ st)) zero) as [I|E].
    - apply (Hgam (st_typ st)). exact I.
    - rewrite E. exact cj0. }
  set (S := fun st cl u => VnlOp.ksum zero add (map (fun nd : tri =>
     mul (projector zero add mul chi c pos All w1 st cl nd) (u nd)) grid)).
  assert (IP : forall u v, VnlOp.ksum zero add (map (fun nd : tri => mul (cj (u nd))
      (Vnl_spec zero add mul chi gamma dV c pos All w1 w2 grid ss v nd)) grid) =
    VnlOp.ksum zero add (map (fun st => VnlOp.ksum zero add (map (fun cl =>
      mul (mul (gamma_of zero gamma st cl) dV) (mul (cj (S st cl u)) (S st cl v))) (cols (st_psp st)))) ss)).
  { intros u v. unfold Vnl_spec.
    transitivity (VnlOp.ksum zero add (map (fun nd : tri => VnlOp.ksum zero add (map (fun st =>
      VnlOp.ksum zero add (map (fun cl => mul (cj (u nd)) (mul (gamma_of zero gamma st cl)
      (mul (projector zero add mul chi c pos All w2 st cl nd) (overlap zero add mul chi dV c pos All w1 grid v st cl))))
      (cols (st_psp st)))) ss)) grid)).
    { apply ksum_ext. intros nd _. rewrite <- (ksum_mul_l _ _ _ _ _ _ Rth). apply ksum_ext. intros st _.
      now rewrite <- (ksum_mul_l _ _ _ _ _ _ Rth). }
    rewrite (ksum_swap _ _ _ _ _ _ Rth). apply ksum_ext. intros st _.
    rewrite (ksum_swap _ _ _ _ _ _ Rth). apply ksum_ext. intros cl _.
    assert (O : overlap zero add mul chi dV c pos All w1 grid v st cl = mul dV (S st cl v)).
    { unfold overlap, S. rewrite <- (ksum_mul_l _ _ _ _ _ _ Rth). apply ksum_ext. intros nd _. ring. }
    rewrite O. unfold S at 2. rewrite CS.
    rewrite <- (ksum_mul_r _ _ _ _ _ _ Rth), <- (ksum_mul_l _ _ _ _ _ _ Rth).
    apply ksum_ext. intros nd _. rewrite P2, cjm. ring. }
  etransitivity; [exact (IP g f)|]. etransitivity; [|exact (f_equal cj (eq_sym (IP f g)))].
  rewrite CS. apply ksum_ext. intros st _. rewrite CS. apply ksum_ext. intros cl _.
  rewrite !cjm, cjj, G, HdV. ring.
Qed.
End ALG.

Theorem C70_linear : forall (K : Type) (zero one : K) add mul sub opp,
  ring_theory zero one add mul sub opp eq ->
  forall chi gamma dV (w1 w2 : Q * Q * Q -> K) c pos All grid ss a f g nd,
  Vnl_spec zero add mul chi gamma dV c pos All w1 w2 grid ss (fun nd => add (mul a (f nd)) (g nd)) nd =
  add (mul a (Vnl_spec zero add mul chi gamma dV c pos All w1 w2 grid ss f nd))
      (Vnl_spec zero add mul chi gamma dV c pos All w1 w2 grid ss g nd).
Proof.
  intros K zero one add mul sub opp Rth. exact (spec_lin zero one add mul sub opp Rth).
Qed.
Print Assumptions C70_linear.

(** With weights that are conjugate to each other, and [chi], [gamma], [dV]
    real (fixed by the conjugation [cj]), the operator is Hermitian for the
    grid inner product.  The identity as [cj] gives the symmetric operator of
    the Gamma point. *)
Theorem C70_hermitian : forall (K : Type) (zero one : K) add mul sub opp,
  ring_theory zero one add mul sub opp eq -> forall cj : K -> K,
  (forall x y, cj (add x y) = add (cj x) (cj y)) -> (forall x y, cj (mul x y) = mul (cj x) (cj y)) ->
  cj zero = zero -> (forall x, cj (cj x) = x) ->
  forall chi gamma dV (w1 w2 : Q * Q * Q -> K) c pos All grid ss,
  (forall ty cl v, cj (chi ty cl v) = chi ty cl v) -> (forall ty x, In x (gamma ty) -> cj x = x) -> cj dV = dV ->
  (forall r, w2 r = cj (w1 r)) ->
  forall f g,
  let V := Vnl_spec zero add mul chi gamma dV c pos All w1 w2 grid ss in
  let ip u v := VnlOp.ksum zero add (map (fun nd : tri => mul (cj (u nd)) (v nd)) grid) in
  ip g (V f) = cj (ip f (V g)).
Proof.
  intros K zero one add mul sub opp Rth. exact (spec_herm zero one add mul sub opp Rth).
Qed.
Print Assumptions C70_hermitian.

(** ** A concrete case *)
(** The cube of C69: two atoms with one s projector, one atom with three p
    projectors; integer projectors that vanish from the cutoff on. *)
Definition ex_ps : list psp := [Psp 1 [1; 1]; Psp 0 [1; 1]].
Definition ex_rc (ty : nat) : Q := match ty with O => 2%Q | _ => (3 # 2)%Q end.
Definition ex_chi (ty : nat) (cl v : Z * Z * Z) : Z :=
  let '(l, g, m) := cl in let '(x, y, z) := v in 1 + l + m + 2 * x + 3 * g.
Definition ex_floor (v : Q * Q * Q) : Z * Z * Z :=
  let '(x, y, z) := v in (Qfloor x, Qfloor y, Qfloor z).
(** [closed]: nonzero also at the cutoff itself. *)
Definition ex_proj (closed : bool) (ty : nat) (cl : Z * Z * Z) (v : Q * Q * Q) : Z :=
  let n := norm2 ex_cell v in
  if Qle_bool (ex_rc ty * ex_rc ty) n && negb (closed && Qle_bool n (ex_rc ty * ex_rc ty)) then 0
  else ex_chi ty cl (ex_floor v).
Definition ex_gamma (ty : nat) : list Z := match ty with O => [2; 90] | _ => [90; 3] end.
Definition ex_w (r : Q * Q * Q) : Z := 1.
Definition ex_X (n : Z) (nd : tri) : Z := let '(i, j, k) := nd in i + 2 * j + 3 * k + 7 * n + 1.
Definition ex_proc (D : dom) (ld : Z) : @proc Z :=
  Proc D (match GetInfluencingAtoms_nloc ex_cell D ex_pos ex_ts with Ok L => L | _ => [] end)
    (Arr (2 * ld) (fun i => nth (Z.to_nat (i mod ld)) (map (ex_X (i / ld)) (nodes D)) 0))
    (Arr (2 * ld) (fun i => 0)).
Definition ex_Vnl (closed : bool) (ld : Z) (prs : list (@proc Z)) : outcome (list (arr Z)) :=
  Vnl_all 0 Z.add Z.mul (ex_proj closed) ex_gamma (by_row ex_w) (by_row ex_w) 1 ex_cell
    (combine (map t_n ex_ts) ex_ps) 2 ld ld prs.

Lemma ex_data : data_ok 0 (ex_proj false) ex_gamma ex_cell ex_ts ex_ps.
Proof.
  constructor.
  - constructor; [reflexivity| |]; repeat constructor; cbn; lia.
  - repeat split; reflexivity.
  - intros ty cl x y z x' y' z' Hx Hy Hz. unfold ex_proj.
    assert (N : (norm2 ex_cell (x, y, z) == norm2 ex_cell (x', y', z'))%Q).
    { unfold norm2. cbn [ex_cell c_typ Z.eqb]. now rewrite Hx, Hy, Hz. }
    cbv zeta. rewrite N. cbn [ex_floor]. now rewrite Hx, Hy, Hz.
  - intros ty t cl v E H. unfold ex_proj. cbn [andb negb]. rewrite andb_true_r.
    assert (R : (ex_rc ty * ex_rc ty <= norm2 ex_cell v)%Q).
    { destruct ty as [|[|ty]]; cbn in E; [injection E as <-..|destruct ty; discriminate E]; exact H. }
    apply Qle_bool_iff in R. now rewrite R.
  - intros [|[|ty]] s E; cbn in E; [injection E as <-..|destruct ty; discriminate E]; cbn; lia.
Qed.

Lemma ex_process D ld : call_ok ex_cell D ex_pos ex_ts ->
  DMnx D * DMny D * (ze_ D - zs_ D + 1) <= ld -> 0 < ld ->
  forallb (fun nd => (0 <=? local_index D nd) && (local_index D nd <? ld) &&
    match nth_error (nodes D) (Z.to_nat (local_index D nd)) with
    | Some (i, j, k) => let '(i', j', k') := nd in (i =? i') && (j =? j') && (k =? k')
    | None => false end) (nodes D) = true ->
  process_ok ex_cell ex_pos ex_ts 2 ld ld ex_X (ex_proc D ld).
Proof.
  intros HC H H0 HN. destruct (C69_list _ _ _ _ HC) as (L & E & _). constructor; cbn [ex_proc pr_dom pr_inf pr_x pr_h sz].
  - exact HC.
  - rewrite E. reflexivity.
  - split; [lia|]. split; [cbn [sz]; lia|]. intros n nd Hn Hnd.
    rewrite forallb_forall in HN. specialize (HN nd Hnd). apply andb_true_iff in HN.
    destruct HN as [B HN]. apply andb_true_iff in B. destruct B as [B1 B2].
    apply Z.leb_le in B1. apply Z.ltb_lt in B2. cbn [at_].
    rewrite (Z.add_comm (n * ld)), Z.mod_add, Z.div_add, Z.mod_small, Z.div_small, Z.add_0_l by lia.
    destruct (nth_error (nodes D) (Z.to_nat (local_index D nd))) as [[[i j] k]|] eqn:EN; [|discriminate HN].
    destruct nd as [[i' j'] k'].
    apply (map_nth_error (ex_X n)) in EN. rewrite (nth_error_nth _ _ 0 EN).
    apply andb_true_iff in HN. destruct HN as [HN B4]. apply andb_true_iff in HN. destruct HN as [B3 B5].
    apply Z.eqb_eq in B3, B4, B5. now subst.
  - exact H.
  - lia.
  - lia.
Qed.

Lemma ex_procs :
  Forall (process_ok ex_cell ex_pos ex_ts 2 220 220 ex_X) [ex_proc ex_all 220] /\
  Forall (process_ok ex_cell ex_pos ex_ts 2 110 110 ex_X) [ex_proc ex_lo 110; ex_proc ex_hi 110] /\
  Permutation (nodes ex_lo ++ nodes ex_hi ++ []) (nodes ex_all ++ []).
Proof.
  destruct ex_ok as (O1 & O2 & O3). split; [|split].
  - constructor; [|constructor]. apply ex_process; [exact O3|vm_compute; discriminate|lia|vm_compute; reflexivity].
  - constructor; [|constructor; [|constructor]]; (apply ex_process; [assumption|vm_compute; discriminate|lia|vm_compute; reflexivity]).
  - rewrite !app_nil_r. apply NoDup_Permutation.
    + apply NoDup_app_disjoint; try apply NoDup_nodes.
      intros [[i j] k] A B. apply in_nodes in A, B. cbn in A, B. lia.
    + apply NoDup_nodes.
    + intros [[i j] k]. rewrite in_app_iff, !in_nodes. cbn. lia.
Qed.

(** The hypotheses of [C70_division] hold, and the values at two nodes, one of
    them influenced through an image, agree and are not 0. *)
Definition ex_at (o : outcome (list (arr Z))) (p : nat) (i : Z) : Z :=
  match o with Ok l => match nth_error l p with Some h => at_ h i | None => 0 end | _ => 0 end.
Example C70_example :
  ex_at (ex_Vnl false 220 [ex_proc ex_all 220]) 0 (220 + local_index ex_all (0, 1, 3)) =
  ex_at (ex_Vnl false 110 [ex_proc ex_lo 110; ex_proc ex_hi 110]) 0 (110 + local_index ex_lo (0, 1, 3)) /\
  ex_at (ex_Vnl false 220 [ex_proc ex_all 220]) 0 (220 + local_index ex_all (5, 1, 3)) =
  ex_at (ex_Vnl false 110 [ex_proc ex_lo 110; ex_proc ex_hi 110]) 1 (110 + local_index ex_hi (5, 1, 3)) /\
  ex_at (ex_Vnl false 220 [ex_proc ex_all 220]) 0 (220 + local_index ex_all (0, 1, 3)) <> 0 /\
  ex_at (ex_Vnl false 220 [ex_proc ex_all 220]) 0 (220 + local_index ex_all (5, 1, 3)) <> 0.
Proof. vm_compute. repeat split; discriminate. Qed.

Lemma ex_pick (o o' : outcome (list (arr Z))) i i' :
  match o, o' with Ok (h :: _), Ok (h1 :: _ :: _) => negb (at_ h i =? at_ h1 i') | _, _ => false end = true ->
  exists h hs h1 h1' hs', o = Ok (h :: hs) /\ o' = Ok (h1 :: h1' :: hs') /\ at_ h i <> at_ h1 i'.
Proof.
  destruct o as [[|h hs]| |]; try discriminate. destruct o' as [[|h1 [|h1' hs']]| |]; try discriminate.
  intros H. exists h, hs, h1, h1', hs'. split; [reflexivity|]. split; [reflexivity|].
  intros E. rewrite E, Z.eqb_refl in H. discriminate H.
Qed.

(** A projector that does not vanish at the cutoff itself makes the result
    depend on the division (see C69_edge_refuted). *)
Theorem C70_edge_refuted : exists (chi : nat -> Z * Z * Z -> Q * Q * Q -> Z) gamma w c pos ats ps
    ldi prs ldi' prs' h hs h1 h1' hs',
  (forall ty t cl v, nth_error ats ty = Some t -> (max_rc t * max_rc t < norm2 c v)%Q -> chi ty cl v = 0) /\
  Forall (process_ok c pos ats 2 ldi ldi ex_X) prs /\ Forall (process_ok c pos ats 2 ldi' ldi' ex_X) prs' /\
  Permutation (flat_map (fun pr => nodes (pr_dom pr)) prs) (flat_map (fun pr => nodes (pr_dom pr)) prs') /\
  Vnl_all 0 Z.add Z.mul chi gamma (by_row w) (by_row w) 1 c (combine (map t_n ats) ps) 2 ldi ldi prs = Ok (h :: hs) /\
  Vnl_all 0 Z.add Z.mul chi gamma (by_row w) (by_row w) 1 c (combine (map t_n ats) ps) 2 ldi' ldi' prs' =
    Ok (h1 :: h1' :: hs') /\
  at_ h (local_index ex_all (2, 1, 1)) <> at_ h1 (local_index ex_lo (2, 1, 1)).
Proof.
  destruct ex_procs as (P1 & P2 & PG).
  destruct (ex_pick
    (Vnl_all 0 Z.add Z.mul (ex_proj true) ex_gamma (by_row ex_w) (by_row ex_w) 1 ex_cell
      (combine (map t_n ex_ts) ex_ps) 2 220 220 [ex_proc ex_all 220])
    (Vnl_all 0 Z.add Z.mul (ex_proj true) ex_gamma (by_row ex_w) (by_row ex_w) 1 ex_cell
      (combine (map t_n ex_ts) ex_ps) 2 110 110 [ex_proc ex_lo 110; ex_proc ex_hi 110])
    (local_index ex_all (2, 1, 1)) (local_index ex_lo (2, 1, 1))) as (h & hs & h1 & h1' & hs' & E & E' & V);
    [vm_compute; reflexivity|].
  exists (ex_proj true), ex_gamma, ex_w, ex_cell, ex_pos, ex_ts, ex_ps, 220, [ex_proc ex_all 220], 110,
    [ex_proc ex_lo 110; ex_proc ex_hi 110], h, hs, h1, h1', hs'.
  split.
  { intros ty t cl v ET H. unfold ex_proj.
    assert (R : (ex_rc ty * ex_rc ty < norm2 ex_cell v)%Q).
    { destruct ty as [|[|ty]]; cbn in ET; [injection ET as <-..|destruct ty; discriminate ET]; exact H. }
    cbv zeta. destruct (Qle_bool (norm2 ex_cell v) (ex_rc ty * ex_rc ty)) eqn:B.
    - apply Qle_bool_iff in B. exfalso. lra.
    - apply Qlt_le_weak, Qle_bool_iff in R. now rewrite R. }
  split; [exact P1|]. split; [exact P2|]. split; [apply Permutation_sym; exact PG|].
  split; [exact E|]. split; [exact E'|]. exact V.
Qed.
Print Assumptions C70_edge_refuted.
