(** The model of the nonlocal operator (VnlOp.v) computes the formula of
    VnlSpec.v. *)
From Coq Require Import ZArith QArith Qround List Lia Bool Permutation Ring Lqa.
From Verif Require Import CBase Nloc NlocSpec NlocLem P_Nloc VnlOp VnlLem VnlSpec.
Import ListNotations.
Local Open Scope Z_scope.

(** ** Local indices *)
Lemma local_decode D i j k : In (i, j, k) (nodes D) ->
  let g := local_index D (i, j, k) in
  g / (DMnx D * DMny D) = k - zs_ D /\
  (g - g / (DMnx D * DMny D) * (DMnx D * DMny D)) / DMnx D = j - ys_ D /\
  g mod DMnx D = i - xs_ D.
Proof.
  intros H. apply in_nodes in H. destruct H as (Hi & Hj & Hk). cbv zeta. unfold local_index.
  assert (A : 0 <= i - xs_ D < DMnx D) by (unfold DMnx; lia).
  assert (B : 0 <= j - ys_ D < DMny D) by (unfold DMny; lia).
  set (u := i - xs_ D) in *. set (v := j - ys_ D) in *. set (w := k - zs_ D) in *.
  set (X := DMnx D) in *. set (Y := DMny D) in *. clearbody u v w X Y.
  assert (E1 : (u + X * (v + Y * w)) / (X * Y) = w).
  { symmetry. apply Z.div_unique with (r := u + X * v); [left; nia|ring]. }
  rewrite E1. split; [reflexivity|]. split.
  - symmetry. apply Z.div_unique with (r := u); [left; lia|ring].
  - symmetry. apply Z.mod_unique with (q := v + Y * w); [left; lia|ring].
Qed.

Lemma local_inj D x y : In x (nodes D) -> In y (nodes D) ->
  local_index D x = local_index D y -> x = y.
Proof.
  destruct x as [[i j] k], y as [[i' j'] k']. intros Hx Hy E.
  apply local_decode in Hx, Hy. cbv zeta in Hx, Hy. rewrite E in Hx.
  destruct Hx as (A & B & C0), Hy as (A' & B' & C').
  f_equal; [f_equal|]; lia.
Qed.

Lemma NoDup_nodes D : NoDup (nodes D).
Proof.
  rewrite zrange_nodes. apply NoDup_flat_map; [apply NoDup_zrange| |].
  - intros k _. apply NoDup_flat_map; [apply NoDup_zrange| |].
    + intros j _. apply NoDup_flat_map; [apply NoDup_zrange| |].
      * intros i _. repeat constructor. easy.
      * intros x y b _ _ [<-|[]] [E|[]]. now injection E.
    + intros x y b _ _ H1 H2. apply in_flat_map in H1, H2.
      destruct H1 as (i & _ & [<-|[]]), H2 as (i' & _ & [E|[]]). now injection E.
  - intros x y b _ _ H1 H2. apply in_flat_map in H1, H2.
    destruct H1 as (i & _ & H1), H2 as (i' & _ & H2). apply in_flat_map in H1, H2.
    destruct H1 as (j & _ & [<-|[]]), H2 as (j' & _ & [E|[]]). now injection E.
Qed.

Lemma tri_dec (x y : tri) : {x = y} + {x <> y}.
Proof. repeat decide equality; apply Z.eq_dec. Qed.

(** ** Sites *)
Definition tys (ats : list atyp) (ps : list psp) : list (Z * psp) := combine (map t_n ats) ps.

Lemma nth_tys : forall ats ps k t s, nth_error ats k = Some t -> nth_error ps k = Some s ->
  nth_error (tys ats ps) k = Some (t_n t, s).
Proof.
  induction ats as [|t0 ats IH]; intros ps [|k] t s E1 E2; try discriminate E1;
    destruct ps as [|s0 ps]; try discriminate E2; cbn in *.
  - now injection E1 as ->; injection E2 as ->.
  - now apply IH.
Qed.

Lemma first_tys : forall ats ps k, length ps = length ats ->
  first_of (tys ats ps) k = first_atom ats k.
Proof.
  unfold first_of, first_atom. induction ats as [|t ats IH]; intros ps k H; destruct ps as [|s ps]; try discriminate H.
  - cbn [tys combine map]. rewrite !firstn_nil. reflexivity.
  - destruct k as [|k]; [reflexivity|]. cbn [tys combine map firstn]. cbn [zsum fold_right].
    cbn [fst]. specialize (IH ps k). unfold zsum, tys in IH. rewrite IH by (cbn in H; lia). reflexivity.
Qed.

Lemma fst_tys : forall ats ps, length ps = length ats -> map fst (tys ats ps) = map t_n ats.
Proof.
  induction ats as [|t ats IH]; intros [|s ps] H; try discriminate H; [reflexivity|].
  cbn. f_equal. apply IH. cbn in H. lia.
Qed.

Lemma in_sites : forall ats ps ty a st, In st (sites ty a ats ps) <->
  exists k t s, nth_error ats k = Some t /\ nth_error ps k = Some s /\
    st_typ st = (ty + k)%nat /\ st_psp st = s /\ st_rc st = max_rc t /\
    a + first_atom ats k <= st_atom st < a + first_atom ats k + t_n t.
Proof.
  induction ats as [|t ats IH]; intros ps ty a st.
  - cbn [sites]. split; [easy|]. intros ([|k] & t & s & E & _); discriminate E.
  - destruct ps as [|s ps].
    + cbn [sites]. split; [easy|]. intros ([|k] & t' & s & _ & E & _); discriminate E.
    + cbn [sites]. rewrite in_app_iff, in_map_iff, IH. split.
      * intros [(j & <- & Hj)|(k & t' & s' & E1 & E2 & A & B & C0 & D0)].
        -- apply in_zseq in Hj. exists O, t, s. cbn. unfold first_atom. cbn. repeat split; try lia.
        -- exists (S k), t', s'. cbn [nth_error]. change (first_atom (t :: ats) (S k)) with (t_n t + first_atom ats k).
           repeat split; auto; try lia.
      * intros ([|k] & t' & s' & E1 & E2 & A & B & C0 & D0); cbn [nth_error] in E1, E2.
        -- injection E1 as <-. injection E2 as <-. left. exists (st_atom st).
           change (first_atom (t :: ats) 0) with 0 in D0. split.
           ++ destruct st as [x y z w]. cbn [st_typ st_psp st_rc st_atom] in *.
              subst. f_equal. lia.
           ++ apply in_zseq. lia.
        -- right. exists k, t', s'. change (first_atom (t :: ats) (S k)) with (t_n t + first_atom ats k) in D0.
           repeat split; auto; try lia.
Qed.

Lemma first_mono ats : Forall (fun t => 0 <= t_n t) ats -> forall k k' t,
  nth_error ats k = Some t -> (k < k')%nat -> first_atom ats k + t_n t <= first_atom ats k'.
Proof.
  intros H. assert (P : forall k, 0 <= first_atom ats k).
  { clear - H. induction H as [|t ats Ht H IH]; intros [|k]; unfold first_atom in *; cbn; try lia.
    specialize (IH k). unfold zsum in IH. lia. }
  revert P. induction H as [|t0 ats Ht H IH]; intros P [|k] [|k'] t E L; try lia; try discriminate E.
  - cbn in E. injection E as ->. change (first_atom (t :: ats) (S k')) with (t_n t + first_atom ats k').
    specialize (P (S k')). change (first_atom (t :: ats) (S k')) with (t_n t + first_atom ats k') in P.
    change (first_atom (t :: ats) 0) with 0.
    assert (0 <= first_atom ats k'); [|lia].
    clear - H. revert k'. induction H as [|t ats Ht H IH]; intros [|k]; unfold first_atom in *; cbn; try lia.
    specialize (IH k). unfold zsum in IH. lia.
  - change (first_atom (t0 :: ats) (S k')) with (t_n t0 + first_atom ats k').
    change (first_atom (t0 :: ats) (S k)) with (t_n t0 + first_atom ats k).
    specialize (IH) with (k := k) (k' := k') (t := t). cbn in E.
    assert (first_atom ats k + t_n t <= first_atom ats k'); [|lia].
    apply IH; [|exact E|lia].
    clear - H. induction H as [|t ats Ht H IH]; intros [|k]; unfold first_atom in *; cbn; try lia.
    specialize (IH k). unfold zsum in IH. lia.
Qed.

Lemma site_eq ats ps a : Forall (fun t => 0 <= t_n t) ats -> forall st st',
  In st (sites 0 a ats ps) -> In st' (sites 0 a ats ps) -> st_atom st = st_atom st' -> st = st'.
Proof.
  intros HN [x y z w] [x' y' z' w'] H H' E. apply in_sites in H, H'.
  cbn [st_typ st_psp st_rc st_atom] in *. subst w'.
  destruct H as (k & t & s & A & B & C0 & D0 & E0 & F0), H' as (k' & t' & s' & A' & B' & C' & D' & E' & F').
  assert (k = k').
  { destruct (lt_eq_lt_dec k k') as [[L|L]|L]; [|exact L|].
    - pose proof (first_mono ats HN _ _ _ A L). lia.
    - pose proof (first_mono ats HN _ _ _ A' L). lia. }
  subst k'. rewrite A in A'. injection A' as <-. rewrite B in B'. injection B' as <-. subst. reflexivity.
Qed.

Lemma NoDup_sites : forall ats ps ty a, Forall (fun t => 0 <= t_n t) ats -> NoDup (map st_atom (sites ty a ats ps)).
Proof.
  induction ats as [|t ats IH]; intros [|s ps] ty a HN; cbn [sites map]; try constructor.
  inversion HN as [|? ? H0 HN']; subst.
  rewrite map_app, map_map. cbn [st_atom]. rewrite map_id. apply NoDup_app_disjoint.
  - apply NoDup_zseq.
  - now apply IH.
  - intros x Hx Hy. apply in_zseq in Hx. apply in_map_iff in Hy. destruct Hy as (st & <- & Hy).
    apply in_sites in Hy. destruct Hy as (k & t' & s' & A & B & C0 & D0 & E0 & F0).
    destruct k as [|k].
    + change (first_atom ats 0) with 0 in F0. lia.
    + destruct ats as [|t1 ats']; [discriminate A|].
      pose proof (first_mono _ HN' 0 (S k) t1 eq_refl) as M. change (first_atom (t1 :: ats') 0) with 0 in M.
      inversion HN'; subst. lia.
Qed.

(** ** Positions in [alpha] *)
Lemma base_mono ts : ts_ok ts -> forall k k' m s, nth_error ts k = Some (m, s) -> (k < k')%nat ->
  base ts k + m * nproj s <= base ts k'.
Proof.
  intros H. assert (P : forall k, 0 <= base ts k).
  { clear - H. induction H as [|[m s] ts [Hm Hs] H IH]; intros [|k]; unfold base in *; cbn; try lia.
    cbn [fst snd] in *. pose proof (nproj_pos s Hs). specialize (IH k). unfold zsum in IH. nia. }
  clear P. induction H as [|[m0 s0] ts [Hm Hs] H IH]; intros [|k] [|k'] m s E L; try lia; try discriminate E.
  - cbn in E. injection E as -> ->. change (base ((m, s) :: ts) (S k')) with (m * nproj s + base ts k').
    change (base ((m, s) :: ts) 0) with 0.
    assert (0 <= base ts k'); [|lia].
    clear - H. revert k'. induction H as [|[m s] ts [Hm Hs] H IH]; intros [|k]; unfold base in *; cbn; try lia.
    cbn [fst snd] in *. pose proof (nproj_pos s Hs). specialize (IH k). unfold zsum in IH. nia.
  - change (base ((m0, s0) :: ts) (S k')) with (m0 * nproj s0 + base ts k').
    change (base ((m0, s0) :: ts) (S k)) with (m0 * nproj s0 + base ts k).
    specialize (IH k k' m s E). lia.
Qed.

Definition off (ats : list atyp) (ps : list psp) (st : site) : Z :=
  base (tys ats ps) (st_typ st) + (st_atom st - first_atom ats (st_typ st)) * nproj (st_psp st).

Record inst_ok (ats : list atyp) (ps : list psp) : Prop := {
  io_len : length ps = length ats;
  io_n : Forall (fun t => 0 <= t_n t) ats;
  io_ps : Forall psp_ok ps }.

Lemma tys_ok ats ps : inst_ok ats ps -> ts_ok (tys ats ps).
Proof.
  intros [HL HN HP]. unfold ts_ok, tys. revert ps HL HP.
  induction HN as [|t ats Ht HN IH]; intros [|s ps] HL HP; cbn; try constructor; try discriminate HL.
  - inversion HP; subst. cbn. auto.
  - inversion HP; subst. apply IH; [cbn in HL; lia|assumption].
Qed.

Lemma site_psp ats ps st : inst_ok ats ps -> In st (sites 0 0 ats ps) -> psp_ok (st_psp st).
Proof.
  intros HO H. apply in_sites in H. destruct H as (k & t & s & A & B & C0 & <- & _).
  destruct HO as [_ _ HP]. rewrite Forall_forall in HP. apply HP. eapply nth_error_In. exact B.
Qed.

Lemma site_slot ats ps st : inst_ok ats ps -> In st (sites 0 0 ats ps) ->
  exists m, nth_error (tys ats ps) (st_typ st) = Some (m, st_psp st) /\
    0 <= st_atom st - first_atom ats (st_typ st) < m.
Proof.
  intros HO H. apply in_sites in H. destruct H as (k & t & s & A & B & C0 & <- & D0 & E0).
  cbn in C0. subst k. exists (t_n t). split; [now apply nth_tys|]. lia.
Qed.

Lemma off_sep ats ps st st' : inst_ok ats ps -> In st (sites 0 0 ats ps) -> In st' (sites 0 0 ats ps) ->
  st_atom st < st_atom st' -> off ats ps st + nproj (st_psp st) <= off ats ps st'.
Proof.
  intros HO H H' L.
  pose proof (tys_ok _ _ HO) as HT.
  pose proof (nproj_pos _ (site_psp _ _ _ HO H)) as N0. pose proof (nproj_pos _ (site_psp _ _ _ HO H')) as N1.
  destruct (site_slot _ _ _ HO H) as (m & E & R). destruct (site_slot _ _ _ HO H') as (m' & E' & R').
  unfold off. destruct (lt_eq_lt_dec (st_typ st) (st_typ st')) as [[LT|EQ]|GT].
  - pose proof (base_mono _ HT _ _ _ _ E LT) as M.
    assert ((st_atom st - first_atom ats (st_typ st) + 1) * nproj (st_psp st) <= m * nproj (st_psp st)) by nia.
    nia.
  - rewrite EQ in *. rewrite E in E'. injection E' as <- E1. rewrite <- E1 in *. nia.
  - exfalso. apply in_sites in H, H'.
    destruct H as (k & t & s & A & B & C0 & _ & _ & F0), H' as (k' & t' & s' & A' & B' & C' & _ & _ & F').
    cbn in C0, C'. subst k k'. pose proof (first_mono _ (io_n _ _ HO) _ _ _ A' GT). lia.
Qed.

Lemma off_total ats ps st : inst_ok ats ps -> In st (sites 0 0 ats ps) ->
  0 <= off ats ps st /\ off ats ps st + nproj (st_psp st) <= total (tys ats ps).
Proof.
  intros HO H. pose proof (tys_ok _ _ HO) as HT.
  pose proof (nproj_pos _ (site_psp _ _ _ HO H)) as N0.
  destruct (site_slot _ _ _ HO H) as (m & E & R).
  assert (LT : (st_typ st < length (tys ats ps))%nat) by (apply nth_error_Some; now rewrite E).
  pose proof (base_mono _ HT _ _ _ _ E LT) as M.
  assert (B : base (tys ats ps) (length (tys ats ps)) = total (tys ats ps)).
  { unfold base, total. now rewrite firstn_all. }
  assert (P : 0 <= base (tys ats ps) (st_typ st)).
  { clear - HT. generalize (st_typ st). induction HT as [|[a b] ts [Ha Hb] H IH]; intros [|k]; unfold base in *; cbn; try lia.
    cbn [fst snd] in *. pose proof (nproj_pos b Hb). specialize (IH k). unfold zsum in IH. nia. }
  unfold off. split; [nia|].
  assert ((st_atom st - first_atom ats (st_typ st) + 1) * nproj (st_psp st) <= m * nproj (st_psp st)) by nia.
  lia.
Qed.

Lemma slot_inj ats ps ncol st st' n n' p p' : inst_ok ats ps ->
  In st (sites 0 0 ats ps) -> In st' (sites 0 0 ats ps) ->
  0 <= n < ncol -> 0 <= n' < ncol -> 0 <= p < nproj (st_psp st) -> 0 <= p' < nproj (st_psp st') ->
  off ats ps st * ncol + n * nproj (st_psp st) + p = off ats ps st' * ncol + n' * nproj (st_psp st') + p' ->
  st = st' /\ n = n' /\ p = p'.
Proof.
  intros HO H H' Hn Hn' Hp Hp' E.
  assert (B : n * nproj (st_psp st) + p < ncol * nproj (st_psp st)) by nia.
  assert (B' : n' * nproj (st_psp st') + p' < ncol * nproj (st_psp st')) by nia.
  assert (EA : st_atom st = st_atom st').
  { destruct (Z.lt_trichotomy (st_atom st) (st_atom st')) as [L|[L|L]]; [|exact L|].
    - pose proof (off_sep _ _ _ _ HO H H' L).
      assert ((off ats ps st + nproj (st_psp st)) * ncol <= off ats ps st' * ncol) by nia. nia.
    - pose proof (off_sep _ _ _ _ HO H' H L).
      assert ((off ats ps st' + nproj (st_psp st')) * ncol <= off ats ps st * ncol) by nia. nia. }
  pose proof (site_eq _ _ _ (io_n _ _ HO) _ _ H H' EA) as ->. split; [reflexivity|].
  assert (E1 : n * nproj (st_psp st') + p = n' * nproj (st_psp st') + p') by lia.
  assert (n = n') by nia. subst n'. lia.
Qed.

Section RING.
Context {K : Type} (zero one : K) (add mul sub : K -> K -> K) (opp : K -> K).
Context (Rth : ring_theory zero one add mul sub opp eq).
Add Ring KR2 : Rth.

Declare Scope k_scope.
Infix "+" := add : k_scope.
Infix "*" := mul : k_scope.
Delimit Scope k_scope with k.
Notation ksum := (ksum zero add).
Notation sel := (sel zero).

(** ** More sums *)
Lemma ksum_same {A} (dec : forall x y : A, {x = y} + {x <> y}) (f : A -> K) l m :
  NoDup l -> NoDup m -> (forall x, In x l -> ~ In x m -> f x = zero) ->
  (forall x, In x m -> ~ In x l -> f x = zero) -> ksum (map f l) = ksum (map f m).
Proof.
  intros Nl Nm H1 H2.
  set (b := fun x => if in_dec dec x m then true else false).
  assert (NF : NoDup (filter b l)) by now apply NoDup_filter.
  transitivity (ksum (map f (filter b l))).
  - symmetry. apply (ksum_sub _ _ _ _ _ _ Rth dec); auto.
    + intros x Hx. now apply filter_In in Hx.
    + intros x Hx Hf. apply H1; [exact Hx|]. intros Hm. apply Hf. apply filter_In. split; [exact Hx|].
      unfold b. destruct (in_dec dec x m); [reflexivity|contradiction].
  - apply (ksum_sub _ _ _ _ _ _ Rth dec); auto.
    + intros x Hx. apply filter_In in Hx. destruct Hx as [_ Hx]. unfold b in Hx.
      destruct (in_dec dec x m); [assumption|discriminate].
    + intros x Hx Hf. apply H2; [exact Hx|]. intros Hl. apply Hf. apply filter_In. split; [exact Hl|].
      unfold b. destruct (in_dec dec x m); [reflexivity|contradiction].
Qed.

Lemma ksum_only {A} (f : A -> K) l x0 : NoDup l -> In x0 l ->
  (forall x, In x l -> x <> x0 -> f x = zero) -> ksum (map f l) = f x0.
Proof.
  intros N I H. induction N as [|x l Hx N IH]; [easy|]. cbn [map VnlOp.ksum]. destruct I as [->|I].
  - rewrite (ksum_zero _ _ _ _ _ _ Rth f l); [ring|]. intros y Hy. apply H; [now right|].
    intros ->. contradiction.
  - rewrite (H x) by (try (now left); intros ->; contradiction).
    rewrite IH; [ring|exact I|]. intros y Hy. apply H. now right.
Qed.

Lemma ksum_Forall2 {A B} (R : A -> B -> Prop) (f : A -> K) (g : B -> K) l m :
  Forall2 R l m -> (forall x y, In x l -> In y m -> R x y -> f x = g y) -> ksum (map f l) = ksum (map g m).
Proof.
  intros F. induction F as [|x y l m HR F IH]; intros H; cbn [map VnlOp.ksum]; [reflexivity|].
  rewrite (H x y) by (try (now left); exact HR). f_equal. apply IH.
  intros. apply H; try (now right). assumption.
Qed.

(** From rows to sites *)
Lemma flat_sum (G : nat * psp * entry -> K) (F : site -> K) : forall ats ps L ty a,
  length ps = length ats -> length L = length ats ->
  (forall k t s es, nth_error ats k = Some t -> nth_error ps k = Some s -> nth_error L k = Some es ->
     (nproj s = 0 -> forall j, a + first_atom ats k <= j < a + first_atom ats k + t_n t ->
        F (Site (ty + k) s (max_rc t) j) = zero) /\
     (nproj s <> 0 -> ksum (map (fun e => G ((ty + k)%nat, s, e)) es) =
        ksum (map (fun j => F (Site (ty + k) s (max_rc t) j)) (zseq (a + first_atom ats k) (Z.to_nat (t_n t)))))) ->
  ksum (map G (flat_rows ty (tys ats ps) L)) = ksum (map F (sites ty a ats ps)).
Proof.
  induction ats as [|t ats IH]; intros [|s ps] [|es L] ty a H1 H2 H; try discriminate H1; try discriminate H2.
  - reflexivity.
  - change (tys (t :: ats) (s :: ps)) with ((t_n t, s) :: tys ats ps). cbn [flat_rows sites].
    rewrite !map_app, !(ksum_app _ _ _ _ _ _ Rth). f_equal.
    + destruct (H O t s es eq_refl eq_refl eq_refl) as [A B]. rewrite Nat.add_0_r in *.
      change (first_atom (t :: ats) 0) with 0 in B. rewrite Z.add_0_r in B.
      rewrite (map_map _ F). destruct (Z.eqb_spec (nproj s) 0) as [Z0|Z0].
      * cbn [map VnlOp.ksum]. symmetry. apply (ksum_zero _ _ _ _ _ _ Rth). intros j Hj. apply in_zseq in Hj.
        apply A; [exact Z0|]. change (first_atom (t :: ats) 0) with 0. lia.
      * rewrite map_map. rewrite B by exact Z0. reflexivity.
    + apply (IH ps L (S ty) (a + t_n t)%Z); [cbn in H1; lia|cbn in H2; lia|].
      intros k t' s' es' E1 E2 E3. destruct (H (S k) t' s' es' E1 E2 E3) as [A B].
      replace (S ty + k)%nat with (ty + S k)%nat by lia.
      change (first_atom (t :: ats) (S k)) with (t_n t + first_atom ats k) in A, B.
      rewrite Z.add_assoc in A, B. split; [exact A|exact B].
Qed.

Variable chi : nat -> Z * Z * Z -> Q * Q * Q -> K.
Variable gamma : nat -> list K.
Variables w1 w2 : Q * Q * Q -> K.
Variable dV : K.
Variable c : cell.
Variable pos : list (Q * Q * Q).
Variable ats : list atyp.
Variable ps : list psp.
Variable grid : list tri.
Variable All : Z -> list tri.

Definition ph (w : Q * Q * Q -> K) (e : entry) : K := w (e_x e, e_y e, e_z e).
Definition ss : list site := sites 0 0 ats ps.

Hypothesis HO : inst_ok ats ps.
Hypothesis Horg : (a_org (ax c) == 0 /\ a_org (ay c) == 0 /\ a_org (az c) == 0)%Q.
Hypothesis chi_ext : forall ty cl x y z x' y' z', (x == x')%Q -> (y == y')%Q -> (z == z')%Q ->
  chi ty cl (x, y, z) = chi ty cl (x', y', z').
Hypothesis chi_zero : forall st cl v, In st ss -> (st_rc st * st_rc st <= norm2 c v)%Q ->
  chi (st_typ st) cl v = zero.
Hypothesis Hpos : forall k t, nth_error ats k = Some t ->
  0 <= first_atom ats k /\ first_atom ats k + t_n t <= Z.of_nat (length pos).
Hypothesis HAll : all_images c pos grid ss All.

(** ** Rows *)
Lemma nd_val ty cl D e a im p0 rc nd : good_entry c D p0 rc a im e -> In nd (nodes D) ->
  chi ty cl (nd_disp c D e (local_index D nd)) = chi ty cl (disp c p0 im nd).
Proof.
  intros (HE & _) Hnd. destruct nd as [[i j] k], p0 as [[x0 y0] z0], im as [[p q] r].
  destruct (local_decode D i j k Hnd) as (A & B & C0). unfold nd_disp.
  rewrite A in *. rewrite B, C0. unfold disp. unfold image_pos in HE. injection HE as -> -> ->.
  destruct Horg as (O1 & O2 & O3).
  apply chi_ext; rewrite Z.sub_add; [rewrite O1|rewrite O2|rewrite O3]; ring.
Qed.

Lemma good_row D p0 rc a im e rb : box_ok c D rb -> good_entry c D p0 rc a im e -> row_ok D e.
Proof.
  intros HB (_ & _ & HN & HP). destruct rb as [[bx by_] bz].
  destruct HB as (HX & HY & HZ & _).
  destruct HX as [_ _ _ HX _ _ _], HY as [_ _ _ HY _ _ _].
  split; [unfold DMnx; lia|]. split; [unfold DMny; lia|]. split; [exact HN|]. rewrite HP. split.
  - apply NoDup_map_inj.
    + intros x y Hx Hy. apply filter_In in Hx, Hy. now apply local_inj.
    + apply NoDup_filter, NoDup_nodes.
  - apply Forall_forall. intros g Hg. apply in_map_iff in Hg. destruct Hg as ([[i j] k] & <- & Hg).
    apply filter_In in Hg. now apply local_bound.
Qed.

(** The list of a process as C69 describes it. *)
Record listed (D : dom) (L : list (list entry)) : Prop := {
  li_len : length L = length ats;
  li_box : Forall (fun t => exists rb, box_ok c D rb) ats;
  li_grid : incl (nodes D) grid;
  li_rows : forall ty t es, nth_error ats ty = Some t -> nth_error L ty = Some es ->
      exact_rows c D pos (first_atom ats ty) (t_n t) (max_rc t) es }.

Lemma rows_sites D L G (H : site -> tri -> K) : listed D L ->
  (forall st es e im rb, In st ss -> nth_error L (st_typ st) = Some es -> In e es -> box_ok c D rb ->
     good_entry c D (atom_pos pos (st_atom st)) (st_rc st) (st_atom st) im e -> is_image c im ->
     G (st_typ st, st_psp st, e) = H st im) ->
  (forall st im, In st ss -> is_image c im ->
     (forall nd, In nd (nodes D) ->
        (st_rc st * st_rc st <= norm2 c (disp c (atom_pos pos (st_atom st)) im nd))%Q) -> H st im = zero) ->
  (forall st im, In st ss -> nproj (st_psp st) = 0 -> H st im = zero) ->
  ksum (map G (flat_rows 0 (tys ats ps) L)) =
  ksum (map (fun st => ksum (map (H st) (All (st_atom st)))) ss).
Proof.
  intros [LL LB LG LR] HG HZ HN0. unfold ss. apply flat_sum; [apply HO|exact LL|].
  intros k t s es E1 E2 E3. rewrite !Nat.add_0_l. split.
  - intros N j Hj. apply (ksum_zero _ _ _ _ _ _ Rth). intros im _. apply HN0; [|exact N].
    unfold ss. apply in_sites. exists k, t, s. cbn [st_typ st_psp st_rc st_atom]. repeat split; auto; lia.
  - intros _. rewrite Z.add_0_l.
    destruct (LR k t es E1 E3) as (ims & ND & F2 & HI & HC).
    assert (HB : exists rb, box_ok c D rb).
    { rewrite Forall_forall in LB. exact (LB t (nth_error_In _ _ E1)). }
    destruct HB as (rb & HB).
    assert (IS : forall a, first_atom ats k <= a < first_atom ats k + t_n t ->
              In (Site k s (max_rc t) a) ss).
    { intros a Ha. unfold ss. apply in_sites. exists k, t, s. cbn [st_typ st_psp st_rc st_atom].
      repeat split; auto; lia. }
    transitivity (ksum (map (fun ai => H (Site k s (max_rc t) (fst ai)) (snd ai)) ims)).
    { symmetry. eapply ksum_Forall2; [exact F2|].
      intros [a im] e Hai He (p0 & Hp & HE). cbn [fst snd] in *.
      destruct (HI a im Hai) as (Ha & Him & _).
      symmetry. refine (HG (Site k s (max_rc t) a) es e im rb _ E3 He HB _ Him); [now apply IS|].
      cbn [st_atom st_rc]. unfold atom_pos. rewrite (nth_error_nth pos (Z.to_nat a) (0%Q, 0%Q, 0%Q) Hp). exact HE. }
    transitivity (ksum (map (fun ai => H (Site k s (max_rc t) (fst ai)) (snd ai))
      (flat_map (fun a => map (fun im => (a, im)) (All a)) (zseq (first_atom ats k) (Z.to_nat (t_n t)))))).
    2:{ rewrite (ksum_flat_map _ _ _ _ _ _ Rth). f_equal. apply map_ext. intros a.
        rewrite map_map. reflexivity. }
    assert (TN : 0 <= t_n t).
    { pose proof (io_n _ _ HO) as X. rewrite Forall_forall in X. apply X. eapply nth_error_In. exact E1. }
    apply (ksum_same (fun x y : Z * tri => ltac:(decide equality; [apply tri_dec|apply Z.eq_dec]))).
    + exact ND.
    + apply NoDup_flat_map; [apply NoDup_zseq| |].
      * intros a Ha. apply in_zseq in Ha. apply NoDup_map_inj; [intros x y _ _ EE; injection EE; auto|].
        destruct (HAll (Site k s (max_rc t) a)) as (A & _); [apply IS; lia|exact A].
      * intros x y [a im] _ _ A B. apply in_map_iff in A, B. destruct A as (u & A & _), B as (v & B & _).
        injection A as -> _. injection B as -> _. reflexivity.
    + intros [a im] Hin Hnot. cbn [fst snd]. destruct (HI a im Hin) as (Ha & Him & _).
      apply HZ; [now apply IS|exact Him|]. cbn [st_rc st_atom]. intros nd Hnd.
      apply Qnot_lt_le. intros LT. apply Hnot. apply in_flat_map. exists a.
      split; [apply in_zseq; lia|]. apply in_map_iff. exists im. split; [reflexivity|].
      destruct (HAll (Site k s (max_rc t) a)) as (_ & _ & A); [now apply IS|].
      apply (A im nd Him); [now apply LG|exact LT].
    + intros [a im] Hin Hnot. cbn [fst snd]. apply in_flat_map in Hin.
      destruct Hin as (a' & Ha & Hin). apply in_map_iff in Hin. destruct Hin as (im' & E & Him).
      injection E as -> ->. apply in_zseq in Ha.
      destruct (HAll (Site k s (max_rc t) a)) as (_ & B & _); [apply IS; lia|]. cbn [st_atom] in B.
      apply HZ; [apply IS; lia|now apply B|]. cbn [st_rc st_atom]. intros nd Hnd.
      apply Qnot_lt_le. intros LT. apply Hnot.
      destruct (nth_error pos (Z.to_nat a)) as [p0|] eqn:EP.
      * unfold atom_pos in LT. rewrite (nth_error_nth pos (Z.to_nat a) (0%Q, 0%Q, 0%Q) EP) in LT.
        apply (HC a im p0 nd); auto; lia.
      * exfalso. apply nth_error_None in EP.
        pose proof (Hpos k t E1) as X. lia.
Qed.

(** ** First product *)
Definition in_x (D : dom) (ncol ldi : Z) (x : arr K) (X : Z -> tri -> K) : Prop :=
  0 <= ldi /\ (ncol - 1) * ldi + DMnx D * DMny D * (ze_ D - zs_ D + 1) <= sz x /\
  forall n nd, 0 <= n < ncol -> In nd (nodes D) -> at_ x (n * ldi + local_index D nd) = X n nd.

Lemma size_ok D ncol ldi N n nd : 0 <= ldi ->
  (ncol - 1) * ldi + DMnx D * DMny D * (ze_ D - zs_ D + 1) <= N ->
  0 <= n < ncol -> In nd (nodes D) -> 0 <= n * ldi + local_index D nd < N.
Proof.
  intros H0 H1 Hn Hnd. destruct nd as [[i j] k]. pose proof (local_bound D i j k Hnd). nia.
Qed.

Lemma atom_off st : In st ss -> ld (0 :: ip_displ 0 (tys ats ps)) (st_atom st) = Ok (off ats ps st).
Proof.
  intros H. destruct (site_slot _ _ _ HO H) as (m & E & R).
  pose proof (ip_displ_val _ (tys_ok _ _ HO) 0 _ _ _ _ E R) as V.
  rewrite first_tys in V by apply HO.
  replace (first_atom ats (st_typ st) + (st_atom st - first_atom ats (st_typ st))) with (st_atom st) in V by lia.
  apply ld_ok; [|rewrite V; unfold off; f_equal; lia].
  apply in_sites in H. destruct H as (k & t & s & A & B & C0 & _ & _ & F0).
  pose proof (Hpos _ _ A). lia.
Qed.

Lemma row_of D L r : listed D L -> In r (flat_rows 0 (tys ats ps) L) ->
  exists st es im rb, In st ss /\ nth_error L (st_typ st) = Some es /\ In (snd r) es /\ box_ok c D rb /\
    good_entry c D (atom_pos pos (st_atom st)) (st_rc st) (st_atom st) im (snd r) /\ is_image c im /\
    r = (st_typ st, st_psp st, snd r).
Proof.
  intros [LL LB LG LR] H. apply in_flat_rows in H. destruct H as (k & n & es & E1 & E2 & E3 & He).
  rewrite Nat.add_0_l in E3.
  assert (X : exists t, nth_error ats k = Some t /\ nth_error ps k = Some (snd (fst r))).
  { destruct (nth_error ats k) as [t|] eqn:EA.
    - exists t. split; [reflexivity|].
      destruct (nth_error ps k) as [s|] eqn:ES.
      + rewrite (nth_tys _ _ _ _ _ EA ES) in E1. injection E1 as _ ->. reflexivity.
      + apply nth_error_None in ES. rewrite (io_len _ _ HO) in ES.
        assert (k < length ats)%nat by (apply nth_error_Some; congruence). lia.
    - apply nth_error_None in EA. exfalso.
      assert (k < length (tys ats ps))%nat by (apply nth_error_Some; congruence).
      unfold tys in *. rewrite combine_length, map_length in *. lia. }
  destruct X as (t & EA & ES).
  destruct (LR k t es EA E2) as (ims & ND & F2 & HI & _).
  assert (Y : exists ai, In ai ims /\ exists p0, nth_error pos (Z.to_nat (fst ai)) = Some p0 /\
               good_entry c D p0 (max_rc t) (fst ai) (snd ai) (snd r)).
  { clear - F2 He. induction F2 as [|x y l m HR F2 IH]; [easy|]. destruct He as [<-|He].
    - exists x. split; [now left|exact HR].
    - destruct (IH He) as (ai & A & B). exists ai. split; [now right|exact B]. }
  destruct Y as ([a im] & Hai & p0 & HP & HE). cbn [fst snd] in *.
  destruct (HI a im Hai) as (Ha & Him & _).
  assert (HB : exists rb, box_ok c D rb).
  { rewrite Forall_forall in LB. exact (LB t (nth_error_In _ _ EA)). }
  destruct HB as (rb & HB).
  exists (Site k (snd (fst r)) (max_rc t) a), es, im, rb. cbn [st_typ st_psp st_rc st_atom].
  split; [unfold ss; apply in_sites; exists k, t, (snd (fst r)); cbn; repeat split; auto; lia|].
  split; [exact E2|]. split; [exact He|]. split; [exact HB|]. split.
  { unfold atom_pos. rewrite (nth_error_nth pos (Z.to_nat a) (0%Q, 0%Q, 0%Q) HP). exact HE. }
  split; [exact Him|]. destruct r as [[u v] w]. cbn [fst snd] in *. now rewrite E3.
Qed.

(** Sum over the stored nodes of a row. *)
Lemma row_sum D st im e cl rb (f : tri -> K) (h : Z -> K) : In st ss -> box_ok c D rb ->
  good_entry c D (atom_pos pos (st_atom st)) (st_rc st) (st_atom st) im e ->
  (forall nd, In nd (nodes D) -> h (local_index D nd) = f nd) ->
  ksum (map (fun g => chi (st_typ st) cl (nd_disp c D e g) * h g)%k (e_pos e)) =
  ksum (map (fun nd => chi (st_typ st) cl (disp c (atom_pos pos (st_atom st)) im nd) * f nd)%k (nodes D)).
Proof.
  intros HI HB HE Hh. destruct (HE) as (_ & _ & _ & ->). rewrite map_map, (ksum_filter _ _ _ _ _ _ Rth).
  apply ksum_ext. intros nd Hnd.
  rewrite (nd_val _ _ _ _ _ _ _ _ _ HE Hnd), (Hh nd Hnd).
  destruct (Qle_bool _ _) eqn:Q; [reflexivity|]. apply Qle_bool_false in Q.
  rewrite (chi_zero st) by (try assumption; now apply Qlt_le_weak). ring.
Qed.

Lemma sel_same i v : sel i i v = v.
Proof. unfold VnlLem.sel. now rewrite Z.eqb_refl. Qed.
Lemma sel_diff i j v : i <> j -> sel i j v = zero.
Proof. intros H. unfold VnlLem.sel. destruct (Z.eqb_spec i j); [contradiction|reflexivity]. Qed.

Definition slot (ncol : Z) (st : site) (n p : Z) : Z :=
  off ats ps st * ncol + n * nproj (st_psp st) + p.

Definition local_overlap (D : dom) (X : Z -> tri -> K) (st : site) (n p : Z) : K :=
  ksum (map (fun nd => dV * projector zero add mul chi c pos All w1 st (col (st_psp st) p) nd * X n nd)%k (nodes D)).

Lemma phase1_ok D L x h ncol ldi X : listed D L -> in_x D ncol ldi x X -> 0 <= ncol ->
  exists al, phase1 zero add mul chi (ph w1) dV c (tys ats ps) (0 :: ip_displ 0 (tys ats ps)) ncol ldi
      (Proc D L x h) = Ok al /\ sz al = total (tys ats ps) * ncol /\
    forall st n p, In st ss -> 0 <= n < ncol -> 0 <= p < nproj (st_psp st) ->
      at_ al (slot ncol st n p) = local_overlap D X st n p.
Proof.
  intros HL (Hl0 & Hsz & HX) Hnc. unfold phase1. cbn [pr_dom pr_inf pr_x].
  rewrite (ld_ok _ _ (0 + total (tys ats ps))).
  2:{ rewrite fst_tys by apply HO. pose proof (io_n _ _ HO) as X0. clear - X0. induction X0; cbn; [lia|].
      unfold zsum in IHX0. lia. }
  2:{ apply ip_displ_last. now apply tys_ok. }
  cbn [obind]. rewrite Z.add_0_l. rewrite over_rows_flat.
  set (G := fun i (r : nat * psp * entry) =>
    ksum (map (fun n => ksum (map (fun p =>
        sel i (match ld (0 :: ip_displ 0 (tys ats ps)) (e_atom (snd r)) with Ok d => d | _ => 0 end * ncol
               + n * nproj (snd (fst r)) + p)%Z
          (inner_val zero add mul chi c D (fst (fst r)) (snd (fst r)) (snd r) x ldi
             (ph w1 (snd r) * dV)%k n p)) (zrange 0 (nproj (snd (fst r)) - 1))))
        (zrange 0 (ncol - 1)))).
  destruct (ofold_acc _ _ _ _ _ _ Rth
    (fun a r => obind (chi_matrix zero chi c D (fst (fst r)) (snd (fst r)) (snd r)) (fun ch =>
        obind (ld (0 :: ip_displ 0 (tys ats ps)) (e_atom (snd r))) (fun d =>
        inner zero add mul ch x ldi ncol (nproj (snd (fst r))) (d * ncol) (ph w1 (snd r) * dV)%k (snd r) a)))
    (fun r i => G i r) (total (tys ats ps) * ncol) (flat_rows 0 (tys ats ps) L))
    with (a := Arr (total (tys ats ps) * ncol) (fun _ => zero)) as (al & E & S & V).
  - intros r a Hr Ha. destruct (row_of _ _ _ HL Hr) as (st & es & im & rb & H1 & H2 & H3 & H4 & H5 & H6 & H7).
    rewrite H7. cbn [fst snd].
    pose proof (site_psp _ _ _ HO H1) as HS. pose proof (good_row _ _ _ _ _ _ _ H4 H5) as HR.
    destruct (chi_matrix_ok zero chi gamma c D (st_typ st) (st_psp st) (snd r) HS HR) as (ch & EC & _ & HC).
    rewrite EC. cbn [obind].
    assert (EA : e_atom (snd r) = st_atom st) by apply H5. rewrite EA, (atom_off st H1). cbn [obind].
    pose proof (off_total _ _ _ HO H1) as [O1 O2].
    destruct (inner_ok _ _ _ _ _ _ Rth chi gamma c D (st_typ st) (st_psp st) (snd r) ch x ldi ncol
       (off ats ps st * ncol) (ph w1 (snd r) * dV)%k a (total (tys ats ps) * ncol) HS HR HC) as (a' & E1 & S1 & V1).
    + intros n g Hn Hg. destruct H5 as (_ & _ & _ & HP). rewrite HP in Hg. apply in_map_iff in Hg.
      destruct Hg as (nd & <- & Hg). apply filter_In in Hg. eapply size_ok; eauto. apply Hg.
    + exact Ha.
    + nia.
    + nia.
    + exists a'. split; [exact E1|]. split; [exact S1|]. intros i. rewrite V1. unfold G. cbn [fst snd].
      rewrite EA, (atom_off st H1). reflexivity.
  - reflexivity.
  - exists al. split; [exact E|]. split; [exact S|]. intros st n p Hst Hn Hp. rewrite V. cbn [at_].
    set (H := fun st' im => if st_atom st' =? st_atom st then
      (w1 (image_pos c (atom_pos pos (st_atom st)) im) * dV *
       ksum (map (fun nd => chi (st_typ st) (col (st_psp st) p) (disp c (atom_pos pos (st_atom st)) im nd) * X n nd)
         (nodes D)))%k else zero).
    match goal with |- context [map ?f (flat_rows _ _ _)] => change f with (G (slot ncol st n p)) end.
    rewrite (rows_sites D L (G (slot ncol st n p)) H HL).
    + rewrite (ksum_only _ _ st).
      * unfold H. rewrite Z.eqb_refl. unfold local_overlap, projector.
        transitivity (ksum (map (fun im => ksum (map (fun nd =>
          (dV * (w1 (image_pos c (atom_pos pos (st_atom st)) im) *
            chi (st_typ st) (col (st_psp st) p) (disp c (atom_pos pos (st_atom st)) im nd)) * X n nd)%k) (nodes D)))
          (All (st_atom st)))).
        { rewrite (Radd_0_l Rth). apply ksum_ext. intros im _.
          rewrite <- (ksum_mul_l _ _ _ _ _ _ Rth). apply ksum_ext. intros nd _. ring. }
        rewrite (ksum_swap _ _ _ _ _ _ Rth). apply ksum_ext. intros nd _.
        rewrite <- (ksum_mul_l _ _ _ _ _ _ Rth), <- (ksum_mul_r _ _ _ _ _ _ Rth). reflexivity.
      * apply (NoDup_map_inv st_atom). apply NoDup_sites. apply HO.
      * exact Hst.
      * intros st' Hst' NE. apply (ksum_zero _ _ _ _ _ _ Rth). intros im _. unfold H.
        destruct (Z.eqb_spec (st_atom st') (st_atom st)) as [EQ|_]; [|reflexivity].
        exfalso. apply NE. exact (site_eq _ _ _ (io_n _ _ HO) _ _ Hst' Hst EQ).
    + intros st' es e im rb H1 H2 H3 H4 H5 H6. unfold G, H. cbn [fst snd].
      assert (EA : e_atom e = st_atom st') by apply H5. rewrite EA, (atom_off st' H1).
      destruct (Z.eqb_spec (st_atom st') (st_atom st)) as [EQ|NE].
      * assert (st' = st) by exact (site_eq _ _ _ (io_n _ _ HO) _ _ H1 Hst EQ). subst st'.
        rewrite (ksum_only _ _ n); [rewrite (ksum_only _ _ p)| | |].
        -- unfold slot. rewrite sel_same. unfold inner_val. f_equal.
           { f_equal. unfold ph. destruct H5 as (-> & _). reflexivity. }
           unfold cv. apply (row_sum D st im e (col (st_psp st) p) rb); auto.
        -- apply NoDup_zrange.
        -- apply in_zrange. lia.
        -- intros p' Hp' NE. apply in_zrange in Hp'. apply sel_diff. unfold slot. lia.
        -- apply NoDup_zrange.
        -- apply in_zrange. lia.
        -- intros n' Hn' NE. apply in_zrange in Hn'. apply (ksum_zero _ _ _ _ _ _ Rth).
           intros p' Hp'. apply in_zrange in Hp'. apply sel_diff. intros E'.
           destruct (slot_inj ats ps ncol st st n n' p p' HO) as (_ & A & _); auto; lia.
      * apply (ksum_zero _ _ _ _ _ _ Rth). intros n' Hn'. apply in_zrange in Hn'.
        apply (ksum_zero _ _ _ _ _ _ Rth). intros p' Hp'. apply in_zrange in Hp'.
        apply sel_diff. intros E'.
        destruct (slot_inj ats ps ncol st st' n n' p p' HO) as (A & _ & _); auto; try lia.
        subst. now apply NE.
    + intros st' im H1 H2 H3. unfold H. destruct (Z.eqb_spec (st_atom st') (st_atom st)) as [EQ|_]; [|reflexivity].
      assert (st' = st) by exact (site_eq _ _ _ (io_n _ _ HO) _ _ H1 Hst EQ). subst st'.
      rewrite (ksum_zero _ _ _ _ _ _ Rth); [ring|]. intros nd Hnd.
      rewrite (chi_zero st) by auto. ring.
    + intros st' im H1 N0. unfold H. destruct (Z.eqb_spec (st_atom st') (st_atom st)) as [EQ|_]; [|reflexivity].
      exfalso. assert (st' = st) by exact (site_eq _ _ _ (io_n _ _ HO) _ _ H1 Hst EQ). subst st'. lia.
Qed.

(** ** Gamma and the second product *)
Hypothesis Hgam : forall k s, nth_error ps k = Some s -> gamma_ok gamma k s.

Lemma gamma_slots al ncol A : 0 <= ncol -> sz al = total (tys ats ps) * ncol ->
  (forall st n p, In st ss -> 0 <= n < ncol -> 0 <= p < nproj (st_psp st) ->
      at_ al (slot ncol st n p) = A st n p) ->
  exists al' cnt, gamma_types mul gamma 0 ncol (tys ats ps) (al, 0) = Ok (al', cnt) /\
    sz al' = total (tys ats ps) * ncol /\
    forall st n p, In st ss -> 0 <= n < ncol -> 0 <= p < nproj (st_psp st) ->
      at_ al' (slot ncol st n p) = (A st n p * gval zero gamma (st_typ st) (st_psp st) p)%k.
Proof.
  intros Hnc Hsz HA.
  destruct (gamma_types_ok zero mul chi gamma ncol Hnc (tys ats ps) 0 al 0 (tys_ok _ _ HO)) as (al' & E & S & V & _).
  - intros k m s EK. rewrite Nat.add_0_l. apply Hgam.
    destruct (nth_error ats k) as [t|] eqn:EA.
    + destruct (nth_error ps k) as [s'|] eqn:ES.
      * rewrite (nth_tys _ _ _ _ _ EA ES) in EK. now injection EK as _ ->.
      * apply nth_error_None in ES. rewrite (io_len _ _ HO) in ES.
        assert (k < length ats)%nat by (apply nth_error_Some; congruence). lia.
    + apply nth_error_None in EA. exfalso.
      assert (k < length (tys ats ps))%nat by (apply nth_error_Some; congruence).
      unfold tys in *. rewrite combine_length, map_length in *. lia.
  - lia.
  - lia.
  - exists al'. eexists. split; [exact E|]. split; [congruence|]. intros st n p Hst Hn Hp.
    destruct (site_slot _ _ _ HO Hst) as (m & EM & R).
    specialize (V _ _ _ _ n p EM R Hn Hp). cbv zeta in V. rewrite !Nat.add_0_l, !Z.add_0_l in V.
    fold (off ats ps st) in V. fold (slot ncol st n p) in V. rewrite V, HA by assumption. reflexivity.
Qed.

Lemma map_nth_zseq {B} (l : list B) d : forall a,
  map (fun i => nth (Z.to_nat (i - a)) l d) (zseq a (length l)) = l.
Proof.
  induction l as [|x l IH]; intros a; cbn [length zseq map]; [reflexivity|].
  rewrite Z.sub_diag. cbn [Z.to_nat nth]. f_equal. rewrite <- (IH (a + 1)%Z) at 2.
  apply map_ext_in. intros i Hi. apply in_zseq in Hi.
  replace (Z.to_nat (i - a)) with (S (Z.to_nat (i - (a + 1)))) by lia. reflexivity.
Qed.

Lemma sum_cols s (F : Z * Z * Z -> K) : psp_ok s ->
  ksum (map (fun p => F (col s p)) (zrange 0 (nproj s - 1))) = ksum (map F (cols s)).
Proof.
  intros Hs. rewrite <- (map_nth_zseq (cols s) (0, 0, 0) 0) at 1. rewrite map_map. f_equal.
  unfold zrange. pose proof (cols_len s Hs) as CL.
  replace (Z.to_nat (nproj s - 1 - 0 + 1)) with (length (cols s)) by lia.
  apply map_ext. intros p. rewrite Z.sub_0_r. reflexivity.
Qed.

Lemma phase3_ok D L x h ncol ldo al A : listed D L -> 0 <= ncol ->
  DMnx D * DMny D * (ze_ D - zs_ D + 1) <= ldo -> 
  (ncol - 1) * ldo + DMnx D * DMny D * (ze_ D - zs_ D + 1) <= sz h -> 0 <= ldo ->
  sz al = total (tys ats ps) * ncol ->
  (forall st n p, In st ss -> 0 <= n < ncol -> 0 <= p < nproj (st_psp st) ->
      at_ al (slot ncol st n p) = A st n (col (st_psp st) p)) ->
  exists h', phase3 zero add mul chi gamma (ph w2) c (tys ats ps) (0 :: ip_displ 0 (tys ats ps)) ncol ldo al
      (Proc D L x h) = Ok h' /\ sz h' = sz h /\
    (forall n nd, 0 <= n < ncol -> In nd (nodes D) ->
      at_ h' (n * ldo + local_index D nd) = (at_ h (n * ldo + local_index D nd)%Z +
        ksum (map (fun st => ksum (map (fun cl =>
          gamma_of zero gamma st cl * (projector zero add mul chi c pos All w2 st cl nd * A st n cl))
          (cols (st_psp st)))) ss))%k) /\
    (forall i, (forall n nd, 0 <= n < ncol -> In nd (nodes D) -> i <> n * ldo + local_index D nd) ->
      at_ h' i = at_ h i).
Proof.
  intros HL Hnc Hld Hsz Hl0 Hal HA. unfold phase3. cbn [pr_dom pr_inf pr_h].
  destruct (gamma_slots al ncol (fun st n p => A st n (col (st_psp st) p)) Hnc Hal HA) as (al' & cnt & EG & SG & VG).
  rewrite EG. cbn [obind fst]. rewrite over_rows_flat.
  set (G := fun i (r : nat * psp * entry) =>
    ksum (map (fun n => ksum (map (fun g =>
        sel i (n * ldo + g)%Z
          (scat_val zero add mul chi c D (fst (fst r)) (snd (fst r)) (snd r) al'
            (match ld (0 :: ip_displ 0 (tys ats ps)) (e_atom (snd r)) with Ok d => d | _ => 0 end * ncol)%Z
             (ph w2 (snd r)) n g)) (e_pos (snd r))))
        (zrange 0 (ncol - 1)))).
  destruct (ofold_acc _ _ _ _ _ _ Rth
    (fun a r => obind (chi_matrix zero chi c D (fst (fst r)) (snd (fst r)) (snd r)) (fun ch =>
        obind (ld (0 :: ip_displ 0 (tys ats ps)) (e_atom (snd r))) (fun d =>
        scatter zero add mul ch al' ldo ncol (nproj (snd (fst r))) (d * ncol) (ph w2 (snd r)) (snd r) a)))
    (fun r i => G i r) (sz h) (flat_rows 0 (tys ats ps) L))
    with (a := h) as (h' & E & S & V).
  - intros r a Hr Ha. destruct (row_of _ _ _ HL Hr) as (st & es & im & rb & H1 & H2 & H3 & H4 & H5 & H6 & H7).
    rewrite H7. cbn [fst snd].
    pose proof (site_psp _ _ _ HO H1) as HS. pose proof (good_row _ _ _ _ _ _ _ H4 H5) as HR.
    destruct (chi_matrix_ok zero chi gamma c D (st_typ st) (st_psp st) (snd r) HS HR) as (ch & EC & _ & HC).
    rewrite EC. cbn [obind].
    assert (EA : e_atom (snd r) = st_atom st) by apply H5. rewrite EA, (atom_off st H1). cbn [obind].
    pose proof (off_total _ _ _ HO H1) as [O1 O2].
    destruct (scatter_ok _ _ _ _ _ _ Rth chi gamma c D (st_typ st) (st_psp st) (snd r) ch al' ldo ncol
       (off ats ps st * ncol) (ph w2 (snd r)) a (sz h) HS HR HC) as (a' & E1 & S1 & V1).
    + intros n g Hn Hg. destruct H5 as (_ & _ & _ & HP). rewrite HP in Hg. apply in_map_iff in Hg.
      destruct Hg as (nd & <- & Hg). apply filter_In in Hg. eapply size_ok; eauto. apply Hg.
    + exact Ha.
    + nia.
    + rewrite SG. nia.
    + exists a'. split; [exact E1|]. split; [exact S1|]. intros i. rewrite V1. unfold G. cbn [fst snd].
      rewrite EA, (atom_off st H1). reflexivity.
  - reflexivity.
  - exists h'. split; [exact E|]. split; [exact S|]. split.
    + intros n nd Hn Hnd. rewrite V. f_equal.
      set (i := n * ldo + local_index D nd).
      set (H := fun st im => (w2 (image_pos c (atom_pos pos (st_atom st)) im) *
        ksum (map (fun p => chi (st_typ st) (col (st_psp st) p) (disp c (atom_pos pos (st_atom st)) im nd) *
           (A st n (col (st_psp st) p) * gval zero gamma (st_typ st) (st_psp st) p))
          (zrange 0 (nproj (st_psp st) - 1))))%k).
      match goal with |- context [map ?f (flat_rows _ _ _)] => change f with (G i) end.
      assert (BD : 0 <= local_index D nd < ldo).
      { destruct nd as [[u v] w]. pose proof (local_bound D u v w Hnd). lia. }
      rewrite (rows_sites D L (G i) H HL).
      * apply ksum_ext. intros st Hst. unfold H.
        rewrite <- (sum_cols (st_psp st)) by now apply (site_psp ats ps).
        transitivity (ksum (map (fun im => ksum (map (fun p =>
          (w2 (image_pos c (atom_pos pos (st_atom st)) im) *
           (chi (st_typ st) (col (st_psp st) p) (disp c (atom_pos pos (st_atom st)) im nd) *
           (A st n (col (st_psp st) p) * gval zero gamma (st_typ st) (st_psp st) p)))%k)
           (zrange 0 (nproj (st_psp st) - 1)))) (All (st_atom st)))).
        { apply ksum_ext. intros im _. rewrite <- (ksum_mul_l _ _ _ _ _ _ Rth). reflexivity. }
        rewrite (ksum_swap _ _ _ _ _ _ Rth). apply ksum_ext. intros p _.
        unfold projector. rewrite <- (ksum_mul_r _ _ _ _ _ _ Rth), <- (ksum_mul_l _ _ _ _ _ _ Rth).
        apply ksum_ext. intros im _. unfold gval, gamma_of. ring.
      * intros st es e im rb H1 H2 H3 H4 H5 H6. unfold G, H. cbn [fst snd].
        assert (EA : e_atom e = st_atom st) by apply H5. rewrite EA, (atom_off st H1).
        pose proof (good_row _ _ _ _ _ _ _ H4 H5) as HR.
        assert (PG : forall g, In g (e_pos e) -> exists nd', In nd' (nodes D) /\ g = local_index D nd' /\
            Qle_bool (norm2 c (disp c (atom_pos pos (st_atom st)) im nd')) (st_rc st * st_rc st) = true).
        { intros g Hg. destruct H5 as (_ & _ & _ & HP). rewrite HP in Hg. apply in_map_iff in Hg.
          destruct Hg as (nd' & <- & Hg). apply filter_In in Hg. exists nd'. tauto. }
        assert (BG : forall g, In g (e_pos e) -> 0 <= g < ldo).
        { intros g Hg. destruct (PG g Hg) as ([[u v] w] & Hnd' & -> & _). pose proof (local_bound D u v w Hnd'). lia. }
        rewrite (ksum_only _ _ n); [| apply NoDup_zrange | apply in_zrange; lia |].
        2:{ intros n' Hn' NE. apply in_zrange in Hn'. apply (ksum_zero _ _ _ _ _ _ Rth).
            intros g Hg. apply sel_diff. unfold i. pose proof (BG g Hg). nia. }
        destruct (Qle_bool (norm2 c (disp c (atom_pos pos (st_atom st)) im nd)) (st_rc st * st_rc st)) eqn:QB.
        -- rewrite (ksum_only _ _ (local_index D nd)).
           ++ unfold i. rewrite sel_same. unfold scat_val. f_equal.
              { unfold ph. destruct H5 as (-> & _). reflexivity. }
              apply ksum_ext. intros p Hp. apply in_zrange in Hp. f_equal.
              { unfold cv. eapply nd_val; eauto. }
              fold (slot ncol st n p). rewrite VG by (try assumption; lia). reflexivity.
           ++ apply HR.
           ++ destruct H5 as (_ & _ & _ & HP). rewrite HP. apply in_map. apply filter_In. now split.
           ++ intros g Hg NE. apply sel_diff. unfold i. lia.
        -- rewrite (ksum_zero _ _ _ _ _ _ Rth).
           ++ rewrite (ksum_zero _ _ _ _ _ _ Rth); [ring|]. intros p _.
              rewrite (chi_zero st); [ring|assumption|]. apply Qle_bool_false in QB. now apply Qlt_le_weak.
           ++ intros g Hg. apply sel_diff. unfold i. intros EQ.
              destruct (PG g Hg) as (nd' & Hnd' & -> & Q').
              assert (nd = nd') by (apply (local_inj D); auto; lia). subst nd'. congruence.
      * intros st im H1 H2 H3. unfold H. rewrite (ksum_zero _ _ _ _ _ _ Rth); [ring|]. intros p _.
        rewrite (chi_zero st) by auto. ring.
      * intros st im _ N0. unfold H. rewrite N0. cbn [Z.sub zrange]. cbn. ring.
    + intros i Hi. rewrite V. rewrite (ksum_zero _ _ _ _ _ _ Rth); [ring|].
      intros r Hr. destruct (row_of _ _ _ HL Hr) as (st & es & im & rb & H1 & H2 & H3 & H4 & H5 & H6 & H7).
      unfold G. apply (ksum_zero _ _ _ _ _ _ Rth). intros n Hn. apply in_zrange in Hn.
      apply (ksum_zero _ _ _ _ _ _ Rth). intros g Hg. apply sel_diff.
      destruct H5 as (_ & _ & _ & HP). rewrite HP in Hg. apply in_map_iff in Hg.
      destruct Hg as (nd & <- & Hg). apply filter_In in Hg. apply Hi; [lia|apply Hg].
Qed.

(** ** All processes *)
Record proc_ok (ncol ldi ldo : Z) (X : Z -> tri -> K) (pr : proc) : Prop := {
  po_list : listed (pr_dom pr) (pr_inf pr);
  po_x : in_x (pr_dom pr) ncol ldi (pr_x pr) X;
  po_ldo : DMnx (pr_dom pr) * DMny (pr_dom pr) * (ze_ (pr_dom pr) - zs_ (pr_dom pr) + 1) <= ldo;
  po_ldo0 : 0 <= ldo;
  po_h : (ncol - 1) * ldo + DMnx (pr_dom pr) * DMny (pr_dom pr) * (ze_ (pr_dom pr) - zs_ (pr_dom pr) + 1)
         <= sz (pr_h pr) }.

Lemma Vnl_ok ncol ldi ldo X prs : 0 <= ncol ->
  Forall (proc_ok ncol ldi ldo X) prs -> Permutation (flat_map (fun pr => nodes (pr_dom pr)) prs) grid ->
  exists hs, Vnl_all zero add mul chi gamma (ph w1) (ph w2) dV c (tys ats ps) ncol ldi ldo prs = Ok hs /\
    Forall2 (fun pr h => sz h = sz (pr_h pr) /\
      (forall n nd, 0 <= n < ncol -> In nd (nodes (pr_dom pr)) ->
        at_ h (n * ldo + local_index (pr_dom pr) nd) =
        (at_ (pr_h pr) (n * ldo + local_index (pr_dom pr) nd)%Z +
         Vnl_spec zero add mul chi gamma dV c pos All w1 w2 grid ss (X n) nd)%k) /\
      (forall i, (forall n nd, 0 <= n < ncol -> In nd (nodes (pr_dom pr)) ->
          i <> n * ldo + local_index (pr_dom pr) nd) -> at_ h i = at_ (pr_h pr) i)) prs hs.
Proof.
  intros Hnc HP HG. unfold Vnl_all.
  set (P1 := fun (pr : @proc K) (al : arr K) => sz al = total (tys ats ps) * ncol /\
    forall st n p, In st ss -> 0 <= n < ncol -> 0 <= p < nproj (st_psp st) ->
      at_ al (slot ncol st n p) = local_overlap (pr_dom pr) X st n p).
  destruct (omap_ok (phase1 zero add mul chi (ph w1) dV c (tys ats ps) (0 :: ip_displ 0 (tys ats ps)) ncol ldi)
    P1 prs) as (als & EA & FA).
  { intros pr Hpr. rewrite Forall_forall in HP. destruct (HP pr Hpr) as [A B _ _ _].
    destruct pr as [D L x h]. cbn [pr_dom pr_inf pr_x pr_h] in *.
    destruct (phase1_ok D L x h ncol ldi X A B Hnc) as (al & E & S). exists al. split; [exact E|exact S]. }
  rewrite EA. cbn [obind].
  assert (LA : length prs = length als) by (eapply Forall2_len; eauto).
  assert (SUM : forall al, In al als -> sz (allreduce zero add als al) = total (tys ats ps) * ncol /\
    forall st n p, In st ss -> 0 <= n < ncol -> 0 <= p < nproj (st_psp st) ->
      at_ (allreduce zero add als al) (slot ncol st n p) =
      overlap zero add mul chi dV c pos All w1 grid (X n) st (col (st_psp st) p)).
  { intros al Hal.
    assert (T : forall st n p, In st ss -> 0 <= n < ncol -> 0 <= p < nproj (st_psp st) ->
      ksum (map (fun b => at_ b (slot ncol st n p)) als) =
      overlap zero add mul chi dV c pos All w1 grid (X n) st (col (st_psp st) p)).
    { intros st n p Hst Hn Hp. unfold overlap.
      rewrite <- (ksum_perm _ _ _ _ _ _ Rth _ _ (Permutation_map _ HG)), (ksum_flat_map _ _ _ _ _ _ Rth).
      symmetry. eapply ksum_Forall2; [exact FA|]. intros pr b _ _ (_ & HB). rewrite HB by assumption. reflexivity. }
    assert (SZ : forall b, In b als -> sz b = total (tys ats ps) * ncol).
    { clear - FA. induction FA as [|x y l m (HR & _) F IH]; intros b Hb; [easy|]. destruct Hb as [<-|Hb]; auto. }
    unfold allreduce. destruct (Z.ltb_spec 1 (Z.of_nat (length als))) as [LT|LT].
    - cbn [sz at_]. split; [now apply SZ|exact T].
    - split; [now apply SZ|]. intros st n p Hst Hn Hp. rewrite <- (T st n p Hst Hn Hp).
      destruct als as [|b [|b' als]]; [easy| |cbn [length] in LT; lia].
      destruct Hal as [<-|[]]. cbn [map VnlOp.ksum]. ring. }
  set (P2 := fun (pa : @proc K * arr K) (h : arr K) => 
      sz h = sz (pr_h (fst pa)) /\
      (forall n nd, 0 <= n < ncol -> In nd (nodes (pr_dom (fst pa))) ->
        at_ h (n * ldo + local_index (pr_dom (fst pa)) nd) =
        (at_ (pr_h (fst pa)) (n * ldo + local_index (pr_dom (fst pa)) nd)%Z +
         Vnl_spec zero add mul chi gamma dV c pos All w1 w2 grid ss (X n) nd)%k) /\
      (forall i, (forall n nd, 0 <= n < ncol -> In nd (nodes (pr_dom (fst pa))) ->
          i <> n * ldo + local_index (pr_dom (fst pa)) nd) -> at_ h i = at_ (pr_h (fst pa)) i)).
  destruct (omap_ok (fun pa => phase3 zero add mul chi gamma (ph w2) c (tys ats ps)
     (0 :: ip_displ 0 (tys ats ps)) ncol ldo (allreduce zero add als (snd pa)) (fst pa)) P2 (combine prs als))
    as (hs & EH & FH).
  { intros [pr al] Hpa. cbn [fst snd]. pose proof (in_combine_l _ _ _ _ Hpa) as I1.
    pose proof (in_combine_r _ _ _ _ Hpa) as I2.
    rewrite Forall_forall in HP. destruct (HP pr I1) as [A B C0 C1 C2].
    destruct pr as [D L x h]. unfold P2. cbn [fst snd pr_dom pr_inf pr_x pr_h] in *.
    destruct (SUM al I2) as [S1 S2].
    destruct (phase3_ok D L x h ncol ldo (allreduce zero add als al)
      (fun st n cl => overlap zero add mul chi dV c pos All w1 grid (X n) st cl) A Hnc C0 C2 C1 S1 S2)
      as (h' & E & R). exists h'. split; [exact E|exact R]. }
  exists hs. split; [exact EH|].
  clear - FH LA. revert als LA hs FH. induction prs as [|pr prs IH]; intros [|al als] LA hs FH; try discriminate LA;
    cbn [combine] in FH; inversion FH; subst; constructor.
  - exact H1.
  - eapply IH; [|eassumption]. cbn in LA. lia.
Qed.
End RING.
