(** Lemmas on the model of the nonlocal operator (VnlOp.v). *)
From Coq Require Import ZArith QArith Qround List Lia Bool Permutation Ring Lqa.
From Verif Require Import CBase Nloc NlocSpec NlocLem VnlOp.
Import ListNotations.
Local Open Scope Z_scope.

(** ** Folds and arrays *)
Lemma ofold_app {S A} (f : S -> A -> outcome S) l : forall s m,
  ofold f s (l ++ m) = obind (ofold f s l) (fun s' => ofold f s' m).
Proof.
  induction l as [|x l IH]; intros s m; cbn [app ofold]; [reflexivity|].
  destruct (f s x); cbn [obind]; [apply IH|reflexivity|reflexivity].
Qed.

Lemma rd_ok {K} (a : arr K) i : 0 <= i < sz a -> rd a i = Ok (at_ a i).
Proof.
  intros H. unfold rd. destruct (Z.leb_spec 0 i); [|lia]. destruct (Z.ltb_spec i (sz a)); [|lia].
  reflexivity.
Qed.

Lemma wr_ok {K} (a : arr K) i v : 0 <= i < sz a ->
  wr a i v = Ok (Arr (sz a) (fun j => if j =? i then v else at_ a j)).
Proof.
  intros H. unfold wr. destruct (Z.leb_spec 0 i); [|lia]. destruct (Z.ltb_spec i (sz a)); [|lia].
  reflexivity.
Qed.

Lemma omap_val {A B} (f : A -> outcome B) (g : A -> B) l :
  (forall x, In x l -> f x = Ok (g x)) -> omap f l = Ok (map g l).
Proof.
  induction l as [|x l IH]; intros H; cbn [omap map]; [reflexivity|].
  rewrite (H x) by now left. cbn [obind]. rewrite IH by (intros y Hy; apply H; now right).
  reflexivity.
Qed.

(** ** Columns of the projector matrix *)
Lemma zrange_S a b : a <= b -> zrange a b = a :: zrange (a + 1) b.
Proof.
  intros H. unfold zrange. replace (Z.to_nat (b - a + 1)) with (S (Z.to_nat (b - (a + 1) + 1))) by lia.
  reflexivity.
Qed.

Lemma cols_length l d loc ppl : 0 <= l -> Forall (fun n => 0 <= n) ppl ->
  Z.of_nat (length (cols_from l d loc ppl)) = nproj_from l loc ppl.
Proof.
  revert l d. induction ppl as [|n ppl IH]; intros l d Hl HF; cbn [cols_from nproj_from]; [reflexivity|].
  inversion HF; subst. rewrite app_length, Nat2Z.inj_add, IH by (auto; lia). f_equal.
  destruct (l =? loc); [reflexivity|].
  assert (G : forall ns, Z.of_nat (length (flat_map (fun np => map (fun m => (l, d + np, m)) (zrange (- l) l)) ns))
    = Z.of_nat (length ns) * (2 * l + 1)).
  { induction ns as [|x ns IHn]; cbn [flat_map]; [reflexivity|].
    rewrite app_length, map_length, Nat2Z.inj_add, IHn.
    rewrite zrange_len by lia. cbn [length]. lia. }
  rewrite G, zrange_len by lia. lia.
Qed.

Lemma nproj_nonneg l loc ppl : 0 <= l -> Forall (fun n => 0 <= n) ppl -> 0 <= nproj_from l loc ppl.
Proof. intros H F. rewrite <- (cols_length l 0 loc ppl) by assumption. lia. Qed.

Lemma cols_gamma l d loc ppl : 0 <= l -> 0 <= d -> Forall (fun n => 0 <= n) ppl ->
  Forall (fun cl => d <= snd (fst cl) < d + zsum ppl) (cols_from l d loc ppl).
Proof.
  revert l d. induction ppl as [|n ppl IH]; intros l d Hl Hd HF; cbn [cols_from]; [constructor|].
  inversion HF as [|? ? Hn HF']; subst. cbn [zsum fold_right]. fold (zsum ppl).
  assert (S0 : 0 <= zsum ppl).
  { clear - HF'. induction HF' as [|a ppl Ha _ IH]; cbn; [lia|]. unfold zsum in IH. lia. }
  apply Forall_app. split.
  - destruct (l =? loc); [constructor|]. apply Forall_forall. intros cl H.
    apply in_flat_map in H. destruct H as (np & H1 & H2). apply in_zrange in H1.
    apply in_map_iff in H2. destruct H2 as (m & <- & _). cbn [fst snd]. lia.
  - eapply Forall_impl; [|apply IH; [lia|lia|assumption]]. cbv beta. intros cl H. lia.
Qed.

(** ** Offsets of the atoms *)
Definition psp_ok (s : psp) : Prop := Forall (fun n => 0 <= n) (p_ppl s).

Lemma nproj_pos s : psp_ok s -> 0 <= nproj s.
Proof. intros H. apply nproj_nonneg; [lia|exact H]. Qed.

Lemma cols_len s : psp_ok s -> Z.of_nat (length (cols s)) = nproj s.
Proof. intros H. apply cols_length; [lia|exact H]. Qed.

(** Sum of [n * nproj] over the types before type [ty]. *)
Definition base (ts : list (Z * psp)) (ty : nat) : Z :=
  zsum (map (fun t => fst t * nproj (snd t)) (firstn ty ts)).
Definition total (ts : list (Z * psp)) : Z := zsum (map (fun t => fst t * nproj (snd t)) ts).
Definition first_of (ts : list (Z * psp)) (ty : nat) : Z := zsum (map fst (firstn ty ts)).

Definition ts_ok (ts : list (Z * psp)) : Prop := Forall (fun t => 0 <= fst t /\ psp_ok (snd t)) ts.

Lemma nth_error_zrange0 n i : (Z.of_nat i < n) -> nth_error (zrange 0 (n - 1)) i = Some (Z.of_nat i).
Proof. intros H. unfold zrange. rewrite nth_error_zseq by lia. f_equal. Qed.

Lemma ip_displ_val ts : ts_ok ts -> forall d ty n s j,
  nth_error ts ty = Some (n, s) -> 0 <= j < n ->
  nth_error (d :: ip_displ d ts) (Z.to_nat (first_of ts ty + j)) = Some (d + base ts ty + j * nproj s).
Proof.
  intros H. induction H as [|[n0 s0] ts [Hn Hs] H IH]; intros d ty n s j E Hj; [destruct ty; discriminate E|].
  cbn [fst snd] in Hn, Hs. cbn [ip_displ].
  destruct ty as [|ty]; cbn [nth_error] in E.
  - injection E as -> ->. unfold first_of, base. cbn [firstn map zsum fold_right].
    destruct (Z.eq_dec j 0) as [->|Nj].
    + cbn. f_equal. lia.
    + replace (Z.to_nat (0 + j)) with (S (Z.to_nat (j - 1))) by lia. cbn [nth_error].
      rewrite nth_error_app1 by (rewrite map_length; apply Nat2Z.inj_lt; rewrite zrange_len by lia; lia).
      rewrite nth_error_map, nth_error_zrange0 by lia. cbn [option_map]. f_equal. rewrite Z2Nat.id by lia. try rewrite Z.max_r in * by lia. lia.
  - specialize (IH (d + Z.max 0 n0 * nproj s0) ty n s j E Hj).
    assert (F0 : 0 <= first_of ts ty).
    { unfold first_of. clear - H. revert ty. induction H as [|[a b] ts [Ha _] _ IH]; intros [|ty]; cbn; try lia.
      cbn in Ha. specialize (IH ty). unfold zsum in IH. lia. }
    assert (E1 : first_of ((n0, s0) :: ts) (S ty) = n0 + first_of ts ty) by reflexivity.
    assert (E2 : base ((n0, s0) :: ts) (S ty) = n0 * nproj s0 + base ts ty) by reflexivity.
    rewrite E1, E2. 
    assert (C0 : nth_error (d :: map (fun i => d + (i + 1) * nproj s0) (zrange 0 (n0 - 1))
        ++ ip_displ (d + Z.max 0 n0 * nproj s0) ts) (Z.to_nat (n0 + first_of ts ty + j)) =
      nth_error ((d + Z.max 0 n0 * nproj s0) :: ip_displ (d + Z.max 0 n0 * nproj s0) ts)
        (Z.to_nat (first_of ts ty + j))).
    { destruct (Z.eq_dec (first_of ts ty + j) 0) as [Z0|Z0].
      - rewrite Z0. replace (n0 + first_of ts ty + j) with n0 by lia. cbn [Z.to_nat nth_error].
        destruct (Z.eq_dec n0 0) as [->|N0].
        + cbn. f_equal. lia.
        + replace (Z.to_nat n0) with (S (Z.to_nat (n0 - 1))) by lia. cbn [nth_error].
          rewrite nth_error_app1 by (rewrite map_length; apply Nat2Z.inj_lt; rewrite zrange_len by lia; lia).
          rewrite nth_error_map, nth_error_zrange0 by lia. cbn [option_map]. f_equal. rewrite Z2Nat.id by lia. try rewrite Z.max_r in * by lia. lia.
      - replace (Z.to_nat (n0 + first_of ts ty + j))
          with (S (Z.to_nat n0 + Z.to_nat (first_of ts ty + j - 1))) by lia.
        replace (Z.to_nat (first_of ts ty + j)) with (S (Z.to_nat (first_of ts ty + j - 1))) by lia.
        cbn [nth_error].
        assert (LL : length (map (fun i => d + (i + 1) * nproj s0) (zrange 0 (n0 - 1))) = Z.to_nat n0).
        { rewrite map_length. apply Nat2Z.inj. rewrite zrange_len by lia. lia. }
        rewrite nth_error_app2 by lia. rewrite LL. f_equal. lia. }
    rewrite C0, IH. f_equal. rewrite Z.max_r by lia. lia.
Qed.

Lemma ip_displ_last ts : ts_ok ts -> forall d,
  nth_error (d :: ip_displ d ts) (Z.to_nat (zsum (map fst ts))) = Some (d + total ts).
Proof.
  intros H. induction H as [|[n0 s0] ts [Hn Hs] H IH]; intros d; cbn [ip_displ].
  - cbn. f_equal. lia.
  - cbn [fst snd] in Hn, Hs. specialize (IH (d + Z.max 0 n0 * nproj s0)).
    assert (F0 : 0 <= zsum (map fst ts)).
    { clear - H. induction H as [|[a b] ts [Ha _] _ IH]; cbn; try lia. cbn in Ha. unfold zsum in IH. lia. }
    change (zsum (map fst ((n0, s0) :: ts))) with (n0 + zsum (map fst ts)).
    change (total ((n0, s0) :: ts)) with (n0 * nproj s0 + total ts).
    destruct (Z.eq_dec (zsum (map fst ts)) 0) as [Z0|Z0].
    + rewrite Z0 in *. cbn [Z.to_nat nth_error] in IH. injection IH as IH.
      destruct (Z.eq_dec n0 0) as [->|N0].
      * cbn. f_equal. lia.
      * replace (Z.to_nat (n0 + 0)) with (S (Z.to_nat (n0 - 1))) by lia. cbn [nth_error].
        rewrite nth_error_app1 by (rewrite map_length; apply Nat2Z.inj_lt; rewrite zrange_len by lia; lia).
        rewrite nth_error_map, nth_error_zrange0 by lia. cbn [option_map]. f_equal. rewrite Z2Nat.id by lia. try rewrite Z.max_r in * by lia. lia.
    + replace (Z.to_nat (n0 + zsum (map fst ts)))
        with (S (Z.to_nat n0 + Z.to_nat (zsum (map fst ts) - 1))) by lia.
      replace (Z.to_nat (zsum (map fst ts))) with (S (Z.to_nat (zsum (map fst ts) - 1))) in IH by lia.
      cbn [nth_error] in IH |- *.
      assert (LL : length (map (fun i => d + (i + 1) * nproj s0) (zrange 0 (n0 - 1))) = Z.to_nat n0).
      { rewrite map_length. apply Nat2Z.inj. rewrite zrange_len by lia. lia. }
      rewrite nth_error_app2 by lia. rewrite LL.
      replace (Z.to_nat n0 + Z.to_nat (zsum (map fst ts) - 1) - Z.to_nat n0)%nat
        with (Z.to_nat (zsum (map fst ts) - 1)) by lia.
      rewrite IH. f_equal. rewrite Z.max_r by lia. lia.
Qed.

(** The rows in the order of the loops, with type and pseudopotential. *)
Fixpoint flat_rows (ty : nat) (ts : list (Z * psp)) (L : list (list entry)) : list (nat * psp * entry) :=
  match ts, L with
  | (_, s) :: ts', es :: L' =>
    (if nproj s =? 0 then [] else map (fun e => (ty, s, e)) es) ++ flat_rows (S ty) ts' L'
  | _, _ => []
  end.

Lemma in_flat_rows : forall ts ty L r, In r (flat_rows ty ts L) ->
  exists k n es, nth_error ts k = Some (n, snd (fst r)) /\ nth_error L k = Some es /\
    fst (fst r) = (ty + k)%nat /\ In (snd r) es.
Proof.
  induction ts as [|[n s] ts IH]; intros ty L r H; cbn [flat_rows] in H; [easy|].
  destruct L as [|es L]; [easy|]. apply in_app_iff in H. destruct H as [H|H].
  - destruct (nproj s =? 0); [easy|]. apply in_map_iff in H. destruct H as (e & <- & H).
    exists O, n, es. cbn. repeat split; auto.
  - apply IH in H. destruct H as (k & n' & es' & A & B & C & D). exists (S k), n', es'.
    cbn [nth_error]. repeat split; auto. lia.
Qed.

Section RING.
Context {K : Type} (zero one : K) (add mul sub : K -> K -> K) (opp : K -> K).
Context (Rth : ring_theory zero one add mul sub opp eq).
Add Ring KR : Rth.

Declare Scope k_scope.
Infix "+" := add : k_scope.
Infix "*" := mul : k_scope.
Delimit Scope k_scope with k.
Notation ksum := (ksum zero add).

Lemma ksum_app l m : ksum (l ++ m) = (ksum l + ksum m)%k.
Proof. induction l as [|x l IH]; cbn [app VnlOp.ksum]; [ring|]. rewrite IH. ring. Qed.

Lemma ksum_zero {A} (f : A -> K) l : (forall x, In x l -> f x = zero) -> ksum (map f l) = zero.
Proof.
  induction l as [|x l IH]; intros H; cbn [map VnlOp.ksum]; [reflexivity|].
  rewrite (H x) by now left. rewrite IH by (intros y Hy; apply H; now right). ring.
Qed.

Lemma ksum_ext {A} (f g : A -> K) l : (forall x, In x l -> f x = g x) ->
  ksum (map f l) = ksum (map g l).
Proof.
  induction l as [|x l IH]; intros H; cbn [map VnlOp.ksum]; [reflexivity|].
  rewrite (H x) by now left. f_equal. apply IH. intros y Hy. apply H. now right.
Qed.

Lemma ksum_add {A} (f g : A -> K) l :
  ksum (map (fun x => f x + g x)%k l) = (ksum (map f l) + ksum (map g l))%k.
Proof. induction l as [|x l IH]; cbn [map VnlOp.ksum]; [ring|]. rewrite IH. ring. Qed.

Lemma ksum_mul_l {A} c (f : A -> K) l :
  ksum (map (fun x => c * f x)%k l) = (c * ksum (map f l))%k.
Proof. induction l as [|x l IH]; cbn [map VnlOp.ksum]; [ring|]. rewrite IH. ring. Qed.

Lemma ksum_mul_r {A} c (f : A -> K) l :
  ksum (map (fun x => f x * c)%k l) = (ksum (map f l) * c)%k.
Proof. induction l as [|x l IH]; cbn [map VnlOp.ksum]; [ring|]. rewrite IH. ring. Qed.

Lemma ksum_swap {A B} (f : A -> B -> K) l m :
  ksum (map (fun x => ksum (map (f x) m)) l) = ksum (map (fun y => ksum (map (fun x => f x y) l)) m).
Proof.
  induction l as [|x l IH]; cbn [map VnlOp.ksum].
  - symmetry. apply ksum_zero. reflexivity.
  - rewrite IH. rewrite <- ksum_add. reflexivity.
Qed.

Lemma ksum_perm l m : Permutation l m -> ksum l = ksum m.
Proof.
  intros P. induction P; cbn [VnlOp.ksum]; [reflexivity|now rewrite IHP|ring|congruence].
Qed.

Lemma ksum_flat_map {A B} (f : B -> K) (g : A -> list B) l :
  ksum (map f (flat_map g l)) = ksum (map (fun x => ksum (map f (g x))) l).
Proof.
  induction l as [|x l IH]; cbn [flat_map map VnlOp.ksum]; [reflexivity|].
  rewrite map_app, ksum_app, IH. reflexivity.
Qed.

Lemma ksum_filter {A} (P : A -> bool) (f : A -> K) l :
  ksum (map f (filter P l)) = ksum (map (fun x => if P x then f x else zero) l).
Proof.
  induction l as [|x l IH]; cbn [filter map VnlOp.ksum]; [reflexivity|].
  destruct (P x); cbn [map VnlOp.ksum]; rewrite IH; [reflexivity|ring].
Qed.

(** Two duplicate-free lists, one inside the other, outside of which the
    summand vanishes. *)
Lemma ksum_sub {A} (dec : forall x y : A, {x = y} + {x <> y}) (f : A -> K) l m :
  NoDup l -> NoDup m -> incl l m -> (forall x, In x m -> ~ In x l -> f x = zero) ->
  ksum (map f l) = ksum (map f m).
Proof.
  intros Nl Nm HI H0.
  set (inb := fun x => if in_dec dec x l then true else false).
  assert (P : Permutation l (filter inb m)).
  { apply NoDup_Permutation; [assumption|now apply NoDup_filter|].
    intros x. rewrite filter_In. unfold inb. destruct (in_dec dec x l); split; intros H.
    - split; [now apply HI|reflexivity].
    - assumption.
    - contradiction.
    - destruct H. discriminate. }
  rewrite (ksum_perm _ _ (Permutation_map f P)), ksum_filter.
  apply ksum_ext. intros x Hx. unfold inb. destruct (in_dec dec x l); [reflexivity|].
  symmetry. now apply H0.
Qed.

(** ** Accumulating folds *)
Lemma ofold_acc {A} (f : arr K -> A -> outcome (arr K)) (g : A -> Z -> K) (n : Z) l :
  (forall x a, In x l -> sz a = n -> exists a', f a x = Ok a' /\ sz a' = n /\
     forall i, at_ a' i = (at_ a i + g x i)%k) ->
  forall a, sz a = n -> exists a', ofold f a l = Ok a' /\ sz a' = n /\
    forall i, at_ a' i = (at_ a i + ksum (map (fun x => g x i) l))%k.
Proof.
  induction l as [|x l IH]; intros H a Ha; cbn [ofold map VnlOp.ksum].
  - exists a. split; [reflexivity|]. split; [exact Ha|]. intros i. ring.
  - destruct (H x a) as (a1 & E1 & S1 & V1); [now left|exact Ha|].
    rewrite E1. cbn [obind].
    destruct (IH (fun y b Hy => H y b (or_intror Hy)) a1 S1) as (a2 & E2 & S2 & V2).
    exists a2. split; [exact E2|]. split; [exact S2|]. intros i. rewrite V2, V1. ring.
Qed.

(** ** The projector matrix of a row *)
Variable chi : nat -> Z * Z * Z -> Q * Q * Q -> K.
Variable gamma : nat -> list K.

Definition nd_disp (c : cell) (D : dom) (e : entry) (g : Z) : Q * Q * Q :=
  let k := g / (DMnx D * DMny D) in
  let j := (g - k * (DMnx D * DMny D)) / DMnx D in
  let i := g mod DMnx D in
  ((inject_Z (i + xs_ D) * a_del (ax c) - e_x e)%Q,
   (inject_Z (j + ys_ D) * a_del (ay c) - e_y e)%Q,
   (inject_Z (k + zs_ D) * a_del (az c) - e_z e)%Q).

Lemma node_disp_ok c D e g : 1 <= DMnx D -> 1 <= DMny D -> 0 <= g ->
  node_disp c D e g = Ok (nd_disp c D e g).
Proof.
  intros Hx Hy Hg. unfold node_disp, nd_disp, c_div, c_mod.
  destruct (Z.eqb_spec (DMnx D * DMny D) 0); [nia|]. cbn [obind].
  destruct (Z.eqb_spec (DMnx D) 0); [lia|]. cbn [obind].
  rewrite (quot_div_nonneg g) by nia. rewrite (rem_mod_nonneg g) by lia.
  assert (0 <= g - g / (DMnx D * DMny D) * (DMnx D * DMny D)).
  { pose proof (Z.mul_div_le g (DMnx D * DMny D)). nia. }
  rewrite quot_div_nonneg by lia. reflexivity.
Qed.

Lemma nth_flat {A B} (f : A -> B -> K) (vs : list B) (cs : list A) (dA : A) (dB : B) p i :
  (p < length cs)%nat -> (i < length vs)%nat ->
  nth (p * length vs + i) (flat_map (fun c => map (f c) vs) cs) zero = f (nth p cs dA) (nth i vs dB).
Proof.
  revert p. induction cs as [|c cs IH]; intros p Hp Hi; cbn [length] in Hp; [lia|].
  cbn [flat_map]. destruct p as [|p].
  - cbn [Nat.mul Nat.add nth]. rewrite app_nth1 by now rewrite map_length.
    rewrite (nth_indep _ zero (f c dB)) by now rewrite map_length. now rewrite map_nth.
  - cbn [Nat.mul nth]. rewrite app_nth2 by (rewrite map_length; lia). rewrite map_length.
    replace (length vs + p * length vs + i - length vs)%nat with (p * length vs + i)%nat by lia.
    apply IH; lia.
Qed.

Definition col (s : psp) (p : Z) : Z * Z * Z := nth (Z.to_nat p) (cols s) (0, 0, 0).

(** A row in order: its node indices are local indices, their number is
    [e_ndc]. *)
Definition row_ok (D : dom) (e : entry) : Prop :=
  1 <= DMnx D /\ 1 <= DMny D /\ e_ndc e = Z.of_nat (length (e_pos e)) /\
  NoDup (e_pos e) /\ Forall (fun g => 0 <= g < DMnx D * DMny D * (ze_ D - zs_ D + 1)) (e_pos e).

Lemma chi_matrix_ok c D ty s e : psp_ok s -> row_ok D e ->
  exists ch, chi_matrix zero chi c D ty s e = Ok ch /\ sz ch = e_ndc e * nproj s /\
    forall p i, 0 <= p < nproj s -> 0 <= i < e_ndc e ->
      rd ch (p * e_ndc e + i) = Ok (chi ty (col s p) (nd_disp c D e (nth (Z.to_nat i) (e_pos e) 0))).
Proof.
  intros Hs (Hx & Hy & HN & _ & HF). unfold chi_matrix.
  rewrite (omap_val _ (nd_disp c D e)).
  2:{ intros g Hg. rewrite Forall_forall in HF. specialize (HF g Hg). apply node_disp_ok; lia. }
  cbn [obind]. eexists. split; [reflexivity|]. cbn [sz]. split; [reflexivity|].
  intros p i Hp Hi. rewrite rd_ok by (cbn [sz]; nia). cbn [at_]. f_equal.
  pose proof (cols_len s Hs) as CL.
  replace (Z.to_nat (p * e_ndc e + i)) with
    (Z.to_nat p * length (map (nd_disp c D e) (e_pos e)) + Z.to_nat i)%nat.
  2:{ rewrite map_length. apply Nat2Z.inj. rewrite Nat2Z.inj_add, Nat2Z.inj_mul, !Z2Nat.id by nia. nia. }
  rewrite (nth_flat (fun cl v => chi ty cl v) _ _ (0, 0, 0) (nd_disp c D e 0)) by (rewrite ?map_length; lia).
  rewrite map_nth. reflexivity.
Qed.

(** Value of projector column [p] at node [g] of a row. *)
Definition cv (c : cell) (D : dom) (ty : nat) (s : psp) (e : entry) (p g : Z) : K :=
  chi ty (col s p) (nd_disp c D e g).

Lemma dot_ok c D ty s e ch p : psp_ok s -> row_ok D e ->
  (forall p i, 0 <= p < nproj s -> 0 <= i < e_ndc e ->
      rd ch (p * e_ndc e + i) = Ok (chi ty (col s p) (nd_disp c D e (nth (Z.to_nat i) (e_pos e) 0)))) ->
  0 <= p < nproj s -> forall (h : Z -> K),
  dot zero add mul ch (p * e_ndc e) (map h (e_pos e)) =
    Ok (ksum (map (fun g => cv c D ty s e p g * h g)%k (e_pos e))).
Proof.
  intros Hs (Hx & Hy & HN & ND & HF) HC Hp h.
  assert (G : forall l pre, e_pos e = pre ++ l ->
    dot zero add mul ch (p * e_ndc e + Z.of_nat (length pre)) (map h l) =
    Ok (ksum (map (fun g => cv c D ty s e p g * h g)%k l))).
  { induction l as [|g l IH]; intros pre E; cbn [map dot VnlOp.ksum]; [reflexivity|].
    rewrite HC.
    2: exact Hp.
    2:{ rewrite HN, E, app_length. cbn [length]. lia. }
    rewrite Nat2Z.id, E, app_nth2, Nat.sub_diag by lia. cbn [nth obind].
    specialize (IH (pre ++ [g])). rewrite app_length in IH. cbn [length] in IH.
    replace (p * e_ndc e + Z.of_nat (length pre) + 1) with (p * e_ndc e + Z.of_nat (length pre + 1)) by lia.
    rewrite IH by (rewrite <- app_assoc; exact E). reflexivity. }
  specialize (G (e_pos e) [] eq_refl). cbn [length] in G. rewrite Z.add_0_r in G. exact G.
Qed.

Lemma dot2_ok c D ty s e ch al i off : psp_ok s -> row_ok D e ->
  (forall p i, 0 <= p < nproj s -> 0 <= i < e_ndc e ->
      rd ch (p * e_ndc e + i) = Ok (chi ty (col s p) (nd_disp c D e (nth (Z.to_nat i) (e_pos e) 0)))) ->
  0 <= i < e_ndc e -> 0 <= off -> off + nproj s <= sz al ->
  forall ps, Forall (fun p => 0 <= p < nproj s) ps ->
  dot2 zero add mul ch al i (e_ndc e) off ps =
    Ok (ksum (map (fun p => cv c D ty s e p (nth (Z.to_nat i) (e_pos e) 0%Z) * at_ al (off + p)%Z)%k ps)).
Proof.
  intros Hs HR HC Hi H0 H1 ps F. induction F as [|p ps Hp F IH]; cbn [dot2 map VnlOp.ksum]; [reflexivity|].
  rewrite HC by assumption. cbn [obind]. rewrite rd_ok by lia. cbn [obind].
  rewrite IH. reflexivity.
Qed.

(** ** The two products of a row *)
Definition sel (i j : Z) (v : K) : K := if i =? j then v else zero.

Lemma wr_add (a : arr K) n j v : sz a = n -> 0 <= j < n ->
  exists a', obind (rd a j) (fun o => wr a j (add v o)) = Ok a' /\ sz a' = n /\
    forall i, at_ a' i = (at_ a i + sel i j v)%k.
Proof.
  intros Hn Hj. rewrite rd_ok by lia. cbn [obind]. rewrite wr_ok by lia.
  eexists. split; [reflexivity|]. cbn [sz at_]. split; [exact Hn|].
  intros i. unfold sel. destruct (Z.eqb_spec i j) as [->|_]; ring.
Qed.

Definition inner_val (c : cell) (D : dom) (ty : nat) (s : psp) (e : entry) (x : arr K) (ldi : Z)
    (a : K) (n p : Z) : K :=
  (a * ksum (map (fun g => cv c D ty s e p g * at_ x (n * ldi + g)%Z)%k (e_pos e)))%k.

Lemma inner_ok c D ty s e ch x ldi ncol off a al N : psp_ok s -> row_ok D e ->
  (forall p i, 0 <= p < nproj s -> 0 <= i < e_ndc e ->
      rd ch (p * e_ndc e + i) = Ok (chi ty (col s p) (nd_disp c D e (nth (Z.to_nat i) (e_pos e) 0)))) ->
  (forall n g, 0 <= n < ncol -> In g (e_pos e) -> 0 <= n * ldi + g < sz x) ->
  sz al = N -> 0 <= off -> off + ncol * nproj s <= N ->
  exists al', inner zero add mul ch x ldi ncol (nproj s) off a e al = Ok al' /\ sz al' = N /\
    forall i, at_ al' i = (at_ al i +
      ksum (map (fun n => ksum (map (fun p =>
        sel i (off + n * nproj s + p)%Z (inner_val c D ty s e x ldi a n p)) (zrange 0 (nproj s - 1))))
        (zrange 0 (ncol - 1))))%k.
Proof.
  intros Hs HR HC HX HN H0 H1. unfold inner.
  apply (ofold_acc _ (fun n i => ksum (map (fun p =>
        sel i (off + n * nproj s + p) (inner_val c D ty s e x ldi a n p)) (zrange 0 (nproj s - 1))))); [|exact HN].
  intros n al0 Hn Hal. apply in_zrange in Hn.
  unfold gather. rewrite (omap_val _ (fun g => at_ x (n * ldi + g))).
  2:{ intros g Hg. apply rd_ok. apply HX; [lia|exact Hg]. }
  cbn [obind].
  apply (ofold_acc _ (fun p i => sel i (off + n * nproj s + p) (inner_val c D ty s e x ldi a n p))); [|exact Hal].
  intros p al1 Hp Hal1. apply in_zrange in Hp.
  rewrite (dot_ok c D ty s e ch p Hs HR HC) by lia. cbn [obind].
  apply wr_add; [exact Hal1|]. nia.
Qed.

Definition scat_val (c : cell) (D : dom) (ty : nat) (s : psp) (e : entry) (al : arr K) (off : Z)
    (b : K) (n g : Z) : K :=
  (b * ksum (map (fun p => cv c D ty s e p g * at_ al (off + n * nproj s + p)%Z)%k
         (zrange 0 (nproj s - 1))))%k.

Lemma scatter_ok c D ty s e ch al ldo ncol off b h N : psp_ok s -> row_ok D e ->
  (forall p i, 0 <= p < nproj s -> 0 <= i < e_ndc e ->
      rd ch (p * e_ndc e + i) = Ok (chi ty (col s p) (nd_disp c D e (nth (Z.to_nat i) (e_pos e) 0)))) ->
  (forall n g, 0 <= n < ncol -> In g (e_pos e) -> 0 <= n * ldo + g < N) ->
  sz h = N -> 0 <= off -> off + ncol * nproj s <= sz al ->
  exists h', scatter zero add mul ch al ldo ncol (nproj s) off b e h = Ok h' /\ sz h' = N /\
    forall i, at_ h' i = (at_ h i +
      ksum (map (fun n => ksum (map (fun g =>
        sel i (n * ldo + g)%Z (scat_val c D ty s e al off b n g)) (e_pos e)))
        (zrange 0 (ncol - 1))))%k.
Proof.
  intros Hs HR HC HX HN H0 H1. unfold scatter.
  apply (ofold_acc _ (fun n i => ksum (map (fun g =>
        sel i (n * ldo + g) (scat_val c D ty s e al off b n g)) (e_pos e)))); [|exact HN].
  intros n h0 Hn Hh. apply in_zrange in Hn.
  assert (NN : e_ndc e = Z.of_nat (length (e_pos e))) by apply HR.
  assert (G : forall l pre h1, e_pos e = pre ++ l -> sz h1 = N ->
    exists h2, ofold (fun st g =>
      do s0 <- dot2 zero add mul ch al (snd st) (e_ndc e) (off + n * nproj s) (zrange 0 (nproj s - 1)) ;
      do o <- rd (fst st) (n * ldo + g) ;
      do h3 <- wr (fst st) (n * ldo + g) (add o (mul b s0)) ;
      Ok (h3, snd st + 1)) (h1, Z.of_nat (length pre)) l = Ok (h2, Z.of_nat (length pre) + Z.of_nat (length l))
    /\ sz h2 = N /\ forall i, at_ h2 i = (at_ h1 i +
       ksum (map (fun g => sel i (n * ldo + g)%Z (scat_val c D ty s e al off b n g)) l))%k).
  { induction l as [|g l IH]; intros pre h1 E Hh1; cbn [ofold map VnlOp.ksum].
    - exists h1. split; [f_equal; f_equal; cbn; lia|]. split; [exact Hh1|]. intros i. ring.
    - cbn [fst snd]. rewrite (dot2_ok c D ty s e ch al _ _ Hs HR HC); cycle 1.
      { rewrite NN, E, app_length. cbn [length]. lia. }
      { pose proof (nproj_pos s Hs). nia. }
      { pose proof (nproj_pos s Hs). nia. }
      { apply Forall_forall. intros p Hp. apply in_zrange in Hp. lia. }
      cbn [obind]. rewrite Nat2Z.id, E, app_nth2, Nat.sub_diag by lia. cbn [nth].
      assert (B : 0 <= n * ldo + g < N).
      { apply HX; [lia|]. rewrite E. apply in_app_iff. right. now left. }
      rewrite rd_ok by lia. cbn [obind]. rewrite wr_ok by lia. cbn [obind].
      set (h3 := Arr _ _).
      specialize (IH (pre ++ [g]) h3). rewrite app_length in IH. cbn [length] in IH.
      replace (Z.of_nat (length pre + 1)) with (Z.of_nat (length pre) + 1) in IH by lia.
      destruct IH as (h2 & E2 & S2 & V2); [rewrite <- app_assoc; exact E|exact Hh1|].
      exists h2. split; [rewrite E2; f_equal; f_equal; cbn [length]; lia|].
      split; [exact S2|]. intros i. rewrite V2. unfold h3. cbn [at_]. fold (scat_val c D ty s e al off b n g).
      unfold sel at 2. destruct (Z.eqb_spec i (n * ldo + g)) as [->|_]; ring. }
  destruct (G (e_pos e) [] h0 eq_refl Hh) as (h2 & E2 & S2 & V2). cbn [length] in E2.
  change (Z.of_nat 0) with 0 in E2.
  rewrite E2. cbn [obind fst]. exists h2. auto.
Qed.

(** ** Loop over the rows *)
Lemma over_rows_flat f : forall ts ty L (a : arr K),
  over_rows ty f ts L a =
  ofold (fun a r => f (fst (fst r)) (snd (fst r)) (snd r) a) a (flat_rows ty ts L).
Proof.
  induction ts as [|[n s] ts IH]; intros ty L a; cbn [over_rows flat_rows]; [reflexivity|].
  destruct L as [|es L]; [reflexivity|].
  rewrite ofold_app.
  assert (E : (if nproj s =? 0 then Ok a else ofold (fun a e => f ty s e a) a es) =
    ofold (fun a r => f (fst (fst r)) (snd (fst r)) (snd r) a) a
      (if nproj s =? 0 then [] else map (fun e => (ty, s, e)) es)).
  { destruct (nproj s =? 0); [reflexivity|]. revert a. clear.
    induction es as [|e es IH]; intros a; cbn [map ofold fst snd]; [reflexivity|].
    destruct (f ty s e a); cbn [obind]; [apply IH|reflexivity|reflexivity]. }
  rewrite E. clear E. set (o := ofold _ a _). destruct o; cbn [obind]; [apply IH|reflexivity|reflexivity].
Qed.

(** ** Gamma *)
Definition gval (ty : nat) (s : psp) (p : Z) : K := nth (Z.to_nat (snd (fst (col s p)))) (gamma ty) zero.

Definition gamma_ok (ty : nat) (s : psp) : Prop := zsum (p_ppl s) <= Z.of_nat (length (gamma ty)).

Lemma gamma_atom_ok ty s al cnt : psp_ok s -> gamma_ok ty s -> 0 <= cnt -> cnt + nproj s <= sz al ->
  exists al', gamma_atom mul gamma ty s (al, cnt) = Ok (al', cnt + nproj s) /\ sz al' = sz al /\
    (forall p, 0 <= p < nproj s -> at_ al' (cnt + p) = (at_ al (cnt + p)%Z * gval ty s p)%k) /\
    (forall i, ~ (cnt <= i < cnt + nproj s) -> at_ al' i = at_ al i).
Proof.
  intros Hs HG Hc HL. unfold gamma_atom.
  pose proof (cols_len s Hs) as CL.
  assert (CG := cols_gamma 0 0 (p_loc s) (p_ppl s) ltac:(lia) ltac:(lia) Hs). fold (cols s) in CG.
  assert (G : forall l pre a1, cols s = pre ++ l -> sz a1 = sz al ->
    exists a2, ofold (fun st cl =>
      let '(l, g, m) := cl in
      do gv <- ld (gamma ty) g ;
      do o <- rd (fst st) (snd st) ;
      do a <- wr (fst st) (snd st) (mul o gv) ;
      Ok (a, snd st + 1)) (a1, cnt + Z.of_nat (length pre)) l =
      Ok (a2, cnt + Z.of_nat (length pre) + Z.of_nat (length l)) /\ sz a2 = sz al /\
    (forall p, Z.of_nat (length pre) <= p < nproj s ->
       at_ a2 (cnt + p) = (at_ a1 (cnt + p)%Z * gval ty s p)%k) /\
    (forall i, ~ (cnt + Z.of_nat (length pre) <= i < cnt + nproj s) -> at_ a2 i = at_ a1 i)).
  { induction l as [|[[l0 g] m] l IH]; intros pre a1 E Ha; cbn [ofold].
    - rewrite E, app_nil_r in CL. exists a1. split; [f_equal; f_equal; cbn; lia|].
      split; [exact Ha|]. split; [intros p Hp; lia|reflexivity].
    - assert (LE : Z.of_nat (length pre) + 1 + Z.of_nat (length l) = nproj s).
      { rewrite <- CL, E, app_length. cbn [length]. lia. }
      assert (Hg : 0 <= g < Z.of_nat (length (gamma ty))).
      { rewrite E in CG. apply Forall_app in CG. destruct CG as [_ CG]. inversion CG as [|? ? B _]; subst.
        cbn [fst snd] in B. unfold gamma_ok in HG. lia. }
      assert (EG : ld (gamma ty) g = Ok (gval ty s (Z.of_nat (length pre)))).
      { apply ld_ok; [lia|]. unfold gval, col. rewrite Nat2Z.id, E, app_nth2, Nat.sub_diag by lia.
        cbn [nth fst snd]. rewrite (nth_error_nth' (gamma ty) zero) by lia. reflexivity. }
      rewrite EG. cbn [obind fst snd]. rewrite rd_ok by lia. cbn [obind]. rewrite wr_ok by lia.
      cbn [obind]. set (a3 := Arr _ _).
      destruct (IH (pre ++ [(l0, g, m)]) a3) as (a2 & E2 & S2 & V2 & U2);
        [rewrite <- app_assoc; exact E|exact Ha|].
      rewrite app_length in E2, V2, U2. cbn [length] in E2, V2, U2.
      exists a2. split.
      { replace (cnt + Z.of_nat (length pre) + 1) with (cnt + Z.of_nat (length pre + 1)) by lia.
        rewrite E2. f_equal. f_equal. cbn [length]. lia. }
      split; [exact S2|]. split.
      + intros p Hp. destruct (Z.eq_dec p (Z.of_nat (length pre))) as [->|N].
        * rewrite U2 by lia. unfold a3. cbn [at_]. rewrite Z.eqb_refl. reflexivity.
        * rewrite V2 by lia. unfold a3. cbn [at_].
          destruct (Z.eqb_spec (cnt + p) (cnt + Z.of_nat (length pre))); [lia|reflexivity].
      + intros i Hi. rewrite U2 by lia. unfold a3. cbn [at_].
        destruct (Z.eqb_spec i (cnt + Z.of_nat (length pre))); [lia|reflexivity]. }
  destruct (G (cols s) [] al eq_refl eq_refl) as (a2 & E2 & S2 & V2 & U2).
  cbn [length] in *. change (Z.of_nat 0) with 0 in *. rewrite !Z.add_0_r in E2. rewrite CL in E2.
  exists a2. split; [exact E2|]. split; [exact S2|]. split; [exact V2|].
  intros i Hi. apply U2. lia.
Qed.

(** Repeating a block of [gamma_atom]: [m] atoms times [ncol] columns. *)
Lemma gamma_cols_ok ty s : psp_ok s -> gamma_ok ty s -> forall (idx : list Z) al cnt,
  let m := Z.of_nat (length idx) in
  0 <= cnt -> cnt + m * nproj s <= sz al ->
  exists al', ofold (fun st _ => gamma_atom mul gamma ty s st) (al, cnt) idx = Ok (al', cnt + m * nproj s) /\
    sz al' = sz al /\
    (forall n p, 0 <= n < m -> 0 <= p < nproj s ->
       at_ al' (cnt + n * nproj s + p) = (at_ al (cnt + n * nproj s + p)%Z * gval ty s p)%k) /\
    (forall i, ~ (cnt <= i < cnt + m * nproj s) -> at_ al' i = at_ al i).
Proof.
  intros Hs HG. pose proof (nproj_pos s Hs) as NP.
  induction idx as [|x idx IH]; intros al cnt m Hc HL; subst m; cbn [ofold length].
  - exists al. split; [f_equal; f_equal; cbn; lia|]. repeat split; auto. intros. cbn in *. lia.
  - cbn [length] in HL. set (m := Z.of_nat (length idx)) in *.
    assert (EM : Z.of_nat (S (length idx)) = m + 1) by lia. rewrite EM in *.
    destruct (gamma_atom_ok ty s al cnt Hs HG Hc) as (a1 & E1 & S1 & V1 & U1); [nia|].
    rewrite E1. cbn [obind].
    destruct (IH a1 (cnt + nproj s)) as (a2 & E2 & S2 & V2 & U2); [lia|fold m; nia|].
    fold m in E2, V2, U2.
    exists a2. split; [rewrite E2; f_equal; f_equal; ring|]. split; [congruence|]. split.
    + intros n p Hn Hp. destruct (Z.eq_dec n 0) as [->|N].
      * rewrite U2 by lia. replace (cnt + 0 * nproj s + p) with (cnt + p) by lia. now apply V1.
      * replace (cnt + n * nproj s + p) with (cnt + nproj s + (n - 1) * nproj s + p) by ring.
        rewrite V2 by lia. rewrite U1; [reflexivity|]. nia.
    + intros i Hi. rewrite U2 by nia. apply U1. nia.
Qed.

Lemma gamma_atoms_ok ty s ncol : psp_ok s -> gamma_ok ty s -> 0 <= ncol -> forall (idx : list Z) al cnt,
  let m := Z.of_nat (length idx) in
  0 <= cnt -> cnt + m * nproj s * ncol <= sz al ->
  exists al', ofold (fun st _ => ofold (fun st _ => gamma_atom mul gamma ty s st) st (zrange 0 (ncol - 1)))
      (al, cnt) idx = Ok (al', cnt + m * nproj s * ncol) /\
    sz al' = sz al /\
    (forall j n p, 0 <= j < m -> 0 <= n < ncol -> 0 <= p < nproj s ->
       at_ al' (cnt + j * nproj s * ncol + n * nproj s + p) =
       (at_ al (cnt + j * nproj s * ncol + n * nproj s + p)%Z * gval ty s p)%k) /\
    (forall i, ~ (cnt <= i < cnt + m * nproj s * ncol) -> at_ al' i = at_ al i).
Proof.
  intros Hs HG Hnc. pose proof (nproj_pos s Hs) as NP.
  assert (NN : 0 <= nproj s * ncol) by nia.
  induction idx as [|x idx IH]; intros al cnt m Hc HL; subst m; cbn [ofold length].
  - exists al. split; [f_equal; f_equal; cbn; lia|]. repeat split; auto. intros. cbn in *. lia.
  - cbn [length] in HL. set (m := Z.of_nat (length idx)) in *.
    assert (EM : Z.of_nat (S (length idx)) = m + 1) by lia. rewrite EM in *.
    destruct (gamma_cols_ok ty s Hs HG (zrange 0 (ncol - 1)) al cnt) as (a1 & E1 & S1 & V1 & U1);
      [lia|rewrite zrange_len by lia; nia|].
    rewrite zrange_len in E1, V1, U1 by lia. replace (ncol - 1 - 0 + 1) with ncol in E1, V1, U1 by lia.
    rewrite E1. cbn [obind].
    destruct (IH a1 (cnt + ncol * nproj s)) as (a2 & E2 & S2 & V2 & U2); [nia|fold m; nia|].
    fold m in E2, V2, U2.
    exists a2. split; [rewrite E2; f_equal; f_equal; ring|]. split; [congruence|]. split.
    + intros j n p Hj Hn Hp.
      assert (B : 0 <= n * nproj s + p < ncol * nproj s) by nia.
      destruct (Z.eq_dec j 0) as [->|N].
      * rewrite U2 by lia. replace (cnt + 0 * nproj s * ncol + n * nproj s + p) with (cnt + n * nproj s + p) by lia.
        now apply V1.
      * replace (cnt + j * nproj s * ncol + n * nproj s + p)
          with (cnt + ncol * nproj s + (j - 1) * nproj s * ncol + n * nproj s + p) by ring.
        rewrite V2 by lia. rewrite U1; [reflexivity|].
        assert (0 <= (j - 1) * (nproj s * ncol)) by nia. nia.
    + assert (0 <= m * (nproj s * ncol)) by nia.
      intros i Hi. rewrite U2 by nia. apply U1. nia.
Qed.

Lemma gamma_types_ok ncol : 0 <= ncol -> forall ts ty al cnt, ts_ok ts ->
  (forall k n s, nth_error ts k = Some (n, s) -> gamma_ok (ty + k) s) ->
  0 <= cnt -> cnt + total ts * ncol <= sz al ->
  exists al', gamma_types mul gamma ty ncol ts (al, cnt) = Ok (al', cnt + total ts * ncol) /\
    sz al' = sz al /\
    (forall k m s j n p, nth_error ts k = Some (m, s) -> 0 <= j < m -> 0 <= n < ncol -> 0 <= p < nproj s ->
       let i := cnt + (base ts k + j * nproj s) * ncol + n * nproj s + p in
       at_ al' i = (at_ al i * gval (ty + k) s p)%k) /\
    (forall i, ~ (cnt <= i < cnt + total ts * ncol) -> at_ al' i = at_ al i).
Proof.
  intros Hnc. induction ts as [|[m0 s0] ts IH]; intros ty al cnt HT HG Hc HL; cbn [gamma_types].
  - exists al. split; [f_equal; f_equal; cbn; lia|]. split; [reflexivity|]. split; [|reflexivity].
    intros [|k] m s j n p E; discriminate E.
  - inversion HT as [|? ? [Hm Hs] HT']; subst. cbn [fst snd] in Hm, Hs.
    pose proof (nproj_pos s0 Hs) as NP.
    assert (TN : 0 <= total ts).
    { clear - HT'. unfold total. induction HT' as [|[a b] ts [Ha Hb] _ IH]; cbn; [lia|].
      cbn [fst snd] in *. pose proof (nproj_pos b Hb). unfold zsum in IH. nia. }
    change (total ((m0, s0) :: ts)) with (m0 * nproj s0 + total ts) in *.
    destruct (gamma_atoms_ok ty s0 ncol Hs) with (idx := zrange 0 (m0 - 1)) (al := al) (cnt := cnt)
      as (a1 & E1 & S1 & V1 & U1).
    { specialize (HG O m0 s0 eq_refl). now rewrite Nat.add_0_r in HG. }
    { lia. } { lia. } { rewrite zrange_len by lia. nia. }
    rewrite zrange_len in E1, V1, U1 by lia. replace (m0 - 1 - 0 + 1) with m0 in E1, V1, U1 by lia.
    rewrite E1. cbn [obind].
    destruct (IH (S ty) a1 (cnt + m0 * nproj s0 * ncol)) as (a2 & E2 & S2 & V2 & U2).
    { assumption. }
    { intros k n s E. specialize (HG (S k) n s E). replace (S ty + k)%nat with (ty + S k)%nat by lia. exact HG. }
    { nia. } { rewrite S1. nia. }
    exists a2. split; [rewrite E2; f_equal; f_equal; ring|]. split; [congruence|]. split.
    + intros [|k] m s j n p E Hj Hn Hp; cbn [nth_error] in E.
      * injection E as <- <-. cbv zeta. change (base ((m0, s0) :: ts) 0) with 0. rewrite Nat.add_0_r.
        replace (cnt + (0 + j * nproj s0) * ncol + n * nproj s0 + p)
          with (cnt + j * nproj s0 * ncol + n * nproj s0 + p) by ring.
        rewrite U2; [now apply V1|].
        assert (0 <= n * nproj s0 + p < ncol * nproj s0) by nia.
        assert ((j + 1) * (nproj s0 * ncol) <= m0 * (nproj s0 * ncol)) by nia. nia.
      * cbv zeta. change (base ((m0, s0) :: ts) (S k)) with (m0 * nproj s0 + base ts k).
        specialize (V2 k m s j n p E Hj Hn Hp). cbv zeta in V2.
        replace (cnt + (m0 * nproj s0 + base ts k + j * nproj s) * ncol + n * nproj s + p)
          with (cnt + m0 * nproj s0 * ncol + (base ts k + j * nproj s) * ncol + n * nproj s + p) by ring.
        rewrite V2. replace (S ty + k)%nat with (ty + S k)%nat by lia. f_equal.
        apply U1.
        assert (0 <= base ts k).
        { clear - HT'. unfold base. revert k. induction HT' as [|[a b] ts [Ha Hb] _ IH]; intros [|k]; cbn; try lia.
          cbn [fst snd] in *. pose proof (nproj_pos b Hb). specialize (IH k). unfold zsum in IH. nia. }
        assert (0 <= nproj s) by lia. 
        assert (0 <= (base ts k + j * nproj s) * ncol) by (apply Z.mul_nonneg_nonneg; nia).
        nia.
    + intros i Hi. rewrite U2 by nia. apply U1. nia.
Qed.

End RING.
