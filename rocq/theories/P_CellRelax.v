(** C61: relaxation of the cell volume. *)
From Coq Require Import Reals List Lia Lra ZArith Bool FunctionalExtensionality.
From Verif Require Import CBase BandK Lattice P_Lattice CellRelax.
Import ListNotations.
Local Open Scope R_scope.

(** ** Specification *)
Definition vol3 (s : cell) (jac : R) : R := rng s 0%nat * rng s 1%nat * rng s 2%nat * jac.
(** the mesh and the stencils belong to the cell: [n d] intervals along
    direction d, finite-difference weights over powers of the mesh size, for
    non-orthogonal cells times the entries of the Laplacian's matrix *)
Record meshed (typ : Z) (jac : R) (lap : mat) (FDn : nat) (w1 w2 : nat -> R) (n : nat -> R) (s : cell) : Prop := Meshed {
  m_pos : forall d, (d < 3)%nat -> 0 < rng s d;
  m_dlt : forall d, (d < 3)%nat -> dlt s d = rng s d / n d;
  m_dV : cdV s = dlt s 0%nat * dlt s 1%nat * dlt s 2%nat * jac;
  m_D1 : forall d p, (d < 3)%nat -> (1 <= p <= FDn)%nat -> cD1 s d p = w1 p / dlt s d;
  m_D2 : forall d p, (d < 3)%nat -> (p <= FDn)%nat -> typ = 0%Z \/ (10 < typ < 20)%Z -> cD2 s d p = (if (typ =? 0)%Z then 1 else lap d d) * w2 p / dlt s d ^ 2;
  m_Mx : forall k p i j d, (p <= FDn)%nat -> (10 < typ < 20)%Z -> In (k, i, j, d) [(0, 0, 1, 0); (1, 0, 2, 0); (2, 1, 2, 1); (3, 0, 1, 1); (4, 0, 1, 0); (5, 0, 2, 2); (6, 0, 2, 0); (7, 1, 2, 2); (8, 1, 2, 1)]%nat ->
      cMx s k p = 2 * lap i j * w1 p / dlt s d }.
(** one cell is another stretched by [c] along the chosen directions, the atoms
    with it *)
Definition stretched (dims : nat -> bool) (c : R) (s s' : cell) : Prop :=
  (forall d, rng s' d = if dims d then c * rng s d else rng s d) /\
  (forall a d, atm s' a d = if dims d then c * atm s a d else atm s a d).

Lemma cdiv_ok x y z : cdiv x y = Ok z -> y <> 0 /\ z = x / y.
Proof. unfold cdiv. destruct (Req_EM_T y 0); [discriminate|]. intros H. injection H as <-. auto. Qed.
Lemma cdiv_def x y : y <> 0 -> cdiv x y = Ok (x / y).
Proof. intros H. unfold cdiv. destruct (Req_EM_T y 0); [contradiction|reflexivity]. Qed.
Lemma cdiv_zero x : cdiv x 0 = UB.
Proof. unfold cdiv. destruct (Req_EM_T 0 0) as [_|N]; [reflexivity|]. exfalso. apply N. reflexivity. Qed.
Lemma root_pow x n : 0 < x -> (0 < n)%nat -> Rpower x (1 / INR n) ^ n = x.
Proof.
  intros Hx Hn. assert (H : INR n <> 0) by (apply not_0_INR; lia).
  rewrite <- Rpower_pow by apply exp_pos. rewrite Rpower_mult. replace (1 / INR n * INR n) with 1 by (field; exact H). apply Rpower_1. exact Hx.
Qed.
Lemma root_unique c x n : 0 < c -> (0 < n)%nat -> c ^ n = x -> c = Rpower x (1 / INR n).
Proof.
  intros Hc Hn H. assert (H' : INR n <> 0) by (apply not_0_INR; lia). rewrite <- H, <- Rpower_pow by exact Hc. rewrite Rpower_mult.
  replace (INR n * (1 / INR n)) with 1 by (field; exact H'). symmetry. apply Rpower_1. exact Hc.
Qed.

Section Cell.
  Variables (typ : Z) (jac : R) (lap : mat) (dims : nat -> bool) (FDn : nat) (w1 w2 : nat -> R) (N : nat -> Z) (n : nat -> R).
  Hypothesis Hn : forall d, (d < 3)%nat -> n d <> 0.
  Hypothesis Hj : 0 < jac.
  Notation reinit := (reinitialize_cell_mesh typ jac lap dims FDn w1 w2 N).
  Notation ok := (meshed typ jac lap FDn w1 w2 n).

  Lemma vol_pos s : ok s -> 0 < volume jac s.
  Proof. intros H. unfold volume. pose proof (m_pos _ _ _ _ _ _ _ _ H). repeat apply Rmult_lt_0_compat; auto. Qed.
  Lemma reinit_cases vol s : ok s -> (0 < ndim dims)%nat -> 0 < vol ->
    let c := Rpower (vol / volume jac s) (1 / INR (ndim dims)) in
    exists s', reinit vol s = Ok s' /\ ok s' /\ 0 < c /\ c ^ ndim dims = vol / volume jac s /\ stretched dims c s s' /\
      (forall d, dlt s' d = if dims d then dlt s d * c else dlt s d) /\
      (forall d, cD1 s' d = upd (cD1 s d) 1 FDn (fun p => w1 p * (1 / dlt s' (Nat.min d 2)))) /\
      (forall d, cD2 s' d = if (typ =? 0)%Z then upd (cD2 s d) 0 FDn (fun p => w2 p * (1 / (dlt s' (Nat.min d 2) * dlt s' (Nat.min d 2)))) else if nonorth typ then upd (cD2 s d) 0 FDn (fun p => lap d d * w2 p * (1 / (dlt s' (Nat.min d 2) * dlt s' (Nat.min d 2)))) else cD2 s d) /\
      (forall k, cMx s' k = if (typ =? 0)%Z then cMx s k else if nonorth typ then upd (cMx s k) 0 FDn (fun p => 2 * mixed_T lap k * w1 p * (1 / dlt s' (mixed_dim k))) else cMx s k) /\
      cdV s' = dlt s' 0%nat * dlt s' 1%nat * dlt s' 2%nat * jac /\
      eigmax s' = (if (typ =? 0)%Z then eig_of FDn N (cD2 s') else eigmax s).
  Proof.
    intros Hs Hd Hv c. pose proof (vol_pos s Hs) as VP. unfold reinitialize_cell_mesh. destruct (Rle_dec vol 0) as [L|_]; [lra|].
    rewrite cdiv_def by lra. cbn [obind]. rewrite cdiv_def by (apply not_0_INR; lia). cbn [obind]. fold c.
    assert (C0 : 0 < c) by apply exp_pos.
    assert (HP : forall d, (d < 3)%nat -> (if dims d then dlt s d * c else dlt s d) <> 0).
    { intros d Hd'. rewrite (m_dlt _ _ _ _ _ _ _ _ Hs d Hd'). pose proof (m_pos _ _ _ _ _ _ _ _ Hs d Hd') as P.
      assert (Q : rng s d / n d <> 0). { intros E. apply Rmult_integral in E. destruct E as [E|E]; [lra|]. pose proof (Rinv_neq_0_compat _ (Hn d Hd')). contradiction. }
      destruct (dims d); [|exact Q]. intros E. apply Rmult_integral in E. destruct E; [contradiction|lra]. }
    pose proof (HP 0%nat ltac:(lia)) as P0. pose proof (HP 1%nat ltac:(lia)) as P1. pose proof (HP 2%nat ltac:(lia)) as P2.
    rewrite !cdiv_def by (repeat first [assumption | apply Rmult_integral_contrapositive; split]). cbn [obind].
    eexists. split; [reflexivity|].
    assert (EC : c ^ ndim dims = vol / volume jac s). { apply root_pow; [|exact Hd]. apply Rdiv_lt_0_compat; assumption. }
    assert (IV : forall (x y z : R) d, match d with O => 1 / x | 1%nat => 1 / y | _ => 1 / z end = 1 / match Nat.min d 2 with O => x | 1%nat => y | _ => z end).
    { intros x y z [|[|[|d]]]; reflexivity. }
    assert (IW : forall d, match Nat.min d 2 with O => (if dims 0%nat then dlt s 0%nat * c else dlt s 0%nat) | 1%nat => (if dims 1%nat then dlt s 1%nat * c else dlt s 1%nat) | _ => (if dims 2%nat then dlt s 2%nat * c else dlt s 2%nat) end
                   = if dims (Nat.min d 2) then dlt s (Nat.min d 2) * c else dlt s (Nat.min d 2)).
    { intros [|[|[|d]]]; reflexivity. }
    assert (IW2 : forall d, match d with O => 1 / ((if dims 0%nat then dlt s 0%nat * c else dlt s 0%nat) * (if dims 0%nat then dlt s 0%nat * c else dlt s 0%nat)) | 1%nat => 1 / ((if dims 1%nat then dlt s 1%nat * c else dlt s 1%nat) * (if dims 1%nat then dlt s 1%nat * c else dlt s 1%nat)) | _ => 1 / ((if dims 2%nat then dlt s 2%nat * c else dlt s 2%nat) * (if dims 2%nat then dlt s 2%nat * c else dlt s 2%nat)) end
                   = 1 / ((if dims (Nat.min d 2) then dlt s (Nat.min d 2) * c else dlt s (Nat.min d 2)) * (if dims (Nat.min d 2) then dlt s (Nat.min d 2) * c else dlt s (Nat.min d 2)))).
    { intros [|[|[|d]]]; reflexivity. }
    assert (MD : forall k, Nat.min (mixed_dim k) 2 = mixed_dim k).
    { intros k. unfold mixed_dim. do 9 (destruct k as [|k]; [reflexivity|]). destruct k; reflexivity. }
    split; [|split; [exact C0|split; [exact EC|split; [split; intros; cbn [rng atm]; match goal with |- context [dims ?d] => destruct (dims d) end; lra|]]]].
    - constructor; cbn [rng dlt cdV cD1 cD2 cMx].
      + intros d Hd'. pose proof (m_pos _ _ _ _ _ _ _ _ Hs d Hd'). destruct (dims d); [apply Rmult_lt_0_compat; assumption|assumption].
      + intros d Hd'. rewrite (m_dlt _ _ _ _ _ _ _ _ Hs d Hd'). destruct (dims d); [|reflexivity]. field. apply Hn. exact Hd'.
      + reflexivity.
      + intros d p Hd' Hp. unfold upd. rewrite (proj2 (Nat.leb_le 1 p)), (proj2 (Nat.leb_le p FDn)) by lia. cbn [andb].
        rewrite IV, IW. rewrite Nat.min_l by lia. unfold Rdiv. ring.
      + intros d p Hd' Hp HT. unfold upd, nonorth. pose proof (HP d Hd') as HPd. assert (LE : (0 <=? p)%nat && (p <=? FDn)%nat = true) by (apply andb_true_iff; split; apply Nat.leb_le; lia).
        destruct (Z.eqb_spec typ 0) as [E|E].
        * rewrite LE. rewrite IW2, Nat.min_l by lia. field. exact HPd.
        * destruct HT as [HT|HT]; [contradiction|]. rewrite (proj2 (Z.ltb_lt 10 typ)), (proj2 (Z.ltb_lt typ 20)) by lia. cbn [andb]. rewrite LE.
          rewrite IW2, Nat.min_l by lia. field. exact HPd.
      + intros k p i j d Hp HT Hin. unfold nonorth. rewrite (proj2 (Z.eqb_neq typ 0)) by lia. rewrite (proj2 (Z.ltb_lt 10 typ)), (proj2 (Z.ltb_lt typ 20)) by lia. cbn [andb].
        unfold upd. assert (LE : (0 <=? p)%nat && (p <=? FDn)%nat = true) by (apply andb_true_iff; split; apply Nat.leb_le; lia). rewrite LE.
        cbn [In] in Hin. repeat (destruct Hin as [Hin|Hin]; [injection Hin as <- <- <- <-; cbn [mixed_T mixed_dim nth]; unfold Rdiv; ring|]). contradiction.
    - cbn [rng dlt cdV atm cD1 cD2 cMx eigmax]. split; [reflexivity|]. split; [|split; [|split; [|split; reflexivity]]].
      + intros d. f_equal. extensionality p. rewrite IV, IW. reflexivity.
      + intros d. destruct (typ =? 0)%Z; [f_equal; extensionality p; rewrite IW2; reflexivity|]. destruct (nonorth typ); [f_equal; extensionality p; rewrite IW2; reflexivity|reflexivity].
      + intros k. destruct (typ =? 0)%Z; [reflexivity|]. destruct (nonorth typ); [|reflexivity]. f_equal. extensionality p. rewrite IV, IW, MD. reflexivity.
  Qed.
  Lemma stretched_vol c s s' : stretched dims c s s' -> volume jac s' = c ^ ndim dims * volume jac s.
  Proof. intros [H _]. unfold volume. rewrite !H. unfold ndim. cbn [filter]. destruct (dims 0%nat), (dims 1%nat), (dims 2%nat); cbn [length]; ring. Qed.
End Cell.

(** ** The root finder *)
(** the evaluations made one after the other: volume and residual *)
Inductive run {S : Type} (eval : S -> R -> outcome (S * R)) (s0 : S) : list (R * R) -> S -> Prop :=
| run_nil : run eval s0 [] s0
| run_snoc l s1 v r s2 : run eval s0 l s1 -> eval s1 v = Ok (s2, r) -> run eval s0 (l ++ [(v, r)]) s2.
(** the bracket after k expansions *)
Definition lo_k (x1 x2 : R) (k : nat) : R := (x1 + x2) / 2 - 2 ^ k * ((x2 - x1) / 2).
Definition hi_k (x1 x2 : R) (k : nat) : R := (x1 + x2) / 2 + 2 ^ k * ((x2 - x1) / 2).
(** the distance up to which the volume is resolved *)
Definition near (tol_x b : R) : R := 2 * (2 * / 10000000000000000 * Rabs b + / 2 * tol_x).

(** the evaluations at the ends of the brackets, from the j-th on *)
Fixpoint brackets (x1 x2 : R) (j : nat) (fs : list (R * R)) : list (R * R) :=
  match fs with
  | [] => []
  | (ra, rb) :: t => (lo_k x1 x2 j, ra) :: (hi_k x1 x2 j, rb) :: brackets x1 x2 (j + 1) t
  end.
Definition same_sign (p : R * R) : Prop := 0 < fst p * snd p.
(** a root up to the tolerances: the residual is small, or it changes sign
    within the resolved distance *)
Definition root_found (tol_x tol_f : R) (log : list (R * R)) (b : R) : Prop :=
  exists fb, In (b, fb) log /\ (Rabs fb < tol_f \/ exists c fc, In (c, fc) log /\ fb * fc <= 0 /\ Rabs (c - b) <= near tol_x b).

Lemma rltb_t x y : Rltb x y = true -> x < y.
Proof. unfold Rltb. destruct (Rlt_dec x y); [auto|discriminate]. Qed.
Lemma rltb_f x y : Rltb x y = false -> y <= x.
Proof. unfold Rltb. destruct (Rlt_dec x y); [discriminate|lra]. Qed.
Lemma sgn_mult_le (x y z : R) : x * y <= 0 -> 0 < z * y -> x * z <= 0.
Proof.
  intros H1 H2. destruct (Rlt_le_dec 0 y) as [L|L].
  - assert (0 < z) by nra. assert (x <= 0) by nra. nra.
  - assert (y < 0). { destruct (Req_dec y 0) as [E|E]; [rewrite E in H2; lra|lra]. }
    assert (z < 0) by nra. assert (0 <= x) by nra. nra.
Qed.
Lemma same_sign_b (x y : R) : (Rltb 0 x && Rltb 0 y) || (Rltb x 0 && Rltb y 0) = true -> 0 < x * y.
Proof. rewrite orb_true_iff, !andb_true_iff. intros [[A B]|[A B]]; apply rltb_t in A; apply rltb_t in B; nra. Qed.
Lemma not_same_sign_b (x y : R) : (Rltb 0 x && Rltb 0 y) || (Rltb x 0 && Rltb y 0) = false -> x * y <= 0.
Proof.
  rewrite orb_false_iff, !andb_false_iff. intros [[A|A] [B|B]]; apply rltb_f in A; apply rltb_f in B; try nra.
  - replace x with 0 by lra. lra.
  - replace y with 0 by lra. lra.
Qed.

Section Brackets.
  Variables (x1 x2 : R).
  Hypothesis Hx : x1 <= x2.
  Lemma brackets_app : forall fs j gs, brackets x1 x2 j (fs ++ gs) = brackets x1 x2 j fs ++ brackets x1 x2 (j + length fs) gs.
  Proof.
    induction fs as [|[u v] fs IH]; intros j gs; cbn [brackets app length]; [rewrite Nat.add_0_r; reflexivity|].
    rewrite IH. replace (j + 1 + length fs)%nat with (j + S (length fs))%nat by lia. reflexivity.
  Qed.
  Lemma pow2_mono i k : (i <= k)%nat -> 2 ^ i <= 2 ^ k.
  Proof. intros H. apply Rle_pow; [lra|exact H]. Qed.
  Lemma bracket_mono i k : (i <= k)%nat -> lo_k x1 x2 k <= lo_k x1 x2 i /\ lo_k x1 x2 i <= hi_k x1 x2 i /\ hi_k x1 x2 i <= hi_k x1 x2 k.
  Proof.
    intros H. unfold lo_k, hi_k. pose proof (pow2_mono _ _ H). assert (0 < 2 ^ i) by (apply pow_lt; lra). assert (0 <= (x2 - x1) / 2) by lra.
    set (h := (x2 - x1) / 2) in *. clearbody h. nra.
  Qed.
  Lemma brackets_in : forall fs j v r, In (v, r) (brackets x1 x2 j fs) -> lo_k x1 x2 (j + length fs - 1) <= v <= hi_k x1 x2 (j + length fs - 1).
  Proof.
    induction fs as [|[u w] fs IH]; intros j v r H; cbn [brackets In length] in *; [contradiction|].
    destruct (bracket_mono j (j + S (length fs) - 1) ltac:(lia)) as (B1 & B2 & B3).
    destruct H as [H|[H|H]]; [injection H as <- <-; lra|injection H as <- <-; lra|].
    replace (j + S (length fs) - 1)%nat with (j + 1 + length fs - 1)%nat by lia. exact (IH _ _ _ H).
  Qed.
End Brackets.

Section BrentSpec.
  Context {S : Type} (eval : S -> R -> outcome (S * R)) (s0 : S) (tol_x tol_f : R).
  Hypothesis Htx : 0 <= tol_x.
  Hypothesis Htf : 0 < tol_f.

  Definition seen (m : memo (S:=S)) (x fx : R) : Prop := In (x, fx) (snd m).
  Definition tracked (m : memo (S:=S)) (s : broot) : Prop := seen m (ba s) (bfa s) /\ seen m (bb s) (bfb s) /\ seen m (bc s) (bfc s).
  Definition may_reset (s : broot) : Prop := bfb s * bfc s <= 0 \/ bfa s * bfb s <= 0.
  Definition inv (lo hi : R) (m : memo (S:=S)) : Prop := run eval s0 (snd m) (fst m) /\ forall v r, In (v, r) (snd m) -> lo <= v <= hi.
  (** the point b was evaluated last and the others are worse than the tolerance *)
  Definition fresh (m : memo (S:=S)) (s : broot) : Prop :=
    (exists l, snd m = l ++ [(bb s, bfb s)]) /\ tol_f <= Rabs (bfa s) /\ tol_f <= Rabs (bfc s).
  Lemma reset_spec m s : tracked m s -> may_reset s -> tracked m (reset s) /\ bfb (reset s) * bfc (reset s) <= 0.
  Proof.
    intros (T1 & T2 & T3) M. unfold reset. destruct ((Rltb 0 (bfb s) && Rltb 0 (bfc s)) || (Rltb (bfb s) 0 && Rltb (bfc s) 0)) eqn:E.
    - apply same_sign_b in E. split; [unfold tracked; cbn; auto|]. cbn. destruct M as [M|M]; lra.
    - apply not_same_sign_b in E. split; [unfold tracked; auto|exact E].
  Qed.
  Lemma swap_spec m s : tracked m s -> bfb s * bfc s <= 0 ->
    tracked m (swap s) /\ bfb (swap s) * bfc (swap s) <= 0 /\ Rabs (bfb (swap s)) <= Rabs (bfc (swap s)).
  Proof.
    intros (T1 & T2 & T3) M. unfold swap. destruct (Rltb (Rabs (bfc s)) (Rabs (bfb s))) eqn:E.
    - apply rltb_t in E. unfold tracked. cbn. split; [auto|]. split; lra.
    - apply rltb_f in E. unfold tracked. auto.
  Qed.
  (** after a step, if the best point is below the tolerance it is the last one *)
  Lemma fresh_spec m s : fresh m s -> let s2 := swap (reset s) in
    (exists l, snd m = l ++ [(bb s2, bfb s2)]) \/ (exists l r, snd m = l ++ [(bc s2, r)]) /\ tol_f <= Rabs (bfb s2).
  Proof.
    intros (L & Ha & Hc). cbv zeta. unfold swap.
    set (s1 := reset s). assert (Q : bb s1 = bb s /\ bfb s1 = bfb s /\ tol_f <= Rabs (bfc s1)).
    { unfold s1, reset. destruct ((Rltb 0 (bfb s) && Rltb 0 (bfc s)) || (Rltb (bfb s) 0 && Rltb (bfc s) 0)); cbn; auto. }
    destruct Q as (Q1 & Q2 & Q3). destruct L as [l L]. destruct (Rltb (Rabs (bfc s1)) (Rabs (bfb s1))); cbn.
    - right. split; [|exact Q3]. exists l, (bfb s). rewrite Q1. exact L.
    - left. exists l. rewrite Q1, Q2. exact L.
  Qed.

  Lemma step_spec tol1 s : 0 <= tol1 -> tol1 < Rabs (xm_of s) -> tol_f <= Rabs (bfb s) -> Rabs (bfb s) <= Rabs (bfc s) ->
    exists d e, step_de tol1 s = Ok (d, e) /\ 0 <= d * xm_of s /\ Rabs d <= 3 / 2 * Rabs (xm_of s).
  Proof.
    intros Ht Hx He Hc. set (xm := xm_of s) in *.
    assert (Dxm : exists d e, @Ok (R * R) (xm, xm) = Ok (d, e) /\ 0 <= d * xm /\ Rabs d <= 3 / 2 * Rabs xm).
    { exists xm, xm. split; [reflexivity|]. pose proof (Rabs_pos xm). split; [nra | lra]. }
    unfold step_de. cbv zeta. fold xm.
    destruct (Rltb (Rabs (be s)) tol1 || negb (Rltb (Rabs (bfb s)) (Rabs (bfa s)))) eqn:E; [exact Dxm|].
    apply orb_false_iff in E. destruct E as [_ E]. apply negb_false_iff, rltb_t in E.
    assert (Na : bfa s <> 0). { intros Z. rewrite Z, Rabs_R0 in E. lra. }
    assert (Nc : bfc s <> 0). { intros Z. rewrite Z, Rabs_R0 in Hc. lra. }
    assert (I : exists pq, interp s = Ok pq).
    { unfold interp. rewrite !cdiv_def by assumption. cbv zeta. cbn [obind]. destruct (Req_EM_T (ba s) (bc s)); eexists; reflexivity. }
    destruct I as ((p0 & q0) & I). rewrite I. cbn [obind fst snd].
    set (q := if Rltb 0 p0 then - q0 else q0). clearbody q.
    set (min1 := 3 * xm * q - Rabs (tol1 * q)). set (min2 := Rabs (be s * q)).
    destruct (Rltb (2 * Rabs p0) (if Rltb min1 min2 then min1 else min2)) eqn:A; [|exact Dxm].
    assert (A1 : 2 * Rabs p0 < min1). { destruct (Rltb min1 min2) eqn:B; apply rltb_t in A; [exact A|]. apply rltb_f in B. lra. }
    unfold min1 in A1. pose proof (Rabs_pos p0) as P0. pose proof (Rabs_pos (tol1 * q)) as P1.
    assert (Q0 : 0 < xm * q) by nra. assert (Nq : q <> 0) by (intros C; rewrite C in Q0; lra).
    rewrite cdiv_def by exact Nq. cbn [obind]. exists (Rabs p0 / q), (bd s). split; [reflexivity|].
    assert (Qq : (Rabs p0 / q) * q = Rabs p0) by (field; exact Nq).
    set (d := Rabs p0 / q) in *. clearbody d. destruct (Rlt_le_dec 0 q) as [L|L].
    - assert (0 < xm) by nra. assert (0 <= d) by nra. rewrite (Rabs_pos_eq d), (Rabs_pos_eq xm) by lra. split; nra.
    - assert (q < 0) by lra. assert (xm < 0) by nra. assert (d <= 0) by nra. rewrite (Rabs_left1 d), (Rabs_left1 xm) by lra. split; nra.
  Qed.
  Lemma trial_between tol1 s d : 0 <= tol1 -> tol1 < Rabs (xm_of s) -> 0 <= d * xm_of s -> Rabs d <= 3 / 2 * Rabs (xm_of s) ->
    let b := if Rltb tol1 (Rabs d) then bb s + d else bb s + csign tol1 (xm_of s) in
    (bb s <= b /\ b < bc s) \/ (bc s < b /\ b <= bb s).
  Proof.
    intros Ht Hx Hd1 Hd2. cbv zeta. unfold xm_of in *. set (b := bb s) in *. set (c := bc s) in *. clearbody b c.
    assert (G : forall st, 0 <= st * (/ 2 * (c - b)) -> Rabs st <= 3 / 2 * Rabs (/ 2 * (c - b)) ->
             (b <= b + st /\ b + st < c) \/ (c < b + st /\ b + st <= b)).
    { intros st H1 H2. pose proof (Rle_lt_trans _ _ _ Ht Hx) as H3. revert H1 H2 H3. set (x := / 2 * (c - b)). assert (Ex : c = b + 2 * x) by (unfold x; lra). clearbody x. intros H1 H2 H3.
      unfold Rabs in H2, H3. destruct (Rcase_abs x) as [P|P]; destruct (Rcase_abs st) as [Q|Q]; try (left; lra); try (right; lra).
      - right. assert (st = 0) by nra. lra.
      - exfalso. nra. }
    destruct (Rltb tol1 (Rabs d)); [apply G; assumption|].
    apply G; unfold csign; destruct (Rle_dec 0 (/ 2 * (c - b))); rewrite ?Rabs_Ropp, ?(Rabs_pos_eq (Rabs tol1)), (Rabs_pos_eq tol1) by (try apply Rabs_pos; exact Ht); nra.
  Qed.

  Lemma iterate_spec : forall n s m lo hi, tracked m s -> may_reset s -> inv lo hi m ->
    match iterate eval n tol_x tol_f s m with
    | Ok (b, m', c) => inv lo hi m' /\ exists l, snd m' = snd m ++ l /\ (length l <= n)%nat /\
        (if c then root_found tol_x tol_f (snd m') b else length l = n /\ (n = 0%nat /\ b = bb s \/ exists l' r, snd m' = l' ++ [(b, r)])) /\
        (fresh m s \/ l <> [] -> c = true -> exists l' v r, snd m' = l' ++ [(v, r)] /\ Rabs (v - b) <= near tol_x b)
    | UB => exists l s1 v, run eval s0 l s1 /\ eval s1 v = UB
    | Exit => exists l s1 v, run eval s0 l s1 /\ eval s1 v = Exit /\ lo <= v <= hi
    end.
  Proof.
    induction n as [|n IH]; intros s m lo hi T M I; cbn [iterate].
    - split; [exact I|]. exists []. rewrite app_nil_r. split; [reflexivity|]. split; [cbn; lia|]. split; [split; [reflexivity|left; split; reflexivity]|]. discriminate.
    - destruct (reset_spec m s T M) as (T1 & S1). destruct (swap_spec m (reset s) T1 S1) as (T2 & S2 & O2).
      pose proof (fresh_spec m s) as FS. cbv zeta in FS. set (s2 := swap (reset s)) in *. clearbody s2. cbv zeta. set (tol1 := tol1_of tol_x s2).
      assert (Ht1 : 0 <= tol1). { unfold tol1, tol1_of. pose proof (Rabs_pos (bb s2)). lra. }
      assert (NE : near tol_x (bb s2) = 2 * tol1) by (unfold near, tol1, tol1_of; lra).
      destruct (negb (Rltb tol1 (Rabs (xm_of s2))) || Rltb (Rabs (bfb s2)) tol_f) eqn:E.
      + assert (XM : Rabs (xm_of s2) <= tol1 \/ Rabs (bfb s2) < tol_f). { apply orb_true_iff in E. destruct E as [E|E]; [left; apply negb_true_iff, rltb_f in E; exact E|right; apply rltb_t; exact E]. }
        assert (XD : Rabs (xm_of s2) = / 2 * Rabs (bc s2 - bb s2)). { unfold xm_of. rewrite Rabs_mult, (Rabs_pos_eq (/ 2)) by lra. reflexivity. }
        split; [exact I|]. exists []. rewrite app_nil_r. split; [reflexivity|]. split; [cbn; lia|]. destruct T2 as (_ & Tb & Tc). split.
        * exists (bfb s2). split; [exact Tb|]. destruct XM as [XM|XM]; [right|left; exact XM]. exists (bc s2), (bfc s2). split; [exact Tc|]. split; [exact S2|]. lra.
        * intros [F|F] _; [|contradiction F; reflexivity]. destruct (FS F) as [[l L]|[(l & r & L) G]].
          -- exists l, (bb s2), (bfb s2). split; [exact L|]. unfold Rminus. rewrite Rplus_opp_r, Rabs_R0. lra.
          -- exists l, (bc s2), r. split; [exact L|]. destruct XM as [XM|XM]; lra.
      + apply orb_false_iff in E. destruct E as [E1 E2]. apply negb_false_iff, rltb_t in E1. apply rltb_f in E2.
        destruct (step_spec tol1 s2 Ht1 E1 E2 O2) as (d & e & Es & Hd1 & Hd2). rewrite Es. cbn [obind fst snd].
        pose proof (trial_between tol1 s2 d Ht1 E1 Hd1 Hd2) as Hb. cbv zeta in Hb.
        set (b := if Rltb tol1 (Rabs d) then bb s2 + d else bb s2 + csign tol1 (xm_of s2)) in *. clearbody b.
        destruct T2 as (Ta & Tb & Tc). destruct I as [RU W].
        assert (Wn : lo <= b <= hi). { pose proof (W _ _ Tb). pose proof (W _ _ Tc). destruct Hb; lra. }
        unfold ev at 1. destruct (eval (fst m) b) as [[s3 fb]| |] eqn:EV; cbn [obind fst snd].
        * set (m2 := (s3, snd m ++ [(b, fb)])).
          assert (IN : forall x fx, seen m x fx -> seen m2 x fx) by (intros x fx Hx; unfold seen, m2; cbn; apply in_or_app; left; exact Hx).
          assert (INb : seen m2 b fb) by (unfold seen, m2; cbn; apply in_or_app; right; left; reflexivity).
          specialize (IH (BR (bb s2) b (bc s2) d e (bfb s2) fb (bfc s2)) m2 lo hi).
          assert (A1 : tracked m2 (BR (bb s2) b (bc s2) d e (bfb s2) fb (bfc s2))) by (split; [apply IN; exact Tb|split; [exact INb|apply IN; exact Tc]]).
          assert (A2 : may_reset (BR (bb s2) b (bc s2) d e (bfb s2) fb (bfc s2))).
          { unfold may_reset. cbn. destruct (Rlt_le_dec 0 (fb * bfc s2)) as [L|L]; [right|left; exact L]. apply sgn_mult_le with (bfc s2); assumption. }
          assert (A3 : inv lo hi m2).
          { split; [unfold m2; cbn; eapply run_snoc; eassumption|]. intros v r Hv. apply in_app_or in Hv. destruct Hv as [Hv|[Hv|[]]]; [exact (W _ _ Hv)|]. injection Hv as <- <-. exact Wn. }
          assert (A4 : fresh m2 (BR (bb s2) b (bc s2) d e (bfb s2) fb (bfc s2))).
          { split; [exists (snd m); reflexivity|]. cbn. lra. }
          specialize (IH A1 A2 A3). destruct (iterate eval n tol_x tol_f _ m2) as [[[b' m'] c]| |]; [|exact IH|exact IH].
          destruct IH as (I1 & l & I2 & I3 & I4 & I5). split; [exact I1|]. exists ((b, fb) :: l).
          split; [rewrite I2; unfold m2; cbn; rewrite <- app_assoc; reflexivity|]. split; [cbn; lia|]. split.
          -- destruct c; [exact I4|]. destruct I4 as [I4 I6]. split; [cbn; lia|]. right. destruct I6 as [[I6 I7]|I6]; [|exact I6].
             exists (snd m), fb. destruct l; [|cbn in I4; lia]. rewrite I2, app_nil_r, I7. reflexivity.
          -- intros _ Hc. apply I5; [left; exact A4|exact Hc].
        * exists (snd m), (fst m), b. split; [exact RU|exact EV].
        * exists (snd m), (fst m), b. split; [exact RU|]. split; [exact EV|exact Wn].
  Qed.

  Variables (x1 x2 : R).
  Hypothesis Hx : x1 <= x2.
  Lemma expand_spec : forall n j fs fa fb m, length fs = j -> Forall same_sign fs -> snd m = brackets x1 x2 0 (fs ++ [(fa, fb)]) -> run eval s0 (snd m) (fst m) ->
    match expand eval n (lo_k x1 x2 j) (hi_k x1 x2 j) fa fb m with
    | Ok (a, b, fa', fb', m') => exists fs', snd m' = brackets x1 x2 0 (fs' ++ [(fa', fb')]) /\ run eval s0 (snd m') (fst m') /\
        (j <= length fs' <= j + n)%nat /\ a = lo_k x1 x2 (length fs') /\ b = hi_k x1 x2 (length fs') /\ Forall same_sign fs' /\
        (fa' * fb' <= 0 \/ same_sign (fa', fb') /\ length fs' = (j + n)%nat)
    | UB => exists l s1 v, run eval s0 l s1 /\ eval s1 v = UB
    | Exit => exists l s1 v, run eval s0 l s1 /\ eval s1 v = Exit /\ lo_k x1 x2 (j + n) <= v <= hi_k x1 x2 (j + n)
    end.
  Proof.
    induction n as [|n IH]; intros j fs fa fb m Hl Hf Hm Hr; cbn [expand].
    - destruct (Rltb 0 (fa * fb)) eqn:E; (exists fs; split; [exact Hm|]; split; [exact Hr|]; split; [lia|]; rewrite Hl; split; [reflexivity|]; split; [reflexivity|]; split; [exact Hf|]).
      + right. split; [apply rltb_t in E; exact E|lia].
      + left. apply rltb_f in E. exact E.
    - destruct (Rltb 0 (fa * fb)) eqn:E.
      2:{ exists fs. split; [exact Hm|]. split; [exact Hr|]. split; [lia|]. rewrite Hl. split; [reflexivity|]. split; [reflexivity|]. split; [exact Hf|]. left. apply rltb_f in E. exact E. }
      apply rltb_t in E. cbv zeta.
      assert (EA : lo_k x1 x2 j - (hi_k x1 x2 j - lo_k x1 x2 j) / 2 = lo_k x1 x2 (j + 1)) by (unfold lo_k, hi_k; rewrite pow_add; lra).
      assert (EB : hi_k x1 x2 j + (hi_k x1 x2 j - lo_k x1 x2 j) / 2 = hi_k x1 x2 (j + 1)) by (unfold lo_k, hi_k; rewrite pow_add; lra).
      rewrite EA, EB. clear EA EB. destruct (bracket_mono x1 x2 Hx (j + 1) (j + Datatypes.S n) ltac:(lia)) as (B1 & B2 & B3).
      unfold ev at 1. destruct (eval (fst m) (lo_k x1 x2 (j + 1))) as [[s1 ra]| |] eqn:EV; cbn [obind fst snd].
      2:{ exists (snd m), (fst m), (lo_k x1 x2 (j + 1)). auto. }
      2:{ exists (snd m), (fst m), (lo_k x1 x2 (j + 1)). split; [exact Hr|]. split; [exact EV|lra]. }
      unfold ev at 1. cbn [fst snd].
      assert (R1 : run eval s0 (snd m ++ [(lo_k x1 x2 (j + 1), ra)]) s1) by (eapply run_snoc; eassumption).
      destruct (eval s1 (hi_k x1 x2 (j + 1))) as [[s2 rb]| |] eqn:EV2; cbn [obind fst snd].
      2:{ eexists _, _, _. split; [exact R1|exact EV2]. }
      2:{ eexists _, _, _. split; [exact R1|]. split; [exact EV2|lra]. }
      specialize (IH (j + 1)%nat (fs ++ [(fa, fb)]) ra rb (s2, (snd m ++ [(lo_k x1 x2 (j + 1), ra)]) ++ [(hi_k x1 x2 (j + 1), rb)])).
      assert (A1 : length (fs ++ [(fa, fb)]) = (j + 1)%nat) by (rewrite app_length; cbn; lia).
      assert (A2 : Forall same_sign (fs ++ [(fa, fb)])). { apply Forall_app. split; [exact Hf|]. constructor; [exact E|constructor]. }
      assert (A3 : snd (s2, (snd m ++ [(lo_k x1 x2 (j + 1), ra)]) ++ [(hi_k x1 x2 (j + 1), rb)]) = brackets x1 x2 0 ((fs ++ [(fa, fb)]) ++ [(ra, rb)])).
      { rewrite brackets_app, A1. cbn [brackets snd Nat.add]. rewrite <- app_assoc. cbn [app]. rewrite Hm. reflexivity. }
      assert (A4 : run eval s0 (snd (s2, (snd m ++ [(lo_k x1 x2 (j + 1), ra)]) ++ [(hi_k x1 x2 (j + 1), rb)])) s2) by (cbn [snd]; eapply run_snoc; eassumption).
      specialize (IH A1 A2 A3 A4). destruct (expand eval n _ _ ra rb _) as [[[[[a b] fa'] fb'] m']| |].
      + destruct IH as (fs' & I1 & I2 & I3 & I4 & I5 & I6 & I7). exists fs'. split; [exact I1|]. split; [exact I2|]. split; [lia|]. split; [exact I4|]. split; [exact I5|]. split; [exact I6|].
        destruct I7 as [I7|[I7 I8]]; [left; exact I7|right; split; [exact I7|lia]].
      + exact IH.
      + destruct IH as (l & s3 & v & I1 & I2 & I3). exists l, s3, v. split; [exact I1|]. split; [exact I2|]. replace (j + Datatypes.S n)%nat with (j + 1 + n)%nat by lia. exact I3.
  Qed.
End BrentSpec.

(** The volumes are evaluated one after the other; first the ends of the
    bracket, which is doubled around its centre up to three times while the
    residuals at its ends have the same sign, then at most max_iter volumes
    within it.  A volume is returned where the residual is below the tolerance
    or changes sign within the resolved distance, or, with the warning, the
    last one.  The error exit means an evaluation that failed or eight
    evaluations without a sign change.  There is no division by zero. *)
Theorem C61_brent {S : Type} (eval : S -> R -> outcome (S * R)) s0 x1 x2 tol_x tol_f n :
  0 <= tol_x -> 0 < tol_f -> x1 <= x2 ->
  match BrentsFun eval s0 x1 x2 tol_x tol_f n with
  | Ok (b, (s, log), c) => run eval s0 log s /\
      exists fs fa fb l, log = brackets x1 x2 0 (fs ++ [(fa, fb)]) ++ l /\
        (length fs <= 3)%nat /\ Forall same_sign fs /\ fa * fb <= 0 /\ (length l <= n)%nat /\
        (forall v r, In (v, r) log -> lo_k x1 x2 (length fs) <= v <= hi_k x1 x2 (length fs)) /\
        (if c then root_found tol_x tol_f log b else length l = n /\ ((0 < n)%nat -> exists l' r, log = l' ++ [(b, r)])) /\
        (c = true -> l <> [] -> exists l' v r, log = l' ++ [(v, r)] /\ Rabs (v - b) <= near tol_x b)
  | UB => exists l s v, run eval s0 l s /\ eval s v = UB
  | Exit => (exists l s v, run eval s0 l s /\ eval s v = Exit /\ lo_k x1 x2 3 <= v <= hi_k x1 x2 3) \/
            (exists fs s, length fs = 4%nat /\ Forall same_sign fs /\ run eval s0 (brackets x1 x2 0 fs) s)
  end.
Proof.
  intros Htx Htf Hx. unfold BrentsFun.
  assert (E0 : lo_k x1 x2 0 = x1 /\ hi_k x1 x2 0 = x2) by (unfold lo_k, hi_k; cbn [pow]; lra). destruct E0 as [E0 E1].
  destruct (bracket_mono x1 x2 Hx 0 3 ltac:(lia)) as (B1 & B2 & B3). rewrite E0, E1 in *.
  unfold ev at 1. cbn [fst snd]. destruct (eval s0 x1) as [[s1 ra]| |] eqn:V1; cbn [obind fst snd].
  2:{ exists [], s0, x1. split; [constructor|exact V1]. }
  2:{ left. exists [], s0, x1. split; [constructor|]. split; [exact V1|lra]. }
  assert (R1 : run eval s0 ([] ++ [(x1, ra)]) s1) by (eapply run_snoc; [constructor|exact V1]).
  unfold ev at 1. cbn [fst snd app]. destruct (eval s1 x2) as [[s2 rb]| |] eqn:V2; cbn [obind fst snd].
  2:{ eexists _, _, _. split; [exact R1|exact V2]. }
  2:{ left. eexists _, _, _. split; [exact R1|]. split; [exact V2|lra]. }
  assert (R2 : run eval s0 ([(x1, ra)] ++ [(x2, rb)]) s2) by (eapply run_snoc; [exact R1|exact V2]).
  pose proof (expand_spec eval s0 x1 x2 Hx 3 0 [] ra rb (s2, [(x1, ra)] ++ [(x2, rb)]) eq_refl (Forall_nil _)) as EX.
  cbn [snd fst app brackets] in EX. rewrite E0, E1 in EX. specialize (EX eq_refl R2). cbn [app] in R2.
  destruct (expand eval 3 x1 x2 ra rb _) as [[[[[a b] fa] fb] m]| |]; cbn [obind].
  - destruct EX as (fs & X1 & X2 & X3 & X4 & X5 & X6 & X7).
    destruct (Rltb 0 (fa * fb)) eqn:E.
    + apply rltb_t in E. right. destruct X7 as [X7|[X7 X8]]; [lra|]. exists (fs ++ [(fa, fb)]), (fst m). split; [rewrite app_length; cbn; lia|].
      split; [apply Forall_app; split; [exact X6|constructor; [exact X7|constructor]]|]. rewrite <- X1. exact X2.
    + apply rltb_f in E.
      assert (SA : In (a, fa) (snd m) /\ In (b, fb) (snd m)).
      { rewrite X1, brackets_app, X4, X5. cbn [Nat.add brackets]. split; apply in_or_app; right; [left|right; left]; reflexivity. }
      pose proof (iterate_spec eval s0 tol_x tol_f Htx Htf n (BR a b b 0 0 fa fb fb) m (lo_k x1 x2 (length fs)) (hi_k x1 x2 (length fs))) as IT.
      assert (A1 : tracked m (BR a b b 0 0 fa fb fb)) by (unfold tracked, seen; cbn; tauto).
      assert (A2 : may_reset (BR a b b 0 0 fa fb fb)) by (right; exact E).
      assert (A3 : inv eval s0 (lo_k x1 x2 (length fs)) (hi_k x1 x2 (length fs)) m).
      { split; [exact X2|]. intros v r Hv. rewrite X1 in Hv. apply (brackets_in x1 x2 Hx) in Hv. rewrite app_length in Hv. cbn [length] in Hv. replace (0 + (length fs + 1) - 1)%nat with (length fs) in Hv by lia. exact Hv. }
      specialize (IT A1 A2 A3). destruct (iterate eval n tol_x tol_f _ m) as [[[b' [s log]] c]| |].
      * destruct IT as ((I1 & I2) & l & I3 & I4 & I5 & I6). cbn [fst snd] in *. split; [exact I1|]. exists fs, fa, fb, l. split; [rewrite <- X1; exact I3|].
        split; [lia|]. split; [exact X6|]. split; [exact E|]. split; [exact I4|]. split; [exact I2|]. split.
        -- destruct c; [exact I5|]. destruct I5 as [I5 I7]. split; [exact I5|]. intros Hn. destruct I7 as [[I7 _]|I7]; [lia|exact I7].
        -- intros Hc Hl. apply I6; [right; exact Hl|exact Hc].
      * exact IT.
      * left. destruct IT as (l & s3 & v & I1 & I2 & I3). exists l, s3, v. split; [exact I1|]. split; [exact I2|].
        destruct (bracket_mono x1 x2 Hx (length fs) 3 ltac:(lia)) as (C1 & C2 & C3). lra.
  - exact EX.
  - left. exact EX.
Qed.
Print Assumptions C61_brent.

(** ** The cell *)
Lemma upd_upd old lo hi f g : upd (upd old lo hi f) lo hi g = upd old lo hi g.
Proof. extensionality p. unfold upd. destruct ((lo <=? p)%nat && (p <=? hi)%nat); reflexivity. Qed.

(** Asked for a volume, the cell gets that volume: the relaxed directions and
    the atoms are stretched by one factor, mesh and stencils follow; a volume
    that is not positive is refused. *)
Theorem C61_cell typ jac lap dims FDn w1 w2 N n vol s :
  (forall d, (d < 3)%nat -> n d <> 0) -> 0 < jac -> meshed typ jac lap FDn w1 w2 n s -> (0 < ndim dims)%nat ->
  match reinitialize_cell_mesh typ jac lap dims FDn w1 w2 N vol s with
  | Ok s' => 0 < vol /\ vol3 s' jac = vol /\ meshed typ jac lap FDn w1 w2 n s' /\ exists c, 0 < c /\ stretched dims c s s'
  | UB => False
  | Exit => vol <= 0
  end.
Proof.
  intros Hn Hj Hs Hd. destruct (Rle_dec vol 0) as [L|L].
  - unfold reinitialize_cell_mesh. destruct (Rle_dec vol 0); [exact L|contradiction].
  - destruct (reinit_cases typ jac lap dims FDn w1 w2 N n Hn Hj vol s Hs Hd ltac:(lra)) as (s' & E & O & C & P & St & _).
    rewrite E. split; [lra|]. split; [|split; [exact O|eexists; split; [exact C|exact St]]].
    change (vol3 s' jac) with (volume jac s'). rewrite (stretched_vol jac dims _ _ _ St), P. field. pose proof (vol_pos typ jac lap FDn w1 w2 n Hj s Hs). lra.
Qed.
Print Assumptions C61_cell.

(** The fractional coordinates of the atoms do not change. *)
Theorem C61_fractional dims c s s' : 0 < c -> stretched dims c s s' -> forall a d, rng s d <> 0 -> atm s' a d / rng s' d = atm s a d / rng s d.
Proof. intros Hc [H1 H2] a d Hd. rewrite H1, H2. destruct (dims d); [field; lra|reflexivity]. Qed.
Print Assumptions C61_fractional.

(** The cell, mesh, stencils and atoms after any number of changes are those of
    one direct change to the last volume. *)
Fixpoint reinits typ jac lap dims FDn w1 w2 N (vols : list R) (s : cell) : outcome cell :=
  match vols with
  | [] => Ok s
  | v :: t => do s1 <- reinitialize_cell_mesh typ jac lap dims FDn w1 w2 N v s ; reinits typ jac lap dims FDn w1 w2 N t s1
  end.
Lemma reinit_twice typ jac lap dims FDn w1 w2 N n v1 v2 s s1 : (forall d, (d < 3)%nat -> n d <> 0) -> 0 < jac -> meshed typ jac lap FDn w1 w2 n s -> (0 < ndim dims)%nat ->
  0 < v2 -> reinitialize_cell_mesh typ jac lap dims FDn w1 w2 N v1 s = Ok s1 ->
  reinitialize_cell_mesh typ jac lap dims FDn w1 w2 N v2 s1 = reinitialize_cell_mesh typ jac lap dims FDn w1 w2 N v2 s.
Proof.
  intros Hn Hj Hs Hd H2 E1. pose proof (vol_pos typ jac lap FDn w1 w2 n Hj s Hs) as VP.
  assert (H1 : 0 < v1). { destruct (Rle_dec v1 0) as [L|L]; [|lra]. unfold reinitialize_cell_mesh in E1. destruct (Rle_dec v1 0); [discriminate|contradiction]. }
  destruct (reinit_cases typ jac lap dims FDn w1 w2 N n Hn Hj v1 s Hs Hd H1) as (s1' & E1' & O1 & C1 & P1 & [A1 A2] & A3 & A4 & A5 & A6 & A7 & A8).
  rewrite E1 in E1'. injection E1' as <-.
  assert (V1 : volume jac s1 = v1). { rewrite (stretched_vol jac dims _ _ _ (conj A1 A2)), P1. field. lra. }
  destruct (reinit_cases typ jac lap dims FDn w1 w2 N n Hn Hj v2 s1 O1 Hd H2) as (s2 & E2 & O2 & C2 & P2 & [B1 B2] & B3 & B4 & B5 & B6 & B7 & B8).
  destruct (reinit_cases typ jac lap dims FDn w1 w2 N n Hn Hj v2 s Hs Hd H2) as (s3 & E3 & O3 & C3 & P3 & [D1 D2] & D3 & D4 & D5 & D6 & D7 & D8).
  rewrite E2, E3. f_equal.
  set (c1 := Rpower (v1 / volume jac s) (1 / INR (ndim dims))) in *. set (c2 := Rpower (v2 / volume jac s1) (1 / INR (ndim dims))) in *.
  assert (CC : Rpower (v2 / volume jac s) (1 / INR (ndim dims)) = c1 * c2).
  { symmetry. apply root_unique; [apply Rmult_lt_0_compat; assumption|exact Hd|]. rewrite Rpow_mult_distr, P1, P2, V1. field. lra. }
  rewrite CC in *. clear CC P1 P2 P3 E1 E2 E3 V1 C3. clearbody c1 c2.
  assert (F1 : rng s2 = rng s3). { extensionality d. rewrite B1, D1, A1. destruct (dims d); lra. }
  assert (F2 : dlt s2 = dlt s3). { extensionality d. rewrite B3, D3, A3. destruct (dims d); lra. }
  assert (F3 : atm s2 = atm s3). { extensionality a. extensionality d. rewrite B2, D2, A2. destruct (dims d); lra. }
  assert (F4 : cD1 s2 = cD1 s3). { extensionality d. rewrite B4, D4, A4, upd_upd, F2. reflexivity. }
  assert (F5 : cD2 s2 = cD2 s3).
  { extensionality d. rewrite B5, D5, A5, F2. destruct (typ =? 0)%Z; [apply upd_upd|]. destruct (nonorth typ); [apply upd_upd|reflexivity]. }
  assert (F6 : cMx s2 = cMx s3).
  { extensionality k. rewrite B6, D6, A6, F2. destruct (typ =? 0)%Z; [reflexivity|]. destruct (nonorth typ); [apply upd_upd|reflexivity]. }
  assert (F7 : cdV s2 = cdV s3) by (rewrite B7, D7, F2; reflexivity).
  assert (F8 : eigmax s2 = eigmax s3). { rewrite B8, D8, A8, F5. destruct (typ =? 0)%Z; reflexivity. }
  destruct s2 as [p1 p2 p3 p4 p5 p6 p7 p8], s3 as [q1 q2 q3 q4 q5 q6 q7 q8]. cbn [rng dlt cdV atm cD1 cD2 cMx eigmax] in F1, F2, F3, F4, F5, F6, F7, F8. subst. reflexivity.
Qed.
Theorem C61_history typ jac lap dims FDn w1 w2 N n vols v s :
  (forall d, (d < 3)%nat -> n d <> 0) -> 0 < jac -> meshed typ jac lap FDn w1 w2 n s -> (0 < ndim dims)%nat ->
  Forall (fun x => 0 < x) vols -> 0 < v ->
  reinits typ jac lap dims FDn w1 w2 N (vols ++ [v]) s = reinitialize_cell_mesh typ jac lap dims FDn w1 w2 N v s.
Proof.
  intros Hn Hj Hs Hd HV Hv. revert s Hs HV. induction vols as [|u vols IH]; intros s Hs HV; cbn [app reinits].
  - destruct (reinitialize_cell_mesh typ jac lap dims FDn w1 w2 N v s); reflexivity.
  - inversion HV as [|? ? Hu HV']; subst. pose proof (C61_cell typ jac lap dims FDn w1 w2 N n u s Hn Hj Hs Hd) as C.
    destruct (reinitialize_cell_mesh typ jac lap dims FDn w1 w2 N u s) as [s1| |] eqn:E; [|contradiction|lra]. cbn [obind].
    destruct C as (_ & _ & O1 & _). rewrite (IH s1 O1 HV'). eapply reinit_twice; eassumption.
Qed.
Print Assumptions C61_history.

(** ** The residual *)
Definition sigma (s6 : nat -> R) : mat := fun i j =>
  match i, j with
  | 0%nat, 0%nat => s6 0%nat | 0%nat, 1%nat | 1%nat, 0%nat => s6 1%nat | 0%nat, 2%nat | 2%nat, 0%nat => s6 2%nat
  | 1%nat, 1%nat => s6 3%nat | 1%nat, 2%nat | 2%nat, 1%nat => s6 4%nat | 2%nat, 2%nat => s6 5%nat | _, _ => 0
  end.
Definition contract (A B : mat) : R := sum3 (fun k => sum3 (fun l => A k l * B k l)).
(** the strain that stretches the chosen lattice vectors and keeps the others *)
Definition stretch_of (u : mat) (dims : nat -> bool) (D : mat) : Prop :=
  forall d k, (d < 3)%nat -> (k < 3)%nat -> sum3 (fun l => D k l * u d l) = if dims d then u d k else 0.
Lemma sum3_ext f g : (forall d, (d < 3)%nat -> f d = g d) -> sum3 f = sum3 g.
Proof. intros H. unfold sum3. rewrite !H by lia. reflexivity. Qed.
Lemma dual L t : setup L = Ok t ->
  (forall k l, (k < 3)%nat -> (l < 3)%nat -> sum3 (fun d => lu t d k * grd t d l) = if (k =? l)%nat then 1 else 0) /\
  (forall d e, (d < 3)%nat -> (e < 3)%nat -> sum3 (fun k => grd t d k * lu t e k) = if (d =? e)%nat then 1 else 0).
Proof.
  intros Ht.
  assert (P : forall p, Cart2nonCart_coord t (nonCart2Cart_coord t p) = p) by (intros p; apply (C48_inverse L t p Ht)).
  assert (Q : forall p, nonCart2Cart_coord t (Cart2nonCart_coord t p) = p) by (intros p; apply (C48_inverse L t p Ht)).
  unfold Cart2nonCart_coord, nonCart2Cart_coord in P, Q. cbv zeta in P, Q. cbn [vx vy vz] in P, Q.
  pose proof (P (V 1 0 0)) as P0. pose proof (P (V 0 1 0)) as P1. pose proof (P (V 0 0 1)) as P2.
  pose proof (Q (V 1 0 0)) as Q0. pose proof (Q (V 0 1 0)) as Q1. pose proof (Q (V 0 0 1)) as Q2.
  cbn [vx vy vz] in *. injection P0 as ? ? ?. injection P1 as ? ? ?. injection P2 as ? ? ?. injection Q0 as ? ? ?. injection Q1 as ? ? ?. injection Q2 as ? ? ?.
  split; intros i j Hi Hj; unfold sum3; (destruct i as [|[|[|i]]]; [| | |lia]); (destruct j as [|[|[|j]]]; [| | |lia]); cbn [Nat.eqb]; lra.
Qed.
Lemma strain_is L t dims D : setup L = Ok t -> stretch_of (lu t) dims D -> forall k l, (k < 3)%nat -> (l < 3)%nat ->
  D k l = sum3 (fun d => (if dims d then lu t d k else 0) * grd t d l).
Proof.
  intros Ht HD k l Hk Hl. destruct (dual L t Ht) as [U _].
  assert (E : sum3 (fun m => D k m * sum3 (fun d => lu t d m * grd t d l)) = sum3 (fun d => sum3 (fun m => D k m * lu t d m) * grd t d l)) by (unfold sum3; ring).
  assert (F : sum3 (fun m => D k m * sum3 (fun d => lu t d m * grd t d l)) = D k l).
  { unfold sum3 at 1. rewrite (U 0%nat l), (U 1%nat l), (U 2%nat l) by lia. destruct l as [|[|[|l]]]; [| | |lia]; cbn [Nat.eqb]; ring. }
  rewrite <- F, E. apply sum3_ext. intros d Hd. rewrite HD by assumption. reflexivity.
Qed.
(** The residual is minus the stress work of stretching the relaxed lattice
    vectors, per direction, less the target: with all three relaxed, the
    pressure less the target pressure. *)
Theorem C61_residual L t dims BC3 GPa target s6 D : setup L = Ok t -> supported (typ t) ->
  (typ t = 0%Z -> forall i j, (i < 3)%nat -> (j < 3)%nat -> i <> j -> L i j = 0) ->
  (0 < ndim dims)%nat -> stretch_of (lu t) dims D ->
  residual (typ t) dims BC3 GPa target (lu t) (grd t) s6 = Ok (- (contract (sigma s6) D * (if BC3 then GPa else 1) / INR (ndim dims)) - target).
Proof.
  intros Ht Hsup H0 Hd HD. pose proof (strain_is L t dims D Ht HD) as SD. unfold residual. rewrite cdiv_def by (apply not_0_INR; lia). cbn [obind].
  assert (G : fold_left (fun x d => if dims d then x + stress_lc (typ t) (lu t) (grd t) s6 (nth d [0; 3; 5]%nat 0%nat) * (if BC3 then GPa else 1) else x) [0; 1; 2]%nat 0
              = contract (sigma s6) D * (if BC3 then GPa else 1)); [|rewrite G; reflexivity].
  cbn [fold_left nth]. replace (contract (sigma s6) D) with (contract (sigma s6) (fun k l => sum3 (fun d => (if dims d then lu t d k else 0) * grd t d l))).
  2:{ apply sum3_ext. intros k Hk. apply sum3_ext. intros l Hl. rewrite (SD k l Hk Hl). reflexivity. }
  unfold contract. destruct Hsup as [T|T].
  - assert (U : forall i j, (i < 3)%nat -> (j < 3)%nat -> i <> j -> lu t i j = 0).
    { intros i j Hi Hj Hij. unfold setup in Ht. destruct (Req_EM_T (mag L 0) 0); [discriminate|]. destruct (Req_EM_T (mag L 1) 0); [discriminate|]. destruct (Req_EM_T (mag L 2) 0); [discriminate|].
      destruct (Rle_dec (Jacbdet (LatUVec L)) 0); [discriminate|]. injection Ht as <-. cbn [lu]. unfold LatUVec. rewrite (H0 T i j Hi Hj Hij). unfold Rdiv. ring. }
    destruct (dual L t Ht) as [U1 _]. pose proof (U1 0%nat 1%nat ltac:(lia) ltac:(lia)) as E01. pose proof (U1 0%nat 2%nat ltac:(lia) ltac:(lia)) as E02. pose proof (U1 1%nat 0%nat ltac:(lia) ltac:(lia)) as E10. pose proof (U1 1%nat 2%nat ltac:(lia) ltac:(lia)) as E12. pose proof (U1 2%nat 0%nat ltac:(lia) ltac:(lia)) as E20. pose proof (U1 2%nat 1%nat ltac:(lia) ltac:(lia)) as E21. pose proof (U1 0%nat 0%nat ltac:(lia) ltac:(lia)) as E0. pose proof (U1 1%nat 1%nat ltac:(lia) ltac:(lia)) as E1. pose proof (U1 2%nat 2%nat ltac:(lia) ltac:(lia)) as E2.
    unfold sum3 in *. cbn [Nat.eqb] in *. rewrite ?(U 0%nat 1%nat), ?(U 0%nat 2%nat), ?(U 1%nat 0%nat), ?(U 1%nat 2%nat), ?(U 2%nat 0%nat), ?(U 2%nat 1%nat) in * by lia.
    assert (Q0 : lu t 0%nat 0%nat * grd t 0%nat 0%nat = 1) by lra. assert (Q1 : lu t 1%nat 1%nat * grd t 1%nat 1%nat = 1) by lra. assert (Q2 : lu t 2%nat 2%nat * grd t 2%nat 2%nat = 1) by lra. assert (Q01 : lu t 0%nat 0%nat * grd t 0%nat 1%nat = 0) by lra. assert (Q02 : lu t 0%nat 0%nat * grd t 0%nat 2%nat = 0) by lra. assert (Q10 : lu t 1%nat 1%nat * grd t 1%nat 0%nat = 0) by lra. assert (Q12 : lu t 1%nat 1%nat * grd t 1%nat 2%nat = 0) by lra. assert (Q20 : lu t 2%nat 2%nat * grd t 2%nat 0%nat = 0) by lra. assert (Q21 : lu t 2%nat 2%nat * grd t 2%nat 1%nat = 0) by lra.
    unfold stress_lc, nonorth. rewrite T. cbn [Z.ltb Z.compare andb sigma].
    match goal with |- _ = ?X * _ => replace X with ((if dims 0%nat then s6 0%nat * (lu t 0%nat 0%nat * grd t 0%nat 0%nat) else 0) + (if dims 1%nat then s6 3%nat * (lu t 1%nat 1%nat * grd t 1%nat 1%nat) else 0) + (if dims 2%nat then s6 5%nat * (lu t 2%nat 2%nat * grd t 2%nat 2%nat) else 0) + (if dims 0%nat then s6 1%nat * (lu t 0%nat 0%nat * grd t 0%nat 1%nat) else 0) + (if dims 0%nat then s6 2%nat * (lu t 0%nat 0%nat * grd t 0%nat 2%nat) else 0) + (if dims 1%nat then s6 1%nat * (lu t 1%nat 1%nat * grd t 1%nat 0%nat) else 0) + (if dims 1%nat then s6 4%nat * (lu t 1%nat 1%nat * grd t 1%nat 2%nat) else 0) + (if dims 2%nat then s6 2%nat * (lu t 2%nat 2%nat * grd t 2%nat 0%nat) else 0) + (if dims 2%nat then s6 4%nat * (lu t 2%nat 2%nat * grd t 2%nat 1%nat) else 0)) by (destruct (dims 0%nat), (dims 1%nat), (dims 2%nat); ring) end.
    rewrite Q0, Q1, Q2, Q01, Q02, Q10, Q12, Q20, Q21. destruct (dims 0%nat), (dims 1%nat), (dims 2%nat); ring.
  - unfold stress_lc, nonorth. rewrite (proj2 (Z.ltb_lt 10 (typ t))), (proj2 (Z.ltb_lt (typ t) 20)) by lia. cbn [andb nth].
    unfold sum3, stress_tmp. cbn [nth Nat.mul Nat.add sigma]. destruct (dims 0%nat), (dims 1%nat), (dims 2%nat); ring.
Qed.
Print Assumptions C61_residual.
Theorem C61_pressure L t BC3 GPa target s6 : setup L = Ok t -> supported (typ t) ->
  (typ t = 0%Z -> forall i j, (i < 3)%nat -> (j < 3)%nat -> i <> j -> L i j = 0) ->
  residual (typ t) (fun _ => true) BC3 GPa target (lu t) (grd t) s6 = Ok (- ((s6 0%nat + s6 3%nat + s6 5%nat) / 3 * (if BC3 then GPa else 1)) - target).
Proof.
  intros Ht Hs H0. rewrite (C61_residual L t (fun _ => true) BC3 GPa target s6 (fun i j => if (i =? j)%nat then 1 else 0) Ht Hs H0).
  - unfold contract, sum3, ndim. cbn [Nat.eqb sigma filter length]. change (INR 3) with (1 + 1 + 1). f_equal. field.
  - cbn. lia.
  - intros d k Hd Hk. unfold sum3. destruct k as [|[|[|k]]]; [| | |lia]; cbn [Nat.eqb]; ring.
Qed.
Print Assumptions C61_pressure.

(** ** The relaxation *)
Section Relaxed.
  Variables (typ : Z) (jac : R) (lap : mat) (dims : nat -> bool) (FDn : nat) (w1 w2 : nat -> R) (N : nat -> Z) (n : nat -> R).
  Variables (BC3 : bool) (GPa target : R) (U g : mat) (stress : cell -> nat -> R) (settle : cell -> cell).
  Hypothesis Hn : forall d, (d < 3)%nat -> n d <> 0.
  Hypothesis Hj : 0 < jac.
  Hypothesis Hd : (0 < ndim dims)%nat.
  Notation ok := (meshed typ jac lap FDn w1 w2 n).
  Notation reinit := (reinitialize_cell_mesh typ jac lap dims FDn w1 w2 N).
  Notation eval := (volrelax_constraint typ jac lap dims FDn w1 w2 N BC3 GPa target U g stress settle).
  Notation resid := (residual typ dims BC3 GPa target U g).
  Notation relax := (Relax_Cell typ jac lap dims FDn w1 w2 N BC3 GPa target U g stress settle).
  (** settling moves atoms only *)
  Definition atoms_only : Prop := forall s, let s' := settle s in
    rng s' = rng s /\ dlt s' = dlt s /\ cdV s' = cdV s /\ cD1 s' = cD1 s /\ cD2 s' = cD2 s /\ cMx s' = cMx s /\ eigmax s' = eigmax s.
  Hypothesis Hsettle : atoms_only.
  Lemma settle_ok s : ok s -> ok (settle s).
  Proof.
    intros []. destruct (Hsettle s) as (E1 & E2 & E3 & E4 & E5 & E6 & E7).
    constructor; rewrite ?E1, ?E2, ?E3, ?E4, ?E5, ?E6; assumption.
  Qed.
  Lemma resid_ok s6 : exists r, resid s6 = Ok r.
  Proof. unfold residual. rewrite cdiv_def by (apply not_0_INR; lia). eexists. reflexivity. Qed.
  Lemma eval_cases s v : ok s ->
    match eval s v with
    | Ok (s', r) => 0 < v /\ ok s' /\ vol3 s' jac = v /\ resid (stress s') = Ok r
    | UB => False
    | Exit => v <= 0
    end.
  Proof.
    intros Hs. unfold volrelax_constraint. pose proof (C61_cell typ jac lap dims FDn w1 w2 N n v s Hn Hj Hs Hd) as C.
    destruct (reinit v s) as [s1| |]; cbn [obind]; [|contradiction|exact C]. destruct C as (C1 & C2 & C3 & _).
    destruct (resid_ok (stress (settle s1))) as [r Er]. rewrite Er. cbn [obind]. split; [exact C1|]. split; [apply settle_ok; exact C3|]. split; [|exact Er].
    unfold vol3. destruct (Hsettle s1) as (E1 & _). rewrite E1. exact C2.
  Qed.
  Lemma run_ok s log s' : ok s -> run eval s log s' -> ok s' /\ forall l v r, log = l ++ [(v, r)] -> 0 < v /\ vol3 s' jac = v /\ resid (stress s') = Ok r.
  Proof.
    intros Hs Hr. induction Hr as [|l s1 v r s2 Hr IH E].
    - split; [exact Hs|]. intros l v r H. destruct l; discriminate.
    - destruct IH as [O1 _]. pose proof (eval_cases s1 v O1) as C. rewrite E in C. destruct C as (C1 & C2 & C3 & C4). split; [exact C2|].
      intros l' v' r' H. apply app_inj_tail in H. destruct H as [_ H]. injection H as <- <-. auto.
  Qed.

  (** From a well-formed cell the relaxation ends with a well-formed cell that
      has the last volume evaluated, and the last residual is the residual of
      that cell.  If the search went on after the bracket was found and ended
      without the warning, that volume is the returned one up to the resolved
      distance, and the returned one is a root up to the tolerances.  An error
      exit means that no sign change was found in four brackets, or that the
      bracket was extended to a volume that is not positive. *)
  Theorem C61_relax md tol_f niter s : ok s -> 1 <= md -> 0 < tol_f ->
    let x1 := vol3 s jac / md ^ ndim dims in let x2 := vol3 s jac * md ^ ndim dims in
    match relax md tol_f niter s with
    | Ok (s', b, log, c) => ok s' /\ run eval s log s' /\
        (exists l v r, log = l ++ [(v, r)] /\ vol3 s' jac = v /\ resid (stress s') = Ok r) /\
        (exists fs fa fb l, log = brackets x1 x2 0 (fs ++ [(fa, fb)]) ++ l /\ Forall same_sign fs /\ fa * fb <= 0 /\ (length l <= niter)%nat /\
           (c = false -> length l = niter) /\ (c = true -> l <> [] -> Rabs (vol3 s' jac - b) <= near (/ 10000) b) /\ (l = [] -> vol3 s' jac = hi_k x1 x2 (length fs))) /\
        (c = true -> root_found (/ 10000) tol_f log b)
    | UB => False
    | Exit => lo_k x1 x2 3 <= 0 \/ exists fs s', length fs = 4%nat /\ Forall same_sign fs /\ run eval s (brackets x1 x2 0 fs) s'
    end.
  Proof.
    intros Hs Hm Ht x1 x2. pose proof (vol_pos typ jac lap FDn w1 w2 n Hj s Hs) as VP. change (volume jac s) with (vol3 s jac) in VP.
    assert (M1 : 1 <= md ^ ndim dims) by (apply pow_R1_Rle; exact Hm).
    assert (HX : x1 <= x2). { unfold x1, x2. apply Rle_trans with (vol3 s jac); [|nra]. apply Rmult_le_reg_r with (md ^ ndim dims); [lra|]. unfold Rdiv. rewrite Rmult_assoc, Rinv_l by lra. nra. }
    unfold Relax_Cell. change (volume jac s) with (vol3 s jac). rewrite cdiv_def by lra. cbn [obind]. fold x1 x2.
    pose proof (C61_brent eval s x1 x2 (/ 10000) tol_f niter ltac:(lra) Ht HX) as B.
    destruct (BrentsFun eval s x1 x2 (/ 10000) tol_f niter) as [[[b [s' log]] c]| |]; cbn [obind fst snd].
    - destruct B as (RU & fs & fa & fb & l & E & L3 & F & SG & LN & BD & RT & LA). destruct (run_ok s log s' Hs RU) as [O1 O2].
      split; [exact O1|]. split; [exact RU|].
      assert (LST : exists l0 v r, log = l0 ++ [(v, r)]).
      { destruct (exists_last (l := log)) as (l0 & [v r] & E0); [|exists l0, v, r; exact E0]. rewrite E. rewrite brackets_app. cbn [brackets]. intros Q. apply app_eq_nil in Q. destruct Q as [Q _]. apply app_eq_nil in Q. destruct Q as [_ Q]. discriminate Q. }
      split; [|split].
      + destruct LST as (l0 & v & r & E0). exists l0, v, r. destruct (O2 _ _ _ E0) as (_ & P2 & P3). auto.
      + exists fs, fa, fb, l. split; [exact E|]. split; [exact F|]. split; [exact SG|]. split; [exact LN|]. split; [intros ->; apply RT|]. split.
        * intros Hc Hl. destruct (LA Hc Hl) as (l' & v & r & E' & D). destruct (O2 _ _ _ E') as (_ & P2 & _). rewrite P2. exact D.
        * intros ->. rewrite app_nil_r, brackets_app in E. cbn [brackets Nat.add] in E. change ([(lo_k x1 x2 (length fs), fa); (hi_k x1 x2 (length fs), fb)]) with ([(lo_k x1 x2 (length fs), fa)] ++ [(hi_k x1 x2 (length fs), fb)]) in E. rewrite app_assoc in E.
          destruct (O2 _ _ _ E) as (_ & P2 & _). exact P2.
      + intros ->. exact RT.
    - destruct B as (l & s1 & v & R1 & E). destruct (run_ok s l s1 Hs R1) as [O1 _]. pose proof (eval_cases s1 v O1) as C. rewrite E in C. exact C.
    - destruct B as [(l & s1 & v & R1 & E & B)|B]; [left|right; exact B]. destruct (run_ok s l s1 Hs R1) as [O1 _]. pose proof (eval_cases s1 v O1) as C. rewrite E in C. lra.
  Qed.
  (** With the atoms fixed in the cell the result is the starting cell changed
      directly to that volume. *)
  Theorem C61_relax_direct md tol_f niter s s' b log c : (forall x, settle x = x) -> ok s -> 1 <= md -> 0 < tol_f ->
    relax md tol_f niter s = Ok (s', b, log, c) -> reinit (vol3 s' jac) s = Ok s'.
  Proof.
    intros Hid Hs Hm Ht E. pose proof (C61_relax md tol_f niter s Hs Hm Ht) as C. cbv zeta in C. rewrite E in C.
    destruct C as (_ & RU & (l & v & r & EL & EV & _) & _).
    assert (G : forall log1 s1, run eval s log1 s1 -> log1 = [] /\ s1 = s \/ reinit (vol3 s1 jac) s = Ok s1).
    { clear -Hid Hs Hn Hj Hd Hsettle. intros log1 s1 R1. induction R1 as [|l1 s1 v1 r1 s2 R1 IH E1]; [left; auto|]. right.
      destruct (run_ok s l1 s1 Hs R1) as [O1 _]. pose proof (eval_cases s1 v1 O1) as C. rewrite E1 in C. destruct C as (C1 & C2 & C3 & C4).
      unfold volrelax_constraint in E1. destruct (reinit v1 s1) as [s3| |] eqn:E3; cbn [obind] in E1; [|discriminate|discriminate]. rewrite Hid in E1.
      destruct (resid (stress s3)) as [r3| |]; cbn [obind] in E1; [|discriminate|discriminate]. injection E1 as <- _. rewrite C3.
      destruct IH as [[_ IH]|IH]; [rewrite <- IH; exact E3|]. rewrite <- E3. symmetry. eapply reinit_twice; eassumption. }
    destruct (G log s' RU) as [[G1 _]|G1]; [|exact G1]. rewrite G1 in EL. destruct l; discriminate.
  Qed.
End Relaxed.
Print Assumptions C61_relax.
Print Assumptions C61_relax_direct.

(** The k-th bracket starts at a positive volume exactly when the dilatation is
    small enough: for the third extension the square of the largest volume
    ratio has to be below 9/7. *)
Theorem C61_brackets V m k : 0 < V -> 1 < m -> (1 <= k)%nat -> (0 < lo_k (V / m) (V * m) k <-> m ^ 2 < (2 ^ k + 1) / (2 ^ k - 1)).
Proof.
  intros HV Hm Hk. assert (P : 2 <= 2 ^ k). { replace 2 with (2 ^ 1) at 1 by ring. apply Rle_pow; [lra|exact Hk]. }
  assert (E : lo_k (V / m) (V * m) k = V / (2 * m) * ((2 ^ k + 1) - (2 ^ k - 1) * m ^ 2)) by (unfold lo_k; field; lra).
  rewrite E. clear E. set (q := 2 ^ k) in *. clearbody q.
  assert (VM : 0 < V / (2 * m)) by (apply Rdiv_lt_0_compat; lra).
  split; intros H.
  - assert (H2 : 0 < q + 1 - (q - 1) * m ^ 2). { destruct (Rlt_le_dec 0 (q + 1 - (q - 1) * m ^ 2)) as [L|L]; [exact L|]. exfalso. nra. }
    apply Rmult_lt_reg_r with (q - 1); [lra|]. unfold Rdiv. rewrite Rmult_assoc, Rinv_l by lra. lra.
  - apply Rmult_lt_0_compat; [exact VM|]. apply Rmult_lt_compat_r with (r := q - 1) in H; [|lra]. unfold Rdiv in H. rewrite Rmult_assoc, Rinv_l in H by lra. lra.
Qed.
Print Assumptions C61_brackets.

(** ** Instances *)
(** a cube of side 2 with a mesh of size 1/2, one atom, a two-point stencil *)
Definition ex_w1 (p : nat) : R := match p with 1%nat => / 2 | _ => 0 end.
Definition ex_w2 (p : nat) : R := match p with 0%nat => - (2) | 1%nat => 1 | _ => 0 end.
Definition ex_cube : cell := Cell (fun _ => 2) (fun _ => / 2) (/ 8) (fun _ _ => / 2) (fun _ p => ex_w1 p * 2) (fun _ p => ex_w2 p * 4) (fun _ _ => 0) 0.
Example C61_meshed_example lap : meshed 0 1 lap 1 ex_w1 ex_w2 (fun _ => 4) ex_cube /\ vol3 ex_cube 1 = 8.
Proof.
  split; [|unfold vol3, ex_cube; cbn [rng]; lra]. constructor; cbn [ex_cube rng dlt cdV cD1 cD2 cMx Z.eqb]; intros; try lra; try lia.
Qed.
(** a residual that is the volume less v0 *)
Definition lin (v0 : R) (s : cell) (_ : nat) : R := v0 - vol3 s 1.
Notation lin_relax v0 := (Relax_Cell 0 1 (fun _ _ => 0) (fun _ => true) 1 ex_w1 ex_w2 (fun _ => 4%Z) false 1 0 (fun _ _ => 0) (fun _ _ => 0) (lin v0) (fun s => s)).
Notation lin_eval v0 := (volrelax_constraint 0 1 (fun _ _ => 0) (fun _ => true) 1 ex_w1 ex_w2 (fun _ => 4%Z) false 1 0 (fun _ _ => 0) (fun _ _ => 0) (lin v0) (fun s => s)).
Notation lin_resid := (residual 0 (fun _ => true) false 1 0 (fun _ _ => 0) (fun _ _ => 0)).
Notation lin_ok := (meshed 0 1 (fun _ _ => 0) 1 ex_w1 ex_w2 (fun _ => 4)).
Lemma lin_residual v0 s : lin_resid (lin v0 s) = Ok (vol3 s 1 - v0).
Proof. unfold residual, ndim. cbn [filter length]. rewrite cdiv_def by (apply not_0_INR; lia). cbn [obind fold_left]. unfold stress_lc, nonorth, lin. cbn [Z.ltb Z.compare andb]. change (INR 3) with (1 + 1 + 1). f_equal. field. Qed.
Lemma four : forall d : nat, (d < 3)%nat -> 4 <> 0.
Proof. intros. lra. Qed.
Lemma lin_atoms : atoms_only (fun s => s).
Proof. intros s. cbv zeta. repeat split. Qed.
Lemma lin_run v0 log s' : run (lin_eval v0) ex_cube log s' -> lin_ok s' /\ forall v r, In (v, r) log -> 0 < v /\ r = v - v0.
Proof.
  intros H. induction H as [|l s1 v r s2 H IH E].
  - split; [apply C61_meshed_example|]. intros v r [].
  - destruct IH as [O1 IH]. pose proof (eval_cases 0 1 (fun _ _ => 0) (fun _ => true) 1 ex_w1 ex_w2 (fun _ => 4%Z) (fun _ => 4) false 1 0 (fun _ _ => 0) (fun _ _ => 0) (lin v0) (fun s => s) four Rlt_0_1 ltac:(cbn; lia) lin_atoms s1 v O1) as C.
    rewrite E in C. destruct C as (C1 & C2 & C3 & C4). split; [exact C2|]. intros v' r' Hin. apply in_app_or in Hin. destruct Hin as [Hin|[Hin|[]]]; [apply IH; exact Hin|].
    injection Hin as <- <-. split; [exact C1|]. rewrite lin_residual in C4. injection C4 as <-. rewrite C3. reflexivity.
Qed.
Lemma lin_eval_ok v0 s v : lin_ok s -> 0 < v -> exists s', lin_eval v0 s v = Ok (s', v - v0) /\ lin_ok s' /\ vol3 s' 1 = v.
Proof.
  intros Hs Hv. pose proof (eval_cases 0 1 (fun _ _ => 0) (fun _ => true) 1 ex_w1 ex_w2 (fun _ => 4%Z) (fun _ => 4) false 1 0 (fun _ _ => 0) (fun _ _ => 0) (lin v0) (fun s => s) four Rlt_0_1 ltac:(cbn; lia) lin_atoms s v Hs) as C.
  destruct (lin_eval v0 s v) as [[s' r]| |]; [|contradiction|lra]. destruct C as (C1 & C2 & C3 & C4). rewrite lin_residual, C3 in C4. injection C4 as <-. exists s'. auto.
Qed.

(** With the default dilatation 1.06 and three relaxed directions the third
    extension asks for a negative volume: the run stops with an error though
    the residual vanishes well inside the extended bracket. *)
Theorem C61_third_extension_refuted : exists (v0 : R) (s : cell), lin_ok s /\
  (let x1 := vol3 s 1 / (106 / 100) ^ 3 in let x2 := vol3 s 1 * (106 / 100) ^ 3 in x1 < v0 < hi_k x1 x2 3 /\ lo_k x1 x2 3 < 0) /\
  (forall s', lin_resid (lin v0 s') = Ok (vol3 s' 1 - v0)) /\
  forall tol_f niter, 0 < tol_f -> lin_relax v0 (106 / 100) tol_f niter s = Exit.
Proof.
  destruct (C61_meshed_example (fun _ _ => 0)) as [OK V]. exists 16, ex_cube. split; [exact OK|].
  split; [cbv zeta; rewrite V; unfold hi_k, lo_k; lra|]. split; [intros s'; apply lin_residual|]. intros tol_f niter Ht.
  pose proof (C61_relax 0 1 (fun _ _ => 0) (fun _ => true) 1 ex_w1 ex_w2 (fun _ => 4%Z) (fun _ => 4) false 1 0 (fun _ _ => 0) (fun _ _ => 0) (lin 16) (fun s => s) four Rlt_0_1 ltac:(cbn; lia) lin_atoms (106 / 100) tol_f niter ex_cube OK ltac:(lra) Ht) as C.
  cbv zeta in C. change (ndim (fun _ => true)) with 3%nat in C. rewrite V in C.
  set (x1 := 8 / (106 / 100) ^ 3) in *. set (x2 := 8 * (106 / 100) ^ 3) in *.
  destruct (lin_relax 16 (106 / 100) tol_f niter ex_cube) as [[[[s' b] log] c]| |]; [exfalso|contradiction|reflexivity].
  destruct C as (_ & RU & _ & (fs & fa & fb & l & E & F & SG & _) & _). destruct (lin_run 16 log s' RU) as [_ G].
  assert (HX : x1 <= x2) by (unfold x1, x2; lra).
  assert (IA : In (lo_k x1 x2 (length fs), fa) log /\ In (hi_k x1 x2 (length fs), fb) log).
  { rewrite E, brackets_app. cbn [brackets Nat.add]. split; apply in_or_app; left; apply in_or_app; right; [left|right; left]; reflexivity. }
  destruct IA as [IA IB]. destruct (G _ _ IA) as [P1 E1]. destruct (G _ _ IB) as [P2 E2].
  destruct (le_lt_dec 3 (length fs)) as [L|L].
  - destruct (bracket_mono x1 x2 HX 3 (length fs) L) as (B1 & _ & _). assert (lo_k x1 x2 3 < 0) by (unfold lo_k, x1, x2; lra). lra.
  - destruct (bracket_mono x1 x2 HX (length fs) 2 ltac:(lia)) as (_ & B2 & B3). assert (hi_k x1 x2 2 < 16) by (unfold hi_k, x1, x2; lra). nra.
Qed.
Print Assumptions C61_third_extension_refuted.

Lemma rltb_1 x y : x < y -> Rltb x y = true.
Proof. unfold Rltb. destruct (Rlt_dec x y); [auto|contradiction]. Qed.
Lemma rltb_0 x y : y <= x -> Rltb x y = false.
Proof. unfold Rltb. destruct (Rlt_dec x y); [lra|auto]. Qed.
(** The volume the search returns is not used: when the root is the lower end of
    the bracket, the cell is left at the upper end. *)
Theorem C61_left_refuted : exists (v0 : R) (s s' : cell), lin_ok s /\ forall tol_f niter, 0 < tol_f -> (0 < niter)%nat ->
  exists log, lin_relax v0 (106 / 100) tol_f niter s = Ok (s', v0, log, true) /\ In (v0, 0) log /\
    lin_resid (lin v0 s') = Ok (vol3 s' 1 - v0) /\ 1 < vol3 s' 1 - v0.
Proof.
  destruct (C61_meshed_example (fun _ _ => 0)) as [OK V]. set (x1 := 8 / (106 / 100) ^ 3). set (x2 := 8 * (106 / 100) ^ 3).
  assert (P1 : 0 < x1) by (unfold x1; lra). assert (P2 : 0 < x2) by (unfold x2; lra). assert (P3 : 1 < x2 - x1) by (unfold x1, x2; lra).
  destruct (lin_eval_ok x1 ex_cube x1 OK P1) as (s1 & E1 & O1 & V1). destruct (lin_eval_ok x1 s1 x2 O1 P2) as (s2 & E2 & O2 & V2).
  exists x1, ex_cube, s2. split; [exact OK|]. intros tol_f niter Ht Hk. destruct niter as [|k]; [lia|].
  exists [(x1, x1 - x1); (x2, x2 - x1)]. split; [|split; [left; f_equal; lra|split; [apply lin_residual|rewrite V2; exact P3]]].
  unfold Relax_Cell. change (volume 1 ex_cube) with (vol3 ex_cube 1). rewrite V. change (ndim (fun _ => true)) with 3%nat. rewrite cdiv_def by lra. cbn [obind]. fold x1 x2.
  unfold BrentsFun, ev. cbn [fst snd]. rewrite E1. cbn [obind fst snd app]. rewrite E2. cbn [obind fst snd app expand].
  rewrite rltb_0 by nra. cbn [obind]. rewrite rltb_0 by nra. cbn [iterate]. unfold reset. cbn [bfb bfc ba bb bc bfa bd be].
  rewrite (rltb_1 0 (x2 - x1)) by lra. cbn [andb orb]. unfold swap. cbn [bfb bfc ba bb bc bfa bd be].
  rewrite (rltb_1 (Rabs (x1 - x1))). 2:{ replace (x1 - x1) with 0 by lra. rewrite Rabs_R0, Rabs_pos_eq by lra. lra. }
  cbn [bfb bfc ba bb bc bfa bd be]. rewrite (rltb_1 (Rabs (x1 - x1)) tol_f). 2:{ replace (x1 - x1) with 0 by lra. rewrite Rabs_R0. exact Ht. }
  rewrite orb_true_r. reflexivity.
Qed.
Print Assumptions C61_left_refuted.

(** a root inside the bracket is found by interpolation and the cell ends there *)
Example C61_relax_example : exists s' log, lin_relax 9 (106 / 100) (/ 1000) 2 ex_cube = Ok (s', 9, log, true) /\ vol3 s' 1 = 9 /\ length log = 3%nat.
Proof.
  destruct (C61_meshed_example (fun _ _ => 0)) as [OK V]. set (x1 := 8 / (106 / 100) ^ 3). set (x2 := 8 * (106 / 100) ^ 3).
  assert (P1 : 6 < x1 < 7) by (unfold x1; lra). assert (P2 : 95 / 10 < x2 < 96 / 10) by (unfold x2; lra).
  destruct (lin_eval_ok 9 ex_cube x1 OK ltac:(lra)) as (s1 & E1 & O1 & V1). destruct (lin_eval_ok 9 s1 x2 O1 ltac:(lra)) as (s2 & E2 & O2 & V2).
  destruct (lin_eval_ok 9 s2 9 O2 ltac:(lra)) as (s3 & E3 & O3 & V3).
  exists s3, ([(x1, x1 - 9); (x2, x2 - 9)] ++ [(9, 9 - 9)]). split; [|split; [exact V3|reflexivity]].
  unfold Relax_Cell. change (volume 1 ex_cube) with (vol3 ex_cube 1). rewrite V. change (ndim (fun _ => true)) with 3%nat. rewrite cdiv_def by lra. cbn [obind]. fold x1 x2.
  unfold BrentsFun. unfold ev at 1 2. cbn [fst snd]. rewrite E1. cbn [obind fst snd app]. rewrite E2. cbn [obind fst snd app expand].
  rewrite rltb_0 by nra. cbn [obind]. rewrite rltb_0 by nra. clearbody x1 x2.
  cbn [iterate]. match goal with |- context [swap (reset ?B)] => replace (swap (reset B)) with (BR x1 x2 x1 (x2 - x1) (x2 - x1) (x1 - 9) (x2 - 9) (x1 - 9)) end.
  2:{ unfold reset. cbn [bfb bfc ba bb bc bfa bd be]. rewrite (rltb_1 0 (x2 - 9)) by lra. cbn [andb orb]. unfold swap. cbn [bfb bfc ba bb bc bfa bd be]. rewrite (rltb_0 (Rabs (x1 - 9))); [reflexivity|]. rewrite (Rabs_left (x1 - 9)), (Rabs_pos_eq (x2 - 9)) by lra. lra. }
  unfold tol1_of, xm_of. cbn [bfb bfc ba bb bc bfa bd be].
  assert (AX : Rabs (/ 2 * (x1 - x2)) = / 2 * (x2 - x1)) by (rewrite Rabs_left by lra; lra).
  assert (AB : Rabs x2 = x2) by (apply Rabs_pos_eq; lra).
  rewrite AX, AB, (rltb_1 _ (/ 2 * (x2 - x1))) by lra. rewrite (rltb_0 (Rabs (x2 - 9))) by (rewrite Rabs_pos_eq by lra; lra). cbn [negb orb].
  set (tol1 := 2 * / 10000000000000000 * x2 + / 2 * / 10000). assert (T1 : 0 < tol1 < / 1000) by (unfold tol1; lra). clearbody tol1.
  match goal with |- context [step_de tol1 ?B] => assert (SD : step_de tol1 B = Ok (9 - x2, x2 - x1)) end.
  { unfold step_de, xm_of, interp. cbn [bfb bfc ba bb bc bfa bd be].
    rewrite (rltb_0 (Rabs (x2 - x1))) by (rewrite Rabs_pos_eq by lra; lra). rewrite (rltb_1 (Rabs (x2 - 9))) by (rewrite (Rabs_pos_eq (x2 - 9)), (Rabs_left (x1 - 9)) by lra; lra). cbn [negb orb].
    rewrite cdiv_def by lra. cbn [obind]. destruct (Req_EM_T x1 x1) as [_|NE]; [|contradiction NE; reflexivity]. cbn [obind fst snd]. unfold xm_of. cbn [bb bc].
    set (q := (x2 - 9) / (x1 - 9)). assert (Q : - (3 / 10) < q < 0 /\ q * (x1 - 9) = x2 - 9).
    { split; [|unfold q; field; lra]. assert (E : q * (x1 - 9) = x2 - 9) by (unfold q; field; lra). split; nra. }
    destruct Q as [Q QE]. clearbody q.
    rewrite (rltb_1 0 (2 * (/ 2 * (x1 - x2)) * q)) by nra. rewrite (Rabs_pos_eq (2 * (/ 2 * (x1 - x2)) * q)) by nra.
    assert (AQ : Rabs (tol1 * - (1 - q)) = tol1 * (1 - q)) by (rewrite Rabs_left by nra; lra).
    assert (AE : Rabs ((x2 - x1) * - (1 - q)) = (x2 - x1) * (1 - q)) by (rewrite Rabs_left by nra; lra). rewrite AQ, AE.
    rewrite rltb_1. 2:{ destruct (Rltb _ _); nra. }
    rewrite cdiv_def by lra. cbn [obind]. f_equal. f_equal. apply Rmult_eq_reg_r with (- (1 - q)); [|lra]. unfold Rdiv. rewrite Rmult_assoc, Rinv_l by lra. nra. }
  rewrite SD. cbn [obind fst snd]. rewrite (rltb_1 tol1 (Rabs (9 - x2))) by (rewrite Rabs_left by lra; lra). replace (x2 + (9 - x2)) with 9 by lra.
  unfold ev at 1. cbn [fst snd]. rewrite E3. cbn [obind fst snd]. replace (9 - 9) with 0 by lra.
  match goal with |- context [swap (reset ?B)] => replace (swap (reset B)) with B end.
  2:{ unfold reset. cbn [bfb bfc ba bb bc bfa bd be]. rewrite (rltb_0 0 0) by lra. cbn [andb orb]. unfold swap. cbn [bfb bfc ba bb bc bfa bd be]. rewrite (rltb_0 (Rabs (x1 - 9))); [reflexivity|]. rewrite Rabs_R0. apply Rabs_pos. }
  cbn [bfb bfc ba bb bc bfa bd be].
  rewrite (rltb_1 (Rabs 0)) by (rewrite Rabs_R0; lra). rewrite orb_true_r. reflexivity.
Qed.

(** on the skewed cell of C48 the residual of a hydrostatic stress is the pressure *)
Example C61_pressure_example : exists t, setup ex_lat = Ok t /\ (typ t <> 1%Z -> typ t <> 0%Z -> forall p,
  residual (typ t) (fun _ => true) true 29421 2 (lu t) (grd t) (fun e => if (e =? 0)%nat || (e =? 3)%nat || (e =? 5)%nat then - p else 0) = Ok (p * 29421 - 2)).
Proof.
  destruct C48_ex as (t & Ht & _). exists t. split; [exact Ht|]. intros N1 N0 p. rewrite (C61_pressure ex_lat t) with (1 := Ht).
  - cbn [Nat.eqb orb]. f_equal. lra.
  - destruct (C48_cell_type ex_lat t Ht) as [S|S]; [exact S|contradiction].
  - intros T. contradiction.
Qed.
