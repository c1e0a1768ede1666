(** Model of the Brent root finder for the Fermi level,
    src/occupation.c:182-284 [Calculate_FermiLevel] and 291-407
    [local_Calculate_FermiLevel].  The two functions have the same body and
    differ only in how the constraint is evaluated; the constraint is an
    arbitrary function [f].  Arithmetic is exact rational arithmetic; a
    division by zero is the distinct outcome [UB] (in C it would produce an
    infinity or a NaN, which the algorithm does not expect). *)
From Coq Require Import ZArith List Lia Bool QArith Qabs Lqa.
From Verif Require Import CBase Spline.
Import ListNotations.
Local Open Scope Q_scope.

Definition EPSILON : Q := 1 # 10000000000000000.
Definition qleb (x y : Q) : bool := Qle_bool x y.
Lemma qleb_le x y : qleb x y = true -> x <= y.
Proof. apply Qle_bool_iff. Qed.
Lemma qleb_gt x y : qleb x y = false -> y < x.
Proof. intros H. apply Qnot_le_lt. intros C. apply Qle_bool_iff in C. unfold qleb in H. congruence. Qed.

Definition qdiv (x y : Q) : outcome Q := if Qeq_bool y 0 then UB else Ok (x / y).
(** src/occupation.c:186, 295: SIGN(a,b) *)
Definition SIGN (a b : Q) : Q := if qltb 0 b then Qabs a else - Qabs a.

Record brent := mkB { ba : Q; bb : Q; bc : Q; bd : Q; be : Q; bfa : Q; bfb : Q; bfc : Q }.

Section Brent.
  Variable f : Q -> Q.

  (** src/occupation.c:316-333: automatic expansion of the bracket; [n] is
      the number of expansions left.  Result: a, b, f(a), f(b) and the
      points evaluated. *)
  Fixpoint expand (n : nat) (a b fa fb : Q) (tr : list Q) : Q * Q * Q * Q * list Q :=
    if qltb 0 (fa * fb) then
      match n with
      | O => (a, b, fa, fb, tr)
      | S n' => let w := b - a in
                let a := a - w / 2 in
                let b := b + w / 2 in
                expand n' a b (f a) (f b) (tr ++ [a; b])
      end
    else (a, b, fa, fb, tr).

  (** src/occupation.c:346-352: sign reset *)
  Definition reset (s : brent) : brent :=
    if (qltb 0 (bfb s) && qltb 0 (bfc s)) || (qltb (bfb s) 0 && qltb (bfc s) 0)
    then mkB (ba s) (bb s) (ba s) (bb s - ba s) (bb s - ba s) (bfa s) (bfb s) (bfa s)
    else s.
  (** src/occupation.c:353-360: make b the best point *)
  Definition swap (s : brent) : brent :=
    if qltb (Qabs (bfc s)) (Qabs (bfb s))
    then mkB (bb s) (bc s) (bb s) (bd s) (be s) (bfb s) (bfc s) (bfb s)
    else s.
  (** src/occupation.c:361 *)
  Definition tol1_of (tol : Q) (s : brent) : Q := 2 * EPSILON * Qabs (bb s) + (1 # 2) * tol.
  (** src/occupation.c:362 *)
  Definition xm_of (s : brent) : Q := (1 # 2) * (bc s - bb s).

  (** src/occupation.c:367-376: interpolation, (p, q) before the sign fix *)
  Definition interp (s : brent) : outcome (Q * Q) :=
    let xm := xm_of s in
    do sx <- qdiv (bfb s) (bfa s) ;
    if Qeq_bool (ba s) (bc s) then Ok (2 * xm * sx, 1 - sx)
    else
      do q <- qdiv (bfa s) (bfc s) ;
      do r <- qdiv (bfb s) (bfc s) ;
      Ok (sx * (2 * xm * q * (q - r) - (bb s - ba s) * (r - 1)), (q - 1) * (r - 1) * (sx - 1)).
  (** src/occupation.c:365-398: the step (d, e) *)
  Definition step_de (tol1 : Q) (s : brent) : outcome (Q * Q) :=
    let xm := xm_of s in
    if qleb tol1 (Qabs (be s)) && qltb (Qabs (bfb s)) (Qabs (bfa s)) then
      do pq <- interp s ;
      let q := if qltb 0 (fst pq) then - snd pq else snd pq in
      let p := Qabs (fst pq) in
      let min1 := 3 * xm * q - Qabs (tol1 * q) in
      let min2 := Qabs (be s * q) in
      if qltb (2 * p) (if qltb min1 min2 then min1 else min2) then
        do d <- qdiv p q ; Ok (d, bd s)
      else Ok (xm, xm)
    else Ok (xm, xm).

  (** src/occupation.c:345-409: the iteration; [n] iterations left.
      Result: points evaluated and outcome. *)
  Fixpoint iterate (n : nat) (tol : Q) (s : brent) (tr : list Q) : list Q * outcome Q :=
    match n with
    | O => (tr, Exit)
    | S n' =>
      let s := swap (reset s) in
      let tol1 := tol1_of tol s in
      let xm := xm_of s in
      if qleb (Qabs xm) tol1 || qltb (Qabs (bfb s)) EPSILON then (tr, Ok (bb s))
      else
        match step_de tol1 s with
        | Ok (d, e) =>
          let b := if qltb tol1 (Qabs d) then bb s + d else bb s + SIGN tol1 xm in
          iterate n' tol (mkB (bb s) b (bc s) d e (bfb s) (f b) (bfc s)) (tr ++ [b])
        | UB => (tr, UB)
        | Exit => (tr, Exit)
        end
    end.

  (** src/occupation.c:291-410.  A process outside the communicators
      (lines 297-301) returns 0 without evaluating anything. *)
  Definition FermiLevel (active : bool) (x1 x2 tol : Q) (max_iter : nat) : list Q * outcome Q :=
    if active then
      let a := if qltb x1 x2 then x1 else x2 in
      let b := if qltb x2 x1 then x1 else x2 in
      let '(a, b, fa, fb, tr) := expand 10 a b (f a) (f b) [a; b] in
      if qltb 0 (fa * fb) then (tr, Exit)
      else iterate max_iter tol (mkB a b b 0 0 fa fb fb) tr
    else ([], Ok 0).

  (** ** Invariants *)
  Definition tracked (s : brent) : Prop := bfa s = f (ba s) /\ bfb s = f (bb s) /\ bfc s = f (bc s).
  Definition within (lo hi : Q) (s : brent) : Prop :=
    (lo <= ba s <= hi) /\ (lo <= bb s <= hi) /\ (lo <= bc s <= hi).
  Definition may_reset (s : brent) : Prop := bfb s * bfc s <= 0 \/ bfa s * bfb s <= 0.

  Lemma sgn_mult_le (x y z : Q) : x * y <= 0 -> 0 < z * y -> x * z <= 0.
  Proof.
    intros H1 H2. destruct (Qlt_le_dec 0 y) as [L|L].
    - assert (0 < z) by nra. assert (x <= 0) by nra. nra.
    - assert (y < 0).
      { apply Qle_lteq in L. destruct L as [L|L]; [exact L|]. rewrite L in H2. lra. }
      assert (z < 0) by nra. assert (0 <= x) by nra. nra.
  Qed.
  Lemma same_sign_b (x y : Q) :
    (qltb 0 x && qltb 0 y) || (qltb x 0 && qltb y 0) = true -> 0 < x * y.
  Proof.
    rewrite orb_true_iff, !andb_true_iff. intros [[A B]|[A B]]; apply qltb_lt in A; apply qltb_lt in B; nra.
  Qed.
  Lemma not_same_sign_b (x y : Q) :
    (qltb 0 x && qltb 0 y) || (qltb x 0 && qltb y 0) = false -> x * y <= 0.
  Proof.
    rewrite orb_false_iff, !andb_false_iff. intros [[A|A] [B|B]]; apply qltb_ge in A; apply qltb_ge in B; try nra.
    - assert (Z : x == 0) by lra. rewrite Z. lra.
    - assert (Z : y == 0) by lra. rewrite Z. lra.
  Qed.

  Lemma reset_spec s lo hi : tracked s -> within lo hi s -> may_reset s ->
    tracked (reset s) /\ within lo hi (reset s) /\ bfb (reset s) * bfc (reset s) <= 0.
  Proof.
    intros (T1 & T2 & T3) (W1 & W2 & W3) M. unfold reset.
    destruct ((qltb 0 (bfb s) && qltb 0 (bfc s)) || (qltb (bfb s) 0 && qltb (bfc s) 0)) eqn:E.
    - apply same_sign_b in E. split; [|split].
      + unfold tracked. cbn. auto.
      + unfold within. cbn. auto.
      + cbn. destruct M as [M|M]; [exfalso; lra | lra].
    - apply not_same_sign_b in E. split; [|split]; [unfold tracked; auto | unfold within; auto | exact E].
  Qed.
  Lemma swap_spec s lo hi : tracked s -> within lo hi s -> bfb s * bfc s <= 0 ->
    tracked (swap s) /\ within lo hi (swap s) /\ bfb (swap s) * bfc (swap s) <= 0 /\
    Qabs (bfb (swap s)) <= Qabs (bfc (swap s)).
  Proof.
    intros (T1 & T2 & T3) (W1 & W2 & W3) M. unfold swap.
    destruct (qltb (Qabs (bfc s)) (Qabs (bfb s))) eqn:E.
    - apply qltb_lt in E. unfold tracked, within. cbn. repeat split; auto; try tauto; lra.
    - apply qltb_ge in E. unfold tracked, within. tauto.
  Qed.

  (** The step never divides by zero and moves strictly towards [c] without
      reaching it. *)
  Lemma step_spec tol1 s : 0 <= tol1 -> tol1 < Qabs (xm_of s) -> EPSILON <= Qabs (bfb s) ->
    Qabs (bfb s) <= Qabs (bfc s) ->
    exists d e, step_de tol1 s = Ok (d, e) /\ 0 <= d * xm_of s /\ Qabs d <= (3 # 2) * Qabs (xm_of s).
  Proof.
    intros Ht Hx He Hc. set (xm := xm_of s) in *.
    assert (Dxm : exists d e, @Ok (Q * Q) (xm, xm) = Ok (d, e) /\ 0 <= d * xm /\ Qabs d <= (3 # 2) * Qabs xm).
    { exists xm, xm. split; [reflexivity|]. pose proof (Qabs_nonneg xm). split; [nra | lra]. }
    unfold step_de. cbv zeta. fold xm.
    destruct (qleb tol1 (Qabs (be s)) && qltb (Qabs (bfb s)) (Qabs (bfa s))) eqn:E; [|exact Dxm].
    apply andb_true_iff in E. destruct E as [_ E]. apply qltb_lt in E.
    assert (EP : 0 < EPSILON) by reflexivity.
    assert (Na : Qeq_bool (bfa s) 0 = false).
    { destruct (Qeq_bool (bfa s) 0) eqn:Z; [|reflexivity]. apply Qeq_bool_iff in Z. rewrite Z in E.
      change (Qabs 0) with 0 in E. lra. }
    assert (Nc : Qeq_bool (bfc s) 0 = false).
    { destruct (Qeq_bool (bfc s) 0) eqn:Z; [|reflexivity]. apply Qeq_bool_iff in Z. rewrite Z in Hc.
      change (Qabs 0) with 0 in Hc. lra. }
    assert (I : exists pq, interp s = Ok pq).
    { unfold interp, qdiv. rewrite Na, Nc. cbv zeta. cbn [obind]. destruct (Qeq_bool (ba s) (bc s)); eexists; reflexivity. }
    destruct I as ((p0 & q0) & I). rewrite I. cbn [obind fst snd].
    set (q := if qltb 0 p0 then - q0 else q0). clearbody q.
    set (min1 := 3 * xm * q - Qabs (tol1 * q)). set (min2 := Qabs (be s * q)).
    destruct (qltb (2 * Qabs p0) (if qltb min1 min2 then min1 else min2)) eqn:A; [|exact Dxm].
    assert (A1 : 2 * Qabs p0 < min1).
    { destruct (qltb min1 min2) eqn:B; apply qltb_lt in A; [exact A|]. apply qltb_ge in B. lra. }
    unfold min1 in A1. pose proof (Qabs_nonneg p0) as P0. pose proof (Qabs_nonneg (tol1 * q)) as P1.
    assert (Q0 : 0 < xm * q) by nra.
    assert (Nq : ~ q == 0) by (intros C; rewrite C in Q0; lra).
    unfold qdiv. destruct (Qeq_bool q 0) eqn:Z; [apply Qeq_bool_iff in Z; contradiction|]. cbn [obind].
    exists (Qabs p0 / q), (bd s). split; [reflexivity|].
    assert (Qq : (Qabs p0 / q) * q == Qabs p0) by (field; exact Nq).
    set (d := Qabs p0 / q) in *. clearbody d.
    destruct (Qlt_le_dec 0 q) as [L|L].
    - assert (0 < xm) by nra. assert (0 <= d) by nra. rewrite (Qabs_pos d), (Qabs_pos xm) by lra.
      split; nra.
    - assert (q < 0) by (apply Qle_lteq in L; destruct L as [L|L]; [exact L | contradiction]).
      assert (xm < 0) by nra. assert (d <= 0) by nra. rewrite (Qabs_neg d), (Qabs_neg xm) by lra.
      split; nra.
  Qed.

  Lemma Qabs_split x : (0 <= x /\ Qabs x == x) \/ (x < 0 /\ Qabs x == - x).
  Proof.
    destruct (Qlt_le_dec x 0) as [L|L]; [right | left]; split; try exact L.
    - apply Qabs_neg. lra.
    - apply Qabs_pos, L.
  Qed.

  (** The new trial point lies strictly between [b] and [c]. *)
  Lemma trial_between tol1 s d : 0 <= tol1 -> tol1 < Qabs (xm_of s) ->
    0 <= d * xm_of s -> Qabs d <= (3 # 2) * Qabs (xm_of s) ->
    let b := if qltb tol1 (Qabs d) then bb s + d else bb s + SIGN tol1 (xm_of s) in
    (bb s <= b /\ b < bc s) \/ (bc s < b /\ b <= bb s).
  Proof.
    intros Ht Hx Hd1 Hd2. cbv zeta. unfold xm_of in *. set (b := bb s) in *. set (c := bc s) in *. clearbody b c.
    assert (G : forall st, 0 <= st * ((1 # 2) * (c - b)) -> Qabs st <= (3 # 2) * Qabs ((1 # 2) * (c - b)) ->
             (b <= b + st /\ b + st < c) \/ (c < b + st /\ b + st <= b)).
    { intros st H1 H2. pose proof (Qle_lt_trans _ _ _ Ht Hx) as H3.
      destruct (Qabs_split ((1 # 2) * (c - b))) as [[P1 P2]|[P1 P2]]; rewrite P2 in *;
      destruct (Qabs_split st) as [[S1 S2]|[S1 S2]]; rewrite S2 in *.
      - left. split; lra.
      - exfalso. nra.
      - right. assert (st == 0) by nra. split; lra.
      - right. split; lra. }
    destruct (qltb tol1 (Qabs d)).
    - apply G; assumption.
    - apply G.
      + unfold SIGN. destruct (qltb 0 ((1 # 2) * (c - b))) eqn:E.
        * apply qltb_lt in E. rewrite (Qabs_pos tol1) by exact Ht. nra.
        * apply qltb_ge in E. rewrite (Qabs_pos tol1) by exact Ht. nra.
      + unfold SIGN. destruct (qltb 0 ((1 # 2) * (c - b))); rewrite ?Qabs_opp, (Qabs_pos (Qabs tol1)), (Qabs_pos tol1) by (try apply Qabs_nonneg; exact Ht); lra.
  Qed.

  (** What a returned value satisfies. *)
  Definition good_root (tol lo hi b : Q) : Prop :=
    lo <= b <= hi /\
    (Qabs (f b) < EPSILON \/
     exists c, lo <= c <= hi /\ f b * f c <= 0 /\
               Qabs (c - b) <= 2 * (2 * EPSILON * Qabs b + (1 # 2) * tol)).

  Lemma iterate_spec : forall n tol s tr lo hi, 0 <= tol ->
    tracked s -> within lo hi s -> may_reset s -> (forall x, In x tr -> lo <= x <= hi) ->
    (forall x, In x (fst (iterate n tol s tr)) -> lo <= x <= hi) /\
    snd (iterate n tol s tr) <> UB /\
    (snd (iterate n tol s tr) = Exit -> length (fst (iterate n tol s tr)) = (length tr + n)%nat) /\
    (forall b, snd (iterate n tol s tr) = Ok b -> good_root tol lo hi b).
  Proof.
    induction n as [|n IH]; intros tol s tr lo hi Htol T W M Htr.
    - cbn [iterate fst snd]. split; [exact Htr|]. split; [discriminate|]. split; [intros _; lia | discriminate].
    - cbn [iterate].
      destruct (reset_spec s lo hi T W M) as (T1 & W1 & S1).
      destruct (swap_spec (reset s) lo hi T1 W1 S1) as (T2 & W2 & S2 & O2).
      set (s2 := swap (reset s)) in *. clearbody s2. clear T W M T1 W1 S1.
      cbv zeta. set (tol1 := tol1_of tol s2).
      assert (Ht1 : 0 <= tol1).
      { unfold tol1, tol1_of. pose proof (Qabs_nonneg (bb s2)).
        assert (0 <= 2 * EPSILON) by discriminate. nra. }
      destruct (qleb (Qabs (xm_of s2)) tol1 || qltb (Qabs (bfb s2)) EPSILON) eqn:E.
      + cbn [fst snd]. split; [exact Htr|]. split; [discriminate|]. split; [discriminate|].
        intros b Hb. injection Hb as <-. destruct T2 as (_ & Tb & Tc). destruct W2 as (_ & Wb & Wc).
        split; [exact Wb|]. apply orb_true_iff in E. destruct E as [E|E].
        * right. exists (bc s2). split; [exact Wc|]. split; [rewrite <- Tb, <- Tc; exact S2|].
          apply qleb_le in E. unfold xm_of in E. rewrite Qabs_Qmult in E. change (Qabs (1 # 2)) with (1 # 2) in E.
          unfold tol1, tol1_of in E. lra.
        * left. apply qltb_lt in E. rewrite <- Tb. exact E.
      + apply orb_false_iff in E. destruct E as [E1 E2]. apply qleb_gt in E1. apply qltb_ge in E2.
        destruct (step_spec tol1 s2 Ht1 E1 E2 O2) as (d & e & Es & Hd1 & Hd2). rewrite Es.
        pose proof (trial_between tol1 s2 d Ht1 E1 Hd1 Hd2) as Hb. cbv zeta in Hb.
        set (b := if qltb tol1 (Qabs d) then bb s2 + d else bb s2 + SIGN tol1 (xm_of s2)) in *. clearbody b.
        destruct T2 as (Ta & Tb & Tc). destruct W2 as (Wa & Wb & Wc).
        assert (Wn : lo <= b <= hi) by (destruct Hb; lra).
        destruct (IH tol (mkB (bb s2) b (bc s2) d e (bfb s2) (f b) (bfc s2)) (tr ++ [b]) lo hi Htol) as (I1 & I2 & I3 & I4).
        * unfold tracked. cbn. auto.
        * unfold within. cbn. auto.
        * unfold may_reset. cbn. destruct (Qlt_le_dec 0 (f b * bfc s2)) as [L|L]; [right | left; exact L].
          apply sgn_mult_le with (bfc s2); assumption.
        * intros x Hx. apply in_app_or in Hx. destruct Hx as [Hx | [<- | []]]; [apply Htr, Hx | exact Wn].
        * split; [exact I1|]. split; [exact I2|]. split; [|exact I4].
          intros X. rewrite (I3 X), app_length. cbn [length]. lia.
  Qed.

  Fixpoint pow2 (k : nat) : Q := match k with O => 1 | S k' => 2 * pow2 k' end.
  Lemma pow2_pos k : 1 <= pow2 k.
  Proof. induction k as [|k IH]; cbn [pow2]; lra. Qed.
  Lemma pow2_mono i k : (i <= k)%nat -> pow2 i <= pow2 k.
  Proof.
    intros H. induction H as [|k H IH]; [lra|]. cbn [pow2]. pose proof (pow2_pos k). lra.
  Qed.

  Hypothesis f_ext : forall x y, x == y -> f x == f y.

  (** The k-times expanded bracket around the midpoint [m] with half width [h]. *)
  Lemma expand_spec (m h : Q) : 0 <= h -> forall n j a b tr,
    a == m - pow2 j * h -> b == m + pow2 j * h ->
    exists k a' b' pts, (j <= k <= j + n)%nat /\
      expand n a b (f a) (f b) tr = (a', b', f a', f b', tr ++ pts) /\
      a' == m - pow2 k * h /\ b' == m + pow2 k * h /\ length pts = (2 * (k - j))%nat /\
      (forall x, In x pts -> a' <= x <= b') /\ a' <= a /\ b <= b' /\
      (forall i, (j <= i < k)%nat -> 0 < f (m - pow2 i * h) * f (m + pow2 i * h)) /\
      (f a' * f b' <= 0 \/ k = (j + n)%nat).
  Proof.
    intros Hh. induction n as [|n IH]; intros j a b tr Ha Hb; cbn [expand].
    - exists j, a, b, []. rewrite app_nil_r.
      assert (E : (if qltb 0 (f a * f b) then (a, b, f a, f b, tr) else (a, b, f a, f b, tr)) = (a, b, f a, f b, tr))
        by (destruct (qltb 0 (f a * f b)); reflexivity).
      rewrite E. split; [lia|]. split; [reflexivity|]. split; [exact Ha|]. split; [exact Hb|].
      split; [cbn; lia|]. split; [intros x []|]. split; [lra|]. split; [lra|]. split; [intros i Hi; lia | right; lia].
    - destruct (qltb 0 (f a * f b)) eqn:E.
      + apply qltb_lt in E. cbv zeta.
        destruct (IH (S j) (a - (b - a) / 2) (b + (b - a) / 2) (tr ++ [a - (b - a) / 2; b + (b - a) / 2]))
          as (k & a' & b' & pts & K & X & A & B & L & P & La & Lb & S1 & S2).
        * cbn [pow2]. rewrite Ha, Hb. field.
        * cbn [pow2]. rewrite Ha, Hb. field.
        * assert (W : 0 <= (b - a) / 2).
          { rewrite Ha, Hb. setoid_replace ((m + pow2 j * h - (m - pow2 j * h)) / 2) with (pow2 j * h) by field.
            pose proof (pow2_pos j). nra. }
          assert (W2 : a <= b) by (rewrite Ha, Hb; pose proof (pow2_pos j); nra).
          exists k, a', b', ([a - (b - a) / 2; b + (b - a) / 2] ++ pts).
          split; [lia|]. split; [rewrite X, app_assoc; reflexivity|].
          split; [exact A|]. split; [exact B|]. split; [cbn [app length]; lia|].
          split.
          { intros x Hx. cbn [app In] in Hx. destruct Hx as [<- | [<- | Hx]]; [| |apply P, Hx]; clear - W W2 La Lb; set (w := (b - a) / 2) in *; clearbody w; lra. }
          split; [clear - W La; set (w := (b - a) / 2) in *; clearbody w; lra|].
          split; [clear - W Lb; set (w := (b - a) / 2) in *; clearbody w; lra|]. split; [|destruct S2 as [S2|S2]; [left; exact S2 | right; lia]].
          intros i Hi. destruct (Nat.eq_dec i j) as [-> | N]; [|apply S1; lia].
          assert (E1 : f a == f (m - pow2 j * h)) by (apply f_ext, Ha).
          assert (E2 : f b == f (m + pow2 j * h)) by (apply f_ext, Hb).
          rewrite <- E1, <- E2. exact E.
      + apply qltb_ge in E. exists j, a, b, []. rewrite app_nil_r.
        split; [lia|]. split; [reflexivity|]. split; [exact Ha|]. split; [exact Hb|].
        split; [cbn; lia|]. split; [intros x []|]. split; [lra|]. split; [lra|]. split; [intros i Hi; lia | left; exact E].
  Qed.
End Brent.
