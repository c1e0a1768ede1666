(** Lemmas about the work-splitting searches [dims_divide_*] of [Dims.v]. *)
From Coq Require Import ZArith List Lia Bool Sorted.
From Coq Require Import ZifyBool ZifyNat.
From Verif Require Import CBase Mem DivCount Factors Dims DimsLem.
Import ListNotations.
Local Open Scope Z_scope.

Definition cdv (n d : Z) : Z := (n + d - 1) / d.

Lemma cdv_spec n d : 1 <= n -> 1 <= d -> d * (cdv n d - 1) < n <= d * cdv n d /\ 1 <= cdv n d <= n.
Proof.
  intros Hn Hd. unfold cdv.
  pose proof (Z.div_mod (n + d - 1) d ltac:(lia)) as E.
  pose proof (Z.mod_pos_bound (n + d - 1) d ltac:(lia)) as B.
  set (q := (n + d - 1) / d) in *. set (r := (n + d - 1) mod d) in *. clearbody q r. nia.
Qed.
Lemma cdv_divide n d : 1 <= d -> 1 <= n -> (d | n) -> d * cdv n d = n.
Proof.
  intros Hd Hn (k & Hk). destruct (cdv_spec n d Hn Hd) as (A & B). subst n.
  assert (cdv (k * d) d = k) by nia. lia.
Qed.

Definition load (N1 N2 x y : Z) : Z := cdv N1 x * cdv N2 y.

Lemma load_pos N1 N2 x y : 1 <= N1 -> 1 <= N2 -> 1 <= x -> 1 <= y -> 1 <= load N1 N2 x y <= N1 * N2.
Proof.
  intros. unfold load. pose proof (cdv_spec N1 x). pose proof (cdv_spec N2 y). nia.
Qed.
Lemma load_lb N1 N2 x y : 1 <= N1 -> 1 <= N2 -> 1 <= x -> 1 <= y ->
  N1 * N2 <= load N1 N2 x y * (x * y).
Proof.
  intros H1 H2 Hx Hy. unfold load. destruct (cdv_spec N1 x H1 Hx) as (A & B).
  destruct (cdv_spec N2 y H2 Hy) as (C & D).
  set (a := cdv N1 x) in *. set (b := cdv N2 y) in *. clearbody a b.
  replace (a * b * (x * y)) with ((x * a) * (y * b)) by ring.
  apply Z.mul_le_mono_nonneg; lia.
Qed.
Lemma load_exact N1 N2 x y : 1 <= N1 -> 1 <= N2 -> 1 <= x -> 1 <= y -> (x | N1) -> (y | N2) ->
  load N1 N2 x y * (x * y) = N1 * N2.
Proof.
  intros H1 H2 Hx Hy D1 D2. unfold load.
  pose proof (cdv_divide N1 x Hx H1 D1) as A. pose proof (cdv_divide N2 y Hy H2 D2) as B.
  transitivity ((x * cdv N1 x) * (y * cdv N2 y)); [ring|]. now rewrite A, B.
Qed.

Lemma workload_ok N1 N2 x y : 1 <= N1 -> 1 <= N2 -> N1 * N2 <= INT_MAX ->
  1 <= x <= INT_MAX -> 1 <= y <= INT_MAX -> workload_assigned N1 N2 x y = Ok (load N1 N2 x y).
Proof.
  intros H1 H2 H12 Hx Hy. unfold workload_assigned.
  assert (N1 <= INT_MAX) by nia. assert (N2 <= INT_MAX) by nia.
  rewrite !ceil_div_ok by lia. cbn [obind]. pose proof (load_pos N1 N2 x y).
  unfold load, cdv in *. apply imul_ok. lia.
Qed.

Section DD2.
  Variables N1 N2 np : Z.
  Hypothesis H1 : 1 <= N1.
  Hypothesis H2 : 1 <= N2.
  Hypothesis H12 : N1 * N2 <= INT_MAX.
  Hypothesis Hnp : 1 <= np <= FACTOR_MAX.

  Definition inv (a b : Z) : Prop := 1 <= a /\ 1 <= b /\ a * b <= np.
  Local Notation L := (load N1 N2).

  Lemma dd2_inner_ok p : 1 <= p <= np -> forall facs, (forall f, In f facs -> 1 <= f /\ (f | p)) ->
    forall c1 c2, inv c1 c2 ->
    exists r, dd2_inner N1 N2 p facs c1 c2 (L c1 c2) = Ok r /\
    match r with
    | inl (a, b) => inv a b /\ L a b <= L c1 c2 /\ L a b * p <= N1 * N2
    | inr (a, b, best) => inv a b /\ best = L a b /\ L a b <= L c1 c2 /\
        (forall f, In f facs -> L a b <= L (p / f) f /\ ~ ((p / f | N1) /\ (f | N2)))
    end.
  Proof.
    intros Hp. induction facs as [|f facs IH]; intros Hf c1 c2 Hi; cbn [dd2_inner].
    - eexists. split; [reflexivity|]. cbn. split; [assumption|]. split; [reflexivity|]. split; [lia|]. easy.
    - destruct (Hf f (or_introl eq_refl)) as (Hf1 & Hfd).
      assert (Hq : f * (p / f) = p) by (symmetry; apply Z_div_exact_full_2; [lia|]; apply Z.mod_divide; [lia|assumption]).
      assert (Hq1 : 1 <= p / f) by nia.
      assert (HI : np <= INT_MAX) by (unfold FACTOR_MAX, INT_MAX in *; lia).
      rewrite c_div_ok by lia. cbn [obind].
      assert (f <= p) by nia. assert (p / f <= p) by nia.
      rewrite workload_ok by lia. cbn [obind].
      assert (Hnew : inv (p / f) f) by (split; [lia|]; split; lia).
      set (sel := if L (p / f) f <? L c1 c2 then (p / f, f, L (p / f) f) else (c1, c2, L c1 c2)).
      assert (Hsel : exists a b, sel = (a, b, L a b) /\ inv a b /\ L a b <= L c1 c2 /\ L a b <= L (p / f) f).
      { unfold sel. destruct (_ <? _) eqn:E.
        - exists (p / f), f. split; [reflexivity|]. split; [assumption|]. lia.
        - exists c1, c2. split; [reflexivity|]. split; [assumption|]. lia. }
      clearbody sel. destruct Hsel as (a & b & -> & Ha & Hb1 & Hb2).
      rewrite !c_mod_ok by lia. cbn [obind].
      assert (Hhit : exists h, (if N1 mod (p / f) =? 0 then Ok (N2 mod f =? 0) else Ok false) = Ok h
                /\ (h = true <-> ((p / f | N1) /\ (f | N2)))).
      { destruct (N1 mod (p / f) =? 0) eqn:E1; cbn [obind].
        - exists (N2 mod f =? 0). split; [reflexivity|].
          rewrite Z.eqb_eq in *. rewrite <- !Z.mod_divide by lia. tauto.
        - exists false. split; [reflexivity|]. split; [discriminate|].
          intros (D & _). apply Z.mod_divide in D; lia. }
      destruct Hhit as (h & -> & Hh). cbn [obind]. destruct h.
      + eexists. split; [reflexivity|]. cbn. split; [assumption|]. split; [assumption|].
        destruct (proj1 Hh eq_refl) as (D1 & D2).
        pose proof (load_exact N1 N2 (p / f) f H1 H2 Hq1 Hf1 D1 D2) as E.
        rewrite (Z.mul_comm (p / f) f), Hq in E. rewrite <- E.
        apply Z.mul_le_mono_nonneg_r; lia.
      + destruct (IH (fun g Hg => Hf g (or_intror Hg)) a b Ha) as (r & -> & Hr).
        exists r. split; [reflexivity|]. destruct r as [(u, v) | ((u, v), w)].
        * destruct Hr as (A & B & C). split; [assumption|]. split; [lia|assumption].
        * destruct Hr as (A & B & C & D). split; [assumption|]. split; [assumption|]. split; [lia|].
          intros g [<-|Hg]; [|now apply D]. split; [lia|].
          intros Hc. apply Hh in Hc. discriminate.
  Qed.

  Lemma dd2_outer_ok junk up : up <= np -> forall p c1 c2, (1 <= p)%nat -> Z.of_nat p <= up -> inv c1 c2 ->
    (forall x y, 1 <= x -> 1 <= y -> Z.of_nat p < x * y <= up -> L c1 c2 <= L x y) ->
    exists a b, dd2_outer junk N1 N2 p c1 c2 (L c1 c2) = Ok (a, b) /\ inv a b /\
      (forall x y, 1 <= x -> 1 <= y -> x * y <= up -> L a b <= L x y).
  Proof.
    intros Hup. induction p as [|q IH]; intros c1 c2 Hp Hpu Hi Hopt; [lia|].
    cbn [dd2_outer]. set (p := Z.of_nat (S q)) in *.
    rewrite sorted_factor_ok by lia. cbn [obind].
    assert (Hdiv : forall f, In f (sorted_list p) <-> 0 < f /\ (f | p)).
    { intros f. rewrite in_sorted_list. apply in_divisor_list. lia. }
    destruct (dd2_inner_ok p ltac:(lia) (sorted_list p)) with (c1 := c1) (c2 := c2) as (r & -> & Hr).
    { intros f Hf. apply Hdiv in Hf. split; [lia|tauto]. }
    { assumption. }
    cbn [obind]. destruct r as [(a, b) | ((a, b), best)].
    - destruct Hr as (A & B & C). exists a, b. split; [reflexivity|]. split; [assumption|].
      intros x y Hx Hy Hxy. destruct (Z_lt_le_dec p (x * y)) as [Hl|Hl].
      + etransitivity; [exact B|]. apply Hopt; lia.
      + pose proof (load_lb N1 N2 x y H1 H2 Hx Hy) as G.
        destruct A as (A1 & A2 & _).
        pose proof (load_pos N1 N2 x y H1 H2 Hx Hy) as Gp.
        assert (L a b * p <= L x y * p); [|apply Z.mul_le_mono_pos_r with p; lia].
        etransitivity; [exact C|]. etransitivity; [exact G|].
        apply Z.mul_le_mono_nonneg_l; lia.
    - destruct Hr as (A & -> & C & D). destruct q as [|q].
      + exfalso. destruct (D 1) as (_ & D1).
        * apply Hdiv. split; [lia|apply Z.divide_1_l].
        * apply D1. change p with 1. split; [change (1/1) with 1|]; apply Z.divide_1_l.
      + apply IH; [lia|lia|assumption|].
        intros x y Hx Hy Hxy. destruct (Z.eq_dec (x * y) p) as [E|E].
        * destruct (D y) as (D1 & _); [apply Hdiv; split; [lia|]; exists x; lia|].
          replace (p / y) with x in D1 by (rewrite <- E; symmetry; apply Z.div_mul; lia). exact D1.
        * etransitivity; [exact C|]. apply Hopt; lia.
  Qed.

  Lemma dims_divide_2d_ok junk :
    exists a b, dims_divide_2d junk N1 N2 np = Ok (a, b) /\ inv a b /\
      (forall x y, 1 <= x -> 1 <= y -> x * y <= np -> L a b <= L x y).
  Proof.
    assert (HI : np <= INT_MAX) by (unfold FACTOR_MAX, INT_MAX in *; lia).
    unfold dims_divide_2d. set (c1 := Z.min np N1).
    rewrite c_div_ok by lia. cbn [obind]. set (c2 := Z.min (np / c1) N2).
    pose proof (div_ge1 np c1 ltac:(lia)) as G1. pose proof (div_mul_le np c1 ltac:(lia) ltac:(lia)) as G2.
    assert (Hinv : inv c1 c2).
    { assert (1 <= c1 /\ 1 <= c2 <= np / c1) as (U & V) by lia.
      split; [exact U|]. split; [lia|]. clearbody c1 c2. clear - U V G2. nia. }
    assert (c2 <= np) by (destruct Hinv as (A & B & C); clear - A B C; clearbody c1 c2; nia).
    rewrite workload_ok by (destruct Hinv; lia). cbn [obind].
    rewrite imul_ok by nia. cbn [obind].
    set (up := if N1 * N2 <? np then N1 * N2 else np).
    assert (1 <= N1 * N2) by nia.
    assert (Hup : 1 <= up <= np) by (unfold up; destruct (_ <? _) eqn:E; lia).
    destruct (dd2_outer_ok junk up ltac:(lia) (Z.to_nat up) c1 c2) as (a & b & -> & A & B).
    - lia.
    - lia.
    - exact Hinv.
    - intros. lia.
    - exists a, b. split; [reflexivity|]. split; [assumption|].
      intros x y Hx Hy Hxy. destruct (Z_le_gt_dec (x * y) up) as [Hl|Hl]; [now apply B|].
      assert (Hu : up = N1 * N2) by (unfold up in *; destruct (_ <? _) eqn:E; lia).
      etransitivity; [apply (B N1 N2 H1 H2); lia|].
      pose proof (load_exact N1 N2 N1 N2 H1 H2 H1 H2 (Z.divide_refl _) (Z.divide_refl _)) as E.
      pose proof (load_pos N1 N2 x y H1 H2 Hx Hy). nia.
  Qed.
End DD2.

(** ** Three- and four-way splits *)
Section KBD.
  Variable W : Type.
  Variable dquot : Z -> Z -> W.
  Variables gtW geW : W -> W -> bool.
  Variable above : Z -> W -> bool.
  Variable scale_fock : Z -> Z -> W -> W.
  Variable scale_skbd : Z -> Z -> W -> W.

  Definition inv3 (np : Z) (t : Z * Z * Z) : Prop :=
    let '(a, b, c) := t in 1 <= a /\ 1 <= b /\ 1 <= c /\ a * b * c <= np.

  Lemma mul_div_bound n a b : 1 <= a -> 0 <= n -> 1 <= b <= n / a -> 1 <= a * b <= n.
  Proof. intros Ha Hn Hb. pose proof (div_mul_le n a Hn Ha). nia. Qed.

  (** [np / (a*b)] completes a pair to an admissible triple. *)
  Lemma complete np a b : 1 <= a -> 1 <= b -> a * b <= np ->
    1 <= np / (a * b) /\ a * b * (np / (a * b)) <= np.
  Proof.
    intros. assert (1 <= a * b) by nia. split; [apply div_ge1; lia|]. apply div_mul_le; lia.
  Qed.

  Section Fixed.
    Variables Nk Ns np : Z.
    Hypothesis Hk : 1 <= Nk.
    Hypothesis Hs : 1 <= Ns.
    Hypothesis Hn : 1 <= np.
    Hypothesis Hbig : Nk * Ns * np <= INT_MAX.
    Hypothesis HnF : 20 * np <= INT_MAX.

    Lemma npI : np <= FACTOR_MAX.
    Proof. unfold FACTOR_MAX, INT_MAX in *. lia. Qed.
    Lemma KsI : 1 <= Nk * Ns <= INT_MAX. Proof. assert (1 <= Nk * Ns) by nia. nia. Qed.

    Lemma wle_ok a b c : 1 <= a -> 1 <= b -> 1 <= c -> a <= np -> b <= np -> c <= np ->
      exists w, work_load_efficiency W dquot Nk Ns np a b c = Ok w.
    Proof.
      intros. unfold work_load_efficiency. pose proof KsI. unfold INT_MAX in *.
      rewrite workload_ok by (unfold INT_MAX; lia). cbn [obind].
      pose proof (load_pos Nk Ns a b Hk Hs).
      rewrite imul_ok by (unfold INT_MAX; lia). cbn [obind].
      rewrite imul_ok by (unfold INT_MAX; nia). cbn [obind].
      rewrite imul_ok by (unfold INT_MAX; nia). cbn [obind]. eauto.
    Qed.

    Lemma inv3_le t : inv3 np t -> let '(a, b, c) := t in a <= np /\ b <= np /\ c <= np /\ a * b <= np.
    Proof.
      destruct t as ((a, b), c). cbn. intros (A & B & C & D). assert (1 <= a * b) by nia.
      assert (a * b <= np) by nia. assert (c <= np) by nia. nia.
    Qed.

    Lemma np_list_ok base is : 1 <= base <= np -> (forall i, In i is -> 1 <= i <= 20) ->
      exists l, np_list np base is = Ok l /\ (forall x, In x l -> 1 <= x <= np).
    Proof.
      intros Hb. induction is as [|i is IH]; intros Hi; cbn [np_list].
      - exists []. split; [reflexivity|easy].
      - specialize (Hi i (or_introl eq_refl)) as Hi'.
        rewrite imul_ok by (unfold INT_MAX in *; nia). cbn [obind].
        destruct IH as (l & -> & Hl); [intros; apply Hi; now right|]. cbn [obind].
        eexists. split; [reflexivity|]. intros x. destruct (_ <=? _) eqn:E; [|now apply Hl].
        intros [<- | Hx]; [nia | now apply Hl].
    Qed.
    Lemma try_list_ok len full : (len <= 20)%nat -> 1 <= full ->
      exists l, try_list len np full = Ok l /\ (forall x, In x l -> 1 <= x).
    Proof.
      intros Hl Hf. unfold try_list. destruct (full <? np) eqn:E.
      - rewrite c_div_ok by lia. cbn [obind].
        assert (np / full <= np) by (apply Z.div_le_upper_bound; nia).
        destruct (np_list_ok (np / full) (zseq 1 len)) as (l & -> & H').
        + pose proof (div_ge1 np full). lia.
        + intros i Hi. rewrite in_zseq in Hi. lia.
        + exists l. split; [reflexivity|]. intros x Hx. apply H' in Hx. lia.
      - exists (zseq 1 len). split; [reflexivity|]. intros x Hx. rewrite in_zseq in Hx. lia.
    Qed.

    Lemma kbd_loop_ok junk l : (forall x, In x l -> 1 <= x) -> forall cur best, inv3 np cur ->
      exists r, kbd_loop W dquot gtW above junk Nk Ns np l cur best = Ok r /\ inv3 np r.
    Proof.
      induction l as [|d l IH]; intros Hl cur best Hc; cbn [kbd_loop]; [eauto|].
      assert (Hl' : forall x, In x l -> 1 <= x) by (intros; apply Hl; now right).
      pose proof (Hl d (or_introl eq_refl)). rewrite c_div_ok by lia. cbn [obind].
      destruct (np / d <? 1) eqn:E; [apply IH; assumption|].
      assert (np / d <= np) by (apply Z.div_le_upper_bound; nia).
      pose proof npI. pose proof KsI.
      destruct (dims_divide_2d_ok Nk Ns (np / d) Hk Hs ltac:(lia) ltac:(lia) junk)
        as (a & b & -> & (A & B & C) & _). cbn [obind].
      assert (a * b <= np) by lia. assert (1 <= a * b) by nia.
      rewrite imul_ok by (unfold FACTOR_MAX, INT_MAX in *; lia). cbn [obind].
      rewrite c_div_ok by lia. cbn [obind].
      destruct (complete np a b A B ltac:(lia)) as (D1 & D2).
      assert (Hi : inv3 np (a, b, np / (a * b))) by (cbn; auto).
      pose proof (inv3_le _ Hi) as (I1 & I2 & I3 & _).
      destruct (wle_ok a b (np / (a * b))) as (w & ->); try lia. cbn [obind].
      destruct (gtW w best); (destruct (above 95 w); [eauto|apply IH; assumption]).
    Qed.

    Lemma dims_divide_kbd_ok junk :
      exists r, dims_divide_kbd W dquot gtW above junk Nk Ns np = Ok r /\ inv3 np r.
    Proof.
      unfold dims_divide_kbd. set (c1 := Z.min np Nk). pose proof npI. pose proof KsI.
      rewrite c_div_ok by lia. cbn [obind]. set (c2 := Z.min (np / c1) Ns).
      assert (Hc : 1 <= c1 <= np) by lia.
      pose proof (div_ge1 np c1 ltac:(lia)) as G1. pose proof (div_mul_le np c1 ltac:(lia) ltac:(lia)) as G2.
      assert (Hc2 : 1 <= c2 <= np / c1) by lia. clearbody c1 c2.
      assert (c1 * c2 <= np) by nia. assert (1 <= c1 * c2) by nia.
      rewrite imul_ok by (unfold FACTOR_MAX, INT_MAX in *; lia). cbn [obind].
      rewrite c_div_ok by lia. cbn [obind].
      destruct (complete np c1 c2 ltac:(lia) ltac:(lia) ltac:(lia)) as (D1 & D2).
      assert (Hi : inv3 np (c1, c2, np / (c1 * c2))) by (cbn; auto with zarith).
      pose proof (inv3_le _ Hi) as (I1 & I2 & I3 & _).
      destruct (wle_ok c1 c2 (np / (c1 * c2))) as (w & ->); try lia. cbn [obind].
      destruct (above 97 w); [eauto|].
      rewrite imul_ok by lia. cbn [obind].
      destruct (try_list_ok 8 (Nk * Ns)) as (l & -> & Hl); try lia. cbn [obind].
      apply kbd_loop_ok; assumption.
    Qed.

    Section Fock.
      Variables g0 g1 g2 minsize : Z.
      Hypothesis Hm : 1 <= minsize.
      Hypothesis Hg0 : minsize <= g0.
      Hypothesis Hg1 : minsize <= g1.
      Hypothesis Hg2 : minsize <= g2.
      Hypothesis Hgrid : g0 * g1 * g2 <= INT_MAX.

      Lemma grid_prods : 1 <= g0 * g1 <= INT_MAX /\ 1 <= g0 * g1 * g2 <= INT_MAX.
      Proof. assert (1 <= g0 * g1) by nia. assert (1 <= g0 * g1 * g2) by nia. nia. Qed.

      Lemma scaling_ok npb npd w : 1 <= npb <= np -> 1 <= npd <= np ->
        exists w', scaling W scale_fock Ns (g0, g1, g2) npb npd w = Ok w'.
      Proof.
        intros Hb Hd. unfold scaling. pose proof grid_prods. pose proof KsI.
        assert (Ns <= Nk * Ns) by nia.
        rewrite imul_ok by lia. cbn [obind]. rewrite imul_ok by lia. cbn [obind].
        rewrite !ceil_div_ok by (unfold INT_MAX in *; lia). cbn [obind]. eauto.
      Qed.

      Lemma npd_max_ok : exists pm, npd_max (g0, g1, g2) minsize = Ok pm /\ 1 <= pm.
      Proof.
        unfold npd_max. rewrite !c_div_ok by lia. cbn [obind].
        pose proof (div_ge1 g0 minsize ltac:(lia)). pose proof (div_ge1 g1 minsize ltac:(lia)).
        pose proof (div_ge1 g2 minsize ltac:(lia)).
        assert (g0 / minsize <= g0) by (apply Z.div_le_upper_bound; nia).
        assert (g1 / minsize <= g1) by (apply Z.div_le_upper_bound; nia).
        assert (g2 / minsize <= g2) by (apply Z.div_le_upper_bound; nia).
        pose proof grid_prods as (P1 & P2).
        set (x := g0 / minsize) in *. set (y := g1 / minsize) in *. set (z := g2 / minsize) in *.
        clearbody x y z.
        assert (1 <= x * y <= g0 * g1) by nia.
        rewrite imul_ok by lia. cbn [obind].
        assert (1 <= x * y * z <= g0 * g1 * g2) by nia.
        rewrite imul_ok by lia. eauto with zarith.
      Qed.

      Lemma wlef_ok a b c : inv3 np (a, b, c) ->
        exists w, work_load_efficiency_fock W dquot scale_fock Nk Ns (g0, g1, g2) np a b c = Ok w.
      Proof.
        intros Hi. pose proof (inv3_le _ Hi) as (I1 & I2 & I3 & _). cbn in Hi.
        unfold work_load_efficiency_fock.
        destruct (wle_ok a b c) as (w & ->); try lia. cbn [obind]. apply scaling_ok; lia.
      Qed.

      Lemma inv3_swap a b c : inv3 np (a, c, b) -> inv3 np (a, b, c).
      Proof. cbn. intros (A & B & C & D). repeat (split; [lia|]). nia. Qed.

      Lemma fock_loop_ok l : (forall x, In x l -> 1 <= x) -> forall cur best, inv3 np cur ->
        exists r, fock_loop W dquot gtW above scale_fock Nk Ns (g0, g1, g2) np l cur best = Ok r
          /\ inv3 np r.
      Proof.
        induction l as [|d l IH]; intros Hl cur best Hc; cbn [fock_loop]; [eauto|].
        assert (Hl' : forall x, In x l -> 1 <= x) by (intros; apply Hl; now right).
        pose proof (Hl d (or_introl eq_refl)). rewrite c_div_ok by lia. cbn [obind].
        destruct (np / d <? 1) eqn:E; [apply IH; assumption|].
        assert (np / d <= np) by (apply Z.div_le_upper_bound; nia).
        set (n2 := np / d) in *. set (a := Z.min n2 Nk).
        assert (Ha : 1 <= a <= n2) by lia.
        rewrite (c_div_ok n2 a) by lia. cbn [obind].
        pose proof (div_ge1 n2 a ltac:(lia)) as G1. pose proof (div_mul_le n2 a ltac:(lia) ltac:(lia)) as G2.
        set (b := n2 / a) in *. clearbody a b n2.
        assert (1 <= a * b <= np) by nia.
        rewrite imul_ok by (unfold INT_MAX in *; lia). cbn [obind].
        rewrite c_div_ok by lia. cbn [obind].
        destruct (complete np a b ltac:(lia) ltac:(lia) ltac:(lia)) as (D1 & D2).
        assert (Hi : inv3 np (a, np / (a * b), b)).
        { apply inv3_swap. cbn. auto with zarith. }
        destruct (wlef_ok _ _ _ Hi) as (w & ->). cbn [obind].
        destruct (gtW w best); (destruct (above 93 w); [eauto|apply IH; assumption]).
      Qed.

      Lemma dims_divide_kbd_fock_ok :
        Nk * ((g0 / minsize) * (g1 / minsize) * (g2 / minsize)) <= INT_MAX ->
        exists r, dims_divide_kbd_fock W dquot gtW above scale_fock Nk Ns (g0, g1, g2) np minsize = Ok r
          /\ inv3 np r.
      Proof.
        intros Hgk. unfold dims_divide_kbd_fock. set (c1 := Z.min np Nk).
        pose proof npI. pose proof KsI.
        destruct npd_max_ok as (pm & Epm & Hpm).
        assert (Hpm2 : pm = (g0 / minsize) * (g1 / minsize) * (g2 / minsize)).
        { unfold npd_max in Epm. rewrite !c_div_ok in Epm by lia. cbn [obind] in Epm.
          destruct (imul (g0 / minsize) (g1 / minsize)) as [v| |] eqn:Ev; [|discriminate..].
          cbn [obind] in Epm. apply imul_inv in Ev. apply imul_inv in Epm. now subst v pm. }
        rewrite <- Hpm2 in Hgk.
        rewrite Epm. cbn [obind].
        rewrite c_div_ok by lia. cbn [obind]. set (c3 := Z.min pm (np / c1)).
        assert (Hc : 1 <= c1 <= np) by (clear - Hn Hk; lia).
        pose proof (div_ge1 np c1 ltac:(lia)) as G1. pose proof (div_mul_le np c1 ltac:(lia) ltac:(lia)) as G2.
        assert (Hc3 : 1 <= c3 <= np / c1) by lia. clearbody c1 c3.
        assert (1 <= c1 * c3 <= np) by (apply mul_div_bound; lia).
        rewrite imul_ok by (unfold INT_MAX in *; lia). cbn [obind].
        rewrite c_div_ok by lia. cbn [obind].
        destruct (complete np c1 c3 ltac:(lia) ltac:(lia) ltac:(lia)) as (D1 & D2).
        set (c2 := Z.min (np / (c1 * c3)) Ns). assert (Hc2 : 1 <= c2 <= np / (c1 * c3)) by lia.
        clearbody c2.
        assert (Hi : inv3 np (c1, c2, c3)).
        { apply inv3_swap. cbn. repeat (split; [lia|]).
          etransitivity; [|exact D2]. apply Z.mul_le_mono_nonneg_l; lia. }
        destruct (wlef_ok _ _ _ Hi) as (w & ->). cbn [obind].
        destruct (above 90 w); [eauto|].
        assert (1 <= Nk * pm) by (clear - Hk Hpm; nia).
        rewrite imul_ok by (unfold INT_MAX in *; lia). cbn [obind].
        destruct (try_list_ok 20 (Nk * pm)) as (l & -> & Hl); try lia. cbn [obind].
        apply fock_loop_ok; assumption.
      Qed.
    End Fock.
  End Fixed.

  (** ** Four-way split *)
  Section SKBD.
    Variables Nspin Nk Ns np : Z.
    Hypothesis Hsp : Nspin = 1 \/ Nspin = 2.
    Hypothesis Hk : 1 <= Nk.
    Hypothesis Hs : 1 <= Ns.
    Hypothesis Hn : 1 <= np.
    Hypothesis Hbig : Nspin * Nk * Ns * np <= INT_MAX.
    Hypothesis HnF : 20 * np <= INT_MAX.

    Definition inv4 (t : Z * Z * Z * Z) : Prop :=
      let '(s, a, b, c) := t in 1 <= s /\ 1 <= a /\ 1 <= b /\ 1 <= c /\ s * a * b * c <= np.

    Lemma bigk m : 1 <= m <= np -> Nk * Ns * m <= INT_MAX.
    Proof.
      intros Hm. assert (1 <= Nk * Ns) by nia. etransitivity; [|exact Hbig].
      transitivity (Nk * Ns * np); [apply Z.mul_le_mono_nonneg_l; lia|].
      replace (Nspin * Nk * Ns * np) with (Nspin * (Nk * Ns * np)) by ring. nia.
    Qed.

    Lemma skw_ok gs (fock : bool) s a b c :
      inv4 (s, a, b, c) ->
      (fock = true -> forall w, exists w', scaling W scale_fock Ns gs b c w = Ok w') ->
      exists w, skbd_weighted_efficiency W dquot scale_fock scale_skbd Nspin Nk Ns gs np s a b c fock = Ok w.
    Proof.
      intros (A & B & C & D & E) Hf. unfold skbd_weighted_efficiency.
      assert (Hsa : 1 <= s * a) by nia. assert (Hsab : 1 <= s * a * b) by nia.
      assert (Hc : c <= np) by nia. assert (Hsb : s * a * b <= np) by nia.
      assert (Hsa' : s * a <= np) by nia. assert (Hb : b <= np) by nia.
      assert (HNk : 1 <= Nspin * Nk) by nia.
      assert (HNs : 1 <= Nspin * Nk * Ns) by nia.
      assert (HNs' : Nspin * Nk * Ns <= INT_MAX) by nia.
      assert (HNk' : Nspin * Nk <= INT_MAX) by nia.
      unfold INT_MAX in *.
      rewrite imul_ok by (unfold INT_MAX; lia). cbn [obind].
      rewrite imul_ok by (unfold INT_MAX; lia). cbn [obind].
      rewrite workload_ok by (unfold INT_MAX; lia). cbn [obind].
      pose proof (load_pos (Nspin * Nk) Ns (s * a) b HNk Hs Hsa C) as HL.
      rewrite imul_ok by (unfold INT_MAX; lia). cbn [obind].
      rewrite imul_ok by (unfold INT_MAX; nia). cbn [obind].
      rewrite imul_ok by (unfold INT_MAX; nia). cbn [obind].
      destruct fock; [apply Hf; reflexivity | eauto].
    Qed.

    (** Conditions only needed with exact exchange. *)
    Definition fock_ok (gs : Z * Z * Z) (minsize : Z) : Prop :=
      let '(g0, g1, g2) := gs in
      1 <= minsize /\ minsize <= g0 /\ minsize <= g1 /\ minsize <= g2 /\
      g0 * g1 * g2 <= INT_MAX /\
      Nk * ((g0 / minsize) * (g1 / minsize) * (g2 / minsize)) <= INT_MAX.

    Lemma scaling_ok4 gs minsize s a b c w : fock_ok gs minsize -> inv4 (s, a, b, c) ->
      exists w', scaling W scale_fock Ns gs b c w = Ok w'.
    Proof.
      destruct gs as ((g0, g1), g2). intros (F0 & F1 & F2 & F3 & F4 & F5) (A & B & C & D & E).
      assert (Hsa : 1 <= s * a) by nia. assert (Hsab : 1 <= s * a * b) by nia.
      assert (Hc : c <= np) by nia. assert (Hsb : s * a * b <= np) by nia.
      assert (Hb : b <= np) by nia.
      apply (scaling_ok Nk Ns np Hk Hs Hn (bigk np ltac:(lia)) HnF g0 g1 g2 minsize); assumption || lia.
    Qed.

    Lemma inv3_4 m s a b c : 1 <= s -> s * m <= np -> inv3 m (a, b, c) -> inv4 (s, a, b, c).
    Proof.
      intros Hs1 Hm (A & B & C & D). unfold inv4. repeat (split; [lia|]).
      replace (s * a * b * c) with (s * (a * b * c)) by ring.
      etransitivity; [|exact Hm]. apply Z.mul_le_mono_nonneg_l; lia.
    Qed.

    Lemma sub_ok junk gs minsize (fock : bool) m : 1 <= m <= np -> (fock = true -> fock_ok gs minsize) ->
      exists r, (if fock then dims_divide_kbd_fock W dquot gtW above scale_fock Nk Ns gs m minsize
                 else dims_divide_kbd W dquot gtW above junk Nk Ns m) = Ok r /\ inv3 m r.
    Proof.
      intros Hm Hf. pose proof (bigk m Hm) as Hb. destruct fock.
      - destruct gs as ((g0, g1), g2). destruct (Hf eq_refl) as (F0 & F1 & F2 & F3 & F4 & F5).
        apply dims_divide_kbd_fock_ok; assumption || lia.
      - apply dims_divide_kbd_ok; assumption || lia.
    Qed.

    Lemma dims_divide_skbd_ok junk gs minsize fock : (fock = true -> fock_ok gs minsize) ->
      exists r, dims_divide_skbd W dquot gtW geW above scale_fock scale_skbd junk Nspin Nk Ns gs np minsize fock
        = Ok r /\ inv4 r.
    Proof.
      intros Hf. unfold dims_divide_skbd.
      replace (negb (Nspin =? 1) && negb (Nspin =? 2)) with false by lia.
      set (nps := Z.min Nspin np). assert (Hps : 1 <= nps <= np /\ nps <= Nspin) by lia.
      rewrite c_div_ok by lia. cbn [obind].
      pose proof (div_ge1 np nps ltac:(lia)) as G1. pose proof (div_mul_le np nps ltac:(lia) ltac:(lia)) as G2.
      set (npk := Z.min Nk (np / nps)). assert (Hpk : 1 <= npk <= np / nps) by lia.
      clearbody nps npk.
      assert (Hsk : 1 <= nps * npk <= np) by (apply mul_div_bound; lia).
      rewrite imul_ok by (unfold INT_MAX in *; lia). cbn [obind].
      set (sk := nps * npk) in *.
      assert (Hdsk : 1 <= np / sk /\ sk * (np / sk) <= np) by (split; [apply div_ge1; lia|apply div_mul_le; lia]).
      assert (Hnaive : exists npb npd, (if fock then
          do pm <- npd_max gs minsize ;
          do q2 <- c_div np sk ;
          do t <- imul sk (Z.min pm q2) ;
          do npb <- c_div np t ; Ok (npb, Z.min pm q2)
        else
          do q2 <- c_div np sk ;
          do t <- imul sk (Z.min Ns q2) ;
          do npd <- c_div np t ; Ok (Z.min Ns q2, npd)) = Ok (npb, npd) /\ inv4 (nps, npk, npb, npd)).
      { destruct fock.
        - destruct gs as ((g0, g1), g2). destruct (Hf eq_refl) as (F0 & F1 & F2 & F3 & F4 & F5).
          destruct (npd_max_ok Nk Ns np Hk Hs Hn (bigk np ltac:(lia)) HnF g0 g1 g2 minsize) as (pm & -> & Hpm);
            try assumption. cbn [obind].
          rewrite c_div_ok by lia. cbn [obind].
          set (npd := Z.min pm (np / sk)). assert (Hd : 1 <= npd <= np / sk) by lia. clearbody npd.
          assert (Ht : 1 <= sk * npd <= np) by (apply mul_div_bound; lia).
          rewrite imul_ok by (unfold INT_MAX in *; lia). cbn [obind].
          rewrite c_div_ok by lia. cbn [obind]. exists (np / (sk * npd)), npd.
          split; [reflexivity|]. destruct (complete np sk npd ltac:(lia) ltac:(lia) ltac:(lia)) as (D1 & D2).
          unfold inv4. repeat (split; [lia|]). fold sk. lia.
        - rewrite c_div_ok by lia. cbn [obind].
          set (npb := Z.min Ns (np / sk)). assert (Hb : 1 <= npb <= np / sk) by lia. clearbody npb.
          assert (Ht : 1 <= sk * npb <= np) by (apply mul_div_bound; lia).
          rewrite imul_ok by (unfold INT_MAX in *; lia). cbn [obind].
          rewrite c_div_ok by lia. cbn [obind]. exists npb, (np / (sk * npb)).
          split; [reflexivity|]. destruct (complete np sk npb ltac:(lia) ltac:(lia) ltac:(lia)) as (D1 & D2).
          unfold inv4. repeat (split; [lia|]). fold sk. lia. }
      destruct Hnaive as (npb & npd & -> & Hi0). cbn [obind].
      assert (Hsc : forall s a b c, inv4 (s, a, b, c) -> fock = true ->
                forall w, exists w', scaling W scale_fock Ns gs b c w = Ok w').
      { intros s a b c Hi Ef w. apply (scaling_ok4 gs minsize s a); auto. }
      destruct (skw_ok gs fock _ _ _ _ Hi0 (Hsc _ _ _ _ Hi0)) as (w0 & ->). cbn [obind].
      destruct (sub_ok junk gs minsize fock np ltac:(lia) Hf) as (((k1, b1), d1) & -> & Hi1). cbn [obind].
      apply (inv3_4 np 1) in Hi1; [|lia|lia].
      destruct (skw_ok gs fock _ _ _ _ Hi1 (Hsc _ _ _ _ Hi1)) as (w1 & ->). cbn [obind].
      set (sel := if gtW w1 w0 then _ else _).
      assert (Hsel : inv4 (fst sel)) by (unfold sel; destruct (gtW w1 w0); assumption).
      clearbody sel. destruct sel as (cur, wc). cbn [fst] in Hsel.
      destruct ((1 <? Nspin) && (1 <? np)) eqn:E2; [|eauto].
      rewrite c_div_ok by lia. cbn [obind].
      pose proof (div_ge1 np 2 ltac:(lia)). pose proof (div_mul_le np 2 ltac:(lia) ltac:(lia)).
      destruct (sub_ok junk gs minsize fock (np / 2) ltac:(lia) Hf) as (((k2, b2), d2) & -> & Hi2). cbn [obind].
      apply (inv3_4 (np / 2) 2) in Hi2; [|lia|lia].
      destruct (skw_ok gs fock _ _ _ _ Hi2 (Hsc _ _ _ _ Hi2)) as (w2 & ->). cbn [obind].
      eexists. split; [reflexivity|]. destruct (geW w2 wc); assumption.
    Qed.
  End SKBD.

  (** ** ScaLAPACK process grid *)
  Variable absdiff : Z -> Z -> Z -> Z -> W.
  Variable ltW : W -> W -> bool.
  Variable last0 zero : W.

  Definition is_pair (num : Z) (fl : list Z) (i1 i2 : Z) : Prop :=
    exists a b, rd fl i1 = Ok a /\ rd fl i2 = Ok b /\ a * b = num /\ 1 <= a <= b.

  Lemma rd_ok l i v : 0 <= i -> nth_error l (Z.to_nat i) = Some v -> rd l i = Ok v.
  Proof. intros Hi H. unfold rd. replace (i <? 0) with false by lia. now rewrite H. Qed.

  Section BL.
    Variables num g0 g1 : Z.
    Hypothesis Hnum : 1 <= num.
    Let fl := divisor_list num.
    Let k := Z.of_nat (length (smalls num)).

    Lemma pair_ok i : 0 <= i < k -> exists a b, rd fl (2 * i) = Ok a /\ rd fl (2 * i + 1) = Ok b
       /\ a * b = num /\ 1 <= a <= b.
    Proof.
      intros Hi. set (n := Z.to_nat i). assert (Hn : (n < length (smalls num))%nat) by lia.
      assert (Hl : (2 * n + 1 < length (pairs_of num (smalls num)))%nat) by (rewrite length_pairs; lia).
      exists (nth n (smalls num) 0), (num / nth n (smalls num) 0).
      destruct (small_cofactor num (nth n (smalls num) 0) Hnum (nth_In _ _ Hn)) as (A & B & C).
      split; [|split; [|split; [exact B|]]].
      - apply rd_ok; [lia|]. unfold fl. rewrite divisor_list_eq.
        replace (Z.to_nat (2 * i)) with (2 * n)%nat by lia.
        rewrite nth_error_app1 by lia. rewrite <- (nth_pairs_even num) by lia.
        apply nth_error_nth'. lia.
      - apply rd_ok; [lia|]. unfold fl. rewrite divisor_list_eq.
        replace (Z.to_nat (2 * i + 1)) with (2 * n + 1)%nat by lia.
        rewrite nth_error_app1 by lia. rewrite <- (nth_pairs_odd num) by lia.
        apply nth_error_nth'. lia.
      - nia.
    Qed.

    Lemma is_pair_i i : 0 <= i < k -> is_pair num fl (2 * i) (2 * i + 1).
    Proof. intros Hi. destruct (pair_ok i Hi) as (a & b & H). exists a, b. exact H. Qed.

    Lemma blcyc_loop_ok n : forall i i1 i2 d l, 0 <= i -> i + Z.of_nat n = k ->
      (1 <= i -> is_pair num fl i1 i2) ->
      exists i' j1 j2 d', blcyc_loop W absdiff ltW g0 g1 fl n i i1 i2 d l = Ok (i', j1, j2, d')
       /\ (1 <= k -> is_pair num fl j1 j2) /\ (k = 0 -> j1 = i1 /\ j2 = i2).
    Proof.
      induction n as [|n IH]; intros i i1 i2 d l Hi Hk Hp; cbn [blcyc_loop].
      - eexists _, _, _, _. split; [reflexivity|]. split; [intros; apply Hp; lia | auto].
      - destruct (pair_ok i ltac:(lia)) as (a & b & -> & -> & _). cbn [obind].
        destruct (_ && _) eqn:E.
        + eexists _, _, _, _. split; [reflexivity|]. split; [intros _|lia].
          replace ((i - 1) * 2) with (2 * (i - 1)) by ring. apply is_pair_i; lia.
        + destruct (IH (i + 1) (i * 2) (i * 2 + 1)
             (if ltW (absdiff g1 a g0 b) (absdiff g0 a g1 b) then absdiff g1 a g0 b else absdiff g0 a g1 b)
             (if ltW (absdiff g1 a g0 b) (absdiff g0 a g1 b) then absdiff g1 a g0 b else absdiff g0 a g1 b))
            as (i' & j1 & j2 & d' & E' & A & _).
          * lia.
          * lia.
          * intros _. replace (i * 2) with (2 * i) by ring. apply is_pair_i; lia.
          * exists i', j1, j2, d'. split; [exact E'|]. split; [exact A|lia].
    Qed.

    Lemma last_ok : length (mid num) = 1%nat -> is_pair num fl (2 * k) (2 * k).
    Proof.
      intros Hm. unfold mid in Hm. destruct (root_up num * root_up num =? num) eqn:E; [|discriminate].
      destruct (root_up_spec num Hnum) as (A & _).
      exists (root_up num), (root_up num).
      assert (R : rd fl (2 * k) = Ok (root_up num)).
      { apply rd_ok; [lia|]. unfold fl. rewrite divisor_list_eq.
        replace (Z.to_nat (2 * k)) with (length (pairs_of num (smalls num))) by (rewrite length_pairs; lia).
        rewrite nth_error_app2 by lia. rewrite Nat.sub_diag. unfold mid. now rewrite E. }
      split; [exact R|]. split; [exact R|]. lia.
    Qed.

    Lemma blcyc_ok : num <= FACTOR_MAX ->
      exists a b, ScaLAPACK_Dims_2D_BLCYC W absdiff ltW last0 zero num g0 g1 = Ok (a, b)
        /\ a * b = num /\ 1 <= a /\ 1 <= b /\ (if g1 <? g0 then b <= a else a <= b).
    Proof.
      intros HF. unfold ScaLAPACK_Dims_2D_BLCYC. rewrite factor_ok by lia. cbn [obind]. fold fl.
      assert (Hlen : Z.of_nat (length fl) = 2 * k + Z.of_nat (length (mid num))).
      { unfold fl. rewrite divisor_list_eq, app_length, length_pairs. lia. }
      assert (Hmid : (length (mid num) = 0 \/ length (mid num) = 1)%nat)
        by (unfold mid; destruct (_ =? _); cbn; lia).
      set (count := Z.of_nat (length fl)) in *.
      assert (Hh : count / 2 = k).
      { symmetry. apply Z.div_unique with (r := Z.of_nat (length (mid num))); lia. }
      assert (Hr : count mod 2 = Z.of_nat (length (mid num))).
      { symmetry. apply Z.mod_unique with (q := k); lia. }
      rewrite Hh, Hr. rewrite Nat2Z.id || idtac.
      destruct (blcyc_loop_ok (Z.to_nat k) 0 0 0 zero last0) as (i & j1 & j2 & d & -> & A & B);
        [lia|lia|lia|]. cbn [obind].
      assert (Hfin : exists i1 i2, (if (Z.of_nat (length (mid num)) =? 1) && (i =? k) then
          do f <- rd fl (count - 1) ;
          Ok (if ltW (absdiff g1 f g0 f) d then (count - 1, count - 1) else (j1, j2))
        else Ok (j1, j2)) = Ok (i1, i2) /\ is_pair num fl i1 i2).
      { assert (Hj : 1 <= k -> is_pair num fl j1 j2) by exact A.
        destruct (Z.eq_dec k 0) as [K0|K0].
        - (* nproc = 1 *)
          assert (Hm1 : length (mid num) = 1%nat).
          { assert (In 1 fl) as H1.
            { unfold fl. apply in_divisor_list; [lia|]. split; [lia|]. apply Z.divide_1_l. }
            destruct fl; [easy|]. cbn [length] in count. lia. }
          destruct (B K0) as (-> & ->). pose proof (last_ok Hm1) as HL. rewrite K0 in HL.
          destruct HL as (f & f' & E1 & E2 & E3 & E4).
          rewrite Hm1. replace (count - 1) with 0 by lia. change (2 * 0) with 0 in *.
          destruct (_ && _).
          + rewrite E1. cbn [obind]. exists 0, 0. split; [now destruct (ltW _ _)|].
            exists f, f'. auto.
          + exists 0, 0. split; [reflexivity|]. exists f, f'. auto.
        - specialize (Hj ltac:(lia)). destruct Hmid as [Hm|Hm]; rewrite Hm.
          + exists j1, j2. cbn. auto.
          + pose proof (last_ok Hm) as HL. replace (count - 1) with (2 * k) by lia.
            destruct (_ && _); [|eauto].
            pose proof HL as (f & f' & E1 & E2 & E3 & E4). rewrite E1. cbn [obind].
            destruct (ltW _ _); eauto. }
      destruct Hfin as (i1 & i2 & -> & (a & b & Ea & Eb & Eab & Hab)). cbn [obind].
      rewrite Ea, Eb. cbn [obind].
      destruct (g1 <? g0).
      - exists b, a. split; [reflexivity|]. lia.
      - exists a, b. split; [reflexivity|]. lia.
    Qed.
  End BL.
End KBD.
