(** Lemmas about the process-grid searches of [Dims.v]. *)
From Coq Require Import ZArith List Lia Bool Sorted.
From Coq Require Import ZifyBool ZifyNat.
From Verif Require Import CBase Mem DivCount Factors Dims.
Import ListNotations.
Local Open Scope Z_scope.

Lemma imul_ok a b : -2147483648 <= a * b <= INT_MAX -> imul a b = Ok (a * b).
Proof. intros H. unfold imul. replace (_ && _) with true by lia. reflexivity. Qed.
Lemma imul_inv a b v : imul a b = Ok v -> v = a * b.
Proof. unfold imul. destruct (_ && _); congruence. Qed.
Lemma c_div_ok a b : 0 <= a -> 1 <= b -> c_div a b = Ok (a / b).
Proof.
  intros. unfold c_div. replace (b =? 0) with false by lia. now rewrite quot_div_nonneg by lia.
Qed.
Lemma c_mod_ok a b : 0 <= a -> 1 <= b -> c_mod a b = Ok (a mod b).
Proof.
  intros. unfold c_mod. replace (b =? 0) with false by lia. now rewrite rem_mod_nonneg by lia.
Qed.

Lemma div_lb a b c : 1 <= b -> c * b <= a -> c <= a / b.
Proof. intros. apply Z.div_le_lower_bound; lia. Qed.
Lemma div_mul_le a b : 0 <= a -> 1 <= b -> b * (a / b) <= a.
Proof. intros. apply Z.mul_div_le; lia. Qed.
Lemma div_ge1 a b : 1 <= b <= a -> 1 <= a / b.
Proof. intros. apply div_lb; lia. Qed.

(** ** SPARC_Dims_create *)
Lemma dims1_ok n g m : 1 <= n -> 0 <= g -> 1 <= m ->
  exists d, dims1 n g m = Ok d /\ 1 <= d <= n.
Proof.
  intros. unfold dims1. rewrite c_div_ok by lia. cbn [obind]. eexists. split; [reflexivity|]. lia.
Qed.

Lemma dims1_min n g m d : 1 <= n -> 1 <= m <= g -> dims1 n g m = Ok d -> m * d <= g.
Proof.
  intros Hn Hm. unfold dims1. rewrite c_div_ok by lia. cbn [obind]. intros E. injection E as <-.
  pose proof (div_mul_le g m ltac:(lia) ltac:(lia)). pose proof (div_ge1 g m ltac:(lia)).
  destruct (Z.min_spec n (g / m)) as [(A & ->)|(A & ->)]; nia.
Qed.

(** What the scan may return. *)
Section ScanLem.
  Variable lt : list Z -> option (list Z) -> bool.
  Variable nproc : Z.
  Variable ok : list Z -> outcome bool.
  Variable good : list Z -> Prop.
  Hypothesis ok_def : forall c, good c -> exists b, ok c = Ok b.

  Lemma scan_ok cs : (forall c, In (Some c) cs -> good c /\ exists p, iprod c = Ok p) ->
    forall best mx, exists r, scan lt nproc ok cs best mx = Ok r
     /\ (r = best \/ exists c p, r = Some c /\ In (Some c) cs /\ iprod c = Ok p /\ 0 < p <= nproc).
  Proof.
    induction cs as [|[c|] cs IH]; intros Hc best mx; cbn [scan].
    - exists best. auto.
    - destruct (Hc c (or_introl eq_refl)) as (Hg & (p & Hp)). rewrite Hp. cbn [obind].
      assert (Hc' : forall c', In (Some c') cs -> good c' /\ exists p, iprod c' = Ok p)
        by (intros; apply Hc; now right).
      assert (Step : forall b m, b = best \/ (b = Some c /\ 0 < p <= nproc) ->
        exists r, scan lt nproc ok cs b m = Ok r /\ (r = best \/
          exists c' p', r = Some c' /\ In (Some c') (Some c :: cs) /\ iprod c' = Ok p' /\ 0 < p' <= nproc)).
      { intros b m Hb. destruct (IH Hc' b m) as (r & E & H). exists r. split; [exact E|].
        destruct H as [-> | (c' & p' & A & B & C & D)].
        - destruct Hb as [-> | (-> & Hr)]; [now left|]. right. exists c, p. 
          split; [reflexivity|]. split; [now left|]. auto.
        - right. exists c', p'. split; [assumption|]. split; [now right|]. auto. }
      destruct (_ || _) eqn:E0; [apply Step; now left|].
      destruct (ok_def c Hg) as (b & ->). cbn [obind].
      destruct ((mx <? p) && b); [apply Step; right; split; [reflexivity|lia]|].
      destruct ((p =? mx) && _); [apply Step; right; split; [reflexivity|lia]|].
      apply Step; now left.
    - destruct (IH (fun c Hin => Hc c (or_intror Hin)) best mx) as (r & E & H).
      exists r. split; [exact E|]. destruct H as [H | (c & p & A & B & C)]; [now left|].
      right. exists c, p. split; [assumption|]. split; [now right|assumption].
  Qed.
End ScanLem.

Definition pos (c : list Z) := forall x, In x c -> 1 <= x.

Lemma size_ok_def m g c : pos c -> exists b, size_ok m g c = Ok b.
Proof.
  revert g; induction c as [|x c IH]; intros g Hp; destruct g as [|gi g]; cbn [size_ok]; eauto.
  unfold c_div. pose proof (Hp x (or_introl eq_refl)). replace (x =? 0) with false by lia.
  cbn [obind]. destruct (_ <=? _); [|eauto]. apply IH. intros y Hy. apply Hp. now right.
Qed.

Lemma iprod2 x y : 1 <= x -> 1 <= y -> x * y <= INT_MAX -> iprod [x; y] = Ok (x * y).
Proof.
  intros. cbn [iprod obind]. rewrite (imul_ok y 1) by nia. cbn [obind].
  rewrite imul_ok by nia. f_equal; lia.
Qed.
Lemma iprod3 x y z : 1 <= x -> 1 <= y -> 1 <= z -> x * (y * z) <= INT_MAX ->
  iprod [x; y; z] = Ok (x * (y * z)).
Proof.
  intros. assert (1 <= y * z) by nia. assert (z <= y * z) by nia. assert (y * z <= x * (y * z)) by nia.
  cbn [iprod obind]. rewrite (imul_ok z 1) by lia. cbn [obind].
  rewrite Z.mul_1_r. rewrite (imul_ok y z) by lia. cbn [obind].
  rewrite imul_ok by lia. reflexivity.
Qed.

(** All candidates of a list of outcomes. *)
Lemma collect_ok {A} (P : A -> Prop) (l : list (outcome A)) :
  (forall o, In o l -> exists a, o = Ok a /\ P a) ->
  exists r, fold_right (fun c acc => do x <- c ; do l <- acc ; Ok (x :: l)) (Ok []) l = Ok r
    /\ (forall a, In a r -> P a).
Proof.
  induction l as [|o l IH]; intros H; cbn [fold_right].
  - exists []. split; [reflexivity|easy].
  - destruct (H o (or_introl eq_refl)) as (a & -> & Ha). cbn [obind].
    destruct IH as (r & -> & Hr); [intros; apply H; now right|]. cbn [obind].
    exists (a :: r). split; [reflexivity|]. intros b [<-|Hb]; auto.
Qed.

Definition cand2_prop (n g0 g1 m : Z) (o : option (list Z)) : Prop :=
  forall c, o = Some c -> exists x y, c = [x; y] /\ 1 <= x /\ 1 <= y /\ x * y <= n.

Lemma split_le n x y : 1 <= x <= n -> y <= Z.max 1 (n / x) -> x * y <= n.
Proof.
  intros Hx Hy. pose proof (div_ge1 n x Hx).
  pose proof (div_mul_le n x ltac:(lia) ltac:(lia)). nia.
Qed.

Lemma cands2_ok n g0 g1 m est : 1 <= n -> 0 <= g0 -> 0 <= g1 -> 1 <= m ->
  exists cs, cands2 n g0 g1 m est = Ok cs /\
   forall o, In o cs -> cand2_prop n g0 g1 m o.
Proof.
  intros Hn H0 H1 Hm. unfold cands2. apply collect_ok.
  intros o Ho. apply in_app_iff in Ho. rewrite !in_map_iff in Ho.
  destruct Ho as [(i & <- & _) | (i & <- & _)];
    (destruct (_ && _) eqn:E; [|exists None; split; [reflexivity|intros ? [=]]]);
    rewrite c_div_ok by lia; cbn [obind].
  - set (x := wrap_cand 11 n (fst est + i - 5)) in *.
    destruct (dims1_ok (Z.max 1 (n / x)) g1 m) as (d & -> & Hd); [lia..|]. cbn [obind].
    eexists. split; [reflexivity|]. intros c [= <-]. exists x, d.
    split; [reflexivity|]. split; [lia|]. split; [lia|]. apply split_le; lia.
  - set (y := wrap_cand 11 n (snd est + i - 5)) in *.
    destruct (dims1_ok (Z.max 1 (n / y)) g0 m) as (d & -> & Hd); [lia..|]. cbn [obind].
    eexists. split; [reflexivity|]. intros c [= <-]. exists d, y.
    split; [reflexivity|]. split; [lia|]. split; [lia|].
    rewrite Z.mul_comm. apply split_le; lia.
Qed.

Section DC.
  Variable est2 : Z -> Z -> Z -> Z -> Z * Z.
  Variable est3 : Z -> Z -> Z -> Z -> Z -> Z * Z * Z.
  Variable lt : list Z -> list Z -> option (list Z) -> bool.

  Lemma dims2_ok n g0 g1 m : 1 <= n <= INT_MAX -> 0 <= g0 -> 0 <= g1 -> 1 <= m ->
    exists x y ierr, dims2 est2 lt n g0 g1 m = Ok ([x; y], ierr)
      /\ 1 <= x /\ 1 <= y /\ x * y <= n.
  Proof.
    intros Hn H0 H1 Hm. unfold dims2.
    destruct (cands2_ok n g0 g1 m (est2 n g0 g1 m)) as (cs & -> & Hcs); try lia. cbn [obind].
    destruct (scan_ok (lt [g0; g1]) n (size_ok m [g0; g1]) pos (size_ok_def m [g0; g1]) cs)
      with (best := @None (list Z)) (mx := 0) as (r & -> & Hr).
    - intros c Hc. destruct (Hcs _ Hc c eq_refl) as (x & y & -> & Hx & Hy & Hxy).
      split; [intros z [<-| [<- | []]]; lia|]. exists (x * y). apply iprod2; lia.
    - cbn [obind]. destruct Hr as [-> | (c & p & -> & Hin & _ & _)].
      + exists n, 1, 1. split; [reflexivity|lia].
      + destruct (Hcs _ Hin c eq_refl) as (x & y & -> & Hx & Hy & Hxy).
        exists x, y, 0. split; [reflexivity|lia].
  Qed.

  Lemma cand3_ok n g0 g1 g2 m ax t ierr : 1 <= n <= INT_MAX ->
    0 <= g0 -> 0 <= g1 -> 0 <= g2 -> 1 <= m ->
    exists o e, cand3 est2 lt n g0 g1 g2 m ax t ierr = Ok (o, e)
     /\ (forall c, o = Some c -> exists x y z, c = [x; y; z] /\ 1 <= x /\ 1 <= y /\ 1 <= z
           /\ x * (y * z) <= n).
  Proof.
    intros Hn H0 H1 H2 Hm. unfold cand3. set (d := wrap_cand 5 n t).
    destruct (_ && _) eqn:E; [|exists None, ierr; split; [reflexivity|intros ? [=]]].
    rewrite c_div_ok by lia. cbn [obind].
    assert (Hq : 1 <= Z.max 1 (n / d) <= n).
    { pose proof (Z.div_le_upper_bound n d n). split; [lia|]. apply Z.max_lub; [lia|].
      apply Z.div_le_upper_bound; nia. }
    assert (Hlim : forall p, p <= Z.max 1 (n / d) -> d * p <= n) by (intros; apply split_le; lia).
    destruct ax as [|[|ax]].
    - destruct (dims2_ok (Z.max 1 (n / d)) g1 g2 m) as (y & z & e & -> & Hy & Hz & Hyz); try lia.
      cbn [obind fst snd]. eexists _, _. split; [reflexivity|]. intros c [= <-].
      exists d, y, z. split; [reflexivity|]. split; [lia|]. split; [lia|]. split; [lia|]. now apply Hlim.
    - destruct (dims2_ok (Z.max 1 (n / d)) g0 g2 m) as (y & z & e & -> & Hy & Hz & Hyz); try lia.
      cbn [obind fst snd]. eexists _, _. split; [reflexivity|]. intros c [= <-].
      exists y, d, z. split; [reflexivity|]. split; [lia|]. split; [lia|]. split; [lia|].
      replace (y * (d * z)) with (d * (y * z)) by ring. now apply Hlim.
    - destruct (dims2_ok (Z.max 1 (n / d)) g0 g1 m) as (y & z & e & -> & Hy & Hz & Hyz); try lia.
      cbn [obind fst snd]. eexists _, _. split; [reflexivity|]. intros c [= <-].
      exists y, z, d. split; [reflexivity|]. split; [lia|]. split; [lia|]. split; [lia|].
      replace (y * (z * d)) with (d * (y * z)) by ring. now apply Hlim.
  Qed.

  Lemma cands3_ok n g0 g1 g2 m todo : 1 <= n <= INT_MAX ->
    0 <= g0 -> 0 <= g1 -> 0 <= g2 -> 1 <= m -> forall ierr,
    exists cs e, cands3 est2 lt n g0 g1 g2 m todo ierr = Ok (cs, e)
     /\ (forall c, In (Some c) cs -> exists x y z, c = [x; y; z] /\ 1 <= x /\ 1 <= y /\ 1 <= z
           /\ x * (y * z) <= n).
  Proof.
    intros Hn H0 H1 H2 Hm. induction todo as [|[ax t] todo IH]; intros ierr; cbn [cands3].
    - exists [], ierr. split; [reflexivity|easy].
    - destruct (cand3_ok n g0 g1 g2 m ax t ierr Hn H0 H1 H2 Hm) as (o & e & -> & Ho). cbn [obind snd].
      destruct (IH e) as (cs & e' & -> & Hcs). cbn [obind fst snd].
      exists (o :: cs), e'. split; [reflexivity|]. intros c [Hc|Hc]; [now apply Ho|now apply Hcs].
  Qed.

  Lemma dims3_ok n g0 g1 g2 m : 1 <= n <= INT_MAX -> 0 <= g0 -> 0 <= g1 -> 0 <= g2 -> 1 <= m ->
    exists x y z ierr, dims3 est2 est3 lt n g0 g1 g2 m = Ok ([x; y; z], ierr)
      /\ 1 <= x /\ 1 <= y /\ 1 <= z /\ x * (y * z) <= n.
  Proof.
    intros Hn H0 H1 H2 Hm. unfold dims3.
    destruct (est3 n g0 g1 g2 m) as ((e0, e1), e2).
    set (todo := _ ++ _).
    destruct (cands3_ok n g0 g1 g2 m todo Hn H0 H1 H2 Hm 0) as (cs & e & -> & Hcs). cbn [obind fst snd].
    destruct (scan_ok (lt [g0; g1; g2]) n (size_ok m [g0; g1; g2]) pos (size_ok_def m [g0; g1; g2]) cs)
      with (best := @None (list Z)) (mx := 0) as (r & -> & Hr).
    - intros c Hc. destruct (Hcs c Hc) as (x & y & z & -> & Hx & Hy & Hz & Hxyz).
      split; [intros w [<- | [<- |[<-|[]]]]; lia|]. exists (x * (y * z)). apply iprod3; lia.
    - cbn [obind]. destruct Hr as [-> | (c & p & -> & Hin & _ & _)].
      + exists n, 1, 1, 1. split; [reflexivity|lia].
      + destruct (Hcs c Hin) as (x & y & z & -> & Hx & Hy & Hz & Hxyz).
        exists x, y, z, e. split; [reflexivity|lia].
  Qed.
End DC.

(** A grid violating the minimum size has a larger 2-D norm than an
    admissible one with the same number of processes. *)
Lemma norm2_violator g0 g1 m x y bx by' :
  1 <= x -> 1 <= y -> 1 <= bx -> 1 <= by' -> 1 <= m -> x * y = bx * by' ->
  m * bx <= g0 -> m * by' <= g1 -> g0 < m * x \/ g1 < m * y ->
  (g0 * by' - g1 * bx) ^ 2 <= (g0 * y - g1 * x) ^ 2.
Proof.
  intros Hx Hy Hbx Hby Hm HP Hb0 Hb1 Hv.
  set (P := x * y) in *.
  set (A := g0 * y). set (B := g1 * x). set (A' := g0 * by'). set (B' := g1 * bx).
  assert (HK : A * B = A' * B').
  { unfold A, B, A', B'. transitivity (g0 * g1 * P); [unfold P; ring|].
    rewrite HP. ring. }
  assert (HA' : m * P <= A') by (unfold A'; rewrite HP; nia).
  assert (HB' : m * P <= B') by (unfold B'; rewrite HP; nia).
  assert (HPp : 1 <= P) by (unfold P; nia).
  assert (HA1 : 1 <= A) by (unfold A; nia).
  assert (HB1 : 1 <= B) by (unfold B; nia).
  assert (Hmin : A < m * P \/ B < m * P).
  { destruct Hv as [Hv|Hv]; [left; unfold A, P; nia | right; unfold B, P; nia]. }
  clearbody A B A' B' P. clear - HK HA' HB' HA1 HB1 Hmin.
  assert (S : A' + B' <= A + B).
  { destruct Hmin as [Hl|Hl].
    - assert (0 <= (A' - A) * (B' - A)) by (apply Z.mul_nonneg_nonneg; lia). nia.
    - assert (0 <= (A' - B) * (B' - B)) by (apply Z.mul_nonneg_nonneg; lia). nia. }
  assert ((A' - B') ^ 2 = (A' + B') ^ 2 - 4 * (A * B)) as -> by (rewrite HK; ring).
  assert ((A - B) ^ 2 = (A + B) ^ 2 - 4 * (A * B)) as -> by ring.
  assert ((A' + B') ^ 2 <= (A + B) ^ 2); [|lia].
  assert (0 < A' /\ 0 < B' \/ A' < 0 /\ B' < 0) by nia.
  apply Z.pow_le_mono_l. nia.
Qed.

(** With exact norms the 2-D scan only returns admissible grids. *)
Definition adm2 (m g0 g1 : Z) (c : list Z) : Prop :=
  exists x y, c = [x; y] /\ 1 <= x /\ 1 <= y /\ m * x <= g0 /\ m * y <= g1.

Lemma size_ok2 m g0 g1 x y : 1 <= x -> 1 <= y -> 0 <= g0 -> 0 <= g1 ->
  size_ok m [g0; g1] [x; y] = Ok true -> m * x <= g0 /\ m * y <= g1.
Proof.
  intros Hx Hy H0 H1. cbn [size_ok]. rewrite c_div_ok by lia. cbn [obind].
  destruct (m <=? g0 / x) eqn:E0; [|discriminate].
  rewrite c_div_ok by lia. cbn [obind]. destruct (m <=? g1 / y) eqn:E1; [|discriminate].
  intros _. pose proof (div_mul_le g0 x H0 Hx). pose proof (div_mul_le g1 y H1 Hy). nia.
Qed.

Lemma scan2_adm n m g0 g1 : 0 <= g0 -> 0 <= g1 -> 1 <= m -> n <= INT_MAX -> forall cs,
  (forall o, In o cs -> cand2_prop n g0 g1 m o) -> forall best mx r,
  match best with None => mx = 0 | Some b => adm2 m g0 g1 b /\ iprod b = Ok mx /\ 1 <= mx end ->
  scan (lt_exact [g0; g1]) n (size_ok m [g0; g1]) cs best mx = Ok (Some r) ->
  adm2 m g0 g1 r.
Proof.
  intros H0 H1 Hm Hn. induction cs as [|[c|] cs IH]; intros Hcs best mx r Hinv; cbn [scan].
  - intros [= ->]. tauto.
  - destruct (Hcs _ (or_introl eq_refl) c eq_refl) as (x & y & -> & Hx & Hy & Hxy).
    assert (Hcs' : forall o, In o cs -> cand2_prop n g0 g1 m o) by (intros; apply Hcs; now right).
    rewrite iprod2 by lia. cbn [obind].
    destruct (_ || _) eqn:E0; [apply (IH Hcs' best mx r Hinv)|].
    destruct (size_ok m [g0; g1] [x; y]) as [b| |] eqn:Es; [|discriminate..]. cbn [obind].
    destruct ((mx <? x * y) && b) eqn:E1.
    + apply IH; [assumption|]. split; [|split; [apply iprod2; lia|lia]].
      destruct b; [|lia]. apply size_ok2 in Es; try lia.
      exists x, y. auto.
    + destruct ((x * y =? mx) && lt_exact [g0; g1] [x; y] best) eqn:E2.
      * apply IH; [assumption|]. destruct best as [bb|]; [|cbn in E2; lia].
        destruct Hinv as ((bx & by' & -> & Hbx & Hby & Hb0 & Hb1) & Hp & Hmx).
        split; [|split; [rewrite iprod2 by lia; f_equal; lia | assumption]].
        assert (HP : x * y = bx * by').
        { assert (Hbb : iprod [bx; by'] = Ok (bx * by')).
          { cbn [iprod obind] in *. unfold imul in *.
            repeat (destruct (_ && _); cbn [obind] in *; try discriminate).
            f_equal; lia. }
          rewrite Hbb in Hp. injection Hp as <-. lia. }
        exists x, y. split; [reflexivity|]. split; [lia|]. split; [lia|].
        cbn [lt_exact rnorm fst snd] in E2.
        destruct (Z_lt_le_dec g0 (m * x)) as [Hv|Hv].
        { exfalso. pose proof (norm2_violator g0 g1 m x y bx by' Hx Hy Hbx Hby Hm HP Hb0 Hb1 (or_introl Hv)) as G.
          apply andb_prop in E2. destruct E2 as (_ & E2). apply Z.ltb_lt in E2. rewrite HP in E2.
          assert (0 <= (bx * by') ^ 2) by (apply Z.pow_even_nonneg; now exists 1).
          clear - E2 G H. nia. }
        destruct (Z_lt_le_dec g1 (m * y)) as [Hw|Hw]; [|auto].
        exfalso. pose proof (norm2_violator g0 g1 m x y bx by' Hx Hy Hbx Hby Hm HP Hb0 Hb1 (or_intror Hw)) as G.
        apply andb_prop in E2. destruct E2 as (_ & E2). apply Z.ltb_lt in E2. rewrite HP in E2.
        assert (0 <= (bx * by') ^ 2) by (apply Z.pow_even_nonneg; now exists 1).
        clear - E2 G H. nia.
      * apply (IH Hcs' best mx r Hinv).
  - apply IH; [intros; apply Hcs; now right | exact Hinv].
Qed.
