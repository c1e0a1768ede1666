(** Lemmas about the models of Text.v. *)
From Coq Require Import ZArith List Lia Bool QArith ZifyBool ZifyNat.
From Verif Require Import CBase Text.
Import ListNotations.
Local Open Scope Z_scope.

(** Two ASCII codes are the same up to case (spec: no [tolower]). *)
Definition same_upto_case (c d : Z) : Prop :=
  c = d \/ (65 <= c <= 90 /\ d = c + 32) \/ (65 <= d <= 90 /\ c = d + 32).
Definition is_char (c : Z) : Prop := 1 <= c <= 255.

Lemma tolower_same c d : tolower c = tolower d <-> same_upto_case c d.
Proof.
  unfold tolower, same_upto_case.
  destruct ((65 <=? c) && (c <=? 90)) eqn:E1; destruct ((65 <=? d) && (d <=? 90)) eqn:E2; lia.
Qed.
Lemma tolower_pos c : is_char c -> 1 <= tolower c <= 255.
Proof. unfold is_char, tolower. destruct (_ && _) eqn:E; lia. Qed.

Lemma str_eqb_eq a b : str_eqb a b = true <-> a = b.
Proof.
  revert b; induction a as [|x a IH]; intros [|y b]; cbn [str_eqb]; split; try easy.
  - rewrite andb_true_iff, IH. intros [H ->]. f_equal. lia.
  - intros [= -> ->]. rewrite andb_true_iff, IH. split; [lia|reflexivity].
Qed.
Lemma str_eqb_refl a : str_eqb a a = true.
Proof. now apply str_eqb_eq. Qed.

Lemma map_tolower_same a b :
  map tolower a = map tolower b <-> Forall2 same_upto_case a b.
Proof.
  revert b; induction a as [|x a IH]; intros [|y b]; cbn [map]; split; intros H;
    try discriminate H; try (now inversion H); try (now constructor).
  - injection H as H1 H2. constructor; [now apply tolower_same | now apply IH].
  - inversion H; subst. f_equal; [now apply tolower_same | now apply IH].
Qed.
Lemma strcaseeq_spec a b : strcaseeq a b = true <-> Forall2 same_upto_case a b.
Proof. unfold strcaseeq. rewrite str_eqb_eq. apply map_tolower_same. Qed.

(** The comparison on NUL-terminated buffers with arbitrary bytes behind the
    terminator: always defined, and the result is the difference at the first
    position where the lower-case strings differ. *)
Lemma strcmpi_total a b ja jb :
  Forall is_char a -> Forall is_char b ->
  exists r, strcmpi_loop (a ++ 0 :: ja) (b ++ 0 :: jb) = Ok r /\
    (r = 0 <-> map tolower a = map tolower b) /\ -255 <= r <= 255.
Proof.
  revert b; induction a as [|x a IH]; intros b Ha Hb.
  - destruct b as [|y b]; cbn.
    + exists 0. repeat split; lia.
    + inversion Hb; subst. pose proof (tolower_pos y ltac:(assumption)).
      exists (0 - tolower y). split; [reflexivity|]. split; [|lia]. split; [lia|easy].
  - inversion Ha as [|? ? Hx Ha']; subst. pose proof (tolower_pos x Hx) as Px.
    destruct b as [|y b]; cbn [app strcmpi_loop].
    + change (tolower 0) with 0.
      replace (tolower x =? 0) with false by lia.
      exists (tolower x - 0). split; [reflexivity|]. split; [|lia].
      split; [lia|easy].
    + inversion Hb as [|? ? Hy Hb']; subst. pose proof (tolower_pos y Hy) as Py.
      replace (tolower x =? 0) with false by lia.
      destruct (tolower x =? tolower y) eqn:E.
      * destruct (IH b Ha' Hb') as (r & Er & Hr & Hb0). exists r. split; [exact Er|]. split; [|exact Hb0].
        rewrite Hr. cbn [map]. split; [intros ->; f_equal; lia | intros [= _ H]; exact H].
      * exists (tolower x - tolower y). split; [reflexivity|]. split; [|lia].
        cbn [map]. split; [lia | intros [= H _]; lia].
Qed.

(** ** formatBytes *)
Lemma Qdiv1024 v : (v / inject_Z 1024 * inject_Z 1024 == v)%Q.
Proof. field. Qed.
Fixpoint pow1024 (i : nat) : Q := match i with O => 1%Q | S k => (inject_Z 1024 * pow1024 k)%Q end.

Lemma Qgeb_true a b : Qgeb a b = true <-> (b <= a)%Q.
Proof. unfold Qgeb. apply Qle_bool_iff. Qed.
Lemma Qgeb_false a b : Qgeb a b = false <-> (a < b)%Q.
Proof.
  unfold Qgeb. split; intros H.
  - apply Qnot_le_lt. intros C. apply Qle_bool_iff in C. congruence.
  - destruct (Qle_bool b a) eqn:E; [|reflexivity]. apply Qle_bool_iff in E.
    exfalso. now apply (Qlt_not_le a b).
Qed.

Lemma Qdiv1024_mono a b : (a <= b -> a / inject_Z 1024 <= b / inject_Z 1024)%Q.
Proof.
  intros H. unfold Qdiv. apply Qmult_le_compat_r; [exact H|]. discriminate.
Qed.

Lemma fb_loop_spec : forall fuel i v j w,
  (i <= 9)%nat -> (9 - i < fuel)%nat ->
  fb_loop fuel i v = (j, w) ->
  (i <= j <= 9)%nat /\ (w * pow1024 (j - i) == v)%Q /\
  ((j < 9)%nat -> (w < inject_Z 1024)%Q) /\
  ((i < j)%nat -> (1 <= w)%Q).
Proof.
  induction fuel as [|k IH]; intros i v j w Hi Hf E; [lia|].
  cbn [fb_loop] in E. unfold NUM_UNITS in E.
  destruct ((i <? 9)%nat && Qgeb v (inject_Z 1024)) eqn:C.
  - apply andb_true_iff in C. destruct C as [C1 C2]. apply Nat.ltb_lt in C1.
    apply Qgeb_true in C2.
    apply IH in E; [|lia|lia]. destruct E as (E1 & E2 & E3 & E4).
    split; [lia|]. split; [|split; [exact E3|]].
    + replace (j - i)%nat with (S (j - S i)) by lia. cbn [pow1024].
      rewrite Qmult_assoc, (Qmult_comm w), <- Qmult_assoc, E2. field.
    + intros _. destruct (Nat.eq_dec j (S i)) as [-> | N]; [|apply E4; lia].
      replace (S i - S i)%nat with O in E2 by lia. cbn [pow1024] in E2.
      rewrite Qmult_1_r in E2. rewrite E2.
      apply Qdiv1024_mono in C2. eapply Qle_trans; [|exact C2]. discriminate.
  - injection E as <- <-. replace (i - i)%nat with O by lia.
    split; [lia|]. split; [cbn [pow1024]; ring|]. split; [|lia].
    intros Hlt. apply andb_false_iff in C. destruct C as [C | C].
    + apply Nat.ltb_ge in C. lia.
    + now apply Qgeb_false.
Qed.

Lemma pow1024_pos i : (0 < pow1024 i)%Q.
Proof. induction i; cbn [pow1024]; [reflexivity|]. apply Qmult_lt_0_compat; [reflexivity|assumption]. Qed.
Lemma pow1024_ge1 i : (1 <= pow1024 i)%Q.
Proof.
  induction i; cbn [pow1024]; [apply Qle_refl|].
  apply Qle_trans with (inject_Z 1024 * 1)%Q; [discriminate|].
  apply Qmult_le_l; [reflexivity|assumption].
Qed.
Lemma pow1024_9 : forall j, (j <= 9)%nat -> (pow1024 j <= pow1024 9)%Q.
Proof.
  intros j Hj. replace 9%nat with ((9 - j) + j)%nat by lia. generalize (9 - j)%nat as d.
  induction d as [|d IH]; cbn [plus pow1024]; [apply Qle_refl|].
  eapply Qle_trans; [exact IH|].
  rewrite <- (Qmult_1_l (pow1024 (d + j))) at 1.
  apply Qmult_le_compat_r; [discriminate|]. apply Qlt_le_weak, pow1024_pos.
Qed.

(** ** check_num_input *)
Section CN.
  Variable V : Type.
  Variable scan : str -> option (V * nat).
  Hypothesis scan_consumes : forall s v k, scan s = Some (v, k) -> (1 <= k <= length s)%nat.

  Lemma numbers_fuel : forall f1 f2 s, (length s < f1)%nat -> (length s < f2)%nat ->
    numbers scan f1 s = numbers scan f2 s.
  Proof.
    induction f1 as [|f1 IH]; intros f2 s H1 H2; [lia|].
    destruct f2 as [|f2]; [lia|]. cbn [numbers].
    destruct (scan s) as [[v k]|] eqn:E; [|reflexivity].
    apply scan_consumes in E. f_equal. apply IH; rewrite skipn_length; lia.
  Qed.

  Definition stores (ns : list V) (base : nat) (arr : nat -> option V) (i : nat) : option V :=
    if (i <? base)%nat then arr i
    else match nth_error ns (i - base) with Some v => Some v | None => arr i end.

  Lemma cni_ok : forall fuel cap s n arr,
    (length s < fuel)%nat -> (n <= 10)%nat ->
    let ns := firstn (11 - n) (numbers scan fuel s) in
    (n + length ns <= cap)%nat ->
    exists arr', cni_loop scan fuel cap s n arr = Ok (Nat.min (n + length ns) 10, arr') /\
      forall i, arr' i = stores ns n arr i.
  Proof.
    induction fuel as [|f IH]; intros cap s n arr Hf Hn ns Hcap; [lia|].
    unfold ns in *; clear ns. cbn [cni_loop numbers] in *.
    destruct (scan s) as [[v k]|] eqn:E.
    - pose proof (scan_consumes _ _ _ E) as Hk.
      replace (11 - n)%nat with (S (10 - n)) in * by lia. cbn [firstn length] in *.
      replace (n <? cap)%nat with true by lia.
      destruct (n <? 10)%nat eqn:L.
      + replace (10 - n)%nat with (11 - S n)%nat in * by lia.
        destruct (IH cap (skipn k s) (S n) (fun i => if (i =? n)%nat then Some v else arr i))
          as (arr' & E' & H'); [rewrite skipn_length; lia | lia | lia |].
        exists arr'. split.
        * rewrite E'. do 2 f_equal. lia.
        * intros i. rewrite H'. unfold stores.
          destruct (i <? S n)%nat eqn:A.
          -- destruct (i =? n)%nat eqn:B.
             ++ replace (i <? n)%nat with false by lia. replace (i - n)%nat with O by lia. reflexivity.
             ++ replace (i <? n)%nat with true by lia. reflexivity.
          -- replace (i <? n)%nat with false by lia.
             replace (i - n)%nat with (S (i - S n)) by lia. cbn [nth_error].
             replace (i =? n)%nat with false by lia. reflexivity.
      + replace (10 - n)%nat with O in * by lia. cbn [firstn length] in *.
        exists (fun i => if (i =? n)%nat then Some v else arr i). split.
        * do 2 f_equal. lia.
        * intros i. unfold stores. destruct (i <? n)%nat eqn:A.
          -- replace (i =? n)%nat with false by lia. reflexivity.
          -- destruct (i =? n)%nat eqn:B.
             ++ replace (i - n)%nat with O by lia. reflexivity.
             ++ replace (i - n)%nat with (S (i - n - 1)) by lia. cbn [nth_error].
                rewrite (proj2 (nth_error_None _ _)) by (cbn; lia). reflexivity.
    - rewrite firstn_nil in *. cbn [length]. exists arr. split.
      + do 2 f_equal. lia.
      + intros i. unfold stores. destruct (i <? n)%nat; [reflexivity|]. now destruct (i - n)%nat.
  Qed.

  Lemma cni_ub : forall fuel cap s n arr,
    (length s < fuel)%nat -> (n <= 10)%nat -> (n <= cap)%nat ->
    (cap < n + length (firstn (11 - n) (numbers scan fuel s)))%nat ->
    cni_loop scan fuel cap s n arr = UB.
  Proof.
    induction fuel as [|f IH]; intros cap s n arr Hf Hn Hc H; [lia|].
    cbn [cni_loop numbers] in *.
    destruct (scan s) as [[v k]|] eqn:E.
    - pose proof (scan_consumes _ _ _ E) as Hk.
      replace (11 - n)%nat with (S (10 - n)) in * by lia. cbn [firstn length] in *.
      destruct (n <? cap)%nat eqn:L0; [|reflexivity].
      destruct (n <? 10)%nat eqn:L.
      + replace (10 - n)%nat with (11 - S n)%nat in * by lia.
        apply IH; [rewrite skipn_length; lia | lia | lia | lia].
      + replace (10 - n)%nat with O in * by lia. cbn [firstn length] in *. lia.
    - rewrite firstn_nil in H. cbn in H. lia.
  Qed.
End CN.

(** ** Socket names *)
Lemma strchr_none s c : strchr s c = None <-> ~ In c s.
Proof.
  induction s as [|x s IH]; cbn [strchr In]; [tauto|].
  destruct (x =? c) eqn:E.
  - split; [easy | intros H; exfalso; apply H; left; lia].
  - destruct (strchr s c) eqn:F.
    + split; [easy|]. intros H. exfalso.
      enough (~ In c s) as G by (apply IH in G; easy). tauto.
    + split; [|reflexivity]. intros _ [H | H]; [lia|]. now apply IH in H.
Qed.
Lemma strchr_some s c d : strchr s c = Some d ->
  s = firstn d s ++ c :: skipn (S d) s /\ ~ In c (firstn d s) /\ (d < length s)%nat.
Proof.
  revert d; induction s as [|x s IH]; intros d; cbn [strchr]; [easy|].
  destruct (x =? c) eqn:E.
  - intros [= <-]. cbn [firstn skipn app length]. split; [f_equal; lia|]. split; [easy | lia].
  - destruct (strchr s c) as [i|]; [|easy]. intros [= <-]. destruct (IH i eq_refl) as (H1 & H2 & H3).
    change (skipn (S (S i)) (x :: s)) with (skipn (S i) s).
    cbn [firstn app length]. split; [f_equal; exact H1|]. split; [|lia].
    intros [H | H]; [lia | now apply H2].
Qed.
Lemma strchr_app a c b : ~ In c a -> strchr (a ++ c :: b) c = Some (length a).
Proof.
  induction a as [|x a IH]; cbn [app strchr length]; intros H.
  - now rewrite Z.eqb_refl.
  - replace (x =? c) with false by (assert (x <> c) by (intros ->; apply H; now left); lia).
    rewrite IH; [reflexivity|]. intros G; apply H; now right.
Qed.

(** Value of a digit string (independent of the [strtol] loop: by position
    from the right). *)
Fixpoint dec_value (ds : str) : Z :=
  match ds with [] => 0 | c :: r => (c - 48) * 10 ^ Z.of_nat (length r) + dec_value r end.

Lemma digits_spec : forall s acc v r, digits s acc = (v, r) ->
  exists ds, s = ds ++ r /\ Forall (fun c => 48 <= c <= 57) ds /\
    starts_digit r = false /\ v = acc * 10 ^ Z.of_nat (length ds) + dec_value ds.
Proof.
  induction s as [|c s IH]; intros acc v r E; cbn [digits] in E.
  - injection E as <- <-. exists []. cbn. repeat split; [constructor | lia].
  - destruct (isdigit c) eqn:D.
    + apply IH in E. destruct E as (ds & -> & F & S & ->).
      exists (c :: ds). split; [reflexivity|]. split.
      { constructor; [unfold isdigit in D; lia | exact F]. }
      split; [exact S|]. cbn [dec_value length].
      rewrite Nat2Z.inj_succ, Z.pow_succ_r by lia. ring.
    + injection E as <- <-. exists []. cbn. rewrite D. repeat split; [constructor | lia].
Qed.
Lemma digits_run : forall ds r acc, Forall (fun c => 48 <= c <= 57) ds -> starts_digit r = false ->
  digits (ds ++ r) acc = (acc * 10 ^ Z.of_nat (length ds) + dec_value ds, r).
Proof.
  induction ds as [|c ds IH]; intros r acc F S; cbn [app length dec_value].
  - cbn. destruct r as [|x r]; cbn [digits]; [f_equal; lia|]. cbn in S. rewrite S. f_equal; lia.
  - inversion F; subst. cbn [digits]. replace (isdigit c) with true by (unfold isdigit; lia).
    rewrite IH by assumption. f_equal. rewrite Nat2Z.inj_succ, Z.pow_succ_r by lia. ring.
Qed.
Lemma dec_value_nonneg ds : Forall (fun c => 48 <= c <= 57) ds -> 0 <= dec_value ds.
Proof.
  induction 1 as [|c ds H F IH]; cbn [dec_value]; [lia|].
  assert (0 <= 10 ^ Z.of_nat (length ds)) by (apply Z.pow_nonneg; lia). nia.
Qed.

(** A decimal integer as accepted by [strtol]. *)
Definition decimal (s : str) (v : Z) : Prop :=
  exists ws sg ds, s = ws ++ sg ++ ds /\ Forall (fun c => isspace c = true) ws /\
    (sg = [] \/ sg = [43] \/ sg = [45]) /\ ds <> [] /\ Forall (fun c => 48 <= c <= 57) ds /\
    v = (if list_eq_dec Z.eq_dec sg [45] then - dec_value ds else dec_value ds).

Lemma skip_space_spec s : exists ws, s = ws ++ skip_space s /\ Forall (fun c => isspace c = true) ws /\
  match skip_space s with c :: _ => isspace c = false | [] => True end.
Proof.
  induction s as [|c s IH]; cbn [skip_space].
  - exists []. repeat split. constructor.
  - destruct (isspace c) eqn:E.
    + destruct IH as (ws & E1 & F & H). exists (c :: ws). cbn [app]. split; [f_equal; exact E1|].
      split; [now constructor | exact H].
    + exists []. cbn. split; [reflexivity|]. split; [constructor | exact E].
Qed.
Lemma skip_space_run ws r : Forall (fun c => isspace c = true) ws ->
  match r with c :: _ => isspace c = false | [] => True end -> skip_space (ws ++ r) = r.
Proof.
  intros F; induction F as [|c ws H F IH]; cbn [app skip_space].
  - destruct r as [|x r]; [reflexivity|]. cbn. intros ->. reflexivity.
  - intros Hr. rewrite H. auto.
Qed.

Lemma clamp_long_small v : 0 < v <= 65535 -> clamp_long v = v.
Proof. intros H. unfold clamp_long, LONG_MAX. lia. Qed.
Lemma clamp_long_inv v : 0 < clamp_long v <= 65535 -> clamp_long v = v.
Proof. unfold clamp_long, LONG_MAX. lia. Qed.

Lemma strtol_whole s v :
  (exists w, strtol s = (w, []) /\ s <> [] /\ 0 < w <= 65535 /\ v = w) <->
  (decimal s v /\ 0 < v <= 65535).
Proof.
  unfold strtol. split.
  - intros (w & E & Hs & Hw & ->).
    destruct (skip_space_spec s) as (ws & Es & F & Hsp).
    set (t := skip_space s) in *. clearbody t.
    assert (G : forall sg u, (sg = [] \/ sg = [43] \/ sg = [45]) -> t = sg ++ u ->
        (if starts_digit u then
           let '(v0, rest) := digits u 0 in
           (clamp_long (if (if list_eq_dec Z.eq_dec sg [45] then true else false) : bool then - v0 else v0), rest)
         else (0, s)) = (w, []) -> decimal s w).
    { intros sg u Hsg -> EE.
      destruct (starts_digit u) eqn:SD.
      - destruct (digits u 0) as [v0 rest] eqn:D. injection EE as EE1 ->.
        apply digits_spec in D. destruct D as (ds & -> & Fd & _ & Hv).
        rewrite app_nil_r in *. pose proof (dec_value_nonneg _ Fd).
        exists ws, sg, ds. split; [exact Es|]. split; [exact F|]. split; [exact Hsg|].
        split; [intros ->; cbn in SD; discriminate|]. split; [exact Fd|].
        rewrite Hv in EE1. clear - EE1 Hw.
        destruct (list_eq_dec Z.eq_dec sg [45]);
          rewrite clamp_long_inv in EE1 by (rewrite EE1; exact Hw); rewrite <- EE1; ring.
      - injection EE as <- EE. congruence. }
    split; [|exact Hw].
    destruct t as [|c t'].
    + apply (G [] []); [now left | reflexivity |]. exact E.
    + destruct (c =? 45) eqn:E1.
      * apply (G [45] t'); [tauto | cbn [app]; f_equal; lia |]. exact E.
      * destruct (c =? 43) eqn:E2.
        -- apply (G [43] t'); [tauto | cbn [app]; f_equal; lia |].
           destruct (list_eq_dec Z.eq_dec [43] [45]); [discriminate|]. exact E.
        -- apply (G [] (c :: t')); [tauto | reflexivity |].
           destruct (list_eq_dec Z.eq_dec [] [45]); [discriminate|]. exact E.
  - intros ((ws & sg & ds & -> & F & Hsg & Hds & Fd & Hv) & Hb).
    exists v. pose proof (dec_value_nonneg _ Fd) as Hnn.
    destruct ds as [|d0 ds0]; [easy|].
    assert (D0 : 48 <= d0 <= 57) by (now inversion Fd).
    assert (Sd : starts_digit (d0 :: ds0) = true) by (cbn; unfold isdigit; lia).
    assert (Dg : digits (d0 :: ds0) 0 = (dec_value (d0 :: ds0), [])).
    { rewrite <- (app_nil_r (d0 :: ds0)) at 1. rewrite digits_run by (auto; reflexivity). f_equal; lia. }
    set (ds := d0 :: ds0) in *.
    split; [|split; [|split; [exact Hb | reflexivity]]].
    + destruct Hsg as [-> | [-> | ->]].
      * cbn [app]. rewrite skip_space_run; [|exact F|unfold ds; unfold isspace; lia].
        unfold ds at 1. replace (d0 =? 45) with false by lia. replace (d0 =? 43) with false by lia.
        fold ds. rewrite Sd, Dg. 
        destruct (list_eq_dec Z.eq_dec [] [45]); [discriminate|].
        rewrite <- Hv. now rewrite clamp_long_small by exact Hb.
      * cbn [app]. rewrite skip_space_run; [|exact F|reflexivity].
        cbn [Z.eqb Pos.eqb]. rewrite Sd, Dg. 
        destruct (list_eq_dec Z.eq_dec [43] [45]); [discriminate|].
        rewrite <- Hv. now rewrite clamp_long_small by exact Hb.
      * cbn [app]. rewrite skip_space_run; [|exact F|reflexivity].
        cbn [Z.eqb Pos.eqb]. rewrite Sd, Dg. 
        destruct (list_eq_dec Z.eq_dec [45] [45]); [|easy].
        rewrite <- Hv. now rewrite clamp_long_small by exact Hb.
    + destruct ws; [|discriminate]. cbn. destruct Hsg as [-> | [-> | ->]]; discriminate.
Qed.
