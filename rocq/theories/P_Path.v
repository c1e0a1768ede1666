(** C17: path simplification. *)
From Coq Require Import ZArith List Lia Bool ZifyBool ZifyNat.
From Verif Require Import CBase Text TextLem Path.
Import ListNotations.
Local Open Scope Z_scope.

(** Names separated by single slashes. *)
Definition join (ns : list str) : str :=
  match ns with [] => [] | n :: ns' => n ++ slashed ns' end.

Lemma slash_or_end_slashed ns : slash_or_end (slashed ns).
Proof. destruct ns as [|n ns]; [now left|]. right. eexists. reflexivity. Qed.
Lemma fold_slashed ns : Forall good ns -> forall d, fold_left step (split (slashed ns)) d = d ++ ns.
Proof.
  induction 1 as [|n ns Hg F IH]; intros d; [cbn; now rewrite app_nil_r|].
  change (slashed (n :: ns)) with (SLASH :: n ++ slashed ns). rewrite fold_split_slash.
  rewrite fold_split; [|apply Hg | apply slash_or_end_slashed].
  rewrite IH, (step_good _ _ Hg). now rewrite <- app_assoc.
Qed.
Lemma fold_join ns d : Forall good ns -> fold_left step (split (join ns)) d = d ++ ns.
Proof.
  intros F. destruct ns as [|n ns]; cbn [join]; [cbn; now rewrite app_nil_r|].
  inversion F; subst. rewrite fold_split; [|apply H1 | apply slash_or_end_slashed].
  rewrite fold_slashed by assumption. rewrite (step_good d n) by assumption. now rewrite <- app_assoc.
Qed.
Lemma iter_removelast_comm k (d : list str) : parent k (removelast d) = removelast (parent k d).
Proof. induction k; cbn; [reflexivity | now rewrite IHk]. Qed.
Lemma fold_ups k r d : fold_left step (split (ups k ++ r)) d = fold_left step (split r) (parent k d).
Proof.
  revert d; induction k as [|k IH]; intros d; [reflexivity|].
  change (ups (S k) ++ r) with ([DOT; DOT] ++ SLASH :: (ups k ++ r)).
  rewrite fold_split; [|intros [H | [H | []]]; discriminate | right; eexists; reflexivity].
  rewrite fold_split_slash, IH. cbn [parent]. f_equal.
  change (step d [DOT; DOT]) with (removelast d). apply iter_removelast_comm.
Qed.

(** The prefix part of the result. *)
Definition pre (abs : bool) (k : nat) : str := if abs then [SLASH] else ups k.
Definition result (abs : bool) (k : nat) (ns : list str) : str :=
  match pre abs k ++ join ns with [] => [DOT] | s => s end.

Lemma good_head n : good n -> exists c n', n = c :: n' /\ c <> SLASH.
Proof.
  intros (H & _ & _ & Hs). destruct n as [|c n]; [easy|]. exists c, n. split; [reflexivity|].
  intros ->. apply Hs. now left.
Qed.

Lemma head_of_body body ns prefix abs k :
  bodyrep body ns -> prefrep prefix abs k ->
  (let h := one_slash body in
   if (0 <? length prefix)%nat && ends_slash prefix && starts_slash h then tl h else h) = join ns.
Proof.
  intros [F Hb] Hp. cbv zeta.
  assert (Hpre : (0 <? length prefix)%nat && ends_slash prefix = true).
  { unfold prefrep in Hp. destruct abs; [subst; reflexivity|].
    destruct Hp as [-> | [-> Hk]].
    - destruct k; [reflexivity|]. rewrite ups_S. unfold ends_slash. rewrite !rev_app_distr. cbn. reflexivity.
    - destruct k; [lia|]. unfold ends_slash. rewrite ups_S, rev_app_distr, app_length. cbn [rev app length].
      replace (0 <? length (ups k) + 3)%nat with true by lia. reflexivity. }
  rewrite Hpre. cbn [andb].
  destruct Hb as [-> | (n & ns' & -> & ->)].
  - destruct ns as [|n ns]; [reflexivity|]. inversion F as [|? ? Hg _]; subst.
    destruct (good_head n Hg) as (c & n' & -> & Hc).
    change (slashed ((c :: n') :: ns)) with (SLASH :: c :: n' ++ slashed ns).
    cbn [one_slash]. replace (c =? SLASH) with false by lia. rewrite andb_false_r.
    cbn [starts_slash tl join]. rewrite Z.eqb_refl. reflexivity.
  - inversion F as [|? ? Hg _]; subst. destruct (good_head n Hg) as (c & n' & -> & Hc).
    cbn [join app one_slash]. replace (c =? SLASH) with false by lia. cbn [andb].
    destruct (n' ++ slashed ns'); cbn [starts_slash];
      replace (c =? SLASH) with false by lia; reflexivity.
Qed.
Lemma prefix_head_eq prefix abs k : prefrep prefix abs k ->
  (if starts_dotslash prefix then skipn 2 prefix else prefix) = pre abs k /\
  (length (pre abs k) <= length prefix)%nat.
Proof.
  unfold prefrep, pre. destruct abs; [intros ->; cbn; split; [reflexivity | lia]|].
  intros [-> | [-> Hk]]; [cbn; split; [reflexivity | lia]|].
  destruct k; [lia|]. cbn. split; [reflexivity | lia].
Qed.

(** The paths on which [prefix] is overrun: one of "." and ".." followed by at
    least two "/.." and nothing else. *)
Definition overrun (p : str) : Prop :=
  exists j, (2 <= j)%nat /\ (p = [DOT] ++ only_ups j \/ p = [DOT; DOT] ++ only_ups j).
Lemma only_ups_length j : length (only_ups j) = (3 * j)%nat.
Proof. unfold only_ups. induction j; cbn in *; [reflexivity|]. rewrite IHj. lia. Qed.
Lemma skip_blanks_spec p : exists b, p = repeat 32 b ++ skip_blanks p.
Proof.
  induction p as [|c p [b IH]]; cbn [skip_blanks]; [now exists O|].
  destruct (c =? 32) eqn:E; [|now exists O]. exists (S b). cbn [repeat app]. f_equal; [lia | exact IH].
Qed.

Lemma firstn_big {A} (l : list A) n : (length l <= n)%nat -> firstn n l = l.
Proof. apply firstn_all2. Qed.

(** Everything about a call at once. *)
Lemma simplify_total p newlen : p <> [] -> ~ overrun p ->
  exists abs k ns,
    simplifyPath p newlen = Ok (Some (firstn (newlen - 1) (result abs k ns))) /\
    Forall good ns /\
    (length (result abs k ns) <= length p + 1)%nat /\
    (skip_blanks p <> [] -> abs = is_abs (skip_blanks p) /\
       forall cwd, walk cwd (skip_blanks p) = base abs k cwd ++ ns) /\
    (skip_blanks p = [] -> abs = true /\ ns = []).
Proof.
  intros Hne Hno.
  assert (Hm : forall x y : outcome (option str), match p with [] => x | _ :: _ => y end = y)
    by (destruct p; easy).
  unfold simplifyPath. rewrite Hm. clear Hm Hne.
  set (cap := Nat.max 8 (length p + 1)).
  destruct (skip_blanks_spec p) as [b Eb]. set (path := skip_blanks p) in *. clearbody path.
  assert (Lp : length p = (b + length path)%nat) by (rewrite Eb, app_length, repeat_length; lia).
  assert (Hcap : (length p + 1 <= cap /\ 8 <= cap /\ (cap = 8 \/ cap = length p + 1))%nat)
    by (unfold cap; lia).
  clearbody cap.
  (* initial state *)
  set (fr := if starts_slash path then ([], path) else span_level path).
  set (st := let '(first, rest) := fr in
     let '(body, off, prefix) :=
      if str_eqb first [SLASH] || (length first =? 0)%nat then (first, 0%nat, [SLASH])
      else if str_eqb first [DOT; DOT] then ([], 2%nat, [DOT; DOT; SLASH])
      else if str_eqb first [DOT] then ([], 1%nat, [DOT; SLASH])
      else (first, 0%nat, [DOT; SLASH]) in (first, rest, body, off, prefix)).
  assert (Init : exists first rest body off prefix abs k ns,
     fr = (first, rest) /\ st = (first, rest, body, off, prefix) /\
     (length first + 1 <= cap)%nat /\
     slash_or_end rest /\ bodyrep body ns /\ prefrep prefix abs k /\
     (off + length body + length rest + 1 <= cap)%nat /\ (off <= 2)%nat /\
     safe cap prefix body rest /\
     (length prefix + length body + length rest <= length p + 1 + (if starts_dotslash prefix then 2 else 0))%nat /\
     (path <> [] -> abs = is_abs path /\
        forall cwd, walk cwd path = fold_left step (split rest) (base abs k cwd ++ ns)) /\
     (path = [] -> abs = true /\ rest = [] /\ ns = [])).
  { unfold st, fr. destruct (starts_slash path) eqn:Ess.
    - exists [], path, [], 0%nat, [SLASH], true, 0%nat, [].
      split; [reflexivity|]. split; [reflexivity|]. split; [cbn; lia|].
      split. { destruct path as [|c path']; [now left|]. right. exists path'. cbn in Ess. f_equal. lia. }
      split; [split; [constructor | now left]|]. split; [reflexivity|].
      split; [cbn; lia|]. split; [lia|]. split; [now left|]. split; [cbn; lia|].
      split; [|intros ->; easy].
      intros _. unfold is_abs. split; [now rewrite Ess|]. intros cwd. unfold walk, is_abs. rewrite Ess.
      reflexivity.
    - pose proof (span_spec path) as Hsp. destruct (span_level path) as [w rest].
      destruct Hsp as (Epath & Hw & Hr).
      assert (Lw : length path = (length w + length rest)%nat) by (rewrite Epath; apply app_length).
      assert (Ew : w = [] -> path = [] /\ rest = []).
      { intros ->. cbn in Epath. subst rest. destruct Hr as [-> | [r' ->]]; [easy|].
        exfalso. cbn in Ess. discriminate. }
      assert (Hwalk : path <> [] -> forall cwd, walk cwd path = fold_left step (split rest) (step cwd w)).
      { intros Hpn cwd. unfold walk, is_abs. rewrite Ess. rewrite Epath at 1. now apply fold_split. }
      rewrite (str_eqb_neq w [SLASH]) by (intros ->; apply Hw; now left). cbn [orb].
      destruct (length w =? 0)%nat eqn:L0.
      + assert (w = []) as -> by (destruct w; [reflexivity | cbn in L0; lia]).
        destruct (Ew eq_refl) as [-> ->].
        exists [], [], [], 0%nat, [SLASH], true, 0%nat, [].
        repeat (split; [first [reflexivity | cbn; lia | (split; [constructor | now left]) | now left]|]).
        split; [easy | easy].
      + assert (Hpn : path <> []) by (intros ->; cbn in Lw; lia).
        destruct (str_eqb w [DOT; DOT]) eqn:B1; [|destruct (str_eqb w [DOT]) eqn:B2].
        * apply str_eqb_eq in B1. subst w. cbn [length] in *.
          exists [DOT; DOT], rest, [], 2%nat, [DOT; DOT; SLASH], false, 1%nat, [].
          split; [reflexivity|]. split; [reflexivity|]. split; [cbn; lia|]. split; [exact Hr|].
          split; [split; [constructor | now left]|]. split; [right; split; [reflexivity | lia]|].
          split; [cbn; lia|]. split; [lia|].
          split. { unfold safe. cbn [length]. right.
            destruct (Nat.eq_dec (3 + length rest) cap) as [El | Nl]; [|left; lia].
            right. split; [exact El|]. right. intros j ->. apply Hno.
            assert (b = 0)%nat as -> by lia. cbn [repeat app] in Eb.
            exists (S j). rewrite only_ups_length in *. split; [lia|]. right. now rewrite Eb. }
          split; [cbn; lia|]. split; [|easy].
          intros _. unfold is_abs. split; [now rewrite Ess|]. intros cwd. rewrite (Hwalk Hpn).
          f_equal. cbn [base parent]. now rewrite app_nil_r.
        * apply str_eqb_eq in B2. subst w. cbn [length] in *.
          exists [DOT], rest, [], 1%nat, [DOT; SLASH], false, 0%nat, [].
          split; [reflexivity|]. split; [reflexivity|]. split; [cbn; lia|]. split; [exact Hr|].
          split; [split; [constructor | now left]|]. split; [left; reflexivity|].
          split; [cbn; lia|]. split; [lia|].
          split. { unfold safe. cbn [length]. right.
            destruct (Nat.eq_dec (2 + length rest) cap) as [El | Nl]; [|left; lia].
            right. split; [exact El|]. right. intros j ->. apply Hno.
            assert (b = 0)%nat as -> by lia. cbn [repeat app] in Eb.
            exists (S j). rewrite only_ups_length in *. split; [lia|]. left. now rewrite Eb. }
          split; [cbn; lia|]. split; [|easy].
          intros _. unfold is_abs. split; [now rewrite Ess|]. intros cwd. rewrite (Hwalk Hpn).
          f_equal. cbn [base parent]. now rewrite app_nil_r.
        * assert (Hg : good w).
          { split; [intros ->; cbn in L0; lia|]. split; [intros ->; discriminate|].
            split; [intros ->; discriminate | exact Hw]. }
          exists w, rest, w, 0%nat, [DOT; SLASH], false, 0%nat, [w].
          split; [reflexivity|]. split; [reflexivity|]. split; [lia|]. split; [exact Hr|].
          split. { split; [now constructor|]. right. exists w, []. split; [reflexivity|]. cbn. now rewrite app_nil_r. }
          split; [left; reflexivity|]. split; [lia|]. split; [lia|].
          split. { unfold safe. cbn [length]. right.
            destruct (Nat.eq_dec (2 + length rest) cap) as [El | Nl]; [|left; lia].
            right. split; [exact El|]. left. apply Hg. }
          split; [cbn; lia|]. split; [|easy].
          intros _. unfold is_abs. split; [now rewrite Ess|]. intros cwd. rewrite (Hwalk Hpn).
          f_equal. now rewrite (step_good _ _ Hg). }
  destruct Init as (first & rest & body & off & prefix & abs & k & ns & Efr & Est & Hfl & Hr & Hb & Hp & Hbnd & Hoff & Hs & Hlen & Hsem & Hemp).
  unfold st in Est. rewrite Efr in Est |- *. cbv beta iota in Est |- *.
  destruct (if str_eqb first [SLASH] || (length first =? 0)%nat then _ else _) as [[body0 off0] prefix0] eqn:EI.
  injection Est as E1 E2 E3. subst body0 off0 prefix0.
  replace (cap <? length first + 1)%nat with false by lia.
  destruct (sp_loop_ok (length rest) cap off rest body prefix abs k ns (le_n _) Hr Hb Hp Hbnd Hs)
    as (body' & prefix' & ns' & k' & E & R1 & R2 & R3 & R4 & R5).
  rewrite E. cbn [obind].
  pose proof (head_of_body body' ns' prefix' abs k' R1 R2) as Eh. cbv zeta in Eh. rewrite Eh.
  destruct (prefix_head_eq prefix' abs k' R2) as (Eph & Lph). rewrite Eph.
  assert (Lj : (length (join ns') <= length body')%nat).
  { destruct R1 as [_ [-> | (n & ns2 & -> & ->)]]; [|cbn [join]; lia].
    destruct ns' as [|n ns2]; cbn [join]; [cbn; lia|].
    change (slashed (n :: ns2)) with (SLASH :: n ++ slashed ns2). cbn [length]. lia. }
  assert (Hpl : (length (pre abs k') + (if starts_dotslash prefix' then 2 else 0) <= length prefix')%nat).
  { unfold prefrep in R2. unfold pre. destruct abs; [subst; cbn; lia|].
    destruct R2 as [-> | [-> Hk]]; [rewrite app_length; cbn; lia|].
    destruct k'; [lia|]. cbn. lia. }
  exists abs, k', ns'.
  assert (Hsd : starts_dotslash prefix = starts_dotslash prefix').
  { (* the loop only appends to the prefix *)
    clear - E Hp R2. revert E. generalize (length rest) as fuel. intros fuel.
    assert (G : forall fuel path body prefix r1 r2, prefix <> [] -> (length prefix <> 1)%nat \/ prefix = [SLASH] ->
       sp_loop fuel cap off path body prefix = Ok (r1, r2) -> starts_dotslash prefix = starts_dotslash r2).
    { clear. induction fuel as [|f IH]; intros path body prefix r1 r2 Hn Hl E; cbn [sp_loop] in E.
      - injection E as <- <-. reflexivity.
      - destruct path as [|c p]; [injection E as <- <-; reflexivity|].
        destruct (getNextLevel cap (c :: p)) as [[level rest]| |]; try discriminate. cbn [obind] in E.
        destruct (str_eqb level [SLASH; DOT] || str_eqb level [SLASH]); [now apply (IH rest body prefix r1 r2)|].
        destruct (str_eqb level [SLASH; DOT; DOT]).
        + unfold goUpper in E.
          destruct (match body with [] => true | _ => false end && negb (str_eqb prefix [SLASH])) eqn:B.
          * destruct (length prefix + 3 + 1 <=? cap)%nat; [|discriminate]. cbn [obind fst snd] in E.
            apply andb_true_iff in B. destruct B as [_ B].
            destruct Hl as [Hl | ->]; [|cbn in B; discriminate].
            apply IH in E; [|destruct prefix; [easy | discriminate] | left; rewrite app_length; cbn; lia].
            rewrite <- E. destruct prefix as [|x [|y prefix]]; [easy | cbn in Hl; lia | reflexivity].
          * cbn [obind fst snd] in E. now apply IH in E.
        + destruct (goLower cap off body level) as [b| |]; try discriminate. cbn [obind] in E.
          now apply IH in E. }
    intros E. eapply G; [| |exact E].
    - unfold prefrep in Hp. destruct abs; [subst; discriminate|].
      destruct Hp as [-> | [-> Hk]]; [discriminate|]. destruct k; [lia|]. discriminate.
    - unfold prefrep in Hp. destruct abs; [right; exact Hp|]. left.
      destruct Hp as [-> | [-> Hk]]; [rewrite app_length; cbn; lia|]. destruct k; [lia|]. cbn. lia. }
  assert (Lres : (length (pre abs k' ++ join ns') <= length p + 1)%nat).
  { rewrite app_length. rewrite <- Hsd in Hpl. destruct (starts_dotslash prefix); lia. }
  split; [|split; [apply R1|split; [|split]]].
  - unfold result. destruct (pre abs k') as [|x pr] eqn:Epre; cbn [app length Nat.eqb andb].
    + destruct (join ns') as [|y js] eqn:Ej; cbn [length Nat.eqb].
      * replace (off + (length body' - 0) + 2 <=? cap)%nat with true; [reflexivity|].
        symmetry. apply Nat.leb_le.
        (* an empty head means an empty body *)
        assert (length body' = 0)%nat; [|lia].
        destruct R1 as [F [-> | (n & ns2 & -> & ->)]].
        -- destruct ns' as [|n ns2]; [reflexivity|]. cbn [join] in Ej.
           inversion F; subst. destruct (good_head n H1) as (c & n' & -> & _). discriminate.
        -- cbn [join] in Ej. now rewrite Ej.
      * reflexivity.
    + reflexivity.
  - unfold result. destruct (pre abs k' ++ join ns') eqn:Er; [cbn; lia | exact Lres].
  - intros Hpn. destruct (Hsem Hpn) as (-> & Hw). split; [reflexivity|].
    intros cwd. rewrite Hw. apply R3.
  - intros Hpn. destruct (Hemp Hpn) as (-> & -> & ->). split; [reflexivity|].
    specialize (R3 []). cbn in R3. now rewrite R3.
Qed.

(** Being one of the overrunning paths is decidable. *)
Lemma only_ups_inj_len j s : s = only_ups j -> j = (length s / 3)%nat.
Proof. intros ->. rewrite only_ups_length. rewrite Nat.mul_comm, Nat.div_mul; lia. Qed.
Lemma overrun_dec p : overrun p \/ ~ overrun p.
Proof.
  set (j1 := (length (skipn 1 p) / 3)%nat). set (j2 := (length (skipn 2 p) / 3)%nat).
  destruct (le_lt_dec 2 j1) as [L1 | L1]; [destruct (list_eq_dec Z.eq_dec p ([DOT] ++ only_ups j1)) as [E1 | N1]|].
  - left. exists j1. tauto.
  - destruct (le_lt_dec 2 j2) as [L2 | L2]; [destruct (list_eq_dec Z.eq_dec p ([DOT; DOT] ++ only_ups j2)) as [E2 | N2]|].
    + left. exists j2. tauto.
    + right. intros (j & Hj & [H | H]).
      * apply N1. rewrite H at 1. do 2 f_equal. unfold j1. rewrite H. cbn [app skipn]. now apply only_ups_inj_len.
      * apply N2. rewrite H at 1. do 3 f_equal. unfold j2. rewrite H. cbn [app skipn]. now apply only_ups_inj_len.
    + right. intros (j & Hj & [H | H]).
      * apply N1. rewrite H at 1. do 2 f_equal. unfold j1. rewrite H. cbn [app skipn]. now apply only_ups_inj_len.
      * unfold j2 in L2. rewrite H in L2. cbn [app skipn] in L2. rewrite <- (only_ups_inj_len j _ eq_refl) in L2. lia.
  - destruct (le_lt_dec 2 j2) as [L2 | L2]; [destruct (list_eq_dec Z.eq_dec p ([DOT; DOT] ++ only_ups j2)) as [E2 | N2]|].
    + left. exists j2. tauto.
    + right. intros (j & Hj & [H | H]).
      * unfold j1 in L1. rewrite H in L1. cbn [app skipn] in L1. rewrite <- (only_ups_inj_len j _ eq_refl) in L1. lia.
      * apply N2. rewrite H at 1. do 3 f_equal. unfold j2. rewrite H. cbn [app skipn]. now apply only_ups_inj_len.
    + right. intros (j & Hj & [H | H]).
      * unfold j1 in L1. rewrite H in L1. cbn [app skipn] in L1. rewrite <- (only_ups_inj_len j _ eq_refl) in L1. lia.
      * unfold j2 in L2. rewrite H in L2. cbn [app skipn] in L2. rewrite <- (only_ups_inj_len j _ eq_refl) in L2. lia.
Qed.

Lemma ups_loop_ub : forall j fuel cap off prefix, (1 <= j)%nat -> (j <= fuel)%nat -> (4 <= cap)%nat ->
  prefix <> [SLASH] -> (2 <= length prefix)%nat -> (length prefix + 3 * j = cap)%nat ->
  sp_loop fuel cap off (only_ups j) [] prefix = UB.
Proof.
  induction j as [|j IH]; intros fuel cap off prefix Hj Hf Hc Hp Hl E; [lia|].
  destruct fuel as [|f]; [lia|].
  change (only_ups (S j)) with ([SLASH; DOT; DOT] ++ only_ups j). cbn [app sp_loop getNextLevel].
  assert (Es : span_level (skip_slashes (DOT :: DOT :: only_ups j)) = ([DOT; DOT], only_ups j)).
  { destruct j; reflexivity. }
  rewrite Es. cbn [length]. replace (3 + 1 <=? cap)%nat with true by lia. cbn [obind].
  change (str_eqb [SLASH; DOT; DOT] [SLASH; DOT] || str_eqb [SLASH; DOT; DOT] [SLASH]) with false.
  change (str_eqb [SLASH; DOT; DOT] [SLASH; DOT; DOT]) with true. cbn iota.
  unfold goUpper. rewrite (str_eqb_neq _ _ Hp). cbn [negb andb].
  destruct (length prefix + 3 + 1 <=? cap)%nat eqn:B; [|reflexivity].
  cbn [obind fst snd]. change (cut_last []) with (@nil Z).
  apply IH; try lia; try (rewrite app_length; cbn [length]; lia).
  intros C. apply (f_equal (@length Z)) in C. rewrite app_length in C. cbn in C. lia.
Qed.

(** Exactly these inputs overrun the scratch buffer [prefix]. *)
Theorem C17_overrun_exact : forall p newlen,
  simplifyPath p newlen = UB <-> overrun p.
Proof.
  intros p newlen. split.
  - intros E.
    destruct p as [|c p]; [discriminate|].
    destruct (overrun_dec (c :: p)) as [H | H]; [exact H|].
    destruct (simplify_total (c :: p) newlen ltac:(discriminate) H) as (a & k & ns & E' & _). congruence.
  - intros (j & Hj & Hp).
    assert (Hb : p = [DOT] ++ only_ups j -> simplifyPath p newlen = UB).
    { intros ->. unfold simplifyPath. cbn [app skip_blanks].
      change (DOT =? 32) with false. cbn [starts_slash]. change (DOT =? SLASH) with false. cbn iota.
      assert (Es : span_level (DOT :: only_ups j) = ([DOT], only_ups j)) by (destruct j; reflexivity).
      rewrite Es. cbn [length]. rewrite only_ups_length.
      change (str_eqb [DOT] [SLASH] || (1 =? 0)%nat) with false.
      change (str_eqb [DOT] [DOT; DOT]) with false. change (str_eqb [DOT] [DOT]) with true. cbv iota.
      replace (Nat.max 8 (S (3 * j) + 1) <? 1 + 1)%nat with false by lia.
      rewrite ups_loop_ub; [reflexivity | lia | lia | lia | discriminate | cbn; lia | cbn [length]; lia]. }
    assert (Hb2 : p = [DOT; DOT] ++ only_ups j -> simplifyPath p newlen = UB).
    { intros ->. unfold simplifyPath. cbn [app skip_blanks].
      change (DOT =? 32) with false. cbn [starts_slash]. change (DOT =? SLASH) with false. cbn iota.
      assert (Es : span_level (DOT :: DOT :: only_ups j) = ([DOT; DOT], only_ups j)) by (destruct j; reflexivity).
      rewrite Es. cbn [length]. rewrite only_ups_length.
      change (str_eqb [DOT; DOT] [SLASH] || (2 =? 0)%nat) with false.
      change (str_eqb [DOT; DOT] [DOT; DOT]) with true. cbv iota.
      replace (Nat.max 8 (S (S (3 * j)) + 1) <? 2 + 1)%nat with false by lia.
      rewrite ups_loop_ub; [reflexivity | lia | lia | lia | discriminate | cbn; lia | cbn [length]; lia]. }
    destruct Hp; auto.
Qed.
Print Assumptions C17_overrun_exact.

(** ** The claims *)
Lemma walk_result abs k ns cwd : Forall good ns ->
  is_abs (result abs k ns) = abs /\ walk cwd (result abs k ns) = base abs k cwd ++ ns.
Proof.
  intros F. unfold result.
  destruct (pre abs k ++ join ns) as [|c s] eqn:E.
  - destruct abs; [discriminate|]. apply app_eq_nil in E. destruct E as [E1 E2].
    cbn [pre] in E1. destruct k; [|discriminate].
    destruct ns as [|n ns].
    + split; [reflexivity|]. cbn. now rewrite app_nil_r.
    + inversion F; subst. destruct (good_head n H1) as (c & n' & -> & _). discriminate.
  - rewrite <- E. clear c s E. unfold walk.
    destruct abs; cbn [pre].
    + change (is_abs ([SLASH] ++ join ns)) with true. split; [reflexivity|].
      cbn [app]. rewrite fold_split_slash. now rewrite fold_join.
    + assert (A : is_abs (ups k ++ join ns) = false).
      { destruct k; [|reflexivity]. cbn [ups repeat concat app]. destruct ns as [|n ns]; [reflexivity|].
        inversion F; subst. destruct (good_head n H1) as (c & n' & -> & Hc). cbn. lia. }
      rewrite A. split; [reflexivity|]. rewrite fold_ups. now rewrite fold_join.
Qed.

(** The result denotes the same object as the input: same kind, and from every
    working directory the same normalised component list.  (Leading blanks are
    dropped first; [newlen] must leave room for one character more than the
    input.) *)
Theorem C17_same_object : forall p newlen q,
  skip_blanks p <> [] -> (length p + 1 < newlen)%nat ->
  simplifyPath p newlen = Ok (Some q) ->
  is_abs q = is_abs (skip_blanks p) /\
  forall cwd, walk cwd q = walk cwd (skip_blanks p).
Proof.
  intros p newlen q Hp Hlen E.
  assert (Hne : p <> []) by (intros ->; easy).
  destruct (overrun_dec p) as [Ho | Hno].
  { apply (C17_overrun_exact p newlen) in Ho. congruence. }
  destruct (simplify_total p newlen Hne Hno) as (abs & k & ns & E' & F & L & Hsem & _).
  rewrite E' in E. injection E as <-. rewrite firstn_big by lia.
  destruct (Hsem Hp) as (-> & Hw).
  split; [apply (walk_result _ _ _ [] F)|]. intros cwd. rewrite Hw. now apply walk_result.
Qed.
Print Assumptions C17_same_object.

(** Outside the overrunning inputs the call is defined, and the result is "."
    or canonical: the root or some "../", then names that are neither empty,
    ".", nor "..", separated by single slashes.  It is at most one character
    longer than the input. *)
Theorem C17_canonical : forall p newlen, p <> [] -> ~ overrun p -> (length p + 1 < newlen)%nat ->
  exists q, simplifyPath p newlen = Ok (Some q) /\ (length q <= length p + 1)%nat /\
    (q = [DOT] \/ exists k ns, Forall good ns /\ (q = SLASH :: join ns \/ q = ups k ++ join ns)).
Proof.
  intros p newlen Hne Hno Hlen.
  destruct (simplify_total p newlen Hne Hno) as (abs & k & ns & E' & F & L & _).
  rewrite firstn_big in E' by lia. exists (result abs k ns). split; [exact E'|]. split; [exact L|].
  unfold result. destruct (pre abs k ++ join ns) as [|c s] eqn:E; [now left|].
  right. exists k, ns. split; [exact F|]. rewrite <- E. destruct abs; [left | right]; reflexivity.
Qed.
Print Assumptions C17_canonical.

(** The output never exceeds the buffer ([newlen] includes the NUL). *)
Theorem C17_output_bounded : forall p newlen q,
  simplifyPath p newlen = Ok (Some q) -> (length q <= newlen - 1)%nat.
Proof.
  intros p newlen q E. destruct p as [|c p]; [discriminate|].
  destruct (overrun_dec (c :: p)) as [Ho | Hno].
  { apply (C17_overrun_exact (c :: p) newlen) in Ho. congruence. }
  destruct (simplify_total (c :: p) newlen ltac:(discriminate) Hno) as (abs & k & ns & E' & _).
  rewrite E' in E. injection E as <-. rewrite firstn_length. lia.
Qed.
Print Assumptions C17_output_bounded.

(** "../../.." overruns the buffer [prefix] by one byte. *)
Theorem C17_overrun_refuted : exists p, skip_blanks p = p /\ simplifyPath p 512 = UB.
Proof.
  exists [DOT;DOT;SLASH;DOT;DOT;SLASH;DOT;DOT]. split; [reflexivity|]. vm_compute. reflexivity.
Qed.
Print Assumptions C17_overrun_refuted.

(** A path consisting of blanks only becomes the root directory, although it
    is not absolute. *)
Theorem C17_blank_path_refuted : exists p q,
  simplifyPath p 512 = Ok (Some q) /\ is_abs p = false /\ is_abs q = true.
Proof. exists [32; 32], [SLASH]. repeat split. Qed.
Print Assumptions C17_blank_path_refuted.

(** *** Joining a directory and a file name *)
Lemma split_app a b : split (a ++ SLASH :: b) = split a ++ split b.
Proof.
  induction a as [|c a IH]; [reflexivity|]. cbn [app split].
  destruct (c =? SLASH); [now rewrite IH|]. rewrite IH.
  destruct (split a) as [|w ws] eqn:E; [|reflexivity].
  exfalso. destruct a; cbn in E; [discriminate|]. destruct (_ =? _); [discriminate|].
  destruct (split a); discriminate.
Qed.

(** The combined name denotes [fname] looked up in the directory denoted by
    [path], or [fname] itself when it is absolute. *)
Theorem C17_combine : forall path fname maxlen q cwd,
  path <> [] -> skip_blanks path = path -> skip_blanks fname = fname -> fname <> [] ->
  (length path + length fname + 2 < maxlen)%nat ->
  combine_path_filename path fname maxlen = Ok (Some q) ->
  walk cwd q = (if is_abs fname then walk cwd fname
                else fold_left step (split fname) (walk cwd path)).
Proof.
  intros path fname maxlen q cwd Hp Hbp Hbf Hf Hlen E. unfold combine_path_filename in E.
  unfold is_abs. destruct (starts_slash fname) eqn:A.
  - rewrite firstn_big in E by lia. rewrite <- Hbf in Hf.
    destruct (C17_same_object fname maxlen q Hf ltac:(lia) E) as [_ H].
    rewrite H. now rewrite Hbf.
  - rewrite firstn_big in E by (rewrite app_length; cbn [length]; lia).
    assert (Hsb : skip_blanks (path ++ SLASH :: fname) = path ++ SLASH :: fname).
    { destruct path as [|c path]; [easy|]. cbn [app skip_blanks] in *.
      destruct (c =? 32) eqn:C; [|reflexivity]. exfalso.
      destruct (skip_blanks_spec path) as [b Eb]. rewrite Hbp in Eb.
      apply (f_equal (@length Z)) in Eb. rewrite app_length in Eb. cbn [length] in Eb. lia. }
    destruct (C17_same_object (path ++ SLASH :: fname) maxlen q) as [_ H].
    + rewrite Hsb. destruct path; [easy | discriminate].
    + rewrite app_length. cbn [length]. lia.
    + exact E.
    + rewrite H, Hsb. unfold walk. rewrite split_app, fold_left_app.
      replace (is_abs (path ++ SLASH :: fname)) with (is_abs path) by (destruct path; [easy | reflexivity]).
      reflexivity.
Qed.
Print Assumptions C17_combine.

(** "././foo/../foo/a" becomes "foo/a" (the example of the documentation). *)
Example C17_example :
  simplifyPath [46;47;46;47;102;47;46;46;47;102;47;97] 100 = Ok (Some [102;47;97]) /\
  simplifyPath [47;104;47;46;47;47;102;47;46;46;47;46;46;47;46;46;47;97] 100 = Ok (Some [47;97]) /\
  simplifyPath [102;47;46;46;47;46;46;47;97] 100 = Ok (Some [46;46;47;97]) /\
  ~ overrun [46;47;46;47;102;47;46;46;47;102;47;97].
Proof.
  repeat split; try reflexivity. intros C. apply (C17_overrun_exact _ 100) in C. discriminate.
Qed.
