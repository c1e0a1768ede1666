(** Model of the path utilities of /repo/src/tools.c:116-281.

    A path is the list of its character codes (without the NUL).  The scratch
    buffers [newcpy], [prefix] and [level] have [cap] bytes each; a store
    outside of them is UB.  [newcpy] is represented by the offset of [head] and
    the characters between [head] and [tail] ([body]); the characters before
    [head] are dead. *)
From Coq Require Import ZArith List Lia Bool ZifyBool ZifyNat.
From Verif Require Import CBase Text TextLem.
Import ListNotations.
Local Open Scope Z_scope.

Definition SLASH : Z := 47.
Definition DOT : Z := 46.

(** src/tools.c:140: the loop that skips leading blanks. *)
Fixpoint skip_blanks (s : str) : str :=
  match s with c :: s' => if c =? 32 then skip_blanks s' else s | [] => [] end.

(** Characters up to the next ['/'] or the end, and the rest
    (src/tools.c:145-148, 206-209). *)
Fixpoint span_level (s : str) : str * str :=
  match s with
  | [] => ([], [])
  | c :: s' => if c =? SLASH then ([], s)
               else let '(w, r) := span_level s' in (c :: w, r)
  end.
(** src/tools.c:204: the loop that skips repeated slashes. *)
Fixpoint skip_slashes (s : str) : str :=
  match s with c :: s' => if c =? SLASH then skip_slashes s' else s | [] => [] end.

(** src/tools.c:197-215 [getNextLevel]: level and remaining path. *)
Definition getNextLevel (cap : nat) (path : str) : outcome (str * str) :=
  match path with
  | [] => UB
  | c :: p =>
      let '(w, r) := span_level (skip_slashes p) in
      if (length (c :: w) + 1 <=? cap)%nat then Ok (c :: w, r) else UB
  end.

(** src/tools.c:217-225 [goLower]: append [level] (a do-while loop: an empty
    level would copy its terminator and run on). *)
Definition goLower (cap off : nat) (body level : str) : outcome str :=
  match level with
  | [] => UB
  | _ => if (off + length body + length level + 1 <=? cap)%nat then Ok (body ++ level) else UB
  end.

(** src/tools.c:235: move [tail] back to the last ['/'] or to [head]. *)
Fixpoint drop_to_slash (r : str) : str :=
  match r with [] => [] | c :: r' => if c =? SLASH then r' else drop_to_slash r' end.
Definition cut_last (body : str) : str := rev (drop_to_slash (rev body)).

(** src/tools.c:228-239 [goUpper]: new body and prefix. *)
Definition goUpper (cap : nat) (body prefix : str) : outcome (str * str) :=
  if (match body with [] => true | _ => false end) && negb (str_eqb prefix [SLASH])
  then if (length prefix + 3 + 1 <=? cap)%nat
       then Ok (cut_last body, prefix ++ [DOT; DOT; SLASH]) else UB
  else Ok (cut_last body, prefix).

(** src/tools.c:166-176, the loop over the levels. *)
Fixpoint sp_loop (fuel cap off : nat) (path body prefix : str) : outcome (str * str) :=
  match fuel with
  | O => Ok (body, prefix)
  | S f =>
    match path with
    | [] => Ok (body, prefix)
    | _ =>
      do lr <- getNextLevel cap path ;
      let '(level, rest) := lr in
      if str_eqb level [SLASH; DOT] || str_eqb level [SLASH]
      then sp_loop f cap off rest body prefix
      else if str_eqb level [SLASH; DOT; DOT]
      then do bp <- goUpper cap body prefix ; sp_loop f cap off rest (fst bp) (snd bp)
      else do b <- goLower cap off body level ; sp_loop f cap off rest b prefix
    end
  end.

(** src/tools.c:178-180: skip all but one leading ['/']. *)
Fixpoint one_slash (b : str) : str :=
  match b with
  | [] => []
  | c :: b' => match b' with
               | d :: _ => if (c =? SLASH) && (d =? SLASH) then one_slash b' else b
               | [] => b
               end
  end.
Definition ends_slash (p : str) : bool :=
  match rev p with c :: _ => c =? SLASH | [] => false end.
Definition starts_slash (p : str) : bool :=
  match p with c :: _ => c =? SLASH | [] => false end.
Definition starts_dotslash (p : str) : bool :=
  match p with c :: d :: _ => (c =? DOT) && (d =? SLASH) | _ => false end.

(** src/tools.c:116-195 [simplifyPath].  [None]: the path was empty and
    [newpath] is left alone. *)
Definition simplifyPath (path : str) (newlen : nat) : outcome (option str) :=
  match path with
  | [] => Ok None
  | _ =>
    let cap := Nat.max 8 (length path + 1) in
    let path := skip_blanks path in
    let '(first, rest) := if starts_slash path then ([], path) else span_level path in
    let '(body, off, prefix) :=
      if str_eqb first [SLASH] || (length first =? 0)%nat then (first, 0%nat, [SLASH])
      else if str_eqb first [DOT; DOT] then ([], 2%nat, [DOT; DOT; SLASH])
      else if str_eqb first [DOT] then ([], 1%nat, [DOT; SLASH])
      else (first, 0%nat, [DOT; SLASH]) in
    if (cap <? length first + 1)%nat then UB else
    do bp <- sp_loop (length rest) cap off rest body prefix ;
    let '(body, prefix) := bp in
    let h := one_slash body in
    let h := if (0 <? length prefix)%nat && ends_slash prefix && starts_slash h then tl h else h in
    let prefix_head := if starts_dotslash prefix then skipn 2 prefix else prefix in
    if (length prefix_head =? 0)%nat && (length h =? 0)%nat
    then if (off + (length body - length h) + 2 <=? cap)%nat
         then Ok (Some (firstn (newlen - 1) [DOT])) else UB
    else Ok (Some (firstn (newlen - 1) (prefix_head ++ h)))
  end.

(** src/tools.c:249-258 [extract_path_from_file]: the part before the last
    ['/'], "." if there is none ([maxlen] is not checked in the second case;
    [pathcap] is the size of the destination). *)
Fixpoint before_last_slash (s : str) : option str :=
  match s with
  | [] => None
  | c :: s' => match before_last_slash s' with
               | Some p => Some (c :: p)
               | None => if c =? SLASH then Some [] else None
               end
  end.
Definition extract_path_from_file (pathcap : nat) (filename : str) : outcome str :=
  match before_last_slash filename with
  | None => Ok [DOT]
  | Some p => if (length p + 1 <=? pathcap)%nat then Ok p else UB
  end.

(** src/tools.c:272-281 [combine_path_filename]. *)
Definition combine_path_filename (path fname : str) (maxlen : nat) : outcome (option str) :=
  let joined := if starts_slash fname then fname else path ++ SLASH :: fname in
  simplifyPath (firstn (maxlen - 1) joined) maxlen.

(** * Specification: what a path denotes *)
(** Components between slashes. *)
Fixpoint split (s : str) : list str :=
  match s with
  | [] => [[]]
  | c :: s' => if c =? SLASH then [] :: split s'
               else match split s' with w :: ws => (c :: w) :: ws | [] => [[c]] end
  end.
(** Walking one component from directory [d] (list of names from the root):
    "" and "." stay, ".." goes to the parent (the parent of the root is the
    root), anything else descends. *)
Definition step (d : list str) (c : str) : list str :=
  if str_eqb c [] || str_eqb c [DOT] then d
  else if str_eqb c [DOT; DOT] then removelast d
  else d ++ [c].
Definition is_abs (p : str) : bool := starts_slash p.
Definition walk (cwd : list str) (p : str) : list str :=
  fold_left step (split p) (if is_abs p then [] else cwd).

(** * Lemmas *)
Definition noslash (w : str) : Prop := ~ In SLASH w.
Definition good (n : str) : Prop := n <> [] /\ n <> [DOT] /\ n <> [DOT; DOT] /\ noslash n.
Definition slashed (ns : list str) : str := flat_map (fun n => SLASH :: n) ns.

Lemma str_eqb_neq a b : a <> b -> str_eqb a b = false.
Proof. intros H. destruct (str_eqb a b) eqn:E; [|reflexivity]. apply str_eqb_eq in E. easy. Qed.

Lemma split_noslash w : noslash w -> split w = [w].
Proof.
  unfold noslash; induction w as [|c w IH]; intros H; [reflexivity|]. cbn [split].
  replace (c =? SLASH) with false by (assert (c <> SLASH) by (intros ->; apply H; now left); lia).
  rewrite IH; [reflexivity|]. intros G; apply H; now right.
Qed.
Lemma split_app_slash w r : noslash w -> split (w ++ SLASH :: r) = w :: split r.
Proof.
  unfold noslash; induction w as [|c w IH]; intros H; cbn [app split]; [reflexivity|].
  replace (c =? SLASH) with false by (assert (c <> SLASH) by (intros ->; apply H; now left); lia).
  rewrite IH; [reflexivity|]. intros G; apply H; now right.
Qed.
Definition slash_or_end (r : str) : Prop := r = [] \/ exists r', r = SLASH :: r'.
Lemma fold_split w r d : noslash w -> slash_or_end r ->
  fold_left step (split (w ++ r)) d = fold_left step (split r) (step d w).
Proof.
  intros Hw [-> | [r' ->]].
  - rewrite app_nil_r, (split_noslash w Hw). reflexivity.
  - rewrite (split_app_slash w r' Hw). change (SLASH :: r') with ([] ++ SLASH :: r').
    rewrite split_app_slash by (intros []). reflexivity.
Qed.
Lemma fold_split_slash r d : fold_left step (split (SLASH :: r)) d = fold_left step (split r) d.
Proof. reflexivity. Qed.

Lemma span_spec s : let '(w, r) := span_level s in
  s = w ++ r /\ noslash w /\ slash_or_end r.
Proof.
  induction s as [|c s IH]; cbn [span_level].
  - repeat split; [intros [] | now left].
  - destruct (c =? SLASH) eqn:E.
    + split; [reflexivity|]. split; [intros []|]. right. exists s. f_equal. lia.
    + destruct (span_level s) as [w r]. destruct IH as (-> & H1 & H2).
      split; [reflexivity|]. split; [|exact H2]. intros [G | G]; [lia | now apply H1].
Qed.
Lemma skip_slashes_fold s d :
  fold_left step (split s) d = fold_left step (split (skip_slashes s)) d.
Proof.
  revert d; induction s as [|c s IH]; intros d; cbn [skip_slashes]; [reflexivity|].
  destruct (c =? SLASH) eqn:E; [|reflexivity].
  replace c with SLASH by lia. rewrite fold_split_slash. apply IH.
Qed.
Lemma skip_slashes_len s : (length (skip_slashes s) <= length s)%nat.
Proof. induction s as [|c s IH]; cbn [skip_slashes length]; [lia|]. destruct (_ =? _); cbn [length]; lia. Qed.
Lemma skip_slashes_eq s : length (skip_slashes s) = length s -> skip_slashes s = s.
Proof.
  destruct s as [|c s]; cbn [skip_slashes length]; [reflexivity|]. destruct (_ =? _); [|reflexivity].
  pose proof (skip_slashes_len s). lia.
Qed.

(** ** Representation of the loop state *)
Definition bodyrep (body : str) (ns : list str) : Prop :=
  Forall good ns /\
  (body = slashed ns \/ exists n ns', ns = n :: ns' /\ body = n ++ slashed ns').
Definition ups (k : nat) : str := concat (repeat [DOT; DOT; SLASH] k).
(** [prefrep prefix abs k]: the prefix stands for the root ([abs]) or for the
    k-th parent of the working directory. *)
Definition prefrep (prefix : str) (abs : bool) (k : nat) : Prop :=
  if abs then prefix = [SLASH]
  else prefix = [DOT; SLASH] ++ ups k \/ (prefix = ups k /\ (1 <= k)%nat).
Fixpoint parent (k : nat) (d : list str) : list str :=
  match k with O => d | S k' => removelast (parent k' d) end.
Definition base (abs : bool) (k : nat) (cwd : list str) : list str :=
  if abs then [] else parent k cwd.

Lemma ups_S k : ups (S k) = ups k ++ [DOT; DOT; SLASH].
Proof.
  unfold ups. replace (S k) with (k + 1)%nat by lia. rewrite repeat_app, concat_app. reflexivity.
Qed.
Lemma slashed_app a b : slashed (a ++ b) = slashed a ++ slashed b.
Proof. unfold slashed. now rewrite flat_map_app. Qed.
Lemma slashed_one n : slashed [n] = SLASH :: n.
Proof. unfold slashed. cbn. now rewrite app_nil_r. Qed.
Lemma drop_to_slash_app w r : noslash w -> drop_to_slash (rev w ++ SLASH :: r) = r.
Proof.
  intros H. assert (H' : ~ In SLASH (rev w)) by (rewrite <- in_rev; exact H).
  clear H. induction (rev w) as [|c l IH]; cbn [app drop_to_slash]; [reflexivity|].
  replace (c =? SLASH) with false by (assert (c <> SLASH) by (intros ->; apply H'; now left); lia).
  apply IH. intros G; apply H'; now right.
Qed.
Lemma drop_to_slash_none w : noslash w -> drop_to_slash (rev w) = [].
Proof.
  intros H. assert (H' : ~ In SLASH (rev w)) by (rewrite <- in_rev; exact H).
  clear H. induction (rev w) as [|c l IH]; cbn [drop_to_slash]; [reflexivity|].
  replace (c =? SLASH) with false by (assert (c <> SLASH) by (intros ->; apply H'; now left); lia).
  apply IH. intros G; apply H'; now right.
Qed.
Lemma cut_last_app b w : noslash w -> cut_last (b ++ SLASH :: w) = b.
Proof.
  intros H. unfold cut_last. rewrite rev_app_distr. cbn [rev]. rewrite <- app_assoc. cbn [app].
  rewrite drop_to_slash_app by exact H. apply rev_involutive.
Qed.
Lemma cut_last_noslash w : noslash w -> cut_last w = [].
Proof. intros H. unfold cut_last. now rewrite drop_to_slash_none. Qed.

Lemma bodyrep_nil_body ns : bodyrep [] ns -> ns = [].
Proof.
  intros [F [H | (n & ns' & -> & H)]].
  - destruct ns; [reflexivity | discriminate].
  - exfalso. inversion F as [|? ? Hg _]; subst. destruct Hg as (Hn & _). destruct n; [easy | discriminate].
Qed.
Lemma bodyrep_cut body ns n : bodyrep body (ns ++ [n]) -> bodyrep (cut_last body) ns.
Proof.
  intros [F H]. apply Forall_app in F. destruct F as [F Fn].
  inversion Fn as [|? ? Hg _]; subst. destruct Hg as (_ & _ & _ & Hns).
  split; [exact F|]. destruct H as [-> | (m & ns' & E & ->)].
  - left. rewrite slashed_app, slashed_one. now apply cut_last_app.
  - destruct ns as [|x ns].
    + cbn in E. injection E as <- <-. cbn [slashed flat_map app]. rewrite app_nil_r.
      left. cbn. now apply cut_last_noslash.
    + cbn [app] in E. injection E as <- <-. right. exists x, ns. split; [reflexivity|].
      rewrite slashed_app, slashed_one, app_assoc. now apply cut_last_app.
Qed.
Lemma bodyrep_push body ns n : bodyrep body ns -> good n -> bodyrep (body ++ SLASH :: n) (ns ++ [n]).
Proof.
  intros [F H] Hn. split; [apply Forall_app; split; [exact F | now constructor]|].
  destruct H as [-> | (m & ns' & -> & ->)].
  - left. now rewrite slashed_app, slashed_one.
  - right. exists m, (ns' ++ [n]). split; [reflexivity|]. now rewrite slashed_app, slashed_one, app_assoc.
Qed.
Lemma step_good d n : good n -> step d n = d ++ [n].
Proof. intros (H1 & H2 & H3 & _). unfold step. now rewrite !str_eqb_neq by assumption. Qed.

(** The one shape of remaining path that can overrun [prefix]. *)
Definition only_ups (j : nat) : str := concat (repeat [SLASH; DOT; DOT] j).
Definition safe (cap : nat) (prefix body path : str) : Prop :=
  prefix = [SLASH] \/ (length prefix + length path < cap)%nat \/
  (length prefix + length path = cap /\ (body <> [] \/ forall j, path <> only_ups (S j)))%nat.

Lemma sp_loop_ok : forall fuel cap off path body prefix abs k ns,
  (length path <= fuel)%nat -> slash_or_end path ->
  bodyrep body ns -> prefrep prefix abs k ->
  (off + length body + length path + 1 <= cap)%nat ->
  safe cap prefix body path ->
  exists body' prefix' ns' k',
    sp_loop fuel cap off path body prefix = Ok (body', prefix') /\
    bodyrep body' ns' /\ prefrep prefix' abs k' /\
    (forall cwd, fold_left step (split path) (base abs k cwd ++ ns) = base abs k' cwd ++ ns') /\
    (off + length body' + 1 <= cap)%nat /\
    (length prefix' + length body' <= length prefix + length body + length path)%nat.
Proof.
  induction fuel as [|f IH]; intros cap off path body prefix abs k ns Hf He Hb Hp Hcap Hs.
  - assert (path = []) as -> by (destruct path; [reflexivity | cbn in Hf; lia]).
    exists body, prefix, ns, k. cbn. repeat split; try apply Hb; auto; lia.
  - destruct He as [-> | [p ->]].
    + exists body, prefix, ns, k. cbn. repeat split; try apply Hb; auto; lia.
    + cbn [sp_loop]. unfold getNextLevel.
      pose proof (span_spec (skip_slashes p)) as Hsp.
      destruct (span_level (skip_slashes p)) as [w r].
      destruct Hsp as (Ep & Hw & Hr).
      pose proof (skip_slashes_len p) as Hsl.
      assert (Elen : (length w + length r <= length p)%nat)
        by (rewrite Ep, app_length in Hsl; lia).
      cbn [length] in Hcap, Hf.
      assert (Hlr : (length r <= f)%nat) by lia.
      assert (Hfold : forall d, fold_left step (split (SLASH :: p)) d = fold_left step (split r) (step d w)).
      { intros d. rewrite fold_split_slash, skip_slashes_fold, Ep. now apply fold_split. }
      replace (length (SLASH :: w) + 1 <=? cap)%nat with true by (cbn [length]; lia).
      cbn [obind].
      assert (Hsafe_strict : forall b, (length r < length p + 1)%nat -> safe cap prefix b r).
      { intros b Hlt. unfold safe in *. cbn [length] in Hs.
        destruct Hs as [Hs | [Hs | [Hs _]]]; [now left | right; left; lia | right; left; lia]. }
      destruct (str_eqb (SLASH :: w) [SLASH; DOT] || str_eqb (SLASH :: w) [SLASH]) eqn:B1.
      * (* "/." or "/" *)
        assert (Hid : forall d, step d w = d).
        { intros d. unfold step. apply orb_true_iff in B1. destruct B1 as [B | B];
            apply str_eqb_eq in B; injection B as ->; reflexivity. }
        destruct (IH cap off r body prefix abs k ns Hlr Hr Hb Hp) as
          (b' & p' & ns' & k' & E & R1 & R2 & R3 & R4 & R5); [lia | apply Hsafe_strict; lia |].
        exists b', p', ns', k'. split; [exact E|]. split; [exact R1|]. split; [exact R2|].
        split; [|split; [exact R4 | cbn [length]; lia]].
        intros cwd. rewrite Hfold, Hid. apply R3.
      * destruct (str_eqb (SLASH :: w) [SLASH; DOT; DOT]) eqn:B2.
        -- (* "/.." *)
           apply str_eqb_eq in B2. injection B2 as ->.
           cbn [length] in Elen. unfold goUpper.
           destruct body as [|b0 bd].
           ++ pose proof (bodyrep_nil_body ns Hb) as ->.
              destruct abs.
              ** unfold prefrep in Hp. subst prefix. rewrite str_eqb_refl. cbn [negb andb obind fst snd].
                 destruct (IH cap off r (cut_last []) [SLASH] true k [] Hlr Hr Hb eq_refl)
                   as (b' & p' & ns' & k' & E & R1 & R2 & R3 & R4 & R5); [cbn [length] in *; cbn; lia | now left |].
                 exists b', p', ns', k'. split; [exact E|]. split; [exact R1|]. split; [exact R2|].
                 split; [|split; [exact R4 | cbn [length cut_last rev drop_to_slash] in *; lia]].
                 intros cwd. rewrite Hfold. apply R3.
              ** assert (Hpne : prefix <> [SLASH]).
                 { unfold prefrep in Hp. destruct Hp as [-> | [-> Hk]]; [discriminate|].
                   destruct k; [lia|]. unfold ups. cbn. discriminate. }
                 rewrite (str_eqb_neq _ _ Hpne). cbn [negb andb].
                 assert (Hroom : (length prefix + 3 + 1 <= cap)%nat /\ safe cap (prefix ++ [DOT;DOT;SLASH]) [] r).
                 { unfold safe in Hs |- *. rewrite app_length. cbn [length] in *.
                   destruct Hs as [Hs | [Hs | [Hs [C | Hj]]]]; [easy | | easy |].
                   - split; [lia|]. right. left. lia.
                   - destruct (Nat.eq_dec (length r + 2) (length p)) as [El | Nl].
                     + assert (skip_slashes p = p) as Esk.
                       { apply skip_slashes_eq. rewrite Ep, app_length. cbn [length]. lia. }
                       rewrite Esk in Ep. subst p.
                       assert (Hrj : forall j, r <> only_ups j).
                       { intros j ->. apply (Hj j). reflexivity. }
                       assert (r <> []) by (intros ->; apply (Hrj O); reflexivity).
                       assert (1 <= length r)%nat by (destruct r; [easy | cbn; lia]).
                       split; [lia|]. right. right. split; [lia|]. right. intros j. apply Hrj.
                     + split; [lia|]. right. left. lia. }
                 destruct Hroom as (Hroom & Hsafe').
                 replace (length prefix + 3 + 1 <=? cap)%nat with true by lia. cbn [obind fst snd].
                 destruct (IH cap off r (cut_last []) (prefix ++ [DOT;DOT;SLASH]) false (S k) [] Hlr Hr Hb)
                   as (b' & p' & ns' & k' & E & R1 & R2 & R3 & R4 & R5);
                   [ | cbn [length cut_last rev drop_to_slash] in *; lia | exact Hsafe' | ].
                 { unfold prefrep in *. rewrite ups_S. destruct Hp as [-> | [-> Hk]];
                     [left; now rewrite app_assoc | right; split; [reflexivity | lia]]. }
                 exists b', p', ns', k'. split; [exact E|]. split; [exact R1|]. split; [exact R2|].
                 split; [|split; [exact R4 | rewrite app_length in R5; cbn [length cut_last rev drop_to_slash] in *; lia]].
                 intros cwd. rewrite Hfold. rewrite <- R3. f_equal. rewrite !app_nil_r. reflexivity.
           ++ cbn [andb obind fst snd].
              assert (Hns : ns <> []).
              { intros ->. destruct Hb as [_ [C | (n & ns' & C & _)]]; discriminate. }
              destruct (exists_last Hns) as (ns0 & n & ->).
              pose proof (bodyrep_cut _ _ _ Hb) as Hb'.
              assert (Lc : (length (cut_last (b0 :: bd)) <= length (b0 :: bd))%nat).
              { unfold cut_last. rewrite rev_length. rewrite <- (rev_length (b0 :: bd)).
                generalize (rev (b0 :: bd)) as l. clear.
                induction l as [|c l IH]; cbn [drop_to_slash length]; [lia|]. destruct (c =? SLASH); lia. }
              cbn [length] in Lc, Hcap.
              destruct (IH cap off r (cut_last (b0 :: bd)) prefix abs k ns0 Hlr Hr Hb' Hp)
                as (b' & p' & ns' & k' & E & R1 & R2 & R3 & R4 & R5);
                [lia | apply Hsafe_strict; lia |].
              exists b', p', ns', k'. split; [exact E|]. split; [exact R1|]. split; [exact R2|].
              split; [|split; [exact R4 | cbn [length] in *; lia]].
              intros cwd. rewrite Hfold. rewrite <- R3. f_equal.
              rewrite app_assoc. change (step ?d [DOT; DOT]) with (removelast d). apply removelast_last.
        -- (* a name *)
           apply orb_false_iff in B1. destruct B1 as [B1 B3].
           assert (Hg : good w).
           { split; [intros ->; rewrite str_eqb_refl in B3; discriminate|].
             split; [intros ->; rewrite str_eqb_refl in B1; discriminate|].
             split; [intros ->; rewrite str_eqb_refl in B2; discriminate | exact Hw]. }
           unfold goLower. replace (_ <=? cap)%nat with true by (cbn [length]; lia).
           cbn [obind].
           pose proof (bodyrep_push _ _ _ Hb Hg) as Hb'.
           destruct (IH cap off r (body ++ SLASH :: w) prefix abs k (ns ++ [w]) Hlr Hr Hb' Hp)
             as (b' & p' & ns' & k' & E & R1 & R2 & R3 & R4 & R5);
             [rewrite app_length; cbn [length]; lia | apply Hsafe_strict; lia |].
           exists b', p', ns', k'. split; [exact E|]. split; [exact R1|]. split; [exact R2|].
           split; [|split; [exact R4 | rewrite app_length in R5; cbn [length] in *; lia]].
           intros cwd. rewrite Hfold. rewrite <- R3. f_equal. rewrite (step_good _ _ Hg). now rewrite app_assoc.
Qed.
