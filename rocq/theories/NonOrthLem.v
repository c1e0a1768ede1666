(** Lemmas on NonOrth.v: tables, matching, the exchange. *)
From Coq Require Import ZArith List Bool Lia FinFun Ring.
From Coq Require Import ZifyBool.
From Verif Require Import CBase BlockDecomp Text Collect P_Collect Halo HaloLem P_Halo NonOrth.
Import ListNotations.
Local Open Scope Z_scope.

Definition tern (c : Z) : Prop := c = -1 \/ c = 0 \/ c = 1.
Lemma in26 s : In s slots26 <-> (s < 26)%nat.
Proof. unfold slots26. rewrite in_seq. lia. Qed.
Lemma all26 (P : nat -> Prop) : Forall P slots26 -> forall s, (s < 26)%nat -> P s.
Proof. intros H s Hs. rewrite Forall_forall in H. apply H. apply in26. exact Hs. Qed.
Lemma off_tern s d : (s < 26)%nat -> (d < 3)%nat -> tern (at_ (off_of s) d).
Proof.
  intros Hs Hd. revert s Hs. apply (all26 (fun s => tern (at_ (off_of s) d))).
  unfold tern. destruct d as [|[|[|]]]; try lia; cbv [slots26 seq];
  repeat (apply Forall_cons; [first [left; reflexivity | right; left; reflexivity | right; right; reflexivity]|]); apply Forall_nil.
Qed.
Lemma off_nonzero s : (s < 26)%nat -> off_of s <> (0, 0, 0).
Proof. revert s. apply (all26 (fun s => off_of s <> (0, 0, 0))). cbv [slots26 seq]. repeat (apply Forall_cons; [intro H; vm_compute in H; discriminate H|]). apply Forall_nil. Qed.
(** the slot of an offset *)
Definition idx27 (o : pt) : Z := (at_ o 2 + 1) * 9 + (at_ o 1 + 1) * 3 + (at_ o 0 + 1).
Definition slot_of (o : pt) : nat := Z.to_nat (if idx27 o <? 13 then idx27 o else idx27 o - 1).
Lemma slot_off o : (forall d, (d < 3)%nat -> tern (at_ o d)) -> o <> (0, 0, 0) -> (slot_of o < 26)%nat /\ off_of (slot_of o) = o.
Proof.
  intros H N. pose proof (H 0%nat ltac:(lia)) as H0. pose proof (H 1%nat ltac:(lia)) as H1. pose proof (H 2%nat ltac:(lia)) as H2.
  destruct o as [[i j] k]. cbn [at_] in *. unfold tern in *.
  destruct H0 as [-> | [-> | ->]], H1 as [-> | [-> | ->]], H2 as [-> | [-> | ->]];
    (split; [cbv; lia|]); try reflexivity; exfalso; apply N; reflexivity.
Qed.

(** ** The tables *)
(** start and end of a send block in one dimension; rv: left and right exchanged *)
Definition st1 (rv : bool) (o F n : Z) : Z := if (o =? 0) then 0 else if Bool.eqb rv (o =? -1) then n - F else 0.
Definition en1 (rv : bool) (o F n : Z) : Z := if (o =? 0) then n else if Bool.eqb rv (o =? -1) then n else F.
Definition sti (o F n : Z) : Z := if o =? -1 then 0 else if o =? 0 then F else n + F.
Definition eni (o F n : Z) : Z := if o =? -1 then F else if o =? 0 then n + F else n + F + F.
Definition sw (dims : pt) (per : nat -> bool) (d : nat) : bool := negb ((2 <? at_ dims d) || negb (per d)).
Definition rev_ (np : Z) (dims : pt) (per : nat -> bool) (d : nat) : bool := if 1 <? np then sw dims per d else true.

Lemma start_tab_ok np dims per F n s d : (s < 26)%nat -> (d < 3)%nat ->
  nth s (start_tab np dims per F n d) 0 = st1 (rev_ np dims per d) (at_ (off_of s) d) F (at_ n d).
Proof.
  intros Hs Hd. revert s Hs. apply (all26 (fun s => nth s (start_tab np dims per F n d) 0 = st1 (rev_ np dims per d) (at_ (off_of s) d) F (at_ n d))).
  unfold rev_, sw, start_tab. cbv zeta. destruct d as [|[|[|]]]; try lia;
  (destruct (1 <? np); [destruct ((2 <? _) || _)|]); cbv [slots26 seq]; repeat (apply Forall_cons; [reflexivity|]); apply Forall_nil.
Qed.
Lemma end_tab_ok np dims per F n s d : (s < 26)%nat -> (d < 3)%nat ->
  nth s (end_tab np dims per F n d) 0 = en1 (rev_ np dims per d) (at_ (off_of s) d) F (at_ n d).
Proof.
  intros Hs Hd. revert s Hs. apply (all26 (fun s => nth s (end_tab np dims per F n d) 0 = en1 (rev_ np dims per d) (at_ (off_of s) d) F (at_ n d))).
  unfold rev_, sw, end_tab. cbv zeta. destruct d as [|[|[|]]]; try lia;
  (destruct (1 <? np); [destruct ((2 <? _) || _)|]); cbv [slots26 seq]; repeat (apply Forall_cons; [reflexivity|]); apply Forall_nil.
Qed.
Lemma start_in_tab_ok np F n s d : (s < 26)%nat -> (d < 3)%nat ->
  nth s (start_in_tab np F n d) 0 = sti (at_ (off_of s) d) F (at_ n d).
Proof.
  intros Hs Hd. revert s Hs. apply (all26 (fun s => nth s (start_in_tab np F n d) 0 = sti (at_ (off_of s) d) F (at_ n d))).
  unfold start_in_tab. destruct d as [|[|[|]]]; try lia;
  (destruct (1 <? np)); cbv [slots26 seq]; repeat (apply Forall_cons; [reflexivity|]); apply Forall_nil.
Qed.
Lemma end_in_tab_ok np F n s d : (s < 26)%nat -> (d < 3)%nat ->
  nth s (end_in_tab np F n d) 0 = eni (at_ (off_of s) d) F (at_ n d).
Proof.
  intros Hs Hd. revert s Hs. apply (all26 (fun s => nth s (end_in_tab np F n d) 0 = eni (at_ (off_of s) d) F (at_ n d))).
  unfold end_in_tab. destruct d as [|[|[|]]]; try lia;
  (destruct (1 <? np)); cbv [slots26 seq]; repeat (apply Forall_cons; [reflexivity|]); apply Forall_nil.
Qed.
Definition live (per : nat -> bool) (o : pt) : bool :=
  ((at_ o 0 =? 0) || per 0%nat) && ((at_ o 1 =? 0) || per 1%nat) && ((at_ o 2 =? 0) || per 2%nat).
Lemma isnonzero_ok per s : (s < 26)%nat -> nth s (isnonzero per) false = live per (off_of s).
Proof.
  revert s. apply (all26 (fun s => nth s (isnonzero per) false = live per (off_of s))).
  unfold isnonzero, live. destruct (per 0%nat), (per 1%nat), (per 2%nat); cbv [slots26 seq]; repeat (apply Forall_cons; [reflexivity|]); apply Forall_nil.
Qed.

(** ** Matching *)
Definition tri (m : bool * bool * bool) (c : Z) : bool :=
  let '(a, b, e) := m in if c =? -1 then a else if c =? 0 then b else e.
Definition tri_rev (m : bool * bool * bool) : bool * bool * bool := let '(a, b, e) := m in (e, b, a).
Definition tri_ok (s : bool) (m : bool * bool * bool) : bool :=
  let '(a, b, e) := m in if s then Bool.eqb a e else negb (a && b) && negb (a && e) && negb (b && e).
Definition bools : list bool := [false; true].
Definition tris : list (bool * bool * bool) := flat_map (fun a => flat_map (fun b => map (fun e => (a, b, e)) bools) bools) bools.
Definition sel (m0 m1 m2 : bool * bool * bool) (s : nat) : bool :=
  tri m0 (at_ (off_of s) 0) && tri m1 (at_ (off_of s) 1) && tri m2 (at_ (off_of s) 2).
Definition flip (s0 s1 s2 : bool) (o : pt) : pt :=
  let f (s : bool) c := if s then c else - c in (f s0 (at_ o 0), f s1 (at_ o 1), f s2 (at_ o 2)).
Definition one_case (s0 s1 s2 : bool) (m0 m1 m2 : bool * bool * bool) : bool :=
  let f (s : bool) m := if s then m else tri_rev m in
  let l := filter (sel m0 m1 m2) slots26 in
  let l' := filter (sel (f s0 m0) (f s1 m1) (f s2 m2)) slots26 in
  forallb (fun r => match nth_error l' (posn l r) with Some s => Nat.eqb s (slot_of (flip s0 s1 s2 (off_of r))) | None => false end) l.
Definition all_cases : bool :=
  forallb (fun s0 => forallb (fun m0 => if tri_ok s0 m0 then
  forallb (fun s1 => forallb (fun m1 => if tri_ok s1 m1 then
  forallb (fun s2 => forallb (fun m2 => if tri_ok s2 m2 then one_case s0 s1 s2 m0 m1 m2 else true) tris) bools else true) tris) bools else true) tris) bools.
Lemma all_cases_ok : all_cases = true.
Proof. vm_compute. reflexivity. Qed.
Lemma in_bools b : In b bools.
Proof. destruct b; cbn; tauto. Qed.
Lemma in_tris m : In m tris.
Proof. destruct m as [[a b] e]. destruct a, b, e; cbn; tauto. Qed.
Lemma case_ok s0 s1 s2 m0 m1 m2 : tri_ok s0 m0 = true -> tri_ok s1 m1 = true -> tri_ok s2 m2 = true -> one_case s0 s1 s2 m0 m1 m2 = true.
Proof.
  intros H0 H1 H2. pose proof all_cases_ok as H. unfold all_cases in H.
  rewrite forallb_forall in H. specialize (H s0 (in_bools s0)). rewrite forallb_forall in H. specialize (H m0 (in_tris m0)). rewrite H0 in H.
  rewrite forallb_forall in H. specialize (H s1 (in_bools s1)). rewrite forallb_forall in H. specialize (H m1 (in_tris m1)). rewrite H1 in H.
  rewrite forallb_forall in H. specialize (H s2 (in_bools s2)). rewrite forallb_forall in H. specialize (H m2 (in_tris m2)). rewrite H2 in H.
  exact H.
Qed.

Local Opaque slots26 off_of slot_of.
Lemma case_match s0 s1 s2 m0 m1 m2 r : tri_ok s0 m0 = true -> tri_ok s1 m1 = true -> tri_ok s2 m2 = true ->
  In r (filter (sel m0 m1 m2) slots26) ->
  nth_error (filter (sel (if s0 then m0 else tri_rev m0) (if s1 then m1 else tri_rev m1) (if s2 then m2 else tri_rev m2)) slots26)
    (posn (filter (sel m0 m1 m2) slots26) r) = Some (slot_of (flip s0 s1 s2 (off_of r))).
Proof.
  intros H0 H1 H2 Hin. pose proof (case_ok s0 s1 s2 m0 m1 m2 H0 H1 H2) as C. unfold one_case in C. cbv zeta in C.
  pose proof (proj1 (forallb_forall _ _) C r Hin) as C'. clear C. cbv beta in C'.
  revert C'. generalize (nth_error (filter (sel (if s0 then m0 else tri_rev m0) (if s1 then m1 else tri_rev m1) (if s2 then m2 else tri_rev m2)) slots26)
    (posn (filter (sel m0 m1 m2) slots26) r)). generalize (slot_of (flip s0 s1 s2 (off_of r))). intros t [s|] C; [|discriminate C].
  apply Nat.eqb_eq in C. rewrite C. reflexivity.
Qed.
Ltac split_ifs := repeat match goal with |- context [if ?b then _ else _] => let E := fresh "E" in destruct b eqn:E end.
Section Topo26.
  Variables (dims : pt) (per : nat -> bool).
  Hypothesis Hdims : forall d, (d < 3)%nat -> 1 <= at_ dims d.
  Notation coord := (coord dims per).
  Notation nbr26 := (nbr26 dims per).
  Notation okp := (okp dims).
  Notation sw := (sw dims per).

  (** the coordinate reached from c0 by one step *)
  Definition mem (d : nat) (c0 c1 c : Z) : bool :=
    match coord (set_ (0,0,0) d c0) (set_ (0,0,0) d c) d with Some x => x =? c1 | None => false end.
  Lemma coord_set p o d : (d < 3)%nat -> coord p o d = coord (set_ (0,0,0) d (at_ p d)) (set_ (0,0,0) d (at_ o d)) d.
  Proof. intros Hd. unfold NonOrth.coord. rewrite !at_set by exact Hd. rewrite Nat.eqb_refl. reflexivity. Qed.
  Lemma mem_spec d c0 c1 c : (d < 3)%nat -> mem d c0 c1 c =
    if per d then ((if c0 + c <? 0 then c0 + c + at_ dims d else if at_ dims d <=? c0 + c then c0 + c - at_ dims d else c0 + c) =? c1)
    else if (c0 + c <? 0) || (at_ dims d <=? c0 + c) then false else c0 + c =? c1.
  Proof. intros Hd. unfold mem, NonOrth.coord. rewrite !at_set by exact Hd. rewrite Nat.eqb_refl. destruct (per d); [reflexivity|]. destruct (_ || _); reflexivity. Qed.
  Definition pat (p q : pt) (d : nat) : bool * bool * bool :=
    (mem d (at_ p d) (at_ q d) (-1), mem d (at_ p d) (at_ q d) 0, mem d (at_ p d) (at_ q d) 1).
  Lemma tri_pat p q d c : tern c -> tri (pat p q d) c = mem d (at_ p d) (at_ q d) c.
  Proof. intros [-> | [-> | ->]]; reflexivity. Qed.
  Lemma to26_sel p q s : (s < 26)%nat -> to26 dims per p q s = sel (pat p q 0) (pat p q 1) (pat p q 2) s.
  Proof.
    intros Hs. unfold sel. rewrite !tri_pat by (apply off_tern; [exact Hs|lia]).
    unfold to26, NonOrth.nbr26. unfold mem. rewrite <- !coord_set by lia.
    destruct (coord p (off_of s) 0) as [i|]; [|reflexivity].
    destruct (coord p (off_of s) 1) as [j|]; [|rewrite andb_false_r; reflexivity].
    destruct (coord p (off_of s) 2) as [k|]; [|rewrite andb_false_r; reflexivity].
    reflexivity.
  Qed.
  Lemma pat_ok p q d : (d < 3)%nat -> okp p -> okp q -> tri_ok (sw d) (pat p q d) = true.
  Proof.
    intros Hd Hp Hq. unfold pat, tri_ok, NonOrthLem.sw. rewrite !mem_spec by exact Hd.
    pose proof (Hp d Hd). pose proof (Hq d Hd). pose proof (Hdims d Hd).
    destruct (per d); cbn [negb].
    - destruct (2 <? at_ dims d) eqn:E; cbn [orb negb]; split_ifs; lia.
    - rewrite orb_true_r. cbn [negb]. split_ifs; lia.
  Qed.
  Lemma pat_back p q d : (d < 3)%nat -> okp p -> okp q -> pat q p d = if sw d then pat p q d else tri_rev (pat p q d).
  Proof.
    intros Hd Hp Hq. unfold pat, tri_rev, NonOrthLem.sw. rewrite !mem_spec by exact Hd.
    pose proof (Hp d Hd). pose proof (Hq d Hd). pose proof (Hdims d Hd).
    destruct (per d); cbn [negb].
    - destruct (2 <? at_ dims d) eqn:E; cbn [orb negb]; (f_equal; [f_equal|]); split_ifs; lia.
    - rewrite orb_true_r. cbn [negb]. (f_equal; [f_equal|]); split_ifs; lia.
  Qed.
  Lemma filter_ext26 f h : (forall s, (s < 26)%nat -> f s = h s) -> filter f slots26 = filter h slots26.
  Proof. intros H. apply filter_ext_in. intros s Hs. apply H. apply in26. exact Hs. Qed.
  Lemma nbr_okp p s q : (s < 26)%nat -> okp p -> nbr26 p (off_of s) = Some q -> okp q.
  Proof.
    intros Hs Hp E. unfold NonOrth.nbr26 in E.
    destruct (coord p (off_of s) 0) as [i|] eqn:E0; [|discriminate].
    destruct (coord p (off_of s) 1) as [j|] eqn:E1; [|discriminate].
    destruct (coord p (off_of s) 2) as [k|] eqn:E2; [|discriminate].
    injection E as <-.
    assert (C : forall d x, (d < 3)%nat -> coord p (off_of s) d = Some x -> 0 <= x < at_ dims d).
    { intros d x Hd. unfold NonOrth.coord. pose proof (off_tern s d Hs Hd) as Ht. unfold tern in Ht. pose proof (Hp d Hd). pose proof (Hdims d Hd).
      destruct (per d).
      - intros Ex. injection Ex as <-. destruct (_ <? 0) eqn:A; [lia|]. destruct (_ <=? _) eqn:B; lia.
      - destruct (_ || _) eqn:A; [discriminate|]. intros Ex. injection Ex as <-. lia. }
    intros d Hd. destruct d as [|[|[|]]]; [| | |lia]; cbn [at_]; apply C; auto; lia.
  Qed.
  Lemma match26_ok p r q : (r < 26)%nat -> okp p -> nbr26 p (off_of r) = Some q ->
    let s := slot_of (flip (sw 0) (sw 1) (sw 2) (off_of r)) in
    match26 dims per p q r = Some s /\ (s < 26)%nat /\ forall d, (d < 3)%nat -> at_ (off_of s) d = if sw d then at_ (off_of r) d else - at_ (off_of r) d.
  Proof.
    intros Hr Hp E. cbv zeta. pose proof (nbr_okp p r q Hr Hp E) as Hq.
    assert (In r (filter (sel (pat p q 0) (pat p q 1) (pat p q 2)) slots26)) as Hin.
    { apply filter_In. split; [apply in26; exact Hr|]. rewrite <- to26_sel by exact Hr. unfold to26. rewrite E. apply pt_eqb_eq. reflexivity. }
    pose proof (case_match (sw 0) (sw 1) (sw 2) (pat p q 0) (pat p q 1) (pat p q 2) r (pat_ok p q 0 ltac:(lia) Hp Hq) (pat_ok p q 1 ltac:(lia) Hp Hq) (pat_ok p q 2 ltac:(lia) Hp Hq) Hin) as C.
    unfold match26.
    rewrite (filter_ext26 (to26 dims per q p) (sel (if sw 0 then pat p q 0 else tri_rev (pat p q 0)) (if sw 1 then pat p q 1 else tri_rev (pat p q 1)) (if sw 2 then pat p q 2 else tri_rev (pat p q 2)))).
    2:{ intros s Hs. rewrite to26_sel by exact Hs. rewrite !(pat_back p q) by (auto; lia). reflexivity. }
    rewrite (filter_ext26 (to26 dims per p q) (sel (pat p q 0) (pat p q 1) (pat p q 2))) by (intros; apply to26_sel; assumption).
    split; [exact C|].
    assert (FA : forall d, (d < 3)%nat -> at_ (flip (sw 0) (sw 1) (sw 2) (off_of r)) d = if sw d then at_ (off_of r) d else - at_ (off_of r) d).
    { intros d Hd. destruct d as [|[|[|]]]; [reflexivity|reflexivity|reflexivity|lia]. }
    destruct (slot_off (flip (sw 0) (sw 1) (sw 2) (off_of r))) as [S1 S2].
    - intros d Hd. pose proof (off_tern r d Hr Hd) as Ht. rewrite FA by exact Hd. unfold tern in *. destruct (sw d); lia.
    - intros X. apply (off_nonzero r Hr). apply pt_ext. intros d Hd. specialize (FA d Hd). rewrite X in FA.
      assert (Z0 : at_ (0, 0, 0) d = 0) by (destruct d as [|[|[|]]]; [reflexivity|reflexivity|reflexivity|lia]). rewrite Z0 in FA |- *. revert FA. generalize (at_ (off_of r) d). destruct (sw d); intros z FA; lia.
    - split; [exact S1|]. intros d Hd. rewrite S2. apply FA. exact Hd.
  Qed.
End Topo26.
