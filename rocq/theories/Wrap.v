(** Models of the periodic wrapping of atom positions (src/md.c:1808-1860,
    src/socket/driver.c:515-590, src/initialization.c:2013-2085) for
    orthogonal cells without cyclix symmetry, in exact rational arithmetic. *)
From Coq Require Import ZArith List Lia Bool QArith Qround Lqa Field.
From Verif Require Import CBase Spline.
Import ListNotations.
Local Open Scope Q_scope.

(** The C library [fmod]: x - n L with n the quotient truncated toward zero. *)
Definition qtrunc (u : Q) : Z := if Qle_bool 0 u then Qfloor u else (- Qfloor (- u))%Z.
Definition fmod (x L : Q) : Q := x - inject_Z (qtrunc (x / L)) * L.

(** src/md.c:1842-1849 *)
Definition wrap_md (L x : Q) : Q :=
  if qltb x 0 || Qle_bool L x then
    let y := fmod x L in y + (if qltb y 0 then L else 0)
  else x.
(** src/socket/driver.c:522-528, src/initialization.c:2019-2024 *)
Definition wrap_socket (L x : Q) : Q :=
  if qltb x 0 || qltb L x then
    let y := fmod x L in y + (if qltb y 0 then L else 0)
  else x.

Record pos := mkPos { px : Q; py : Q; pz : Q }.
Definition get (d : nat) (p : pos) : Q := match d with 0 => px p | 1 => py p | _ => pz p end%nat.
Definition put (d : nat) (v : Q) (p : pos) : pos :=
  match d with 0 => mkPos v (py p) (pz p) | 1 => mkPos (px p) v (pz p) | _ => mkPos (px p) (py p) v end%nat.

(** src/md.c:1821-1860, one direction with length [L] and boundary
    condition [BC] (0 periodic, 1 Dirichlet). *)
Definition wrap_dir (BC : Z) (L : Q) (d : nat) (ps : list pos) : outcome (list pos) :=
  if (BC =? 1)%Z then
    if existsb (fun p => Qle_bool L (get d p) || qltb (get d p) 0) ps then Exit else Ok ps
  else if (BC =? 0)%Z then Ok (map (fun p => put d (wrap_md L (get d p)) p) ps)
  else Ok ps.
Definition wraparound_dynamics (BC : nat -> Z) (L : nat -> Q) (ps : list pos) : outcome (list pos) :=
  do p0 <- wrap_dir (BC 0%nat) (L 0%nat) 0 ps ;
  do p1 <- wrap_dir (BC 1%nat) (L 1%nat) 1 p0 ;
  wrap_dir (BC 2%nat) (L 2%nat) 2 p1.

(** ** Lemmas *)
Lemma fmod_range x L : 0 < L -> - L < fmod x L /\ fmod x L < L /\ (0 <= x -> 0 <= fmod x L) /\ (x < 0 -> fmod x L <= 0).
Proof.
  intros HL. unfold fmod, qtrunc. set (u := x / L).
  assert (Hx : x == u * L) by (unfold u; field; lra).
  destruct (Qle_bool 0 u) eqn:E.
  - apply Qle_bool_iff in E.
    pose proof (Qfloor_le u) as F1. pose proof (Qlt_floor u) as F2. rewrite inject_Z_plus in F2.
    change (inject_Z 1) with 1 in F2. set (n := inject_Z (Qfloor u)) in *.
    assert (A : 0 <= (u - n) * L) by (apply Qmult_le_0_compat; lra).
    assert (B : (u - n) * L < L).
    { setoid_replace L with (1 * L) at 2 by ring. apply Qmult_lt_r; [exact HL | lra]. }
    assert (C : x - n * L == (u - n) * L) by (rewrite Hx at 1; ring).
    repeat split; intros; rewrite ?C; try lra.
    exfalso. assert (0 <= u * L) by (apply Qmult_le_0_compat; lra). lra.
  - apply qle_gt in E.
    pose proof (Qfloor_le (- u)) as F1. pose proof (Qlt_floor (- u)) as F2. rewrite inject_Z_plus in F2.
    change (inject_Z 1) with 1 in F2. rewrite inject_Z_opp. set (n := inject_Z (Qfloor (- u))) in *.
    assert (A : 0 <= (- u - n) * L) by (apply Qmult_le_0_compat; lra).
    assert (B : (- u - n) * L < L).
    { setoid_replace L with (1 * L) at 2 by ring. apply Qmult_lt_r; [exact HL | lra]. }
    assert (C : x - - n * L == - ((- u - n) * L)) by (rewrite Hx at 1; ring).
    repeat split; intros; rewrite ?C; try lra.
    exfalso. assert (0 < (- u) * L) by (apply Qmult_lt_0_compat; lra). lra.
Qed.

Lemma wrap_value L x : 0 < L ->
  let y := fmod x L in
  let w := y + (if qltb y 0 then L else 0) in
  0 <= w /\ w < L /\ exists k : Z, w == x + inject_Z k * L.
Proof.
  intros HL y w. destruct (fmod_range x L HL) as (A & B & _ & _). fold y in A, B.
  unfold w. destruct (qltb y 0) eqn:E.
  - apply qltb_lt in E. split; [lra|]. split; [lra|].
    exists (1 - qtrunc (x / L))%Z. unfold y, fmod.
    unfold Z.sub. rewrite inject_Z_plus, inject_Z_opp. change (inject_Z 1) with 1. ring.
  - apply qltb_ge in E. split; [lra|]. split; [lra|].
    exists (- qtrunc (x / L))%Z. unfold y, fmod. rewrite inject_Z_opp. ring.
Qed.

Lemma wrap_md_ok L x : 0 < L ->
  0 <= wrap_md L x /\ wrap_md L x < L /\ exists k : Z, wrap_md L x == x + inject_Z k * L.
Proof.
  intros HL. unfold wrap_md. destruct (qltb x 0 || Qle_bool L x) eqn:E; [apply wrap_value, HL|].
  apply orb_false_iff in E. destruct E as [E1 E2]. apply qltb_ge in E1. apply qle_gt in E2.
  split; [exact E1|]. split; [exact E2|]. exists 0%Z. change (inject_Z 0) with 0. ring.
Qed.
Lemma wrap_md_inside L x : 0 <= x -> x < L -> wrap_md L x = x.
Proof.
  intros A B. unfold wrap_md.
  replace (qltb x 0) with false by (symmetry; apply qltb_ge; exact A).
  replace (Qle_bool L x) with false by (symmetry; apply qle_gt; exact B). reflexivity.
Qed.
Lemma wrap_socket_ok L x : 0 < L ->
  0 <= wrap_socket L x /\ wrap_socket L x <= L /\ (wrap_socket L x == L -> x == L) /\
  exists k : Z, wrap_socket L x == x + inject_Z k * L.
Proof.
  intros HL. unfold wrap_socket. destruct (qltb x 0 || qltb L x) eqn:E.
  - destruct (wrap_value L x HL) as (A & B & C). split; [exact A|]. split; [apply Qlt_le_weak, B|].
    split; [intros H; rewrite H in B; lra | exact C].
  - apply orb_false_iff in E. destruct E as [E1 E2]. apply qltb_ge in E1. apply qltb_ge in E2.
    split; [exact E1|]. split; [exact E2|]. split; [intros H; exact H|].
    exists 0%Z. change (inject_Z 0) with 0. ring.
Qed.
Lemma wrap_socket_inside L x : 0 <= x -> x <= L -> wrap_socket L x = x.
Proof.
  intros A B. unfold wrap_socket.
  replace (qltb x 0) with false by (symmetry; apply qltb_ge; exact A).
  replace (qltb L x) with false by (symmetry; apply qltb_ge; exact B). reflexivity.
Qed.

Lemma get_put_same d v p : (d < 3)%nat -> get d (put d v p) = v.
Proof. intros H. destruct d as [|[|[|d]]]; [reflexivity .. | lia]. Qed.
Lemma get_put_other d e v p : (d < 3)%nat -> (e < 3)%nat -> d <> e -> get e (put d v p) = get e p.
Proof. intros H H' N. destruct d as [|[|[|d]]]; try lia; destruct e as [|[|[|e]]]; try lia; reflexivity. Qed.

(** Effect on direction [d] of one atom. *)
Definition dir_ok (BC : Z) (L : Q) (x x' : Q) : Prop :=
  (BC = 0%Z -> 0 <= x' /\ x' < L /\ exists k : Z, x' == x + inject_Z k * L) /\
  (BC = 1%Z -> x' = x /\ 0 <= x /\ x < L) /\
  (BC <> 0%Z -> x' = x).

Lemma wrap_dir_ok BC L d ps ps' : (d < 3)%nat -> 0 < L -> wrap_dir BC L d ps = Ok ps' ->
  Forall2 (fun p p' => dir_ok BC L (get d p) (get d p') /\
                       forall e, (e < 3)%nat -> e <> d -> get e p' = get e p) ps ps'.
Proof.
  intros Hd HL E. unfold wrap_dir in E. destruct (Z.eqb_spec BC 1) as [B1 | B1].
  - destruct (existsb _ ps) eqn:Ex; [discriminate|]. injection E as <-.
    assert (All : forall p, In p ps -> 0 <= get d p /\ get d p < L).
    { intros p Hp. assert (X : Qle_bool L (get d p) || qltb (get d p) 0 = false).
      { destruct (Qle_bool L (get d p) || qltb (get d p) 0) eqn:Y; [|reflexivity].
        assert (existsb (fun p => Qle_bool L (get d p) || qltb (get d p) 0) ps = true) by (apply existsb_exists; exists p; split; assumption).
        congruence. }
      apply orb_false_iff in X. destruct X as [X1 X2]. apply qle_gt in X1. apply qltb_ge in X2. split; assumption. }
    clear Ex. induction ps as [|p ps IH]; constructor.
    + split; [|reflexivity]. unfold dir_ok. split; [lia|]. split; [|reflexivity].
      intros _. split; [reflexivity|]. apply All. left. reflexivity.
    + apply IH. intros q Hq. apply All. right. exact Hq.
  - destruct (Z.eqb_spec BC 0) as [B0 | B0].
    + injection E as <-. induction ps as [|p ps IH]; cbn [map]; constructor; [|exact IH].
      split.
      * unfold dir_ok. rewrite get_put_same by exact Hd. split; [|split; [lia|]].
        -- intros _. apply wrap_md_ok, HL.
        -- intros N. congruence.
      * intros e He Ne. apply get_put_other; congruence.
    + injection E as <-. induction ps as [|p ps IH]; constructor; [|exact IH].
      split; [|reflexivity]. unfold dir_ok. split; [congruence|]. split; [congruence | reflexivity].
Qed.

Lemma Forall2_trans3 {A} (P Q' R : A -> A -> Prop) (l0 : list A) : forall l1 l2,
  Forall2 P l0 l1 -> Forall2 Q' l1 l2 -> (forall a b c, P a b -> Q' b c -> R a c) -> Forall2 R l0 l2.
Proof.
  induction l0 as [|a l0 IH]; intros l1 l2 H1 H2 T; inversion H1; subst; inversion H2; subst; constructor.
  - eapply T; eassumption.
  - eapply IH; eassumption.
Qed.

Lemma Forall2_comp {A} (P Q' : A -> A -> Prop) (l0 : list A) : forall l1 l2,
  Forall2 P l0 l1 -> Forall2 Q' l1 l2 -> Forall2 (fun a c => exists b, P a b /\ Q' b c) l0 l2.
Proof.
  intros l1 l2 H1 H2. apply (Forall2_trans3 P Q' _ l0 l1 l2 H1 H2).
  intros a b c X Y. exists b. split; assumption.
Qed.

Lemma wraparound_ok BC L ps ps' : (forall d, 0 < L d) -> wraparound_dynamics BC L ps = Ok ps' ->
  Forall2 (fun p p' => forall d, (d < 3)%nat -> dir_ok (BC d) (L d) (get d p) (get d p')) ps ps'.
Proof.
  intros HL E. unfold wraparound_dynamics in E.
  destruct (wrap_dir (BC 0%nat) (L 0%nat) 0 ps) as [p0| |] eqn:E0; try discriminate. cbn [obind] in E.
  destruct (wrap_dir (BC 1%nat) (L 1%nat) 1 p0) as [p1| |] eqn:E1; try discriminate. cbn [obind] in E.
  apply wrap_dir_ok in E0; [|lia|apply HL]. apply wrap_dir_ok in E1; [|lia|apply HL].
  apply wrap_dir_ok in E; [|lia|apply HL].
  pose proof (Forall2_comp _ _ _ _ _ E1 E) as E2.
  refine (Forall2_trans3 _ _ _ _ _ _ E0 E2 _).
  intros a b c (A1 & A2) (m & (B1 & B2) & (C1 & C2)) d Hd.
  destruct d as [|[|[|d]]]; [| | |lia].
  - rewrite (C2 0%nat), (B2 0%nat) by lia. exact A1.
  - rewrite (C2 1%nat) by lia. rewrite <- (A2 1%nat) by lia. exact B1.
  - rewrite <- (A2 2%nat), <- (B2 2%nat) by lia. exact C1.
Qed.

(** No exit when every Dirichlet coordinate is inside. *)
Lemma wrap_dir_defined BC L d ps :
  (BC = 1%Z -> forall p, In p ps -> 0 <= get d p /\ get d p < L) -> exists ps', wrap_dir BC L d ps = Ok ps'.
Proof.
  intros H. unfold wrap_dir. destruct (Z.eqb_spec BC 1) as [B | B].
  - destruct (existsb _ ps) eqn:Ex; [|eexists; reflexivity].
    apply existsb_exists in Ex. destruct Ex as (p & Hp & X). destruct (H B p Hp) as [A C].
    apply orb_true_iff in X. destruct X as [X | X].
    + apply Qle_bool_iff in X. lra.
    + apply qltb_lt in X. lra.
  - destruct (BC =? 0)%Z; eexists; reflexivity.
Qed.
Lemma wrap_dir_fixed BC L d ps : (d < 3)%nat ->
  (forall p, In p ps -> (BC = 0%Z \/ BC = 1%Z) -> 0 <= get d p /\ get d p < L) -> wrap_dir BC L d ps = Ok ps.
Proof.
  intros Hd H. unfold wrap_dir. destruct (Z.eqb_spec BC 1) as [B | B].
  - destruct (existsb _ ps) eqn:Ex; [|reflexivity].
    apply existsb_exists in Ex. destruct Ex as (p & Hp & X). destruct (H p Hp (or_intror B)) as [A C].
    apply orb_true_iff in X. destruct X as [X | X].
    + apply Qle_bool_iff in X. lra.
    + apply qltb_lt in X. lra.
  - destruct (Z.eqb_spec BC 0) as [B0 | B0]; [|reflexivity]. f_equal.
    rewrite <- (map_id ps) at 2. apply map_ext_in. intros p Hp.
    destruct (H p Hp (or_introl B0)) as [A C]. rewrite wrap_md_inside by assumption.
    destruct p. destruct d as [|[|[|d]]]; [reflexivity .. | lia].
Qed.
