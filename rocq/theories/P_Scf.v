(** C82: the self-consistent field loop: error, stop rule, warning, and what the error compares. *)
From Coq Require Import Reals Lra Lia ZArith List Bool Permutation.
From Verif Require Import CBase CellRelax Scf ScfSpec.
Import ListNotations.
Local Open Scope R_scope.

(** ** The error *)
Lemma loc_go o' : forall n' po pn a b, length n' = length o' -> length pn = length po ->
  fold_left (fun acc i => do s <- acc ; do o <- rd (po ++ o') i ; do n <- rd (pn ++ n') i ;
    let temp := o - n in Ok (fst s + o * o, snd s + temp * temp)) (seq (length po) (length o')) (Ok (a, b)) =
  Ok (a + total sq_out (combine o' n'), b + total sq_diff (combine o' n')).
Proof.
  induction o' as [|x o' IH]; intros [|y n'] po pn a b Hn Hp; try discriminate Hn; cbn [length seq fold_left combine total]; [now rewrite !Rplus_0_r|].
  assert (R1 : rd (po ++ x :: o') (length po) = Ok x) by (unfold rd; rewrite nth_error_app2, Nat.sub_diag by lia; reflexivity).
  assert (R2 : rd (pn ++ y :: n') (length po) = Ok y) by (unfold rd; rewrite <- Hp, nth_error_app2, Nat.sub_diag by lia; reflexivity).
  rewrite R1, R2. cbn [obind fst snd].
  specialize (IH n' (po ++ [x]) (pn ++ [y]) (a + x * x) (b + (x - y) * (x - y)) ltac:(cbn in Hn; lia) ltac:(rewrite !app_length; cbn; lia)).
  rewrite app_length in IH. cbn [length] in IH. rewrite Nat.add_1_r in IH. rewrite <- !app_assoc in IH. cbn [app] in IH. rewrite IH.
  unfold sq_out, sq_diff. cbn [fst snd]. f_equal. f_equal; ring.
Qed.
Lemma loc_sums_ok len o n : length o = len -> length n = len -> loc_sums len o n = Ok (total sq_out (combine o n), total sq_diff (combine o n)).
Proof. intros <- H. unfold loc_sums. pose proof (loc_go o n [] [] 0 0 H eq_refl) as G. cbn [app length] in G. rewrite !Rplus_0_l in G. exact G. Qed.
Lemma total_app f l m : total f (l ++ m) = total f l + total f m.
Proof. induction l as [|p l IH]; cbn [app total]; [ring|]. rewrite IH. ring. Qed.
Lemma total_perm f l m : Permutation l m -> total f l = total f m.
Proof. induction 1; cbn [total]; lra. Qed.
Lemma total_pos f l : (forall p, 0 <= f p) -> 0 <= total f l.
Proof. intros H. induction l as [|p l IH]; cbn [total]; [lra|]. pose proof (H p). lra. Qed.
Lemma total_zero f l : (forall p, 0 <= f p) -> total f l = 0 -> forall p, In p l -> f p = 0.
Proof.
  intros H. induction l as [|q l IH]; cbn [total]; intros E p []; pose proof (H q); pose proof (total_pos f l H).
  - subst. lra.
  - apply IH; [lra|assumption].
Qed.
Lemma total_all0 f l : (forall p, In p l -> f p = 0) -> total f l = 0.
Proof. induction l as [|q l IH]; intros H; cbn [total]; [reflexivity|]. rewrite (H q) by (left; reflexivity). rewrite IH; [ring|]. intros p Hp. apply H. now right. Qed.
Lemma sq_out_pos p : 0 <= sq_out p. Proof. apply Rle_0_sqr. Qed.
Lemma sq_diff_pos p : 0 <= sq_diff p. Proof. apply Rle_0_sqr. Qed.
Lemma sq_out_0 p : sq_out p = 0 -> fst p = 0. Proof. apply Rsqr_0_uniq. Qed.
Lemma sq_diff_0 p : sq_diff p = 0 -> fst p = snd p. Proof. intros H. apply Rsqr_0_uniq in H. lra. Qed.
Lemma sums_ok ncol ps : shaped ncol ps -> forall a b,
  fold_left (fun acc q => do a <- acc ; let '(DMnd, o, n) := q in do b <- loc_sums (ncol * DMnd) o n ;
            Ok (fst a + fst b, snd a + snd b)) ps (Ok (a, b)) = Ok (a + total sq_out (gather ps), b + total sq_diff (gather ps)).
Proof.
  unfold gather. induction ps as [|[[d o] n] ps IH]; intros H a b; cbn [fold_left map concat total]; [now rewrite !Rplus_0_r|].
  cbn [obind]. destruct (H d o n (or_introl eq_refl)) as [H1 H2]. rewrite (loc_sums_ok _ o n H1 H2). cbn [obind fst snd].
  rewrite IH by (intros d' o' i' Hi; apply H; now right). rewrite !total_app. f_equal. f_equal; ring.
Qed.
Lemma eval_val ncol ps : shaped ncol ps -> eval_error ncol ps = Ok (rel (total sq_diff (gather ps)) (total sq_out (gather ps))).
Proof. intros H. unfold eval_error. rewrite (sums_ok ncol ps H 0 0). cbn [obind fst snd]. now rewrite !Rplus_0_l. Qed.
Lemma relative_rel l : relative l (rel (total sq_diff l) (total sq_out l)).
Proof.
  pose proof (total_pos sq_out l sq_out_pos) as P0. pose proof (total_pos sq_diff l sq_diff_pos) as P1.
  unfold rel. destruct (Req_EM_T (total sq_out l) 0) as [E|E].
  - assert (Z0 : forall p, In p l -> fst p = 0) by (intros p Hp; apply sq_out_0; exact (total_zero sq_out l sq_out_pos E p Hp)).
    destruct (Req_EM_T (total sq_diff l) 0) as [E1|E1]; cbn [relative].
    + intros p Hp. split; [now apply Z0|]. rewrite <- (sq_diff_0 p); [now apply Z0|]. exact (total_zero sq_diff l sq_diff_pos E1 p Hp).
    + split; [exact Z0|]. destruct (Exists_dec (fun p => snd p <> 0) l) as [X|X].
      * intros p. destruct (Req_EM_T (snd p) 0); [right|left]; lra.
      * apply Exists_exists in X. exact X.
      * exfalso. apply E1. apply total_all0. intros p Hp. unfold sq_diff. rewrite (Z0 p Hp).
        destruct (Req_EM_T (snd p) 0) as [Q|Q]; [rewrite Q; ring|]. exfalso. apply X. apply Exists_exists. eauto.
  - cbn [relative]. split; [apply sqrt_pos|]. split.
    + destruct (Exists_dec (fun p => fst p <> 0) l) as [X|X].
      * intros p. destruct (Req_EM_T (fst p) 0); [right|left]; lra.
      * apply Exists_exists in X. exact X.
      * exfalso. apply E. apply total_all0. intros p Hp. unfold sq_out.
        destruct (Req_EM_T (fst p) 0) as [Q|Q]; [rewrite Q; ring|]. exfalso. apply X. apply Exists_exists. eauto.
    + rewrite sqrt_sqrt; [field; exact E|]. apply Rmult_le_pos; [exact P1|]. left. apply Rinv_0_lt_compat. lra.
Qed.

(** The error is the relative change over the whole grid; it is zero exactly when the iteration is self-consistent. *)
Theorem C82_error : forall ncol ps, shaped ncol ps ->
  exists e, eval_error ncol ps = Ok e /\ relative (gather ps) e /\
    (e = Num 0 <-> (exists p, In p (gather ps) /\ fst p <> 0) /\ forall p, In p (gather ps) -> fst p = snd p).
Proof.
  intros ncol ps H. exists (rel (total sq_diff (gather ps)) (total sq_out (gather ps))). split; [now apply eval_val|].
  pose proof (relative_rel (gather ps)) as Q. split; [exact Q|]. set (e := rel _ _) in *. split.
  - intros ->. destruct Q as (_ & Q1 & Q2). split; [exact Q1|]. intros p Hp. apply sq_diff_0. apply (total_zero sq_diff (gather ps) sq_diff_pos); [lra|exact Hp].
  - intros ((p & Hp & Np) & Q2). assert (D0 : total sq_diff (gather ps) = 0) by (apply total_all0; intros q Hq; unfold sq_diff; rewrite (Q2 q Hq); ring).
    unfold e, rel. rewrite D0. destruct (Req_EM_T (total sq_out (gather ps)) 0) as [E|E].
    + exfalso. apply Np. apply sq_out_0. exact (total_zero sq_out _ sq_out_pos E p Hp).
    + unfold Rdiv. rewrite Rmult_0_l, sqrt_0. reflexivity.
Qed.
Print Assumptions C82_error.
(** Any two divisions of the same entries give the same number. *)
Theorem C82_division : forall ncol ncol' ps ps', shaped ncol ps -> shaped ncol' ps' -> Permutation (gather ps) (gather ps') ->
  eval_error ncol ps = eval_error ncol' ps'.
Proof. intros ncol ncol' ps ps' H H' P. rewrite !eval_val by assumption. now rewrite !(total_perm _ _ _ P). Qed.
Print Assumptions C82_division.
(** An array shorter than the loop assumes is read out of bounds. *)
Lemma loc_ub_stay o n l : fold_left (fun acc i => do s <- acc ; do o <- rd o i ; do n <- rd n i ;
    let temp := o - n in Ok (fst s + o * o, snd s + temp * temp)) l UB = UB.
Proof. induction l as [|i l IH]; [reflexivity|exact IH]. Qed.
Lemma loc_short len o n : (length o < len \/ length n < len)%nat -> loc_sums len o n = UB.
Proof.
  intros H. unfold loc_sums.
  assert (Q : forall l acc, (exists i, In i l /\ (length o <= i \/ length n <= i)%nat) -> acc <> Exit ->
    fold_left (fun acc i => do s <- acc ; do o <- rd o i ; do n <- rd n i ;
      let temp := o - n in Ok (fst s + o * o, snd s + temp * temp)) l acc = UB).
  { induction l as [|j l IH]; intros acc (i & Hi & Li) NE; [destruct Hi|]. cbn [fold_left].
    destruct acc as [s| |]; [|apply loc_ub_stay|contradiction]. cbn [obind].
    destruct (rd o j) as [x| |] eqn:Ex; cbn [obind]; [|apply loc_ub_stay|unfold rd in Ex; destruct (nth_error o j); discriminate Ex].
    destruct (rd n j) as [y| |] eqn:Ey; cbn [obind]; [|apply loc_ub_stay|unfold rd in Ey; destruct (nth_error n j); discriminate Ey].
    unfold rd in Ex, Ey. destruct (nth_error o j) eqn:Ex'; [|discriminate Ex]. destruct (nth_error n j) eqn:Ey'; [|discriminate Ey].
    apply IH; [|discriminate]. destruct Hi as [->|Hi]; [|eauto]. exfalso.
    assert (i < length o)%nat by (apply nth_error_Some; congruence). assert (i < length n)%nat by (apply nth_error_Some; congruence). lia. }
  apply Q; [|discriminate]. destruct H as [H|H]; [exists (length o)|exists (length n)]; (split; [apply in_seq|]; lia).
Qed.
Theorem C82_short : forall ncol ps, (exists d o i, In (d, o, i) ps /\ (length o < ncol * d \/ length i < ncol * d)%nat) ->
  eval_error ncol ps = UB.
Proof.
  intros ncol ps H. unfold eval_error.
  assert (LE : forall len o n, loc_sums len o n <> Exit).
  { intros len o n. unfold loc_sums. assert (Q : forall l acc, acc <> Exit -> fold_left (fun acc i => do s <- acc ; do o <- rd o i ; do n <- rd n i ;
      let temp := o - n in Ok (fst s + o * o, snd s + temp * temp)) l acc <> Exit); [|apply Q; discriminate].
    induction l as [|j l IH]; intros acc NE; [exact NE|]. cbn [fold_left]. apply IH. destruct acc as [s| |]; try assumption. cbn [obind]. unfold rd.
    destruct (nth_error o j); cbn [obind]; [|discriminate]. destruct (nth_error n j); cbn [obind]; discriminate. }
  assert (ST : forall ps, fold_left (fun acc q => do a <- acc ; let '(DMnd, o, n) := q in do b <- loc_sums (ncol * DMnd) o n ;
            Ok (fst a + fst b, snd a + snd b)) ps UB = UB) by (clear; induction ps as [|[[d o] n] ps IH]; [reflexivity|exact IH]).
  assert (Q : forall ps (acc : outcome (R * R)), (exists d o i, In (d, o, i) ps /\ (length o < ncol * d \/ length i < ncol * d)%nat) -> acc <> Exit ->
    fold_left (fun acc q => do a <- acc ; let '(DMnd, o, n) := q in do b <- loc_sums (ncol * DMnd) o n ;
            Ok (fst a + fst b, snd a + snd b)) ps acc = UB).
  { clear ps H. induction ps as [|[[d o] n] ps IH]; intros acc (d0 & o0 & i0 & Hi & Li) NE; [destruct Hi|]. cbn [fold_left].
    destruct acc as [a| |]; [|apply ST|contradiction]. cbn [obind].
    destruct (loc_sums (ncol * d) o n) as [b| |] eqn:El; cbn [obind]; [|apply ST|exfalso; exact (LE _ _ _ El)].
    apply IH; [|discriminate]. destruct Hi as [Hi|Hi]; [|eauto 6]. injection Hi as -> -> ->. rewrite loc_short in El by exact Li. discriminate El. }
  rewrite Q; [reflexivity|exact H|discriminate].
Qed.
Print Assumptions C82_short.

(** ** The loop *)
Definition below (e : fp) (t : R) : Prop := exists x, e = Num x /\ x < t.
Definition above (e : fp) (t : R) : Prop := e = Inf \/ exists x, e = Num x /\ t < x.
Lemma flt_below e t : flt e t = true <-> below e t.
Proof.
  unfold flt, below. destruct e as [x| |]; [destruct (Rlt_dec x t)|idtac|idtac]; split; intros H; try discriminate H; eauto;
    destruct H as (y & Ey & Hy); try discriminate Ey; injection Ey as <-; contradiction.
Qed.
Lemma fgt_above e t : fgt e t = true <-> above e t.
Proof.
  unfold fgt, above. destruct e as [x| |]; [destruct (Rlt_dec t x)|idtac|idtac]; split; intros H; try discriminate H; eauto;
    destruct H as [H|(y & Ey & Hy)]; try discriminate H; try discriminate Ey; try injection Ey as <-; try contradiction; reflexivity.
Qed.

Section Loop.
  Variable W : Type.
  Variable solve : W -> nat -> fp -> dvec -> outcome (W * dvec).
  Variable pots : W -> dvec -> W * dvec * dvec.
  Variable energy : W -> dvec -> W * fp.
  Variable escc : W -> dvec -> dvec -> dvec -> R.
  Variable mix_d mix_v : W -> nat -> dvec -> dvec -> W * dvec * dvec.
  Variables (potmix : bool) (spin_typ BC : Z) (Nd : R) (MAXIT MINIT usefock : Z) (TOL_SCF TOL_INIT : R) (DMnd : list nat).
  Notation state := (state W).
  Notation tol := (tol usefock TOL_SCF TOL_INIT).
  Notation step := (step W solve pots energy escc mix_d mix_v potmix spin_typ BC Nd DMnd).
  Notation loop := (loop W solve pots energy escc mix_d mix_v potmix spin_typ BC Nd MINIT usefock TOL_SCF TOL_INIT DMnd).
  Notation scf_loop := (scf_loop W solve pots energy escc mix_d mix_v potmix spin_typ BC Nd MAXIT MINIT usefock TOL_SCF TOL_INIT DMnd).

  (** the states at the top of the loop *)
  Inductive reached (s0 : state) : nat -> fp -> state -> Prop :=
  | reached_start : reached s0 0 (Num (TOL_SCF + 1)) s0
  | reached_turn : forall k err s s' E e, reached s0 k err s -> step k err s = Ok (s', E, e) -> reached s0 (S k) e s'.

  (** the tolerance in force: TOL_SCF_INIT in the SCF before the first Fock operator, when usefock is odd *)
  Definition tolerance : R := if Z.odd usefock then TOL_INIT else TOL_SCF.
  Lemma tol_val : (0 <= usefock)%Z -> tol = tolerance.
  Proof.
    intros H. unfold tol, tolerance. rewrite Z.rem_mod_nonneg by lia. rewrite Zmod_odd. destruct (Z.odd usefock); reflexivity.
  Qed.

  Lemma loop_spec s0 fuel : forall k err s rows rows' e' s', reached s0 k err s -> loop fuel k err s rows = Ok (rows', e', s') ->
    exists new, rows' = rows ++ new /\ (length new <= fuel)%nat /\ reached s0 (k + length new) e' s' /\
      (forall j c E e, nth_error new j = Some (c, E, e) -> c = Z.of_nat (k + j + 1) /\ exists err s s2, reached s0 (k + j) err s /\ step (k + j) err s = Ok (s2, E, e)) /\
      (forall j c E e, nth_error new j = Some (c, E, e) -> (S j < length new)%nat -> ~ (below e tol /\ (MINIT <= c)%Z)) /\
      (forall c E e, nth_error new (length new - 1) = Some (c, E, e) -> e' = e /\ ((length new < fuel)%nat -> below e tol /\ (MINIT <= c)%Z)) /\
      (new = [] -> fuel = O).
  Proof.
    induction fuel as [|f IH]; intros k err s rows rows' e' s' Hr H; cbn [Scf.loop] in H.
    - injection H as <- <- <-. exists []. rewrite app_nil_r. cbn [length]. rewrite Nat.add_0_r. split; [reflexivity|]. split; [lia|]. split; [exact Hr|].
      split; [intros [|j] ? ? ? Q; discriminate Q|]. split; [intros [|j] ? ? ? Q; discriminate Q|]. split; [intros ? ? ? Q; discriminate Q|reflexivity].
    - destruct (step k err s) as [[[s1 E] e]| |] eqn:Es; cbn [obind] in H; try discriminate H.
      assert (Hr' : reached s0 (S k) e s1) by (eapply reached_turn; eauto).
      assert (CS : flt e tol && (MINIT <=? Z.of_nat k + 1)%Z = true <-> below e tol /\ (MINIT <= Z.of_nat (k + 0 + 1))%Z).
      { rewrite andb_true_iff, flt_below, Z.leb_le. replace (Z.of_nat (k + 0 + 1)) with (Z.of_nat k + 1)%Z by lia. reflexivity. }
      destruct (flt e tol && (MINIT <=? Z.of_nat k + 1)%Z) eqn:C.
      + injection H as <- <- <-. exists [((Z.of_nat k + 1)%Z, E, e)]. cbn [length]. split; [reflexivity|]. split; [lia|]. split; [rewrite Nat.add_1_r; exact Hr'|].
        split; [|split; [|split]].
        * intros j c E1 e1 Hj. destruct j as [|j]; [|destruct j; discriminate Hj]. injection Hj as <- <- <-. split; [lia|].
          exists err, s, s1. rewrite Nat.add_0_r. auto.
        * intros j c E1 e1 Hj L. lia.
        * intros c E1 e1 Hj. cbn in Hj. injection Hj as <- <- <-. split; [reflexivity|]. intros _.
          replace (Z.of_nat k + 1)%Z with (Z.of_nat (k + 0 + 1)) by lia. now apply CS.
        * discriminate.
      + destruct (IH (S k) e s1 _ _ _ _ Hr' H) as (new & -> & L & R & A & B & D & N). exists (((Z.of_nat k + 1)%Z, E, e) :: new). cbn [length].
        split; [rewrite <- app_assoc; reflexivity|]. split; [lia|]. split; [rewrite Nat.add_succ_r; exact R|]. split; [|split; [|split]].
        * intros [|j] c E1 e1 Hj; cbn [nth_error] in Hj.
          -- injection Hj as <- <- <-. split; [lia|]. exists err, s, s1. rewrite Nat.add_0_r. auto.
          -- destruct (A j c E1 e1 Hj) as (A1 & A2). replace (k + S j)%nat with (S k + j)%nat by lia. split; [rewrite A1; lia|exact A2].
        * intros [|j] c E1 e1 Hj Lj; cbn [nth_error] in Hj.
          -- injection Hj as <- <- <-. intros HH. destruct CS as [_ CS]. enough (false = true) by discriminate. apply CS.
             replace (Z.of_nat (k + 0 + 1)) with (Z.of_nat k + 1)%Z by lia. exact HH.
          -- apply (B j c E1 e1 Hj). lia.
        * intros c E1 e1 Hj. destruct new as [|r0 new].
          -- cbn in Hj. injection Hj as <- <- <-. rewrite (N eq_refl) in *. cbn [Scf.loop] in H. injection H as _ <- _. split; [reflexivity|]. cbn [length]. lia.
          -- cbn [length] in *. replace (S (S (length new)) - 1)%nat with (S (length new)) in Hj by lia. cbn [nth_error] in Hj.
             replace (S (length new) - 1)%nat with (length new) in D by lia. destruct (D c E1 e1 Hj) as (D1 & D2). split; [exact D1|]. intros. apply D2. lia.
        * discriminate.
  Qed.

  (** The rows are numbered from 1; every one comes from a turn of the loop; the loop ends at the first turn from MINIT_SCF on
      whose error is below the tolerance, or after MAXIT_SCF turns; a warning is written exactly when the last error is above
      the tolerance. *)
  Theorem C82_stop : forall s0 rows n warn s', (0 <= usefock)%Z -> (1 <= MAXIT)%Z -> scf_loop s0 = Ok (rows, n, warn, s') ->
    n = Z.of_nat (length rows) /\ (1 <= n <= MAXIT)%Z /\
    (forall j c E e, nth_error rows j = Some (c, E, e) ->
       c = Z.of_nat j + 1 /\ (c < n -> ~ (below e tolerance /\ MINIT <= c)) /\ (c = n -> n < MAXIT -> below e tolerance /\ MINIT <= c))%Z /\
    (forall j c E e, nth_error rows j = Some (c, E, e) -> exists err s s2, reached s0 j err s /\ step j err s = Ok (s2, E, e)) /\
    (exists E e, nth_error rows (length rows - 1) = Some (n, E, e) /\ reached s0 (length rows) e s' /\ (warn = true <-> above e tolerance)) /\
    ((n < MAXIT)%Z -> warn = false).
  Proof.
    intros s0 rows n warn s' Hu HM H. unfold Scf.scf_loop in H.
    destruct (loop (Z.to_nat MAXIT) 0 (Num (TOL_SCF + 1)) s0 []) as [[[rs e'] s2]| |] eqn:El; cbn [obind] in H; try discriminate H.
    injection H as <- <- <- <-. destruct (loop_spec s0 _ _ _ _ _ _ _ _ (reached_start s0) El) as (new & E & L & R & A & B & D & N). cbn [app Nat.add] in E, R. subst rs.
    rewrite <- (tol_val Hu).
    assert (L1 : (1 <= length new)%nat). { destruct new; [specialize (N eq_refl); lia|cbn; lia]. }
    assert (LL : exists c Er er, nth_error new (length new - 1) = Some (c, Er, er)).
    { destruct (nth_error new (length new - 1)) as [[[c Er] er]|] eqn:Q; [eauto|]. apply nth_error_None in Q. lia. }
    destruct LL as (c & Er & er & Hl). destruct (A _ _ _ _ Hl) as (Hc & _). destruct (D c Er er Hl) as (-> & D2).
    assert (Ec : c = Z.of_nat (length new)) by lia.
    split; [reflexivity|]. split; [lia|]. split; [|split; [|split]].
    - intros j c1 E1 e1 Hj. destruct (A j c1 E1 e1 Hj) as (A1 & _).
      assert (Lj : (j < length new)%nat) by (apply nth_error_Some; congruence).
      split; [lia|]. split.
      + intros Lc. apply (B j c1 E1 e1 Hj). lia.
      + intros Q Lm. assert (j = length new - 1)%nat by lia. subst j. rewrite Hl in Hj. injection Hj as <- <- <-. apply D2. lia.
    - intros j c1 E1 e1 Hj. destruct (A j c1 E1 e1 Hj) as (_ & A2). exact A2.
    - exists Er, er. split; [rewrite Hl; now rewrite Ec|]. split; [exact R|]. apply fgt_above.
    - intros Lm. destruct (fgt er tol) eqn:F; [|reflexivity]. apply fgt_above in F. destruct D2 as ((x & -> & Hx) & _); [lia|].
      destruct F as [F|(y & F & Hy)]; [discriminate F|]. injection F as <-. lra.
  Qed.

  (** ** What the error compares *)
  (** entries of two distributed arrays *)
  Definition compare_arrays (o i : dvec) : outcome fp := eval_error (if (spin_typ =? 0)%Z then 1 else 2) (combine (combine DMnd (map (@concat R) o)) (map (@concat R) i)).
  (** the columns compared: the density, or the up and down densities *)
  Definition spin_columns (v : dvec) : dvec := if (spin_typ =? 0)%Z then v else map (@tl (list R)) v.
  Lemma nspdend_val : (0 <= spin_typ)%Z -> nspdend spin_typ = if (spin_typ =? 0)%Z then 1%nat else 2%nat.
  Proof. intros H. unfold nspdend. destruct (Z.ltb_spec 0 spin_typ), (Z.eqb_spec spin_typ 0); try lia; reflexivity. Qed.

  (** Density mixing: the potential in force is that of the input density, the orbitals are those of this potential, the
      error compares their density with the input, and the energy is taken at the input density. *)
  Definition belongs (s : state) : Prop := (exists w0 w1 d, pots w0 (dens s) = (w1, veff s, d)) /\ (spin_typ = 0%Z -> xk s = dens s).
  Theorem C82_density : forall s0 k err s s' E e, potmix = false -> (0 <= spin_typ)%Z -> belongs s0 ->
    reached s0 k err s -> step k err s = Ok (s', E, e) ->
    belongs s /\ exists w rho, solve (world s) k err (veff s) = Ok (w, rho) /\
      compare_arrays (spin_columns rho) (spin_columns (dens s)) = Ok e /\ E = snd (energy w (dens s)) /\ E <> NaN /\
      exists w2 x, mix_d (fst (energy w (dens s))) k rho (xk s) = (w2, dens s', x).
  Proof.
    intros s0 k err s s' E e Hm Hsp H0 Hr Hs.
    assert (ST : forall k err s s' E e, belongs s -> step k err s = Ok (s', E, e) -> belongs s' /\ exists w rho, solve (world s) k err (veff s) = Ok (w, rho) /\
      compare_arrays (spin_columns rho) (spin_columns (dens s)) = Ok e /\ E = snd (energy w (dens s)) /\ E <> NaN /\
      exists w2 x, mix_d (fst (energy w (dens s))) k rho (xk s) = (w2, dens s', x)).
    { clear k err s s' E e Hr Hs. intros k err s s' E e HB H. unfold Scf.step in H. rewrite Hm in H. cbn [negb andb] in H. rewrite andb_true_r in H.
      destruct (solve (world s) k err (veff s)) as [[w rho]| |] eqn:Es; cbn [obind] in H; try discriminate H.
      assert (Q : (if (spin_typ =? 0)%Z then xk s else if (0 <? spin_typ)%Z then dens s else dens_in s) = dens s).
      { destruct (Z.eqb_spec spin_typ 0); [now apply HB|]. destruct (Z.ltb_spec 0 spin_typ); [reflexivity|lia]. }
      rewrite Q in H. destruct (energy w (dens s)) as [w1 E1] eqn:Ee.
      unfold error_of, vars in H. rewrite (nspdend_val Hsp) in H. cbn [dens dens_in xk] in H.
      assert (Q2 : (if (0 <? spin_typ)%Z then drop_total rho else rho) = spin_columns rho).
      { unfold spin_columns, drop_total. destruct (Z.ltb_spec 0 spin_typ), (Z.eqb_spec spin_typ 0); try lia; reflexivity. }
      assert (Q3 : (if (spin_typ =? 0)%Z then xk s else drop_total (if (0 <? spin_typ)%Z then dens s else dens_in s)) = spin_columns (dens s)).
      { unfold spin_columns, drop_total. destruct (Z.eqb_spec spin_typ 0); [now apply HB|]. destruct (Z.ltb_spec 0 spin_typ); [reflexivity|lia]. }
      rewrite Q2, Q3 in H. unfold flat in H. fold (compare_arrays (spin_columns rho) (spin_columns (dens s))) in H.
      destruct (compare_arrays (spin_columns rho) (spin_columns (dens s))) as [e1| |] eqn:Ec; cbn [obind] in H; try discriminate H.
      destruct (isnan E1) eqn:En; try discriminate H.
      destruct (mix_d w1 k rho (xk s)) as [[w2 rho'] x] eqn:Em. destruct (pots w2 rho') as [[w3 v] d] eqn:Ep. injection H as <- <- <-.
      split.
      - split; cbn [dens veff xk]; [eauto|]. intros ->. reflexivity.
      - exists w, rho. rewrite Ec, Ee. cbn [fst snd dens]. repeat split; auto; [intros ->; discriminate En|eauto]. }
    assert (HB : belongs s).
    { clear Hs s' E e. induction Hr as [|k err s s' E e Hr IH Hs]; [exact H0|]. apply (ST _ _ _ _ _ _ IH Hs). }
    split; [exact HB|]. apply (ST _ _ _ _ _ _ HB Hs).
  Qed.

  (** Potential mixing, without noncollinear spin: the error compares the potential of the new density with the potential
      the orbitals were solved in, and the energy is taken at the new density with the correction added. *)
  Theorem C82_potential : forall k err s s' E e, potmix = true -> (0 <= spin_typ)%Z -> spin_typ <> 2%Z ->
    step k err s = Ok (s', E, e) ->
    exists w rho w2 v d w3 E0, solve (world s) k err (veff s) = Ok (w, rho) /\ pots w rho = (w2, v, d) /\
      compare_arrays v (veff s) = Ok e /\ energy w2 rho = (w3, E0) /\ E <> NaN /\
      (forall x, E0 = Num x -> E = Num (x + escc w3 v (veff s) rho)).
  Proof.
    intros k err s s' E e Hm Hsp N2 H. unfold Scf.step in H. rewrite Hm in H.
    assert (Q2 : (spin_typ =? 2)%Z = false) by lia. rewrite Q2 in H.
    destruct (solve (world s) k err (veff s)) as [[w rho]| |] eqn:Es; cbn [obind] in H; try discriminate H.
    destruct (pots w rho) as [[w2 v] d] eqn:Ep. destruct (energy w2 rho) as [w3 E0] eqn:Ee.
    unfold error_of, vars in H. rewrite (nspdend_val Hsp), Q2 in H. cbn [veff veff_in] in H. unfold flat in H.
    fold (compare_arrays v (veff s)) in H. destruct (compare_arrays v (veff s)) as [e1| |] eqn:Ec; cbn [obind] in H; try discriminate H.
    destruct (isnan _) eqn:En; try discriminate H.
    destruct (shift_mean BC spin_typ Nd (nspden spin_typ) v [] 0 (-1)) as [[v1 m]| |]; cbn [obind] in H; try discriminate H.
    destruct (mix_v w3 k v1 (xk s)) as [[w4 v2] x]. destruct (shift_mean BC spin_typ Nd (nspden spin_typ) v2 m 1 1) as [q| |]; cbn [obind] in H; try discriminate H.
    injection H as _ <- <-. exists w, rho, w2, v, d, w3, E0. repeat split; auto.
    - intros Q. rewrite Q in En. discriminate En.
    - intros y ->. reflexivity.
  Qed.
End Loop.
Print Assumptions C82_stop.
Print Assumptions C82_density.
Print Assumptions C82_potential.

(** ** The mean of the potential *)
Lemma fold_sum l a : fold_left (fun a x => a + x) l a = a + sumR l.
Proof. revert a. induction l as [|x l IH]; intros a; cbn [fold_left sumR]; [ring|]. rewrite IH. ring. Qed.
Lemma sumR_app l m : sumR (l ++ m) = sumR l + sumR m.
Proof. induction l as [|x l IH]; cbn [app sumR]; [ring|]. rewrite IH. ring. Qed.
Lemma colsum_val v i : colsum v i = sumR (column v i).
Proof.
  unfold colsum, column. assert (Q : forall a, fold_left (fun a p => a + fold_left (fun a x => a + x) (nth i p []) 0) v a = a + sumR (concat (map (fun p => nth i p []) v))).
  { induction v as [|p v IH]; intros a; cbn [fold_left map concat sumR]; [ring|]. rewrite IH, fold_sum, sumR_app. ring. }
  rewrite Q. ring.
Qed.
Lemma sumR_shift c l : sumR (map (fun x => x + c) l) = sumR l + INR (length l) * c.
Proof. induction l as [|x l IH]; [cbn; ring|]. cbn [map sumR length]. rewrite IH, S_INR. ring. Qed.
Lemma column_add dir m v i : (forall p, In p v -> length p = length m) -> column (add_to dir m v) i = map (fun x => x + dir * nth i m 0) (column v i).
Proof.
  intros H. unfold column, add_to. induction v as [|p v IH]; [reflexivity|]. cbn [map concat]. rewrite map_app. rewrite IH by (intros; apply H; now right). f_equal.
  change (@nil R) with ((fun cm : list R * R => map (fun x => x + dir * snd cm) (fst cm)) ([], 0)) at 1.
  rewrite map_nth. rewrite combine_nth by (apply H; left; reflexivity). reflexivity.
Qed.
Lemma means_fold Nd v l acc : Nd <> 0 -> fold_left (fun acc i => do l <- acc ; do q <- cdiv (colsum v i) Nd ; Ok (l ++ [q])) l (Ok acc) = Ok (acc ++ map (fun i => sumR (column v i) / Nd) l).
Proof.
  intros H. revert acc. induction l as [|i l IH]; intros acc; cbn [fold_left map]; [now rewrite app_nil_r|]. cbn [obind].
  unfold cdiv at 2. destruct (Req_EM_T Nd 0); [contradiction|]. cbn [obind]. rewrite IH, <- app_assoc, colsum_val. reflexivity.
Qed.
Lemma grid_add dir m ncol N v : length m = ncol -> grid ncol N v -> grid ncol N (add_to dir m v).
Proof.
  intros Hm [H1 H2]. split.
  - unfold add_to. intros p Hp. apply in_map_iff in Hp. destruct Hp as (q & <- & Hq). rewrite map_length, combine_length, (H1 q Hq). lia.
  - intros i Hi. rewrite column_add by (intros p Hp; rewrite Hm; now apply H1). rewrite map_length. now apply H2.
Qed.

(** In periodic systems the columns are shifted by constants that make their sums zero (with collinear spin, one constant
    for both columns, that makes the sum of both zero); shifting back after a mixing that keeps the sums puts the sums of the
    potential back. Elsewhere nothing is shifted. *)
Theorem C82_mean : forall spin_typ ncol N v, (0 <= spin_typ)%Z -> ncol = (if (spin_typ =? 0)%Z then 1 else if (spin_typ =? 1)%Z then 2 else 4)%nat ->
  (0 < N)%nat -> grid ncol N v ->
  exists v1 m, shift_mean 2 spin_typ (INR N) ncol v [] 0 (-1) = Ok (v1, m) /\ length m = ncol /\ grid ncol N v1 /\
    (forall i, (i < ncol)%nat -> column v1 i = map (fun x => x - nth i m 0) (column v i)) /\
    (spin_typ <> 1%Z -> forall i, (i < ncol)%nat -> sumR (column v1 i) = 0) /\
    (spin_typ = 1%Z -> sumR (column v1 0) + sumR (column v1 1) = 0 /\ nth 0 m 0 = nth 1 m 0) /\
    forall v2, grid ncol N v2 -> exists v3, shift_mean 2 spin_typ (INR N) ncol v2 m 1 1 = Ok (v3, m) /\
      (forall i, (i < ncol)%nat -> column v3 i = map (fun x => x + nth i m 0) (column v2 i)) /\
      forall i, (i < ncol)%nat -> sumR (column v2 i) = sumR (column v1 i) -> sumR (column v3 i) = sumR (column v i).
Proof.
  intros sp ncol N v Hsp Hn HN HG. assert (HNd : INR N <> 0) by (apply not_0_INR; lia).
  assert (HM : exists m, means sp (INR N) ncol v = Ok m /\ length m = ncol /\ (sp <> 1%Z -> forall i, (i < ncol)%nat -> nth i m 0 = sumR (column v i) / INR N) /\
    (sp = 1%Z -> nth 0 m 0 = nth 1 m 0 /\ nth 0 m 0 = (sumR (column v 0) / INR N + sumR (column v 1) / INR N) / 2)).
  { unfold means. rewrite means_fold by exact HNd. cbn [obind app]. destruct (Z.eqb_spec sp 1) as [->|E].
    - cbn in Hn. subst ncol. cbn [seq map]. eexists. split; [reflexivity|]. cbn [length nth]. repeat split; try reflexivity. intros; contradiction.
    - eexists. split; [reflexivity|]. split; [now rewrite map_length, seq_length|]. split; [|intros; contradiction].
      intros _ i Hi. rewrite (nth_indep _ 0 ((fun i => sumR (column v i) / INR N) O)) by (rewrite map_length, seq_length; exact Hi).
      rewrite (map_nth (fun i => sumR (column v i) / INR N)). rewrite seq_nth by exact Hi. reflexivity. }
  destruct HM as (m & Em & Lm & M1 & M2).
  assert (CA : forall dir u i, grid ncol N u -> column (add_to dir m u) i = map (fun x => x + dir * nth i m 0) (column u i)).
  { intros dir u i [G1 _]. apply column_add. intros p Hp. rewrite Lm. now apply G1. }
  assert (SA : forall dir u i, (i < ncol)%nat -> grid ncol N u -> sumR (column (add_to dir m u) i) = sumR (column u i) + INR N * (dir * nth i m 0)).
  { intros dir u i Hi Hu. rewrite CA by exact Hu. rewrite sumR_shift. destruct Hu as [_ G2]. now rewrite G2. }
  exists (add_to (-1) m v), m. unfold shift_mean. cbn [Z.eqb Pos.eqb negb]. rewrite Em. cbn [obind].
  split; [reflexivity|]. split; [exact Lm|]. split; [now apply grid_add|]. split; [|split; [|split]].
  - intros i Hi. rewrite CA by exact HG. apply map_ext. intros. ring.
  - intros N1 i Hi. rewrite SA by assumption. rewrite (M1 N1 i Hi). field. exact HNd.
  - intros ->. destruct (M2 eq_refl) as (A1 & A2). split; [|exact A1]. cbn in Hn. rewrite !SA by (assumption || lia). rewrite <- A1, A2. field. exact HNd.
  - intros v2 H2. exists (add_to 1 m v2). split; [reflexivity|]. split.
    + intros i Hi. rewrite CA by exact H2. apply map_ext. intros. ring.
    + intros i Hi Q. rewrite SA by assumption. rewrite Q, SA by assumption. ring.
Qed.
Print Assumptions C82_mean.
Theorem C82_mean_none : forall BC spin_typ Nd ncol v old option dir, BC <> 2%Z -> shift_mean BC spin_typ Nd ncol v old option dir = Ok (v, repeat 0 ncol).
Proof. intros. unfold shift_mean. destruct (Z.eqb_spec BC 2); [contradiction|reflexivity]. Qed.
Print Assumptions C82_mean_none.

(** ** What is false *)
Lemma rel_num a b x : b <> 0 -> 0 <= x -> x * x = a / b -> rel a b = Num x.
Proof. intros H Hx E. unfold rel. destruct (Req_EM_T b 0); [contradiction|]. rewrite <- E. now rewrite sqrt_square. Qed.
Lemma eval_num ncol ps x : shaped ncol ps -> total sq_out (gather ps) <> 0 -> 0 <= x -> x * x = total sq_diff (gather ps) / total sq_out (gather ps) -> eval_error ncol ps = Ok (Num x).
Proof. intros H H0 Hx E. rewrite eval_val by exact H. now rewrite (rel_num _ _ x). Qed.
Ltac shp := intros ? ? ? Hq; cbn in Hq; repeat (destruct Hq as [Hq|Hq]; [injection Hq as <- <- <-; split; reflexivity|]); destruct Hq.
Ltac ev := unfold gather, sq_out, sq_diff; cbn [map concat app combine fst snd total].

(** The comment above Evaluate_scf_error says that in periodic systems the potentials are compared with zero mean. They are
    not: adding a constant to both changes the error. *)
Theorem C82_shift_refuted : exists ncol (ps : list (nat * list R * list R)) c, shaped ncol ps /\
  eval_error ncol (map (fun q => (fst (fst q), map (Rplus c) (snd (fst q)), map (Rplus c) (snd q))) ps) <> eval_error ncol ps.
Proof.
  exists 1%nat, [(2%nat, [1; -1], [0; 0])], 1. split; [shp|]. cbn [map fst snd].
  rewrite (eval_num 1 [(2%nat, [1; -1], [0; 0])] 1); [|shp|ev; lra|lra|ev; field].
  intros H. assert (H1 : shaped 1 [(2%nat, [1 + 1; 1 + -1], [1 + 0; 1 + 0])]) by shp. rewrite (eval_val _ _ H1) in H.
  apply (f_equal (fun o => match o with Ok x => x | _ => NaN end)) in H. cbv beta iota in H.
  pose proof (relative_rel (gather [(2%nat, [1 + 1; 1 + -1], [1 + 0; 1 + 0])])) as Q. rewrite H in Q. destruct Q as (_ & _ & Q). revert Q. ev. lra.
Qed.
Print Assumptions C82_shift_refuted.

(** A run: density mixing, one process, one node, density 1 out of every potential, input density [x]. *)
Definition run1 (rho x TOL : R) : outcome (list row * Z * bool * state unit) :=
  scf_loop unit (fun w _ _ _ => Ok (w, [[[rho]]])) (fun w _ => (w, [[[0]]], [])) (fun w _ => (w, Num 0)) (fun _ _ _ _ => 0)
    (fun w _ _ x => (w, x, x)) (fun w _ v x => (w, v, x)) false 0 2 1 1 1 0 TOL TOL [1%nat] (St tt [[[x]]] [] [[[x]]] [[[0]]] [] []).
Lemma run1_val rho x TOL e : eval_error 1 [(1%nat, [rho], [x])] = Ok e -> exists s, run1 rho x TOL = Ok ([(1%Z, Num 0, e)], 1%Z, fgt e TOL, s).
Proof.
  intros H. unfold run1, scf_loop. change (Z.to_nat 1) with 1%nat. cbn [loop]. unfold step, error_of, vars, flat, nspdend.
  cbn [Z.eqb Z.ltb Z.compare world dens dens_in xk veff dia veff_in obind andb negb map concat app combine]. rewrite H. cbn [obind isnan].
  change (tol 0 TOL TOL) with TOL. destruct (flt e TOL && _); cbn [obind]; eexists; reflexivity.
Qed.
(** The warning is missing when the loop ends without convergence but the last error is not above the tolerance: it is equal
    to it, or it is not a number. *)
Theorem C82_warning_refuted : exists TOL rows1 s1 rows2 s2 rho1 x1 rho2 x2,
  run1 rho1 x1 TOL = Ok (rows1, 1%Z, false, s1) /\ (forall c E e, In (c, E, e) rows1 -> ~ below e TOL /\ e = Num TOL) /\
  run1 rho2 x2 TOL = Ok (rows2, 1%Z, false, s2) /\ (forall c E e, In (c, E, e) rows2 -> ~ below e TOL /\ e = NaN).
Proof.
  assert (E1 : eval_error 1 [(1%nat, [1], [/2])] = Ok (Num (/2))) by (apply eval_num; [shp|ev; lra|lra|ev; field]).
  assert (E2 : eval_error 1 [(1%nat, [0], [0])] = Ok NaN).
  { rewrite eval_val by shp. ev. unfold rel. destruct (Req_EM_T _ 0) as [A|A]; [|lra]. destruct (Req_EM_T _ 0) as [B|B]; [reflexivity|lra]. }
  destruct (run1_val 1 (/2) (/2) _ E1) as (s1 & R1). destruct (run1_val 0 0 (/2) _ E2) as (s2 & R2).
  assert (F : fgt (Num (/2)) (/2) = false) by (unfold fgt; destruct (Rlt_dec (/2) (/2)); [lra|reflexivity]). rewrite F in R1.
  exists (/2), [(1%Z, Num 0, Num (/2))], s1, [(1%Z, Num 0, NaN)], s2, 1, (/2), 0, 0. split; [exact R1|]. split; [|split; [exact R2|]].
  - intros c E e [H|[]]. injection H as <- <- <-. split; [|reflexivity]. intros (x & Q & L). injection Q as <-. lra.
  - intros c E e [H|[]]. injection H as <- <- <-. split; [|reflexivity]. intros (x & Q & L). discriminate Q.
Qed.
Print Assumptions C82_warning_refuted.

(** Potential mixing with noncollinear spin: the part compared is not the part mixed. A system whose potential is 1 whatever
    the density, mixed with a weight of 1/10 from 0: the run stops after two turns with error 0 and without a warning, though
    the last orbitals were solved in the potential 1/10. *)
Definition nc_solve (w : unit) (k : nat) (e : fp) (v : dvec) : outcome (unit * dvec) := Ok (w, [[[1]; [1]; [0]]]).
Definition nc_pots (w : unit) (d : dvec) : unit * dvec * dvec := (w, [[[1]; [1]; [0]; [0]]], [[[1]; [1]]]).
Definition nc_mix (w : unit) (k : nat) (g x : dvec) : unit * dvec * dvec :=
  let y := map (fun p => map (fun q => map (fun t => snd t + (fst t - snd t) / 10) (combine (fst q) (snd q))) (combine (fst p) (snd p))) (combine g x) in (w, y, y).
Definition nc_start : state unit := St tt [] [] [[[0]; [0]; [0]; [0]]] [[[0]; [0]; [0]; [0]]] [[[0]; [0]]] [].
Notation nc_step := (step unit nc_solve nc_pots (fun w _ => (w, Num 0)) (fun _ _ _ _ => 0) nc_mix nc_mix true 2 1 1 [1%nat]).
Definition nc_run : outcome (list row * Z * bool * state unit) :=
  scf_loop unit nc_solve nc_pots (fun w _ => (w, Num 0)) (fun _ _ _ _ => 0) nc_mix nc_mix true 2 1 1 100 2 0 (/1000) (/1000) [1%nat] nc_start.
Definition nc_second : state unit := St tt [[[1]; [1]; [0]]] [] [[[0 + (1 - 0) / 10]; [0 + (1 - 0) / 10]; [0 + (0 - 0) / 10]; [0 + (0 - 0) / 10]]]
  [[[0 + (1 - 0) / 10]; [0 + (1 - 0) / 10]; [0 + (0 - 0) / 10]; [0 + (0 - 0) / 10]]] [[[1]; [1]]] [[[0]; [0]]].
Lemma nc_step0 : nc_step 0 (Num (/1000 + 1)) nc_start = Ok (nc_second, Num (0 + 0), Num 1).
Proof.
  unfold step, error_of, vars, flat, nspdend. unfold nc_start, nc_solve, nc_pots, shift_mean.
  cbn [Z.eqb Pos.eqb Z.ltb Z.compare world dens dens_in xk veff dia veff_in obind andb negb map concat app combine fadd].
  rewrite (eval_num 2 [(1%nat, [1; 1], [0; 0])] 1); [reflexivity|shp|ev; lra|lra|ev; field].
Qed.
Lemma nc_step1 : exists s, nc_step 1 (Num 1) nc_second = Ok (s, Num (0 + 0), Num 0).
Proof.
  unfold step, error_of, vars, flat, nspdend. unfold nc_second, nc_solve, nc_pots, shift_mean.
  cbn [Z.eqb Pos.eqb Z.ltb Z.compare world dens dens_in xk veff dia veff_in obind andb negb map concat app combine fadd].
  rewrite (eval_num 2 [(1%nat, [1; 1], [1; 1])] 0); [eexists; reflexivity|shp|ev; lra|lra|ev; field].
Qed.
Theorem C82_noncollinear_refuted : exists rows s' s1 E e w rho v d,
  nc_run = Ok (rows, 2%Z, false, s') /\
  nc_step 0 (Num (/1000 + 1)) nc_start = Ok (s1, E, e) /\ nc_step 1 e s1 = Ok (s', E, Num 0) /\
  nc_solve (world s1) 1 e (veff s1) = Ok (w, rho) /\ nc_pots w rho = (w, v, d) /\
  eval_error 4 (combine (combine [1%nat] (map (@concat R) v)) (map (@concat R) (veff s1))) = Ok (Num (9/10)).
Proof.
  destruct nc_step1 as (s' & S1). exists [(1%Z, Num (0 + 0), Num 1); (2%Z, Num (0 + 0), Num 0)], s', nc_second, (Num (0 + 0)), (Num 1), tt, [[[1]; [1]; [0]]], [[[1]; [1]; [0]; [0]]], [[[1]; [1]]].
  assert (F1 : flt (Num 1) (/1000) = false) by (unfold flt; destruct (Rlt_dec 1 (/1000)); [lra|reflexivity]).
  assert (F2 : flt (Num 0) (/1000) = true) by (unfold flt; destruct (Rlt_dec 0 (/1000)); [reflexivity|lra]).
  assert (F3 : fgt (Num 0) (/1000) = false) by (unfold fgt; destruct (Rlt_dec (/1000) 0); [lra|reflexivity]).
  split; [|split; [exact nc_step0|split; [exact S1|split; [reflexivity|split; [reflexivity|]]]]].
  - unfold nc_run, scf_loop. change (Z.to_nat 100) with (S (S 98)). cbn [loop]. rewrite nc_step0. cbn [obind].
    change (tol 0 (/1000) (/1000)) with (/1000). rewrite F1. cbn [andb]. rewrite S1. cbn [obind]. rewrite F2. cbn [andb].
    change (2 <=? Z.of_nat 1 + 1)%Z with true. cbn [app obind length]. rewrite F3. reflexivity.
  - cbn [nc_second veff map concat app combine]. apply eval_num; [shp|ev; lra|lra|ev; field].
Qed.
Print Assumptions C82_noncollinear_refuted.

(** ** Cases that meet the hypotheses *)
Example C82_error_case : shaped 2 [(2%nat, [1; 2; 3; 4], [1; 2; 3; 5]); (1%nat, [0; 7], [0; 7])] /\
  eval_error 1 [(2%nat, [3; 4], [3; -1])] = Ok (Num 1) /\ eval_error 1 [(1%nat, [4], [-1]); (1%nat, [3], [3])] = Ok (Num 1).
Proof. split; [shp|]. split; (apply eval_num; [shp|ev; lra|lra|ev; field]). Qed.
Example C82_division_case : Permutation (gather [(2%nat, [3; 4], [3; -1])]) (gather [(1%nat, [4], [-1]); (1%nat, [3], [3])]).
Proof. ev. apply perm_swap. Qed.
Example C82_short_case : eval_error 1 [(2%nat, [3; 4], [3])] = UB.
Proof. apply C82_short. exists 2%nat, [3; 4], [3]. split; [left; reflexivity|]. cbn. lia. Qed.
Example C82_stop_case : exists s, run1 1 (/2) 1 = Ok ([(1%Z, Num 0, Num (/2))], 1%Z, false, s).
Proof.
  assert (E1 : eval_error 1 [(1%nat, [1], [/2])] = Ok (Num (/2))) by (apply eval_num; [shp|ev; lra|lra|ev; field]).
  destruct (run1_val 1 (/2) 1 _ E1) as (s & H). assert (F : fgt (Num (/2)) 1 = false) by (unfold fgt; destruct (Rlt_dec 1 (/2)); [lra|reflexivity]).
  rewrite F in H. eauto.
Qed.
Example C82_density_case : belongs unit (fun w d => (w, d, [])) 1 (St tt [[[3]; [1]; [2]]] [] [] [[[3]; [1]; [2]]] [] []) /\
  belongs unit (fun w d => (w, d, [])) 0 (St tt [[[3]]] [] [[[3]]] [[[3]]] [] []).
Proof. split; (split; [exists tt, tt, []; reflexivity|]); [discriminate|reflexivity]. Qed.
Example C82_mean_case : grid 2 3 [[[1; 2]; [3; 4]]; [[5]; [6]]] /\ grid 1 2 [[[1]]; [[5]]].
Proof.
  split; (split; [intros p [<-|[<-|[]]]; reflexivity|]); intros [|[|i]] Hi; try reflexivity; lia.
Qed.
Example C82_potential_case : exists s, step unit (fun w _ _ _ => Ok (w, [[[1]]])) (fun w _ => (w, [[[2]]], [])) (fun w _ => (w, Num 0)) (fun _ _ _ _ => 3)
  nc_mix nc_mix true 0 0 1 [1%nat] 0 (Num 2) (St tt [[[1]]] [] [[[1]]] [[[1]]] [] []) = Ok (s, Num (0 + 3), Num (/2)).
Proof.
  unfold step, error_of, vars, flat, nspdend, shift_mean.
  cbn [Z.eqb Pos.eqb Z.ltb Z.compare world dens dens_in xk veff dia veff_in obind andb negb map concat app combine fadd].
  rewrite (eval_num 1 [(1%nat, [2], [1])] (/2)); [eexists; reflexivity|shp|ev; lra|lra|ev; field].
Qed.

(** ** Potential mixing: the next potential *)
Section Next.
  Variable W : Type.
  Variable solve : W -> nat -> fp -> dvec -> outcome (W * dvec).
  Variable pots : W -> dvec -> W * dvec * dvec.
  Variable energy : W -> dvec -> W * fp.
  Variable escc : W -> dvec -> dvec -> dvec -> R.
  Variable mix_d mix_v : W -> nat -> dvec -> dvec -> W * dvec * dvec.
  Variables (potmix : bool) (spin_typ BC : Z) (Nd : R) (DMnd : list nat).
  Notation step := (step W solve pots energy escc mix_d mix_v potmix spin_typ BC Nd DMnd).

  (** The potential mixed is the output, in periodic systems with every column shifted by its mean; the next potential is the
      mixed one shifted back by the same constants. *)
  Theorem C82_next : forall k err s s' E e, potmix = true -> (0 <= spin_typ)%Z -> step k err s = Ok (s', E, e) ->
    let ncol := (if (spin_typ =? 0)%Z then 1 else if (spin_typ =? 1)%Z then 2 else 4)%nat in
    exists w rho w2 v v1 v2, solve (world s) k err (veff s) = Ok (w, rho) /\ pots w rho = (w2, v, dia s') /\ dens s' = rho /\
      mix_v (fst (energy w2 rho)) k v1 (xk s) = (world s', v2, xk s') /\
      (BC <> 2%Z -> v1 = v /\ veff s' = v2) /\
      (BC = 2%Z -> forall N, (0 < N)%nat -> Nd = INR N -> grid ncol N v -> grid ncol N v2 ->
        exists m, forall i, (i < ncol)%nat -> column v1 i = map (fun x => x - nth i m 0) (column v i) /\
          column (veff s') i = map (fun x => x + nth i m 0) (column v2 i) /\
          (spin_typ <> 1%Z -> sumR (column v1 i) = 0) /\ (spin_typ = 1%Z -> sumR (column v1 0) + sumR (column v1 1) = 0 /\ nth 0 m 0 = nth 1 m 0)).
  Proof.
    intros k err s s' E e Hm Hsp H ncol. unfold Scf.step in H. rewrite Hm in H.
    destruct (solve (world s) k err (veff s)) as [[w rho]| |] eqn:Es; cbn [obind] in H; try discriminate H.
    destruct (pots w rho) as [[w2 v] d] eqn:Ep. destruct (energy w2 rho) as [w3 E0] eqn:Ee.
    destruct (error_of _ _ _ _ _) as [e1| |]; cbn [obind] in H; try discriminate H. destruct (isnan _); try discriminate H.
    change (nspden spin_typ) with ncol in H.
    destruct (shift_mean BC spin_typ Nd ncol v [] 0 (-1)) as [[v1 m]| |] eqn:E1; cbn [obind] in H; try discriminate H.
    destruct (mix_v w3 k v1 (xk s)) as [[w4 v2] x] eqn:Emx. destruct (shift_mean BC spin_typ Nd ncol v2 m 1 1) as [[v3 m3]| |] eqn:E2; cbn [obind fst] in H; try discriminate H.
    injection H as <- <- <-. cbn [dia dens world xk veff]. exists w, rho, w2, v, v1, v2. rewrite Ee. cbn [fst]. repeat (split; [solve [auto]|]). split.
    - intros NB. rewrite (C82_mean_none BC) in E1, E2 by exact NB. injection E1 as <- _. injection E2 as <- _. auto.
    - intros -> N HN -> G1 G2. destruct (C82_mean spin_typ ncol N v Hsp eq_refl HN G1) as (u & m' & Q & _ & _ & A & B & C & D).
      rewrite E1 in Q. injection Q as <- <-. destruct (D v2 G2) as (u3 & Q & F & _). rewrite E2 in Q. injection Q as <- _.
      exists m. intros i Hi. split; [now apply A|]. split; [now apply F|]. split; [intros N1; now apply B|exact C].
  Qed.

  (** An energy that is not a number ends the program. *)
  Theorem C82_nan : forall k err s w rho e, potmix = false -> (0 <= spin_typ)%Z -> belongs W pots spin_typ s ->
    solve (world s) k err (veff s) = Ok (w, rho) -> compare_arrays spin_typ DMnd (spin_columns spin_typ rho) (spin_columns spin_typ (dens s)) = Ok e ->
    snd (energy w (dens s)) = NaN -> step k err s = Exit.
  Proof.
    intros k err s w rho e Hm Hsp HB Es Ec En. unfold Scf.step. rewrite Hm. cbn [negb andb]. rewrite andb_true_r, Es. cbn [obind].
    assert (Q : (if (spin_typ =? 0)%Z then xk s else if (0 <? spin_typ)%Z then dens s else dens_in s) = dens s).
    { destruct (Z.eqb_spec spin_typ 0); [now apply HB|]. destruct (Z.ltb_spec 0 spin_typ); [reflexivity|lia]. }
    rewrite Q. destruct (energy w (dens s)) as [w1 E1] eqn:Ee. cbn [snd] in En. subst E1.
    unfold error_of, vars. rewrite (nspdend_val spin_typ Hsp). cbn [dens dens_in xk].
    assert (Q2 : (if (0 <? spin_typ)%Z then drop_total rho else rho) = spin_columns spin_typ rho).
    { unfold spin_columns, drop_total. destruct (Z.ltb_spec 0 spin_typ), (Z.eqb_spec spin_typ 0); try lia; reflexivity. }
    assert (Q3 : (if (spin_typ =? 0)%Z then xk s else drop_total (if (0 <? spin_typ)%Z then dens s else dens_in s)) = spin_columns spin_typ (dens s)).
    { unfold spin_columns, drop_total. destruct (Z.eqb_spec spin_typ 0); [now apply HB|]. destruct (Z.ltb_spec 0 spin_typ); [reflexivity|lia]. }
    rewrite Q2, Q3. unfold flat. unfold compare_arrays in Ec. rewrite Ec. reflexivity.
  Qed.
End Next.
Print Assumptions C82_next.
Print Assumptions C82_nan.
Example C82_nan_case : step unit (fun w _ _ _ => Ok (w, [[[1]]])) (fun w d => (w, d, [])) (fun w _ => (w, NaN)) (fun _ _ _ _ => 3)
  nc_mix nc_mix false 0 0 1 [1%nat] 0 (Num 2) (St tt [[[2]]] [] [[[2]]] [[[2]]] [] []) = Exit.
Proof.
  eapply (C82_nan unit) with (w := tt) (rho := [[[1]]]) (e := Num 1); try reflexivity; try lia.
  - split; [exists tt, tt, []; reflexivity|reflexivity].
  - unfold compare_arrays, spin_columns. cbn. apply (eval_num 1 [(1%nat, [1], [2])] 1); [shp|ev; lra|lra|ev; field].
Qed.
