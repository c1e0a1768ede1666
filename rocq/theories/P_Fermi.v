(** C23: the Fermi-level root finder. *)
From Coq Require Import ZArith List Lia Bool QArith Qabs Lqa.
From Verif Require Import CBase Spline Fermi.
Import ListNotations.
Local Open Scope Q_scope.

(** The bracket after [k] expansions around the midpoint [m]. *)
Definition lo_k (x1 x2 : Q) (k : nat) : Q := (x1 + x2) / 2 - pow2 k * (Qabs (x2 - x1) / 2).
Definition hi_k (x1 x2 : Q) (k : nat) : Q := (x1 + x2) / 2 + pow2 k * (Qabs (x2 - x1) / 2).

(** C23.  For every constraint function and every starting bracket there is
    a number of expansions [k <= 10] such that no smaller bracket shows a
    sign change, every point evaluated lies in the k-th bracket, and the
    search either returns a value in it at which the constraint is below the
    threshold or next to which (within 2*tol1) it changes sign, or stops with
    an error because even the tenth bracket shows no sign change or because
    exactly [max_iter] further evaluations have been made.  No division by
    zero ever occurs. *)
Theorem C23_root_or_error : forall (f : Q -> Q) (x1 x2 tol : Q) (max_iter : nat),
  (forall x y, x == y -> f x == f y) -> 0 <= tol ->
  exists k, (k <= 10)%nat /\
    (forall i, (i < k)%nat -> 0 < f (lo_k x1 x2 i) * f (hi_k x1 x2 i)) /\
    (forall x, In x (fst (FermiLevel f true x1 x2 tol max_iter)) -> lo_k x1 x2 k <= x <= hi_k x1 x2 k) /\
    match snd (FermiLevel f true x1 x2 tol max_iter) with
    | Ok b => lo_k x1 x2 k <= b <= hi_k x1 x2 k /\
        (Qabs (f b) < 1 # 10000000000000000 \/
         exists c, lo_k x1 x2 k <= c <= hi_k x1 x2 k /\ f b * f c <= 0 /\
           Qabs (c - b) <= 2 * (2 * (1 # 10000000000000000) * Qabs b + (1 # 2) * tol))
    | Exit => (k = 10%nat /\ 0 < f (lo_k x1 x2 10) * f (hi_k x1 x2 10)) \/
              length (fst (FermiLevel f true x1 x2 tol max_iter)) = (2 + 2 * k + max_iter)%nat
    | UB => False
    end.
Proof.
  intros f x1 x2 tol max_iter Hext Htol.
  set (a0 := if qltb x1 x2 then x1 else x2). set (b0 := if qltb x2 x1 then x1 else x2).
  set (h := Qabs (x2 - x1) / 2). set (m := (x1 + x2) / 2).
  assert (Hh : 0 <= h).
  { unfold h. pose proof (Qabs_nonneg (x2 - x1)). apply Qle_shift_div_l; [reflexivity | lra]. }
  assert (Ha : a0 == m - pow2 0 * h /\ b0 == m + pow2 0 * h).
  { unfold a0, b0, m, h. cbn [pow2]. destruct (qltb x1 x2) eqn:E1; destruct (qltb x2 x1) eqn:E2;
    try (apply qltb_lt in E1); try (apply qltb_lt in E2); try (apply qltb_ge in E1); try (apply qltb_ge in E2).
    - exfalso; lra.
    - rewrite (Qabs_pos (x2 - x1)) by lra. split; field.
    - rewrite (Qabs_neg (x2 - x1)) by lra. split; field.
    - assert (X : x1 == x2) by lra. rewrite X. setoid_replace (x2 - x2) with 0 by ring.
      change (Qabs 0) with 0. split; field. }
  destruct Ha as [Ha Hb].
  destruct (expand_spec f Hext m h Hh 10 0 a0 b0 [a0; b0] Ha Hb)
    as (k & a' & b' & pts & K & X & A & B & L & P & La & Lb & S1 & S2).
  assert (AB : a0 <= b0) by (rewrite Ha, Hb; cbn [pow2]; lra).
  assert (Elo : lo_k x1 x2 k == a') by (rewrite A; reflexivity).
  assert (Ehi : hi_k x1 x2 k == b') by (rewrite B; reflexivity).
  assert (Tr : forall x, In x ([a0; b0] ++ pts) -> a' <= x <= b').
  { intros x Hx. cbn [app In] in Hx. destruct Hx as [<- | [<- | Hx]]; [lra | lra | apply P, Hx]. }
  exists k. split; [lia|]. split; [intros i Hi; apply (S1 i); lia|].
  unfold FermiLevel. fold a0 b0. rewrite X.
  destruct (qltb 0 (f a' * f b')) eqn:E.
  - cbn [fst snd]. split; [intros x Hx; rewrite Elo, Ehi; apply Tr, Hx|].
    apply qltb_lt in E. left. destruct S2 as [S2|S2]; [exfalso; lra|]. split; [lia|].
    assert (k = 10%nat) by lia. subst k.
    assert (E1 : f (lo_k x1 x2 10) == f a') by (apply Hext, Elo).
    assert (E2 : f (hi_k x1 x2 10) == f b') by (apply Hext, Ehi).
    rewrite E1, E2. exact E.
  - apply qltb_ge in E.
    destruct (iterate_spec f max_iter tol (mkB a' b' b' 0 0 (f a') (f b') (f b')) ([a0; b0] ++ pts) a' b' Htol)
      as (I1 & I2 & I3 & I4).
    + unfold tracked. cbn. auto.
    + unfold within. cbn. lra.
    + unfold may_reset. cbn. right. exact E.
    + exact Tr.
    + split; [intros x Hx; rewrite Elo, Ehi; apply I1, Hx|].
      destruct (snd (iterate f max_iter tol (mkB a' b' b' 0 0 (f a') (f b') (f b')) ([a0; b0] ++ pts))) as [b| |].
      * destruct (I4 b eq_refl) as (G1 & G2). split; [rewrite Elo, Ehi; exact G1|].
        destruct G2 as [G2|(c & C1 & C2 & C3)]; [left; exact G2 | right; exists c].
        split; [rewrite Elo, Ehi; exact C1|]. split; [exact C2 | exact C3].
      * exfalso. apply I2. reflexivity.
      * right. rewrite (I3 eq_refl), app_length, L. cbn [length]. lia.
Qed.
Print Assumptions C23_root_or_error.

(** For an increasing constraint (C24) the true Fermi level is within
    2*tol1 of the value returned, unless the constraint is already below the
    threshold there. *)
Theorem C23_close_to_true_root : forall (f : Q -> Q) (x1 x2 tol : Q) (max_iter : nat) (b z : Q),
  (forall x y, x == y -> f x == f y) -> (forall x y, x < y -> f x < f y) -> 0 <= tol ->
  snd (FermiLevel f true x1 x2 tol max_iter) = Ok b -> f z == 0 ->
  Qabs (f b) < 1 # 10000000000000000 \/
  Qabs (z - b) <= 2 * (2 * (1 # 10000000000000000) * Qabs b + (1 # 2) * tol).
Proof.
  intros f x1 x2 tol n b z Hext Hinc Htol Hr Hz.
  destruct (C23_root_or_error f x1 x2 tol n Hext Htol) as (k & _ & _ & _ & H). rewrite Hr in H.
  destruct H as (_ & [H | (c & _ & H1 & H2)]); [left; exact H | right].
  set (T := 2 * (2 * (1 # 10000000000000000) * Qabs b + (1 # 2) * tol)) in *. clearbody T.
  assert (M : forall u v, f u <= 0 -> f v == 0 -> u <= v).
  { intros u v Hu Hv. destruct (Qlt_le_dec v u) as [L|L]; [|exact L]. specialize (Hinc v u L). lra. }
  assert (M' : forall u v, 0 <= f u -> f v == 0 -> v <= u).
  { intros u v Hu Hv. destruct (Qlt_le_dec u v) as [L|L]; [|exact L]. specialize (Hinc u v L). lra. }
  apply Qabs_Qle_condition in H2. apply Qabs_Qle_condition.
  assert (S : (f b <= 0 /\ 0 <= f c) \/ (0 <= f b /\ f c <= 0)).
  { destruct (Qlt_le_dec 0 (f b)) as [L|L].
    - right. split; [lra|]. nra.
    - destruct (Qlt_le_dec (f c) 0) as [L2|L2]; [|left; split; lra].
      right. split; [nra | lra]. }
  destruct S as [[S1 S2]|[S1 S2]].
  - pose proof (M b z S1 Hz). pose proof (M' c z S2 Hz). lra.
  - pose proof (M' b z S1 Hz). pose proof (M c z S2 Hz). lra.
Qed.
Print Assumptions C23_close_to_true_root.

(** A step at 4/3 outside the starting bracket (0, 1), which is expanded
    once; and a line, found by interpolation. *)
Definition ex_step (x : Q) : Q := if qltb x (4 # 3) then -1 else 1.
Example C23_example :
  exists b, snd (FermiLevel ex_step true 0 1 (1 # 100) 50) = Ok b /\ (132 # 100) < b /\ b < (134 # 100).
Proof. vm_compute. eexists. split; [reflexivity|]. split; reflexivity. Qed.
Example C23_example_ext : forall x y, x == y -> ex_step x == ex_step y.
Proof.
  intros x y H. unfold ex_step. destruct (qltb x (4 # 3)) eqn:E1; destruct (qltb y (4 # 3)) eqn:E2; try reflexivity.
  - apply qltb_lt in E1. apply qltb_ge in E2. lra.
  - apply qltb_ge in E1. apply qltb_lt in E2. lra.
Qed.
Example C23_line_example :
  exists b, snd (FermiLevel (fun x => Qred (3 * x - 4)) true 0 1 (1 # 100) 50) = Ok b /\ b == 4 # 3.
Proof. vm_compute. eexists. split; reflexivity. Qed.
Example C23_unbracketed_example : snd (FermiLevel (fun _ => 1) true 0 1 (1 # 100) 50) = Exit.
Proof. vm_compute. reflexivity. Qed.
Example C23_limit_example : snd (FermiLevel ex_step true 0 1 (1 # 100) 2) = Exit.
Proof. vm_compute. reflexivity. Qed.
