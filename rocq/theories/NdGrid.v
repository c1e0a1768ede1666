(** Model of the n-d grid enumeration helper. *)
From Coq Require Import ZArith List Lia Bool.
From Coq Require Import ZifyBool ZifyNat.
From Verif Require Import CBase Mem.
Import ListNotations.
Local Open Scope Z_scope.

(** src/tools.c:1177-1194 [c_ndgrid_recursion].  [xs], [xe] are the bound
    arrays, [X] the output array; both divisions can be by zero. *)
Fixpoint c_ndgrid_recursion (ndims : nat) (ncopy nnodes : Z) (xs xe : nat -> Z)
    (X : mem Z) : outcome (mem Z) :=
  match ndims with
  | O => Ok X
  | S d =>
    let nnd := xe d - xs d + 1 in
    do m <- c_div nnodes nnd;
    let start_pos := nnodes * ncopy * Z.of_nat d in
    let vals := flat_map (fun _ : Z =>
                  flat_map (fun i => repeat i (Z.to_nat m)) (zseq (xs d) (Z.to_nat nnd)))
                  (zseq 0 (Z.to_nat ncopy)) in
    do nc <- c_div (ncopy * nnodes) m;
    c_ndgrid_recursion d nc m xs xe (store_run X start_pos vals)
  end.

(** src/tools.c:1149-1151: product of the extents. *)
Fixpoint nd_total (d : nat) (xs xe : nat -> Z) : Z :=
  match d with O => 1 | S e => nd_total e xs xe * (xe e - xs e + 1) end.

(** src/tools.c:1143-1154 [c_ndgrid]. *)
Definition c_ndgrid (ndims : nat) (xs xe : nat -> Z) (X : mem Z) : outcome (mem Z) :=
  match ndims with
  | O => Ok X
  | S _ => c_ndgrid_recursion ndims 1 (nd_total ndims xs xe) xs xe X
  end.

Lemma nd_total_pos d xs xe : (forall e, (e < d)%nat -> xs e <= xe e) -> 0 < nd_total d xs xe.
Proof.
  intros H. induction d; cbn [nd_total]; [lia|].
  assert (0 < nd_total d xs xe) by (apply IHd; intros; apply H; lia).
  specialize (H d ltac:(lia)). nia.
Qed.

Lemma level_vals (ncopy nnd m lo : Z) :
  0 <= ncopy -> 0 < nnd -> 0 < m ->
  let vals := flat_map (fun _ : Z =>
        flat_map (fun i => repeat i (Z.to_nat m)) (zseq lo (Z.to_nat nnd)))
        (zseq 0 (Z.to_nat ncopy)) in
  Z.of_nat (length vals) = ncopy * nnd * m /\
  forall t, 0 <= t < ncopy * nnd * m ->
    nth_error vals (Z.to_nat t) = Some (lo + (t / m) mod nnd).
Proof.
  intros Hc Hn Hm vals.
  assert (L1 : forall i : Z, length (repeat i (Z.to_nat m)) = Z.to_nat m)
    by (intros; apply repeat_length).
  assert (L2 : forall c : Z, length (flat_map (fun i => repeat i (Z.to_nat m))
       (zseq lo (Z.to_nat nnd))) = (Z.to_nat nnd * Z.to_nat m)%nat).
  { intros _. rewrite (length_flat_map_const _ (Z.to_nat m)) by assumption.
    now rewrite zseq_length. }
  split.
  - unfold vals. rewrite (length_flat_map_const _ (Z.to_nat nnd * Z.to_nat m)) by assumption.
    rewrite zseq_length. lia.
  - intros t Ht. unfold vals.
    set (s := nnd * m).
    assert (Hs : 0 < s) by (unfold s; nia).
    assert (D1 := Z.div_mod t s ltac:(lia)). assert (B1 := Z.mod_pos_bound t s Hs).
    assert (Q1 : 0 <= t / s) by (apply Z.div_pos; lia).
    assert (Q2 : t / s < ncopy).
    { apply Z.div_lt_upper_bound; [lia|]. unfold s. lia. }
    set (u := t mod s) in *.
    assert (D2 := Z.div_mod u m ltac:(lia)). assert (B2 := Z.mod_pos_bound u m Hm).
    assert (Q3 : 0 <= u / m) by (apply Z.div_pos; lia).
    assert (Q4 : u / m < nnd) by (apply Z.div_lt_upper_bound; unfold s in *; lia).
    assert (E : (t / m) mod nnd = u / m).
    { unfold u, s. rewrite (Z.mul_comm nnd m).
      rewrite Z.rem_mul_r by lia. rewrite (Z.mul_comm m (_ mod _)), Z.div_add by lia.
      rewrite (Z.div_small (t mod m)) by (apply Z.mod_pos_bound; lia). lia. }
    rewrite E.
    replace (Z.to_nat t) with (Z.to_nat (t / s) * (Z.to_nat nnd * Z.to_nat m) + Z.to_nat u)%nat.
    2:{ apply Nat2Z.inj. rewrite Nat2Z.inj_add, !Nat2Z.inj_mul, !Z2Nat.id by lia.
        replace (t / s * (nnd * m)) with (s * (t / s)) by (unfold s; ring).
        symmetry; exact D1. }
    rewrite (nth_error_flat_map_const _ (Z.to_nat nnd * Z.to_nat m) L2 _ _ _ (0 + t / s)).
    2:{ rewrite <- Z2Nat.inj_mul by lia. fold s. lia. }
    2:{ rewrite nth_error_zseq by lia. f_equal. lia. }
    replace (Z.to_nat u) with (Z.to_nat (u / m) * Z.to_nat m + Z.to_nat (u mod m))%nat.
    2:{ apply Nat2Z.inj. rewrite Nat2Z.inj_add, Nat2Z.inj_mul, !Z2Nat.id by lia. lia. }
    rewrite (nth_error_flat_map_const _ (Z.to_nat m) L1 _ _ _ (lo + u / m)).
    2:{ lia. }
    2:{ rewrite nth_error_zseq by lia. f_equal. lia. }
    apply nth_error_repeat. lia.
Qed.

Lemma c_ndgrid_rec_spec d : forall xs xe ncopy nnodes X N,
  (forall e, (e < d)%nat -> xs e <= xe e) ->
  nnodes = nd_total d xs xe -> 0 < ncopy -> ncopy * nnodes = N ->
  exists X', c_ndgrid_recursion d ncopy nnodes xs xe X = Ok X' /\
   (forall e t, (e < d)%nat -> 0 <= t < N ->
      X' (Z.of_nat e * N + t) = xs e + (t / nd_total e xs xe) mod (xe e - xs e + 1)) /\
   (forall i, i < 0 \/ Z.of_nat d * N <= i -> X' i = X i).
Proof.
  induction d as [|d IH]; intros xs xe ncopy nnodes X N Hx Hn Hc HN.
  - cbn [c_ndgrid_recursion]. exists X. split; [reflexivity|]. split; [intros; lia|auto].
  - cbn [c_ndgrid_recursion]. cbn [nd_total] in Hn.
    assert (Hd : xs d <= xe d) by (apply Hx; lia).
    set (nnd := xe d - xs d + 1) in *.
    assert (Hnnd : 0 < nnd) by (unfold nnd; lia).
    assert (Ht : 0 < nd_total d xs xe) by (apply nd_total_pos; intros; apply Hx; lia).
    set (m := nd_total d xs xe) in *.
    unfold c_div at 1. replace (nnd =? 0) with false by lia.
    assert (Em : Z.quot nnodes nnd = m) by (rewrite Hn; apply Z.quot_mul; lia).
    rewrite Em. cbn [obind]. cbv zeta.
    unfold c_div at 1. replace (m =? 0) with false by lia. cbn [obind].
    assert (Enc : Z.quot (ncopy * nnodes) m = ncopy * nnd).
    { rewrite Hn. replace (ncopy * (m * nnd)) with ((ncopy * nnd) * m) by ring.
      apply Z.quot_mul; lia. }
    rewrite Enc.
    destruct (level_vals ncopy nnd m (xs d)) as [Ln Vn]; [lia..|]. cbv zeta in Ln, Vn.
    set (vals := flat_map _ _) in *.
    assert (EN : ncopy * nnd * m = N) by (rewrite <- HN, Hn; ring).
    rewrite EN in Ln, Vn.
    set (st := nnodes * ncopy * Z.of_nat d).
    assert (Est : st = Z.of_nat d * N) by (unfold st; rewrite <- HN; ring).
    assert (HNpos : 0 < N) by (rewrite <- EN; nia).
    destruct (IH xs xe (ncopy * nnd) m (store_run X st vals) N) as (X' & E & V & O).
    + intros; apply Hx; lia.
    + reflexivity.
    + nia.
    + rewrite <- EN. ring.
    + exists X'. split; [exact E|]. split.
      * intros e t He Htr. destruct (Nat.eq_dec e d) as [->|Ne].
        -- rewrite O by (right; lia).
           rewrite Est. replace t with (Z.of_nat (Z.to_nat t)) at 1 by lia.
           apply store_run_in. apply Vn. exact Htr.
        -- apply V; [lia|exact Htr].
      * intros i Hi.
        assert (Hi2 : i < 0 \/ Z.of_nat d * N + N <= i).
        { destruct Hi as [Hi|Hi]; [now left|right].
          replace (Z.of_nat (S d)) with (Z.of_nat d + 1) in Hi by lia. lia. }
        assert (0 <= Z.of_nat d * N) by nia.
        rewrite O by lia. apply store_run_out. rewrite Ln, Est. lia.
Qed.
