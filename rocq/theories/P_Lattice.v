(** C48: lattice coordinate transformations. *)
From Coq Require Import Reals List Lia Lra ZArith Bool Psatz.
From Verif Require Import CBase BandK Lattice.
Import ListNotations.
Local Open Scope R_scope.

(** ** Specification *)
Definition row (M : mat) (i : nat) : vec := V (M i 0%nat) (M i 1%nat) (M i 2%nat).
Definition norm (v : vec) : R := sqrt (dot v v).
Definition det (M : mat) : R := dot (row M 0) (Cross_Product (row M 1) (row M 2)).
(** Cartesian image of cell coordinates: x u1 + y u2 + z u3 with u_i the unit lattice vectors *)
Definition unit_row (L : mat) (i : nat) : vec := vscale (/ norm (row L i)) (row L i).
Definition cart (L : mat) (p : vec) : vec :=
  vadd (vadd (vscale (vx p) (unit_row L 0)) (vscale (vy p) (unit_row L 1))) (vscale (vz p) (unit_row L 2)).

Lemma vec_eq a b : vx a = vx b -> vy a = vy b -> vz a = vz b -> a = b.
Proof. destruct a, b; cbn; intros; subst; reflexivity. Qed.
Lemma mag_norm L i : mag L i = norm (row L i).
Proof. unfold mag, norm, dot, row. cbn. f_equal. ring. Qed.

Lemma Jacbdet_det U : Jacbdet U = det U.
Proof. unfold Jacbdet, det, sum3, sgn, dot, Cross_Product, row. cbn. ring. Qed.

Lemma setup_inv L t : setup L = Ok t ->
  mag L 0 <> 0 /\ mag L 1 <> 0 /\ mag L 2 <> 0 /\ 0 < det (LatUVec L) /\
  t = Lat (LatUVec L) (Jacbdet (LatUVec L)) (metricT (LatUVec L)) (gradT (LatUVec L)) (lapcT (LatUVec L))
          (cell_typ1 (LatUVec L) (cell_typ0 L)).
Proof.
  unfold setup. destruct (Req_EM_T (mag L 0) 0); [discriminate|]. destruct (Req_EM_T (mag L 1) 0); [discriminate|].
  destruct (Req_EM_T (mag L 2) 0); [discriminate|]. cbv zeta. destruct (Rle_dec (Jacbdet (LatUVec L)) 0) as [H|H]; [discriminate|].
  intros [= <-]. rewrite Jacbdet_det in H. repeat split; auto; lra.
Qed.

Lemma dot_pos v : 0 <= dot v v.
Proof. unfold dot. nra. Qed.
Lemma norm_sq v : norm v * norm v = dot v v.
Proof. unfold norm. apply sqrt_sqrt, dot_pos. Qed.
Lemma norm_pos v : 0 <= norm v.
Proof. apply sqrt_pos. Qed.

Lemma det_scale L : mag L 0 <> 0 -> mag L 1 <> 0 -> mag L 2 <> 0 ->
  det L = mag L 0 * mag L 1 * mag L 2 * det (LatUVec L).
Proof.
  intros H0 H1 H2. unfold det, LatUVec, dot, Cross_Product, row; cbn.
  generalize dependent (mag L 0). generalize dependent (mag L 1). generalize dependent (mag L 2). intros. field. auto.
Qed.

(** The lattice is accepted exactly when its vectors form a right-handed basis. *)
Theorem C48_accepted L : (forall i, (i < 3)%nat -> row L i <> V 0 0 0) ->
  setup L <> UB /\ (setup L = Exit <-> det L <= 0).
Proof.
  intros HR.
  assert (M : forall i, (i < 3)%nat -> 0 < mag L i).
  { intros i Hi. rewrite mag_norm. destruct (norm_pos (row L i)) as [P|P]; [exact P|].
    exfalso. apply (HR i Hi). assert (D : dot (row L i) (row L i) = 0) by (rewrite <- norm_sq, <- P; ring).
    unfold dot in D. apply vec_eq; cbn in *; nra. }
  pose proof (M 0%nat ltac:(lia)). pose proof (M 1%nat ltac:(lia)). pose proof (M 2%nat ltac:(lia)).
  unfold setup. destruct (Req_EM_T (mag L 0) 0); [lra|]. destruct (Req_EM_T (mag L 1) 0); [lra|].
  destruct (Req_EM_T (mag L 2) 0); [lra|]. cbv zeta.
  assert (P : 0 < mag L 0 * mag L 1 * mag L 2) by (repeat apply Rmult_lt_0_compat; assumption).
  assert (E : det L = mag L 0 * mag L 1 * mag L 2 * det (LatUVec L)) by (apply det_scale; assumption).
  destruct (Rle_dec (Jacbdet (LatUVec L)) 0) as [H2|H2]; rewrite Jacbdet_det in H2.
  - split; [discriminate|]. split; [intros _|reflexivity]. rewrite E. nra.
  - split; [discriminate|]. split; [discriminate|]. intros D. rewrite E in D. nra.
Qed.

Section Ok.
  Variables (L : mat) (t : lattice).
  Hypothesis Ht : setup L = Ok t.

  Lemma to_cart_spec p : nonCart2Cart_coord t p = cart L p.
  Proof.
    destruct (setup_inv L t Ht) as [_ [_ [_ [_ ->]]]]. unfold nonCart2Cart_coord, cart, unit_row, LatUVec. cbn.
    rewrite !mag_norm. apply vec_eq; cbn; unfold Rdiv; ring.
  Qed.
  Lemma grd_dual i j : (i < 3)%nat -> (j < 3)%nat ->
    dot (row (grd t) i) (row (lu t) j) = if (i =? j)%nat then 1 else 0.
  Proof.
    destruct (setup_inv L t Ht) as [_ [_ [_ [D ->]]]]. cbn [lu grd]. revert D. generalize (LatUVec L) as U. intros U D Hi Hj.
    assert (E : Jacbdet U = det U) by apply Jacbdet_det. unfold det, dot, Cross_Product, row in E; cbn in E.
    assert (N : det U <> 0) by lra. unfold det, dot, Cross_Product, row in N; cbn in N.
    destruct i as [|[|[|i]]]; [| | |lia]; (destruct j as [|[|[|j]]]; [| | |lia]); unfold gradT, dot, row; cbn;
      rewrite E; field; intros C; apply N; rewrite <- C; ring.
  Qed.
  (** the columns are dual, too *)
  Lemma grd_dual_col k l : (k < 3)%nat -> (l < 3)%nat ->
    lu t 0%nat k * grd t 0%nat l + lu t 1%nat k * grd t 1%nat l + lu t 2%nat k * grd t 2%nat l
    = if (k =? l)%nat then 1 else 0.
  Proof.
    destruct (setup_inv L t Ht) as [_ [_ [_ [D ->]]]]. cbn [lu grd]. revert D. generalize (LatUVec L) as U. intros U D Hi Hj.
    assert (E : Jacbdet U = det U) by apply Jacbdet_det. unfold det, dot, Cross_Product, row in E; cbn in E.
    assert (N : det U <> 0) by lra. unfold det, dot, Cross_Product, row in N; cbn in N.
    destruct k as [|[|[|k]]]; [| | |lia]; (destruct l as [|[|[|l]]]; [| | |lia]); unfold gradT; cbn;
      rewrite E; field; intros C; apply N; rewrite <- C; ring.
  Qed.
  (** unit lattice vectors *)
  Lemma lu_row i : (i < 3)%nat -> row (lu t) i = unit_row L i.
  Proof.
    intros Hi. destruct (setup_inv L t Ht) as [_ [_ [_ [_ ->]]]]. cbn [lu]. apply vec_eq; cbn; unfold LatUVec; rewrite mag_norm; unfold Rdiv; ring.
  Qed.
  Lemma unit_norm i : (i < 3)%nat -> dot (unit_row L i) (unit_row L i) = 1.
  Proof.
    intros Hi. destruct (setup_inv L t Ht) as [M0 [M1 [M2 _]]]. rewrite !mag_norm in M0, M1, M2.
    assert (M : norm (row L i) <> 0) by (destruct i as [|[|[|i]]]; [assumption|assumption|assumption|lia]).
    unfold unit_row. pose proof (norm_sq (row L i)) as N. revert M N. generalize (norm (row L i)) as r. intros r M N.
    replace (dot (vscale (/ r) (row L i)) (vscale (/ r) (row L i))) with (/ r * / r * dot (row L i) (row L i)) by (unfold dot, vscale; cbn; ring).
    rewrite <- N. field. exact M.
  Qed.
  Lemma typ_cases : typ t = 0%Z \/ typ t = 1%Z \/ (11 <= typ t <= 17)%Z.
  Proof.
    destruct (setup_inv L t Ht) as [_ [_ [_ [_ ->]]]]. cbn [typ]. unfold cell_typ1, cell_typ0. cbv zeta.
    repeat match goal with |- context [if ?b then _ else _] => destruct b end; lia.
  Qed.
  Lemma lin_sub p q : vsub (cart L p) (cart L q) = cart L (vsub p q).
  Proof. unfold cart, vsub, vadd, vscale. apply vec_eq; cbn; ring. Qed.
  Lemma metric_norm p :
    met t 0%nat 0%nat * (vx p * vx p) + met t 0%nat 1%nat * (vx p * vy p) + met t 0%nat 2%nat * (vx p * vz p)
    + met t 1%nat 1%nat * (vy p * vy p) + met t 1%nat 2%nat * (vy p * vz p) + met t 2%nat 2%nat * (vz p * vz p)
    = dot (cart L p) (cart L p).
  Proof.
    rewrite <- to_cart_spec. destruct (setup_inv L t Ht) as [_ [_ [_ [_ ->]]]].
    unfold nonCart2Cart_coord, dot. cbn [met lu vx vy vz]. unfold metricT, metric, sum3. ring.
  Qed.
End Ok.

(** Coordinates go to x u1 + y u2 + z u3 and back. *)
Theorem C48_inverse L t p : setup L = Ok t ->
  nonCart2Cart_coord t p = cart L p /\
  Cart2nonCart_coord t (nonCart2Cart_coord t p) = p /\
  nonCart2Cart_coord t (Cart2nonCart_coord t p) = p.
Proof.
  intros Ht. split; [apply to_cart_spec; exact Ht|]. split.
  - assert (D : forall i j, (i < 3)%nat -> (j < 3)%nat -> _) by (exact (grd_dual L t Ht)). unfold dot, row in D; cbn in D.
    pose proof (D 0 0 ltac:(lia) ltac:(lia))%nat as D00. pose proof (D 0 1 ltac:(lia) ltac:(lia))%nat as D01.
    pose proof (D 0 2 ltac:(lia) ltac:(lia))%nat as D02. pose proof (D 1 0 ltac:(lia) ltac:(lia))%nat as D10.
    pose proof (D 1 1 ltac:(lia) ltac:(lia))%nat as D11. pose proof (D 1 2 ltac:(lia) ltac:(lia))%nat as D12.
    pose proof (D 2 0 ltac:(lia) ltac:(lia))%nat as D20. pose proof (D 2 1 ltac:(lia) ltac:(lia))%nat as D21.
    pose proof (D 2 2 ltac:(lia) ltac:(lia))%nat as D22. clear D. cbn in *.
    destruct p as [x y z]. unfold Cart2nonCart_coord, nonCart2Cart_coord. apply vec_eq; cbn.
    + pose proof (f_equal (Rmult x) D00); pose proof (f_equal (Rmult y) D01); pose proof (f_equal (Rmult z) D02); cbv beta in *; lra.
    + pose proof (f_equal (Rmult x) D10); pose proof (f_equal (Rmult y) D11); pose proof (f_equal (Rmult z) D12); cbv beta in *; lra.
    + pose proof (f_equal (Rmult x) D20); pose proof (f_equal (Rmult y) D21); pose proof (f_equal (Rmult z) D22); cbv beta in *; lra.
  - assert (D : forall i j, (i < 3)%nat -> (j < 3)%nat -> _) by (exact (grd_dual_col L t Ht)).
    pose proof (D 0 0 ltac:(lia) ltac:(lia))%nat as D00. pose proof (D 0 1 ltac:(lia) ltac:(lia))%nat as D01.
    pose proof (D 0 2 ltac:(lia) ltac:(lia))%nat as D02. pose proof (D 1 0 ltac:(lia) ltac:(lia))%nat as D10.
    pose proof (D 1 1 ltac:(lia) ltac:(lia))%nat as D11. pose proof (D 1 2 ltac:(lia) ltac:(lia))%nat as D12.
    pose proof (D 2 0 ltac:(lia) ltac:(lia))%nat as D20. pose proof (D 2 1 ltac:(lia) ltac:(lia))%nat as D21.
    pose proof (D 2 2 ltac:(lia) ltac:(lia))%nat as D22. clear D. cbn in *.
    destruct p as [x y z]. unfold Cart2nonCart_coord, nonCart2Cart_coord. apply vec_eq; cbn.
    + pose proof (f_equal (Rmult x) D00); pose proof (f_equal (Rmult y) D01); pose proof (f_equal (Rmult z) D02); cbv beta in *; lra.
    + pose proof (f_equal (Rmult x) D10); pose proof (f_equal (Rmult y) D11); pose proof (f_equal (Rmult z) D12); cbv beta in *; lra.
    + pose proof (f_equal (Rmult x) D20); pose proof (f_equal (Rmult y) D21); pose proof (f_equal (Rmult z) D22); cbv beta in *; lra.
Qed.

(** The Jacobian turns products of edge lengths into volumes. *)
Theorem C48_volume L t : setup L = Ok t -> norm (row L 0) * norm (row L 1) * norm (row L 2) * jac t = det L.
Proof.
  intros Ht. destruct (setup_inv L t Ht) as [M0 [M1 [M2 [_ ->]]]]. cbn [jac].
  rewrite Jacbdet_det, (det_scale L M0 M1 M2), !mag_norm. reflexivity.
Qed.

(** Distances are Euclidean distances of the Cartesian images, for every
    non-orthogonal type and for orthogonal cells along the axes. *)
Theorem C48_distance L t p q : setup L = Ok t ->
  typ t <> 1%Z -> (typ t = 0%Z -> forall i j, (i < 3)%nat -> (j < 3)%nat -> i <> j -> L i j = 0) ->
  CalculateDistance t p q = Some (norm (vsub (cart L p) (cart L q))).
Proof.
  intros Ht N1 H0. rewrite lin_sub. unfold norm, CalculateDistance.
  destruct (Z.eqb_spec (typ t) 0) as [E|E].
  - specialize (H0 E). do 2 f_equal. rewrite <- (metric_norm L t Ht).
    assert (Um : forall i, (i < 3)%nat -> dot (row (lu t) i) (row (lu t) i) = 1).
    { intros i Hi. rewrite (lu_row L t Ht i Hi). apply (unit_norm L t Ht i Hi). }
    assert (Z : forall i j, (i < 3)%nat -> (j < 3)%nat -> i <> j -> lu t i j = 0).
    { intros i j Hi Hj Hn. destruct (setup_inv L t Ht) as [_ [_ [_ [_ ->]]]]. cbn. unfold LatUVec. rewrite H0 by assumption. unfold Rdiv. ring. }
    pose proof (Um 0%nat ltac:(lia)) as U0. pose proof (Um 1%nat ltac:(lia)) as U1. pose proof (Um 2%nat ltac:(lia)) as U2.
    destruct (setup_inv L t Ht) as [_ [_ [_ [_ ->]]]]. cbn [lu met] in *. unfold metricT, metric, sum3.
    unfold dot, row in U0, U1, U2; cbn [vx vy vz] in U0, U1, U2.
    rewrite (Z 0 1)%nat, (Z 0 2)%nat in U0 |- * by lia. rewrite (Z 1 0)%nat, (Z 1 2)%nat in U1 |- * by lia.
    rewrite (Z 2 0)%nat, (Z 2 1)%nat in U2 |- * by lia. cbn [vx vy vz vsub].
    assert (A : forall x y, x * x + 0 * 0 + 0 * 0 = 1 -> (x * x) * y = y) by (intros x y Hx; replace (x * x) with 1 by lra; ring).
    assert (U0' : LatUVec L 0%nat 0%nat * LatUVec L 0%nat 0%nat = 1) by lra.
    assert (U1' : LatUVec L 1%nat 1%nat * LatUVec L 1%nat 1%nat = 1) by lra.
    assert (U2' : LatUVec L 2%nat 2%nat * LatUVec L 2%nat 2%nat = 1) by lra.
    rewrite U0', U1', U2'. ring.
  - destruct (typ_cases L t Ht) as [C|[C|C]]; [contradiction|contradiction|].
    replace ((10 <? typ t)%Z && (typ t <? 20)%Z) with true.
    2:{ symmetry. apply andb_true_iff. split; apply Z.ltb_lt; lia. }
    cbv zeta. do 2 f_equal. exact (metric_norm L t Ht (vsub p q)).
Qed.

(** Chain rule: whatever function F has Cartesian gradient [g] at the image of
    [p], the derivatives along the cell coordinates are carried to [g]. *)
Definition shift_by (p : vec) (i : nat) (s : R) : vec :=
  match i with
  | 0%nat => V (vx p + s) (vy p) (vz p) | 1%nat => V (vx p) (vy p + s) (vz p) | _ => V (vx p) (vy p) (vz p + s)
  end.
Definition has_gradient (F : vec -> R) (p g : vec) : Prop :=
  forall v, derivable_pt_lim (fun s => F (vadd p (vscale s v))) 0 (dot g v).
Theorem C48_gradient L t F p g dx dy dz : setup L = Ok t ->
  has_gradient F (nonCart2Cart_coord t p) g ->
  derivable_pt_lim (fun s => F (nonCart2Cart_coord t (shift_by p 0 s))) 0 dx ->
  derivable_pt_lim (fun s => F (nonCart2Cart_coord t (shift_by p 1 s))) 0 dy ->
  derivable_pt_lim (fun s => F (nonCart2Cart_coord t (shift_by p 2 s))) 0 dz ->
  nonCart2Cart_grad t (V dx dy dz) = g.
Proof.
  intros Ht Hg Hx Hy Hz.
  assert (Q : forall i d, (i < 3)%nat -> derivable_pt_lim (fun s => F (nonCart2Cart_coord t (shift_by p i s))) 0 d -> d = dot g (row (lu t) i)).
  { intros i d Hi Hd. eapply uniqueness_limite; [exact Hd|].
    apply derivable_pt_lim_ext with (f := fun s => F (vadd (nonCart2Cart_coord t p) (vscale s (row (lu t) i)))); [|apply Hg].
    intros s. f_equal. destruct i as [|[|[|i]]]; [| | |lia]; unfold nonCart2Cart_coord, vadd, vscale; apply vec_eq; cbn; ring. }
  rewrite (Q 0%nat dx ltac:(lia) Hx), (Q 1%nat dy ltac:(lia) Hy), (Q 2%nat dz ltac:(lia) Hz).
  assert (D : forall i j, (i < 3)%nat -> (j < 3)%nat -> _) by (exact (grd_dual_col L t Ht)).
  pose proof (D 0 0 ltac:(lia) ltac:(lia))%nat as D00. pose proof (D 0 1 ltac:(lia) ltac:(lia))%nat as D01.
  pose proof (D 0 2 ltac:(lia) ltac:(lia))%nat as D02. pose proof (D 1 0 ltac:(lia) ltac:(lia))%nat as D10.
  pose proof (D 1 1 ltac:(lia) ltac:(lia))%nat as D11. pose proof (D 1 2 ltac:(lia) ltac:(lia))%nat as D12.
  pose proof (D 2 0 ltac:(lia) ltac:(lia))%nat as D20. pose proof (D 2 1 ltac:(lia) ltac:(lia))%nat as D21.
  pose proof (D 2 2 ltac:(lia) ltac:(lia))%nat as D22. clear D. cbn in *.
  destruct g as [x y z]. unfold nonCart2Cart_grad, dot, row. apply vec_eq; cbn.
  - pose proof (f_equal (Rmult x) D00); pose proof (f_equal (Rmult y) D10); pose proof (f_equal (Rmult z) D20); cbv beta in *; lra.
  - pose proof (f_equal (Rmult x) D01); pose proof (f_equal (Rmult y) D11); pose proof (f_equal (Rmult z) D21); cbv beta in *; lra.
  - pose proof (f_equal (Rmult x) D02); pose proof (f_equal (Rmult y) D12); pose proof (f_equal (Rmult z) D22); cbv beta in *; lra.
Qed.

(** Laplacian: contracting [lapcT] with the second derivatives along the cell
    coordinates (u_i^T H u_j for a Cartesian Hessian H) gives the trace of H. *)
Definition bil (H : mat) (a b : vec) : R :=
  vx a * (H 0%nat 0%nat * vx b + H 0%nat 1%nat * vy b + H 0%nat 2%nat * vz b)
  + vy a * (H 1%nat 0%nat * vx b + H 1%nat 1%nat * vy b + H 1%nat 2%nat * vz b)
  + vz a * (H 2%nat 0%nat * vx b + H 2%nat 1%nat * vy b + H 2%nat 2%nat * vz b).
Theorem C48_laplacian L t H : setup L = Ok t ->
  let d i j := lap t i j * bil H (unit_row L i) (unit_row L j) in
  d 0%nat 0%nat + d 0%nat 1%nat + d 0%nat 2%nat + d 1%nat 0%nat + d 1%nat 1%nat + d 1%nat 2%nat
  + d 2%nat 0%nat + d 2%nat 1%nat + d 2%nat 2%nat = H 0%nat 0%nat + H 1%nat 1%nat + H 2%nat 2%nat.
Proof.
  intros Ht. cbv zeta beta. rewrite <- !(lu_row L t Ht) by lia.
  assert (D : forall i j, (i < 3)%nat -> (j < 3)%nat -> _) by (exact (grd_dual_col L t Ht)).
  pose proof (D 0 0 ltac:(lia) ltac:(lia))%nat as D00. pose proof (D 0 1 ltac:(lia) ltac:(lia))%nat as D01.
  pose proof (D 0 2 ltac:(lia) ltac:(lia))%nat as D02. pose proof (D 1 0 ltac:(lia) ltac:(lia))%nat as D10.
  pose proof (D 1 1 ltac:(lia) ltac:(lia))%nat as D11. pose proof (D 1 2 ltac:(lia) ltac:(lia))%nat as D12.
  pose proof (D 2 0 ltac:(lia) ltac:(lia))%nat as D20. pose proof (D 2 1 ltac:(lia) ltac:(lia))%nat as D21.
  pose proof (D 2 2 ltac:(lia) ltac:(lia))%nat as D22. clear D.
  assert (LL : forall i j, lap t i j = sum3 (fun k => grd t i k * grd t j k)).
  { intros i j. destruct (setup_inv L t Ht) as [_ [_ [_ [_ ->]]]]. reflexivity. }
  rewrite !LL. clear LL Ht. cbn [Nat.eqb] in *. unfold bil, row, sum3; cbn [vx vy vz].
  revert D00 D01 D02 D10 D11 D12 D20 D21 D22.
  generalize (grd t) as g, (lu t) as u. intros g u D00 D01 D02 D10 D11 D12 D20 D21 D22.
  set (w := fun k l => u 0%nat k * g 0%nat l + u 1%nat k * g 1%nat l + u 2%nat k * g 2%nat l).
  transitivity (
    sum3 (fun a => sum3 (fun b => H a b * (w a 0%nat * w b 0%nat + w a 1%nat * w b 1%nat + w a 2%nat * w b 2%nat)))).
  - unfold sum3, w. ring.
  - unfold sum3. change (w 0%nat 0%nat) with (u 0%nat 0%nat * g 0%nat 0%nat + u 1%nat 0%nat * g 1%nat 0%nat + u 2%nat 0%nat * g 2%nat 0%nat).
    unfold w. rewrite D00, D01, D02, D10, D11, D12, D20, D21, D22. ring.
Qed.

(** ** Cell type *)
Definition supported (z : Z) : Prop := z = 0%Z \/ (11 <= z <= 17)%Z.
(** rows (1000,0,0), (1e-13,1,0), (0,0,1) *)
Definition skewed : mat := fun i j =>
  match i, j with
  | 0%nat, 0%nat => 1000 | 1%nat, 0%nat => / 10000000000000 | 1%nat, 1%nat => 1 | 2%nat, 2%nat => 1
  | _, _ => 0 end.
Lemma mag_skew0 : mag skewed 0 = 1000.
Proof. unfold mag, skewed. cbn. replace (1000 * (1000 * 1) + 0 * (0 * 1) + 0 * (0 * 1)) with (1000 * 1000) by ring. apply sqrt_square. lra. Qed.
Lemma mag_skew2 : mag skewed 2 = 1.
Proof. unfold mag, skewed. cbn. replace (0 * (0 * 1) + 0 * (0 * 1) + 1 * (1 * 1)) with (1 * 1) by ring. apply sqrt_square. lra. Qed.
Lemma mag_skew1 : 1 <= mag skewed 1 < 2.
Proof.
  unfold mag, skewed. cbn. set (e := / 10000000000000).
  assert (0 < e < 1) by (unfold e; lra). split.
  - rewrite <- sqrt_1 at 1. apply sqrt_le_1_alt. nra.
  - rewrite <- (sqrt_square 2) by lra. apply sqrt_lt_1_alt. nra.
Qed.
Theorem C48_cell_type_refuted : exists L t, setup L = Ok t /\ ~ supported (typ t) /\
  forall p q, CalculateDistance t p q = None.
Proof.
  pose proof mag_skew0 as M0. pose proof mag_skew1 as [M1 M1']. pose proof mag_skew2 as M2.
  exists skewed. unfold setup.
  destruct (Req_EM_T (mag skewed 0) 0); [lra|]. destruct (Req_EM_T (mag skewed 1) 0); [lra|].
  destruct (Req_EM_T (mag skewed 2) 0); [lra|]. cbv zeta.
  set (m := mag skewed 1) in *. set (e := / 10000000000000).
  assert (He : 0 < e < / 1000000000000 / 5) by (unfold e; lra).
  assert (U : forall i j, LatUVec skewed i j = match i, j with
     | 0%nat, 0%nat => 1 | 1%nat, 0%nat => e / m | 1%nat, 1%nat => 1 / m | 2%nat, 2%nat => 1
     | _, _ => 0 end).
  { intros i j. unfold LatUVec. destruct i as [|[|[|i]]]; destruct j as [|[|[|j]]]; cbn [skewed];
      rewrite ?M0, ?M2; try reflexivity; unfold Rdiv; try ring; field; lra. }
  assert (J : Jacbdet (LatUVec skewed) = / m).
  { rewrite Jacbdet_det. unfold det, dot, Cross_Product, row; cbn. rewrite !U. field. lra. }
  assert (Mi : 0 < / m) by (apply Rinv_0_lt_compat; lra).
  rewrite J. destruct (Rle_dec (/ m) 0); [lra|]. eexists. split; [reflexivity|].
  assert (T : cell_typ1 (LatUVec skewed) (cell_typ0 skewed) = 1%Z).
  { unfold cell_typ1.
    assert (A : lapcT (LatUVec skewed) 0%nat 1%nat = - (e * m)).
    { unfold lapcT, sum3, gradT. rewrite J. cbn. rewrite !U. field. lra. }
    assert (B : lapcT (LatUVec skewed) 0%nat 2%nat = 0).
    { unfold lapcT, sum3, gradT. rewrite J. cbn. rewrite !U. field. lra. }
    assert (C : lapcT (LatUVec skewed) 1%nat 2%nat = 0).
    { unfold lapcT, sum3, gradT. rewrite J. cbn. rewrite !U. field. lra. }
    rewrite A, B, C. cbv zeta.
    assert (F : forall x, Rabs x < TOL -> big x = false).
    { intros x Hx. unfold big, Rltb. destruct (Rlt_dec TOL (Rabs x)); [lra|reflexivity]. }
    rewrite (F (- (e * m))).
    2:{ rewrite Rabs_Ropp, Rabs_right by nra. unfold TOL. nra. }
    rewrite (F 0) by (rewrite Rabs_R0; unfold TOL; lra). rewrite !andb_false_r. cbn [andb].
    unfold cell_typ0, oblique. replace (Rltb TOL (Rabs (dotL skewed 0 1))) with true; [reflexivity|].
    unfold dotL, skewed; cbn. fold e. replace (1000 * e + 0 * 1 + 0 * 0) with (1000 * e) by ring.
    unfold Rltb. rewrite Rabs_right by (unfold e; lra). destruct (Rlt_dec TOL (1000 * e)) as [|X]; [reflexivity|].
    exfalso. apply X. unfold TOL, e. lra. }
  cbn [typ]. rewrite T. split; [unfold supported; lia|]. intros p q. reflexivity.
Qed.

(** Otherwise the type is one the stencil code knows. *)
Theorem C48_cell_type L t : setup L = Ok t ->
  supported (typ t) \/ typ t = 1%Z.
Proof. intros Ht. destruct (typ_cases L t Ht) as [H|[H|H]]; unfold supported; auto. Qed.

(** The mixed second derivatives kept for each cell type
    (src/lapVecRoutines.c:1210-1297, the switch over cell_typ 11..17; type 0: src/lapVecRoutines.c:45): xy, xz, yz. *)
Definition kept (z : Z) : bool * bool * bool :=
  if (z =? 11)%Z then (true, false, false) else if (z =? 12)%Z then (false, true, false)
  else if (z =? 13)%Z then (false, false, true) else if (z =? 14)%Z then (true, true, false)
  else if (z =? 15)%Z then (false, true, true) else if (z =? 16)%Z then (true, false, true)
  else if (z =? 17)%Z then (true, true, true) else (false, false, false).
(** Coefficients of the mixed derivatives that are left out are below 1e-12
    (none of them being exactly 1e-12). *)
Theorem C48_dropped L t : setup L = Ok t -> supported (typ t) ->
  (forall i j, Rabs (lap t i j) <> / 1000000000000) ->
  (fst (fst (kept (typ t))) = false -> Rabs (lap t 0%nat 1%nat) < / 1000000000000) /\
  (snd (fst (kept (typ t))) = false -> Rabs (lap t 0%nat 2%nat) < / 1000000000000) /\
  (snd (kept (typ t)) = false -> Rabs (lap t 1%nat 2%nat) < / 1000000000000).
Proof.
  intros Ht Hs He. change (/ 1000000000000) with TOL in *.
  destruct (setup_inv L t Ht) as [_ [_ [_ [_ ->]]]]. cbn [typ lap] in *.
  pose proof (He 0 1)%nat as E1. pose proof (He 0 2)%nat as E2. pose proof (He 1 2)%nat as E3. clear He.
  revert Hs. unfold cell_typ1. cbv zeta. set (a := lapcT (LatUVec L) 0%nat 1%nat) in *. set (b := lapcT (LatUVec L) 0%nat 2%nat) in *.
  set (c := lapcT (LatUVec L) 1%nat 2%nat) in *. unfold big, small, Rltb.
  assert (C0 : forall x, Rabs x <> TOL -> {Rabs x < TOL} + {TOL < Rabs x}).
  { intros x Hx. destruct (total_order_T (Rabs x) TOL) as [[H|H]|H]; auto. contradiction. }
  destruct (C0 a E1); destruct (C0 b E2); destruct (C0 c E3);
    repeat match goal with |- context [Rlt_dec ?x ?y] => destruct (Rlt_dec x y); [|try lra]; try lra end; cbn; intros Hs; repeat split; intros; try discriminate; try lra.
Qed.

(** A monoclinic cell is accepted. *)
Definition ex_lat : mat := fun i j =>
  match i, j with
  | 0%nat, 0%nat => 1 | 1%nat, 0%nat => 3 | 1%nat, 1%nat => 4 | 2%nat, 2%nat => 2
  | _, _ => 0 end.
Example C48_ex : exists t, setup ex_lat = Ok t /\ nonCart2Cart_coord t (V 1 5 2) = V 4 4 2.
Proof.
  assert (M0 : mag ex_lat 0 = 1).
  { unfold mag, ex_lat. cbn. replace (1 * (1 * 1) + 0 * (0 * 1) + 0 * (0 * 1)) with (1 * 1) by ring. apply sqrt_square. lra. }
  assert (M1 : mag ex_lat 1 = 5).
  { unfold mag, ex_lat. cbn. replace (3 * (3 * 1) + 4 * (4 * 1) + 0 * (0 * 1)) with (5 * 5) by ring. apply sqrt_square. lra. }
  assert (M2 : mag ex_lat 2 = 2).
  { unfold mag, ex_lat. cbn. replace (0 * (0 * 1) + 0 * (0 * 1) + 2 * (2 * 1)) with (2 * 2) by ring. apply sqrt_square. lra. }
  unfold setup. destruct (Req_EM_T (mag ex_lat 0) 0); [lra|]. destruct (Req_EM_T (mag ex_lat 1) 0); [lra|].
  destruct (Req_EM_T (mag ex_lat 2) 0); [lra|]. cbv zeta.
  assert (J : Jacbdet (LatUVec ex_lat) = 4 / 5).
  { rewrite Jacbdet_det. unfold det, dot, Cross_Product, row, LatUVec; cbn. rewrite M0, M1, M2. field. }
  rewrite J. destruct (Rle_dec (4 / 5) 0); [lra|]. eexists. split; [reflexivity|].
  unfold nonCart2Cart_coord. cbn [lu]. unfold LatUVec. rewrite M0, M1, M2. apply vec_eq; cbn; field.
Qed.

Print Assumptions C48_accepted.
Print Assumptions C48_inverse.
Print Assumptions C48_volume.
Print Assumptions C48_dropped.
Print Assumptions C48_distance.
Print Assumptions C48_gradient.
Print Assumptions C48_laplacian.
Print Assumptions C48_cell_type.
Print Assumptions C48_cell_type_refuted.
