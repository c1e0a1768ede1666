(** The implicit QL solver of SqGauss.v: every sweep is an orthogonal
    similarity, so a normal return is an eigendecomposition. *)
From Coq Require Import ZArith Reals List Lia Lra Bool Nsatz.
From Verif Require Import CBase Nloc NlocLem VnlOp VnlLem VnlMain SqGauss.
Import ListNotations.
Local Open Scope R_scope.

Definition kd (a b : Z) : R := if (a =? b)%Z then 1 else 0.
Lemma kd_refl a : kd a a = 1. Proof. unfold kd. now rewrite Z.eqb_refl. Qed.
Lemma kd_neq a b : a <> b -> kd a b = 0. Proof. unfold kd. destruct (Z.eqb_spec a b); easy. Qed.

Lemma upd_eq a i x : upd a i x i = x. Proof. unfold upd. now rewrite Z.eqb_refl. Qed.
Lemma upd_neq a i x j : j <> i -> upd a i x j = a j.
Proof. intros; unfold upd. destruct (Z.eqb_spec j i); easy. Qed.

Lemma rot_i i c s v : rot i c s v i = c * v i - s * v (i + 1)%Z.
Proof. unfold rot. destruct (Z.eqb_spec i (i + 1)); [lia|]. now rewrite Z.eqb_refl. Qed.
Lemma rot_i1 i c s v : rot i c s v (i + 1)%Z = s * v i + c * v (i + 1)%Z.
Proof. unfold rot. now rewrite Z.eqb_refl. Qed.
Lemma rot_n i c s v j : j <> i -> j <> (i + 1)%Z -> rot i c s v j = v j.
Proof. intros; unfold rot. destruct (Z.eqb_spec j (i + 1)); [lia|]. destruct (Z.eqb_spec j i); [lia|reflexivity]. Qed.

(** Sums of products are unchanged by a rotation. *)
Lemma rsum_at a b i x : (a <= i <= b)%Z -> rsum (map (fun j => if (j =? i)%Z then x else 0) (zrange a b)) = x.
Proof.
  intros Hi. rewrite (ksum_only _ _ _ _ _ _ RTheory _ _ i).
  - now rewrite Z.eqb_refl.
  - apply NoDup_zrange.
  - apply in_zrange; lia.
  - intros y _ Hy. destruct (Z.eqb_spec y i); easy.
Qed.

Lemma rot_dot i c s n u v : c * c + s * s = 1 -> (0 <= i)%Z -> (i + 1 < n)%Z ->
  vdot n (rot i c s u) (rot i c s v) = vdot n u v.
Proof.
  intros Hcs H0 H1. unfold vdot.
  set (X := rot i c s u i * rot i c s v i - u i * v i).
  set (Y := rot i c s u (i+1)%Z * rot i c s v (i+1)%Z - u (i+1)%Z * v (i+1)%Z).
  transitivity (rsum (map (fun j => u j * v j + ((if (j =? i)%Z then X else 0) + (if (j =? i + 1)%Z then Y else 0))) (zrange 0 (n - 1)))).
  - apply ksum_ext. intros j _. unfold X, Y. destruct (Z.eqb_spec j i) as [->|A].
    + destruct (Z.eqb_spec i (i + 1)); [lia|]. ring.
    + destruct (Z.eqb_spec j (i + 1)) as [->|B]; [ring|]. rewrite !rot_n by lia. ring.
  - rewrite (ksum_add _ _ _ _ _ _ RTheory), (ksum_add _ _ _ _ _ _ RTheory), !rsum_at by lia.
    unfold X, Y. rewrite !rot_i, !rot_i1. 
    assert (forall A B : R, B = 0 -> A + B = A) as E by (intros; lra). apply E.
    transitivity ((c * c + s * s - 1) * (u i * v i + u (i+1)%Z * v (i+1)%Z)); [ring|]. rewrite Hcs. ring.
Qed.

(** The tridiagonal matrix applied to a vector. *)
Definition Tmul (n : Z) (a b : vec) (t : vec) : vec := fun k =>
  (if (0 <? k)%Z then b (k - 1)%Z * t (k - 1)%Z else 0) + a k * t k + (if (k <? n - 1)%Z then b k * t (k + 1)%Z else 0).

Definition E (m : Z) (e : vec) : vec := fun j => if (j =? m)%Z then 0 else e j.

Definition nrm (n : Z) (d e : vec) (zz U : vec) : Prop := forall j, (0 <= j < n)%Z ->
  U j = (if (0 <? j)%Z then e (j - 1)%Z * zz (j - 1)%Z else 0) + d j * zz j + e j * zz (j + 1)%Z.

Definition eb (i : Z) (e : vec) : R := if (0 <=? i)%Z then e i else 0.
Definition sg (i m : Z) : R := if (i + 1 =? m)%Z then 0 else 1.

(** The relation before the turn [i] of a sweep: tridiagonal but for the
    bulge between the columns i and i+2. *)
Record mid (n i m : Z) (d e : vec) (g s c p : R) (zz U : vec) : Prop := {
  mid_far : forall j, (0 <= j < n)%Z -> j <> i -> j <> (i + 1)%Z -> j <> (i + 2)%Z ->
    U j = (if (0 <? j)%Z then E m e (j - 1)%Z * zz (j - 1)%Z else 0) + d j * zz j + E m e j * zz (j + 1)%Z;
  mid_0 : (0 <= i)%Z -> U i = (if (0 <? i)%Z then E m e (i - 1)%Z * zz (i - 1)%Z else 0) + d i * zz i
    + c * eb i e * zz (i + 1)%Z + sg i m * s * eb i e * zz (i + 2)%Z;
  mid_1 : U (i + 1)%Z = c * eb i e * zz i + (d (i + 1)%Z - p) * zz (i + 1)%Z + sg i m * g * zz (i + 2)%Z;
  mid_2 : (i + 2 < n)%Z -> U (i + 2)%Z = sg i m * (s * eb i e * zz i + g * zz (i + 1)%Z) + d (i + 2)%Z * zz (i + 2)%Z
    + E m e (i + 2)%Z * zz (i + 3)%Z }.

Lemma alg0 C S D0 G b z0 z1 : C * C + S * S = 1 ->
  C * (D0 * z0 + b * z1) - S * (b * z0 + G * z1)
  = (D0 - S * ((D0 - G) * S + 2 * C * b)) * (C * z0 - S * z1) + (C * ((D0 - G) * S + 2 * C * b) - b) * (S * z0 + C * z1).
Proof. intros. nsatz. Qed.
Lemma alg1 C S D0 G b z0 z1 : C * C + S * S = 1 ->
  S * (D0 * z0 + b * z1) + C * (b * z0 + G * z1)
  = (C * ((D0 - G) * S + 2 * C * b) - b) * (C * z0 - S * z1) + (G + S * ((D0 - G) * S + 2 * C * b)) * (S * z0 + C * z1).
Proof. intros. nsatz. Qed.

Lemma mid_step n i m d e g s c p zz U :
  let r := sqrt (g * g + (s * e i) * (s * e i)) in
  let s' := s * e i / r in let c' := g / r in
  let G := d (i + 1)%Z - p in
  let r2 := (d i - G) * s' + 2 * c' * (c * e i) in
  (0 <= i < m)%Z -> (m < n)%Z -> r <> 0 -> mid n i m d e g s c p zz U ->
  mid n (i - 1) m (upd d (i + 1) (G + s' * r2)) (upd e (i + 1) r) (c' * r2 - c * e i) s' c' (s' * r2)
    (rot i c' s' zz) (rot i c' s' U)
  /\ c' * c' + s' * s' = 1.
Proof.
  intros r s' c' G r2 Hi Hm Hr M.
  assert (Hrr : r * r = g * g + (s * e i) * (s * e i)) by (unfold r; apply sqrt_sqrt; nra).
  assert (Hs : r * s' = s * e i) by (unfold s'; field; exact Hr).
  assert (Hc : r * c' = g) by (unfold c'; field; exact Hr).
  assert (Hcs : c' * c' + s' * s' = 1).
  { unfold c', s'. transitivity ((g * g + (s * e i) * (s * e i)) / (r * r)); [field; exact Hr|]. rewrite <- Hrr. field. exact Hr. }
  split; [|exact Hcs].
  assert (Heb : eb i e = e i) by (unfold eb; destruct (Z.leb_spec 0 i); [reflexivity|lia]).
  destruct M as [Mf M0 M1 M2]. rewrite Heb in *. specialize (M0 ltac:(lia)).
  assert (Hsg : sg (i - 1) m = 1) by (unfold sg; destruct (Z.eqb_spec (i - 1 + 1) m); [lia|reflexivity]).
  assert (Eo : forall j, j <> (i + 1)%Z -> E m (upd e (i + 1) r) j = E m e j).
  { intros j Hj. unfold E. destruct (j =? m)%Z; [reflexivity|]. now apply upd_neq. }
  assert (E1 : E m (upd e (i + 1) r) (i + 1)%Z = sg i m * r).
  { unfold E, sg. destruct (i + 1 =? m)%Z; [ring|]. rewrite upd_eq. ring. }
  assert (Eeb : eb (i - 1) (upd e (i + 1) r) = (if (0 <? i)%Z then E m e (i - 1)%Z else 0)).
  { unfold eb, E. destruct (Z.leb_spec 0 (i - 1)), (Z.ltb_spec 0 i); try lia; [|reflexivity].
    rewrite upd_neq by lia. destruct (Z.eqb_spec (i - 1) m); [lia|reflexivity]. }
  assert (SF : sg i m * (c' * (s * e i) - s' * g) = 0) by (rewrite <- Hs, <- Hc; ring).
  constructor.
  - intros j Hj A B C. replace (i - 1 + 1)%Z with i in B by lia. replace (i - 1 + 2)%Z with (i + 1)%Z in C by lia.
    rewrite (rot_n i c' s' U) by lia. rewrite upd_neq by lia. rewrite (rot_n i c' s' zz j) by lia.
    rewrite (rot_n i c' s' zz (j + 1)) by lia. rewrite (Eo j) by lia.
    destruct (Z.eq_dec j (i + 2)) as [->|D].
    + rewrite M2 by lia. replace (i + 2 - 1)%Z with (i + 1)%Z by lia. destruct (Z.ltb_spec 0 (i + 2)); [|lia].
      rewrite E1, rot_i1. replace (i + 2 + 1)%Z with (i + 3)%Z by lia.
      transitivity (sg i m * (r * s' * zz i + r * c' * zz (i+1)%Z) + d (i+2)%Z * zz (i+2)%Z + E m e (i+2)%Z * zz (i+3)%Z); [rewrite Hs, Hc|]; ring.
    + rewrite Mf by lia. rewrite (Eo (j - 1)%Z) by lia. rewrite (rot_n i c' s' zz (j - 1)) by lia. reflexivity.
  - intros H1. rewrite (rot_n i c' s' U) by lia. rewrite upd_neq by lia. rewrite !(rot_n i c' s' zz (i - 1)) by lia.
    rewrite (rot_n i c' s' zz (i - 1 - 1)) by lia. rewrite (Eo (i - 1 - 1)%Z) by lia.
    replace (i - 1 + 1)%Z with i by lia. replace (i - 1 + 2)%Z with (i + 1)%Z by lia. rewrite rot_i, rot_i1, Hsg.
    rewrite (Mf (i - 1)%Z) by lia. replace (i - 1 + 1)%Z with i by lia.
    rewrite Eeb. destruct (Z.ltb_spec 0 i); [|lia].
    transitivity ((if (0 <? i - 1)%Z then E m e (i - 1 - 1)%Z * zz (i - 1 - 1)%Z else 0) + d (i - 1)%Z * zz (i - 1)%Z + E m e (i - 1)%Z * ((c' * c' + s' * s') * zz i)).
    + rewrite Hcs. ring.
    + ring.
  - replace (i - 1 + 1)%Z with i by lia. replace (i - 1 + 2)%Z with (i + 1)%Z by lia.
    rewrite !rot_i, rot_i1, Hsg, (rot_n i c' s' zz (i - 1)) by lia. rewrite upd_neq by lia.
    rewrite M0, M1. fold G. rewrite Eeb.
    transitivity (c' * (if (0 <? i)%Z then E m e (i - 1)%Z * zz (i - 1)%Z else 0)
      + (c' * (d i * zz i + (c * e i) * zz (i+1)%Z) - s' * ((c * e i) * zz i + G * zz (i+1)%Z))
      + sg i m * (c' * (s * e i) - s' * g) * zz (i+2)%Z); [ring|].
    rewrite SF, (alg0 c' s' (d i) G (c * e i) _ _ Hcs). fold r2. destruct (0 <? i)%Z; ring.
  - intros H1. replace (i - 1 + 2)%Z with (i + 1)%Z by lia. replace (i - 1 + 1)%Z with i by lia.
    replace (i - 1 + 3)%Z with (i + 2)%Z by lia.
    rewrite !rot_i1, !rot_i, Hsg, (rot_n i c' s' zz (i - 1)), (rot_n i c' s' zz (i + 2)) by lia. rewrite upd_eq, E1, Eeb.
    rewrite M0, M1. fold G.
    transitivity (s' * (if (0 <? i)%Z then E m e (i - 1)%Z * zz (i - 1)%Z else 0)
      + (s' * (d i * zz i + (c * e i) * zz (i+1)%Z) + c' * ((c * e i) * zz i + G * zz (i+1)%Z))
      + sg i m * (s' * (s * e i) + c' * g) * zz (i+2)%Z); [ring|].
    rewrite (alg1 c' s' (d i) G (c * e i) _ _ Hcs). fold r2.
    replace (s' * (s * e i) + c' * g) with r.
    2:{ rewrite <- Hs, <- Hc. transitivity (r * (c' * c' + s' * s')); [rewrite Hcs; ring|ring]. }
    destruct (0 <? i)%Z; ring.
Qed.

(** Start and end of a sweep. *)
Lemma mid_start n m d e g zz U : (0 < m < n)%Z -> e m = 0 -> nrm n d e zz U -> mid n (m - 1) m d e g 1 1 0 zz U.
Proof.
  intros Hm Em Hn.
  assert (EE : forall j, E m e j = e j) by (intros j; unfold E; destruct (Z.eqb_spec j m) as [->|]; [now rewrite Em|reflexivity]).
  assert (Hs : sg (m - 1) m = 0) by (unfold sg; destruct (Z.eqb_spec (m - 1 + 1) m); [reflexivity|lia]).
  assert (He : eb (m - 1) e = e (m - 1)%Z) by (unfold eb; destruct (Z.leb_spec 0 (m - 1)); [reflexivity|lia]).
  constructor; intros; rewrite ?Hs, ?He, ?EE.
  - rewrite (Hn j) by lia. reflexivity.
  - rewrite (Hn (m - 1)%Z) by lia. ring.
  - replace (m - 1 + 1)%Z with m by lia. rewrite (Hn m) by lia. destruct (Z.ltb_spec 0 m); [|lia].
    replace (m - 1 + 2)%Z with (m + 1)%Z by lia. rewrite Em. ring.
  - replace (m - 1 + 2)%Z with (m + 1)%Z in * by lia. replace (m - 1 + 3)%Z with (m + 1 + 1)%Z by lia. rewrite (Hn (m + 1)%Z) by lia. destruct (Z.ltb_spec 0 (m + 1)); [|lia].
    replace (m + 1 - 1)%Z with m by lia. rewrite Em. ring.
Qed.

Lemma mid_end n l m d e g s c p zz U : (0 <= l < m)%Z -> (m < n)%Z -> (forall j, (0 <= j < l)%Z -> e j = 0) ->
  mid n (l - 1) m d e g s c p zz U ->
  nrm n (upd d l (d l - p)) (upd (upd e l g) m 0) zz U.
Proof.
  intros Hl Hm He [Mf M0 M1 M2].
  assert (Hs : sg (l - 1) m = 1) by (unfold sg; destruct (Z.eqb_spec (l - 1 + 1) m); [lia|reflexivity]).
  assert (Hb : eb (l - 1) e = 0) by (unfold eb; destruct (Z.leb_spec 0 (l - 1)); [apply He; lia|reflexivity]).
  rewrite Hs, Hb in *. replace (l - 1 + 1)%Z with l in * by lia. replace (l - 1 + 2)%Z with (l + 1)%Z in * by lia.
  assert (EE : forall j, j <> l -> upd (upd e l g) m 0 j = E m e j).
  { intros j Hj. unfold E. destruct (Z.eqb_spec j m) as [->|A]; [now rewrite upd_eq|]. now rewrite !upd_neq by lia. }
  assert (El : upd (upd e l g) m 0 l = g) by (rewrite upd_neq by lia; apply upd_eq).
  intros j Hj. destruct (Z.eq_dec j l) as [->|A].
  - rewrite M1, El, upd_eq. destruct (Z.ltb_spec 0 l).
    + rewrite EE by lia. unfold E. destruct (Z.eqb_spec (l - 1) m); [lia|]. rewrite (He (l - 1)%Z) by lia. ring.
    + ring.
  - rewrite (upd_neq d) by lia. destruct (Z.eq_dec j (l + 1)) as [->|B].
    + rewrite M2 by lia. destruct (Z.ltb_spec 0 (l + 1)); [|lia]. replace (l + 1 - 1)%Z with l by lia. rewrite El, EE by lia.
      replace (l - 1 + 3)%Z with (l + 1 + 1)%Z by lia. ring.
    + rewrite (EE j A). destruct (Z.eq_dec j (l - 1)) as [->|C].
      * rewrite M0 by lia. rewrite EE by lia. replace (l - 1 + 1)%Z with l by lia.
        unfold E at 3. destruct (Z.eqb_spec (l - 1) m); [lia|]. rewrite (He (l - 1)%Z) by lia. ring.
      * rewrite Mf by lia. rewrite EE by lia. reflexivity.
Qed.

(** Orthogonality of the eigenvector matrix. *)
Definition orth (n : Z) (z : Z -> Z -> R) : Prop :=
  (forall x y, (0 <= x < n)%Z -> (0 <= y < n)%Z -> vdot n (z x) (z y) = kd x y) /\
  (forall i j, (0 <= i < n)%Z -> (0 <= j < n)%Z -> vdot n (fun x => z x i) (fun x => z x j) = kd i j).

Lemma vdot_lin n a b u v w : vdot n (fun x => a * u x + b * v x) w = a * vdot n u w + b * vdot n v w.
Proof.
  unfold vdot. rewrite <- !(ksum_mul_l _ _ _ _ _ _ RTheory), <- (ksum_add _ _ _ _ _ _ RTheory).
  apply ksum_ext. intros; ring.
Qed.
Lemma vdot_comm n u v : vdot n u v = vdot n v u.
Proof. unfold vdot. apply ksum_ext. intros; ring. Qed.
Lemma vdot_ext n u v u' v' : (forall i, (0 <= i < n)%Z -> u i = u' i) -> (forall i, (0 <= i < n)%Z -> v i = v' i) ->
  vdot n u v = vdot n u' v'.
Proof. intros A B. unfold vdot. apply ksum_ext. intros i Hi. apply in_zrange in Hi. rewrite A, B by lia. reflexivity. Qed.

(** [rot] as a combination of two columns. *)
Definition rc (i : Z) (c s : R) (j : Z) : R * Z * R * Z :=
  if (j =? i + 1)%Z then (s, i, c, (i + 1)%Z) else if (j =? i)%Z then (c, i, - s, (i + 1)%Z) else (1, j, 0, j).
Lemma rot_rc i c s v j : rot i c s v j = (let '(a, j1, b, j2) := rc i c s j in a * v j1 + b * v j2).
Proof. unfold rot, rc. destruct (j =? i + 1)%Z; [ring|]. destruct (j =? i)%Z; ring. Qed.

Lemma orth_rot n i c s z : c * c + s * s = 1 -> (0 <= i)%Z -> (i + 1 < n)%Z -> orth n z -> orth n (fun x => rot i c s (z x)).
Proof.
  intros Hcs H0 H1 [O1 O2]. split.
  - intros x y Hx Hy. rewrite rot_dot by assumption. now apply O1.
  - assert (K : forall j k, (0 <= j < n)%Z -> (0 <= k < n)%Z -> vdot n (fun x => rot i c s (z x) j) (fun x => rot i c s (z x) k) =
      (let '(a, j1, b, j2) := rc i c s j in let '(a', k1, b', k2) := rc i c s k in
        a * (a' * kd j1 k1 + b' * kd j1 k2) + b * (a' * kd j2 k1 + b' * kd j2 k2))).
    { intros j k Hj Hk.
      assert (Q : forall q, (0 <= q < n)%Z -> let '(a, q1, b, q2) := rc i c s q in (0 <= q1 < n)%Z /\ (0 <= q2 < n)%Z).
      { intros q Hq. unfold rc. destruct (q =? i + 1)%Z; [lia|]. destruct (q =? i)%Z; lia. }
      pose proof (Q j Hj) as Qj. pose proof (Q k Hk) as Qk. clear Q.
      rewrite (vdot_ext n _ _ (fun x => let '(a, j1, b, j2) := rc i c s j in a * z x j1 + b * z x j2)
                 (fun x => let '(a, j1, b, j2) := rc i c s k in a * z x j1 + b * z x j2)) by (intros; apply rot_rc).
      destruct (rc i c s j) as [[[a j1] b] j2], (rc i c s k) as [[[a' k1] b'] k2].
      rewrite (vdot_lin n a b (fun x => z x j1) (fun x => z x j2)).
      rewrite !(vdot_comm n (fun x => z x _) (fun x => a' * z x k1 + b' * z x k2)).
      rewrite !(vdot_lin n a' b' (fun x => z x k1) (fun x => z x k2)).
      rewrite !O2 by tauto. unfold kd. rewrite !(Z.eqb_sym k1), !(Z.eqb_sym k2). ring. }
    intros j k Hj Hk. rewrite K by assumption. unfold rc.
    destruct (Z.eqb_spec j (i + 1)) as [->|A]; [|destruct (Z.eqb_spec j i) as [->|A']];
    (destruct (Z.eqb_spec k (i + 1)) as [->|B]; [|destruct (Z.eqb_spec k i) as [->|B']]);
    rewrite ?kd_refl, ?(kd_neq i (i + 1)), ?(kd_neq (i + 1) i) by lia;
    repeat match goal with |- context [kd ?a ?b] => rewrite (kd_neq a b) by lia end; try ring; try nra.
Qed.

(** What holds between the sweeps: the state is an orthogonal similarity of
    the tridiagonal matrix (a, b). *)
Definition sim (n : Z) (a b : vec) (q : ql) : Prop :=
  orth n (q_z q) /\ forall k, (0 <= k < n)%Z ->
    nrm n (q_d q) (q_e q) (q_z q k) (fun j => Tmul n a b (fun x => q_z q x j) k).

Lemma Tmul_rot n a b z i c s k j : Tmul n a b (fun x => rot i c s (z x) j) k = rot i c s (fun j => Tmul n a b (fun x => z x j) k) j.
Proof.
  unfold Tmul, rot. destruct (j =? i + 1)%Z; [destruct (0 <? k)%Z, (k <? n - 1)%Z; ring|].
  destruct (j =? i)%Z; [destruct (0 <? k)%Z, (k <? n - 1)%Z; ring|reflexivity].
Qed.

Lemma sweep_ok n a b l m : (0 <= l)%Z -> (m < n)%Z ->
  forall k i q w fin, i = (l + Z.of_nat k - 1)%Z -> (i < m)%Z ->
  (forall j, (l <= j <= i)%Z -> w_e q j <> 0) -> w_s q <> 0 -> orth n (w_z q) ->
  (forall x, (0 <= x < n)%Z -> mid n i m (w_d q) (w_e q) (w_g q) (w_s q) (w_c q) (w_p q) (w_z q x)
     (fun j => Tmul n a b (fun y => w_z q y j) x)) ->
  sweep k i m q = (w, fin) ->
  fin = true /\ orth n (w_z w) /\
  (forall x, (0 <= x < n)%Z -> mid n (l - 1) m (w_d w) (w_e w) (w_g w) (w_s w) (w_c w) (w_p w) (w_z w x)
     (fun j => Tmul n a b (fun y => w_z w y j) x)) /\
  (forall j, (j < l)%Z \/ (m < j)%Z -> w_e w j = w_e q j).
Proof.
  intros Hl Hm. induction k as [|k IH]; intros i q w fin Hi Him He Hs Ho Hmid Hsw.
  - cbn in Hsw. injection Hsw as <- <-. replace (l - 1)%Z with i by lia. split; [reflexivity|]. split; [exact Ho|]. split; [exact Hmid|]. auto.
  - cbn [sweep] in Hsw. set (r := sqrt (w_g q * w_g q + w_s q * w_e q i * (w_s q * w_e q i))) in *.
    assert (Hf : w_s q * w_e q i <> 0) by (apply Rmult_integral_contrapositive_currified; [exact Hs|apply He; lia]).
    assert (Hr : r <> 0).
    { unfold r. apply Rgt_not_eq, sqrt_lt_R0. assert (0 < w_s q * w_e q i * (w_s q * w_e q i)) by nra. nra. }
    destruct (Req_EM_T r 0) as [C|_]; [contradiction|].
    assert (MS : forall x, (0 <= x < n)%Z -> _) by (intros x Hx; exact (mid_step n i m _ _ _ _ _ _ _ _ ltac:(lia) Hm Hr (Hmid x Hx))).
    apply IH in Hsw; clear IH.
    + destruct Hsw as (F & O & M & EQ). split; [exact F|]. split; [exact O|]. split; [exact M|].
      intros j Hj. rewrite EQ by exact Hj. cbn [w_e]. apply upd_neq. lia.
    + lia.
    + lia.
    + intros j Hj. cbn [w_e]. rewrite upd_neq by lia. apply He. lia.
    + cbn [w_s]. unfold Rdiv. apply Rmult_integral_contrapositive_currified; [exact Hf|]. now apply Rinv_neq_0_compat.
    + cbn [w_z]. apply orth_rot; [|lia|lia|exact Ho]. exact (proj2 (MS i ltac:(lia))).
    + intros x Hx. cbn [w_d w_e w_g w_s w_c w_p w_z]. destruct (MS x Hx) as [M _]. fold r in M.
      destruct M as [Mf M0 M1 M2].
      constructor; intros; rewrite Tmul_rot; [now apply Mf|now apply M0|exact M1|now apply M2].
Qed.

Lemma find_m_spec d e : forall k m0, let m := find_m k m0 d e in
  (m0 <= m <= m0 + Z.of_nat k)%Z /\ (forall j, (m0 <= j < m)%Z -> e j <> 0) /\ ((m < m0 + Z.of_nat k)%Z -> e m = 0).
Proof.
  induction k as [|k IH]; intros m0; cbn [find_m]; cbv zeta.
  - repeat split; try lia.
  - destruct (Req_EM_T _ _) as [Q|Q].
    + repeat split; try lia. intros _. destruct (Req_EM_T (e m0) 0) as [|C]; [assumption|].
      apply Rabs_pos_lt in C. lra.
    + specialize (IH (m0 + 1)%Z). cbv zeta in IH. destruct IH as (A & B & C). split; [lia|]. split.
      * intros j Hj. destruct (Z.eq_dec j m0) as [->|]; [|apply B; lia]. intros Z0. apply Q. rewrite Z0, Rabs_R0. ring.
      * intros D. apply C. lia.
Qed.

(** One [l]. *)
Lemma ql_l_ok n a b l : (0 <= l < n)%Z -> forall fuel q q',
  sim n a b q -> (forall j, (0 <= j < l)%Z -> q_e q j = 0) -> q_e q (n - 1)%Z = 0 ->
  ql_l fuel n l q = Ok q' ->
  sim n a b q' /\ (forall j, (0 <= j <= l)%Z -> q_e q' j = 0) /\ q_e q' (n - 1)%Z = 0.
Proof.
  intros Hl. induction fuel as [|f IH]; intros q q' Hs He Hn; cbn [ql_l];
    pose proof (find_m_spec (q_d q) (q_e q) (Z.to_nat (n - 1 - l)) l) as FM; cbv zeta in FM;
    set (m := find_m (Z.to_nat (n - 1 - l)) l (q_d q) (q_e q)) in *;
    destruct FM as (F1 & F2 & F3); assert (Em : q_e q m = 0) by (destruct (Z.eq_dec m (n - 1)) as [->|]; [exact Hn|apply F3; lia]);
    destruct (Z.eqb_spec m l) as [El|El].
  1, 3: (intros R1; injection R1 as <-; split; [exact Hs|]; split; [|exact Hn];
         intros j Hj; destruct (Z.eq_dec j l) as [->|]; [now rewrite <- El|apply He; lia]).
  - discriminate.
  - destruct (sweep _ _ _ _) as [w fin] eqn:SW.
    set (q0 := mkSw (q_d q) (q_e q) (q_z q) (shift (q_d q) (q_e q) l m) 1 1 0) in *.
    assert (H : fin = true /\ orth n (w_z w) /\
      (forall x, (0 <= x < n)%Z -> mid n (l - 1) m (w_d w) (w_e w) (w_g w) (w_s w) (w_c w) (w_p w) (w_z w x)
         (fun j => Tmul n a b (fun y => w_z w y j) x)) /\
      (forall j, (j < l)%Z \/ (m < j)%Z -> w_e w j = w_e q0 j)).
    { apply (sweep_ok n a b l m) with (k := Z.to_nat (m - l)) (i := (m - 1)%Z); try lia.
      - cbn [w_e q0]. intros; apply F2; lia.
      - cbn [w_s q0]. lra.
      - exact (proj1 Hs).
      - intros x Hx. apply mid_start; [lia|exact Em|apply (proj2 Hs); exact Hx].
      - exact SW. }
    unfold q0 in H.
    cbn [w_e] in H. destruct H as (-> & O & M & EQ). intros R1. apply IH in R1; [exact R1| | |].
    + split; [exact O|]. cbn [q_d q_e q_z]. intros k Hk. apply (mid_end n l m _ _ _ (w_s w) (w_c w)); [lia|lia| |now apply M].
      intros j Hj. rewrite EQ by lia. apply He. lia.
    + cbn [q_e]. intros j Hj. rewrite !upd_neq by lia. rewrite EQ by lia. apply He. lia.
    + cbn [q_e]. destruct (Z.eq_dec m (n - 1)) as [->|]; [apply upd_eq|]. rewrite !upd_neq by lia. rewrite EQ by lia. exact Hn.
Qed.

Lemma vdot_kd n i u : (0 <= i < n)%Z -> vdot n (kd i) u = u i.
Proof.
  intros Hi. unfold vdot. rewrite (ksum_only _ _ _ _ _ _ RTheory _ _ i).
  - rewrite kd_refl. ring.
  - apply NoDup_zrange.
  - apply in_zrange; lia.
  - intros x _ Hx. rewrite kd_neq by auto. ring.
Qed.

(** A normal return of the solver is an eigendecomposition with orthonormal
    eigenvectors. *)
Lemma tridiag_ok n a b q : (1 <= n)%Z -> tridiag n a b = Ok q ->
  orth n (q_z q) /\ forall j k, (0 <= j < n)%Z -> (0 <= k < n)%Z ->
    Tmul n a b (fun x => q_z q x j) k = q_d q j * q_z q k j.
Proof.
  intros Hn Hq. unfold tridiag in Hq.
  assert (L : forall k s q q', (s + Z.of_nat k = n)%Z -> (0 <= s)%Z -> sim n a b q -> (forall j, (0 <= j < s)%Z -> q_e q j = 0) -> q_e q (n - 1)%Z = 0 ->
    ofold (fun q l => ql_l 200 n l q) q (zseq s k) = Ok q' -> sim n a b q' /\ forall j, (0 <= j < n)%Z -> q_e q' j = 0).
  { induction k as [|k IH]; intros s q0 q' Hsk Hs S0 He Hl; cbn [zseq ofold].
    - intros R1. injection R1 as <-. split; [exact S0|]. intros; apply He; lia.
    - destruct (ql_l 200 n s q0) as [q1| |] eqn:Q1; try discriminate. cbn [obind]. apply ql_l_ok with (a := a) (b := b) in Q1; [|lia|assumption..].
      destruct Q1 as (A & B & C). apply IH; try assumption; try lia. intros; apply B; lia. }
  unfold zrange in Hq. apply L in Hq; clear L.
  - destruct Hq as [[O S] He]. split; [exact O|]. intros j k Hj Hk. rewrite (S k Hk j Hj). rewrite (He j) by lia.
    destruct (Z.ltb_spec 0 j); [rewrite (He (j - 1)%Z) by lia|]; ring.
  - lia.
  - lia.
  - split.
    + cbn [q_z]. split; intros x y Hx Hy.
      * exact (vdot_kd n x (kd y) Hx ) || idtac.
        change (vdot n (kd x) (kd y) = kd x y). rewrite vdot_kd by lia. unfold kd. now rewrite Z.eqb_sym.
      * transitivity (vdot n (kd x) (kd y)); [apply vdot_ext; intros; unfold kd; now rewrite Z.eqb_sym|].
        rewrite vdot_kd by lia. unfold kd. now rewrite Z.eqb_sym.
    + cbn [q_d q_e q_z]. intros k Hk j Hj. unfold Tmul.
      assert (U : forall i, (i <> n - 1)%Z -> upd b (n - 1) 0 i = b i) by (intros i Hi; exact (upd_neq b (n - 1) 0 i Hi)).
      destruct (Z.eq_dec k j) as [->|A].
      * rewrite Z.eqb_refl. destruct (Z.eqb_spec (j - 1) j); [lia|]. destruct (Z.eqb_spec (j + 1) j); [lia|].
        destruct (Z.eqb_spec j (j - 1)); [lia|]. destruct (Z.eqb_spec j (j + 1)); [lia|].
        destruct (0 <? j)%Z, (j <? n - 1)%Z; ring.
      * destruct (Z.eqb_spec k j); [lia|]. destruct (Z.eqb_spec (k - 1) j), (Z.eqb_spec (k + 1) j), (Z.eqb_spec k (j - 1)), (Z.eqb_spec k (j + 1)); try lia;
        destruct (Z.ltb_spec 0 k), (Z.ltb_spec 0 j), (Z.ltb_spec k (n - 1)); try lia; try ring;
        try (replace (k - 1)%Z with j by lia; rewrite (U j) by lia; ring);
        try (replace (j - 1)%Z with k by lia; rewrite (U k) by lia; ring).
  - cbn. intros; lia.
  - cbn [q_e]. apply upd_eq.
Qed.
