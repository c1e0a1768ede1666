(** Lemmas on the nodal Hamiltonian of SqHsub.v. *)
From Coq Require Import ZArith Reals List Lia Lra Bool Permutation.
From Verif Require Import CBase Nloc NlocLem VnlOp VnlLem VnlMain SqGauss SqQl SqSpec SqMain SqHsub.
Import ListNotations.
Local Open Scope R_scope.

(** ** Flat indices *)
Definition flat (nx ny : Z) (t : Z * Z * Z) : Z := let '(i, j, k) := t in (k * (nx * ny) + j * nx + i)%Z.

Lemma flat_inj nx ny i j k i' j' k' : (0 <= i < nx)%Z -> (0 <= i' < nx)%Z -> (0 <= j < ny)%Z -> (0 <= j' < ny)%Z ->
  flat nx ny (i, j, k) = flat nx ny (i', j', k') -> i = i' /\ j = j' /\ k = k'.
Proof.
  unfold flat. intros Hi Hi' Hj Hj' E0.
  assert (E1 : (nx * (ny * k + j) + i = nx * (ny * k' + j') + i')%Z) by lia.
  apply (Z.div_mod_unique nx) in E1; try lia. destruct E1 as [E1 ->].
  apply (Z.div_mod_unique ny) in E1; lia.
Qed.
Lemma flat_bound nx ny nz i j k : (0 <= i < nx)%Z -> (0 <= j < ny)%Z -> (0 <= k < nz)%Z -> (0 <= flat nx ny (i, j, k) < nx * ny * nz)%Z.
Proof. unfold flat. intros. assert (0 <= nx * ny)%Z by nia. assert (j * nx + i < nx * ny)%Z by nia. nia. Qed.

Definition ci (nx p : Z) : Z := (p mod nx)%Z.
Definition cj (nx ny p : Z) : Z := ((p / nx) mod ny)%Z.
Definition ck (nx ny p : Z) : Z := (p / (nx * ny))%Z.
Lemma flat_split nx ny nz p : (0 < nx)%Z -> (0 < ny)%Z -> (0 <= p < nx * ny * nz)%Z ->
  p = flat nx ny (ci nx p, cj nx ny p, ck nx ny p) /\ (0 <= ci nx p < nx)%Z /\ (0 <= cj nx ny p < ny)%Z /\ (0 <= ck nx ny p < nz)%Z.
Proof.
  intros Hx Hy Hp. unfold flat, ci, cj, ck. rewrite <- Z.div_div by lia.
  pose proof (Z.mod_pos_bound p nx Hx). pose proof (Z.mod_pos_bound (p / nx) ny Hy).
  pose proof (Z.div_mod p nx ltac:(lia)). pose proof (Z.div_mod (p / nx) ny ltac:(lia)).
  split; [nia|]. split; [lia|]. split; [lia|]. split.
  - apply Z.div_pos; [apply Z.div_pos; lia|lia].
  - rewrite Z.div_div by lia. apply Z.div_lt_upper_bound; nia.
Qed.
Lemma coord_flat nx ny i j k : (0 <= i < nx)%Z -> (0 <= j < ny)%Z ->
  ci nx (flat nx ny (i, j, k)) = i /\ cj nx ny (flat nx ny (i, j, k)) = j /\ ck nx ny (flat nx ny (i, j, k)) = k.
Proof.
  intros Hi Hj. unfold flat, ci, cj, ck.
  replace (k * (nx * ny) + j * nx + i)%Z with (i + (j + k * ny) * nx)%Z by ring.
  rewrite <- Z.div_div by lia. rewrite Z.mod_add, Z.div_add, (Z.mod_small i), (Z.div_small i) by lia. rewrite Z.add_0_l.
  rewrite Z.mod_add, Z.div_add, Z.mod_small, Z.div_small by lia. lia.
Qed.

Lemma in_box x0 x1 y0 y1 z0 z1 i j k : In (i, j, k) (box x0 x1 y0 y1 z0 z1) <-> (x0 <= i <= x1)%Z /\ (y0 <= j <= y1)%Z /\ (z0 <= k <= z1)%Z.
Proof.
  unfold box. rewrite in_flat_map. split.
  - intros (k' & Hk & H). apply in_zrange in Hk. apply in_flat_map in H. destruct H as (j' & Hj & H). apply in_zrange in Hj.
    apply in_map_iff in H. destruct H as (i' & E0 & Hi). apply in_zrange in Hi. injection E0 as <- <- <-. lia.
  - intros (A & B & C). exists k. rewrite in_zrange. split; [lia|]. apply in_flat_map. exists j. rewrite in_zrange. split; [lia|].
    apply in_map_iff. exists i. rewrite in_zrange. split; [reflexivity|lia].
Qed.

(** ** Loops of stores *)
Lemma ofold_str {A} n (f : A -> outcome R) (g : A -> R) (ix : A -> Z) L : forall a0,
  (forall t, In t L -> f t = Ok (g t) /\ (0 <= ix t < n)%Z) ->
  ofold (fun a t => do v <- f t ; str n a (ix t, v)) a0 L = Ok (fold_left (fun a t => upd a (ix t) (g t)) L a0).
Proof.
  induction L as [|t L IH]; intros a0 H; [reflexivity|]. cbn [ofold fold_left].
  destruct (H t (or_introl eq_refl)) as [-> B]. cbn [obind]. unfold str. cbn [fst snd].
  destruct (Z.leb_spec 0 (ix t)), (Z.ltb_spec (ix t) n); try lia. cbn [andb obind]. apply IH. intros; apply H; now right.
Qed.
Lemma fold_upd_miss {A} (ix : A -> Z) (g : A -> R) L p : forall a0, (forall t, In t L -> ix t <> p) ->
  fold_left (fun a t => upd a (ix t) (g t)) L a0 p = a0 p.
Proof.
  induction L as [|t L IH]; intros a0 H; [reflexivity|]. cbn [fold_left]. rewrite IH by (intros; apply H; now right).
  apply upd_neq. intros E0. apply (H t (or_introl eq_refl)). now symmetry.
Qed.
Lemma fold_upd_hit {A} (ix : A -> Z) (g : A -> R) L p v : forall a0, (exists t, In t L /\ ix t = p) ->
  (forall t, In t L -> ix t = p -> g t = v) -> fold_left (fun a t => upd a (ix t) (g t)) L a0 p = v.
Proof.
  induction L as [|t L IH]; intros a0 (t0 & I0 & E0) H; [destruct I0|]. cbn [fold_left].
  destruct (in_dec Z.eq_dec p (map ix L)) as [I|I].
  - apply IH; [|intros; apply H; [now right|assumption]]. apply in_map_iff in I. destruct I as (t1 & E1 & I1). exists t1. auto.
  - rewrite fold_upd_miss.
    + destruct I0 as [->|I0]; [|exfalso; apply I; rewrite <- E0; now apply in_map]. rewrite <- E0 at 1.
      rewrite upd_eq. apply H; [now left|exact E0].
    + intros t1 I1 E1. apply I. rewrite <- E1. now apply in_map.
Qed.

(** ** The kernel *)
Section Lap.
Variable c : cfg.
Variables (dV : R) (nd : Z).
Let nx := c_nx c. Let ny := c_ny c. Let nz := c_nz c. Let F := c_fd c.
Hypothesis Hnx : (0 < nx)%Z. Hypothesis Hny : (0 < ny)%Z. Hypothesis Hnz : (0 < nz)%Z. Hypothesis HF : (0 <= F)%Z.
Hypothesis Hdx : (0 < c_dmx c)%Z. Hypothesis Hdy : (0 < c_dmy c)%Z. Hypothesis Hdz : (0 < c_dmz c)%Z.
Hypothesis Hnd : (0 <= nd < c_dmx c * c_dmy c * c_dmz c)%Z.

Definition inb (i j k : Z) : bool := ((0 <=? i) && (i <? nx) && ((0 <=? j) && (j <? ny)) && ((0 <=? k) && (k <? nz)))%Z.
(** The vector at a point, zero outside of the box. *)
Definition X (x : vec) (i j k : Z) : R := if inb i j k then x (flat nx ny (i, j, k)) else 0.

Lemma inb_spec i j k : inb i j k = true <-> ((0 <= i < nx)%Z /\ (0 <= j < ny)%Z /\ (0 <= k < nz)%Z).
Proof. clear. unfold inb. rewrite !andb_true_iff, !Z.leb_le, !Z.ltb_lt. lia. Qed.

Lemma EX : Nx_ex c = (nx + 2 * F)%Z. Proof. reflexivity. Qed.
Lemma EY : Ny_ex c = (ny + 2 * F)%Z. Proof. reflexivity. Qed.
Lemma EZ : Nz_ex c = (nz + 2 * F)%Z. Proof. reflexivity. Qed.

Definition halo0 (a : vec) : Prop := forall i j k, (0 <= i < Nx_ex c)%Z -> (0 <= j < Ny_ex c)%Z -> (0 <= k < Nz_ex c)%Z ->
  inb (i - F) (j - F) (k - F) = false -> a (flat (Nx_ex c) (Ny_ex c) (i, j, k)) = 0.
Definition holds (x e : vec) : Prop := forall i j k, (0 <= i < Nx_ex c)%Z -> (0 <= j < Ny_ex c)%Z -> (0 <= k < Nz_ex c)%Z ->
  e (flat (Nx_ex c) (Ny_ex c) (i, j, k)) = X x (i - F) (j - F) (k - F).

Lemma extend_ok x xex : halo0 xex -> exists e, extend c x xex = Ok e /\ holds x e.
Proof.
  intros H0. unfold extend. fold F nx ny nz.
  pose (f := fun t : Z * Z * Z => let '(i, j, k) := t in ldr (Nd_loc c) x ((k - F) * (nx * ny) + (j - F) * nx + (i - F))).
  pose (g := fun t : Z * Z * Z => let '(i, j, k) := t in x (flat nx ny ((i - F)%Z, (j - F)%Z, (k - F)%Z))).
  pose (L := box F (nx + F - 1) F (ny + F - 1) F (nz + F - 1)).
  exists (fold_left (fun a t => upd a (flat (Nx_ex c) (Ny_ex c) t) (g t)) L xex). split.
  - rewrite <- (ofold_str (Nd_ex c) f g (flat (Nx_ex c) (Ny_ex c)) L xex).
    + fold L. clear. generalize xex. induction L as [|[[i j] k] L' IH]; intros a; [reflexivity|]. cbn [ofold]. unfold f at 1, flat at 1.
      destruct (ldr _ _ _); cbn [obind]; try reflexivity. destruct (str _ _ _); cbn [obind]; [apply IH|reflexivity|reflexivity].
    + intros [[i j] k] I. apply in_box in I. split.
      * unfold f, g, ldr. pose proof (flat_bound nx ny nz (i - F) (j - F) (k - F) ltac:(lia) ltac:(lia) ltac:(lia)) as B. unfold flat in *.
        change (Nd_loc c) with (nx * ny * nz)%Z. destruct (Z.leb_spec 0 ((k - F) * (nx * ny) + (j - F) * nx + (i - F))), (Z.ltb_spec ((k - F) * (nx * ny) + (j - F) * nx + (i - F)) (nx * ny * nz)); try lia. reflexivity.
      * apply flat_bound; pose proof EX; pose proof EY; pose proof EZ; lia.
  - intros i j k Hi Hj Hk. unfold X. destruct (inb (i - F) (j - F) (k - F)) eqn:B.
    + apply inb_spec in B. apply fold_upd_hit.
      * exists (i, j, k). split; [|reflexivity]. apply in_box. lia.
      * intros [[i' j'] k'] I E0. apply in_box in I. apply flat_inj in E0; [|pose proof EX; pose proof EY; pose proof EZ; lia..].
        destruct E0 as (-> & -> & ->). reflexivity.
    + rewrite fold_upd_miss; [now apply H0|]. intros [[i' j'] k'] I E0. apply in_box in I.
      apply flat_inj in E0; [|pose proof EX; pose proof EY; pose proof EZ; lia..]. destruct E0 as (-> & -> & ->).
      assert (inb (i - F) (j - F) (k - F) = true) by (apply inb_spec; lia). congruence.
Qed.

Lemma holds_halo x e : holds x e -> halo0 e.
Proof. intros Hh i j k Hi Hj Hk B. rewrite Hh by assumption. unfold X. now rewrite B. Qed.

(** Value of the kernel. *)
Definition is_ : Z := (nd mod c_dmx c)%Z.
Definition js_ : Z := ((nd / c_dmx c) mod c_dmy c)%Z.
Definition ks_ : Z := (nd / (c_dmx c * c_dmy c))%Z.
Definition kval (a : R) (x : vec) (i j k : Z) : R :=
  (wts c a 0 0 + wts c a 0 1 + wts c a 0 2) * X x i j k
  + sumn F (fun q => let r := (q + 1)%Z in (X x (i - r) j k + X x (i + r) j k) * wts c a r 0
      + (X x i (j - r) k + X x i (j + r) k) * wts c a r 1 + (X x i j (k - r) + X x i j (k + r)) * wts c a r 2)
  + 1 * (c_veff c (flat (PRx c) (PRy c) ((i + is_)%Z, (j + js_)%Z, (k + ks_)%Z)) * X x i j k).

Lemma idx_nd : c_div nd (c_dmx c * c_dmy c) = Ok ks_ /\ c_div (nd - ks_ * (c_dmx c * c_dmy c)) (c_dmx c) = Ok js_ /\ c_mod nd (c_dmx c) = Ok is_.
Proof.
  destruct (flat_split (c_dmx c) (c_dmy c) (c_dmz c) nd Hdx Hdy Hnd) as (E0 & A & B & C).
  fold is_ in *. change (ci (c_dmx c) nd) with is_ in *. change (cj (c_dmx c) (c_dmy c) nd) with js_ in *. change (ck (c_dmx c) (c_dmy c) nd) with ks_ in *.
  unfold c_div, c_mod. destruct (Z.eqb_spec (c_dmx c * c_dmy c) 0); [nia|]. destruct (Z.eqb_spec (c_dmx c) 0); [lia|].
  rewrite Z.quot_div_nonneg, Z.rem_mod_nonneg by lia. split; [reflexivity|]. split; [|reflexivity]. f_equal.
  unfold flat in E0. replace (nd - ks_ * (c_dmx c * c_dmy c))%Z with (is_ + js_ * c_dmx c)%Z by lia.
  rewrite Z.quot_div_nonneg by nia. rewrite Z.div_add by lia. rewrite Z.div_small by lia. lia.
Qed.

Lemma ldr_ok n a i : (0 <= i < n)%Z -> ldr n a i = Ok (a i).
Proof. intros. unfold ldr. destruct (Z.leb_spec 0 i), (Z.ltb_spec i n); lia || reflexivity. Qed.

Lemma ldx x e i j k p : holds x e -> (- F <= i < nx + F)%Z -> (- F <= j < ny + F)%Z -> (- F <= k < nz + F)%Z ->
  p = flat (Nx_ex c) (Ny_ex c) ((i + F)%Z, (j + F)%Z, (k + F)%Z) -> ldr (Nd_ex c) e p = Ok (X x i j k).
Proof.
  intros Hh Hi Hj Hk ->. rewrite ldr_ok.
  - rewrite Hh by (pose proof EX; pose proof EY; pose proof EZ; lia). do 2 f_equal; lia.
  - apply flat_bound; pose proof EX; pose proof EY; pose proof EZ; lia.
Qed.

Lemma ofold_sumr (f : R -> Z -> outcome R) (g : Z -> R) n : (forall s q, (0 <= q < n)%Z -> f s (q + 1)%Z = Ok (s + g q)) ->
  forall s, ofold f s (zrange 1 n) = Ok (s + sumn n g).
Proof.
  clear. intros Hf s. destruct (Z_lt_ge_dec n 0) as [Hn|Hn].
  - unfold zrange, sumn. replace (Z.to_nat (n - 1 + 1)) with 0%nat by lia. replace (Z.to_nat n) with 0%nat by lia. cbn. f_equal. ring.
  - assert (K : forall m, (Z.of_nat m <= n)%Z -> ofold f s (zseq 1 m) = Ok (s + nsum m g)).
    { induction m as [|m IH]; intros Hm; [cbn; f_equal; ring|].
      replace (S m) with (m + 1)%nat by lia. rewrite zseq_app.
      assert (AP : forall l1 l2 s0, ofold f s0 (l1 ++ l2) = obind (ofold f s0 l1) (fun s1 => ofold f s1 l2)).
      { clear. induction l1 as [|a l1 IH]; intros; [reflexivity|]. cbn [app ofold]. destruct (f s0 a); cbn [obind]; auto. }
      rewrite AP, IH by lia. cbn [obind zseq ofold]. replace (1 + Z.of_nat m)%Z with (Z.of_nat m + 1)%Z by lia. rewrite Hf by lia. cbn [obind].
      replace (m + 1)%nat with (S m) by lia. cbn [nsum]. f_equal. ring. }
    unfold zrange, sumn. replace (Z.to_nat (n - 1 + 1)) with (Z.to_nat n) by lia. apply K. lia.
Qed.

Lemma kernel_ok a x e i j k : holds x e -> inb i j k = true -> kernel c a e is_ js_ ks_ (i, j, k) = Ok (kval a x i j k).
Proof.
  intros Hh B. apply inb_spec in B. unfold kernel. fold F.
  rewrite (ldx x e i j k) by (try assumption; try lia; reflexivity). cbn [obind].
  erewrite ofold_sumr with (n := F) (g := fun q => let r := (q + 1)%Z in (X x (i - r) j k + X x (i + r) j k) * wts c a r 0
      + (X x i (j - r) k + X x i (j + r) k) * wts c a r 1 + (X x i j (k - r) + X x i j (k + r)) * wts c a r 2).
  2:{ intros s q Hq.
      rewrite (ldx x e (i - (q + 1)) j k) by (try assumption; try lia; unfold flat; ring). cbn [obind].
      rewrite (ldx x e (i + (q + 1)) j k) by (try assumption; try lia; unfold flat; ring). cbn [obind].
      rewrite (ldx x e i (j - (q + 1)) k) by (try assumption; try lia; unfold flat; ring). cbn [obind].
      rewrite (ldx x e i (j + (q + 1)) k) by (try assumption; try lia; unfold flat; ring). cbn [obind].
      rewrite (ldx x e i j (k - (q + 1))) by (try assumption; try lia; unfold flat; ring). cbn [obind].
      rewrite (ldx x e i j (k + (q + 1))) by (try assumption; try lia; unfold flat; ring). reflexivity. }
  cbn [obind].
  destruct (flat_split (c_dmx c) (c_dmy c) (c_dmz c) nd Hdx Hdy Hnd) as (_ & A1 & A2 & A3).
  change (ci (c_dmx c) nd) with is_ in *. change (cj (c_dmx c) (c_dmy c) nd) with js_ in *. change (ck (c_dmx c) (c_dmy c) nd) with ks_ in *.
  rewrite ldr_ok.
  - reflexivity.
  - apply (flat_bound (PRx c) (PRy c) (PRz c) (i + is_) (j + js_) (k + ks_)); unfold PRx, PRy, PRz; fold nx ny nz; lia.
Qed.

Lemma lap_ok a x xex y0 : halo0 xex -> exists y e, lap_sq c nd a x xex y0 = Ok (y, e) /\ halo0 e /\
  forall i j k, inb i j k = true -> y (flat nx ny (i, j, k)) = kval a x i j k.
Proof.
  intros H0. destruct (extend_ok x xex H0) as (e & E1 & Hh). unfold lap_sq. destruct idx_nd as (-> & Q1 & Q2). cbn [obind].
  rewrite Q1. cbn [obind]. rewrite Q2. cbn [obind]. rewrite E1. cbn [obind].
  pose (g := fun t : Z * Z * Z => let '(i, j, k) := t in kval a x i j k). fold nx ny nz.
  rewrite (ofold_str (Nd_loc c) (kernel c a e is_ js_ ks_) g (flat nx ny)).
  - cbn [obind]. eexists _, e. split; [reflexivity|]. split; [now apply holds_halo in Hh|].
    intros i j k B. apply fold_upd_hit.
    + exists (i, j, k). split; [|reflexivity]. apply in_box. apply inb_spec in B. lia.
    + intros [[i' j'] k'] I E0. apply in_box in I. apply inb_spec in B. apply flat_inj in E0; try lia. destruct E0 as (-> & -> & ->). reflexivity.
  - intros [[i j] k] I. apply in_box in I. split.
    + apply kernel_ok; [exact Hh|]. apply inb_spec. lia.
    + apply (flat_bound nx ny nz); lia.
Qed.

(** ** Symmetry of the kernel *)
Lemma sumn_if_shift n (P Q : Z -> bool) (f : Z -> R) s :
  (forall p, (0 <= p < n)%Z -> P p = true -> (0 <= p + s < n)%Z /\ Q (p + s)%Z = true) ->
  (forall p, (0 <= p < n)%Z -> Q p = true -> (0 <= p - s < n)%Z /\ P (p - s)%Z = true) ->
  sumn n (fun p => if P p then f p else 0) = sumn n (fun p => if Q p then f (p - s)%Z else 0).
Proof.
  clear. intros H1 H2. rewrite !sumn_rsum.
  rewrite <- (ksum_filter _ _ _ _ _ _ RTheory P f), <- (ksum_filter _ _ _ _ _ _ RTheory Q (fun p => f (p - s)%Z)).
  set (A := filter P _). set (B := filter Q _).
  transitivity (rsum (map (fun p => f (p - s)%Z) (map (fun p => (p + s)%Z) A))).
  - rewrite map_map. apply ksum_ext. intros p _. f_equal. lia.
  - apply (ksum_perm _ _ _ _ _ _ RTheory). apply Permutation_map. apply NoDup_Permutation.
    + apply FinFun.Injective_map_NoDup; [intros p q E0; lia|]. apply NoDup_filter, NoDup_zrange.
    + apply NoDup_filter, NoDup_zrange.
    + intros p. unfold A, B. rewrite in_map_iff, filter_In, in_zrange. split.
      * intros (q & <- & I). apply filter_In in I. rewrite in_zrange in I. destruct (H1 q ltac:(lia) (proj2 I)). split; [lia|assumption].
      * intros [I J]. destruct (H2 p ltac:(lia) J). exists (p - s)%Z. split; [lia|]. apply filter_In. rewrite in_zrange. split; [lia|assumption].
Qed.

Definition Nd : Z := (nx * ny * nz)%Z.
Definition XP (x : vec) (p a b d : Z) : R := X x (ci nx p + a) (cj nx ny p + b) (ck nx ny p + d).

Lemma XP_eq x p a b d : (0 <= p < Nd)%Z -> XP x p a b d = if inb (ci nx p + a) (cj nx ny p + b) (ck nx ny p + d) then x (p + (d * (nx * ny) + b * nx + a))%Z else 0.
Proof.
  intros Hp. unfold XP, X. destruct (inb _ _ _); [|reflexivity]. f_equal.
  destruct (flat_split nx ny nz p Hnx Hny Hp) as (E0 & _). rewrite E0 at 4. unfold flat. ring.
Qed.

Lemma XP_sym u x a b d : sumn Nd (fun p => u p * XP x p a b d) = sumn Nd (fun p => XP u p (- a) (- b) (- d) * x p).
Proof.
  set (s := (d * (nx * ny) + b * nx + a)%Z).
  rewrite (sumn_ext Nd _ (fun p => if inb (ci nx p + a) (cj nx ny p + b) (ck nx ny p + d) then u p * x (p + s)%Z else 0)).
  2:{ intros p Hp. rewrite XP_eq by exact Hp. fold s. destruct (inb _ _ _); ring. }
  rewrite (sumn_ext Nd (fun p => XP u p (- a) (- b) (- d) * x p)
    (fun p => if inb (ci nx p + - a) (cj nx ny p + - b) (ck nx ny p + - d) then u (p - s)%Z * x (p - s + s)%Z else 0)).
  2:{ intros p Hp. rewrite XP_eq by exact Hp. replace (p - s + s)%Z with p by lia.
      replace (p + (- d * (nx * ny) + - b * nx + - a))%Z with (p - s)%Z by (unfold s; ring). destruct (inb _ _ _); ring. }
  assert (M : forall p a b d, (0 <= p < Nd)%Z -> inb (ci nx p + a) (cj nx ny p + b) (ck nx ny p + d) = true ->
    let p' := (p + (d * (nx * ny) + b * nx + a))%Z in (0 <= p' < Nd)%Z /\ inb (ci nx p' + - a) (cj nx ny p' + - b) (ck nx ny p' + - d) = true).
  { clear - Hnx Hny Hnz. intros p a b d Hp B p'. apply inb_spec in B. destruct (flat_split nx ny nz p Hnx Hny Hp) as (E0 & A1 & A2 & A3).
    assert (E1 : p' = flat nx ny ((ci nx p + a)%Z, (cj nx ny p + b)%Z, (ck nx ny p + d)%Z)).
    { unfold p'. rewrite E0 at 1. unfold flat. ring. }
    destruct (coord_flat nx ny (ci nx p + a) (cj nx ny p + b) (ck nx ny p + d) ltac:(lia) ltac:(lia)) as (C1 & C2 & C3). rewrite <- E1 in *.
    rewrite C1, C2, C3. split; [rewrite E1; apply flat_bound; lia|]. apply inb_spec. lia. }
  apply (sumn_if_shift Nd _ _ (fun p => u p * x (p + s)%Z) s).
  - intros p Hp B. exact (M p a b d Hp B).
  - intros p Hp B. specialize (M p (- a) (- b) (- d) Hp B)%Z. cbv zeta in M.
    replace (p + (- d * (nx * ny) + - b * nx + - a))%Z with (p - s)%Z in M by (unfold s; ring). rewrite !Z.opp_involutive in M. exact M.
Qed.

Definition lapv (a : R) (x : vec) : vec := fun p => kval a x (ci nx p) (cj nx ny p) (ck nx ny p).

Lemma lapv_alt a x p : (0 <= p < Nd)%Z -> lapv a x p =
  (wts c a 0 0 + wts c a 0 1 + wts c a 0 2 + c_veff c (flat (PRx c) (PRy c) ((ci nx p + is_)%Z, (cj nx ny p + js_)%Z, (ck nx ny p + ks_)%Z))) * x p
  + sumn F (fun q => (XP x p (- (q + 1)) 0 0 + XP x p (q + 1) 0 0) * wts c a (q + 1) 0
      + (XP x p 0 (- (q + 1)) 0 + XP x p 0 (q + 1) 0) * wts c a (q + 1) 1 + (XP x p 0 0 (- (q + 1)) + XP x p 0 0 (q + 1)) * wts c a (q + 1) 2).
Proof.
  intros Hp. unfold lapv, kval.
  assert (X0 : X x (ci nx p) (cj nx ny p) (ck nx ny p) = x p).
  { destruct (flat_split nx ny nz p Hnx Hny Hp) as (E0 & A). unfold X. rewrite (proj2 (inb_spec _ _ _) A). now rewrite <- E0. }
  rewrite X0. rewrite (sumn_ext F (fun q => let r := (q + 1)%Z in _) (fun q => (XP x p (- (q + 1)) 0 0 + XP x p (q + 1) 0 0) * wts c a (q + 1) 0
      + (XP x p 0 (- (q + 1)) 0 + XP x p 0 (q + 1) 0) * wts c a (q + 1) 1 + (XP x p 0 0 (- (q + 1)) + XP x p 0 0 (q + 1)) * wts c a (q + 1) 2)).
  - ring.
  - intros q _. cbv zeta. unfold XP. rewrite !Z.add_0_r. reflexivity.
Qed.

Lemma lapv_sym a u x : inner Nd u (lapv a x) = inner Nd (lapv a u) x.
Proof.
  unfold inner.
  set (D := fun p => wts c a 0 0 + wts c a 0 1 + wts c a 0 2 + c_veff c (flat (PRx c) (PRy c) ((ci nx p + is_)%Z, (cj nx ny p + js_)%Z, (ck nx ny p + ks_)%Z))).
  pose (T := fun (x : vec) p q => (XP x p (- (q + 1)) 0 0 + XP x p (q + 1) 0 0) * wts c a (q + 1) 0
      + (XP x p 0 (- (q + 1)) 0 + XP x p 0 (q + 1) 0) * wts c a (q + 1) 1 + (XP x p 0 0 (- (q + 1)) + XP x p 0 0 (q + 1)) * wts c a (q + 1) 2).
  rewrite (sumn_ext Nd _ (fun p => D p * (u p * x p) + sumn F (fun q => u p * T x p q))).
  2:{ intros p Hp. rewrite lapv_alt by exact Hp. rewrite sumn_mul. unfold D, T. ring. }
  rewrite (sumn_ext Nd (fun i => lapv a u i * x i) (fun p => D p * (u p * x p) + sumn F (fun q => x p * T u p q))).
  2:{ intros p Hp. rewrite lapv_alt by exact Hp. rewrite sumn_mul. unfold D, T. ring. }
  rewrite !sumn_add. f_equal. rewrite !(sumn_swap Nd F). apply sumn_ext. intros q Hq.
  pose (S2 := fun (g : Z -> vec -> Z -> R) (u x : vec) => sumn Nd (fun p => u p * g (- (q + 1))%Z x p) + sumn Nd (fun p => u p * g (q + 1)%Z x p)).
  assert (Z3 : forall u x, sumn Nd (fun p => u p * T x p q) = wts c a (q + 1) 0 * S2 (fun r x p => XP x p r 0 0) u x
     + wts c a (q + 1) 1 * S2 (fun r x p => XP x p 0 r 0) u x + wts c a (q + 1) 2 * S2 (fun r x p => XP x p 0 0 r) u x).
  { intros u' x'. unfold S2. rewrite <- !sumn_add, <- !sumn_mul, <- !sumn_add. apply sumn_ext. intros p _. unfold T. ring. }
  rewrite !Z3. unfold S2.
  assert (SW : forall r1 r2 r3, sumn Nd (fun p => u p * XP x p r1 r2 r3) = sumn Nd (fun p => x p * XP u p (- r1) (- r2) (- r3))).
  { intros. rewrite XP_sym. apply sumn_ext. intros; ring. }
  rewrite !SW, !Z.opp_involutive, !Z.opp_0. ring.
Qed.

Lemma X_lin a b u v i j k : X (fun x => a * u x + b * v x) i j k = a * X u i j k + b * X v i j k.
Proof. unfold X. destruct (inb i j k); ring. Qed.
Lemma kval_lin s a b u v i j k : kval s (fun x => a * u x + b * v x) i j k = a * kval s u i j k + b * kval s v i j k.
Proof.
  unfold kval. rewrite X_lin.
  rewrite (sumn_ext F (fun q => let r := (q + 1)%Z in (X (fun x => a * u x + b * v x) (i - r) j k + _) * _ + _ + _)
    (fun q => a * (let r := (q + 1)%Z in (X u (i - r) j k + X u (i + r) j k) * wts c s r 0
      + (X u i (j - r) k + X u i (j + r) k) * wts c s r 1 + (X u i j (k - r) + X u i j (k + r)) * wts c s r 2)
      + b * (let r := (q + 1)%Z in (X v (i - r) j k + X v (i + r) j k) * wts c s r 0
      + (X v i (j - r) k + X v i (j + r) k) * wts c s r 1 + (X v i j (k - r) + X v i j (k + r)) * wts c s r 2))).
  - rewrite sumn_add, !sumn_mul. ring.
  - intros q _. cbv zeta. rewrite !X_lin. ring.
Qed.
Lemma kval_ext s u v i j k : (forall p, (0 <= p < Nd)%Z -> u p = v p) -> kval s u i j k = kval s v i j k.
Proof.
  intros E0. assert (XE : forall i j k, X u i j k = X v i j k).
  { intros i' j' k'. unfold X. destruct (inb i' j' k') eqn:B; [|reflexivity]. apply inb_spec in B. apply E0, flat_bound; lia. }
  unfold kval. rewrite XE. f_equal. f_equal. apply sumn_ext. intros q _. cbv zeta. now rewrite !XE.
Qed.

(** ** The nonlocal part *)
Variable atoms : list natom.
Hypothesis Hpos : forall A, In A atoms -> forall g, In g (a_pos A) -> (0 <= g < Nd)%Z.

Definition ndc (A : natom) : Z := Z.of_nat (length (a_pos A)).
Definition npr (A : natom) : Z := Z.of_nat (length (a_gam A)).
Definition posn (A : natom) (i : Z) : Z := nth (Z.to_nat i) (a_pos A) 0%Z.
Definition gamn (A : natom) (q : Z) : R := nth (Z.to_nat q) (a_gam A) 0.
Definition proj (A : natom) (q : Z) (x : vec) : R := sumn (ndc A) (fun i => a_chi A i q * x (posn A i)).
Definition xo (A : natom) (x : vec) (i : Z) : R := sumn (npr A) (fun q => a_chi A i q * (dV * proj A q x * gamn A q)).
Definition vat (A : natom) (x : vec) : vec := fun p => sumn (ndc A) (fun i => delta (posn A i) p * xo A x i).

Lemma posn_in A i : (0 <= i < ndc A)%Z -> In (posn A i) (a_pos A).
Proof. intros Hi. unfold posn. apply nth_In. unfold ndc in Hi. lia. Qed.

Lemma vnl_atom_ok A x h : In A atoms -> exists h', vnl_atom c dV x h A = Ok h' /\ forall p, (0 <= p < Nd)%Z -> h' p = h p + vat A x p.
Proof.
  intros IA. unfold vnl_atom. change (Nd_loc c) with Nd.
  assert (OM : omap (ldr Nd x) (a_pos A) = Ok (map x (a_pos A))).
  { pose proof (Hpos A IA) as HP. induction (a_pos A) as [|g l IH]; [reflexivity|]. cbn [omap map].
    rewrite ldr_ok by (apply HP; now left). cbn [obind]. rewrite IH by (intros; apply HP; now right). reflexivity. }
  rewrite OM. cbn [obind]. cbv zeta. fold (ndc A) (npr A).
  set (xi := fun i => rsum (map (fun p => a_chi A i p * (dV * rsum (map (fun r => a_chi A r p * nth (Z.to_nat r) (map x (a_pos A)) 0) (zrange 0 (ndc A - 1))) * nth (Z.to_nat p) (a_gam A) 0)) (zrange 0 (npr A - 1)))).
  assert (XI : forall i, xi i = xo A x i).
  { intros i. unfold xi, xo. rewrite sumn_rsum. apply ksum_ext. intros q _. f_equal. unfold gamn. f_equal. f_equal.
    unfold proj. rewrite sumn_rsum. apply ksum_ext. intros r Hr. apply in_zrange in Hr. f_equal.
    unfold posn. rewrite (nth_indep _ 0 (x 0%Z)) by (rewrite map_length; unfold ndc in Hr; lia). apply map_nth. }
  assert (K : forall m s h, (0 <= s)%Z -> (s + Z.of_nat m = ndc A)%Z -> exists h', ofold (fun h i => do g <- ld (a_pos A) i ; do v <- ldr Nd h g ; str Nd h (g, v + xi i)) h (zseq s m) = Ok h' /\
    forall p, (0 <= p < Nd)%Z -> h' p = h p + rsum (map (fun i => delta (posn A i) p * xo A x i) (zseq s m))).
  { induction m as [|m IH]; intros s h0 Hs Hm; cbn [zseq ofold map ksum].
    - exists h0. split; [reflexivity|]. intros; ring.
    - assert (P0 : (0 <= posn A s < Nd)%Z) by (apply (Hpos A IA), posn_in; lia).
      assert (LD : ld (a_pos A) s = Ok (posn A s)).
      { unfold ld. destruct (Z.ltb_spec s 0); [lia|]. unfold posn. rewrite (nth_error_nth' _ 0%Z) by (unfold ndc in Hm; lia). reflexivity. }
      rewrite LD. cbn [obind]. rewrite ldr_ok by exact P0. cbn [obind]. unfold str. cbn [fst snd].
      destruct (Z.leb_spec 0 (posn A s)), (Z.ltb_spec (posn A s) Nd); try lia. cbn [andb obind].
      destruct (IH (s + 1)%Z (upd h0 (posn A s) (h0 (posn A s) + xi s)) ltac:(lia) ltac:(lia)) as (h' & E1 & E2).
      exists h'. split; [exact E1|]. intros p Hp. rewrite E2 by exact Hp. rewrite XI. rewrite delta_kd. destruct (Z.eq_dec p (posn A s)) as [->|D].
      + rewrite upd_eq, kd_refl. ring.
      + rewrite upd_neq by exact D. rewrite kd_neq by auto. ring. }
  unfold zrange. destruct (K (Z.to_nat (ndc A - 1 - 0 + 1)) 0%Z h ltac:(lia)) as (h' & E1 & E2); [unfold ndc; lia|].
  exists h'. split; [exact E1|]. intros p Hp. rewrite E2 by exact Hp. unfold vat. rewrite sumn_rsum. reflexivity.
Qed.

Lemma vat_inner A u x : In A atoms -> inner Nd u (vat A x) = sumn (npr A) (fun q => dV * gamn A q * (proj A q u * proj A q x)).
Proof.
  intros IA. unfold inner, vat.
  rewrite (sumn_ext Nd _ (fun p => sumn (ndc A) (fun i => xo A x i * (delta (posn A i) p * u p)))).
  2:{ intros p _. rewrite <- sumn_mul. apply sumn_ext. intros; ring. }
  rewrite sumn_swap. rewrite (sumn_ext (ndc A) _ (fun i => sumn (npr A) (fun q => (dV * gamn A q * proj A q x) * (a_chi A i q * u (posn A i))))).
  2:{ intros i Hi. rewrite sumn_mul, sumn_one by (apply (Hpos A IA), posn_in, Hi). unfold xo. rewrite Rmult_comm, <- sumn_mul. apply sumn_ext. intros; ring. }
  rewrite sumn_swap. apply sumn_ext. intros q _. rewrite sumn_mul. fold (proj A q u). ring.
Qed.

Definition vnlv (x : vec) : vec := fun p => rsum (map (fun A => vat A x p) atoms).

Lemma vnl_ok x L : (forall A, In A L -> In A atoms) -> forall h, exists h', ofold (vnl_atom c dV x) h L = Ok h' /\
  forall p, (0 <= p < Nd)%Z -> h' p = h p + rsum (map (fun A => vat A x p) L).
Proof.
  induction L as [|A L IH]; intros HL h; cbn [ofold map ksum].
  - exists h. split; [reflexivity|]. intros; ring.
  - destruct (vnl_atom_ok A x h (HL A (or_introl eq_refl))) as (h1 & -> & E1). cbn [obind].
    destruct (IH (fun B HB => HL B (or_intror HB)) h1) as (h' & E2 & E3). exists h'. split; [exact E2|].
    intros p Hp. rewrite E3, E1 by exact Hp. ring.
Qed.

Lemma hsub_ok x xex y0 : halo0 xex -> exists h e, hsub c atoms dV nd x xex y0 = Ok (h, e) /\ halo0 e /\
  forall p, (0 <= p < Nd)%Z -> h p = lapv (- / 2) x p + vnlv x p.
Proof.
  intros H0. unfold hsub. destruct (lap_ok (- / 2) x xex y0 H0) as (y & e & -> & He & Hy). cbn [obind fst snd].
  destruct (vnl_ok x atoms (fun A HA => HA) y) as (h & -> & Hh). cbn [obind]. exists h, e. split; [reflexivity|]. split; [exact He|].
  intros p Hp. rewrite Hh by exact Hp. unfold vnlv, lapv. f_equal.
  destruct (flat_split nx ny nz p Hnx Hny Hp) as (E0 & A). rewrite E0 at 1. apply Hy. apply inb_spec. exact A.
Qed.

Lemma Hsub_val x p : (0 <= p < Nd)%Z -> Hsub c atoms dV nd x p = lapv (- / 2) x p + vnlv x p.
Proof.
  intros Hp. unfold Hsub. destruct (hsub_ok x (fun _ => 0) (fun _ => 0)) as (h & e & -> & _ & Hh); [intros ? ? ? ? ? ? ?; reflexivity|].
  now apply Hh.
Qed.

Lemma vnlv_sym u x : inner Nd u (vnlv x) = inner Nd (vnlv u) x.
Proof.
  rewrite (inner_comm Nd (vnlv u) x). unfold inner, vnlv.
  assert (K : forall u x, sumn Nd (fun p => u p * rsum (map (fun A => vat A x p) atoms)) = rsum (map (fun A => inner Nd u (vat A x)) atoms)).
  { clear. intros u x. induction atoms as [|A L IH]; cbn [map ksum].
    - apply sumn_zero. intros; ring.
    - rewrite <- IH. unfold inner. rewrite <- sumn_add. apply sumn_ext. intros; ring. }
  rewrite !K. apply ksum_ext. intros A HA. rewrite !vat_inner by exact HA. apply sumn_ext. intros; ring.
Qed.
Lemma proj_lin A q a b u v : proj A q (fun x => a * u x + b * v x) = a * proj A q u + b * proj A q v.
Proof. unfold proj. rewrite <- !sumn_mul, <- sumn_add. apply sumn_ext. intros; ring. Qed.
Lemma vnlv_lin a b u v p : vnlv (fun x => a * u x + b * v x) p = a * vnlv u p + b * vnlv v p.
Proof.
  unfold vnlv. rewrite <- !(ksum_mul_l _ _ _ _ _ _ RTheory), <- (ksum_add _ _ _ _ _ _ RTheory). apply ksum_ext. intros A _.
  unfold vat. rewrite <- !sumn_mul, <- sumn_add. apply sumn_ext. intros i _.
  assert (XO : xo A (fun x => a * u x + b * v x) i = a * xo A u i + b * xo A v i).
  { unfold xo. rewrite <- !sumn_mul, <- sumn_add. apply sumn_ext. intros q _. rewrite proj_lin. ring. }
  rewrite XO. ring.
Qed.
Lemma vnlv_ext u v p : (forall i, (0 <= i < Nd)%Z -> u i = v i) -> vnlv u p = vnlv v p.
Proof.
  intros E0. unfold vnlv. apply ksum_ext. intros A HA. unfold vat. apply sumn_ext. intros i _. f_equal. unfold xo. apply sumn_ext. intros q _.
  assert (P : proj A q u = proj A q v) by (unfold proj; apply sumn_ext; intros r Hr; rewrite E0 by (apply (Hpos A HA), posn_in, Hr); reflexivity).
  now rewrite P.
Qed.

Lemma Hsub_sym : symmetric_op Nd (Hsub c atoms dV nd).
Proof.
  constructor.
  - intros u v E0 i Hi. rewrite !Hsub_val by exact Hi. rewrite (vnlv_ext u v) by exact E0. unfold lapv. rewrite (kval_ext _ u v) by exact E0. reflexivity.
  - intros a b u v i Hi. rewrite !Hsub_val by exact Hi. rewrite vnlv_lin. unfold lapv. rewrite kval_lin. ring.
  - intros u v. rewrite (inner_ext Nd u (Hsub c atoms dV nd v) u (fun p => 1 * lapv (- / 2) v p + 1 * vnlv v p)) by (intros; rewrite ?Hsub_val by assumption; ring).
    rewrite (inner_ext Nd (Hsub c atoms dV nd u) v (fun p => 1 * lapv (- / 2) u p + 1 * vnlv u p) v) by (intros; rewrite ?Hsub_val by assumption; ring).
    rewrite (inner_comm Nd u), !inner_vdot, !vdot_lin, <- !inner_vdot, (inner_comm Nd (lapv _ v)), (inner_comm Nd (vnlv v)), lapv_sym, vnlv_sym. reflexivity.
Qed.
End Lap.
