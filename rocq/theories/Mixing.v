(** Model of src/mixing.c:213-449 [Mixing_periodic_pulay]: the history
    bookkeeping of one process (flat arrays), and the density update over
    all processes of the communicator. *)
From Coq Require Import ZArith List Lia Bool QArith Arith Lqa.
From Verif Require Import CBase Spline.
Import ListNotations.
Local Open Scope nat_scope.

Lemma col_disjoint N a b i : i < N -> a <> b -> b * N + i < a * N \/ a * N + N <= b * N + i.
Proof. intros Hi H. assert (a < b \/ b < a) as [L|L] by lia; [right | left]; nia. Qed.

Lemma mod_neq m k t : 0 < m -> t <= k -> k < t + m -> t <> k -> t mod m <> k mod m.
Proof.
  intros Hm H1 H2 H3 E.
  pose proof (Nat.div_mod t m ltac:(lia)). pose proof (Nat.div_mod k m ltac:(lia)).
  assert (D : k / m = t / m \/ k / m <> t / m) by lia. destruct D as [D|D]; [rewrite D in *; lia|].
  assert (t / m <= k / m) by (apply Nat.div_le_mono; lia).
  assert (t / m + 1 <= k / m) by lia. nia.
Qed.
Lemma block_of k m : 0 < m -> k mod m <> 0 -> ((k - 1) / m) * m = (k / m) * m.
Proof.
  intros Hm H. f_equal. pose proof (Nat.div_mod k m ltac:(lia)).
  pose proof (Nat.mod_upper_bound k m ltac:(lia)).
  symmetry. apply (Nat.div_unique (k - 1) m (k / m) (k mod m - 1));
  set (q := k / m) in *; set (r := k mod m) in *; clearbody q r; nia.
Qed.

(** ** History (any scalar type with a subtraction) *)
Section History.
  Variable A : Type.
  Variable sub : A -> A -> A.
  Variable zero : A.
  Notation vec := (nat -> A).

  (** src/mixing.c:266-272: pointers into pSPARC->mixing_hist_*; [Rm], [Fm]
      are flat, element (i, j) at j*N+i. *)
  Record mstate := mkM { xk : vec; xkm1 : vec; fk : vec; fkm1 : vec; Rm : vec; Fm : vec }.

  (** A loop [for i < n: v\[off+i\] = f i]. *)
  Definition fill (off n : nat) (f : vec) (v : vec) : vec :=
    fun p => if (off <=? p) && (p <? off + n) then f (p - off) else v p.

  (** src/mixing.c:274-308.  [cap] is the number of cells allocated for R and
      F (parallelization.c:1097-1098: N*m). *)
  Definition mix_history (N m cap : nat) (restart : bool) (iter : nat) (g : vec) (s : mstate) : outcome mstate :=
    let fkm1' := if (0 <? iter) then fill 0 N (fk s) (fkm1 s) else fkm1 s in
    let fk' := fill 0 N (fun i => sub (g i) (xk s i)) (fk s) in
    if (0 <? iter) then
      if (m =? 0) then UB
      else
        let i_hist := (iter - 1) mod m in
        let dx := fun i => sub (xk s i) (xkm1 s i) in
        let df := fun i => sub (fk' i) (fkm1' i) in
        if restart && (i_hist =? 0) then
          if (N + N * (m - 1) <=? cap) then
            let R0 := fill N (N * (m - 1)) (fun _ => zero) (Rm s) in
            let F0 := fill N (N * (m - 1)) (fun _ => zero) (Fm s) in
            Ok (mkM (xk s) (xkm1 s) fk' fkm1' (fill 0 N dx R0) (fill 0 N df F0))
          else UB
        else
          if (i_hist * N + N <=? cap) then
            Ok (mkM (xk s) (xkm1 s) fk' fkm1' (fill (i_hist * N) N dx (Rm s)) (fill (i_hist * N) N df (Fm s)))
          else UB
    else Ok (mkM (xk s) (xkm1 s) fk' fkm1' (Rm s) (Fm s)).

  (** src/mixing.c:437-443, [xnew] the mixed vector x_{k+1} *)
  Definition mix_shift (N : nat) (xnew : vec) (s : mstate) : mstate :=
    mkM (fill 0 N xnew (xk s)) (fill 0 N (xk s) (xkm1 s)) (fk s) (fkm1 s) (Rm s) (Fm s).

  (** The SCF loop (src/electronicGroundState.c:748-977) calls Mixing with
      SCFcount = 0, 1, ...; [gs k] is the output g(x_k), [xs k] the mixed
      input of iteration k. *)
  Fixpoint scf (N m cap : nat) (restart : bool) (gs xs : nat -> vec) (k : nat) (s : mstate) : outcome mstate :=
    match k with
    | O => Ok s
    | S k' =>
      do s1 <- scf N m cap restart gs xs k' s ;
      do s2 <- mix_history N m cap restart k' (gs k') s1 ;
      Ok (mix_shift N (xs (S k')) s2)
    end.

  Lemma fill_in off n f v i : i < n -> fill off n f v (off + i) = f i.
  Proof.
    intros H. unfold fill. rewrite (proj2 (Nat.leb_le _ _)), (proj2 (Nat.ltb_lt _ _)) by lia. cbn [andb]. f_equal. lia.
  Qed.
  Lemma fill_0 n f v i : i < n -> fill 0 n f v i = f i.
  Proof. intros H. apply (fill_in 0). exact H. Qed.
  Lemma fill_out off n f v p : p < off \/ off + n <= p -> fill off n f v p = v p.
  Proof.
    intros H. unfold fill. destruct (Nat.leb_spec off p); destruct (Nat.ltb_spec p (off + n)); cbn [andb]; try reflexivity. lia.
  Qed.

  (** Which differences are kept after iterations 0..k. *)
  Definition kept (m : nat) (restart : bool) (k t : nat) : Prop :=
    1 <= t <= k /\ if restart then ((k - 1) / m) * m < t else k < t + m.

  Definition hist_inv (N m : nat) (restart : bool) (gs xs : nat -> vec) (k : nat) (s : mstate) : Prop :=
    (forall i, i < N -> xk s i = xs (S k) i) /\
    (forall i, i < N -> xkm1 s i = xs k i) /\
    (forall i, i < N -> fk s i = sub (gs k i) (xs k i)) /\
    (forall t, kept m restart k t -> forall i, i < N ->
       Rm s ((t - 1) mod m * N + i) = sub (xs t i) (xs (t - 1) i) /\
       Fm s ((t - 1) mod m * N + i) = sub (sub (gs t i) (xs t i)) (sub (gs (t - 1) i) (xs (t - 1) i))) /\
    (forall j, j < m -> (forall t, kept m restart k t -> (t - 1) mod m <> j) -> forall i, i < N ->
       Rm s (j * N + i) = zero /\ Fm s (j * N + i) = zero).

  Lemma scf_inv N m restart gs xs s0 : 0 < m ->
    (forall i, i < N -> xk s0 i = xs 0 i) ->
    (forall p, p < N * m -> Rm s0 p = zero /\ Fm s0 p = zero) ->
    forall k, exists s, scf N m (N * m) restart gs xs (S k) s0 = Ok s /\ hist_inv N m restart gs xs k s.
  Proof.
    intros Hm Hx H0. induction k as [|k (s & E & I1 & I2 & I3 & I4 & I5)].
    - cbn [scf obind]. unfold mix_history. cbn [Nat.ltb Nat.leb obind].
      eexists. split; [reflexivity|]. unfold mix_shift, hist_inv. cbn [xk xkm1 fk fkm1 Rm Fm].
      split; [intros i Hi; apply fill_0, Hi|]. split; [intros i Hi; rewrite fill_0 by exact Hi; apply Hx, Hi|].
      split; [intros i Hi; rewrite fill_0 by exact Hi; rewrite Hx by exact Hi; reflexivity|].
      split; [intros t [Ht _]; lia|]. intros j Hj _ i Hi. apply H0. nia.
    - change (scf N m (N * m) restart gs xs (S (S k)) s0) with
        (do s1 <- scf N m (N * m) restart gs xs (S k) s0 ;
         do s2 <- mix_history N m (N * m) restart (S k) (gs (S k)) s1 ;
         Ok (mix_shift N (xs (S (S k))) s2)).
      rewrite E. cbn [obind]. unfold mix_history. cbn [Nat.ltb Nat.leb]. cbv zeta.
      rewrite (proj2 (Nat.eqb_neq m 0)) by lia.
      replace (S k - 1) with k by lia.
      set (fk' := fill 0 N (fun i => sub (gs (S k) i) (xk s i)) (fk s)).
      set (fkm1' := fill 0 N (fk s) (fkm1 s)).
      assert (Fk : forall i, i < N -> fk' i = sub (gs (S k) i) (xs (S k) i)).
      { intros i Hi. unfold fk'. rewrite fill_0, I1 by exact Hi. reflexivity. }
      assert (Fm1 : forall i, i < N -> fkm1' i = sub (gs k i) (xs k i)).
      { intros i Hi. unfold fkm1'. rewrite fill_0 by exact Hi. apply I3, Hi. }
      clearbody fk' fkm1'.
      set (dx := fun i => sub (xk s i) (xkm1 s i)). set (df := fun i => sub (fk' i) (fkm1' i)).
      assert (Dx : forall i, i < N -> dx i = sub (xs (S k) i) (xs k i)) by (intros i Hi; unfold dx; rewrite I1, I2 by exact Hi; reflexivity).
      assert (Df : forall i, i < N -> df i = sub (sub (gs (S k) i) (xs (S k) i)) (sub (gs k i) (xs k i)))
        by (intros i Hi; unfold df; rewrite Fk, Fm1 by exact Hi; reflexivity).
      clearbody dx df.
      pose proof (Nat.mod_upper_bound k m ltac:(lia)) as MB.
      destruct (restart && (k mod m =? 0)) eqn:Er.
      + apply andb_true_iff in Er. destruct Er as [-> Er]. apply Nat.eqb_eq in Er.
        rewrite (proj2 (Nat.leb_le _ _)) by nia. cbn [obind].
        eexists. split; [reflexivity|]. unfold mix_shift, hist_inv. cbn [xk xkm1 fk fkm1 Rm Fm].
        split; [intros i Hi; apply fill_0, Hi|].
        split; [intros i Hi; rewrite fill_0 by exact Hi; apply I1, Hi|].
        split; [exact Fk|].
        assert (OnlyLast : forall t, kept m true (S k) t -> t = S k).
        { intros t [Ht1 Ht2]. replace (S k - 1) with k in Ht2 by lia.
          pose proof (Nat.div_mod k m ltac:(lia)). nia. }
        split.
        * intros t Ht i Hi. rewrite (OnlyLast t Ht). replace (S k - 1) with k by lia. rewrite Er.
          cbn [Nat.mul Nat.add]. rewrite !fill_0 by exact Hi. split; [apply Dx, Hi | apply Df, Hi].
        * intros j Hj Nj i Hi.
          assert (j <> 0).
          { intros ->. apply (Nj (S k)); [|replace (S k - 1) with k by lia; exact Er].
            split; [lia|]. replace (S k - 1) with k by lia. pose proof (Nat.div_mod k m ltac:(lia)). nia. }
          assert (B : N <= j * N + i < N + N * (m - 1)) by nia.
          rewrite !(fill_out 0) by lia.
          replace (j * N + i) with (N + (j * N + i - N)) by lia.
          rewrite !fill_in by lia. split; reflexivity.
      + rewrite (proj2 (Nat.leb_le _ _)) by nia. cbn [obind].
        eexists. split; [reflexivity|]. unfold mix_shift, hist_inv. cbn [xk xkm1 fk fkm1 Rm Fm].
        split; [intros i Hi; apply fill_0, Hi|].
        split; [intros i Hi; rewrite fill_0 by exact Hi; apply I1, Hi|].
        split; [exact Fk|].
        assert (Kept : forall t, kept m restart (S k) t -> t = S k \/ (kept m restart k t /\ (t - 1) mod m <> k mod m)).
        { intros t [Ht1 Ht2]. destruct (Nat.eq_dec t (S k)) as [-> | Nt]; [left; reflexivity | right].
          assert (Hlow : k < (t - 1) + m).
          { destruct restart; [|lia]. replace (S k - 1) with k in Ht2 by lia.
            pose proof (Nat.div_mod k m ltac:(lia)). nia. }
          split; [split; [lia|]|apply mod_neq; lia].
          destruct restart; [|lia]. cbn [andb] in Er. apply Nat.eqb_neq in Er.
          rewrite block_of by assumption. replace (S k - 1) with k in Ht2 by lia. exact Ht2. }
        assert (Kept' : forall t, kept m restart k t -> (t - 1) mod m <> k mod m -> kept m restart (S k) t).
        { intros t [Ht1 Ht2] Nt. split; [lia|]. replace (S k - 1) with k by lia. destruct restart.
          - cbn [andb] in Er. apply Nat.eqb_neq in Er. rewrite block_of in Ht2 by assumption. exact Ht2.
          - destruct (Nat.eq_dec (t + m) (S k)) as [Et|]; [|lia]. exfalso. apply Nt.
            replace k with ((t - 1) + 1 * m) by lia. rewrite Nat.mod_add by lia. reflexivity. }
        split.
        * intros t Ht i Hi. destruct (Kept t Ht) as [-> | [Kt Nt]].
          -- replace (S k - 1) with k by lia. rewrite !fill_in by exact Hi. split; [apply Dx, Hi | apply Df, Hi].
          -- pose proof (col_disjoint N (k mod m) ((t - 1) mod m) i Hi ltac:(congruence)).
             rewrite !fill_out by lia. apply I4; assumption.
        * intros j Hj Nj i Hi.
          assert (j <> k mod m).
          { intros ->. apply (Nj (S k)); [|f_equal; lia]. split; [lia|].
            replace (S k - 1) with k by lia. destruct restart; [|lia].
            pose proof (Nat.div_mod k m ltac:(lia)). nia. }
          pose proof (col_disjoint N (k mod m) j i Hi ltac:(congruence)).
          rewrite !fill_out by lia. apply I5; [exact Hj| |exact Hi].
          intros t Kt Et. apply (Nj t); [|exact Et]. apply Kept'; [exact Kt|]. congruence.
  Qed.
End History.
Arguments mkM {A}. Arguments xk {A}. Arguments xkm1 {A}. Arguments fk {A}. Arguments fkm1 {A}. Arguments Rm {A}. Arguments Fm {A}.

(** ** Density update over all processes *)
Local Open Scope Q_scope.
(** A distributed vector: the local part of every process. *)
Definition dvec := list (list Q).
Definition qsum (l : list Q) : Q := fold_right Qplus 0 l.
(** src/tools.c:833-845 [VectorSum]: local sums, then MPI_Allreduce(SUM). *)
Definition VectorSum (v : dvec) : Q := qsum (map qsum v).
Fixpoint zip {A B C} (f : A -> B -> C) (u : list A) (v : list B) : list C :=
  match u, v with x :: u', y :: v' => f x y :: zip f u' v' | _, _ => [] end.
(** src/tools.c:850-862 [VectorSum_wt] *)
Definition VectorSum_wt (v w : dvec) : Q := qsum (zip (fun x y => qsum (zip Qmult x y)) v w).
(** src/tools.c:868-874 [VectorShift] *)
Definition VectorShift (v : dvec) (c : Q) : dvec := map (map (fun x => x + c)) v.
Definition vadd (u v : dvec) : dvec := zip (zip Qplus) u v.

(** src/mixing.c:374-384: make the sum of the preconditioned residual equal
    to that of the residual (spin calculations only). *)
Definition shift_Pf (spin : bool) (Nd : Q) (f Pf : dvec) : outcome dvec :=
  if spin then
    if Qeq_bool Nd 0 then UB
    else Ok (VectorShift Pf ((VectorSum f - VectorSum Pf) / Nd))
  else Ok Pf.
(** src/mixing.c:386-387, one component *)
Definition new_comp (spin : bool) (Nd : Q) (x f Pf : dvec) : outcome dvec :=
  do Pf' <- shift_Pf spin Nd f Pf ; Ok (vadd x Pf').
(** src/mixing.c:391-396 *)
Definition clamp (v : dvec) : dvec := map (map (fun x => if qltb x 0 then 0 else x)) v.
(** src/mixing.c:404-416: integral by weights (cyclix) or by dV, rescaling *)
Definition integral (cyclix : option dvec) (dV : Q) (v : dvec) : Q :=
  match cyclix with Some w => VectorSum_wt v w | None => VectorSum v * dV end.
Definition rho_update (cyclix : option dvec) (dV NegCharge : Q) (x : dvec) : outcome dvec :=
  let x := clamp x in
  let int_rho := integral cyclix dV x in
  if Qeq_bool int_rho 0 then UB
  else Ok (map (map (fun y => y * (- NegCharge / int_rho))) x).
(** src/electronDensity.c:318-324 [Calculate_diagonal_Density] *)
Definition spin_up (rho mag : Q) : Q := (1 # 2) * (rho + mag).
Definition spin_dn (rho mag : Q) : Q := (1 # 2) * (rho - mag).

(** *** Lemmas *)
Lemma qsum_cons x u : qsum (x :: u) = x + qsum u.
Proof. reflexivity. Qed.
Lemma qsum_app u v : qsum (u ++ v) == qsum u + qsum v.
Proof.
  induction u as [|x u IH]; cbn [app]; rewrite ?qsum_cons; [cbn; ring|]. rewrite IH. ring.
Qed.
Lemma qsum_scale c u : qsum (map (fun y => y * c) u) == qsum u * c.
Proof. induction u as [|x u IH]; cbn [map]; rewrite ?qsum_cons; [reflexivity|]. rewrite IH. ring. Qed.
Lemma qsum_shift c u : qsum (map (fun y => y + c) u) == qsum u + inject_Z (Z.of_nat (length u)) * c.
Proof.
  induction u as [|x u IH]; cbn [map length]; rewrite ?qsum_cons; [cbn; ring|]. rewrite IH.
  replace (Z.of_nat (S (length u))) with (1 + Z.of_nat (length u))%Z by lia. rewrite inject_Z_plus. ring.
Qed.
Lemma qsum_zip_add : forall u v, length u = length v -> qsum (zip Qplus u v) == qsum u + qsum v.
Proof.
  induction u as [|x u IH]; intros [|y v] H; try discriminate H; [reflexivity|].
  cbn [zip]. rewrite !qsum_cons, IH by (injection H; auto). ring.
Qed.
Definition points (v : dvec) : nat := length (concat v).
Definition same_shape (u v : dvec) : Prop := map (@length Q) u = map (@length Q) v.
Lemma VectorSum_concat v : VectorSum v == qsum (concat v).
Proof.
  unfold VectorSum. induction v as [|x v IH]; cbn [map concat]; [reflexivity|].
  rewrite qsum_cons, qsum_app, IH. reflexivity.
Qed.
Lemma VectorSum_shift v c : VectorSum (VectorShift v c) == VectorSum v + inject_Z (Z.of_nat (points v)) * c.
Proof.
  unfold VectorSum, VectorShift, points. induction v as [|x v IH]; cbn [map concat length]; [cbn; ring|].
  rewrite !qsum_cons, IH, qsum_shift, app_length, Nat2Z.inj_add, inject_Z_plus. ring.
Qed.
Lemma VectorSum_add : forall u v, same_shape u v -> VectorSum (vadd u v) == VectorSum u + VectorSum v.
Proof.
  unfold same_shape, VectorSum, vadd.
  induction u as [|x u IH]; intros [|y v] H; try discriminate H; [reflexivity|].
  cbn [map] in H. injection H as H1 H2. cbn [zip map]. rewrite !qsum_cons, IH by exact H2.
  rewrite qsum_zip_add by exact H1. ring.
Qed.
Lemma same_shape_shift u v c : same_shape u v -> same_shape u (VectorShift v c).
Proof.
  unfold same_shape, VectorShift. intros ->. rewrite map_map. apply map_ext. intros x. rewrite map_length. reflexivity.
Qed.
Lemma VectorSum_scale v c : VectorSum (map (map (fun y => y * c)) v) == VectorSum v * c.
Proof.
  unfold VectorSum. induction v as [|x v IH]; cbn [map]; [reflexivity|]. rewrite !qsum_cons, IH, qsum_scale. ring.
Qed.
Lemma zip_scale c : forall x w, qsum (zip Qmult (map (fun y => y * c) x) w) == qsum (zip Qmult x w) * c.
Proof.
  induction x as [|a x IH]; intros [|b w]; cbn [map zip]; try reflexivity. rewrite !qsum_cons, IH. ring.
Qed.
Lemma VectorSum_wt_scale c : forall v w, VectorSum_wt (map (map (fun y => y * c)) v) w == VectorSum_wt v w * c.
Proof.
  unfold VectorSum_wt. induction v as [|x v IH]; intros [|y w]; cbn [map zip]; try reflexivity.
  rewrite !qsum_cons, IH, zip_scale. ring.
Qed.
Lemma integral_scale cy dV c v : integral cy dV (map (map (fun y => y * c)) v) == integral cy dV v * c.
Proof. destruct cy; cbn [integral]; [apply VectorSum_wt_scale | rewrite VectorSum_scale; ring]. Qed.

Lemma qsum_nonneg u : (forall x, In x u -> 0 <= x) -> 0 <= qsum u.
Proof.
  induction u as [|x u IH]; intros H; [apply Qle_refl|]. rewrite qsum_cons.
  assert (0 <= x) by (apply H; left; reflexivity).
  assert (0 <= qsum u) by (apply IH; intros; apply H; right; assumption). lra.
Qed.
Lemma zip_in {A B C} (f : A -> B -> C) : forall u v z, In z (zip f u v) -> exists x y, In x u /\ In y v /\ z = f x y.
Proof.
  induction u as [|x u IH]; intros [|y v] z H; cbn [zip] in H; try contradiction.
  destruct H as [<- | H].
  - exists x, y. split; [left; reflexivity|]. split; [left; reflexivity | reflexivity].
  - destruct (IH v z H) as (a & b & Ha & Hb & E). exists a, b. split; [right; exact Ha|]. split; [right; exact Hb | exact E].
Qed.
Definition weights_ok (cy : option dvec) (dV : Q) : Prop :=
  match cy with Some w => forall y p, In p w -> In y p -> 0 <= y | None => 0 <= dV end.
Lemma integral_nonneg cy dV v : weights_ok cy dV -> (forall x p, In p v -> In x p -> 0 <= x) -> 0 <= integral cy dV v.
Proof.
  intros Hw Hv. destruct cy as [w|]; cbn [integral weights_ok] in *.
  - unfold VectorSum_wt. apply qsum_nonneg. intros z Hz. apply zip_in in Hz. destruct Hz as (x & y & Hx & Hy & ->).
    apply qsum_nonneg. intros z Hz. apply zip_in in Hz. destruct Hz as (a & b & Ha & Hb & ->).
    apply Qmult_le_0_compat; [apply (Hv a x) | apply (Hw b y)]; assumption.
  - apply Qmult_le_0_compat; [|exact Hw]. unfold VectorSum. apply qsum_nonneg. intros z Hz.
    apply in_map_iff in Hz. destruct Hz as (p & <- & Hp). apply qsum_nonneg. intros x Hx. apply (Hv x p); assumption.
Qed.
