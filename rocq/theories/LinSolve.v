(** Model of src/linearSolver.c: [AAR] (37-161) and [CG] (169-235), with
    [AndersonExtrapolation] (src/mixing.c:48-99).  A vector is the
    concatenation of the local parts of all processes, so Vector2Norm and
    VectorDotProduct (src/tools.c:742-791, local sums and MPI_Allreduce) are
    functions of the whole vector.  Scalars: an arbitrary field. *)
From Coq Require Import List Lia Bool Arith Field.
From Verif Require Import CBase.
Import ListNotations.
Local Open Scope nat_scope.

Section Solvers.
  Variable K : Type.
  Variables (k0 k1 : K) (kadd kmul ksub : K -> K -> K) (kopp : K -> K) (kdiv : K -> K -> K) (kinv : K -> K).
  Variable Kf : field_theory k0 k1 kadd kmul ksub kopp kdiv kinv (@eq K).
  Add Field KField : Kf.
  Notation "0" := k0. Notation "1" := k1.
  Infix "+" := kadd. Infix "*" := kmul. Infix "-" := ksub. Infix "/" := kdiv. Notation "- x" := (kopp x).

  Definition vec := list K.
  Fixpoint vzip (f : K -> K -> K) (u v : vec) : vec :=
    match u, v with x :: u', y :: v' => f x y :: vzip f u' v' | _, _ => [] end.
  Definition vplus := vzip kadd.
  Definition vminus := vzip ksub.
  Definition vscale (a : K) (u : vec) : vec := map (kmul a) u.
  Definition zeros (n : nat) : vec := repeat 0 n.
  (** src/tools.c:780-791 [VectorDotProduct] *)
  Fixpoint vdot (u v : vec) : K :=
    match u, v with x :: u', y :: v' => x * y + vdot u' v' | _, _ => 0 end.

  Lemma vzip_len f : forall u v n, length u = n -> length v = n -> length (vzip f u v) = n.
  Proof. induction u as [|x u IH]; intros [|y v] n <- H; cbn in *; try lia. f_equal. apply IH; lia. Qed.
  Lemma vscale_len a u : length (vscale a u) = length u.
  Proof. apply map_length. Qed.
  Lemma zeros_len n : length (zeros n) = n.
  Proof. apply repeat_length. Qed.
  Lemma vdot_sym : forall u v, vdot u v = vdot v u.
  Proof. induction u as [|x u IH]; intros [|y v]; cbn; try reflexivity. rewrite IH. ring. Qed.
  Lemma vdot_plus_l : forall u v w, length u = length v -> vdot (vplus u v) w = vdot u w + vdot v w.
  Proof.
    induction u as [|x u IH]; intros [|y v] [|z w] H; cbn in *; try discriminate; try ring.
    fold (vplus u v). rewrite IH by lia. ring.
  Qed.
  Lemma vdot_minus_l : forall u v w, length u = length v -> vdot (vminus u v) w = vdot u w - vdot v w.
  Proof.
    induction u as [|x u IH]; intros [|y v] [|z w] H; cbn in *; try discriminate; try ring.
    fold (vminus u v). rewrite IH by lia. ring.
  Qed.
  Lemma vdot_scale_l a : forall u w, vdot (vscale a u) w = a * vdot u w.
  Proof. induction u as [|x u IH]; intros [|z w]; cbn; try ring. fold (vscale a u). rewrite IH. ring. Qed.
  Lemma vdot_zeros n : forall w, vdot (zeros n) w = 0.
  Proof. induction n as [|n IH]; intros [|z w]; cbn; try reflexivity. fold (zeros n). rewrite IH. ring. Qed.
  Lemma vplus_assoc : forall u v w, vplus (vplus u v) w = vplus u (vplus v w).
  Proof. induction u as [|x u IH]; intros [|y v] [|z w]; cbn; try reflexivity. f_equal; [ring | apply IH]. Qed.

  (** A linear operator on vectors of length [n]. *)
  Definition linear (n : nat) (L : vec -> vec) : Prop :=
    (forall u, length u = n -> length (L u) = n) /\
    (forall u v a, length u = n -> length v = n -> L (vplus u (vscale a v)) = vplus (L u) (vscale a (L v))).

  Lemma vplus_scale_0 u : vplus u (vscale 0 u) = u.
  Proof. induction u as [|x u IH]; cbn; [reflexivity|]. f_equal; [ring | exact IH]. Qed.
  Lemma vplus_scale_m1 : forall u, vplus u (vscale (- (1)) u) = zeros (length u).
  Proof. induction u as [|x u IH]; cbn; [reflexivity|]. f_equal; [ring | exact IH]. Qed.
  Lemma linear_zeros n L : linear n L -> L (zeros n) = zeros n.
  Proof.
    intros [H1 H2]. specialize (H2 (zeros n) (zeros n) (- (1)) (zeros_len n) (zeros_len n)).
    rewrite !vplus_scale_m1, zeros_len, H1 in H2 by apply zeros_len. exact H2.
  Qed.
  Lemma vminus_as_plus : forall u v, vminus u v = vplus u (vscale (- (1)) v).
  Proof. induction u as [|x u IH]; intros [|y v]; cbn; try reflexivity. f_equal; [ring | apply IH]. Qed.
  Lemma linear_minus n L u v : linear n L -> length u = n -> length v = n -> L (vminus u v) = vminus (L u) (L v).
  Proof. intros [H1 H2] Hu Hv. rewrite !vminus_as_plus. apply H2; assumption. Qed.

    Lemma vminus_res : forall (b u v : vec), length b = length u -> length u = length v ->
      vminus (vminus b u) (vminus b v) = vscale (- (1)) (vminus u v).
    Proof.
      induction b as [|x b IH]; intros [|y u] [|z v] H1 H2; cbn in *; try discriminate; [reflexivity|].
      f_equal; [ring | apply IH; lia].
    Qed.
    Lemma res_step : forall (b u v : vec) a, length b = length u -> length u = length v ->
      vminus b (vplus u (vscale a v)) = vplus (vminus b u) (vscale a (vscale (- (1)) v)).
    Proof.
      induction b as [|x b IH]; intros [|y u] [|z v] a H1 H2; cbn in *; try discriminate; [reflexivity|].
      f_equal; [ring | apply IH; lia].
    Qed.
    Lemma vscale_zeros a k : vscale a (zeros k) = zeros k.
    Proof. induction k as [|k IH]; cbn; [reflexivity|]. f_equal; [ring | exact IH]. Qed.
  Lemma vplus_zeros_l : forall (w : vec) k, length w = k -> vplus (zeros k) w = w.
  Proof. induction w as [|x w IH]; intros k <-; cbn; [reflexivity|]. f_equal; [ring | apply IH; reflexivity]. Qed.
  Lemma vplus_zeros_r : forall (w : vec) k, length w = k -> vplus w (zeros k) = w.
  Proof. induction w as [|x w IH]; intros k <-; cbn; [reflexivity|]. f_equal; [ring | apply IH; reflexivity]. Qed.
  Lemma wavg_step_eq a c : forall (u w y : vec) n, length u = n -> length w = n -> length y = n ->
    vplus (vplus u w) (vscale (- c) y) = vplus (vplus u (vscale (- a) y)) (vplus w (vscale (- (c - a)) y)).
  Proof.
    induction u as [|x u IH]; intros [|z w] [|t y] n <- H2 H3; cbn in *; try discriminate; [reflexivity|].
    f_equal; [ring | apply (IH w y (length u)); lia].
  Qed.
  (** ** AAR *)
  Section AAR.
    (** norms are doubles of any kind; [ngt] is the C comparison [>] *)
    Variable N : Type.
    Variable ngt : N -> N -> bool.
    Variable norm : vec -> N.
    Variables (res prec : vec -> vec).
    (** Gamma of src/mixing.c:110-139 (LAPACK inside) *)
    Variable coeff : nat -> (nat -> vec) -> vec -> (nat -> K).
    Variables (omega beta : K) (m p : nat).

    (** src/mixing.c:88-97: v - sum over j < m of G j * (column j) *)
    Fixpoint wavg (m : nat) (G : nat -> K) (M : nat -> vec) (v : vec) : vec :=
      match m with O => v | S j => vplus (wavg j G M v) (vscale (- G j) (M j)) end.
    (** src/mixing.c:48-69 *)
    Definition Anderson (xold f : vec) (X F : nat -> vec) : vec :=
      let G := coeff m F f in
      vplus (wavg m G X xold) (vscale beta (wavg m G F f)).

    Record aar := mkA { ax : vec; axold : vec; afold : vec; aX : nat -> vec; aF : nat -> vec; ar : vec; arn : N; ait : nat }.
    (** src/linearSolver.c:91-101: f and the two history columns *)
    Definition aar_store (s : aar) : outcome (vec * (nat -> vec) * (nat -> vec)) :=
      let f := prec (ar s) in
      if (0 <? ait s) then
        if (m =? 0) then UB
        else
          let h := (ait s - 1) mod m in
          Ok (f, (fun j => if j =? h then vminus (ax s) (axold s) else aX s j),
                 (fun j => if j =? h then vminus f (afold s) else aF s j))
      else Ok (f, aX s, aF s).
    (** src/linearSolver.c:89-144, one pass of the while body *)
    Definition aar_body (s : aar) : outcome aar :=
      do h <- aar_store s ;
      let '(f, X, F) := h in
      if (p =? 0) then UB
      else if ((ait s + 1) mod p =? 0) && (0 <? ait s) then
        let x := Anderson (ax s) f X F in
        let r := res x in
        Ok (mkA x (ax s) f X F r (norm r) (ait s + 1))
      else
        let x := vplus (ax s) (vscale omega f) in
        Ok (mkA x (ax s) f X F (res x) (arn s) (ait s + 1)).
    (** the while loop; [fuel] = max_iter - iter_count *)
    Fixpoint aar_loop (tol : N) (fuel : nat) (s : aar) : outcome aar :=
      if ngt (arn s) tol then
        match fuel with
        | O => Ok s
        | S fuel' => do s' <- aar_body s ; aar_loop tol fuel' s'
        end
      else Ok s.
    (** src/linearSolver.c:60-88: [tol] is already tol*||b||, [big] is
        tol*||b|| + 1.0; x_old = x0; f_old uninitialised (never read before
        being written: any value [fold0]). *)
    Definition aar_init (n : nat) (x0 fold0 : vec) (big : N) : aar :=
      mkA x0 x0 fold0 (fun _ => zeros n) (fun _ => zeros n) (res x0) big O.
    Definition AAR (n : nat) (x0 fold0 : vec) (tol big : N) (max_iter : nat) : outcome aar :=
      aar_loop tol max_iter (aar_init n x0 fold0 big).

    (** loop heads *)
    Fixpoint aar_iter (k : nat) (s : aar) : outcome aar :=
      match k with O => Ok s | S k' => do s' <- aar_iter k' s ; aar_body s' end.

    Lemma aar_body_it s s' : aar_body s = Ok s' -> ait s' = (ait s + 1)%nat /\ ar s' = res (ax s') /\ axold s' = ax s /\ afold s' = prec (ar s).
    Proof.
      unfold aar_body, aar_store.
      destruct (0 <? ait s); [destruct (m =? 0)|]; cbn [obind]; try discriminate;
      (destruct (p =? 0); [discriminate|]; destruct (_ && _); intros E; injection E as <-; cbn [ait ar ax axold afold]; repeat split; reflexivity).
    Qed.
    (** what stopping before the limit means *)
    Lemma aar_loop_stop tol : forall fuel s s',
      ar s = res (ax s) -> (ngt (arn s) tol = true \/ arn s = norm (ar s)) ->
      aar_loop tol fuel s = Ok s' -> ait s' < ait s + fuel \/ ngt (arn s') tol = false ->
      ngt (arn s') tol = false /\ arn s' = norm (res (ax s')) /\ ar s' = res (ax s').
    Proof.
      induction fuel as [|fuel IH]; intros s s' Hr Hn E L; cbn [aar_loop] in E.
      - destruct (ngt (arn s) tol) eqn:G; injection E as <-.
        + destruct L as [L|L]; [lia | congruence].
        + destruct Hn as [Hn|Hn]; [congruence|]. rewrite Hn, Hr in *. split; [exact G|]. split; reflexivity.
      - destruct (ngt (arn s) tol) eqn:G.
        + destruct (aar_body s) as [s1| |] eqn:B; cbn [obind] in E; try discriminate.
          destruct (aar_body_it _ _ B) as (Hi & Hr1 & _ & _).
          apply (IH s1 s' Hr1); [|exact E | rewrite Hi; destruct L; [left; lia | right; assumption]].
          clear IH E L. unfold aar_body in B. destruct (aar_store s) as [[[f X] F]| |]; cbn [obind] in B; try discriminate.
          destruct (p =? 0); [discriminate|]. destruct (_ && _); injection B as <-; cbn [arn ar]; [right; reflexivity | left; exact G].
        + injection E as <-. destruct Hn as [Hn|Hn]; [congruence|]. rewrite Hn, Hr in *. split; [exact G|]. split; reflexivity.
    Qed.

    (** *** Columns of the history under a linear system *)
    Variable n : nat.
    Variables (A : vec -> vec) (b : vec).
    Hypothesis HA : linear n A.
    Hypothesis HP : linear n prec.
    Hypothesis Hb : length b = n.
    Hypothesis Hres : forall x, length x = n -> res x = vminus b (A x).

    Definition PA (v : vec) : vec := prec (A v).
    Lemma PA_linear : linear n PA.
    Proof.
      destruct HA as [A1 A2], HP as [P1 P2]. unfold PA. split; [intros; apply P1, A1; assumption|].
      intros u v a Hu Hv. rewrite A2 by assumption. apply P2; apply A1; assumption.
    Qed.
    (** columns of F are minus P A applied to those of X *)
    Definition col_ok (x f : vec) : Prop := length x = n /\ f = vscale (- (1)) (PA x).

    Lemma linear_scale L a u : linear n L -> length u = n -> L (vscale a u) = vscale a (L u).
    Proof.
      intros [L1 L2] Hu. assert (Z := L2 (zeros n) u a (zeros_len n) Hu).
      rewrite (linear_zeros n L (conj L1 L2)) in Z.
      rewrite !vplus_zeros_l in Z by (rewrite vscale_len; try apply L1; assumption). exact Z.
    Qed.
    Lemma col_new x y : length x = n -> length y = n -> col_ok (vminus x y) (vminus (prec (res x)) (prec (res y))).
    Proof.
      intros Hx Hy. split; [apply vzip_len; assumption|].
      destruct HA as [A1 _]. pose proof (A1 x Hx). pose proof (A1 y Hy).
      assert (length (res x) = n) by (rewrite Hres by assumption; apply vzip_len; assumption).
      assert (length (res y) = n) by (rewrite Hres by assumption; apply vzip_len; assumption).
      rewrite <- (linear_minus n prec) by assumption. rewrite !Hres by assumption.
      rewrite vminus_res by lia. unfold PA. rewrite <- (linear_minus n A) by assumption.
      apply linear_scale; [exact HP|]. apply A1. apply vzip_len; assumption.
    Qed.

    Lemma wavg_len G M v : (forall j, length (M j) = n) -> length v = n -> forall k, length (wavg k G M v) = n.
    Proof. intros HM Hv. induction k as [|k IH]; cbn [wavg]; [exact Hv|]. apply vzip_len; [exact IH | rewrite vscale_len; apply HM]. Qed.
    (** the extrapolated residual is the residual of the extrapolated point *)
    Lemma wavg_residual G X F x : (forall j, col_ok (X j) (F j)) -> length x = n ->
      forall k, prec (res (wavg k G X x)) = wavg k G F (prec (res x)).
    Proof.
      intros HC Hx. induction k as [|k IH]; cbn [wavg]; [reflexivity|].
      assert (Lw : length (wavg k G X x) = n) by (apply wavg_len; [intros j; apply HC | exact Hx]).
      destruct (HC k) as [HXk HFk]. pose proof HA as [A1 A2].
      rewrite <- IH. rewrite !Hres by (try apply vzip_len; rewrite ?vscale_len; assumption).
      rewrite A2 by assumption.
      pose proof (A1 _ Lw). pose proof (A1 _ HXk).
      rewrite res_step by congruence.
      pose proof HP as [P1 P2]. rewrite P2; [|apply vzip_len; assumption | rewrite vscale_len; assumption].
      rewrite HFk. rewrite (linear_scale prec (- (1)) (A (X k)) HP) by assumption. reflexivity.
    Qed.

    Definition aar_inv (s : aar) : Prop :=
      length (ax s) = n /\ length (axold s) = n /\ ar s = res (ax s) /\
      (0 < ait s -> afold s = prec (res (axold s))) /\ forall j, col_ok (aX s j) (aF s j).
    Lemma aar_init_inv x0 fold0 big : length x0 = n -> aar_inv (aar_init n x0 fold0 big).
    Proof.
      intros H. unfold aar_init, aar_inv. cbn [ax axold ar ait afold aX aF]. repeat (split; try assumption; try reflexivity; try lia); [apply zeros_len|].
      rewrite (linear_zeros n PA PA_linear). rewrite vscale_zeros. reflexivity.
    Qed.
    Lemma aar_store_inv s f X F : aar_inv s -> aar_store s = Ok (f, X, F) ->
      f = prec (res (ax s)) /\ forall j, col_ok (X j) (F j).
    Proof.
      intros (I1 & I2 & I3 & I4 & I5). unfold aar_store. rewrite I3. destruct (Nat.ltb_spec 0 (ait s)).
      - destruct (m =? 0); [discriminate|]. intros E. injection E as <- <- <-. split; [reflexivity|].
        intros j. destruct (j =? _); [|apply I5]. rewrite I4 by assumption. apply col_new; assumption.
      - intros E. injection E as <- <- <-. split; [reflexivity | exact I5].
    Qed.
    Lemma prec_res_len x : length x = n -> length (prec (res x)) = n.
    Proof. intros H. apply HP. rewrite Hres by exact H. apply vzip_len; [exact Hb | apply HA, H]. Qed.
    Lemma col_F_len x f : col_ok x f -> length f = n.
    Proof. intros [H1 ->]. rewrite vscale_len. apply PA_linear, H1. Qed.
    Lemma aar_body_inv s s' : aar_inv s -> aar_body s = Ok s' -> aar_inv s'.
    Proof.
      intros I E. assert (I' := I). destruct I' as (I1 & I2 & I3 & I4 & I5).
      unfold aar_body in E. destruct (aar_store s) as [[[f X] F]| |] eqn:St; cbn [obind] in E; try discriminate.
      destruct (aar_store_inv _ _ _ _ I St) as [-> HC].
      destruct (p =? 0); [discriminate|].
      assert (HF : forall j, length (F j) = n) by (intros j; apply (col_F_len (X j)), HC).
      assert (HX : forall j, length (X j) = n) by (intros j; apply HC).
      pose proof (prec_res_len _ I1) as Lp.
      destruct (_ && _); injection E as <-; unfold aar_inv; cbn [ax axold ar ait afold aX aF].
      - repeat split; try assumption; try apply HX; try apply HC; try reflexivity.
        unfold Anderson. apply vzip_len; [apply wavg_len; assumption|]. rewrite vscale_len. apply wavg_len; assumption.
      - repeat split; try assumption; try apply HX; try apply HC; try reflexivity.
        apply vzip_len; [assumption | rewrite vscale_len; assumption].
    Qed.
    Lemma aar_iter_inv s k s' : aar_inv s -> aar_iter k s = Ok s' -> aar_inv s'.
    Proof.
      intros I. revert s'. induction k as [|k IH]; intros s' E; cbn [aar_iter] in E; [injection E as <-; exact I|].
      destruct (aar_iter k s) as [s1| |]; cbn [obind] in E; try discriminate. apply (aar_body_inv s1); [apply IH; reflexivity | exact E].
    Qed.

    (** least squares, as an identity *)
    Lemma wavg_diff G G' F v : (forall j, length (F j) = n) -> length v = n -> forall k,
      wavg k G' F v = vplus (wavg k G F v) (wavg k (fun j => G' j - G j) F (zeros n)).
    Proof.
      intros HF Hv. induction k as [|k IH]; cbn [wavg].
      - symmetry. apply vplus_zeros_r, Hv.
      - rewrite IH. pose proof (wavg_len G F v HF Hv k) as L1.
        pose proof (wavg_len (fun j => G' j - G j) F (zeros n) HF (zeros_len n) k) as L2. pose proof (HF k) as L3.
        set (u := wavg k G F v) in *. set (w := wavg k _ F (zeros n)) in *. set (y := F k) in *. clearbody u w y.
        apply (wavg_step_eq _ _ _ _ _ n); assumption.
    Qed.
    Lemma wavg_orth H F e : (forall j, length (F j) = n) -> (forall j, j < m -> vdot (F j) e = 0) ->
      forall k, k <= m -> vdot (wavg k H F (zeros n)) e = 0.
    Proof.
      intros HF HO. induction k as [|k IH]; intros Hk; cbn [wavg]; [apply vdot_zeros|].
      pose proof (wavg_len H F (zeros n) HF (zeros_len n) k) as Lk.
      rewrite vdot_plus_l by (rewrite vscale_len, HF; exact Lk).
      rewrite vdot_scale_l, HO, IH by lia. ring.
    Qed.
    Lemma wavg_pythagoras G G' F v : (forall j, length (F j) = n) -> length v = n ->
      (forall j, j < m -> vdot (F j) (wavg m G F v) = 0) ->
      vdot (wavg m G' F v) (wavg m G' F v) =
      vdot (wavg m G F v) (wavg m G F v) + vdot (wavg m (fun j => G' j - G j) F (zeros n)) (wavg m (fun j => G' j - G j) F (zeros n)).
    Proof.
      intros HF Hv HO. rewrite (wavg_diff G G' F v HF Hv m).
      pose proof (wavg_orth (fun j => G' j - G j) F _ HF HO m (le_n m)) as O.
      pose proof (wavg_len G F v HF Hv m) as L1.
      pose proof (wavg_len (fun j => G' j - G j) F (zeros n) HF (zeros_len n) m) as L2.
      set (u := wavg m G F v) in *. set (w := wavg m _ F (zeros n)) in *. clearbody u w.
      rewrite vdot_plus_l by congruence. rewrite (vdot_sym u (vplus u w)), (vdot_sym w (vplus u w)), !vdot_plus_l by congruence.
      rewrite (vdot_sym u w), O. ring.
    Qed.
  End AAR.

  (** ** CG *)
  Section CG.
    Variable keqb : K -> K -> bool.
    Hypothesis keqb_ok : forall x y, keqb x y = true <-> x = y.
    Variable norm : vec -> K.
    Variable kgt : K -> K -> bool.
    Variables (A : vec -> vec) (b : vec) (sqrt_n : nat).

    Record cg := mkC { cx : vec; cr : vec; cd : vec; cdelta : K; cit : nat }.
    (** src/linearSolver.c:194-200.  The operator A is called so that the
        equation solved is -A x = b (r = b + A x). *)
    Definition cg_init (x0 : vec) : cg :=
      let r := vplus b (A x0) in mkC x0 r r (norm r) O.
    (** src/linearSolver.c:204-231; a division by zero (nan/inf in C, spreading
        to x) is [UB]. *)
    Definition cg_step (s : cg) : outcome cg :=
      let q := A (cd s) in
      let dq := vdot (cd s) q in
      if keqb dq 0 then UB
      else
        let alpha := - (cdelta s * cdelta s) / dq in
        let x := vplus (cx s) (vscale alpha (cd s)) in
        if (sqrt_n =? 0) then UB
        else
          let r := if (cit s mod sqrt_n =? 0) then vplus b (A x) else vplus (cr s) (vscale alpha q) in
          let delta := norm r in
          if keqb (cdelta s * cdelta s) 0 then UB
          else
            let beta := (delta * delta) / (cdelta s * cdelta s) in
            Ok (mkC x r (vplus r (vscale beta (cd s))) delta (cit s + 1)).
    (** src/linearSolver.c:202-233: [err] is [big] = tol + 1 before the first
        pass, then the last norm *)
    Fixpoint cg_loop (tol : K) (fuel : nat) (err : K) (s : cg) : outcome (cg * K) :=
      match fuel with
      | O => Ok (s, err)
      | S fuel' => if kgt err tol then do s' <- cg_step s ; cg_loop tol fuel' (cdelta s') s' else Ok (s, err)
      end.
    Definition CG (x0 : vec) (tol big : K) (max_iter : nat) : outcome (cg * K) := cg_loop tol max_iter big (cg_init x0).
    Fixpoint cg_iter (k : nat) (s : cg) : outcome cg :=
      match k with O => Ok s | S k' => do s' <- cg_iter k' s ; cg_step s' end.

    Variable n : nat.
    Hypothesis HA : linear n A.
    Hypothesis Hb : length b = n.

    Definition cg_inv (s : cg) : Prop :=
      length (cx s) = n /\ length (cd s) = n /\ cr s = vplus b (A (cx s)) /\ cdelta s = norm (cr s).
    Lemma cg_init_inv x0 : length x0 = n -> cg_inv (cg_init x0).
    Proof. intros H. unfold cg_init, cg_inv. cbn [cx cd cr cdelta]. repeat split; try assumption. apply vzip_len; [exact Hb | apply HA, H]. Qed.
    (** the two ways of computing the new residual agree *)
    Lemma cg_r_same s alpha : cg_inv s ->
      vplus b (A (vplus (cx s) (vscale alpha (cd s)))) = vplus (cr s) (vscale alpha (A (cd s))).
    Proof.
      intros (I1 & I2 & I3 & _). destruct HA as [A1 A2]. rewrite A2 by assumption. rewrite I3. symmetry. apply vplus_assoc.
    Qed.
    Lemma cg_step_spec s s' : cg_inv s -> cg_step s = Ok s' ->
      exists alpha beta,
        vdot (cd s) (A (cd s)) <> 0 /\ cdelta s * cdelta s <> 0 /\
        alpha = - (cdelta s * cdelta s) / vdot (cd s) (A (cd s)) /\ beta = (cdelta s' * cdelta s') / (cdelta s * cdelta s) /\
        cx s' = vplus (cx s) (vscale alpha (cd s)) /\ cr s' = vplus (cr s) (vscale alpha (A (cd s))) /\
        cd s' = vplus (cr s') (vscale beta (cd s)) /\ cit s' = (cit s + 1)%nat /\ cg_inv s'.
    Proof.
      intros I. unfold cg_step.
      destruct (keqb (vdot (cd s) (A (cd s))) 0) eqn:E1; [discriminate|].
      destruct (sqrt_n =? 0); [discriminate|].
      destruct (keqb (cdelta s * cdelta s) 0) eqn:E2; [discriminate|].
      set (alpha := _ / _). rewrite (cg_r_same s alpha I).
      replace (if (cit s mod sqrt_n =? 0) then vplus (cr s) (vscale alpha (A (cd s))) else vplus (cr s) (vscale alpha (A (cd s))))
        with (vplus (cr s) (vscale alpha (A (cd s)))) by (destruct (_ =? 0); reflexivity).
      intros E. injection E as <-. cbn [cx cr cd cdelta cit].
      exists alpha, (norm (vplus (cr s) (vscale alpha (A (cd s)))) * norm (vplus (cr s) (vscale alpha (A (cd s)))) / (cdelta s * cdelta s)).
      split; [intros Z; apply keqb_ok in Z; congruence|]. split; [intros Z; apply keqb_ok in Z; congruence|].
      do 6 (split; [reflexivity|]).
      destruct I as (I1 & I2 & I3 & I4). destruct HA as [A1 A2].
      pose proof (A1 _ I2) as L. assert (Lr : length (cr s) = n) by (rewrite I3; apply vzip_len; [exact Hb | apply A1, I1]).
      unfold cg_inv. cbn [cx cr cd cdelta cit]. split; [apply vzip_len; [assumption | rewrite vscale_len; assumption]|].
      split; [apply vzip_len; [apply vzip_len; [assumption | rewrite vscale_len; assumption] | rewrite vscale_len; assumption]|].
      split; [|reflexivity]. symmetry. apply cg_r_same. unfold cg_inv. auto.
    Qed.
    Lemma cg_iter_inv x0 : length x0 = n -> forall k s, cg_iter k (cg_init x0) = Ok s -> cg_inv s /\ cit s = k.
    Proof.
      intros H. induction k as [|k IH]; intros s E; cbn [cg_iter] in E.
      - injection E as <-. split; [apply cg_init_inv, H | reflexivity].
      - destruct (cg_iter k (cg_init x0)) as [s1| |]; cbn [obind] in E; try discriminate.
        destruct (IH s1 eq_refl) as [I1 I2]. destruct (cg_step_spec _ _ I1 E) as (al & be & _ & _ & _ & _ & _ & _ & _ & Hi & I).
        split; [exact I | rewrite Hi, I2; lia].
    Qed.
    Lemma cg_loop_stop tol : forall fuel err s s' e, cg_inv s -> (kgt err tol = true \/ err = norm (cr s)) ->
      cg_loop tol fuel err s = Ok (s', e) -> cit s' < cit s + fuel \/ kgt e tol = false ->
      cg_inv s' /\ kgt e tol = false /\ e = norm (vplus b (A (cx s'))).
    Proof.
      induction fuel as [|fuel IH]; intros err s s' e I He E L; cbn [cg_loop] in E.
      - injection E as <- <-. destruct L as [L|L]; [lia|]. destruct He as [He|He]; [congruence|].
        split; [exact I|]. split; [exact L|]. destruct I as (_ & _ & I & _). rewrite <- I. exact He.
      - destruct (kgt err tol) eqn:G.
        + destruct (cg_step s) as [s1| |] eqn:B; cbn [obind] in E; try discriminate.
          destruct (cg_step_spec _ _ I B) as (al & be & _ & _ & _ & _ & _ & _ & _ & Hi & I1).
          apply (IH (cdelta s1) s1 s' e I1); [right; apply I1 | exact E | rewrite Hi; destruct L; [left; lia | right; assumption]].
        + injection E as <- <-. destruct He as [He|He]; [congruence|].
          split; [exact I|]. split; [exact G|]. destruct I as (_ & _ & I & _). rewrite <- I. exact He.
    Qed.

    (** *** orthogonality *)
    Hypothesis HS : forall u v, length u = n -> length v = n -> vdot u (A v) = vdot (A u) v.
    Variable x0 : vec.
    Hypothesis Hx0 : length x0 = n.
    Hypothesis Hnorm : forall k s, cg_iter k (cg_init x0) = Ok s -> norm (cr s) * norm (cr s) = vdot (cr s) (cr s).
    Notation at_ k s := (cg_iter k (cg_init x0) = Ok s).

    Lemma at_prev k s' : at_ (S k) s' -> exists s, at_ k s /\ cg_step s = Ok s'.
    Proof. cbn [cg_iter]. destruct (cg_iter k (cg_init x0)) as [s| |]; cbn [obind]; try discriminate. intros E. exists s. split; [reflexivity | exact E]. Qed.
    Lemma at_fun k s s' : at_ k s -> at_ k s' -> s = s'.
    Proof. intros E1 E2. rewrite E1 in E2. injection E2 as ->. reflexivity. Qed.
    Lemma at_le k : forall s', at_ k s' -> forall j, j <= k -> exists s, at_ j s.
    Proof.
      induction k as [|k IH]; intros s' E j Hj; [exists s'; replace j with O by lia; exact E|].
      destruct (Nat.eq_dec j (S k)) as [->|]; [exists s'; exact E|]. destruct (at_prev _ _ E) as (s & E' & _). apply (IH s E'). lia.
    Qed.
    Lemma inv_r_len s : cg_inv s -> length (cr s) = n.
    Proof. intros (I1 & _ & I3 & _). rewrite I3. apply vzip_len; [exact Hb | apply HA, I1]. Qed.

    Lemma r_from_d j s s' : at_ j s -> cg_step s = Ok s' -> exists beta, cd s' = vplus (cr s') (vscale beta (cd s)).
    Proof. intros E B. destruct (cg_iter_inv x0 Hx0 _ _ E) as [I _]. destruct (cg_step_spec _ _ I B) as (al & be & H). exists be. apply H. Qed.

    Lemma cg_orth k : forall s, at_ k s ->
      (forall j t, at_ j t -> j < k -> vdot (cr s) (cd t) = 0) /\
      (forall j t, at_ j t -> j < k -> vdot (cr s) (cr t) = 0) /\
      (forall j t, at_ j t -> j < k -> vdot (cd s) (A (cd t)) = 0) /\
      vdot (cr s) (cd s) = vdot (cr s) (cr s).
    Proof.
      induction k as [|k IH]; intros s' E'.
      - split; [intros; lia|]. split; [intros; lia|]. split; [intros; lia|]. cbn [cg_iter] in E'. injection E' as <-. reflexivity.
      - destruct (at_prev _ _ E') as (s & E & B). destruct (IH s E) as (O1 & O2 & O3 & O4).
        destruct (cg_iter_inv x0 Hx0 _ _ E) as [I Ik].
        destruct (cg_step_spec _ _ I B) as (al & be & N1 & N2 & Eal & Ebe & Ex & Er & Ed & _ & I').
        assert (Lr := inv_r_len _ I). assert (Lr' := inv_r_len _ I'). assert (Ld : length (cd s) = n) by apply I.
        assert (Lq : length (A (cd s)) = n) by (apply HA, Ld).
        assert (D2 : cdelta s * cdelta s = vdot (cr s) (cr s)) by (destruct I as (_ & _ & _ & ->); apply (Hnorm k), E).
        assert (D2' : cdelta s' * cdelta s' = vdot (cr s') (cr s')) by (destruct I' as (_ & _ & _ & ->); apply (Hnorm (S k)), E').
        (* new residual against directions *)
        assert (P1 : forall j t, at_ j t -> j < S k -> vdot (cr s') (cd t) = 0).
        { intros j t Et Hj. rewrite Er, vdot_plus_l by (rewrite vscale_len; congruence). rewrite vdot_scale_l.
          assert (Lt : length (cd t) = n) by (apply (cg_iter_inv x0 Hx0 _ _ Et)).
          destruct (Nat.eq_dec j k) as [->|Hne].
          - rewrite (at_fun _ _ _ Et E). rewrite O4, Eal, (vdot_sym (A (cd s)) (cd s)), D2. field. exact N1.
          - rewrite (O1 j t Et ltac:(lia)). rewrite <- HS by assumption. rewrite (O3 j t Et ltac:(lia)). ring. }
        (* new residual against residuals *)
        assert (P2 : forall j t, at_ j t -> j < S k -> vdot (cr s') (cr t) = 0).
        { intros j t Et Hj. destruct j as [|j].
          - assert (T : cr t = cd t) by (cbn [cg_iter] in Et; injection Et as <-; reflexivity). rewrite T. apply (P1 O t Et). lia.
          - destruct (at_prev _ _ Et) as (t0 & Et0 & Bt). destruct (r_from_d _ _ _ Et0 Bt) as (bt & Hd).
            assert (H1 := P1 _ _ Et Hj). assert (H0 := P1 _ _ Et0 ltac:(lia)).
            rewrite Hd in H1. rewrite vdot_sym, vdot_plus_l, vdot_scale_l in H1.
            2:{ rewrite vscale_len. transitivity n; [apply inv_r_len, (cg_iter_inv x0 Hx0 _ _ Et) | symmetry; apply (cg_iter_inv x0 Hx0 _ _ Et0)]. }
            rewrite (vdot_sym (cd t0) (cr s')), H0 in H1. rewrite vdot_sym. rewrite <- H1. ring. }
        split; [exact P1|]. split; [exact P2|].
        (* A d_j as a difference of residuals *)
        assert (Q : forall j t t' a, at_ j t -> cg_step t = Ok t' -> cr t' = vplus (cr t) (vscale a (A (cd t))) ->
                    a * vdot (cr s') (A (cd t)) = vdot (cr s') (cr t') - vdot (cr s') (cr t)).
        { intros j t t' a Et Bt Ht. destruct (cg_iter_inv x0 Hx0 _ _ Et) as [It _].
          rewrite Ht. rewrite (vdot_sym (cr s') (vplus _ _)), vdot_plus_l, vdot_scale_l.
          2:{ rewrite vscale_len. transitivity n; [apply inv_r_len, It | symmetry; apply HA, It]. }
          rewrite (vdot_sym (A (cd t))), (vdot_sym (cr t)). ring. }
        assert (Nal : al <> 0).
        { intros Z. apply N2. transitivity (- (al * vdot (cd s) (A (cd s)))); [rewrite Eal; field; exact N1 | rewrite Z; ring]. }
        split.
        + intros j t Et Hj.
          rewrite Ed, vdot_plus_l, vdot_scale_l by (rewrite vscale_len; congruence).
          destruct (Nat.eq_dec j k) as [->|Hne].
          * rewrite (at_fun _ _ _ Et E). assert (Qk := Q k s s' al E B Er). rewrite (P2 k s E ltac:(lia)), <- D2' in Qk.
            assert (Y : vdot (cr s') (A (cd s)) = (cdelta s' * cdelta s') / al).
            { transitivity (al * vdot (cr s') (A (cd s)) / al); [field; exact Nal | rewrite Qk; field; exact Nal]. }
            rewrite Y, Ebe, Eal. field. repeat split; try exact N1; intros Z; apply N2;
            first [rewrite Z; ring | transitivity (- (- (cdelta s * cdelta s))); [ring | rewrite Z; ring]].
          * rewrite (O3 j t Et ltac:(lia)).
            destruct (at_le _ _ E' (S j) ltac:(lia)) as (t' & Et'). destruct (at_prev _ _ Et') as (t2 & Et2 & Bt).
            rewrite <- (at_fun _ _ _ Et Et2) in Bt. clear t2 Et2.
            destruct (cg_iter_inv x0 Hx0 _ _ Et) as [It _].
            destruct (cg_step_spec _ _ It Bt) as (a & c & M1 & M2 & Ea & _ & _ & Ert & _ & _ & _).
            assert (Qj := Q j t t' a Et Bt Ert).
            rewrite (P2 (S j) t' Et' ltac:(lia)), (P2 j t Et ltac:(lia)) in Qj.
            assert (Na : a <> 0).
            { intros Z. apply M2. transitivity (- (a * vdot (cd t) (A (cd t)))); [rewrite Ea; field; exact M1 | rewrite Z; ring]. }
            assert (Y : vdot (cr s') (A (cd t)) = 0).
            { transitivity (a * vdot (cr s') (A (cd t)) / a); [field; exact Na | rewrite Qj; field; exact Na]. }
            rewrite Y. ring.
        + rewrite (vdot_sym (cr s')), Ed, vdot_plus_l, vdot_scale_l by (rewrite vscale_len; congruence).
          rewrite (vdot_sym (cd s)), (P1 k s E ltac:(lia)). ring.
    Qed.
  End CG.
End Solvers.
