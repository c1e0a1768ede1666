(** C57: the L-BFGS relaxation (src/relax.c LBFGS) takes the textbook steps:
    the search direction is the force multiplied by the inverse-Hessian matrix
    of the last stored moves, and with AUTOSCALE every move goes downhill and is
    no longer than the allowed one. *)
From Coq Require Import ZArith List Lia Bool Reals Lra.
From Verif Require Import CBase Halo Lbfgs LbfgsLem.
Import ListNotations.
Local Open Scope Z_scope.

(** ** Specification: the BFGS inverse Hessian as a matrix *)
Definition mat := nat -> nat -> R.
Definition eye : mat := fun i j => if Nat.eqb i j then 1%R else 0%R.
Definition outer (u v : vecR) : mat := fun i j => (u i * v j)%R.
Definition mlin (a : R) (A : mat) (b : R) (B : mat) : mat := fun i j => (a * A i j + b * B i j)%R.
Definition mmul (n : nat) (A B : mat) : mat := fun i j => rsum n (fun k => A i k * B k j)%R.
Definition mvec (n : nat) (A : mat) (v : vecR) : vecR := fun i => rsum n (fun j => A i j * v j)%R.
(** H' = (I - r s y^T) H (I - r y s^T) + r s s^T with r = 1 / (s.y) *)
Definition bfgs (n : nat) (H : mat) (s y : vecR) : mat :=
  let r := (1 / rdot n s y)%R in
  mlin 1 (mmul n (mmul n (mlin 1 eye (- r) (outer s y)) H) (mlin 1 eye (- r) (outer y s))) r (outer s s).
(** the history, newest pair first; g times the identity to start from *)
Fixpoint Hmat (n : nat) (g : R) (hist : list (vecR * vecR)) : mat :=
  match hist with [] => mlin g eye 0 eye | (s, y) :: older => bfgs n (Hmat n g older) s y end.

Record sst := SST { prev : option (vecR * vecR); shist : list (vecR * vecR); sreset : bool }.
Definition vscale (c : R) (v : vecR) : vecR := fun i => (c * v i)%R.
Definition vsub (u v : vecR) : vecR := fun i => (u i - v i)%R.
Definition vnorm (n : nat) (v : vecR) : R := sqrt (rdot n v v).
(** one move under the force F: a trial step along the force first; then, with
    s the last move and y the loss of force over it, steepest descent if the
    curvature s.y is negative or the quasi-Newton step is too long *)
Definition sstep (n m : nat) (finit maxmov : R) (F : vecR) (a : sst) : outcome (vecR * sst) :=
  match prev a with
  | None => let u := vscale (finit / vnorm n F) F in Ok (u, SST (Some (F, u)) [] true)
  | Some (f0, s) =>
    let y := vsub f0 F in
    let c := rdot n s y in
    if req0 c then Exit
    else
      let hist := if sreset a || rlt c 0 then [] else firstn m ((s, y) :: shist a) in
      let d := mvec n (Hmat n (rdot n s s / (2 * c)) hist) F in
      let long := rlt maxmov (vnorm n d) in
      let u := if rlt c 0 || long then vscale (maxmov / vnorm n F) F else d in
      Ok (u, SST (Some (F, u)) hist long)
  end.

(** ** Matrix algebra *)
Section Mat.
  Variable n : nat.
  Lemma mvec_ext A u v i : (forall j, (j < n)%nat -> u j = v j) -> mvec n A u i = mvec n A v i.
  Proof. intros H. apply rsum_ext. intros j Hj. rewrite H by exact Hj. reflexivity. Qed.
  Lemma mvec_mmul A B v i : mvec n (mmul n A B) v i = mvec n A (mvec n B v) i.
  Proof.
    unfold mvec, mmul. rewrite (rsum_ext n _ (fun j => rsum n (fun k => A i k * (B k j * v j))%R)).
    - rewrite rsum_swap. apply rsum_ext. intros k Hk. rewrite rsum_scale. reflexivity.
    - intros j Hj. rewrite Rmult_comm, <- rsum_scale. apply rsum_ext. intros; ring.
  Qed.
  Lemma mvec_eye v i : (i < n)%nat -> mvec n eye v i = v i.
  Proof. intros H. unfold mvec, eye. apply (rsum_delta n i v H). Qed.
  Lemma mvec_mlin a A b B v i : mvec n (mlin a A b B) v i = (a * mvec n A v i + b * mvec n B v i)%R.
  Proof. unfold mvec, mlin. rewrite <- !rsum_scale, <- rsum_add. apply rsum_ext. intros; ring. Qed.
  Lemma mvec_outer s y v i : mvec n (outer s y) v i = (rdot n y v * s i)%R.
  Proof. unfold mvec, outer, rdot. rewrite Rmult_comm, <- rsum_scale. apply rsum_ext. intros; ring. Qed.
  (** the update as the two-loop recursion applies it *)
  Lemma mvec_bfgs H s y v i : (i < n)%nat ->
    let r := (1 / rdot n s y)%R in
    let a := (rdot n s v * r)%R in
    let w := mvec n H (fun j => v j - a * y j)%R in
    mvec n (bfgs n H s y) v i = (w i + s i * (a - rdot n y w * r))%R.
  Proof.
    intros Hi r a w. unfold bfgs. fold r. rewrite mvec_mlin, mvec_outer, mvec_mmul, mvec_mmul, mvec_mlin, mvec_outer, mvec_eye by exact Hi.
    assert (E : forall j, (j < n)%nat -> mvec n (mlin 1 eye (- r) (outer y s)) v j = (v j - a * y j)%R).
    { intros j Hj. rewrite mvec_mlin, mvec_outer, mvec_eye by exact Hj. unfold a. ring. }
    assert (E2 : forall j, mvec n H (mvec n (mlin 1 eye (- r) (outer y s)) v) j = w j).
    { intros j. apply mvec_ext. exact E. }
    rewrite E2. rewrite (rdot_ext n y y _ w); [|reflexivity|intros j Hj; apply E2]. unfold a. ring.
  Qed.
  Lemma mvec_lin A c u v i : mvec n A (fun j => u j + c * v j)%R i = (mvec n A u i + c * mvec n A v i)%R.
  Proof. unfold mvec. rewrite <- rsum_scale, <- rsum_add. apply rsum_ext. intros; ring. Qed.
  Lemma Hmat_nil g v i : (i < n)%nat -> mvec n (Hmat n g []) v i = (g * v i)%R.
  Proof. intros Hi. cbn [Hmat]. rewrite mvec_mlin, mvec_eye by exact Hi. ring. Qed.
  (** secant equation *)
  Lemma secant g s y older i : (i < n)%nat -> rdot n s y <> 0%R -> mvec n (Hmat n g ((s, y) :: older)) y i = s i.
  Proof.
    intros Hi Hsy. cbn [Hmat]. rewrite mvec_bfgs by exact Hi. cbv zeta.
    assert (E : forall k, mvec n (Hmat n g older) (fun j => y j - rdot n s y * (1 / rdot n s y) * y j)%R k = 0%R).
    { intros k. unfold mvec. apply rsum_zero. intros j Hj. replace (y j - rdot n s y * (1 / rdot n s y) * y j)%R with 0%R by (field; exact Hsy). ring. }
    rewrite E. replace (rdot n y (mvec n (Hmat n g older) (fun j => y j - rdot n s y * (1 / rdot n s y) * y j)%R)) with 0%R.
    - field. exact Hsy.
    - symmetry. unfold rdot at 1. apply rsum_zero. intros k Hk. rewrite E. ring.
  Qed.
  (** positive definiteness *)
  Definition positive (hist : list (vecR * vecR)) : Prop := Forall (fun p => (0 < rdot n (fst p) (snd p))%R) hist.
  Lemma Hmat_pos g hist : (0 < g)%R -> positive hist -> forall v, (exists i, (i < n)%nat /\ v i <> 0%R) -> (0 < rdot n v (mvec n (Hmat n g hist) v))%R.
  Proof.
    intros Hg HP. induction HP as [|[s y] older Hsy HP IH]; intros v [i [Hi Hv]].
    - rewrite (rdot_ext n v v _ (fun j => g * v j)%R); [|reflexivity|intros j Hj; apply Hmat_nil; exact Hj]. rewrite rdot_scale. apply Rmult_lt_0_compat; [exact Hg|]. exact (rdot_pos n v i Hi Hv).
    - cbn [fst snd] in Hsy. cbn [Hmat].
      set (r := (1 / rdot n s y)%R). set (a := (rdot n s v * r)%R). set (v1 := fun j => (v j - a * y j)%R). set (w := mvec n (Hmat n g older) v1).
      assert (Hr : (0 < r)%R) by (apply Rdiv_lt_0_compat; lra).
      rewrite (rdot_ext n v v _ (fun j => w j + (a - rdot n y w * r) * s j)%R); [|reflexivity|intros j Hj; rewrite mvec_bfgs by exact Hj; fold r; fold a; fold v1; fold w; ring].
      rewrite rdot_add, rdot_scale.
      assert (Ev : rdot n v w = (rdot n v1 w + a * rdot n y w)%R).
      { rewrite (rdot_comm n v w), (rdot_comm n v1 w), (rdot_comm n y w). rewrite <- rdot_scale, <- rdot_add. apply rdot_ext; [reflexivity|]. intros j Hj. unfold v1. ring. }
      assert (Es : rdot n v s = rdot n s v) by apply rdot_comm.
      replace (rdot n v w + (a - rdot n y w * r) * rdot n v s)%R with (rdot n v1 w + r * (rdot n s v * rdot n s v))%R by (rewrite Ev, Es; unfold a; ring).
      pose proof (Rle_0_sqr (rdot n s v)) as SQ. unfold Rsqr in SQ.
      destruct (Req_dec (rdot n s v) 0) as [Z0|Z0].
      + assert (0 < rdot n v1 w)%R by (apply IH; exists i; split; [exact Hi|]; unfold v1, a; rewrite Z0; lra). rewrite Z0. lra.
      + assert (0 < r * (rdot n s v * rdot n s v))%R by (apply Rmult_lt_0_compat; [exact Hr|]; pose proof (Rsqr_pos_lt _ Z0); unfold Rsqr in *; lra).
        assert (0 <= rdot n v1 w)%R; [|lra].
        destruct (Req_dec (rdot n v1 v1) 0) as [Z1|Z1].
        * assert (rdot n v1 w = 0)%R; [|lra]. unfold rdot. apply rsum_zero. intros j Hj. rewrite (rdot_zero n v1 Z1 j Hj). ring.
        * apply Rlt_le. apply IH. apply rdot_some. pose proof (rdot_nonneg n v1). lra.
  Qed.
End Mat.

(** ** The code computes it *)
Section Code.
  Variables (n m : nat).
  Let N := Z.of_nat n.
  Let M := Z.of_nat m.
  Definition z2 : vecR * vecR := (fun _ => 0%R, fun _ => 0%R).
  (** the arrays hold the history (newest first in the list, last in memory) *)
  Definition alloc (s : lb) : Prop :=
    (forall a, 0 <= a < M * N -> dX s a <> None) /\ (forall a, 0 <= a < M * N -> dG s a <> None) /\ (forall a, 0 <= a < M -> iys s a <> None).
  Definition row (j : nat) : Z := Z.of_nat j * N.
  Definition rows (hist : list (vecR * vecR)) (X G Y : mem) : Prop :=
    forall k, (k < length hist)%nat -> let j := (length hist - 1 - k)%nat in
      holdsv n (row j) X (fst (nth k hist z2)) /\ holdsv n (row j) G (snd (nth k hist z2)) /\
      Y (Z.of_nat j) = Some (1 / rdot n (fst (nth k hist z2)) (snd (nth k hist z2)))%R.
  Definition Rep (hist : list (vecR * vecR)) (s : lb) : Prop :=
    length hist = Nat.min (step s) m /\ rows hist (dX s) (dG s) (iys s).

  Lemma row_in j : (j < m)%nat -> 0 <= row j /\ row j + Z.of_nat n <= M * N.
  Proof. intros H. unfold row, M, N. nia. Qed.

  Section Two.
    Variables (s : lb) (hist : list (vecR * vecR)) (F : vecR) (icurv : R).
    Hypothesis HR : Rep hist s.
    Hypothesis HF : holdsv n 0 (forces s) F.
    Let b := length hist.
    Let sv j := fst (nth (b - 1 - j) hist z2).
    Let yv j := snd (nth (b - 1 - j) hist z2).
    Let rho j := (1 / rdot n (sv j) (yv j))%R.
    (** the vector after k steps of the first loop *)
    Fixpoint Qv (k : nat) : vecR :=
      match k with
      | O => fun i => (- F i)%R
      | S k' => let j := (b - 1 - k')%nat in fun i => (Qv k' i - rdot n (sv j) (Qv k') * rho j * yv j i)%R
      end.
    Definition al (j : nat) : R := (rdot n (sv j) (Qv (b - 1 - j)) * rho j)%R.
    Fixpoint Rv (i : nat) : vecR :=
      match i with
      | O => fun k => (icurv * Qv b k)%R
      | S i' => fun k => (Rv i' k + sv i' k * (al i' - rdot n (yv i') (Rv i') * rho i'))%R
      end.
    Lemma bm : (b <= m)%nat.
    Proof. unfold b. destruct HR as [H _]. lia. Qed.
    Lemma mem_row j : (j < b)%nat -> holdsv n (row j) (dX s) (sv j) /\ holdsv n (row j) (dG s) (yv j) /\ iys s (Z.of_nat j) = Some (rho j).
    Proof.
      intros Hj. destruct HR as [_ H]. specialize (H (b - 1 - j)%nat ltac:(unfold b; fold b; lia)). cbv zeta in H. fold b in H.
      replace (b - 1 - (b - 1 - j))%nat with j in H by lia. exact H.
    Qed.
    Lemma Rv_ok : forall i, (i <= b)%nat -> forall k, (k < n)%nat -> Rv i k = mvec n (Hmat n icurv (skipn (b - i) hist)) (Qv (b - i)) k.
    Proof.
      induction i as [|i IH]; intros Hi k Hk.
      - rewrite Nat.sub_0_r. replace (skipn b hist) with (@nil (vecR * vecR)) by (symmetry; apply skipn_all). rewrite Hmat_nil by exact Hk. reflexivity.
      - cbn [Rv]. assert (Hs : skipn (b - S i) hist = nth (b - 1 - i) hist z2 :: skipn (b - i) hist).
        { replace (b - S i)%nat with (b - 1 - i)%nat by lia. replace (b - i)%nat with (S (b - 1 - i))%nat by lia.
          assert (L : (b - 1 - i < length hist)%nat) by (fold b; lia). revert L. generalize (b - 1 - i)%nat. clear. induction hist as [|p h IH]; intros q L; [cbn in L; lia|].
          destruct q; [reflexivity|]. cbn [skipn nth]. apply IH. cbn in L; lia. }
        rewrite Hs. destruct (nth (b - 1 - i) hist z2) as [s0 y0] eqn:En. cbn [Hmat]. rewrite mvec_bfgs by exact Hk. cbv zeta.
        assert (E1 : sv i = s0) by (unfold sv; rewrite En; reflexivity). assert (E2 : yv i = y0) by (unfold yv; rewrite En; reflexivity).
        assert (EQ : forall j, Qv (b - i) j = (Qv (b - S i) j - rdot n s0 (Qv (b - S i)) * (1 / rdot n s0 y0) * y0 j)%R).
        { intros j. replace (b - i)%nat with (S (b - S i))%nat by lia. cbn [Qv]. replace (b - 1 - (b - S i))%nat with i by lia. unfold rho. rewrite E1, E2. reflexivity. }
        assert (ER : forall j, (j < n)%nat -> Rv i j = mvec n (Hmat n icurv (skipn (b - i) hist)) (fun j => Qv (b - S i) j - rdot n s0 (Qv (b - S i)) * (1 / rdot n s0 y0) * y0 j)%R j).
        { intros j Hj. rewrite IH by (try exact Hj; lia). apply mvec_ext. intros; apply EQ. }
        rewrite <- ER by exact Hk. unfold al, rho. rewrite E1, E2. replace (b - 1 - i)%nat with (b - S i)%nat by lia.
        rewrite (rdot_ext n y0 y0 _ _ (fun j _ => eq_refl (y0 j)) ER). reflexivity.
    Qed.

    Notation N' := (Z.of_nat n).
    Lemma twoloop_ok : exists d a, twoloop n m icurv s = Ok (d, a) /\ holdsv n 0 d (mvec n (Hmat n icurv hist) F).
    Proof.
      unfold twoloop. cbv zeta.
      assert (Eb : (if (step s <? m)%nat then step s else m) = b).
      { unfold b. destruct HR as [H _]. destruct (Nat.ltb_spec (step s) m); lia. }
      rewrite Eb. pose proof bm as Hbm.
      (* d = -forces *)
      destruct (fill n N' 0 (fun i d => do f <- rdm N' (forces s) i ; wrm N' d i (- f)%R) (dir s) (Qv 0)) as [d0 [E0 [D0 _]]]; [lia|lia| |].
      { intros k d' Hk _ _. rewrite (rdm_ok _ _ _ (F k)) by (try (rewrite <- (HF k) by lia; f_equal); lia). reflexivity. }
      rewrite E0. cbn [obind]. clear E0.
      (* first loop *)
      destruct (@forn_inv (mem * mem) (fun k da => holdsv n 0 (fst da) (Qv k) /\ forall j, (b - k <= j < b)%nat -> snd da (Z.of_nat j) = Some (al j)) b
        (fun i da =>
          do a <- dotproduct n (Z.of_nat m * N') (dX s) ((Z.of_nat b - i - 1) * N') N' (fst da) 0 ;
          do r <- rdm (Z.of_nat m) (iys s) (Z.of_nat b - i - 1) ;
          do al <- wrm (Z.of_nat m) (snd da) (Z.of_nat b - i - 1) (a * r)%R ;
          do d <- forn n (fun k d =>
            do g <- rdm (Z.of_nat m * N') (dG s) ((Z.of_nat b - i - 1) * N' + k) ; do x <- rdm N' d k ; wrm N' d k (x - a * r * g)%R) (fst da) ;
          Ok (d, al)) (d0, alpha s)) as [[d1 a1] [E1 [D1 A1]]]; [| |cbn [fst snd] in D1, A1].
      { cbn [fst snd]. split; [exact D0|]. intros j Hj. lia. }
      { intros k [d a] Hk [D A]. cbn [fst snd] in *.
        assert (Ej : Z.of_nat b - Z.of_nat k - 1 = Z.of_nat (b - 1 - k)) by lia. rewrite Ej. set (j := (b - 1 - k)%nat).
        assert (Hj : (j < b)%nat) by (unfold j; lia).
        destruct (mem_row j Hj) as [RX [RG RY]]. destruct (row_in j ltac:(lia)) as [W1 W2].
        change (Z.of_nat j * N') with (row j).
        rewrite (dot_ok n _ _ _ _ _ _ (sv j) (Qv k)); try assumption; try lia. cbn [obind].
        rewrite (rdm_ok _ _ _ (rho j)) by (try exact RY; lia). cbn [obind]. rewrite wrm_ok by lia. cbn [obind].
        destruct (fill n N' 0 (fun k0 d => do g <- rdm (Z.of_nat m * N') (dG s) (row j + k0) ; do x <- rdm N' d k0 ; wrm N' d k0 (x - rdot n (sv j) (Qv k) * rho j * g)%R) d (Qv (S k))) as [d' [E' [D' _]]]; [lia|lia| |].
        { intros q d' Hq _ Hrest. rewrite (rdm_ok _ _ _ (yv j q)) by (try apply RG; unfold M, N in *; lia). cbn [obind].
          rewrite (rd1 n _ _ (Qv k) q D ltac:(lia) (Hrest (Z.of_nat q) ltac:(lia))). cbn [obind]. reflexivity. }
        rewrite E'. cbn [obind]. eexists; split; [reflexivity|]. cbn [fst snd]. split; [exact D'|].
        intros i Hi. destruct (Z.eqb_spec (Z.of_nat i) (Z.of_nat j)) as [Q|Q].
        - assert (i = j) by lia. subst i. unfold al. replace (b - 1 - j)%nat with k by (unfold j; lia). reflexivity.
        - apply A. unfold j in Q. lia. }
      rewrite E1. cbn [obind fst snd]. clear E1.
      (* scaling *)
      destruct (fill n N' 0 (fun i d => do x <- rdm N' d i ; wrm N' d i (icurv * x)%R) d1 (Rv 0)) as [d2 [E2 [D2 _]]]; [lia|lia| |].
      { intros k d' Hk _ Hrest. rewrite (rd1 n _ _ (Qv b) k D1 ltac:(lia) (Hrest (Z.of_nat k) ltac:(lia))). reflexivity. }
      rewrite E2. cbn [obind]. clear E2.
      (* second loop *)
      destruct (@forn_inv mem (fun k d => holdsv n 0 d (Rv k)) b
        (fun i d =>
          do q <- dotproduct n (Z.of_nat m * N') (dG s) (i * N') N' d 0 ;
          do r <- rdm (Z.of_nat m) (iys s) i ;
          do a <- rdm (Z.of_nat m) a1 i ;
          forn n (fun k d =>
            do g <- rdm (Z.of_nat m * N') (dX s) (i * N' + k) ; do x <- rdm N' d k ; wrm N' d k (x + g * (a - q * r))%R) d) d2) as [d3 [E3 D3]].
      { exact D2. }
      { intros k d Hk D. destruct (mem_row k Hk) as [RX [RG RY]]. destruct (row_in k ltac:(lia)) as [W1 W2].
        change (Z.of_nat k * N') with (row k).
        rewrite (dot_ok n _ _ _ _ _ _ (yv k) (Rv k)); try assumption; try lia. cbn [obind].
        rewrite (rdm_ok _ _ _ (rho k)) by (try exact RY; lia). cbn [obind].
        rewrite (rdm_ok _ _ _ (al k)) by (try (apply A1); lia). cbn [obind].
        destruct (fill n N' 0 (fun k0 d => do g <- rdm (Z.of_nat m * N') (dX s) (row k + k0) ; do x <- rdm N' d k0 ; wrm N' d k0 (x + g * (al k - rdot n (yv k) (Rv k) * rho k))%R) d (Rv (S k))) as [d' [E' [D' _]]]; [lia|lia| |].
        { intros q d' Hq _ Hrest. rewrite (rdm_ok _ _ _ (sv k q)) by (try apply RX; unfold M, N in *; lia). cbn [obind].
          rewrite (rd1 n _ _ (Rv k) q D ltac:(lia) (Hrest (Z.of_nat q) ltac:(lia))). cbn [obind]. reflexivity. }
        rewrite E'. eexists; split; [reflexivity|exact D']. }
      rewrite E3. cbn [obind]. clear E3.
      (* sign *)
      destruct (fill n N' 0 (fun i d => do x <- rdm N' d i ; wrm N' d i (- x)%R) d3 (mvec n (Hmat n icurv hist) F)) as [d4 [E4 [D4 _]]]; [lia|lia| |].
      { intros k d' Hk _ Hrest. rewrite (rd1 n _ _ (Rv b) k D3 ltac:(lia) (Hrest (Z.of_nat k) ltac:(lia))). cbn [obind]. f_equal.
        rewrite (Rv_ok b (Nat.le_refl b) k Hk). rewrite Nat.sub_diag. cbn [skipn Qv]. unfold mvec. rewrite <- Ropp_mult_distr_l_reverse || idtac.
        transitivity ((-1) * rsum n (fun j => Hmat n icurv hist k j * - F j))%R; [lra|]. rewrite <- rsum_scale. apply rsum_ext. intros; ring. }
      rewrite E4. cbn [obind]. exists d4, a1. split; [reflexivity|exact D4].
    Qed.
  End Two.

  Notation N' := (Z.of_nat n).
  Notation M' := (Z.of_nat m).
  Lemma firstn_nth {A} (d : A) q l k : (k < q)%nat -> nth k (firstn q l) d = nth k l d.
  Proof.
    revert l k. induction q as [|q IH]; intros l k Hk; [lia|]. destruct l as [|x l]; [reflexivity|]. destruct k; [reflexivity|]. cbn [firstn nth]. apply IH. lia.
  Qed.
  Lemma push_ok s hist ds f0 F : (1 <= n)%nat -> (1 <= m)%nat -> alloc s -> Rep hist s ->
    holdsv n 0 (disp s) ds -> holdsv n 0 (fold s) f0 -> holdsv n 0 (forces s) F -> rdot n ds (vsub f0 F) <> 0%R ->
    exists X G Y, let s' := LB (pos s) (forces s) (dir s) (fold s) (disp s) (xold s) (alpha s) X G Y (isFD s) (isReset s) (S (step s)) in
      push n m s = Ok s' /\ Rep (firstn m ((ds, vsub f0 F) :: hist)) s' /\ alloc s'.
  Proof.
    intros Hn Hm [AX [AG AY]] [RL RR] HD Hf HF Hc.
    assert (ST : forall j X G, (j < m)%nat ->
      exists X' G', forn n (fun i XG =>
        do a <- rdm N' (disp s) i ;
        do X' <- wrm (M' * N') (fst XG) (Z.of_nat j * N' + i) a ;
        do b <- rdm N' (fold s) i ;
        do c <- rdm N' (forces s) i ;
        do G' <- wrm (M' * N') (snd XG) (Z.of_nat j * N' + i) (b - c)%R ;
        Ok (X', G')) (X, G) = Ok (X', G') /\
        holdsv n (row j) X' ds /\ (forall a, ~ (row j <= a < row j + N') -> X' a = X a) /\
        holdsv n (row j) G' (vsub f0 F) /\ (forall a, ~ (row j <= a < row j + N') -> G' a = G a)).
    { intros j X G Hj. destruct (row_in j Hj) as [W1 W2]. unfold M, N in *. apply (fill2 n (M' * N') (M' * N') (row j) (row j)); try assumption.
      intros k X' G' Hk _ _ _ _. cbn [fst snd]. rewrite (rd0 n _ _ k HD Hk), (rd0 n _ _ k Hf Hk), (rd0 n _ _ k HF Hk). cbn [obind]. reflexivity. }
    unfold push. cbv zeta. destruct (Nat.ltb_spec (step s) m) as [Hs|Hs].
    - rewrite Nat.min_l in RL by lia.
      destruct (ST (step s) (dX s) (dG s) Hs) as [X [G [E [X1 [X2 [G1 G2]]]]]]. destruct (row_in (step s) Hs) as [W1 W2]. unfold M, N in *.
      rewrite E. cbn [obind fst snd]. change (Z.of_nat (step s) * N') with (row (step s)).
      rewrite (dot_ok n _ _ _ _ _ _ ds (vsub f0 F)) by assumption. cbn [obind]. unfold rdiv. destruct (Req_EM_T (rdot n ds (vsub f0 F)) 0) as [Q|Q]; [contradiction|]. cbn [obind].
      rewrite wrm_ok by lia. cbn [obind].
      eexists _, _, _. split; [reflexivity|]. cbn [dX dG iys step]. rewrite firstn_all2 by (cbn [length]; lia). split; [|split; [|split]].
      + split; [cbn [length step]; lia|]. unfold rows. cbn [length dX dG iys]. intros k Hk. cbv zeta. destruct k as [|k].
        * replace (S (length hist) - 1 - 0)%nat with (step s) by lia. cbn [nth fst snd]. split; [exact X1|]. split; [exact G1|]. rewrite Z.eqb_refl. reflexivity.
        * replace (S (length hist) - 1 - S k)%nat with (length hist - 1 - k)%nat by lia. cbn [nth]. destruct (RR k ltac:(lia)) as [P1 [P2 P3]].
          assert (Hj : (length hist - 1 - k < step s)%nat) by lia.
          split; [|split].
          -- intros i Hi. rewrite X2; [apply P1; exact Hi|]. unfold row, N in *. clear -Hj Hi. nia.
          -- intros i Hi. rewrite G2; [apply P2; exact Hi|]. unfold row, N in *. clear -Hj Hi. nia.
          -- destruct (Z.eqb_spec (Z.of_nat (length hist - 1 - k)) (Z.of_nat (step s))); [lia|]. exact P3.
      + cbn [dX]. intros a Ha. destruct (Z_le_dec (row (step s)) a) as [L1|L1]; [destruct (Z_lt_dec a (row (step s) + N')) as [L2|L2]|].
        * specialize (X1 (Z.to_nat (a - row (step s))) ltac:(lia)). replace (row (step s) + Z.of_nat (Z.to_nat (a - row (step s)))) with a in X1 by lia. rewrite X1. discriminate.
        * rewrite X2 by lia. apply AX. exact Ha.
        * rewrite X2 by lia. apply AX. exact Ha.
      + cbn [dG]. intros a Ha. destruct (Z_le_dec (row (step s)) a) as [L1|L1]; [destruct (Z_lt_dec a (row (step s) + N')) as [L2|L2]|].
        * specialize (G1 (Z.to_nat (a - row (step s))) ltac:(lia)). replace (row (step s) + Z.of_nat (Z.to_nat (a - row (step s)))) with a in G1 by lia. rewrite G1. discriminate.
        * rewrite G2 by lia. apply AG. exact Ha.
        * rewrite G2 by lia. apply AG. exact Ha.
      + cbn [iys]. intros a Ha. destruct (a =? Z.of_nat (step s)); [discriminate|]. apply AY. exact Ha.
    - rewrite Nat.min_r in RL by lia.
      replace (M' - 1) with (Z.of_nat (m - 1)) by lia. rewrite Nat2Z.id.
      assert (Ecnt : Z.to_nat (Z.of_nat (m - 1) * N') = ((m - 1) * n)%nat) by (rewrite <- Nat2Z.inj_mul; apply Nat2Z.id). rewrite Ecnt.
      destruct (shift_loop2 ((m - 1) * n) (M' * N') n (dX s) (dG s)) as [X0 [G0 [E0 [SX SG]]]]; [lia|nia|exact AX|exact AG|].
      rewrite E0. cbn [obind fst snd]. clear E0.
      destruct (shift_loop (m - 1) M' 1 (iys s)) as [Y0 [EY SY]]; [lia|lia|exact AY|]. change (Z.of_nat 1) with 1 in EY. rewrite EY. cbn [obind]. clear EY.
      destruct (ST (m - 1)%nat X0 G0 ltac:(lia)) as [X [G [E [X1 [X2 [G1 G2]]]]]]. destruct (row_in (m - 1)%nat ltac:(lia)) as [W1 W2]. unfold M, N in *.
      rewrite E. cbn [obind fst snd]. change (Z.of_nat (m - 1) * N') with (row (m - 1)).
      rewrite (dot_ok n _ _ _ _ _ _ ds (vsub f0 F)) by assumption. cbn [obind]. unfold rdiv. destruct (Req_EM_T (rdot n ds (vsub f0 F)) 0) as [Q|Q]; [contradiction|]. cbn [obind].
      rewrite wrm_ok by lia. cbn [obind].
      assert (HX0 : forall a, 0 <= a < M' * N' -> X0 a <> None).
      { intros a Ha. rewrite SX. destruct ((0 <=? a) && (a <? Z.of_nat ((m - 1) * n))) eqn:B; apply AX; nia. }
      assert (HG0 : forall a, 0 <= a < M' * N' -> G0 a <> None).
      { intros a Ha. rewrite SG. destruct ((0 <=? a) && (a <? Z.of_nat ((m - 1) * n))) eqn:B; apply AG; nia. }
      eexists _, _, _. split; [reflexivity|]. cbn [dX dG iys step]. split; [|split; [|split]].
      + assert (Lf : length (firstn m ((ds, vsub f0 F) :: hist)) = m) by (rewrite firstn_length; cbn [length]; lia).
        split; [rewrite Lf; cbn [step]; lia|]. intros k Hk. cbn [dX dG iys]. cbv zeta. rewrite Lf in *. rewrite firstn_nth by exact Hk. destruct k as [|k].
        * replace (m - 1 - 0)%nat with (m - 1)%nat by lia. cbn [nth fst snd]. split; [exact X1|]. split; [exact G1|]. rewrite Z.eqb_refl. reflexivity.
        * cbn [nth]. destruct (RR k ltac:(lia)) as [P1 [P2 P3]]. rewrite RL in P1, P2, P3.
          assert (Ej : (m - 1 - k = S (m - 1 - S k))%nat) by lia. rewrite Ej in P1, P2, P3. set (j := (m - 1 - S k)%nat) in *. assert (Hj : (j < m - 1)%nat) by (unfold j; lia).
          split; [|split].
          -- intros i Hi. rewrite X2 by (unfold row, N in *; clear -Hj Hi; nia). rewrite SX.
             replace ((0 <=? row j + Z.of_nat i) && (row j + Z.of_nat i <? Z.of_nat ((m - 1) * n))) with true by (unfold row, N; clear -Hj Hi; symmetry; apply andb_true_iff; split; nia).
             rewrite <- (P1 i Hi). f_equal. unfold row, N. lia.
          -- intros i Hi. rewrite G2 by (unfold row, N in *; clear -Hj Hi; nia). rewrite SG.
             replace ((0 <=? row j + Z.of_nat i) && (row j + Z.of_nat i <? Z.of_nat ((m - 1) * n))) with true by (unfold row, N; clear -Hj Hi; symmetry; apply andb_true_iff; split; nia).
             rewrite <- (P2 i Hi). f_equal. unfold row, N. lia.
          -- destruct (Z.eqb_spec (Z.of_nat j) (Z.of_nat (m - 1))); [lia|]. rewrite SY. replace ((0 <=? Z.of_nat j) && (Z.of_nat j <? Z.of_nat (m - 1))) with true by lia. rewrite <- P3. f_equal. lia.
      + cbn [dX]. intros a Ha. destruct (Z_le_dec (row (m - 1)) a) as [L1|L1]; [destruct (Z_lt_dec a (row (m - 1) + N')) as [L2|L2]|].
        * specialize (X1 (Z.to_nat (a - row (m - 1))) ltac:(lia)). replace (row (m - 1) + Z.of_nat (Z.to_nat (a - row (m - 1)))) with a in X1 by lia. rewrite X1. discriminate.
        * rewrite X2 by lia. apply HX0. exact Ha.
        * rewrite X2 by lia. apply HX0. exact Ha.
      + cbn [dG]. intros a Ha. destruct (Z_le_dec (row (m - 1)) a) as [L1|L1]; [destruct (Z_lt_dec a (row (m - 1) + N')) as [L2|L2]|].
        * specialize (G1 (Z.to_nat (a - row (m - 1))) ltac:(lia)). replace (row (m - 1) + Z.of_nat (Z.to_nat (a - row (m - 1)))) with a in G1 by lia. rewrite G1. discriminate.
        * rewrite G2 by lia. apply HG0. exact Ha.
        * rewrite G2 by lia. apply HG0. exact Ha.
      + cbn [iys]. intros a Ha. destruct (a =? Z.of_nat (m - 1)); [discriminate|]. rewrite SY. destruct ((0 <=? a) && (a <? Z.of_nat (m - 1))) eqn:B; apply AY; lia.
  Qed.
  Lemma save_ok s x F : holdsv n 0 (pos s) x -> holdsv n 0 (forces s) F ->
    exists xo fo, save n s = Ok (LB (pos s) (forces s) (dir s) fo (disp s) xo (alpha s) (dX s) (dG s) (iys s) (isFD s) (isReset s) (step s)) /\
      holdsv n 0 xo x /\ holdsv n 0 fo F.
  Proof.
    clear M. intros Hx HF. unfold save.
    destruct (fill2 n N' N' 0 0 (fun i xf => do a <- rdm N' (pos s) i ; do x' <- wrm N' (fst xf) i a ;
      do b <- rdm N' (forces s) i ; do f' <- wrm N' (snd xf) i b ; Ok (x', f')) (xold s) (fold s) x F) as [xo [fo [E [H1 [_ [H2 _]]]]]]; try lia.
    { intros k X' G' Hk _ _ _ _. cbn [fst snd]. rewrite (rd0 n _ _ k Hx Hk), (rd0 n _ _ k HF Hk). cbn [obind]. reflexivity. }
    rewrite E. cbn [obind fst snd]. exists xo, fo. auto.
  Qed.
  Lemma advance_ok c p d x u : holdsv n 0 p x -> holdsv n 0 d u -> exists p', advance n c p d = Ok p' /\ holdsv n 0 p' (fun i => x i + c * u i)%R.
  Proof.
    clear M. intros Hp Hd. unfold advance.
    destruct (fill n N' 0 (fun i p => do x <- rdm N' p i ; do y <- rdm N' d i ; wrm N' p i (x + c * y)%R) p (fun i => x i + c * u i)%R) as [p' [E [H _]]]; try lia.
    { intros k d' Hk _ Hr. rewrite (rd1 n _ _ x k Hp Hk (Hr (Z.of_nat k) ltac:(lia))), (rd0 n _ _ k Hd Hk). reflexivity. }
    exists p'. auto.
  Qed.
  Lemma scaled_ok c v r d u : r <> 0%R -> holdsv n 0 v u -> exists d', scaled n c v r d = Ok d' /\ holdsv n 0 d' (fun i => c * u i / r)%R.
  Proof.
    clear M. intros Hr Hv. unfold scaled.
    destruct (fill n N' 0 (fun i d => do x <- rdm N' v i ; do y <- rdiv (c * x) r ; wrm N' d i y) d (fun i => c * u i / r)%R) as [d' [E [H _]]]; try lia.
    { intros k d' Hk _ _. rewrite (rd0 n _ _ k Hv Hk). cbn [obind]. unfold rdiv. destruct (Req_EM_T r 0); [contradiction|]. reflexivity. }
    exists d'. auto.
  Qed.
  Lemma holdsv_ext A u v : (forall i, (i < n)%nat -> u i = v i) -> holdsv n 0 A u -> holdsv n 0 A v.
  Proof. intros E H i Hi. rewrite (H i Hi), E by exact Hi. reflexivity. Qed.
End Code.

(** ** The specification run: the answers of the physics are the forces *)
Fixpoint smax (n : nat) (F : vecR) : R := match n with O => 0%R | S k => Rmax (smax k F) (Rabs (F k)) end.
Definition sinit : sst := SST None [] true.
Fixpoint srun (n m : nat) (finit maxmov tol : R) (Fs : list vecR) (F : vecR) (a : sst) : outcome (vecR * sst) :=
  match Fs with
  | [] => Ok (F, a)
  | F' :: r => if rlt tol (smax n F) then (do ua <- sstep n m finit maxmov F a ; srun n m finit maxmov tol r F' (snd ua)) else Ok (F, a)
  end.

Lemma rlt_true x y : rlt x y = true <-> (x < y)%R.
Proof. unfold rlt. destruct (Rlt_dec x y); split; intros; congruence || lra. Qed.
Lemma rlt_false x y : rlt x y = false <-> (y <= x)%R.
Proof. unfold rlt. destruct (Rlt_dec x y); split; intros; congruence || lra. Qed.
Lemma vnorm_pos n v : (0 < rdot n v v)%R -> (0 < vnorm n v)%R.
Proof. intros H. apply sqrt_lt_R0. exact H. Qed.
Lemma vnorm_scale n c v : (0 <= c)%R -> vnorm n (vscale c v) = (c * vnorm n v)%R.
Proof.
  intros Hc. unfold vnorm. replace (rdot n (vscale c v) (vscale c v)) with ((c * c) * rdot n v v)%R.
  - rewrite sqrt_mult_alt by nra. rewrite sqrt_square by exact Hc. reflexivity.
  - unfold vscale. rewrite (rdot_scale n c (fun i => c * v i)%R v), (rdot_comm n (fun i => c * v i)%R v), rdot_scale. ring.
Qed.
Lemma vnorm_sq n v : (vnorm n v * vnorm n v = rdot n v v)%R.
Proof. apply sqrt_sqrt. apply rdot_nonneg. Qed.
Lemma smax_some n F tol : (0 <= tol)%R -> (tol < smax n F)%R -> (0 < rdot n F F)%R.
Proof.
  intros Ht. induction n as [|n IH]; cbn [smax]; intros H; [lra|]. unfold Rmax in H. destruct (Rle_dec (smax n F) (Rabs (F n))) as [L|L].
  - apply (rdot_pos (S n) F n); [lia|]. intros E. rewrite E, Rabs_R0 in H. lra.
  - pose proof (IH H) as P. unfold rdot in *. cbn [rsum]. pose proof (Rle_0_sqr (F n)). unfold Rsqr in *. lra.
Qed.

(** the abstract steps go downhill and are bounded *)
Definition sgood (n : nat) (a : sst) : Prop := positive n (shist a).
Lemma sstep_good n m finit maxmov F a u a' : (0 < finit)%R -> (0 < maxmov)%R -> (0 < rdot n F F)%R -> sgood n a -> sstep n m finit maxmov F a = Ok (u, a') ->
  sgood n a' /\ (0 < rdot n u F)%R /\ (vnorm n u <= (if prev a then maxmov else finit))%R.
Proof.
  intros H1 H2 HF Hg E. unfold sstep in E. pose proof (vnorm_pos n F HF) as NF.
  assert (SD : forall c, (0 < c)%R -> (0 < rdot n (vscale (c / vnorm n F) F) F)%R /\ vnorm n (vscale (c / vnorm n F) F) = c).
  { intros c Hc. assert (P : (0 < c / vnorm n F)%R) by (apply Rdiv_lt_0_compat; assumption). split.
    - unfold vscale. rewrite rdot_comm, rdot_scale. apply Rmult_lt_0_compat; assumption.
    - rewrite vnorm_scale by lra. field. lra. }
  destruct (prev a) as [[f0 s]|].
  - cbv zeta in E. set (c := rdot n s (vsub f0 F)) in *. destruct (req0 c) eqn:Ec; [discriminate|]. unfold req0 in Ec. destruct (Req_EM_T c 0) as [|Hc]; [discriminate|]. clear Ec.
    injection E as Eu Ea. subst a'. cbn [shist sgood].
    set (hist := if sreset a || rlt c 0 then [] else firstn m ((s, vsub f0 F) :: shist a)) in *.
    assert (HP : positive n hist).
    { unfold hist. destruct (sreset a); cbn [orb]; [constructor|]. destruct (rlt c 0) eqn:L; [constructor|]. apply rlt_false in L.
      unfold positive. rewrite Forall_forall. intros p Hp. assert (In p ((s, vsub f0 F) :: shist a)) as [<- |Hi].
      { rewrite <- (firstn_skipn m). apply in_or_app. left. exact Hp. }
      - cbn [fst snd]. fold c. lra.
      - unfold sgood, positive in Hg. rewrite Forall_forall in Hg. apply Hg. exact Hi. }
    split; [exact HP|].
    destruct (rlt c 0) eqn:L; cbn [orb] in Eu.
    + subst u. destruct (SD maxmov H2) as [P1 P2]. split; [exact P1|]. lra.
    + destruct (rlt maxmov (vnorm n (mvec n (Hmat n (rdot n s s / (2 * c)) hist) F))) eqn:B.
      * subst u. destruct (SD maxmov H2) as [P1 P2]. split; [exact P1|]. lra.
      * subst u. apply rlt_false in B. apply rlt_false in L. split; [|exact B]. rewrite rdot_comm. apply Hmat_pos; [|exact HP|exact (rdot_some n F HF)].
        assert (Ps : (0 < rdot n s s)%R).
        { pose proof (rdot_nonneg n s). destruct (Req_dec (rdot n s s) 0) as [Z|Z]; [|lra]. exfalso. apply Hc. unfold c, rdot at 1. apply rsum_zero. intros i Hi. rewrite (rdot_zero n s Z i Hi). ring. }
        apply Rdiv_lt_0_compat; lra.
  - injection E as Eu Ea. subst a' u. cbn [shist]. split; [constructor|]. destruct (SD finit H1) as [P1 P2]. split; [exact P1|]. lra.
Qed.

(** ** The code refines the specification *)
Section Sim.
  Variables (n m : nat) (finit maxmov : R).
  Hypothesis (Hn : (1 <= n)%nat) (Hm : (1 <= m)%nat).
  Notation N' := (Z.of_nat n).
  Notation M' := (Z.of_nat m).
  (** positions x and forces F in memory, and what the specification remembers *)
  Definition Sim (s : lb) (x F : vecR) (a : sst) : Prop :=
    holdsv n 0 (pos s) x /\ holdsv n 0 (forces s) F /\ alloc n m s /\
    match prev a with
    | None => isFD s = true /\ isReset s = true /\ sreset a = true
    | Some (f0, ds) => isFD s = false /\ holdsv n 0 (fold s) f0 /\ holdsv n 0 (disp s) ds /\ isReset s = sreset a /\ (sreset a = false -> Rep n m (shist a) s)
    end.
  Variables (icurv0 : R) (lineopt : bool).
  Notation mv := (move n m finit maxmov true lineopt icurv0).

  Lemma disp_ok p xo d x u : holdsv n 0 p (fun i => x i + u i)%R -> holdsv n 0 xo x ->
    exists ds, forn n (fun i ds => do x <- rdm N' p i ; do o <- rdm N' xo i ; wrm N' ds i (x - o)%R) d = Ok ds /\ holdsv n 0 ds u.
  Proof.
    intros Hp Hx.
    destruct (fill n N' 0 (fun i ds => do x <- rdm N' p i ; do o <- rdm N' xo i ; wrm N' ds i (x - o)%R) d u) as [ds [E [H _]]]; try lia.
    { intros k d' Hk _ _. rewrite (rd0 n _ _ k Hp Hk), (rd0 n _ _ k Hx Hk). cbn [obind]. f_equal. ring. }
    exists ds. auto.
  Qed.

  Lemma move_refines s x F a : Sim s x F a -> (0 < rdot n F F)%R ->
    match sstep n m finit maxmov F a with
    | Ok (u, a') => exists s', mv s = Ok s' /\ Sim s' (fun i => x i + u i)%R F a'
    | Exit => mv s = Exit
    | UB => False
    end.
  Proof.
    intros [Hx [HF [HA HP]]] FF. pose proof (vnorm_pos n F FF) as NF. unfold sstep. destruct (prev a) as [[f0 ds]|].
    - destruct HP as [E1 [Hf [Hd [E2 HR]]]]. cbv zeta. set (y := vsub f0 F). set (c := rdot n ds y).
      unfold move. rewrite E1. unfold auto_step.
      destruct (fill n N' 0 (fun i d => do x <- rdm N' (disp s) i ; wrm N' d i x) (dir s) ds) as [d0 [Ed [Hd0 _]]]; try lia.
      { intros k d' Hk _ _. rewrite (rd0 n _ _ k Hd Hk). reflexivity. }
      rewrite Ed. cbn [obind]. clear Ed. rewrite (norm_ok n d0 ds Hd0). cbn [obind].
      rewrite (dot_ok n _ _ _ _ _ _ f0 ds) by (try assumption; lia). rewrite (dot_ok n _ _ _ _ _ _ F ds) by (try assumption; lia). cbn [obind].
      assert (Ec : (rdot n f0 ds - rdot n F ds)%R = c).
      { unfold c, y, vsub. rewrite rdot_sub, (rdot_comm n f0), (rdot_comm n F). reflexivity. }
      fold (vnorm n ds). unfold req0, rdiv.
      destruct (Req_EM_T (vnorm n ds) 0) as [D0|D0].
      { assert (Z : rdot n ds ds = 0%R) by (rewrite <- (vnorm_sq n ds), D0; ring).
        assert (Zc : c = 0%R) by (unfold c, rdot; apply rsum_zero; intros i Hi; rewrite (rdot_zero n ds Z i Hi); ring).
        destruct (Req_EM_T c 0); [|contradiction]. reflexivity. }
      cbn [obind].
      assert (Ecv : ((rdot n f0 ds / vnorm n ds - rdot n F ds / vnorm n ds) / vnorm n ds = c / rdot n ds ds)%R).
      { rewrite <- vnorm_sq, <- Ec. field. exact D0. }
      rewrite Ecv.
      assert (Dp : (0 < rdot n ds ds)%R).
      { pose proof (rdot_nonneg n ds). destruct (Req_dec (rdot n ds ds) 0) as [Z|Z]; [|lra]. exfalso. apply D0. unfold vnorm. rewrite Z. apply sqrt_0. }
      destruct (Req_EM_T c 0) as [Zc|Zc].
      { destruct (Req_EM_T (c / rdot n ds ds * 2) 0) as [_|Q]; [reflexivity|]. exfalso. apply Q. rewrite Zc. field. lra. }
      destruct (Req_EM_T (c / rdot n ds ds * 2) 0) as [Q|_].
      { exfalso. apply Zc. apply Rmult_integral in Q. destruct Q as [Q|Q]; [|lra]. unfold Rdiv in Q. apply Rmult_integral in Q. destruct Q as [Q|Q]; [exact Q|]. pose proof (Rinv_neq_0_compat (rdot n ds ds)). lra. }
      cbn [obind]. replace (1 / (c / rdot n ds ds * 2))%R with (rdot n ds ds / (2 * c))%R by (field; repeat split; first [exact Zc|lra]).
      set (g := (rdot n ds ds / (2 * c))%R).
      assert (Eg : rlt g 0 = rlt c 0).
      { unfold g. destruct (rlt c 0) eqn:L.
        - apply rlt_true in L. apply rlt_true. unfold Rdiv. assert (/ (2 * c) < 0)%R by (apply Rinv_lt_0_compat; lra). nra.
        - apply rlt_false in L. apply rlt_false. apply Rlt_le, Rdiv_lt_0_compat; lra. }
      rewrite Eg, E2. set (hist := if sreset a || rlt c 0 then [] else firstn m ((ds, y) :: shist a)).
      (* history *)
      match goal with |- context [obind (if ?b then ?t else ?e) _] => assert (PU : exists X G Y st, (if b then t else e) =
          Ok (LB (pos s) (forces s) d0 (fold s) (disp s) (xold s) (alpha s) X G Y false false st) /\
          Rep n m hist (LB (pos s) (forces s) d0 (fold s) (disp s) (xold s) (alpha s) X G Y false false st) /\
          alloc n m (LB (pos s) (forces s) d0 (fold s) (disp s) (xold s) (alpha s) X G Y false false st)) end.
      { unfold hist. destruct (sreset a || rlt c 0) eqn:B.
        - exists (dX s), (dG s), (iys s), 0%nat. rewrite E1. split; [reflexivity|]. split; [|exact HA]. split; [reflexivity|]. intros k Hk. cbn in Hk. lia.
        - apply orb_false_iff in B. destruct B as [B1 B2].
          destruct (push_ok n m (LB (pos s) (forces s) d0 (fold s) (disp s) (xold s) (alpha s) (dX s) (dG s) (iys s) (isFD s) false (step s)) (shist a) ds f0 F) as [X [G [Y [P1 [P2 P3]]]]]; try assumption.
          + exact (HR B1).
          + exists X, G, Y, (S (step s)). cbn [pos forces dir fold disp xold alpha isFD isReset step] in *. rewrite E1 in *. auto. }
      destruct PU as [X [G [Y [st [EP [PR PA]]]]]]. rewrite EP. cbn [obind]. clear EP.
      destruct (save_ok n (LB (pos s) (forces s) d0 (fold s) (disp s) (xold s) (alpha s) X G Y false false st) x F Hx HF) as [xo [fo [ES [Hxo Hfo]]]].
      rewrite ES. cbn [obind pos forces dir fold disp xold alpha dX dG iys isFD isReset step]. clear ES.
      destruct (twoloop_ok n m (LB (pos s) (forces s) d0 fo (disp s) xo (alpha s) X G Y false false st) hist F g) as [d [al' [ET HT]]]; [exact PR|exact HF|].
      rewrite ET. cbn [obind fst snd]. clear ET. set (dv := mvec n (Hmat n g hist) F) in *.
      rewrite (norm_ok n d dv HT). cbn [obind]. fold (vnorm n dv). rewrite (norm_ok n (forces s) F HF). fold (vnorm n F). cbn [obind].
      (* the step *)
      destruct (scaled_ok n maxmov (forces s) (vnorm n F) d F ltac:(lra) HF) as [d1 [ED1 HD1]].
      assert (FIN : forall p dd rst u, holdsv n 0 p (fun i => x i + u i)%R ->
        exists s', (do ds0 <- forn n (fun i ds0 => do x0 <- rdm N' p i ; do o <- rdm N' xo i ; wrm N' ds0 i (x0 - o)%R) (disp s) ;
           Ok (LB p (forces s) dd fo ds0 xo al' X G Y false rst st)) = Ok s' /\ Sim s' (fun i => x i + u i)%R F (SST (Some (F, u)) hist rst)).
      { intros p dd rst u Hp. destruct (disp_ok p xo (disp s) x u Hp Hxo) as [dn [EN HN]]. rewrite EN. cbn [obind]. eexists; split; [reflexivity|].
        unfold Sim. cbn [pos forces fold disp isFD isReset prev sreset shist]. split; [exact Hp|]. split; [exact HF|]. split; [exact PA|]. split; [reflexivity|]. split; [exact Hfo|]. split; [exact HN|]. split; [reflexivity|]. intros _. exact PR. }
      destruct (rlt c 0) eqn:L; cbn [orb].
      + (* negative curvature *)
        assert (GO : forall q rst, exists s',
          (do s1 <- (do pd <- (do fnorm <- Ok (vnorm n F) ; do d2 <- scaled n 1 (forces s) fnorm q ; do p <- advance n maxmov (pos s) d2 ; Ok (p, d2)) ;
             Ok (LB (fst pd) (forces s) (snd pd) fo (disp s) xo al' X G Y false rst st)) ;
           do ds0 <- forn n (fun i ds0 => do x0 <- rdm N' (pos s1) i ; do o <- rdm N' (xold s1) i ; wrm N' ds0 i (x0 - o)%R) (disp s1) ;
           Ok (LB (pos s1) (forces s1) (dir s1) (fold s1) ds0 (xold s1) (alpha s1) (dX s1) (dG s1) (iys s1) (isFD s1) (isReset s1) (step s1))) = Ok s' /\
          Sim s' (fun i => x i + vscale (maxmov / vnorm n F) F i)%R F (SST (Some (F, vscale (maxmov / vnorm n F) F)) hist rst)).
        { intros q rst. cbn [obind]. destruct (scaled_ok n 1 (forces s) (vnorm n F) q F ltac:(lra) HF) as [d2 [ED2 HD2]]. rewrite ED2. cbn [obind].
          destruct (advance_ok n maxmov (pos s) d2 x _ Hx HD2) as [p [EA HAd]]. rewrite EA. cbn [obind fst snd pos forces dir fold disp xold alpha dX dG iys isFD isReset step].
          apply FIN. refine (holdsv_ext n p _ _ _ HAd). intros i Hi. unfold vscale. field. lra. }
        destruct (rlt maxmov (vnorm n dv)) eqn:B.
        * rewrite ED1. cbn [obind fst snd]. exact (GO d1 true).
        * cbn [obind fst snd]. exact (GO d false).
      + destruct (rlt maxmov (vnorm n dv)) eqn:B.
        * rewrite ED1. cbn [obind fst snd]. destruct (advance_ok n 1 (pos s) d1 x _ Hx HD1) as [p [EA HAd]]. rewrite EA. cbn [obind fst snd pos forces dir fold disp xold alpha dX dG iys isFD isReset step].
          apply FIN. refine (holdsv_ext n p _ _ _ HAd). intros i Hi. unfold vscale. field. lra.
        * cbn [obind fst snd]. destruct (advance_ok n 1 (pos s) d x _ Hx HT) as [p [EA HAd]]. rewrite EA. cbn [obind fst snd pos forces dir fold disp xold alpha dX dG iys isFD isReset step].
          apply FIN. refine (holdsv_ext n p _ _ _ HAd). intros i Hi. ring.
    - destruct HP as [E1 [E2 E3]]. unfold move. rewrite E1. unfold fd_step. rewrite (norm_ok n _ F HF). cbn [obind]. fold (vnorm n F).
      destruct (scaled_ok n 1 (forces s) (vnorm n F) (dir s) F ltac:(lra) HF) as [d [ED HD]]. rewrite ED. cbn [obind].
      destruct (save_ok n s x F Hx HF) as [xo [fo [ES [Hxo Hfo]]]]. rewrite ES. cbn [obind pos forces dir fold disp xold alpha dX dG iys isFD isReset step].
      destruct (advance_ok n finit (pos s) d x _ Hx HD) as [p [EA HAd]]. rewrite EA. cbn [obind fst snd pos forces dir fold disp xold alpha dX dG iys isFD isReset step].
      assert (Hp : holdsv n 0 p (fun i => x i + vscale (finit / vnorm n F) F i)%R).
      { refine (holdsv_ext n p _ _ _ HAd). intros i Hi. unfold vscale. field. lra. }
      destruct (disp_ok p xo (disp s) x _ Hp Hxo) as [dn [EN HN]]. rewrite EN. cbn [obind]. eexists; split; [reflexivity|].
      unfold Sim. cbn [pos forces fold disp isFD isReset prev sreset shist]. rewrite E2. split; [exact Hp|]. split; [exact HF|]. split; [exact HA|]. split; [reflexivity|]. split; [exact Hfo|]. split; [exact HN|]. split; [reflexivity|]. discriminate.
  Qed.

  Lemma max_ok s F : holdsv n 0 (forces s) F -> max_force n s = Ok (smax n F).
  Proof.
    intros HF. unfold max_force.
    destruct (@forn_inv R (fun k e => e = smax k F) n (fun i e => do f <- rdm N' (forces s) i ; Ok (if rlt e (Rabs f) then Rabs f else e)) 0%R) as [e [E ->]].
    - reflexivity.
    - intros k e Hk ->. rewrite (rd0 n _ _ k HF Hk). cbn [obind]. eexists; split; [reflexivity|]. cbn [smax]. unfold Rmax, rlt.
      destruct (Rlt_dec (smax k F) (Rabs (F k))), (Rle_dec (smax k F) (Rabs (F k))); try reflexivity; lra.
    - exact E.
  Qed.
  Lemma respond_sim s x F a x' f' xv fv : Sim s x F a -> holdsv n 0 x' xv -> holdsv n 0 f' fv -> Sim (respond x' f' s) xv fv a.
  Proof.
    intros [_ [_ [HA HP]]] Hx Hf. unfold Sim, respond. cbn [pos forces]. split; [exact Hx|]. split; [exact Hf|]. split; [exact HA|].
    destruct (prev a) as [[f0 ds]|]; cbn [fold disp isFD isReset]; exact HP.
  Qed.
  Definition answers_hold (ans : list (mem * mem)) (xs Fs : list vecR) : Prop :=
    Forall2 (fun p v => holdsv n 0 (fst p) (fst v) /\ holdsv n 0 (snd p) (snd v)) ans (combine xs Fs) /\ length xs = length Fs.
  Lemma run_refines tol : (0 <= tol)%R -> forall ans xs Fs s x F a, answers_hold ans xs Fs -> Sim s x F a ->
    match srun n m finit maxmov tol Fs F a with
    | Ok (F', a') => exists s' x', run n m finit maxmov true lineopt icurv0 tol ans s = Ok s' /\ Sim s' x' F' a'
    | Exit => run n m finit maxmov true lineopt icurv0 tol ans s = Exit
    | UB => False
    end.
  Proof.
    intros Ht ans. induction ans as [|[xm fm] ans IH]; intros xs Fs s x F a [HA HL] HS.
    - inversion HA as [E1 E2|]. destruct xs, Fs; try discriminate. cbn [srun run]. exists s, x. auto.
    - inversion HA as [|p v r r' [P1 P2] HA' E1 E2]. subst. destruct xs as [|xv xs], Fs as [|Fv Fs]; try discriminate. cbn [combine] in *. injection E2 as -> ->. cbn [fst snd] in *. cbn [srun run].
      destruct HS as [Hx [HF HS']]. rewrite (max_ok s F HF). cbn [obind]. destruct (rlt tol (smax n F)) eqn:L.
      + apply rlt_true in L. pose proof (smax_some n F tol Ht L) as FF. assert (HS : Sim s x F a) by (split; [exact Hx|split; [exact HF|exact HS']]).
        pose proof (move_refines s x F a HS FF) as MR. destruct (sstep n m finit maxmov F a) as [[u a']| |].
        * destruct MR as [s' [EM HM]]. rewrite EM. cbn [obind snd]. apply (IH xs Fs _ xv). { split; [exact HA'|cbn in HL; lia]. } exact (respond_sim _ _ _ _ _ _ _ _ HM P1 P2).
        * destruct MR.
        * rewrite MR. reflexivity.
      + exists s, x. split; [reflexivity|]. split; [exact Hx|split; [exact HF|exact HS']].
  Qed.
  Lemma init_sim x f xv fv : holdsv n 0 x xv -> holdsv n 0 f fv -> Sim (init n m x f) xv fv sinit.
  Proof.
    intros Hx Hf. split; [exact Hx|]. split; [exact Hf|]. split; [|cbn; auto].
    split; [|split]; intros a Ha; cbn [dX dG iys init].
    - replace ((0 <=? a) && (a <? M' * N')) with true by lia. discriminate.
    - replace ((0 <=? a) && (a <? M' * N')) with true by lia. discriminate.
    - replace ((0 <=? a) && (a <? M')) with true by lia. discriminate.
  Qed.
End Sim.

(** ** C57 *)
(** The search direction is the inverse Hessian of the stored moves times the
    force, for both settings of AUTOSCALE. *)
Theorem C57_direction : forall (n m : nat) (s : lb) (hist : list (vecR * vecR)) (F : vecR) (g : R),
  Rep n m hist s -> holdsv n 0 (forces s) F ->
  exists d al, twoloop n m g s = Ok (d, al) /\ holdsv n 0 d (mvec n (Hmat n g hist) F).
Proof. exact twoloop_ok. Qed.
(** Storing a move keeps the last L_history moves. *)
Theorem C57_history : forall (n m : nat) (s : lb) (hist : list (vecR * vecR)) (ds f0 F : vecR),
  (1 <= n)%nat -> (1 <= m)%nat -> alloc n m s -> Rep n m hist s ->
  holdsv n 0 (disp s) ds -> holdsv n 0 (fold s) f0 -> holdsv n 0 (forces s) F -> rdot n ds (vsub f0 F) <> 0%R ->
  exists s', push n m s = Ok s' /\ Rep n m (firstn m ((ds, vsub f0 F) :: hist)) s' /\ alloc n m s' /\ pos s' = pos s /\ forces s' = forces s.
Proof.
  intros n m s hist ds f0 F Hn Hm HA HR Hd Hf HF Hc. destruct (push_ok n m s hist ds f0 F Hn Hm HA HR Hd Hf HF Hc) as [X [G [Y [E [P1 P2]]]]].
  eexists. split; [exact E|]. auto.
Qed.
(** The matrix maps the last loss of force to the last move. *)
Theorem C57_secant : forall (n : nat) (g : R) (s y : vecR) (older : list (vecR * vecR)) (i : nat),
  (i < n)%nat -> rdot n s y <> 0%R -> mvec n (Hmat n g ((s, y) :: older)) y i = s i.
Proof. exact secant. Qed.
(** With AUTOSCALE the whole loop follows the specification; it stops with a
    division by zero exactly when a stored curvature is zero, and never reads
    memory it has not written. *)
Theorem C57_run : forall (n m : nat) (finit maxmov icurv0 tol : R) (lineopt : bool), (1 <= n)%nat -> (1 <= m)%nat -> (0 <= tol)%R ->
  forall (x f : mem) (xv fv : vecR) (ans : list (mem * mem)) (xs Fs : list vecR),
  holdsv n 0 x xv -> holdsv n 0 f fv -> answers_hold n ans xs Fs ->
  match srun n m finit maxmov tol Fs fv sinit with
  | Ok (F, a) => exists s x', run n m finit maxmov true lineopt icurv0 tol ans (init n m x f) = Ok s /\ Sim n m s x' F a
  | Exit => run n m finit maxmov true lineopt icurv0 tol ans (init n m x f) = Exit
  | UB => False
  end.
Proof.
  intros n m finit maxmov icurv0 tol lineopt Hn Hm Ht x f xv fv ans xs Fs Hx Hf HA.
  exact (run_refines n m finit maxmov Hn Hm icurv0 lineopt tol Ht ans xs Fs (init n m x f) xv fv sinit HA (init_sim n m Hn Hm x f xv fv Hx Hf)).
Qed.
Lemma srun_good n m finit maxmov tol : (0 < finit)%R -> (0 < maxmov)%R -> (0 <= tol)%R -> forall Fs F a F' a', sgood n a -> srun n m finit maxmov tol Fs F a = Ok (F', a') -> sgood n a'.
Proof.
  intros H1 H2 Ht Fs. induction Fs as [|G Fs IH]; intros F a F' a' Hg E; cbn [srun] in E; [injection E as <- <-; exact Hg|].
  destruct (rlt tol (smax n F)) eqn:L; [|injection E as <- <-; exact Hg]. apply rlt_true in L. pose proof (smax_some n F tol Ht L) as FF.
  destruct (sstep n m finit maxmov F a) as [[u b]| |] eqn:ES; try discriminate. cbn [obind snd] in E. apply (IH G b F' a'); [|exact E].
  exact (proj1 (sstep_good n m finit maxmov F a u b H1 H2 FF Hg ES)).
Qed.
(** With AUTOSCALE every move of every run goes downhill (along the force) and
    is no longer than L_MAXMOV (the first one: L_FINIT_STP). *)
Theorem C57_downhill : forall (n m : nat) (finit maxmov icurv0 tol : R) (lineopt : bool), (1 <= n)%nat -> (1 <= m)%nat -> (0 < finit)%R -> (0 < maxmov)%R -> (0 <= tol)%R ->
  forall (x f : mem) (xv fv : vecR) (ans : list (mem * mem)) (xs Fs : list vecR) (s : lb) (e : R),
  holdsv n 0 x xv -> holdsv n 0 f fv -> answers_hold n ans xs Fs ->
  run n m finit maxmov true lineopt icurv0 tol ans (init n m x f) = Ok s -> max_force n s = Ok e -> (tol < e)%R ->
  move n m finit maxmov true lineopt icurv0 s = Exit \/
  exists s' x0 F u, move n m finit maxmov true lineopt icurv0 s = Ok s' /\ holdsv n 0 (pos s) x0 /\ holdsv n 0 (forces s) F /\
    holdsv n 0 (pos s') (fun i => x0 i + u i)%R /\ (0 < rdot n u F)%R /\ (vnorm n u <= if isFD s then finit else maxmov)%R.
Proof.
  intros n m finit maxmov icurv0 tol lineopt Hn Hm H1 H2 Ht x f xv fv ans xs Fs s e Hx Hf HA ER EM He.
  pose proof (C57_run n m finit maxmov icurv0 tol lineopt Hn Hm Ht x f xv fv ans xs Fs Hx Hf HA) as HR.
  destruct (srun n m finit maxmov tol Fs fv sinit) as [[F a]| |] eqn:ES; [|destruct HR|rewrite HR in ER; discriminate].
  destruct HR as [s1 [x0 [E1 HS]]]. rewrite ER in E1. injection E1 as <-. assert (Hg : sgood n a).
  { refine (srun_good n m finit maxmov tol H1 H2 Ht Fs fv sinit F a _ ES). constructor. }
  pose proof (move_refines n m finit maxmov Hn Hm icurv0 lineopt s x0 F a HS) as MR.
  rewrite (max_ok n s F (proj1 (proj2 HS))) in EM. injection EM as <-. specialize (MR (smax_some n F tol Ht He)).
  destruct (sstep n m finit maxmov F a) as [[u a']| |] eqn:EST; [|destruct MR|left; exact MR].
  right. destruct MR as [s' [E' HS']]. destruct (sstep_good n m finit maxmov F a u a' H1 H2 (smax_some n F tol Ht He) Hg EST) as [_ [D1 D2]].
  exists s', x0, F, u. split; [exact E'|]. destruct HS as [P1 [P2 [_ P3]]]. split; [exact P1|]. split; [exact P2|]. split; [exact (proj1 HS')|]. split; [exact D1|].
  destruct (prev a) as [[f0 ds]|].
  - destruct P3 as [-> _]. exact D2.
  - destruct P3 as [-> _]. exact D2.
Qed.
(** With AUTOSCALE a run continued from the restart file goes on as the
    uninterrupted one would. *)
Theorem C57_restart : forall (n m : nat) (finit maxmov icurv0 : R) (lineopt : bool) (s : lb) (x F : vecR) (a : sst),
  (1 <= n)%nat -> (1 <= m)%nat -> Sim n m s x F a -> (0 < rdot n F F)%R ->
  match move n m finit maxmov true lineopt icurv0 s, move n m finit maxmov true lineopt icurv0 (restarted s) with
  | Ok s1, Ok s2 => exists x' a', Sim n m s1 x' F a' /\ Sim n m s2 x' F a'
  | Exit, Exit => True
  | _, _ => False
  end.
Proof.
  intros n m finit maxmov icurv0 lineopt s x F a Hn Hm HS FF.
  assert (HS2 : Sim n m (restarted s) x F a).
  { destruct HS as [P1 [P2 [P3 P4]]]. split; [exact P1|]. split; [exact P2|]. split; [exact P3|]. destruct (prev a) as [[f0 ds]|]; cbn [restarted isFD fold disp isReset]; exact P4. }
  pose proof (move_refines n m finit maxmov Hn Hm icurv0 lineopt s x F a HS FF) as M1.
  pose proof (move_refines n m finit maxmov Hn Hm icurv0 lineopt (restarted s) x F a HS2 FF) as M2.
  destruct (sstep n m finit maxmov F a) as [[u a']| |]; [|destruct M1|rewrite M1, M2; exact I].
  destruct M1 as [s1 [-> S1]], M2 as [s2 [-> S2]]. exists (fun i => x i + u i)%R, a'. auto.
Qed.

(** ** Examples *)
Definition cst (v : vecR) (n : nat) : mem := fun a => if (0 <=? a) && (a <? Z.of_nat n) then Some (v (Z.to_nat a)) else None.
Lemma cst_holds n v : holdsv n 0 (cst v n) v.
Proof. intros i Hi. unfold cst. replace ((0 <=? 0 + Z.of_nat i) && (0 + Z.of_nat i <? Z.of_nat n)) with true by lia. f_equal. f_equal. lia. Qed.
(** two degrees of freedom, one stored move of length one against a stiffness of
    two: the inverse Hessian halves the force along it *)
Definition ex_s : vecR := fun i => match i with O => 1%R | _ => 0%R end.
Definition ex_y : vecR := fun i => match i with O => 2%R | _ => 0%R end.
Definition ex_F : vecR := fun i => match i with O => 3%R | _ => 4%R end.
Example C57_ex_matrix : mvec 2 (Hmat 2 7 [(ex_s, ex_y)]) ex_F 0%nat = (3 / 2)%R /\ mvec 2 (Hmat 2 7 [(ex_s, ex_y)]) ex_F 1%nat = 28%R.
Proof. split; unfold mvec, Hmat, bfgs, mlin, mmul, outer, eye, rdot, ex_s, ex_y, ex_F; cbn [rsum Nat.eqb]; field. Qed.
Example C57_ex_hyp : holdsv 2 0 (cst ex_s 2) ex_s /\ answers_hold 2 [(cst ex_s 2, cst ex_F 2)] [ex_s] [ex_F] /\ Sim 2 3 (init 2 3 (cst ex_s 2) (cst ex_F 2)) ex_s ex_F sinit /\
  (0 < rdot 2 ex_F ex_F)%R /\ (1 / 2 < smax 2 ex_F)%R.
Proof.
  split; [apply cst_holds|]. split; [|split; [|split]].
  - split; [|reflexivity]. constructor; [|constructor]. split; apply cst_holds.
  - apply init_sim; try lia; apply cst_holds.
  - unfold rdot. cbn. lra.
  - cbn [smax ex_F]. rewrite !Rabs_right by lra. unfold Rmax. repeat match goal with |- context [Rle_dec ?x ?y] => destruct (Rle_dec x y) end; lra.
Qed.
(** the first move of that run *)
Example C57_ex_first : exists u a, sstep 2 3 (1 / 2) 1 ex_F sinit = Ok (u, a) /\ u 0%nat = (3 / 10)%R /\ u 1%nat = (4 / 10)%R.
Proof.
  eexists _, _. split; [reflexivity|]. assert (E : vnorm 2 ex_F = 5%R).
  { unfold vnorm, rdot. cbn [rsum ex_F]. replace (0 + 3 * 3 + 4 * 4)%R with (5 * 5)%R by lra. apply sqrt_square. lra. }
  unfold vscale. rewrite E. cbn [ex_F]. split; field.
Qed.

(** ** What fails *)
(** With L_AUTOSCALE: 0 the first iteration reads the previous forces, which
    nothing has written (the array comes from malloc, line 330). *)
Theorem C57_fixed_scale_refuted : exists (n m : nat) (x f : mem), holdsv n 0 x ex_s /\ holdsv n 0 f ex_F /\ (1 <= n)%nat /\ (1 <= m)%nat /\
  forall finit maxmov icurv0 lineopt, move n m finit maxmov false lineopt icurv0 (init n m x f) = UB.
Proof. exists 2%nat, 20%nat, (cst ex_s 2), (cst ex_F 2). split; [apply cst_holds|]. split; [apply cst_holds|]. split; [lia|]. split; [lia|]. intros. reflexivity. Qed.
(** With L_AUTOSCALE: 0 and L_LINEOPT: 1 a restart between the trial step and
    the line step reads a search direction that is not in the restart file. *)
Theorem C57_restart_line_refuted : exists (n m : nat) (s : lb), isFD s = false /\ holdsv n 0 (pos s) ex_s /\ holdsv n 0 (forces s) ex_F /\ holdsv n 0 (fold s) ex_y /\
  holdsv n 0 (dir s) ex_s /\ holdsv n 0 (xold s) ex_y /\
  (exists s', move n m (1 / 10) (1 / 5) false true 1 s = Ok s') /\ move n m (1 / 10) (1 / 5) false true 1 (restarted s) = UB.
Proof.
  set (s := LB (cst ex_s 2) (cst ex_F 2) (cst ex_s 2) (cst ex_y 2) (cst ex_s 2) (cst ex_y 2) (cst ex_s 2) (cst ex_s 2) (cst ex_s 2) (cst ex_s 2) false false 0).
  exists 2%nat, 20%nat, s. split; [reflexivity|]. do 5 (split; [apply cst_holds|]). split.
  - unfold move, line_step. cbn [isFD s]. fold s.
    rewrite (dot_ok 2 _ _ _ _ _ _ ex_y ex_s) by (try apply cst_holds; lia). rewrite (dot_ok 2 _ _ _ _ _ _ ex_F ex_s) by (try apply cst_holds; lia). cbn [obind].
    unfold rdiv at 1. destruct (Req_EM_T (1 / 10) 0) as [Q|Q]; [lra|]. cbn [obind].
    replace (rlt ((rdot 2 ex_y ex_s - rdot 2 ex_F ex_s) / (1 / 10)) 0) with true by (symmetry; apply rlt_true; unfold rdot; cbn; lra). cbn [obind].
    destruct (advance_ok 2 (1 / 5) (pos s) (dir s) ex_s ex_s (cst_holds 2 ex_s) (cst_holds 2 ex_s)) as [p [EA HA]]. rewrite EA. cbn [obind pos forces dir fold disp xold alpha dX dG iys isFD isReset step].
    destruct (disp_ok 2 20 ltac:(lia) ltac:(lia) p (xold s) (disp s) ex_y (fun i => ex_s i + 1 / 5 * ex_s i - ex_y i)%R) as [dn [EN _]].
    + refine (holdsv_ext 2 p _ _ _ HA). intros; ring.
    + apply cst_holds.
    + rewrite EN. eexists. reflexivity.
  - reflexivity.
Qed.
(** With L_AUTOSCALE: 0 and L_LINEOPT: 1 a move under negative curvature is
    longer than L_MAXMOV: the trial step is added to it. *)
Theorem C57_maxmov_refuted : exists (n m : nat) (s s' : lb) (x0 d f0 F u : vecR) (finit maxmov : R),
  (0 < finit)%R /\ (0 < maxmov)%R /\ isFD s = false /\ vnorm n d = 1%R /\ holdsv n 0 (xold s) x0 /\ holdsv n 0 (dir s) d /\
  holdsv n 0 (pos s) (fun i => x0 i + finit * d i)%R /\ holdsv n 0 (fold s) f0 /\ holdsv n 0 (forces s) F /\
  move n m finit maxmov false true 1 s = Ok s' /\ holdsv n 0 (disp s') u /\ vnorm n u = (finit + maxmov)%R.
Proof.
  set (x1 := fun i : nat => (0 + 1 / 10 * ex_s i)%R).
  set (s := LB (cst x1 2) (cst ex_F 2) (cst ex_s 2) (cst ex_y 2) (cst ex_s 2) (cst (fun _ => 0%R) 2) (cst ex_s 2) (cst ex_s 2) (cst ex_s 2) (cst ex_s 2) false false 0).
  assert (EM : exists s', move 2 20 (1 / 10) (1 / 5) false true 1 s = Ok s' /\ holdsv 2 0 (disp s') (vscale (3 / 10) ex_s)).
  { unfold move, line_step. cbn [isFD s]. fold s.
    rewrite (dot_ok 2 _ _ _ _ _ _ ex_y ex_s) by (try apply cst_holds; lia). rewrite (dot_ok 2 _ _ _ _ _ _ ex_F ex_s) by (try apply cst_holds; lia). cbn [obind].
    unfold rdiv at 1. destruct (Req_EM_T (1 / 10) 0) as [Q|Q]; [lra|]. cbn [obind].
    replace (rlt ((rdot 2 ex_y ex_s - rdot 2 ex_F ex_s) / (1 / 10)) 0) with true by (symmetry; apply rlt_true; unfold rdot; cbn; lra). cbn [obind].
    destruct (advance_ok 2 (1 / 5) (pos s) (dir s) x1 ex_s (cst_holds 2 x1) (cst_holds 2 ex_s)) as [p [EA HA]]. rewrite EA. cbn [obind pos forces dir fold disp xold alpha dX dG iys isFD isReset step].
    destruct (disp_ok 2 20 ltac:(lia) ltac:(lia) p (xold s) (disp s) (fun _ => 0%R) (vscale (3 / 10) ex_s)) as [dn [EN HN]].
    + refine (holdsv_ext 2 p _ _ _ HA). intros i Hi. unfold x1, vscale. lra.
    + apply (cst_holds 2 (fun _ => 0%R)).
    + rewrite EN. eexists. split; [reflexivity|exact HN]. }
  destruct EM as [s' [EM HD]].
  assert (N1 : vnorm 2 ex_s = 1%R).
  { unfold vnorm, rdot. cbn [rsum ex_s]. replace (0 + 1 * 1 + 0 * 0)%R with 1%R by lra. apply sqrt_1. }
  exists 2%nat, 20%nat, s, s', (fun _ => 0%R), ex_s, ex_y, ex_F, (vscale (3 / 10) ex_s), (1 / 10)%R, (1 / 5)%R.
  split; [lra|]. split; [lra|]. split; [reflexivity|]. split; [exact N1|]. split; [apply (cst_holds 2 (fun _ => 0%R))|]. split; [apply cst_holds|].
  split; [apply (cst_holds 2 x1)|]. split; [apply cst_holds|]. split; [apply cst_holds|]. split; [exact EM|]. split; [exact HD|].
  rewrite vnorm_scale by lra. rewrite N1. lra.
Qed.
(** L_HISTORY: 0 is not refused; storing a move then writes before the arrays. *)
Theorem C57_no_history_refuted : exists (n : nat) (s : lb), holdsv n 0 (disp s) ex_s /\ holdsv n 0 (fold s) ex_y /\ holdsv n 0 (forces s) ex_F /\ push n 0 s = UB.
Proof.
  exists 2%nat, (LB (cst ex_s 2) (cst ex_F 2) (cst ex_s 2) (cst ex_y 2) (cst ex_s 2) (cst ex_s 2) (cst ex_s 2) (cst ex_s 0) (cst ex_s 0) (cst ex_s 0) false false 0).
  do 3 (split; [apply cst_holds|]). reflexivity.
Qed.
(** ** Fixed scale (L_AUTOSCALE: 0) *)
(** A first step, from a state whose old forces f0 and last displacement ds are known: the history is dropped if
    the old force vanishes or, with line optimisation, after a reset request or when the force has not turned
    (|F.f0| > f0.f0/2); otherwise the last move joins it.  The atoms move along the L-BFGS direction with the given
    inverse curvature: finit_stp of it with line optimisation, else all of it, shortened to maxmov. *)
Theorem C57_fixed_step : forall (n m : nat) (finit maxmov icurv0 : R) (lineopt : bool) (s : lb) (x F f0 ds : vecR) (hist hist' : list (vecR * vecR)),
  (1 <= n)%nat -> (1 <= m)%nat -> isFD s = true -> alloc n m s -> Rep n m hist s ->
  holdsv n 0 (pos s) x -> holdsv n 0 (forces s) F -> holdsv n 0 (fold s) f0 -> holdsv n 0 (disp s) ds ->
  let drop := rdot n f0 f0 = 0%R \/ (lineopt = true /\ (isReset s = true \/ (rdot n f0 f0 / 2 < Rabs (rdot n F f0))%R)) in
  (drop -> hist' = []) -> (~ drop -> hist' = firstn m ((ds, vsub f0 F) :: hist) /\ rdot n ds (vsub f0 F) <> 0%R) ->
  let d := mvec n (Hmat n icurv0 hist') F in
  vnorm n d <> 0%R ->
  let u := if lineopt then vscale (finit / vnorm n d) d else if rlt maxmov (vnorm n d) then vscale (maxmov / vnorm n d) d else d in
  exists s', move n m finit maxmov false lineopt icurv0 s = Ok s' /\
    holdsv n 0 (pos s') (fun i => x i + u i)%R /\ holdsv n 0 (disp s') u /\ holdsv n 0 (fold s') F /\ holdsv n 0 (xold s') x /\
    (lineopt = true -> holdsv n 0 (dir s') (vscale (/ vnorm n d) d)) /\
    isFD s' = negb lineopt /\ isReset s' = false /\ Rep n m hist' s' /\ alloc n m s'.
Proof.
  intros n m finit maxmov icurv0 lineopt s x F f0 ds hist hist' Hn Hm E1 HA HR Hx HF Hf Hd drop HD HK d Nd u.
  unfold move. rewrite E1. unfold fixed_fd.
  rewrite (dot_ok n _ _ _ _ _ _ F f0) by (try assumption; lia). rewrite (dot_ok n _ _ _ _ _ _ f0 f0) by (try assumption; lia). cbn [obind].
  assert (RB : (if lineopt then isReset s || rlt (1 / 2 * rdot n f0 f0) (Rabs (rdot n F f0)) || req0 (rdot n f0 f0) else false) || req0 (rdot n f0 f0) = true <-> drop).
  { unfold drop. assert (R0 : req0 (rdot n f0 f0) = true <-> rdot n f0 f0 = 0%R) by (unfold req0; destruct (Req_EM_T (rdot n f0 f0) 0); split; intros; try discriminate; auto; contradiction).
    destruct lineopt; rewrite ?orb_true_iff, ?R0, ?rlt_true; [|intuition congruence].
    replace (1 / 2 * rdot n f0 f0)%R with (rdot n f0 f0 / 2)%R by field. tauto. }
  match goal with |- context [obind (if ?b then ?t else ?e) _] => assert (PU : exists X G Y st, (if b then t else e) =
      Ok (LB (pos s) (forces s) (dir s) (fold s) (disp s) (xold s) (alpha s) X G Y false false st) /\
      Rep n m hist' (LB (pos s) (forces s) (dir s) (fold s) (disp s) (xold s) (alpha s) X G Y false false st) /\
      alloc n m (LB (pos s) (forces s) (dir s) (fold s) (disp s) (xold s) (alpha s) X G Y false false st)); [destruct b eqn:B|] end.
  { rewrite (HD (proj1 RB eq_refl)). exists (dX s), (dG s), (iys s), 0%nat. split; [reflexivity|]. split; [|exact HA]. split; [reflexivity|]. intros k Hk. cbn in Hk. lia. }
  { assert (ND : ~ drop) by (intros Q; apply (proj2 RB) in Q; discriminate). destruct (HK ND) as [-> HC].
    destruct (push_ok n m (LB (pos s) (forces s) (dir s) (fold s) (disp s) (xold s) (alpha s) (dX s) (dG s) (iys s) false false (step s)) hist ds f0 F) as [X [G [Y [P1 [P2 P3]]]]]; try assumption.
    exists X, G, Y, (S (step s)). cbn [pos forces dir fold disp xold alpha isFD isReset step] in *. auto. }
  destruct PU as [X [G [Y [st [EP [PR PA]]]]]]. rewrite EP. cbn [obind]. clear EP.
  destruct (save_ok n (LB (pos s) (forces s) (dir s) (fold s) (disp s) (xold s) (alpha s) X G Y false false st) x F Hx HF) as [xo [fo [ES [Hxo Hfo]]]].
  rewrite ES. cbn [obind pos forces dir fold disp xold alpha dX dG iys isFD isReset step]. clear ES.
  destruct (twoloop_ok n m (LB (pos s) (forces s) (dir s) fo (disp s) xo (alpha s) X G Y false false st) hist' F icurv0) as [dm [al' [ET HT]]]; [exact PR|exact HF|].
  rewrite ET. cbn [obind fst snd]. clear ET. fold d in HT. rewrite (norm_ok n dm d HT). cbn [obind]. fold (vnorm n d).
  assert (FIN : forall p dd fd, holdsv n 0 p (fun i => x i + u i)%R -> (lineopt = true -> holdsv n 0 dd (vscale (/ vnorm n d) d)) -> fd = negb lineopt ->
    exists s', (do ds0 <- forn n (fun i ds0 => do x0 <- rdm (Z.of_nat n) p i ; do o <- rdm (Z.of_nat n) xo i ; wrm (Z.of_nat n) ds0 i (x0 - o)%R) (disp s) ;
       Ok (LB p (forces s) dd fo ds0 xo al' X G Y fd false st)) = Ok s' /\
    holdsv n 0 (pos s') (fun i => x i + u i)%R /\ holdsv n 0 (disp s') u /\ holdsv n 0 (fold s') F /\ holdsv n 0 (xold s') x /\
    (lineopt = true -> holdsv n 0 (dir s') (vscale (/ vnorm n d) d)) /\
    isFD s' = negb lineopt /\ isReset s' = false /\ Rep n m hist' s' /\ alloc n m s').
  { intros p dd fd Hp Hdd ->. destruct (disp_ok n m Hn Hm p xo (disp s) x u Hp Hxo) as [dn [EN HN]]. rewrite EN. cbn [obind]. eexists; split; [reflexivity|].
    cbn [pos forces dir fold disp xold isFD isReset]. split; [exact Hp|]. split; [exact HN|]. split; [exact Hfo|]. split; [exact Hxo|]. split; [exact Hdd|].
    split; [reflexivity|]. split; [reflexivity|]. split; [exact PR|exact PA]. }
  destruct lineopt.
  - destruct (scaled_ok n 1 dm (vnorm n d) dm d Nd HT) as [d1 [ED1 HD1]]. rewrite ED1. cbn [obind].
    destruct (advance_ok n finit (pos s) d1 x _ Hx HD1) as [p [EA HAd]]. rewrite EA. cbn [obind pos forces dir fold disp xold alpha dX dG iys isFD isReset step].
    apply FIN; [|intros _; refine (holdsv_ext n d1 _ _ _ HD1); intros i Hi; unfold vscale; field; exact Nd|reflexivity].
    refine (holdsv_ext n p _ _ _ HAd). intros i Hi. unfold u, vscale. field. exact Nd.
  - destruct (rlt maxmov (vnorm n d)) eqn:B.
    + destruct (scaled_ok n maxmov dm (vnorm n d) dm d Nd HT) as [d1 [ED1 HD1]]. rewrite ED1. cbn [obind].
      destruct (advance_ok n 1 (pos s) d1 x _ Hx HD1) as [p [EA HAd]]. rewrite EA. cbn [obind pos forces dir fold disp xold alpha dX dG iys isFD isReset step].
      apply FIN; [|discriminate|reflexivity]. refine (holdsv_ext n p _ _ _ HAd). intros i Hi. unfold u, vscale. field. exact Nd.
    + cbn [obind]. destruct (advance_ok n 1 (pos s) dm x _ Hx HT) as [p [EA HAd]]. rewrite EA. cbn [obind pos forces dir fold disp xold alpha dX dG iys isFD isReset step].
      apply FIN; [|discriminate|reflexivity]. refine (holdsv_ext n p _ _ _ HAd). intros i Hi. unfold u. ring.
Qed.
(** The line step after it: with slopes g0 before and g1 after the trial step, both along the unit direction d, the
    atoms go to the zero of the secant, if it lies within maxmov of the start (measured at the middle of the trial
    step); otherwise a step of maxmov counted from the start; upwards-curved lines get a further maxmov. *)
Theorem C57_line_step : forall (n m : nat) (finit maxmov icurv0 : R) (lineopt : bool) (s : lb) (x x0 F f0 d : vecR),
  (1 <= n)%nat -> (1 <= m)%nat -> (0 < finit)%R -> (0 < maxmov)%R -> isFD s = false ->
  holdsv n 0 (pos s) x -> holdsv n 0 (xold s) x0 -> holdsv n 0 (forces s) F -> holdsv n 0 (fold s) f0 -> holdsv n 0 (dir s) d ->
  let g0 := rdot n f0 d in let g1 := rdot n F d in let slope t := (g0 + (g1 - g0) / finit * t)%R in
  g0 <> g1 ->
  exists s' c, move n m finit maxmov false lineopt icurv0 s = Ok s' /\ holdsv n 0 (pos s') (fun i => x i + c * d i)%R /\
    holdsv n 0 (disp s') (fun i => x i + c * d i - x0 i)%R /\ isFD s' = true /\
    ((g0 < g1)%R -> c = maxmov) /\
    ((g1 < g0)%R -> forall t, slope (t + finit / 2)%R = 0%R ->
       ((Rabs t <= maxmov)%R -> slope (finit + c)%R = 0%R) /\
       ((maxmov < t)%R -> c = (maxmov - finit)%R) /\ ((t < - maxmov)%R -> c = (finit - maxmov)%R)).
Proof.
  intros n m finit maxmov icurv0 lineopt s x x0 F f0 d Hn Hm Hfi Hmm E1 Hx Hx0 HF Hf Hd g0 g1 slope NE.
  unfold move. rewrite E1. unfold line_step.
  rewrite (dot_ok n _ _ _ _ _ _ f0 d) by (try assumption; lia). rewrite (dot_ok n _ _ _ _ _ _ F d) by (try assumption; lia). cbn [obind].
  fold g0 g1. unfold rdiv. destruct (Req_EM_T finit 0) as [Q|_]; [lra|]. cbn [obind].
  set (k := ((g0 - g1) / finit)%R).
  assert (FIN : forall c, exists p dn, advance n c (pos s) (dir s) = Ok p /\ holdsv n 0 p (fun i => x i + c * d i)%R /\
     forn n (fun i ds => do x <- rdm (Z.of_nat n) p i ; do o <- rdm (Z.of_nat n) (xold s) i ; wrm (Z.of_nat n) ds i (x - o)%R) (disp s) = Ok dn /\
     holdsv n 0 dn (fun i => x i + c * d i - x0 i)%R).
  { intros c. destruct (advance_ok n c (pos s) (dir s) x d Hx Hd) as [p [EA HAd]]. exists p.
    destruct (disp_ok n m Hn Hm p (xold s) (disp s) x0 (fun i => x i + c * d i - x0 i)%R) as [dn [EN HN]].
    - refine (holdsv_ext n p _ _ _ HAd). intros; ring.
    - exact Hx0.
    - exists dn. auto. }
  destruct (rlt k 0) eqn:L.
  - apply rlt_true in L. cbn [obind]. destruct (FIN maxmov) as [p [dn [EA [HP [EN HN]]]]]. rewrite EA.
    cbn [obind pos forces dir fold disp xold alpha dX dG iys isFD isReset step]. rewrite EN. cbn [obind].
    assert (LT : (g0 < g1)%R).
    { assert (g0 - g1 = k * finit)%R by (unfold k; field; lra). nra. }
    eexists. exists maxmov. split; [reflexivity|]. cbn [pos disp isFD]. split; [exact HP|]. split; [exact HN|]. split; [reflexivity|].
    split; [auto|]. intros; lra.
  - apply rlt_false in L. assert (GK : (g0 - g1 = k * finit)%R) by (unfold k; field; lra).
    assert (KP : (0 < k)%R). { destruct L as [L|L]; [exact L|]. exfalso. apply NE. rewrite <- L in GK. lra. }
    destruct (Req_EM_T k 0) as [Q|_]; [lra|]. cbn [obind].
    set (q := (1 / 2 * (g0 + g1) / k)%R). set (c := if rlt maxmov (Rabs q) then (SIGN maxmov q - SIGN finit q)%R else (q - 1 / 2 * finit)%R).
    destruct (FIN c) as [p [dn [EA [HP [EN HN]]]]]. rewrite EA.
    cbn [obind pos forces dir fold disp xold alpha dX dG iys isFD isReset step]. rewrite EN. cbn [obind].
    eexists. exists c. split; [reflexivity|]. cbn [pos disp isFD]. split; [exact HP|]. split; [exact HN|]. split; [reflexivity|].
    split; [intros; nra|]. intros _ t Ht.
    assert (SL : forall z, slope z = (g0 - k * z)%R).
    { intros z. unfold slope. replace ((g1 - g0) / finit)%R with (- k)%R by (unfold k; field; lra). ring. }
    rewrite SL in Ht. assert (Eq : q = t).
    { unfold q. apply Rmult_eq_reg_r with k; [|lra]. replace (1 / 2 * (g0 + g1) / k * k)%R with (1 / 2 * (g0 + g1))%R by (field; lra).
      assert (g1 = g0 - k * finit)%R by lra. lra. }
    unfold c. rewrite Eq. split; [|split].
    + intros B. destruct (rlt maxmov (Rabs t)) eqn:R1; [apply rlt_true in R1; lra|]. rewrite SL. lra.
    + intros B. assert (R1 : rlt maxmov (Rabs t) = true) by (apply rlt_true; rewrite Rabs_right by lra; lra). rewrite R1.
      unfold SIGN. assert (R2 : rlt t 0 = false) by (apply rlt_false; lra). rewrite R2, !Rabs_right by lra. reflexivity.
    + intros B. assert (R1 : rlt maxmov (Rabs t) = true) by (apply rlt_true; rewrite Rabs_left by lra; lra). rewrite R1.
      unfold SIGN. assert (R2 : rlt t 0 = true) by (apply rlt_true; lra). rewrite R2, !Rabs_right by lra. ring.
Qed.
Print Assumptions C57_direction.
Print Assumptions C57_fixed_step.
Print Assumptions C57_line_step.
Print Assumptions C57_history.
Print Assumptions C57_secant.
Print Assumptions C57_run.
Print Assumptions C57_downhill.
Print Assumptions C57_restart.
Print Assumptions C57_fixed_scale_refuted.
Print Assumptions C57_restart_line_refuted.
Print Assumptions C57_maxmov_refuted.
Print Assumptions C57_no_history_refuted.
