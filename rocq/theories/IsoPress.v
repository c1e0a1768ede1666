(** Model of src/md.c:920-1000 [IsoPress] (Nose-Hoover chain update), of the
    chain-length test in [Initialize_MD] (src/md.c:245-253) and of the reader
    of the chain masses (src/readfiles.c:780-785, src/md.c:2441-2448).
    The chain arrays glogs, vlogs, xlogs, NPT_NHqmass (declared with L_QMASS
    entries, src/include/isddft.h:34, 874-879) are functions of the index
    accessed through [rd] and [wr], which are [UB] outside 0 .. bound-1.
    With bound = L_QMASS that is C's rule; with bound = the chain length it
    says that only chain entries are touched.  Scalars are abstract. *)
From Coq Require Import ZArith List Lia Bool.
From Verif Require Import CBase.
Import ListNotations.
Local Open Scope Z_scope.

Definition L_QMASS : Z := 60.

Section IsoPress.
  Variable K : Type.
  Variables (add mul sub div : K -> K -> K) (kexp : K -> K) (ofZ : Z -> K).
  Infix "+'" := add (at level 50, left associativity). Infix "-'" := sub (at level 50, left associativity).
  Infix "*'" := mul (at level 40, left associativity). Infix "/'" := div (at level 40, left associativity).
  Variable bound : Z.

  Definition arr := Z -> K.
  Definition rd (a : arr) (i : Z) : outcome K := if (0 <=? i) && (i <? bound) then Ok (a i) else UB.
  Definition wr (a : arr) (i : Z) (x : K) : outcome arr :=
    if (0 <=? i) && (i <? bound) then Ok (fun j => if j =? i then x else a j) else UB.

  (** The fields of SPARC_OBJ that IsoPress reads or writes. *)
  Record chain := Chain { glogs : arr; vlogs : arr; xlogs : arr; qmass : arr; vlogv : K; KE : K }.
  Record consts := Consts { dt : K; bmass : K; dof : K; ktemp : K; vol : K; dpres : K }.

  (** src/md.c:947 and 970 *)
  Definition glog0 (c : consts) (s : chain) : outcome chain :=
    do v1 <- rd (vlogs s) 1 ; do v0 <- rd (vlogs s) 0 ; do q0 <- rd (qmass s) 0 ;
    let gn1kt := (dof c +' ofZ 1) *' ktemp c in
    let x := ((ofZ 2 *' KE s +' bmass c *' (vlogv s *' vlogv s) -' gn1kt) -' v1 *' v0 *' q0) /' q0 in
    do g <- wr (glogs s) 0 x ;
    Ok (Chain g (vlogs s) (xlogs s) (qmass s) (vlogv s) (KE s)).
  (** src/md.c:948 and 961 *)
  Definition glogv_of (c : consts) (s : chain) (v : K) : outcome K :=
    do v0 <- rd (vlogs s) 0 ;
    Ok ((ofZ 3 *' vol c *' dpres c +' (ofZ 3 /' dof c) *' ofZ 2 *' KE s -' v0 *' v *' bmass c) /' bmass c).
  (** A loop for (i = lo; i < lo + n; i++). *)
  Fixpoint loop (body : Z -> chain -> outcome chain) (lo : Z) (n : nat) (s : chain) : outcome chain :=
    match n with O => Ok s | S n' => do s' <- body lo s ; loop body (lo + 1) n' s' end.
  (** src/md.c:954-956 and 971-973 *)
  Definition vlogs_body (c : consts) (i : Z) (s : chain) : outcome chain :=
    do g <- rd (glogs s) i ; do v <- rd (vlogs s) i ;
    do vl <- wr (vlogs s) i (v +' dt c /' ofZ 4 *' g) ;
    Ok (Chain (glogs s) vl (xlogs s) (qmass s) (vlogv s) (KE s)).
  (** src/md.c:964-966 *)
  Definition xlogs_body (c : consts) (i : Z) (s : chain) : outcome chain :=
    do v <- rd (vlogs s) i ; do x <- rd (xlogs s) i ;
    do xl <- wr (xlogs s) i (x +' v *' dt c /' ofZ 2) ;
    Ok (Chain (glogs s) (vlogs s) xl (qmass s) (vlogv s) (KE s)).
  (** src/md.c:974-976 *)
  Definition glogs_body (c : consts) (i : Z) (s : chain) : outcome chain :=
    do qm <- rd (qmass s) (i - 1) ; do vm <- rd (vlogs s) (i - 1) ;
    do vp <- rd (vlogs s) (i + 1) ; do v <- rd (vlogs s) i ; do q <- rd (qmass s) i ;
    do g <- wr (glogs s) i ((qm *' (vm *' vm) -' ktemp c -' vp *' v *' q) /' q) ;
    Ok (Chain g (vlogs s) (xlogs s) (qmass s) (vlogv s) (KE s)).
  (** src/md.c:977 *)
  Definition glogs_last (c : consts) (nnos : Z) (s : chain) : outcome chain :=
    do qm <- rd (qmass s) (nnos - 2) ; do vm <- rd (vlogs s) (nnos - 2) ; do q <- rd (qmass s) (nnos - 1) ;
    do g <- wr (glogs s) (nnos - 1) ((qm *' (vm *' vm) -' ktemp c) /' q) ;
    Ok (Chain g (vlogs s) (xlogs s) (qmass s) (vlogv s) (KE s)).

  (** src/md.c:920-1000; the particle velocities are scaled by the returned
      factor (lines 979-985). *)
  Definition iso_press (c : consts) (nnos : Z) (s : chain) : outcome (chain * K) :=
    do s <- glog0 c s ;
    do glogv <- glogv_of c s (vlogv s) ;
    do s <- loop (vlogs_body c) 0 (Z.to_nat nnos) s ;
    let nowv := vlogv s +' dt c /' ofZ 4 *' glogv in
    do v0 <- rd (vlogs s) 0 ;
    let odnf := ofZ 1 +' ofZ 3 /' dof c in
    let alocal := kexp (ofZ (-1) *' (dt c /' ofZ 2) *' (v0 +' odnf *' nowv)) in
    let s := Chain (glogs s) (vlogs s) (xlogs s) (qmass s) (vlogv s) (KE s *' (alocal *' alocal)) in
    do glogv <- glogv_of c s nowv ;
    do s <- loop (xlogs_body c) 0 (Z.to_nat nnos) s ;
    let nowv := nowv +' dt c /' ofZ 4 *' glogv in
    do s <- glog0 c s ;
    do s <- loop (vlogs_body c) 0 (Z.to_nat nnos) s ;
    do s <- loop (glogs_body c) 1 (Z.to_nat (nnos - 2)) s ;
    do s <- glogs_last c nnos s ;
    Ok (Chain (glogs s) (vlogs s) (xlogs s) (qmass s) nowv (KE s), alocal).

  (** src/readfiles.c:781-784 (and src/md.c:2442-2445): the masses are stored
      while they are read; [vals] are the numbers in the file. *)
  Fixpoint read_masses (i : Z) (vals : list K) (a : arr) : outcome arr :=
    match vals with [] => Ok a | x :: vals' => do a' <- wr a i x ; read_masses (i + 1) vals' a' end.

  (** ** Lemmas *)
  Lemma rd_ok a i : 0 <= i < bound -> rd a i = Ok (a i).
  Proof. clear add mul sub div kexp ofZ. intros H. unfold rd. destruct (Z.leb_spec 0 i), (Z.ltb_spec i bound); cbn; try lia; reflexivity. Qed.
  Lemma wr_ok a i x : 0 <= i < bound -> wr a i x = Ok (fun j => if j =? i then x else a j).
  Proof. clear add mul sub div kexp ofZ. intros H. unfold wr. destruct (Z.leb_spec 0 i), (Z.ltb_spec i bound); cbn; try lia; reflexivity. Qed.
  Lemma rd_out a i : ~ 0 <= i < bound -> rd a i = UB.
  Proof. clear add mul sub div kexp ofZ. intros H. unfold rd. destruct (Z.leb_spec 0 i), (Z.ltb_spec i bound); cbn; try lia; reflexivity. Qed.
  Lemma wr_out a i x : ~ 0 <= i < bound -> wr a i x = UB.
  Proof. clear add mul sub div kexp ofZ. intros H. unfold wr. destruct (Z.leb_spec 0 i), (Z.ltb_spec i bound); cbn; try lia; reflexivity. Qed.

  Lemma loop_ok body : forall n lo s, (forall i t, lo <= i < lo + Z.of_nat n -> exists t', body i t = Ok t') ->
    exists s', loop body lo n s = Ok s'.
  Proof.
    induction n as [|n IH]; intros lo s H; [eexists; reflexivity|]. cbn [loop].
    destruct (H lo s) as [s1 ->]; [lia|]. cbn [obind]. apply IH. intros i t Hi. apply H. lia.
  Qed.

  Lemma iso_ok c nnos s : 2 <= nnos <= bound -> exists r, iso_press c nnos s = Ok r.
  Proof.
    intros H. unfold iso_press, glog0, glogv_of.
    rewrite !rd_ok by lia. cbn [obind]. rewrite wr_ok by lia. cbn [obind]. rewrite rd_ok by lia. cbn [obind].
    match goal with |- context [loop (vlogs_body c) 0 (Z.to_nat nnos) ?x] =>
      destruct (loop_ok (vlogs_body c) (Z.to_nat nnos) 0 x) as [s1 ->] end.
    { intros i t Hi. unfold vlogs_body. rewrite !rd_ok by lia. cbn [obind]. rewrite wr_ok by lia. cbn [obind]. eexists; reflexivity. }
    cbn [obind]. rewrite !rd_ok by lia. cbn [obind vlogs]. rewrite rd_ok by lia. cbn [obind].
    match goal with |- context [loop (xlogs_body c) 0 (Z.to_nat nnos) ?x] =>
      destruct (loop_ok (xlogs_body c) (Z.to_nat nnos) 0 x) as [s2 ->] end.
    { intros i t Hi. unfold xlogs_body. rewrite !rd_ok by lia. cbn [obind]. rewrite wr_ok by lia. cbn [obind]. eexists; reflexivity. }
    cbn [obind]. rewrite !rd_ok by lia. cbn [obind]. rewrite wr_ok by lia. cbn [obind].
    match goal with |- context [loop (vlogs_body c) 0 (Z.to_nat nnos) ?x] =>
      destruct (loop_ok (vlogs_body c) (Z.to_nat nnos) 0 x) as [s3 ->] end.
    { intros i t Hi. unfold vlogs_body. rewrite !rd_ok by lia. cbn [obind]. rewrite wr_ok by lia. cbn [obind]. eexists; reflexivity. }
    cbn [obind].
    destruct (loop_ok (glogs_body c) (Z.to_nat (nnos - 2)) 1 s3) as [s4 ->].
    { intros i t Hi. unfold glogs_body. rewrite !rd_ok by lia. cbn [obind]. rewrite wr_ok by lia. cbn [obind]. eexists; reflexivity. }
    cbn [obind]. unfold glogs_last. rewrite !rd_ok by lia. cbn [obind]. rewrite wr_ok by lia. cbn [obind]. eexists; reflexivity.
  Qed.

  (** A run always ends by reading entry nnos-2. *)
  Lemma last_bad c nnos s : nnos < 2 -> glogs_last c nnos s = UB.
  Proof. intros H. unfold glogs_last. rewrite rd_out by lia. reflexivity. Qed.
  Lemma iso_bad c nnos s r : nnos < 2 -> iso_press c nnos s <> Ok r.
  Proof.
    intros H E. unfold iso_press in E.
    repeat match type of E with
    | obind ?e _ = Ok _ => let X := fresh "X" in destruct e as [?| |] eqn:X; cbn [obind] in E; try discriminate
    end.
    match goal with X : glogs_last _ _ _ = _ |- _ => rewrite (last_bad _ _ _ H) in X; discriminate X end.
  Qed.
End IsoPress.

(** Enlarging the accessible range does not change a defined result. *)
Section Mono.
  Variable K : Type.
  Variables (add mul sub div : K -> K -> K) (kexp : K -> K) (ofZ : Z -> K).
  Variables b b' : Z.
  Hypothesis Hb : b <= b'.
  Lemma rd_mono (a : arr K) i x : rd K b a i = Ok x -> rd K b' a i = Ok x.
  Proof.
    unfold rd. destruct (Z.leb_spec 0 i), (Z.ltb_spec i b); cbn; try discriminate.
    destruct (Z.ltb_spec i b'); [auto | lia].
  Qed.
  Lemma wr_mono (a : arr K) i x y : wr K b a i x = Ok y -> wr K b' a i x = Ok y.
  Proof.
    unfold wr. destruct (Z.leb_spec 0 i), (Z.ltb_spec i b); cbn; try discriminate.
    destruct (Z.ltb_spec i b'); [auto | lia].
  Qed.
  Ltac mono :=
    repeat match goal with
    | H : obind ?e _ = Ok _ |- _ => let X := fresh "X" in destruct e as [?| |] eqn:X; cbn [obind] in H; try discriminate
    end;
    repeat match goal with
    | X : rd K b _ _ = Ok _ |- _ => apply rd_mono in X; rewrite X; clear X; cbn [obind]
    | X : wr K b _ _ _ = Ok _ |- _ => apply wr_mono in X; rewrite X; clear X; cbn [obind]
    end; auto.
  Lemma glog0_mono c s r : glog0 K add mul sub div ofZ b c s = Ok r -> glog0 K add mul sub div ofZ b' c s = Ok r.
  Proof. unfold glog0. intros H. mono. Qed.
  Lemma glogv_mono c s v r : glogv_of K add mul sub div ofZ b c s v = Ok r -> glogv_of K add mul sub div ofZ b' c s v = Ok r.
  Proof. unfold glogv_of. intros H. mono. Qed.
  Lemma vb_mono c i s r : vlogs_body K add mul div ofZ b c i s = Ok r -> vlogs_body K add mul div ofZ b' c i s = Ok r.
  Proof. unfold vlogs_body. intros H. mono. Qed.
  Lemma xb_mono c i s r : xlogs_body K add mul div ofZ b c i s = Ok r -> xlogs_body K add mul div ofZ b' c i s = Ok r.
  Proof. unfold xlogs_body. intros H. mono. Qed.
  Lemma gb_mono c i s r : glogs_body K mul sub div b c i s = Ok r -> glogs_body K mul sub div b' c i s = Ok r.
  Proof. unfold glogs_body. intros H. mono. Qed.
  Lemma gl_mono c n s r : glogs_last K mul sub div b c n s = Ok r -> glogs_last K mul sub div b' c n s = Ok r.
  Proof. unfold glogs_last. intros H. mono. Qed.
  Lemma loop_mono B B' : (forall i s r, B i s = Ok r -> B' i s = Ok r) ->
    forall n lo (s : chain K) r, loop K B lo n s = Ok r -> loop K B' lo n s = Ok r.
  Proof.
    intros HB. induction n as [|n IH]; intros lo s r H; [exact H|]. cbn [loop] in *.
    destruct (B lo s) as [s1| |] eqn:E; try discriminate. rewrite (HB _ _ _ E). cbn [obind] in *. apply IH. exact H.
  Qed.
  Lemma iso_mono c nnos s r :
    iso_press K add mul sub div kexp ofZ b c nnos s = Ok r -> iso_press K add mul sub div kexp ofZ b' c nnos s = Ok r.
  Proof.
    unfold iso_press. intros H.
    repeat match goal with
    | H : obind ?e _ = Ok _ |- _ => let X := fresh "X" in destruct e as [?| |] eqn:X; cbn [obind] in H; try discriminate
    end.
    repeat match goal with
    | X : rd K b _ _ = Ok _ |- _ => apply rd_mono in X
    | X : glog0 _ _ _ _ _ _ b _ _ = Ok _ |- _ => apply glog0_mono in X
    | X : glogv_of _ _ _ _ _ _ b _ _ _ = Ok _ |- _ => apply glogv_mono in X
    | X : glogs_last _ _ _ _ b _ _ _ = Ok _ |- _ => apply gl_mono in X
    | X : loop K (vlogs_body _ _ _ _ _ b _) _ _ _ = Ok _ |- _ => apply (loop_mono _ _ (vb_mono _)) in X
    | X : loop K (xlogs_body _ _ _ _ _ b _) _ _ _ = Ok _ |- _ => apply (loop_mono _ _ (xb_mono _)) in X
    | X : loop K (glogs_body _ _ _ _ b _) _ _ _ = Ok _ |- _ => apply (loop_mono _ _ (gb_mono _)) in X
    end.
    repeat match goal with X : _ = Ok _ |- context [obind ?e _] => rewrite X; clear X; cbn [obind] end.
    exact H.
  Qed.
End Mono.

(** src/md.c:247-253: the only test on the chain length (on rank 0 it
    exits, elsewhere it falls through). *)
Definition chain_accepted (nnos : Z) : bool := negb ((nnos =? 0) || (L_QMASS <? nnos)).
