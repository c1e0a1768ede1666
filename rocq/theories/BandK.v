(** Band-structure k-points (src/initialization.c:65-180 and 2629-2637).

    Simplifications: real arithmetic; the arrays k1, k2, k3, kptWts share one
    length (Nkpts_sym) and one index pattern and are kept together (the weight
    is always 1), likewise k1_inpt_kpt.. (L_kpoint entries) and kredx.. *)
From Coq Require Import Reals List Lia Lra ZArith Bool.
From Verif Require Import CBase.
Import ListNotations.
Local Open Scope R_scope.

Record vec := V { vx : R; vy : R; vz : R }.
Definition vadd a b := V (vx a + vx b) (vy a + vy b) (vz a + vz b).
Definition vsub a b := V (vx a - vx b) (vy a - vy b) (vz a - vz b).
Definition vscale c a := V (c * vx a) (c * vy a) (c * vz a).
Definition dot a b := vx a * vx b + vy a * vy b + vz a * vz b.
(** src/initialization.c:65-73 *)
Definition Cross_Product (a b : vec) : vec :=
  V (vy a * vz b - vz a * vy b) (vz a * vx b - vx a * vz b) (vx a * vy b - vy a * vx b).
(** src/initialization.c:97-119 *)
Definition volume (a1 a2 a3 : vec) : R := dot (Cross_Product a2 a3) a1.
Definition recip (x y a1 a2 a3 : vec) : vec :=
  let c := Cross_Product x y in
  V (2 * PI * vx c / volume a1 a2 a3) (2 * PI * vy c / volume a1 a2 a3) (2 * PI * vz c / volume a1 a2 a3).
Definition b1 a1 a2 a3 := recip a2 a3 a1 a2 a3.
Definition b2 a1 a2 a3 := recip a3 a1 a1 a2 a3.
Definition b3 a1 a2 a3 := recip a1 a2 a1 a2 a3.
(** src/initialization.c:122-124 and repeated below: kred in the reciprocal basis *)
Definition to_cart (a1 a2 a3 k : vec) : vec :=
  vadd (vadd (vscale (vx k) (b1 a1 a2 a3)) (vscale (vy k) (b2 a1 a2 a3))) (vscale (vz k) (b3 a1 a2 a3)).

(** src/include/isddft.h:36 *)
Definition L_kpoint : nat := 512.
(** cell i of (k1,k2,k3) and of (k1_inpt_kpt,..); None: not written *)
Record kmem := KM { kc : nat -> option vec; ki : nat -> option vec }.
Definition upd {A} (f : nat -> A) i v := fun j => if (j =? i)%nat then v else f j.

Section Run.
  Variables (a1 a2 a3 : vec) (capk : nat) (kred : nat -> vec).
  Definition rd (i : nat) : outcome vec := if (i <? L_kpoint)%nat then Ok (kred i) else UB.
  (** one group of seven stores, e.g. src/initialization.c:122-128 *)
  Definition put (st : kmem) (i : nat) (r : vec) : outcome kmem :=
    if (i <? capk)%nat && (i <? L_kpoint)%nat
    then Ok (KM (upd (kc st) i (Some (to_cart a1 a2 a3 r))) (upd (ki st) i (Some r))) else UB.
  Fixpoint oloop {S} (f : S -> nat -> outcome S) (l : list nat) (s : S) : outcome S :=
    match l with [] => Ok s | i :: r => do s' <- f s i ; oloop f r s' end.
  (** src/initialization.c:121-129 *)
  Definition loop1 (n : nat) (st : kmem) : outcome kmem :=
    oloop (fun s i => do r <- rd i ; put s i r) (seq 0 (2 * n)) st.
  (** src/initialization.c:147-164, the points between the ends of a line *)
  Definition inner (kppl start : nat) (s e : vec) (st : kmem) : outcome kmem :=
    let alpha := 1 / (INR kppl - 1) in
    let v := vsub e s in
    oloop (fun t j =>
        let d := INR (j - start) in
        put t j (V (vx s + vx v * alpha * d) (vy s + vy v * alpha * d) (vz s + vz v * alpha * d)))
      (seq (start + 1) (kppl - 2)) st.
  (** src/initialization.c:131-165 *)
  Definition line (kppl : nat) (st : kmem) (i : nat) : outcome kmem :=
    let start := (i * kppl)%nat in let end_ := ((i + 1) * kppl - 1)%nat in
    do s <- rd (i * 2) ; do st1 <- put st start s ;
    do e <- rd (i * 2 + 1) ; do st2 <- put st1 end_ e ;
    inner kppl start s e st2.
End Run.
(** src/initialization.c:2629-2637 and 79-180. A negative [kppl] makes the
    allocations fail and the first store faults; with [kppl = 0] the first
    store is already outside the (empty) arrays. *)
Definition calculate_kpts_bandstruct (a1 a2 a3 : vec) (n kppl : Z) (kred : nat -> vec) : outcome kmem :=
  if (n <=? 0)%Z then Ok (KM (fun _ => None) (fun _ => None))
  else if (kppl <? 0)%Z then UB
  else if (INT_MAX <? kppl * n)%Z then UB
  else
    let capk := Z.to_nat (kppl * n) in
    do st <- loop1 a1 a2 a3 capk kred (Z.to_nat n) (KM (fun _ => None) (fun _ => None)) ;
    oloop (line a1 a2 a3 capk kred (Z.to_nat kppl)) (seq 0 (Z.to_nat n)) st.

(** ** Lemmas *)
Lemma oloop_app {S} (f : S -> nat -> outcome S) l k s : oloop f (l ++ k) s = do s' <- oloop f l s ; oloop f k s'.
Proof. revert s; induction l as [|i l IH]; intros s; cbn; [reflexivity|]. destruct (f s i); cbn; auto. Qed.
Lemma oloop_inv {S} (f : S -> nat -> outcome S) (P : nat -> S -> Prop) a n s :
  P a s -> (forall i t, (a <= i < a + n)%nat -> P i t -> exists t', f t i = Ok t' /\ P (Datatypes.S i) t') ->
  exists t, oloop f (seq a n) s = Ok t /\ P (a + n)%nat t.
Proof.
  revert a s. induction n as [|n IH]; intros a s H0 HS; cbn.
  - exists s. rewrite Nat.add_0_r. auto.
  - destruct (HS a s) as [t [E H]]; [lia|exact H0|]. rewrite E. cbn.
    destruct (IH (Datatypes.S a) t H) as [u [Eu Hu]].
    + intros i t' Hi. apply HS. lia.
    + exists u. split; [exact Eu|]. replace (a + Datatypes.S n)%nat with (Datatypes.S a + n)%nat by lia. exact Hu.
Qed.
Lemma oloop_ub {S} (f : S -> nat -> outcome S) a n s :
  (exists i, (a <= i < a + n)%nat /\ forall t, f t i = UB) -> (forall i t, f t i <> Exit) -> oloop f (seq a n) s = UB.
Proof.
  revert a s. induction n as [|n IH]; intros a s [i [Hi Hu]] HE; [lia|]. cbn.
  destruct (Nat.eq_dec i a) as [->|Ni]; [rewrite Hu; reflexivity|].
  destruct (f s a) eqn:E; cbn; [|reflexivity|destruct (HE a s E)].
  apply IH; [|exact HE]. exists i. split; [lia|exact Hu].
Qed.
