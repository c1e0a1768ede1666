(** C41: the Nose-Hoover chain update stays inside the chain. *)
From Coq Require Import ZArith List Lia Bool.
From Verif Require Import CBase IsoPress.
Import ListNotations.
Local Open Scope Z_scope.

(** For every chain length from 2 to L_QMASS, every state and all scalar
    arithmetic: the update is defined when only the entries 0 .. nnos-1 of
    the four chain arrays may be read or written, and C's rule (L_QMASS
    entries accessible) gives the same result. *)
Theorem C41_chain_only : forall K add mul sub div kexp ofZ c nnos s,
  2 <= nnos <= L_QMASS ->
  exists r, iso_press K add mul sub div kexp ofZ nnos c nnos s = Ok r /\
            iso_press K add mul sub div kexp ofZ L_QMASS c nnos s = Ok r.
Proof.
  intros K add mul sub div kexp ofZ c nnos s H.
  destruct (iso_ok K add mul sub div kexp ofZ nnos c nnos s) as [r E]; [lia|].
  exists r. split; [exact E|]. apply (iso_mono K add mul sub div kexp ofZ nnos L_QMASS); [lia | exact E].
Qed.
Print Assumptions C41_chain_only.

(** Chain lengths accepted by the test of Initialize_MD for which the update
    leaves the arrays: 1 (entry -1 is read) and all negative lengths. *)
Theorem C41_accepted_refuted : forall K add mul sub div kexp ofZ c nnos s,
  chain_accepted nnos = true -> nnos < 2 ->
  ~ exists r, iso_press K add mul sub div kexp ofZ L_QMASS c nnos s = Ok r.
Proof.
  intros K add mul sub div kexp ofZ c nnos s _ H [r E].
  exact (iso_bad K add mul sub div kexp ofZ L_QMASS c nnos s r H E).
Qed.
Print Assumptions C41_accepted_refuted.
Example C41_accepted_one : chain_accepted 1 = true /\ chain_accepted (-3) = true /\ chain_accepted 2 = true
  /\ chain_accepted 60 = true /\ chain_accepted 61 = false /\ chain_accepted 0 = false.
Proof. repeat split. Qed.

(** Exactly the chain lengths 2 .. L_QMASS are safe. *)
Theorem C41_safe_iff : forall K add mul sub div kexp ofZ c nnos s, nnos <= L_QMASS ->
  (exists r, iso_press K add mul sub div kexp ofZ L_QMASS c nnos s = Ok r) <-> 2 <= nnos.
Proof.
  intros K add mul sub div kexp ofZ c nnos s H. split.
  - intros [r E]. destruct (Z.le_gt_cases 2 nnos) as [|G]; [assumption|]. exfalso.
    exact (iso_bad K add mul sub div kexp ofZ L_QMASS c nnos s r G E).
  - intros G. apply iso_ok. lia.
Qed.
Print Assumptions C41_safe_iff.

(** The input and restart readers store the masses before any test of the
    count: more than L_QMASS numbers are written past the array, L_QMASS or
    fewer are stored in order. *)
Theorem C41_reader : forall K (vals : list K) a, Z.of_nat (length vals) <= L_QMASS ->
  exists a', read_masses K L_QMASS 0 vals a = Ok a' /\
    forall i x, nth_error vals i = Some x -> a' (Z.of_nat i) = x.
Proof.
  intros K vals a H.
  assert (G : forall vals k a, 0 <= k -> k + Z.of_nat (length vals) <= L_QMASS ->
    exists a', read_masses K L_QMASS k vals a = Ok a' /\
      (forall i x, nth_error vals i = Some x -> a' (k + Z.of_nat i) = x) /\ (forall j, j < k -> a' j = a j)).
  { clear. induction vals as [|v vals IH]; intros k a Hk H.
    - exists a. split; [reflexivity|]. split; [intros [|i] x E; discriminate | auto].
    - cbn [read_masses]. cbn [length] in H. rewrite wr_ok by lia. cbn [obind].
      assert (H1 : 0 <= k + 1) by lia. assert (H2 : k + 1 + Z.of_nat (length vals) <= L_QMASS) by lia.
      destruct (IH (k + 1) (fun j => if j =? k then v else a j) H1 H2) as (a' & E & F & G).
      exists a'. split; [exact E|]. split.
      + intros [|i] x Q; cbn in Q.
        * injection Q as <-. rewrite G by lia. replace (k + Z.of_nat 0) with k by lia. rewrite Z.eqb_refl. reflexivity.
        * rewrite <- (F i x Q). f_equal. clear - Hk. lia.
      + intros j Hj. rewrite G by lia. destruct (Z.eqb_spec j k); [lia | reflexivity]. }
  destruct (G vals 0 a ltac:(lia) ltac:(lia)) as (a' & E & F & _). exists a'. auto.
Qed.
Print Assumptions C41_reader.
Theorem C41_reader_refuted : forall K (vals : list K) a, L_QMASS < Z.of_nat (length vals) ->
  read_masses K L_QMASS 0 vals a = UB.
Proof.
  intros K vals a H.
  assert (G : forall vals k a, 0 <= k <= L_QMASS -> L_QMASS < k + Z.of_nat (length vals) -> read_masses K L_QMASS k vals a = UB).
  { clear. induction vals as [|v vals IH]; intros k a Hk H; cbn [length] in H; [lia|]. cbn [read_masses].
    destruct (Z.eq_dec k L_QMASS) as [->|N]; [rewrite wr_out by lia; reflexivity|].
    rewrite wr_ok by lia. cbn [obind]. apply IH; lia. }
  apply G; unfold L_QMASS in *; lia.
Qed.
Print Assumptions C41_reader_refuted.

(** Non-trivial instance: integer scalars, a chain of 4. *)
Example C41_example :
  let c := Consts Z 8 1 9 2 1 1 in
  let s := Chain Z (fun _ => 0) (fun i => i) (fun _ => 0) (fun _ => 3) 5 100 in
  match iso_press Z Z.add Z.mul Z.sub Z.div (fun _ => 1) (fun z => z) 4 c 4 s with
  | Ok r => negb (glogs Z (fst r) 0 =? 0) && (vlogs Z (fst r) 3 =? 3) && (xlogs Z (fst r) 3 =? 12)
  | _ => false
  end = true.
Proof. vm_compute. reflexivity. Qed.
