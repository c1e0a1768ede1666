(** C25: socket reads; C26: socket protocol; C27: virial. *)
From Coq Require Import ZArith List Lia Bool QArith.
From Verif Require Import CBase Text Socket SocketLem.
Import ListNotations.
Local Open Scope Z_scope.

(** ** C25 *)
(** If the stream delivers enough bytes, in whatever pieces, the routine
    succeeds, the buffer holds the next [len] bytes in order and exactly those
    bytes are consumed. *)
Theorem C25_complete_read : forall c len,
  wf_conn c -> (0 < len)%nat -> (len <= length (stream c))%nat ->
  exists c', readBuffer c len = (0, firstn len (stream c), c') /\
    stream c = firstn len (stream c) ++ stream c' /\ wf_conn c'.
Proof.
  intros c len W L H. pose proof (readBuffer_spec c len W L) as S.
  destruct (readBuffer c len) as [[ret buf] c'].
  apply Nat.leb_le in H. rewrite H in S. destruct S as (-> & -> & S3 & _ & S5).
  exists c'. split; [reflexivity|]. split; assumption.
Qed.
Print Assumptions C25_complete_read.

(** A connection closed before the first byte is reported. *)
Theorem C25_closed_reported : forall c len,
  wf_conn c -> (0 < len)%nat -> stream c = [] -> fails c = false ->
  exists c', readBuffer c len = (-1, [], c').
Proof.
  intros c len W L H F. pose proof (readBuffer_spec c len W L) as S.
  destruct (readBuffer c len) as [[ret buf] c'].
  rewrite H, F in S. cbn [length] in S.
  replace (len <=? 0)%nat with false in S by (symmetry; apply Nat.leb_gt; lia).
  destruct S as (-> & ->). exists c'. reflexivity.
Qed.
Print Assumptions C25_closed_reported.

(** Exactly when a short transfer is reported: the end of the stream before
    the first byte, or an error after exactly one byte. *)
Theorem C25_short_reported_exactly : forall c len,
  wf_conn c -> (0 < len)%nat -> (length (stream c) < len)%nat ->
  let '(ret, buf, _) := readBuffer c len in
  buf = stream c /\
  (ret = -1 <-> (length (stream c) = O /\ fails c = false) \/ (length (stream c) = 1%nat /\ fails c = true)) /\
  (ret = -1 \/ ret = 0).
Proof.
  intros c len W L H. pose proof (readBuffer_spec c len W L) as S.
  destruct (readBuffer c len) as [[ret buf] c'].
  replace (len <=? length (stream c))%nat with false in S by (symmetry; apply Nat.leb_gt; lia).
  destruct S as (S1 & S2). split; [exact S1|].
  destruct (length (stream c)) as [|[|m]]; destruct (fails c); subst ret; split; try (split; [intros | intros [[A B] | [A B]]]; try discriminate; try lia; auto); auto.
Qed.
Print Assumptions C25_short_reported_exactly.

Example C25_ex :
  wf_conn [Data [1;2;3]; Data [4]; Data [5;6;7]] /\
  readBuffer [Data [1;2;3]; Data [4]; Data [5;6;7]] 5 = (0, [1;2;3;4;5], [Data [6;7]]).
Proof.
  split; [|reflexivity]. intros b [H | [H | [H | []]]]; injection H as <-; discriminate.
Qed.

(** Success with fewer than [len] bytes: a connection closed in the middle,
    and a failing call. *)
Theorem C25_short_read_refuted : exists c len,
  wf_conn c /\ (0 < len)%nat /\
  readBuffer c len = (0, [1; 2; 3], []) /\ (3 < len)%nat.
Proof.
  exists [Data [1; 2; 3]], 12%nat. split; [intros b [H | []]; injection H as <-; discriminate|].
  split; [lia|]. split; [reflexivity | lia].
Qed.
Print Assumptions C25_short_read_refuted.
Theorem C25_error_refuted : exists c len,
  wf_conn c /\ (0 < len)%nat /\ fails c = true /\ readBuffer c len = (0, [], []).
Proof.
  exists [Err], 12%nat. split; [intros b [H | []]; discriminate|]. split; [lia|]. split; reflexivity.
Qed.
Print Assumptions C25_error_refuted.

(** ** C26 *)
(** As long as at most [max_niter] positions have been received, every
    message is answered, and the answers are the ones the history calls for:
    HAVEDATA exactly when the newest POSDATA/GETFORCE message is a POSDATA,
    and forces of the newest configuration. *)
Theorem C26_replies_follow_history : forall max_niter es,
  Forall healthy es -> pos_count es <= max_niter ->
  exists s, main_Socket max_niter st0 es = (s, Waiting) /\ replies s = expected [] es.
Proof.
  intros max es H C.
  destruct (main_Socket_open max es [] st0) as (s & E & _ & R).
  - repeat split; reflexivity.
  - exact H.
  - exact C.
  - exists s. split; [exact E | exact R].
Qed.
Print Assumptions C26_replies_follow_history.

(** The number of computed configurations is at most [max_niter] + 1, for
    every message sequence. *)
Theorem C26_bounded : forall max_niter es,
  Z.of_nat (length (computed (fst (main_Socket max_niter st0 es)))) <= Z.max 0 (max_niter + 1).
Proof. intros max es. apply main_Socket_bound; cbn; lia. Qed.
Print Assumptions C26_bounded.

(** A closed connection ends the run normally wherever it happens. *)
Theorem C26_closed_ends_normally : forall max_niter es,
  Forall healthy es -> pos_count es <= max_niter ->
  forall rest, snd (main_Socket max_niter st0 (es ++ Closed :: rest)) = Normal.
Proof.
  intros max es H C rest.
  assert (G : forall es hist s, matches s hist -> Forall healthy es -> pos_count (hist ++ es) <= max ->
    snd (main_Socket max s (es ++ Closed :: rest)) = Normal).
  { clear es H C. induction es as [|e r IH]; intros hist s M H C.
    - cbn [app main_Socket]. destruct (count s <=? max); reflexivity.
    - inversion H as [|? ? He Hr]; subst.
      pose proof (matches_step s hist e M He) as St.
      assert (Hc : count s <= max).
      { destruct M as (M1 & _ & _). rewrite pos_count_app in C. pose proof (pos_count_nonneg (e :: r)). lia. }
      replace (hist ++ e :: r) with ((hist ++ [e]) ++ r) in * by (rewrite <- app_assoc; reflexivity).
      destruct e as [h p wok |]; [|destruct He].
      cbn [app main_Socket]. rewrite (proj2 (Z.leb_le _ _) Hc).
      destruct He as (Hw & Ho & Hp). subst wok.
      pose proof (header_kinds h) as K.
      destruct (read_socket_header h) eqn:EK; try (cbn in K; intuition discriminate); try congruence.
      + exact (IH _ _ St Hr C).
      + destruct (Hp eq_refl) as (c & ->). exact (IH _ _ (St c eq_refl) Hr C).
      + exact (IH _ _ St Hr C).
      + exact (IH _ _ St Hr C). }
  apply (G es [] st0); [repeat split; reflexivity | exact H | exact C].
Qed.
Print Assumptions C26_closed_ends_normally.

(** Header recognition ignores case and whatever follows the keyword. *)
Definition ascii_case (a b : Z) : Prop := tolower a = tolower b.
Theorem C26_header_recognised : forall kw m h pad,
  In (kw, m) [(K_STATUS, MStatus); (K_POSDATA, MPosdata); (K_GETFORCE, MGetforce); (K_SETPARAM, MSetparam)] ->
  Forall2 ascii_case h kw -> read_socket_header (h ++ pad) = m.
Proof.
  intros kw m h pad H F. unfold ascii_case in F. cbn [In] in H.
  destruct H as [H | [H | [H | [H | []]]]]; injection H as <- <-;
    unfold K_STATUS, K_POSDATA, K_GETFORCE, K_SETPARAM in F;
    repeat match goal with
    | X : Forall2 _ _ (_ :: _) |- _ => inversion X; clear X; subst
    | X : Forall2 _ _ [] |- _ => inversion X; clear X; subst
    end;
    unfold read_socket_header, header_is, strcaseeq, K_STATUS, K_POSDATA, K_GETFORCE, K_SETPARAM;
    cbn [length app firstn map];
    repeat match goal with X : tolower ?a = tolower _ |- _ => rewrite X; clear X end; reflexivity.
Qed.
Print Assumptions C26_header_recognised.

(** Writing the forces: success is reported exactly when every write
    returned an even number; complete writes (12, 8, 4, 24 n, 72, 4 bytes)
    qualify and a failed write does not. *)
Theorem C26_force_reply_code : forall rs,
  forces_ret rs = 0 \/ forces_ret rs = -1.
Proof. intros rs. rewrite forces_ret_spec. destruct (forallb Z.even rs); auto. Qed.
Print Assumptions C26_force_reply_code.
Theorem C26_complete_writes_succeed : forall natoms, 0 <= natoms ->
  forces_ret [12; 8; 4; 24 * natoms; 72; 4] = 0.
Proof.
  intros n H. rewrite forces_ret_spec. cbn [forallb].
  replace (Z.even (24 * n)) with true; [reflexivity|]. symmetry. rewrite Z.even_mul. reflexivity.
Qed.
Print Assumptions C26_complete_writes_succeed.
Theorem C26_failed_write_reported : forall rs, In (-1) rs -> forces_ret rs = -1.
Proof.
  intros rs H. rewrite forces_ret_spec.
  destruct (forallb Z.even rs) eqn:E; [|reflexivity].
  rewrite forallb_forall in E. specialize (E _ H). discriminate.
Qed.
Print Assumptions C26_failed_write_reported.
(** A short write of an even number of bytes is taken for success. *)
Theorem C26_short_write_refuted : exists rs full,
  length rs = length full /\ Forall2 Z.le rs full /\ rs <> full /\ forces_ret full = 0 /\ forces_ret rs = 0.
Proof.
  exists [12; 8; 4; 24; 70; 4], [12; 8; 4; 24; 72; 4].
  split; [reflexivity|]. split; [repeat constructor; lia|]. split; [discriminate|]. split; reflexivity.
Qed.
Print Assumptions C26_short_write_refuted.

Definition txt (kw : list Z) : list Z := kw ++ repeat 32 (12 - length kw)%nat.
Example C26_ex :
  let es := [Ev (txt K_STATUS) PosFail true; Ev (txt K_POSDATA) (PosOk 7) true; Ev (txt K_STATUS) PosFail true;
             Ev (txt K_GETFORCE) PosFail true; Ev (txt K_STATUS) PosFail true] in
  Forall healthy es /\ pos_count es = 1 /\ expected [] es = [Ready; HaveData; Force (Some 7); Ready].
Proof.
  cbv zeta. split; [|split; reflexivity].
  repeat constructor; try discriminate; intros H; try discriminate H. exists 7. reflexivity.
Qed.

(** Forces are sent although no position was ever received. *)
Theorem C26_force_without_position_refuted : exists es,
  replies (fst (main_Socket 10 st0 es)) = [Force None].
Proof. exists [Ev (txt K_GETFORCE) PosFail true]. reflexivity. Qed.
Print Assumptions C26_force_without_position_refuted.
(** One more configuration than the limit is computed, and its forces can
    not be fetched: the loop has ended. *)
Theorem C26_limit_refuted : exists max_niter es,
  let '(s, e) := main_Socket max_niter st0 es in
  Z.of_nat (length (computed s)) = max_niter + 1 /\ hasdata s = true /\
  (forall r, main_Socket max_niter s r = (s, Normal)).
Proof.
  exists 1, [Ev (txt K_POSDATA) (PosOk 7) true; Ev (txt K_GETFORCE) PosFail true; Ev (txt K_POSDATA) (PosOk 8) true].
  cbn. split; [reflexivity|]. split; [reflexivity|]. intros r. destruct r; reflexivity.
Qed.
Print Assumptions C26_limit_refuted.
(** The orderly EXIT message ends the run with a failure status. *)
Theorem C26_exit_refuted : exists es,
  es = [Ev (txt K_EXIT) PosFail true] /\ snd (main_Socket 10 st0 es) = Failure.
Proof. eexists. split; reflexivity. Qed.
Print Assumptions C26_exit_refuted.

(** ** C27 *)
(** Independent specification: the symmetric tensor from the six numbers. *)
Definition sym_index (a b : nat) : nat :=
  match a, b with
  | 0, 0 => 0 | 0, 1 => 1 | 1, 0 => 1 | 0, 2 => 2 | 2, 0 => 2 | 1, 1 => 3 | 1, 2 => 4 | 2, 1 => 4 | _, _ => 5
  end%nat.
(** Product of the non-periodic lengths. *)
Definition open_length (c : cell) : Q :=
  ((if bcx c =? 0 then 1 else rx c) * (if bcy c =? 0 then 1 else ry c) * (if bcz c =? 0 then 1 else rz c))%Q.
(** The boundary-condition type as SPARC derives it from the three flags. *)
Definition bc_of (c : cell) : Prop :=
  bc c = match (bcx c =? 0), (bcy c =? 0), (bcz c =? 0) with
         | true, true, true => 2 | false, false, false => 1
         | true, true, false | true, false, true | false, true, true => 3
         | _, _, _ => 4 end.

(** Fully periodic cells: every entry is right, for every stress. *)
Theorem C27_periodic : forall c s i0 v a b,
  calc_stress c <> 0 -> bc c = 2 -> (a < 3)%nat -> (b < 3)%nat ->
  stress_to_virial i0 c s = Ok v ->
  (nth (3 * a + b) v 0 == - nth (sym_index a b) s 0 * (jac c * rx c * ry c * rz c))%Q.
Proof.
  intros c s i0 v a b Hc Hb Ha Hbb E. unfold stress_to_virial in E. cbv zeta in E.
  apply Z.eqb_neq in Hc. rewrite Hc, Hb in E. cbn in E. injection E as <-.
  destruct a as [|[|[|a]]]; [| | | lia]; (destruct b as [|[|[|b]]]; [| | | lia]); reflexivity.
Qed.
Print Assumptions C27_periodic.
Theorem C27_periodic_defined : forall c s i0, calc_stress c <> 0 -> bc c = 2 ->
  exists v, stress_to_virial i0 c s = Ok v /\ length v = 9%nat.
Proof.
  intros c s i0 Hc Hb. unfold stress_to_virial. cbv zeta.
  apply Z.eqb_neq in Hc. rewrite Hc, Hb. cbn. eexists. split; reflexivity.
Qed.
Print Assumptions C27_periodic_defined.

(** Were the counter zero at loop entry, the rescaling by the non-periodic
    lengths would be right for slabs and for wires along x or y. *)
Theorem C27_rescaled_if_counter_zero : forall c s v a b,
  calc_stress c <> 0 -> bc_of c -> bc c <> 1 -> ~ (bc c = 4 /\ bcz c = 0) -> (a < 3)%nat -> (b < 3)%nat ->
  stress_to_virial (Some 0) c s = Ok v ->
  (nth (3 * a + b) v 0 == - nth (sym_index a b) s 0 * (jac c * rx c * ry c * rz c) / open_length c)%Q.
Proof.
  intros c s v a b Hc Hb H1 H4 Ha Hbb E. unfold bc_of in Hb. unfold stress_to_virial in E. cbv zeta in E.
  apply Z.eqb_neq in Hc. rewrite Hc in E. unfold open_length.
  destruct (bcx c =? 0) eqn:Ex; destruct (bcy c =? 0) eqn:Ey; destruct (bcz c =? 0) eqn:Ez;
    rewrite ?Z.eqb_eq in *; rewrite Hb in *; cbn in E; try congruence;
    try (exfalso; apply H4; split; [reflexivity | assumption]);
    injection E as <-;
    (destruct a as [|[|[|a]]]; [| | | lia]); (destruct b as [|[|[|b]]]; [| | | lia]); cbn [nth sym_index Nat.mul Nat.add];
    unfold Qdiv; rewrite ?Qmult_1_l, ?Qmult_1_r; try reflexivity.
Qed.
Print Assumptions C27_rescaled_if_counter_zero.

(** As written the counter has no value: every case that rescales, and the
    zero tensor of isolated systems, is undefined. *)
Theorem C27_uninitialised_refuted : exists c s,
  bc_of c /\ calc_stress c = 1 /\ bc c = 3 /\ stress_to_virial None c s = UB.
Proof.
  exists (mkC 1 1 1 1 0 0 1 3 1 1), [1; 0; 0; 1; 0; 1]%Q.
  repeat split; reflexivity.
Qed.
Print Assumptions C27_uninitialised_refuted.
(** Even with the counter at zero, a wire along z is not rescaled. *)
Theorem C27_wire_z_refuted : exists c s v,
  bc_of c /\ calc_stress c = 1 /\ bc c = 4 /\ bcz c = 0 /\ stress_to_virial (Some 0) c s = Ok v /\
  ~ (nth 0 v 0 == - nth 0 s 0 * (jac c * rx c * ry c * rz c) / open_length c)%Q.
Proof.
  exists (mkC 1 2 2 2 1 1 0 4 1 1), [1; 0; 0; 1; 0; 1]%Q. eexists.
  repeat split; try reflexivity. vm_compute. discriminate.
Qed.
Print Assumptions C27_wire_z_refuted.
Example C27_ex :
  exists v, stress_to_virial None (mkC 1 2 3 4 0 0 0 2 1 1) [1; 2; 3; 4; 5; 6]%Q = Ok v /\
  (nth 5 v 0 == - 5 * 24)%Q.
Proof. eexists. split; [reflexivity|]. reflexivity. Qed.
