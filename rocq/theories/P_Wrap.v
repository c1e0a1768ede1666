(** C28: periodic wrapping. *)
From Coq Require Import ZArith List Lia Bool QArith Qround Lqa SpecFloat.
From Verif Require Import CBase Spline Wrap.
Import ListNotations.
Local Open Scope Q_scope.

(** After wrapping, every periodic coordinate of every atom is in [0,L) and
    differs from the original by an integer multiple of L; Dirichlet
    coordinates are unchanged and inside the cell. *)
Theorem C28_wrapped : forall BC L ps ps',
  (forall d, 0 < L d) -> wraparound_dynamics BC L ps = Ok ps' ->
  Forall2 (fun p p' => forall d, (d < 3)%nat ->
    (BC d = 0%Z -> 0 <= get d p' /\ get d p' < L d /\ exists k : Z, get d p' == get d p + inject_Z k * L d) /\
    (BC d = 1%Z -> get d p' = get d p /\ 0 <= get d p /\ get d p < L d)) ps ps'.
Proof.
  intros BC L ps ps' HL E. pose proof (wraparound_ok BC L ps ps' HL E) as H.
  clear E. induction H as [|p p' l l' H F IH]; constructor; [|exact IH].
  intros d Hd. destruct (H d Hd) as (A & B & _). split; assumption.
Qed.
Print Assumptions C28_wrapped.

(** The routine fails only for an atom outside a Dirichlet boundary. *)
Theorem C28_fails_only_outside : forall BC L ps,
  (forall d, 0 < L d) ->
  (forall p d, In p ps -> (d < 3)%nat -> BC d = 1%Z -> 0 <= get d p /\ get d p < L d) ->
  exists ps', wraparound_dynamics BC L ps = Ok ps'.
Proof.
  intros BC L ps HL H. unfold wraparound_dynamics.
  assert (T : forall d e ps ps', (d < 3)%nat -> (e < 3)%nat -> e <> d ->
     wrap_dir (BC d) (L d) d ps = Ok ps' ->
     (BC e = 1%Z -> forall p, In p ps -> 0 <= get e p /\ get e p < L e) ->
     (BC e = 1%Z -> forall p, In p ps' -> 0 <= get e p /\ get e p < L e)).
  { intros d e qs qs' Hd He Ne E A Be p Hp. apply wrap_dir_ok in E; [|exact Hd|apply HL].
    induction E as [|a b l l' (_ & R) F IH]; [destruct Hp|].
    destruct Hp as [-> | Hp].
    - rewrite (R e He Ne). apply A; [exact Be | left; reflexivity].
    - apply IH; [|exact Hp]. intros Be' q Hq. apply A; [exact Be' | right; exact Hq]. }
  destruct (wrap_dir_defined (BC 0%nat) (L 0%nat) 0 ps) as (p0 & E0).
  { intros B p Hp. apply H; [exact Hp | lia | exact B]. }
  rewrite E0. cbn [obind].
  assert (A1 : BC 1%nat = 1%Z -> forall p, In p p0 -> 0 <= get 1 p /\ get 1 p < L 1%nat).
  { apply (T 0%nat 1%nat ps p0); try lia; [exact E0|]. intros B p Hp. apply H; [exact Hp | lia | exact B]. }
  assert (A2 : BC 2%nat = 1%Z -> forall p, In p p0 -> 0 <= get 2 p /\ get 2 p < L 2%nat).
  { apply (T 0%nat 2%nat ps p0); try lia; [exact E0|]. intros B p Hp. apply H; [exact Hp | lia | exact B]. }
  destruct (wrap_dir_defined (BC 1%nat) (L 1%nat) 1 p0 A1) as (p1 & E1). rewrite E1. cbn [obind].
  apply wrap_dir_defined. apply (T 1%nat 2%nat p0 p1); try lia; [exact E1 | exact A2].
Qed.
Print Assumptions C28_fails_only_outside.

(** Wrapping twice is wrapping once. *)
Theorem C28_idempotent : forall BC L ps ps',
  (forall d, 0 < L d) -> wraparound_dynamics BC L ps = Ok ps' -> wraparound_dynamics BC L ps' = Ok ps'.
Proof.
  intros BC L ps ps' HL E. pose proof (C28_wrapped BC L ps ps' HL E) as H. clear E.
  assert (G : forall p, In p ps' -> forall d, (d < 3)%nat -> (BC d = 0%Z \/ BC d = 1%Z) -> 0 <= get d p /\ get d p < L d).
  { intros p Hp d Hd B. induction H as [|a b l l' X F IH]; [destruct Hp|]. destruct Hp as [-> | Hp].
    - destruct (X d Hd) as [X0 X1]. destruct B as [B|B].
      + destruct (X0 B) as (A1 & A2 & _). split; assumption.
      + destruct (X1 B) as (A1 & A2 & A3). rewrite A1. split; assumption.
    - apply IH, Hp. }
  unfold wraparound_dynamics.
  rewrite (wrap_dir_fixed (BC 0%nat) (L 0%nat) 0 ps') by (try lia; intros p Hp; apply (G p Hp); lia). cbn [obind].
  rewrite (wrap_dir_fixed (BC 1%nat) (L 1%nat) 1 ps') by (try lia; intros p Hp; apply (G p Hp); lia). cbn [obind].
  apply wrap_dir_fixed; [lia|]. intros p Hp. apply (G p Hp). lia.
Qed.
Print Assumptions C28_idempotent.

Example C28_ex :
  let BC := fun d => match d with 2%nat => 1%Z | _ => 0%Z end in
  let L := fun _ : nat => 5 in
  match wraparound_dynamics BC L [mkPos (-1) 12 3; mkPos 5 (1 # 2) 0] with
  | Ok ps => map (fun p => (Qred (px p), Qred (py p), Qred (pz p))) ps = [(4, 2, 3); (0, 1 # 2, 0)]
  | _ => False end.
Proof. vm_compute. reflexivity. Qed.

(** The variant of the socket driver and of the start-up code: the result is
    equivalent, idempotent, and inside the closed cell; the value L appears
    only for the coordinate L itself. *)
Theorem C28_socket_variant : forall L x, 0 < L ->
  0 <= wrap_socket L x /\ wrap_socket L x <= L /\ (wrap_socket L x == L -> x == L) /\
  (exists k : Z, wrap_socket L x == x + inject_Z k * L) /\
  wrap_socket L (wrap_socket L x) = wrap_socket L x.
Proof.
  intros L x HL. destruct (wrap_socket_ok L x HL) as (A & B & C & D).
  split; [exact A|]. split; [exact B|]. split; [exact C|]. split; [exact D|].
  apply wrap_socket_inside; assumption.
Qed.
Print Assumptions C28_socket_variant.

(** There the cell boundary itself is left outside [0,L). *)
Theorem C28_socket_boundary_refuted : exists L x, 0 < L /\ ~ (wrap_socket L x < L).
Proof. exists 5, 5. split; [reflexivity|]. vm_compute. discriminate. Qed.
Print Assumptions C28_socket_boundary_refuted.

(** In IEEE double arithmetic, with any [fmod] that is the identity on
    arguments smaller than the modulus, a tiny negative coordinate is wrapped
    to L itself, outside [0,L). *)
Definition f_add := SFadd 53 1024.
Definition f_zero := S754_zero false.
Definition wrap_md_f (fmod_f : spec_float -> spec_float -> spec_float) (L x : spec_float) : spec_float :=
  if SFltb x f_zero || negb (SFltb x L) then
    let y := fmod_f x L in f_add y (if SFltb y f_zero then L else f_zero)
  else x.
Theorem C28_float_refuted : forall fmod_f,
  (forall x L, SFltb (SFabs x) (SFabs L) = true -> fmod_f x L = x) ->
  exists L x, SFltb f_zero L = true /\ SFltb (wrap_md_f fmod_f L x) L = false.
Proof.
  intros fm H.
  exists (S754_finite false 5629499534213120 (-49)), (S754_finite true 4503599627370496 (-112)).
  split; [reflexivity|]. unfold wrap_md_f. rewrite H by (vm_compute; reflexivity). vm_compute. reflexivity.
Qed.
Print Assumptions C28_float_refuted.
