(** C74, k-point part: complex numbers and the factors of
    [Vhub_vec_mult_kpt] (/repo/src/xc/hubbard/locOrbRoutines.c:953-959, 1046-1056)
    and of [Calculate_occMat_kpt] (/repo/src/xc/hubbard/occupationMatrix.c:777-800).
    They are those of the nonlocal operator, [bloch1] and [bloch2]. *)
From Coq Require Import ZArith QArith Reals List Lia Lra.
From Coquelicot Require Import Complex.
From Verif Require Import CBase Nloc NlocLem VnlOp VnlKpt Hub HubSpec HubOcc P_Hub P_HubOcc.
Import ListNotations.
Local Open Scope R_scope.

Definition at_image {A} (f : Q * Q * Q -> A) (e : entry) : A := f (e_x e, e_y e, e_z e).

Lemma conj_real x : Cconj (RtoC x) = RtoC x.
Proof.
  apply injective_projections; cbv -[Rplus Rminus Rmult Ropp IZR]; ring.
Qed.

(** With real orbitals, one U per type, and real symmetric matrices (what the
    code stores) the operator is Hermitian at every k-point. *)
Theorem C74_kpt_hermitian : forall k c dV half ts rho pz y x,
  (forall p tr i, In p pz -> In tr (images ts (fst p)) -> exists v, at_ (w_orb (snd tr)) i = RtoC v) ->
  (forall t J r q, In (t, J) (catoms 0 ts) -> (0 <= r < o_np t)%Z -> (0 <= q < o_np t)%Z ->
     at_ (o_uval t) r = at_ (o_uval t) q /\ (exists u, at_ (o_uval t) r = RtoC u) /\
     (exists v, at_ (rho J) (o_np t * r + q)%Z = RtoC v /\ at_ (rho J) (o_np t * q + r)%Z = RtoC v)) ->
  let F := form (RtoC 0) Cplus Cmult Cminus (at_image (bloch1 k c)) (at_image (bloch2 k c)) (RtoC dV) (RtoC half) Cconj ts rho pz in
  F y x = Cconj (F x y).
Proof.
  intros k c dV half ts rho pz y x HO HV F. unfold F.
  apply (C74_hermitian (RtoC 0) (RtoC 1) Cplus Cmult Cminus Copp C_ring_theory (at_image (bloch1 k c)) (at_image (bloch2 k c)) (RtoC dV)
    (RtoC half) Cconj).
  - intros [a b] [a' b']. apply injective_projections; cbn; ring.
  - intros [a b] [a' b']. apply injective_projections; cbn; ring.
  - apply conj_real.
  - intros [a b]. apply injective_projections; cbn; ring.
  - intros e. unfold at_image, bloch1, bloch2. apply injective_projections; cbn; ring.
  - apply conj_real.
  - apply conj_real.
  - intros [a b] [a' b']. apply injective_projections; cbn; ring.
  - intros p tr i Hp Htr. destruct (HO p tr i Hp Htr) as (v & ->). apply conj_real.
  - intros t J r q HJ Hr Hq. destruct (HV t J r q HJ Hr Hq) as (E & (u & U) & v & V1 & V2).
    split; [exact E|]. split; [rewrite U; apply conj_real|]. rewrite V1, V2. symmetry. apply conj_real.
Qed.
Print Assumptions C74_kpt_hermitian.

(** v* N v is real and not negative for every complex v: the sum over k-points
    and bands of w f |.|^2. *)
Theorem C74_kpt_positive : forall dV isq Ns pol nsp s (phk : ogroup (K:=C) -> Z -> entry -> C) ts Gs (t : otype (K:=C)) J v,
  (forall bg G k n, In bg Gs -> In G bg -> (0 <= k < og_nk G)%Z -> (0 <= n < og_ncol G)%Z ->
     exists w f, og_w G k = RtoC w /\ at_ (og_occ G) (occ_at Ns pol s G k n) = RtoC f /\ 0 <= w /\ 0 <= f) ->
  let q := isum (RtoC 0) Cplus 0 (o_np t) (fun r => isum (RtoC 0) Cplus 0 (o_np t) (fun c =>
     Cmult (Cmult (Cconj (v r)) (occ_entry (RtoC 0) Cplus Cmult Cconj dV isq Ns pol nsp s phk ts Gs J r c)) (v c))) in
  Im q = 0 /\ 0 <= Re q.
Proof.
  intros dV isq Ns pol nsp s phk ts Gs t J v H. cbv zeta.
  rewrite (C74_gram (RtoC 0) (RtoC 1) Cplus Cmult Cminus Copp C_ring_theory Cconj dV isq Ns pol nsp s phk).
  - assert (POS : forall A (f : A -> C) l, (forall x, In x l -> Im (f x) = 0 /\ 0 <= Re (f x)) ->
      Im (ksum (RtoC 0) Cplus (map f l)) = 0 /\ 0 <= Re (ksum (RtoC 0) Cplus (map f l))).
    { intros A f l. induction l as [|x l IH]; intros Hl; cbn [map ksum]; [cbn; lra|].
      pose proof (Hl x (or_introl eq_refl)) as [A1 A2]. destruct (IH (fun y h => Hl y (or_intror h))) as [B1 B2].
      destruct (f x) as [a b], (ksum (RtoC 0) Cplus (map f l)) as [a' b']. cbn in *. lra. }
    apply POS. intros bg Hbg. apply POS. intros G HG. apply POS. intros k Hk. apply POS. intros n Hn.
    apply in_zrange in Hk, Hn. cbv zeta. destruct (H bg G k n Hbg HG ltac:(lia) ltac:(lia)) as (w & f & -> & -> & A & B).
    match goal with |- Im (Cmult _ (Cmult ?z _)) = 0 /\ _ => destruct z as [a b] end. cbn. split; [ring|].
    replace (_ - _) with ((w * f) * (a * a + b * b)) by ring.
    apply Rmult_le_pos; [now apply Rmult_le_pos|]. pose proof (Rle_0_sqr a). pose proof (Rle_0_sqr b). unfold Rsqr in *. lra.
  - intros [a b] [a' b']. apply injective_projections; cbn; ring.
  - intros [a b] [a' b']. apply injective_projections; cbn; ring.
  - apply conj_real.
  - intros [a b]. apply injective_projections; cbn; ring.
Qed.
Print Assumptions C74_kpt_positive.

(** One process, one band of value (1, 2) at the node, one orbital of value 1. *)
Definition exk_ts : list (otype (K:=C)) := [OT true 1 1 (Arr 1 (fun _ => RtoC 1))].
Definition exk_G : ogroup (K:=C) :=
  OG 1 0 1 (fun _ => RtoC 1) (Arr 1 (fun _ => RtoC 1))
     [([[Row (Entry 0 0 0 0 1 [0%Z]) (Arr 1 (fun _ => RtoC 1))]], Arr 1 (fun _ => (1, 2)), 1%Z)].
Example C74_kpt_example :
  occ_entry (RtoC 0) Cplus Cmult Cconj (RtoC 1) (RtoC 1) 1 false 1 0 (fun _ _ _ => RtoC 1) exk_ts [[exk_G]] 0 0 0 = RtoC 5.
Proof.
  apply injective_projections; cbv -[Rplus Rminus Rmult Ropp IZR]; ring.
Qed.
