(** Lemmas for XcGrid.v: the functionals at one grid point and their first variation. *)
From Coq Require Import Reals ZArith List Bool Lia Lra String.
From Coquelicot Require Import Coquelicot.
From Verif Require Import CBase Xc XcLem P_Xc XcSpin XcSpinLem P_XcSpin XcGrid.
Import ListNotations.
Local Open Scope R_scope.

Definition dom (r s : R) : Prop := 0 < r /\ sigma_floor < s.
Lemma floor_pos : 0 < sigma_floor. Proof. unfold sigma_floor. lra. Qed.
(** ** One spin *)
Definition rfun : Type := R -> R -> R -> R.
Definition rvar (E V W Z : rfun) (r0 s0 t0 de : R) : Prop :=
  forall (r s u : R -> R) (t r' s' u' : R), r t = r0 -> s t = s0 -> u t = t0 ->
  is_derive r t r' -> is_derive s t s' -> is_derive u t u' ->
  is_derive (fun x => r x * E (r x) (s x) (u x)) t
    ((V r0 s0 t0 + de) * r' + W r0 s0 t0 / 2 * s' + Z r0 s0 t0 * u').
Lemma rvar_plus E V W Z de E2 V2 W2 Z2 de2 r0 s0 t0 : rvar E V W Z r0 s0 t0 de -> rvar E2 V2 W2 Z2 r0 s0 t0 de2 ->
  rvar (fun r s u => E r s u + E2 r s u) (fun r s u => V r s u + V2 r s u) (fun r s u => W r s u + W2 r s u)
       (fun r s u => Z r s u + Z2 r s u) r0 s0 t0 (de + de2).
Proof.
  intros A B r s u t r' s' u' R0 S0 U0 Hr Hs Hu.
  apply (der_ext (fun x => r x * E (r x) (s x) (u x) + r x * E2 (r x) (s x) (u x))); [intros; ring|].
  eapply is_derive_eq; [exact (der_plus _ _ _ _ _ (A r s u t r' s' u' R0 S0 U0 Hr Hs Hu) (B r s u t r' s' u' R0 S0 U0 Hr Hs Hu))|].
  field.
Qed.
Lemma rvar_scal c E V W Z r0 s0 t0 : rvar E V W Z r0 s0 t0 0 ->
  rvar (fun r s u => E r s u * c) (fun r s u => V r s u * c) (fun r s u => W r s u * c) (fun r s u => Z r s u * c) r0 s0 t0 0.
Proof.
  intros A r s u t r' s' u' R0 S0 U0 Hr Hs Hu.
  apply (der_ext (fun x => c * (r x * E (r x) (s x) (u x)))); [intros; ring|].
  eapply is_derive_eq; [exact (der_scal _ c _ _ (A r s u t r' s' u' R0 S0 U0 Hr Hs Hu))|]. field.
Qed.
Lemma rvar_de E V W Z r0 s0 t0 de de2 : rvar E V W Z r0 s0 t0 de -> de = de2 -> rvar E V W Z r0 s0 t0 de2.
Proof. now intros H <-. Qed.
Lemma rvar_zero r0 s0 t0 : rvar (fun _ _ _ => 0) (fun _ _ _ => 0) (fun _ _ _ => 0) (fun _ _ _ => 0) r0 s0 t0 0.
Proof.
  intros r s u t r' s' u' _ _ _ _ _ _. apply (der_ext (fun _ => 0)); [intros; ring|]. eapply is_derive_eq; [apply der_const|]. field.
Qed.

Lemma gga_prim g lo : lo <= sigma_floor -> gga_variation g lo -> exists E V W : R -> R -> R,
  (forall r s, dom r s -> g r s = Ok (E r s, V r s, W r s)) /\
  forall r0 s0 t0, dom r0 s0 ->
    rvar (fun r s _ => E r s) (fun r s _ => V r s) (fun r s _ => W r s) (fun _ _ _ => 0) r0 s0 t0 0.
Proof.
  intros L G. exists (fun r s => en3 (g r s)), (fun r s => match g r s with Ok (_, v, _) => v | _ => 0 end),
    (fun r s => match g r s with Ok (_, _, w) => w | _ => 0 end).
  assert (A : forall r s, dom r s -> exists e v w, g r s = Ok (e, v, w)).
  { intros r s [Hr Hs]. destruct (G (fun _ => r) (fun _ => s) 0 0 0 Hr ltac:(lra) (der_const _ _) (der_const _ _)) as (e & v & w & Q & _). eauto. }
  split.
  - intros r s H. destruct (A r s H) as (e & v & w & Q). unfold en3. rewrite Q. reflexivity.
  - intros r0 s0 t0 [D1 D2] r s u t r' s' u' R0 S0 U0 Hr Hs Hu.
    destruct (G r s t r' s' ltac:(lra) ltac:(lra) Hr Hs) as (e & v & w & Q & H). rewrite R0, S0 in Q. rewrite Q.
    eapply is_derive_eq; [exact H|]. field.
Qed.
Lemma lda_prim f r0 s0 t0 : lda_variation f r0 ->
  rvar (fun r _ _ => en2 (f r)) (fun r _ _ => match f r with Ok (_, v) => v | _ => 0 end) (fun _ _ _ => 0) (fun _ _ _ => 0) r0 s0 t0 0.
Proof.
  intros (e & v & Q & H) r s u t r' s' u' R0 S0 U0 Hr Hs Hu. rewrite Q. subst r0.
  eapply is_derive_eq; [exact (der_comp (fun x => x * en2 (f x)) r t _ _ H Hr)|]. field.
Qed.
(** what slater's potential lacks to the derivative of its energy *)
Definition slater_gap (r : R) : R := (C3 - 4 / 3 * C2) * Rpower r (1 / 3).
Lemma slater_gap_bound r : Rabs (slater_gap r) <= / 10 ^ 15 * Rpower r (1 / 3).
Proof.
  unfold slater_gap. pose proof (Rpower_pos r (1 / 3)). rewrite Rabs_mult, (Rabs_right (Rpower _ _)) by lra.
  apply Rmult_le_compat_r; [lra|]. apply Rabs_le. unfold C2, C3. split; lra.
Qed.
Lemma slater_prim r0 s0 t0 : 0 < r0 ->
  rvar (fun r _ _ => en2 (slater r)) (fun r _ _ => match slater r with Ok (_, v) => v | _ => 0 end) (fun _ _ _ => 0) (fun _ _ _ => 0) r0 s0 t0 (slater_gap r0).
Proof.
  intros P r s u t r' s' u' R0 S0 U0 Hr Hs Hu. subst r0.
  apply (der_ext_pos r _ (fun x => - C2 * Rpower (r x) (4 / 3)) t r'); [exact P|exact Hr| |].
  - intros x Hx. unfold slater, en2. rewrite cbrt_pos by exact Hx. replace (4 / 3) with (1 / 3 + 1) by field. rewrite Rpower_plus, Rpower_1 by exact Hx. ring.
  - eapply is_derive_eq; [exact (der_scal _ (- C2) _ _ (der_pow r (4 / 3) t r' P Hr))|].
    unfold slater_gap, slater. rewrite cbrt_pos by exact P. replace (Rpower (r t) (4 / 3)) with (Rpower (r t) (1 / 3) * r t).
    2:{ replace (4 / 3) with (1 / 3 + 1) by field. now rewrite Rpower_plus, Rpower_1. }
    field. lra.
Qed.

(** ** Names *)
Definition names : list string :=
  ["LDA_PZ"; "LDA_PW"; "GGA_PBE"; "GGA_PBEsol"; "GGA_RPBE"; "HF"; "PBE0"; "HSE"; "SCAN"; "RSCAN"; "R2SCAN"; "vdWDF1"; "vdWDF2"]%string.
Lemma ieq_lowers XC n : ieq XC n = true -> lowers XC = lowers n.
Proof. apply String.eqb_eq. Qed.
Lemma ieq_name XC n k : ieq XC n = true -> ieq XC k = ieq n k.
Proof. intros H. apply ieq_lowers in H. unfold ieq. now rewrite H. Qed.
Lemma xc_name XC n e : ieq XC n = true -> xc_decomposition XC e = xc_decomposition n e.
Proof. intros H. unfold xc_decomposition. rewrite !(ieq_name XC n _ H). reflexivity. Qed.
(** usefock is counted up during a run *)
Definition with_fock (c : cfg) (uf : Z) : cfg := Cfg (ixc c) (xo0 c) (xo1 c) (isgrad c) uf (exx c).

Section P1.
  Variables (metax metac : Z -> R -> R -> R -> outcome (R * R * R * R)) (pbexsr : R -> R -> outcome (R * R * R)).
  Definition en4 (o : outcome (R * R * R * R)) : R := match o with Ok (e, _, _, _) => e | _ => 0 end.
  (** a meta-GGA function yields numbers / is the first variation of its energy at one point *)
  Definition meta_total (f : Z -> R -> R -> R -> outcome (R * R * R * R)) : Prop :=
    forall ix r s u, dom r s -> exists e v w z, f ix r s u = Ok (e, v, w, z).
  Definition meta_at (f : R -> R -> R -> outcome (R * R * R * R)) (r0 s0 u0 : R) : Prop :=
    forall (r s u : R -> R) (t r' s' u' : R), r t = r0 -> s t = s0 -> u t = u0 ->
    is_derive r t r' -> is_derive s t s' -> is_derive u t u' ->
    exists e v w z, f r0 s0 u0 = Ok (e, v, w, z) /\
      is_derive (fun x => r x * en4 (f (r x) (s x) (u x))) t (v * r' + w / 2 * s' + z * u').
  (** the same for the short-range exchange, which returns an energy per volume *)
  Definition sr_total : Prop := forall r s, dom r s -> exists e v w, pbexsr r s = Ok (e, v, w).
  Definition sr_at (r0 s0 : R) : Prop :=
    forall (r s : R -> R) (t r' s' : R), r t = r0 -> s t = s0 -> is_derive r t r' -> is_derive s t s' ->
    exists e v w, pbexsr r0 s0 = Ok (e, v, w) /\
      is_derive (fun x => en3 (pbexsr (r x) (s x))) t (v * r' + w / 2 * s').
  Hypothesis Hmx : meta_total metax.
  Hypothesis Hmc : meta_total metac.
  Hypothesis Hsr : sr_total.
  Notation point1 := (point1 metax metac pbexsr).

  Lemma point1_name XC n : ieq XC n = true -> point1 XC = point1 n.
  Proof. intros H. unfold XcGrid.point1, hybrid. rewrite !(ieq_name XC n _ H). reflexivity. Qed.

  Definition sg (c : cfg) (s : R) : option R := if isgrad c then Some s else None.
  (** the output at one point as real functions *)
  Definition out1 (XC : string) (c : cfg) (first : bool) (E V W Z : rfun) : Prop :=
    forall r s u, dom r s -> exists ow oz, point1 XC c first r (sg c s) u = Ok (E r s u, V r s u, ow, oz) /\
      dflt0 ow = W r s u /\ dflt0 oz = Z r s u.
  (** what the functional needs at the point: LDA_PZ away from its kink, HSE and the meta-GGAs on their parameters *)
  Definition prem (XC : string) (c : cfg) (first : bool) (r0 s0 u0 : R) : Prop :=
    (ieq XC "LDA_PZ" = true -> r0 <> C31 ^ 3) /\
    (ieq XC "HSE" = true -> fock_phase (usefock c) = true -> sr_at r0 s0) /\
    (forall i, ixc c = Some (i, i, 1, 0)%Z -> first = false -> meta_at (metax i) r0 s0 u0 /\ meta_at (metac i) r0 s0 u0).
  Definition gap (c : cfg) (r : R) : R := if isgrad c then 0 else slater_gap r.

  Lemma meta_prim f ix r0 s0 u0 : meta_total f -> dom r0 s0 -> meta_at (f ix) r0 s0 u0 ->
    rvar (fun r s u => en4 (f ix r s u)) (fun r s u => match f ix r s u with Ok (_, v, _, _) => v | _ => 0 end)
         (fun r s u => match f ix r s u with Ok (_, _, w, _) => w | _ => 0 end)
         (fun r s u => match f ix r s u with Ok (_, _, _, z) => z | _ => 0 end) r0 s0 u0 0.
  Proof.
    intros T D A r s u t r' s' u' R0 S0 U0 Hr Hs Hu. destruct (A r s u t r' s' u' R0 S0 U0 Hr Hs Hu) as (e & v & w & z & Q & H).
    rewrite Q. eapply is_derive_eq; [exact H|]. field.
  Qed.
  Lemma sr_prim a r0 s0 u0 : sr_total -> dom r0 s0 -> sr_at r0 s0 ->
    rvar (fun r s _ => - (a * en3 (pbexsr r s) / r)) (fun r s _ => - (a * match pbexsr r s with Ok (_, v, _) => v | _ => 0 end))
         (fun r s _ => - (a * match pbexsr r s with Ok (_, _, w) => w | _ => 0 end)) (fun _ _ _ => 0) r0 s0 u0 0.
  Proof.
    intros T [D1 D2] A r s u t r' s' u' R0 S0 U0 Hr Hs Hu. destruct (A r s t r' s' R0 S0 Hr Hs) as (e & v & w & Q & H).
    rewrite Q.
    apply (der_ext_pos r _ (fun x => - a * en3 (pbexsr (r x) (s x))) t r'); [lra|exact Hr| |].
    - intros x Hx. field. lra.
    - eapply is_derive_eq; [exact (der_scal _ (- a) _ _ H)|]. field.
  Qed.

  Lemma pw_ok r : 0 < r -> exists e v, pw r = Ok (e, v).
  Proof. intros H. destruct (C64_pw r H) as [(e & v & Q & _) _]. eauto. Qed.
  Lemma pz_ok r : 0 < r -> exists e v, pz r = Ok (e, v).
  Proof. intros H. destruct (C64_pz r H) as [(v & Q) _]. eauto. Qed.
  Lemma rPW_ok E V W : (forall r s, dom r s -> rPW86x3 r s = Ok (E r s, V r s, W r s)) ->
    forall r s, dom r s -> exists q, rPW86x r s = Ok (E r s, V r s, W r s, q).
  Proof. intros H r s D. specialize (H r s D). unfold rPW86x3 in H. destruct (rPW86x r s) as [[p q]| |]; try discriminate. injection H as ->. eauto. Qed.
  Lemma cdiv_ok a b : b <> 0 -> cdiv a b = Ok (a / b).
  Proof. intros H. unfold cdiv. destruct (Req_EM_T b 0); [contradiction|reflexivity]. Qed.

  Lemma ok4 (a a' b b' : R) (w z : option R) : a = a' -> b = b' -> Ok (a, b, w, z) = Ok (a', b', w, z).
  Proof. now intros -> ->. Qed.
  Lemma hybrid_plain XC c rho sg x : fock_phase (usefock c) = false \/ (ieq XC "PBE0" = false /\ ieq XC "HSE" = false) ->
    hybrid pbexsr XC c rho sg x = Ok x.
  Proof.
    intros H. destruct x as [[[ex vx] v2] v3]. unfold hybrid. destruct H as [->|[-> ->]]; [reflexivity|]. rewrite !andb_false_r. reflexivity.
  Qed.
  Ltac four := do 2 eexists; split; [reflexivity|split; cbn [dflt0]; ring].
  (** PBE-like: pbex and pbec with the same flag *)
  Lemma pbe_var XC c first i : isgrad c = true -> (1 <= i <= 3)%Z ->
    labels c first = Ok (2, 3, (if first then 1 else 0), 0, i, i)%Z \/ labels c first = Ok (2, 3, 0, 0, i, i)%Z ->
    fock_phase (usefock c) = false \/ (ieq XC "PBE0" = false /\ ieq XC "HSE" = false) ->
    exists E V W Z, out1 XC c first E V W Z /\ forall r0 s0 u0, dom r0 s0 -> rvar E V W Z r0 s0 u0 0.
  Proof.
    intros G Hi L H.
    destruct (gga_prim (pbex i) 0 ltac:(pose proof floor_pos; lra) (proj1 (C64_pbex i ltac:(lia)))) as (Ex & Vx & Wx & Ox & Rx).
    destruct (gga_prim (pbec i) 0 ltac:(pose proof floor_pos; lra) (proj1 (C64_pbec i Hi))) as (Ec & Vc & Wc & Oc & Rc).
    do 4 eexists. split; [|intros r0 s0 u0 D0; eapply rvar_de; [exact (rvar_plus _ _ _ _ _ _ _ _ _ _ _ _ _ (Rx r0 s0 u0 D0) (Rc r0 s0 u0 D0))|ring]].
    intros r s u Hd. unfold XcGrid.point1, sg. rewrite G.
    destruct L as [-> | ->]; [destruct first|]; cbn [obind]; unfold exch, corr; cbn [Z.eqb Pos.eqb rdo obind negb andb orb];
      rewrite Ox, Oc by exact Hd; cbn [obind fst snd]; rewrite hybrid_plain by exact H; cbn [obind rdo]; try (destruct first; cbn [negb andb obind]); four.
  Qed.
  Lemma pbe0_var XC c first : isgrad c = true -> labels c first = Ok (2, 3, 0, 0, 1, 1)%Z ->
    fock_phase (usefock c) = true -> ieq XC "PBE0" = true ->
    exists E V W Z, out1 XC c first E V W Z /\ forall r0 s0 u0, dom r0 s0 -> rvar E V W Z r0 s0 u0 0.
  Proof.
    intros G L H1 H2.
    destruct (gga_prim (pbex 1) 0 ltac:(pose proof floor_pos; lra) (proj1 (C64_pbex 1 ltac:(lia)))) as (Ex & Vx & Wx & Ox & Rx).
    destruct (gga_prim (pbec 1) 0 ltac:(pose proof floor_pos; lra) (proj1 (C64_pbec 1 ltac:(lia)))) as (Ec & Vc & Wc & Oc & Rc).
    do 4 eexists. split; [|intros r0 s0 u0 D0; eapply rvar_de; [exact (rvar_plus _ _ _ _ _ _ _ _ _ _ _ _ _ (rvar_scal (1 - exx c) _ _ _ _ _ _ _ (Rx r0 s0 u0 D0)) (Rc r0 s0 u0 D0))|ring]].
    intros r s u Hd. unfold XcGrid.point1, sg. rewrite G, L. cbn [obind]. unfold exch, corr. cbn [Z.eqb Pos.eqb rdo obind negb andb orb].
    rewrite Ox, Oc by exact Hd. cbn [obind fst snd]. unfold hybrid. rewrite H1, H2. cbn [andb rdo obind]. four.
  Qed.
  Lemma hse_var XC c first : isgrad c = true -> labels c first = Ok (2, 3, 0, 0, 1, 1)%Z ->
    fock_phase (usefock c) = true -> ieq XC "PBE0" = false -> ieq XC "HSE" = true ->
    exists E V W Z, out1 XC c first E V W Z /\ forall r0 s0 u0, dom r0 s0 -> sr_at r0 s0 -> rvar E V W Z r0 s0 u0 0.
  Proof.
    intros G L H1 H2 H3.
    destruct (gga_prim (pbex 1) 0 ltac:(pose proof floor_pos; lra) (proj1 (C64_pbex 1 ltac:(lia)))) as (Ex & Vx & Wx & Ox & Rx).
    destruct (gga_prim (pbec 1) 0 ltac:(pose proof floor_pos; lra) (proj1 (C64_pbec 1 ltac:(lia)))) as (Ec & Vc & Wc & Oc & Rc).
    do 4 eexists. split; [|intros r0 s0 u0 D0 A; eapply rvar_de; [exact (rvar_plus _ _ _ _ _ _ _ _ _ _ _ _ _ (rvar_plus _ _ _ _ _ _ _ _ _ _ _ _ _ (Rx r0 s0 u0 D0) (sr_prim (exx c) r0 s0 u0 Hsr D0 A)) (Rc r0 s0 u0 D0))|ring]].
    intros r s u Hd. unfold XcGrid.point1, sg. rewrite G, L. cbn [obind]. unfold exch, corr. cbn [Z.eqb Pos.eqb rdo obind negb andb orb].
    rewrite Ox, Oc by exact Hd. cbn [obind fst snd]. unfold hybrid. rewrite H1, H2, H3. cbn [andb rdo obind].
    destruct Hd as [Hr Hs]. pose proof (conj Hr Hs : dom r s) as Hd. unfold sigma_floor in Hs.
    destruct (Rlt_dec s (/ 10 ^ 14)) as [F|_]; [exfalso; lra|].
    destruct (Hsr r s Hd) as (e & v & w & Q). rewrite Q. unfold en3. cbn [obind]. rewrite cdiv_ok by lra. cbn [obind]. 
    do 2 eexists. split; [apply ok4; ring|split; cbn [dflt0]; ring].
  Qed.
  Lemma lda_var XC c first (ic : Z) (f : R -> outcome (R * R)) : isgrad c = false -> labels c first = Ok (1, ic, 0, 0, 0, 0)%Z ->
    (ic = 1%Z /\ f = pz \/ ic = 2%Z /\ f = pw) -> ieq XC "PBE0" = false -> ieq XC "HSE" = false ->
    exists E V W Z, out1 XC c first E V W Z /\ forall r0 s0 u0, dom r0 s0 -> lda_variation f r0 -> rvar E V W Z r0 s0 u0 (slater_gap r0).
  Proof.
    intros G L Hf H1 H2.
    do 4 eexists. split; [|intros r0 s0 u0 D0 A; eapply rvar_de; [exact (rvar_plus _ _ _ _ _ _ _ _ _ _ _ _ _ (slater_prim r0 s0 u0 (proj1 D0)) (lda_prim f r0 s0 u0 A))|ring]].
    intros r s u [Hr _]. unfold XcGrid.point1, sg. rewrite G, L. cbn [obind]. unfold exch, corr, slater.
    destruct Hf as [[-> ->]|[-> ->]]; cbn [Z.eqb Pos.eqb rdo obind negb andb orb fst snd];
      [destruct (pz_ok r Hr) as (e & v & Q)|destruct (pw_ok r Hr) as (e & v & Q)]; rewrite Q; cbn [obind fst snd];
      rewrite hybrid_plain by tauto; cbn [obind en2]; four.
  Qed.
  Lemma vdw_var XC c first ix o0 i3 o1 g : isgrad c = true -> labels c first = Ok (ix, 2, 0, i3, o0, o1)%Z -> i3 <> 0%Z ->
    (ix = 2%Z /\ o0 = 4%Z /\ g = pbex 4 \/ ix = 3%Z /\ g = rPW86x3) -> ieq XC "PBE0" = false -> ieq XC "HSE" = false ->
    exists E V W Z, out1 XC c first E V W Z /\ forall r0 s0 u0, dom r0 s0 -> rvar E V W Z r0 s0 u0 0.
  Proof.
    intros G L Hi3 Hg H1 H2.
    assert (Q : exists lo, lo <= sigma_floor /\ gga_variation g lo).
    { destruct Hg as [(_ & _ & ->)|(_ & ->)]; [exists 0|exists sigma_floor]; (split; [pose proof floor_pos; lra|]).
      - exact (proj1 (C64_pbex 4 ltac:(lia))).
      - exact (proj1 C64_rPW86x). }
    destruct Q as (lo & Hlo & Gv). destruct (gga_prim g lo Hlo Gv) as (Ex & Vx & Wx & Ox & Rx).
    do 4 eexists. split; [|intros r0 s0 u0 D0; eapply rvar_de; [exact (rvar_plus _ _ _ _ _ _ _ _ _ _ _ _ _ (Rx r0 s0 u0 D0) (lda_prim pw r0 s0 u0 (proj1 (C64_pw r0 (proj1 D0)))))|ring]].
    intros r s u Hd. unfold XcGrid.point1, sg. rewrite G, L. cbn [obind]. unfold exch, corr. cbn [Z.eqb Pos.eqb].
    destruct (pw_ok r (proj1 Hd)) as (e & v & Q). rewrite Q. replace (negb (i3 =? 0)%Z) with true by lia.
    destruct Hg as [(-> & -> & ->)|(-> & ->)]; cbn [Z.eqb Pos.eqb rdo obind negb andb orb fst snd].
    - rewrite Ox by exact Hd. cbn [obind fst snd]. rewrite hybrid_plain by tauto. cbn [obind rdo en2]. four.
    - destruct (rPW_ok _ _ _ Ox r s Hd) as [q Q2]. rewrite Q2. cbn [obind fst snd]. rewrite hybrid_plain by tauto. cbn [obind rdo en2]. four.
  Qed.
  Lemma meta_var XC c i : isgrad c = true -> labels c false = Ok (i, i, 1, 0, 0, 0)%Z -> (4 <= i <= 6)%Z ->
    ieq XC "PBE0" = false -> ieq XC "HSE" = false ->
    exists E V W Z, out1 XC c false E V W Z /\
      forall r0 s0 u0, dom r0 s0 -> meta_at (metax i) r0 s0 u0 -> meta_at (metac i) r0 s0 u0 -> rvar E V W Z r0 s0 u0 0.
  Proof.
    intros G L Hi H1 H2.
    do 4 eexists. split; [|intros r0 s0 u0 D0 A B; eapply rvar_de; [exact (rvar_plus _ _ _ _ _ _ _ _ _ _ _ _ _ (meta_prim metax i r0 s0 u0 Hmx D0 A) (meta_prim metac i r0 s0 u0 Hmc D0 B))|ring]].
    intros r s u Hd. unfold XcGrid.point1, sg. rewrite G, L. cbn [obind]. unfold exch, corr. cbn [negb andb Z.eqb Pos.eqb rdo obind].
    replace (i =? 1)%Z with false by lia. replace (i =? 2)%Z with false by lia. replace (i =? 3)%Z with false by lia.
    replace ((i =? 4) || (i =? 5) || (i =? 6))%Z with true by lia.
    destruct (Hmx i r s u Hd) as (e & v & w & z & Q). rewrite Q. destruct (Hmc i r s u Hd) as (e2 & v2 & w2 & z2 & Q2). rewrite Q2.
    cbn [obind fst snd]. rewrite hybrid_plain by tauto. cbn [obind rdo en4]. four.
  Qed.

  Lemma point1_var XC exx0 uf first : (exists n, In n names /\ ieq XC n = true) ->
    let c := with_fock (xc_decomposition XC exx0) uf in
    exists E V W Z, out1 XC c first E V W Z /\
      forall r0 s0 u0, dom r0 s0 -> prem XC c first r0 s0 u0 -> rvar E V W Z r0 s0 u0 (gap c r0).
  Proof.
    intros (n & Hn & HX) c.
    assert (HI : forall k, ieq XC k = ieq n k) by (intros k; exact (ieq_name XC n k HX)).
    subst c. unfold prem. rewrite (xc_name XC n exx0 HX). rewrite !HI.
    unfold names in Hn. cbn [In] in Hn.
    Ltac fin := do 4 eexists; split; [eassumption|]; intros r0 s0 u0 D0 (P1 & P2 & P3).
    Ltac pbe HI := right; rewrite !HI; split; reflexivity.
    repeat match type of Hn with _ \/ _ => destruct Hn as [<-|Hn] end; try contradiction; set (c := with_fock _ uf).
    - destruct (lda_var XC c first 1 pz) as (E & V & W & Z & O & Q); try reflexivity; try (rewrite HI; reflexivity); [auto|]. fin.
      apply Q; [exact D0|]. apply C64_pz; [apply D0|]. apply P1. reflexivity.
    - destruct (lda_var XC c first 2 pw) as (E & V & W & Z & O & Q); try reflexivity; try (rewrite HI; reflexivity); [auto|]. fin.
      apply Q; [exact D0|]. apply C64_pw. apply D0.
    - destruct (pbe_var XC c first 1) as (E & V & W & Z & O & Q); try reflexivity; [lia|right; reflexivity|pbe HI|]. fin. now apply Q.
    - destruct (pbe_var XC c first 2) as (E & V & W & Z & O & Q); try reflexivity; [lia|right; reflexivity|pbe HI|]. fin. now apply Q.
    - destruct (pbe_var XC c first 3) as (E & V & W & Z & O & Q); try reflexivity; [lia|right; reflexivity|pbe HI|]. fin. now apply Q.
    - destruct (pbe_var XC c first 1) as (E & V & W & Z & O & Q); try reflexivity; [lia|right; reflexivity|pbe HI|]. fin. now apply Q.
    - destruct (fock_phase uf) eqn:U.
      + destruct (pbe0_var XC c first) as (E & V & W & Z & O & Q); try reflexivity; [exact U|rewrite HI; reflexivity|]. fin. now apply Q.
      + destruct (pbe_var XC c first 1) as (E & V & W & Z & O & Q); try reflexivity; [lia|right; reflexivity|left; exact U|]. fin. now apply Q.
    - destruct (fock_phase uf) eqn:U.
      + destruct (hse_var XC c first) as (E & V & W & Z & O & Q); try reflexivity; [exact U|rewrite HI; reflexivity|rewrite HI; reflexivity|]. fin.
        apply Q; [exact D0|]. apply P2; [reflexivity|exact U].
      + destruct (pbe_var XC c first 1) as (E & V & W & Z & O & Q); try reflexivity; [lia|right; reflexivity|left; exact U|]. fin. now apply Q.
    - destruct first.
      + destruct (pbe_var XC c true 1) as (E & V & W & Z & O & Q); try reflexivity; [lia|left; reflexivity|pbe HI|]. fin. now apply Q.
      + destruct (meta_var XC c 4) as (E & V & W & Z & O & Q); try reflexivity; try (rewrite HI; reflexivity); try lia. fin.
        apply Q; [exact D0| |]; apply (P3 4%Z eq_refl eq_refl).
    - destruct first.
      + destruct (pbe_var XC c true 1) as (E & V & W & Z & O & Q); try reflexivity; [lia|left; reflexivity|pbe HI|]. fin. now apply Q.
      + destruct (meta_var XC c 5) as (E & V & W & Z & O & Q); try reflexivity; try (rewrite HI; reflexivity); try lia. fin.
        apply Q; [exact D0| |]; apply (P3 5%Z eq_refl eq_refl).
    - destruct first.
      + destruct (pbe_var XC c true 1) as (E & V & W & Z & O & Q); try reflexivity; [lia|left; reflexivity|pbe HI|]. fin. now apply Q.
      + destruct (meta_var XC c 6) as (E & V & W & Z & O & Q); try reflexivity; try (rewrite HI; reflexivity); try lia. fin.
        apply Q; [exact D0| |]; apply (P3 6%Z eq_refl eq_refl).
    - destruct (vdw_var XC c first 2 4 1 0 (pbex 4)) as (E & V & W & Z & O & Q); try reflexivity; try (rewrite HI; reflexivity); [lia|auto|]. fin. now apply Q.
    - destruct (vdw_var XC c first 3 0 2 0 rPW86x3) as (E & V & W & Z & O & Q); try reflexivity; try (rewrite HI; reflexivity); [lia|auto|]. fin. now apply Q.
  Qed.
End P1.

(** ** Two spins. A state is a vector y: the densities y 0 (up) and y 1 (dn), the squared gradients y 2 (of the
    total), y 3 (up) and y 4 (dn), and the kinetic energy densities y 5 (up) and y 6 (dn). *)
Definition vec7 : Type := nat -> R.
Definition sfun : Type := vec7 -> R.
Definition dom3 (y : vec7) : Prop :=
  0 < y 0%nat /\ 0 < y 1%nat /\ sigma_floor < y 2%nat /\ sigma_floor < y 3%nat /\ sigma_floor < y 4%nat.
Definition lin7 (g y' : nat -> R) : R :=
  g 0%nat * y' 0%nat + g 1%nat * y' 1%nat + g 2%nat / 2 * y' 2%nat + g 3%nat / 2 * y' 3%nat + g 4%nat / 2 * y' 4%nat
  + g 5%nat * y' 5%nat + g 6%nat * y' 6%nat.
Definition svar (E : sfun) (G : nat -> sfun) (y0 : vec7) : Prop :=
  forall (y : R -> vec7) (t : R) (y' : vec7), y t = y0 -> (forall k, is_derive (fun x => y x k) t (y' k)) ->
  is_derive (fun x => (y x 0%nat + y x 1%nat) * E (y x)) t (lin7 (fun k => G k y0) y').
Lemma svar_plus E G E2 G2 y0 : svar E G y0 -> svar E2 G2 y0 -> svar (fun y => E y + E2 y) (fun k y => G k y + G2 k y) y0.
Proof.
  intros A B y t y' Y Hy.
  apply (der_ext (fun x => (y x 0%nat + y x 1%nat) * E (y x) + (y x 0%nat + y x 1%nat) * E2 (y x))); [intros; ring|].
  eapply is_derive_eq; [exact (der_plus _ _ _ _ _ (A y t y' Y Hy) (B y t y' Y Hy))|]. unfold lin7. field.
Qed.
Lemma svar_scal c E G y0 : svar E G y0 -> svar (fun y => E y * c) (fun k y => G k y * c) y0.
Proof.
  intros A y t y' Y Hy. apply (der_ext (fun x => c * ((y x 0%nat + y x 1%nat) * E (y x)))); [intros; ring|].
  eapply is_derive_eq; [exact (der_scal _ c _ _ (A y t y' Y Hy))|]. unfold lin7. field.
Qed.
Definition sel (l : list R) (k : nat) : R := nth k l 0.

Lemma lsda_prim f : lsda_variation f -> exists (E Vu Vd : R -> R -> R),
  (forall u d, 0 < u -> 0 < d -> f (u + d) u d = Ok (E u d, Vu u d, Vd u d)) /\
  forall y0, dom3 y0 -> svar (fun y => E (y 0%nat) (y 1%nat)) (fun k y => sel [Vu (y 0%nat) (y 1%nat); Vd (y 0%nat) (y 1%nat)] k) y0.
Proof.
  intros H. exists (fun u d => en3 (f (u + d) u d)), (fun u d => match f (u + d) u d with Ok (_, v, _) => v | _ => 0 end),
    (fun u d => match f (u + d) u d with Ok (_, _, v) => v | _ => 0 end). split.
  - intros u d Hu Hd. destruct (H (fun _ => u) (fun _ => d) 0 0 0 Hu Hd (der_const _ _) (der_const _ _)) as (e & vu & vd & Q & _).
    unfold en3. rewrite Q. reflexivity.
  - intros y0 (D0 & D1 & _) y t y' Y Hy. subst y0.
    destruct (H (fun x => y x 0%nat) (fun x => y x 1%nat) t _ _ D0 D1 (Hy 0%nat) (Hy 1%nat)) as (e & vu & vd & Q & A).
    rewrite Q. eapply is_derive_eq; [exact A|]. unfold lin7, sel. cbn [nth]. field.
Qed.
Lemma ggax_prim f lo : lo <= sigma_floor -> ggax_variation f lo -> exists (E Vu Vd Wu Wd : R -> R -> R -> R -> R),
  (forall u d a b, 0 < u -> 0 < d -> sigma_floor < a -> sigma_floor < b ->
     f (u + d) u d a b = Ok (E u d a b, (Vu u d a b, Vd u d a b), (Wu u d a b, Wd u d a b))) /\
  forall y0, dom3 y0 -> svar (fun y => E (y 0%nat) (y 1%nat) (y 3%nat) (y 4%nat))
    (fun k y => let u := y 0%nat in let d := y 1%nat in let a := y 3%nat in let b := y 4%nat in
                sel [Vu u d a b; Vd u d a b; 0; Wu u d a b; Wd u d a b] k) y0.
Proof.
  intros L H. exists (fun u d a b => enx (f (u + d) u d a b)),
    (fun u d a b => match f (u + d) u d a b with Ok (_, (v, _), _) => v | _ => 0 end),
    (fun u d a b => match f (u + d) u d a b with Ok (_, (_, v), _) => v | _ => 0 end),
    (fun u d a b => match f (u + d) u d a b with Ok (_, _, (w, _)) => w | _ => 0 end),
    (fun u d a b => match f (u + d) u d a b with Ok (_, _, (_, w)) => w | _ => 0 end). split.
  - intros u d a b Hu Hd Ha Hb.
    destruct (H (fun _ => u) (fun _ => d) (fun _ => a) (fun _ => b) 0 0 0 0 0 Hu Hd ltac:(lra) ltac:(lra) (der_const _ _) (der_const _ _) (der_const _ _) (der_const _ _))
      as (e & vu & vd & wu & wd & Q & _).
    unfold enx. rewrite Q. reflexivity.
  - intros y0 (D0 & D1 & D2 & D3 & D4) y t y' Y Hy. subst y0.
    destruct (H (fun x => y x 0%nat) (fun x => y x 1%nat) (fun x => y x 3%nat) (fun x => y x 4%nat) t _ _ _ _ D0 D1 ltac:(lra) ltac:(lra) (Hy 0%nat) (Hy 1%nat) (Hy 3%nat) (Hy 4%nat))
      as (e & vu & vd & wu & wd & Q & A).
    cbv zeta. rewrite Q. eapply is_derive_eq; [exact A|]. unfold lin7, sel. cbn [nth]. field.
Qed.
Lemma ggac_prim f : ggac_variation f -> exists (E Vu Vd W : R -> R -> R -> R),
  (forall u d s, 0 < u -> 0 < d -> sigma_floor < s -> f (u + d) u d s = Ok (E u d s, (Vu u d s, Vd u d s), W u d s)) /\
  forall y0, dom3 y0 -> svar (fun y => E (y 0%nat) (y 1%nat) (y 2%nat))
    (fun k y => let u := y 0%nat in let d := y 1%nat in let s := y 2%nat in sel [Vu u d s; Vd u d s; W u d s] k) y0.
Proof.
  intros H. pose proof floor_pos as FP. exists (fun u d s => enc (f (u + d) u d s)),
    (fun u d s => match f (u + d) u d s with Ok (_, (v, _), _) => v | _ => 0 end),
    (fun u d s => match f (u + d) u d s with Ok (_, (_, v), _) => v | _ => 0 end),
    (fun u d s => match f (u + d) u d s with Ok (_, _, w) => w | _ => 0 end). split.
  - intros u d s Hu Hd Hs.
    destruct (H (fun _ => u) (fun _ => d) (fun _ => s) 0 0 0 0 Hu Hd ltac:(lra) (der_const _ _) (der_const _ _) (der_const _ _)) as (e & vu & vd & w & Q & _).
    unfold enc. rewrite Q. reflexivity.
  - intros y0 (D0 & D1 & D2 & _) y t y' Y Hy. subst y0.
    destruct (H (fun x => y x 0%nat) (fun x => y x 1%nat) (fun x => y x 2%nat) t _ _ _ D0 D1 ltac:(lra) (Hy 0%nat) (Hy 1%nat) (Hy 2%nat)) as (e & vu & vd & w & Q & A).
    cbv zeta. rewrite Q. eapply is_derive_eq; [exact A|]. unfold lin7, sel. cbn [nth]. field.
Qed.

Section P3.
  Variable metax_s : Z -> R * R * R -> R * R * R -> R * R * R -> outcome (R * (R * R) * (R * R) * (R * R)).
  Variable metac_s : Z -> R * R * R -> R * R * R -> R * R * R -> outcome (R * (R * R) * R * R).
  Variable pbexsr : R -> R -> outcome (R * R * R).
  Definition rho_of (y : vec7) : R * R * R := (y 0%nat + y 1%nat, y 0%nat, y 1%nat).
  Definition sig_of (y : vec7) : R * R * R := (y 2%nat, y 3%nat, y 4%nat).
  Definition tau_of (y : vec7) : R * R * R := (y 5%nat + y 6%nat, y 5%nat, y 6%nat).
  Definition mxs (ix : Z) (y : vec7) := metax_s ix (rho_of y) (sig_of y) (tau_of y).
  Definition mcs (ix : Z) (y : vec7) := metac_s ix (rho_of y) (sig_of y) (tau_of y).
  Definition en_mx (o : outcome (R * (R * R) * (R * R) * (R * R))) : R := match o with Ok (e, _, _, _) => e | _ => 0 end.
  Definition en_mc (o : outcome (R * (R * R) * R * R)) : R := match o with Ok (e, _, _, _) => e | _ => 0 end.
  Definition metas_total : Prop := forall ix y, dom3 y ->
    (exists e vu vd wu wd zu zd, mxs ix y = Ok (e, (vu, vd), (wu, wd), (zu, zd))) /\
    (exists e vu vd w z, mcs ix y = Ok (e, (vu, vd), w, z)).
  (** first variation at one state *)
  Definition metas_at (ix : Z) (y0 : vec7) : Prop :=
    forall (y : R -> vec7) (t : R) (y' : vec7), y t = y0 -> (forall k, is_derive (fun x => y x k) t (y' k)) ->
    (exists e vu vd wu wd zu zd, mxs ix y0 = Ok (e, (vu, vd), (wu, wd), (zu, zd)) /\
       is_derive (fun x => (y x 0%nat + y x 1%nat) * en_mx (mxs ix (y x))) t (lin7 (sel [vu; vd; 0; wu; wd; zu; zd]) y')) /\
    (exists e vu vd w z, mcs ix y0 = Ok (e, (vu, vd), w, z) /\
       is_derive (fun x => (y x 0%nat + y x 1%nat) * en_mc (mcs ix (y x))) t (lin7 (sel [vu; vd; w; 0; 0; z; z]) y')).
  Hypothesis Hm : metas_total.
  Hypothesis Hsr : sr_total pbexsr.
  Notation point3 := (point3 metax_s metac_s pbexsr).
  Lemma point3_name XC n : ieq XC n = true -> point3 XC = point3 n.
  Proof. intros H. unfold XcGrid.point3, hybrid_s. rewrite !(ieq_name XC n _ H). reflexivity. Qed.
  Definition sg3 (c : cfg) (y : vec7) : option (R * R * R) := if isgrad c then Some (sig_of y) else None.
  Definition out3 (XC : string) (c : cfg) (first : bool) (E : sfun) (G : nat -> sfun) : Prop :=
    forall y, dom3 y -> exists w z, point3 XC c first (rho_of y) (sg3 c y) (tau_of y) = Ok (E y, (G 0%nat y, G 1%nat y), w, z) /\
      dflt3 w = (G 2%nat y, G 3%nat y, G 4%nat y) /\ dflt2 z = (G 5%nat y, G 6%nat y).
  Definition prem3 (XC : string) (c : cfg) (first : bool) (y0 : vec7) : Prop :=
    (ieq XC "HSE" = true -> fock_phase (usefock c) = true ->
       sr_at pbexsr (2 * y0 0%nat) (4 * y0 3%nat) /\ sr_at pbexsr (2 * y0 1%nat) (4 * y0 4%nat)) /\
    (forall i, ixc c = Some (i, i, 1, 0)%Z -> first = false -> metas_at i y0).

  Lemma hybrid_s_plain XC c rho s x : fock_phase (usefock c) = false \/ (ieq XC "PBE0" = false /\ ieq XC "HSE" = false) ->
    hybrid_s pbexsr XC c rho s x = Ok x.
  Proof.
    intros H. destruct x as [[[ex [vu vd]] v2] v3]. destruct rho as [[n u] d]. unfold hybrid_s.
    destruct H as [->|[-> ->]]; [reflexivity|]. rewrite !andb_false_r. reflexivity.
  Qed.
  Lemma ok3 (e e' a a' b b' : R) (w : option (R * R * R)) (z : option (R * R)) : e = e' -> a = a' -> b = b' -> Ok (e, (a, b), w, z) = Ok (e', (a', b'), w, z).
  Proof. now intros -> -> ->. Qed.
  Lemma t3 (a b c a' b' c' : R) : a = a' -> b = b' -> c = c' -> (a, b, c) = (a', b', c'). Proof. now intros -> -> ->. Qed.
  Lemma t2 (a b a' b' : R) : a = a' -> b = b' -> (a, b) = (a', b'). Proof. now intros -> ->. Qed.
  Ltac three := do 2 eexists; split; [apply ok3; unfold sel; cbn [nth]; ring|split; cbn [dflt3 dflt2]; [apply t3|apply t2]; unfold sel; cbn [nth fst snd]; ring].
  Definition fl : 0 <= sigma_floor := Rlt_le _ _ floor_pos.

  Lemma pbe_var3 XC c first i : isgrad c = true -> (1 <= i <= 3)%Z ->
    labels c first = Ok (2, 3, (if first then 1 else 0), 0, i, i)%Z \/ labels c first = Ok (2, 3, 0, 0, i, i)%Z ->
    fock_phase (usefock c) = false \/ (ieq XC "PBE0" = false /\ ieq XC "HSE" = false) ->
    exists E G, out3 XC c first E G /\ forall y0, dom3 y0 -> svar E G y0.
  Proof.
    intros Gr Hi L H.
    destruct (ggax_prim (pbex_spin i) 0 fl (proj1 (C65_pbex i ltac:(lia)))) as (Ex & Vux & Vdx & Wux & Wdx & Ox & Rx).
    destruct (ggac_prim (pbec_spin i) (proj1 (C65_pbec i Hi))) as (Ec & Vuc & Vdc & Wc & Oc & Rc).
    do 2 eexists. split; [|intros y0 D0; exact (svar_plus _ _ _ _ _ (Rx y0 D0) (Rc y0 D0))].
    intros y Hd. pose proof Hd as (A0 & A1 & A2 & A3 & A4). unfold XcGrid.point3, sg3. rewrite Gr.
    destruct L as [-> | ->]; [destruct first|]; cbn [obind]; unfold exch_s, corr_s, rho_of, sig_of; cbn [Z.eqb Pos.eqb rdo obind negb andb orb];
      rewrite Ox, Oc by assumption; cbn [obind fst snd]; rewrite hybrid_s_plain by exact H; cbn [obind rdo]; try (destruct first; cbn [negb andb obind]); three.
  Qed.
  Lemma pbe0_var3 XC c first : isgrad c = true -> labels c first = Ok (2, 3, 0, 0, 1, 1)%Z ->
    fock_phase (usefock c) = true -> ieq XC "PBE0" = true ->
    exists E G, out3 XC c first E G /\ forall y0, dom3 y0 -> svar E G y0.
  Proof.
    intros Gr L H1 H2.
    destruct (ggax_prim (pbex_spin 1) 0 fl (proj1 (C65_pbex 1 ltac:(lia)))) as (Ex & Vux & Vdx & Wux & Wdx & Ox & Rx).
    destruct (ggac_prim (pbec_spin 1) (proj1 (C65_pbec 1 ltac:(lia)))) as (Ec & Vuc & Vdc & Wc & Oc & Rc).
    do 2 eexists. split; [|intros y0 D0; exact (svar_plus _ _ _ _ _ (svar_scal (1 - exx c) _ _ _ (Rx y0 D0)) (Rc y0 D0))].
    intros y Hd. pose proof Hd as (A0 & A1 & A2 & A3 & A4). unfold XcGrid.point3, sg3. rewrite Gr, L. cbn [obind].
    unfold exch_s, corr_s, rho_of, sig_of; cbn [Z.eqb Pos.eqb rdo obind negb andb orb].
    rewrite Ox, Oc by assumption. cbn [obind fst snd]. unfold hybrid_s. rewrite H1, H2. cbn [andb rdo obind fst snd]. three.
  Qed.
  (** the short-range part of one channel: k is 0 (up) or 1 (dn) *)
  Lemma sr_prim3 a k y0 : (k = 0 \/ k = 1)%nat -> dom3 y0 -> sr_at pbexsr (2 * y0 k) (4 * y0 (k + 3)%nat) ->
    svar (fun y => - (a * en3 (pbexsr (y k * 2) (y (k + 3)%nat * 4)) / 2 / (y 0%nat + y 1%nat)))
         (fun j y => let o := pbexsr (y k * 2) (y (k + 3)%nat * 4) in
                     if Nat.eqb j k then - (a * match o with Ok (_, v, _) => v | _ => 0 end)
                     else if Nat.eqb j (k + 3) then - (a * match o with Ok (_, _, w) => w | _ => 0 end * 2) else 0) y0.
  Proof.
    intros Hk (A0 & A1 & A2 & A3 & A4) A y t y' Y Hy. subst y0.
    destruct (A (fun x => 2 * y x k) (fun x => 4 * y x (k + 3)%nat) t _ _ eq_refl eq_refl (der_scal _ 2 _ _ (Hy k)) (der_scal _ 4 _ _ (Hy (k + 3)%nat)))
      as (e & v & w & Q & B).
    cbv zeta. rewrite (Rmult_comm (y t k)), (Rmult_comm (y t (k + 3)%nat)), Q.
    apply (der_ext_pos (fun x => y x 0%nat + y x 1%nat) _ (fun x => - (a / 2) * en3 (pbexsr (2 * y x k) (4 * y x (k + 3)%nat))) t (y' 0%nat + y' 1%nat)).
    - lra.
    - exact (der_plus _ _ _ _ _ (Hy 0%nat) (Hy 1%nat)).
    - intros x Hx. rewrite (Rmult_comm (y x k)), (Rmult_comm (y x (k + 3)%nat)). field. lra.
    - eapply is_derive_eq; [exact (der_scal _ (- (a / 2)) _ _ B)|]. unfold lin7.
      destruct Hk as [-> | ->]; cbn [Nat.eqb Nat.add]; field.
  Qed.
  Lemma hse_var3 XC c first : isgrad c = true -> labels c first = Ok (2, 3, 0, 0, 1, 1)%Z ->
    fock_phase (usefock c) = true -> ieq XC "PBE0" = false -> ieq XC "HSE" = true ->
    exists E G, out3 XC c first E G /\ forall y0, dom3 y0 ->
      sr_at pbexsr (2 * y0 0%nat) (4 * y0 3%nat) -> sr_at pbexsr (2 * y0 1%nat) (4 * y0 4%nat) -> svar E G y0.
  Proof.
    intros Gr L H1 H2 H3.
    destruct (ggax_prim (pbex_spin 1) 0 fl (proj1 (C65_pbex 1 ltac:(lia)))) as (Ex & Vux & Vdx & Wux & Wdx & Ox & Rx).
    destruct (ggac_prim (pbec_spin 1) (proj1 (C65_pbec 1 ltac:(lia)))) as (Ec & Vuc & Vdc & Wc & Oc & Rc).
    do 2 eexists. split; [|intros y0 D0 S0 S1; exact (svar_plus _ _ _ _ _ (svar_plus _ _ _ _ _ (svar_plus _ _ _ _ _ (Rx y0 D0) (sr_prim3 (exx c) 0 y0 (or_introl eq_refl) D0 S0)) (sr_prim3 (exx c) 1 y0 (or_intror eq_refl) D0 S1)) (Rc y0 D0))].
    intros y Hd. pose proof Hd as (A0 & A1 & A2 & A3 & A4). unfold XcGrid.point3, sg3. rewrite Gr, L. cbn [obind].
    unfold exch_s, corr_s, rho_of, sig_of; cbn [Z.eqb Pos.eqb rdo obind negb andb orb].
    rewrite Ox, Oc by assumption. cbn [obind fst snd]. unfold hybrid_s, hse_chan. rewrite H1, H2, H3. cbn [andb rdo obind fst snd].
    assert (S3 : ~ y 3%nat < / 10 ^ 14) by (unfold sigma_floor in A3; lra).
    assert (S4 : ~ y 4%nat < / 10 ^ 14) by (unfold sigma_floor in A4; lra).
    destruct (Rlt_dec (y 3%nat) (/ 10 ^ 14)) as [F|_]; [contradiction|].
    destruct (Rlt_dec (y 4%nat) (/ 10 ^ 14)) as [F|_]; [contradiction|].
    pose proof floor_pos.
    destruct (Hsr (y 0%nat * 2) (y 3%nat * 4) ltac:(split; lra)) as (e & v & w & Q).
    destruct (Hsr (y 1%nat * 2) (y 4%nat * 4) ltac:(split; lra)) as (e2 & v2 & w2 & Q2).
    cbn [Nat.add Nat.eqb]. rewrite Q, Q2. cbn [obind en3]. rewrite !cdiv_ok by lra. cbn [obind fst snd].
    do 2 eexists; split; [apply ok3; unfold sel, Rdiv; cbn [nth]; ring|split; cbn [dflt3 dflt2]; [apply t3|apply t2]; unfold sel; cbn [nth fst snd]; ring].
  Qed.
  Lemma ldapw_var3 XC c first : isgrad c = false -> labels c first = Ok (1, 2, 0, 0, 0, 0)%Z ->
    ieq XC "PBE0" = false -> ieq XC "HSE" = false ->
    exists E G, out3 XC c first E G /\ forall y0, dom3 y0 -> svar E G y0.
  Proof.
    intros Gr L H1 H2.
    destruct (lsda_prim slater_spin (proj1 C65_slater)) as (Ex & Vux & Vdx & Ox & Rx).
    destruct (lsda_prim pw_spin (proj1 C65_pw)) as (Ec & Vuc & Vdc & Oc & Rc).
    do 2 eexists. split; [|intros y0 D0; exact (svar_plus _ _ _ _ _ (Rx y0 D0) (Rc y0 D0))].
    intros y Hd. pose proof Hd as (A0 & A1 & A2 & A3 & A4). unfold XcGrid.point3, sg3. rewrite Gr, L. cbn [obind].
    unfold exch_s, corr_s, rho_of, sig_of; cbn [Z.eqb Pos.eqb rdo obind negb andb orb].
    rewrite Ox, Oc by assumption. cbn [obind fst snd]. rewrite hybrid_s_plain by tauto. cbn [obind rdo]. three.
  Qed.
  Lemma vdw_var3 XC c first ix o0 i3 o1 g : isgrad c = true -> labels c first = Ok (ix, 2, 0, i3, o0, o1)%Z -> i3 <> 0%Z ->
    (ix = 2%Z /\ o0 = 4%Z /\ g = pbex_spin 4 \/ ix = 3%Z /\ g = rPW86x_spin) -> ieq XC "PBE0" = false -> ieq XC "HSE" = false ->
    exists E G, out3 XC c first E G /\ forall y0, dom3 y0 -> svar E G y0.
  Proof.
    intros Gr L Hi3 Hg H1 H2.
    assert (Q : exists lo, lo <= sigma_floor /\ ggax_variation g lo).
    { destruct Hg as [(_ & _ & ->)|(_ & ->)]; [exists 0|exists sigma_floor]; (split; [pose proof fl; lra|]).
      - exact (proj1 (C65_pbex 4 ltac:(lia))).
      - exact (proj1 C65_rPW86x). }
    destruct Q as (lo & Hlo & Gv). destruct (ggax_prim g lo Hlo Gv) as (Ex & Vux & Vdx & Wux & Wdx & Ox & Rx).
    destruct (lsda_prim pw_spin (proj1 C65_pw)) as (Ec & Vuc & Vdc & Oc & Rc).
    do 2 eexists. split; [|intros y0 D0; exact (svar_plus _ _ _ _ _ (Rx y0 D0) (Rc y0 D0))].
    intros y Hd. pose proof Hd as (A0 & A1 & A2 & A3 & A4). unfold XcGrid.point3, sg3. rewrite Gr, L. cbn [obind].
    unfold exch_s, corr_s, rho_of, sig_of. cbn [Z.eqb Pos.eqb rdo obind]. rewrite Oc by assumption. replace (negb (i3 =? 0)%Z) with true by lia.
    destruct Hg as [(-> & -> & ->)|(-> & ->)]; cbn [Z.eqb Pos.eqb rdo obind negb andb orb fst snd];
    rewrite Ox by assumption; cbn [obind fst snd]; rewrite hybrid_s_plain by tauto; cbn [obind rdo]; three.
  Qed.
  Lemma meta_var3 XC c i : isgrad c = true -> labels c false = Ok (i, i, 1, 0, 0, 0)%Z -> (4 <= i <= 6)%Z ->
    ieq XC "PBE0" = false -> ieq XC "HSE" = false ->
    exists E G, out3 XC c false E G /\ forall y0, dom3 y0 -> metas_at i y0 -> svar E G y0.
  Proof.
    intros Gr L Hi H1 H2.
    set (Gx := fun (k : nat) (y : vec7) => match mxs i y with Ok (_, (vu, vd), (wu, wd), (zu, zd)) => sel [vu; vd; 0; wu; wd; zu; zd] k | _ => 0 end).
    set (Gc := fun (k : nat) (y : vec7) => match mcs i y with Ok (_, (vu, vd), w, z) => sel [vu; vd; w; 0; 0; z; z] k | _ => 0 end).
    exists (fun y => en_mx (mxs i y) + en_mc (mcs i y)), (fun k y => Gx k y + Gc k y). split.
    - intros y Hd. unfold XcGrid.point3, sg3. rewrite Gr, L. cbn [obind].
      destruct (Hm i y Hd) as [(e & vu & vd & wu & wd & zu & zd & Q) (e2 & vu2 & vd2 & w & z & Q2)].
      unfold Gx, Gc. rewrite Q, Q2. unfold mxs in Q. unfold mcs in Q2.
      unfold exch_s, corr_s. cbn [negb andb Z.eqb Pos.eqb rdo obind]. 
      replace (i =? 1)%Z with false by lia. replace (i =? 2)%Z with false by lia. replace (i =? 3)%Z with false by lia.
      replace ((i =? 4) || (i =? 5) || (i =? 6))%Z with true by lia. rewrite Q, Q2. unfold rho_of at 1 2.
      cbn [obind fst snd]. rewrite hybrid_s_plain by tauto. cbn [obind rdo fst snd en_mx en_mc]. three.
    - intros y0 D0 A. apply (svar_plus (fun y => en_mx (mxs i y)) Gx (fun y => en_mc (mcs i y)) Gc).
      + intros y t y' Y Hy. destruct (A y t y' Y Hy) as [(e & vu & vd & wu & wd & zu & zd & Q & B) _]. unfold Gx. rewrite Q. exact B.
      + intros y t y' Y Hy. destruct (A y t y' Y Hy) as [_ (e & vu & vd & w & z & Q & B)]. unfold Gc. rewrite Q. exact B.
  Qed.

  Lemma point3_var XC exx0 uf first : (exists n, In n names /\ ieq XC n = true) -> ieq XC "LDA_PZ" = false ->
    let c := with_fock (xc_decomposition XC exx0) uf in
    exists E G, out3 XC c first E G /\ forall y0, dom3 y0 -> prem3 XC c first y0 -> svar E G y0.
  Proof.
    intros (n & Hn & HX) NPZ c.
    assert (HI : forall k, ieq XC k = ieq n k) by (intros k; exact (ieq_name XC n k HX)).
    subst c. unfold prem3. rewrite (xc_name XC n exx0 HX). rewrite !HI in *.
    unfold names in Hn. cbn [In] in Hn.
    Ltac fin3 := do 2 eexists; split; [eassumption|]; intros y0 D0 (P2 & P3).
    Ltac pbe3 HI := right; rewrite !HI; split; reflexivity.
    repeat match type of Hn with _ \/ _ => destruct Hn as [<-|Hn] end; try contradiction; set (c := with_fock _ uf).
    - discriminate NPZ.
    - destruct (ldapw_var3 XC c first) as (E & G & O & Q); try reflexivity; try (rewrite HI; reflexivity). fin3. now apply Q.
    - destruct (pbe_var3 XC c first 1) as (E & G & O & Q); try reflexivity; [lia|right; reflexivity|pbe3 HI|]. fin3. now apply Q.
    - destruct (pbe_var3 XC c first 2) as (E & G & O & Q); try reflexivity; [lia|right; reflexivity|pbe3 HI|]. fin3. now apply Q.
    - destruct (pbe_var3 XC c first 3) as (E & G & O & Q); try reflexivity; [lia|right; reflexivity|pbe3 HI|]. fin3. now apply Q.
    - destruct (pbe_var3 XC c first 1) as (E & G & O & Q); try reflexivity; [lia|right; reflexivity|pbe3 HI|]. fin3. now apply Q.
    - destruct (fock_phase uf) eqn:U.
      + destruct (pbe0_var3 XC c first) as (E & G & O & Q); try reflexivity; [exact U|rewrite HI; reflexivity|]. fin3. now apply Q.
      + destruct (pbe_var3 XC c first 1) as (E & G & O & Q); try reflexivity; [lia|right; reflexivity|left; exact U|]. fin3. now apply Q.
    - destruct (fock_phase uf) eqn:U.
      + destruct (hse_var3 XC c first) as (E & G & O & Q); try reflexivity; [exact U|rewrite HI; reflexivity|rewrite HI; reflexivity|]. fin3.
        destruct (P2 eq_refl U) as [S0 S1]. now apply Q.
      + destruct (pbe_var3 XC c first 1) as (E & G & O & Q); try reflexivity; [lia|right; reflexivity|left; exact U|]. fin3. now apply Q.
    - destruct first.
      + destruct (pbe_var3 XC c true 1) as (E & G & O & Q); try reflexivity; [lia|left; reflexivity|pbe3 HI|]. fin3. now apply Q.
      + destruct (meta_var3 XC c 4) as (E & G & O & Q); try reflexivity; try (rewrite HI; reflexivity); try lia. fin3.
        apply Q; [exact D0|]; apply (P3 4%Z eq_refl eq_refl).
    - destruct first.
      + destruct (pbe_var3 XC c true 1) as (E & G & O & Q); try reflexivity; [lia|left; reflexivity|pbe3 HI|]. fin3. now apply Q.
      + destruct (meta_var3 XC c 5) as (E & G & O & Q); try reflexivity; try (rewrite HI; reflexivity); try lia. fin3.
        apply Q; [exact D0|]; apply (P3 5%Z eq_refl eq_refl).
    - destruct first.
      + destruct (pbe_var3 XC c true 1) as (E & G & O & Q); try reflexivity; [lia|left; reflexivity|pbe3 HI|]. fin3. now apply Q.
      + destruct (meta_var3 XC c 6) as (E & G & O & Q); try reflexivity; try (rewrite HI; reflexivity); try lia. fin3.
        apply Q; [exact D0|]; apply (P3 6%Z eq_refl eq_refl).
    - destruct (vdw_var3 XC c first 2 4 1 0 (pbex_spin 4)) as (E & G & O & Q); try reflexivity; try (rewrite HI; reflexivity); [lia|auto|]. fin3. now apply Q.
    - destruct (vdw_var3 XC c first 3 0 2 0 rPW86x_spin) as (E & G & O & Q); try reflexivity; try (rewrite HI; reflexivity); [lia|auto|]. fin3. now apply Q.
  Qed.
End P3.
