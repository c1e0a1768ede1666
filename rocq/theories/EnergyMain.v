(** The energy terms over the whole grid. *)
From Coq Require Import ZArith Reals List Bool Lia Lra Permutation.
From Verif Require Import CBase Nloc NlocSpec NlocLem VnlOp VnlLem VnlMain DensSpec DensLem DensMain Energy EnergySpec EnergyLem.
Import ListNotations.
Local Open Scope Z_scope.

Lemma zrange_app a b c : a <= b + 1 -> b <= c -> zrange a c = zrange a b ++ zrange (b + 1) c.
Proof.
  intros H1 H2. unfold zrange.
  assert (G : forall n m s, zseq s (n + m) = zseq s n ++ zseq (s + Z.of_nat n) m).
  { induction n as [|n IH]; intros m s; cbn [zseq Nat.add app]; [f_equal; lia|]. rewrite IH. do 2 f_equal.
    f_equal. lia. }
  replace (Z.to_nat (c - a + 1)) with (Z.to_nat (b - a + 1) + Z.to_nat (c - (b + 1) + 1))%nat by lia.
  rewrite G. do 2 f_equal. lia.
Qed.

Lemma rs_two n (f : Z -> R) : 0 <= n ->
  rs (map f (zrange 0 (2 * n - 1))) = (rs (map f (zrange 0 (n - 1)%Z)) + rs (map (fun i => f (n + i)%Z) (zrange 0 (n - 1)%Z)))%R.
Proof.
  intros H. destruct (Z.eq_dec n 0) as [->|].
  - cbn. ring.
  - rewrite (zrange_app 0 (n - 1) (2 * n - 1)) by lia. rewrite map_app, (ksum_app _ _ _ _ _ _ Rth). f_equal.
    rewrite (rs_shift f n n). do 3 f_equal; lia.
Qed.

Lemma rsum_minus {B} (f g : B -> R) l : rsum (fun x => f x - g x)%R l = (rsum f l - rsum g l)%R.
Proof. unfold rsum. induction l as [|x l IH]; cbn [map ksum]; [ring|]. rewrite IH. ring. Qed.
Lemma rsum_plus {B} (f g : B -> R) l : rsum (fun x => f x + g x)%R l = (rsum f l + rsum g l)%R.
Proof. unfold rsum. induction l as [|x l IH]; cbn [map ksum]; [ring|]. rewrite IH. ring. Qed.
Lemma rsum_scal {B} c (f : B -> R) l : rsum (fun x => c * f x)%R l = (c * rsum f l)%R.
Proof. unfold rsum. induction l as [|x l IH]; cbn [map ksum]; [ring|]. rewrite IH. ring. Qed.
Lemma rsum_ext {B} (f g : B -> R) l : (forall x, In x l -> f x = g x) -> rsum f l = rsum g l.
Proof. apply ksum_ext. Qed.
Lemma rsum_swap {B D} (f : B -> D -> R) l m : rsum (fun x => rsum (f x) m) l = rsum (fun y => rsum (fun x => f x y) l) m.
Proof. apply (ksum_swap _ _ _ _ _ _ Rth). Qed.

Section GRID.
Context {A : Type}.
Variables (spin_typ : Z) (dV : R) (mgga : bool).
Variables (nodes : list A) (np : Z) (F : Z -> fproc) (nod : Z -> Z -> A).
Variables (b phi : A -> R) (vxc rho tau v3 vin : Z -> A -> R).

Definition nsig : Z := if spin_typ =? 0 then 1 else 2.
Definition sigs : list Z := zrange 0 (nsig - 1).

Definition on_grid : Prop := 
  Permutation (flat_map (fun d => map (nod d) (zrange 0 (f_nd (F d) - 1))) (zrange 0 (np - 1))) nodes.

(** Arrays of a process of the phi domain: total density first, then, with
    spin, the two components; potentials component by component. *)
Record gholds (d : Z) (pr : fproc) : Prop := {
  gh_nd : 0 <= f_nd pr;
  gh_sz : f_nd pr <= sz (f_b pr) /\ f_nd pr <= sz (f_phi pr) /\ nsig * f_nd pr <= sz (f_vxc pr) /\
    (2 * nsig - 1) * f_nd pr <= sz (f_rho pr) /\ nsig * f_nd pr <= sz (f_vin pr) /\
    (mgga = true -> (2 * nsig - 1) * f_nd pr <= sz (f_tau pr) /\ nsig * f_nd pr <= sz (f_v3 pr));
  gh_b : forall i, 0 <= i < f_nd pr -> at_ (f_b pr) i = b (nod d i);
  gh_phi : forall i, 0 <= i < f_nd pr -> at_ (f_phi pr) i = phi (nod d i);
  gh_rho : forall i, 0 <= i < f_nd pr -> at_ (f_rho pr) i = rsum (fun sg => rho sg (nod d i)) sigs;
  gh_rhos : forall sg i, spin_typ <> 0 -> 0 <= sg < 2 -> 0 <= i < f_nd pr -> at_ (f_rho pr) ((1 + sg) * f_nd pr + i) = rho sg (nod d i);
  gh_vxc : forall sg i, 0 <= sg < nsig -> 0 <= i < f_nd pr -> at_ (f_vxc pr) (sg * f_nd pr + i) = vxc sg (nod d i);
  gh_vin : forall sg i, 0 <= sg < nsig -> 0 <= i < f_nd pr -> at_ (f_vin pr) (sg * f_nd pr + i) = vin sg (nod d i);
  gh_tau : forall i, mgga = true -> 0 <= i < f_nd pr -> at_ (f_tau pr) i = rsum (fun sg => tau sg (nod d i)) sigs;
  gh_taus : forall sg i, mgga = true -> spin_typ <> 0 -> 0 <= sg < 2 -> 0 <= i < f_nd pr -> at_ (f_tau pr) ((1 + sg) * f_nd pr + i) = tau sg (nod d i);
  gh_v3 : forall sg i, mgga = true -> 0 <= sg < nsig -> 0 <= i < f_nd pr -> at_ (f_v3 pr) (sg * f_nd pr + i) = v3 sg (nod d i) }.

Hypothesis HN : on_grid.
Hypothesis HP : forall d, 0 <= d < np -> gholds d (F d).
Hypothesis HS : 0 <= spin_typ.

Lemma over_nodes (f : A -> R) : rs (map (fun d => rs (map (fun i => f (nod d i)) (zrange 0 (f_nd (F d) - 1)))) (zrange 0 (np - 1))) = rsum f nodes.
Proof.
  unfold rsum. rewrite <- (ksum_perm _ _ _ _ _ _ Rth _ _ (Permutation_map f HN)).
  rewrite (ksum_flat_map _ _ _ _ _ _ Rth f (fun d => map (nod d) (zrange 0 (f_nd (F d) - 1)))).
  apply ksum_ext. intros d _. now rewrite map_map.
Qed.

Lemma dot_total x y (fx fy : A -> R) :
  (forall d, 0 <= d < np -> f_nd (F d) <= sz (x (F d)) /\ f_nd (F d) <= sz (y (F d)) /\
     forall i, 0 <= i < f_nd (F d) -> at_ (x (F d)) i = fx (nod d i) /\ at_ (y (F d)) i = fy (nod d i)) ->
  VectorDotProduct np (fun d => local_dot (x (F d)) 0 (y (F d)) 0 (f_nd (F d))) = Ok (rsum (fun a => fx a * fy a)%R nodes).
Proof.
  intros H. erewrite vdp_ok.
  2:{ intros d Hd. destruct (H d Hd) as (H1 & H2 & _). apply (dot_ok (x (F d)) 0 (y (F d)) 0 (f_nd (F d))); lia. }
  f_equal. rewrite <- (over_nodes (fun a => fx a * fy a)%R). apply ksum_ext. intros d Hd. apply in_zrange in Hd.
  apply ksum_ext. intros i Hi. apply in_zrange in Hi. destruct (H d) as (_ & _ & H3); [lia|]. cbn [Z.add].
  destruct (H3 i) as [-> ->]; [lia|]. reflexivity.
Qed.

(** Products of spin components (offset [f_nd] in the first array). *)
Lemma dot_spin x y (fx fy : Z -> A -> R) : spin_typ <> 0 ->
  (forall d, 0 <= d < np -> 3 * f_nd (F d) <= sz (x (F d)) /\ 2 * f_nd (F d) <= sz (y (F d)) /\
     forall sg i, 0 <= sg < 2 -> 0 <= i < f_nd (F d) -> at_ (x (F d)) ((1 + sg) * f_nd (F d) + i) = fx sg (nod d i) /\
       at_ (y (F d)) (sg * f_nd (F d) + i) = fy sg (nod d i)) ->
  VectorDotProduct np (fun d => local_dot (x (F d)) (f_nd (F d)) (y (F d)) 0 (2 * f_nd (F d))) =
  Ok (rsum (fun sg => rsum (fun a => fx sg a * fy sg a)%R nodes) sigs).
Proof.
  intros NE H. erewrite vdp_ok.
  2:{ intros d Hd. destruct (H d Hd) as (H1 & H2 & _). pose proof (gh_nd _ _ (HP d Hd)).
      apply (dot_ok (x (F d)) (f_nd (F d)) (y (F d)) 0 (2 * f_nd (F d))); lia. }
  f_equal. unfold sigs, nsig. destruct (Z.eqb_spec spin_typ 0); [contradiction|].
  change (zrange 0 (2 - 1)) with [0; 1]. unfold rsum at 1. cbn [map ksum]. rewrite Rplus_0_r.
  rewrite <- !over_nodes. rewrite <- (ksum_add _ _ _ _ _ _ Rth). apply ksum_ext. intros d Hd. apply in_zrange in Hd.
  assert (Hd' : 0 <= d < np) by lia. destruct (H d Hd') as (_ & _ & H3). pose proof (gh_nd _ _ (HP d Hd')).
  rewrite rs_two by lia. f_equal; apply ksum_ext; intros i Hi; apply in_zrange in Hi.
  - destruct (H3 0 i) as [<- <-]; try lia. do 2 f_equal; lia.
  - destruct (H3 1 i) as [<- <-]; try lia. do 2 f_equal; lia.
Qed.

Lemma sigs_one (f : Z -> R) : spin_typ = 0 -> rsum f sigs = f 0.
Proof. intros H. unfold rsum, sigs, nsig. rewrite H. change (f 0%Z + 0 = f 0%Z)%R. ring. Qed.
Lemma nsig_two : spin_typ <> 0 -> nsig = 2.
Proof. intros H. unfold nsig. now destruct (Z.eqb_spec spin_typ 0). Qed.
Lemma nsig_one : spin_typ = 0 -> nsig = 1.
Proof. intros H. unfold nsig. now rewrite H. Qed.

Definition rho_tot (a : A) : R := rsum (fun sg => rho sg a) sigs.

Lemma E1_ok : energy_E1 dV np F = Ok (1 / 2 * integral dV nodes (fun a => b a * phi a))%R.
Proof.
  unfold energy_E1. rewrite (dot_total f_b f_phi b phi).
  - cbn [obind]. f_equal. unfold integral. lra.
  - intros d Hd. pose proof (HP d Hd) as H. pose proof (gh_sz _ _ H) as (S1 & S2 & _). split; [exact S1|]. split; [exact S2|].
    intros i Hi. split; [now apply (gh_b _ _ H)|now apply (gh_phi _ _ H)].
Qed.
Lemma E2_ok : energy_E2 dV np F = Ok (1 / 2 * integral dV nodes (fun a => rho_tot a * phi a))%R.
Proof.
  unfold energy_E2. rewrite (dot_total f_rho f_phi rho_tot phi).
  - cbn [obind]. f_equal. unfold integral. lra.
  - intros d Hd. pose proof (HP d Hd) as H. pose proof (gh_sz _ _ H) as (S1 & S2 & S3 & S4 & _). pose proof (gh_nd _ _ H).
    split; [unfold nsig in S4; destruct (spin_typ =? 0); lia|]. split; [exact S2|].
    intros i Hi. split; [now apply (gh_rho _ _ H)|now apply (gh_phi _ _ H)].
Qed.

Lemma spin_dot y (fy : Z -> A -> R) :
  (forall d, 0 <= d < np -> nsig * f_nd (F d) <= sz (y (F d)) /\ forall sg i, 0 <= sg < nsig -> 0 <= i < f_nd (F d) ->
      at_ (y (F d)) (sg * f_nd (F d) + i) = fy sg (nod d i)) ->
  VectorDotProduct np (fun d => local_dot (f_rho (F d)) (if 0 <? spin_typ then f_nd (F d) else 0) (y (F d)) 0 (f_nd (F d) * nsig))
  = Ok (rsum (fun sg => rsum (fun a => rho sg a * fy sg a)%R nodes) sigs).
Proof.
  intros H. destruct (Z.eq_dec spin_typ 0) as [E|NE].
  - rewrite (sigs_one _ E). rewrite (nsig_one E) in *. rewrite E. cbn [Z.ltb Z.compare].
    transitivity (VectorDotProduct np (fun d => local_dot (f_rho (F d)) 0 (y (F d)) 0 (f_nd (F d)))).
    + f_equal. apply FunctionalExtensionality.functional_extensionality. intros d. now rewrite Z.mul_1_r.
    + apply (dot_total f_rho y (rho 0) (fy 0)).
      intros d Hd. pose proof (HP d Hd) as G. pose proof (gh_sz _ _ G) as (_ & _ & _ & S4 & _). rewrite (nsig_one E) in S4.
      destruct (H d Hd) as [H1 H2]. split; [lia|]. split; [lia|]. intros i Hi. split.
      * rewrite (gh_rho _ _ G i Hi). apply (sigs_one (fun sg => rho sg (nod d i)) E).
      * rewrite <- (H2 0 i) by lia. f_equal.
  - destruct (Z.ltb_spec 0 spin_typ); [|lia]. rewrite (nsig_two NE) in *.
    transitivity (VectorDotProduct np (fun d => local_dot (f_rho (F d)) (f_nd (F d)) (y (F d)) 0 (2 * f_nd (F d)))).
    + f_equal. apply FunctionalExtensionality.functional_extensionality. intros d. f_equal. ring.
    + apply (dot_spin f_rho y rho fy NE). intros d Hd. pose proof (HP d Hd) as G. pose proof (gh_sz _ _ G) as (_ & _ & _ & S4 & _).
      rewrite (nsig_two NE) in S4. destruct (H d Hd) as [H1 H2]. split; [lia|]. split; [lia|]. intros sg i Hsg Hi. split.
      * now apply (gh_rhos _ _ G).
      * now apply H2.
Qed.

Lemma E3_ok : energy_E3 spin_typ dV mgga np F =
  Ok (rsum (fun sg => integral dV nodes (fun a => rho sg a * vxc sg a)) sigs +
      (if mgga then rsum (fun sg => integral dV nodes (fun a => tau sg a * v3 sg a)) sigs else 0))%R.
Proof.
  assert (SD : forall x y (fx fy : Z -> A -> R), (forall d, 0 <= d < np -> (2 * nsig - 1) * f_nd (F d) <= sz (x (F d)) /\ nsig * f_nd (F d) <= sz (y (F d)) /\
      (forall i, 0 <= i < f_nd (F d) -> at_ (x (F d)) i = rsum (fun sg => fx sg (nod d i)) sigs) /\
      (forall sg i, spin_typ <> 0 -> 0 <= sg < 2 -> 0 <= i < f_nd (F d) -> at_ (x (F d)) ((1 + sg) * f_nd (F d) + i) = fx sg (nod d i)) /\
      (forall sg i, 0 <= sg < nsig -> 0 <= i < f_nd (F d) -> at_ (y (F d)) (sg * f_nd (F d) + i) = fy sg (nod d i))) ->
    VectorDotProduct np (fun d => if spin_typ =? 0 then local_dot (x (F d)) 0 (y (F d)) 0 (f_nd (F d))
      else local_dot (x (F d)) (f_nd (F d)) (y (F d)) 0 (2 * f_nd (F d))) =
    Ok (rsum (fun sg => rsum (fun a => fx sg a * fy sg a)%R nodes) sigs)).
  { intros x y fx fy H. destruct (Z.eqb_spec spin_typ 0) as [E|NE].
    - rewrite (sigs_one _ E). apply (dot_total x y (fx 0) (fy 0)). intros d Hd. destruct (H d Hd) as (H1 & H2 & H3 & _ & H5).
      rewrite (nsig_one E) in *. split; [lia|]. split; [lia|]. intros i Hi. split.
      + rewrite H3 by exact Hi. apply (sigs_one (fun sg => fx sg (nod d i)) E).
      + rewrite <- (H5 0 i) by lia. f_equal.
    - apply (dot_spin x y fx fy NE). intros d Hd. destruct (H d Hd) as (H1 & H2 & _ & H4 & H5).
      rewrite (nsig_two NE) in *. split; [lia|]. split; [lia|]. intros sg i Hsg Hi. split; [now apply H4|now apply H5]. }
  assert (INT : forall f : Z -> A -> R, rsum (fun sg => integral dV nodes (f sg)) sigs = (rsum (fun sg => rsum (f sg) nodes) sigs * dV)%R).
  { intros f. unfold integral, rsum. rewrite (ksum_mul_l _ _ _ _ _ _ Rth). ring. }
  unfold energy_E3. rewrite (SD f_rho f_vxc rho vxc).
  2:{ intros d Hd. pose proof (HP d Hd) as G. pose proof (gh_sz _ _ G) as (_ & _ & S3 & S4 & _).
      split; [exact S4|]. split; [exact S3|]. split; [apply G|]. split; [intros; now apply (gh_rhos _ _ G)|apply G]. }
  cbn [obind]. rewrite (INT (fun sg a => (rho sg a * vxc sg a)%R)).
  assert (M : mgga = true \/ mgga = false) by (destruct mgga; auto). destruct M as [M|M]; rewrite M.
  - rewrite (SD f_tau f_v3 tau v3).
    2:{ intros d Hd. pose proof (HP d Hd) as G. pose proof (gh_sz _ _ G) as (_ & _ & _ & _ & _ & S6). destruct (S6 M) as [S7 S8].
      split; [exact S7|]. split; [exact S8|]. split; [intros; now apply (gh_tau _ _ G)|].
      split; [intros; now apply (gh_taus _ _ G)|intros; now apply (gh_v3 _ _ G)]. }
    cbn [obind]. f_equal. rewrite (INT (fun sg a => (tau sg a * v3 sg a)%R)). ring.
  - f_equal. ring.
Qed.

Lemma Escc_ok : Calculate_Escc spin_typ dV np F =
  Ok (rsum (fun sg => integral dV nodes (fun a => rho sg a * (vxc sg a + phi a - vin sg a))) sigs)%R.
Proof.
  unfold Calculate_Escc. fold nsig.
  rewrite (spin_dot (Veff_out spin_typ) (fun sg a => (vxc sg a + phi a)%R)).
  2:{ intros d Hd. pose proof (HP d Hd) as G. pose proof (gh_nd _ _ G). split.
      - cbn [Veff_out sz]. unfold nsig. destruct (spin_typ =? 0); lia.
      - intros sg i Hsg Hi. cbn [Veff_out at_]. rewrite (gh_vxc _ _ G sg i Hsg Hi). f_equal.
        assert (sg = 0 \/ sg = 1) as [-> | ->] by (unfold nsig in Hsg; destruct (spin_typ =? 0); lia).
        + destruct (Z.ltb_spec (0 * f_nd (F d) + i) (f_nd (F d))); [|lia]. now apply (gh_phi _ _ G).
        + destruct (Z.ltb_spec (1 * f_nd (F d) + i) (f_nd (F d))); [lia|].
          rewrite <- (gh_phi _ _ G i Hi). f_equal. ring. }
  cbn [obind]. rewrite (spin_dot f_vin vin).
  2:{ intros d Hd. pose proof (HP d Hd) as G. pose proof (gh_sz _ _ G) as (_ & _ & _ & _ & S5 & _). split; [exact S5|]. apply G. }
  cbn [obind]. f_equal. unfold integral. rewrite rsum_scal, Rmult_comm. f_equal.
  rewrite <- rsum_minus. apply rsum_ext. intros sg _. rewrite <- rsum_minus. apply rsum_ext. intros a _. ring.
Qed.
End GRID.
