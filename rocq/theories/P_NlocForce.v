(** C79: the nonlocal forces (/repo/src/forces.c:750-1392). *)
From Coq Require Import ZArith QArith List Lia Bool Permutation Ring.
From Verif Require Import CBase Nloc NlocSpec NlocLem P_Nloc VnlOp VnlLem VnlSpec VnlMain P_Vnl
  NlocForce NlocForceSpec NlocForceMain NlocForceGrp.
Import ListNotations.
Local Open Scope Z_scope.

(** All orbitals of all communicators. *)
Definition all_orbs {K} (zero : K) (gs : list (list (list (gdata K)))) : list (orb K) :=
  flat_map (flat_map (flat_map (orbs zero))) gs.

(** Every band group has a k-point group, every k-point group a spin group,
    and there is a band group. *)
Definition groups_ok {K} (cj : K -> K) spin_typ c pos ats grid (gs : list (list (list (gdata K)))) : Prop :=
  gs <> [] /\ List.Forall (fun l => l <> [] /\ List.Forall (fun l => l <> [] /\
    List.Forall (grp_ok cj spin_typ c pos ats grid) l) l) gs.

(** [cj] respects sums and products. *)
Definition conjugation {K} (zero : K) (add mul : K -> K -> K) (cj : K -> K) : Prop :=
  (forall x y, cj (add x y) = add (cj x) (cj y)) /\ (forall x y, cj (mul x y) = mul (cj x) (cj y)) /\ cj zero = zero.

Lemma omap_reduce {K A} (zero one : K) add mul sub opp (Rth : ring_theory zero one add mul sub opp eq)
    (F : A -> outcome (arr K)) (P : A -> Prop) (V : A -> Z -> K) N (idx : Z -> Prop) :
  (forall x, P x -> exists f, F x = Ok f /\ sz f = N /\ forall i, idx i -> at_ f i = V x i) ->
  forall l, l <> [] -> List.Forall P l ->
  exists fs, omap F l = Ok fs /\ sz (reduce zero add fs) = N /\
    forall i, idx i -> at_ (reduce zero add fs) i = ksum zero add (map (fun x => V x i) l).
Proof.
  intros HF l NE HP. destruct (omap_ok F (fun x f => sz f = N /\ forall i, idx i -> at_ f i = V x i) l) as (fs & E & FF).
  { intros x Hx. rewrite List.Forall_forall in HP. destruct (HF x (HP x Hx)) as (f & E1 & E2 & E3). eauto. }
  exists fs. split; [exact E|].
  assert (NE' : fs <> []) by (intros ->; inversion FF; subst; now apply NE).
  assert (SZ : List.Forall (fun a => sz a = N) fs) by (clear - FF; induction FF as [|x f l m [H _] _ IH]; constructor; auto).
  split; [apply (reduce_one zero one add mul sub opp Rth fs N 0 NE' SZ)|].
  intros i Hi. rewrite (proj2 (reduce_one zero one add mul sub opp Rth fs N i NE' SZ)).
  symmetry. eapply (ksum_Forall2 zero add); [exact FF|]. intros x f _ _ (_ & H). now rewrite H.
Qed.

(** ** The forces *)
(** For every division of the grid over processes, of the bands, k-points and
    spins over communicators: nothing is undefined, and the force on every
    atom is the formula; entries behind the forces stay as they are. *)
Theorem C79_forces : forall (K : Type) (zero one : K) add mul sub opp,
  ring_theory zero one add mul sub opp eq ->
  forall chi gamma dV occfac cj re gam spin_typ c pos ats ps grid All,
  data_ok zero chi gamma c ats ps -> all_images c pos grid (sites 0 0 ats ps) All ->
  conjugation zero add mul cj -> (forall ty cl v, cj (chi ty cl v) = chi ty cl v) ->
  (gam = true -> forall z, cj z = z /\ re z = z) ->
  forall gs forces, groups_ok cj spin_typ c pos ats grid gs -> 3 * zsum (map t_n ats) <= sz forces ->
  exists h,
    nonlocal_forces zero one add mul sub chi gamma dV occfac cj re gam spin_typ c (combine (map t_n ats) ps)
      (map (map (map gd_g)) gs) forces = Ok h /\ sz h = sz forces /\
    (forall st d, In st (sites 0 0 ats ps) -> 0 <= d < 3 ->
      at_ h (st_atom st * 3 + d) = add (at_ forces (st_atom st * 3 + d))
        (atom_force zero one add mul opp chi gamma dV occfac cj re c pos All grid (all_orbs zero gs) st d)) /\
    (forall i, ~ (0 <= i < 3 * zsum (map t_n ats)) -> at_ h i = at_ forces i).
Proof.
  intros K zero one add mul sub opp Rth chi gamma dV occfac cj re gam spin_typ c pos ats ps grid All
    [D1 D2 D3 D4 D5] HA (J1 & J2 & J3) JC HGm gs forces (NE & HGS) HF.
  set (ts := combine (map t_n ats) ps) in *.
  assert (NA : natom ts = zsum (map t_n ats)) by (unfold natom; exact (f_equal zsum (fst_tys ats ps (io_len _ _ D1)))).
  assert (HPos : forall k t, nth_error ats k = Some t ->
    0 <= first_atom ats k /\ first_atom ats k + t_n t <= Z.of_nat (length pos)).
  { destruct gs as [|l gs]; [now destruct NE|]. inversion HGS as [|? ? (NL & HL) _]; subst.
    destruct l as [|l1 l]; [now destruct NL|]. inversion HL as [|? ? (NL1 & HL1) _]; subst.
    destruct l1 as [|x l1]; [now destruct NL1|]. inversion HL1 as [|? ? HX _]; subst.
    pose proof (go_prs _ _ _ _ _ _ _ HX) as X1. pose proof (go_fp _ _ _ _ _ _ _ HX) as X2.
    destruct (g_prs (gd_g x)) as [|pr prs]; [now destruct X1|].
    inversion X2 as [|? ? [(_ & _ & _ & HN) _ _ _ _ _ _] _]; subst. apply range_pos; [apply D1|exact HN]. }
  set (idx := fun i => exists st d, In st (sites 0 0 ats ps) /\ 0 <= d < 3 /\ i = st_atom st * 3 + d).
  set (AF := fun os i => ksum zero add (map (fun st => VnlLem.sel zero (st_atom st) (i / 3)
     (atom_force zero one add mul opp chi gamma dV occfac cj re c pos All grid os st (i mod 3))) (sites 0 0 ats ps))).
  assert (AFv : forall os st d, In st (sites 0 0 ats ps) -> 0 <= d < 3 -> AF os (st_atom st * 3 + d) =
    atom_force zero one add mul opp chi gamma dV occfac cj re c pos All grid os st d).
  { intros os st d Hst Hd. unfold AF.
    rewrite Z.div_add_l, Z.div_small, Z.add_0_r by lia.
    rewrite (Z.add_comm (st_atom st * 3)), Z.mod_add, Z.mod_small by lia.
    transitivity (ksum zero add (map (fun st' => VnlLem.sel zero (st_atom st) (st_atom st')
      (atom_force zero one add mul opp chi gamma dV occfac cj re c pos All grid os st' d)) (sites 0 0 ats ps))).
    - apply (ksum_ext zero add). intros y _. unfold VnlLem.sel. now rewrite Z.eqb_sym.
    - apply (sel_sum zero one add mul sub opp Rth st_atom
        (fun st' => atom_force zero one add mul opp chi gamma dV occfac cj re c pos All grid os st' d)); [|exact Hst].
      apply NoDup_sites. apply D1. }
  assert (AFapp : forall (A : Type) (f : A -> list (orb K)) l st d,
    ksum zero add (map (fun y => atom_force zero one add mul opp chi gamma dV occfac cj re c pos All grid (f y) st d) l) =
    atom_force zero one add mul opp chi gamma dV occfac cj re c pos All grid (flat_map f l) st d).
  { intros A f l st d. unfold atom_force. rewrite (ksum_flat_map _ _ _ _ _ _ Rth).
    apply (ksum_opp zero one add mul sub opp Rth). }
  assert (L1 : forall x, grp_ok cj spin_typ c pos ats grid x -> exists f,
    grp_force zero one add mul sub chi gamma dV occfac cj re gam spin_typ c ts (gd_g x) = Ok f /\ sz f = 3 * natom ts /\
    forall i, idx i -> at_ f i = AF (orbs zero x) i).
  { intros x HX. destruct (grp_force_ok zero one add mul sub opp Rth chi gamma dV occfac cj re gam spin_typ c pos ats ps
      grid All D1 D2 D3) with (x := x) as (f & E & S & V); auto.
    - intros st cl v Hst Hn. apply in_sites in Hst. destruct Hst as (k & t & s & A & _ & B & _ & C0 & _).
      rewrite B. apply (D4 _ t); [exact A|]. now rewrite <- C0.
    - intros Hg z. now apply HGm.
    - intros Hg z. now apply HGm.
    - exists f. split; [exact E|]. split; [exact S|]. intros i (st & d & Hst & Hd & ->).
      rewrite AFv by assumption. now apply V. }
  assert (om : forall (A B C : Type) (f : A -> B) (F : B -> outcome C) l, omap F (map f l) = omap (fun a => F (f a)) l).
  { intros A B C f F l. induction l as [|a l IH]; cbn [map omap]; [reflexivity|]. now rewrite IH. }
  assert (L2 : forall l, l <> [] -> List.Forall (grp_ok cj spin_typ c pos ats grid) l -> exists fs,
    omap (grp_force zero one add mul sub chi gamma dV occfac cj re gam spin_typ c ts) (map gd_g l) = Ok fs /\
    sz (reduce zero add fs) = 3 * natom ts /\
    forall i, idx i -> at_ (reduce zero add fs) i = AF (flat_map (orbs zero) l) i).
  { intros l N1 F1. rewrite om. destruct (omap_reduce zero one add mul sub opp Rth _ _
      (fun x i => AF (orbs zero x) i) (3 * natom ts) idx L1 l N1 F1) as (fs & E & S & V).
    exists fs. split; [exact E|]. split; [exact S|]. intros i Hi. rewrite V by exact Hi.
    destruct Hi as (st & d & Hst & Hd & ->). rewrite AFv, <- AFapp by assumption.
    apply (ksum_ext zero add). intros x _. now apply AFv. }
  assert (L3 : forall l, (l <> [] /\ List.Forall (fun l => l <> [] /\ List.Forall (grp_ok cj spin_typ c pos ats grid) l) l) ->
    exists fs, omap (omap (grp_force zero one add mul sub chi gamma dV occfac cj re gam spin_typ c ts)) (map (map gd_g) l) = Ok fs /\
    sz (reduce zero add (map (reduce zero add) fs)) = 3 * natom ts /\
    forall i, idx i -> at_ (reduce zero add (map (reduce zero add) fs)) i = AF (flat_map (flat_map (orbs zero)) l) i).
  { intros l (N1 & F1). rewrite om.
    destruct (omap_reduce zero one add mul sub opp Rth
      (fun l => obind (omap (grp_force zero one add mul sub chi gamma dV occfac cj re gam spin_typ c ts) (map gd_g l))
                 (fun fs => Ok (reduce zero add fs)))
      (fun l => l <> [] /\ List.Forall (grp_ok cj spin_typ c pos ats grid) l)
      (fun l i => AF (flat_map (orbs zero) l) i) (3 * natom ts) idx) with (l := l) as (fs & E & S & V); auto.
    { intros y (N2 & F2). destruct (L2 y N2 F2) as (fs & E & S & V). rewrite E. cbn [obind]. eauto. }
    assert (X : forall (l : list (list (gdata K))) fs, omap (fun l => obind (omap (grp_force zero one add mul sub chi gamma dV occfac cj re gam spin_typ c ts) (map gd_g l))
                 (fun fs => Ok (reduce zero add fs))) l = Ok fs ->
       exists fs0, omap (fun a => omap (grp_force zero one add mul sub chi gamma dV occfac cj re gam spin_typ c ts) (map gd_g a)) l = Ok fs0 /\
       fs = map (reduce zero add) fs0).
    { clear. induction l as [|a l IH]; intros fs H; cbn [omap] in *.
      - injection H as <-. now exists [].
      - destruct (omap (grp_force zero one add mul sub chi gamma dV occfac cj re gam spin_typ c ts) (map gd_g a)) as [f0| |];
          cbn [obind] in *; try discriminate H.
        destruct (omap (fun l => obind (omap (grp_force zero one add mul sub chi gamma dV occfac cj re gam spin_typ c ts) (map gd_g l))
                 (fun fs => Ok (reduce zero add fs))) l) as [t| |]; cbn [obind] in H; try discriminate H.
        injection H as <-. destruct (IH t eq_refl) as (fs0 & -> & ->). cbn [obind]. now exists (f0 :: fs0). }
    destruct (X l fs E) as (fs0 & E0 & ->). exists fs0. split; [exact E0|]. split; [exact S|].
    intros i Hi. rewrite V by exact Hi.
    destruct Hi as (st & d & Hst & Hd & ->). rewrite AFv, <- AFapp by assumption.
    apply (ksum_ext zero add). intros x _. now apply AFv. }
  unfold nonlocal_forces. rewrite om.
  destruct (omap_reduce zero one add mul sub opp Rth
      (fun l => obind (omap (omap (grp_force zero one add mul sub chi gamma dV occfac cj re gam spin_typ c ts)) (map (map gd_g) l))
                 (fun fs => Ok (reduce zero add (map (reduce zero add) fs))))
      (fun l => l <> [] /\ List.Forall (fun l => l <> [] /\ List.Forall (grp_ok cj spin_typ c pos ats grid) l) l)
      (fun l i => AF (flat_map (flat_map (orbs zero)) l) i) (3 * natom ts) idx) with (l := gs) as (fs & E & S & V);
    [|exact NE|exact HGS|].
  { intros y Hy. destruct (L3 y Hy) as (fs & E & S & V). rewrite E. cbn [obind]. eauto. }
  assert (X : forall (l : list (list (list (gdata K)))) fs,
     omap (fun l => obind (omap (omap (grp_force zero one add mul sub chi gamma dV occfac cj re gam spin_typ c ts)) (map (map gd_g) l))
                 (fun fs => Ok (reduce zero add (map (reduce zero add) fs)))) l = Ok fs ->
       exists fs0, omap (fun a => omap (omap (grp_force zero one add mul sub chi gamma dV occfac cj re gam spin_typ c ts)) (map (map gd_g) a)) l = Ok fs0 /\
       fs = map (fun l => reduce zero add (map (reduce zero add) l)) fs0).
  { clear. induction l as [|a l IH]; intros fs H; cbn [omap] in *.
    - injection H as <-. now exists [].
    - destruct (omap (omap (grp_force zero one add mul sub chi gamma dV occfac cj re gam spin_typ c ts)) (map (map gd_g) a)) as [f0| |];
        cbn [obind] in *; try discriminate H.
      destruct (omap (fun l => obind (omap (omap (grp_force zero one add mul sub chi gamma dV occfac cj re gam spin_typ c ts)) (map (map gd_g) l))
               (fun fs => Ok (reduce zero add (map (reduce zero add) fs)))) l) as [t| |]; cbn [obind] in H; try discriminate H.
      injection H as <-. destruct (IH t eq_refl) as (fs0 & -> & ->). cbn [obind]. now exists (f0 :: fs0). }
  destruct (X gs fs E) as (fs0 & E0 & EF). rewrite E0. cbn [obind]. rewrite <- EF.
  set (f := reduce zero add fs) in *. clearbody f. clear X E E0 EF L1 L2 L3 fs fs0.
  assert (ZN : 0 <= zsum (map t_n ats)).
  { pose proof (io_n _ _ D1) as X0. clear - X0. induction X0 as [|t l Ht _ IH]; cbn; [lia|]. unfold zsum in IH. lia. }
  assert (LP : forall n a h, 0 <= a -> a + Z.of_nat n = 3 * natom ts -> sz h = sz forces -> exists h',
    ofold (fun h i => obind (rd h i) (fun u => obind (rd f i) (fun v => wr h i (add u v)))) h (zseq a n) = Ok h' /\
    sz h' = sz forces /\ (forall i, a <= i < 3 * natom ts -> at_ h' i = add (at_ h i) (at_ f i)) /\
    (forall i, ~ (a <= i < 3 * natom ts) -> at_ h' i = at_ h i)).
  { induction n as [|n IH]; intros a h Ha E Hh; cbn [zseq ofold].
    - exists h. split; [reflexivity|]. split; [exact Hh|]. split; [intros; lia|reflexivity].
    - rewrite !rd_ok by lia. cbn [obind]. rewrite wr_ok by lia. cbn [obind]. set (h1 := Arr _ _).
      destruct (IH (a + 1) h1) as (h2 & E2 & S2 & V2 & U2); [lia|lia|exact Hh|].
      exists h2. split; [exact E2|]. split; [exact S2|]. split.
      + intros i Hi. destruct (Z.eq_dec i a) as [->|N].
        * rewrite U2 by lia. unfold h1. cbn [at_]. now rewrite Z.eqb_refl.
        * rewrite V2 by lia. unfold h1. cbn [at_]. destruct (Z.eqb_spec i a); [contradiction|reflexivity].
      + intros i Hi. rewrite U2 by lia. unfold h1. cbn [at_]. destruct (Z.eqb_spec i a); [lia|reflexivity]. }
  destruct (LP (Z.to_nat (3 * natom ts - 1 - 0 + 1)) 0 forces) as (h & E & Sh & Vh & Uh); [lia|lia|reflexivity|].
  exists h. split; [exact E|]. split; [exact Sh|]. rewrite NA in *. split.
  - intros st d Hst Hd. rewrite Vh.
    + f_equal. rewrite V by (exists st, d; auto). unfold all_orbs. rewrite <- AFapp.
      apply (ksum_ext zero add). intros x _. now apply AFv.
    + apply in_sites in Hst. destruct Hst as (k & t & s & A & _ & _ & _ & _ & F0).
      assert (M : 0 <= first_atom ats k /\ first_atom ats k + t_n t <= zsum (map t_n ats)).
      { clear - A D1. pose proof (io_n _ _ D1) as X0. clear D1. revert k A. induction X0 as [|t0 l Ht X0 IH]; intros [|k] A; try discriminate A.
        - injection A as ->. assert (0 <= zsum (map t_n l)) by (clear - X0; induction X0 as [|? ? ? ? IH]; cbn; [lia|unfold zsum in IH; lia]).
          unfold first_atom. cbn. unfold zsum in *. lia.
        - cbn in A. specialize (IH k A). change (first_atom (t0 :: l) (S k)) with (t_n t0 + first_atom l k).
          change (zsum (map t_n (t0 :: l))) with (t_n t0 + zsum (map t_n l)). lia. }
      lia.
  - intros i Hi. now apply Uh.
Qed.
Print Assumptions C79_forces.

(** ** The force is minus the derivative of the energy *)
(** When every orbital moves along its derivative in direction [d], the
    nonlocal energy of an atom changes by minus the force times the step, up
    to second order, exactly: the energy is a quadratic polynomial of the
    step and the force is minus its linear coefficient. *)
Theorem C79_derivative : forall (K : Type) (zero one : K) add mul sub opp,
  ring_theory zero one add mul sub opp eq ->
  forall chi gamma dV occfac cj re c pos All grid,
  conjugation zero add mul cj -> (forall z, cj (cj z) = z) -> cj dV = dV ->
  (forall z, add (re z) (re z) = add z (cj z)) ->
  forall os st d t, cj t = t ->
  let E val := atom_energy zero add mul chi gamma dV occfac cj c pos All grid val os st in
  let F := atom_force zero one add mul opp chi gamma dV occfac cj re c pos All grid os st d in
  E (fun o nd => add (o_psi o nd) (mul t (o_d o d nd))) =
  add (sub (E o_psi) (mul t F)) (mul (mul t t) (E (fun o => o_d o d))).
Proof.
  intros K zero one add mul sub opp Rth.
  exact (step_energy zero one add mul sub opp Rth).
Qed.
Print Assumptions C79_derivative.

(** ** The energy is the expectation of the operator of C70 *)
Theorem C79_energy : forall (K : Type) (zero one : K) add mul sub opp,
  ring_theory zero one add mul sub opp eq ->
  forall chi gamma dV occfac cj c pos All grid ss os,
  conjugation zero add mul cj -> (forall ty cl v, cj (chi ty cl v) = chi ty cl v) ->
  ksum zero add (map (atom_energy zero add mul chi gamma dV occfac cj c pos All grid o_psi os) ss) =
  ksum zero add (map (fun o => mul (mul (mul occfac (o_wt o)) (o_occ o))
    (ksum zero add (map (fun nd => mul (cj (o_psi o nd))
      (Vnl_spec zero add mul chi gamma dV c pos All (o_w o) (fun r => cj (o_w o r)) grid ss (o_psi o) nd)) grid))) os).
Proof.
  intros K zero one add mul sub opp Rth.
  exact (energy_expect zero one add mul sub opp Rth).
Qed.
Print Assumptions C79_energy.

(** ** The division does not matter *)
Theorem C79_division : forall (K : Type) (zero one : K) add mul sub opp,
  ring_theory zero one add mul sub opp eq ->
  forall chi gamma dV occfac cj re gam spin_typ c pos ats ps grid grid',
  data_ok zero chi gamma c ats ps ->
  conjugation zero add mul cj -> (forall ty cl v, cj (chi ty cl v) = chi ty cl v) ->
  (gam = true -> forall z, cj z = z /\ re z = z) ->
  forall gs gs' forces, groups_ok cj spin_typ c pos ats grid gs -> groups_ok cj spin_typ c pos ats grid' gs' ->
  Permutation grid grid' -> Permutation (all_orbs zero gs) (all_orbs zero gs') ->
  3 * zsum (map t_n ats) <= sz forces ->
  exists h h',
    nonlocal_forces zero one add mul sub chi gamma dV occfac cj re gam spin_typ c (combine (map t_n ats) ps)
      (map (map (map gd_g)) gs) forces = Ok h /\
    nonlocal_forces zero one add mul sub chi gamma dV occfac cj re gam spin_typ c (combine (map t_n ats) ps)
      (map (map (map gd_g)) gs') forces = Ok h' /\
    forall st d, In st (sites 0 0 ats ps) -> 0 <= d < 3 -> at_ h (st_atom st * 3 + d) = at_ h' (st_atom st * 3 + d).
Proof.
  intros K zero one add mul sub opp Rth chi gamma dV occfac cj re gam spin_typ c pos ats ps grid grid' HD HJ JC HGm
    gs gs' forces HG HG' PG PO HF.
  assert (EX : exists x, grp_ok cj spin_typ c pos ats grid x).
  { destruct HG as (NE & HGS). destruct gs as [|l gs]; [now destruct NE|]. inversion HGS as [|? ? (NL & HL) _]; subst.
    destruct l as [|l1 l]; [now destruct NL|]. inversion HL as [|? ? (NL1 & HL1) _]; subst.
    destruct l1 as [|x l1]; [now destruct NL1|]. inversion HL1 as [|? ? HX _]; subst. now exists x. }
  destruct EX as (x & HX).
  destruct (C70_images c pos ats ps (map f_dom (g_prs (gd_g x)))) as (All & HA).
  { apply HD. }
  { apply List.Forall_forall. intros D H. apply in_map_iff in H. destruct H as (pr & <- & H).
    pose proof (go_fp _ _ _ _ _ _ _ HX) as X2. rewrite List.Forall_forall in X2. apply X2. exact H. }
  assert (PX : Permutation (flat_map nodes (map f_dom (g_prs (gd_g x)))) grid).
  { eapply Permutation_trans; [|apply (go_grid _ _ _ _ _ _ _ HX)].
    replace (flat_map nodes (map f_dom (g_prs (gd_g x)))) with (flat_map (fun pr => nodes (f_dom pr)) (g_prs (gd_g x)));
      [apply Permutation_refl|].
    clear. generalize (g_prs (gd_g x)). intros l. induction l as [|p l IH]; [reflexivity|]. cbn [flat_map map].
    now rewrite IH. }
  assert (TR : forall g1 g2, Permutation g1 g2 -> all_images c pos g1 (sites 0 0 ats ps) All ->
    all_images c pos g2 (sites 0 0 ats ps) All).
  { intros g1 g2 P H st Hst. destruct (H st Hst) as (A & B & C0). split; [exact A|]. split; [exact B|].
    intros im nd Him Hnd. apply C0; [exact Him|]. eapply Permutation_in; [apply Permutation_sym, P|exact Hnd]. }
  pose proof (TR _ _ PX HA) as HA1. pose proof (TR _ _ PG HA1) as HA2.
  destruct (C79_forces K zero one add mul sub opp Rth chi gamma dV occfac cj re gam spin_typ c pos ats ps grid All
    HD HA1 HJ JC HGm gs forces HG HF) as (h & E & _ & V & _).
  destruct (C79_forces K zero one add mul sub opp Rth chi gamma dV occfac cj re gam spin_typ c pos ats ps grid' All
    HD HA2 HJ JC HGm gs' forces HG' HF) as (h' & E' & _ & V' & _).
  exists h, h'. split; [exact E|]. split; [exact E'|]. intros st d Hst Hd. rewrite V, V' by assumption. f_equal.
  apply (force_perm zero one add mul sub opp Rth); assumption.
Qed.
Print Assumptions C79_division.

(** ** A concrete case *)
(** The cube of C69 and C70: two atoms with one s projector, one atom with
    three p projectors; two spinors and two bands.  Once one process holds
    everything; once two processes share the grid, and two band groups hold
    one band each. *)
Definition ex_psi (k sp n : Z) (nd : tri) : Z := ex_X n nd + 5 * sp.
Definition ex_d (d k sp n : Z) (nd : tri) : Z := let '(i, j, l) := nd in (d + 1) * i + (2 - d) * j + d * l + n - 3 * sp.
Definition ex_occ (k sp n : Z) : Z := 1 + sp + 2 * n.
Definition ex_arr (D : dom) (ncol : Z) (F : Z -> Z -> tri -> Z) : arr Z :=
  Arr (ndd D * 2 * ncol) (fun i => nth (Z.to_nat (i mod ndd D))
    (map (F (i / ndd D mod 2) (i / (ndd D * 2))) (nodes D)) 0).
Definition ex_fp (n0 ncol : Z) (D : dom) : fproc Z :=
  FProc D (match GetInfluencingAtoms_nloc ex_cell D ex_pos ex_ts with Ok L => L | _ => [] end)
    (ex_arr D ncol (fun sp n => ex_psi 0 sp (n0 + n))) (fun d k => ex_arr D ncol (fun sp n => ex_d d k sp (n0 + n))).
Definition ex_grp (n0 ncol : Z) (Ds : list dom) : grp Z :=
  Grp [Kp (fun _ => 1) (fun _ => 1) 1] 2 2 n0 ncol [1; 3; 2; 4] (map (ex_fp n0 ncol) Ds).
Definition ex_gd (n0 ncol : Z) (Ds : list dom) : gdata Z :=
  GData (ex_grp n0 ncol Ds) (fun k sp n => ex_psi k sp (n0 + n)) (fun d k sp n => ex_d d k sp (n0 + n))
    (fun k sp n => ex_occ k sp (n0 + n)).
Definition ex_gs : list (list (list (gdata Z))) := [[[ex_gd 0 2 [ex_all]]]].
Definition ex_gs' : list (list (list (gdata Z))) := [[[ex_gd 0 1 [ex_lo; ex_hi]]]; [[ex_gd 1 1 [ex_lo; ex_hi]]]].
Definition ex_F (gs : list (list (list (gdata Z)))) : list Z :=
  match nonlocal_forces 0 1 Z.add Z.mul Z.sub (ex_proj false) ex_gamma 1 1 (fun z => z) (fun z => z) true 1 ex_cell
    (combine (map t_n ex_ts) ex_ps) (map (map (map gd_g)) gs) (Arr 9 (fun i => i)) with
  | Ok h => map (at_ h) (zrange 0 8) | _ => [] end.

Lemma ex_arr_at D ncol F sp n nd : 0 < ndd D -> 0 <= sp < 2 -> 0 <= n ->
  0 <= local_index D nd < ndd D -> nth_error (nodes D) (Z.to_nat (local_index D nd)) = Some nd ->
  at_ (ex_arr D ncol F) (sp * ndd D + (n * (ndd D * 2) + local_index D nd)) = F sp n nd.
Proof.
  intros H0 Hs Hn Hl EN. unfold ex_arr. cbn [at_].
  set (N := ndd D) in *. set (l := local_index D nd) in *.
  replace (sp * N + (n * (N * 2) + l)) with (l + (n * 2 + sp) * N) by ring.
  rewrite Z.mod_add, Z.div_add, Z.mod_small, Z.div_small, Z.add_0_l by lia.
  replace (l + (n * 2 + sp) * N) with (sp * N + l + n * (N * 2)) by ring.
  rewrite Z.div_add by lia. rewrite (Z.div_small (sp * N + l)) by nia. rewrite Z.add_0_l.
  rewrite (Z.add_comm (n * 2)), Z.mod_add, Z.mod_small by lia.
  apply (map_nth_error (F sp n)) in EN. now rewrite (nth_error_nth _ _ 0 EN).
Qed.

Lemma ex_fp_ok n0 ncol Ds D : 0 <= ncol -> call_ok ex_cell D ex_pos ex_ts -> 0 < ndd D ->
  forallb (fun nd => (0 <=? local_index D nd) && (local_index D nd <? ndd D) &&
    match nth_error (nodes D) (Z.to_nat (local_index D nd)) with
    | Some (i, j, k) => let '(i', j', k') := nd in (i =? i') && (j =? j') && (k =? k')
    | None => false end) (nodes D) = true ->
  fproc_ok ex_cell ex_pos ex_ts (ex_gd n0 ncol Ds) (ex_fp n0 ncol D).
Proof.
  intros Hc HC H0 HN. destruct (C69_list _ _ _ _ HC) as (L & E & _).
  assert (LI : forall nd, In nd (nodes D) -> 0 <= local_index D nd < ndd D /\
    nth_error (nodes D) (Z.to_nat (local_index D nd)) = Some nd).
  { intros nd Hnd. rewrite forallb_forall in HN. specialize (HN nd Hnd). apply andb_true_iff in HN.
    destruct HN as [B HN]. apply andb_true_iff in B. destruct B as [B1 B2].
    apply Z.leb_le in B1. apply Z.ltb_lt in B2. split; [lia|].
    destruct (nth_error (nodes D) (Z.to_nat (local_index D nd))) as [[[i j] k]|] eqn:EN; [|discriminate HN].
    destruct nd as [[i' j'] k']. apply andb_true_iff in HN. destruct HN as [HN B4]. apply andb_true_iff in HN.
    destruct HN as [B3 B5]. apply Z.eqb_eq in B3, B4, B5. now subst. }
  constructor; cbn [f_dom f_inf f_x f_y ex_fp gd_g ex_gd g_nsp g_ncol ex_grp gd_psi gd_d].
  - exact HC.
  - rewrite E. reflexivity.
  - lia.
  - change (nk (ex_grp n0 ncol Ds)) with 1. cbn [sz ex_arr]. rewrite Z.mul_1_l. apply Z.le_refl.
  - intros k sp n nd Hk Hs Hn Hnd. change (nk (ex_grp n0 ncol Ds)) with 1 in Hk.
    assert (k = 0) by lia. subst k. rewrite Z.mul_0_l, Z.add_0_l. destruct (LI nd Hnd).
    rewrite ex_arr_at by (auto; lia). reflexivity.
  - intros d k _ _. cbn [sz ex_arr]. apply Z.le_refl.
  - intros d k sp n nd Hd Hk Hs Hn Hnd. change (nk (ex_grp n0 ncol Ds)) with 1 in Hk. destruct (LI nd Hnd).
    rewrite ex_arr_at by (auto; lia). reflexivity.
Qed.

Lemma ex_gd_ok n0 ncol Ds grid : 0 <= ncol -> 0 <= n0 -> n0 + ncol <= 2 -> Ds <> [] ->
  List.Forall (fun D => fproc_ok ex_cell ex_pos ex_ts (ex_gd n0 ncol Ds) (ex_fp n0 ncol D)) Ds ->
  Permutation (flat_map nodes Ds) grid ->
  grp_ok (fun z => z) 1 ex_cell ex_pos ex_ts grid (ex_gd n0 ncol Ds).
Proof.
  intros Hc H0 H2 NE HF HP. constructor; cbn [gd_g ex_gd ex_grp g_ncol g_nsp g_prs g_kp g_occ g_ns g_start gd_occ].
  - exact Hc.
  - lia.
  - intros E. apply NE. destruct Ds; [reflexivity|discriminate E].
  - apply List.Forall_forall. intros pr Hpr. apply in_map_iff in Hpr. destruct Hpr as (D & <- & HD).
    rewrite List.Forall_forall in HF. now apply HF.
  - rewrite flat_map_concat_map, map_map, <- flat_map_concat_map. exact HP.
  - intros k sp n Hk Hs Hn. change (0 <= k < 1) in Hk. change (0 <= sp < 2) in Hs. change (0 <= n < ncol) in Hn.
    assert (K0 : k = 0) by lia. subst k.
    assert (SS : sp = 0 \/ sp = 1) by lia. assert (NN : n0 + n = 0 \/ n0 + n = 1) by lia. unfold ex_occ.
    destruct SS as [-> | ->], NN as [-> | ->]; (split; [vm_compute; discriminate || congruence|reflexivity]).
  - intros q r [<-|[]]. reflexivity.
Qed.

Example C79_example :
  groups_ok (fun z => z) 1 ex_cell ex_pos ex_ts (nodes ex_all ++ []) ex_gs /\
  groups_ok (fun z => z) 1 ex_cell ex_pos ex_ts (nodes ex_lo ++ nodes ex_hi ++ []) ex_gs' /\
  Permutation (all_orbs 0 ex_gs) (all_orbs 0 ex_gs') /\
  ex_F ex_gs = ex_F ex_gs' /\ length (ex_F ex_gs) = 9%nat /\ Forall (fun z => z <> 0) (ex_F ex_gs).
Proof.
  destruct ex_ok as (O1 & O2 & O3).
  assert (FA : forall n0 ncol Ds D, 0 <= ncol -> In D [ex_lo; ex_hi; ex_all] ->
    fproc_ok ex_cell ex_pos ex_ts (ex_gd n0 ncol Ds) (ex_fp n0 ncol D)).
  { intros n0 ncol Ds D Hc [<-|[<-|[<-|[]]]]; (apply ex_fp_ok; [exact Hc|assumption|vm_compute; reflexivity|vm_compute; reflexivity]). }
  split; [|split; [|split; [|split; [|split]]]].
  - split; [discriminate|]. apply List.Forall_forall; intros ks [<-|[]]. split; [discriminate|].
    apply List.Forall_forall; intros ss [<-|[]]. split; [discriminate|]. apply List.Forall_forall; intros x [<-|[]].
    apply ex_gd_ok; [lia|lia|lia|discriminate| |apply Permutation_refl].
    apply List.Forall_forall. intros D [<-|[]]. apply FA; [lia|cbn; tauto].
  - split; [discriminate|]. apply List.Forall_forall; intros ks [<-|[<-|[]]]; (split; [discriminate|]);
      apply List.Forall_forall; intros ss [<-|[]]; (split; [discriminate|]); apply List.Forall_forall; intros x [<-|[]];
      (apply ex_gd_ok; [lia|lia|lia|discriminate| |apply Permutation_refl]);
      (apply List.Forall_forall; intros D [<-|[<-|[]]]; (apply FA; [lia|cbn; tauto])).
  - change (all_orbs 0 ex_gs) with (let o sp n := Orb (ex_occ 0 sp n) 1 (fun _ : Q * Q * Q => 1) (ex_psi 0 sp n) (fun d => ex_d d 0 sp n) in
      [o 0 0; o 0 1; o 1 0; o 1 1]).
    change (all_orbs 0 ex_gs') with (let o sp n := Orb (ex_occ 0 sp n) 1 (fun _ : Q * Q * Q => 1) (ex_psi 0 sp n) (fun d => ex_d d 0 sp n) in
      [o 0 0; o 1 0; o 0 1; o 1 1]).
    cbv zeta. apply perm_skip. apply perm_swap.
  - vm_compute. reflexivity.
  - vm_compute. reflexivity.
  - vm_compute. repeat constructor; discriminate.
Qed.
