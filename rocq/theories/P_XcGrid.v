(** C66: on the grid, the exchange-correlation potential of Calculate_Vxc is the derivative of the energy of
    Calculate_Exc. *)
From Coq Require Import Reals ZArith List Bool Lia Lra String Ascii.
From Coquelicot Require Import Coquelicot.
From Verif Require Import CBase Collect Halo HaloLem P_Halo Xc XcLem P_Xc XcSpin XcSpinLem P_XcSpin XcGrid XcGridLem XcGridVar XcGridMain.
Import ListNotations.
Local Open Scope R_scope.

Definition pt_dec (p q : pt) : {p = q} + {p <> q}.
Proof. repeat decide equality. Defined.
Lemma fill_ext {A} (f g : pt -> outcome A) : forall l m, (forall p, In p l -> f p = g p) -> fill f l m = fill g l m.
Proof.
  induction l as [|a l IH]; intros m H; [reflexivity|]. cbn [fill]. rewrite (H a) by (left; reflexivity).
  destruct (g a); cbn [obind]; try reflexivity. apply IH. intros; apply H; right; assumption.
Qed.
Lemma t4 (a b c d a2 b2 c2 d2 : R) : a = a2 -> b = b2 -> c = c2 -> d = d2 -> (a, b, c, d) = (a2, b2, c2, d2).
Proof. now intros -> -> -> ->. Qed.
Lemma fill_inv {A} (f : pt -> outcome A) : forall l m r, fill f l m = Ok r ->
  forall p, (In p l -> f p = Ok (r p)) /\ (~ In p l -> r p = m p).
Proof.
  induction l as [|a l IH]; intros m r H p; cbn [fill] in H; [injection H as <-; split; [intros []|reflexivity]|].
  destruct (f a) as [x| |] eqn:Fa; cbn [obind] in H; try discriminate H.
  destruct (IH _ _ H p) as [I1 I2]. destruct (In_dec pt_dec p l) as [L|L].
  - split; [intros _; auto|]. intros NN. exfalso. apply NN. right. exact L.
  - specialize (I2 L). cbn beta in I2. split.
    + intros [<-|L2]; [|contradiction]. rewrite I2, Fa. now replace (pt_eqb a a) with true by (symmetry; now apply pt_eqb_eq).
    + intros NN. rewrite I2. destruct (pt_eqb p a) eqn:E; [|reflexivity]. apply pt_eqb_eq in E. subst. exfalso. apply NN. now left.
Qed.
Lemma pts_first N : (forall d, (d < 3)%nat -> (1 <= at_ N d)%Z) -> exists l, pts N = (0, 0, 0)%Z :: l.
Proof.
  intros H. pose proof (H 0%nat ltac:(lia)) as H0. pose proof (H 1%nat ltac:(lia)) as H1. pose proof (H 2%nat ltac:(lia)) as H2.
  destruct N as [[a b] c]. cbn [at_] in *. unfold pts, box, zr, zrange. cbn [at_ vec]. rewrite !Z.sub_0_r.
  replace (Z.to_nat a) with (S (Z.to_nat (a - 1))) by lia. replace (Z.to_nat b) with (S (Z.to_nat (b - 1))) by lia.
  replace (Z.to_nat c) with (S (Z.to_nat (c - 1))) by lia. eexists. reflexivity.
Qed.

(** ** Specification *)
Section Spec.
  Variables (N : pt) (per : nat -> bool) (D1 : nat -> Z -> R) (F : Z) (T : nat -> R) (cell_typ : Z) (dV : R).
  Variables (nlcc : bool) (core : field).
  Variables (metax metac : Z -> R -> R -> R -> outcome (R * R * R * R)).
  Variable metax_s : Z -> R * R * R -> R * R * R -> R * R * R -> outcome (R * (R * R) * (R * R) * (R * R)).
  Variable metac_s : Z -> R * R * R -> R * R * R -> R * R * R -> outcome (R * (R * R) * R * R).
  Variable pbexsr : R -> R -> outcome (R * R * R).
  (** the functionals of the manual (System.tex:331) *)
  Definition known (XC : string) : Prop := exists n, In n names /\ ieq XC n = true.
  (** the stencil is not wider than the grid and lapcT is symmetric (C48) *)
  Definition sound_grid : Prop := (forall d, (d < 3)%nat -> (F <= at_ N d)%Z) /\ lapcT_symmetric T cell_typ.
  Definition gridsum (f : field) : R := dV * lsum f (pts N).
  (** the parameters yield numbers *)
  Definition params_total : Prop := meta_total metax /\ meta_total metac /\ metas_total metax_s metac_s /\ sr_total pbexsr.
  Hypothesis HP : params_total.
  Hypothesis HG : sound_grid.
  Notation conf XC exx0 uf := (with_fock (xc_decomposition XC exx0) uf).

  Notation calc_vxc1 := (calc_vxc1 N per D1 F T cell_typ nlcc core metax metac pbexsr).
  Notation calc_vxc_sp := (calc_vxc_sp N per D1 F T cell_typ nlcc core metax_s metac_s pbexsr).
  Notation calc_vxc_nc := (calc_vxc_nc N per D1 F T cell_typ nlcc core metax_s metac_s pbexsr).
  Notation sq g := (sq3 T cell_typ g).
  Notation grad f := (grad3 N per D1 F f).

  Lemma meta_grad XC exx0 i : known XC -> ixc (xc_decomposition XC exx0) = Some (i, i, 1, 0)%Z -> isgrad (xc_decomposition XC exx0) = false -> False.
  Proof.
    intros (n & Kn & Ki) Hi Gr. rewrite (xc_name _ _ exx0 Ki) in Gr, Hi. unfold names in Kn. cbn [In] in Kn.
    assert (A : match ixc (xc_decomposition n exx0) with Some (_, _, i2, _) => i2 = 1%Z | None => True end) by (rewrite Hi; reflexivity).
    repeat match type of Kn with _ \/ _ => destruct Kn as [<-|Kn] end; try contradiction; try discriminate Gr; discriminate A.
  Qed.
  (** *** Unpolarised *)
  (** the density with the core density is above its threshold everywhere, and so is the squared gradient when the
      functional reads it *)
  Definition smooth1 (c : cfg) (dens : field) : Prop := forall p, In p (pts N) ->
    rhotol < cored nlcc core 1 p (dens p) /\ (isgrad c = true -> sigmatol < sq (grad (add_rho_core nlcc core dens) p)).
  Theorem C66_unpolarised XC exx0 uf first (dens tau : R -> field) (dens' tau' : field) t m :
    let c := conf XC exx0 uf in
    known XC -> smooth1 c (dens t) ->
    (forall p, In p (pts N) -> is_derive (fun x => dens x p) t (dens' p) /\ is_derive (fun x => tau x p) t (tau' p)) ->
    (forall p, In p (pts N) -> let rho := add_rho_core nlcc core (dens t) in
       prem metax metac pbexsr XC c first (rho p) (sq (grad rho p)) (tau t p)) ->
    exists e v z delta, calc_vxc1 XC c first (dens t) (tau t) m = Ok (e, v, z) /\
      is_derive (fun x => Exc1 N per D1 F T cell_typ dV nlcc core metax metac pbexsr XC c first (dens x) (tau x) m) t
        (gridsum (fun p => (v p + delta p) * dens' p + z p * tau' p)) /\
      (isgrad c = true -> forall p, delta p = 0) /\
      (forall p, Rabs (delta p) <= / 10 ^ 15 * Rpower (add_rho_core nlcc core (dens t) p) (1 / 3)).
  Proof.
    intros c K Hs Hd Hp. destruct HP as (P1 & P2 & P3 & P4). destruct HG as (G1 & G2).
    destruct (point1_var metax metac pbexsr P1 P2 P4 XC exx0 uf first K) as (E & V & W & Z & O & Q). fold c in O, Q.
    set (rho := add_rho_core nlcc core (dens t)) in *.
    destruct (grid_var1 N per D1 F T cell_typ dV nlcc core G1 G2 metax metac pbexsr XC c first E V W Z (fun p => gap c (rho p)) dens tau dens' tau' t m)
      as (e & v & z & A & B); [exact O|exact Hd| | | |].
    - intros p H. apply (Hs p H).
    - intros Gr p H. apply (Hs p H), Gr.
    - intros p H. fold rho. apply Q; [split; [apply floor_core_pos|apply dSig_floor]|].
      unfold dSig. destruct (isgrad c) eqn:Gr.
      + unfold clampS. rewrite Rmax_left; [apply (Hp p H)|]. destruct (Hs p H) as [_ Hs2]. specialize (Hs2 Gr). fold rho in Hs2. lra.
      + specialize (Hp p H). cbv zeta in Hp. destruct Hp as (Q1 & Q2 & Q3). split; [exact Q1|]. split.
        * intros HSE. exfalso. unfold c, with_fock in Gr. cbn [isgrad] in Gr. rewrite (xc_name _ _ exx0 HSE) in Gr. discriminate Gr.
        * intros i Hi. exfalso. exact (meta_grad XC exx0 i K Hi Gr).
    - exists e, v, z, (fun p => gap c (rho p)). split; [exact A|]. split; [exact B|]. unfold gap. split.
      + intros ->. reflexivity.
      + intros p. destruct (isgrad c); [|apply slater_gap_bound]. rewrite Rabs_R0. apply Rmult_le_pos; [left; apply Rinv_0_lt_compat; lra|]. left. apply Rpower_pos.
  Qed.

  (** *** Two spins *)
  Definition smooth3 (c : cfg) (up dn : field) : Prop :=
    no_floor N nlcc core up dn /\
    let rho := add_rho_core3 nlcc core up dn in
    (isgrad c = true -> forall p, In p (pts N) ->
       sigmatol < sq (grad (col0 rho) p) /\ sigmatol < sq (grad (col1 rho) p) /\ sigmatol < sq (grad (col2 rho) p)).
  Definition state (rho : pt -> R * R * R) (tu td : field) (p : pt) : vec7 := fun k =>
    nth k [col1 rho p; col2 rho p; sq (grad (col0 rho) p); sq (grad (col1 rho) p); sq (grad (col2 rho) p); tu p; td p] 0.
  Lemma prem3_ext XC c first y y2 : (forall k, y k = y2 k) -> prem3 metax_s metac_s pbexsr XC c first y -> prem3 metax_s metac_s pbexsr XC c first y2.
  Proof. intros H. replace y2 with y; [auto|]. apply FunctionalExtensionality.functional_extensionality. exact H. Qed.
  Theorem C66_spin XC exx0 uf first (up dn tu td : R -> field) (up' dn' tu' td' : field) t m :
    let c := conf XC exx0 uf in
    known XC -> ieq XC "LDA_PZ" = false -> smooth3 c (up t) (dn t) ->
    (forall p, In p (pts N) -> is_derive (fun x => up x p) t (up' p) /\ is_derive (fun x => dn x p) t (dn' p) /\
                               is_derive (fun x => tu x p) t (tu' p) /\ is_derive (fun x => td x p) t (td' p)) ->
    (forall p, In p (pts N) -> prem3 metax_s metac_s pbexsr XC c first (state (add_rho_core3 nlcc core (up t) (dn t)) (tu t) (td t) p)) ->
    exists e vu vd zu zd, calc_vxc_sp XC c first (up t) (dn t) (tau3 (tu t) (td t)) m = Ok (e, (vu, vd), (zu, zd)) /\
      is_derive (fun x => Exc3 N per D1 F T cell_typ dV nlcc core metax_s metac_s pbexsr XC c first (up x) (dn x) (tu x) (td x) m) t
        (gridsum (fun p => vu p * up' p + vd p * dn' p + zu p * tu' p + zd p * td' p)).
  Proof.
    intros c K PZ [Hn Hs] Hd Hp. destruct HP as (P1 & P2 & P3 & P4). destruct HG as (G1 & G2).
    destruct (point3_var metax_s metac_s pbexsr P3 P4 XC exx0 uf first K PZ) as (E & G & O & Q). fold c in O, Q.
    set (rho := add_rho_core3 nlcc core (up t) (dn t)) in *.
    apply (grid_var3 N per D1 F T cell_typ dV nlcc core G1 G2 metax_s metac_s pbexsr XC c first E G up dn tu td up' dn' tu' td' t m O Hd Hn Hs).
    intros p H. fold rho. apply Q.
    - apply st_dom; apply (core3_pos nlcc core (up t) (dn t) p).
    - destruct (isgrad c) eqn:Gr.
      + refine (prem3_ext _ _ _ _ _ _ (Hp p H)). destruct (Hs eq_refl p H) as (S0 & S1 & S2).
        intros k. unfold state, st. rewrite Gr. unfold grads_col. cbn [fst snd].
        assert (CL : forall s, sigmatol < s -> s = clampS s) by (intros s L; unfold clampS; rewrite Rmax_left; lra).
        destruct k as [|[|[|[|[|[|[|k]]]]]]]; cbn [nth]; try reflexivity; try (now apply CL). now destruct k.
      + split.
        * intros HSE. exfalso. unfold c, with_fock in Gr. cbn [isgrad] in Gr. rewrite (xc_name _ _ exx0 HSE) in Gr. discriminate Gr.
        * intros i Hi. exfalso. exact (meta_grad XC exx0 i K Hi Gr).
  Qed.

  (** *** Every density is accepted: no hypothesis on the densities, which may be zero or negative *)
  Theorem C66_defined XC exx0 uf first (m1 : pt -> res1) (m3 : pt -> res3) : known XC ->
    let c := conf XC exx0 uf in
    (forall dens tau, exists r, calc_vxc1 XC c first dens tau m1 = Ok r) /\
    (ieq XC "LDA_PZ" = false -> forall up dn tu td, exists r, calc_vxc_sp XC c first up dn (tau3 tu td) m3 = Ok r) /\
    (ieq XC "LDA_PZ" = false -> forall n mx my mz tu td, exists r, calc_vxc_nc XC c first n mx my mz (tau3 tu td) m3 = Ok r) /\
    (ieq XC "LDA_PZ" = true -> (forall d, (d < 3)%nat -> (1 <= at_ N d)%Z) ->
       forall up dn tau, calc_vxc_sp XC c first up dn tau m3 = Exit).
  Proof.
    intros K c. destruct HP as (P1 & P2 & P3 & P4). destruct HG as (G1 & G2). split; [|split; [|split]].
    - intros dens tau. destruct (point1_var metax metac pbexsr P1 P2 P4 XC exx0 uf first K) as (E & V & W & Z & O & _).
      destruct (calc_vxc1_ok N per D1 F T cell_typ nlcc core G1 metax metac pbexsr XC c first E V W Z dens tau m1 O) as (e & v & z & Q & _). eauto.
    - intros PZ up dn tu td. destruct (point3_var metax_s metac_s pbexsr P3 P4 XC exx0 uf first K PZ) as (E & G & O & _).
      destruct (calc_vxc3_ok N per D1 F T cell_typ G1 metax_s metac_s pbexsr XC c first E G (add_rho_core3 nlcc core up dn) (grads_col N per D1 F (add_rho_core3 nlcc core up dn)) tu td m3 O
        (fun p _ => core3_pos nlcc core up dn p)) as (e & vu & vd & zu & zd & Q & _). eauto.
    - intros PZ n mx my mz tu td. destruct (point3_var metax_s metac_s pbexsr P3 P4 XC exx0 uf first K PZ) as (E & G & O & _).
      unfold XcGrid.calc_vxc_nc. cbv zeta.
      set (r := add_rho_core3 nlcc core _ _). set (g := grads_nc _ _ _ _ _ _ _ _ _).
      destruct (calc_vxc3_ok N per D1 F T cell_typ G1 metax_s metac_s pbexsr XC c first E G r g tu td m3 O (fun p _ => core3_pos nlcc core _ _ p)) as (e & vu & vd & zu & zd & -> & _).
      cbn [obind]. eauto.
    - intros PZ HN up dn tau. destruct (pts_first N HN) as [l Hl]. unfold XcGrid.calc_vxc_sp, calc_vxc3. rewrite Hl. cbn [fill].
      set (q := (0, 0, 0)%Z). unfold c. rewrite (xc_name _ _ exx0 PZ).
      unfold point3, labels. cbn [xc_decomposition with_fock ieq lowers String.eqb ixc rdo obind].
      change (xc_decomposition "LDA_PZ" exx0) with (Cfg (Some (1, 1, 0, 0))%Z 0 0 false 0 exx0). cbn [ixc with_fock obind rdo negb Z.eqb andb xo0 xo1 isgrad].
      destruct (lsda_prim slater_spin (proj1 C65_slater)) as (Ex & Vux & Vdx & Ox & _).
      unfold exch_s, corr_s, add_rho_core3. cbn [Z.eqb Pos.eqb]. rewrite Ox by apply floor_core_pos. cbn [obind]. reflexivity.
  Qed.

  (** *** Noncollinear *)
  (** the energy of the noncollinear calculation *)
  Definition Exc_nc (XC : string) (c : cfg) (first : bool) (n mx my mz : field) (tau : pt -> R * R * R) (m : pt -> res3) : R :=
    match calc_vxc_nc XC c first n mx my mz tau m with Ok (e, _) => calc_exc N dV nlcc core n e | _ => 0 end.
  (** tr(V rho') for the density matrix rho = (n + mx sx + my sy + mz sz)/2 and a Hermitian V (V11, V22, Re V12, Im V12) *)
  Definition tr_nc (V : R * R * R * R) (n' x' y' z' : R) : R :=
    let '(v11, v22, re, im) := V in v11 * ((n' + z') / 2) + v22 * ((n' - z') / 2) + 2 * (re * (x' / 2) - im * (y' / 2)).
  Definition mag (mx my mz : field) : field := fun p => magnorm (mx p) (my p) (mz p).
  Lemma nograd_vxc3 XC c first r g g2 tau m : isgrad c = false ->
    calc_vxc3 N per D1 F T cell_typ metax_s metac_s pbexsr XC c first r g tau m = calc_vxc3 N per D1 F T cell_typ metax_s metac_s pbexsr XC c first r g2 tau m.
  Proof. intros Gr. unfold calc_vxc3, sigma3. rewrite Gr. reflexivity. Qed.
  Lemma mag_derive (x y z : R -> R) t x' y' z' : is_derive x t x' -> is_derive y t y' -> is_derive z t z' -> 0 < magnorm (x t) (y t) (z t) ->
    is_derive (fun u => magnorm (x u) (y u) (z u)) t ((x t * x' + y t * y' + z t * z') / magnorm (x t) (y t) (z t)).
  Proof.
    intros Hx Hy Hz Hp. unfold magnorm in *. set (s := fun u => x u * x u + y u * y u + z u * z u).
    assert (Hs : is_derive s t ((x' * x t + x t * x') + (y' * y t + y t * y') + (z' * z t + z t * z'))).
    { exact (der_plus _ _ _ _ _ (der_plus _ _ _ _ _ (der_mult _ _ _ _ _ Hx Hx) (der_mult _ _ _ _ _ Hy Hy)) (der_mult _ _ _ _ _ Hz Hz)). }
    assert (P : 0 < s t). { destruct (Rlt_dec 0 (s t)) as [L|L]; [exact L|]. exfalso. unfold s in L. rewrite sqrt_neg_0 in Hp by lra. lra. }
    eapply is_derive_eq; [exact (der_sqrt s t _ P Hs)|]. fold (s t). field. intros E. apply sqrt_lt_R0 in P. lra.
  Qed.
  Theorem C66_noncollinear XC exx0 uf first (n mx my mz : R -> field) (n' mx' my' mz' tu td : field) t m :
    let c := conf XC exx0 uf in
    known XC -> ieq XC "LDA_PZ" = false -> isgrad c = false ->
    (forall p, In p (pts N) -> magtol < mag (mx t) (my t) (mz t) p) ->
    no_floor N nlcc core (fun p => (n t p + mag (mx t) (my t) (mz t) p) / 2) (fun p => (n t p - mag (mx t) (my t) (mz t) p) / 2) ->
    (forall p, In p (pts N) -> is_derive (fun x => n x p) t (n' p) /\ is_derive (fun x => mx x p) t (mx' p) /\
                               is_derive (fun x => my x p) t (my' p) /\ is_derive (fun x => mz x p) t (mz' p)) ->
    exists e V, calc_vxc_nc XC c first (n t) (mx t) (my t) (mz t) (tau3 tu td) m = Ok (e, V) /\
      is_derive (fun x => Exc_nc XC c first (n x) (mx x) (my x) (mz x) (tau3 tu td) m) t
        (gridsum (fun p => tr_nc (V p) (n' p) (mx' p) (my' p) (mz' p))).
  Proof.
    intros c K PZ Gr Hm Hn Hd. pose proof magtol_pos as MP.
    set (mn := fun x => mag (mx x) (my x) (mz x)). set (up := fun x p => diag_up (n x p) (mn x p)). set (dn := fun x p => diag_dn (n x p) (mn x p)).
    set (mn' := fun p => (mx t p * mx' p + my t p * my' p + mz t p * mz' p) / mn t p).
    assert (Hmn : forall p, In p (pts N) -> is_derive (fun x => mn x p) t (mn' p)).
    { intros p Hp. destruct (Hd p Hp) as (_ & A & B & C0). apply (mag_derive (fun x => mx x p) (fun x => my x p) (fun x => mz x p)); try assumption.
      specialize (Hm p Hp). unfold mag in Hm. lra. }
    destruct (C66_spin XC exx0 uf first up dn (fun _ => tu) (fun _ => td) (fun p => 1 / 2 * (n' p + mn' p)) (fun p => 1 / 2 * (n' p - mn' p)) (fun _ => 0) (fun _ => 0) t m)
      as (e & vu & vd & zu & zd & Q & A); try assumption.
    - split; [|fold c; rewrite Gr; discriminate]. intros p Hp. destruct (Hn p Hp) as [A B]. unfold up, dn, diag_up, diag_dn, mn.
      replace (1 / 2 * (n t p + mag (mx t) (my t) (mz t) p)) with ((n t p + mag (mx t) (my t) (mz t) p) / 2) by field.
      replace (1 / 2 * (n t p - mag (mx t) (my t) (mz t) p)) with ((n t p - mag (mx t) (my t) (mz t) p) / 2) by field. auto.
    - intros p Hp. destruct (Hd p Hp) as (A & _). unfold up, dn, diag_up, diag_dn.
      split; [exact (der_scal _ (1 / 2) _ _ (der_plus _ _ _ _ _ A (Hmn p Hp)))|]. split.
      + apply (der_scal (fun x => n x p - mn x p) (1 / 2)). exact (is_derive_minus (V := R_NormedModule) _ _ _ _ _ A (Hmn p Hp)).
      + split; exact (is_derive_const _ t).
    - intros p Hp. split.
      + intros HSE. exfalso. unfold c, with_fock in Gr. cbn [isgrad] in Gr. rewrite (xc_name _ _ exx0 HSE) in Gr. discriminate Gr.
      + intros i Hi. exfalso. exact (meta_grad XC exx0 i K Hi Gr).
    - fold c in Q, A.
      assert (U : forall x, calc_vxc_nc XC c first (n x) (mx x) (my x) (mz x) (tau3 tu td) m =
        (do r <- calc_vxc_sp XC c first (up x) (dn x) (tau3 tu td) m ; let '(e, (vu, vd), _) := r in
         Ok (e, fun p => vxc_nc (vu p) (vd p) (mn x p) (mx x p) (my x p) (mz x p)))).
      { intros x. unfold XcGrid.calc_vxc_nc, XcGrid.calc_vxc_sp. cbv zeta.
        rewrite (nograd_vxc3 XC c first _ _ (grads_col N per D1 F (add_rho_core3 nlcc core (up x) (dn x))) (tau3 tu td) m Gr). reflexivity. }
      exists e. eexists. split; [rewrite U, Q; reflexivity|].
      eapply is_derive_eq.
      + apply (is_derive_ext (fun x => Exc3 N per D1 F T cell_typ dV nlcc core metax_s metac_s pbexsr XC c first (up x) (dn x) tu td m)); [|exact A].
        intros x. unfold Exc3, Exc_nc. rewrite U. destruct (calc_vxc_sp XC c first (up x) (dn x) (tau3 tu td) m) as [[[e2 [vu2 vd2]] [zu2 zd2]]| |]; cbn [obind]; try reflexivity.
        rewrite !calc_exc_sum. f_equal. apply gsum_ext. intros p _. f_equal. unfold add_rho_core. f_equal. unfold up, dn, diag_up, diag_dn. field.
      + unfold gridsum. f_equal. apply lsum_ext. intros p Hp. unfold vxc_nc, tr_nc. specialize (Hm p Hp). fold (mn t) in Hm.
        destruct (Rlt_dec magtol (mn t p)) as [L|L]; [|contradiction]. unfold mn'. field. lra.
  Qed.

  (** A magnetisation along one direction everywhere: the potential is that of the collinear calculation, turned to
      that direction. *)
  Theorem C66_direction XC c first (n mu mx my mz : field) (a b d : R) tau m e vu vd zu zd :
    a * a + b * b + d * d = 1 ->
    (forall p, In p (pts N) -> magtol < mu p /\ mx p = a * mu p /\ my p = b * mu p /\ mz p = d * mu p) ->
    let up p := (n p + mu p) / 2 in let dn p := (n p - mu p) / 2 in
    no_floor N nlcc core up dn ->
    calc_vxc_sp XC c first up dn tau m = Ok (e, (vu, vd), (zu, zd)) ->
    exists e2 V, calc_vxc_nc XC c first n mx my mz tau m = Ok (e2, V) /\
      forall p, In p (pts N) -> e2 p = e p /\
        V p = ((vu p + vd p) / 2 + d * ((vu p - vd p) / 2), (vu p + vd p) / 2 - d * ((vu p - vd p) / 2),
               a * ((vu p - vd p) / 2), - (b * ((vu p - vd p) / 2))).
  Proof.
    intros U Hm up dn Hn Q. destruct HG as (G1 & G2). pose proof magtol_pos as MP.
    set (mn := fun p => magnorm (mx p) (my p) (mz p)).
    assert (Hmn : forall p, In p (pts N) -> mn p = mu p).
    { intros p Hp. destruct (Hm p Hp) as (L & -> & -> & ->) || (destruct (Hm p Hp) as (L & E1 & E2 & E3); unfold mn; rewrite E1, E2, E3).
      unfold magnorm. replace (a * mu p * (a * mu p) + b * mu p * (b * mu p) + d * mu p * (d * mu p)) with (mu p * mu p * (a * a + b * b + d * d)) by ring.
      rewrite U, Rmult_1_r. apply sqrt_square. lra. }
    set (r := add_rho_core3 nlcc core up dn).
    set (r2 := add_rho_core3 nlcc core (fun p => diag_up (n p) (mn p)) (fun p => diag_dn (n p) (mn p))).
    assert (Hr : forall p, In p (pts N) -> r2 p = r p).
    { intros p Hp. unfold r2, r, add_rho_core3. rewrite (Hmn p Hp). unfold diag_up, diag_dn, up, dn.
      replace (1 / 2 * (n p + mu p)) with ((n p + mu p) / 2) by field. replace (1 / 2 * (n p - mu p)) with ((n p - mu p) / 2) by field. reflexivity. }
    set (g := grads_col N per D1 F r). set (g2 := grads_nc N per D1 F r2 mn mx my mz).
    assert (Hg : forall p, In p (pts N) -> g2 p = g p).
    { intros p Hp. unfold g2, g, grads_nc, grads_col, grad3.
      assert (E0 : forall i, (i < 3)%nat -> D N per D1 F i (col0 r2) p = D N per D1 F i (col0 r) p).
      { intros i Hi. apply D_ext; try assumption. intros q Hq. unfold col0. now rewrite (Hr q Hq). }
      assert (Ec : forall k (f : field) i, (i < 3)%nat -> (forall q, In q (pts N) -> f q = k * mu q) -> D N per D1 F i f p = k * D N per D1 F i mu p).
      { intros k f i Hi Hf. rewrite (D_ext N per D1 F G1 i f (fun q => k * mu q + 0 * mu q) p Hi Hp) by (intros q Hq; rewrite (Hf q Hq); ring).
        rewrite D_lin by assumption. ring. }
      assert (Eh : forall i, (i < 3)%nat -> dmnorm N per D1 F mn mx my mz i p = D N per D1 F i mu p).
      { intros i Hi. unfold dmnorm. rewrite (Hmn p Hp). destruct (Hm p Hp) as (L & E1 & E2 & E3). destruct (Rlt_dec magtol (mu p)) as [_|X]; [|contradiction].
        rewrite (Ec a mx i Hi), (Ec b my i Hi), (Ec d mz i Hi) by (intros q Hq; apply (Hm q Hq)). rewrite E1, E2, E3.
        replace ((a * mu p * (a * D N per D1 F i mu p) + b * mu p * (b * D N per D1 F i mu p) + d * mu p * (d * D N per D1 F i mu p)) / mu p)
          with ((a * a + b * b + d * d) * D N per D1 F i mu p) by (field; lra).
        rewrite U. ring. }
      assert (Eu : forall i, (i < 3)%nat -> D N per D1 F i (col1 r) p = 1 / 2 * (D N per D1 F i (col0 r) p + D N per D1 F i mu p)).
      { intros i Hi. rewrite (D_ext N per D1 F G1 i (col1 r) (fun q => 1 / 2 * col0 r q + 1 / 2 * mu q) p Hi Hp).
        - rewrite D_lin by assumption. ring.
        - intros q Hq. destruct (Hn q Hq) as [N1 N2]. unfold col1, col0, r, add_rho_core3. cbn [fst snd]. rewrite !floor_core_above by assumption.
          unfold cored, up, dn. destruct nlcc; field. }
      assert (Ed : forall i, (i < 3)%nat -> D N per D1 F i (col2 r) p = 1 / 2 * (D N per D1 F i (col0 r) p - D N per D1 F i mu p)).
      { intros i Hi. rewrite (D_ext N per D1 F G1 i (col2 r) (fun q => 1 / 2 * col0 r q + - (1 / 2) * mu q) p Hi Hp).
        - rewrite D_lin by assumption. ring.
        - intros q Hq. destruct (Hn q Hq) as [N1 N2]. unfold col2, col0, r, add_rho_core3. cbn [fst snd]. rewrite !floor_core_above by assumption.
          unfold cored, up, dn. destruct nlcc; field. }
      rewrite !E0, !Eh, !Eu, !Ed by lia. reflexivity. }
    unfold XcGrid.calc_vxc_sp in Q. cbv zeta in Q. fold r g in Q. 
    assert (Hc : calc_vxc_nc XC c first n mx my mz tau m =
      (do x <- calc_vxc3 N per D1 F T cell_typ metax_s metac_s pbexsr XC c first r2 g2 tau m ;
       let '(e, (vu, vd), _) := x in Ok (e, fun p => vxc_nc (vu p) (vd p) (mn p) (mx p) (my p) (mz p)))) by reflexivity.
    rewrite Hc. clear Hc. clearbody g g2.
    unfold calc_vxc3 in *.
    rewrite (fill_ext (fun p => point3 metax_s metac_s pbexsr XC c first (r2 p) (sigma3 T cell_typ c g2 p) (tau p))
                      (fun p => point3 metax_s metac_s pbexsr XC c first (r p) (sigma3 T cell_typ c g p) (tau p))).
    2:{ intros p Hp. unfold sigma3. rewrite (Hr p Hp), (Hg p Hp). reflexivity. }
    destruct (fill _ _ m) as [rr| |]; cbn [obind] in *; try discriminate Q. injection Q as <- <- <- _ _.
    do 2 eexists. split; [reflexivity|]. intros p Hp. split; [reflexivity|]. unfold vxc_nc. cbv beta.
    assert (Em : magnorm (mx p) (my p) (mz p) = mu p) by exact (Hmn p Hp). fold mn in Em. unfold mn. rewrite Em.
    destruct (Hm p Hp) as (L & E1 & E2 & E3). destruct (Rlt_dec magtol (mu p)) as [_|X]; [|contradiction]. rewrite E1, E2, E3.
    assert (Et : forall w, div_term N per D1 F T cell_typ (fun p => fst (fst (g2 p))) w p = div_term N per D1 F T cell_typ (fun p => fst (fst (g p))) w p).
    { intros w. apply div_term_ext2; [exact G1|exact Hp|]. intros q Hq. now rewrite (Hg q Hq). }
    assert (Eu : forall w, div_term N per D1 F T cell_typ (fun p => snd (fst (g2 p))) w p = div_term N per D1 F T cell_typ (fun p => snd (fst (g p))) w p).
    { intros w. apply div_term_ext2; [exact G1|exact Hp|]. intros q Hq. now rewrite (Hg q Hq). }
    assert (Ed : forall w, div_term N per D1 F T cell_typ (fun p => snd (g2 p)) w p = div_term N per D1 F T cell_typ (fun p => snd (g p)) w p).
    { intros w. apply div_term_ext2; [exact G1|exact Hp|]. intros q Hq. now rewrite (Hg q Hq). }
    rewrite Et, Eu, Ed.
    match goal with |- (1 / 2 * (?x + ?y) + _, _, _, _) = _ => set (xu := x); set (xd := y) end. clearbody xu xd.
    apply t4; field; lra.
  Qed.

  (** *** Which functional: the energy per particle by name (in the Fock phase of a hybrid; first: first SCF step) *)
  Definition exc_spec (n : string) (phase first : bool) (a r s u : R) : R :=
    let pbe i := en3 (pbex i r s) + en3 (pbec i r s) in
    let meta i := if first then pbe 1%Z else en4 (metax i r s u) + en4 (metac i r s u) in
    if ieq n "LDA_PZ" then en2 (slater r) + en2 (pz r)
    else if ieq n "LDA_PW" then en2 (slater r) + en2 (pw r)
    else if ieq n "GGA_PBE" || ieq n "HF" then pbe 1%Z
    else if ieq n "GGA_PBEsol" then pbe 2%Z
    else if ieq n "GGA_RPBE" then pbe 3%Z
    else if ieq n "PBE0" then (if phase then 1 - a else 1) * en3 (pbex 1 r s) + en3 (pbec 1 r s)
    else if ieq n "HSE" then pbe 1%Z - (if phase then a * en3 (pbexsr r s) / r else 0)
    else if ieq n "SCAN" then meta 4%Z
    else if ieq n "RSCAN" then meta 5%Z
    else if ieq n "R2SCAN" then meta 6%Z
    else if ieq n "vdWDF1" then en3 (pbex 4 r s) + en2 (pw r)
    else en3 (rPW86x3 r s) + en2 (pw r).
  Definition default_frac (n : string) (exx0 : R) : R := if Rlt_dec exx0 0 then (if ieq n "HF" then 1 else 1 / 4) else exx0.
  Lemma exx_conf n exx0 uf : In n ["HF"; "PBE0"; "HSE"]%string -> exx (conf n exx0 uf) = default_frac n exx0.
  Proof. intros [<-|[<-|[<-|[]]]]; reflexivity. Qed.
  Definition ex_tab (ix xo : Z) (r s u : R) : R :=
    if (ix =? 1)%Z then en2 (slater r) else if (ix =? 2)%Z then en3 (pbex xo r s) else if (ix =? 3)%Z then en3 (rPW86x3 r s)
    else if ((ix =? 4) || (ix =? 5) || (ix =? 6))%Z then en4 (metax ix r s u) else 0.
  Definition ec_tab (ix xo : Z) (r s u : R) : R :=
    if (ix =? 1)%Z then en2 (pz r) else if (ix =? 2)%Z then en2 (pw r) else if (ix =? 3)%Z then en3 (pbec xo r s)
    else if ((ix =? 4) || (ix =? 5) || (ix =? 6))%Z then en4 (metac ix r s u) else 0.
  Definition en_r1 (x : res1) : R := fst (fst (fst x)).
  Lemma exch_en ix xo isg r (b c : bool) s u x :
    exch metax ix xo isg r (if b then Some s else None) (if c then Some u else None) = Ok x -> en_r1 x = ex_tab ix xo r s u.
  Proof.
    unfold exch, ex_tab. intros H.
    destruct (ix =? 1)%Z; [destruct (slater r) as [[e v]| |]; try discriminate H; injection H as <-; reflexivity|].
    destruct (ix =? 2)%Z; [destruct b; [|discriminate H]; cbn [rdo obind] in H; destruct (pbex xo r s) as [[[e v] w]| |]; try discriminate H; injection H as <-; reflexivity|].
    destruct (ix =? 3)%Z; [destruct b; [|discriminate H]; cbn [rdo obind] in H; unfold rPW86x3; destruct (rPW86x r s) as [[[[e v] w] q]| |]; try discriminate H; injection H as <-; reflexivity|].
    destruct ((ix =? 4) || (ix =? 5) || (ix =? 6))%Z; [|injection H as <-; reflexivity].
    destruct b; [|discriminate H]. destruct c; [|discriminate H]. cbn [rdo obind] in H. destruct (metax ix r s u) as [[[[e v] w] q]| |]; try discriminate H. injection H as <-. reflexivity.
  Qed.
  Lemma corr_en ix xo vdw isg r (b c : bool) s u x :
    corr metac ix xo vdw isg r (if b then Some s else None) (if c then Some u else None) = Ok x -> en_r1 x = ec_tab ix xo r s u.
  Proof.
    unfold corr, ec_tab. intros H.
    destruct (ix =? 1)%Z; [destruct (pz r) as [[e v]| |]; try discriminate H; injection H as <-; reflexivity|].
    destruct (ix =? 2)%Z; [destruct (pw r) as [[e v]| |]; try discriminate H; cbn [obind] in H; destruct vdw, isg; try discriminate H; injection H as <-; reflexivity|].
    destruct (ix =? 3)%Z; [destruct b; [|discriminate H]; cbn [rdo obind] in H; destruct (pbec xo r s) as [[[e v] w]| |]; try discriminate H; injection H as <-; reflexivity|].
    destruct ((ix =? 4) || (ix =? 5) || (ix =? 6))%Z; [|injection H as <-; reflexivity].
    destruct b; [|discriminate H]. destruct c; [|discriminate H]. cbn [rdo obind] in H. destruct (metac ix r s u) as [[[[e v] w] q]| |]; try discriminate H. injection H as <-. reflexivity.
  Qed.
  Definition hyb_tab (n : string) (phase : bool) (a e r s : R) : R :=
    if phase && ieq n "PBE0" then e * (1 - a) else if phase && ieq n "HSE" then e - a * en3 (pbexsr r s) / r else e.
  Lemma hybrid_en XC c r (b : bool) s x y : / 10 ^ 14 <= s ->
    hybrid pbexsr XC c r (if b then Some s else None) x = Ok y -> en_r1 y = hyb_tab XC (fock_phase (usefock c)) (exx c) (en_r1 x) r s.
  Proof.
    intros Hs H. unfold hybrid, hyb_tab in *. destruct x as [[[ex vx] v2] v3]. cbn [en_r1 fst].
    destruct (fock_phase (usefock c)); cbn [andb] in *; [|injection H as <-; reflexivity].
    destruct (ieq XC "PBE0"); [destruct v2; try discriminate H; injection H as <-; reflexivity|].
    destruct (ieq XC "HSE"); [|injection H as <-; reflexivity].
    destruct b; [|discriminate H]. cbn [rdo obind] in H. destruct (Rlt_dec s (/ 10 ^ 14)); [lra|].
    destruct (pbexsr r s) as [[[e v] w]| |]; try discriminate H. cbn [obind] in H. unfold cdiv in H. destruct (Req_EM_T r 0); [discriminate H|].
    cbn [obind] in H. destruct v2; try discriminate H. injection H as <-. reflexivity.
  Qed.
  Lemma point1_en XC c first r s u e v w z i0 i1 i2 i3 o0 o1 : / 10 ^ 14 <= s -> labels c first = Ok (i0, i1, i2, i3, o0, o1) ->
    point1 metax metac pbexsr XC c first r (sg c s) u = Ok (e, v, w, z) ->
    e = hyb_tab XC (fock_phase (usefock c)) (exx c) (ex_tab i0 o0 r s u) r s + ec_tab i1 o1 r s u.
  Proof.
    intros Hs L H. unfold point1 in H. rewrite L in H. cbn [obind] in H. unfold sg in H.
    destruct (exch _ _ _ _ _ _ _) as [x0| |] eqn:X; try discriminate H. cbn [obind] in H. apply exch_en in X.
    destruct (corr _ _ _ _ _ _ _ _) as [y| |] eqn:Y; try discriminate H. cbn [obind] in H. apply corr_en in Y.
    destruct (hybrid _ _ _ _ _ _) as [x| |] eqn:Hy; try discriminate H. cbn [obind] in H. apply hybrid_en in Hy; [|exact Hs].
    rewrite <- Y, <- X, <- Hy. destruct x as [[[ex vx] v2x] v3x]. destruct y as [[[ec vc] v2c] v3c].
    destruct (if isgrad c then _ else _) in H; try discriminate H. cbn [obind] in H.
    destruct (if negb (i2 =? 0)%Z && negb first then _ else _) in H; try discriminate H. cbn [obind] in H. injection H as <- _ _ _. reflexivity.
  Qed.
  Theorem C66_energy n XC exx0 uf first dens tau m e v z : In n names -> ieq XC n = true ->
    calc_vxc1 XC (conf XC exx0 uf) first dens tau m = Ok (e, v, z) ->
    forall p, In p (pts N) ->
      let rho q := Rmax (if nlcc then dens q + core q else dens q) (/ 10 ^ 14) in
      e p = exc_spec n (fock_phase uf) first (default_frac n exx0) (rho p) (Rmax (sq (grad rho p)) (/ 10 ^ 10)) (tau p).
  Proof.
    intros Hn HX H p Hp rho.
    unfold XcGrid.calc_vxc1 in H. cbv zeta in H. destruct (fill _ _ _) as [r| |] eqn:Fl; try discriminate H. cbn [obind] in H. injection H as <- _ _.
    destruct (fill_inv _ _ _ _ Fl p) as [I1 _]. specialize (I1 Hp). cbn beta in I1. clear Fl.
    assert (Er : forall q, add_rho_core nlcc core dens q = rho q).
    { intros q. unfold add_rho_core, floor_core, rho, rhotol. rewrite Rmult_1_l. unfold Rmax.
      destruct (Rlt_dec _ _), (Rle_dec _ _); try reflexivity; try lra. all: exfalso; lra. }
    assert (Eg : grad (add_rho_core nlcc core dens) p = grad rho p).
    { destruct HG as (G1 & G2). unfold grad3. rewrite !(D_ext N per D1 F G1 _ (add_rho_core nlcc core dens) rho p) by (try assumption; try lia; intros; apply Er). reflexivity. }
    set (s := Rmax (sq (grad rho p)) (/ 10 ^ 10)).
    set (c := conf XC exx0 uf) in *.
    assert (Es : sigma1 N per D1 F T cell_typ c (add_rho_core nlcc core dens) p = sg c s).
    { unfold sigma1, sg. rewrite Eg. reflexivity. }
    rewrite Es, Er in I1. destruct (r p) as [[[ep vp] wp] zp]. cbn [fst snd].
    assert (Hs : / 10 ^ 14 <= s).
    { apply Rle_trans with (/ 10 ^ 10); [|apply Rmax_r]. pose proof sigmatol_floor as Q. unfold sigmatol, sigma_floor in Q. lra. }
    rewrite (point1_name metax metac pbexsr XC n HX) in I1. unfold c in I1. rewrite (xc_name XC n exx0 HX) in I1. clear c Es.
    set (c := conf n exx0 uf) in *.
    assert (G0 : forall i0 i1 i2 i3 o0 o1, labels c first = Ok (i0, i1, i2, i3, o0, o1) ->
      ep = hyb_tab n (fock_phase (usefock c)) (exx c) (ex_tab i0 o0 (rho p) s (tau p)) (rho p) s + ec_tab i1 o1 (rho p) s (tau p)).
    { intros. eapply point1_en; eassumption. }
    unfold names in Hn. cbn [In] in Hn. clear I1. clearbody rho s.
    repeat match type of Hn with _ \/ _ => destruct Hn as [<-|Hn] end; try contradiction; subst c.
    all: try (rewrite (G0 _ _ _ _ _ _ eq_refl); unfold hyb_tab, ex_tab, ec_tab, exc_spec, usefock, with_fock, exx; cbn [ieq lowers]; 
      rewrite ?andb_false_r; reflexivity).
    - rewrite (G0 _ _ _ _ _ _ eq_refl). change (fock_phase (usefock (conf "PBE0" exx0 uf))) with (fock_phase uf).
      unfold hyb_tab, ex_tab, ec_tab, exc_spec. change (exx (conf "PBE0" exx0 uf)) with (default_frac "PBE0" exx0).
      generalize (default_frac "PBE0" exx0) as a. intros a. set (x := en3 (pbex 1 (rho p) s)). set (y := en3 (pbec 1 (rho p) s)).
      destruct (fock_phase uf); [change (x * (1 - a) + y = (1 - a) * x + y)|change (x + y = 1 * x + y)]; ring.
    - rewrite (G0 _ _ _ _ _ _ eq_refl). change (fock_phase (usefock (conf "HSE" exx0 uf))) with (fock_phase uf).
      unfold hyb_tab, ex_tab, ec_tab, exc_spec. change (exx (conf "HSE" exx0 uf)) with (default_frac "HSE" exx0).
      generalize (default_frac "HSE" exx0) as a. intros a. set (x := en3 (pbex 1 (rho p) s)). set (y := en3 (pbec 1 (rho p) s)).
      destruct (fock_phase uf); [change (x - a * en3 (pbexsr (rho p) s) / rho p + y = x + y - a * en3 (pbexsr (rho p) s) / rho p)|change (x + y = x + y - 0)]; ring.
    - destruct first; rewrite (G0 _ _ _ _ _ _ eq_refl); unfold hyb_tab; rewrite !andb_false_r; reflexivity.
    - destruct first; rewrite (G0 _ _ _ _ _ _ eq_refl); unfold hyb_tab; rewrite !andb_false_r; reflexivity.
    - destruct first; rewrite (G0 _ _ _ _ _ _ eq_refl); unfold hyb_tab; rewrite !andb_false_r; reflexivity.
  Qed.

  (** The same with two spins; u, d the densities, s0, su, sd the squared gradients of the total and of each,
      tu, td the kinetic energy densities. *)
  Definition exc_spec3 (n : string) (phase first : bool) (a u d s0 su sd tu td : R) : R :=
    let x i := enx (pbex_spin i (u + d) u d su sd) in
    let pbe i := x i + enc (pbec_spin i (u + d) u d s0) in
    let pw := en3 (pw_spin (u + d) u d) in
    let meta i := if first then pbe 1%Z
                  else en_mx (metax_s i (u + d, u, d) (s0, su, sd) (tu + td, tu, td)) + en_mc (metac_s i (u + d, u, d) (s0, su, sd) (tu + td, tu, td)) in
    let sr v s := a * (en3 (pbexsr (2 * v) (4 * s)) / 2) / (u + d) in
    if ieq n "LDA_PW" then en3 (slater_spin (u + d) u d) + pw
    else if ieq n "GGA_PBE" || ieq n "HF" then pbe 1%Z
    else if ieq n "GGA_PBEsol" then pbe 2%Z
    else if ieq n "GGA_RPBE" then pbe 3%Z
    else if ieq n "PBE0" then (if phase then 1 - a else 1) * x 1%Z + enc (pbec_spin 1 (u + d) u d s0)
    else if ieq n "HSE" then pbe 1%Z - (if phase then sr u su + sr d sd else 0)
    else if ieq n "SCAN" then meta 4%Z
    else if ieq n "RSCAN" then meta 5%Z
    else if ieq n "R2SCAN" then meta 6%Z
    else if ieq n "vdWDF1" then x 4%Z + pw
    else enx (rPW86x_spin (u + d) u d su sd) + pw.
  Definition ex_tab3 (ix xo : Z) (y : vec7) : R :=
    let u := y 0%nat in let d := y 1%nat in
    if (ix =? 1)%Z then en3 (slater_spin (u + d) u d) else if (ix =? 2)%Z then enx (pbex_spin xo (u + d) u d (y 3%nat) (y 4%nat))
    else if (ix =? 3)%Z then enx (rPW86x_spin (u + d) u d (y 3%nat) (y 4%nat))
    else if ((ix =? 4) || (ix =? 5) || (ix =? 6))%Z then en_mx (mxs metax_s ix y) else 0.
  Definition ec_tab3 (ix xo : Z) (y : vec7) : R :=
    let u := y 0%nat in let d := y 1%nat in
    if (ix =? 1)%Z then en3 (pz_spin (u + d) u d) else if (ix =? 2)%Z then en3 (pw_spin (u + d) u d)
    else if (ix =? 3)%Z then enc (pbec_spin xo (u + d) u d (y 2%nat))
    else if ((ix =? 4) || (ix =? 5) || (ix =? 6))%Z then en_mc (mcs metac_s ix y) else 0.
  Definition hyb_tab3 (n : string) (phase : bool) (a e : R) (y : vec7) : R :=
    let sr v s := a * (en3 (pbexsr (2 * v) (4 * s)) / 2) / (y 0%nat + y 1%nat) in
    if phase && ieq n "PBE0" then e * (1 - a)
    else if phase && ieq n "HSE" then e - (sr (y 0%nat) (y 3%nat) + sr (y 1%nat) (y 4%nat)) else e.
  Lemma exch_s_en ix xo isg (b c : bool) y x :
    exch_s metax_s ix xo isg (rho_of y) (if b then Some (sig_of y) else None) (if c then Some (tau_of y) else None) = Ok x ->
    fst (fst (fst x)) = ex_tab3 ix xo y.
  Proof.
    unfold exch_s, ex_tab3, rho_of, sig_of. intros H. cbv zeta.
    destruct (ix =? 1)%Z; [destruct (slater_spin _ _ _) as [[[e v] w]| |]; try discriminate H; injection H as <-; reflexivity|].
    destruct (ix =? 2)%Z; [destruct b; [|discriminate H]; cbn [rdo obind] in H; destruct (pbex_spin _ _ _ _ _ _) as [[[e [v1 v2]] [w1 w2]]| |]; try discriminate H; injection H as <-; reflexivity|].
    destruct (ix =? 3)%Z; [destruct b; [|discriminate H]; cbn [rdo obind] in H; destruct (rPW86x_spin _ _ _ _ _) as [[[e [v1 v2]] [w1 w2]]| |]; try discriminate H; injection H as <-; reflexivity|].
    destruct ((ix =? 4) || (ix =? 5) || (ix =? 6))%Z; [|injection H as <-; reflexivity].
    destruct b; [|discriminate H]. destruct c; [|discriminate H]. cbn [rdo obind] in H. unfold mxs, rho_of, sig_of.
    destruct (metax_s _ _ _ _) as [[[[e v] w] q]| |]; try discriminate H. injection H as <-. reflexivity.
  Qed.
  Lemma corr_s_en ix xo vdw isg (b c : bool) y x :
    corr_s metac_s ix xo vdw isg (rho_of y) (if b then Some (sig_of y) else None) (if c then Some (tau_of y) else None) = Ok x ->
    fst (fst (fst x)) = ec_tab3 ix xo y.
  Proof.
    unfold corr_s, ec_tab3, rho_of, sig_of. intros H. cbv zeta.
    destruct (ix =? 1)%Z; [destruct (pz_spin _ _ _) as [[[e v] w]| |]; try discriminate H; injection H as <-; reflexivity|].
    destruct (ix =? 2)%Z; [destruct (pw_spin _ _ _) as [[[e v] w]| |]; try discriminate H; cbn [obind] in H; destruct vdw, isg; try discriminate H; injection H as <-; reflexivity|].
    destruct (ix =? 3)%Z; [destruct b; [|discriminate H]; cbn [rdo obind] in H; destruct (pbec_spin _ _ _ _ _) as [[[e [v1 v2]] w]| |]; try discriminate H; injection H as <-; reflexivity|].
    destruct ((ix =? 4) || (ix =? 5) || (ix =? 6))%Z; [|injection H as <-; reflexivity].
    destruct b; [|discriminate H]. destruct c; [|discriminate H]. cbn [rdo obind] in H. unfold mcs, rho_of, sig_of.
    destruct (metac_s _ _ _ _) as [[[[e v] w] q]| |]; try discriminate H. injection H as <-. reflexivity.
  Qed.
  Lemma hse_chan_en c n x s e v w : / 10 ^ 14 <= s -> hse_chan pbexsr c n x s = Ok (e, v, w) ->
    e = exx c * (en3 (pbexsr (2 * x) (4 * s)) / 2) / n.
  Proof.
    intros Hs H. unfold hse_chan in H. destruct (Rlt_dec s (/ 10 ^ 14)); [lra|]. rewrite (Rmult_comm x), (Rmult_comm s) in H.
    destruct (pbexsr _ _) as [[[e0 v0] w0]| |]; try discriminate H. cbn [obind] in H. unfold cdiv in H. destruct (Req_EM_T n 0); [discriminate H|].
    cbn [obind] in H. injection H as <- _ _. cbn [en3]. field. assumption.
  Qed.
  Lemma hybrid_s_en XC c (b : bool) y x z : / 10 ^ 14 <= y 3%nat -> / 10 ^ 14 <= y 4%nat ->
    hybrid_s pbexsr XC c (rho_of y) (if b then Some (sig_of y) else None) x = Ok z ->
    fst (fst (fst z)) = hyb_tab3 XC (fock_phase (usefock c)) (exx c) (fst (fst (fst x))) y.
  Proof.
    intros H3 H4 H. unfold hybrid_s, hyb_tab3, rho_of, sig_of in *. destruct x as [[[ex [vu vd]] v2] v3]. cbn [fst].
    destruct (fock_phase (usefock c)); cbn [andb] in *; [|injection H as <-; reflexivity].
    destruct (ieq XC "PBE0"); [destruct v2; try discriminate H; injection H as <-; reflexivity|].
    destruct (ieq XC "HSE"); [|injection H as <-; reflexivity].
    destruct b; [|discriminate H]. cbn [rdo obind] in H.
    destruct (hse_chan _ _ _ (y 0%nat) _) as [[[eu au] bu]| |] eqn:C1; try discriminate H. cbn [obind] in H.
    destruct (hse_chan _ _ _ (y 1%nat) _) as [[[ed ad] bd]| |] eqn:C2; try discriminate H. cbn [obind] in H.
    apply hse_chan_en in C1; [|exact H3]. apply hse_chan_en in C2; [|exact H4].
    destruct v2; try discriminate H. injection H as <-. cbn [fst]. rewrite C1, C2. ring.
  Qed.
  Lemma point3_en XC c first y e v w z i0 i1 i2 i3 o0 o1 : / 10 ^ 14 <= y 3%nat -> / 10 ^ 14 <= y 4%nat -> labels c first = Ok (i0, i1, i2, i3, o0, o1) ->
    point3 metax_s metac_s pbexsr XC c first (rho_of y) (sg3 c y) (tau_of y) = Ok (e, v, w, z) ->
    e = hyb_tab3 XC (fock_phase (usefock c)) (exx c) (ex_tab3 i0 o0 y) y + ec_tab3 i1 o1 y.
  Proof.
    intros H3 H4 L H. unfold point3 in H. rewrite L in H. cbn [obind] in H. unfold sg3 in H.
    destruct (exch_s _ _ _ _ _ _ _) as [x0| |] eqn:X; try discriminate H. cbn [obind] in H. apply exch_s_en in X.
    destruct (corr_s _ _ _ _ _ _ _ _) as [yy| |] eqn:Y; try discriminate H. cbn [obind] in H. apply corr_s_en in Y.
    destruct (hybrid_s _ _ _ _ _ _) as [x| |] eqn:Hy; try discriminate H. cbn [obind] in H. apply hybrid_s_en in Hy; [|exact H3|exact H4].
    rewrite <- Y, <- X, <- Hy. destruct x as [[[ex [vxu vxd]] v2x] v3x]. destruct yy as [[[ec [vcu vcd]] v2c] v3c].
    destruct (if isgrad c then _ else _) in H; try discriminate H. cbn [obind] in H.
    destruct (if negb (i2 =? 0)%Z && negb first then _ else _) in H; try discriminate H. cbn [obind] in H. injection H as <- _ _ _. reflexivity.
  Qed.
  Theorem C66_energy_spin n XC exx0 uf first up dn tu td m e vu vd zu zd : In n names -> ieq XC n = true ->
    calc_vxc_sp XC (conf XC exx0 uf) first up dn (tau3 tu td) m = Ok (e, (vu, vd), (zu, zd)) ->
    (1 <= at_ N 0)%Z -> (1 <= at_ N 1)%Z -> (1 <= at_ N 2)%Z ->
    n <> "LDA_PZ"%string /\
    forall p, In p (pts N) ->
      let u q := Rmax (if nlcc then up q + core q / 2 else up q) (/ 10 ^ 14) in
      let d q := Rmax (if nlcc then dn q + core q / 2 else dn q) (/ 10 ^ 14) in
      let s f := Rmax (sq (grad f p)) (/ 10 ^ 10) in
      e p = exc_spec3 n (fock_phase uf) first (default_frac n exx0) (u p) (d p) (s (fun q => u q + d q)) (s u) (s d) (tu p) (td p).
  Proof.
    intros Hn HX H N0 N1 N2.
    assert (NPZ : n <> "LDA_PZ"%string).
    { intros ->. destruct (C66_defined XC exx0 uf first (fun _ => (0, 0, None, None)) m) as (_ & _ & _ & Q); [exists "LDA_PZ"%string; auto|].
      rewrite Q in H; [discriminate H|exact HX|]. intros [|[|[|]]] Hd; try lia; assumption. }
    split; [exact NPZ|]. intros p Hp u d s.
    unfold XcGrid.calc_vxc_sp, calc_vxc3 in H. cbv zeta in H. destruct (fill _ _ _) as [r| |] eqn:Fl; try discriminate H. cbn [obind] in H.
    assert (He : e p = fst (fst (fst (r p)))) by (injection H as <- _ _ _ _; reflexivity). clear H.
    destruct (fill_inv _ _ _ _ Fl p) as [I1 _]. specialize (I1 Hp). cbn beta in I1. clear Fl.
    set (rh := add_rho_core3 nlcc core up dn) in *.
    assert (Eu : forall q, col1 rh q = u q).
    { intros q. unfold col1, rh, add_rho_core3, floor_core, u, rhotol. cbn [fst snd]. unfold Rmax.
      replace (1 / 2 * core q) with (core q / 2) by field. destruct (Rlt_dec _ _), (Rle_dec _ _); try reflexivity; try lra; exfalso; lra. }
    assert (Ed : forall q, col2 rh q = d q).
    { intros q. unfold col2, rh, add_rho_core3, floor_core, d, rhotol. cbn [fst snd]. unfold Rmax.
      replace (1 / 2 * core q) with (core q / 2) by field. destruct (Rlt_dec _ _), (Rle_dec _ _); try reflexivity; try lra; exfalso; lra. }
    assert (Et : forall q, col0 rh q = u q + d q).
    { intros q. rewrite <- Eu, <- Ed. reflexivity. }
    assert (Eg : forall f g, (forall q, f q = g q) -> grad f p = grad g p).
    { intros f g Efg. destruct HG as (G1 & G2). unfold grad3. rewrite !(D_ext N per D1 F G1 _ f g p) by (try assumption; try lia; intros; apply Efg). reflexivity. }
    set (c := conf XC exx0 uf) in *.
    set (y := st T cell_typ c (rh p) (grads_col N per D1 F rh p) (tu p) (td p)).
    assert (Y01 : y 0%nat = u p /\ y 1%nat = d p). { split; [apply Eu|apply Ed]. }
    unfold tau3 in I1. rewrite (point3_st T cell_typ metax_s metac_s pbexsr XC c first rh (grads_col N per D1 F rh) (tu p) (td p) p eq_refl) in I1. fold y in I1.
    assert (Tol : / 10 ^ 14 <= / 10 ^ 10). { pose proof sigmatol_floor as Q. unfold sigmatol, sigma_floor in Q. lra. }
    set (y2 := fun k => nth k [u p; d p; s (fun q => u q + d q); s u; s d; tu p; td p] 0).
    assert (I2 : point3 metax_s metac_s pbexsr XC c first (rho_of y2) (sg3 c y2) (tau_of y2) = Ok (r p)).
    { rewrite <- I1. f_equal.
      - unfold rho_of. destruct Y01 as [-> ->]. reflexivity.
      - unfold sg3. destruct (isgrad c) eqn:Gr; [|reflexivity]. f_equal. unfold sig_of, y, y2, st, grads_col, s, clampS, sigmatol. rewrite Gr. cbn [nth fst snd].
        rewrite (Eg _ _ Et), (Eg _ _ Eu), (Eg _ _ Ed). reflexivity. }
    destruct (r p) as [[[ep vp] wp] zp]. cbn [fst snd] in He. rewrite He.
    assert (B3 : / 10 ^ 14 <= y2 3%nat). { unfold y2, s. cbn [nth]. eapply Rle_trans; [exact Tol|apply Rmax_r]. }
    assert (B4 : / 10 ^ 14 <= y2 4%nat). { unfold y2, s. cbn [nth]. eapply Rle_trans; [exact Tol|apply Rmax_r]. }
    rewrite (point3_name metax_s metac_s pbexsr XC n HX) in I2. unfold c in I2. rewrite (xc_name XC n exx0 HX) in I2.
    clear I1 c y Y01. set (c := conf n exx0 uf) in *.
    assert (G0 : forall i0 i1 i2 i3 o0 o1, labels c first = Ok (i0, i1, i2, i3, o0, o1) ->
      ep = hyb_tab3 n (fock_phase (usefock c)) (exx c) (ex_tab3 i0 o0 y2) y2 + ec_tab3 i1 o1 y2).
    { intros. eapply point3_en; eassumption. }
    change (ep = exc_spec3 n (fock_phase uf) first (default_frac n exx0) (y2 0%nat) (y2 1%nat) (y2 2%nat) (y2 3%nat) (y2 4%nat) (y2 5%nat) (y2 6%nat)).
    unfold names in Hn. cbn [In] in Hn. clear I2. clearbody y2. generalize dependent y2. clear - NPZ Hn. intros y B3 B4 G0.
    repeat match type of Hn with _ \/ _ => destruct Hn as [<-|Hn] end; try contradiction; subst c.
    all: try (rewrite (G0 _ _ _ _ _ _ eq_refl); unfold hyb_tab3; rewrite ?andb_false_r; reflexivity).
    all: try (destruct first; rewrite (G0 _ _ _ _ _ _ eq_refl); unfold hyb_tab3; rewrite ?andb_false_r; reflexivity).
    - rewrite (G0 _ _ _ _ _ _ eq_refl). change (fock_phase (usefock (conf "PBE0" exx0 uf))) with (fock_phase uf). change (exx (conf "PBE0" exx0 uf)) with (default_frac "PBE0" exx0).
      generalize (default_frac "PBE0" exx0) as a. intros a.
      set (x := enx (pbex_spin 1 (y 0%nat + y 1%nat) (y 0%nat) (y 1%nat) (y 3%nat) (y 4%nat))). set (z := enc (pbec_spin 1 (y 0%nat + y 1%nat) (y 0%nat) (y 1%nat) (y 2%nat))).
      destruct (fock_phase uf); [change (x * (1 - a) + z = (1 - a) * x + z)|change (x + z = 1 * x + z)]; ring.
    - rewrite (G0 _ _ _ _ _ _ eq_refl). change (fock_phase (usefock (conf "HSE" exx0 uf))) with (fock_phase uf). change (exx (conf "HSE" exx0 uf)) with (default_frac "HSE" exx0).
      generalize (default_frac "HSE" exx0) as a. intros a.
      set (x := enx (pbex_spin 1 (y 0%nat + y 1%nat) (y 0%nat) (y 1%nat) (y 3%nat) (y 4%nat))). set (z := enc (pbec_spin 1 (y 0%nat + y 1%nat) (y 0%nat) (y 1%nat) (y 2%nat))).
      set (sr := fun v s => a * (en3 (pbexsr (2 * v) (4 * s)) / 2) / (y 0%nat + y 1%nat)).
      destruct (fock_phase uf); [change (x - (sr (y 0%nat) (y 3%nat) + sr (y 1%nat) (y 4%nat)) + z = x + z - (sr (y 0%nat) (y 3%nat) + sr (y 1%nat) (y 4%nat)))|change (x + z = x + z - 0)]; ring.
  Qed.
End Spec.
Print Assumptions C66_unpolarised.
Print Assumptions C66_spin.
Print Assumptions C66_defined.
Print Assumptions C66_noncollinear.
Print Assumptions C66_direction.
Print Assumptions C66_energy.
Print Assumptions C66_energy_spin.

(** ** A concrete case: three points in a periodic line, density 1, 2, 4 and half of it for the second spin *)
Definition exN : pt := (3, 1, 1)%Z.
Definition exper : nat -> bool := fun _ => true.
Definition exD1 : nat -> Z -> R := fun _ _ => 1 / 2.
Definition exT : nat -> R := fun _ => 0.
Definition exm : Z -> R -> R -> R -> outcome (R * R * R * R) := fun _ _ _ _ => Ok (0, 0, 0, 0).
Definition exmx : Z -> R * R * R -> R * R * R -> R * R * R -> outcome (R * (R * R) * (R * R) * (R * R)) := fun _ _ _ _ => Ok (0, (0, 0), (0, 0), (0, 0)).
Definition exmc : Z -> R * R * R -> R * R * R -> R * R * R -> outcome (R * (R * R) * R * R) := fun _ _ _ _ => Ok (0, (0, 0), 0, 0).
Definition exsr : R -> R -> outcome (R * R * R) := fun _ _ => Ok (0, 0, 0).
Definition excore : field := fun _ => 1.
Definition exdens : field := fun p => let '(i, _, _) := p in if (i =? 0)%Z then 1 else if (i =? 1)%Z then 2 else 4.
Lemma ex_params : params_total exm exm exmx exmc exsr.
Proof.
  unfold params_total, meta_total, metas_total, sr_total, exm, mxs, mcs, exmx, exmc, exsr. repeat split; intros; repeat eexists.
Qed.
Lemma ex_grid : sound_grid exN 1 exT 0.
Proof. split; [intros [|[|[|]]] H; try lia; cbn; lia|]. intros H. discriminate H. Qed.
Lemma ex_pts : pts exN = [(0, 0, 0); (1, 0, 0); (2, 0, 0)]%Z. Proof. reflexivity. Qed.
Lemma ex_sq (f : field) p : In p (pts exN) ->
  sq3 exT 0 (grad3 exN exper exD1 1 f p) =
  (let '(i, _, _) := p in let g := 1 / 2 * (f (((i + 1) mod 3)%Z, 0, 0)%Z - f (((i - 1) mod 3)%Z, 0, 0)%Z) in g * g).
Proof.
  rewrite ex_pts. intros [<-|[<-|[<-|[]]]]; unfold sq3, norm_square, grad3; cbn [nonorth Z.ltb Z.compare andb]; rewrite !D_eq;
    change (Z.to_nat 1) with 1%nat; cbn [ksum]; change (Z.of_nat 1) with 1%Z; unfold exD1;
    rewrite !(gx_line exN exper exD1 1 (proj1 ex_grid)) by (try lia; rewrite ex_pts; cbn; auto);
    unfold wrap1, exper, exN; cbn [at_ set_]; cbn; field.
Qed.
Ltac ex_in H := rewrite ex_pts in H; destruct H as [<-|[<-|[<-|[]]]].
Lemma tol14 : rhotol < 1 / 4. Proof. unfold rhotol. lra. Qed.
Lemma tol10 : sigmatol < 1 / 100. Proof. unfold sigmatol. lra. Qed.
Lemma ex_add (f : field) p : 1 / 4 < f p + 1 -> add_rho_core true excore f p = f p + 1.
Proof. intros H. pose proof tol14. unfold add_rho_core. rewrite floor_core_above; unfold cored, excore; lra. Qed.
Lemma der_line (a b t : R) : is_derive (fun x => a + x * b) t b.
Proof.
  pose proof (der_plus (fun _ => a) (fun x => x * b) t _ _ (der_const a t) (der_mult (fun x => x) (fun _ => b) t _ _ (der_id t) (der_const b t))) as H.
  eapply is_derive_eq; [exact H|]. cbv beta. ring.
Qed.
Example C66_unpolarised_ex : let c := with_fock (xc_decomposition "pbe0" (- (1))) 2 in
  exists e v z, calc_vxc1 exN exper exD1 1 exT 0 true excore exm exm exsr "pbe0" c false exdens (fun _ => 0) (fun _ => (0, 0, None, None)) = Ok (e, v, z) /\
    is_derive (fun x => Exc1 exN exper exD1 1 exT 0 (1 / 8) true excore exm exm exsr "pbe0" c false (fun p => exdens p + x * exdens p) (fun _ => 0) (fun _ => (0, 0, None, None))) 0
      (1 / 8 * (v (0, 0, 0)%Z * 1 + v (1, 0, 0)%Z * 2 + v (2, 0, 0)%Z * 4)).
Proof.
  intros c.
  assert (E0 : forall p, exdens p + 0 * exdens p = exdens p) by (intros; ring).
  destruct (C66_unpolarised exN exper exD1 1 exT 0 (1 / 8) true excore exm exm exmx exmc exsr ex_params ex_grid "pbe0" (- (1)) 2 false
    (fun x p => exdens p + x * exdens p) (fun _ _ => 0) exdens (fun _ => 0) 0 (fun _ => (0, 0, None, None))) as (e & v & z & delta & Q & A & B & _).
  - exists "PBE0"%string. split; [cbn; tauto|reflexivity].
  - intros p Hp. pose proof tol14. pose proof tol10. split.
    + unfold cored, excore. ex_in Hp; cbn; lra.
    + intros _. rewrite ex_sq by exact Hp. ex_in Hp; cbn [Z.add Z.sub Z.opp Z.modulo Z.div_eucl]; cbn -[add_rho_core sigmatol]; rewrite !ex_add by (unfold exdens; cbn; lra); unfold exdens; cbn -[sigmatol]; lra.
  - intros p Hp. split; [|exact (is_derive_const 0 0)]. 
    exact (der_line _ _ _).
  - intros p Hp. split; [discriminate|]. split; [discriminate|]. intros i Hi. discriminate Hi.
  - fold c in Q, A, B.
    assert (EE : forall p, (fun p => exdens p + 0 * exdens p) p = exdens p) by exact E0.
    assert (FE : (fun p => exdens p + 0 * exdens p) = exdens) by (apply FunctionalExtensionality.functional_extensionality; exact EE).
    rewrite FE in Q. exists e, v, z. split; [exact Q|]. eapply is_derive_eq; [exact A|].
    unfold gridsum. rewrite ex_pts. cbn [lsum]. rewrite !(B eq_refl). unfold exdens. cbn. ring.
Qed.
(** two spins, dn being half of up *)
Definition exdn : field := fun p => exdens p / 2.
Lemma ex_add3 (a b : field) p : 1 / 4 < a p + 1 / 2 -> 1 / 4 < b p + 1 / 2 ->
  add_rho_core3 true excore a b p = (a p + 1 / 2 + (b p + 1 / 2), a p + 1 / 2, b p + 1 / 2).
Proof.
  intros H1 H2. pose proof tol14. unfold add_rho_core3. rewrite !floor_core_above; unfold cored, excore; try lra.
  rewrite !Rmult_1_r. reflexivity.
Qed.
Lemma exdens_pos p : 1 <= exdens p.
Proof. destruct p as [[i ?] ?]. unfold exdens. destruct (i =? 0)%Z; [lra|]. destruct (i =? 1)%Z; lra. Qed.
Example C66_spin_ex : let c := with_fock (xc_decomposition "GGA_PBE" (- (1))) 0 in
  exists e vu vd zu zd, calc_vxc_sp exN exper exD1 1 exT 0 true excore exmx exmc exsr "GGA_PBE" c false exdens exdn (tau3 (fun _ => 0) (fun _ => 0)) (fun _ => (0, (0, 0), None, None))
      = Ok (e, (vu, vd), (zu, zd)) /\
    is_derive (fun x => Exc3 exN exper exD1 1 exT 0 (1 / 8) true excore exmx exmc exsr "GGA_PBE" c false (fun p => exdens p + x * exdens p) (fun p => exdn p + x * 1) (fun _ => 0) (fun _ => 0) (fun _ => (0, (0, 0), None, None))) 0
      (1 / 8 * (vu (0, 0, 0)%Z * 1 + vu (1, 0, 0)%Z * 2 + vu (2, 0, 0)%Z * 4 + vd (0, 0, 0)%Z + vd (1, 0, 0)%Z + vd (2, 0, 0)%Z)).
Proof.
  intros c.
  assert (FE : (fun p => exdens p + 0 * exdens p) = exdens) by (apply FunctionalExtensionality.functional_extensionality; intros; ring).
  assert (FD : (fun p => exdn p + 0 * 1) = exdn) by (apply FunctionalExtensionality.functional_extensionality; intros; ring).
  destruct (C66_spin exN exper exD1 1 exT 0 (1 / 8) true excore exm exm exmx exmc exsr ex_params ex_grid "GGA_PBE" (- (1)) 0 false
    (fun x p => exdens p + x * exdens p) (fun x p => exdn p + x * 1) (fun _ _ => 0) (fun _ _ => 0) exdens (fun _ => 1) (fun _ => 0) (fun _ => 0) 0 (fun _ => (0, (0, 0), None, None))) as (e & vu & vd & zu & zd & Q & A).
  - exists "GGA_PBE"%string. split; [cbn; tauto|reflexivity].
  - reflexivity.
  - rewrite FE, FD. pose proof tol14. pose proof tol10. split.
    + intros p _. pose proof (exdens_pos p). unfold cored, excore, exdn. split; lra.
    + cbv zeta. intros _ p Hp. rewrite !ex_sq by exact Hp.
      assert (Q : forall q, add_rho_core3 true excore exdens exdn q = (exdens q + 1 / 2 + (exdn q + 1 / 2), exdens q + 1 / 2, exdn q + 1 / 2)).
      { intros q. pose proof (exdens_pos q). apply ex_add3; unfold exdn; lra. }
      unfold col0, col1, col2. ex_in Hp; cbn [Z.add Z.sub Z.opp Z.modulo Z.div_eucl]; cbn -[add_rho_core3 sigmatol]; rewrite !Q; unfold exdn, exdens; cbn -[sigmatol]; lra.
  - intros p Hp. split; [exact (der_line _ _ _)|]. split; [exact (der_line _ _ _)|]. split; exact (is_derive_const 0 0).
  - intros p Hp. split; [discriminate|]. intros i Hi. discriminate Hi.
  - fold c in Q, A. rewrite FE, FD in Q. exists e, vu, vd, zu, zd. split; [exact Q|]. eapply is_derive_eq; [exact A|].
    unfold gridsum. rewrite ex_pts. cbn [lsum]. unfold exdens. cbn. ring.
Qed.
(** noncollinear: n = 4 + x, m = (1, 2, 2 + x), |m| = 3 at x = 0, no core density *)
Lemma ex_mag : magnorm 1 2 2 = 3.
Proof. unfold magnorm. replace (1 * 1 + 2 * 2 + 2 * 2) with (3 * 3) by ring. apply sqrt_square. lra. Qed.
Example C66_noncollinear_ex : let c := with_fock (xc_decomposition "LDA_PW" (- (1))) 0 in
  let t0 := tau3 (fun _ => 0) (fun _ => 0) in let m0 : pt -> res3 := fun _ => (0, (0, 0), None, None) in
  exists e V, calc_vxc_nc exN exper exD1 1 exT 0 false excore exmx exmc exsr "LDA_PW" c false (fun _ => 4) (fun _ => 1) (fun _ => 2) (fun _ => 2) t0 m0 = Ok (e, V) /\
    is_derive (fun x => Exc_nc exN exper exD1 1 exT 0 (1 / 8) false excore exmx exmc exsr "LDA_PW" c false (fun _ => 4 + x * 1) (fun _ => 1) (fun _ => 2) (fun _ => 2 + x * 1) t0 m0) 0
      (1 / 8 * lsum (fun p => fst (fst (fst (V p)))) (pts exN)).
Proof.
  intros c t0 m0. pose proof tol14.
  assert (F4 : (fun _ : pt => 4 + 0 * 1) = (fun _ => 4)) by (apply FunctionalExtensionality.functional_extensionality; intros; ring).
  assert (F2 : (fun _ : pt => 2 + 0 * 1) = (fun _ => 2)) by (apply FunctionalExtensionality.functional_extensionality; intros; ring).
  destruct (C66_noncollinear exN exper exD1 1 exT 0 (1 / 8) false excore exm exm exmx exmc exsr ex_params ex_grid "LDA_PW" (- (1)) 0 false
    (fun x _ => 4 + x * 1) (fun _ _ => 1) (fun _ _ => 2) (fun x _ => 2 + x * 1) (fun _ => 1) (fun _ => 0) (fun _ => 0) (fun _ => 1) (fun _ => 0) (fun _ => 0) 0 m0) as (e & V & Q & A).
  - exists "LDA_PW"%string. split; [cbn; tauto|reflexivity].
  - reflexivity.
  - reflexivity.
  - rewrite F2. intros p _. unfold mag. rewrite ex_mag. unfold magtol. lra.
  - intros p _. unfold mag. replace (2 + 0 * 1) with 2 by ring. rewrite ex_mag. unfold cored. lra.
  - intros p Hp. split; [exact (der_line _ _ _)|]. split; [exact (is_derive_const _ 0)|]. split; [exact (is_derive_const _ 0)|exact (der_line _ _ _)].
  - fold c in Q, A. rewrite F2, F4 in Q. exists e, V. split; [exact Q|]. eapply is_derive_eq; [exact A|].
    unfold gridsum. f_equal. rewrite ex_pts. cbn [lsum]. unfold tr_nc.
    destruct (V (0, 0, 0)%Z) as [[[? ?] ?] ?], (V (1, 0, 0)%Z) as [[[? ?] ?] ?], (V (2, 0, 0)%Z) as [[[? ?] ?] ?]. cbn. field.
Qed.
(** a magnetisation of varying size along (3/5, 0, 4/5), with PBE *)
Example C66_direction_ex : let c := with_fock (xc_decomposition "GGA_PBE" (- (1))) 0 in
  let t0 := tau3 (fun _ => 0) (fun _ => 0) in let m0 : pt -> res3 := fun _ => (0, (0, 0), None, None) in
  exists e vu vd zu zd e2 V,
    calc_vxc_sp exN exper exD1 1 exT 0 true excore exmx exmc exsr "GGA_PBE" c false (fun p => (9 + exdens p) / 2) (fun p => (9 - exdens p) / 2) t0 m0 = Ok (e, (vu, vd), (zu, zd)) /\
    calc_vxc_nc exN exper exD1 1 exT 0 true excore exmx exmc exsr "GGA_PBE" c false (fun _ => 9) (fun p => 3 / 5 * exdens p) (fun _ => 0) (fun p => 4 / 5 * exdens p) t0 m0 = Ok (e2, V) /\
    snd (V (1, 0, 0)%Z) = 0 /\ snd (fst (V (1, 0, 0)%Z)) = 3 / 5 * ((vu (1, 0, 0)%Z - vd (1, 0, 0)%Z) / 2).
Proof.
  intros c t0 m0. pose proof tol14.
  destruct (C66_defined exN exper exD1 1 exT 0 true excore exm exm exmx exmc exsr ex_params ex_grid "GGA_PBE" (- (1)) 0 false (fun _ => (0, 0, None, None)) m0) as (_ & H2 & _).
  { exists "GGA_PBE"%string. split; [cbn; tauto|reflexivity]. }
  destruct (H2 eq_refl (fun p => (9 + exdens p) / 2) (fun p => (9 - exdens p) / 2) (fun _ => 0) (fun _ => 0)) as [r Hr].
  fold c t0 in Hr. destruct r as [[e [vu vd]] [zu zd]].
  destruct (C66_direction exN exper exD1 1 exT 0 true excore exmx exmc exsr ex_grid "GGA_PBE" c false (fun _ => 9) exdens
    (fun p => 3 / 5 * exdens p) (fun _ => 0) (fun p => 4 / 5 * exdens p) (3 / 5) 0 (4 / 5) t0 m0 e vu vd zu zd) as (e2 & V & Q & A).
  - field.
  - intros p _. pose proof (exdens_pos p). unfold magtol. repeat split; try lra.
  - intros p Hp. unfold cored, excore. assert (exdens p <= 4) by (ex_in Hp; cbn; lra). pose proof (exdens_pos p). lra.
  - exact Hr.
  - exists e, vu, vd, zu, zd, e2, V. split; [exact Hr|]. split; [exact Q|]. destruct (A (1, 0, 0)%Z) as [_ ->]; [rewrite ex_pts; cbn; auto|]. cbn [fst snd]. split; ring.
Qed.

(** ** Names the manual does not list *)
(** Only "UNDEFINED", the default, is rejected (initialization.c:1584-1587). Every other name that is none of the thirteen
    leaves ixc unset, and the first switch reads it. *)
Theorem C66_unknown N per D1 F T cell_typ nlcc core metax metac metax_s metac_s pbexsr XC exx0 uf first :
  ~ known XC -> (forall d, (d < 3)%nat -> (1 <= at_ N d)%Z) ->
  let c := with_fock (xc_decomposition XC exx0) uf in
  (forall dens tau m, calc_vxc1 N per D1 F T cell_typ nlcc core metax metac pbexsr XC c first dens tau m = UB) /\
  (forall up dn tau m, calc_vxc_sp N per D1 F T cell_typ nlcc core metax_s metac_s pbexsr XC c first up dn tau m = UB).
Proof.
  intros K Hn c. assert (Hc : ixc c = None).
  { unfold c, with_fock. cbn [ixc]. unfold xc_decomposition.
    assert (A : forall n, In n names -> ieq XC n = false).
    { intros n Hi. destruct (ieq XC n) eqn:E; [|reflexivity]. exfalso. apply K. exists n. now split. }
    rewrite !A by (unfold names; cbn [In]; tauto). reflexivity. }
  destruct (pts_first N Hn) as [l Hl]. split; intros.
  - unfold calc_vxc1. rewrite Hl. cbn [fill]. unfold point1, labels. rewrite Hc. reflexivity.
  - unfold calc_vxc_sp, calc_vxc3. rewrite Hl. cbn [fill]. unfold point3, labels. rewrite Hc. reflexivity.
Qed.
Print Assumptions C66_unknown.
(** so "PBE", which is not rejected, is not a functional *)
Theorem C66_unknown_refuted : exists XC, XC <> "UNDEFINED"%string /\
  forall dens tau m, calc_vxc1 exN exper exD1 1 exT 0 true excore exm exm exsr XC (with_fock (xc_decomposition XC (- (1))) 0) false dens tau m = UB.
Proof.
  exists "PBE"%string. split; [discriminate|].
  refine (proj1 (C66_unknown exN exper exD1 1 exT 0 true excore exm exm exmx exmc exsr "PBE" (- (1)) 0 false _ _)).
  - intros (n & Kn & Ki). unfold names in Kn. cbn [In] in Kn.
    repeat match type of Kn with _ \/ _ => destruct Kn as [<-|Kn] end; try contradiction; discriminate Ki.
  - intros [|[|[|]]] H; try lia; cbn; lia.
Qed.
Print Assumptions C66_unknown_refuted.

(** ** HF *)
(** A hybrid functional with the fraction a of exact exchange keeps the fraction 1 - a of the semilocal exchange once the
    exact exchange is added (fock_phase). With HF the fraction is 1 (initialization.c:4781), and the whole PBE
    exchange stays (exchangeCorrelation.c:157, 165 test for "PBE0" and "HSE" only). *)
Theorem C66_hf_refuted : exists dens tau m e v z p r s,
  let c := with_fock (xc_decomposition "HF" (- (1))) 2 in
  exx c = 1 /\ fock_phase (usefock c) = true /\
  calc_vxc1 exN exper exD1 1 exT 0 true excore exm exm exsr "HF" c false dens tau m = Ok (e, v, z) /\
  In p (pts exN) /\ r = add_rho_core true excore dens p /\
  s = clampS (sq3 exT 0 (grad3 exN exper exD1 1 (add_rho_core true excore dens) p)) /\
  e p = en3 (pbex 1 r s) + en3 (pbec 1 r s) /\
  e p <> (1 - exx c) * en3 (pbex 1 r s) + en3 (pbec 1 r s).
Proof.
  set (c := with_fock (xc_decomposition "HF" (- (1))) 2). set (m0 := fun _ : pt => (0, 0, None, None) : res1).
  assert (K : known "HF") by (exists "HF"%string; split; [cbn; tauto|reflexivity]).
  destruct (C66_defined exN exper exD1 1 exT 0 true excore exm exm exmx exmc exsr ex_params ex_grid "HF" (- (1)) 2 false m0 (fun _ => (0, (0, 0), None, None)) K) as (H1 & _).
  destruct (H1 exdens (fun _ => 0)) as [[[e v] z] Hr]. fold c in Hr.
  assert (Hp : In (1, 0, 0)%Z (pts exN)) by (rewrite ex_pts; cbn; auto).
  assert (X1 : exx c = 1). { unfold c, with_fock. cbn [exx]. change (exx (xc_decomposition "HF" (- (1)))) with (frac (- (1)) 1). unfold frac. destruct (Rlt_dec (- (1)) 0); lra. }
  pose proof (C66_energy exN exper exD1 1 exT 0 true excore exm exm exsr ex_grid "HF" "HF" (- (1)) 2 false exdens (fun _ => 0) m0 e v z
    ltac:(cbn; tauto) eq_refl Hr _ Hp) as A. cbv zeta in A.
  assert (RR : (fun q => Rmax (exdens q + excore q) (/ 10 ^ 14)) = add_rho_core true excore exdens).
  { apply FunctionalExtensionality.functional_extensionality. intros q. pose proof (exdens_pos q). pose proof tol14. rewrite ex_add by lra.
    unfold excore, rhotol in *. apply Rmax_left. lra. }
  exists exdens, (fun _ => 0), m0, e, v, z, (1, 0, 0)%Z, (add_rho_core true excore exdens (1, 0, 0)%Z),
    (clampS (sq3 exT 0 (grad3 exN exper exD1 1 (add_rho_core true excore exdens) (1, 0, 0)%Z))).
  cbv zeta. fold c. rewrite X1. set (r := add_rho_core true excore exdens (1, 0, 0)%Z) in *.
  set (s := clampS _).
  assert (A2 : e (1, 0, 0)%Z = en3 (pbex 1 r s) + en3 (pbec 1 r s)).
  { rewrite A. cbn match. rewrite RR. change (Rmax (exdens (1, 0, 0)%Z + excore (1, 0, 0)%Z) (/ 10 ^ 14)) with ((fun q => Rmax (exdens q + excore q) (/ 10 ^ 14)) (1, 0, 0)%Z).
    rewrite RR. reflexivity. }
  split; [reflexivity|]. split; [reflexivity|]. split; [exact Hr|]. split; [exact Hp|]. split; [reflexivity|]. split; [reflexivity|].
  split; [exact A2|]. rewrite A2.
  assert (R0 : 0 < r) by (unfold r; rewrite ex_add by (unfold exdens; cbn; lra); unfold exdens; cbn; lra).
  assert (S0 : 0 <= s) by (unfold s, clampS; pose proof sigmatol_floor; eapply Rle_trans; [|apply Rmax_r]; unfold sigmatol; left; apply Rinv_0_lt_compat; lra).
  destruct (proj2 (C64_pbex 1 ltac:(lia)) r s R0 S0) as (w & w2 & E & _ & B). rewrite E. cbn [en3].
  change (1 =? 4)%Z with false in B. cbv iota in B. set (f := eunif r * _) in *. set (y := eunif r) in *. clearbody f y. dec. intros Z. lra.
Qed.
Print Assumptions C66_hf_refuted.

(** ** Vacuum *)
(** Where both spin densities are below the threshold the potentials and the energy per electron are those of the
    density 2e-14 (1266-1276), but the energy multiplies them by the threshold of the sum, 1e-14 (436-444). *)
Theorem C66_vacuum_refuted : exists up dn tau m e vu vd zu zd,
  let c := with_fock (xc_decomposition "LDA_PW" (- (1))) 0 in
  calc_vxc_sp exN exper exD1 1 exT 0 false excore exmx exmc exsr "LDA_PW" c false up dn tau m = Ok (e, (vu, vd), (zu, zd)) /\
  calc_exc exN (1 / 8) false excore (fun p => up p + dn p) e =
    1 / 2 * gridsum exN (1 / 8) (fun p => col0 (add_rho_core3 false excore up dn) p * e p) /\
  gridsum exN (1 / 8) (fun p => col0 (add_rho_core3 false excore up dn) p * e p) < 0.
Proof.
  set (c := with_fock (xc_decomposition "LDA_PW" (- (1))) 0). set (m0 := fun _ : pt => (0, (0, 0), None, None) : res3).
  set (z0 := fun _ : pt => 0).
  assert (K : known "LDA_PW") by (exists "LDA_PW"%string; split; [cbn; tauto|reflexivity]).
  destruct (C66_defined exN exper exD1 1 exT 0 false excore exm exm exmx exmc exsr ex_params ex_grid "LDA_PW" (- (1)) 0 false (fun _ => (0, 0, None, None)) m0 K) as (_ & H2 & _).
  destruct (H2 eq_refl z0 z0 z0 z0) as [[[e [vu vd]] [zu zd]] Hr]. fold c in Hr.
  pose proof rhotol_pos as RP.
  assert (EP : forall p, In p (pts exN) -> e p < 0).
  { intros p Hp.
    destruct (C66_energy_spin exN exper exD1 1 exT 0 false excore exm exm exmx exmc exsr ex_params ex_grid "LDA_PW" "LDA_PW" (- (1)) 0 false z0 z0 z0 z0 m0 e vu vd zu zd
      ltac:(cbn; tauto) eq_refl Hr ltac:(cbn; lia) ltac:(cbn; lia) ltac:(cbn; lia)) as [_ A].
    specialize (A p Hp). cbv zeta in A. rewrite A. cbn match.
    assert (RM : Rmax (z0 p) (/ 10 ^ 14) = rhotol) by (unfold z0, rhotol in *; apply Rmax_right; lra). rewrite RM.
    set (t := rhotol) in *. clearbody t.
    change (en3 (slater_spin (t + t) t t) + en3 (pw_spin (t + t) t t) < 0).
    destruct (proj2 C65_slater t t RP RP) as (x & -> & X).
    destruct (proj2 C65_pw t t ltac:(lra) ltac:(lra) ltac:(lra)) as (? & ? & -> & Y & _). cbn [en3].
    destruct (proj2 (C64_pbex 1 ltac:(lia)) (2 * t) 0 ltac:(lra) ltac:(lra)) as (w & w2 & E & _ & B).
    change (1 =? 4)%Z with false in B. cbv iota in B. set (f := eunif (2 * t) * _) in *. set (y := eunif (2 * t)) in *. clearbody f y.
    assert (U : y < 0) by (dec; lra). nra. }
  exists z0, z0, (tau3 z0 z0), m0, e, vu, vd, zu, zd. cbv zeta. split; [exact Hr|].
  assert (P : forall p, In p (pts exN) -> e p < 0) by exact EP.
  assert (C0 : forall p, col0 (add_rho_core3 false excore z0 z0) p = 2 * rhotol).
  { intros p. unfold col0, add_rho_core3, floor_core, z0. cbn [fst snd]. destruct (Rlt_dec 0 rhotol); lra. }
  assert (C1 : forall p, add_rho_core false excore (fun p => z0 p + z0 p) p = rhotol).
  { intros p. unfold add_rho_core, floor_core, z0. destruct (Rlt_dec (0 + 0) rhotol); lra. }
  pose proof (P (0, 0, 0)%Z ltac:(rewrite ex_pts; cbn; auto)). pose proof (P (1, 0, 0)%Z ltac:(rewrite ex_pts; cbn; auto)). pose proof (P (2, 0, 0)%Z ltac:(rewrite ex_pts; cbn; auto)).
  unfold gridsum, calc_exc. rewrite ex_pts. cbn [lsum fold_left]. rewrite !C0, !C1. split; [field|nra].
Qed.
Print Assumptions C66_vacuum_refuted.

(** ** The vocabulary of the statements above *)
(** Two letters that a name may differ in: equal, or the two cases of one ASCII letter. *)
Definition same_letter (a b : ascii) : Prop :=
  a = b \/ exists n : nat, (65 <= n <= 90)%nat /\
    (nat_of_ascii a = n /\ nat_of_ascii b = n + 32 \/ nat_of_ascii b = n /\ nat_of_ascii a = n + 32)%nat.
Inductive same_name : string -> string -> Prop :=
| same_nil : same_name EmptyString EmptyString
| same_cons : forall a b s t, same_letter a b -> same_name s t -> same_name (String a s) (String b t).
Lemma lower_same a b : lower a = lower b <-> same_letter a b.
Proof.
  unfold lower, same_letter. pose proof (nat_ascii_bounded a) as Ba. pose proof (nat_ascii_bounded b) as Bb.
  assert (inj : forall x y, nat_of_ascii x = nat_of_ascii y -> x = y).
  { intros x y H. rewrite <- (ascii_nat_embedding x), <- (ascii_nat_embedding y), H. reflexivity. }
  assert (up : forall x, (nat_of_ascii x <= 90)%nat -> nat_of_ascii (ascii_of_nat (nat_of_ascii x + 32)) = (nat_of_ascii x + 32)%nat).
  { intros x H. apply nat_ascii_embedding. lia. }
  destruct (Nat.leb_spec 65 (nat_of_ascii a)); destruct (Nat.leb_spec (nat_of_ascii a) 90);
    destruct (Nat.leb_spec 65 (nat_of_ascii b)); destruct (Nat.leb_spec (nat_of_ascii b) 90); cbn [andb]; split; intros E.
  all: try (apply (f_equal nat_of_ascii) in E; rewrite ?up in E by assumption).
  all: try (left; apply inj; lia).
  all: try (right; first [exists (nat_of_ascii a); lia | exists (nat_of_ascii b); lia]).
  all: destruct E as [->|(n & Hn & [[E1 E2]|[E1 E2]])]; try lia; try reflexivity.
  all: apply inj; rewrite ?up by assumption; lia.
Qed.
Theorem C66_case a b : ieq a b = true <-> same_name a b.
Proof.
  unfold ieq. rewrite String.eqb_eq. revert b. induction a as [|c a IH]; intros [|d b]; cbn [lowers]; split; intros H.
  - constructor.
  - reflexivity.
  - discriminate H.
  - inversion H.
  - discriminate H.
  - inversion H.
  - injection H as H1 H2. constructor; [apply lower_same, H1|apply IH, H2].
  - inversion H; subst. f_equal; [apply lower_same; assumption|apply IH; assumption].
Qed.
Print Assumptions C66_case.
Example C66_case_ex : same_name "pBe0"%string "PBE0"%string /\ ~ same_name "PBE"%string "PBE0"%string.
Proof. split; [apply C66_case; reflexivity|]. intros H. apply C66_case in H. discriminate H. Qed.
(** The Fock phase: the counter usefock is positive and even. *)
Theorem C66_phase uf : fock_phase uf = true <-> (0 < uf)%Z /\ exists k, uf = (2 * k)%Z.
Proof.
  unfold fock_phase. rewrite andb_true_iff, Z.ltb_lt, Z.eqb_eq. split; intros [H1 H2].
  - split; [exact H1|]. exists (Z.quot uf 2). pose proof (Z.quot_rem' uf 2). lia.
  - split; [exact H1|]. destruct H2 as [k ->]. rewrite Z.mul_comm. apply Z.rem_mul. lia.
Qed.
Print Assumptions C66_phase.
Example C66_phase_ex : fock_phase 2 = true /\ fock_phase 1 = false. Proof. split; reflexivity. Qed.
