(** C81: the exchange-correlation stress is the derivative of the exchange-correlation energy with respect to strain. *)
From Coq Require Import Reals ZArith List Bool Lia Lra String.
From Coquelicot Require Import Coquelicot.
From Verif Require Import CBase Collect Halo HaloLem P_Halo Xc XcLem P_Xc XcSpin XcSpinLem P_XcSpin XcGrid XcGridLem XcGridVar XcGridMain P_XcGrid XcStress XcStressSpec XcStressLem.
Import ListNotations.
Local Open Scope R_scope.

Section Spec.
  Variables (N : pt) (per : nat -> bool) (D1 : nat -> Z -> R) (F : Z) (T G : nat -> R) (cell_typ : Z) (dV : R).
  Variables (nlcc : bool) (core : field).
  Variables (metax metac : Z -> R -> R -> R -> outcome (R * R * R * R)).
  Variable metax_s : Z -> R * R * R -> R * R * R -> R * R * R -> outcome (R * (R * R) * (R * R) * (R * R)).
  Variable metac_s : Z -> R * R * R -> R * R * R -> R * R * R -> outcome (R * (R * R) * R * R).
  Variable pbexsr : R -> R -> outcome (R * R * R).
  Hypothesis HP : params_total metax metac metax_s metac_s pbexsr.
  Hypothesis HF : forall d, (d < 3)%nat -> (F <= at_ N d)%Z.
  Hypothesis HC : sound_cell T G cell_typ.
  Notation conf XC exx0 uf := (with_fock (xc_decomposition XC exx0) uf).
  Notation cart := (cart G cell_typ).
  Notation grad := (grad3 N per D1 F).
  Notation sq g := (sq3 T cell_typ g).
  Notation point1 := (point1 metax metac pbexsr).
  Notation point3 := (point3 metax_s metac_s pbexsr).
  Notation run1 := (run1 N per D1 F T G cell_typ dV nlcc core metax metac pbexsr).
  Notation run3 := (run3 N per D1 F T G cell_typ dV nlcc core metax_s metac_s pbexsr).

  Definition en1 (o : outcome res1) : R := match o with Ok (e, _, _, _) => e | _ => 0 end.
  Definition en_s (o : outcome res3) : R := match o with Ok (e, _, _, _) => e | _ => 0 end.

  (** *** The energy of the strained crystal *)
  (** When the crystal is deformed by I + x e, every grid point moves with it, the electrons (and tau) of a volume element stay in
      it, the core density of a point stays as it is (its change is the term of stress.c:598-606), and a Cartesian
      gradient is multiplied by the inverse transpose of the deformation. *)
  Definition vol (e : mat) (x : R) : R := det (deform e x).
  Definition strained_rho (h : R) (e : mat) (dens : field) (x : R) : field := fun p => cored nlcc core h p (dens p / vol e x).
  Definition strained_energy1 (XC : string) (c : cfg) (first : bool) (e : mat) (dens tau : field) (x : R) : R :=
    let rho := strained_rho 1 e dens x in
    vol e x * dV * lsum (fun p => rho p * en1 (point1 XC c first (rho p)
      (if isgrad c then Some (strained_sigma e x (cart (grad rho p))) else None) (tau p / vol e x))) (pts N).
  Definition strained_energy3 (XC : string) (c : cfg) (first : bool) (e : mat) (up dn tu td : field) (x : R) : R :=
    let u := strained_rho (1 / 2) e up x in let d := strained_rho (1 / 2) e dn x in
    let s f p := strained_sigma e x (cart (grad f p)) in
    vol e x * dV * lsum (fun p => (u p + d p) * en_s (point3 XC c first (u p + d p, u p, d p)
      (if isgrad c then Some (s (fun q => u q + d q) p, s u p, s d p) else None)
      ((tu p + td p) / vol e x, tu p / vol e x, td p / vol e x))) (pts N).

  Lemma sound_T : lapcT_symmetric T cell_typ. Proof. exact (cell_symmetric T G cell_typ HC). Qed.
  Lemma near_all (P : R -> pt -> Prop) t : (forall p, In p (pts N) -> locally t (fun x => P x p)) -> locally t (fun x => forall p, In p (pts N) -> P x p).
  Proof.
    generalize (pts N). induction l as [|a l IH]; intros H; [apply filter_forall; intros x p []|].
    generalize (filter_and _ _ (H a (or_introl eq_refl)) (IH (fun p Hp => H p (or_intror Hp)))).
    apply filter_imp. intros x [A B] p [<-|Hp]; [exact A|now apply B].
  Qed.
  Lemma div_vol e (a : R) : is_derive (fun x => a / vol e x) 0 (- trace e * a).
  Proof.
    eapply is_derive_eq; [apply (is_derive_div (fun _ => a) (fun x => vol e x) 0); [apply der_const|apply det_derive|unfold vol; rewrite det_0; lra]|].
    cbv beta. unfold vol. rewrite det_0. cbn. field.
  Qed.
  Lemma rho_derive h e dens p : is_derive (fun x => strained_rho h e dens x p) 0 (- trace e * dens p).
  Proof.
    unfold strained_rho, cored. destruct nlcc; [|apply div_vol].
    eapply is_derive_eq; [exact (der_plus _ _ _ _ _ (div_vol e (dens p)) (der_const (h * core p) 0))|]. ring.
  Qed.
  Lemma rho_0 h e dens p : strained_rho h e dens 0 p = cored nlcc core h p (dens p).
  Proof. unfold strained_rho, vol. rewrite det_0. f_equal. field. Qed.

  Lemma dotp_sum f g : dotp N f g = gsum N (fun p => f p * g p).
  Proof. unfold dotp. rewrite (fold_lsum (fun p => f p * g p)). unfold gsum. ring. Qed.
  Lemma known_meta XC exx0 uf : known XC -> exists mg, meta (conf XC exx0 uf) = Ok mg.
  Proof.
    intros (n & Kn & Ki). rewrite (xc_name _ _ exx0 Ki). unfold names in Kn. cbn [In] in Kn.
    repeat match type of Kn with _ \/ _ => destruct Kn as [<-|Kn] end; try contradiction; eexists; reflexivity.
  Qed.
  Lemma point1_noz XC c first r s u a b w z : meta c = Ok false -> point1 XC c first r s u = Ok (a, b, w, z) -> z = None.
  Proof.
    unfold meta, XcGrid.point1, labels. destruct (ixc c) as [[[[i0 i1] i2] i3]|]; cbn [rdo obind]; [|discriminate].
    intros H. injection H as H. apply negb_false_iff in H. rewrite H. cbn [negb andb obind].
    destruct (exch _ _ _ _ _ _ _) as [x0| |]; cbn [obind]; try discriminate.
    destruct (corr _ _ _ _ _ _ _ _) as [[[[? ?] ?] ?]| |]; cbn [obind]; try discriminate.
    destruct (hybrid _ _ _ _ _ _) as [[[[? ?] ?] ?]| |]; cbn [obind]; try discriminate.
    destruct (if isgrad c then _ else _) as [w'| |]; cbn [obind]; try discriminate.
    intros Q. rewrite H in Q. cbn [negb andb obind] in Q. injection Q as <- <- <- <-. reflexivity.
  Qed.
  Lemma point3_noz XC c first r s u a b w z : meta c = Ok false -> point3 XC c first r s u = Ok (a, b, w, z) -> z = None.
  Proof.
    unfold meta, XcGrid.point3, labels. destruct (ixc c) as [[[[i0 i1] i2] i3]|]; cbn [rdo obind]; [|discriminate].
    intros H. injection H as H. apply negb_false_iff in H. rewrite H. cbn [negb andb obind].
    destruct (exch_s _ _ _ _ _ _ _) as [x0| |]; cbn [obind]; try discriminate.
    destruct (corr_s _ _ _ _ _ _ _ _) as [[[[? [? ?]] ?] ?]| |]; cbn [obind]; try discriminate.
    destruct (hybrid_s _ _ _ _ _ _) as [[[[? [? ?]] ?] ?]| |]; cbn [obind]; try discriminate.
    destruct (if isgrad c then _ else _) as [w'| |]; cbn [obind]; try discriminate.
    intros Q. rewrite H in Q. cbn [negb andb obind] in Q. injection Q as <- <- <- <-. reflexivity.
  Qed.

  Lemma stress_val isg Exc corr measure cols k : measure <> 0 ->
    xc_stress N G cell_typ dV isg Exc corr measure cols k =
    Ok (((match k with 0%nat | 3%nat | 5%nat => Exc - corr | _ => 0 end) - (if isg then sum6 N G cell_typ dV cols k else 0)) / measure).
  Proof.
    intros H. unfold xc_stress, cdiv. destruct (Req_EM_T measure 0); [contradiction|]. f_equal. f_equal. destruct isg; ring.
  Qed.
  Lemma contract_stress e (a m : R) (s : nat -> R) : m <> 0 ->
    m * contract e (sym6 (fun k => ((match k with 0%nat | 3%nat | 5%nat => a | _ => 0 end) - s k) / m)) = trace e * a - contract e (sym6 s).
  Proof. intros H. unfold contract, sum3, sym6, trace, sum3. cbn. field. exact H. Qed.
  Lemma pnorm_sq g : pnorm T cell_typ g = sq g.
  Proof.
    destruct g as [[x y] z]. unfold pnorm, sq3, norm_square. destruct (cell_cases T G cell_typ HC) as [(E1 & E2)|(E1 & E2 & _)]; [rewrite E2, E1; reflexivity|rewrite E1, E2; reflexivity].
  Qed.
  Lemma prod_trace g : prod6 0 (cart g) + prod6 3 (cart g) + prod6 5 (cart g) = sq g.
  Proof. rewrite <- (cart_norm T G cell_typ HC). unfold prod6, norm2. destruct (cart g) as [[x y] z]. ring. Qed.
  Lemma pressure_val isg Exc corr cols :
    xc_pressure N T cell_typ dV isg Exc corr cols =
    3 * Exc - corr - (if isg then sum6 N G cell_typ dV cols 0 + sum6 N G cell_typ dV cols 3 + sum6 N G cell_typ dV cols 5 else 0).
  Proof.
    unfold xc_pressure. destruct isg; [|ring]. f_equal. rewrite !sum6_cols, <- !Rmult_plus_distr_l, Rmult_comm. f_equal.
    assert (A : forall a, fold_left (fun a col => fold_left (fun a p => a + pnorm T cell_typ (fst col p) * snd col p) (pts N) a) cols a =
      a + (lsum (fun col => gsum N (fun p => prod6 0 (cart (fst col p)) * snd col p)) cols +
           lsum (fun col => gsum N (fun p => prod6 3 (cart (fst col p)) * snd col p)) cols +
           lsum (fun col => gsum N (fun p => prod6 5 (cart (fst col p)) * snd col p)) cols)).
    { induction cols as [|col cols IH]; intros a; cbn [fold_left lsum]; [ring|].
      rewrite IH, (fold_lsum (fun p => pnorm T cell_typ (fst col p) * snd col p)). fold (gsum N (fun p => pnorm T cell_typ (fst col p) * snd col p)).
      rewrite (gsum_ext N (fun p => pnorm T cell_typ (fst col p) * snd col p)
        (fun p => prod6 0 (cart (fst col p)) * snd col p + prod6 3 (cart (fst col p)) * snd col p + prod6 5 (cart (fst col p)) * snd col p)).
      2:{ intros p _. rewrite pnorm_sq, <- prod_trace. ring. }
      rewrite !gsum_plus. 
      assert (RR : forall g1 g2 g3 y1 y2 y3 : R, a + (g1 + g2 + g3) + (y1 + y2 + y3) = a + (g1 + y1 + (g2 + y2) + (g3 + y3))) by (intros; ring).
      apply RR. }
    rewrite A. ring.
  Qed.

  (** *** Unpolarised *)
  (** The six numbers are the derivatives of the energy per cell measure, for every strain, symmetric or not; the
      pressure is the derivative for the isotropic strain and twice the potential energy taken from the bands. *)
  Theorem C81_stress XC exx0 uf first (dens tau : field) (m : pt -> res1) measure :
    let c := conf XC exx0 uf in
    known XC -> smooth1 N per D1 F T cell_typ nlcc core c dens -> measure <> 0 ->
    (forall p, In p (pts N) -> let rho := add_rho_core nlcc core dens in
       prem metax metac pbexsr XC c first (rho p) (sq (grad rho p)) (tau p)) ->
    exists S P s v z ee delta,
      run1 XC c first dens tau m measure = Ok (S, P) /\ (forall k, S k = Ok (s k)) /\
      calc_vxc1 N per D1 F T cell_typ nlcc core metax metac pbexsr XC c first dens tau m = Ok (ee, v, z) /\
      (forall e, is_derive (strained_energy1 XC c first e dens tau) 0
         (measure * contract e (sym6 s) - trace e * (dV * lsum (fun p => delta p * dens p) (pts N)))) /\
      P = measure * (s 0%nat + s 3%nat + s 5%nat) + 2 * (dV * lsum (fun p => v p * dens p + z p * tau p) (pts N)) /\
      (isgrad c = true -> forall p, delta p = 0) /\
      (forall p, Rabs (delta p) <= / 10 ^ 15 * Rpower (add_rho_core nlcc core dens p) (1 / 3)).
  Proof.
    intros c K Hs Hm Hp. destruct HP as (P1 & P2 & P3 & P4).
    destruct (point1_var metax metac pbexsr P1 P2 P4 XC exx0 uf first K) as (E & V & W & Z & O & Q). fold c in O, Q.
    set (rho := add_rho_core nlcc core dens) in *.
    destruct (calc_vxc1_ok N per D1 F T cell_typ nlcc core HF metax metac pbexsr XC c first E V W Z dens tau m O) as (ee & v & z & Ev & A).
    destruct (known_meta XC exx0 uf K) as (mg & Em). fold c in Em.
    set (at3 := fun (f : rfun) q => f (rho q) (dSig N per D1 F T cell_typ c rho q) (tau q)).
    assert (HW : exists w, dxc1 N per D1 F T cell_typ nlcc core metax metac pbexsr XC c first dens tau m = Ok w /\
      (forall p, In p (pts N) -> w p = at3 W p) /\ (mg = false -> forall p, In p (pts N) -> z p = 0)).
    { unfold dxc1. unfold XcGrid.calc_vxc1 in Ev. fold rho in Ev |- *. destruct (fill _ _ _) as [r| |] eqn:Fl; try discriminate Ev. cbn [obind] in Ev |- *.
      injection Ev as _ _ Ez. eexists. split; [reflexivity|]. split.
      - intros p Hpp. cbv beta. destruct (fill_inv _ _ _ _ Fl p) as [I1 _]. specialize (I1 Hpp). cbv beta in I1.
        rewrite sigma1_sg in I1. destruct (O (rho p) (dSig N per D1 F T cell_typ c rho p) (tau p)) as (ow & oz & Q1 & Q2 & _).
        { split; [apply floor_core_pos|apply dSig_floor]. }
        rewrite Q1 in I1. injection I1 as I1. rewrite <- I1. exact Q2.
      - intros -> p Hpp. rewrite <- Ez. destruct (fill_inv _ _ _ _ Fl p) as [I1 _]. specialize (I1 Hpp). cbv beta in I1.
        destruct (r p) as [[[r1 r2] r3] r4]. apply (point1_noz _ _ _ _ _ _ _ _ _ _ Em) in I1. rewrite I1. reflexivity. }
    destruct HW as (w & Ew & HW & Hz).
    set (Exc := calc_exc N dV nlcc core dens ee). set (corr := exc_corr1 N dV mg dens v tau z).
    set (cols := [(grad rho, w)] : list column).
    assert (Er : run1 XC c first dens tau m measure = Ok (xc_stress N G cell_typ dV (isgrad c) Exc corr measure cols, xc_pressure N T cell_typ dV (isgrad c) Exc corr cols)).
    { unfold XcStress.run1. rewrite Ev. cbn [obind]. rewrite Ew. cbn [obind]. rewrite Em. reflexivity. }
    assert (Ec : corr = dV * gsum N (fun p => v p * dens p + z p * tau p)).
    { unfold corr, exc_corr1. rewrite !dotp_sum. rewrite gsum_plus. destruct mg.
      - rewrite (gsum_ext N (fun p => dens p * v p) (fun p => v p * dens p)) by (intros; ring). rewrite (gsum_ext N (fun p => tau p * z p) (fun p => z p * tau p)) by (intros; ring). ring.
      - rewrite (gsum_zero N (fun p => z p * tau p)) by (intros p Hpp; rewrite (Hz eq_refl p Hpp); ring).
        rewrite (gsum_ext N (fun p => dens p * v p) (fun p => v p * dens p)) by (intros; ring). ring. }
    set (s := fun k => ((match k with 0%nat | 3%nat | 5%nat => Exc - corr | _ => 0 end) - (if isgrad c then sum6 N G cell_typ dV cols k else 0)) / measure).
    exists (xc_stress N G cell_typ dV (isgrad c) Exc corr measure cols), (xc_pressure N T cell_typ dV (isgrad c) Exc corr cols), s, v, z, ee, (fun p => gap c (rho p)).
    split; [exact Er|]. split; [intros k; now apply stress_val|]. split; [exact Ev|]. split; [|split; [|split]].
    2:{ rewrite pressure_val. fold (gsum N (fun p => v p * dens p + z p * tau p)). rewrite <- Ec. unfold s. destruct (isgrad c); field; exact Hm. }
    2:{ intros Gr p. unfold gap. rewrite Gr. reflexivity. }
    2:{ intros p. unfold gap. destruct (isgrad c); [|apply slater_gap_bound]. rewrite Rabs_R0. apply Rmult_le_pos; [left; apply Rinv_0_lt_compat; lra|]. left. apply Rpower_pos. }
    intros e. unfold s. rewrite contract_stress by exact Hm.
    set (rx := fun x => strained_rho 1 e dens x). set (dr := fun p => - trace e * dens p).
    assert (Hr : forall p, In p (pts N) -> is_derive (fun x => rx x p) 0 (dr p)) by (intros p _; apply rho_derive).
    assert (R0 : forall p, In p (pts N) -> rx 0 p = rho p).
    { intros p Hpp. unfold rx. rewrite rho_0. symmetry. apply floor_core_above, Hs, Hpp. }
    assert (G0 : forall p, In p (pts N) -> grad (rx 0) p = grad rho p).
    { intros p Hpp. unfold grad3. rewrite !(D_ext N per D1 F HF _ (rx 0) rho p) by (try assumption; try lia; exact R0). reflexivity. }
    set (Sx := fun x p => if isgrad c then strained_sigma e x (cart (grad (rx x) p)) else 1).
    set (S' := fun p => if isgrad c then 2 * dot_g N per D1 F T cell_typ dr (grad rho p) p - 2 * quad e (cart (grad rho p)) else 0).
    assert (HS : forall p, In p (pts N) -> is_derive (fun x => Sx x p) 0 (S' p)).
    { intros p Hpp. unfold Sx, S'. destruct (isgrad c); [|exact (is_derive_const 1 0)]. rewrite <- (G0 p Hpp).
      apply (strain_col N per D1 F T G cell_typ HF HC e rx dr p Hpp Hr). }
    assert (S0 : forall p, In p (pts N) -> Sx 0 p = dSig N per D1 F T cell_typ c rho p).
    { intros p Hpp. unfold Sx, dSig. destruct (isgrad c) eqn:Gr; [|reflexivity]. rewrite (G0 p Hpp), (sigma_start T G cell_typ HC).
      unfold clampS. rewrite Rmax_left; [reflexivity|]. left. apply (Hs p Hpp), Gr. }
    set (ux := fun x p => tau p / vol e x).
    assert (Hu : forall p, is_derive (fun x => ux x p) 0 (- trace e * tau p)) by (intros; apply div_vol).
    assert (U0 : forall p, ux 0 p = tau p) by (intros p; unfold ux, vol; rewrite det_0; field).
    assert (NR : forall p, In p (pts N) -> locally 0 (fun x => 0 < rx x p)).
    { intros p Hpp. apply (near_gt (fun x => rx x p) 0 0 (dr p) (Hr p Hpp)). rewrite R0 by exact Hpp. apply floor_core_pos. }
    assert (NS : forall p, In p (pts N) -> locally 0 (fun x => sigma_floor < Sx x p)).
    { intros p Hpp. apply (near_gt (fun x => Sx x p) sigma_floor 0 (S' p) (HS p Hpp)). rewrite S0 by exact Hpp. apply dSig_floor. }
    apply (der_near (fun x => vol e x * (dV * gsum N (fun p => rx x p * E (rx x p) (Sx x p) (ux x p))))).
    { generalize (filter_and _ _ (near_all (fun x p => 0 < rx x p) 0 NR) (near_all (fun x p => sigma_floor < Sx x p) 0 NS)).
      apply filter_imp. intros x [X1 X2]. unfold strained_energy1. rewrite Rmult_assoc. f_equal. f_equal. apply lsum_ext. intros p Hpp.
      fold (rx x). fold (ux x p). f_equal. destruct (O (rx x p) (Sx x p) (ux x p)) as (ow & oz & Q1 & _); [split; auto|].
      unfold sg in Q1. unfold Sx in Q1 at 1. destruct (isgrad c); rewrite Q1; reflexivity. }
    eapply is_derive_eq.
    - apply (der_mult (vol e) (fun x => dV * gsum N (fun p => rx x p * E (rx x p) (Sx x p) (ux x p)))); [apply det_derive|].
      apply (der_scal (fun x => gsum N (fun p => rx x p * E (rx x p) (Sx x p) (ux x p))) dV).
      apply (lsum_derive (fun x p => rx x p * E (rx x p) (Sx x p) (ux x p))
        (fun p => (at3 V p + gap c (rho p)) * dr p + at3 W p / 2 * S' p + at3 Z p * (- trace e * tau p))).
      intros p Hpp.
      assert (QQ : rvar E V W Z (rho p) (dSig N per D1 F T cell_typ c rho p) (tau p) (gap c (rho p))).
      { apply Q; [split; [apply floor_core_pos|apply dSig_floor]|].
        unfold dSig. destruct (isgrad c) eqn:Gr.
        - unfold clampS. rewrite Rmax_left; [apply (Hp p Hpp)|]. destruct (Hs p Hpp) as [_ Hs2]. specialize (Hs2 Gr). fold rho in Hs2. lra.
        - specialize (Hp p Hpp). cbv zeta in Hp. destruct Hp as (q1 & q2 & q3). split; [exact q1|]. split.
          + intros HSE. exfalso. unfold c, with_fock in Gr. cbn [isgrad] in Gr. rewrite (xc_name _ _ exx0 HSE) in Gr. discriminate Gr.
          + intros i Hi. exfalso. exact (meta_grad XC exx0 i K Hi Gr). }
      apply (QQ (fun x => rx x p) (fun x => Sx x p) (fun x => ux x p) 0 (dr p) (S' p) (- trace e * tau p)); auto.
    - unfold vol. rewrite det_0. cbv beta.
      assert (EE : dV * gsum N (fun p => rx 0 p * E (rx 0 p) (Sx 0 p) (ux 0 p)) = Exc).
      { unfold Exc. rewrite calc_exc_sum. f_equal. apply gsum_ext. intros p Hpp. rewrite R0, S0, U0 by exact Hpp. destruct (A p Hpp) as (-> & _). reflexivity. }
      rewrite EE.
      set (dt := fun p => if isgrad c then div_term N per D1 F T cell_typ (grad rho) (at3 W) p else 0).
      assert (E2 : lsum (fun p => (at3 V p + gap c (rho p)) * dr p + at3 W p / 2 * S' p + at3 Z p * (- trace e * tau p)) (pts N) =
        - trace e * gsum N (fun p => v p * dens p + z p * tau p) - trace e * gsum N (fun p => gap c (rho p) * dens p)
        - (if isgrad c then gsum N (fun p => at3 W p * quad e (cart (grad rho p))) else 0)).
      { transitivity (gsum N (fun p => - trace e * (at3 V p * dens p + at3 Z p * tau p)) + - trace e * gsum N (fun p => gap c (rho p) * dens p)
          + gsum N (fun p => at3 W p / 2 * S' p)).
        { rewrite <- gsum_scal, <- !gsum_plus. apply lsum_ext. intros p _. unfold dr. ring. }
        assert (E3 : gsum N (fun p => at3 W p / 2 * S' p) = - trace e * gsum N (fun p => dt p * dens p)
          - (if isgrad c then gsum N (fun p => at3 W p * quad e (cart (grad rho p))) else 0)).
        { unfold S', dt. destruct (isgrad c).
          - transitivity (gsum N (fun p => at3 W p * dot_g N per D1 F T cell_typ dr (grad rho p) p) + - gsum N (fun p => at3 W p * quad e (cart (grad rho p)))).
            + rewrite <- gsum_opp, <- gsum_plus. apply gsum_ext. intros p _. field.
            + rewrite (parts N per D1 F T cell_typ HF (grad rho) (at3 W) dr), <- gsum_scal. unfold Rminus. f_equal. apply gsum_ext. intros p _. unfold dr. ring.
          - rewrite !gsum_zero; [ring| |]; intros; ring. }
        rewrite E3. rewrite (gsum_ext N (fun p => v p * dens p + z p * tau p) (fun p => (at3 V p * dens p + at3 Z p * tau p) + dt p * dens p)).
        - rewrite gsum_plus, gsum_scal. ring.
        - intros p Hpp. destruct (A p Hpp) as (_ & -> & ->). fold rho. unfold dt, at3. ring. }
      rewrite E2, Ec. fold (gsum N (fun p => gap c (rho p) * dens p)).
      assert (E4 : contract e (sym6 (fun k => if isgrad c then sum6 N G cell_typ dV cols k else 0)) =
        dV * (if isgrad c then gsum N (fun p => at3 W p * quad e (cart (grad rho p))) else 0)).
      { destruct (isgrad c).
        - rewrite (quad_sum N e (fun p => cart (grad rho p)) (at3 W)).
          assert (E5 : forall k, sum6 N G cell_typ dV cols k = dV * gsum N (fun p => prod6 k (cart (grad rho p)) * at3 W p)).
          { intros k. rewrite sum6_cols. unfold cols. cbn [lsum fst snd]. rewrite Rplus_0_r. f_equal. apply gsum_ext. intros p Hpp. rewrite (HW p Hpp). reflexivity. }
          unfold contract, sum3, sym6. rewrite !E5. ring.
        - unfold contract, sum3, sym6. ring. }
      rewrite E4. ring.
  Qed.
  (** *** Two spins *)
  Theorem C81_stress_spin XC exx0 uf first (up dn tu td : field) (m : pt -> res3) measure :
    let c := conf XC exx0 uf in
    known XC -> ieq XC "LDA_PZ" = false -> smooth3 N per D1 F T cell_typ nlcc core c up dn -> measure <> 0 ->
    (forall p, In p (pts N) -> prem3 metax_s metac_s pbexsr XC c first (state N per D1 F T cell_typ (add_rho_core3 nlcc core up dn) tu td p)) ->
    exists S P s ee vu vd zu zd,
      run3 XC c first up dn tu td m measure = Ok (S, P) /\ (forall k, S k = Ok (s k)) /\
      calc_vxc_sp N per D1 F T cell_typ nlcc core metax_s metac_s pbexsr XC c first up dn (tau3 tu td) m = Ok (ee, (vu, vd), (zu, zd)) /\
      (forall e, is_derive (strained_energy3 XC c first e up dn tu td) 0 (measure * contract e (sym6 s))) /\
      P = measure * (s 0%nat + s 3%nat + s 5%nat) + 2 * (dV * lsum (fun p => vu p * up p + vd p * dn p + zu p * tu p + zd p * td p) (pts N)).
  Proof.
    intros c K PZ [Hn Hs] Hm Hp. destruct HP as (P1 & P2 & P3 & P4).
    destruct (point3_var metax_s metac_s pbexsr P3 P4 XC exx0 uf first K PZ) as (E & V & O & Q). fold c in O, Q.
    set (rho := add_rho_core3 nlcc core up dn) in *. set (g := grads_col N per D1 F rho).
    set (Y := fun q => st T cell_typ c (rho q) (g q) (tu q) (td q)).
    destruct (calc_vxc3_ok N per D1 F T cell_typ HF metax_s metac_s pbexsr XC c first E V rho g tu td m O (fun p _ => core3_pos nlcc core up dn p)) as (ee & vu & vd & zu & zd & Ev & A).
    destruct (known_meta XC exx0 uf K) as (mg & Em). fold c in Em.
    assert (HW : exists w0 w1 w2, dxc3 N per D1 F T cell_typ nlcc core metax_s metac_s pbexsr XC c first up dn (tau3 tu td) m = Ok (w0, w1, w2) /\
      (forall p, In p (pts N) -> w0 p = V 2%nat (Y p) /\ w1 p = V 3%nat (Y p) /\ w2 p = V 4%nat (Y p)) /\
      (mg = false -> forall p, In p (pts N) -> zu p = 0 /\ zd p = 0)).
    { unfold dxc3. unfold XcGrid.calc_vxc3 in Ev. fold rho. fold g. destruct (fill _ _ _) as [r| |] eqn:Fl; try discriminate Ev. cbn [obind] in Ev |- *.
      injection Ev as _ _ _ Ez1 Ez2. do 3 eexists. split; [reflexivity|]. split.
      - intros p Hpp. destruct (fill_inv _ _ _ _ Fl p) as [I1 _]. specialize (I1 Hpp). cbv beta in I1. unfold tau3 in I1.
        rewrite point3_st in I1 by (unfold col0; apply (core3_pos nlcc core up dn p)). fold (Y p) in I1.
        destruct (O (Y p)) as (ow & oz & Q1 & Q2 & _). { apply st_dom; apply (core3_pos nlcc core up dn p). }
        rewrite Q1 in I1. injection I1 as I1. unfold col0, col1, col2. rewrite <- I1. cbn [fst snd]. rewrite Q2. auto.
      - intros -> p Hpp. destruct (fill_inv _ _ _ _ Fl p) as [I1 _]. specialize (I1 Hpp). cbv beta in I1.
        rewrite <- Ez1, <- Ez2. destruct (r p) as [[[r1 r2] r3] r4]. apply (point3_noz _ _ _ _ _ _ _ _ _ _ Em) in I1. rewrite I1. auto. }
    destruct HW as (w0 & w1 & w2 & Ew & HW & Hz).
    set (Exc := calc_exc N dV nlcc core (fun p => up p + dn p) ee). set (corr := exc_corr3 N dV mg up dn vu vd tu td zu zd).
    set (cols := [(grad (col0 rho), w0); (grad (col1 rho), w1); (grad (col2 rho), w2)] : list column).
    assert (Er : run3 XC c first up dn tu td m measure = Ok (xc_stress N G cell_typ dV (isgrad c) Exc corr measure cols, xc_pressure N T cell_typ dV (isgrad c) Exc corr cols)).
    { unfold XcStress.run3. cbv zeta. unfold calc_vxc_sp. fold rho. fold g. fold (tau3 tu td). rewrite Ev. cbn [obind]. rewrite Ew. cbn [obind]. rewrite Em. reflexivity. }
    assert (Ec : corr = dV * gsum N (fun p => vu p * up p + vd p * dn p + zu p * tu p + zd p * td p)).
    { unfold corr, exc_corr3. rewrite !dotp_sum. rewrite !gsum_plus.
      rewrite (gsum_ext N (fun p => up p * vu p) (fun p => vu p * up p)) by (intros; ring). rewrite (gsum_ext N (fun p => dn p * vd p) (fun p => vd p * dn p)) by (intros; ring).
      destruct mg.
      - rewrite (gsum_ext N (fun p => tu p * zu p) (fun p => zu p * tu p)) by (intros; ring). rewrite (gsum_ext N (fun p => td p * zd p) (fun p => zd p * td p)) by (intros; ring). ring.
      - rewrite (gsum_zero N (fun p => zu p * tu p)) by (intros p Hpp; rewrite (proj1 (Hz eq_refl p Hpp)); ring).
        rewrite (gsum_zero N (fun p => zd p * td p)) by (intros p Hpp; rewrite (proj2 (Hz eq_refl p Hpp)); ring). ring. }
    set (s := fun k => ((match k with 0%nat | 3%nat | 5%nat => Exc - corr | _ => 0 end) - (if isgrad c then sum6 N G cell_typ dV cols k else 0)) / measure).
    exists (xc_stress N G cell_typ dV (isgrad c) Exc corr measure cols), (xc_pressure N T cell_typ dV (isgrad c) Exc corr cols), s, ee, vu, vd, zu, zd.
    split; [exact Er|]. split; [intros k; now apply stress_val|]. split; [exact Ev|]. split.
    2:{ rewrite pressure_val. fold (gsum N (fun p => vu p * up p + vd p * dn p + zu p * tu p + zd p * td p)). rewrite <- Ec. unfold s. destruct (isgrad c); field; exact Hm. }
    intros e. unfold s. rewrite contract_stress by exact Hm.
    set (ux := fun x => strained_rho (1 / 2) e up x). set (dx := fun x => strained_rho (1 / 2) e dn x). set (nx := fun x q => ux x q + dx x q).
    set (ru := fun p => - trace e * up p). set (rd := fun p => - trace e * dn p). set (rn := fun p => ru p + rd p).
    assert (Hu : forall p, In p (pts N) -> is_derive (fun x => ux x p) 0 (ru p)) by (intros p _; apply rho_derive).
    assert (Hd : forall p, In p (pts N) -> is_derive (fun x => dx x p) 0 (rd p)) by (intros p _; apply rho_derive).
    assert (Ht : forall p, In p (pts N) -> is_derive (fun x => nx x p) 0 (rn p)) by (intros p Hpp; exact (der_plus _ _ _ _ _ (Hu p Hpp) (Hd p Hpp))).
    assert (U0 : forall p, In p (pts N) -> ux 0 p = col1 rho p).
    { intros p Hpp. unfold ux. rewrite rho_0. symmetry. apply floor_core_above, (Hn p Hpp). }
    assert (D0 : forall p, In p (pts N) -> dx 0 p = col2 rho p).
    { intros p Hpp. unfold dx. rewrite rho_0. symmetry. apply floor_core_above, (Hn p Hpp). }
    assert (N0 : forall p, In p (pts N) -> nx 0 p = col0 rho p).
    { intros p Hpp. unfold nx. rewrite U0, D0 by exact Hpp. reflexivity. }
    assert (GE : forall f h : field, (forall p, In p (pts N) -> f p = h p) -> forall p, In p (pts N) -> grad f p = grad h p).
    { intros f h Hfh p Hpp. unfold grad3. rewrite !(D_ext N per D1 F HF _ f h p) by (try assumption; try lia). reflexivity. }
    set (sx := fun (f : R -> field) x p => if isgrad c then strained_sigma e x (cart (grad (f x) p)) else 1).
    set (s' := fun (f0 f' : field) p => if isgrad c then 2 * dot_g N per D1 F T cell_typ f' (grad f0 p) p - 2 * quad e (cart (grad f0 p)) else 0).
    assert (HS : forall (f : R -> field) (f' f0 : field), (forall p, In p (pts N) -> is_derive (fun x => f x p) 0 (f' p)) -> (forall p, In p (pts N) -> f 0 p = f0 p) ->
      forall p, In p (pts N) -> is_derive (fun x => sx f x p) 0 (s' f0 f' p)).
    { intros f f' f0 Hf H0 p Hpp. unfold sx, s'. destruct (isgrad c); [|exact (is_derive_const 1 0)]. rewrite <- (GE (f 0) f0 H0 p Hpp).
      apply (strain_col N per D1 F T G cell_typ HF HC e f f' p Hpp Hf). }
    assert (S0 : forall (f : R -> field) (f0 : field), (forall p, In p (pts N) -> f 0 p = f0 p) -> (isgrad c = true -> forall p, In p (pts N) -> sigmatol < sq (grad f0 p)) ->
      forall p, In p (pts N) -> sx f 0 p = if isgrad c then clampS (sq (grad f0 p)) else 1).
    { intros f f0 H0 Hl p Hpp. unfold sx. destruct (isgrad c) eqn:Gr; [|reflexivity]. rewrite (GE (f 0) f0 H0 p Hpp), (sigma_start T G cell_typ HC).
      unfold clampS. rewrite Rmax_left; [reflexivity|]. left. now apply Hl. }
    set (tx := fun (f : field) x p => f p / vol e x).
    assert (T0 : forall f p, tx f 0 p = f p) by (intros f p; unfold tx, vol; rewrite det_0; field).
    set (y := fun x p (k : nat) => match k with 0%nat => ux x p | 1%nat => dx x p | 2%nat => sx nx x p | 3%nat => sx ux x p | 4%nat => sx dx x p | 5%nat => tx tu x p | 6%nat => tx td x p | _ => 0 end).
    set (y' := fun p (k : nat) => match k with 0%nat => ru p | 1%nat => rd p | 2%nat => s' (col0 rho) rn p | 3%nat => s' (col1 rho) ru p | 4%nat => s' (col2 rho) rd p
                      | 5%nat => - trace e * tu p | 6%nat => - trace e * td p | _ => 0 end).
    assert (Y0 : forall p, In p (pts N) -> y 0 p = Y p).
    { intros p Hpp. apply FunctionalExtensionality.functional_extensionality. intros k. unfold y, Y, st, g, grads_col. cbn [fst snd].
      destruct k as [|[|[|[|[|[|[|k]]]]]]]; [apply U0, Hpp|apply D0, Hpp| | | |apply T0|apply T0|reflexivity].
      - apply (S0 nx (col0 rho) N0); [|exact Hpp]. intros Gr q Hq. apply (Hs Gr q Hq).
      - apply (S0 ux (col1 rho) U0); [|exact Hpp]. intros Gr q Hq. apply (Hs Gr q Hq).
      - apply (S0 dx (col2 rho) D0); [|exact Hpp]. intros Gr q Hq. apply (Hs Gr q Hq). }
    assert (HY : forall p, In p (pts N) -> forall k, is_derive (fun x => y x p k) 0 (y' p k)).
    { intros p Hpp k. unfold y, y'. destruct k as [|[|[|[|[|[|[|k]]]]]]]; [apply Hu, Hpp|apply Hd, Hpp| | | |apply div_vol|apply div_vol|exact (is_derive_const 0 0)].
      - apply (HS nx rn (col0 rho) Ht N0 p Hpp).
      - apply (HS ux ru (col1 rho) Hu U0 p Hpp).
      - apply (HS dx rd (col2 rho) Hd D0 p Hpp). }
    assert (DY : forall p, dom3 (Y p)) by (intros p; apply st_dom; apply (core3_pos nlcc core up dn p)).
    assert (ND : forall p, In p (pts N) -> locally 0 (fun x => dom3 (y x p))).
    { intros p Hpp. destruct (DY p) as (d0 & d1 & d2 & d3 & d4). rewrite <- (Y0 p Hpp) in d0, d1, d2, d3, d4.
      generalize (filter_and _ _ (near_gt _ 0 0 _ (HY p Hpp 0%nat) d0) (filter_and _ _ (near_gt _ 0 0 _ (HY p Hpp 1%nat) d1)
        (filter_and _ _ (near_gt _ sigma_floor 0 _ (HY p Hpp 2%nat) d2) (filter_and _ _ (near_gt _ sigma_floor 0 _ (HY p Hpp 3%nat) d3) (near_gt _ sigma_floor 0 _ (HY p Hpp 4%nat) d4))))).
      apply filter_imp. intros x (x0 & x1 & x2 & x3 & x4). unfold dom3. auto. }
    apply (der_near (fun x => vol e x * (dV * gsum N (fun p => (y x p 0%nat + y x p 1%nat) * E (y x p))))).
    { generalize (near_all (fun x p => dom3 (y x p)) 0 ND). apply filter_imp. intros x X. unfold strained_energy3. rewrite Rmult_assoc. f_equal. f_equal.
      apply lsum_ext. intros p Hpp. fold (ux x). fold (dx x). cbv zeta. f_equal.
      destruct (O (y x p) (X p Hpp)) as (ow & oz & Q1 & _).
      assert (EQ : point3 XC c first (ux x p + dx x p, ux x p, dx x p)
        (if isgrad c then Some (strained_sigma e x (cart (grad (fun q => ux x q + dx x q) p)), strained_sigma e x (cart (grad (ux x) p)), strained_sigma e x (cart (grad (dx x) p))) else None)
        ((tu p + td p) / vol e x, tu p / vol e x, td p / vol e x) = point3 XC c first (rho_of (y x p)) (sg3 c (y x p)) (tau_of (y x p))).
      { unfold rho_of, sg3, sig_of, tau_of, y, sx, tx. replace ((tu p + td p) / vol e x) with (tu p / vol e x + td p / vol e x) by (unfold Rdiv; ring). destruct (isgrad c); reflexivity. }
      rewrite EQ, Q1. reflexivity. }
    eapply is_derive_eq.
    - apply (der_mult (vol e) (fun x => dV * gsum N (fun p => (y x p 0%nat + y x p 1%nat) * E (y x p)))); [apply det_derive|].
      apply (der_scal (fun x => gsum N (fun p => (y x p 0%nat + y x p 1%nat) * E (y x p))) dV).
      apply (lsum_derive (fun x p => (y x p 0%nat + y x p 1%nat) * E (y x p)) (fun p => lin7 (fun k => V k (Y p)) (y' p))).
      intros p Hpp.
      assert (QQ : svar E V (Y p)).
      { apply Q; [apply DY|]. destruct (isgrad c) eqn:Gr.
        - refine (prem3_ext _ _ _ _ _ _ _ _ _ (Hp p Hpp)). destruct (Hs eq_refl p Hpp) as (s0 & s1 & s2).
          intros k. unfold state, Y, st. rewrite Gr. unfold g, grads_col. cbn [fst snd].
          assert (CL : forall q, sigmatol < q -> q = clampS q) by (intros q L; unfold clampS; rewrite Rmax_left; lra).
          destruct k as [|[|[|[|[|[|[|k]]]]]]]; cbn [nth]; try reflexivity; try (now apply CL). now destruct k.
        - split.
          + intros HSE. exfalso. unfold c, with_fock in Gr. cbn [isgrad] in Gr. rewrite (xc_name _ _ exx0 HSE) in Gr. discriminate Gr.
          + intros i Hi. exfalso. exact (meta_grad XC exx0 i K Hi Gr). }
      apply (QQ (fun x => y x p) 0 (y' p) (Y0 p Hpp) (HY p Hpp)).
    - unfold vol. rewrite det_0. cbv beta.
      assert (EE : dV * gsum N (fun p => (y 0 p 0%nat + y 0 p 1%nat) * E (y 0 p)) = Exc).
      { unfold Exc. rewrite calc_exc_sum. f_equal. apply gsum_ext. intros p Hpp. rewrite (Y0 p Hpp). destruct (A p Hpp) as (-> & _).
        rewrite (total_core nlcc core up dn p) by apply (Hn p Hpp). reflexivity. }
      rewrite EE.
      set (qd := fun k f0 => if isgrad c then gsum N (fun p => V k (Y p) * quad e (cart (grad f0 p))) else 0).
      set (dt := fun k (f0 : field) p => if isgrad c then div_term N per D1 F T cell_typ (grad f0) (fun q => V k (Y q)) p else 0).
      assert (PP : forall k f0 h, gsum N (fun p => V k (Y p) / 2 * s' f0 h p) = gsum N (fun p => dt k f0 p * h p) - qd k f0).
      { intros k f0 h. unfold s', dt, qd. destruct (isgrad c).
        - transitivity (gsum N (fun p => V k (Y p) * dot_g N per D1 F T cell_typ h (grad f0 p) p) + - gsum N (fun p => V k (Y p) * quad e (cart (grad f0 p)))).
          + rewrite <- gsum_opp, <- gsum_plus. apply gsum_ext. intros p _. field.
          + rewrite (parts N per D1 F T cell_typ HF (grad f0) (fun q => V k (Y q)) h). reflexivity.
        - rewrite !gsum_zero; [ring| |]; intros; ring. }
      assert (E2 : lsum (fun p => lin7 (fun k => V k (Y p)) (y' p)) (pts N) =
        - trace e * gsum N (fun p => vu p * up p + vd p * dn p + zu p * tu p + zd p * td p) - (qd 2%nat (col0 rho) + qd 3%nat (col1 rho) + qd 4%nat (col2 rho))).
      { transitivity (gsum N (fun p => - trace e * (V 0%nat (Y p) * up p + V 1%nat (Y p) * dn p + V 5%nat (Y p) * tu p + V 6%nat (Y p) * td p))
          + gsum N (fun p => V 2%nat (Y p) / 2 * s' (col0 rho) rn p) + gsum N (fun p => V 3%nat (Y p) / 2 * s' (col1 rho) ru p) + gsum N (fun p => V 4%nat (Y p) / 2 * s' (col2 rho) rd p)).
        { rewrite <- !gsum_plus. apply lsum_ext. intros p _. unfold lin7, y', ru, rd. ring. }
        rewrite !PP.
        rewrite (gsum_ext N (fun p => vu p * up p + vd p * dn p + zu p * tu p + zd p * td p)
          (fun p => (V 0%nat (Y p) * up p + V 1%nat (Y p) * dn p + V 5%nat (Y p) * tu p + V 6%nat (Y p) * td p)
             + (dt 2%nat (col0 rho) p * (up p + dn p) + dt 3%nat (col1 rho) p * up p + dt 4%nat (col2 rho) p * dn p))).
        2:{ intros p Hpp. destruct (A p Hpp) as (_ & B1 & B2 & B3 & B4).
            change (vu p = V 0%nat (Y p) + (dt 2%nat (col0 rho) p + dt 3%nat (col1 rho) p)) in B1.
            change (vd p = V 1%nat (Y p) + (dt 2%nat (col0 rho) p + dt 4%nat (col2 rho) p)) in B2.
            change (zu p = V 5%nat (Y p)) in B3. change (zd p = V 6%nat (Y p)) in B4. rewrite B1, B2, B3, B4. ring. }
        rewrite !gsum_scal.
        rewrite (gsum_ext N (fun p => dt 2%nat (col0 rho) p * rn p) (fun p => - trace e * (dt 2%nat (col0 rho) p * (up p + dn p)))) by (intros; unfold rn, ru, rd; ring).
        rewrite (gsum_ext N (fun p => dt 3%nat (col1 rho) p * ru p) (fun p => - trace e * (dt 3%nat (col1 rho) p * up p))) by (intros; unfold ru; ring).
        rewrite (gsum_ext N (fun p => dt 4%nat (col2 rho) p * rd p) (fun p => - trace e * (dt 4%nat (col2 rho) p * dn p))) by (intros; unfold rd; ring).
        rewrite !gsum_scal, !gsum_plus. ring. }
      rewrite E2, Ec.
      assert (E4 : contract e (sym6 (fun k => if isgrad c then sum6 N G cell_typ dV cols k else 0)) = dV * (qd 2%nat (col0 rho) + qd 3%nat (col1 rho) + qd 4%nat (col2 rho))).
      { unfold qd. destruct (isgrad c).
        - rewrite (quad_sum N e (fun p => cart (grad (col0 rho) p)) (fun p => V 2%nat (Y p))), (quad_sum N e (fun p => cart (grad (col1 rho) p)) (fun p => V 3%nat (Y p))),
            (quad_sum N e (fun p => cart (grad (col2 rho) p)) (fun p => V 4%nat (Y p))).
          assert (E5 : forall k, sum6 N G cell_typ dV cols k = dV * (gsum N (fun p => prod6 k (cart (grad (col0 rho) p)) * V 2%nat (Y p))
            + gsum N (fun p => prod6 k (cart (grad (col1 rho) p)) * V 3%nat (Y p)) + gsum N (fun p => prod6 k (cart (grad (col2 rho) p)) * V 4%nat (Y p)))).
          { intros k. rewrite sum6_cols. f_equal. unfold cols. cbn [lsum fst snd].
            rewrite (gsum_ext N (fun p => prod6 k (cart (grad (col0 rho) p)) * w0 p) (fun p => prod6 k (cart (grad (col0 rho) p)) * V 2%nat (Y p))) by (intros p Hpp; f_equal; apply (HW p Hpp)).
            rewrite (gsum_ext N (fun p => prod6 k (cart (grad (col1 rho) p)) * w1 p) (fun p => prod6 k (cart (grad (col1 rho) p)) * V 3%nat (Y p))) by (intros p Hpp; f_equal; apply (HW p Hpp)).
            rewrite (gsum_ext N (fun p => prod6 k (cart (grad (col2 rho) p)) * w2 p) (fun p => prod6 k (cart (grad (col2 rho) p)) * V 4%nat (Y p))) by (intros p Hpp; f_equal; apply (HW p Hpp)).
            ring. }
          unfold contract, sum3, sym6. rewrite !E5. ring.
        - unfold contract, sum3, sym6. ring. }
      rewrite E4. ring.
  Qed.
End Spec.
Print Assumptions C81_stress.
Print Assumptions C81_stress_spin.

(** ** The strained crystal *)
(** The lattice vectors deform with the crystal. On the deformed cell the code gets the same volume factor and the same
    squared gradients as the energy above, and the cell it builds is one the theorems above speak about. *)
Definition rows (L : nat -> R) : mat := fun i a => L (3 * i + a)%nat.
Definition deform_cell (M : mat) (L : nat -> R) : nat -> R := fun k => sum3 (fun b => M (Nat.modulo k 3) b * L (3 * Nat.div k 3 + b)%nat).
Lemma det_cell M L : det (rows (deform_cell M L)) = det M * det (rows L).
Proof. unfold det, cof, rows, deform_cell, sum3, next. cbn. ring. Qed.
Lemma gradT_cell M L i a : (i < 3)%nat -> (a < 3)%nat -> det M <> 0 -> det (rows L) <> 0 ->
  gradT (deform_cell M L) (det M * det (rows L)) (3 * i + a) = sum3 (fun b => invT M a b * gradT L (det (rows L)) (3 * i + b)%nat).
Proof.
  intros Hi Ha. set (J := det M). set (K := det (rows L)). intros HJ HK. unfold invT. fold J.
  assert (Q : forall c0 c1 c2 g0 g1 g2 x : R, x = c0 * g0 + c1 * g1 + c2 * g2 -> x / (J * K) = c0 / J * (g0 / K) + c1 / J * (g1 / K) + c2 / J * (g2 / K)).
  { intros. subst x. field. auto. }
  destruct i as [|[|[|i]]]; [| | |lia]; (destruct a as [|[|[|a]]]; [| | |lia]); unfold gradT, sum3; cbn [Nat.mul Nat.add]; apply Q; unfold deform_cell, sum3, cof, next; cbn; ring.
Qed.
Theorem C81_cell : forall e x L cell_typ g, (10 < cell_typ < 20)%Z ->
  det (deform e x) <> 0 -> det (rows L) <> 0 ->
  let G := gradT L (det (rows L)) in
  let L' := deform_cell (deform e x) L in
  let G' := gradT L' (det (rows L')) in
  det (rows L') = vol e x * det (rows L) /\
  sound_cell (lapcT G') G' cell_typ /\
  sq3 (lapcT G') cell_typ g = strained_sigma e x (cart G cell_typ g).
Proof.
  intros e x L ct g Hc HM HL G L' G'.
  assert (S0 : sound_cell (lapcT G') G' ct).
  { right. split; [exact Hc|]. intros i j Hi Hj. unfold lapcT.
    replace ((3 * i + j) / 3)%nat with i by (rewrite Nat.mul_comm, Nat.div_add_l by lia; rewrite Nat.div_small by exact Hj; lia).
    replace ((3 * i + j) mod 3)%nat with j by (rewrite Nat.add_comm, Nat.mul_comm, Nat.mod_add by lia; now rewrite Nat.mod_small).
    cbn [fold_left]. unfold sum3. ring. }
  split; [exact (det_cell _ _)|]. split; [exact S0|].
  rewrite <- (cart_norm (lapcT G') G' ct S0). unfold strained_sigma. f_equal.
  assert (Q : forall i a, (i < 3)%nat -> (a < 3)%nat -> G' (3 * i + a)%nat = sum3 (fun b => invT (deform e x) a b * G (3 * i + b)%nat)).
  { intros i a Hi Ha. unfold G', L'. rewrite det_cell. now apply gradT_cell. }
  assert (Z0 : (ct =? 0)%Z = false) by lia.
  destruct g as [[u v] w]. unfold cart. rewrite Z0. unfold apply3.
  pose proof (Q 0 0)%nat as q0. pose proof (Q 1 0)%nat as q3. pose proof (Q 2 0)%nat as q6.
  pose proof (Q 0 1)%nat as q1. pose proof (Q 1 1)%nat as q4. pose proof (Q 2 1)%nat as q7.
  pose proof (Q 0 2)%nat as q2. pose proof (Q 1 2)%nat as q5. pose proof (Q 2 2)%nat as q8.
  cbn [Nat.mul Nat.add] in *. rewrite q0, q1, q2, q3, q4, q5, q6, q7, q8 by lia. unfold sum3. cbn [Nat.add].
  f_equal; [f_equal|]; ring.
Qed.
Print Assumptions C81_cell.

(** ** Cell measure *)
(** The volume of the parallelepiped whose edges are the lattice vectors along periodic directions and unit vectors along
    the others ([L] holds the unit vectors); with a volume of 0 the division is undefined. *)
Theorem C81_measure : forall L BC range,
  cell_measure (det (rows L)) BC range = det (fun i a => (if (BC i =? 0)%Z then range i else 1) * rows L i a) /\
  (forall N G cell_typ dV isg Exc corr measure cols k, xc_stress N G cell_typ dV isg Exc corr measure cols k = UB <-> measure = 0).
Proof.
  intros L BC r. split.
  - unfold cell_measure. unfold det, cof, sum3, next. cbn [Nat.modulo Nat.divmod Nat.add snd Nat.sub].
    destruct (BC 0%nat =? 0)%Z, (BC 1%nat =? 0)%Z, (BC 2%nat =? 0)%Z; ring.
  - intros. unfold xc_stress, cdiv. destruct (Req_EM_T _ 0) as [E|E]; split; intros H; try assumption; try reflexivity; try discriminate H; contradiction.
Qed.
Print Assumptions C81_measure.

(** ** Concrete cases *)
(** The functional PBE0 after the first Fock update on three nodes: a stretch along x and a shear. *)
Example C81_stress_ex : let c := with_fock (xc_decomposition "pbe0" (- (1))) 2 in
  exists S P s, run1 exN exper exD1 1 exT exT 0 (1 / 8) true excore exm exm exsr "pbe0" c false exdens (fun _ => 0) (fun _ => (0, 0, None, None)) (cell_measure 1 (fun _ => 0%Z) (fun _ => 2)) = Ok (S, P) /\
    (forall k, S k = Ok (s k)) /\
    is_derive (strained_energy1 exN exper exD1 1 exT 0 (1 / 8) true excore exm exm exsr "pbe0" c false (fun a b => if ((a =? 0) && (b =? 0))%nat then 1 else 0) exdens (fun _ => 0)) 0 (8 * s 0%nat) /\
    is_derive (strained_energy1 exN exper exD1 1 exT 0 (1 / 8) true excore exm exm exsr "pbe0" c false (fun a b => if ((a =? 1) && (b =? 2))%nat then 1 else 0) exdens (fun _ => 0)) 0 (8 * s 4%nat).
Proof.
  intros c.
  destruct (C81_stress exN exper exD1 1 exT exT 0 (1 / 8) true excore exm exm exmx exmc exsr ex_params (proj1 ex_grid) (or_introl eq_refl) "pbe0" (- (1)) 2 false
    exdens (fun _ => 0) (fun _ => (0, 0, None, None)) (cell_measure 1 (fun _ => 0%Z) (fun _ => 2))) as (S & P & s & v & z & ee & delta & Q1 & Q2 & _ & Q3 & _ & Q4 & _).
  - exists "PBE0"%string. split; [cbn; tauto|reflexivity].
  - intros p Hp. pose proof tol14. pose proof tol10. split.
    + unfold cored, excore. ex_in Hp; cbn; lra.
    + intros _. rewrite ex_sq by exact Hp. ex_in Hp; cbn [Z.add Z.sub Z.opp Z.modulo Z.div_eucl]; cbn -[add_rho_core sigmatol]; rewrite !ex_add by (unfold exdens; cbn; lra); unfold exdens; cbn -[sigmatol]; lra.
  - unfold cell_measure. cbn. lra.
  - intros p Hp. split; [discriminate|]. split; [discriminate|]. intros i Hi. discriminate Hi.
  - fold c in Q1, Q3, Q4. exists S, P, s. split; [exact Q1|]. split; [exact Q2|].
    assert (D0 : forall f : pt -> R, lsum (fun p => delta p * f p) (pts exN) = 0).
    { intros f. change (gsum exN (fun p => delta p * f p) = 0). apply gsum_zero. intros p _. rewrite (Q4 eq_refl p). ring. }
    split; (eapply is_derive_eq; [apply Q3|]); rewrite D0; unfold cell_measure, contract, sum3, sym6; cbn; ring.
Qed.
Example C81_spin_ex : let c := with_fock (xc_decomposition "GGA_PBE" (- (1))) 0 in
  exists S P s, run3 exN exper exD1 1 exT exT 0 (1 / 8) true excore exmx exmc exsr "GGA_PBE" c false exdens exdn (fun _ => 0) (fun _ => 0) (fun _ => (0, (0, 0), None, None)) 8 = Ok (S, P) /\
    (forall k, S k = Ok (s k)) /\
    is_derive (strained_energy3 exN exper exD1 1 exT 0 (1 / 8) true excore exmx exmc exsr "GGA_PBE" c false (fun a b => if ((a =? 0) && (b =? 0))%nat then 1 else 0) exdens exdn (fun _ => 0) (fun _ => 0)) 0 (8 * s 0%nat).
Proof.
  intros c.
  destruct (C81_stress_spin exN exper exD1 1 exT exT 0 (1 / 8) true excore exm exm exmx exmc exsr ex_params (proj1 ex_grid) (or_introl eq_refl) "GGA_PBE" (- (1)) 0 false
    exdens exdn (fun _ => 0) (fun _ => 0) (fun _ => (0, (0, 0), None, None)) 8) as (S & P & s & ee & vu & vd & zu & zd & Q1 & Q2 & _ & Q3 & _).
  - exists "GGA_PBE"%string. split; [cbn; tauto|reflexivity].
  - reflexivity.
  - pose proof tol14. pose proof tol10. split.
    + intros p _. pose proof (exdens_pos p). unfold cored, excore, exdn. split; lra.
    + cbv zeta. intros _ p Hp. rewrite !ex_sq by exact Hp.
      assert (Q : forall q, add_rho_core3 true excore exdens exdn q = (exdens q + 1 / 2 + (exdn q + 1 / 2), exdens q + 1 / 2, exdn q + 1 / 2)).
      { intros q. pose proof (exdens_pos q). apply ex_add3; unfold exdn; lra. }
      unfold col0, col1, col2. ex_in Hp; cbn [Z.add Z.sub Z.opp Z.modulo Z.div_eucl]; cbn -[add_rho_core3 sigmatol]; rewrite !Q; unfold exdn, exdens; cbn -[sigmatol]; lra.
  - lra.
  - intros p Hp. split; [discriminate|]. intros i Hi. discriminate Hi.
  - fold c in Q1, Q3. exists S, P, s. split; [exact Q1|]. split; [exact Q2|].
    eapply is_derive_eq; [apply Q3|]. unfold contract, sum3, sym6. cbn. ring.
Qed.
Example C81_cell_ex : let L := (fun k => match k with 0%nat => 2 | 1%nat => 1 | 4%nat => 1 | 8%nat => 1 | _ => 0 end) in
  det (rows L) <> 0 /\ det (deform (fun _ _ => 1) (1 / 10)) <> 0.
Proof. split; unfold det, cof, rows, deform, delta, sum3, next; cbn; lra. Qed.
