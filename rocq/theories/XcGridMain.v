(** Lemmas for XcGrid.v: the first variation of the energy on the grid. *)
From Coq Require Import Reals ZArith List Bool Lia Lra String.
From Coquelicot Require Import Coquelicot.
From Verif Require Import CBase Collect Halo HaloLem P_Halo Xc XcLem P_Xc XcSpin XcSpinLem P_XcSpin XcGrid XcGridLem XcGridVar.
Import ListNotations.
Local Open Scope R_scope.

Lemma rhotol_pos : 0 < rhotol. Proof. unfold rhotol. apply Rinv_0_lt_compat. apply pow_lt. lra. Qed.
Lemma sigmatol_floor : sigma_floor < sigmatol.
Proof.
  unfold sigma_floor, sigmatol. replace (1 / 100000000000000) with (/ 10 ^ 14) by field.
  apply Rinv_lt_contravar; [apply Rmult_lt_0_compat; apply pow_lt; lra|]. apply Rlt_pow; [lra|lia].
Qed.
Lemma magtol_pos : 0 < magtol. Proof. unfold magtol. apply Rinv_0_lt_compat. apply pow_lt. lra. Qed.

(** near t a function above a threshold stays above it *)
Lemma near_gt (f : R -> R) (c t f' : R) : is_derive f t f' -> c < f t -> locally t (fun x => c < f x).
Proof.
  intros H L. assert (Q : continuous f t) by (apply (ex_derive_continuous (V := R_NormedModule)); now exists f').
  apply (Q (fun y => c < y)). exact (open_gt c (f t) L).
Qed.
Lemma der_near (f g : R -> R) t l : locally t (fun x => f x = g x) -> is_derive f t l -> is_derive g t l.
Proof. intros H D. apply (is_derive_ext_loc f g t l); assumption. Qed.

Section M.
  Variables (N : pt) (per : nat -> bool) (D1 : nat -> Z -> R) (F : Z) (T : nat -> R) (cell_typ : Z) (dV : R).
  Variables (nlcc : bool) (core : field).
  Hypothesis HF : forall d, (d < 3)%nat -> (F <= at_ N d)%Z.
  Definition lapcT_symmetric : Prop := nonorth cell_typ = true -> T 1%nat = T 3%nat /\ T 2%nat = T 6%nat /\ T 5%nat = T 7%nat.
  Hypothesis HT : lapcT_symmetric.
  Notation pts := (pts N).
  Notation D := (D N per D1 F).
  Notation gsum := (gsum N).
  Notation grad3 := (grad3 N per D1 F).
  Notation sq3 := (sq3 T cell_typ).
  Notation flux := (flux T cell_typ).
  Notation drho_v2 := (drho_v2 T cell_typ).
  Notation div_term := (div_term N per D1 F T cell_typ).

  (** the directional derivative of half the squared norm of the gradient *)
  Definition dot_g (h : field) (g : R * R * R) (p : pt) : R :=
    let '(x, y, z) := g in
    D 0 h p * drho_v2 0 x y z 1 + D 1 h p * drho_v2 1 x y z 1 + D 2 h p * drho_v2 2 x y z 1.
  Lemma parts g w h : gsum (fun p => w p * dot_g h (g p) p) = gsum (fun p => div_term g w p * h p).
  Proof.
    rewrite (gsum_ext N _ (fun p => flux g w 0 p * D 0 h p + flux g w 1 p * D 1 h p + flux g w 2 p * D 2 h p)).
    2:{ intros p _. unfold dot_g, XcGrid.flux, XcGrid.drho_v2. destruct (g p) as [[x y] z]. destruct (nonorth cell_typ); ring. }
    rewrite !gsum_plus, !(D_adj N per D1 F HF) by lia.
    rewrite (gsum_ext N (fun p => div_term g w p * h p)
      (fun p => - (D 0 (flux g w 0) p * h p) + - (D 1 (flux g w 1) p * h p) + - (D 2 (flux g w 2) p * h p))).
    2:{ intros p _. unfold XcGrid.div_term. ring. }
    rewrite !gsum_plus, !gsum_opp. ring.
  Qed.
  Lemma div_term_ext g w w2 p : In p pts -> (forall q, In q pts -> w q = w2 q) -> div_term g w p = div_term g w2 p.
  Proof.
    intros Hp E. unfold XcGrid.div_term.
    assert (Q : forall d, (d < 3)%nat -> D d (flux g w d) p = D d (flux g w2 d) p).
    { intros d Hd. apply D_ext; try assumption. intros q Hq. unfold XcGrid.flux. rewrite E by exact Hq. reflexivity. }
    rewrite !Q by lia. reflexivity.
  Qed.
  Lemma div_term_ext2 g g2 w w2 p : In p pts -> (forall q, In q pts -> g q = g2 q /\ w q = w2 q) -> div_term g w p = div_term g2 w2 p.
  Proof.
    intros Hp E. unfold XcGrid.div_term.
    assert (Q : forall d, (d < 3)%nat -> D d (flux g w d) p = D d (flux g2 w2 d) p).
    { intros d Hd. apply D_ext; try assumption. intros q Hq. unfold XcGrid.flux. destruct (E q Hq) as [-> ->]. reflexivity. }
    rewrite !Q by lia. reflexivity.
  Qed.
  Lemma sq3_derive (x y z : R -> R) t x' y' z' : is_derive x t x' -> is_derive y t y' -> is_derive z t z' ->
    is_derive (fun u => sq3 (x u, y u, z u)) t
      (2 * (x' * drho_v2 0 (x t) (y t) (z t) 1 + y' * drho_v2 1 (x t) (y t) (z t) 1 + z' * drho_v2 2 (x t) (y t) (z t) 1)).
  Proof.
    intros Hx Hy Hz. unfold XcGrid.sq3, norm_square, XcGrid.drho_v2. unfold lapcT_symmetric in HT. destruct (nonorth cell_typ).
    - destruct (HT eq_refl) as (E1 & E2 & E3). 
      eapply is_derive_eq.
      + apply (der_plus (fun u => x u * (T 0%nat * x u + 2 * T 1%nat * y u) + y u * (T 4%nat * y u + 2 * T 5%nat * z u)) (fun u => z u * (T 8%nat * z u + 2 * T 2%nat * x u))).
        * apply (der_plus (fun u => x u * (T 0%nat * x u + 2 * T 1%nat * y u)) (fun u => y u * (T 4%nat * y u + 2 * T 5%nat * z u))).
          { apply (der_mult x (fun u => T 0%nat * x u + 2 * T 1%nat * y u)); [exact Hx|].
            exact (der_plus _ _ _ _ _ (der_scal x (T 0%nat) _ _ Hx) (der_scal y (2 * T 1%nat) _ _ Hy)). }
          { apply (der_mult y (fun u => T 4%nat * y u + 2 * T 5%nat * z u)); [exact Hy|].
            exact (der_plus _ _ _ _ _ (der_scal y (T 4%nat) _ _ Hy) (der_scal z (2 * T 5%nat) _ _ Hz)). }
        * apply (der_mult z (fun u => T 8%nat * z u + 2 * T 2%nat * x u)); [exact Hz|].
          exact (der_plus _ _ _ _ _ (der_scal z (T 8%nat) _ _ Hz) (der_scal x (2 * T 2%nat) _ _ Hx)).
      + cbv beta. rewrite <- E1, <- E2, <- E3. ring.
    - eapply is_derive_eq.
      + apply (der_plus (fun u => x u * x u + y u * y u) (fun u => z u * z u)).
        * exact (der_plus _ _ _ _ _ (der_mult _ _ _ _ _ Hx Hx) (der_mult _ _ _ _ _ Hy Hy)).
        * exact (der_mult _ _ _ _ _ Hz Hz).
      + cbv beta. ring.
  Qed.
  Lemma sigma_derive (f : R -> field) f' t p : In p pts -> (forall q, In q pts -> is_derive (fun x => f x q) t (f' q)) ->
    is_derive (fun x => sq3 (grad3 (f x) p)) t (2 * dot_g f' (grad3 (f t) p) p).
  Proof.
    intros Hp H. unfold XcGrid.grad3, dot_g.
    apply (sq3_derive (fun x => D 0 (f x) p) (fun x => D 1 (f x) p) (fun x => D 2 (f x) p)); apply D_derive; try assumption; lia.
  Qed.
  Lemma clamp_derive (s : R -> R) t s' : sigmatol < s t -> is_derive s t s' -> is_derive (fun x => clampS (s x)) t s'.
  Proof.
    intros L H. apply (der_near s); [|exact H]. generalize (near_gt s sigmatol t s' H L). apply filter_imp. intros x Hx. unfold clampS. rewrite Rmax_left; lra.
  Qed.
  Lemma clamp_dom s : sigma_floor < clampS s.
  Proof. unfold clampS. pose proof (Rmax_r s sigmatol). pose proof sigmatol_floor. lra. Qed.
  (** the core density added at one point *)
  Definition cored (h : R) (p : pt) (x : R) : R := if nlcc then x + h * core p else x.
  Lemma floor_core_le h p x : rhotol <= floor_core nlcc core h p x.
  Proof. unfold floor_core. destruct (Rlt_dec _ _); lra. Qed.
  Lemma floor_core_pos h p x : 0 < floor_core nlcc core h p x.
  Proof. pose proof (floor_core_le h p x). pose proof rhotol_pos. lra. Qed.
  Lemma floor_core_above h p x : rhotol < cored h p x -> floor_core nlcc core h p x = cored h p x.
  Proof. intros H. unfold floor_core, cored in *. destruct (Rlt_dec _ _); lra. Qed.
  Lemma floor_core_derive h p (f : R -> R) t f' : rhotol < cored h p (f t) -> is_derive f t f' ->
    is_derive (fun x => floor_core nlcc core h p (f x)) t f'.
  Proof.
    intros L H.
    assert (Hc : is_derive (fun x => cored h p (f x)) t f').
    { unfold cored. destruct nlcc; [|exact H]. eapply is_derive_eq; [exact (der_plus f _ _ _ _ H (der_const (h * core p) t))|]. ring. }
    apply (der_near (fun x => cored h p (f x))); [|exact Hc].
    generalize (near_gt _ rhotol t f' Hc L). apply filter_imp. intros x Hx. symmetry. apply floor_core_above. exact Hx.
  Qed.

  Section One.
    Variables (metax metac : Z -> R -> R -> R -> outcome (R * R * R * R)) (pbexsr : R -> R -> outcome (R * R * R)).
    Notation calc_vxc1 := (calc_vxc1 N per D1 F T cell_typ nlcc core metax metac pbexsr).
    Notation add_rho_core := (add_rho_core nlcc core).
    Definition dSig (c : cfg) (rho : field) (p : pt) : R := if isgrad c then clampS (sq3 (grad3 rho p)) else 1.
    Lemma dSig_floor c rho p : sigma_floor < dSig c rho p.
    Proof. unfold dSig. destruct (isgrad c); [apply clamp_dom|]. unfold sigma_floor. lra. Qed.
    Lemma sigma1_sg c rho p : sigma1 N per D1 F T cell_typ c rho p = sg c (dSig c rho p).
    Proof. unfold sigma1, sg, dSig. destruct (isgrad c); reflexivity. Qed.
    Lemma calc_vxc1_ok XC c first E V W Z dens tau m : out1 metax metac pbexsr XC c first E V W Z ->
      exists e v z, calc_vxc1 XC c first dens tau m = Ok (e, v, z) /\ forall p, In p pts ->
        let rho := add_rho_core dens in
        let at3 (f : rfun) q := f (rho q) (dSig c rho q) (tau q) in
        e p = at3 E p /\ v p = at3 V p + (if isgrad c then div_term (grad3 rho) (at3 W) p else 0) /\ z p = at3 Z p.
    Proof.
      intros O. set (rho := add_rho_core dens).
      assert (Q : exists h : pt -> res1, forall p, In p pts ->
        point1 metax metac pbexsr XC c first (rho p) (sigma1 N per D1 F T cell_typ c rho p) (tau p) = Ok (h p) /\
        fst (fst (fst (h p))) = E (rho p) (dSig c rho p) (tau p) /\ snd (fst (fst (h p))) = V (rho p) (dSig c rho p) (tau p) /\
        dflt0 (snd (fst (h p))) = W (rho p) (dSig c rho p) (tau p) /\ dflt0 (snd (h p)) = Z (rho p) (dSig c rho p) (tau p)).
      { exists (fun p => match point1 metax metac pbexsr XC c first (rho p) (sigma1 N per D1 F T cell_typ c rho p) (tau p) with Ok a => a | _ => (0, 0, None, None) end).
        intros p _. destruct (O (rho p) (dSig c rho p) (tau p)) as (ow & oz & Q & Q1 & Q2).
        { split; [apply floor_core_pos|apply dSig_floor]. }
        rewrite sigma1_sg, Q. cbn [fst snd]. auto. }
      destruct Q as [h Q].
      destruct (fill_spec (fun p => point1 metax metac pbexsr XC c first (rho p) (sigma1 N per D1 F T cell_typ c rho p) (tau p)) h pts m) as (r & R1 & R2).
      { intros p Hp. apply Q, Hp. }
      unfold XcGrid.calc_vxc1. fold rho. rewrite R1. cbn [obind]. do 3 eexists. split; [reflexivity|].
      intros p Hp. cbv beta zeta. rewrite (R2 p Hp). destruct (Q p Hp) as (_ & -> & -> & A3 & ->).
      split; [reflexivity|]. split; [|reflexivity].
      destruct (isgrad c); [|ring]. f_equal. apply div_term_ext; [exact Hp|]. intros q Hq. rewrite (R2 q Hq). apply (Q q Hq).
    Qed.
    (** the energy as a function of the density *)
    Definition Exc1 (XC : string) (c : cfg) (first : bool) (dens tau : field) (m : pt -> res1) : R :=
      match calc_vxc1 XC c first dens tau m with Ok (e, _, _) => calc_exc N dV nlcc core dens e | _ => 0 end.
    Lemma calc_exc_sum dens e : calc_exc N dV nlcc core dens e = dV * gsum (fun p => add_rho_core dens p * e p).
    Proof. unfold calc_exc. rewrite (fold_lsum (fun p => add_rho_core dens p * e p)). unfold XcGridLem.gsum. ring. Qed.
    Lemma grid_var1 XC c first E V W Z (de : pt -> R) (dens tau : R -> field) (dens' tau' : field) t m :
      out1 metax metac pbexsr XC c first E V W Z ->
      (forall p, In p pts -> is_derive (fun x => dens x p) t (dens' p) /\ is_derive (fun x => tau x p) t (tau' p)) ->
      (forall p, In p pts -> rhotol < cored 1 p (dens t p)) ->
      (isgrad c = true -> forall p, In p pts -> sigmatol < sq3 (grad3 (add_rho_core (dens t)) p)) ->
      (forall p, In p pts -> rvar E V W Z (add_rho_core (dens t) p) (dSig c (add_rho_core (dens t)) p) (tau t p) (de p)) ->
      exists e v z, calc_vxc1 XC c first (dens t) (tau t) m = Ok (e, v, z) /\
        is_derive (fun x => Exc1 XC c first (dens x) (tau x) m) t (dV * gsum (fun p => (v p + de p) * dens' p + z p * tau' p)).
    Proof.
      intros O Hd Hr Hs Hv.
      destruct (calc_vxc1_ok XC c first E V W Z (dens t) (tau t) m O) as (e & v & z & Q & A). exists e, v, z. split; [exact Q|].
      set (rho := fun x => add_rho_core (dens x)).
      apply (is_derive_ext (fun x => dV * gsum (fun p => rho x p * E (rho x p) (dSig c (rho x) p) (tau x p)))).
      { intros x. unfold Exc1. destruct (calc_vxc1_ok XC c first E V W Z (dens x) (tau x) m O) as (e2 & v2 & z2 & Q2 & A2).
        rewrite Q2, calc_exc_sum. f_equal. apply gsum_ext. intros p Hp. destruct (A2 p Hp) as (-> & _). reflexivity. }
      assert (Hrho : forall p, In p pts -> is_derive (fun x => rho x p) t (dens' p)).
      { intros p Hp. unfold rho, XcGrid.add_rho_core. apply floor_core_derive; [apply Hr, Hp|apply Hd, Hp]. }
      set (S' := fun p => if isgrad c then 2 * dot_g dens' (grad3 (rho t) p) p else 0).
      assert (HS : forall p, In p pts -> is_derive (fun x => dSig c (rho x) p) t (S' p)).
      { intros p Hp. unfold dSig, S'. destruct (isgrad c) eqn:Gr; [|exact (is_derive_const 1 t)].
        apply (clamp_derive (fun x => sq3 (grad3 (rho x) p))); [apply Hs; auto|]. apply sigma_derive; [exact Hp|exact Hrho]. }
      eapply is_derive_eq.
      - apply (der_scal (fun x => gsum (fun p => rho x p * E (rho x p) (dSig c (rho x) p) (tau x p))) dV).
        apply (lsum_derive (fun x p => rho x p * E (rho x p) (dSig c (rho x) p) (tau x p))).
        intros p Hp. apply (Hv p Hp (fun x => rho x p) (fun x => dSig c (rho x) p) (fun x => tau x p) t (dens' p) (S' p) (tau' p)); try reflexivity.
        + apply Hrho, Hp.
        + apply HS, Hp.
        + apply Hd, Hp.
      - f_equal. 
        set (at3 := fun (f : rfun) q => f (rho t q) (dSig c (rho t) q) (tau t q)).
        transitivity (gsum (fun p => (at3 V p + de p) * dens' p + at3 Z p * tau' p) + gsum (fun p => at3 W p / 2 * S' p)).
        { rewrite <- gsum_plus. apply lsum_ext. intros p _. unfold at3, rho. ring. }
        transitivity (gsum (fun p => (at3 V p + de p) * dens' p + at3 Z p * tau' p) + gsum (fun p => (if isgrad c then div_term (grad3 (rho t)) (at3 W) p else 0) * dens' p)).
        { f_equal. unfold S'. destruct (isgrad c).
          - rewrite <- (parts (grad3 (rho t)) (at3 W) dens'). apply gsum_ext. intros p _. field.
          - rewrite !gsum_zero; [reflexivity| |]; intros; ring. }
        rewrite <- gsum_plus. apply gsum_ext. intros p Hp. destruct (A p Hp) as (_ & -> & ->). unfold at3, rho. ring.
    Qed.
  End One.

  Section Three.
    Variable metax_s : Z -> R * R * R -> R * R * R -> R * R * R -> outcome (R * (R * R) * (R * R) * (R * R)).
    Variable metac_s : Z -> R * R * R -> R * R * R -> R * R * R -> outcome (R * (R * R) * R * R).
    Variable pbexsr : R -> R -> outcome (R * R * R).
    Notation calc_vxc3 := (calc_vxc3 N per D1 F T cell_typ metax_s metac_s pbexsr).
    Notation calc_vxc_sp := (calc_vxc_sp N per D1 F T cell_typ nlcc core metax_s metac_s pbexsr).
    Notation add_rho_core3 := (add_rho_core3 nlcc core).
    Notation sigma3 := (sigma3 T cell_typ).
    Notation point3 := (point3 metax_s metac_s pbexsr).
    (** the state at one point; r the three densities, g the gradients, tu and td the kinetic energy densities *)
    Definition st (c : cfg) (r : R * R * R) (g : (R * R * R) * (R * R * R) * (R * R * R)) (tu td : R) : vec7 := fun k =>
      match k with
      | 0%nat => snd (fst r) | 1%nat => snd r
      | 2%nat => if isgrad c then clampS (sq3 (fst (fst g))) else 1
      | 3%nat => if isgrad c then clampS (sq3 (snd (fst g))) else 1
      | 4%nat => if isgrad c then clampS (sq3 (snd g)) else 1
      | 5%nat => tu | 6%nat => td | _ => 0
      end.
    Lemma st_dom c r g tu td : 0 < snd (fst r) -> 0 < snd r -> dom3 (st c r g tu td).
    Proof.
      intros A B. unfold dom3, st. pose proof (clamp_dom (sq3 (fst (fst g)))). pose proof (clamp_dom (sq3 (snd (fst g)))). pose proof (clamp_dom (sq3 (snd g))).
      assert (sigma_floor < 1) by (unfold sigma_floor; lra). destruct (isgrad c); auto.
    Qed.
    Lemma point3_st XC c first r g tu td p : col0 r p = snd (fst (r p)) + snd (r p) ->
      point3 XC c first (r p) (sigma3 c g p) (tu + td, tu, td) =
      point3 XC c first (rho_of (st c (r p) (g p) tu td)) (sg3 c (st c (r p) (g p) tu td)) (tau_of (st c (r p) (g p) tu td)).
    Proof.
      intros H. unfold col0 in H. unfold rho_of, sg3, sig_of, tau_of, st, XcGrid.sigma3. rewrite <- H. destruct (r p) as [[n u] d]. cbn [fst snd].
      destruct (isgrad c); reflexivity.
    Qed.
    Definition tau3 (tu td : field) : pt -> R * R * R := fun p => (tu p + td p, tu p, td p).
    (** whatever the gradients are *)
    Lemma calc_vxc3_ok XC c first E G (r : pt -> R * R * R) (g : grads) (tu td : field) m :
      out3 metax_s metac_s pbexsr XC c first E G ->
      (forall p, In p pts -> 0 < snd (fst (r p)) /\ 0 < snd (r p) /\ fst (fst (r p)) = snd (fst (r p)) + snd (r p)) ->
      exists e vu vd zu zd, calc_vxc3 XC c first r g (tau3 tu td) m = Ok (e, (vu, vd), (zu, zd)) /\ forall p, In p pts ->
        let y q := st c (r q) (g q) (tu q) (td q) in
        let g0 q := fst (fst (g q)) in let g1 q := snd (fst (g q)) in let g2 q := snd (g q) in
        let dt i k := if isgrad c then div_term (match i with 0%nat => g0 | 1%nat => g1 | _ => g2 end) (fun q => G k (y q)) p else 0 in
        e p = E (y p) /\ vu p = G 0%nat (y p) + (dt 0%nat 2%nat + dt 1%nat 3%nat) /\ vd p = G 1%nat (y p) + (dt 0%nat 2%nat + dt 2%nat 4%nat) /\
        zu p = G 5%nat (y p) /\ zd p = G 6%nat (y p).
    Proof.
      intros O Hr. set (y := fun q => st c (r q) (g q) (tu q) (td q)).
      set (f := fun p => point3 XC c first (r p) (sigma3 c g p) (tau3 tu td p)).
      assert (Q : exists h : pt -> res3, forall p, In p pts -> f p = Ok (h p) /\
        fst (fst (fst (h p))) = E (y p) /\ snd (fst (fst (h p))) = (G 0%nat (y p), G 1%nat (y p)) /\
        dflt3 (snd (fst (h p))) = (G 2%nat (y p), G 3%nat (y p), G 4%nat (y p)) /\ dflt2 (snd (h p)) = (G 5%nat (y p), G 6%nat (y p))).
      { exists (fun p => match f p with Ok a => a | _ => (0, (0, 0), None, None) end).
        intros p Hp. destruct (Hr p Hp) as (A & B & C0).
        destruct (O (y p)) as (ow & oz & Q & Q1 & Q2); [apply st_dom; assumption|].
        unfold f, tau3. rewrite point3_st by (unfold col0; exact C0). fold (y p). rewrite Q. cbn [fst snd]. auto. }
      destruct Q as [h Q].
      destruct (fill_spec f h pts m) as (rr & R1 & R2). { intros p Hp. apply Q, Hp. }
      unfold XcGrid.calc_vxc3. fold f. rewrite R1. cbn [obind]. do 5 eexists. split; [reflexivity|].
      intros p Hp. cbv beta zeta. rewrite (R2 p Hp). destruct (Q p Hp) as (_ & -> & A2 & _ & A4). fold (y p). rewrite A2, A4. cbn [fst snd].
      split; [reflexivity|].
      assert (W : forall q, In q pts -> col0 (fun p => dflt3 (snd (fst (rr p)))) q = G 2%nat (y q) /\ col1 (fun p => dflt3 (snd (fst (rr p)))) q = G 3%nat (y q) /\
                   col2 (fun p => dflt3 (snd (fst (rr p)))) q = G 4%nat (y q)).
      { intros q Hq. unfold col0, col1, col2. rewrite (R2 q Hq). destruct (Q q Hq) as (_ & _ & _ & -> & _). cbn [fst snd]. auto. }
      destruct (isgrad c) eqn:Gr; [|repeat split; ring].
      repeat split.
      - f_equal; f_equal; (apply div_term_ext; [exact Hp|]; intros q Hq; apply (W q Hq)).
      - f_equal; f_equal; (apply div_term_ext; [exact Hp|]; intros q Hq; apply (W q Hq)).
    Qed.

    (** spin_typ 1: the energy as a function of the two densities; Calculate_Exc reads their sum *)
    Definition Exc3 (XC : string) (c : cfg) (first : bool) (up dn tu td : field) (m : pt -> res3) : R :=
      match calc_vxc_sp XC c first up dn (tau3 tu td) m with
      | Ok (e, _, _) => calc_exc N dV nlcc core (fun p => up p + dn p) e | _ => 0 end.
    Definition no_floor (up dn : field) : Prop :=
      forall p, In p pts -> rhotol < cored (1 / 2) p (up p) /\ rhotol < cored (1 / 2) p (dn p).
    Lemma total_core up dn p : rhotol < cored (1 / 2) p (up p) -> rhotol < cored (1 / 2) p (dn p) ->
      add_rho_core nlcc core (fun p => up p + dn p) p = floor_core nlcc core (1 / 2) p (up p) + floor_core nlcc core (1 / 2) p (dn p).
    Proof.
      intros A B. pose proof rhotol_pos. rewrite !floor_core_above by assumption. unfold add_rho_core.
      rewrite floor_core_above; unfold cored in *; destruct nlcc; lra.
    Qed.
    Lemma core3_pos up dn p : let r := add_rho_core3 up dn p in 0 < snd (fst r) /\ 0 < snd r /\ fst (fst r) = snd (fst r) + snd r.
    Proof. unfold XcGrid.add_rho_core3. cbn [fst snd]. repeat split; apply floor_core_pos. Qed.
    Definition dtermk (c : cfg) (g : grads) (k : nat) (h : field) (p : pt) : R :=
      if isgrad c then 2 * dot_g h (match k with 0%nat => fst (fst (g p)) | 1%nat => snd (fst (g p)) | _ => snd (g p) end) p else 0.

    (** the first variation of a sum of rho e_xc over the grid when the densities, the gradients and tau vary *)
    Lemma grid_var3 XC c first E G (up dn tu td : R -> field) (up' dn' tu' td' : field) t m :
      out3 metax_s metac_s pbexsr XC c first E G ->
      (forall p, In p pts -> is_derive (fun x => up x p) t (up' p) /\ is_derive (fun x => dn x p) t (dn' p) /\
                             is_derive (fun x => tu x p) t (tu' p) /\ is_derive (fun x => td x p) t (td' p)) ->
      no_floor (up t) (dn t) ->
      let rho := add_rho_core3 (up t) (dn t) in
      (isgrad c = true -> forall p, In p pts -> sigmatol < sq3 (grad3 (col0 rho) p) /\ sigmatol < sq3 (grad3 (col1 rho) p) /\ sigmatol < sq3 (grad3 (col2 rho) p)) ->
      (forall p, In p pts -> svar E G (st c (rho p) (grads_col N per D1 F rho p) (tu t p) (td t p))) ->
      exists e vu vd zu zd, calc_vxc_sp XC c first (up t) (dn t) (tau3 (tu t) (td t)) m = Ok (e, (vu, vd), (zu, zd)) /\
        is_derive (fun x => Exc3 XC c first (up x) (dn x) (tu x) (td x) m) t
          (dV * gsum (fun p => vu p * up' p + vd p * dn' p + zu p * tu' p + zd p * td' p)).
    Proof.
      intros O Hd Hn rho Hs Hv.
      set (r := fun x => add_rho_core3 (up x) (dn x)). set (g := fun x => grads_col N per D1 F (r x)).
      assert (A0 : forall x, exists e vu vd zu zd, calc_vxc_sp XC c first (up x) (dn x) (tau3 (tu x) (td x)) m = Ok (e, (vu, vd), (zu, zd)) /\ forall p, In p pts ->
        let y q := st c (r x q) (g x q) (tu x q) (td x q) in
        let g0 q := fst (fst (g x q)) in let g1 q := snd (fst (g x q)) in let g2 q := snd (g x q) in
        let dt i k := if isgrad c then div_term (match i with 0%nat => g0 | 1%nat => g1 | _ => g2 end) (fun q => G k (y q)) p else 0 in
        e p = E (y p) /\ vu p = G 0%nat (y p) + (dt 0%nat 2%nat + dt 1%nat 3%nat) /\ vd p = G 1%nat (y p) + (dt 0%nat 2%nat + dt 2%nat 4%nat) /\
        zu p = G 5%nat (y p) /\ zd p = G 6%nat (y p)).
      { intros x. apply (calc_vxc3_ok XC c first E G (r x) (g x) (tu x) (td x) m O). intros p _. apply core3_pos. }
      destruct (A0 t) as (e & vu & vd & zu & zd & Q & A). exists e, vu, vd, zu, zd. split; [exact Q|].
      assert (Hu : forall p, In p pts -> is_derive (fun x => col1 (r x) p) t (up' p)).
      { intros p Hp. unfold r, col1, XcGrid.add_rho_core3. cbn [fst snd]. apply floor_core_derive; [apply (Hn p Hp)|apply (Hd p Hp)]. }
      assert (Hw : forall p, In p pts -> is_derive (fun x => col2 (r x) p) t (dn' p)).
      { intros p Hp. unfold r, col2, XcGrid.add_rho_core3. cbn [fst snd]. apply floor_core_derive; [apply (Hn p Hp)|apply (Hd p Hp)]. }
      assert (Ht : forall p, In p pts -> is_derive (fun x => col0 (r x) p) t (up' p + dn' p)).
      { intros p Hp. exact (der_plus _ _ _ _ _ (Hu p Hp) (Hw p Hp)). }
      set (n' := fun p => up' p + dn' p).
      set (y' := fun p k => match k with 0%nat => up' p | 1%nat => dn' p | 2%nat => dtermk c (g t) 0 n' p | 3%nat => dtermk c (g t) 1 up' p | 4%nat => dtermk c (g t) 2 dn' p
                            | 5%nat => tu' p | 6%nat => td' p | _ => 0 end).
      assert (HY : forall p, In p pts -> forall k, is_derive (fun x => st c (r x p) (g x p) (tu x p) (td x p) k) t (y' p k)).
      { intros p Hp k. unfold st, y', dtermk.
        destruct k as [|[|[|[|[|[|[|k]]]]]]]; [apply Hu, Hp|apply Hw, Hp| | | |apply (Hd p Hp)|apply (Hd p Hp)|exact (is_derive_const 0 t)];
        (destruct (isgrad c) eqn:Gr; [|exact (is_derive_const 1 t)]).
        - apply (clamp_derive (fun x => sq3 (grad3 (col0 (r x)) p))); [apply Hs; auto|]. apply (sigma_derive (fun x => col0 (r x))); [exact Hp|exact Ht].
        - apply (clamp_derive (fun x => sq3 (grad3 (col1 (r x)) p))); [apply Hs; auto|]. apply (sigma_derive (fun x => col1 (r x))); [exact Hp|exact Hu].
        - apply (clamp_derive (fun x => sq3 (grad3 (col2 (r x)) p))); [apply Hs; auto|]. apply (sigma_derive (fun x => col2 (r x))); [exact Hp|exact Hw]. }
      (* near t the density read by Calculate_Exc is that of the potentials *)
      assert (Hloc : locally t (fun x => forall p, In p pts -> add_rho_core nlcc core (fun p => up x p + dn x p) p = col1 (r x) p + col2 (r x) p)).
      { assert (L : forall l, (forall p, In p l -> In p pts) -> locally t (fun x => forall p, In p l -> add_rho_core nlcc core (fun p => up x p + dn x p) p = col1 (r x) p + col2 (r x) p)).
        { induction l as [|a l IH]; intros Hl; [apply filter_forall; intros x p []|].
          assert (Ha : In a pts) by (apply Hl; left; reflexivity).
          assert (Hc : forall (f : R -> field) f', is_derive (fun x => f x a) t f' -> is_derive (fun x => cored (1 / 2) a (f x a)) t f').
          { intros f f' H. unfold cored. destruct nlcc; [|exact H]. eapply is_derive_eq; [exact (der_plus (fun x => f x a) _ _ _ _ H (der_const (1 / 2 * core a) t))|]. ring. }
          destruct (Hd a Ha) as (Da & Db & _). destruct (Hn a Ha) as (Na & Nb).
          pose proof (near_gt _ rhotol t _ (Hc up _ Da) Na) as L1. pose proof (near_gt _ rhotol t _ (Hc dn _ Db) Nb) as L2.
          pose proof (IH (fun p Hp => Hl p (or_intror Hp))) as L3.
          generalize (filter_and _ _ (filter_and _ _ L1 L2) L3). apply filter_imp. intros x [[X1 X2] X3] p [<-|Hp]; [|now apply X3].
          rewrite total_core by assumption. reflexivity. }
        apply L. auto. }
      apply (der_near (fun x => dV * gsum (fun p => (col1 (r x) p + col2 (r x) p) * E (st c (r x p) (g x p) (tu x p) (td x p))))).
      { revert Hloc. apply filter_imp. intros x Hx. unfold Exc3. destruct (A0 x) as (e2 & vu2 & vd2 & zu2 & zd2 & Q2 & A2).
        rewrite Q2, calc_exc_sum. f_equal. apply gsum_ext. intros p Hp. rewrite (Hx p Hp). destruct (A2 p Hp) as (-> & _). reflexivity. }
      eapply is_derive_eq.
      - apply (der_scal (fun x => gsum (fun p => (col1 (r x) p + col2 (r x) p) * E (st c (r x p) (g x p) (tu x p) (td x p)))) dV).
        apply (lsum_derive (fun x p => (col1 (r x) p + col2 (r x) p) * E (st c (r x p) (g x p) (tu x p) (td x p)))).
        intros p Hp. apply (Hv p Hp (fun x => st c (r x p) (g x p) (tu x p) (td x p)) t (y' p)); [reflexivity|]. apply HY, Hp.
      - f_equal. change (lsum (fun p => lin7 (fun k => G k (st c (r t p) (g t p) (tu t p) (td t p))) (y' p)) pts = gsum (fun p => vu p * up' p + vd p * dn' p + zu p * tu' p + zd p * td' p)).
        set (Y := fun p => st c (r t p) (g t p) (tu t p) (td t p)).
        set (g0 := fun q => fst (fst (g t q))). set (g1 := fun q => snd (fst (g t q))). set (g2 := fun q => snd (g t q)).
        transitivity (gsum (fun p => G 0%nat (Y p) * up' p + G 1%nat (Y p) * dn' p + G 5%nat (Y p) * tu' p + G 6%nat (Y p) * td' p)
          + gsum (fun p => G 2%nat (Y p) / 2 * dtermk c (g t) 0 n' p) + gsum (fun p => G 3%nat (Y p) / 2 * dtermk c (g t) 1 up' p) + gsum (fun p => G 4%nat (Y p) / 2 * dtermk c (g t) 2 dn' p)).
        { rewrite <- !gsum_plus. apply lsum_ext. intros p _. unfold lin7, y', Y. ring. }
        assert (PP : forall k w h, gsum (fun p => w p / 2 * dtermk c (g t) k h p) = gsum (fun p => (if isgrad c then div_term (match k with 0%nat => g0 | 1%nat => g1 | _ => g2 end) w p else 0) * h p)).
        { intros k w h. unfold dtermk. destruct (isgrad c).
          - rewrite <- parts. apply gsum_ext. intros p _. unfold g0, g1, g2. destruct k as [|[|k]]; field.
          - rewrite !gsum_zero; [reflexivity| |]; intros; ring. }
        rewrite !PP. rewrite <- !gsum_plus. apply gsum_ext. intros p Hp. destruct (A p Hp) as (_ & -> & -> & -> & ->).
        unfold n', Y, g0, g1, g2. cbv beta zeta. destruct (isgrad c); ring.
    Qed.
  End Three.
End M.
