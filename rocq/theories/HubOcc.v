(** The occupation matrix: from the loops of Hub.v to sums. *)
From Coq Require Import ZArith QArith Qround List Lia Bool Permutation Ring.
From Verif Require Import CBase Nloc NlocSpec NlocLem VnlOp VnlLem VnlMain HubInit HubInitSpec HubInitLem P_HubInit Hub HubSpec HubLem HubMain P_Hub.
Import ListNotations.
Local Open Scope Z_scope.

Section RING.
Context {K : Type} (zero one : K) (add mul sub : K -> K -> K) (opp cj : K -> K).
Context (Rth : ring_theory zero one add mul sub opp eq).
Add Ring KRo : Rth.
Declare Scope ko_scope.
Infix "+" := add : ko_scope.
Infix "*" := mul : ko_scope.
Delimit Scope ko_scope with k.
Notation ksum := (ksum zero add).
Notation isum := (isum zero add).
Notation otype := (otype (K:=K)).
Notation row := (row (K:=K)).
Notation ogroup := (ogroup (K:=K)).
Notation orbital := (orbital zero add mul).
Notation proj := (proj zero add mul).

Variables (dV isq : K) (Ns : Z) (pol : bool) (nsp s : Z) (phk : ogroup -> Z -> entry -> K).

Definition occ_at (G : ogroup) (k n : Z) : Z :=
  k * Ns + (if pol then s * Ns * og_nk G else 0) + (og_nstart G + n).

Lemma g_nk_ok G k : (forall n, 0 <= n < og_ncol G -> 0 <= occ_at G k n < sz (og_occ G)) ->
  exists g, g_nk zero mul Ns pol s G k = Ok g /\ sz g = og_ncol G /\
    forall n, 0 <= n < og_ncol G -> at_ g n = mul (og_w G k) (at_ (og_occ G) (occ_at G k n)).
Proof.
  intros H. unfold g_nk.
  rewrite (omap_val _ (fun n => mul (og_w G k) (at_ (og_occ G) (occ_at G k n)))).
  2:{ intros n Hn. apply in_zrange in Hn. fold (occ_at G k n). rewrite rd_ok by (apply H; lia). reflexivity. }
  cbn [obind]. eexists. split; [reflexivity|]. split; [reflexivity|]. intros n Hn. cbn [at_].
  rewrite (nth_indep _ zero (mul (og_w G k) (at_ (og_occ G) (occ_at G k 0)))).
  2:{ rewrite map_length. apply Nat2Z.inj_lt. rewrite zrange_len by lia. lia. }
  rewrite (map_nth (fun n => mul (og_w G k) (at_ (og_occ G) (occ_at G k n)))).
  rewrite (nth_error_nth _ _ 0 (nth_error_zrange0 (og_ncol G) (Z.to_nat n) ltac:(lia))). now rewrite Z2Nat.id by lia.
Qed.

Definition xcol (G : ogroup) (X : arr K) (nd k n g : Z) : K :=
  mul (at_ X (((k * og_ncol G + n) * nsp + s) * nd + g)) isq.

Lemma cols_k_ok G X nd k : 0 <= k < og_nk G -> 0 <= s < nsp -> 0 <= og_ncol G -> 0 <= nd ->
  og_nk G * og_ncol G * nsp * nd <= sz X ->
  exists xs, cols_k zero mul isq nsp s G X nd k = Ok xs /\ sz xs = og_ncol G * nd /\
    forall n g, 0 <= n < og_ncol G -> 0 <= g < nd -> at_ xs (n * nd + g) = xcol G X nd k n g.
Proof.
  intros Hk Hs Hn Hd HX. unfold cols_k.
  assert (IX : forall n g, 0 <= n < og_ncol G -> 0 <= g < nd ->
    0 <= ((k * og_ncol G + n) * nsp + s) * nd + g < sz X).
  { intros n g H1 H2.
    assert (A : 0 <= k * og_ncol G + n /\ k * og_ncol G + n + 1 <= og_nk G * og_ncol G) by nia.
    assert (B : 0 <= (k * og_ncol G + n) * nsp + s /\ (k * og_ncol G + n) * nsp + s + 1 <= og_nk G * og_ncol G * nsp) by nia.
    split; nia. }
  rewrite (omap_val _ (fun n => map (fun g => xcol G X nd k n g) (zrange 0 (nd - 1)))).
  2:{ intros n H1. apply in_zrange in H1. apply omap_val. intros g H2. apply in_zrange in H2.
      rewrite rd_ok by (apply IX; lia). reflexivity. }
  cbn [obind]. eexists. split; [reflexivity|]. split; [reflexivity|]. intros n g H1 H2. cbn [at_].
  rewrite <- flat_map_concat_map.
  assert (LD : length (zrange 0 (nd - 1)) = Z.to_nat nd) by (apply Nat2Z.inj; rewrite zrange_len by lia; lia).
  assert (LN : length (zrange 0 (og_ncol G - 1)) = Z.to_nat (og_ncol G)) by (apply Nat2Z.inj; rewrite zrange_len by lia; lia).
  replace (Z.to_nat (n * nd + g)) with (Z.to_nat n * length (zrange 0 (nd - 1)) + Z.to_nat g)%nat.
  2:{ rewrite LD. apply Nat2Z.inj. rewrite Nat2Z.inj_add, Nat2Z.inj_mul, !Z2Nat.id by nia. nia. }
  rewrite (nth_flat zero (fun _ _ _ => zero) (fun _ => []) (fun n g => xcol G X nd k n g) _ _ 0 0) by (rewrite ?LD, ?LN; lia).
  rewrite (nth_error_nth _ _ 0 (nth_error_zrange0 (og_ncol G) (Z.to_nat n) ltac:(lia))).
  rewrite (nth_error_nth _ _ 0 (nth_error_zrange0 nd (Z.to_nat g) ltac:(lia))).
  now rewrite !Z2Nat.id by lia.
Qed.

(** Columns of all processes of a group. *)
Definition ocol (G : ogroup) (k n : Z) : list (list (list row) * Z * (Z -> K)) :=
  map (fun pr : list (list row) * arr K * Z => (fst (fst pr), snd pr, xcol G (snd (fst pr)) (snd pr) k n)) (og_procs G).

(** The share of a k-point of a group in the entry (r, c) of atom J. *)
Definition share (ts : list otype) (G : ogroup) (J r c k : Z) : K :=
  isum 0 (og_ncol G) (fun n => mul (mul (mul (og_w G k) (at_ (og_occ G) (occ_at G k n)))
    (proj (phk G k) dV ts (ocol G k n) J r)) (cj (proj (phk G k) dV ts (ocol G k n) J c))).

Definition group_ok (ts : list otype) (G : ogroup) : Prop :=
  0 <= og_ncol G /\ 0 <= s < nsp /\
  (forall k n, 0 <= k < og_nk G -> 0 <= n < og_ncol G -> 0 <= occ_at G k n < sz (og_occ G)) /\
  Forall (fun pr : list (list row) * arr K * Z => 0 <= snd pr /\ Forall (image_ok ts (snd pr)) (images ts (fst (fst pr))) /\
    og_nk G * og_ncol G * nsp * snd pr <= sz (snd (fst pr))) (og_procs G).

Section OCC.
Variables (ts : list otype) (ipd rmd : arr Z) (tot rtot : Z).
Hypothesis TOK : Forall (fun t => 1 <= o_nat t /\ 0 <= o_np t) ts.
Hypothesis LAY : lay o_np ts ipd tot.
Hypothesis RLAY : lay (fun t => o_np t * o_np t) ts rmd rtot.
Hypothesis TOT : displ_total (n_atom ts) ipd = Ok tot.

Let F1 : Forall (fun t => 1 <= o_nat t) ts.
Proof. eapply Forall_impl; [|exact TOK]. cbn. tauto. Qed.

Definition rslot (t : otype) (J r c : Z) : Z := at_ rmd J + c * o_np t + r.

Lemma rslot_range t J r c : In (t, J) (catoms 0 ts) -> 0 <= r < o_np t -> 0 <= c < o_np t ->
  0 <= rslot t J r c < rtot.
Proof.
  intros H Hn Hp. destruct RLAY as (_ & _ & L & _). destruct (L t J H) as (_ & A & B). unfold rslot. nia.
Qed.

Lemma rslot_inj t J r c t' J' r' c' : In (t, J) (catoms 0 ts) -> In (t', J') (catoms 0 ts) ->
  0 <= r < o_np t -> 0 <= c < o_np t -> 0 <= r' < o_np t' -> 0 <= c' < o_np t' ->
  rslot t J r c = rslot t' J' r' c' -> J = J' /\ r = r' /\ c = c'.
Proof.
  intros H1 H2 Hr Hc Hr' Hc' E. destruct RLAY as (_ & _ & _ & L). unfold rslot in E.
  destruct (Z.lt_trichotomy J J') as [A|[A|A]].
  - pose proof (L _ _ _ _ H1 H2 A). exfalso. nia.
  - subst J'. pose proof (catoms_fun o_np ts F1 _ _ _ _ H1 H2). subst t'. split; [reflexivity|].
    assert (c = c') by nia. subst. split; [lia|reflexivity].
  - pose proof (L _ _ _ _ H2 H1 A). exfalso. nia.
Qed.

Lemma rmd_rd t J : In (t, J) (catoms 0 ts) -> rd rmd J = Ok (at_ rmd J).
Proof. intros H. destruct RLAY as (S1 & _ & L & _). destruct (L t J H) as (A & _). apply rd_ok. lia. Qed.

(** The blocks of all atoms for a k-point. *)
Lemma occ_atoms_ok acc ncol (al g rho : arr K) : 0 <= ncol -> sz al = tot * ncol -> sz g = ncol -> sz rho = rtot ->
  exists rho', over_atoms (fun t J rho =>
        do d <- rd ipd J ; do m <- rd rmd J ;
        occ_atom zero add mul cj acc (o_np t) ncol d m al g rho) ts 0 rho = Ok rho' /\ sz rho' = rtot /\
    forall t J r c, In (t, J) (catoms 0 ts) -> 0 <= r < o_np t -> 0 <= c < o_np t ->
      at_ rho' (rslot t J r c) = (isum 0 ncol (fun n => mul (mul (at_ g n) (at_ al (slot ipd ncol t J n r)))
           (cj (at_ al (slot ipd ncol t J n c)))) + (if acc then at_ rho (rslot t J r c) else zero))%k.
Proof.
  intros NC SA SG SR. rewrite over_atoms_flat.
  destruct (blocks_ok (B := Z * Z) rtot
    (fun (rho : arr K) (tJ : otype * Z) => do d <- rd ipd (snd tJ) ; do m <- rd rmd (snd tJ) ;
        occ_atom zero add mul cj acc (o_np (fst tJ)) ncol d m al g rho)
    (fun tJ cr => 0 <= fst cr < o_np (fst tJ) /\ 0 <= snd cr < o_np (fst tJ))
    (fun tJ cr => rslot (fst tJ) (snd tJ) (snd cr) (fst cr))
    (fun tJ cr old => (isum 0 ncol (fun n => mul (mul (at_ g n) (at_ al (slot ipd ncol (fst tJ) (snd tJ) n (snd cr))))
           (cj (at_ al (slot ipd ncol (fst tJ) (snd tJ) n (fst cr))))) + (if acc then old else zero))%k)
    (filter act (catoms 0 ts))) with (a := rho) as (rho' & E & S1 & V & _).
  - intros [t J] a Hx Ha. apply filter_In in Hx. destruct Hx as [Hx _]. cbn [fst snd].
    rewrite (ipd_rd ts ipd tot LAY _ _ Hx), (rmd_rd _ _ Hx). cbn [obind]. unfold occ_atom.
    rewrite (ofold_nest (fun rho c r => do v <- osum zero add (fun n =>
          do a <- rd al (at_ ipd J * ncol + n * o_np t + r) ; do w <- rd g n ;
          do b <- rd al (at_ ipd J * ncol + n * o_np t + c) ; Ok (mul (mul w a) (cj b))) (zrange 0 (ncol - 1)) ;
        do o <- rd rho (at_ rmd J + c * o_np t + r) ;
        wr rho (at_ rmd J + c * o_np t + r) (add v (if acc then o else zero))) (fun _ => zrange 0 (o_np t - 1))).
    destruct (oupd_ok rtot
      (fun rho (cr : Z * Z) => do v <- osum zero add (fun n =>
          do a <- rd al (at_ ipd J * ncol + n * o_np t + snd cr) ; do w <- rd g n ;
          do b <- rd al (at_ ipd J * ncol + n * o_np t + fst cr) ; Ok (mul (mul w a) (cj b))) (zrange 0 (ncol - 1)) ;
        do o <- rd rho (at_ rmd J + fst cr * o_np t + snd cr) ;
        wr rho (at_ rmd J + fst cr * o_np t + snd cr) (add v (if acc then o else zero)))
      (fun cr => rslot t J (snd cr) (fst cr))
      (fun cr old => (isum 0 ncol (fun n => mul (mul (at_ g n) (at_ al (slot ipd ncol t J n (snd cr))))
           (cj (at_ al (slot ipd ncol t J n (fst cr))))) + (if acc then old else zero))%k)
      (flat_map (fun a => map (pair a) (zrange 0 (o_np t - 1))) (zrange 0 (o_np t - 1)))) with (a := a) as (a' & E2 & S2 & V2 & W2).
    + intros [c r] b Hcr Hb. apply in_pairs in Hcr. cbn [fst snd] in *. rewrite !in_zrange in Hcr. destruct Hcr as [Hc Hr].
      rewrite (osum_ok _ _ _ (fun n => mul (mul (at_ g n) (at_ al (slot ipd ncol t J n r))) (cj (at_ al (slot ipd ncol t J n c))))).
      * cbn [obind]. assert (SR' := rslot_range t J r c Hx ltac:(lia) ltac:(lia)).
        fold (rslot t J r c). rewrite rd_ok by lia. cbn [obind]. rewrite wr_ok by lia. rewrite Hb. reflexivity.
      * intros n Hn. apply in_zrange in Hn.
        assert (A1 := slot_range ts ipd tot LAY ncol t J n r Hx ltac:(lia) ltac:(lia)).
        assert (A2 := slot_range ts ipd tot LAY ncol t J n c Hx ltac:(lia) ltac:(lia)).
        fold (slot ipd ncol t J n r). rewrite rd_ok by lia. cbn [obind]. rewrite rd_ok by lia. cbn [obind].
        fold (slot ipd ncol t J n c). rewrite rd_ok by lia. reflexivity.
    + apply NoDup_pairs; try apply NoDup_zrange. intros [c r] [c' r']. cbn [fst snd]. rewrite !in_zrange. intros A1 A2 A3 A4 EE.
      apply (rslot_inj t J r c t J r' c') in EE; auto; try lia. destruct EE as (_ & -> & ->). reflexivity.
    + exact Ha.
    + exists a'. split; [exact E2|]. split; [exact S2|]. split.
      * intros [c r] [Hc Hr]. apply (V2 (c, r)). apply in_pairs. cbn [fst snd]. rewrite !in_zrange. cbn [fst snd] in *. lia.
      * intros i Hi. apply W2. intros Hin. apply in_map_iff in Hin. destruct Hin as (cr & E3 & Hcr).
        apply in_pairs in Hcr. rewrite !in_zrange in Hcr. apply (Hi cr); [lia|now symmetry].
  - intros [t J] [t' J'] [c r] [c' r'] Hx Hx' [A1 A2] [A3 A4] EE. cbn [fst snd] in *.
    apply filter_In in Hx, Hx'. destruct Hx as [Hx _], Hx' as [Hx' _].
    apply (rslot_inj t J r c t' J' r' c') in EE; auto. destruct EE as (-> & _).
    f_equal. exact (catoms_fun o_np ts F1 _ _ _ _ Hx Hx').
  - apply NoDup_filter. eapply NoDup_map_inv. exact (catoms_NoDup o_np ts F1 0).
  - exact SR.
  - exists rho'. split; [exact E|]. split; [exact S1|]. intros t J r c HJ Hr Hc.
    apply (V (t, J) (c, r)); [|split; assumption]. apply filter_In. split; [exact HJ|].
    unfold act. cbn [fst]. destruct (Z.eqb_spec (o_np t) 0); [lia|reflexivity].
Qed.

Lemma occ_k_ok acc (G : ogroup) (rhos : list (arr K)) k : group_ok ts G -> 0 <= k < og_nk G ->
  length rhos = length (og_procs G) -> Forall (fun a => sz a = rtot) rhos ->
  exists rhos', occ_k zero add mul cj dV isq Ns pol nsp s phk acc ts ipd rmd G rhos k = Ok rhos' /\
    Forall2 (fun rho rho' => sz rho' = rtot /\ forall t J r c, In (t, J) (catoms 0 ts) -> 0 <= r < o_np t -> 0 <= c < o_np t ->
      at_ rho' (rslot t J r c) = (share ts G J r c k + (if acc then at_ rho (rslot t J r c) else zero))%k) rhos rhos'.
Proof.
  intros (NC & HS & HO & HP) Hk HL HR. unfold occ_k.
  destruct (g_nk_ok G k (fun n Hn => HO k n Hk Hn)) as (g & Eg & Sg & Vg). rewrite Eg. cbn [obind].
  assert (A1 : exists als, omap (fun pr => let '(L, X, dmnd) := pr in
      do xs <- cols_k zero mul isq nsp s G X dmnd k ;
      do tot <- displ_total (n_atom ts) ipd ;
      over_images (fun t r al =>
        do d <- rd ipd (e_atom (w_e r)) ;
        inner zero add mul (w_orb r) xs dmnd (og_ncol G) (o_np t) (d * og_ncol G)
          (mul (phk G k (w_e r)) dV) (w_e r) al)
        ts L (Arr (tot * og_ncol G) (fun _ => zero))) (og_procs G) = Ok als /\
     Forall2 (fun (pr : list (list row) * arr K * Z) al => sz al = tot * og_ncol G /\ forall t J n q, In (t, J) (catoms 0 ts) -> 0 <= n < og_ncol G -> 0 <= q < o_np t ->
      at_ al (slot ipd (og_ncol G) t J n q) = mul dV (isum 0 (snd pr) (fun g => orbital (phk G k) (images ts (fst (fst pr))) J q g *
        xcol G (snd (fst pr)) (snd pr) k n g)%k)) (og_procs G) als).
  { clear HL HR. induction HP as [|[[L X] nd] prs (P0 & P1 & P2) HP IH]; cbn [omap].
    - exists []. split; [reflexivity|constructor].
    - cbn [fst snd] in *. destruct (cols_k_ok G X nd k Hk HS NC P0 P2) as (xs & Ex & Sx & Vx). rewrite Ex. cbn [obind].
      rewrite TOT. cbn [obind].
      destruct (ip_ok _ _ _ _ _ _ Rth ts ipd tot TOK LAY (phk G k) dV (og_ncol G) NC L xs nd nd P1 ltac:(lia) ltac:(lia)) as (al & Ea & Sa & Va).
      rewrite Ea. cbn [obind]. destruct IH as (als & El & Fl). rewrite TOT in El. cbn [obind] in El. rewrite El. cbn [obind].
      exists (al :: als). split; [reflexivity|]. constructor; [|exact Fl]. cbn [fst snd]. split; [exact Sa|].
      intros t J n q HJ Hn Hq. rewrite (Va t J n q HJ Hn Hq). f_equal. apply isum_ext. intros g' Hg'. now rewrite Vx. }
  destruct A1 as (als & Ea & Fa). rewrite Ea. cbn [obind].
  assert (SUM : forall t J n q, In (t, J) (catoms 0 ts) -> 0 <= n < og_ncol G -> 0 <= q < o_np t ->
    ksum (map (fun b => at_ b (slot ipd (og_ncol G) t J n q)) als) = proj (phk G k) dV ts (ocol G k n) J q).
  { intros t J n q HJ Hn Hq. unfold HubSpec.proj, ocol. rewrite map_map. rewrite <- (ksum_mul_l _ _ _ _ _ _ Rth).
    symmetry. apply (ksum_Forall2 _ _ _ _ _ _ _ Fa). intros p al _ _ (_ & V). symmetry. exact (V t J n q HJ Hn Hq). }
  assert (LA : length als = length rhos).
  { rewrite HL. clear - Fa. induction Fa; cbn [length]; congruence. }
  assert (SA : Forall (fun al => In al als /\ sz al = tot * og_ncol G) als).
  { apply Forall_forall. intros al Hal. split; [exact Hal|]. clear - Fa Hal.
    induction Fa as [|p a prs als (H & _) F IH]; [destruct Hal|]. destruct Hal as [<-|Hal]; [exact H|auto]. }
  clear Ea Fa HL HP.
  assert (GEN : forall als' rhos', length als' = length rhos' -> Forall (fun al => In al als /\ sz al = tot * og_ncol G) als' ->
    Forall (fun a => sz a = rtot) rhos' ->
    exists out, omap (fun ar => over_atoms (fun t J rho => do d <- rd ipd J ; do m <- rd rmd J ;
        occ_atom zero add mul cj acc (o_np t) (og_ncol G) d m (allreduce zero add als (fst ar)) g rho)
      ts 0 (snd ar)) (combine als' rhos') = Ok out /\
    Forall2 (fun rho rho' => sz rho' = rtot /\ forall t J r c, In (t, J) (catoms 0 ts) -> 0 <= r < o_np t -> 0 <= c < o_np t ->
      at_ rho' (rslot t J r c) = (share ts G J r c k + (if acc then at_ rho (rslot t J r c) else zero))%k) rhos' out).
  { induction als' as [|al als' IH]; intros [|rho rhos'] LL FA FR; cbn [length] in LL; try discriminate; cbn [combine omap].
    - exists []. split; [reflexivity|constructor].
    - destruct (Forall_inv FA) as (HI & Sa). pose proof (Forall_inv_tail FA) as FA'. pose proof (Forall_inv FR) as Sr.
      pose proof (Forall_inv_tail FR) as FR'. cbn [fst snd].
      destruct (occ_atoms_ok acc (og_ncol G) (allreduce zero add als al) g rho NC) as (o1 & E1 & S1 & V1).
      { rewrite (proj2 (allreduce_at _ _ _ _ _ _ Rth als al 0 HI)). exact Sa. }
      { exact Sg. }
      { exact Sr. }
      rewrite E1. cbn [obind].
      destruct (IH rhos' ltac:(lia) FA' FR') as (out & E2 & F2). rewrite E2. cbn [obind].
      exists (o1 :: out). split; [reflexivity|]. constructor; [|exact F2]. split; [exact S1|].
      intros t J r c HJ Hr Hc. rewrite (V1 t J r c HJ Hr Hc). f_equal. unfold share. apply isum_ext. intros n Hn.
      rewrite Vg by lia. rewrite !(proj1 (allreduce_at _ _ _ _ _ _ Rth als al _ HI)).
      now rewrite !(SUM t J n _ HJ Hn) by lia. }
  apply GEN; assumption.
Qed.

Lemma occ_group_ok acc (G : ogroup) : group_ok ts G -> displ_total (n_atom ts) rmd = Ok rtot ->
  (acc = true \/ og_nk G = 1) ->
  exists rhos, occ_group zero add mul cj dV isq Ns pol nsp s phk acc ts ipd rmd G = Ok rhos /\
    length rhos = length (og_procs G) /\
    Forall (fun rho => sz rho = rtot /\ forall t J r c, In (t, J) (catoms 0 ts) -> 0 <= r < o_np t -> 0 <= c < o_np t ->
      at_ rho (rslot t J r c) = isum 0 (og_nk G) (share ts G J r c)) rhos.
Proof.
  intros HG ER HA. unfold occ_group. rewrite ER. cbn [obind].
  destruct HA as [->|NK].
  - assert (GEN : forall ks rhos, (forall k, In k ks -> 0 <= k < og_nk G) -> length rhos = length (og_procs G) ->
      Forall (fun a => sz a = rtot) rhos ->
      exists out, ofold (occ_k zero add mul cj dV isq Ns pol nsp s phk true ts ipd rmd G) rhos ks = Ok out /\
      Forall2 (fun rho rho' => sz rho' = rtot /\ forall t J r c, In (t, J) (catoms 0 ts) -> 0 <= r < o_np t -> 0 <= c < o_np t ->
        at_ rho' (rslot t J r c) = (at_ rho (rslot t J r c) + ksum (map (share ts G J r c) ks))%k) rhos out).
    { induction ks as [|k ks IH]; intros rhos HK HL HF; cbn [ofold].
      - exists rhos. split; [reflexivity|]. clear - HF Rth. induction HF; constructor; [|assumption]. split; [assumption|].
        intros. cbn [map VnlOp.ksum]. ring.
      - destruct (occ_k_ok true G rhos k HG (HK k (or_introl eq_refl)) HL HF) as (r1 & E1 & F1'). rewrite E1. cbn [obind].
        assert (L1 : length r1 = length (og_procs G)) by (rewrite <- HL; clear - F1'; induction F1'; cbn [length]; congruence).
        assert (S1 : Forall (fun a => sz a = rtot) r1) by (clear - F1'; induction F1' as [|? ? ? ? (S & _)]; constructor; auto).
        destruct (IH r1 (fun k Hk => HK k (or_intror Hk)) L1 S1) as (out & E2 & F2). exists out. split; [exact E2|].
        clear - F1' F2 Rth. revert out F2. induction F1' as [|rho r1 rhos r1s (S1 & V1) F IH]; intros out F2; inversion F2 as [|? ? ? ? (S2 & V2) F2']; subst; constructor.
        + split; [exact S2|]. intros t J r c HJ Hr Hc. rewrite V2, V1 by assumption. cbn [map VnlOp.ksum]. ring.
        + apply IH. exact F2'. }
    destruct (GEN (zrange 0 (og_nk G - 1)) (map (fun _ => Arr rtot (fun _ => zero)) (og_procs G))) as (out & E & F).
    + intros k Hk. apply in_zrange in Hk. lia.
    + apply map_length.
    + apply Forall_map. apply Forall_forall. reflexivity.
    + exists out. split; [exact E|]. split.
      * assert (LE : length out = length (map (fun _ : list (list row) * arr K * Z => Arr rtot (fun _ : Z => zero)) (og_procs G))).
        { clear - F. induction F; cbn [length]; congruence. }
        rewrite LE. apply map_length.
      * clear - F Rth. remember (map (fun _ => Arr rtot (fun _ : Z => zero)) (og_procs G)) as l0 eqn:E0.
        assert (Z0 : Forall (fun a => forall i, at_ a i = zero) l0) by (subst; apply Forall_map, Forall_forall; reflexivity).
        clear E0. induction F as [|rho rho' l l' (S1 & V1) F IH]; constructor.
        -- pose proof (Forall_inv Z0) as H1. split; [exact S1|]. intros t J r c HJ Hr Hc. rewrite V1 by assumption. rewrite H1. unfold HubSpec.isum. ring.
        -- apply IH. exact (Forall_inv_tail Z0).
  - rewrite NK. change (zrange 0 (1 - 1)) with [0]. cbn [ofold].
    destruct (occ_k_ok acc G (map (fun _ => Arr rtot (fun _ => zero)) (og_procs G)) 0 HG) as (out & E & F).
    + lia.
    + apply map_length.
    + apply Forall_map. apply Forall_forall. reflexivity.
    + rewrite E. cbn [obind]. exists out. split; [reflexivity|]. split.
      * assert (LE : length out = length (map (fun _ : list (list row) * arr K * Z => Arr rtot (fun _ : Z => zero)) (og_procs G))).
        { clear - F. induction F; cbn [length]; congruence. }
        rewrite LE. apply map_length.
      * clear - F Rth. remember (map (fun _ => Arr rtot (fun _ : Z => zero)) (og_procs G)) as l0 eqn:E0.
        assert (Z0 : Forall (fun a => forall i, at_ a i = zero) l0) by (subst; apply Forall_map, Forall_forall; reflexivity).
        clear E0. induction F as [|rho rho' l l' (S1 & V1) F IH]; constructor.
        -- pose proof (Forall_inv Z0) as H1. split; [exact S1|]. intros t J r c HJ Hr Hc. rewrite V1 by assumption. rewrite H1.
           unfold HubSpec.isum. change (zrange 0 (1 - 1)) with [0]. cbn [map VnlOp.ksum]. destruct acc; ring.
        -- apply IH. exact (Forall_inv_tail Z0).
Qed.
End OCC.
End RING.
