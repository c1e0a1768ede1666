(** The density over all groups of processes. *)
From Coq Require Import ZArith Reals List Bool Lia Lra Permutation.
From Coquelicot Require Import Complex.
From Verif Require Import CBase Nloc NlocSpec NlocLem VnlOp VnlLem VnlMain Dens DensSpec DensLem.
Import ListNotations.
Local Open Scope Z_scope.

Lemma ksum_plain_ext {A} (f g : A -> R) l : (forall x, In x l -> f x = g x) -> rs (map f l) = rs (map g l).
Proof. apply ksum_ext. Qed.

Lemma rs_local {B} (l : list B) d (F : B -> R) n : n = Z.of_nat (length l) ->
  rs (map (fun j => F (nth (Z.to_nat j) l d)) (zrange 0 (n - 1))) = rs (map F l).
Proof.
  intros ->. rewrite <- (map_nth_zseq l d 0) at 2. rewrite map_map. f_equal. unfold zrange.
  replace (Z.to_nat (Z.of_nat (length l) - 1 - 0 + 1)) with (length l) by lia.
  apply map_ext. intros j. now rewrite Z.sub_0_r.
Qed.

Lemma rs_shift (F : Z -> R) s0 n : rs (map (fun sp => F (s0 + sp)) (zrange 0 (n - 1))) = rs (map F (zrange s0 (s0 + n - 1))).
Proof.
  assert (G : forall m a, map (fun sp => F (s0 + sp)) (zseq a m) = map F (zseq (s0 + a) m)).
  { induction m as [|m IH]; intros a; cbn [zseq map]; [reflexivity|]. rewrite IH. do 2 f_equal. f_equal. ring. }
  unfold zrange. rewrite G. rewrite Z.add_0_r. do 3 f_equal. lia.
Qed.

Section GROUPS.
Context {A : Type}.
Variables (gamma : bool) (spin_typ : Z) (occfac Nkpts dV : R) (Ns Nspinor DMnd : Z).
Variables (ks ns : list Z) (wt : Z -> R) (occ : Z -> Z -> Z -> R) (psi : Z -> Z -> Z -> A -> C) (nod : Z -> A).
Variables (ps pk pb : Z) (P : Z -> Z -> Z -> dproc).
(** k-points of a k-point group, first and last band of a band group, first
    spin component and number of them in a spin group. *)
Variables (kl : Z -> list Z) (bs be sp0 nsp : Z -> Z).

(** Every k-point, band and spin component belongs to one group. *)
Record divided : Prop := {
  dv_s : 1 <= ps; dv_k : 1 <= pk; dv_b : 1 <= pb;
  dv_kl : Permutation (flat_map kl (zrange 0 (pk - 1))) ks;
  dv_bl : Permutation (flat_map (fun b => zrange (bs b) (be b)) (zrange 0 (pb - 1))) ns;
  dv_sl : Permutation (flat_map (fun s => zrange (sp0 s) (sp0 s + nsp s - 1)) (zrange 0 (ps - 1)))
            (zrange 0 (Nspinor - 1)) }.

(** The process holds its part of the orbitals, occupations and weights, in
    the order k-point, band, spin component, node; the occupations of
    collinear spin calculations come spin by spin. *)
Record holds (s k b : Z) (pr : dproc) : Prop := {
  ho_sizes : sizes_ok spin_typ Ns Nspinor DMnd pr;
  ho_nk : q_nk pr = Z.of_nat (length (kl k));
  ho_ns : q_ns pr = bs b; ho_ne : q_ne pr = be b;
  ho_sp0 : q_sp0 pr = sp0 s; ho_nsp : q_nsp pr = nsp s;
  ho_wt : forall j, 0 <= j < q_nk pr -> at_ (q_wts pr) j = wt (nth (Z.to_nat j) (kl k) 0);
  ho_occ : forall j n sp, 0 <= j < q_nk pr -> q_ns pr <= n <= q_ne pr -> 0 <= sp < q_nsp pr ->
    at_ (q_occ pr) ((if spin_typ =? 1 then sp * (Ns * q_nk pr) else 0) + j * Ns + n) =
      occ (sp0 s + sp) (nth (Z.to_nat j) (kl k) 0) n;
  ho_X : forall j n sp i, 0 <= j < q_nk pr -> q_ns pr <= n <= q_ne pr -> 0 <= sp < q_nsp pr -> 0 <= i < DMnd ->
    at_ (q_X pr) (i + DMnd * (sp + q_nsp pr * ((n - q_ns pr) + (q_ne pr - q_ns pr + 1) * j))) =
      psi (nth (Z.to_nat j) (kl k) 0) n (sp0 s + sp) (nod i);
  ho_real : gamma = true -> forall j n sp i, 0 <= j < q_nk pr -> q_ns pr <= n <= q_ne pr -> 0 <= sp < q_nsp pr ->
    0 <= i < DMnd -> Im (psi (nth (Z.to_nat j) (kl k) 0) n (sp0 s + sp) (nod i)) = 0%R }.

Hypothesis HD : 0 <= DMnd.
Hypothesis HV : divided.
Hypothesis HP : forall s k b, 0 <= s < ps -> 0 <= k < pk -> 0 <= b < pb -> holds s k b (P s k b).

Notation weight := (weight wt occ occfac Nkpts).
Definition sqm (z : C) : R := (Cmod z * Cmod z)%R.

Lemma sqm_val z : sqm z = (fst z * fst z + snd z * snd z)%R.
Proof.
  unfold sqm, Cmod. rewrite sqrt_sqrt; [ring|]. 
  pose proof (pow2_ge_0 (fst z)). pose proof (pow2_ge_0 (snd z)). lra.
Qed.

Lemma in_nodes_range sg tau i : 0 <= i < DMnd -> 
  ((tau * DMnd <=? sg * DMnd + i) && (sg * DMnd + i <? tau * DMnd + DMnd)) = (sg =? tau).
Proof.
  intros Hi. destruct (Z.eqb_spec sg tau) as [->|NE].
  - destruct (Z.leb_spec (tau * DMnd) (tau * DMnd + i)), (Z.ltb_spec (tau * DMnd + i) (tau * DMnd + DMnd)); cbn; try reflexivity; lia.
  - destruct (Z.leb_spec (tau * DMnd) (sg * DMnd + i)), (Z.ltb_spec (sg * DMnd + i) (tau * DMnd + DMnd)); cbn; try reflexivity.
    exfalso. apply NE. nia.
Qed.

(** What one process adds to a spin component. *)
Lemma proc_rho s k b sg i : 0 <= s < ps -> 0 <= k < pk -> 0 <= b < pb -> 0 <= i < DMnd ->
  exists a, local_rho gamma spin_typ occfac Nkpts Ns Nspinor DMnd (P s k b) = Ok a /\ sz a = Nspinor * DMnd /\
  at_ a (sg * DMnd + i) = rs (map (fun tau => rs (map (fun kk => rs (map (fun n =>
     if sg =? tau then (weight tau kk n * sqm (psi kk n tau (nod i)))%R else 0%R) (zrange (bs b) (be b)))) (kl k)))
     (zrange (sp0 s) (sp0 s + nsp s - 1))).
Proof.
  intros Hs Hk Hb Hi. pose proof (HP s k b Hs Hk Hb) as H. set (pr := P s k b) in *.
  destruct (local_rho_ok gamma spin_typ occfac Nkpts Ns Nspinor DMnd HD pr (ho_sizes _ _ _ _ H)) as (a & E & S & V).
  exists a. split; [exact E|]. split; [exact S|]. rewrite V.
  transitivity (rs (map (fun j => rs (map (fun n => rs (map (fun sp =>
     if sg =? sp0 s + sp then (weight (sp0 s + sp)%Z (nth (Z.to_nat j) (kl k) 0%Z) n * 
       sqm (psi (nth (Z.to_nat j) (kl k) 0%Z) n (sp0 s + sp)%Z (nod i)))%R else 0%R)
     (zrange 0 (q_nsp pr - 1)))) (zrange (q_ns pr) (q_ne pr)))) (zrange 0 (q_nk pr - 1)))).
  - apply ksum_ext. intros j Hj. apply in_zrange in Hj. apply ksum_ext. intros n Hn. apply in_zrange in Hn.
    apply ksum_ext. intros sp Hsp. apply in_zrange in Hsp.
    rewrite (in_nodes_range sg (sp + q_sp0 pr) i Hi). rewrite (ho_sp0 _ _ _ _ H).
    rewrite (Z.add_comm sp (sp0 s)). destruct (Z.eqb_spec sg (sp0 s + sp)) as [Es|]; [|reflexivity].
    assert (J1 : 0 <= j < q_nk pr) by lia. assert (J2 : 0 <= sp < q_nsp pr) by lia.
    f_equal.
    + unfold w_of, DensSpec.weight. rewrite (ho_wt _ _ _ _ H j J1).
      rewrite <- (ho_occ _ _ _ _ H j n sp J1 Hn J2). unfold occ_pos. unfold Rdiv.
      replace (j * Ns + (if spin_typ =? 1 then sp * Ns * q_nk pr else 0) + n)
        with ((if spin_typ =? 1 then sp * (Ns * q_nk pr) else 0) + j * Ns + n) by (destruct (spin_typ =? 1); ring).
      ring.
    + rewrite <- (ho_X _ _ _ _ H j n sp i J1 Hn J2 Hi). rewrite sqm_val. unfold x_pos, sq_abs.
      replace (((j * (q_ne pr - q_ns pr + 1) + (n - q_ns pr)) * q_nsp pr + sp) * DMnd + (sg * DMnd + i - (sp0 s + sp) * DMnd))
        with (i + DMnd * (sp + q_nsp pr * ((n - q_ns pr) + (q_ne pr - q_ns pr + 1) * j))) by (rewrite Es; ring).
      destruct (bool_dec gamma true) as [G|G]; [rewrite G|apply not_true_is_false in G; rewrite G; reflexivity].
      pose proof (ho_real _ _ _ _ H G j n sp i J1 Hn J2 Hi) as Him. 
      rewrite <- (ho_X _ _ _ _ H j n sp i J1 Hn J2 Hi) in Him. unfold Im in Him. rewrite Him. ring.
  - rewrite (ho_nsp _ _ _ _ H), (ho_ns _ _ _ _ H), (ho_ne _ _ _ _ H).
    rewrite (rs_local (kl k) 0 (fun kk => rs (map (fun n => rs (map (fun sp =>
     if sg =? sp0 s + sp then (weight (sp0 s + sp)%Z kk n * sqm (psi kk n (sp0 s + sp)%Z (nod i)))%R else 0%R)
     (zrange 0 (nsp s - 1)))) (zrange (bs b) (be b)))) (q_nk pr) (ho_nk _ _ _ _ H)).
    rewrite (ksum_swap _ _ _ _ _ _ Rth (fun tau kk => rs (map (fun n =>
       if sg =? tau then (weight tau kk n * sqm (psi kk n tau (nod i)))%R else 0%R) (zrange (bs b) (be b))))).
    apply ksum_ext. intros kk _.
    rewrite (ksum_swap _ _ _ _ _ _ Rth (fun tau n =>
       if sg =? tau then (weight tau kk n * sqm (psi kk n tau (nod i)))%R else 0%R)).
    apply ksum_ext. intros n _.
    apply (rs_shift (fun tau => if sg =? tau then (weight tau kk n * sqm (psi kk n tau (nod i)))%R else 0%R)).
Qed.

Lemma over_k (F : Z -> R) : rs (map (fun k => rs (map F (kl k))) (zrange 0 (pk - 1))) = rs (map F ks).
Proof.
  rewrite <- (ksum_flat_map _ _ _ _ _ _ Rth). apply (ksum_perm _ _ _ _ _ _ Rth).
  apply Permutation_map, HV.
Qed.
Lemma over_b (F : Z -> R) : rs (map (fun b => rs (map F (zrange (bs b) (be b)))) (zrange 0 (pb - 1))) = rs (map F ns).
Proof.
  rewrite <- (ksum_flat_map _ _ _ _ _ _ Rth F (fun b => zrange (bs b) (be b))). apply (ksum_perm _ _ _ _ _ _ Rth).
  apply Permutation_map, HV.
Qed.
Lemma over_s (F : Z -> R) : rs (map (fun s => rs (map F (zrange (sp0 s) (sp0 s + nsp s - 1)))) (zrange 0 (ps - 1)))
  = rs (map F (zrange 0 (Nspinor - 1))).
Proof.
  rewrite <- (ksum_flat_map _ _ _ _ _ _ Rth F (fun s => zrange (sp0 s) (sp0 s + nsp s - 1))).
  apply (ksum_perm _ _ _ _ _ _ Rth). apply Permutation_map, HV.
Qed.

Lemma density_ok s k b : 0 <= s < ps -> 0 <= k < pk -> 0 <= b < pb ->
  exists a, CalculateDensity_psi gamma spin_typ occfac Nkpts Ns Nspinor DMnd dV ps pk pb P s k b = Ok a /\
    sz a = Nspinor * DMnd /\
    forall sg i, 0 <= sg < Nspinor -> 0 <= i < DMnd ->
      at_ a (sg * DMnd + i) = dens ks ns wt occ psi occfac Nkpts dV sg (nod i).
Proof.
  intros Hs Hk Hb. pose proof HV as [V1 V2 V3 _ _ _].
  destruct (reduce3_ok ps pk pb (fun s k b => local_rho gamma spin_typ occfac Nkpts Ns Nspinor DMnd (P s k b))
    (Nspinor * DMnd)) with (s := s) (k := k) (b := b) as (a & E & S & V); try assumption.
  { intros s' k' b' A1 A2 A3.
    destruct (local_rho_ok gamma spin_typ occfac Nkpts Ns Nspinor DMnd HD _ (ho_sizes _ _ _ _ (HP s' k' b' A1 A2 A3))) as (a & E & S & _).
    eauto. }
  unfold CalculateDensity_psi, scaled. rewrite E. cbn [obind].
  eexists. split; [reflexivity|]. split; [exact S|]. intros sg i Hsg Hi. cbn [at_]. rewrite V. clear V.
  unfold dens, rsum. unfold Rdiv. rewrite Rmult_1_l. f_equal.
  set (T := fun tau kk n => if sg =? tau then (weight tau kk n * sqm (psi kk n tau (nod i)))%R else 0%R).
  transitivity (rs (map (fun b => rs (map (fun k => rs (map (fun s =>
     rs (map (fun tau => rs (map (fun kk => rs (map (fun n => T tau kk n) (zrange (bs b) (be b)))) (kl k)))
     (zrange (sp0 s) (sp0 s + nsp s - 1)))) (zrange 0 (ps - 1)))) (zrange 0 (pk - 1)))) (zrange 0 (pb - 1)))).
  - apply ksum_ext. intros b' Hb'. apply ksum_ext. intros k' Hk'. apply ksum_ext. intros s' Hs'.
    apply in_zrange in Hb', Hk', Hs'.
    destruct (proc_rho s' k' b' sg i) as (a' & E' & _ & V'); try lia. rewrite E'. exact V'.
  - transitivity (rs (map (fun b => rs (map (fun k => 
       rs (map (fun kk => rs (map (fun n => T sg kk n) (zrange (bs b) (be b)))) (kl k))) (zrange 0 (pk - 1)))) (zrange 0 (pb - 1)))).
    + apply ksum_ext. intros b' _. apply ksum_ext. intros k' _. 
      rewrite (over_s (fun tau => rs (map (fun kk => rs (map (fun n => T tau kk n) (zrange (bs b') (be b')))) (kl k')))).
      transitivity (rs (map (fun tau => if sg =? tau then rs (map (fun kk => rs (map (fun n => T tau kk n) (zrange (bs b') (be b')))) (kl k')) else 0%R) (zrange 0 (Nspinor - 1)))).
      * apply ksum_ext. intros tau _. destruct (Z.eqb_spec sg tau) as [|NE]; [reflexivity|].
        apply (ksum_zero _ _ _ _ _ _ Rth). intros kk _. apply (ksum_zero _ _ _ _ _ _ Rth). intros n _.
        unfold T. destruct (Z.eqb_spec sg tau); [contradiction|reflexivity].
      * apply (rs_only 0 (Nspinor - 1) sg (fun tau => rs (map (fun kk => rs (map (fun n => T tau kk n) (zrange (bs b') (be b')))) (kl k')))). lia.
    + transitivity (rs (map (fun b => rs (map (fun kk => rs (map (fun n => T sg kk n) (zrange (bs b) (be b)))) ks)) (zrange 0 (pb - 1)))).
      { apply ksum_ext. intros b' _. apply (over_k (fun kk => rs (map (fun n => T sg kk n) (zrange (bs b') (be b'))))). }
      rewrite (ksum_swap _ _ _ _ _ _ Rth (fun b kk => rs (map (fun n => T sg kk n) (zrange (bs b) (be b))))).
      apply ksum_ext. intros kk _. rewrite (over_b (fun n => T sg kk n)).
      apply ksum_ext. intros n _. unfold T. rewrite Z.eqb_refl. reflexivity.
Qed.

(** Magnetisation: one spin group that holds both components. *)
Hypothesis ST : (spin_typ =? 1) = false.
Lemma magnetisation_ok s k b : ps = 1 -> sp0 0 = 0 -> nsp 0 = 2 -> 0 <= s < ps -> 0 <= k < pk -> 0 <= b < pb ->
  exists a, Calculate_Magx_Magy_psi occfac Nkpts Ns DMnd dV ps pk pb P s k b = Ok a /\ sz a = 2 * DMnd /\
    forall i, 0 <= i < DMnd -> at_ a i = (2 * dm_re ks ns wt occ psi occfac Nkpts dV (nod i))%R /\
      at_ a (DMnd + i) = (- (2 * dm_im ks ns wt occ psi occfac Nkpts dV (nod i)))%R.
Proof.
  intros P1 S0 S2 Hs Hk Hb. pose proof HV as [V1 V2 V3 _ _ _].
  assert (L : forall s k b, 0 <= s < ps -> 0 <= k < pk -> 0 <= b < pb -> exists a, 
     local_mag occfac Nkpts Ns DMnd (P s k b) = Ok a /\ sz a = 2 * DMnd /\
     forall i, 0 <= i < DMnd ->
     at_ a i = rs (map (fun kk => rs (map (fun n => (2 * (weight 0%Z kk n * Re (Cmult (psi kk n 0%Z (nod i)) (Cconj (psi kk n 1%Z (nod i))))))%R) (zrange (bs b) (be b)))) (kl k)) /\
     at_ a (DMnd + i) = rs (map (fun kk => rs (map (fun n => (- 2 * (weight 0%Z kk n * Im (Cmult (psi kk n 0%Z (nod i)) (Cconj (psi kk n 1%Z (nod i))))))%R) (zrange (bs b) (be b)))) (kl k))).
  { intros s' k' b' A1 A2 A3. pose proof (HP s' k' b' A1 A2 A3) as H. set (pr := P s' k' b') in *.
    assert (s' = 0) by lia. subst s'.
    assert (N2 : q_nsp pr = 2) by (rewrite (ho_nsp _ _ _ _ H); exact S2).
    destruct (local_mag_ok spin_typ occfac Nkpts Ns Nspinor DMnd HD ST pr (ho_sizes _ _ _ _ H) N2) as (a & E & S & V).
    exists a. split; [exact E|]. split; [exact S|]. intros i Hi. rewrite !V.
    assert (W : forall j n, 0 <= j < q_nk pr -> q_ns pr <= n <= q_ne pr ->
      w_of spin_typ occfac Nkpts Ns pr j n 0 = weight 0 (nth (Z.to_nat j) (kl k') 0) n).
    { intros j n J1 Hn. unfold w_of, DensSpec.weight. rewrite (ho_wt _ _ _ _ H j J1).
      assert (J2 : 0 <= 0 < q_nsp pr) by lia.
      pose proof (ho_occ _ _ _ _ H j n 0 J1 Hn J2) as HO. rewrite S0 in HO. cbn [Z.add] in HO. rewrite <- HO.
      unfold occ_pos. rewrite ST. replace (j * Ns + 0 + n) with (0 + j * Ns + n) by ring. unfold Rdiv. ring. }
    assert (OD : forall j n, 0 <= j < q_nk pr -> q_ns pr <= n <= q_ne pr ->
      odd_at DMnd pr j n i = Cmult (psi (nth (Z.to_nat j) (kl k') 0) n 0 (nod i)) (Cconj (psi (nth (Z.to_nat j) (kl k') 0) n 1 (nod i)))).
    { intros j n J1 Hn. unfold odd_at.
      assert (J2 : 0 <= 0 < q_nsp pr) by lia. assert (J3 : 0 <= 1 < q_nsp pr) by lia.
      pose proof (ho_X _ _ _ _ H j n 0 i J1 Hn J2 Hi) as X0. pose proof (ho_X _ _ _ _ H j n 1 i J1 Hn J3 Hi) as X1.
      rewrite S0 in X0, X1. cbn [Z.add] in X0, X1. rewrite <- X0, <- X1. unfold x_pos.
      replace (((j * (q_ne pr - q_ns pr + 1) + (n - q_ns pr)) * q_nsp pr + 0) * DMnd + i)
        with (i + DMnd * (0 + q_nsp pr * (n - q_ns pr + (q_ne pr - q_ns pr + 1) * j))) by ring.
      replace (((j * (q_ne pr - q_ns pr + 1) + (n - q_ns pr)) * q_nsp pr + 1) * DMnd + i)
        with (i + DMnd * (1 + q_nsp pr * (n - q_ns pr + (q_ne pr - q_ns pr + 1) * j))) by ring.
      reflexivity. }
    split.
    - rewrite <- (rs_local (kl k') 0 (fun kk => rs (map (fun n => (2 * (weight 0%Z kk n * Re (Cmult (psi kk n 0%Z (nod i)) (Cconj (psi kk n 1%Z (nod i))))))%R) (zrange (bs b') (be b')))) (q_nk pr) (ho_nk _ _ _ _ H)).
      rewrite (ho_ns _ _ _ _ H), (ho_ne _ _ _ _ H) in *.
      apply ksum_ext. intros j Hj. apply in_zrange in Hj. apply ksum_ext. intros n Hn. apply in_zrange in Hn.
      unfold mag_at. destruct (Z.leb_spec 0 i), (Z.ltb_spec i DMnd); try lia. cbn [andb].
      rewrite W, OD by lia. unfold Re. ring.
    - rewrite <- (rs_local (kl k') 0 (fun kk => rs (map (fun n => (- 2 * (weight 0%Z kk n * Im (Cmult (psi kk n 0%Z (nod i)) (Cconj (psi kk n 1%Z (nod i))))))%R) (zrange (bs b') (be b')))) (q_nk pr) (ho_nk _ _ _ _ H)).
      rewrite (ho_ns _ _ _ _ H), (ho_ne _ _ _ _ H) in *.
      apply ksum_ext. intros j Hj. apply in_zrange in Hj. apply ksum_ext. intros n Hn. apply in_zrange in Hn.
      unfold mag_at. destruct (Z.leb_spec 0 (DMnd + i)), (Z.ltb_spec (DMnd + i) DMnd); try lia. cbn [andb].
      destruct (Z.leb_spec DMnd (DMnd + i)), (Z.ltb_spec (DMnd + i) (2 * DMnd)); try lia. cbn [andb].
      replace (DMnd + i - DMnd) with i by ring. rewrite W, OD by lia. unfold Im. ring. }
  destruct (reduce3_ok ps pk pb (fun s k b => local_mag occfac Nkpts Ns DMnd (P s k b))
    (2 * DMnd)) with (s := s) (k := k) (b := b) as (a & E & S & V); try assumption.
  { intros s' k' b' A1 A2 A3. destruct (L s' k' b' A1 A2 A3) as (a & E & S & _). eauto. }
  unfold Calculate_Magx_Magy_psi, scaled. rewrite E. cbn [obind].
  eexists. split; [reflexivity|]. split; [exact S|]. intros i Hi. cbn [at_]. rewrite !V. clear V.
  assert (RR : forall j (F : Z -> Z -> R), (forall k b, 0 <= k < pk -> 0 <= b < pb -> 
      match local_mag occfac Nkpts Ns DMnd (P 0 k b) with Ok a => at_ a j | _ => 0%R end =
      rs (map (fun kk => rs (map (F kk) (zrange (bs b) (be b)))) (kl k))) ->
    rs (map (fun b => rs (map (fun k => rs (map (fun s =>
      match local_mag occfac Nkpts Ns DMnd (P s k b) with Ok a => at_ a j | _ => 0%R end)
      (zrange 0 (ps - 1)))) (zrange 0 (pk - 1)))) (zrange 0 (pb - 1))) = rs (map (fun kk => rs (map (F kk) ns)) ks)).
  { intros j F HF. 
    transitivity (rs (map (fun b => rs (map (fun kk => rs (map (F kk) (zrange (bs b) (be b)))) ks)) (zrange 0 (pb - 1)))).
    - apply ksum_ext. intros b' Hb'. apply in_zrange in Hb'. rewrite <- over_k. apply ksum_ext. intros k' Hk'. apply in_zrange in Hk'.
      rewrite one_group by exact P1. apply HF; lia.
    - rewrite (ksum_swap _ _ _ _ _ _ Rth (fun b kk => rs (map (F kk) (zrange (bs b) (be b))))).
      apply ksum_ext. intros kk _. apply over_b. }
  assert (M : forall c (F : Z -> Z -> R), rs (map (fun kk => rs (map (fun n => (c * F kk n)%R) ns)) ks) = (c * rs (map (fun kk => rs (map (F kk) ns)) ks))%R).
  { intros c F. rewrite <- (ksum_mul_l _ _ _ _ _ _ Rth). apply ksum_ext. intros kk _. apply (ksum_mul_l _ _ _ _ _ _ Rth). }
  split.
  - rewrite (RR i (fun kk n => (2 * (weight 0%Z kk n * Re (Cmult (psi kk n 0%Z (nod i)) (Cconj (psi kk n 1%Z (nod i))))))%R)).
    + rewrite (M 2%R (fun kk n => (weight 0%Z kk n * Re (Cmult (psi kk n 0%Z (nod i)) (Cconj (psi kk n 1%Z (nod i)))))%R)). unfold dm_re, rsum, Rdiv. cbv beta. ring.
    + intros k' b' A2 A3. destruct (L 0 k' b') as (a' & E' & _ & V'); try lia. rewrite E'. now apply V'.
  - rewrite (RR (DMnd + i) (fun kk n => (- 2 * (weight 0%Z kk n * Im (Cmult (psi kk n 0%Z (nod i)) (Cconj (psi kk n 1%Z (nod i))))))%R)).
    + rewrite (M (- 2)%R (fun kk n => (weight 0%Z kk n * Im (Cmult (psi kk n 0%Z (nod i)) (Cconj (psi kk n 1%Z (nod i)))))%R)). unfold dm_im, rsum, Rdiv. cbv beta. ring.
    + intros k' b' A2 A3. destruct (L 0 k' b') as (a' & E' & _ & V'); try lia. rewrite E'. now apply V'.
Qed.
End GROUPS.
