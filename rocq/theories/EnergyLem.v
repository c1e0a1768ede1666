(** Lemmas on the model of the free energy. *)
From Coq Require Import ZArith Reals List Bool Lia Lra Permutation.
From Verif Require Import CBase Nloc NlocSpec NlocLem VnlOp VnlLem VnlMain DensSpec DensLem DensMain Energy EnergySpec.
Import ListNotations.
Local Open Scope Z_scope.

Lemma ofold_sum {A} (f : R -> A -> outcome R) (g : A -> R) l : 
  (forall e x, In x l -> f e x = Ok (e + g x)%R) -> forall e, ofold f e l = Ok (e + rs (map g l))%R.
Proof.
  induction l as [|x l IH]; intros H e; cbn [ofold map ksum].
  - f_equal. ring.
  - rewrite (H e x) by now left. cbn [obind]. rewrite IH by (intros; apply H; now right). f_equal. ring.
Qed.

Lemma rall_ok np (f : Z -> outcome R) (g : Z -> R) : 1 <= np ->
  (forall s, 0 <= s < np -> f s = Ok (g s)) -> forall me, 0 <= me < np -> rall np f me = Ok (rs (map g (zrange 0 (np - 1)))).
Proof.
  intros Hnp H me Hme. unfold rall. destruct (Z.eqb_spec np 1) as [->|].
  - assert (me = 0) by lia. subst me. rewrite H by lia. f_equal. change (g 0%Z = g 0%Z + 0)%R. ring.
  - rewrite (omap_val f g); [reflexivity|]. intros s Hs. apply in_zrange in Hs. apply H. lia.
Qed.

Lemma reduce2_ok ps pk (f : Z -> Z -> outcome R) (g : Z -> Z -> R) : 1 <= ps -> 1 <= pk ->
  (forall s k, 0 <= s < ps -> 0 <= k < pk -> f s k = Ok (g s k)) ->
  forall s k, 0 <= s < ps -> 0 <= k < pk -> reduce2 ps pk f s k =
    Ok (rs (map (fun k => rs (map (fun s => g s k) (zrange 0 (ps - 1)))) (zrange 0 (pk - 1)))).
Proof.
  intros H1 H2 H s k Hs Hk. unfold reduce2.
  apply (rall_ok pk (fun k' => rall ps (fun s' => f s' k') s) (fun k => rs (map (fun s => g s k) (zrange 0 (ps - 1))))); [exact H2| |exact Hk].
  intros k' Hk'. apply rall_ok; [exact H1| |exact Hs]. intros s' Hs'. now apply H.
Qed.

Lemma vdp_ok np (f : Z -> outcome R) (g : Z -> R) : 
  (forall d, 0 <= d < np -> f d = Ok (g d)) -> VectorDotProduct np f = Ok (rs (map g (zrange 0 (np - 1)))).
Proof.
  intros H. unfold VectorDotProduct. rewrite (omap_val f g); [reflexivity|]. intros s Hs. apply in_zrange in Hs. apply H. lia.
Qed.

Lemma dot_ok x ox y oy len : 0 <= ox -> 0 <= oy -> ox + len <= sz x -> oy + len <= sz y ->
  local_dot x ox y oy len = Ok (rs (map (fun i => at_ x (ox + i) * at_ y (oy + i))%R (zrange 0 (len - 1)))).
Proof.
  intros H1 H2 H3 H4. unfold local_dot.
  rewrite (ofold_sum _ (fun i => at_ x (ox + i) * at_ y (oy + i))%R).
  - f_equal. ring.
  - intros e i Hi. apply in_zrange in Hi. rewrite rd_ok by lia. cbn [obind]. rewrite rd_ok by lia. reflexivity.
Qed.

(** Division of spins and k-points over the groups *)
Section STATES.
Variables (occfac Nkpts : R) (Ns : Z).
Variables (sgs ks : list Z) (wt : Z -> R) (occ lam : Z -> Z -> Z -> R).
Variables (ps pk : Z) (P : Z -> Z -> eproc) (kl : Z -> list Z) (sp0 nsp : Z -> Z).

Record sdivided : Prop := {
  sd_s : 1 <= ps; sd_k : 1 <= pk; sd_n : 0 <= Ns;
  sd_kl : Permutation (flat_map kl (zrange 0 (pk - 1))) ks;
  sd_sl : Permutation (flat_map (fun s => zrange (sp0 s) (sp0 s + nsp s - 1)) (zrange 0 (ps - 1))) sgs }.
Record sholds (s k : Z) (pr : eproc) : Prop := {
  sh_nk : g_nk pr = Z.of_nat (length (kl k)); sh_nsp : g_nsp pr = nsp s; sh_nsp0 : 0 <= nsp s;
  sh_wsz : g_nk pr <= sz (g_wts pr);
  sh_osz : g_nsp pr * (g_nk pr * Ns) <= sz (g_occ pr); sh_lsz : g_nsp pr * (g_nk pr * Ns) <= sz (g_lam pr);
  sh_wt : forall j, 0 <= j < g_nk pr -> at_ (g_wts pr) j = wt (nth (Z.to_nat j) (kl k) 0);
  sh_occ : forall sp j n, 0 <= sp < nsp s -> 0 <= j < g_nk pr -> 0 <= n < Ns ->
    at_ (g_occ pr) (n + Ns * (j + g_nk pr * sp)) = occ (sp0 s + sp) (nth (Z.to_nat j) (kl k) 0) n;
  sh_lam : forall sp j n, 0 <= sp < nsp s -> 0 <= j < g_nk pr -> 0 <= n < Ns ->
    at_ (g_lam pr) (n + Ns * (j + g_nk pr * sp)) = lam (sp0 s + sp) (nth (Z.to_nat j) (kl k) 0) n }.
Hypothesis HV : sdivided.
Hypothesis HP : forall s k, 0 <= s < ps -> 0 <= k < pk -> sholds s k (P s k).

Lemma idx_ok pr s k sp j n : sholds s k pr -> 0 <= sp < nsp s -> 0 <= j < g_nk pr -> 0 <= n < Ns ->
  0 <= n + Ns * (j + g_nk pr * sp) < g_nsp pr * (g_nk pr * Ns).
Proof.
  intros H Hs Hj Hn. rewrite (sh_nsp _ _ _ H). split; [assert (0 <= g_nk pr * sp) by (apply Z.mul_nonneg_nonneg; lia); assert (0 <= Ns * (j + g_nk pr * sp)) by (apply Z.mul_nonneg_nonneg; lia); lia|].
  assert (Ns * (j + 1) <= Ns * g_nk pr) by (apply Z.mul_le_mono_nonneg_l; lia).
  assert (n + Ns * j + 1 <= g_nk pr * Ns) by lia.
  assert (0 <= g_nk pr * Ns) by nia.
  assert ((sp + 1) * (g_nk pr * Ns) <= nsp s * (g_nk pr * Ns)) by (apply Z.mul_le_mono_nonneg_r; lia). nia.
Qed.

(** From local indices to the whole sets. *)
Lemma over_states (T : Z -> Z -> R) :
  rs (map (fun k => rs (map (fun s => rs (map (fun sp => rs (map (fun j => T (sp0 s + sp) (nth (Z.to_nat j) (kl k) 0))
     (zrange 0 (g_nk (P s k) - 1)))) (zrange 0 (g_nsp (P s k) - 1)))) (zrange 0 (ps - 1)))) (zrange 0 (pk - 1)))
  = rs (map (fun sg => rs (map (T sg) ks)) sgs).
Proof.
  transitivity (rs (map (fun k => rs (map (fun s => rs (map (fun sg => rs (map (T sg) (kl k)))
     (zrange (sp0 s) (sp0 s + nsp s - 1)))) (zrange 0 (ps - 1)))) (zrange 0 (pk - 1)))).
  - apply ksum_ext. intros k Hk. apply ksum_ext. intros s Hs. apply in_zrange in Hk, Hs.
    assert (H1 : 0 <= s < ps) by lia. assert (H2 : 0 <= k < pk) by lia. pose proof (HP s k H1 H2) as H.
    rewrite <- rs_shift. rewrite (sh_nsp _ _ _ H). apply ksum_ext. intros sp _.
    apply (rs_local (kl k) 0 (T (sp0 s + sp))). apply H.
  - transitivity (rs (map (fun k => rs (map (fun sg => rs (map (T sg) (kl k))) sgs)) (zrange 0 (pk - 1)))).
    + apply ksum_ext. intros k _.
      rewrite <- (ksum_flat_map _ _ _ _ _ _ Rth (fun sg => rs (map (T sg) (kl k))) (fun s => zrange (sp0 s) (sp0 s + nsp s - 1))).
      apply (ksum_perm _ _ _ _ _ _ Rth), Permutation_map, HV.
    + rewrite (ksum_swap _ _ _ _ _ _ Rth (fun k sg => rs (map (T sg) (kl k)))). apply ksum_ext. intros sg _.
      rewrite <- (ksum_flat_map _ _ _ _ _ _ Rth (T sg) kl).
      apply (ksum_perm _ _ _ _ _ _ Rth), Permutation_map, HV.
Qed.

Lemma eband_local s k : 0 <= s < ps -> 0 <= k < pk -> local_Eband occfac Nkpts Ns (P s k) =
  Ok (rs (map (fun sp => rs (map (fun j => 
    rs (map (fun n => (occfac * wt (nth (Z.to_nat j) (kl k) 0%Z) / Nkpts * (occ (sp0 s + sp)%Z (nth (Z.to_nat j) (kl k) 0%Z) n * lam (sp0 s + sp)%Z (nth (Z.to_nat j) (kl k) 0%Z) n))%R) (zrange 0 (Ns - 1))))
    (zrange 0 (g_nk (P s k) - 1)))) (zrange 0 (g_nsp (P s k) - 1)))).
Proof.
  intros Hs Hk. pose proof (HP s k Hs Hk) as H. set (pr := P s k) in *. unfold local_Eband.
  set (G := fun sp j n => (occfac * wt (nth (Z.to_nat j) (kl k) 0%Z) * occ (sp0 s + sp)%Z (nth (Z.to_nat j) (kl k) 0%Z) n * lam (sp0 s + sp)%Z (nth (Z.to_nat j) (kl k) 0%Z) n)%R).
  rewrite (ofold_sum _ (fun sp => rs (map (fun j => rs (map (G sp j) (zrange 0 (Ns - 1)))) (zrange 0 (g_nk pr - 1))))).
  - cbn [obind]. f_equal. unfold Rdiv. rewrite Rplus_0_l. rewrite <- (ksum_mul_r _ _ _ _ _ _ Rth). apply ksum_ext. intros sp _.
    rewrite <- (ksum_mul_r _ _ _ _ _ _ Rth). apply ksum_ext. intros j _.
    rewrite <- (ksum_mul_r _ _ _ _ _ _ Rth). apply ksum_ext. intros n _. unfold G. ring.
  - intros e sp Hsp. apply in_zrange in Hsp.
    apply (ofold_sum _ (fun j => rs (map (G sp j) (zrange 0 (Ns - 1))))). intros e' j Hj. apply in_zrange in Hj.
    rewrite rd_ok by (pose proof (sh_wsz _ _ _ H); lia). cbn [obind].
    apply (ofold_sum _ (G sp j)). intros e'' n Hn. apply in_zrange in Hn.
    rewrite (sh_nsp _ _ _ H) in Hsp.
    assert (A1 : 0 <= sp < nsp s) by lia. assert (A2 : 0 <= j < g_nk pr) by lia. assert (A3 : 0 <= n < Ns) by lia.
    pose proof (idx_ok pr s k sp j n H A1 A2 A3) as IX.
    replace (n + j * Ns + sp * g_nk pr * Ns) with (n + Ns * (j + g_nk pr * sp)) by ring.
    rewrite rd_ok by (pose proof (sh_osz _ _ _ H); lia). cbn [obind].
    rewrite rd_ok by (pose proof (sh_lsz _ _ _ H); lia). cbn [obind].
    rewrite (sh_wt _ _ _ H j A2), (sh_occ _ _ _ H sp j n A1 A2 A3), (sh_lam _ _ _ H sp j n A1 A2 A3). reflexivity.
Qed.

Lemma eband_ok s k : 0 <= s < ps -> 0 <= k < pk -> Calculate_Eband occfac Nkpts Ns ps pk P s k =
  Ok (state_sum sgs ks (zrange 0 (Ns - 1)) occfac Nkpts wt (fun sg k n => (occ sg k n * lam sg k n)%R)).
Proof.
  intros Hs Hk. unfold Calculate_Eband. erewrite reduce2_ok; [|apply HV|apply HV| |exact Hs|exact Hk].
  2:{ intros s' k' Hs' Hk'. now apply eband_local. }
  f_equal. unfold state_sum, rsum.
  apply (over_states (fun sg kk => rs (map (fun n => (occfac * wt kk / Nkpts * (occ sg kk n * lam sg kk n))%R) (zrange 0 (Ns - 1))))).
Qed.

(** Entropy *)
Definition term (Efermi beta : R) (typ : Z) (sg k n : Z) : R :=
  if typ =? 0 then fd_term (occ sg k n) else if typ =? 1 then gauss_term beta (lam sg k n) Efermi else 0%R.

Lemma entropy_ok Efermi beta typ s k : 0 <= s < ps -> 0 <= k < pk ->
  Calculate_electronicEntropy occfac Nkpts Ns Efermi beta typ ps pk P s k =
  Ok (- (1 / beta) * state_sum sgs ks (zrange 0 (Ns - 1)) occfac Nkpts wt (term Efermi beta typ))%R.
Proof.
  intros Hs Hk. unfold Calculate_electronicEntropy.
  assert (L : forall s k, 0 <= s < ps -> 0 <= k < pk -> local_entropy occfac Nkpts Ns Efermi beta typ (P s k) =
    Ok (rs (map (fun sp => rs (map (fun j => (- (1 / beta) * rs (map (fun n => 
      occfac * wt (nth (Z.to_nat j) (kl k) 0%Z) / Nkpts * term Efermi beta typ (sp0 s + sp)%Z (nth (Z.to_nat j) (kl k) 0%Z) n) (zrange 0 (Ns - 1))))%R)
      (zrange 0 (g_nk (P s k) - 1)))) (zrange 0 (g_nsp (P s k) - 1))))).
  { clear s k Hs Hk. intros s k Hs Hk. pose proof (HP s k Hs Hk) as H. set (pr := P s k) in *. unfold local_entropy.
    set (G := fun sp j => (rs (map (term Efermi beta typ (sp0 s + sp)%Z (nth (Z.to_nat j) (kl k) 0%Z)) (zrange 0 (Ns - 1))) * wt (nth (Z.to_nat j) (kl k) 0%Z))%R).
    rewrite (ofold_sum _ (fun sp => rs (map (G sp) (zrange 0 (g_nk pr - 1))))).
    - cbn [obind]. f_equal. rewrite Rplus_0_l. rewrite <- (ksum_mul_r _ _ _ _ _ _ Rth). apply ksum_ext. intros sp _.
      rewrite <- (ksum_mul_r _ _ _ _ _ _ Rth). apply ksum_ext. intros j _.
      rewrite (ksum_mul_l _ _ _ _ _ _ Rth (occfac * wt (nth (Z.to_nat j) (kl k) 0%Z) / Nkpts)%R). unfold G, Rdiv.
      rewrite Rinv_mult. ring.
    - intros e sp Hsp. apply in_zrange in Hsp. rewrite (sh_nsp _ _ _ H) in Hsp.
      apply (ofold_sum _ (G sp)). intros e' j Hj. apply in_zrange in Hj.
      assert (A1 : 0 <= sp < nsp s) by lia. assert (A2 : 0 <= j < g_nk pr) by lia.
      assert (T : Calculate_entropy_term (g_lam pr) (g_occ pr) (j * Ns + sp * g_nk pr * Ns) Efermi 0 (Ns - 1) beta typ =
        Ok (rs (map (fun n => term Efermi beta typ (sp0 s + sp) (nth (Z.to_nat j) (kl k) 0) n) (zrange 0 (Ns - 1))))).
      { unfold Calculate_entropy_term, term. destruct (typ =? 0); [|destruct (typ =? 1)].
        - rewrite (ofold_sum _ (fun n => fd_term (occ (sp0 s + sp) (nth (Z.to_nat j) (kl k) 0) n))).
          + f_equal. rewrite Rplus_0_l. reflexivity.
          + intros e'' n Hn. apply in_zrange in Hn. assert (A3 : 0 <= n < Ns) by lia.
            pose proof (idx_ok pr s k sp j n H A1 A2 A3) as IX.
            replace (j * Ns + sp * g_nk pr * Ns + n) with (n + Ns * (j + g_nk pr * sp)) by ring.
            rewrite rd_ok by (pose proof (sh_osz _ _ _ H); lia). cbn [obind].
            now rewrite (sh_occ _ _ _ H sp j n A1 A2 A3).
        - rewrite (ofold_sum _ (fun n => gauss_term beta (lam (sp0 s + sp) (nth (Z.to_nat j) (kl k) 0) n) Efermi)).
          + f_equal. rewrite Rplus_0_l. reflexivity.
          + intros e'' n Hn. apply in_zrange in Hn. assert (A3 : 0 <= n < Ns) by lia.
            pose proof (idx_ok pr s k sp j n H A1 A2 A3) as IX.
            replace (j * Ns + sp * g_nk pr * Ns + n) with (n + Ns * (j + g_nk pr * sp)) by ring.
            rewrite rd_ok by (pose proof (sh_lsz _ _ _ H); lia). cbn [obind].
            now rewrite (sh_lam _ _ _ H sp j n A1 A2 A3).
        - f_equal. symmetry. apply (ksum_zero _ _ _ _ _ _ Rth). reflexivity. }
      rewrite T. cbn [obind]. rewrite rd_ok by (pose proof (sh_wsz _ _ _ H); lia). cbn [obind].
      rewrite (sh_wt _ _ _ H j A2). reflexivity. }
  erewrite reduce2_ok; [|apply HV|apply HV|exact L|exact Hs|exact Hk].
  f_equal. unfold state_sum, rsum.
  rewrite (over_states (fun sg kk => (- (1 / beta) * rs (map (fun n => (occfac * wt kk / Nkpts * term Efermi beta typ sg kk n)%R) (zrange 0 (Ns - 1))))%R)).
  rewrite <- (ksum_mul_l _ _ _ _ _ _ Rth). apply ksum_ext. intros sg _. apply (ksum_mul_l _ _ _ _ _ _ Rth).
Qed.
End STATES.
