(** C46: reduction of the Monkhorst-Pack grid by time reversal. *)
From Coq Require Import ZArith QArith Qabs Qround List Lia Bool Lqa Permutation.
From Verif Require Import CBase Spline Wrap Kpoints.
Import ListNotations.
Local Open Scope Q_scope.

(** ** Specification *)
Definition congr (a b : Q) : Prop := exists z, a == b + inject_Z z.
(** same point of the Brillouin zone *)
Definition bz_eq (p q : pt) : Prop := congr (p1 p) (p1 q) /\ congr (p2 p) (p2 q) /\ congr (p3 p) (p3 q).
Definition neg (p : pt) : pt := Pt (- p1 p) (- p2 p) (- p3 p).
Definition even_periodic (f : pt -> Q) : Prop :=
  (forall p q, bz_eq p q -> f p == f q) /\ (forall p, f (neg p) == f p).
Definition qsum (l : list Q) : Q := fold_right Qplus 0 l.
(** [sum_{j<k} F j] *)
Definition bigsum (k : nat) (F : Z -> Q) : Q := qsum (map (fun j => F (Z.of_nat j)) (seq 0 k)).
(** sum over the Monkhorst-Pack grid {((j+s)/K)}, 0 <= j < K *)
Definition mp1 (d : dir) (j : Z) : Q := (inject_Z j + sh d) / inject_Z (K d).
Definition mp_sum (m : mesh) (f : pt -> Q) : Q :=
  bigsum (Z.to_nat (K (dx m))) (fun a => bigsum (Z.to_nat (K (dy m))) (fun b => bigsum (Z.to_nat (K (dz m)))
    (fun c => f (Pt (mp1 (dx m) a) (mp1 (dy m) b) (mp1 (dz m) c))))).
Definition weighted_sum (l : list (pt * Z)) (f : pt -> Q) : Q :=
  qsum (map (fun e => inject_Z (snd e) * f (fst e)) l).
(** twice the shift is an integer (0 or 1/2 as in practice) or is not within the
    tolerance of one *)
Definition shift_ok (d : dir) : Prop :=
  forall h, Qabs (2 * sh d - inject_Z h) < inject_Z (K d) * tol d -> 2 * sh d == inject_Z h.
Definition shifts_ok (m : mesh) : Prop := shift_ok (dx m) /\ shift_ok (dy m) /\ shift_ok (dz m).

(** ** Sums *)
Lemma qsum_app l k : qsum (l ++ k) == qsum l + qsum k.
Proof. unfold qsum. induction l as [|a l IH]; cbn [app fold_right]; [ring|rewrite IH; ring]. Qed.
Lemma qsum_perm {A} (f : A -> Q) l k : Permutation l k -> qsum (map f l) == qsum (map f k).
Proof.
  induction 1; cbn; try reflexivity.
  - unfold qsum in IHPermutation. rewrite IHPermutation. reflexivity.
  - lra.
  - etransitivity; eassumption.
Qed.
Lemma qsum_ext {A} (f g : A -> Q) l : (forall x, In x l -> f x == g x) -> qsum (map f l) == qsum (map g l).
Proof.
  induction l as [|a l IH]; intros H; cbn; [reflexivity|].
  unfold qsum in IH. rewrite IH by (intros; apply H; right; auto). rewrite H by (left; auto). reflexivity.
Qed.
Lemma qsum_flat_map {A B} (h : A -> list B) (f : B -> Q) l :
  qsum (map f (flat_map h l)) == qsum (map (fun a => qsum (map f (h a))) l).
Proof.
  induction l as [|a l IH]; cbn [flat_map map]; [reflexivity|].
  rewrite map_app, qsum_app, IH. reflexivity.
Qed.
Lemma bigsum_S k F : bigsum (S k) F == F 0%Z + bigsum k (fun j => F (j + 1)%Z).
Proof.
  unfold bigsum. cbn [seq map qsum fold_right]. apply Qplus_inj_l.
  rewrite <- seq_shift, map_map. apply qsum_ext. intros x _. replace (Z.of_nat (S x)) with (Z.of_nat x + 1)%Z by lia. reflexivity.
Qed.
Lemma bigsum_last k F : bigsum (S k) F == bigsum k F + F (Z.of_nat k).
Proof.
  unfold bigsum. rewrite seq_S, map_app, qsum_app. cbn. lra.
Qed.
Lemma bigsum_ext k F G : (forall j, F j == G j) -> bigsum k F == bigsum k G.
Proof. intros H. apply qsum_ext. intros; apply H. Qed.
Lemma bigsum_shift1 k F : (forall j, F (j + Z.of_nat k)%Z == F j) -> bigsum k (fun j => F (j + 1)%Z) == bigsum k F.
Proof.
  intros H. pose proof (bigsum_S k F) as A. pose proof (bigsum_last k F) as B.
  pose proof (H 0%Z) as C. rewrite Z.add_0_l in C. lra.
Qed.
Lemma bigsum_shift k F a : (forall j, F (j + Z.of_nat k)%Z == F j) -> bigsum k (fun j => F (a + j)%Z) == bigsum k F.
Proof.
  intros H. revert a. apply Z.bi_induction.
  - intros x y ->. reflexivity.
  - apply bigsum_ext. intros j. reflexivity.
  - intros a. rewrite <- (bigsum_shift1 k (fun j => F (a + j)%Z)).
    + assert (E : bigsum k (fun j => F (a + (j + 1))%Z) == bigsum k (fun j => F (Z.succ a + j)%Z)).
      { apply bigsum_ext. intros j. replace (a + (j + 1))%Z with (Z.succ a + j)%Z by lia. reflexivity. }
      rewrite E. reflexivity.
    + intros j. replace (a + (j + Z.of_nat k))%Z with (a + j + Z.of_nat k)%Z by lia. apply H.
Qed.
Lemma range_bigsum d F : (0 < K d)%Z -> (forall j, F (j + K d)%Z == F j) ->
  qsum (map F (range d)) == bigsum (Z.to_nat (K d)) F.
Proof.
  intros HK H. unfold range. rewrite map_map.
  apply (bigsum_shift (Z.to_nat (K d)) F (n_start d)). rewrite Z2Nat.id by lia. exact H.
Qed.

(** ** From the ghost description to the claims *)
Lemma red1_congr d n : (0 < K d)%Z -> congr (red1 d n) (mp1 d n).
Proof. intros HK. destruct (red1_int d n HK) as [z E]. exists (- z)%Z. rewrite E, inject_Z_opp. unfold mp1. lra. Qed.
Lemma mp1_period d n : (0 < K d)%Z -> congr (mp1 d (n + K d)) (mp1 d n).
Proof.
  intros HK. pose proof (inject_pos _ HK). exists 1%Z. unfold mp1. rewrite inject_Z_plus. change (inject_Z 1) with 1. field. lra.
Qed.
Lemma congr_refl a : congr a a.
Proof. exists 0%Z. change (inject_Z 0) with 0. lra. Qed.

Lemma grid_sum m f : mesh_ok m -> (forall p q, bz_eq p q -> f p == f q) ->
  qsum (map (fun i => f (red m i)) (grid m)) == mp_sum m f.
Proof.
  intros [[Hx _] [[Hy _] [Hz _]]] Hf. unfold grid.
  rewrite qsum_flat_map. unfold mp_sum. rewrite <- range_bigsum; [|exact Hx|].
  2:{ intros j. apply bigsum_ext. intros b. apply bigsum_ext. intros c. apply Hf.
      split; [apply mp1_period; exact Hx|split; apply congr_refl]. }
  apply qsum_ext. intros a _. rewrite qsum_flat_map. rewrite <- range_bigsum; [|exact Hy|].
  2:{ intros j. apply bigsum_ext. intros c. apply Hf.
      split; [apply congr_refl|split; [apply mp1_period; exact Hy|apply congr_refl]]. }
  apply qsum_ext. intros b _. rewrite map_map. rewrite <- range_bigsum; [|exact Hz|].
  2:{ intros j. apply Hf. split; [apply congr_refl|split; [apply congr_refl|apply mp1_period; exact Hz]]. }
  apply qsum_ext. intros c _. apply Hf. split; [|split]; apply red1_congr; assumption.
Qed.

Lemma opp1_exact d n n' : dir_ok d -> shift_ok d -> opp1 d (red1 d n) (red1 d n') = true ->
  congr (red1 d n) (- red1 d n').
Proof.
  intros [HK [Hp _]] Hs H. pose proof (inject_pos _ HK) as P. destruct (opp1_int _ _ _ H) as [e [L U]].
  destruct (red1_int d n HK) as [z Ez]. destruct (red1_int d n' HK) as [z' Ez'].
  assert (E : 2 * sh d == inject_Z (K d * (z + z' + e) - n - n')).
  { apply Hs. apply Qabs_Qlt_condition.
    assert (X : 2 * sh d - inject_Z (K d * (z + z' + e) - n - n') == inject_Z (K d) * (red1 d n + red1 d n' - inject_Z e)).
    { rewrite Ez, Ez'. unfold Zminus. rewrite !inject_Z_plus, !inject_Z_opp, inject_Z_mult, !inject_Z_plus. field. lra. }
    rewrite X. split.
    - setoid_replace (- (inject_Z (K d) * tol d)) with (inject_Z (K d) * (- tol d)) by ring. apply Qmult_lt_l; assumption.
    - apply Qmult_lt_l; assumption. }
  exists e. rewrite Ez, Ez'.
  unfold Zminus in E. rewrite !inject_Z_plus, !inject_Z_opp, inject_Z_mult, !inject_Z_plus in E.
  assert (X : sh d == (inject_Z (K d) * (inject_Z z + inject_Z z' + inject_Z e) + - inject_Z n + - inject_Z n') * (1 # 2)) by lra.
  rewrite X. field. lra.
Qed.
Lemma opposite_exact m i j : mesh_ok m -> shifts_ok m -> opposite m (red m j) (red m i) = true ->
  bz_eq (red m j) (neg (red m i)).
Proof.
  intros [Ox [Oy Oz]] [Sx [Sy Sz]] H. unfold opposite in H. rewrite !andb_true_iff in H.
  destruct H as [[H1 H2] H3]. split; [|split]; apply opp1_exact; assumption.
Qed.

Lemma ghost_sum m P g f : mesh_ok m -> shifts_ok m -> even_periodic f -> ghost m P g ->
  weighted_sum (map (g_entry m) g) f == qsum (map (fun i => f (red m i)) P).
Proof.
  intros Om Os [Fp Fe] [Pm Ho]. rewrite (qsum_perm _ _ _ Pm). clear Pm. unfold weighted_sum.
  induction g as [|[i [j|]] g IH]; cbn [map flat_map]; [reflexivity| |].
  - cbn. unfold qsum in IH. rewrite IH by (intros a b H; apply Ho; right; exact H).
    rewrite (Fp (red m j) (neg (red m i))).
    2:{ apply opposite_exact; auto. apply Ho. left. reflexivity. }
    rewrite Fe. change (inject_Z 2) with 2. ring.
  - cbn. unfold qsum in IH. rewrite IH by (intros a b H; apply Ho; right; exact H). change (inject_Z 1) with 1. ring.
Qed.

(** Weights are 1 or 2, add up to the number of grid points, and the list fits
    its arrays: for every shift. *)
Theorem C46_weights m : mesh_ok m ->
  exists l, Calculate_kpoints m = Ok l /\
    (forall e, In e l -> snd e = 1%Z \/ snd e = 2%Z) /\
    fold_right Z.add 0%Z (map snd l) = Nkpts m /\
    (Z.of_nat (length l) <= Nkpts m)%Z /\ l <> [].
Proof.
  intros Om. destruct (kpoints_ghost m Om) as [g [E Gh]]. exists (map (g_entry m) g). split; [exact E|].
  pose proof (grid_length m Om) as L. pose proof (ghost_length _ _ _ Gh) as Lg. destruct Gh as [Pm _].
  assert (N : (0 < Nkpts m)%Z) by (destruct Om as [[Hx _] [[Hy _] [Hz _]]]; unfold Nkpts; nia).
  split; [|split; [|split]].
  - intros e He. apply in_map_iff in He. destruct He as [[i [j|]] [<- _]]; cbn; auto.
  - rewrite (Permutation_length Pm) in L. rewrite map_map.
    enough (X : fold_right Z.add 0%Z (map (fun e => snd (g_entry m e)) g) = Z.of_nat (length (flat_map g_idx g))) by lia.
    clear. induction g as [|[i [j|]] g IH]; cbn [map fold_right flat_map]; [reflexivity| |];
      rewrite IH, app_length; cbn [g_idx length fst snd g_entry]; lia.
  - rewrite map_length. lia.
  - destruct g; [|discriminate]. cbn in Pm. apply Permutation_length in Pm. cbn in Pm. lia.
Qed.

(** Sums over the reduced list equal sums over the whole Monkhorst-Pack grid. *)
Theorem C46_brillouin_sum m f l : mesh_ok m -> shifts_ok m -> even_periodic f ->
  Calculate_kpoints m = Ok l -> weighted_sum l f == mp_sum m f.
Proof.
  intros Om Os Hf E. destruct (kpoints_ghost m Om) as [g [E' Gh]]. rewrite E in E'. injection E' as ->.
  rewrite (ghost_sum m (grid m) g f Om Os Hf Gh). apply grid_sum; [exact Om|apply Hf].
Qed.

(** ** Minimality: for non-negative shifts no two listed points are related by time reversal. *)
Lemma mark_keys m p l l' : mark m p l = Some l' -> map fst l' = map fst l.
Proof.
  revert l'. induction l as [|[q w] l IH]; cbn; intros l'; [discriminate|].
  destruct (opposite m p q); [intros [= <-]; reflexivity|].
  destruct (mark m p l) as [r|]; [|discriminate]. intros [= <-]. cbn. rewrite (IH r eq_refl). reflexivity.
Qed.
Lemma mark_none m p l : mark m p l = None -> forall q, In q (map fst l) -> opposite m p q = false.
Proof.
  induction l as [|[q w] l IH]; cbn; intros H q' Hq; [destruct Hq|].
  destruct (opposite m p q) eqn:E; [discriminate|].
  destruct (mark m p l); [discriminate|]. destruct Hq as [<-|Hq]; auto.
Qed.
Definition unrelated (m : mesh) (l : list pt) : Prop :=
  forall a b p q, (a < b)%nat -> nth_error l a = Some p -> nth_error l b = Some q -> opposite m q p = false.
Lemma kloop_unrelated m cap ps : forall l l', unrelated m (map fst l) -> kloop m cap ps l = Ok l' -> unrelated m (map fst l').
Proof.
  induction ps as [|p ps IH]; cbn; intros l l' U E; [injection E as <-; exact U|].
  unfold kstep in E. destruct (mark m p l) as [l1|] eqn:M; cbn [obind] in E.
  - apply (IH l1 l'); [rewrite (mark_keys _ _ _ _ M); exact U|exact E].
  - destruct (length l <? cap)%nat; cbn [obind] in E; [|discriminate].
    apply (IH _ _) in E; [exact E|]. rewrite map_app. cbn. intros a b x y Hab Hx Hy.
    destruct (Nat.lt_ge_cases b (length (map fst l))) as [Hb|Hb].
    + rewrite nth_error_app1 in Hx, Hy by lia. exact (U a b x y Hab Hx Hy).
    + rewrite nth_error_app2 in Hy by lia. destruct (b - length (map fst l))%nat eqn:Eb; cbn in Hy.
      2:{ destruct n; discriminate. }
      injection Hy as <-. rewrite nth_error_app1 in Hx.
      2:{ apply Nat.lt_le_trans with b; lia. }
      apply (mark_none _ _ _ M). eapply nth_error_In. eassumption.
Qed.
Lemma kloop_from_grid m cap is : forall l l', (forall p, In p (map fst l) -> exists i, In i (grid m) /\ p = red m i) ->
  (forall i, In i is -> In i (grid m)) -> kloop m cap (map (red m) is) l = Ok l' ->
  forall p, In p (map fst l') -> exists i, In i (grid m) /\ p = red m i.
Proof.
  induction is as [|i is IH]; cbn; intros l l' H Hi E; [injection E as <-; exact H|].
  unfold kstep in E. destruct (mark m (red m i) l) as [l1|] eqn:M; cbn [obind] in E.
  - apply (IH l1 l'); [rewrite (mark_keys _ _ _ _ M); exact H|auto|exact E].
  - destruct (length l <? cap)%nat; cbn [obind] in E; [|discriminate].
    refine (IH _ _ _ _ E); [|auto]. rewrite map_app. intros p Hp. apply in_app_or in Hp.
    destruct Hp as [Hp|[<-|[]]]; [auto|]. exists i. split; [apply Hi; left; reflexivity|reflexivity].
Qed.
(** listed points are points of the grid *)
Lemma listed_in_grid m l : Calculate_kpoints m = Ok l -> forall e, In e l -> exists i, In i (grid m) /\ fst e = red m i.
Proof.
  intros E e He. eapply kloop_from_grid with (l := []) (is := grid m); [cbn; tauto|auto|exact E|].
  apply in_map. exact He.
Qed.

Lemma qtrunc_bounds x : 0 <= x -> inject_Z (qtrunc x) <= x /\ x < inject_Z (qtrunc x) + 1.
Proof.
  intros H. unfold qtrunc. destruct (Qle_bool 0 x) eqn:E; [|apply Qle_bool_iff in H; congruence].
  split; [apply Qfloor_le|]. pose proof (Qlt_floor x) as L. rewrite inject_Z_plus in L. exact L.
Qed.

Lemma red1_bounds d n : (0 < K d)%Z -> In n (range d) -> wrapped d = true -> 0 <= shift d ->
  inject_Z (K d) * TEMP_TOL <= (1 # 2) ->
  - (1 # 2) + TEMP_TOL <= red1 d n /\ red1 d n < (1 # 2) + TEMP_TOL.
Proof.
  intros HK Hn Hw Hs Ht. pose proof (inject_pos _ HK) as P. unfold red1. rewrite Hw. unfold fmod.
  set (y := inject_Z n / inject_Z (K d) + shift d / inject_Z (K d) + (1 # 2) - TEMP_TOL).
  assert (Y : y / 1 == y) by field.
  assert (Hy : 0 <= y / 1).
  { rewrite Y.
    assert (E : y == (inject_Z n + shift d + inject_Z (K d) * (1 # 2) - inject_Z (K d) * TEMP_TOL) / inject_Z (K d))
      by (unfold y; field; lra).
    rewrite E. apply Qle_shift_div_l; [exact P|].
    apply in_range in Hn. unfold n_start in Hn.
    assert (N : (1 <= 2 * n + K d)%Z).
    { pose proof (Z.quot_rem' (K d - 1) 2). pose proof (Z.rem_bound_pos (K d - 1) 2 ltac:(lia) ltac:(lia)). lia. }
    assert (N' : 1 <= 2 * inject_Z n + inject_Z (K d)).
    { change 1 with (inject_Z 1). change 2 with (inject_Z 2). rewrite <- inject_Z_mult, <- inject_Z_plus, <- Zle_Qle. exact N. }
    lra. }
  destruct (qtrunc_bounds (y / 1) Hy) as [B1 B2]. set (t := inject_Z (qtrunc (y / 1))) in *.
  rewrite Y in B1, B2. lra.
Qed.
Lemma opp1_complete d n n' : dir_ok d -> In n (range d) -> In n' (range d) -> wrapped d = true -> 0 <= shift d ->
  inject_Z (K d) * TEMP_TOL <= (1 # 2) ->
  congr (red1 d n) (- red1 d n') -> opp1 d (red1 d n) (red1 d n') = true.
Proof.
  intros [HK [Hp _]] Hn Hn' Hw Hs Ht [z E].
  destruct (red1_bounds d n HK Hn Hw Hs Ht) as [A B]. destruct (red1_bounds d n' HK Hn' Hw Hs Ht) as [A' B'].
  assert (S : red1 d n + red1 d n' == inject_Z z) by lra.
  assert (Z1 : (-1 < z)%Z).
  { rewrite Zlt_Qlt. rewrite <- S. change (inject_Z (-1)) with (- (1)). unfold TEMP_TOL in *. lra. }
  assert (Z2 : (z < 2)%Z).
  { rewrite Zlt_Qlt. rewrite <- S. change (inject_Z 2) with 2. unfold TEMP_TOL in *. lra. }
  unfold opp1. apply orb_true_iff. assert (C : z = 0%Z \/ z = 1%Z) by lia. destruct C as [-> | ->]; [left|right];
    apply qabs_lt; [change (inject_Z 0) with 0 in S|change (inject_Z 1) with 1 in S]; lra.
Qed.
Definition reducible (d : dir) : Prop :=
  wrapped d = true /\ 0 <= shift d /\ inject_Z (K d) * TEMP_TOL <= (1 # 2).
Theorem C46_minimal m l a b p q : mesh_ok m ->
  reducible (dx m) -> reducible (dy m) -> reducible (dz m) ->
  Calculate_kpoints m = Ok l -> a <> b ->
  nth_error (map fst l) a = Some p -> nth_error (map fst l) b = Some q -> ~ bz_eq p (neg q).
Proof.
  intros Om [Wx [Sx Tx]] [Wy [Sy Ty]] [Wz [Sz Tz]] E Hab Ha Hb [C1 [C2 C3]].
  assert (G : forall r c, nth_error (map fst l) c = Some r -> exists i, In i (grid m) /\ r = red m i).
  { intros r c Hr. apply nth_error_In in Hr. apply in_map_iff in Hr. destruct Hr as [e [<- He]].
    eapply listed_in_grid; eassumption. }
  destruct (G _ _ Ha) as [i [Hi ->]]. destruct (G _ _ Hb) as [j [Hj ->]].
  apply in_grid in Hi. apply in_grid in Hj. destruct Om as [Ox [Oy Oz]]. cbn in C1, C2, C3.
  assert (O : opposite m (red m i) (red m j) = true).
  { unfold opposite. cbn. rewrite !opp1_complete; tauto. }
  assert (U : unrelated m (map fst l)).
  { eapply kloop_unrelated; [|exact E]. intros c d' x y _ H. destruct c; discriminate. }
  destruct (Nat.lt_trichotomy a b) as [H|[H|H]]; [|contradiction|].
  - rewrite opposite_sym, (U a b _ _ H Ha Hb) in O. discriminate.
  - rewrite (U b a _ _ H Hb Ha) in O. discriminate.
Qed.

(** A 3 x 2 x 1 grid, the second direction shifted by one half. *)
Definition ex_tol : Q := 1 # 100000000.
Definition ex_mesh : mesh := Mesh (Dir 3 0 true ex_tol) (Dir 2 (1 # 2) true ex_tol) (Dir 1 0 true ex_tol).
Lemma ex_ok d : (0 < K d)%Z -> tol d = ex_tol -> (K d <= 10)%Z -> dir_ok d.
Proof.
  intros H E H'. pose proof (inject_pos _ H) as P. split; [exact H|]. rewrite E. split; [reflexivity|].
  apply Qle_shift_div_l; [exact P|]. rewrite Zle_Qle in H'. change (inject_Z 10) with 10 in H'. unfold ex_tol. lra.
Qed.
Example C46_ex_hyps : mesh_ok ex_mesh /\ shifts_ok ex_mesh.
Proof.
  split; [repeat split; try (apply ex_ok; cbn; reflexivity || lia); cbn; try lia; reflexivity || discriminate|].
  repeat split; intros h; cbn [ex_mesh dx dy dz sh wrapped shift K tol]; intros H;
    apply Qabs_Qlt_condition in H; unfold ex_tol in H;
    change (inject_Z 3) with 3 in H; change (inject_Z 2) with 2 in H; change (inject_Z 1) with 1 in H.
  - assert (h = 0)%Z as -> by (apply inject_lt_1; lra). reflexivity.
  - assert (h - 1 = 0)%Z by (apply inject_lt_1; unfold Zminus; rewrite inject_Z_plus; change (inject_Z (-(1))) with (-(1)); lra).
    replace h with 1%Z by lia. reflexivity.
  - assert (h = 0)%Z as -> by (apply inject_lt_1; lra). reflexivity.
Qed.
Example C46_ex_list : match Calculate_kpoints ex_mesh with
  | Ok l => map snd l = [2; 2; 2]%Z
  | _ => False end.
Proof. vm_compute. reflexivity. Qed.
Example C46_ex_even : even_periodic (fun _ => 1).
Proof. split; reflexivity. Qed.

Print Assumptions C46_weights.
Print Assumptions C46_brillouin_sum.
Print Assumptions C46_minimal.
