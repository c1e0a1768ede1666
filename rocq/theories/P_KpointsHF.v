(** C47: Hartree-Fock k-points and their maps to the reduced list. *)
From Coq Require Import ZArith QArith Qabs List Lia Bool Lqa Permutation.
From Verif Require Import CBase Spline Wrap Kpoints KpointsHF P_Kpoints.
Import ListNotations.
Local Open Scope Z_scope.

(** ** Specification *)
(** the down-sampling factor is inadmissible *)
Definition bad_factor (d : dir) (s : Z) : Prop := s < 0 \/ (0 < s /\ ~ (s | K d)).
(** the grid index belongs to the coarse grid: the zero point for factor 0, every s-th index otherwise *)
Definition on_coarse (d : dir) (s n : Z) : Prop :=
  (s = 0 /\ (Qabs (red1 d n) < tol d)%Q) \/ (0 < s /\ (s | n - n_start d + 1)).
Definition no_zero (d : dir) (s : Z) : Prop := s = 0 /\ forall n, In n (range d) -> ~ on_coarse d s n.
Definition each (m : mesh) (s : down) (P : dir -> Z -> Prop) : Prop := P (dx m) (sx s) /\ P (dy m) (sy s) /\ P (dz m) (sz s).
Definition some (m : mesh) (s : down) (P : dir -> Z -> Prop) : Prop := P (dx m) (sx s) \/ P (dy m) (sy s) \/ P (dz m) (sz s).
Definition coarse_pt (m : mesh) (s : down) (i : idx) : Prop :=
  on_coarse (dx m) (sx s) (i1 i) /\ on_coarse (dy m) (sy s) (i2 i) /\ on_coarse (dz m) (sz s) (i3 i).

(** ** Bridging *)
Lemma rejected_bad d s : 0 < K d -> ds_rejected d s = true <-> bad_factor d s.
Proof.
  intros HK. unfold ds_rejected, bad_factor. rewrite orb_true_iff, Z.ltb_lt, andb_true_iff, Z.ltb_lt, negb_true_iff, Z.eqb_neq.
  split; (intros [H|[H1 H2]]; [left; exact H|right; split; [exact H1|]]).
  - intros D. apply H2. apply Z.rem_divide; [lia|exact D].
  - intros R. apply H2. apply Z.rem_divide; [lia|exact R].
Qed.
Lemma flag_coarse d s n : 0 <= s -> flag_c d s n = true <-> on_coarse d s n.
Proof.
  intros Hs. unfold flag_c, on_coarse. destruct (Z.eqb_spec s 0) as [->|H].
  - rewrite qltb_lt. split; [intros X; left; auto|intros [[_ X]|[X _]]; [exact X|lia]].
  - rewrite Z.eqb_eq. rewrite Z.rem_divide by lia. split; [intros X; right; split; [lia|exact X]|intros [[X _]|[_ X]]; [lia|exact X]].
Qed.
Lemma not_rejected_nonneg d s : ds_rejected d s = false -> 0 <= s.
Proof. unfold ds_rejected. intros H. apply orb_false_iff in H. destruct H as [H _]. apply Z.ltb_ge in H. exact H. Qed.
Lemma missing_no_zero d s comp g :
  (forall n, In n (range d) <-> exists i, In i g /\ comp i = n) -> 0 <= s ->
  gamma_missing d s comp g = true <-> no_zero d s.
Proof.
  intros Hc Hs. unfold gamma_missing, no_zero. rewrite andb_true_iff, Z.eqb_eq, negb_true_iff.
  split; (intros [-> H]; split; [reflexivity|]).
  - intros n Hn C. apply Hc in Hn. destruct Hn as [i [Hi <-]]. apply flag_coarse in C; [|lia].
    assert (existsb (fun i => flag_c d 0 (comp i)) g = true) by (apply existsb_exists; eauto). congruence.
  - destruct (existsb _ g) eqn:E; [|reflexivity]. apply existsb_exists in E. destruct E as [i [Hi F]].
    exfalso. apply (H (comp i)); [apply Hc; eauto|]. apply flag_coarse; [lia|exact F].
Qed.

(** everything the code produces, in terms of the selected grid indices *)
Lemma hf_run m s l : mesh_ok m -> Calculate_kpoints m = Ok l ->
  match Calculate_hf m s (map fst l) with
  | UB => False
  | Exit => some m s bad_factor \/ (~ some m s bad_factor /\ some m s no_zero)
  | Ok h => ~ some m s bad_factor /\ ~ some m s no_zero /\
      let sel := filter (chosen m s) (grid m) in
      let ks := map fst l in
      Z.of_nat (length sel) = Nkpts_hf m s /\
      hf_pts h = map (red m) sel /\ hf_ind h = map (indof m ks) sel /\
      hf_pn h = map (fun i => snd (hf_link m ks (red m i))) sel /\
      NoDup (red_list h) /\ (forall k, In k (red_list h) <-> In k (hf_ind h)) /\
      (forall k, (count_occ Nat.eq_dec (hf_ind h) k <= 2)%nat) /\
      (forall j k, nth_error (red_list h) j = Some k -> rows h j = pos (hf_ind h) k) /\
      length (ind_red h) = length (hf_ind h) /\
      (forall a k, nth_error (hf_ind h) a = Some k -> exists j, nth_error (ind_red h) a = Some j /\ nth_error (red_list h) j = Some k)
  end.
Proof.
  intros Om E. destruct (kpoints_ghost m Om) as [g [E' Gh]]. rewrite E in E'. injection E' as ->. clear E.
  rewrite map_map. change (map (fun x => fst (g_entry m x)) g) with (g_pt m g).
  pose proof Om as [Ox [Oy Oz]]. pose proof (proj1 Ox) as Kx. pose proof (proj1 Oy) as Ky. pose proof (proj1 Oz) as Kz.
  unfold Calculate_hf.
  destruct (ds_rejected (dx m) (sx s) || ds_rejected (dy m) (sy s) || ds_rejected (dz m) (sz s)) eqn:R.
  { rewrite !orb_true_iff, !rejected_bad in R by assumption. left. unfold some. tauto. }
  apply orb_false_iff in R. destruct R as [R Rz]. apply orb_false_iff in R. destruct R as [Rx Ry].
  assert (NB : ~ some m s bad_factor).
  { unfold some. rewrite <- !rejected_bad by assumption. rewrite Rx, Ry, Rz. intuition discriminate. }
  pose proof (not_rejected_nonneg _ _ Rx) as Px. pose proof (not_rejected_nonneg _ _ Ry) as Py.
  pose proof (not_rejected_nonneg _ _ Rz) as Pz.
  pose proof (cnt_le _ _ Ox Rx) as Lx. pose proof (cnt_le _ _ Oy Ry) as Ly. pose proof (cnt_le _ _ Oz Rz) as Lz.
  pose proof (chosen_count m s) as CC. set (sel := filter (chosen m s) (grid m)) in *.
  assert (Lsel : (length sel <= Z.to_nat (Nkpts_hf m s))%nat).
  { rewrite CC. unfold Nkpts_hf. clear - Lx Ly Lz.
    generalize dependent (K_hf (dz m) (sz s)). generalize dependent (K_hf (dy m) (sy s)). generalize dependent (K_hf (dx m) (sx s)).
    generalize (cnt (dx m) (sx s)) (cnt (dy m) (sy s)) (cnt (dz m) (sz s)). intros a b c x Hx y Hy z Hz.
    assert (H1 : Z.of_nat a * Z.of_nat b <= x * y) by (apply Z.mul_le_mono_nonneg; lia).
    assert (H2 : Z.of_nat a * Z.of_nat b * Z.of_nat c <= x * y * z) by (apply Z.mul_le_mono_nonneg; lia).
    lia. }
  rewrite hf_store_ok by exact Lsel. cbn [app]. fold sel. cbn [obind].
  destruct (grid_comp m Om) as [Gx [Gy Gz]].
  destruct (gamma_missing (dx m) (sx s) i1 (grid m) || gamma_missing (dy m) (sy s) i2 (grid m)
       || gamma_missing (dz m) (sz s) i3 (grid m)) eqn:M.
  { right. split; [exact NB|]. rewrite !orb_true_iff in M.
    rewrite (missing_no_zero _ _ _ _ Gx Px), (missing_no_zero _ _ _ _ Gy Py), (missing_no_zero _ _ _ _ Gz Pz) in M.
    unfold some. tauto. }
  apply orb_false_iff in M. destruct M as [M Mz]. apply orb_false_iff in M. destruct M as [Mx My].
  assert (NZ : ~ some m s no_zero).
  { unfold some. rewrite <- (missing_no_zero _ _ _ _ Gx Px), <- (missing_no_zero _ _ _ _ Gy Py), <- (missing_no_zero _ _ _ _ Gz Pz).
    rewrite Mx, My, Mz. intuition discriminate. }
  pose proof (cnt_eq _ _ Ox Rx (gamma_missing_false _ _ _ _ Gx Mx)) as Ex.
  pose proof (cnt_eq _ _ Oy Ry (gamma_missing_false _ _ _ _ Gy My)) as Ey.
  pose proof (cnt_eq _ _ Oz Rz (gamma_missing_false _ _ _ _ Gz Mz)) as Ez.
  assert (Esel : Z.of_nat (length sel) = Nkpts_hf m s).
  { rewrite CC, !Nat2Z.inj_mul, Ex, Ey, Ez. unfold Nkpts_hf. ring. }
  rewrite map_length. replace (Z.to_nat (Nkpts_hf m s) - length sel)%nat with 0%nat by lia. cbn [repeat]. rewrite app_nil_r.
  rewrite !map_map. set (ks := g_pt m g) in *. change (map (fun x => fst (hf_link m ks (red m x))) sel) with (map (indof m ks) sel).
  assert (Hsel : forall i, In i sel -> In i (grid m)) by (intros i Hi; apply filter_In in Hi; tauto).
  assert (Hne : map (indof m ks) sel <> []).
  { intros C. apply map_eq_nil in C. rewrite C in Esel. cbn in Esel.
    assert (H1 : 0 < Nkpts_hf m s); [|lia]. unfold Nkpts_hf.
    assert (Q : forall d q, 0 < K d -> ds_rejected d q = false -> 0 < K_hf d q).
    { intros d q Hk Hr. unfold K_hf. destruct (Z.eqb_spec q 0); [lia|]. pose proof (not_rejected_nonneg _ _ Hr).
      unfold ds_rejected in Hr. apply orb_false_iff in Hr. destruct Hr as [_ Hr]. apply andb_false_iff in Hr.
      destruct Hr as [Hr|Hr]; [apply Z.ltb_ge in Hr; lia|]. apply negb_false_iff, Z.eqb_eq in Hr.
      pose proof (Z.quot_rem' (K d) q). nia. }
    pose proof (Q _ _ Kx Rx). pose proof (Q _ _ Ky Ry). pose proof (Q _ _ Kz Rz). nia. }
  assert (Hb : forall k, In k (map (indof m ks) sel) -> (k < length ks)%nat).
  { intros k Hk. apply in_map_iff in Hk. destruct Hk as [i [<- Hi]].
    destruct (hf_link_spec m g i Om Gh (Hsel i Hi)) as [e [He _]]. unfold ks, g_pt. rewrite map_length.
    apply nth_error_Some. unfold indof. fold (g_pt m g). rewrite He. discriminate. }
  destruct (hf_red_list_spec (length ks) _ Hne Hb) as [rl [E1 [N1 I1]]]. rewrite E1. cbn [obind].
  assert (C2 : forall k, (count_occ Nat.eq_dec (map (indof m ks) sel) k <= 2)%nat).
  { intros k. rewrite count_occ_map_filter.
    destruct (nth_error g k) as [e|] eqn:Eg.
    - transitivity (length (g_idx e)); [|destruct e as [f [o|]]; cbn; lia].
      apply NoDup_incl_length; [apply NoDup_filter, NoDup_filter, grid_nodup|].
      intros i Hi. apply filter_In in Hi. destruct Hi as [Hi Hk]. apply Nat.eqb_eq in Hk.
      destruct (hf_link_spec m g i Om Gh (Hsel i Hi)) as [e' [He' Hl]]. unfold indof in Hk. fold ks in He'. rewrite Hk, Eg in He'.
      injection He' as <-. destruct e as [f o]. unfold g_idx; cbn [fst snd] in *. destruct Hl as [[_ ->]|[_ ->]]; [left|right; left]; reflexivity.
    - destruct (filter _ sel) as [|i r] eqn:F; [cbn; lia|]. exfalso.
      assert (Hi : In i (filter (fun a => indof m ks a =? k)%nat sel)) by (rewrite F; left; reflexivity).
      apply filter_In in Hi. destruct Hi as [Hi Hk]. apply Nat.eqb_eq in Hk.
      destruct (hf_link_spec m g i Om Gh (Hsel i Hi)) as [e' [He' _]]. unfold indof in Hk. fold ks in He'. rewrite Hk, Eg in He'. discriminate. }
  destruct (inv_loop_spec rl (map (indof m ks) sel) N1 [] (fun _ => []) []) as [rw [ir [V1 [V2 [V3 V4]]]]].
  - intros k. apply I1.
  - exact C2.
  - reflexivity.
  - reflexivity.
  - intros a k H. destruct a; discriminate.
  - cbn [length app] in V1, V2, V3, V4. rewrite V1. cbn [obind fst snd hf_pts hf_ind hf_pn red_list rows ind_red].
    split; [exact NB|]. split; [exact NZ|]. repeat split; auto; apply I1.
Qed.

(** ** The theorems *)
(** No out-of-bounds write; the code stops exactly for inadmissible factors or
    a zero factor without a zero point. *)
Theorem C47_outcome m s l : mesh_ok m -> Calculate_kpoints m = Ok l ->
  Calculate_hf m s (map fst l) <> UB /\
  (Calculate_hf m s (map fst l) = Exit <-> some m s bad_factor \/ some m s no_zero).
Proof.
  intros Om E. pose proof (hf_run m s l Om E) as H. destruct (Calculate_hf m s (map fst l)).
  - split; [discriminate|]. split; [discriminate|]. tauto.
  - destruct H.
  - split; [discriminate|]. tauto.
Qed.

(** Exactly the points of the coarse grid are stored, each once, Nkpts_hf of them. *)
Theorem C47_selected m s l h : mesh_ok m -> Calculate_kpoints m = Ok l -> Calculate_hf m s (map fst l) = Ok h ->
  Z.of_nat (length (hf_pts h)) = Nkpts_hf m s /\ NoDup (hf_pts h) /\
  (forall p, In p (hf_pts h) <-> exists i, In i (grid m) /\ coarse_pt m s i /\ p = red m i).
Proof.
  intros Om E F. pose proof (hf_run m s l Om E) as H. rewrite F in H. destruct H as [NB [_ [L [P _]]]].
  assert (NN : 0 <= sx s /\ 0 <= sy s /\ 0 <= sz s).
  { unfold some, bad_factor in NB. lia. }
  destruct NN as [Nx [Ny Nz]]. rewrite P. split; [rewrite map_length; exact L|]. split.
  - assert (D : NoDup (filter (chosen m s) (grid m))) by (apply NoDup_filter, grid_nodup).
    assert (I : forall i j, In i (filter (chosen m s) (grid m)) -> In j (filter (chosen m s) (grid m)) -> red m i = red m j -> i = j).
    { intros i j Hi Hj C. apply filter_In in Hi. apply filter_In in Hj. apply (same_unique m i j Om); [tauto|tauto|].
      rewrite C. apply same_refl. exact Om. }
    clear L P. induction (filter (chosen m s) (grid m)) as [|a r IH]; cbn; [constructor|]. apply NoDup_cons_iff in D. destruct D as [Da D].
    constructor; [|apply IH; [exact D|intros i j Hi Hj; apply I; right; auto]].
    + intros C. apply in_map_iff in C. destruct C as [b [C Hb]]. apply Da. rewrite <- (I b a); [exact Hb|right; exact Hb|left; reflexivity|exact C].
  - intros p. rewrite in_map_iff. split.
    + intros [i [<- Hi]]. apply filter_In in Hi. destruct Hi as [Hi C]. exists i. split; [exact Hi|]. split; [|reflexivity].
      unfold chosen in C. rewrite !andb_true_iff in C. destruct C as [[C1 C2] C3].
      split; [|split]; apply flag_coarse; assumption.
    + intros [i [Hi [[C1 [C2 C3]] ->]]]. exists i. split; [reflexivity|]. apply filter_In. split; [exact Hi|].
      unfold chosen. rewrite !andb_true_iff. repeat split; apply flag_coarse; assumption.
Qed.

(** Each stored point is linked to the listed point that equals it, or, if it
    is not listed, to the listed point that is its time-reversed image. *)
Theorem C47_links m s l h a p : mesh_ok m -> shifts_ok m -> Calculate_kpoints m = Ok l ->
  Calculate_hf m s (map fst l) = Ok h -> nth_error (hf_pts h) a = Some p ->
  exists k pn q, nth_error (hf_ind h) a = Some k /\ nth_error (hf_pn h) a = Some pn /\
    nth_error (map fst l) k = Some q /\
    (pn = true -> q = p) /\ (pn = false -> ~ In p (map fst l) /\ bz_eq q (neg p)).
Proof.
  intros Om Os E F Ha. pose proof (hf_run m s l Om E) as H. rewrite F in H. destruct H as [_ [_ [_ [P [I [N _]]]]]].
  destruct (kpoints_ghost m Om) as [g [E' Gh]]. rewrite E in E'. injection E' as El.
  assert (Ek : map fst l = g_pt m g) by (rewrite El, map_map; reflexivity). rewrite Ek in I, N |- *.
  rewrite P, nth_error_map in Ha. destruct (nth_error (filter (chosen m s) (grid m)) a) as [i|] eqn:Ei; cbn in Ha; [|discriminate].
  injection Ha as <-. pose proof (nth_error_In _ _ Ei) as Hi. apply filter_In in Hi. destruct Hi as [Hi _].
  destruct (hf_link_spec m g i Om Gh Hi) as [e [He Hl]].
  exists (indof m (g_pt m g) i), (snd (hf_link m (g_pt m g) (red m i))), (red m (fst e)).
  rewrite I, N, !nth_error_map, Ei. cbn [option_map]. split; [reflexivity|]. split; [reflexivity|].
  split; [unfold g_pt at 1; rewrite nth_error_map; unfold indof; rewrite He; reflexivity|].
  destruct Hl as [[Hl1 Hl2]|[Hl1 Hl2]]; rewrite Hl1; split; try discriminate; intros _.
  - rewrite Hl2. reflexivity.
  - split.
    + intros C. unfold hf_link in Hl1. pose proof (find_same_spec m (g_pt m g) (red m i) 0) as FS.
      destruct (find_same m 0 (g_pt m g) (red m i)); [discriminate|].
      specialize (FS _ C). rewrite same_refl in FS by exact Om. discriminate.
    + destruct e as [f o]. cbn in Hl2 |- *. subst o. pose proof (proj2 Gh f i (nth_error_In _ _ He)) as O.
      rewrite opposite_sym in O. apply opposite_exact; assumption.
Qed.

(** The list of distinct indices, and the inverse map: row [j] lists exactly the
    stored points whose index is entry [j], never more than two. *)
Theorem C47_inverse_map m s l h : mesh_ok m -> Calculate_kpoints m = Ok l -> Calculate_hf m s (map fst l) = Ok h ->
  NoDup (red_list h) /\ (forall k, In k (red_list h) <-> In k (hf_ind h)) /\
  (length (red_list h) <= length l)%nat /\
  (forall j, (j < length (red_list h))%nat -> (1 <= length (rows h j) <= 2)%nat /\ NoDup (rows h j)) /\
  (forall j a, (j < length (red_list h))%nat ->
     In a (rows h j) <-> exists k, nth_error (hf_ind h) a = Some k /\ nth_error (red_list h) j = Some k) /\
  (forall a k, nth_error (hf_ind h) a = Some k ->
     exists j, nth_error (ind_red h) a = Some j /\ nth_error (red_list h) j = Some k).
Proof.
  intros Om E F. pose proof (hf_run m s l Om E) as H. rewrite F in H.
  destruct H as [_ [_ [_ [P [I [N [ND [RI [C2 [RW [IL IR]]]]]]]]]]].
  split; [exact ND|]. split; [exact RI|].
  assert (PIn : forall a k, In a (pos (hf_ind h) k) <-> nth_error (hf_ind h) a = Some k).
  { intros a k. unfold pos. rewrite filter_In, in_seq, Nat.eqb_eq. split.
    - intros [[_ H] H']. rewrite <- H'. apply nth_error_nth'. lia.
    - intros H. pose proof (nth_error_nth _ _ 0%nat H) as X. split; [|exact X].
      assert (nth_error (hf_ind h) a <> None) by congruence. apply nth_error_Some in H0. lia. }
  split; [|split; [|split]].
  - destruct (kpoints_ghost m Om) as [g [E' Gh]]. rewrite E in E'. injection E' as El.
    assert (Ek : map fst l = g_pt m g) by (rewrite El, map_map; reflexivity). rewrite Ek in I.
    rewrite <- (seq_length (length l) 0). apply NoDup_incl_length; [exact ND|]. intros k Hk. apply RI in Hk.
    rewrite I in Hk. apply in_map_iff in Hk. destruct Hk as [i [<- Hi]]. apply filter_In in Hi.
    destruct (hf_link_spec m g i Om Gh (proj1 Hi)) as [e [He _]]. apply in_seq. split; [lia|].
    rewrite El, map_length. cbn. apply nth_error_Some. unfold indof. rewrite He. discriminate.
  - intros j Hj. destruct (nth_error (red_list h) j) as [k|] eqn:Ej; [|apply nth_error_None in Ej; lia].
    rewrite (RW j k Ej), pos_length. split; [split; [|apply C2]|apply NoDup_filter, seq_NoDup].
    assert (X : In k (hf_ind h)) by (apply RI; eapply nth_error_In; exact Ej).
    apply (count_occ_In Nat.eq_dec) in X. lia.
  - intros j a Hj. destruct (nth_error (red_list h) j) as [k|] eqn:Ej; [|apply nth_error_None in Ej; lia].
    rewrite (RW j k Ej), PIn. split; [intros X; exists k; auto|intros [k' [X [= <-]]]; exact X].
  - exact IR.
Qed.

(** 4 x 2 x 1 grid, down-sampled by 2, 1 and 0. *)
Definition hf_mesh : mesh := Mesh (Dir 4 0 true ex_tol) (Dir 2 (1 # 2) true ex_tol) (Dir 1 0 true ex_tol).
Example C47_ex : exists l h, mesh_ok hf_mesh /\ Calculate_kpoints hf_mesh = Ok l /\
  Calculate_hf hf_mesh (Down 2 1 0) (map fst l) = Ok h /\
  (hf_ind h, hf_pn h, red_list h, rows h 0%nat, rows h 1%nat) =
  ([2; 2; 3; 3]%nat, [true; false; true; false], [2; 3]%nat, [0; 1]%nat, [2; 3]%nat).
Proof.
  eexists. eexists. split; [|split; [vm_compute; reflexivity|split; [vm_compute; reflexivity|vm_compute; reflexivity]]].
  repeat split; cbn; try lia; try reflexivity; try discriminate.
Qed.

Print Assumptions C47_outcome.
Print Assumptions C47_selected.
Print Assumptions C47_links.
Print Assumptions C47_inverse_map.
