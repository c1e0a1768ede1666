(** C63: exact exchange on the reciprocal grid: Bloch shifts, phases, kernel tables and the FFT Poisson solve. *)
From Coq Require Import Reals ZArith QArith Qreals List Bool Lia Lra Psatz.
From Coquelicot Require Import Rcomplements Complex.
From Verif Require Import CBase BandK Lattice P_Lattice ExxKernel ExxFft ExxFftLem.
From Verif Require Kpoints P_Kpoints.
Import ListNotations.
Open Scope R_scope.

(** ** Specification *)
(** n is the representative of the residue a modulo N closest to zero, N/2 rather than -N/2. *)
Definition centred (N a : nat) (n : Z) : Prop :=
  (n mod Z.of_nat N = Z.of_nat a)%Z /\ (- Z.of_nat N < 2 * n <= Z.of_nat N)%Z.
Definition centring (g : grid) (nx ny nz : nat -> Z) : Prop :=
  (forall a, (a < Nx g)%nat -> centred (Nx g) a (nx a)) /\ (forall a, (a < Ny g)%nat -> centred (Ny g) a (ny a)) /\
  (forall a, (a < Nz g)%nat -> centred (Nz g) a (nz a)).
(** Reciprocal lattice vector with integer coordinates, in cell coordinates. *)
Definition recip (g : grid) (n1 n2 n3 : Z) : vec :=
  V (2 * PI * IZR n1 / vx (len g)) (2 * PI * IZR n2 / vy (len g)) (2 * PI * IZR n3 / vz (len g)).
(** Grid point (i,j,k), in cell coordinates. *)
Definition point (g : grid) (i j k : nat) : vec :=
  V (INR i * (vx (len g) / INR (Nx g))) (INR j * (vy (len g) / INR (Ny g))) (INR k * (vz (len g) / INR (Nz g))).
(** Values on the grid, x fastest, of the Bloch function sum_G c_G exp(i (G+s).r), G over the centred vectors. *)
Definition bloch (g : grid) (nx ny nz : nat -> Z) (s : vec) (c : nat -> nat -> nat -> C) (l : list C) : Prop :=
  length l = (Nx g * Ny g * Nz g)%nat /\
  forall i j k, (i < Nx g)%nat -> (j < Ny g)%nat -> (k < Nz g)%nat ->
    nth_error l (i + j * Nx g + k * (Nx g * Ny g)) =
    Some (csum3 (Nx g) (Ny g) (Nz g) (fun a b d =>
      Cmult (c a b d) (cos (dot (vadd (recip g (nx a) (ny b) (nz d)) s) (point g i j k)),
                       sin (dot (vadd (recip g (nx a) (ny b) (nz d)) s) (point g i j k))))).
Definition good (g : grid) : Prop :=
  (0 < Nx g)%nat /\ (0 < Ny g)%nat /\ (0 < Nz g)%nat /\ vx (len g) <> 0 /\ vy (len g) <> 0 /\ vz (len g) <> 0.
(** Periodic directions have range = len; in the others the shift has no component. *)
Definition fits (g : grid) (s : vec) : Prop :=
  (vx (range g) = vx (len g) \/ vx s = 0) /\ (vy (range g) = vy (len g) \/ vy s = 0) /\ (vz (range g) = vz (len g) \/ vz s = 0).

(** ** Bridging *)
Lemma fold1_centred N a n : (a < N)%nat -> centred N a n -> fold1 N a = n.
Proof.
  intros Ha [M B]. unfold fold1. assert (HN : (0 < Z.of_nat N)%Z) by lia.
  pose proof (Z.div_mod n (Z.of_nat N) ltac:(lia)) as D. rewrite M in D.
  pose proof (Nat.div_mod N 2 ltac:(lia)) as E. pose proof (Nat.mod_upper_bound N 2 ltac:(lia)) as F.
  assert (Q : (n / Z.of_nat N = 0 \/ n / Z.of_nat N = -1)%Z) by nia.
  destruct (Nat.ltb_spec a (N / 2 + 1)); destruct Q as [Q|Q]; rewrite Q in D; lia.
Qed.
Lemma fold1_is N a : (a < N)%nat -> centred N a (fold1 N a).
Proof.
  intros Ha. unfold fold1, centred. pose proof (Nat.div_mod N 2 ltac:(lia)) as E. pose proof (Nat.mod_upper_bound N 2 ltac:(lia)) as F.
  destruct (Nat.ltb_spec a (N / 2 + 1)).
  - split; [apply Z.mod_small; lia|lia].
  - split; [|lia]. replace (Z.of_nat a - Z.of_nat N)%Z with (Z.of_nat a + (-1) * Z.of_nat N)%Z by lia.
    rewrite Z.mod_add by lia. apply Z.mod_small. lia.
Qed.
Lemma Gvec_recip g nx ny nz a b d : centring g nx ny nz -> (a < Nx g)%nat -> (b < Ny g)%nat -> (d < Nz g)%nat ->
  Gvec g a b d = recip g (nx a) (ny b) (nz d).
Proof.
  intros [X [Y Z]] Ha Hb Hd. unfold Gvec, recip.
  rewrite (fold1_centred _ _ _ Ha (X a Ha)), (fold1_centred _ _ _ Hb (Y b Hb)), (fold1_centred _ _ _ Hd (Z d Hd)).
  apply vec_eq; cbn; unfold Rdiv; ring.
Qed.
(** On the grid the centred waves are those of the transform. *)
Lemma fold_angle N a i : (0 < N)%nat -> exists z, IZR (fold1 N a) * INR i / INR N = INR a * INR i / INR N + IZR z.
Proof.
  intros HN. assert (P : INR N <> 0) by (apply not_0_INR; lia). unfold fold1. destruct (a <? N / 2 + 1)%nat.
  - exists 0%Z. rewrite <- INR_IZR_INZ. field. exact P.
  - exists (- Z.of_nat i)%Z. rewrite minus_IZR, opp_IZR, <- !INR_IZR_INZ. field. exact P.
Qed.
Lemma wave_angle g a b d i j k : good g ->
  cis (dot (Gvec g a b d) (point g i j k)) = cis (angle (Nx g) (Ny g) (Nz g) a b d i j k).
Proof.
  intros [Hx [Hy [Hz [Lx [Ly Lz]]]]].
  destruct (fold_angle (Nx g) a i Hx) as [z1 E1]. destruct (fold_angle (Ny g) b j Hy) as [z2 E2]. destruct (fold_angle (Nz g) d k Hz) as [z3 E3].
  rewrite <- (cis_shift (angle _ _ _ _ _ _ _ _ _) (z1 + z2 + z3)). f_equal. unfold angle.
  rewrite !plus_IZR.
  replace (dot (Gvec g a b d) (point g i j k)) with
    (2 * PI * (IZR (fold1 (Nx g) a) * INR i / INR (Nx g) + IZR (fold1 (Ny g) b) * INR j / INR (Ny g) + IZR (fold1 (Nz g) d) * INR k / INR (Nz g))).
  - rewrite E1, E2, E3. ring.
  - unfold dot, Gvec, point. cbn [vx vy vz].
    assert (INR (Nx g) <> 0) by (apply not_0_INR; lia). assert (INR (Ny g) <> 0) by (apply not_0_INR; lia).
    assert (INR (Nz g) <> 0) by (apply not_0_INR; lia). field. auto 10.
Qed.
Lemma dot_add a b c : dot (vadd a b) c = dot a c + dot b c.
Proof. unfold dot, vadd. cbn. ring. Qed.
(** A Bloch function is a plain wave sum times one phase. *)
Definition sum_at g c i j k := csum3 (Nx g) (Ny g) (Nz g) (fun a b d => Cmult (c a b d) (cis (angle (Nx g) (Ny g) (Nz g) a b d i j k))).
Lemma bloch_iff g nx ny nz s c l : good g -> centring g nx ny nz ->
  bloch g nx ny nz s c l <-> l = grid3 (Nx g) (Ny g) (Nz g) (fun i j k => Cmult (sum_at g c i j k) (cis (dot s (point g i j k)))).
Proof.
  intros G Cn.
  assert (E : forall i j k, csum3 (Nx g) (Ny g) (Nz g) (fun a b d =>
      Cmult (c a b d) (cos (dot (vadd (recip g (nx a) (ny b) (nz d)) s) (point g i j k)),
                       sin (dot (vadd (recip g (nx a) (ny b) (nz d)) s) (point g i j k)))) =
      Cmult (sum_at g c i j k) (cis (dot s (point g i j k)))).
  { intros i j k. unfold sum_at. rewrite <- csum3_scal_r. apply csum3_ext. intros a b d Ha Hb Hd.
    rewrite <- (Gvec_recip g nx ny nz a b d Cn Ha Hb Hd). fold (cis (dot (vadd (Gvec g a b d) s) (point g i j k))).
    rewrite dot_add, <- cis_add, wave_angle by exact G. ring. }
  split.
  - intros [L H]. apply list_is_grid; [exact L|]. intros i j k Hi Hj Hk. unfold ix. rewrite H by auto. rewrite E. reflexivity.
  - intros ->. split; [apply grid3_len|]. intros i j k Hi Hj Hk. rewrite E.
    change (i + j * Nx g + k * (Nx g * Ny g))%nat with (ix (Nx g) (Ny g) i j k). rewrite grid3_nth by auto. reflexivity.
Qed.
Lemma phases_get sg g sh l i j k s : (sg = 1 \/ sg = -1) -> good g -> nth_error sh (Datatypes.S l) = Some s -> fits g s ->
  (i < Nx g)%nat -> (j < Ny g)%nat -> (k < Nz g)%nat ->
  get (phases sg g sh) (ix (Nx g) (Ny g) i j k + l * Nd g) = Ok (cis (sg * dot s (point g i j k))).
Proof.
  intros Sg G Hs [Fx [Fy Fz]] Hi Hj Hk. unfold phases, Nd.
  assert (L : (Datatypes.S l < length sh)%nat) by (apply nth_error_Some; congruence).
  rewrite (slice_get (Nx g) (Ny g) (Nz g) (fun l i j k => (cos (vx (pos g i j k) * vx (nth (l + 1) sh vzero) + vy (pos g i j k) * vy (nth (l + 1) sh vzero)
                    + vz (pos g i j k) * vz (nth (l + 1) sh vzero)), sg * sin (vx (pos g i j k) * vx (nth (l + 1) sh vzero) + vy (pos g i j k) * vy (nth (l + 1) sh vzero)
                    + vz (pos g i j k) * vz (nth (l + 1) sh vzero))))) by (auto; lia).
  replace (l + 1)%nat with (Datatypes.S l) by lia. rewrite (nth_error_nth _ _ _ Hs).
  assert (E : vx (pos g i j k) * vx s + vy (pos g i j k) * vy s + vz (pos g i j k) * vz s = dot s (point g i j k)).
  { unfold pos, dot, point. cbn [vx vy vz].
    assert (A : forall n r L s N, r = L \/ s = 0 -> n * r / N * s = s * (n * (L / N))) by (intros ? ? ? ? ? [-> | ->]; unfold Rdiv; ring).
    rewrite (A _ _ _ _ _ Fx), (A _ _ _ _ _ Fy), (A _ _ _ _ _ Fz). ring. }
  rewrite E. f_equal. unfold cis. destruct Sg as [-> | ->].
  - rewrite !Rmult_1_l. reflexivity.
  - replace (-1 * dot s (point g i j k)) with (- dot s (point g i j k)) by ring. rewrite cos_neg, sin_neg. f_equal. ring.
Qed.
Lemma apply_phase sg g sh l s (f : nat -> nat -> nat -> C) : (sg = 1 \/ sg = -1) -> good g -> hd vzero sh = vzero ->
  nth_error sh l = Some s -> fits g s ->
  apply_phase_factor (Nd g) (phases sg g sh) l (grid3 (Nx g) (Ny g) (Nz g) f)
  = Ok (grid3 (Nx g) (Ny g) (Nz g) (fun i j k => Cmult (f i j k) (cis (sg * dot s (point g i j k))))).
Proof.
  intros Sg G H0 Hs F. destruct l as [|l].
  - destruct sh as [|s0 r]; [discriminate|]. simpl in Hs, H0. injection Hs as <-. subst s0. cbn [apply_phase_factor]. f_equal.
    apply grid3_ext. intros. unfold dot, vzero. cbn [vx vy vz]. replace (sg * _) with 0 by ring. rewrite cis_0. ring.
  - cbn [apply_phase_factor]. unfold Nd at 2. apply mapo_grid. intros i j k Hi Hj Hk.
    unfold get at 1. rewrite grid3_nth by auto. cbn [obind]. replace (Datatypes.S l - 1)%nat with l by lia.
    rewrite (phases_get sg g sh l i j k s Sg G Hs F) by auto. reflexivity.
Qed.
Lemma table_get e g sh l s i j k : hd vzero sh = vzero -> nth_error sh l = Some s ->
  (i < Nx g)%nat -> (j < Ny g)%nat -> (k < Nz g)%nat ->
  get (compute_pois_fft_const e g sh)
    (match l with 0%nat => (Nd g * (length sh - 1))%nat | _ => (Nd g * (l - 1))%nat end + ix (Nx g) (Ny g) i j k)
  = Ok (kval e (G2of g (vadd (Gvec g i j k) s))).
Proof.
  intros H0 Hs Hi Hj Hk. assert (L : (l < length sh)%nat) by (apply nth_error_Some; congruence).
  unfold compute_pois_fft_const.
  set (m := match l with 0%nat => (length sh - 1)%nat | _ => (l - 1)%nat end).
  replace (match l with 0%nat => (Nd g * (length sh - 1))%nat | _ => (Nd g * (l - 1))%nat end + ix (Nx g) (Ny g) i j k)%nat
    with (ix (Nx g) (Ny g) i j k + m * (Nx g * Ny g * Nz g))%nat by (unfold m, Nd; destruct l; lia).
  rewrite (slice_get (Nx g) (Ny g) (Nz g) (fun l i j k => kval e (G2of g (vadd (Gvec g i j k) (shift_of sh l))))) by (auto; unfold m; destruct l; lia).
  do 4 f_equal. unfold shift_of, m. destruct l as [|l].
  - rewrite Nat.ltb_irrefl. destruct sh; [discriminate|]. simpl in *. congruence.
  - destruct (Nat.ltb_spec (Datatypes.S l - 1) (length sh - 1)); [|lia].
    replace (Datatypes.S l - 1 + 1)%nat with (Datatypes.S l) by lia. apply nth_error_nth. exact Hs.
Qed.

(** The solver multiplies each Bloch coefficient by the kernel of its wave vector. *)
Lemma pois_core e g sh l s c : good g -> hd vzero sh = vzero -> nth_error sh l = Some s -> fits g s ->
  pois_fft_kpt g (phases (-1) g sh) (phases 1 g sh) (compute_pois_fft_const e g sh) (length sh) l
    (grid3 (Nx g) (Ny g) (Nz g) (fun i j k => Cmult (sum_at g c i j k) (cis (dot s (point g i j k)))))
  = Ok (grid3 (Nx g) (Ny g) (Nz g) (fun i j k =>
      Cmult (sum_at g (fun a b d => Cmult (RtoC (kval e (G2of g (vadd (Gvec g a b d) s)))) (c a b d)) i j k) (cis (dot s (point g i j k))))).
Proof.
  intros G H0 Hs F. destruct (G) as [Hx [Hy [Hz _]]]. unfold pois_fft_kpt.
  rewrite (apply_phase (-1) g sh l s) by auto. cbn [obind].
  rewrite (grid3_ext _ _ _ _ (sum_at g c)).
  2:{ intros. rewrite <- Cmult_assoc, cis_add. replace (dot s (point g i j k) + -1 * dot s (point g i j k)) with 0 by ring. rewrite cis_0. ring. }
  unfold sum_at at 1. rewrite dft_waves by auto. unfold Nd at 3.
  rewrite (mapo_grid _ _ _ _ (fun a b d => Cmult (NN (Nx g) (Ny g) (Nz g)) (Cmult (RtoC (kval e (G2of g (vadd (Gvec g a b d) s)))) (c a b d)))).
  2:{ intros a b d Ha Hb Hd. unfold get at 1. rewrite grid3_nth by auto. cbn [obind].
      rewrite (table_get e g sh l s) by auto. cbn [obind]. f_equal.
      apply injective_projections; unfold NN; simpl; ring. }
  cbn [obind]. rewrite idft_coeffs by auto. fold (sum_at g (fun a b d => Cmult (RtoC (kval e (G2of g (vadd (Gvec g a b d) s)))) (c a b d))).
  rewrite (apply_phase 1 g sh l s _ (or_introl eq_refl) G H0 Hs F). f_equal. apply grid3_ext. intros. rewrite Rmult_1_l. reflexivity.
Qed.

(** ** Lengths *)
(** G.lapcT.G is the squared length of the Cartesian wave vector with the same phases. *)
Theorem C63_length L t g q : setup L = Ok t -> lapT g = lap t ->
  exists w, (forall p, dot w (cart L p) = dot q p) /\ G2of g q = dot w w /\
    (forall w', (forall p, dot w' (cart L p) = dot q p) -> w' = w) /\ (G2of g q = 0 -> q = V 0 0 0).
Proof.
  intros Ht Hl. exists (nonCart2Cart_grad t q).
  assert (D : forall i j, (i < 3)%nat -> (j < 3)%nat -> _) by (exact (grd_dual L t Ht)). unfold dot, row in D; cbn in D.
  pose proof (D 0 0 ltac:(lia) ltac:(lia))%nat as D00. pose proof (D 0 1 ltac:(lia) ltac:(lia))%nat as D01.
  pose proof (D 0 2 ltac:(lia) ltac:(lia))%nat as D02. pose proof (D 1 0 ltac:(lia) ltac:(lia))%nat as D10.
  pose proof (D 1 1 ltac:(lia) ltac:(lia))%nat as D11. pose proof (D 1 2 ltac:(lia) ltac:(lia))%nat as D12.
  pose proof (D 2 0 ltac:(lia) ltac:(lia))%nat as D20. pose proof (D 2 1 ltac:(lia) ltac:(lia))%nat as D21.
  pose proof (D 2 2 ltac:(lia) ltac:(lia))%nat as D22. clear D. cbn in D00, D01, D02, D10, D11, D12, D20, D21, D22.
  assert (P : forall p, dot (nonCart2Cart_grad t q) (cart L p) = dot q p).
  { intros p. destruct (C48_inverse L t p Ht) as [<- _]. unfold nonCart2Cart_grad, nonCart2Cart_coord, dot. cbn [vx vy vz].
    transitivity (vx q * (vx p * 1 + vy p * 0 + vz p * 0) + vy q * (vx p * 0 + vy p * 1 + vz p * 0) + vz q * (vx p * 0 + vy p * 0 + vz p * 1)); [|ring].
    rewrite <- D00 at 1. rewrite <- D01 at 1. rewrite <- D02 at 1. rewrite <- D10 at 1. rewrite <- D11 at 1. rewrite <- D12 at 1.
    rewrite <- D20 at 1. rewrite <- D21 at 1. rewrite <- D22 at 1. ring. }
  assert (Q : G2of g q = dot (nonCart2Cart_grad t q) (nonCart2Cart_grad t q)).
  { unfold G2of. rewrite Hl. destruct (setup_inv L t Ht) as [_ [_ [_ [_ ->]]]]. cbn [lap].
    unfold matvec, nonCart2Cart_grad, dot. cbn [vx vy vz grd]. unfold lapcT, sum3. ring. }
  split; [exact P|]. split; [exact Q|].
  assert (S : forall x, exists p, cart L p = x).
  { intros x. exists (Cart2nonCart_coord t x). destruct (C48_inverse L t (Cart2nonCart_coord t x) Ht) as [<- _].
    destruct (C48_inverse L t x Ht) as [_ [_ ->]]. reflexivity. }
  split.
  - intros w' H. assert (E : forall x, dot w' x = dot (nonCart2Cart_grad t q) x).
    { intros x. destruct (S x) as [p <-]. rewrite H, P. reflexivity. }
    pose proof (E (V 1 0 0)) as E1. pose proof (E (V 0 1 0)) as E2. pose proof (E (V 0 0 1)) as E3.
    unfold dot in E1, E2, E3. cbn [vx vy vz] in E1, E2, E3. apply vec_eq; lra.
  - rewrite Q. intros Z. assert (W : nonCart2Cart_grad t q = V 0 0 0).
    { revert Z. generalize (nonCart2Cart_grad t q). intros [x y z]. unfold dot. cbn. intros Z. apply vec_eq; cbn; nra. }
    rewrite W in P. pose proof (P (V 1 0 0)) as E1. pose proof (P (V 0 1 0)) as E2. pose proof (P (V 0 0 1)) as E3.
    unfold dot in E1, E2, E3. cbn [vx vy vz] in E1, E2, E3. apply vec_eq; cbn; lra.
Qed.

(** ** Bloch shifts *)
Theorem C63_shifts ks qs sh mp : find_k_shift ks qs = Ok (sh, mp) ->
  length mp = (length ks * length qs)%nat /\ nth_error sh 0 = Some (V 0 0 0) /\
  (forall i j k q, nth_error ks i = Some k -> nth_error qs j = Some q ->
     exists l s, nth_error mp (i + j * length ks) = Some l /\ nth_error sh l = Some s /\ close s (vsub k q) /\
       (l = 0%nat <-> close k q)) /\
  (forall l s, nth_error sh (Datatypes.S l) = Some s -> exists k q, In k ks /\ In q qs /\ s = vsub k q) /\
  (forall l m a b, nth_error sh l = Some a -> nth_error sh m = Some b -> close a b -> l = m).
Proof.
  intros H. destruct (find_k_shift_table _ _ _ _ H) as [u [-> [TL TM TI TS]]].
  split; [rewrite TL; apply diffs_len|]. split; [reflexivity|]. split; [|split].
  - intros i j k q Hk Hq. destruct (TM _ _ (diffs_nth ks qs i j k q Hk Hq)) as [l [s [A [B [D E]]]]].
    exists l, s. split; [exact A|]. split; [exact B|]. split; [exact D|]. rewrite E. unfold close, vsub. cbn [vx vy vz vzero].
    rewrite !Rminus_0_r. tauto.
  - intros l s Hs. simpl in Hs. apply nth_error_In in Hs. destruct (TI s Hs) as [I _]. apply In_nth_error in I. destruct I as [m I].
    destruct (diffs_inv _ _ _ _ I) as [i [j [k [q [A [B [_ D]]]]]]]. exists k, q. split; [eapply nth_error_In; eauto|]. split; [eapply nth_error_In; eauto|exact D].
  - assert (X : forall l m a b, (l < m)%nat -> nth_error (vzero :: u) l = Some a -> nth_error (vzero :: u) m = Some b -> ~ close a b).
    { intros l m a b Hl Ha Hb Cl. destruct m as [|m]; [lia|]. simpl in Hb. destruct l as [|l].
      - injection Ha as <-. destruct (TI b ltac:(eapply nth_error_In; eauto)) as [_ N]. apply N, close_sym, Cl.
      - simpl in Ha. apply (TS l m a b); auto. lia. }
    intros l m a b Ha Hb Cl. destruct (Nat.lt_trichotomy l m) as [Hl | [Hl | Hl]]; [|exact Hl|].
    + exfalso. exact (X l m a b Hl Ha Hb Cl).
    + exfalso. apply (X m l b a Hl Hb Ha). apply close_sym, Cl.
Qed.

(** The table overflows exactly if no k is close to a q and all the differences are distinct. *)
Theorem C63_overflow ks qs : ks <> [] -> qs <> [] ->
  (find_k_shift ks qs = UB <->
   (forall k q, In k ks -> In q qs -> ~ close k q) /\
   (forall i j i' j' k q k' q', nth_error ks i = Some k -> nth_error qs j = Some q -> nth_error ks i' = Some k' -> nth_error qs j' = Some q' ->
      close (vsub k q) (vsub k' q') -> i = i' /\ j = j')) /\
  find_k_shift ks qs <> Exit.
Proof.
  intros Hk Hq. assert (Lk : (0 < length ks)%nat) by (destruct ks; [contradiction|simpl; lia]).
  assert (Lq : (0 < length qs)%nat) by (destruct qs; [contradiction|simpl; lia]).
  assert (P : (0 < length ks * length qs)%nat) by nia. unfold find_k_shift.
  destruct (Nat.eqb_spec (length ks * length qs) 0); [lia|].
  assert (NE : diffs ks qs <> []). { intros E. pose proof (diffs_len ks qs) as D. rewrite E in D. simpl in D. lia. }
  assert (FI : fresh [] (diffs ks qs) <-> (forall k q, In k ks -> In q qs -> ~ close k q) /\
   (forall i j i' j' k q k' q', nth_error ks i = Some k -> nth_error qs j = Some q -> nth_error ks i' = Some k' -> nth_error qs j' = Some q' ->
      close (vsub k q) (vsub k' q') -> i = i' /\ j = j')).
  { rewrite fresh_iff. assert (Z : forall k q, close (vsub k q) vzero <-> close k q).
    { intros. unfold close, vsub. cbn [vx vy vz vzero]. rewrite !Rminus_0_r. tauto. }
    split.
    - intros [A B]. split.
      + intros k q Ik Iq. apply In_nth_error in Ik, Iq. destruct Ik as [i Ik], Iq as [j Iq].
        destruct (A _ _ (diffs_nth _ _ _ _ _ _ Ik Iq)) as [A1 _]. rewrite Z in A1. exact A1.
      + intros i j i' j' k q k' q' E1 E2 E3 E4 Cl.
        assert (L1 : (i < length ks)%nat) by (apply nth_error_Some; congruence).
        assert (L2 : (i' < length ks)%nat) by (apply nth_error_Some; congruence).
        pose proof (diffs_nth _ _ _ _ _ _ E1 E2) as D1. pose proof (diffs_nth _ _ _ _ _ _ E3 E4) as D2.
        destruct (Nat.lt_trichotomy (i + j * length ks) (i' + j' * length ks)) as [T | [T | T]].
        * exfalso. exact (B _ _ _ _ T D1 D2 Cl).
        * assert (j = j') by nia. subst. split; lia.
        * exfalso. exact (B _ _ _ _ T D2 D1 (close_sym _ _ Cl)).
    - intros [A B]. split.
      + intros m t Hm. split; [|intros s []]. destruct (diffs_inv _ _ _ _ Hm) as [i [j [k [q [E1 [E2 [_ ->]]]]]]]. rewrite Z.
        apply A; eapply nth_error_In; eauto.
      + intros m m' a b L Ha Hb Cl. destruct (diffs_inv _ _ _ _ Ha) as [i [j [k [q [E1 [E2 [-> ->]]]]]]].
        destruct (diffs_inv _ _ _ _ Hb) as [i' [j' [k' [q' [E3 [E4 [-> ->]]]]]]].
        destruct (B i j i' j' k q k' q' E1 E2 E3 E4 Cl) as [-> ->]. lia. }
  rewrite <- FI. destruct (loop_full (length ks * length qs) (diffs ks qs) [] [] NE) as [[F E] | [F [st E]]]; [simpl; apply diffs_len| |].
  - rewrite E. split; [tauto|discriminate].
  - rewrite E. split; [|discriminate]. split; [discriminate|contradiction].
Qed.
(** In particular the table is safe as soon as one k-point of the run is one of the exchange k-points. *)
Theorem C63_shift_safe ks qs k q : In k ks -> In q qs -> close k q -> exists sh mp, find_k_shift ks qs = Ok (sh, mp).
Proof.
  intros Ik Iq Cl. destruct (C63_overflow ks qs) as [H E]; [intros ->; contradiction Ik|intros ->; contradiction Iq|].
  destruct (find_k_shift ks qs) as [[sh mp]| |]; [exists sh, mp; reflexivity| |contradiction].
  destruct H as [H _]. destruct (H eq_refl) as [N _]. exfalso. exact (N k q Ik Iq Cl).
Qed.

(** ** Poisson solve *)
(** For every pair of k-points the solver, given the tables of the shift list, multiplies the Bloch coefficient
    of each wave vector by the kernel at its squared Cartesian length, and never leaves its arrays. *)
Theorem C63_solve L t e g nx ny nz ks qs sh mp i j k q : setup L = Ok t -> lapT g = lap t -> good g -> centring g nx ny nz ->
  find_k_shift ks qs = Ok (sh, mp) -> nth_error ks i = Some k -> nth_error qs j = Some q ->
  (forall l s, nth_error sh l = Some s -> fits g s) ->
  exists l s, nth_error mp (i + j * length ks) = Some l /\ close s (vsub k q) /\
    forall c rhs, bloch g nx ny nz s c rhs ->
    exists sol, pois_fft_kpt g (phases (-1) g sh) (phases 1 g sh) (compute_pois_fft_const e g sh) (length sh) l rhs = Ok sol /\
      forall K, (forall a b d w, (a < Nx g)%nat -> (b < Ny g)%nat -> (d < Nz g)%nat ->
                  (forall p, dot w (cart L p) = dot (vadd (recip g (nx a) (ny b) (nz d)) s) p) -> K a b d = kval e (dot w w)) ->
        bloch g nx ny nz s (fun a b d => Cmult (RtoC (K a b d)) (c a b d)) sol.
Proof.
  intros Ht Hl G Cn Hf Hk Hq HF. destruct (C63_shifts _ _ _ _ Hf) as [_ [H0 [HM _]]].
  destruct (HM i j k q Hk Hq) as [l [s [A [B [D _]]]]]. exists l, s. split; [exact A|]. split; [exact D|].
  intros c rhs Hb. apply (proj1 (bloch_iff g nx ny nz s c rhs G Cn)) in Hb. subst rhs.
  assert (H0' : hd vzero sh = vzero) by (destruct sh; [discriminate|]; simpl in *; injection H0 as ->; reflexivity).
  rewrite (pois_core e g sh l s c G H0' B (HF l s B)). eexists. split; [reflexivity|].
  intros K HK. apply (proj2 (bloch_iff g nx ny nz s _ _ G Cn)). apply grid3_ext. intros i' j' k' _ _ _. f_equal.
  unfold sum_at. apply csum3_ext. intros a b d Ha Hb Hd. do 3 f_equal.
  destruct (C63_length L t g (vadd (Gvec g a b d) s) Ht Hl) as [w [W [-> _]]]. symmetry. apply HK; auto.
  rewrite <- (Gvec_recip g nx ny nz a b d Cn Ha Hb Hd). exact W.
Qed.
(** Every array on the grid is a Bloch function of any shift, with unique coefficients. *)
Theorem C63_complete g nx ny nz s rhs : good g -> centring g nx ny nz -> length rhs = (Nx g * Ny g * Nz g)%nat ->
  exists c, bloch g nx ny nz s c rhs /\
    forall c', bloch g nx ny nz s c' rhs -> forall a b d, (a < Nx g)%nat -> (b < Ny g)%nat -> (d < Nz g)%nat -> c' a b d = c a b d.
Proof.
  intros G Cn Hl. destruct (G) as [Hx [Hy [Hz _]]].
  destruct (waves_complete (Nx g) (Ny g) (Nz g) Hx Hy Hz
    (fun i j k => Cmult (nth (ix (Nx g) (Ny g) i j k) rhs (RtoC 0)) (cis (- dot s (point g i j k))))) as [c Hc].
  assert (B : bloch g nx ny nz s c rhs).
  { apply bloch_iff; auto. apply list_is_grid; [exact Hl|]. intros i j k Hi Hj Hk. unfold sum_at. rewrite Hc by auto.
    rewrite <- Cmult_assoc, cis_add, Rplus_opp_l, cis_0, Cmult_1_r. apply nth_error_nth'. rewrite Hl. apply ix_lt; auto. }
  exists c. split; [exact B|]. intros c' B'. apply (proj1 (bloch_iff _ _ _ _ _ _ _ G Cn)) in B, B'. rewrite B in B'.
  apply (waves_unique (Nx g) (Ny g) (Nz g) Hx Hy Hz). intros i j k Hi Hj Hk.
  apply (f_equal (fun l => nth (ix (Nx g) (Ny g) i j k) l (RtoC 0))) in B'. rewrite !grid3_get in B' by auto.
  apply (f_equal (fun z => Cmult z (cis (- dot s (point g i j k))))) in B'.
  rewrite <- !Cmult_assoc, !cis_add, !Rplus_opp_r, !cis_0, !Cmult_1_r in B'. symmetry. exact B'.
Qed.

(** ** Gamma point *)
Lemma opp1_lt N a : (a < N)%nat -> (opp1 N a < N)%nat.
Proof. unfold opp1. intros. destruct (Nat.eqb_spec a 0); lia. Qed.
Lemma opp1_inv N a : (a < N)%nat -> opp1 N (opp1 N a) = a.
Proof. unfold opp1. intros. destruct (Nat.eqb_spec a 0); [subst; reflexivity|]. destruct (Nat.eqb_spec (N - a) 0); lia. Qed.
Lemma opp1_angle N a i : (a < N)%nat -> exists z, INR (opp1 N a) * INR i / INR N = - (INR a * INR i / INR N) + IZR z.
Proof.
  intros Ha. assert (P : INR N <> 0) by (apply not_0_INR; lia). unfold opp1. destruct (Nat.eqb_spec a 0).
  - subst. exists 0%Z. simpl. field. exact P.
  - exists (Z.of_nat i). rewrite minus_INR by lia. rewrite <- INR_IZR_INZ. field. exact P.
Qed.
Lemma cis_opp nx ny nz a b d i j k : (a < nx)%nat -> (b < ny)%nat -> (d < nz)%nat ->
  cis (- angle nx ny nz (opp1 nx a) (opp1 ny b) (opp1 nz d) i j k) = cis (angle nx ny nz a b d i j k).
Proof.
  intros Ha Hb Hd. destruct (opp1_angle nx a i Ha) as [x Ex]. destruct (opp1_angle ny b j Hb) as [y Ey]. destruct (opp1_angle nz d k Hd) as [z Ez].
  rewrite <- (cis_shift (angle nx ny nz a b d i j k) (- (x + y + z))). f_equal. unfold angle. rewrite Ex, Ey, Ez, opp_IZR, !plus_IZR. ring.
Qed.
Definition herm (g : grid) (c : nat -> nat -> nat -> C) : Prop :=
  forall a b d, (a < Nx g)%nat -> (b < Ny g)%nat -> (d < Nz g)%nat -> c (opp1 (Nx g) a) (opp1 (Ny g) b) (opp1 (Nz g) d) = Cconj (c a b d).
Lemma conj_sum g c i j k : Cconj (sum_at g c i j k) =
  sum_at g (fun a b d => Cconj (c (opp1 (Nx g) a) (opp1 (Ny g) b) (opp1 (Nz g) d))) i j k.
Proof.
  unfold sum_at. rewrite csum3_conj. rewrite <- csum3_opp. apply csum3_ext. intros a b d Ha Hb Hd.
  rewrite <- (cis_opp (Nx g) (Ny g) (Nz g) a b d i j k Ha Hb Hd), <- cis_conj.
  apply injective_projections; simpl; ring.
Qed.
Lemma conj_real z : Cconj z = z <-> Im z = 0.
Proof. destruct z as [x y]. unfold Cconj. simpl. split; [intros [= E]; lra|intros ->; f_equal; ring]. Qed.
Lemma Re_real z : Im z = 0 -> RtoC (Re z) = z.
Proof. destruct z as [x y]. simpl. intros ->. reflexivity. Qed.
Lemma herm_real g c i j k : herm g c -> Im (sum_at g c i j k) = 0.
Proof.
  intros H. apply conj_real. rewrite conj_sum. unfold sum_at. apply csum3_ext. intros a b d Ha Hb Hd. f_equal.
  rewrite H by auto. destruct (c a b d). unfold Cconj. simpl. f_equal. ring.
Qed.
Lemma real_herm g c : good g -> (forall i j k, (i < Nx g)%nat -> (j < Ny g)%nat -> (k < Nz g)%nat -> Im (sum_at g c i j k) = 0) -> herm g c.
Proof.
  intros [Hx [Hy [Hz _]]] H a b d Ha Hb Hd.
  assert (E : Cconj (c (opp1 (Nx g) a) (opp1 (Ny g) b) (opp1 (Nz g) d)) = c a b d).
  { revert a b d Ha Hb Hd. apply (waves_unique (Nx g) (Ny g) (Nz g) Hx Hy Hz). intros i j k Hi Hj Hk.
    fold (sum_at g (fun a b d => Cconj (c (opp1 (Nx g) a) (opp1 (Ny g) b) (opp1 (Nz g) d))) i j k). fold (sum_at g c i j k).
    rewrite <- conj_sum. apply conj_real. apply H; auto. }
  rewrite <- E. destruct (c (opp1 (Nx g) a) (opp1 (Ny g) b) (opp1 (Nz g) d)). unfold Cconj. simpl. f_equal. ring.
Qed.
(** The kernel does not distinguish a grid wave vector from its opposite. *)
Definition even_kernel (e : exx) (g : grid) : Prop := forall a b d, (a < Nx g)%nat -> (b < Ny g)%nat -> (d < Nz g)%nat ->
  kval e (G2of g (Gvec g (opp1 (Nx g) a) (opp1 (Ny g) b) (opp1 (Nz g) d))) = kval e (G2of g (Gvec g a b d)).
Lemma gamma_core e g rhs c : good g -> even_kernel e g ->
  map RtoC rhs = grid3 (Nx g) (Ny g) (Nz g) (sum_at g c) ->
  let Kc := fun a b d => Cmult (RtoC (kval e (G2of g (Gvec g a b d)))) (c a b d) in
  exists sol, pois_fft g (compute_pois_fft_const_gamma e g) rhs = Ok sol /\ map RtoC sol = grid3 (Nx g) (Ny g) (Nz g) (sum_at g Kc).
Proof.
  intros G Ev Hr Kc. destruct (G) as [Hx [Hy [Hz _]]].
  assert (Hc : herm g c).
  { apply real_herm; [exact G|]. intros i j k Hi Hj Hk. pose proof (grid3_nth (Nx g) (Ny g) (Nz g) (sum_at g c) i j k Hi Hj Hk) as E.
    rewrite <- Hr in E. apply nth_error_In in E. apply in_map_iff in E. destruct E as [x [<- _]]. reflexivity. }
  assert (HK : herm g Kc).
  { intros a b d Ha Hb Hd. unfold Kc. rewrite Ev, Hc by auto. destruct (c a b d). apply injective_projections; simpl; ring. }
  unfold pois_fft. set (hx := (Nx g / 2 + 1)%nat).
  pose proof (Nat.div_mod (Nx g) 2 ltac:(lia)) as DM. pose proof (Nat.mod_upper_bound (Nx g) 2 ltac:(lia)) as MB.
  assert (Lh : (hx <= Nx g)%nat) by (unfold hx; lia).
  assert (B : dft_half (Nx g) (Ny g) (Nz g) (map RtoC rhs) = grid3 hx (Ny g) (Nz g) (fun a b d => Cmult (NN (Nx g) (Ny g) (Nz g)) (c a b d))).
  { unfold dft_half. fold hx. apply grid3_ext. intros a b d Ha Hb Hd. rewrite Hr. unfold sum_at at 1. rewrite dft_waves by auto.
    apply grid3_get; auto. lia. }
  rewrite B. replace (Nz g * Ny g * hx)%nat with (hx * Ny g * Nz g)%nat by lia.
  rewrite (mapo_grid _ _ _ _ (fun a b d => Cmult (NN (Nx g) (Ny g) (Nz g)) (Kc a b d))).
  2:{ intros a b d Ha Hb Hd. unfold get at 1. rewrite grid3_nth by auto. cbn [obind]. unfold get, compute_pois_fft_const_gamma. fold hx.
      rewrite grid3_nth by auto. cbn [obind]. f_equal. unfold Kc, NN. apply injective_projections; simpl; ring. }
  cbn [obind]. eexists. split; [reflexivity|].
  assert (Hm : hermitian (Nx g) (Ny g) (Nz g) (grid3 hx (Ny g) (Nz g) (fun a b d => Cmult (NN (Nx g) (Ny g) (Nz g)) (Kc a b d)))
               = grid3 (Nx g) (Ny g) (Nz g) (fun a b d => Cmult (NN (Nx g) (Ny g) (Nz g)) (Kc a b d))).
  { unfold hermitian. fold hx. apply grid3_ext. intros a b d Ha Hb Hd. destruct (Nat.ltb_spec a hx) as [Q|Q].
    - apply grid3_get; auto.
    - rewrite grid3_get; [|unfold opp1; destruct (Nat.eqb_spec a 0); unfold hx in *; lia|apply opp1_lt; auto|apply opp1_lt; auto].
      rewrite HK by auto. destruct (Kc a b d). unfold NN. apply injective_projections; simpl; ring. }
  rewrite Hm, idft_coeffs by auto. fold (sum_at g Kc).
  rewrite map_map. rewrite <- (map_id (grid3 (Nx g) (Ny g) (Nz g) (sum_at g Kc))) at 2. apply map_ext_in. intros z Hz'.
  apply In_nth_error in Hz'. destruct Hz' as [m Hz']. assert (Lm : (m < Nx g * Ny g * Nz g)%nat).
  { rewrite <- (grid3_len _ _ _ (sum_at g Kc)). apply nth_error_Some. congruence. }
  destruct (ix_onto _ _ _ _ Lm) as [i [j [k [Hi [Hj [Hk ->]]]]]]. rewrite grid3_nth in Hz' by auto. injection Hz' as <-.
  apply Re_real, herm_real, HK.
Qed.
Definition odd_grid (g : grid) : Prop := Nat.Odd (Nx g) /\ Nat.Odd (Ny g) /\ Nat.Odd (Nz g).
Definition orthogonal (L : mat) : Prop :=
  dot (row L 0) (row L 1) = 0 /\ dot (row L 0) (row L 2) = 0 /\ dot (row L 1) (row L 2) = 0.
Lemma fold1_opp_odd N a : Nat.Odd N -> (a < N)%nat -> fold1 N (opp1 N a) = (- fold1 N a)%Z.
Proof.
  intros [m Hm] Ha. unfold fold1, opp1. pose proof (Nat.div_mod N 2 ltac:(lia)) as E. pose proof (Nat.mod_upper_bound N 2 ltac:(lia)) as F.
  destruct (Nat.eqb_spec a 0); [subst a; destruct (Nat.ltb_spec 0 (N / 2 + 1)); lia|].
  destruct (Nat.ltb_spec (N - a) (N / 2 + 1)), (Nat.ltb_spec a (N / 2 + 1)); lia.
Qed.
Lemma fold1_opp N a : (a < N)%nat -> fold1 N (opp1 N a) = (- fold1 N a)%Z \/ fold1 N (opp1 N a) = fold1 N a.
Proof.
  intros Ha. unfold fold1, opp1. pose proof (Nat.div_mod N 2 ltac:(lia)) as E. pose proof (Nat.mod_upper_bound N 2 ltac:(lia)) as F.
  destruct (Nat.eqb_spec a 0); [subst a; destruct (Nat.ltb_spec 0 (N / 2 + 1)); lia|].
  destruct (Nat.ltb_spec (N - a) (N / 2 + 1)), (Nat.ltb_spec a (N / 2 + 1)); lia.
Qed.
Lemma lap_orth L t : setup L = Ok t -> orthogonal L ->
  lap t 0%nat 1%nat = 0 /\ lap t 0%nat 2%nat = 0 /\ lap t 1%nat 2%nat = 0 /\ lap t 1%nat 0%nat = 0 /\ lap t 2%nat 0%nat = 0 /\ lap t 2%nat 1%nat = 0.
Proof.
  intros Ht [O1 [O2 O3]]. 
  assert (U : forall i j, dot (row L i) (row L j) = 0 -> dot (row (LatUVec L) i) (row (LatUVec L) j) = 0).
  { intros i j E. unfold dot, row, LatUVec in *. cbn [vx vy vz] in *. 
    transitivity ((/ mag L i) * (/ mag L j) * (L i 0%nat * L j 0%nat + L i 1%nat * L j 1%nat + L i 2%nat * L j 2%nat)); [unfold Rdiv; ring|rewrite E; ring]. }
  apply U in O1, O2, O3. destruct (setup_inv L t Ht) as [_ [_ [_ [_ ->]]]]. cbn [lap]. revert O1 O2 O3. generalize (LatUVec L) as W. intros W.
  unfold dot, row. cbn [vx vy vz]. intros O1 O2 O3.
  assert (X : forall i j, (i < 3)%nat -> (j < 3)%nat -> i <> j -> lapcT W i j = 0).
  { intros i j Hi Hj N. unfold lapcT, sum3, gradT. generalize (Jacbdet W). intros J. unfold Rdiv. generalize (/ J). intros r. 
    (* (u x v).(v x w) = (u.v)(v.w) - (u.w)(v.v) *)
    set (a := W 0%nat) in *. set (b := W 1%nat) in *. set (d := W 2%nat) in *.
    destruct i as [|[|[|i]]]; [| | |lia]; (destruct j as [|[|[|j]]]; [| | |lia]); try congruence; cbn;
      fold a b d;
      [transitivity (r * r * ((b 0%nat * d 0%nat + b 1%nat * d 1%nat + b 2%nat * d 2%nat) * (a 0%nat * d 0%nat + a 1%nat * d 1%nat + a 2%nat * d 2%nat)
         - (a 0%nat * b 0%nat + a 1%nat * b 1%nat + a 2%nat * b 2%nat) * (d 0%nat * d 0%nat + d 1%nat * d 1%nat + d 2%nat * d 2%nat)))
      |transitivity (r * r * ((a 0%nat * b 0%nat + a 1%nat * b 1%nat + a 2%nat * b 2%nat) * (b 0%nat * d 0%nat + b 1%nat * d 1%nat + b 2%nat * d 2%nat)
         - (a 0%nat * d 0%nat + a 1%nat * d 1%nat + a 2%nat * d 2%nat) * (b 0%nat * b 0%nat + b 1%nat * b 1%nat + b 2%nat * b 2%nat)))
      |transitivity (r * r * ((b 0%nat * d 0%nat + b 1%nat * d 1%nat + b 2%nat * d 2%nat) * (a 0%nat * d 0%nat + a 1%nat * d 1%nat + a 2%nat * d 2%nat)
         - (a 0%nat * b 0%nat + a 1%nat * b 1%nat + a 2%nat * b 2%nat) * (d 0%nat * d 0%nat + d 1%nat * d 1%nat + d 2%nat * d 2%nat)))
      |transitivity (r * r * ((a 0%nat * b 0%nat + a 1%nat * b 1%nat + a 2%nat * b 2%nat) * (a 0%nat * d 0%nat + a 1%nat * d 1%nat + a 2%nat * d 2%nat)
         - (b 0%nat * d 0%nat + b 1%nat * d 1%nat + b 2%nat * d 2%nat) * (a 0%nat * a 0%nat + a 1%nat * a 1%nat + a 2%nat * a 2%nat)))
      |transitivity (r * r * ((a 0%nat * b 0%nat + a 1%nat * b 1%nat + a 2%nat * b 2%nat) * (b 0%nat * d 0%nat + b 1%nat * d 1%nat + b 2%nat * d 2%nat)
         - (a 0%nat * d 0%nat + a 1%nat * d 1%nat + a 2%nat * d 2%nat) * (b 0%nat * b 0%nat + b 1%nat * b 1%nat + b 2%nat * b 2%nat)))
      |transitivity (r * r * ((a 0%nat * b 0%nat + a 1%nat * b 1%nat + a 2%nat * b 2%nat) * (a 0%nat * d 0%nat + a 1%nat * d 1%nat + a 2%nat * d 2%nat)
         - (b 0%nat * d 0%nat + b 1%nat * d 1%nat + b 2%nat * d 2%nat) * (a 0%nat * a 0%nat + a 1%nat * a 1%nat + a 2%nat * a 2%nat)))];
      first [ring | rewrite O1, O2, O3; ring]. }
  repeat split; apply X; lia.
Qed.
Lemma even_kernel_ok L t e g : setup L = Ok t -> lapT g = lap t -> orthogonal L \/ odd_grid g -> even_kernel e g.
Proof.
  intros Ht Hl H a b d Ha Hb Hd. f_equal. unfold G2of. rewrite Hl. destruct H as [H | [H1 [H2 H3]]].
  - destruct (lap_orth L t Ht H) as [E1 [E2 [E3 [E4 [E5 E6]]]]]. unfold matvec, dot, Gvec. cbn [vx vy vz]. rewrite E1, E2, E3, E4, E5, E6.
    destruct (fold1_opp _ _ Ha) as [-> | ->], (fold1_opp _ _ Hb) as [-> | ->], (fold1_opp _ _ Hd) as [-> | ->];
      rewrite ?opp_IZR; unfold Rdiv; ring.
  - unfold matvec, dot, Gvec. cbn [vx vy vz]. rewrite !fold1_opp_odd by auto. rewrite !opp_IZR. unfold Rdiv. ring.
Qed.
Lemma bloch_zero g nx ny nz c l : good g -> centring g nx ny nz ->
  bloch g nx ny nz (V 0 0 0) c l <-> l = grid3 (Nx g) (Ny g) (Nz g) (sum_at g c).
Proof.
  intros G Cn. rewrite (bloch_iff g nx ny nz (V 0 0 0) c l G Cn).
  assert (E : grid3 (Nx g) (Ny g) (Nz g) (fun i j k => Cmult (sum_at g c i j k) (cis (dot (V 0 0 0) (point g i j k)))) = grid3 (Nx g) (Ny g) (Nz g) (sum_at g c)).
  { apply grid3_ext. intros. unfold dot at 1. cbn [vx vy vz]. replace (_ + _ + _) with 0 by ring. rewrite cis_0. ring. }
  rewrite E. tauto.
Qed.
(** The half-spectrum solver of gamma-point runs does the same on real right-hand sides, if the cell is orthogonal
    or the numbers of grid points are odd. *)
Theorem C63_gamma L t e g nx ny nz rhs c : setup L = Ok t -> lapT g = lap t -> good g -> centring g nx ny nz ->
  orthogonal L \/ odd_grid g -> bloch g nx ny nz (V 0 0 0) c (map RtoC rhs) ->
  exists sol, pois_fft g (compute_pois_fft_const_gamma e g) rhs = Ok sol /\
    forall K, (forall a b d w, (a < Nx g)%nat -> (b < Ny g)%nat -> (d < Nz g)%nat ->
                  (forall p, dot w (cart L p) = dot (recip g (nx a) (ny b) (nz d)) p) -> K a b d = kval e (dot w w)) ->
      bloch g nx ny nz (V 0 0 0) (fun a b d => Cmult (RtoC (K a b d)) (c a b d)) (map RtoC sol).
Proof.
  intros Ht Hl G Cn Ho Hb. apply (proj1 (bloch_zero _ _ _ _ _ _ G Cn)) in Hb.
  destruct (gamma_core e g rhs c G (even_kernel_ok L t e g Ht Hl Ho) Hb) as [sol [E S]]. exists sol. split; [exact E|].
  intros K HK. apply bloch_zero; auto. rewrite S. apply grid3_ext. intros i j k _ _ _. unfold sum_at. apply csum3_ext.
  intros a b d Ha Hb' Hd. do 3 f_equal. destruct (C63_length L t g (Gvec g a b d) Ht Hl) as [w [W [-> _]]]. symmetry. apply HK; auto.
  rewrite <- (Gvec_recip g nx ny nz a b d Cn Ha Hb' Hd). exact W.
Qed.

(** The half-spectrum solver never leaves its arrays. *)
Theorem C63_gamma_safe e g rhs : (0 < Nx g)%nat -> exists sol, pois_fft g (compute_pois_fft_const_gamma e g) rhs = Ok sol /\ length sol = (Nx g * Ny g * Nz g)%nat.
Proof.
  intros Hx. unfold pois_fft. set (hx := (Nx g / 2 + 1)%nat). replace (Nz g * Ny g * hx)%nat with (hx * Ny g * Nz g)%nat by lia.
  set (B := fun a b d => nth (ix (Nx g) (Ny g) a b d) (dft (Nx g) (Ny g) (Nz g) (map RtoC rhs)) (RtoC 0)).
  rewrite (mapo_grid _ _ _ _ (fun a b d => (Re (B a b d) * kval e (G2of g (Gvec g a b d)), Im (B a b d) * kval e (G2of g (Gvec g a b d))))).
  - cbn [obind]. eexists. split; [reflexivity|]. rewrite map_length. unfold idft. apply grid3_len.
  - intros a b d Ha Hb Hd. unfold get, dft_half, compute_pois_fft_const_gamma. fold hx. rewrite !grid3_nth by auto. reflexivity.
Qed.

(** ** Refutations *)
(** Vectors with reduced coordinates p in a cell with the given edge lengths (initialization.c:3275-3277). *)
Definition kvec (l : vec) (p : Kpoints.pt) : vec :=
  V (Q2R (Kpoints.p1 p) * (2 * PI / vx l)) (Q2R (Kpoints.p2 p) * (2 * PI / vy l)) (Q2R (Kpoints.p3 p) * (2 * PI / vz l)).
Definition one_dir : Kpoints.dir := Kpoints.Dir 1 0 true Kpoints.TEMP_TOL.
Definition over_mesh : Kpoints.mesh := Kpoints.Mesh (Kpoints.Dir 2 (1 # 2) true Kpoints.TEMP_TOL) one_dir one_dir.
Definition edge : vec := V (2 * PI) (2 * PI) (2 * PI).
(** "The shift arrays are large enough": a 2x1x1 k-point mesh shifted by 1/2 with EXX_DOWNSAMPLING 2 1 1.  The
    reduction keeps k = 1/4, down-sampling selects q = -1/4; the arrays have 1*1 entries and entry 1 is written. *)
Theorem C63_overflow_refuted : exists m s l h, Kpoints.mesh_ok m /\
  Kpoints.Calculate_kpoints m = Ok l /\ Kpoints.Calculate_hf m s (map fst l) = Ok h /\
  length (map fst l) = 1%nat /\ length (Kpoints.hf_pts h) = 1%nat /\
  find_k_shift (map (kvec edge) (map fst l)) (map (kvec edge) (Kpoints.hf_pts h)) = UB.
Proof.
  exists over_mesh, (Kpoints.Down 2 1 1). eexists. eexists.
  split; [repeat split; cbn; try lia; try reflexivity; try discriminate|].
  split; [vm_compute; reflexivity|]. split; [vm_compute; reflexivity|]. split; [reflexivity|]. split; [reflexivity|].
  apply C63_overflow; try discriminate. split.
  - intros k q Hk Hq. cbn [map fst Kpoints.hf_pts In] in Hk, Hq. destruct Hk as [<- | []]. destruct Hq as [<- | []].
    intros [E _]. unfold kvec, edge in E. cbn [vx Kpoints.p1] in E. replace (2 * PI / (2 * PI)) with 1 in E by (field; apply PI_neq0).
    rewrite !Rmult_1_r in E. unfold Q2R in E. cbn [Qnum Qden] in E. unfold TOL in E.
    apply Rabs_def2 in E. destruct E as [E _]. lra.
  - intros i j i' j' k q k' q' H1 H2 H3 H4 _. cbn [map fst Kpoints.hf_pts] in H1, H2, H3, H4.
    destruct i as [|[|i]]; try discriminate. destruct j as [|[|j]]; try discriminate.
    destruct i' as [|[|i']]; try discriminate. destruct j' as [|[|j']]; try discriminate. auto.
Qed.

(** An oblique cell with edges of length 5. *)
Definition obl_lat : mat := fun i j =>
  match i, j with
  | 0%nat, 0%nat => 5 | 1%nat, 0%nat => 3 | 1%nat, 1%nat => 4 | 2%nat, 2%nat => 5 | _, _ => 0 end.
Lemma obl_setup : exists t, setup obl_lat = Ok t /\ lap t 0%nat 0%nat = 25 / 16 /\ lap t 1%nat 1%nat = 25 / 16 /\
  lap t 0%nat 1%nat = - (15 / 16) /\ lap t 1%nat 0%nat = - (15 / 16).
Proof.
  assert (M0 : mag obl_lat 0 = 5).
  { unfold mag, obl_lat. cbn. replace (5 * (5 * 1) + 0 * (0 * 1) + 0 * (0 * 1)) with (5 * 5) by ring. apply sqrt_square. lra. }
  assert (M1 : mag obl_lat 1 = 5).
  { unfold mag, obl_lat. cbn. replace (3 * (3 * 1) + 4 * (4 * 1) + 0 * (0 * 1)) with (5 * 5) by ring. apply sqrt_square. lra. }
  assert (M2 : mag obl_lat 2 = 5).
  { unfold mag, obl_lat. cbn. replace (0 * (0 * 1) + 0 * (0 * 1) + 5 * (5 * 1)) with (5 * 5) by ring. apply sqrt_square. lra. }
  assert (J : Jacbdet (LatUVec obl_lat) = 4 / 5).
  { rewrite Jacbdet_det. unfold det, dot, Cross_Product, row, LatUVec; cbn. rewrite M0, M1, M2. field. }
  unfold setup. destruct (Req_EM_T (mag obl_lat 0) 0); [lra|]. destruct (Req_EM_T (mag obl_lat 1) 0); [lra|].
  destruct (Req_EM_T (mag obl_lat 2) 0); [lra|]. cbv zeta. rewrite J. destruct (Rle_dec (4 / 5) 0); [lra|].
  eexists. split; [reflexivity|]. cbn [lap]. unfold lapcT, sum3, gradT. rewrite J. unfold LatUVec. cbn. rewrite M0, M1, M2.
  repeat split; field.
Qed.
Definition bare : exx := Exx 1 (-1) 0 100 1 false false.
(** "The gamma-point solver and the k-point solver at k = q = 0 agree": not in an oblique cell with even numbers
    of grid points.  There G and -G share one grid index N/2 but the kernel is evaluated at +N/2 only, so that it is
    not even; the half-spectrum solver replaces half of its values by those at the opposite vectors. *)
Theorem C63_gamma_refuted : exists L t e g rhs sol sol', setup L = Ok t /\ lapT g = lap t /\ good g /\
  length rhs = (Nx g * Ny g * Nz g)%nat /\
  pois_fft g (compute_pois_fft_const_gamma e g) rhs = Ok sol /\
  pois_fft_kpt g (phases (-1) g [V 0 0 0]) (phases 1 g [V 0 0 0]) (compute_pois_fft_const e g [V 0 0 0]) 1 0 (map RtoC rhs) = Ok sol' /\
  map RtoC sol <> sol'.
Proof.
  destruct obl_setup as [t [Ht [T00 [T11 [T01 T10]]]]].
  set (g := Grid 4 2 1 (V 5 5 5) (V 5 5 5) (lap t)).
  assert (G : good g) by (repeat split; cbn; try lia; lra).
  set (c := fun _ _ _ : nat => RtoC 1).
  set (rhs := map Re (grid3 4 2 1 (sum_at g c))).
  assert (Hr : map RtoC rhs = grid3 4 2 1 (sum_at g c)).
  { unfold rhs. rewrite map_map. rewrite <- (map_id (grid3 4 2 1 (sum_at g c))) at 2. apply map_ext_in. intros z Hz.
    apply In_nth_error in Hz. destruct Hz as [m Hz]. assert (Lm : (m < 4 * 2 * 1)%nat).
    { rewrite <- (grid3_len 4 2 1 (sum_at g c)). apply nth_error_Some. congruence. }
    destruct (ix_onto _ _ _ _ Lm) as [i [j [k [Hi [Hj [Hk ->]]]]]]. rewrite grid3_nth in Hz by auto. injection Hz as <-.
    apply Re_real, herm_real. intros a b d _ _ _. unfold c. apply injective_projections; simpl; ring. }
  destruct (C63_gamma_safe bare g rhs ltac:(cbn; lia)) as [sol [Es _]].
  pose proof (pois_core bare g [V 0 0 0] 0 (V 0 0 0) c G eq_refl eq_refl ltac:(repeat split; right; reflexivity)) as P.
  rewrite (grid3_ext _ _ _ _ (sum_at g c)) in P.
  2:{ intros. unfold dot at 1. cbn [vx vy vz]. replace (_ + _ + _) with 0 by ring. rewrite cis_0. ring. }
  change (Nx g) with 4%nat in P. change (Ny g) with 2%nat in P. change (Nz g) with 1%nat in P. rewrite <- Hr in P.
  exists obl_lat, t, bare, g, rhs, sol. eexists. split; [exact Ht|]. split; [reflexivity|]. split; [exact G|].
  split; [unfold rhs; rewrite map_length; apply grid3_len|]. split; [exact Es|]. split; [exact P|]. clear P. intros E.
  set (Kc := fun a b d => Cmult (RtoC (kval bare (G2of g (vadd (Gvec g a b d) (V 0 0 0))))) (c a b d)) in E.
  assert (H : herm g Kc).
  { apply real_herm; [exact G|]. intros i j k Hi Hj Hk.
    pose proof (grid3_nth 4 2 1 (fun i j k => Cmult (sum_at g Kc i j k) (cis (dot (V 0 0 0) (point g i j k)))) i j k Hi Hj Hk) as N.
    rewrite <- E in N. apply nth_error_In in N. apply in_map_iff in N. destruct N as [x [N _]].
    replace (dot (V 0 0 0) (point g i j k)) with 0 in N by (unfold dot; cbn [vx vy vz]; ring). rewrite cis_0, Cmult_1_r in N. rewrite <- N. reflexivity. }
  specialize (H 1%nat 1%nat 0%nat ltac:(cbn; lia) ltac:(cbn; lia) ltac:(cbn; lia)). unfold Kc, c in H.
  change (opp1 (Nx g) 1) with 3%nat in H. change (opp1 (Ny g) 1) with 1%nat in H. change (opp1 (Nz g) 0) with 0%nat in H.
  apply (f_equal fst) in H. unfold Cmult, Cconj, RtoC in H. cbn [fst snd] in H.
  assert (G1 : G2of g (vadd (Gvec g 3 1 0) (V 0 0 0)) = (2 * PI / 5) * (2 * PI / 5) * 5).
  { unfold G2of, matvec, dot, vadd, Gvec. cbn [vx vy vz lapT len Nx Ny Nz g]. change (fold1 4 3) with (-1)%Z. change (fold1 2 1) with 1%Z. change (fold1 1 0) with 0%Z.
    rewrite T00, T11, T01, T10. field. }
  assert (G2 : G2of g (vadd (Gvec g 1 1 0) (V 0 0 0)) = (2 * PI / 5) * (2 * PI / 5) * (5 / 4)).
  { unfold G2of, matvec, dot, vadd, Gvec. cbn [vx vy vz lapT len Nx Ny Nz g]. change (fold1 4 1) with 1%Z. change (fold1 2 1) with 1%Z. change (fold1 1 0) with 0%Z.
    rewrite T00, T11, T01, T10. field. }
  rewrite G1, G2 in H.
  assert (PP : 3 < PI) by (pose proof PI2_3_2; lra).
  set (x := 2 * PI / 5 * (2 * PI / 5)) in *. assert (X : 1 < x) by (unfold x; nra).
  assert (KV : forall y, 1 < y -> kval bare y = 4 * PI / y).
  { intros y Hy. unfold kval, singularity_remooval_const, bare. cbn [divflag omega Z.eqb Pos.eqb].
    assert (B : Rltb G2TOL (Rabs y) = true) by (apply Rltb_iff; rewrite Rabs_right by lra; unfold G2TOL; lra). rewrite B.
    destruct (Rltb 0 (-1)) eqn:W; [apply Rltb_iff in W; lra|]. reflexivity. }
  rewrite !KV in H by lra. assert (Q : 4 * PI / (x * 5) = 4 * PI / (x * (5 / 4))) by lra.
  apply (f_equal (fun z => z * (x * 5))) in Q. field_simplify in Q; lra.
Qed.

(** ** Examples *)
Lemma ex_near : ~ close (vsub (V (PI / 5) 0 0) (V 0 0 0)) vzero.
Proof. intros [H _]. cbn [vx vsub vzero] in H. unfold TOL in H. apply Rabs_def2 in H. pose proof PI2_3_2. lra. Qed.
Example C63_ex : exists t g ks qs sh mp, setup obl_lat = Ok t /\ lapT g = lap t /\ good g /\
  centring g (fold1 (Nx g)) (fold1 (Ny g)) (fold1 (Nz g)) /\ find_k_shift ks qs = Ok (sh, mp) /\
  (forall l s, nth_error sh l = Some s -> fits g s) /\ mp = [0; 1]%nat /\ length sh = 2%nat /\
  (fold1 4 3, fold1 4 2, fold1 3 2) = (-1, 2, -1)%Z.
Proof.
  destruct obl_setup as [t [Ht _]]. exists t, (Grid 4 3 2 (V 5 5 5) (V 5 5 5) (lap t)), [V 0 0 0; V (PI / 5) 0 0], [V 0 0 0].
  assert (F : find_k_shift [V 0 0 0; V (PI / 5) 0 0] [V 0 0 0] = Ok ([vzero; vsub (V (PI / 5) 0 0) (V 0 0 0)], [0; 1]%nat)).
  { unfold find_k_shift. cbn [length Nat.mul Nat.add Nat.eqb diffs flat_map map app shift_loop].
    destruct (step_cases 2 [] [] (vsub (V 0 0 0) (V 0 0 0))) as [[C ->] | [[C _] | [C _]]].
    2,3: exfalso; apply C; unfold close, vsub; cbn; rewrite !Rminus_0_r, Rabs_R0; pose proof TOL_pos; auto.
    cbn [obind app].
    destruct (step_cases 2 [] [0%nat] (vsub (V (PI / 5) 0 0) (V 0 0 0))) as [[C' _] | [[C' [j [s [Hj _]]]] | [C' [_ ->]]]].
    - exfalso. exact (ex_near C').
    - destruct j; discriminate.
    - reflexivity. }
  eexists. eexists. split; [exact Ht|]. split; [reflexivity|]. split; [repeat split; cbn; try lia; lra|].
  split; [split; [|split]; intros; apply fold1_is; assumption|]. split; [exact F|].
  split; [intros l s _; repeat split; left; reflexivity|]. split; [reflexivity|]. split; reflexivity.
Qed.

Print Assumptions C63_length.
Print Assumptions C63_shifts.
Print Assumptions C63_overflow.
Print Assumptions C63_shift_safe.
Print Assumptions C63_solve.
Print Assumptions C63_complete.
Print Assumptions C63_gamma.
Print Assumptions C63_gamma_safe.
Print Assumptions C63_overflow_refuted.
Print Assumptions C63_gamma_refuted.
