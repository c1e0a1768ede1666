(** C80: the largest eigenvalue of -1/2 Lap, the effective mesh, the degree of
    the Chebyshev polynomial and the bounds of the filter
    (/repo/src/initialization.c:2183-2248, eigenSolver.c:611-655, 2347-2362). *)
From Coq Require Import Reals Lra Lia ZArith List.
From Coquelicot Require Import Coquelicot.
From Verif Require Import CBase FDWeights LapMax LapMaxSpec LapMaxLem.
Local Open Scope R_scope.

(** The operator -1/2 Lap with the weights of half-width [n], the metric [T] and the mesh [h]. *)
Definition per_mesh (w : nat -> R) (T h : R) (p : nat) : R := T * (w p / (h * h)).
Definition mhalf_lap (n : nat) (w : nat -> R) (Tx Ty Tz hx hy hz : R) (u : gfun) : gfun :=
  fun i j k => - / 2 * lap n (per_mesh w Tx hx) (per_mesh w Ty hy) (per_mesh w Tz hz) u i j k.

(** ** Helpers *)
Lemma gsum_y Nx Ny Nz f : gsum Nx Ny Nz f =
  nsum (Z.to_nat Nz) (fun k => nsum (Z.to_nat Nx) (fun i => nsum (Z.to_nat Ny) (fun j => f i j k))).
Proof. unfold gsum. apply nsum_ext. intros k _. apply nsum_swap. Qed.
Lemma gsum_z Nx Ny Nz f : gsum Nx Ny Nz f =
  nsum (Z.to_nat Ny) (fun j => nsum (Z.to_nat Nx) (fun i => nsum (Z.to_nat Nz) (fun k => f i j k))).
Proof. unfold gsum. rewrite nsum_swap. apply nsum_ext. intros j _. apply nsum_swap. Qed.
Lemma gsum_plus Nx Ny Nz f g : gsum Nx Ny Nz (fun i j k => f i j k + g i j k) = gsum Nx Ny Nz f + gsum Nx Ny Nz g.
Proof.
  unfold gsum. rewrite <- nsum_plus. apply nsum_ext. intros k _. rewrite <- nsum_plus. apply nsum_ext. intros j _.
  apply nsum_plus.
Qed.
Lemma gsum_scal Nx Ny Nz c f : gsum Nx Ny Nz (fun i j k => c * f i j k) = c * gsum Nx Ny Nz f.
Proof.
  unfold gsum. rewrite <- nsum_scal. apply nsum_ext. intros k _. rewrite <- nsum_scal. apply nsum_ext. intros j _.
  apply nsum_scal.
Qed.
Lemma gsum_ext Nx Ny Nz f g : (forall i j k, f i j k = g i j k) -> gsum Nx Ny Nz f = gsum Nx Ny Nz g.
Proof. intros H. unfold gsum. apply nsum_ext. intros. apply nsum_ext. intros. apply nsum_ext. intros. apply H. Qed.

Lemma nsum2_bound N M (f g : Z -> Z -> R) c : (forall i j, c * g i j <= f i j <= 0) ->
  c * nsum N (fun i => nsum M (g i)) <= nsum N (fun i => nsum M (f i)) <= 0.
Proof.
  intros H. split.
  - rewrite <- nsum_scal. apply nsum_le. intros i _. rewrite <- nsum_scal. apply nsum_le. intros j _. apply H.
  - rewrite <- (nsum_zero N (fun _ => 0)) by reflexivity. apply nsum_le. intros i _.
    rewrite <- (nsum_zero M (fun _ => 0)) by reflexivity. apply nsum_le. intros j _. apply H.
Qed.

(** pi scal of the code *)
Definition top (N : Z) : R := PI * (IZR (N - Z.rem N 2) / IZR N).

Lemma d2c_scal n T h t : symb (d2c (D2w n) T h) n t = T * (1 / (h * h)) * symb (D2w n) n t.
Proof. rewrite <- symb_scal. apply cser_ext. intros p _. unfold d2c. ring. Qed.

Lemma max_eig_val n Tx Ty Tz hx hy hz Nx Ny Nz :
  (Z.of_nat n <= 46340)%Z -> (0 < Nx)%Z -> (0 < Ny)%Z -> (0 < Nz)%Z ->
  FDweights_D2 n = Ok (D2w n) /\
  max_eig n Tx Ty Tz hx hy hz Nx Ny Nz = Ok (- / 2 * (symb (d2c (D2w n) Tx hx) n (top Nx) +
    symb (d2c (D2w n) Ty hy) n (top Ny) + symb (d2c (D2w n) Tz hz) n (top Nz))).
Proof.
  intros Hn HX HY HZ.
  assert (E : FDweights_D2 n = Ok (D2w n)).
  { unfold FDweights_D2, INT_MAX. destruct (Z.leb_spec (Z.of_nat n * Z.of_nat n) 2147483647); [reflexivity|nia]. }
  split; [exact E|]. unfold max_eig. rewrite E. cbn [obind]. unfold scal.
  destruct (Z.eqb_spec Nx 0); [lia|]. destruct (Z.eqb_spec Ny 0); [lia|]. destruct (Z.eqb_spec Nz 0); [lia|].
  cbn [obind]. f_equal. unfold symb, cser.
  rewrite (psum_ext _ (fun p => (2 * (d2c (D2w n) Tx hx p * csn p (top Nx)) + 2 * (d2c (D2w n) Ty hy p * csn p (top Ny))) +
    2 * (d2c (D2w n) Tz hz p * csn p (top Nz)))).
  - rewrite !psum_plus, !psum_scal. ring.
  - intros p _. unfold csn, top.
    assert (X : forall y, PI * INR p * y = INR p * (PI * y)) by (intros; ring). rewrite !X. ring.
Qed.

Lemma line_ext n c c' v i : (forall p, c p = c' p) -> line n c v i = line n c' v i.
Proof.
  intros H. unfold line. rewrite H. f_equal. rewrite !ssum_psum. apply psum_ext. intros p _. now rewrite H.
Qed.
Lemma per_mesh_d2c w T h p : per_mesh w T h p = d2c w T h p.
Proof. unfold per_mesh, d2c, Rdiv. ring. Qed.
Lemma lap_mesh n w Tx Ty Tz hx hy hz u i j k :
  lap n (per_mesh w Tx hx) (per_mesh w Ty hy) (per_mesh w Tz hz) u i j k = lap n (d2c w Tx hx) (d2c w Ty hy) (d2c w Tz hz) u i j k.
Proof. unfold lap. rewrite !(line_ext n (per_mesh _ _ _) (d2c _ _ _)) by apply per_mesh_d2c. reflexivity. Qed.

(** ** The quadratic form *)
(** On periodic grid functions -1/2 Lap lies between 0 and the value the code
    stores. *)
Theorem C80_form : forall n Tx Ty Tz hx hy hz Nx Ny Nz,
  (Z.of_nat n <= 46340)%Z -> (0 < Nx)%Z -> (0 < Ny)%Z -> (0 < Nz)%Z ->
  0 <= Tx -> 0 <= Ty -> 0 <= Tz -> hx <> 0 -> hy <> 0 -> hz <> 0 ->
  exists w M, FDweights_D2 n = Ok w /\ max_eig n Tx Ty Tz hx hy hz Nx Ny Nz = Ok M /\
  forall u, periodic Nx Ny Nz u ->
    0 <= inner Nx Ny Nz u (mhalf_lap n w Tx Ty Tz hx hy hz u) <= M * inner Nx Ny Nz u u.
Proof.
  intros n Tx Ty Tz hx hy hz Nx Ny Nz Hn HX HY HZ PX PY PZ QX QY QZ.
  destruct (max_eig_val n Tx Ty Tz hx hy hz Nx Ny Nz Hn HX HY HZ) as (E & EM).
  exists (D2w n). eexists. split; [exact E|]. split; [exact EM|]. intros u Hu.
  set (IN := inner Nx Ny Nz u u).
  assert (ZN : forall N, (0 < N)%Z -> Z.of_nat (Z.to_nat N) = N) by (intros; lia).
  assert (A : forall T h, 0 <= T -> h <> 0 -> 0 <= T * (1 / (h * h))).
  { intros T h HT Hh. apply Rmult_le_pos; [exact HT|]. apply Rdiv_le_0_compat; [lra|]. nra. }
  assert (LB : forall T h N v, 0 <= T -> h <> 0 -> (0 < N)%Z -> (forall i, v (i + N)%Z = v i) ->
    symb (d2c (D2w n) T h) n (top N) * nsum (Z.to_nat N) (fun i => v i * v i)
      <= nsum (Z.to_nat N) (fun i => v i * line n (d2c (D2w n) T h) v i) <= 0).
  { intros T h N v HT Hh HN Hv.
    destruct (line_bound (Z.to_nat N) n (T * (1 / (h * h))) v) as [B1 B2]; [lia| |now apply A|].
    { intros i. rewrite ZN by exact HN. apply Hv. }
    rewrite ZN in B1 by exact HN. fold (top N) in B1. rewrite d2c_scal.
    assert (LE : forall i, line n (d2c (D2w n) T h) v i = line n (fun p => T * (1 / (h * h)) * D2w n p) v i).
    { intros i. apply line_ext. intros p. unfold d2c. ring. }
    rewrite (nsum_ext (Z.to_nat N) (fun i => v i * line n (d2c (D2w n) T h) v i)
      (fun i => v i * line n (fun p => T * (1 / (h * h)) * D2w n p) v i)) by (intros i _; rewrite LE; reflexivity).
    split; [exact B1|exact B2]. }
  assert (BX : symb (d2c (D2w n) Tx hx) n (top Nx) * IN <=
    gsum Nx Ny Nz (fun i j k => u i j k * line n (d2c (D2w n) Tx hx) (fun i => u i j k) i) <= 0).
  { unfold IN, inner, gsum.
    apply (nsum2_bound _ _ (fun k j => nsum (Z.to_nat Nx) (fun i => u i j k * line n (d2c (D2w n) Tx hx) (fun i => u i j k) i))
      (fun k j => nsum (Z.to_nat Nx) (fun i => u i j k * u i j k))).
    intros k j. apply (LB Tx hx Nx (fun i => u i j k)); auto. intros i. apply Hu. }
  assert (BY : symb (d2c (D2w n) Ty hy) n (top Ny) * IN <=
    gsum Nx Ny Nz (fun i j k => u i j k * line n (d2c (D2w n) Ty hy) (fun j => u i j k) j) <= 0).
  { unfold IN, inner. rewrite !gsum_y.
    apply (nsum2_bound _ _ (fun k i => nsum (Z.to_nat Ny) (fun j => u i j k * line n (d2c (D2w n) Ty hy) (fun j => u i j k) j))
      (fun k i => nsum (Z.to_nat Ny) (fun j => u i j k * u i j k))).
    intros k i. apply (LB Ty hy Ny (fun j => u i j k)); auto. intros j. apply Hu. }
  assert (BZ : symb (d2c (D2w n) Tz hz) n (top Nz) * IN <=
    gsum Nx Ny Nz (fun i j k => u i j k * line n (d2c (D2w n) Tz hz) (fun k => u i j k) k) <= 0).
  { unfold IN, inner. rewrite !gsum_z.
    apply (nsum2_bound _ _ (fun j i => nsum (Z.to_nat Nz) (fun k => u i j k * line n (d2c (D2w n) Tz hz) (fun k => u i j k) k))
      (fun j i => nsum (Z.to_nat Nz) (fun k => u i j k * u i j k))).
    intros j i. apply (LB Tz hz Nz (fun k => u i j k)); auto. intros k. apply Hu. }
  assert (EI : inner Nx Ny Nz u (mhalf_lap n (D2w n) Tx Ty Tz hx hy hz u) = - / 2 *
    (gsum Nx Ny Nz (fun i j k => u i j k * line n (d2c (D2w n) Tx hx) (fun i => u i j k) i) +
     gsum Nx Ny Nz (fun i j k => u i j k * line n (d2c (D2w n) Ty hy) (fun j => u i j k) j) +
     gsum Nx Ny Nz (fun i j k => u i j k * line n (d2c (D2w n) Tz hz) (fun k => u i j k) k))).
  { rewrite <- !gsum_plus, <- gsum_scal. apply gsum_ext. intros i j k. unfold mhalf_lap. rewrite lap_mesh. unfold lap. ring. }
  rewrite EI. split; lra.
Qed.
Print Assumptions C80_form.

(** ** Plane waves *)
Lemma line_cos n c t a i : line n c (fun i => cos (t * IZR i + a)) i = symb c n t * cos (t * IZR i + a).
Proof.
  unfold line, symb, cser. rewrite ssum_psum, Rmult_plus_distr_r, Rmult_assoc, (Rmult_comm (psum _ _)).
  f_equal. rewrite <- !psum_scal. apply psum_ext. intros p _. unfold csn.
  rewrite plus_IZR, minus_IZR, <- INR_IZR_INZ.
  replace (t * (IZR i + INR p) + a) with ((t * IZR i + a) + INR p * t) by ring.
  replace (t * (IZR i - INR p) + a) with ((t * IZR i + a) - INR p * t) by ring.
  rewrite cos_plus, cos_minus. ring.
Qed.

Lemma top_period N : (0 < N)%Z -> exists m : Z, top N * IZR N = 2 * IZR m * PI.
Proof.
  intros H. exists (N / 2)%Z. unfold top. assert (IZR N <> 0) by (apply not_0_IZR; lia).
  replace (PI * (IZR (N - Z.rem N 2) / IZR N) * IZR N) with (PI * IZR (N - Z.rem N 2)) by (field; assumption).
  rewrite Z.rem_mod_nonneg by lia. replace (N - N mod 2)%Z with (2 * (N / 2))%Z by (pose proof (Z.div_mod N 2); lia).
  rewrite mult_IZR. ring.
Qed.

Lemma cos_shift x m : cos (x + 2 * IZR m * PI) = cos x.
Proof.
  destruct (Z_le_gt_dec 0 m) as [H|H].
  - rewrite <- (Z2Nat.id m) by lia. rewrite <- INR_IZR_INZ. apply cos_period.
  - rewrite <- (cos_period (x + 2 * IZR m * PI) (Z.to_nat (- m))). f_equal.
    rewrite INR_IZR_INZ, Z2Nat.id by lia. rewrite opp_IZR. ring.
Qed.

(** A plane wave whose wave numbers are [top] up to sign is periodic. *)
Definition wave (sx sy sz : R) (Nx Ny Nz : Z) : gfun := fun i j k =>
  cos (sx * top Nx * IZR i + (sy * top Ny * IZR j + sz * top Nz * IZR k)).

Lemma wave_periodic (a b g : Z) Nx Ny Nz : (0 < Nx)%Z -> (0 < Ny)%Z -> (0 < Nz)%Z ->
  periodic Nx Ny Nz (wave (IZR a) (IZR b) (IZR g) Nx Ny Nz).
Proof.
  intros HX HY HZ i j k. unfold wave.
  destruct (top_period Nx HX) as (mx & EX). destruct (top_period Ny HY) as (my & EY).
  destruct (top_period Nz HZ) as (mz & EZ). rewrite !plus_IZR. split; [|split].
  - rewrite <- (cos_shift (IZR a * top Nx * IZR i + (IZR b * top Ny * IZR j + IZR g * top Nz * IZR k)) (a * mx)). f_equal. rewrite mult_IZR.
    replace (2 * (IZR a * IZR mx) * PI) with (IZR a * (2 * IZR mx * PI)) by ring. rewrite <- EX. ring.
  - rewrite <- (cos_shift (IZR a * top Nx * IZR i + (IZR b * top Ny * IZR j + IZR g * top Nz * IZR k)) (b * my)). f_equal. rewrite mult_IZR.
    replace (2 * (IZR b * IZR my) * PI) with (IZR b * (2 * IZR my * PI)) by ring. rewrite <- EY. ring.
  - rewrite <- (cos_shift (IZR a * top Nx * IZR i + (IZR b * top Ny * IZR j + IZR g * top Nz * IZR k)) (g * mz)). f_equal. rewrite mult_IZR.
    replace (2 * (IZR g * IZR mz) * PI) with (IZR g * (2 * IZR mz * PI)) by ring. rewrite <- EZ. ring.
Qed.

Lemma symb_even c n t s : s = 1 \/ s = -1 -> symb c n (s * t) = symb c n t.
Proof.
  intros H. unfold symb, cser. f_equal. f_equal. apply psum_ext. intros p _. f_equal. unfold csn.
  destruct H as [-> | ->]; [now rewrite Rmult_1_l|]. rewrite <- (cos_neg (INR p * t)). f_equal. ring.
Qed.

Lemma lap_wave n cx cy cz sx sy sz Nx Ny Nz i j k :
  (sx = 1 \/ sx = -1) -> (sy = 1 \/ sy = -1) -> (sz = 1 \/ sz = -1) ->
  lap n cx cy cz (wave sx sy sz Nx Ny Nz) i j k =
  (symb cx n (top Nx) + symb cy n (top Ny) + symb cz n (top Nz)) * wave sx sy sz Nx Ny Nz i j k.
Proof.
  intros HX HY HZ. unfold lap, wave.
  rewrite (line_cos n cx (sx * top Nx) (sy * top Ny * IZR j + sz * top Nz * IZR k) i).
  assert (L : forall c (v v' : Z -> R) q, (forall q, v q = v' q) -> line n c v q = line n c v' q).
  { intros c v v' q H. unfold line. rewrite H. f_equal. rewrite !ssum_psum. apply psum_ext. intros p _. now rewrite !H. }
  rewrite (L cy _ (fun j => cos (sy * top Ny * IZR j + (sx * top Nx * IZR i + sz * top Nz * IZR k))) j)
    by (intros; f_equal; ring).
  rewrite (L cz _ (fun k => cos (sz * top Nz * IZR k + (sx * top Nx * IZR i + sy * top Ny * IZR j))) k)
    by (intros; f_equal; ring).
  rewrite !line_cos, !symb_even by assumption.
  replace (sy * top Ny * IZR j + (sx * top Nx * IZR i + sz * top Nz * IZR k))
    with (sx * top Nx * IZR i + (sy * top Ny * IZR j + sz * top Nz * IZR k)) by ring.
  replace (sz * top Nz * IZR k + (sx * top Nx * IZR i + sy * top Ny * IZR j))
    with (sx * top Nx * IZR i + (sy * top Ny * IZR j + sz * top Nz * IZR k)) by ring. ring.
Qed.

Lemma inner_pos Nx Ny Nz u : (0 < Nx)%Z -> (0 < Ny)%Z -> (0 < Nz)%Z -> periodic Nx Ny Nz u ->
  (exists i j k, u i j k <> 0) -> 0 < inner Nx Ny Nz u u.
Proof.
  intros HX HY HZ Hu (i & j & k & H).
  assert (G : forall N f, (forall q, 0 <= f q) -> 0 <= nsum N f).
  { intros N f Hf. rewrite <- (nsum_zero N (fun _ => 0)) by reflexivity. apply nsum_le. intros; apply Hf. }
  assert (P : forall N f a, (0 < N)%Z -> (forall q, 0 <= f q) -> (forall q, f (q + N)%Z = f q) -> 0 < f a ->
    0 < nsum (Z.to_nat N) f).
  { intros N f a HN Hf Hp Ha.
    assert (E : f (a mod N)%Z = f a).
    { rewrite <- (Z2Nat.id N) at 1 by lia. apply perio_mod; [lia|]. intros q. rewrite Z2Nat.id by lia. apply Hp. }
    pose proof (Z.mod_pos_bound a N HN) as B. rewrite <- E in Ha.
    assert (M : forall m, (Z.to_nat (a mod N) < m)%nat -> f (a mod N)%Z <= nsum m f).
    { induction m as [|m IH]; intros Hm; [lia|]. cbn [nsum].
      destruct (Nat.eq_dec (Z.to_nat (a mod N)) m) as [<-|N1].
      - rewrite Z2Nat.id by lia. pose proof (G (Z.to_nat (a mod N)) f Hf). lra.
      - pose proof (Hf (Z.of_nat m)). pose proof (IH ltac:(lia)). lra. }
    pose proof (M (Z.to_nat N) ltac:(lia)). lra. }
  unfold inner, gsum. apply (P Nz _ k HZ).
  - intros q. apply G. intros q1. apply G. intros q2. nra.
  - intros q. apply nsum_ext. intros q1 _. apply nsum_ext. intros q2 _. destruct (Hu q2 q1 q) as (_ & _ & ->). reflexivity.
  - apply (P Ny _ j HY).
    + intros q1. apply G. intros q2. nra.
    + intros q1. apply nsum_ext. intros q2 _. destruct (Hu q2 q1 k) as (_ & -> & _). reflexivity.
    + apply (P Nx _ i HX).
      * intros q2. nra.
      * intros q2. destruct (Hu q2 j k) as (-> & _). reflexivity.
      * nra.
Qed.

(** ** The largest eigenvalue *)
(** In an orthogonal periodic cell the value the code stores is the largest
    eigenvalue of -1/2 Lap, for every order, mesh and grid; no eigenvalue is
    negative. *)
Theorem C80_largest : forall n hx hy hz Nx Ny Nz,
  (Z.of_nat n <= 46340)%Z -> (0 < Nx)%Z -> (0 < Ny)%Z -> (0 < Nz)%Z -> hx <> 0 -> hy <> 0 -> hz <> 0 ->
  exists w M, FDweights_D2 n = Ok w /\ max_eig n 1 1 1 hx hy hz Nx Ny Nz = Ok M /\
  eigenvalue Nx Ny Nz (mhalf_lap n w 1 1 1 hx hy hz) M /\
  forall l, eigenvalue Nx Ny Nz (mhalf_lap n w 1 1 1 hx hy hz) l -> 0 <= l <= M.
Proof.
  intros n hx hy hz Nx Ny Nz Hn HX HY HZ QX QY QZ.
  destruct (C80_form n 1 1 1 hx hy hz Nx Ny Nz Hn HX HY HZ) as (w & M & E & EM & B); try assumption; try lra.
  exists w, M. split; [exact E|]. split; [exact EM|]. split.
  - exists (wave (IZR 1) (IZR 1) (IZR 1) Nx Ny Nz). split; [now apply wave_periodic|]. split.
    + exists 0%Z, 0%Z, 0%Z. unfold wave. rewrite !Rmult_0_r, !Rplus_0_r, cos_0. lra.
    + intros i j k. unfold mhalf_lap. rewrite lap_mesh, lap_wave by (left; reflexivity).
      destruct (max_eig_val n 1 1 1 hx hy hz Nx Ny Nz Hn HX HY HZ) as (E' & EM').
      rewrite E in E'. injection E' as ->. rewrite EM in EM'. injection EM' as ->. ring.
  - intros l (u & Hu & NZ & EV). specialize (B u Hu).
    assert (EI : inner Nx Ny Nz u (mhalf_lap n w 1 1 1 hx hy hz u) = l * inner Nx Ny Nz u u).
    { unfold inner. rewrite <- gsum_scal. apply gsum_ext. intros i j k. rewrite EV. ring. }
    rewrite EI in B. pose proof (inner_pos Nx Ny Nz u HX HY HZ Hu NZ) as IP. nra.
Qed.
Print Assumptions C80_largest.

(** ** Cells that are not orthogonal *)
Definition symb_1 (d : nat -> R) (n : nat) (t : R) : R := 2 * psum (fun p => d p * sin (INR p * t)) n.

Lemma line1_cos n d t a i : line1 n d (fun i => cos (t * IZR i + a)) i = - symb_1 d n t * sin (t * IZR i + a).
Proof.
  unfold line1, symb_1. rewrite ssum_psum.
  replace (- (2 * psum (fun p => d p * sin (INR p * t)) n) * sin (t * IZR i + a))
    with (- 2 * sin (t * IZR i + a) * psum (fun p => d p * sin (INR p * t)) n) by ring.
  rewrite <- psum_scal. apply psum_ext. intros p _.
  rewrite plus_IZR, minus_IZR, <- INR_IZR_INZ.
  replace (t * (IZR i + INR p) + a) with ((t * IZR i + a) + INR p * t) by ring.
  replace (t * (IZR i - INR p) + a) with ((t * IZR i + a) - INR p * t) by ring.
  rewrite cos_plus, cos_minus. ring.
Qed.

Lemma line1_sin n d t a i : line1 n d (fun i => sin (t * IZR i + a)) i = symb_1 d n t * cos (t * IZR i + a).
Proof.
  unfold line1, symb_1. rewrite ssum_psum.
  replace (2 * psum (fun p => d p * sin (INR p * t)) n * cos (t * IZR i + a))
    with (2 * cos (t * IZR i + a) * psum (fun p => d p * sin (INR p * t)) n) by ring.
  rewrite <- psum_scal. apply psum_ext. intros p _.
  rewrite plus_IZR, minus_IZR, <- INR_IZR_INZ.
  replace (t * (IZR i + INR p) + a) with ((t * IZR i + a) + INR p * t) by ring.
  replace (t * (IZR i - INR p) + a) with ((t * IZR i + a) - INR p * t) by ring.
  rewrite sin_plus, sin_minus. ring.
Qed.

Lemma line1_ext n d v v' i : (forall q, v q = v' q) -> line1 n d v i = line1 n d v' i.
Proof. intros H. unfold line1. rewrite !ssum_psum. apply psum_ext. intros p _. now rewrite !H. Qed.
Lemma line1_scal n d c v i : line1 n d (fun q => c * v q) i = c * line1 n d v i.
Proof. unfold line1. rewrite !ssum_psum, <- psum_scal. apply psum_ext. intros; ring. Qed.

Lemma mixed_cos n d e t s a i j :
  line1 n d (fun i => line1 n e (fun j => cos (t * IZR i + (s * IZR j + a))) j) i =
  - (symb_1 d n t * symb_1 e n s) * cos (t * IZR i + (s * IZR j + a)).
Proof.
  rewrite (line1_ext n d _ (fun i => - symb_1 e n s * sin (t * IZR i + (s * IZR j + a)))).
  - rewrite line1_scal, line1_sin. ring.
  - intros q. rewrite (line1_ext n e _ (fun j => cos (s * IZR j + (t * IZR q + a)))) by (intros; f_equal; ring).
    rewrite line1_cos. f_equal. f_equal. ring.
Qed.

Lemma symb_1_odd d n t (s : Z) : (s = 1 \/ s = -1)%Z -> symb_1 d n (IZR s * t) = IZR s * symb_1 d n t.
Proof.
  intros H. unfold symb_1.
  replace (IZR s * (2 * psum (fun p => d p * sin (INR p * t)) n)) with (2 * (IZR s * psum (fun p => d p * sin (INR p * t)) n)) by ring.
  f_equal. rewrite <- psum_scal. apply psum_ext. intros p _.
  destruct H as [-> | ->].
  - rewrite !Rmult_1_l. reflexivity.
  - replace (INR p * (-1 * t)) with (- (INR p * t)) by ring. rewrite sin_neg. ring.
Qed.

(** The operator with mixed terms. *)
Definition mhalf_tri (n : nat) (w : nat -> R) (Tx Ty Tz Txy Txz Tyz hx hy hz : R) (u : gfun) : gfun :=
  let d h p := FDweights_D1 n p * (1 / h) in
  fun i j k => - / 2 * lap_tri n (per_mesh w Tx hx) (per_mesh w Ty hy) (per_mesh w Tz hz) (d hx) (d hy) (d hz) Txy Txz Tyz u i j k.

(** As the comment in the code says, the value stored is a lower bound there:
    some eigenvalue is at least as large. *)
Theorem C80_lower : forall n Tx Ty Tz Txy Txz Tyz hx hy hz Nx Ny Nz,
  (Z.of_nat n <= 46340)%Z -> (0 < Nx)%Z -> (0 < Ny)%Z -> (0 < Nz)%Z ->
  exists w M l, FDweights_D2 n = Ok w /\ max_eig n Tx Ty Tz hx hy hz Nx Ny Nz = Ok M /\
    eigenvalue Nx Ny Nz (mhalf_tri n w Tx Ty Tz Txy Txz Tyz hx hy hz) l /\ M <= l.
Proof.
  intros n Tx Ty Tz Txy Txz Tyz hx hy hz Nx Ny Nz Hn HX HY HZ.
  destruct (max_eig_val n Tx Ty Tz hx hy hz Nx Ny Nz Hn HX HY HZ) as (E & EM).
  exists (D2w n). set (M := - / 2 * _) in EM. exists M.
  set (d := fun h p => FDweights_D1 n p * (1 / h)).
  set (sx := symb_1 (d hx) n (top Nx)). set (sy := symb_1 (d hy) n (top Ny)). set (sz := symb_1 (d hz) n (top Nz)).
  assert (W : forall a b g : Z, (a = 1 \/ a = -1)%Z -> (b = 1 \/ b = -1)%Z -> (g = 1 \/ g = -1)%Z ->
    eigenvalue Nx Ny Nz (mhalf_tri n (D2w n) Tx Ty Tz Txy Txz Tyz hx hy hz)
      (M + (IZR a * IZR b * (Txy * sx * sy) + IZR a * IZR g * (Txz * sx * sz) + IZR b * IZR g * (Tyz * sy * sz)))).
  { intros a b g Ha Hb Hg. exists (wave (IZR a) (IZR b) (IZR g) Nx Ny Nz).
    split; [now apply wave_periodic|]. split.
    - exists 0%Z, 0%Z, 0%Z. unfold wave. rewrite !Rmult_0_r, !Rplus_0_r, cos_0. lra.
    - intros i j k. unfold mhalf_tri, lap_tri. fold d.
      assert (S1 : forall s : Z, (s = 1 \/ s = -1)%Z -> IZR s = 1 \/ IZR s = -1).
      { intros s [-> | ->]; [left|right]; reflexivity. }
      rewrite lap_mesh, lap_wave by now apply S1.
      assert (XY : line1 n (d hx) (fun i => line1 n (d hy) (fun j => wave (IZR a) (IZR b) (IZR g) Nx Ny Nz i j k) j) i =
        - (IZR a * IZR b * (sx * sy)) * wave (IZR a) (IZR b) (IZR g) Nx Ny Nz i j k).
      { unfold wave. rewrite (mixed_cos n (d hx) (d hy) (IZR a * top Nx) (IZR b * top Ny) (IZR g * top Nz * IZR k) i j).
        rewrite !symb_1_odd by assumption. fold sx sy. ring. }
      assert (XZ : line1 n (d hx) (fun i => line1 n (d hz) (fun k => wave (IZR a) (IZR b) (IZR g) Nx Ny Nz i j k) k) i =
        - (IZR a * IZR g * (sx * sz)) * wave (IZR a) (IZR b) (IZR g) Nx Ny Nz i j k).
      { rewrite (line1_ext n (d hx) _ (fun i => line1 n (d hz) (fun k =>
          cos (IZR a * top Nx * IZR i + (IZR g * top Nz * IZR k + IZR b * top Ny * IZR j))) k)).
        2:{ intros q. apply line1_ext. intros q'. unfold wave. f_equal. ring. }
        rewrite (mixed_cos n (d hx) (d hz) (IZR a * top Nx) (IZR g * top Nz) (IZR b * top Ny * IZR j) i k).
        rewrite !symb_1_odd by assumption. fold sx sz. unfold wave. rewrite (Rplus_comm (IZR b * top Ny * IZR j)). ring. }
      assert (YZ : line1 n (d hy) (fun j => line1 n (d hz) (fun k => wave (IZR a) (IZR b) (IZR g) Nx Ny Nz i j k) k) j =
        - (IZR b * IZR g * (sy * sz)) * wave (IZR a) (IZR b) (IZR g) Nx Ny Nz i j k).
      { rewrite (line1_ext n (d hy) _ (fun j => line1 n (d hz) (fun k =>
          cos (IZR b * top Ny * IZR j + (IZR g * top Nz * IZR k + IZR a * top Nx * IZR i))) k)).
        2:{ intros q. apply line1_ext. intros q'. unfold wave. f_equal. ring. }
        rewrite (mixed_cos n (d hy) (d hz) (IZR b * top Ny) (IZR g * top Nz) (IZR a * top Nx * IZR i) j k).
        rewrite !symb_1_odd by assumption. fold sy sz. unfold wave.
        replace (IZR b * top Ny * IZR j + (IZR g * top Nz * IZR k + IZR a * top Nx * IZR i))
          with (IZR a * top Nx * IZR i + (IZR b * top Ny * IZR j + IZR g * top Nz * IZR k)) by ring. ring. }
      change (fun p : nat => FDweights_D1 n p * (1 / hx)) with (d hx). change (fun p : nat => FDweights_D1 n p * (1 / hy)) with (d hy).
      change (fun p : nat => FDweights_D1 n p * (1 / hz)) with (d hz).
      cbv beta zeta. rewrite XY, XZ, YZ. unfold M. field. }
  set (A := Txy * sx * sy) in *. set (B := Txz * sx * sz) in *. set (G := Tyz * sy * sz) in *.
  destruct (Rle_lt_dec 0 (A + B + G)) as [L|L1].
  { eexists. split; [exact E|]. split; [exact EM|]. split; [apply (W 1 1 1)%Z; now left|]. lra. }
  destruct (Rle_lt_dec 0 (A - B - G)) as [L|L2].
  { eexists. split; [exact E|]. split; [exact EM|]. split; [apply (W 1 1 (-1))%Z; auto|]. lra. }
  destruct (Rle_lt_dec 0 (- A + B - G)) as [L|L3].
  { eexists. split; [exact E|]. split; [exact EM|]. split; [apply (W 1 (-1) 1)%Z; auto|]. lra. }
  eexists. split; [exact E|]. split; [exact EM|]. split; [apply (W (-1) 1 1)%Z; auto|]. lra.
Qed.
Print Assumptions C80_lower.

(** ** The effective mesh *)
Lemma top_even N : (0 < N)%Z -> Z.Even N -> top N = PI.
Proof.
  intros HN (m & ->). unfold top. rewrite Z.mul_comm, Z.rem_mul, Z.sub_0_r by lia.
  field. apply not_0_IZR. lia.
Qed.

(** For even numbers of nodes an orthogonal mesh of width [h_eff] in all
    directions has the same largest eigenvalue. *)
Theorem C80_mesh : forall n hx hy hz Nx Ny Nz M,
  (Z.of_nat n <= 46340)%Z -> (0 < Nx)%Z -> (0 < Ny)%Z -> (0 < Nz)%Z ->
  Z.Even Nx -> Z.Even Ny -> Z.Even Nz -> 0 < hx -> 0 < hy -> 0 < hz ->
  (hx = hy /\ hy = hz) \/ / 10 ^ 12 <= Rabs (hx - hy) \/ / 10 ^ 12 <= Rabs (hy - hz) ->
  max_eig n 1 1 1 hx hy hz Nx Ny Nz = Ok M ->
  let h := h_eff hx hy hz in 0 < h /\ max_eig n 1 1 1 h h h Nx Ny Nz = Ok M.
Proof.
  intros n hx hy hz Nx Ny Nz M Hn HX HY HZ EX EY EZ PX PY PZ HC EM h.
  assert (I : forall x, 0 < x -> 0 < 1 / (x * x)) by (intros; apply Rdiv_lt_0_compat; nra).
  set (s := 1 / (hx * hx) + 1 / (hy * hy) + 1 / (hz * hz)) in *.
  assert (Hs : 0 < s) by (unfold s; pose proof (I hx PX); pose proof (I hy PY); pose proof (I hz PZ); lra).
  assert (H3 : 0 < h /\ 3 * (1 / (h * h)) = s).
  { assert (SQ : 0 < sqrt (3 / s) /\ 3 * (1 / (sqrt (3 / s) * sqrt (3 / s))) = s).
    { assert (0 < 3 / s) by (apply Rdiv_lt_0_compat; lra). split; [now apply sqrt_lt_R0|].
      rewrite sqrt_sqrt by lra. field. lra. }
    assert (SE : hx = hy -> hy = hz -> 0 < hx /\ 3 * (1 / (hx * hx)) = s).
    { intros E1 E2. split; [exact PX|]. unfold s. rewrite <- E2, <- E1. ring. }
    unfold h, h_eff. fold s.
    destruct (Rlt_dec (Rabs (hx - hy)) (/ 10 ^ 12)) as [L1|L1]; [|exact SQ].
    destruct (Rlt_dec (Rabs (hy - hz)) (/ 10 ^ 12)) as [L2|L2]; [|exact SQ].
    destruct HC as [(E1 & E2)|[L|L]]; [now apply SE|lra|lra]. }
  destruct H3 as (H0 & H3). split; [exact H0|].
  destruct (max_eig_val n 1 1 1 hx hy hz Nx Ny Nz Hn HX HY HZ) as (_ & E1).
  destruct (max_eig_val n 1 1 1 h h h Nx Ny Nz Hn HX HY HZ) as (_ & E2).
  rewrite E2, <- EM, E1. f_equal. rewrite !d2c_scal, !top_even by assumption.
  set (f := symb (D2w n) n PI). transitivity (- / 2 * ((3 * (1 / (h * h))) * f)); [ring|]. rewrite H3. unfold s. ring.
Qed.
Print Assumptions C80_mesh.

(** The constant for other cells is not the one of its comment: with the
    default order 12, in a hexagonal cell with equal mesh and 20 nodes each
    way, an orthogonal mesh of width [h_eff] has a larger largest eigenvalue
    than the value it was made from. *)
Theorem C80_mesh_refuted : exists M M',
  max_eig 6 (4 / 3) (4 / 3) 1 1 1 1 20 20 20 = Ok M /\
  max_eig 6 1 1 1 (h_eff_tri M) (h_eff_tri M) (h_eff_tri M) 20 20 20 = Ok M' /\ M < M'.
Proof.
  assert (S6 : symb (D2w 6) 6 PI = - (24505 / 3465) + (symb (D2w 6) 6 PI + 24505 / 3465)) by ring.
  assert (HS : symb (D2w 6) 6 PI < - (7)).
  { clear S6. unfold symb, cser. cbn [psum]. unfold csn.
    assert (Cz : forall m : Z, cos (IZR (2 * m) * PI) = 1 /\ cos (IZR (2 * m + 1) * PI) = -1).
    { intros m. rewrite plus_IZR, mult_IZR. split.
      - replace (2 * IZR m * PI) with (0 + 2 * IZR m * PI) by ring. rewrite cos_shift. apply cos_0.
      - replace ((2 * IZR m + 1) * PI) with (PI + 2 * IZR m * PI) by ring. rewrite cos_shift. apply cos_PI. }
    rewrite !INR_IZR_INZ.
    destruct (Cz 0%Z) as (_ & C1). destruct (Cz 1%Z) as (C2 & C3). destruct (Cz 2%Z) as (C4 & C5). destruct (Cz 3%Z) as (C6 & _).
    cbn [Z.of_nat Pos.of_succ_nat Pos.succ].
    change (2 * 0 + 1)%Z with 1%Z in C1. change (2 * 1)%Z with 2%Z in C2. change (2 * 1 + 1)%Z with 3%Z in C3.
    change (2 * 2)%Z with 4%Z in C4. change (2 * 2 + 1)%Z with 5%Z in C5. change (2 * 3)%Z with 6%Z in C6.
    change (Z.of_nat 1) with 1%Z. change (Z.of_nat 2) with 2%Z. change (Z.of_nat 3) with 3%Z.
    change (Z.of_nat 4) with 4%Z. change (Z.of_nat 5) with 5%Z. change (Z.of_nat 6) with 6%Z.
    rewrite C1, C2, C3, C4, C5, C6. unfold D2w. rewrite !fract_ratio. unfold sgn. cbn. lra. }
  clear S6. assert (TP : top 20 = PI) by (apply top_even; [lia|now exists 10%Z]).
  destruct (max_eig_val 6 (4 / 3) (4 / 3) 1 1 1 1 20 20 20) as (_ & E1); [lia|lia|lia|lia|].
  rewrite !d2c_scal, TP in E1. set (f := symb (D2w 6) 6 PI) in *.
  set (M := - / 2 * _) in E1. exists M.
  destruct (max_eig_val 6 1 1 1 (h_eff_tri M) (h_eff_tri M) (h_eff_tri M) 20 20 20) as (_ & E2); [lia|lia|lia|lia|].
  rewrite !d2c_scal, TP in E2. fold f in E2. eexists. split; [exact E1|]. split; [exact E2|].
  assert (EM : M = - (11 / 6) * f) by (unfold M; field).
  assert (HM : 0 < M) by lra.
  assert (HL : 0 < lambda_ref < 7) by (unfold lambda_ref; split; lra).
  assert (H2 : h_eff_tri M * h_eff_tri M = 3 * lambda_ref / (2 * M)).
  { unfold h_eff_tri. apply sqrt_sqrt. apply Rlt_le, Rdiv_lt_0_compat; lra. }
  rewrite H2. replace (1 * (1 / (3 * lambda_ref / (2 * M)))) with (2 * M / (3 * lambda_ref)) by (field; lra).
  replace (- / 2 * (2 * M / (3 * lambda_ref) * f + 2 * M / (3 * lambda_ref) * f + 2 * M / (3 * lambda_ref) * f))
    with (M * (- f / lambda_ref)) by (field; lra).
  assert (1 < - f / lambda_ref) by (apply Rlt_div_r; lra). nra.
Qed.
Print Assumptions C80_mesh_refuted.

(** ** The degree of the polynomial *)
Lemma round_mono x y : 0 <= x -> x <= y -> (round x <= round y)%Z.
Proof.
  intros H0 H. unfold round. destruct (Rle_dec 0 x); [|lra]. destruct (Rle_dec 0 y); [|lra].
  destruct (base_Int_part (x + / 2)) as [A1 A2]. destruct (base_Int_part (y + / 2)) as [B1 B2].
  apply Z.lt_succ_r. apply lt_IZR. rewrite succ_IZR. lra.
Qed.
Lemma round_Z z : (0 <= z)%Z -> round (IZR z) = z.
Proof.
  intros H. unfold round. apply IZR_le in H. destruct (Rle_dec 0 (IZR z)); [|lra].
  destruct (base_Int_part (IZR z + / 2)) as [A1 A2].
  apply Z.le_antisymm; apply Z.lt_succ_r; apply lt_IZR; rewrite succ_IZR; lra.
Qed.

Definition cubic (h : R) : R := ((- 700 / 3 * h + 1240 / 3) * h + - 773 / 3) * h + 1078 / 15.

Lemma cubic_decr a b : a <= b -> cubic b <= cubic a.
Proof.
  intros H. assert (E : cubic a - cubic b = (b - a) * (700 / 3 * (a * a + a * b + b * b) - 1240 / 3 * (a + b) + 773 / 3)).
  { unfold cubic. field. }
  assert (0 <= 700 / 3 * (a * a + a * b + b * b) - 1240 / 3 * (a + b) + 773 / 3).
  { pose proof (pow2_ge_0 (a + b - 124 / 105)) as S1. pose proof (pow2_ge_0 (a - b)) as S2. cbn [pow] in *. nra. }
  nra.
Qed.

(** The degree lies between 14 and 72 for every positive mesh width, and a
    finer mesh never gets a smaller degree. *)
Theorem C80_degree : forall h, 0 < h ->
  (14 <= Mesh2ChebDegree h <= 72)%Z /\ (forall h', 0 < h' -> h' <= h -> (Mesh2ChebDegree h <= Mesh2ChebDegree h')%Z) /\
  (7 / 10 <= h -> Mesh2ChebDegree h = 14%Z).
Proof.
  assert (C7 : cubic (7 / 10) = 14) by (unfold cubic; lra).
  assert (C0 : cubic 0 = 1078 / 15) by (unfold cubic; lra).
  assert (V : forall h, Mesh2ChebDegree h = round (if Rlt_dec (7 / 10) h then 14 else cubic h)) by reflexivity.
  assert (B : forall h, 0 < h -> 14 <= (if Rlt_dec (7 / 10) h then 14 else cubic h) <= 1078 / 15).
  { intros h Hh. destruct (Rlt_dec (7 / 10) h) as [L|L]; [lra|].
    pose proof (cubic_decr h (7 / 10) ltac:(lra)). pose proof (cubic_decr 0 h ltac:(lra)). lra. }
  intros h Hh. split; [|split].
  - rewrite V. pose proof (B h Hh) as [B1 B2]. split.
    + etransitivity; [|apply (round_mono 14); lra]. rewrite (round_Z 14) by lia. lia.
    + etransitivity; [apply (round_mono _ 72); lra|]. rewrite (round_Z 72) by lia. lia.
  - intros h' Hh' L. rewrite !V. pose proof (B h Hh) as [B1 B2]. pose proof (B h' Hh') as [B3 B4].
    apply round_mono; [lra|]. destruct (Rlt_dec (7 / 10) h) as [L1|L1]; [lra|].
    destruct (Rlt_dec (7 / 10) h') as [L2|L2]; [lra|]. now apply cubic_decr.
  - intros L. rewrite V. destruct (Rlt_dec (7 / 10) h) as [L1|L1]; [now apply (round_Z 14)|].
    replace h with (7 / 10) by lra. rewrite C7. now apply (round_Z 14).
Qed.
Print Assumptions C80_degree.

(** ** The bounds of the filter *)
(** With a flag other than 0 and 1 in an orthogonal periodic cell the bounds
    are ordered with the cutoff half-way, the upper one bounds every eigenvalue
    of -1/2 Lap + V for every V without positive expectation values, and the
    lower one those for every V without expectation values below -2.1. *)
Theorem C80_bounds : forall flag lanczos lap_min n hx hy hz Nx Ny Nz w M,
  (flag <> 0)%Z -> (flag <> 1)%Z ->
  (Z.of_nat n <= 46340)%Z -> (0 < Nx)%Z -> (0 < Ny)%Z -> (0 < Nz)%Z -> hx <> 0 -> hy <> 0 -> hz <> 0 ->
  FDweights_D2 n = Ok w -> max_eig n 1 1 1 hx hy hz Nx Ny Nz = Ok M ->
  let '(eigmin, cut, eigmax) := cheb_bounds flag 0 2 lanczos lap_min M in
  eigmin < cut < eigmax /\ cut - eigmin = eigmax - cut /\
  (forall V, (forall u, periodic Nx Ny Nz u -> inner Nx Ny Nz u (V u) <= 0) ->
   forall l, eigenvalue Nx Ny Nz (fun u i j k => mhalf_lap n w 1 1 1 hx hy hz u i j k + V u i j k) l -> l <= eigmax) /\
  (forall V, (forall u, periodic Nx Ny Nz u -> - (21 / 10) * inner Nx Ny Nz u u <= inner Nx Ny Nz u (V u)) ->
   forall l, eigenvalue Nx Ny Nz (fun u i j k => mhalf_lap n w 1 1 1 hx hy hz u i j k + V u i j k) l -> eigmin <= l).
Proof.
  intros flag lanczos lap_min n hx hy hz Nx Ny Nz w M F0 F1 Hn HX HY HZ QX QY QZ E EM.
  unfold cheb_bounds. destruct (Z.eqb_spec flag 0); [contradiction|]. destruct (Z.eqb_spec flag 1); [contradiction|].
  cbn [orb andb Z.eqb Pos.eqb].
  destruct (C80_form n 1 1 1 hx hy hz Nx Ny Nz Hn HX HY HZ) as (w' & M' & E' & EM' & B); try assumption; try lra.
  rewrite E in E'. injection E' as <-. rewrite EM in EM'. injection EM' as <-.
  destruct (C80_largest n hx hy hz Nx Ny Nz Hn HX HY HZ QX QY QZ) as (w' & M' & E' & EM' & EV & LM).
  rewrite EM in EM'. injection EM' as <-. pose proof (LM M EV) as M0.
  split; [lra|]. split; [lra|].
  assert (EI : forall (V : gfun -> gfun) l u, (forall i j k, mhalf_lap n w 1 1 1 hx hy hz u i j k + V u i j k = l * u i j k) ->
    inner Nx Ny Nz u (mhalf_lap n w 1 1 1 hx hy hz u) + inner Nx Ny Nz u (V u) = l * inner Nx Ny Nz u u).
  { intros V l u EL. unfold inner. rewrite <- gsum_plus, <- gsum_scal. apply gsum_ext. intros i j k.
    rewrite <- Rmult_plus_distr_l, EL. ring. }
  split; intros V HV l (u & Hu & NZ & EL); specialize (B u Hu); specialize (HV u Hu);
  pose proof (inner_pos Nx Ny Nz u HX HY HZ Hu NZ) as IP; specialize (EI V l u EL); nra.
Qed.
Print Assumptions C80_bounds.

(** With a potential of 1 everywhere it does not: the code never looks at the
    potential. *)
Theorem C80_bounds_refuted : exists (V : gfun -> gfun) w M l,
  FDweights_D2 1 = Ok w /\ max_eig 1 1 1 1 1 1 1 4 4 4 = Ok M /\
  eigenvalue 4 4 4 (fun u i j k => mhalf_lap 1 w 1 1 1 1 1 1 u i j k + V u i j k) l /\
  (forall lanczos lap_min, snd (cheb_bounds 2 0 2 lanczos lap_min M) < l).
Proof.
  destruct (C80_largest 1 1 1 1 4 4 4) as (w & M & E & EM & (u & Hu & NZ & EV) & _); try lia; try lra.
  exists (fun u => u), w, M, (M + 1). split; [exact E|]. split; [exact EM|]. split.
  - exists u. split; [exact Hu|]. split; [exact NZ|]. intros i j k. rewrite EV. ring.
  - intros. cbn. lra.
Qed.
Print Assumptions C80_bounds_refuted.

(** ** A concrete case *)
(** Order 2, mesh 1, 4 nodes each way: the largest eigenvalue is 6, and for 3
    nodes each way 9/2. *)
Example C80_example :
  max_eig 1 1 1 1 1 1 1 4 4 4 = Ok 6 /\ max_eig 1 1 1 1 1 1 1 3 3 3 = Ok (9 / 2) /\
  Mesh2ChebDegree (1 / 2) = 17%Z /\ h_eff 1 1 1 = 1 /\ max_eig 1 1 1 1 1 1 1 0 4 4 = UB.
Proof.
  assert (W0 : D2w 1 0 = - 2) by (unfold D2w; cbn; lra).
  assert (W1 : D2w 1 1 = 1) by (unfold D2w; rewrite fract_ratio; unfold sgn; cbn; lra).
  assert (SY : forall t, symb (D2w 1) 1 t = - 2 + 2 * cos t).
  { intros t. unfold symb, cser, csn. cbn [psum]. rewrite W0, W1. change (INR 1) with 1. rewrite !Rmult_1_l. ring. }
  split; [|split; [|split; [|split]]].
  - destruct (max_eig_val 1 1 1 1 1 1 1 4 4 4) as (_ & E); try lia. rewrite E. f_equal.
    rewrite !d2c_scal, !SY, !top_even by (lia || now exists 2%Z). rewrite cos_PI. lra.
  - destruct (max_eig_val 1 1 1 1 1 1 1 3 3 3) as (_ & E); try lia. rewrite E. f_equal.
    rewrite !d2c_scal, !SY. replace (top 3) with (2 * (PI / 3)).
    + rewrite cos_2PI3. lra.
    + unfold top. change (3 - Z.rem 3 2)%Z with 2%Z. field.
  - unfold Mesh2ChebDegree. destruct (Rlt_dec (7 / 10) (1 / 2)); [lra|].
    unfold round. destruct (Rle_dec 0 _) as [L|L]; [|lra].
    match goal with |- Int_part ?x = _ => destruct (base_Int_part x) as [A1 A2] end.
    apply Z.le_antisymm; apply Z.lt_succ_r; apply lt_IZR; rewrite succ_IZR; lra.
  - unfold h_eff. replace (1 - 1) with 0 by lra. rewrite Rabs_R0.
    destruct (Rlt_dec 0 (/ 10 ^ 12)) as [_|N]; [reflexivity|]. exfalso. apply N. apply Rinv_0_lt_compat. apply pow_lt. lra.
  - reflexivity.
Qed.
