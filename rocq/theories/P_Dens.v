(** C71: electron density and magnetisation from the orbitals. *)
From Coq Require Import ZArith Reals List Bool Lia Lra Psatz Permutation.
From Coquelicot Require Import Complex.
From Verif Require Import CBase Nloc NlocSpec NlocLem VnlOp VnlLem VnlMain Dens DensSpec DensLem DensMain.
Import ListNotations.
Local Open Scope Z_scope.

Section THMS.
Context {A : Type}.
Variables (gamma : bool) (spin_typ : Z) (occfac Nkpts dV : R) (Ns Nspinor : Z).
Variables (ks ns : list Z) (wt : Z -> R) (occ : Z -> Z -> Z -> R) (psi : Z -> Z -> Z -> A -> C).
Notation dens := (dens ks ns wt occ psi occfac Nkpts dV).
Notation magn := (magn ks ns wt occ psi occfac Nkpts dV).
Notation holds := (holds gamma spin_typ Ns Nspinor).
Notation divided := (divided Nspinor ks ns).

(** However k-points, bands and spin components are divided over the groups,
    every process of the domain ends with the density of its nodes. *)
Theorem C71_density DMnd nod ps pk pb P kl bs be sp0 nsp :
  0 <= DMnd -> divided ps pk pb kl bs be sp0 nsp ->
  (forall s k b, 0 <= s < ps -> 0 <= k < pk -> 0 <= b < pb -> holds DMnd wt occ psi nod kl bs be sp0 nsp s k b (P s k b)) ->
  forall s k b, 0 <= s < ps -> 0 <= k < pk -> 0 <= b < pb ->
  exists a, CalculateDensity_psi gamma spin_typ occfac Nkpts Ns Nspinor DMnd dV ps pk pb P s k b = Ok a /\
    sz a = Nspinor * DMnd /\
    forall sg i, 0 <= sg < Nspinor -> 0 <= i < DMnd -> at_ a (sg * DMnd + i) = dens sg (nod i).
Proof. intros HD HV HP s k b. eapply density_ok; eassumption. Qed.

Lemma magn_x a : magn 1 a = (2 * dm_re ks ns wt occ psi occfac Nkpts dV a)%R.
Proof.
  unfold DensSpec.magn, dm_re, rsum, Rdiv. rewrite <- Rmult_assoc. f_equal.
  rewrite <- (ksum_mul_l _ _ _ _ _ _ Rth). apply ksum_ext. intros k _.
  rewrite <- (ksum_mul_l _ _ _ _ _ _ Rth). apply ksum_ext. intros n _.
  cbn [pauli Z.eqb Pos.eqb expect]. unfold Re. cbn. ring.
Qed.
Lemma magn_y a : magn 2 a = (- (2 * dm_im ks ns wt occ psi occfac Nkpts dV a))%R.
Proof.
  unfold DensSpec.magn, dm_im, rsum, Rdiv. rewrite <- Rmult_assoc.
  rewrite Ropp_mult_distr_l. f_equal. rewrite Ropp_mult_distr_l.
  rewrite <- (ksum_mul_l _ _ _ _ _ _ Rth). apply ksum_ext. intros k _.
  rewrite <- (ksum_mul_l _ _ _ _ _ _ Rth). apply ksum_ext. intros n _.
  cbn [pauli Z.eqb Pos.eqb expect]. unfold Re, Im. cbn. ring.
Qed.
Lemma magn_z a : (forall k n, In k ks -> In n ns -> occ 0 k n = occ 1 k n) -> magn 3 a = (dens 0 a - dens 1 a)%R.
Proof.
  intros HO. unfold DensSpec.magn, DensSpec.dens, rsum, Rdiv. rewrite <- Rmult_minus_distr_r. f_equal. unfold Rminus.
  rewrite <- (Rmult_1_l (rs (map (fun k => rs (map (fun n => (weight wt occ occfac Nkpts 1 k n * _)%R) ns)) ks))).
  rewrite Ropp_mult_distr_l. rewrite <- (ksum_mul_l _ _ _ _ _ _ Rth), <- (ksum_add _ _ _ _ _ _ Rth).
  apply ksum_ext. intros k Hk. rewrite <- (ksum_mul_l _ _ _ _ _ _ Rth), <- (ksum_add _ _ _ _ _ _ Rth).
  apply ksum_ext. intros n Hn. fold (sqm (psi k n 0 a)) (sqm (psi k n 1 a)). rewrite !sqm_val.
  unfold weight. rewrite <- (HO k n Hk Hn). cbn [pauli Z.eqb Pos.eqb expect]. unfold Re. cbn. ring.
Qed.

(** The vector of a sum of spinors is no longer than the density. *)
Lemma cone_add a1 a2 a3 n b1 b2 b3 m : (0 <= n -> 0 <= m ->
  a1 * a1 + a2 * a2 + a3 * a3 <= n * n -> b1 * b1 + b2 * b2 + b3 * b3 <= m * m ->
  (a1 + b1) * (a1 + b1) + (a2 + b2) * (a2 + b2) + (a3 + b3) * (a3 + b3) <= (n + m) * (n + m))%R.
Proof.
  intros Hn Hm Ha Hb.
  assert (D : (a1 * b1 + a2 * b2 + a3 * b3 <= n * m)%R).
  { apply Rsqr_incr_0_var; [|now apply Rmult_le_pos]. unfold Rsqr.
    assert (L : ((a1 * b1 + a2 * b2 + a3 * b3) * (a1 * b1 + a2 * b2 + a3 * b3) <=
       (a1 * a1 + a2 * a2 + a3 * a3) * (b1 * b1 + b2 * b2 + b3 * b3))%R).
    { pose proof (Rle_0_sqr (a1 * b2 - a2 * b1)). pose proof (Rle_0_sqr (a1 * b3 - a3 * b1)). pose proof (Rle_0_sqr (a2 * b3 - a3 * b2)).
      unfold Rsqr in *. nra. }
    assert (M : ((a1 * a1 + a2 * a2 + a3 * a3) * (b1 * b1 + b2 * b2 + b3 * b3) <= (n * n) * (m * m))%R).
    { apply Rmult_le_compat; try assumption; nra. }
    nra. }
  nra.
Qed.

Lemma cone_sum {B} (f1 f2 f3 g : B -> R) l :
  (forall x, In x l -> (0 <= g x /\ f1 x * f1 x + f2 x * f2 x + f3 x * f3 x <= g x * g x)%R) ->
  (0 <= rs (map g l) /\ rs (map f1 l) * rs (map f1 l) + rs (map f2 l) * rs (map f2 l) + rs (map f3 l) * rs (map f3 l)
     <= rs (map g l) * rs (map g l))%R.
Proof.
  induction l as [|x l IH]; intros H; cbn [map ksum]; [lra|].
  destruct (H x (or_introl eq_refl)) as [H1 H2]. destruct IH as [I1 I2]; [intros y Hy; apply H; now right|].
  split; [lra|]. now apply cone_add.
Qed.

Definition weights_ok : Prop := (0 <= occfac /\ 0 < Nkpts /\ 0 < dV)%R /\ (forall k, In k ks -> 0 <= wt k)%R /\
  forall sg k n, In k ks -> In n ns -> (0 <= occ sg k n)%R.

Lemma weight_pos sg k n : weights_ok -> In k ks -> In n ns -> (0 <= weight wt occ occfac Nkpts sg k n)%R.
Proof.
  intros ((H1 & H2 & H3) & H4 & H5) Hk Hn. unfold weight, Rdiv.
  apply Rmult_le_pos; [|now apply H5]. apply Rmult_le_pos; [|left; now apply Rinv_0_lt_compat].
  apply Rmult_le_pos; auto.
Qed.

Lemma dens_pos sg a : weights_ok -> (0 <= dens sg a)%R.
Proof.
  intros H. unfold DensSpec.dens, Rdiv. apply Rmult_le_pos; [|left; apply Rinv_0_lt_compat, H].
  unfold rsum.
  assert (G : forall (B : Type) (f : B -> R) l, (forall x, In x l -> 0 <= f x)%R -> (0 <= rs (map f l))%R).
  { intros B f l. induction l as [|x l IH]; intros HF; cbn [map ksum]; [lra|].
    apply Rplus_le_le_0_compat; [apply HF; now left|]. apply IH. intros y Hy. apply HF. now right. }
  apply G. intros k Hk. apply G. intros n Hn. apply Rmult_le_pos; [now apply weight_pos|].
  apply Rmult_le_pos; apply Cmod_ge_0.
Qed.

Lemma magn_bound a : weights_ok -> (forall k n, In k ks -> In n ns -> occ 0 k n = occ 1 k n) ->
  (magn 1 a * magn 1 a + magn 2 a * magn 2 a + magn 3 a * magn 3 a <= (dens 0 a + dens 1 a) * (dens 0 a + dens 1 a))%R.
Proof.
  intros HW HO. unfold DensSpec.magn, DensSpec.dens, rsum, Rdiv. rewrite <- Rmult_plus_distr_r.
  pose proof HW as ((_ & _ & HdV) & _ & _). pose proof (Rinv_0_lt_compat dV HdV) as HI.
  rewrite <- (ksum_add _ _ _ _ _ _ Rth).
  match goal with |- (?x * _ * _ + ?y * _ * _ + ?z * _ * _ <= ?w * _ * _)%R =>
    assert (K : (0 <= w /\ x * x + y * y + z * z <= w * w)%R) end.
  { apply (cone_sum (fun k => rs (map (fun n => (weight wt occ occfac Nkpts 0 k n * Re (expect (pauli 1) (psi k n 0%Z a) (psi k n 1%Z a)))%R) ns))
      (fun k => rs (map (fun n => (weight wt occ occfac Nkpts 0 k n * Re (expect (pauli 2) (psi k n 0%Z a) (psi k n 1%Z a)))%R) ns))
      (fun k => rs (map (fun n => (weight wt occ occfac Nkpts 0 k n * Re (expect (pauli 3) (psi k n 0%Z a) (psi k n 1%Z a)))%R) ns))).
    intros k Hk. rewrite <- (ksum_add _ _ _ _ _ _ Rth). apply cone_sum. intros n Hn.
    pose proof (weight_pos 0 k n HW Hk Hn) as W.
    assert (E1 : weight wt occ occfac Nkpts 1 k n = weight wt occ occfac Nkpts 0 k n) by (unfold weight; now rewrite (HO k n Hk Hn)).
    rewrite E1. fold (sqm (psi k n 0 a)) (sqm (psi k n 1 a)). rewrite !sqm_val.
    set (w := weight wt occ occfac Nkpts 0 k n) in *.
    cbn [pauli Z.eqb Pos.eqb expect]. destruct (psi k n 0 a) as [x1 y1], (psi k n 1 a) as [x2 y2]. unfold Re. cbn. split.
    - pose proof (Rle_0_sqr x1). pose proof (Rle_0_sqr y1). pose proof (Rle_0_sqr x2). pose proof (Rle_0_sqr y2). unfold Rsqr in *.
      rewrite <- Rmult_plus_distr_l. apply Rmult_le_pos; lra.
    - apply Req_le. ring. }
  destruct K as [K1 K2].
  match goal with |- (?x * _ * _ + ?y * _ * _ + ?z * _ * _ <= ?w * _ * _)%R =>
    replace (x * / dV * (x * / dV) + y * / dV * (y * / dV) + z * / dV * (z * / dV))%R with ((x * x + y * y + z * z) * (/ dV * / dV))%R by ring;
    replace (w * / dV * (w * / dV))%R with (w * w * (/ dV * / dV))%R by ring end.
  apply Rmult_le_compat_r; [|exact K2]. left. now apply Rmult_lt_0_compat.
Qed.

(** What the code returns. *)
Notation call DMnd ps pk pb P := (Calculate_elecDens gamma spin_typ occfac Nkpts Ns Nspinor DMnd dV ps pk pb P).

Section DOM.
Variables (DMnd : Z) (nod : Z -> A) (ps pk pb : Z) (P : Z -> Z -> Z -> dproc) (kl : Z -> list Z) (bs be sp0 nsp : Z -> Z).
Hypothesis HD : 0 <= DMnd.
Hypothesis HV : divided ps pk pb kl bs be sp0 nsp.
Hypothesis HP : forall s k b, 0 <= s < ps -> 0 <= k < pk -> 0 <= b < pb ->
  holds DMnd wt occ psi nod kl bs be sp0 nsp s k b (P s k b).

Lemma spin0 s k b : spin_typ = 0 -> Nspinor = 1 -> 0 <= s < ps -> 0 <= k < pk -> 0 <= b < pb ->
  exists rho mag, call DMnd ps pk pb P s k b = Ok (rho, mag) /\ sz rho = DMnd /\ sz mag = 0 /\
    forall i, 0 <= i < DMnd -> at_ rho i = dens 0 (nod i).
Proof.
  intros ST NS Hs Hk Hb. destruct (C71_density DMnd nod ps pk pb P kl bs be sp0 nsp HD HV HP s k b Hs Hk Hb) as (a & E & S & V).
  unfold Calculate_elecDens. rewrite E. cbn [obind]. rewrite ST, NS in *. cbn [Z.eqb Z.ltb Z.compare Pos.compare Pos.compare_cont].
  eexists _, _. split; [reflexivity|]. cbn [sz at_]. split; [lia|]. split; [lia|]. intros i Hi.
  destruct (Z.ltb_spec i ((1 - 1) * DMnd)); [lia|]. rewrite <- (V 0 i) by lia. f_equal. lia.
Qed.

Lemma two_comp a0 : Nspinor = 2 -> sz a0 = Nspinor * DMnd ->
  (forall sg i, 0 <= sg < Nspinor -> 0 <= i < DMnd -> at_ a0 (sg * DMnd + i) = dens sg (nod i)) ->
  let off := (Nspinor - 1) * DMnd in
  let rho0 := Arr (DMnd * (2 * Nspinor - 1)) (fun i => if i <? off then 0%R else at_ a0 (i - off)) in
  let rho1 := Arr (sz rho0) (fun i => if i <? DMnd then (at_ rho0 (DMnd + i) + at_ rho0 (2 * DMnd + i))%R else at_ rho0 i) in
  sz rho1 = 3 * DMnd /\ forall i, 0 <= i < DMnd -> at_ rho1 i = (dens 0 (nod i) + dens 1 (nod i))%R /\
    at_ rho1 (DMnd + i) = dens 0 (nod i) /\ at_ rho1 (2 * DMnd + i) = dens 1 (nod i).
Proof.
  intros NS S V off rho0 rho1. unfold rho1, rho0, off in *. cbn [sz at_]. rewrite NS in *. split; [lia|]. intros i Hi.
  destruct (Z.ltb_spec i DMnd), (Z.ltb_spec (DMnd + i) DMnd), (Z.ltb_spec (2 * DMnd + i) DMnd); try lia.
  destruct (Z.ltb_spec (DMnd + i) ((2 - 1) * DMnd)), (Z.ltb_spec (2 * DMnd + i) ((2 - 1) * DMnd)); try lia.
  rewrite <- (V 0 i), <- (V 1 i) by lia.
  replace (DMnd + i - (2 - 1) * DMnd) with (0 * DMnd + i) by ring.
  replace (2 * DMnd + i - (2 - 1) * DMnd) with (1 * DMnd + i) by ring. auto.
Qed.

Lemma spin1 s k b : spin_typ = 1 -> Nspinor = 2 -> 0 <= s < ps -> 0 <= k < pk -> 0 <= b < pb ->
  exists rho mag, call DMnd ps pk pb P s k b = Ok (rho, mag) /\ sz rho = 3 * DMnd /\ sz mag = DMnd /\
    forall i, 0 <= i < DMnd ->
      at_ rho i = (dens 0 (nod i) + dens 1 (nod i))%R /\ at_ rho (DMnd + i) = dens 0 (nod i) /\
      at_ rho (2 * DMnd + i) = dens 1 (nod i) /\ at_ mag i = (dens 0 (nod i) - dens 1 (nod i))%R.
Proof.
  intros ST NS Hs Hk Hb. destruct (C71_density DMnd nod ps pk pb P kl bs be sp0 nsp HD HV HP s k b Hs Hk Hb) as (a & E & S & V).
  destruct (two_comp a NS S V) as [S1 V1].
  unfold Calculate_elecDens. rewrite E. cbn [obind]. rewrite ST. replace (1 <? Nspinor) with true by (rewrite NS; reflexivity).
  cbv zeta in *. cbn [Z.eqb Pos.eqb].
  eexists _, _. split; [reflexivity|]. split; [exact S1|]. split; [cbn [sz]; lia|]. intros i Hi.
  destruct (V1 i Hi) as (A1 & A2 & A3). split; [exact A1|]. split; [exact A2|]. split; [exact A3|].
  cbn [at_] in *. rewrite A2, A3. reflexivity.
Qed.

Lemma spin2 s k b : spin_typ = 2 -> Nspinor = 2 -> ps = 1 -> sp0 0 = 0 -> nsp 0 = 2 ->
  (forall k n, In k ks -> In n ns -> occ 0 k n = occ 1 k n) -> weights_ok ->
  0 <= s < ps -> 0 <= k < pk -> 0 <= b < pb ->
  exists rho mag, call DMnd ps pk pb P s k b = Ok (rho, mag) /\ sz rho = 3 * DMnd /\ sz mag = 4 * DMnd /\
    forall i, 0 <= i < DMnd ->
      at_ rho i = (dens 0 (nod i) + dens 1 (nod i))%R /\
      at_ mag i = sqrt (magn 1 (nod i) * magn 1 (nod i) + magn 2 (nod i) * magn 2 (nod i) + magn 3 (nod i) * magn 3 (nod i)) /\
      (forall c, 1 <= c <= 3 -> at_ mag (c * DMnd + i) = magn c (nod i)) /\
      at_ rho (DMnd + i) = (0.5 * (at_ rho i + at_ mag i))%R /\
      at_ rho (2 * DMnd + i) = (0.5 * (at_ rho i - at_ mag i))%R.
Proof.
  intros ST NS PS S0 S2 HO HW Hs Hk Hb. destruct (C71_density DMnd nod ps pk pb P kl bs be sp0 nsp HD HV HP s k b Hs Hk Hb) as (a & E & S & V).
  destruct (two_comp a NS S V) as [S1 V1].
  assert (ST1 : (spin_typ =? 1) = false) by (rewrite ST; reflexivity).
  destruct (magnetisation_ok gamma spin_typ occfac Nkpts dV Ns Nspinor DMnd ks ns wt occ psi nod ps pk pb P kl bs be sp0 nsp HD HV HP ST1
    s k b PS S0 S2 Hs Hk Hb) as (m & Em & Sm & Vm).
  unfold Calculate_elecDens. rewrite E. cbn [obind]. rewrite Em. cbn [obind]. rewrite ST. replace (1 <? Nspinor) with true by (rewrite NS; reflexivity).
  cbv zeta in *. cbn [Z.eqb Pos.eqb].
  eexists _, _. split; [reflexivity|]. split; [exact S1|]. split; [cbn [sz]; lia|]. intros i Hi.
  destruct (V1 i Hi) as (A1 & A2 & A3). destruct (Vm i Hi) as [M1 M2].
  rewrite <- magn_x in M1. rewrite <- magn_y in M2.
  assert (Q1 : (i <? DMnd) = true) by (apply Z.ltb_lt; lia).
  assert (Q2 : (DMnd + i <? DMnd) = false) by (apply Z.ltb_ge; lia).
  assert (Q3 : (DMnd + i <? 2 * DMnd) = true) by (apply Z.ltb_lt; lia).
  assert (Q4 : (2 * DMnd + i <? DMnd) = false) by (apply Z.ltb_ge; lia).
  assert (Q5 : (2 * DMnd + i <? 2 * DMnd) = false) by (apply Z.ltb_ge; lia).
  cbn [at_] in *. rewrite Q1, Q2, Q3, Q4, Q5 in *.
  replace (DMnd + i - DMnd) with i by ring. replace (2 * DMnd + i - 2 * DMnd) with i by ring.
  repeat (rewrite Q1 || rewrite Q2 || rewrite Q3 || rewrite Q4 || rewrite Q5).
  rewrite (magn_z (nod i) HO). rewrite A1, A2, A3, M1, M2.
  split; [reflexivity|]. split; [reflexivity|]. split; [|split; reflexivity].
  intros c Hc. destruct (Z.eqb_spec c 3) as [->|C3].
  - replace (3 * DMnd + i <? DMnd) with false by (symmetry; apply Z.ltb_ge; lia).
    replace (3 * DMnd + i <? 3 * DMnd) with false by (symmetry; apply Z.ltb_ge; lia).
    replace (3 * DMnd + i - 3 * DMnd) with i by ring.
    repeat (rewrite Q2 || rewrite Q4). rewrite A2, A3. symmetry. now apply magn_z.
  - replace (c * DMnd + i <? DMnd) with false by (symmetry; apply Z.ltb_ge; nia).
    replace (c * DMnd + i <? 3 * DMnd) with true by (symmetry; apply Z.ltb_lt; nia).
    assert (c = 1 \/ c = 2) as [-> | ->] by lia.
    + rewrite <- M1. f_equal. ring.
    + rewrite <- M2. f_equal. ring.
Qed.
End DOM.

(** Without spin the result is the density; with collinear spin also both spin
    densities and their difference; with spinors also the expectation of the
    three Pauli matrices, its length, and the two eigenvalues of the density
    matrix (their sum and product), the larger first, both non-negative. *)
Definition spin_case (ps : Z) (sp0 nsp : Z -> Z) : Prop :=
  spin_typ = 0 /\ Nspinor = 1 \/ spin_typ = 1 /\ Nspinor = 2 \/
  spin_typ = 2 /\ Nspinor = 2 /\ ps = 1 /\ sp0 0 = 0 /\ nsp 0 = 2 /\
  forall k n, In k ks -> In n ns -> occ 0 k n = occ 1 k n.

Theorem C71_spin DMnd nod ps pk pb P kl bs be sp0 nsp :
  0 <= DMnd -> divided ps pk pb kl bs be sp0 nsp -> spin_case ps sp0 nsp -> weights_ok ->
  (forall s k b, 0 <= s < ps -> 0 <= k < pk -> 0 <= b < pb -> holds DMnd wt occ psi nod kl bs be sp0 nsp s k b (P s k b)) ->
  forall s k b, 0 <= s < ps -> 0 <= k < pk -> 0 <= b < pb ->
  exists rho mag, call DMnd ps pk pb P s k b = Ok (rho, mag) /\
    sz rho = (2 * Nspinor - 1) * DMnd /\ sz mag = spin_typ * spin_typ * DMnd /\
    forall i, 0 <= i < DMnd ->
      at_ rho i = rsum (fun sg => dens sg (nod i)) (zrange 0 (Nspinor - 1)) /\ (0 <= at_ rho i)%R /\
      (spin_typ = 1 -> at_ rho (DMnd + i) = dens 0 (nod i) /\ at_ rho (2 * DMnd + i) = dens 1 (nod i) /\
         at_ mag i = (at_ rho (DMnd + i) - at_ rho (2 * DMnd + i))%R) /\
      (spin_typ = 2 -> (forall c, 1 <= c <= 3 -> at_ mag (c * DMnd + i) = magn c (nod i)) /\
         (0 <= at_ mag i)%R /\
         (at_ mag i * at_ mag i = rsum (fun c => magn c (nod i) * magn c (nod i)) [1; 2; 3]%Z)%R /\
         (at_ rho (DMnd + i) + at_ rho (2 * DMnd + i) = at_ rho i)%R /\
         (at_ rho (DMnd + i) * at_ rho (2 * DMnd + i) = dens 0 (nod i) * dens 1 (nod i) -
            (dm_re ks ns wt occ psi occfac Nkpts dV (nod i) * dm_re ks ns wt occ psi occfac Nkpts dV (nod i)
             + dm_im ks ns wt occ psi occfac Nkpts dV (nod i) * dm_im ks ns wt occ psi occfac Nkpts dV (nod i)))%R /\
         (0 <= at_ rho (2 * DMnd + i) <= at_ rho (DMnd + i))%R).
Proof.
  intros HD HV SC HW HP s k b Hs Hk Hb.
  destruct SC as [(ST & NS)|[(ST & NS)|(ST & NS & PS & S0 & S2 & HO)]].
  - destruct (spin0 DMnd nod ps pk pb P kl bs be sp0 nsp HD HV HP s k b ST NS Hs Hk Hb) as (rho & mag & E & R1 & R2 & V).
    exists rho, mag. split; [exact E|]. rewrite ST, NS. split; [lia|]. split; [lia|]. intros i Hi.
    rewrite (V i Hi). split; [|split; [now apply dens_pos|split; intros; lia]].
    change (dens 0 (nod i) = dens 0%Z (nod i) + 0)%R. ring.
  - destruct (spin1 DMnd nod ps pk pb P kl bs be sp0 nsp HD HV HP s k b ST NS Hs Hk Hb) as (rho & mag & E & R1 & R2 & V).
    exists rho, mag. split; [exact E|]. rewrite ST, NS. split; [lia|]. split; [lia|]. intros i Hi.
    destruct (V i Hi) as (V1 & V2 & V3 & V4). rewrite V1, V2, V3, V4. split; [|split; [|split; [auto|intros; lia]]].
    + change (dens 0 (nod i) + dens 1 (nod i) = dens 0%Z (nod i) + (dens 1%Z (nod i) + 0))%R. ring.
    + pose proof (dens_pos 0 (nod i) HW). pose proof (dens_pos 1 (nod i) HW). lra.
  - destruct (spin2 DMnd nod ps pk pb P kl bs be sp0 nsp HD HV HP s k b ST NS PS S0 S2 HO HW Hs Hk Hb) as (rho & mag & E & R1 & R2 & V).
    exists rho, mag. split; [exact E|]. rewrite ST, NS. split; [lia|]. split; [lia|]. intros i Hi.
    destruct (V i Hi) as (V1 & V2 & V3 & V4 & V5). split; [|split; [|split; [intros; lia|intros _]]].
    + rewrite V1. change (dens 0 (nod i) + dens 1 (nod i) = dens 0%Z (nod i) + (dens 1%Z (nod i) + 0))%R. ring.
    + rewrite V1. pose proof (dens_pos 0 (nod i) HW). pose proof (dens_pos 1 (nod i) HW). lra.
    + split; [exact V3|]. split; [rewrite V2; apply sqrt_pos|].
      pose proof (magn_bound (nod i) HW HO) as MB.
      set (q := (magn 1 (nod i) * magn 1 (nod i) + magn 2 (nod i) * magn 2 (nod i) + magn 3 (nod i) * magn 3 (nod i))%R) in *.
      assert (Q0 : (0 <= q)%R) by (unfold q; nra).
      pose proof (sqrt_sqrt q Q0) as SS. rewrite <- V2 in SS.
      assert (SQ : (0 <= at_ mag i)%R) by (rewrite V2; apply sqrt_pos).
      pose proof (dens_pos 0 (nod i) HW) as D0. pose proof (dens_pos 1 (nod i) HW) as D1.
      assert (LE : (at_ mag i <= at_ rho i)%R).
      { rewrite V1. apply Rsqr_incr_0_var; [|lra]. unfold Rsqr. rewrite SS. exact MB. }
      split; [|split; [|split]].
      * rewrite SS. unfold q, rsum. cbn [map ksum]. ring.
      * rewrite V4, V5. lra.
      * rewrite V4, V5. replace (0.5 * (at_ rho i + at_ mag i) * (0.5 * (at_ rho i - at_ mag i)))%R with
          (0.25 * (at_ rho i * at_ rho i - at_ mag i * at_ mag i))%R by lra.
        rewrite SS, V1. unfold q. rewrite (magn_z (nod i) HO), magn_x, magn_y. lra.
      * rewrite V4, V5. lra.
Qed.

(** The integral over a grid divided into domain pieces: the number of
    electrons, if the orbitals are normalised. *)
Theorem C71_charge (nodes : list A) (nd : Z) (DM : Z -> Z) (nod : Z -> Z -> A) ps pk pb (P : Z -> Z -> Z -> Z -> dproc)
    kl bs be sp0 nsp (out : Z -> arr R * arr R) :
  Permutation (flat_map (fun d => map (nod d) (zrange 0 (DM d - 1))) (zrange 0 (nd - 1))) nodes ->
  divided ps pk pb kl bs be sp0 nsp -> spin_case ps sp0 nsp -> weights_ok ->
  (forall d, 0 <= d < nd -> 0 <= DM d /\
     forall s k b, 0 <= s < ps -> 0 <= k < pk -> 0 <= b < pb -> holds (DM d) wt occ psi (nod d) kl bs be sp0 nsp s k b (P d s k b)) ->
  (forall d, 0 <= d < nd -> exists s k b, 0 <= s < ps /\ 0 <= k < pk /\ 0 <= b < pb /\ call (DM d) ps pk pb (P d) s k b = Ok (out d)) ->
  (spin_typ <> 2 -> forall sg k n, 0 <= sg < Nspinor -> In k ks -> In n ns ->
     rsum (fun a => Cmod (psi k n sg a) * Cmod (psi k n sg a))%R nodes = 1%R) ->
  (spin_typ = 2 -> forall k n, In k ks -> In n ns ->
     rsum (fun a => Cmod (psi k n 0%Z a) * Cmod (psi k n 0%Z a) + Cmod (psi k n 1%Z a) * Cmod (psi k n 1%Z a))%R nodes = 1%R) ->
  rsum (fun d => rsum (fun i => at_ (fst (out d)) i * dV)%R (zrange 0 (DM d - 1))) (zrange 0 (nd - 1)) =
  rsum (fun k => rsum (fun n => (occfac * wt k / Nkpts * (occ 0%Z k n + if Z.eqb spin_typ 1 then occ 1%Z k n else 0))%R) ns) ks.
Proof.
  intros HN HV SC HW HP HO N1 N2.
  pose proof HW as ((_ & _ & HdV) & _ & _).
  set (rho := fun a => rsum (fun sg => dens sg a) (zrange 0 (Nspinor - 1))).
  transitivity (rs (map (fun a => (rho a * dV)%R) nodes)).
  { rewrite <- (ksum_perm _ _ _ _ _ _ Rth _ _ (Permutation_map (fun a => (rho a * dV)%R) HN)).
    rewrite (ksum_flat_map _ _ _ _ _ _ Rth (fun a => (rho a * dV)%R) (fun d => map (nod d) (zrange 0 (DM d - 1)))).
    apply ksum_ext. intros d Hd. apply in_zrange in Hd. assert (Hd' : 0 <= d < nd) by lia. rewrite map_map. apply ksum_ext.
    intros i Hi. apply in_zrange in Hi. destruct (HO d Hd') as (s & k & b & Hs & Hk & Hb & E). destruct (HP d Hd') as [D0 D1].
    destruct (C71_spin (DM d) (nod d) ps pk pb (P d) kl bs be sp0 nsp D0 HV SC HW D1 s k b Hs Hk Hb) as (r & m & E' & _ & _ & V).
    rewrite E in E'. injection E' as E'. rewrite E'. cbn [fst]. destruct (V i) as [V1 _]; [lia|]. rewrite V1. reflexivity. }
  assert (DD : forall sg a, (dens sg a * dV)%R = rs (map (fun k => rs (map (fun n => (weight wt occ occfac Nkpts sg k n *
     (Cmod (psi k n sg a) * Cmod (psi k n sg a)))%R) ns)) ks)).
  { intros sg a. unfold DensSpec.dens, rsum. field. lra. }
  assert (I : forall sg, rs (map (fun a => (dens sg a * dV)%R) nodes) =
     rs (map (fun k => rs (map (fun n => (weight wt occ occfac Nkpts sg k n *
       rsum (fun a => Cmod (psi k n sg a) * Cmod (psi k n sg a))%R nodes)%R) ns)) ks)).
  { intros sg. transitivity (rs (map (fun a => rs (map (fun k => rs (map (fun n => (weight wt occ occfac Nkpts sg k n *
     (Cmod (psi k n sg a) * Cmod (psi k n sg a)))%R) ns)) ks)) nodes)).
    { apply ksum_ext. intros a _. apply DD. }
    rewrite (ksum_swap _ _ _ _ _ _ Rth (fun a k => rs (map (fun n => (weight wt occ occfac Nkpts sg k n *
     (Cmod (psi k n sg a) * Cmod (psi k n sg a)))%R) ns))). apply ksum_ext. intros k _.
    rewrite (ksum_swap _ _ _ _ _ _ Rth (fun a n => (weight wt occ occfac Nkpts sg k n *
     (Cmod (psi k n sg a) * Cmod (psi k n sg a)))%R)). apply ksum_ext. intros n _.
    apply (ksum_mul_l _ _ _ _ _ _ Rth (weight wt occ occfac Nkpts sg k n)
      (fun a => (Cmod (psi k n sg a) * Cmod (psi k n sg a))%R)). }
  assert (SC' : spin_typ = 0 /\ Nspinor = 1 \/ (spin_typ = 1 \/ spin_typ = 2 /\ forall k n, In k ks -> In n ns -> occ 0 k n = occ 1 k n) /\ Nspinor = 2)
    by (destruct SC as [?|[?|(?&?&?&?&?&?)]]; intuition).
  destruct SC' as [[ST NS]|[ST NS]].
  - transitivity (rs (map (fun a => (dens 0 a * dV)%R) nodes)).
    { apply ksum_ext. intros a _. f_equal. unfold rho, rsum. rewrite NS. change (dens 0%Z a + 0 = dens 0%Z a)%R. ring. }
    rewrite I. apply ksum_ext. intros k Hk. apply ksum_ext. intros n Hn.
    rewrite (N1 ltac:(lia) 0 k n ltac:(lia) Hk Hn). rewrite ST. cbn [Z.eqb]. unfold weight. ring.
  - transitivity (rs (map (fun a => (dens 0 a * dV + dens 1 a * dV)%R) nodes)).
    { apply ksum_ext. intros a _. unfold rho, rsum. rewrite NS. change ((dens 0%Z a + (dens 1%Z a + 0)) * dV = dens 0%Z a * dV + dens 1%Z a * dV)%R. ring. }
    rewrite (ksum_add _ _ _ _ _ _ Rth), !I. rewrite <- (ksum_add _ _ _ _ _ _ Rth). apply ksum_ext. intros k Hk.
    rewrite <- (ksum_add _ _ _ _ _ _ Rth). apply ksum_ext. intros n Hn. destruct ST as [ST|[ST HE]].
    + rewrite (N1 ltac:(lia) 0 k n ltac:(lia) Hk Hn), (N1 ltac:(lia) 1 k n ltac:(lia) Hk Hn). rewrite ST. cbn [Z.eqb Pos.eqb]. unfold weight. ring.
    + assert (E1 : weight wt occ occfac Nkpts 1 k n = weight wt occ occfac Nkpts 0 k n) by (unfold weight; now rewrite (HE k n Hk Hn)).
      rewrite E1, <- Rmult_plus_distr_l. unfold rsum. rewrite <- (ksum_add _ _ _ _ _ _ Rth).
      pose proof (N2 ST k n Hk Hn) as N. unfold rsum in N. rewrite N. rewrite ST. cbn [Z.eqb Pos.eqb]. unfold weight. ring.
Qed.
End THMS.

Print Assumptions C71_density.
Print Assumptions C71_spin.
Print Assumptions C71_charge.

(** Two k-points, two bands of spinors and two nodes, divided over four
    processes. *)
Definition ex_psi (k n sg i : Z) : C := (IZR (1 + k + n), IZR (sg + i)).
Definition ex_occ (sg k n : Z) : R := if n =? 0 then 1%R else (1 / 2)%R.
Definition ex_wt (k : Z) : R := 1%R.
Definition ex_P (s k b : Z) : dproc :=
  Dproc 1 (Arr 1 (fun _ => 1%R)) b b 0 2 (Arr 2 (fun n => if n =? 0 then 1%R else (1 / 2)%R))
    (Arr 4 (fun p => ex_psi k b (p / 2) (p mod 2))).
Definition ex_kl (k : Z) : list Z := [k].
Definition ex_id (b : Z) : Z := b.

Lemma ex_divided : divided 2 [0; 1] [0; 1] 1 2 2 ex_kl ex_id ex_id (fun _ => 0) (fun _ => 2).
Proof. split; try lia; apply Permutation_refl. Qed.
Lemma ex_holds s k b : 0 <= s < 1 -> 0 <= k < 2 -> 0 <= b < 2 ->
  holds false 2 2 2 2 ex_wt ex_occ ex_psi (fun i => i) ex_kl ex_id ex_id (fun _ => 0) (fun _ => 2) s k b (ex_P s k b).
Proof.
  intros Hs Hk Hb. split; cbn [ex_P q_nk q_wts q_ns q_ne q_sp0 q_nsp q_occ q_X sz at_]; try reflexivity; try discriminate.
  - split; cbn [ex_P q_nk q_wts q_ns q_ne q_sp0 q_nsp q_occ q_X sz]; try lia. cbn [Z.eqb Pos.eqb]. lia.
  - intros j n sp Hj Hn Hsp. assert (j = 0) by lia. subst j. cbn [Z.eqb Pos.eqb Z.add Z.mul]. reflexivity.
  - intros j n sp i Hj Hn Hsp Hi. assert (j = 0) by lia. subst j. assert (n = b) by lia. subst n.
    replace (i + 2 * (sp + 2 * (b - b + (b - b + 1) * 0))) with (i + sp * 2) by ring.
    rewrite Z_div_plus_full, Z_mod_plus_full by lia. rewrite Z.mod_small, (Z.div_small i 2) by lia. reflexivity.
Qed.
Lemma ex_weights : weights_ok 1 2 (1 / 2) [0; 1] [0; 1] ex_wt ex_occ.
Proof.
  split; [lra|]. split; [intros; unfold ex_wt; lra|]. intros. unfold ex_occ. destruct (n =? 0); lra.
Qed.
Example C71_spin_example : exists rho mag,
  Calculate_elecDens false 2 1 2 2 2 2 (1 / 2) 1 2 2 ex_P 0 1 0 = Ok (rho, mag) /\ at_ rho 0 = 26%R /\ at_ mag 6 = (-3)%R.
Proof.
  destruct (C71_spin false 2 1 2 (1 / 2) 2 2 [0; 1] [0; 1] ex_wt ex_occ ex_psi 2 (fun i => i) 1 2 2 ex_P ex_kl ex_id ex_id
    (fun _ => 0) (fun _ => 2)) with (s := 0) (k := 1) (b := 0) as (rho & mag & E & _ & _ & V); try lia.
  - apply ex_divided.
  - right. right. repeat split.
  - apply ex_weights.
  - intros. now apply ex_holds.
  - exists rho, mag. split; [exact E|]. destruct (V 0) as (V1 & _ & _ & V2); [lia|].
    destruct (V2 eq_refl) as (V3 & _). rewrite V1. pose proof (V3 3) as V4.
    change (3 * 2 + 0) with 6 in V4. rewrite V4 by lia.
    split.
    + unfold rsum, dens, rsum. change (zrange 0 (2 - 1)) with [0; 1]. cbn [map ksum].
      change (Cmod ?z * Cmod ?z)%R with (sqm z). rewrite !sqm_val. unfold weight, ex_wt, ex_occ, ex_psi. cbn. lra.
    + unfold magn, rsum. cbn [map ksum pauli Z.eqb Pos.eqb expect]. unfold weight, ex_wt, ex_occ, ex_psi, Re. cbn. lra.
Qed.
