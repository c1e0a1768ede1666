(** The integrals of a domain communicator, and the force from them. *)
From Coq Require Import ZArith QArith List Lia Bool Permutation Ring.
From Verif Require Import CBase Nloc NlocSpec NlocLem P_Nloc VnlOp VnlLem VnlSpec VnlMain NlocForce NlocForceSpec
  NlocForceMain.
Import ListNotations.
Local Open Scope Z_scope.

(** The values behind the arrays of a communicator: orbital [n] of k-point
    [k] and spinor [sp], its derivative in a direction, its occupation. *)
Record gdata (K : Type) := GData { gd_g : grp K; gd_psi : Z -> Z -> Z -> tri -> K;
  gd_d : Z -> Z -> Z -> Z -> tri -> K; gd_occ : Z -> Z -> Z -> K }.
Arguments GData {K} _ _ _ _.
Arguments gd_g {K} _.
Arguments gd_psi {K} _ _ _ _ _.
Arguments gd_d {K} _ _ _ _ _ _.
Arguments gd_occ {K} _ _ _ _.

(** A process: its box meets the preconditions of C69, its influence list is
    the one the code builds, and [Xorb], [Yorb] hold the values. *)
Record fproc_ok {K} (c : cell) (pos : list (Q * Q * Q)) (ats : list atyp) (x : gdata K) (pr : fproc K) : Prop := {
  fp_call : call_ok c (f_dom pr) pos ats;
  fp_list : GetInfluencingAtoms_nloc c (f_dom pr) pos ats = Ok (f_inf pr);
  fp_nd : 0 <= ndd (f_dom pr);
  fp_x : nk (gd_g x) * (ndd (f_dom pr) * g_nsp (gd_g x) * g_ncol (gd_g x)) <= sz (f_x pr);
  fp_xv : forall k sp n nd, 0 <= k < nk (gd_g x) -> 0 <= sp < g_nsp (gd_g x) -> 0 <= n < g_ncol (gd_g x) ->
    In nd (nodes (f_dom pr)) ->
    at_ (f_x pr) (k * (ndd (f_dom pr) * g_nsp (gd_g x) * g_ncol (gd_g x)) + sp * ndd (f_dom pr) +
      (n * (ndd (f_dom pr) * g_nsp (gd_g x)) + local_index (f_dom pr) nd)) = gd_psi x k sp n nd;
  fp_y : forall d k, 0 <= d < 3 -> 0 <= k < nk (gd_g x) ->
    ndd (f_dom pr) * g_nsp (gd_g x) * g_ncol (gd_g x) <= sz (f_y pr d k);
  fp_yv : forall d k sp n nd, 0 <= d < 3 -> 0 <= k < nk (gd_g x) -> 0 <= sp < g_nsp (gd_g x) ->
    0 <= n < g_ncol (gd_g x) -> In nd (nodes (f_dom pr)) ->
    at_ (f_y pr d k) (sp * ndd (f_dom pr) +
      (n * (ndd (f_dom pr) * g_nsp (gd_g x)) + local_index (f_dom pr) nd)) = gd_d x d k sp n nd }.

(** A communicator: its boxes make up the grid; [occ] holds the occupations
    by spin (if [spin_typ] is 1), k-point and band; the factors of the two
    integrals are conjugate to each other. *)
Record grp_ok {K} (cj : K -> K) (spin_typ : Z) (c : cell) (pos : list (Q * Q * Q)) (ats : list atyp)
    (grid : list tri) (x : gdata K) : Prop := {
  go_nc : 0 <= g_ncol (gd_g x);
  go_nsp : 0 <= g_nsp (gd_g x);
  go_prs : g_prs (gd_g x) <> [];
  go_fp : List.Forall (fproc_ok c pos ats x) (g_prs (gd_g x));
  go_grid : Permutation (flat_map (fun pr => nodes (f_dom pr)) (g_prs (gd_g x))) grid;
  go_occ : forall k sp n, 0 <= k < nk (gd_g x) -> 0 <= sp < g_nsp (gd_g x) -> 0 <= n < g_ncol (gd_g x) ->
    let i := (if spin_typ =? 1 then sp * nk (gd_g x) * g_ns (gd_g x) else 0) + k * g_ns (gd_g x) +
             (g_start (gd_g x) + n) in
    0 <= i /\ nth_error (g_occ (gd_g x)) (Z.to_nat i) = Some (gd_occ x k sp n);
  go_w : forall q r, In q (g_kp (gd_g x)) -> kp_a q r = cj (kp_b q r) }.

(** The orbitals of a communicator. *)
Definition kpn {K} (zero : K) (g : grp K) (k : Z) : kp K :=
  nth (Z.to_nat k) (g_kp g) (Kp (fun _ => zero) (fun _ => zero) zero).
Definition orbs {K} (zero : K) (x : gdata K) : list (orb K) :=
  flat_map (fun k => flat_map (fun sp => map (fun n =>
      Orb (gd_occ x k sp n) (kp_wt (kpn zero (gd_g x) k)) (kp_b (kpn zero (gd_g x) k)) (gd_psi x k sp n)
        (fun d => gd_d x d k sp n))
    (zrange 0 (g_ncol (gd_g x) - 1))) (zrange 0 (g_nsp (gd_g x) - 1))) (zrange 0 (nk (gd_g x) - 1)).

(** ** Blocks put side by side *)
Lemma put_fold {K T} (f : arr K -> T -> outcome (arr K)) (blk : T -> outcome (arr K)) (pl : T -> Z)
    (P : T -> arr K -> Prop) B N :
  (forall a x, f a x = obind (blk x) (fun b => put a (pl x) b)) ->
  forall l, (forall x, In x l -> exists b, blk x = Ok b /\ sz b = B /\ P x b) ->
  (forall x, In x l -> 0 <= pl x /\ pl x + B <= N) -> NoDup l ->
  (forall x y, In x l -> In y l -> x <> y -> pl x + B <= pl y \/ pl y + B <= pl x) ->
  forall a, sz a = N -> exists a', ofold f a l = Ok a' /\ sz a' = N /\
    (forall x, In x l -> exists b, P x b /\ forall r, 0 <= r < B -> at_ a' (pl x + r) = at_ b r) /\
    (forall i, (forall x, In x l -> ~ (pl x <= i < pl x + B)) -> at_ a' i = at_ a i).
Proof.
  intros Hf. induction l as [|x l IH]; intros HB HP HN HD a Ha; cbn [ofold].
  - exists a. split; [reflexivity|]. split; [exact Ha|]. split; [easy|reflexivity].
  - destruct (HB x (or_introl eq_refl)) as (b & Eb & Sb & Pb).
    destruct (HP x (or_introl eq_refl)) as [P0 P1]. inversion HN as [|? ? NI HN']; subst.
    rewrite Hf, Eb. cbn [obind]. unfold put.
    destruct (Z.leb_spec 0 (pl x)); [|lia]. destruct (Z.leb_spec (pl x + sz b) (sz a)); [|lia].
    cbn [andb obind]. set (a1 := Arr _ _).
    destruct (IH) with (a := a1) as (a2 & E2 & S2 & V2 & U2).
    + intros y Hy. apply HB. now right.
    + intros y Hy. apply HP. now right.
    + exact HN'.
    + intros y z Hy Hz. apply HD; now right.
    + reflexivity.
    + exists a2. split; [exact E2|]. split; [exact S2|]. split.
      * intros y [->|Hy]; [|now apply V2]. exists b. split; [exact Pb|]. intros r Hr. rewrite U2.
        -- unfold a1. cbn [at_]. destruct (Z.leb_spec (pl y) (pl y + r)); [|lia].
           destruct (Z.ltb_spec (pl y + r) (pl y + sz b)); [|lia]. cbn [andb]. f_equal. lia.
        -- intros z Hz Hc. destruct (HD y z); [now left|now right|congruence|lia|lia].
      * intros i Hi. rewrite U2 by (intros z Hz; apply Hi; now right). unfold a1. cbn [at_].
        destruct (Z.leb_spec (pl x) i); [|reflexivity].
        destruct (Z.ltb_spec i (pl x + sz b)); [|reflexivity].
        exfalso. apply (Hi x); [now left|lia].
Qed.

Lemma in_calls {K} (g : grp K) p k sp :
  In (p, k, sp) (calls g) <-> 0 <= p <= 3 /\ 0 <= k < nk g /\ 0 <= sp < g_nsp g.
Proof.
  unfold calls. rewrite in_flat_map. split.
  - intros (p' & A & B). apply in_flat_map in B. destruct B as (k' & B & C0). apply in_map_iff in C0.
    destruct C0 as (sp' & E & C0). injection E as <- <- <-. apply in_zrange in A, B, C0. lia.
  - intros (A & B & C0). exists p. split; [apply in_zrange; lia|]. apply in_flat_map. exists k.
    split; [apply in_zrange; lia|]. apply in_map. apply in_zrange. lia.
Qed.

Lemma NoDup_calls {K} (g : grp K) : NoDup (calls g).
Proof.
  unfold calls. apply NoDup_flat_map; [apply NoDup_zrange| |].
  - intros p _. apply NoDup_flat_map; [apply NoDup_zrange| |].
    + intros k _. apply NoDup_map_inj; [|apply NoDup_zrange]. intros x y _ _ E. now injection E.
    + intros x y b _ _ A B. apply in_map_iff in A, B. destruct A as (? & <- & _), B as (? & E & _). now injection E.
  - intros x y b _ _ A B. apply in_flat_map in A, B. destruct A as (? & _ & A), B as (? & _ & B).
    apply in_map_iff in A, B. destruct A as (? & <- & _), B as (? & E & _). now injection E.
Qed.

Lemma place_sep {K} (g : grp K) B x y : 0 <= B -> In x (calls g) -> In y (calls g) -> x <> y ->
  place g B x + B <= place g B y \/ place g B y + B <= place g B x.
Proof.
  intros HB. destruct x as [[p k] sp], y as [[p' k'] sp']. rewrite !in_calls.
  intros (A1 & A2 & A3) (B1 & B2 & B3) NE. unfold place.
  set (M := nk g) in *. set (N := g_nsp g) in *.
  assert (NE' : N * (M * p + k) + sp <> N * (M * p' + k') + sp').
  { intros E. apply NE.
    assert (U : M * p + k = M * p' + k') by nia.
    assert (sp = sp') by nia. assert (p = p') by nia. subst. f_equal. f_equal. lia. }
  replace (B * N * (M * p + k) + B * sp) with (B * (N * (M * p + k) + sp)) by ring.
  replace (B * N * (M * p' + k') + B * sp') with (B * (N * (M * p' + k') + sp')) by ring.
  set (q := N * (M * p + k) + sp) in *. set (q' := N * (M * p' + k') + sp') in *. clearbody q q'.
  assert (q + 1 <= q' \/ q' + 1 <= q) as [L|L] by lia; [left|right]; nia.
Qed.

Lemma place_in {K} (g : grp K) B x : 0 <= B -> In x (calls g) ->
  0 <= place g B x /\ place g B x + B <= B * nk g * g_nsp g * 4.
Proof.
  intros HB. destruct x as [[p k] sp]. rewrite in_calls. intros (A1 & A2 & A3). unfold place.
  set (M := nk g) in *. set (N := g_nsp g) in *.
  replace (B * N * (M * p + k) + B * sp) with (B * (N * (M * p + k) + sp)) by ring.
  assert (0 <= M * p + k) by nia. assert (M * p + k + 1 <= M * 4) by nia.
  assert (0 <= N * (M * p + k) + sp) by nia. assert (N * (M * p + k) + sp + 1 <= N * (M * 4)) by nia.
  split; [nia|]. replace (B * M * N * 4) with (B * (N * (M * 4))) by ring. nia.
Qed.

Section RING.
Context {K : Type} (zero one : K) (add mul sub : K -> K -> K) (opp : K -> K).
Context (Rth : ring_theory zero one add mul sub opp eq).
Add Ring KR4 : Rth.

Declare Scope k_scope.
Infix "+" := add : k_scope.
Infix "*" := mul : k_scope.
Delimit Scope k_scope with k.
Notation ksum := (ksum zero add).
Notation sel := (sel zero).

Variable chi : nat -> Z * Z * Z -> Q * Q * Q -> K.
Variable gamma : nat -> list K.
Variables dV occfac : K.
Variables cj re : K -> K.
Variable gam : bool.
Variable spin_typ : Z.
Variable c : cell.
Variable pos : list (Q * Q * Q).
Variable ats : list atyp.
Variable ps : list psp.
Variable grid : list tri.
Variable All : Z -> list tri.
Notation ss := (ss ats ps).
Notation ts := (tys ats ps).

Hypothesis HO : inst_ok ats ps.
Hypothesis Horg : (a_org (ax c) == 0 /\ a_org (ay c) == 0 /\ a_org (az c) == 0)%Q.
Hypothesis chi_ext : forall ty cl x y z x' y' z', (x == x')%Q -> (y == y')%Q -> (z == z')%Q ->
  chi ty cl (x, y, z) = chi ty cl (x', y', z').
Hypothesis chi_zero : forall st cl v, In st ss -> (st_rc st * st_rc st <= norm2 c v)%Q ->
  chi (st_typ st) cl v = zero.
Hypothesis Hpos : forall k t, nth_error ats k = Some t ->
  0 <= first_atom ats k /\ first_atom ats k + t_n t <= Z.of_nat (length pos).
Hypothesis HAll : all_images c pos grid ss All.
Hypothesis Hgam : forall k s, nth_error ps k = Some s -> gamma_ok gamma k s.
Hypothesis Hre : gam = true -> forall z, re z = z.
Hypothesis Hcj : gam = true -> forall z, cj z = z.
Hypothesis cj_add : forall x y, cj (x + y)%k = (cj x + cj y)%k.
Hypothesis cj_mul : forall x y, cj (x * y)%k = (cj x * cj y)%k.
Hypothesis cj_zero : cj zero = zero.
Hypothesis chi_cj : forall ty cl v, cj (chi ty cl v) = chi ty cl v.

Lemma cj_ksum {A} (f : A -> K) l : cj (ksum (map f l)) = ksum (map (fun x => cj (f x)) l).
Proof. induction l as [|x l IH]; cbn [map VnlOp.ksum]; [exact cj_zero|]. now rewrite cj_add, IH. Qed.

Lemma tot_ok : ld (ipd ts) (natom ts) = Ok (total ts).
Proof.
  unfold ipd, natom. rewrite (ld_ok _ _ (0 + total ts)).
  - now rewrite Z.add_0_l.
  - rewrite fst_tys by apply HO. pose proof (io_n _ _ HO) as X0. clear - X0. induction X0; cbn; [lia|].
    unfold zsum in IHX0. lia.
  - apply ip_displ_last. now apply tys_ok.
Qed.

Lemma total_pos : 0 <= total ts.
Proof.
  pose proof (tys_ok _ _ HO) as HT. clear - HT. unfold total. induction HT as [|[x b] l [Hx Hb] _ IH]; cbn; [lia|].
  cbn [fst snd] in *. pose proof (nproj_pos b Hb). unfold zsum in IH. nia.
Qed.

(** ** The integrals of a process *)
Definition part_val (x : gdata K) (D : dom) (q : Z * Z * Z) (st : site) (n p : Z) : K :=
  let '(part, k, sp) := q in
  if part =? 0 then
    local_overlap zero add mul chi (kp_a (kpn zero (gd_g x) k)) dV c pos All D (fun n nd => cj (gd_psi x k sp n nd)) st n p
  else
    local_overlap zero add mul chi (kp_b (kpn zero (gd_g x) k)) one c pos All D (gd_d x (part - 1) k sp) st n p.

Lemma listed_of (x : gdata K) (pr : fproc K) : fproc_ok c pos ats x pr -> incl (nodes (f_dom pr)) grid ->
  listed c pos ats grid (f_dom pr) (f_inf pr).
Proof.
  intros [P1 P2 _ _ _ _ _] HI. destruct (C69_list _ _ _ _ P1) as (L & E & LL & HR). rewrite P2 in E. injection E as <-.
  constructor; auto. destruct P1 as (_ & HF & _). eapply Forall_impl; [|exact HF]. intros t (HB & _). eauto.
Qed.

Lemma block_ok (x : gdata K) (pr : fproc K) part k sp : fproc_ok c pos ats x pr -> incl (nodes (f_dom pr)) grid ->
  0 <= g_ncol (gd_g x) -> 0 <= g_nsp (gd_g x) -> In (part, k, sp) (calls (gd_g x)) ->
  exists b, block zero one add mul chi dV cj gam c ts (gd_g x) pr part k sp = Ok b /\
    sz b = total ts * g_ncol (gd_g x) /\
    forall st n p, In st ss -> 0 <= n < g_ncol (gd_g x) -> 0 <= p < nproj (st_psp st) ->
      at_ b (slot ats ps (g_ncol (gd_g x)) st n p) = part_val x (f_dom pr) (part, k, sp) st n p.
Proof.
  intros HP HI Hnc Hns Hin. apply in_calls in Hin. destruct Hin as (A1 & A2 & A3).
  pose proof (listed_of x pr HP HI) as HL. destruct HP as [_ _ P3 P4 P5 P6 P7].
  unfold block. unfold nk in A2.
  rewrite (ld_ok _ _ (kpn zero (gd_g x) k)); [|lia|unfold kpn; apply nth_error_nth'; lia].
  cbn [obind]. unfold part_val. set (N := ndd (f_dom pr)) in *. set (M := g_nsp (gd_g x)) in *.
  set (C1 := g_ncol (gd_g x)) in *.
  assert (NM : 0 <= N * M) by nia. assert ((sp + 1) * N <= N * M) by nia. assert (0 <= sp * N) by nia.
  destruct (Z.eqb_spec part 0) as [->|NP].
  - refine (phase1_ok zero one add mul sub opp Rth chi gamma (kp_a (kpn zero (gd_g x) k)) (fun _ => zero) dV c pos ats ps
      grid All HO Horg chi_ext chi_zero Hpos HAll (f_dom pr) (f_inf pr) _ _ C1 (N * M)
      (fun n nd => cj (gd_psi x k sp n nd)) HL _ Hnc).
    assert (SZ : (C1 - 1) * (N * M) + N <= sz (f_x pr) - (k * (N * M * C1) + sp * N)).
    { unfold nk in P4. assert ((k + 1) * (N * M * C1) <= Z.of_nat (length (g_kp (gd_g x))) * (N * M * C1)) by nia. nia. }
    split; [exact NM|]. unfold conj_arr, from. destruct gam eqn:EG; cbn [sz at_].
    + split; [exact SZ|]. intros n nd Hn Hnd. rewrite (Hcj eq_refl). now rewrite P5.
    + split; [exact SZ|]. intros n nd Hn Hnd. now rewrite P5.
  - refine (phase1_ok zero one add mul sub opp Rth chi gamma (kp_b (kpn zero (gd_g x) k)) (fun _ => zero) one c pos ats ps
      grid All HO Horg chi_ext chi_zero Hpos HAll (f_dom pr) (f_inf pr) _ _ C1 (N * M)
      (gd_d x (part - 1) k sp) HL _ Hnc).
    specialize (P6 (part - 1) k ltac:(lia) A2).
    assert (SZ : (C1 - 1) * (N * M) + N <= sz (f_y pr (part - 1) k) - sp * N) by nia.
    split; [exact NM|]. unfold from. cbn [sz at_]. split; [exact SZ|]. intros n nd Hn Hnd.
    apply P7; [lia|exact A2|exact A3|exact Hn|exact Hnd].
Qed.

Lemma slot_lt ncol st n p : In st ss -> 0 <= n < ncol -> 0 <= p < nproj (st_psp st) ->
  0 <= slot ats ps ncol st n p < total ts * ncol.
Proof.
  intros Hst Hn Hp. destruct (off_total ats ps st HO Hst) as [A B]. unfold slot.
  assert (n * nproj (st_psp st) + p < nproj (st_psp st) * ncol) by nia. nia.
Qed.

Lemma integrals_ok (x : gdata K) (pr : fproc K) : fproc_ok c pos ats x pr -> incl (nodes (f_dom pr)) grid ->
  0 <= g_ncol (gd_g x) -> 0 <= g_nsp (gd_g x) ->
  let B := total ts * g_ncol (gd_g x) in
  exists a, integrals zero one add mul chi dV cj gam c ts (gd_g x) pr = Ok a /\
    sz a = B * nk (gd_g x) * g_nsp (gd_g x) * 4 /\
    forall q st n p, In q (calls (gd_g x)) -> In st ss -> 0 <= n < g_ncol (gd_g x) -> 0 <= p < nproj (st_psp st) ->
      at_ a (place (gd_g x) B q + slot ats ps (g_ncol (gd_g x)) st n p) = part_val x (f_dom pr) q st n p.
Proof.
  intros HP HI Hnc Hns B. unfold integrals. rewrite tot_ok. cbn [obind].
  pose proof total_pos as TP. assert (HB : 0 <= B) by (unfold B; nia). fold B.
  destruct (put_fold (fun a q => let '(part, k, sp) := q in
      obind (block zero one add mul chi dV cj gam c ts (gd_g x) pr part k sp) (fun b => put a (place (gd_g x) B q) b))
    (fun q => let '(part, k, sp) := q in block zero one add mul chi dV cj gam c ts (gd_g x) pr part k sp)
    (place (gd_g x) B)
    (fun q b => forall st n p, In st ss -> 0 <= n < g_ncol (gd_g x) -> 0 <= p < nproj (st_psp st) ->
      at_ b (slot ats ps (g_ncol (gd_g x)) st n p) = part_val x (f_dom pr) q st n p)
    B (B * nk (gd_g x) * g_nsp (gd_g x) * 4)) with (l := calls (gd_g x))
      (a := Arr (B * nk (gd_g x) * g_nsp (gd_g x) * 4) (fun _ : Z => zero)) as (a & E & S & V & _).
  - intros a [[part k] sp]. reflexivity.
  - intros [[part k] sp] Hq. destruct (block_ok x pr part k sp HP HI Hnc Hns Hq) as (b & E1 & E2 & E3). eauto.
  - intros q Hq. now apply place_in.
  - apply NoDup_calls.
  - intros q q' H1 H2 NE. now apply place_sep.
  - reflexivity.
  - exists a. split; [exact E|]. split; [exact S|]. intros q st n p Hq Hst Hn Hp.
    destruct (V q Hq) as (b & Pb & Vb). rewrite Vb by (now apply slot_lt). now apply Pb.
Qed.

(** ** The sum over the processes *)
Definition whole (x : gdata K) (q : Z * Z * Z) (st : site) (n p : Z) : K :=
  let '(part, k, sp) := q in
  if part =? 0 then
    (dV * cj (coef zero add mul chi c pos All grid (kp_b (kpn zero (gd_g x) k)) st (col (st_psp st) p) (gd_psi x k sp n)))%k
  else coef zero add mul chi c pos All grid (kp_b (kpn zero (gd_g x) k)) st (col (st_psp st) p) (gd_d x (part - 1) k sp n).

Lemma cj_projector (q : kp K) st cl nd : (forall r, kp_a q r = cj (kp_b q r)) ->
  projector zero add mul chi c pos All (kp_a q) st cl nd = cj (projector zero add mul chi c pos All (kp_b q) st cl nd).
Proof.
  intros H. unfold projector. rewrite cj_ksum. apply f_equal. apply map_ext. intros im.
  now rewrite cj_mul, chi_cj, H.
Qed.

Lemma whole_sum (x : gdata K) q st n p : grp_ok cj spin_typ c pos ats grid x -> In q (calls (gd_g x)) ->
  ksum (map (fun pr => part_val x (f_dom pr) q st n p) (g_prs (gd_g x))) = whole x q st n p.
Proof.
  intros HG Hq. destruct q as [[part k] sp]. apply in_calls in Hq. destruct Hq as (A1 & A2 & A3).
  assert (FL : forall F : tri -> K, ksum (map (fun pr => ksum (map F (nodes (f_dom pr)))) (g_prs (gd_g x))) = ksum (map F grid)).
  { intros F. rewrite <- (ksum_perm _ _ _ _ _ _ Rth _ _ (Permutation_map F (go_grid _ _ _ _ _ _ _ HG))).
    symmetry. apply (ksum_flat_map _ _ _ _ _ _ Rth). }
  unfold part_val, whole, local_overlap. destruct (part =? 0).
  - rewrite FL. unfold coef. rewrite cj_ksum, <- (ksum_mul_l _ _ _ _ _ _ Rth). apply f_equal. apply map_ext. intros nd.
    rewrite cj_mul, cj_projector; [ring|]. intros r. apply (go_w _ _ _ _ _ _ _ HG). unfold kpn. apply nth_In. unfold nk in A2. lia.
  - rewrite FL. unfold coef. apply f_equal. apply map_ext. intros nd. ring.
Qed.

Lemma reduce_one (l : list (arr K)) N i : l <> [] -> List.Forall (fun a => sz a = N) l ->
  sz (reduce zero add l) = N /\ at_ (reduce zero add l) i = ksum (map (fun a => at_ a i) l).
Proof.
  clear - Rth. intros NE HF. destruct l as [|a l]; [now destruct NE|]. unfold reduce, allreduce.
  assert (SA : sz a = N) by (inversion HF; assumption).
  destruct (Z.ltb_spec 1 (Z.of_nat (length (a :: l)))) as [L|L]; cbn [sz at_]; [auto|].
  split; [exact SA|]. destruct l as [|b l]; [|cbn [length] in L; lia]. cbn [map VnlOp.ksum]. ring.
Qed.

Lemma grp_alpha (x : gdata K) : grp_ok cj spin_typ c pos ats grid x ->
  let B := total ts * g_ncol (gd_g x) in
  exists als, omap (integrals zero one add mul chi dV cj gam c ts (gd_g x)) (g_prs (gd_g x)) = Ok als /\
    sz (reduce zero add als) = B * nk (gd_g x) * g_nsp (gd_g x) * 4 /\
    forall q st n p, In q (calls (gd_g x)) -> In st ss -> 0 <= n < g_ncol (gd_g x) -> 0 <= p < nproj (st_psp st) ->
      at_ (reduce zero add als) (place (gd_g x) B q + slot ats ps (g_ncol (gd_g x)) st n p) = whole x q st n p.
Proof.
  intros HG B. destruct (omap_ok (integrals zero one add mul chi dV cj gam c ts (gd_g x))
    (fun pr a => sz a = B * nk (gd_g x) * g_nsp (gd_g x) * 4 /\
      forall q st n p, In q (calls (gd_g x)) -> In st ss -> 0 <= n < g_ncol (gd_g x) -> 0 <= p < nproj (st_psp st) ->
      at_ a (place (gd_g x) B q + slot ats ps (g_ncol (gd_g x)) st n p) = part_val x (f_dom pr) q st n p)
    (g_prs (gd_g x))) as (als & E & F).
  { intros pr Hpr. pose proof (go_fp _ _ _ _ _ _ _ HG) as HF. rewrite List.Forall_forall in HF.
    apply integrals_ok; [now apply HF| |apply HG|apply HG].
    intros nd Hnd. eapply Permutation_in; [apply (go_grid _ _ _ _ _ _ _ HG)|]. apply in_flat_map. eauto. }
  exists als. split; [exact E|].
  assert (NE : als <> []).
  { pose proof (go_prs _ _ _ _ _ _ _ HG) as X. intros ->. inversion F as [X1|]. now apply X. }
  assert (SZ : List.Forall (fun a => sz a = B * nk (gd_g x) * g_nsp (gd_g x) * 4) als).
  { clear - F. induction F as [|pr a l m [H _] _ IH]; constructor; auto. }
  split; [apply (reduce_one als _ 0 NE SZ)|]. intros q st n p Hq Hst Hn Hp.
  rewrite (proj2 (reduce_one als _ _ NE SZ)), <- (whole_sum x q st n p HG Hq).
  symmetry. eapply (ksum_Forall2 zero add); [exact F|]. intros pr a _ _ (_ & H). now rewrite H.
Qed.

(** ** The force of a communicator *)
Lemma ksum_opp {A} (f : A -> K) l : ksum (map (fun x => opp (f x)) l) = opp (ksum (map f l)).
Proof. induction l as [|x l IH]; cbn [map VnlOp.ksum]; [ring|]. rewrite IH. ring. Qed.

Lemma sel_sum {A} (key : A -> Z) (v : A -> K) l x0 : NoDup (map key l) -> In x0 l ->
  ksum (map (fun x => sel (key x0) (key x) (v x)) l) = v x0.
Proof.
  induction l as [|x l IH]; intros HN HI; [easy|]. cbn [map] in HN. inversion HN as [|? ? NI HN']; subst.
  cbn [map VnlOp.ksum]. destruct HI as [->|HI].
  - rewrite (sel_same zero). rewrite (ksum_zero _ _ _ _ _ _ Rth); [ring|]. intros y Hy. apply (sel_diff zero).
    intros E. apply NI. rewrite E. now apply in_map.
  - rewrite (sel_diff zero); [|intros E; apply NI; rewrite <- E; now apply in_map]. rewrite IH by assumption. ring.
Qed.

Lemma by_integrals_ok (x : gdata K) al : grp_ok cj spin_typ c pos ats grid x ->
  let B := total ts * g_ncol (gd_g x) in
  sz al = B * nk (gd_g x) * g_nsp (gd_g x) * 4 ->
  (forall q st n p, In q (calls (gd_g x)) -> In st ss -> 0 <= n < g_ncol (gd_g x) -> 0 <= p < nproj (st_psp st) ->
      at_ al (place (gd_g x) B q + slot ats ps (g_ncol (gd_g x)) st n p) = whole x q st n p) ->
  forall f, sz f = 3 * natom ts ->
  exists f', by_integrals zero one add mul sub gamma occfac re gam spin_typ ts (gd_g x) (total ts) f al = Ok f' /\
    sz f' = 3 * natom ts /\
    forall st d, In st ss -> 0 <= d < 3 ->
      at_ f' (st_atom st * 3 + d) = (at_ f (st_atom st * 3 + d)%Z +
        atom_force zero one add mul opp chi gamma dV occfac cj re c pos All grid (orbs zero x) st d)%k.
Proof.
  intros HG B Hsz Hal f Hf.
  pose proof total_pos as TP. pose proof (go_nc _ _ _ _ _ _ _ HG) as Hnc. pose proof (go_nsp _ _ _ _ _ _ _ HG) as Hns.
  set (g := gd_g x) in *. assert (HB : 0 <= B) by (unfold B; nia).
  assert (HK : 0 <= nk g) by (unfold nk; lia).
  assert (HS : 0 <= B * nk g * g_nsp g) by nia.
  set (sh := fun dim => total ts * g_ncol g * nk g * g_nsp g * (dim + 1)).
  set (G := fun dim k sp st => opp (occfac * (one + one) * kp_wt (kpn zero g k) *
    aval zero add mul gamma re g al (sh dim) (gd_occ x k sp) (st_typ st) (st_psp st)
      (place g B (0, k, sp) + off ats ps st * g_ncol g)%Z)%k).
  destruct (ofold_acc _ _ _ _ _ _ Rth (fun f dim =>
    obind (ofold (fun st k =>
        obind (ld (g_kp g) k) (fun q =>
        ofold (fun st sp =>
          obind (types zero add mul sub gamma re gam spin_typ g k sp dim (mul (mul occfac (add one one)) (kp_wt q)) al
            (sh dim) 0 ts (fst st, 0, snd st)) (fun r =>
          let '(f', _, cnt) := r in Ok (f', cnt))) st (zrange 0 (g_nsp g - 1))))
      (f, 0) (zrange 0 (nk g - 1))) (fun r =>
    Ok (fst r)))
    (fun dim i => ksum (map (fun k => ksum (map (fun sp =>
       ksum (map (fun st => sel i (st_atom st * 3 + dim)%Z (G dim k sp st)) ss)) (zrange 0 (g_nsp g - 1))))
       (zrange 0 (nk g - 1)))) (3 * natom ts) (zrange 0 2)) with (a := f) as (f' & E & S & V).
  - intros dim f0 Hdim Hf0. apply in_zrange in Hdim.
    destruct (count_loop zero one add mul sub opp Rth (fun st k =>
        obind (ld (g_kp g) k) (fun q =>
        ofold (fun st sp =>
          obind (types zero add mul sub gamma re gam spin_typ g k sp dim (mul (mul occfac (add one one)) (kp_wt q)) al
            (sh dim) 0 ts (fst st, 0, snd st)) (fun r =>
          let '(f', _, cnt) := r in Ok (f', cnt))) st (zrange 0 (g_nsp g - 1))))
       (3 * natom ts) (g_nsp g * B) (fun k i => ksum (map (fun sp =>
       ksum (map (fun st => sel i (st_atom st * 3 + dim)%Z (G dim k sp st)) ss)) (zrange 0 (g_nsp g - 1))))
       0 (nk g) HK) with (f := f0) as (f1 & E1 & S1 & V1).
    + intros k f2 Hk Hf2. rewrite (ld_ok _ _ (kpn zero g k)); [|lia|unfold kpn; apply nth_error_nth'; unfold nk in Hk; lia].
      cbn [obind].
      destruct (count_loop zero one add mul sub opp Rth (fun st sp =>
          obind (types zero add mul sub gamma re gam spin_typ g k sp dim (mul (mul occfac (add one one)) (kp_wt (kpn zero g k))) al
            (sh dim) 0 ts (fst st, 0, snd st)) (fun r =>
          let '(f', _, cnt) := r in Ok (f', cnt)))
        (3 * natom ts) B (fun sp i => ksum (map (fun st => sel i (st_atom st * 3 + dim)%Z (G dim k sp st)) ss))
        (0 + k * (g_nsp g * B)) (g_nsp g) Hns) with (f := f2) as (f3 & E3 & S3 & V3).
      * intros sp f4 Hsp Hf4. cbn [fst snd].
        assert (PL : 0 + k * (g_nsp g * B) + sp * B = place g B (0, k, sp)) by (unfold place; ring).
        rewrite PL.
        assert (IC : In (0, k, sp) (calls g)) by (apply in_calls; lia).
        assert (BD : place g B (0, k, sp) + B <= B * nk g * g_nsp g).
        { rewrite <- PL. assert (k * g_nsp g + sp + 1 <= nk g * g_nsp g) by nia.
          replace (0 + k * (g_nsp g * B) + sp * B + B) with (B * (k * g_nsp g + sp + 1)) by ring.
          rewrite <- Z.mul_assoc. nia. }
        destruct (place_in g B _ HB IC) as [PB _].
        destruct (types_ok zero one add mul sub opp Rth gamma re gam spin_typ g al (sh dim) k sp dim
          (mul (mul occfac (add one one)) (kp_wt (kpn zero g k))) (gd_occ x k sp)) with (N := 3 * natom ts)
          (ats := ats) (ps := ps) (ty := 0%nat) (a := 0) (cnt := place g B (0, k, sp)) (f := f4)
          as (f5 & E5 & S5 & V5).
        -- unfold sh. fold B. nia.
        -- exact Hre.
        -- exact Hnc.
        -- intros n Hn. unfold g_nk. destruct (go_occ _ _ _ _ _ _ _ HG k sp n Hk Hsp Hn) as [O1 O2].
           apply ld_ok; [exact O1|exact O2].
        -- lia.
        -- exact HO.
        -- intros j s Ej. rewrite Nat.add_0_l. now apply Hgam.
        -- lia.
        -- unfold natom. rewrite fst_tys by apply HO. lia.
        -- exact PB.
        -- fold B. unfold sh. fold B. rewrite Hsz. nia.
        -- exact Hf4.
        -- rewrite E5. cbn [obind]. exists f5. split; [f_equal; f_equal; rewrite <- PL; fold B; ring|].
           split; [exact S5|]. intros i. rewrite V5. f_equal. unfold VnlMain.ss. apply f_equal. apply map_ext.
           intros st. unfold G, offr, off. rewrite Nat.sub_0_r, Z.sub_0_r. reflexivity.
      * exact Hf2.
      * exists f3. split; [|split; [exact S3|exact V3]]. rewrite E3. f_equal. f_equal. ring.
    + exact Hf0.
    + rewrite E1. cbn [obind fst]. exists f1. split; [reflexivity|]. split; [exact S1|exact V1].
  - exact Hf.
  - exists f'. split; [exact E|]. split; [exact S|]. intros st d Hst Hd. rewrite V. f_equal.
    (* only direction d and atom st contribute *)
    assert (PK : forall dim k sp, 0 <= dim < 3 ->
      ksum (map (fun st' => sel (st_atom st * 3 + d)%Z (st_atom st' * 3 + dim)%Z (G dim k sp st')) ss) =
      if dim =? d then G d k sp st else zero).
    { intros dim k sp Hdim. destruct (Z.eqb_spec dim d) as [->|NE].
      - apply (sel_sum (fun s => st_atom s * 3 + d) (G d k sp) ss st); [|exact Hst].
        pose proof (NoDup_sites ats ps 0 0 (io_n _ _ HO)) as ND. fold ss in ND. clear - ND.
        induction ss as [|y l IH]; [constructor|]. cbn [map] in *. inversion ND as [|? ? NI ND']; subst.
        constructor; [|now apply IH]. intros H. apply NI. apply in_map_iff in H. destruct H as (z & E & H).
        assert (EQ : st_atom z = st_atom y) by lia. rewrite <- EQ. now apply in_map.
      - apply (ksum_zero _ _ _ _ _ _ Rth). intros y _. apply (sel_diff zero). lia. }
    transitivity (ksum (map (fun k => ksum (map (fun sp => G d k sp st) (zrange 0 (g_nsp g - 1)))) (zrange 0 (nk g - 1)))).
    { transitivity (ksum (map (fun dim => if dim =? d then
          ksum (map (fun k => ksum (map (fun sp => G d k sp st) (zrange 0 (g_nsp g - 1)))) (zrange 0 (nk g - 1)))
          else zero) (zrange 0 2))).
      - apply (ksum_ext zero add). intros dim Hdim. apply in_zrange in Hdim.
        destruct (Z.eqb_spec dim d) as [->|NE].
        + apply (ksum_ext zero add). intros k _. apply (ksum_ext zero add). intros sp _. rewrite PK by lia.
          now rewrite Z.eqb_refl.
        + apply (ksum_zero _ _ _ _ _ _ Rth). intros k _. apply (ksum_zero _ _ _ _ _ _ Rth). intros sp _.
          rewrite PK by lia. destruct (Z.eqb_spec dim d); [contradiction|reflexivity].
      - change (zrange 0 2) with [0; 1; 2]. cbn [map VnlOp.ksum].
        assert (d = 0 \/ d = 1 \/ d = 2) as [D0|[D0|D0]] by lia; rewrite D0; cbn [Z.eqb Pos.eqb]; ring. }
    unfold atom_force, orbs. fold g.
    rewrite (ksum_flat_map _ _ _ _ _ _ Rth), <- ksum_opp. apply (ksum_ext zero add). intros k Hk.
    rewrite (ksum_flat_map _ _ _ _ _ _ Rth), <- ksum_opp. apply (ksum_ext zero add). intros sp Hsp.
    apply in_zrange in Hk, Hsp. rewrite map_map. cbn [o_wt o_occ o_w o_psi o_d]. unfold G. f_equal.
    unfold aval. rewrite <- (ksum_mul_l _ _ _ _ _ _ Rth). apply (ksum_ext zero add). intros n Hn. apply in_zrange in Hn.
    assert (BV : bval zero add mul gamma re al (sh d) (st_typ st) (st_psp st)
        (place g B (0, k, sp) + off ats ps st * g_ncol g + n * nproj (st_psp st)) =
      form zero add mul chi gamma dV cj c pos All grid re (kp_b (kpn zero g k)) st (gd_psi x k sp n) (gd_d x d k sp n)).
    { unfold bval, form.
      rewrite <- (sum_cols zero add gamma ps Hgam (st_psp st) _ (site_psp _ _ _ HO Hst)). apply (ksum_ext zero add). intros p Hp.
      apply in_zrange in Hp.
      replace (place g B (0, k, sp) + off ats ps st * g_ncol g + n * nproj (st_psp st) + p)
        with (place g B (0, k, sp) + slot ats ps (g_ncol g) st n p) by (unfold slot; ring).
      replace (place g B (0, k, sp) + slot ats ps (g_ncol g) st n p + sh d)
        with (place g B (d + 1, k, sp) + slot ats ps (g_ncol g) st n p) by (unfold place, sh; fold B; ring).
      rewrite !Hal by (try apply in_calls; try assumption; fold g; lia).
      unfold whole. rewrite Z.eqb_refl. destruct (Z.eqb_spec (d + 1) 0); [lia|].
      replace (d + 1 - 1) with d by lia. unfold gv, gamma_of. fold g.
      set (u := coef _ _ _ _ _ _ _ _ _ _ _ (gd_psi x k sp n)). set (v := coef _ _ _ _ _ _ _ _ _ _ _ (gd_d x d k sp n)).
      replace (dV * cj u * v)%k with (dV * (cj u * v))%k by ring. ring. }
    rewrite BV. ring.
Qed.

Lemma grp_force_ok (x : gdata K) : grp_ok cj spin_typ c pos ats grid x ->
  exists f, grp_force zero one add mul sub chi gamma dV occfac cj re gam spin_typ c ts (gd_g x) = Ok f /\
    sz f = 3 * natom ts /\
    forall st d, In st ss -> 0 <= d < 3 ->
      at_ f (st_atom st * 3 + d) =
      atom_force zero one add mul opp chi gamma dV occfac cj re c pos All grid (orbs zero x) st d.
Proof.
  intros HG. unfold grp_force. rewrite tot_ok. cbn [obind].
  destruct (grp_alpha x HG) as (als & E & S & V). rewrite E. cbn [obind].
  destruct (by_integrals_ok x (reduce zero add als) HG S V (Arr (3 * natom ts) (fun _ => zero)) eq_refl) as (f & E1 & S1 & V1).
  exists f. split; [exact E1|]. split; [exact S1|]. intros st d Hst Hd. rewrite V1 by assumption. cbn [at_]. ring.
Qed.
End RING.

(** ** Properties of the formula *)
Section FORMULA.
Context {K : Type} (zero one : K) (add mul sub : K -> K -> K) (opp : K -> K).
Context (Rth : ring_theory zero one add mul sub opp eq).
Add Ring KR6 : Rth.
Infix "+" := add : k_scope.
Infix "*" := mul : k_scope.
Delimit Scope k_scope with k.
Notation ksum := (ksum zero add).

Variable chi : nat -> Z * Z * Z -> Q * Q * Q -> K.
Variable gamma : nat -> list K.
Variables dV occfac : K.
Variables cj re : K -> K.
Variable c : cell.
Variable pos : list (Q * Q * Q).
Variable All : Z -> list tri.

Lemma coef_perm grid grid' w st cl f : Permutation grid grid' ->
  coef zero add mul chi c pos All grid w st cl f = coef zero add mul chi c pos All grid' w st cl f.
Proof. intros P. unfold coef. apply (ksum_perm _ _ _ _ _ _ Rth). now apply Permutation_map. Qed.

Lemma force_perm grid grid' os os' st d : Permutation grid grid' -> Permutation os os' ->
  atom_force zero one add mul opp chi gamma dV occfac cj re c pos All grid os st d =
  atom_force zero one add mul opp chi gamma dV occfac cj re c pos All grid' os' st d.
Proof.
  intros P Q. unfold atom_force. f_equal.
  rewrite <- (ksum_perm _ _ _ _ _ _ Rth _ _ (Permutation_map _ Q)). apply (ksum_ext zero add). intros o _. f_equal.
  unfold form. apply (ksum_ext zero add). intros cl _. now rewrite !(coef_perm grid grid' _ _ _ _ P).
Qed.

Variable grid : list tri.

Lemma coef_step w st cl (f h : tri -> K) t :
  coef zero add mul chi c pos All grid w st cl (fun nd => f nd + t * h nd)%k =
  (coef zero add mul chi c pos All grid w st cl f + t * coef zero add mul chi c pos All grid w st cl h)%k.
Proof.
  unfold coef. rewrite <- (ksum_mul_l _ _ _ _ _ _ Rth), <- (ksum_add _ _ _ _ _ _ Rth).
  apply (ksum_ext zero add). intros nd _. ring.
Qed.

Lemma step_energy : ((forall x y, cj (x + y)%k = (cj x + cj y)%k) /\ (forall x y, cj (x * y)%k = (cj x * cj y)%k) /\
    cj zero = zero) -> (forall z, cj (cj z) = z) -> cj dV = dV ->
  (forall z, (re z + re z)%k = (z + cj z)%k) ->
  forall os st d t, cj t = t ->
  atom_energy zero add mul chi gamma dV occfac cj c pos All grid (fun o nd => o_psi o nd + t * o_d o d nd)%k os st =
  (sub (atom_energy zero add mul chi gamma dV occfac cj c pos All grid o_psi os st)
    (t * atom_force zero one add mul opp chi gamma dV occfac cj re c pos All grid os st d) +
   t * t * atom_energy zero add mul chi gamma dV occfac cj c pos All grid (fun o => o_d o d) os st)%k.
Proof.
  intros (J1 & J2 & J3) J4 JV HR os st d t Ht. unfold atom_energy, atom_force.
  assert (FS : forall w (f h : tri -> K),
    form zero add mul chi gamma dV cj c pos All grid (fun z => z) w st (fun nd => f nd + t * h nd)%k (fun nd => f nd + t * h nd)%k =
    (form zero add mul chi gamma dV cj c pos All grid (fun z => z) w st f f +
     t * ((one + one) * form zero add mul chi gamma dV cj c pos All grid re w st f h) +
     t * t * form zero add mul chi gamma dV cj c pos All grid (fun z => z) w st h h)%k).
  { intros w f h. unfold form. rewrite <- !(ksum_mul_l _ _ _ _ _ _ Rth), <- !(ksum_add _ _ _ _ _ _ Rth).
    apply (ksum_ext zero add). intros cl _. rewrite !coef_step.
    set (u := coef _ _ _ _ _ _ _ _ _ _ _ f). set (v := coef _ _ _ _ _ _ _ _ _ _ _ h).
    set (gm := gamma_of _ _ _ _). rewrite J1, J2, Ht.
    assert (R2 : ((one + one) * (gm * re (dV * (cj u * v))))%k = (gm * (dV * (cj u * v) + dV * (u * cj v)))%k).
    { transitivity (gm * (re (dV * (cj u * v)) + re (dV * (cj u * v))))%k; [ring|].
      rewrite HR, !J2, JV, J4. reflexivity. }
    rewrite R2. ring. }
  induction os as [|o os IH]; cbn [map VnlOp.ksum]; [ring|]. rewrite IH, FS. ring.
Qed.

Lemma energy_expect ss os : ((forall x y, cj (x + y)%k = (cj x + cj y)%k) /\ (forall x y, cj (x * y)%k = (cj x * cj y)%k) /\
    cj zero = zero) -> (forall ty cl v, cj (chi ty cl v) = chi ty cl v) ->
  ksum (map (atom_energy zero add mul chi gamma dV occfac cj c pos All grid o_psi os) ss) =
  ksum (map (fun o => (occfac * o_wt o * o_occ o *
    ksum (map (fun nd => cj (o_psi o nd) *
      Vnl_spec zero add mul chi gamma dV c pos All (o_w o) (fun r => cj (o_w o r)) grid ss (o_psi o) nd) grid))%k) os).
Proof.
  intros (J1 & J2 & J3) JC. unfold atom_energy. rewrite (ksum_swap _ _ _ _ _ _ Rth).
  apply (ksum_ext zero add). intros o _. rewrite (ksum_mul_l _ _ _ _ _ _ Rth). f_equal.
  unfold Vnl_spec.
  transitivity (ksum (map (fun nd => ksum (map (fun st => (cj (o_psi o nd) * ksum (map (fun cl =>
      (gamma_of zero gamma st cl * (projector zero add mul chi c pos All (fun r => cj (o_w o r)) st cl nd *
        overlap zero add mul chi dV c pos All (o_w o) grid (o_psi o) st cl)))%k (cols (st_psp st))))%k) ss)) grid)).
  2:{ apply (ksum_ext zero add). intros nd _. apply (ksum_mul_l _ _ _ _ _ _ Rth). }
  rewrite (ksum_swap _ _ _ _ _ _ Rth). apply (ksum_ext zero add). intros st _. unfold form.
  transitivity (ksum (map (fun nd => ksum (map (fun cl => (cj (o_psi o nd) *
      (gamma_of zero gamma st cl * (projector zero add mul chi c pos All (fun r => cj (o_w o r)) st cl nd *
        overlap zero add mul chi dV c pos All (o_w o) grid (o_psi o) st cl)))%k) (cols (st_psp st)))) grid)).
  2:{ apply (ksum_ext zero add). intros nd _. apply (ksum_mul_l _ _ _ _ _ _ Rth). }
  rewrite (ksum_swap _ _ _ _ _ _ Rth). apply (ksum_ext zero add). intros cl _.
  assert (OV : overlap zero add mul chi dV c pos All (o_w o) grid (o_psi o) st cl =
    (dV * coef zero add mul chi c pos All grid (o_w o) st cl (o_psi o))%k).
  { unfold overlap, coef. rewrite <- (ksum_mul_l _ _ _ _ _ _ Rth). apply (ksum_ext zero add). intros nd _. ring. }
  assert (CJ : cj (coef zero add mul chi c pos All grid (o_w o) st cl (o_psi o)) =
    ksum (map (fun nd => (projector zero add mul chi c pos All (fun r => cj (o_w o r)) st cl nd * cj (o_psi o nd))%k) grid)).
  { unfold coef. rewrite (cj_ksum zero add cj J1 J3). apply (ksum_ext zero add). intros nd _. rewrite J2. f_equal.
    unfold projector. rewrite (cj_ksum zero add cj J1 J3). apply (ksum_ext zero add). intros im _. now rewrite J2, JC. }
  rewrite OV, CJ. set (u := coef _ _ _ _ _ _ _ _ _ _ _ _).
  transitivity ((gamma_of zero gamma st cl * dV * u) * ksum (map (fun nd =>
    (projector zero add mul chi c pos All (fun r => cj (o_w o r)) st cl nd * cj (o_psi o nd))%k) grid))%k; [ring|].
  rewrite <- (ksum_mul_l _ _ _ _ _ _ Rth). apply (ksum_ext zero add). intros nd _. ring.
Qed.
End FORMULA.
