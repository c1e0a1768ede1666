(** The model of the nonlocal forces (NlocForce.v) computes the formula of
    NlocForceSpec.v. *)
From Coq Require Import ZArith QArith List Lia Bool Permutation Ring.
From Verif Require Import CBase Nloc NlocSpec NlocLem P_Nloc VnlOp VnlLem VnlSpec VnlMain NlocForce NlocForceSpec.
Import ListNotations.
Local Open Scope Z_scope.

Section RING.
Context {K : Type} (zero one : K) (add mul sub : K -> K -> K) (opp : K -> K).
Context (Rth : ring_theory zero one add mul sub opp eq).
Add Ring KR3 : Rth.

Declare Scope k_scope.
Infix "+" := add : k_scope.
Infix "*" := mul : k_scope.
Delimit Scope k_scope with k.
Notation ksum := (ksum zero add).
Notation sel := (sel zero).

(** ** Sums with a counter *)
Fixpoint csum {A} (F : Z -> A -> K) (cnt : Z) (l : list A) : K :=
  match l with [] => zero | x :: l' => (F cnt x + csum F (cnt + 1)%Z l')%k end.

Lemma csum_app {A} (F : Z -> A -> K) l : forall cnt m,
  csum F cnt (l ++ m) = (csum F cnt l + csum F (cnt + Z.of_nat (length l))%Z m)%k.
Proof.
  induction l as [|x l IH]; intros cnt m; cbn [app csum length].
  - rewrite Z.add_0_r. ring.
  - rewrite IH. replace (cnt + 1 + Z.of_nat (length l))%Z with (cnt + Z.of_nat (S (length l)))%Z by lia. ring.
Qed.

Lemma csum_ext {A} (F G : Z -> A -> K) l : forall cnt,
  (forall i x, cnt <= i < cnt + Z.of_nat (length l) -> In x l -> F i x = G i x) -> csum F cnt l = csum G cnt l.
Proof.
  induction l as [|x l IH]; intros cnt H; cbn [csum]; [reflexivity|]. cbn [length] in H.
  rewrite (H cnt x) by (try lia; now left). f_equal. apply IH. intros i y Hi Hy. apply H; [lia|now right].
Qed.

Lemma csum_map {A B} (F : Z -> B -> K) (h : A -> B) l : forall cnt,
  csum F cnt (map h l) = csum (fun i x => F i (h x)) cnt l.
Proof. induction l as [|x l IH]; intros cnt; cbn [map csum]; [reflexivity|]. now rewrite IH. Qed.

Lemma csum_mul {A} (F : Z -> A -> K) g l : forall cnt,
  csum (fun i x => (F i x * g)%k) cnt l = (csum F cnt l * g)%k.
Proof. induction l as [|x l IH]; intros cnt; cbn [csum]; [ring|]. rewrite IH. ring. Qed.

Lemma csum_seq {A} (F : Z -> A -> K) (d : A) l : forall cnt,
  csum F cnt l = ksum (map (fun p => F (cnt + p)%Z (nth (Z.to_nat p) l d)) (zseq 0 (length l))).
Proof.
  assert (G : forall l cnt a, 0 <= a -> csum F cnt l =
    ksum (map (fun p => F (cnt + (p - a))%Z (nth (Z.to_nat (p - a)) l d)) (zseq a (length l)))).
  { clear l. induction l as [|x l IH]; intros cnt a Ha; cbn [csum length zseq map VnlOp.ksum]; [reflexivity|].
    rewrite Z.sub_diag, Z.add_0_r. cbn [Z.to_nat nth]. f_equal. rewrite (IH (cnt + 1) (a + 1)) by lia.
    apply f_equal. apply map_ext_in. intros p Hp. apply in_zseq in Hp.
    replace (Z.to_nat (p - a)) with (S (Z.to_nat (p - (a + 1)))) by lia. cbn [nth].
    f_equal. lia. }
  intros cnt. rewrite (G l cnt 0) by lia. apply f_equal. apply map_ext. intros p. now rewrite Z.sub_0_r.
Qed.

(** ** One band *)
Section BAND.
Variable gamma : nat -> list K.
Variable re : K -> K.
Variable al : arr K.
Variable sh : Z.
Hypothesis Hsh : 0 <= sh.

Definition gv (ty : nat) (cl : Z * Z * Z) : K := nth (Z.to_nat (snd (fst cl))) (gamma ty) zero.

Lemma chan_m (ms : list Z) : forall v cnt, 0 <= cnt -> cnt + Z.of_nat (length ms) + sh <= sz al ->
  ofold (fun vs (_ : Z) =>
            do a <- rd al (snd vs) ;
            do b <- rd al (snd vs + sh) ;
            Ok (add (fst vs) (mul a b), snd vs + 1)) (v, cnt) ms =
  Ok ((v + csum (fun i (_ : Z) => (at_ al i * at_ al (i + sh)%Z)%k) cnt ms)%k, cnt + Z.of_nat (length ms)).
Proof.
  induction ms as [|m ms IH]; intros v cnt H0 H; cbn [ofold csum length].
  - f_equal. f_equal; [ring|lia].
  - cbn [length] in H. cbn [fst snd]. rewrite !rd_ok by lia. cbn [obind]. rewrite IH by lia.
    f_equal. f_equal; [ring|lia].
Qed.

Lemma chan_np ty l disp (nps : list Z) : 0 <= l ->
  (forall np, In np nps -> 0 <= disp + np < Z.of_nat (length (gamma ty))) ->
  forall v cnt, 0 <= cnt -> cnt + Z.of_nat (length nps) * (2 * l + 1) + sh <= sz al ->
  ofold (fun st np =>
        do v <- ofold (fun vs (_ : Z) =>
            do a <- rd al (snd vs) ;
            do b <- rd al (snd vs + sh) ;
            Ok (add (fst vs) (mul a b), snd vs + 1)) (zero, snd st) (zrange (- l) l) ;
        do g <- ld (gamma ty) (disp + np) ;
        Ok (add (fst st) (mul (fst v) g), snd v)) (v, cnt) nps =
  Ok ((v + csum (fun i cl => (at_ al i * at_ al (i + sh)%Z * gv ty cl)%k) cnt
        (flat_map (fun np => map (fun m => (l, (disp + np)%Z, m)) (zrange (- l) l)) nps))%k,
      cnt + Z.of_nat (length nps) * (2 * l + 1)).
Proof.
  intros Hl. induction nps as [|np nps IH]; intros HG v cnt H0 H; cbn [ofold flat_map csum length].
  - f_equal. f_equal; [ring|lia].
  - cbn [length] in H. cbn [fst snd].
    assert (LM : Z.of_nat (length (zrange (- l) l)) = 2 * l + 1) by (rewrite zrange_len by lia; lia).
    rewrite chan_m by (rewrite ?LM; nia). rewrite LM.
    assert (EG : ld (gamma ty) (disp + np) = Ok (nth (Z.to_nat (disp + np)) (gamma ty) zero)).
    { pose proof (HG np (or_introl eq_refl)). apply ld_ok; [lia|]. apply nth_error_nth'. lia. }
    cbn [obind fst snd]. rewrite EG. cbn [obind]. rewrite IH.
    + f_equal. f_equal; [|nia]. rewrite csum_app, csum_map, map_length, LM.
      rewrite (csum_mul (fun i (_ : Z) => (at_ al i * at_ al (i + sh)%Z)%k)
                 (nth (Z.to_nat (disp + np)) (gamma ty) zero)). ring.
    + intros q Hq. apply HG. now right.
    + lia.
    + nia.
Qed.

Lemma chan_ok ty loc : forall ppl l disp v cnt, 0 <= l -> 0 <= disp -> List.Forall (fun n => 0 <= n) ppl ->
  disp + zsum ppl <= Z.of_nat (length (gamma ty)) ->
  0 <= cnt -> cnt + nproj_from l loc ppl + sh <= sz al ->
  chan zero add mul gamma ty al sh l disp loc ppl (v, cnt) =
  Ok ((v + csum (fun i cl => (at_ al i * at_ al (i + sh)%Z * gv ty cl)%k) cnt (cols_from l disp loc ppl))%k,
      cnt + nproj_from l loc ppl).
Proof.
  induction ppl as [|n ppl IH]; intros l disp v cnt Hl Hd HF HG H0 H; cbn [chan cols_from nproj_from].
  - cbn. f_equal. f_equal; [ring|lia].
  - inversion HF as [|? ? Hn HF']; subst. cbn [nproj_from] in H.
    change (zsum (n :: ppl)) with (n + zsum ppl) in HG.
    assert (NP : 0 <= nproj_from (l + 1) loc ppl) by (apply nproj_nonneg; [lia|assumption]).
    assert (ZP : 0 <= zsum ppl) by (clear - HF'; induction HF' as [|? ? ? ? IH]; cbn; [lia|unfold zsum in IH; lia]).
    destruct (Z.eqb_spec l loc) as [EL|NL].
    + cbn [obind app]. rewrite IH by (auto; lia). f_equal.
    + assert (LN : Z.of_nat (length (zrange 0 (n - 1))) = n) by (rewrite zrange_len by lia; lia).
      rewrite chan_np; [|lia| |lia|rewrite LN; lia].
      2:{ intros np Hnp. apply in_zrange in Hnp. lia. }
      rewrite LN. cbn [obind]. rewrite IH by (auto; lia). f_equal. f_equal; [|lia].
      rewrite csum_app.
      assert (LC : Z.of_nat (length (flat_map (fun np => map (fun m => (l, disp + np, m)) (zrange (- l) l)) (zrange 0 (n - 1))))
        = n * (2 * l + 1)).
      { rewrite <- LN at 2. clear - Hl. induction (zrange 0 (n - 1)) as [|x r IH]; [reflexivity|].
        cbn [flat_map length]. rewrite app_length, map_length.
        assert (LM : Z.of_nat (length (zrange (- l) l)) = 2 * l + 1) by (rewrite zrange_len by lia; lia). nia. }
      rewrite LC. ring.
Qed.

Lemma chan_kpt_ok ty : forall cs v cnt,
  (forall l g m, In (l, g, m) cs -> 0 <= g < Z.of_nat (length (gamma ty))) ->
  0 <= cnt -> cnt + Z.of_nat (length cs) + sh <= sz al ->
  ofold (fun st cl =>
    let '(l, g, m) := cl in
    do gv <- ld (gamma ty) g ;
    do a <- rd al (snd st) ;
    do b <- rd al (snd st + sh) ;
    Ok (add (fst st) (mul gv (re (mul a b))), snd st + 1)) (v, cnt) cs =
  Ok ((v + csum (fun i cl => (re (at_ al i * at_ al (i + sh)%Z) * gv ty cl)%k) cnt cs)%k,
      cnt + Z.of_nat (length cs)).
Proof.
  induction cs as [|[[l g] m] cs IH]; intros v cnt HG H0 H; cbn [ofold csum length].
  - f_equal. f_equal; [ring|lia].
  - cbn [length] in H.
    assert (EG : ld (gamma ty) g = Ok (gv ty (l, g, m))).
    { pose proof (HG l g m (or_introl eq_refl)). apply ld_ok; [lia|]. apply nth_error_nth'. cbn [fst snd]. lia. }
    rewrite EG. cbn [obind fst snd]. rewrite !rd_ok by lia. cbn [obind]. rewrite IH.
    + f_equal. f_equal; [ring|lia].
    + intros l' g' m' H'. apply (HG l' g' m'). now right.
    + lia.
    + lia.
Qed.

(** [val2] of a band that starts at [cnt]. *)
Definition bval (ty : nat) (s : psp) (cnt : Z) : K :=
  ksum (map (fun p => (re (at_ al (cnt + p)%Z * at_ al (cnt + p + sh)%Z) * gv ty (col s p))%k)
    (zrange 0 (nproj s - 1))).

Lemma band_ok gam ty s cnt : (gam = true -> forall z, re z = z) -> psp_ok s -> gamma_ok gamma ty s ->
  0 <= cnt -> cnt + nproj s + sh <= sz al ->
  band zero add mul gamma re gam ty s al sh cnt = Ok (bval ty s cnt, cnt + nproj s).
Proof.
  intros Hre Hs HG H0 H. pose proof (cols_len s Hs) as CL.
  assert (E : bval ty s cnt = csum (fun i cl => (re (at_ al i * at_ al (i + sh)%Z) * gv ty cl)%k) cnt (cols s)).
  { rewrite (csum_seq _ (0, 0, 0)). unfold bval, zrange.
    replace (Z.to_nat (nproj s - 1 - 0 + 1)) with (length (cols s)) by lia. reflexivity. }
  unfold band. destruct gam.
  - rewrite chan_ok; [|lia|lia|exact Hs|exact HG|lia|exact H]. f_equal. f_equal.
    rewrite E. fold (cols s). rewrite (csum_ext (fun i cl => (re (at_ al i * at_ al (i + sh)%Z) * gv ty cl)%k) (fun i cl => (at_ al i * at_ al (i + sh)%Z * gv ty cl)%k)); [ring|].
    intros i x _ _. now rewrite Hre.
  - unfold chan_kpt. rewrite chan_kpt_ok; [|..|lia|lia].
    + rewrite CL, E. f_equal. f_equal. ring.
    + intros l g m Hin.
      pose proof (cols_gamma 0 0 (p_loc s) (p_ppl s) ltac:(lia) ltac:(lia) Hs) as CG. fold (cols s) in CG.
      rewrite List.Forall_forall in CG. specialize (CG _ Hin). cbn [fst snd] in CG. unfold gamma_ok in HG. lia.
Qed.
End BAND.

(** ** One atom, all atoms *)
Lemma count_loop (body : arr K * Z -> Z -> outcome (arr K * Z)) N B (G : Z -> Z -> K) c0 m : 0 <= m ->
  (forall x f, 0 <= x < m -> sz f = N -> exists f', body (f, c0 + x * B) x = Ok (f', c0 + (x + 1) * B) /\
     sz f' = N /\ forall i, at_ f' i = (at_ f i + G x i)%k) ->
  forall f, sz f = N -> exists f', ofold body (f, c0) (zrange 0 (m - 1)) = Ok (f', c0 + m * B) /\ sz f' = N /\
    forall i, at_ f' i = (at_ f i + ksum (map (fun x => G x i) (zrange 0 (m - 1))))%k.
Proof.
  intros Hm HB.
  assert (L : forall n a f, 0 <= a -> a + Z.of_nat n = m -> sz f = N ->
    exists f', ofold body (f, c0 + a * B) (zseq a n) = Ok (f', c0 + m * B) /\ sz f' = N /\
    forall i, at_ f' i = (at_ f i + ksum (map (fun x => G x i) (zseq a n)))%k).
  { induction n as [|n IH]; intros a f Ha E Hf; cbn [zseq ofold map VnlOp.ksum].
    - exists f. split; [f_equal; f_equal; lia|]. split; [exact Hf|]. intros i. ring.
    - destruct (HB a f) as (f1 & E1 & S1 & V1); [lia|exact Hf|]. rewrite E1. cbn [obind].
      destruct (IH (a + 1) f1) as (f2 & E2 & S2 & V2); [lia|lia|exact S1|].
      exists f2. split; [exact E2|]. split; [exact S2|]. intros i. rewrite V2, V1. ring. }
  intros f Hf. destruct (L (Z.to_nat (m - 1 - 0 + 1)) 0 f) as (f' & E & S & V); [lia|lia|exact Hf|].
  rewrite Z.mul_0_l, Z.add_0_r in E. exists f'. split; [exact E|]. split; [exact S|exact V].
Qed.

Section ATOMS.
Variable gamma : nat -> list K.
Variable re : K -> K.
Variable gam : bool.
Variable spin_typ : Z.
Variable g : grp K.
Variable al : arr K.
Variable sh : Z.
Variables k sp dim : Z.
Variable fac : K.
Variable oc : Z -> K.
Hypothesis Hsh : 0 <= sh.
Hypothesis Hre : gam = true -> forall z, re z = z.
Hypothesis Hnc : 0 <= g_ncol g.
Hypothesis Hoc : forall n, 0 <= n < g_ncol g -> g_nk spin_typ g k sp (g_start g + n) = Ok (oc n).
Hypothesis Hdim : 0 <= dim < 3.

Definition aval (ty : nat) (s : psp) (cnt : Z) : K :=
  ksum (map (fun n => (bval gamma re al sh ty s (cnt + n * nproj s)%Z * oc n)%k) (zrange 0 (g_ncol g - 1))).

Lemma atom_ok ty s cnt : psp_ok s -> gamma_ok gamma ty s -> 0 <= cnt ->
  cnt + g_ncol g * nproj s + sh <= sz al ->
  atom_val zero add mul gamma re gam spin_typ g k sp ty s al sh cnt =
  Ok (aval ty s cnt, cnt + g_ncol g * nproj s).
Proof.
  intros Hs HG H0 H. pose proof (nproj_pos s Hs) as NP. unfold atom_val, aval.
  assert (L : forall m a v, 0 <= a -> a + Z.of_nat m = g_ncol g ->
    ofold (fun st n =>
      do o <- g_nk spin_typ g k sp n ;
      do v <- band zero add mul gamma re gam ty s al sh (snd st) ;
      Ok (add (fst st) (mul (fst v) o), snd v)) (v, cnt + a * nproj s) (zseq (g_start g + a) m) =
    Ok ((v + ksum (map (fun n => (bval gamma re al sh ty s (cnt + n * nproj s)%Z * oc n)%k) (zseq a m)))%k,
        cnt + g_ncol g * nproj s)).
  { induction m as [|m IH]; intros a v Ha E; cbn [zseq ofold map VnlOp.ksum].
    - f_equal. f_equal; [ring|nia].
    - rewrite (Hoc a) by lia. cbn [obind fst snd].
      rewrite band_ok by (auto; nia). cbn [obind fst snd].
      replace (cnt + a * nproj s + nproj s) with (cnt + (a + 1) * nproj s) by ring.
      rewrite <- Z.add_assoc, IH by lia. f_equal. f_equal. ring. }
  specialize (L (Z.to_nat (g_start g + g_ncol g - 1 - g_start g + 1)) 0 zero ltac:(lia) ltac:(lia)).
  rewrite Z.mul_0_l, !Z.add_0_r in L. unfold zrange at 1. rewrite L. f_equal. f_equal.
  unfold zrange. replace (g_start g + g_ncol g - 1 - g_start g + 1) with (g_ncol g - 1 - 0 + 1) by lia. ring.
Qed.

(** Offset of an atom's block relative to the first one of the list. *)
Definition offr (ty : nat) (a : Z) (ats : list atyp) (ps : list psp) (st : site) : Z :=
  base (tys ats ps) (st_typ st - ty) +
  (st_atom st - a - first_atom ats (st_typ st - ty)) * nproj (st_psp st).

Lemma types_ok N : forall ats ps ty a cnt f, inst_ok ats ps ->
  (forall j s, nth_error ps j = Some s -> gamma_ok gamma (ty + j) s) ->
  0 <= a -> (a + zsum (map t_n ats)) * 3 <= N -> 0 <= cnt -> cnt + total (tys ats ps) * g_ncol g + sh <= sz al ->
  sz f = N ->
  exists f', types zero add mul sub gamma re gam spin_typ g k sp dim fac al sh ty (tys ats ps) (f, a, cnt) =
      Ok (f', a + zsum (map t_n ats), cnt + total (tys ats ps) * g_ncol g) /\ sz f' = N /\
    forall i, at_ f' i = (at_ f i + ksum (map (fun st =>
      sel i (st_atom st * 3 + dim)%Z
        (opp (fac * aval (st_typ st) (st_psp st) (cnt + offr ty a ats ps st * g_ncol g)%Z))) (sites ty a ats ps)))%k.
Proof.
  induction ats as [|t ats IH]; intros ps ty a cnt f [HL HN HP] HG Ha HA H0 H Hf.
  - destruct ps; [|discriminate HL]. cbn. exists f. split; [f_equal; f_equal; [f_equal|]; lia|].
    split; [exact Hf|]. intros i. ring.
  - destruct ps as [|s ps]; [discriminate HL|]. assert (Ht : 0 <= t_n t) by (inversion HN; assumption).
    assert (HN' : List.Forall (fun t => 0 <= t_n t) ats) by (inversion HN; assumption).
    assert (Hs : psp_ok s) by (inversion HP; assumption).
    assert (HP' : List.Forall psp_ok ps) by (inversion HP; assumption).
    assert (HO' : inst_ok ats ps) by (constructor; [cbn in HL; lia|assumption|assumption]).
    pose proof (nproj_pos s Hs) as NP.
    assert (TN : 0 <= total (tys ats ps)).
    { pose proof (tys_ok _ _ HO') as HT. clear - HT. unfold total. induction HT as [|[x b] ts [Hx Hb] _ IH]; cbn; [lia|].
      cbn [fst snd] in *. pose proof (nproj_pos b Hb). unfold zsum in IH. nia. }
    change (tys (t :: ats) (s :: ps)) with ((t_n t, s) :: tys ats ps) in *.
    change (total ((t_n t, s) :: tys ats ps)) with (t_n t * nproj s + total (tys ats ps)) in *.
    change (zsum (map t_n (t :: ats))) with (t_n t + zsum (map t_n ats)) in *.
    assert (ZN : 0 <= zsum (map t_n ats)).
    { clear - HN'. induction HN' as [|x l Hx _ IH]; cbn; [lia|]. unfold zsum in IH. lia. }
    assert (HGs : gamma_ok gamma ty s) by (rewrite <- (Nat.add_0_r ty); now apply HG).
    cbn [types sites].
    assert (AT : forall m j f, 0 <= j -> j + Z.of_nat m = t_n t -> sz f = N ->
      exists f', ofold (fun st (_ : Z) =>
        let '(f, ai, cnt) := st in
        do v <- atom_val zero add mul gamma re gam spin_typ g k sp ty s al sh cnt ;
        do o <- rd f (ai * 3 + dim) ;
        do f' <- wr f (ai * 3 + dim) (sub o (mul fac (fst v))) ;
        Ok (f', ai + 1, snd v)) (f, a + j, cnt + j * (g_ncol g * nproj s)) (zseq j m) =
        Ok (f', a + t_n t, cnt + t_n t * (g_ncol g * nproj s)) /\ sz f' = N /\
      forall i, at_ f' i = (at_ f i + ksum (map (fun j => sel i ((a + j) * 3 + dim)%Z
        (opp (fac * aval ty s (cnt + j * (g_ncol g * nproj s))%Z))) (zseq j m)))%k).
    { clear f Hf. induction m as [|m IHm]; intros j f Hj E Hf; cbn [zseq ofold map VnlOp.ksum].
      - exists f. split; [f_equal; f_equal; [f_equal; lia|nia]|]. split; [exact Hf|]. intros i. ring.
      - assert (NN : 0 <= g_ncol g * nproj s) by nia.
        assert (0 <= total (tys ats ps) * g_ncol g) by nia.
        rewrite atom_ok; [|assumption|assumption|nia|nia].
        cbn [obind fst snd]. rewrite rd_ok by lia. cbn [obind]. rewrite wr_ok by lia. cbn [obind].
        replace (a + j + 1) with (a + (j + 1)) by lia.
        replace (cnt + j * (g_ncol g * nproj s) + g_ncol g * nproj s)
          with (cnt + (j + 1) * (g_ncol g * nproj s)) by ring.
        set (f1 := Arr _ _). destruct (IHm (j + 1) f1) as (f2 & E2 & S2 & V2); [lia|lia|exact Hf|].
        exists f2. split; [exact E2|]. split; [exact S2|]. intros i. rewrite V2. unfold f1. cbn [at_].
        destruct (Z.eqb_spec i ((a + j) * 3 + dim)) as [->|NE]; [rewrite (sel_same zero)|rewrite (sel_diff zero) by exact NE]; ring. }
    destruct (AT (Z.to_nat (t_n t - 1 - 0 + 1)) 0 f) as (f1 & E1 & S1 & V1); [lia|lia|exact Hf|].
    rewrite Z.mul_0_l, !Z.add_0_r in E1. unfold zrange. rewrite E1. cbn [obind].
    destruct (IH ps (S ty) (a + t_n t) (cnt + t_n t * (g_ncol g * nproj s)) f1) as (f2 & E2 & S2 & V2); auto.
    + intros j s' Ej. replace (S ty + j)%nat with (ty + S j)%nat by lia. now apply HG.
    + lia.
    + lia.
    + nia.
    + nia.
    + exists f2. split; [rewrite E2; f_equal; f_equal; [f_equal; lia|nia]|]. split; [exact S2|].
      intros i. rewrite V2, V1, map_app, (ksum_app _ _ _ _ _ _ Rth).
      replace (Z.to_nat (t_n t - 1 - 0 + 1)) with (Z.to_nat (t_n t)) by lia.
      assert (P1 : map (fun j => sel i ((a + j) * 3 + dim)%Z
          (opp (fac * aval ty s (cnt + j * (g_ncol g * nproj s))%Z))%k) (zseq 0 (Z.to_nat (t_n t))) =
        map (fun st => sel i (st_atom st * 3 + dim)%Z
          (opp (fac * aval (st_typ st) (st_psp st) (cnt + offr ty a (t :: ats) (s :: ps) st * g_ncol g)%Z))%k)
          (map (fun j => Site ty s (max_rc t) j) (zseq a (Z.to_nat (t_n t))))).
      { rewrite map_map.
        assert (ZS : forall n b, zseq (a + b) n = map (fun j => (a + j)%Z) (zseq b n)).
        { induction n as [|n IHn]; intros b; cbn [zseq map]; [reflexivity|]. f_equal.
          rewrite <- IHn. f_equal. lia. }
        replace (zseq a (Z.to_nat (t_n t))) with (map (fun j => (a + j)%Z) (zseq 0 (Z.to_nat (t_n t))))
          by (rewrite <- ZS; f_equal; lia). rewrite map_map. apply map_ext. intros j. cbn [st_atom st_typ st_psp].
        do 4 f_equal. unfold offr. cbn [st_atom st_typ st_psp]. rewrite Nat.sub_diag.
        unfold base, first_atom. cbn [firstn map zsum fold_right]. f_equal. ring. }
      rewrite P1.
      assert (P2 : map (fun st => sel i (st_atom st * 3 + dim)%Z (opp (fac * aval (st_typ st) (st_psp st)
            (cnt + t_n t * (g_ncol g * nproj s) + offr (S ty) (a + t_n t) ats ps st * g_ncol g)%Z))%k)
          (sites (S ty) (a + t_n t) ats ps) =
        map (fun st => sel i (st_atom st * 3 + dim)%Z
          (opp (fac * aval (st_typ st) (st_psp st) (cnt + offr ty a (t :: ats) (s :: ps) st * g_ncol g)%Z))%k)
          (sites (S ty) (a + t_n t) ats ps)).
      { apply map_ext_in. intros st Hst. do 4 f_equal.
        apply in_sites in Hst. destruct Hst as (j & t' & s' & _ & _ & C0 & _). unfold offr. rewrite C0.
        replace (S ty + j - ty)%nat with (S j) by lia. replace (S ty + j - S ty)%nat with j by lia.
        change (tys (t :: ats) (s :: ps)) with ((t_n t, s) :: tys ats ps).
        change (base ((t_n t, s) :: tys ats ps) (S j)) with (t_n t * nproj s + base (tys ats ps) j).
        change (first_atom (t :: ats) (S j)) with (t_n t + first_atom ats j). ring. }
      rewrite P2. ring.
Qed.
End ATOMS.
End RING.
