(** C74: the DFT+U operator and the occupation matrix. *)
From Coq Require Import ZArith QArith Qround List Lia Bool Permutation Ring.
From Verif Require Import CBase Nloc NlocSpec NlocLem VnlOp VnlLem VnlMain HubInit HubInitSpec HubInitLem P_HubInit Hub HubSpec HubLem HubMain.
Import ListNotations.
Local Open Scope Z_scope.

Section RING.
Context {K : Type} (zero one : K) (add mul sub : K -> K -> K) (opp : K -> K).
Context (Rth : ring_theory zero one add mul sub opp eq).
Add Ring KRp : Rth.
Declare Scope kp_scope.
Infix "+" := add : kp_scope.
Infix "*" := mul : kp_scope.
Delimit Scope kp_scope with k.
Notation ksum := (ksum zero add).
Notation isum := (isum zero add).
Notation otype := (otype (K:=K)).
Notation row := (row (K:=K)).
Notation orbital := (orbital zero add mul).
Notation proj := (proj zero add mul).
Notation vmat := (vmat zero mul sub).

Lemma allreduce_at (l : list (arr K)) a i : In a l ->
  at_ (allreduce zero add l a) i = ksum (map (fun b => at_ b i) l) /\ sz (allreduce zero add l a) = sz a.
Proof.
  intros H. unfold allreduce. destruct (Z.ltb_spec 1 (Z.of_nat (length l))) as [L|L]; [split; reflexivity|].
  destruct l as [|b [|b' l]]; [destruct H| |cbn [length] in L; lia].
  destruct H as [->|[]]. cbn [map VnlOp.ksum]. split; [ring|reflexivity].
Qed.

(** A process with [nd] nodes: its lists are well formed and its arrays hold
    [ncol] columns. *)
Definition proc_ok (ts : list otype) (ncol : Z) (p : hproc (K:=K) * Z) : Prop :=
  Forall (image_ok ts (snd p)) (images ts (hp_rows (fst p))) /\
  snd p <= hp_ldi (fst p) /\ ncol * hp_ldi (fst p) <= sz (hp_x (fst p)) /\
  snd p <= hp_ldo (fst p) /\ ncol * hp_ldo (fst p) <= sz (hp_h (fst p)).

(** Column [n] of the vectors on all processes. *)
Definition column (pz : list (hproc (K:=K) * Z)) (n : Z) : list (list (list row) * Z * (Z -> K)) :=
  map (fun p => (hp_rows (fst p), snd p, fun g => at_ (hp_x (fst p)) (n * hp_ldi (fst p) + g))) pz.

Variables (ph1 ph2 : entry -> K) (dV half : K).

(** What is added at node [g] of a process: the sum over the corrected atoms and
    their orbitals r of |r> sum_c V_rc <c|x>. *)
Definition hub_term (ts : list otype) (rho : Z -> arr K) (D : list (list (list row) * Z * (Z -> K)))
    (L : list (list row)) (g : Z) : K :=
  ksum (map (fun tJ => isum 0 (o_np (fst tJ)) (fun r =>
    mul (orbital ph2 (images ts L) (snd tJ) r g)
        (isum 0 (o_np (fst tJ)) (fun c => mul (vmat half (fst tJ) (rho (snd tJ)) r c) (proj ph1 dV ts D (snd tJ) c)))))
    (catoms 0 ts)).

(** The operator: no access outside an array, every process adds
    sum |r> V_rc <c|x> at its nodes with the inner products over the nodes of all
    processes, and changes nothing else. *)
Theorem C74_operator : forall ts ncol rho (pz : list (hproc (K:=K) * Z)),
  types_ok ts -> 0 <= ncol -> Forall (proc_ok ts ncol) pz ->
  (forall t J, In (t, J) (catoms 0 ts) -> o_np t * o_np t <= sz (rho J) /\ o_np t <= sz (o_uval t)) ->
  exists hs, Vhub_all zero add mul sub ph1 ph2 dV half ts ncol rho (map fst pz) = Ok hs /\
    Forall2 (fun p h' => sz h' = sz (hp_h (fst p)) /\
      (forall n g, 0 <= n < ncol -> 0 <= g < snd p ->
         at_ h' (n * hp_ldo (fst p) + g) = (at_ (hp_h (fst p)) (n * hp_ldo (fst p) + g)%Z
            + hub_term ts rho (column pz n) (hp_rows (fst p)) g)%k) /\
      (forall i, (forall n g, 0 <= n < ncol -> 0 <= g < snd p -> i <> n * hp_ldo (fst p) + g) ->
         at_ h' i = at_ (hp_h (fst p)) i)) pz hs.
Proof.
  intros ts ncol rho pz (TOK & EX) NC PO HR.
  destruct (lay_ok o_np ts TOK EX) as (ipd & tot & E1 & E2 & LAY).
  unfold Vhub_all, ip_displU. unfold trip in E1. rewrite E1. cbn [obind].
  assert (A1 : exists als, omap (fun pr => hphase1 zero add mul ph1 dV ts ipd ncol (hp_ldi pr) (hp_rows pr) (hp_x pr)) (map fst pz) = Ok als /\
    Forall2 (fun p al => sz al = tot * ncol /\ forall t J n q, In (t, J) (catoms 0 ts) -> 0 <= n < ncol -> 0 <= q < o_np t ->
      at_ al (slot ipd ncol t J n q) = mul dV (isum 0 (snd p) (fun g => orbital ph1 (images ts (hp_rows (fst p))) J q g *
        at_ (hp_x (fst p)) (n * hp_ldi (fst p) + g)%Z)%k)) pz als).
  { clear HR. induction PO as [|p pz (P1 & P2 & P3 & _) PO IH]; cbn [map omap].
    - exists []. split; [reflexivity|constructor].
    - unfold hphase1 at 1. rewrite E2. cbn [obind].
      destruct (ip_ok _ _ _ _ _ _ Rth ts ipd tot TOK LAY ph1 dV ncol NC (hp_rows (fst p)) (hp_x (fst p)) (hp_ldi (fst p)) (snd p) P1 P2 P3)
        as (al & Ea & Sa & Va).
      rewrite Ea. cbn [obind]. destruct IH as (als & El & Fl). rewrite El. cbn [obind].
      exists (al :: als). split; [reflexivity|]. constructor; [split; assumption|exact Fl]. }
  destruct A1 as (als & E3 & F3). rewrite E3. cbn [obind].
  assert (SUM : forall t J n q, In (t, J) (catoms 0 ts) -> 0 <= n < ncol -> 0 <= q < o_np t ->
    ksum (map (fun b => at_ b (slot ipd ncol t J n q)) als) = proj ph1 dV ts (column pz n) J q).
  { intros t J n q HJ Hn Hq. unfold HubSpec.proj, column. rewrite map_map. rewrite <- (ksum_mul_l _ _ _ _ _ _ Rth).
    symmetry. apply (ksum_Forall2 _ _ _ _ _ _ _ F3). intros p al _ _ (_ & V). symmetry. exact (V t J n q HJ Hn Hq). }
  assert (G : forall pz' als', Forall (proc_ok ts ncol) pz' ->
    Forall2 (fun (p : hproc * Z) (al : arr K) => In al als /\ sz al = tot * ncol) pz' als' ->
    exists hs, omap (fun pa : hproc * arr K =>
       do be <- hphase2 zero add mul sub half ts ipd ncol rho (allreduce zero add als (snd pa)) ;
       hphase3 zero add mul ph2 ts ipd ncol (hp_ldo (fst pa)) (hp_rows (fst pa)) be (hp_h (fst pa))) (combine (map fst pz') als') = Ok hs /\
    Forall2 (fun p h' => sz h' = sz (hp_h (fst p)) /\
      (forall n g, 0 <= n < ncol -> 0 <= g < snd p ->
         at_ h' (n * hp_ldo (fst p) + g) = (at_ (hp_h (fst p)) (n * hp_ldo (fst p) + g)%Z
            + hub_term ts rho (column pz n) (hp_rows (fst p)) g)%k) /\
      (forall i, (forall n g, 0 <= n < ncol -> 0 <= g < snd p -> i <> n * hp_ldo (fst p) + g) ->
         at_ h' i = at_ (hp_h (fst p)) i)) pz' hs).
  { intros pz' als' PO' F. revert PO'. induction F as [|p al pz' als' (HI & Sa) F IH]; intros PO'; cbn [map combine omap].
    - exists []. split; [reflexivity|constructor].
    - inversion PO' as [|? ? (P1 & _ & _ & P4 & P5) PO'']; subst. cbn [fst snd].
      destruct (hphase2_ok zero add mul sub ts ipd tot TOK LAY ncol half rho (allreduce zero add als al)) as (be & Eb & Sb & Vb).
      { rewrite (proj2 (allreduce_at als al 0 HI)). exact Sa. }
      { exact HR. }
      rewrite Eb. cbn [obind].
      destruct (hphase3_ok _ _ _ _ _ _ Rth ts ipd tot TOK LAY ph2 ncol NC (hp_rows (fst p)) be (hp_h (fst p)) (hp_ldo (fst p)) (snd p) Sb P1 P4 P5)
        as (h' & Eh & Sh & Vh & Wh).
      rewrite Eh. cbn [obind]. destruct (IH PO'') as (hs & El & Fl). rewrite El. cbn [obind].
      exists (h' :: hs). split; [reflexivity|]. constructor; [|exact Fl].
      split; [exact Sh|]. split; [|exact Wh]. intros n g Hn Hg. rewrite (Vh n g Hn Hg). f_equal. unfold hub_term.
      apply ksum_ext. intros [t J] HJ. cbn [fst snd]. apply isum_ext. intros r Hr. f_equal.
      rewrite (Vb t J n r HJ Hn Hr). apply isum_ext. intros c Hc. f_equal.
      rewrite (proj1 (allreduce_at als al _ HI)). exact (SUM t J n c HJ Hn Hc). }
  apply G; [exact PO|]. clear - F3. 
  assert (Q : forall l, (forall al, In al als -> In al l) -> Forall2 (fun (_ : hproc * Z) al => In al l /\ sz al = tot * ncol) pz als).
  { induction F3 as [|p al pz als (S1 & _) F IH]; intros l HL; constructor.
    - split; [apply HL; now left|exact S1].
    - apply IH. intros a Ha. apply HL. now right. }
  apply Q. auto.
Qed.

(** The division of the grid among processes does not matter: if the orbitals
    and the vectors are functions F1, F2, X of the node, and the nodes of all
    processes together are the grid [gd], then the sum is one over the grid. *)
Theorem C74_division : forall ts rho (pz : list (hproc (K:=K) * Z)) (gl : hproc (K:=K) * Z -> Z -> Z) (gd : list Z)
    (f1 f2 : Z -> Z -> Z -> K) (X : Z -> K) n p g,
  Permutation (flat_map (fun p => map (gl p) (zrange 0 (snd p - 1))) pz) gd ->
  (forall p J q g, In p pz -> 0 <= g < snd p -> orbital ph1 (images ts (hp_rows (fst p))) J q g = f1 J q (gl p g)) ->
  (forall p J q g, In p pz -> 0 <= g < snd p -> orbital ph2 (images ts (hp_rows (fst p))) J q g = f2 J q (gl p g)) ->
  (forall p g, In p pz -> 0 <= g < snd p -> at_ (hp_x (fst p)) (n * hp_ldi (fst p) + g) = X (gl p g)) ->
  In p pz -> 0 <= g < snd p ->
  hub_term ts rho (column pz n) (hp_rows (fst p)) g =
  ksum (map (fun tJ => isum 0 (o_np (fst tJ)) (fun r => mul (f2 (snd tJ) r (gl p g))
    (isum 0 (o_np (fst tJ)) (fun c => mul (vmat half (fst tJ) (rho (snd tJ)) r c)
      (mul dV (ksum (map (fun v => mul (f1 (snd tJ) c v) (X v)) gd))))))) (catoms 0 ts)).
Proof.
  intros ts rho pz gl gd f1 f2 X n p g HP H1 H2 HX Ip Hg. unfold hub_term.
  apply ksum_ext. intros [t J] _. cbn [fst snd]. apply isum_ext. intros r _. rewrite (H2 p J r g Ip Hg). f_equal.
  apply isum_ext. intros c _. f_equal. unfold HubSpec.proj, column. f_equal. rewrite map_map.
  rewrite <- (ksum_perm _ _ _ _ _ _ Rth _ _ (Permutation_map (fun v => mul (f1 J c v) (X v)) HP)).
  rewrite (ksum_flat_map _ _ _ _ _ _ Rth). apply ksum_ext. intros p' Ip'. unfold HubSpec.isum. rewrite map_map.
  apply ksum_ext. intros g' Hg'. apply in_zrange in Hg'. rewrite (H1 p' J c g' Ip') by lia. f_equal.
  apply (HX p' g' Ip'). lia.
Qed.

(** ** The quadratic form *)
Variable cj : K -> K.
Hypothesis conj_add : forall a b, cj (a + b)%k = (cj a + cj b)%k.
Hypothesis conj_mul : forall a b, cj (a * b)%k = (cj a * cj b)%k.
Hypothesis conj_zero : cj zero = zero.
Hypothesis conj_conj : forall a, cj (cj a) = a.

Lemma conj_ksum {A} (f : A -> K) l : cj (ksum (map f l)) = ksum (map (fun x => cj (f x)) l).
Proof. induction l as [|x l IH]; cbn [map VnlOp.ksum]; [exact conj_zero|]. now rewrite conj_add, IH. Qed.

Lemma conj_orbital im J p g : (forall e, ph2 e = cj (ph1 e)) ->
  (forall tr i, In tr im -> cj (at_ (w_orb (snd tr)) i) = at_ (w_orb (snd tr)) i) ->
  orbital ph2 im J p g = cj (orbital ph1 im J p g).
Proof.
  intros H1 H2. unfold HubSpec.orbital. rewrite conj_ksum. apply ksum_ext. intros tr Htr.
  destruct (e_atom (w_e (snd tr)) =? J); [|now rewrite conj_zero]. rewrite conj_mul, H1. f_equal.
  unfold HubSpec.isum. rewrite conj_ksum. apply ksum_ext. intros j _.
  destruct (_ =? g); [|now rewrite conj_zero]. now rewrite H2.
Qed.

(** A vector of all processes. *)
Definition vec (pz : list (list (list row) * Z)) (x : nat -> Z -> K) : list (list (list row) * Z * (Z -> K)) :=
  map (fun ip => (fst (snd ip), snd (snd ip), x (fst ip))) (combine (seq 0 (length pz)) pz).

(** dV <y|V|x>, over the nodes of all processes. *)
Definition form (ts : list otype) (rho : Z -> arr K) (pz : list (list (list row) * Z)) (y x : nat -> Z -> K) : K :=
  mul dV (ksum (map (fun ip => isum 0 (snd (snd ip)) (fun g =>
    mul (cj (y (fst ip) g)) (hub_term ts rho (vec pz x) (fst (snd ip)) g))) (combine (seq 0 (length pz)) pz))).

(** With complex conjugate factors and real orbitals the operator is the
    quadratic form of the matrices V in the inner products. *)
Theorem C74_form : forall ts rho (pz : list (list (list row) * Z)) y x,
  (forall e, ph2 e = cj (ph1 e)) -> cj dV = dV ->
  (forall p tr i, In p pz -> In tr (images ts (fst p)) -> cj (at_ (w_orb (snd tr)) i) = at_ (w_orb (snd tr)) i) ->
  form ts rho pz y x =
  ksum (map (fun tJ => isum 0 (o_np (fst tJ)) (fun r => isum 0 (o_np (fst tJ)) (fun c =>
    mul (mul (cj (proj ph1 dV ts (vec pz y) (snd tJ) r)) (vmat half (fst tJ) (rho (snd tJ)) r c))
        (proj ph1 dV ts (vec pz x) (snd tJ) c)))) (catoms 0 ts)).
Proof.
  intros ts rho pz y x HP HD HO. unfold form, hub_term.
  set (ips := combine (seq 0 (length pz)) pz).
  assert (II : forall ip, In ip ips -> In (snd ip) pz).
  { intros [i p] H. unfold ips in H. apply in_combine_r in H. exact H. }
  (* pull the sums over atoms and orbitals out *)
  transitivity (mul dV (ksum (map (fun tJ => isum 0 (o_np (fst tJ)) (fun r => mul
      (ksum (map (fun ip => isum 0 (snd (snd ip)) (fun g => mul (cj (y (fst ip) g)) (orbital ph2 (images ts (fst (snd ip))) (snd tJ) r g))) ips))
      (isum 0 (o_np (fst tJ)) (fun c => mul (vmat half (fst tJ) (rho (snd tJ)) r c) (proj ph1 dV ts (vec pz x) (snd tJ) c)))))
      (catoms 0 ts)))).
  { f_equal. unfold HubSpec.isum at 1.
    transitivity (ksum (map (fun ip => ksum (map (fun tJ => ksum (map (fun r => isum 0 (snd (snd ip)) (fun g => mul (mul
       (cj (y (fst ip) g)) (orbital ph2 (images ts (fst (snd ip))) (snd tJ) r g))
       (isum 0 (o_np (fst tJ)) (fun c => mul (vmat half (fst tJ) (rho (snd tJ)) r c) (proj ph1 dV ts (vec pz x) (snd tJ) c)))))
       (zrange 0 (o_np (fst tJ) - 1)))) (catoms 0 ts))) ips)).
    { apply ksum_ext. intros ip _.
      transitivity (ksum (map (fun g => ksum (map (fun tJ => ksum (map (fun r => mul (mul
       (cj (y (fst ip) g)) (orbital ph2 (images ts (fst (snd ip))) (snd tJ) r g))
       (isum 0 (o_np (fst tJ)) (fun c => mul (vmat half (fst tJ) (rho (snd tJ)) r c) (proj ph1 dV ts (vec pz x) (snd tJ) c))))
       (zrange 0 (o_np (fst tJ) - 1)))) (catoms 0 ts))) (zrange 0 (snd (snd ip) - 1)))).
      { apply ksum_ext. intros g _. rewrite <- (ksum_mul_l _ _ _ _ _ _ Rth). apply ksum_ext. intros tJ _.
        unfold HubSpec.isum at 1. rewrite <- (ksum_mul_l _ _ _ _ _ _ Rth). apply ksum_ext. intros r _. ring. }
      rewrite (ksum_swap _ _ _ _ _ _ Rth). apply ksum_ext. intros tJ _.
      rewrite (ksum_swap _ _ _ _ _ _ Rth). reflexivity. }
    rewrite (ksum_swap _ _ _ _ _ _ Rth). apply ksum_ext. intros tJ _.
    rewrite (ksum_swap _ _ _ _ _ _ Rth). unfold HubSpec.isum at 2. apply ksum_ext. intros r _.
    rewrite <- (ksum_mul_r _ _ _ _ _ _ Rth). apply ksum_ext. intros ip _. unfold HubSpec.isum.
    rewrite <- (ksum_mul_r _ _ _ _ _ _ Rth). reflexivity. }
  rewrite <- (ksum_mul_l _ _ _ _ _ _ Rth). apply ksum_ext. intros [t J] _. cbn [fst snd].
  unfold HubSpec.isum at 1 4. rewrite <- (ksum_mul_l _ _ _ _ _ _ Rth). apply ksum_ext. intros r _.
  assert (EP : cj (proj ph1 dV ts (vec pz y) J r) =
    mul dV (ksum (map (fun ip => isum 0 (snd (snd ip)) (fun g => mul (cj (y (fst ip) g)) (orbital ph2 (images ts (fst (snd ip))) J r g))) ips))).
  { unfold HubSpec.proj, vec. rewrite map_map, conj_mul, HD, conj_ksum. f_equal. apply ksum_ext. intros ip Hip.
    unfold HubSpec.isum. rewrite conj_ksum. apply ksum_ext. intros g _. rewrite conj_mul.
    rewrite conj_orbital; [ring|exact HP|]. intros tr i Htr. apply (HO (snd ip) tr i); [now apply II|exact Htr]. }
  rewrite EP.
  transitivity (mul (mul dV (ksum (map (fun ip => isum 0 (snd (snd ip)) (fun g => mul (cj (y (fst ip) g)) (orbital ph2 (images ts (fst (snd ip))) J r g))) ips)))
    (ksum (map (fun c => mul (vmat half t (rho J) r c) (proj ph1 dV ts (vec pz x) J c)) (zrange 0 (o_np t - 1))))); [unfold HubSpec.isum; ring|].
  unfold HubSpec.isum.
  rewrite <- (ksum_mul_l _ _ _ _ _ _ Rth). apply ksum_ext. intros c _. ring.
Qed.

(** With the same real U for all orbitals of an atom and a Hermitian occupation
    matrix the operator is Hermitian. *)
Theorem C74_hermitian : forall ts rho (pz : list (list (list row) * Z)) y x,
  (forall e, ph2 e = cj (ph1 e)) -> cj dV = dV -> cj half = half ->
  (forall a b, cj (sub a b) = sub (cj a) (cj b)) ->
  (forall p tr i, In p pz -> In tr (images ts (fst p)) -> cj (at_ (w_orb (snd tr)) i) = at_ (w_orb (snd tr)) i) ->
  (forall t J r c, In (t, J) (catoms 0 ts) -> 0 <= r < o_np t -> 0 <= c < o_np t ->
     at_ (o_uval t) r = at_ (o_uval t) c /\ cj (at_ (o_uval t) r) = at_ (o_uval t) r /\
     at_ (rho J) (o_np t * r + c) = cj (at_ (rho J) (o_np t * c + r))) ->
  form ts rho pz y x = cj (form ts rho pz x y).
Proof.
  intros ts rho pz y x HP HD HH CS HO HV. rewrite !C74_form by assumption.
  rewrite conj_ksum. apply ksum_ext. intros [t J] HJ. cbn [fst snd]. unfold HubSpec.isum at 1 3.
  rewrite conj_ksum.
  rewrite (ksum_ext _ _ (fun x0 => cj (isum 0 (o_np t) _))
    (fun r => ksum (map (fun c => cj (mul (mul (cj (proj ph1 dV ts (vec pz x) J r)) (vmat half t (rho J) r c))
       (proj ph1 dV ts (vec pz y) J c))) (zrange 0 (o_np t - 1))))).
  2:{ intros r _. apply conj_ksum. }
  unfold HubSpec.isum. rewrite (ksum_swap _ _ _ _ _ _ Rth). apply ksum_ext. intros c Hc. apply ksum_ext. intros r Hr.
  apply in_zrange in Hc, Hr. rewrite !conj_mul, conj_conj.
  assert (EV : cj (vmat half t (rho J) c r) = vmat half t (rho J) r c).
  { unfold HubSpec.vmat. destruct (HV t J r c HJ ltac:(lia) ltac:(lia)) as (U1 & U2 & _).
    destruct (HV t J c r HJ ltac:(lia) ltac:(lia)) as (_ & U3 & U4).
    rewrite conj_mul, CS, U3, <- U1, (Z.eqb_sym c r), U4.
    destruct (r =? c); rewrite ?HH, ?conj_zero, ?conj_conj; reflexivity. }
  rewrite EV. ring.
Qed.
End RING.
Print Assumptions C74_operator.
Print Assumptions C74_division.
Print Assumptions C74_form.
Print Assumptions C74_hermitian.
