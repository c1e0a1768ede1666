(** The DFT+U operator and occupation matrix: from the loops of Hub.v to the
    formulas of HubSpec.v. *)
From Coq Require Import ZArith QArith Qround List Lia Bool Permutation Ring.
From Verif Require Import CBase Nloc NlocSpec NlocLem VnlOp VnlLem VnlMain HubInit HubInitSpec HubInitLem P_HubInit Hub HubSpec HubLem.
Import ListNotations.
Local Open Scope Z_scope.

Section RING.
Context {K : Type} (zero one : K) (add mul sub : K -> K -> K) (opp : K -> K).
Context (Rth : ring_theory zero one add mul sub opp eq).
Add Ring KRm : Rth.
Declare Scope km_scope.
Infix "+" := add : km_scope.
Infix "*" := mul : km_scope.
Delimit Scope km_scope with k.
Notation ksum := (ksum zero add).
Notation isum := (isum zero add).
Notation otype := (otype (K:=K)).
Notation row := (row (K:=K)).
Notation sel := (sel zero).
Notation ival := (ival zero add mul).
Notation sval := (sval zero add mul).

Definition act {A} (tr : otype * A) : bool := negb (o_np (fst tr) =? 0).

Lemma ofold_pair {S A B} (f : S -> A -> B -> outcome S) (x : A) l : forall s,
  ofold (fun s y => f s x y) s l = ofold (fun s xy => f s (fst xy) (snd xy)) s (map (pair x) l).
Proof.
  induction l as [|y l IH]; intros s; cbn [ofold map]; [reflexivity|]. cbn [fst snd].
  destruct (f s x y); cbn [obind]; [apply IH|reflexivity|reflexivity].
Qed.

Lemma filter_pair {A} (t : otype) (l : list A) :
  filter act (map (pair t) l) = if o_np t =? 0 then [] else map (pair t) l.
Proof.
  induction l as [|x l IH]; cbn [map filter]; [now destruct (o_np t =? 0)|]. unfold act at 1. cbn [fst].
  rewrite IH. now destruct (o_np t =? 0).
Qed.

Lemma over_images_flat (f : otype -> row -> arr K -> outcome (arr K)) : forall ts L a,
  over_images f ts L a = ofold (fun a tr => f (fst tr) (snd tr) a) a (filter act (images ts L)).
Proof.
  induction ts as [|t ts IH]; intros L a; cbn [over_images images]; [reflexivity|].
  destruct L as [|rs L]; [reflexivity|].
  rewrite filter_app, ofold_app.
  assert (E : (if negb (o_solve t) then Ok a else if o_np t =? 0 then Ok a else ofold (fun a r => f t r a) a rs)
    = ofold (fun a tr => f (fst tr) (snd tr) a) a (filter act (if o_solve t then map (pair t) rs else []))).
  { destruct (o_solve t); cbn [negb]; [|reflexivity]. rewrite filter_pair.
    destruct (o_np t =? 0); [reflexivity|]. exact (ofold_pair (fun a t r => f t r a) t rs a). }
  rewrite E. clear E. match goal with |- obind ?o _ = _ => destruct o end; cbn [obind]; [apply IH|reflexivity|reflexivity].
Qed.

Lemma over_atoms_flat {A} (f : otype -> Z -> A -> outcome A) : forall ts J a,
  over_atoms f ts J a = ofold (fun a tJ => f (fst tJ) (snd tJ) a) a (filter act (catoms J ts)).
Proof.
  induction ts as [|t ts IH]; intros J a; cbn [over_atoms catoms]; [reflexivity|].
  rewrite filter_app, ofold_app.
  assert (E : (if negb (o_solve t) then Ok a else if o_np t =? 0 then Ok a
       else ofold (fun a J => f t J a) a (zrange J (J + o_nat t - 1)))
    = ofold (fun a tJ => f (fst tJ) (snd tJ) a) a
        (filter act (if o_solve t then map (pair t) (zrange J (J + o_nat t - 1)) else []))).
  { destruct (o_solve t); cbn [negb]; [|reflexivity]. rewrite filter_pair.
    destruct (o_np t =? 0); [reflexivity|]. exact (ofold_pair (fun a t J => f t J a) t _ a). }
  rewrite E. clear E. match goal with |- obind ?o _ = _ => destruct o end; cbn [obind]; [apply IH|reflexivity|reflexivity].
Qed.

(** Blocks written one after the other. *)
Lemma blocks_ok {X B} (N : Z) (f : arr K -> X -> outcome (arr K)) (P : X -> B -> Prop) (idx : X -> B -> Z)
    (V : X -> B -> K -> K) (l : list X) :
  (forall x a, In x l -> sz a = N -> exists a', f a x = Ok a' /\ sz a' = N /\
     (forall y, P x y -> at_ a' (idx x y) = V x y (at_ a (idx x y))) /\
     (forall i, (forall y, P x y -> i <> idx x y) -> at_ a' i = at_ a i)) ->
  (forall x x' y y', In x l -> In x' l -> P x y -> P x' y' -> idx x y = idx x' y' -> x = x') ->
  NoDup l -> forall a, sz a = N ->
  exists a', ofold f a l = Ok a' /\ sz a' = N /\
    (forall x y, In x l -> P x y -> at_ a' (idx x y) = V x y (at_ a (idx x y))) /\
    (forall i, (forall x y, In x l -> P x y -> i <> idx x y) -> at_ a' i = at_ a i).
Proof.
  induction l as [|x l IH]; intros H HI ND a Ha; cbn [ofold].
  - exists a. split; [reflexivity|]. split; [exact Ha|]. split; [intros x y []|reflexivity].
  - inversion ND as [|? ? NI ND']; subst.
    destruct (H x a (or_introl eq_refl) eq_refl) as (a1 & E1 & S1 & V1 & W1). rewrite E1. cbn [obind].
    destruct (IH (fun y b Hy => H y b (or_intror Hy)) (fun x x' y y' h h' => HI x x' y y' (or_intror h) (or_intror h')) ND' a1 S1)
      as (a2 & E2 & S2 & V2 & W2).
    exists a2. split; [exact E2|]. split; [exact S2|]. split.
    + intros x' y [<-|Hx] Hy.
      * rewrite W2; [now apply V1|]. intros x' y' Hx' Hy' E.
        pose proof (HI _ _ _ _ (or_introl eq_refl) (or_intror Hx') Hy Hy' E). subst x'. contradiction.
      * rewrite V2 by assumption. f_equal. apply W1. intros y' Hy' E.
        pose proof (HI _ _ _ _ (or_intror Hx) (or_introl eq_refl) Hy Hy' E). subst x'. contradiction.
    + intros i Hi. rewrite W2 by (intros x' y' h h'; apply Hi; [now right|exact h']).
      apply W1. intros y Hy. apply Hi; [now left|exact Hy].
Qed.

(** ** The inner products *)
Section IP.
Variables (ts : list otype) (ipd : arr Z) (tot : Z).
Hypothesis TOK : Forall (fun t => 1 <= o_nat t /\ 0 <= o_np t) ts.
Hypothesis LAY : lay o_np ts ipd tot.

Let F1 : Forall (fun t => 1 <= o_nat t) ts.
Proof. eapply Forall_impl; [|exact TOK]. cbn. tauto. Qed.

Definition slot (ncol : Z) (t : otype) (J n p : Z) : Z := at_ ipd J * ncol + n * o_np t + p.

Lemma slot_range ncol t J n p : In (t, J) (catoms 0 ts) -> 0 <= n < ncol -> 0 <= p < o_np t ->
  0 <= slot ncol t J n p < tot * ncol.
Proof.
  intros H Hn Hp. destruct LAY as (_ & _ & L & _). destruct (L t J H) as (_ & A & B). unfold slot.
  assert ((at_ ipd J + o_np t) * ncol <= tot * ncol) by nia. nia.
Qed.

Lemma ipd_rd t J : In (t, J) (catoms 0 ts) -> rd ipd J = Ok (at_ ipd J).
Proof. intros H. destruct LAY as (S & _ & L & _). destruct (L t J H) as (A & _). apply rd_ok. lia. Qed.

Lemma off_ok ncol t J : In (t, J) (catoms 0 ts) -> 0 <= ncol ->
  0 <= at_ ipd J * ncol /\ at_ ipd J * ncol + ncol * o_np t <= tot * ncol.
Proof. intros H Hn. destruct LAY as (_ & _ & L & _). destruct (L t J H) as (_ & A & B). split; nia. Qed.

Lemma sel_slot ncol t J n p t' J' v : In (t, J) (catoms 0 ts) -> In (t', J') (catoms 0 ts) ->
  0 <= n < ncol -> 0 <= p < o_np t ->
  isum 0 ncol (fun n' => isum 0 (o_np t') (fun p' => sel (slot ncol t J n p) (slot ncol t' J' n' p') (v n' p')))
  = if J' =? J then v n p else zero.
Proof.
  intros H H' Hn Hp. destruct (Z.eqb_spec J' J) as [->|NE].
  - assert (t = t') by exact (catoms_fun o_np ts F1 _ _ _ _ H H'). subst t'.
    rewrite (isum_only _ _ _ _ _ _ Rth _ _ _ n); [|lia|].
    2:{ intros n' Hn' NE. apply (isum_zero _ _ _ _ _ _ Rth). intros p' Hp'. unfold VnlLem.sel.
        destruct (Z.eqb_spec (slot ncol t J n p) (slot ncol t J n' p')) as [E|]; [|reflexivity].
        exfalso. apply (slot_inj ts ipd tot ncol t J n p t J n' p') in E; auto; lia. }
    rewrite (isum_only _ _ _ _ _ _ Rth _ _ _ p); [unfold VnlLem.sel; now rewrite Z.eqb_refl|lia|].
    intros p' Hp' NE. unfold VnlLem.sel. destruct (Z.eqb_spec (slot ncol t J n p) (slot ncol t J n p')) as [E|]; [|reflexivity].
    exfalso. unfold slot in E. lia.
  - apply (isum_zero _ _ _ _ _ _ Rth). intros n' Hn'. apply (isum_zero _ _ _ _ _ _ Rth). intros p' Hp'.
    unfold VnlLem.sel. destruct (Z.eqb_spec (slot ncol t J n p) (slot ncol t' J' n' p')) as [E|]; [|reflexivity].
    exfalso. apply (slot_inj ts ipd tot ncol t J n p t' J' n' p') in E; auto; lia.
Qed.

Lemma sum_act {A} (im : list (otype * A)) (at_of : A -> Z) t J (v : otype * A -> K) :
  In (t, J) (catoms 0 ts) -> 0 < o_np t -> (forall tr, In tr im -> In (fst tr, at_of (snd tr)) (catoms 0 ts)) ->
  ksum (map (fun tr => if at_of (snd tr) =? J then v tr else zero) (filter act im))
  = ksum (map (fun tr => if at_of (snd tr) =? J then v tr else zero) im).
Proof.
  intros H Hp HI. rewrite (ksum_filter _ _ _ _ _ _ Rth). apply ksum_ext. intros [t' r] Hr.
  destruct (act (t', r)) eqn:EA; [reflexivity|]. cbn [snd]. destruct (Z.eqb_spec (at_of r) J) as [E|]; [|reflexivity].
  exfalso. specialize (HI _ Hr). cbn [fst snd] in HI. rewrite E in HI.
  pose proof (catoms_fun o_np ts F1 _ _ _ _ H HI). subst t'. unfold act in EA. cbn [fst] in EA.
  apply negb_false_iff, Z.eqb_eq in EA. lia.
Qed.

Variables (ph : entry -> K) (dV : K) (ncol : Z).
Hypothesis NC : 0 <= ncol.

Lemma ip_ok (L : list (list row)) (x : arr K) (ldi nd : Z) :
  Forall (image_ok ts nd) (images ts L) -> nd <= ldi -> ncol * ldi <= sz x ->
  exists al, over_images (fun t r al =>
      do d <- rd ipd (e_atom (w_e r)) ;
      inner zero add mul (w_orb r) x ldi ncol (o_np t) (d * ncol) (mul (ph (w_e r)) dV) (w_e r) al)
    ts L (Arr (tot * ncol) (fun _ => zero)) = Ok al /\ sz al = tot * ncol /\
    forall t J n p, In (t, J) (catoms 0 ts) -> 0 <= n < ncol -> 0 <= p < o_np t ->
      at_ al (slot ncol t J n p) =
      mul dV (isum 0 nd (fun g => orbital zero add mul ph (images ts L) J p g * at_ x (n * ldi + g)%Z)%k).
Proof.
  intros HI HL HX. rewrite Forall_forall in HI.
  rewrite over_images_flat.
  destruct (ofold_acc _ _ _ _ _ _ Rth
    (fun a (tr : otype * row) => do d <- rd ipd (e_atom (w_e (snd tr))) ;
      inner zero add mul (w_orb (snd tr)) x ldi ncol (o_np (fst tr)) (d * ncol) (mul (ph (w_e (snd tr))) dV) (w_e (snd tr)) a)
    (fun tr i => isum 0 ncol (fun n => isum 0 (o_np (fst tr)) (fun p =>
        sel i (slot ncol (fst tr) (e_atom (w_e (snd tr))) n p)
          (ival (w_e (snd tr)) (w_orb (snd tr)) x ldi (mul (ph (w_e (snd tr))) dV) n p)))) (tot * ncol)
    (filter act (images ts L))) with (a := Arr (tot * ncol) (fun _ : Z => zero)) as (al & E & S1 & V).
  - intros [t r] a Hr Ha. apply filter_In in Hr. destruct Hr as [Hr _]. cbn [fst snd].
    destruct (HI _ Hr) as (IA & IN & IS & IP). cbn [fst snd] in *.
    rewrite (ipd_rd _ _ IA). cbn [obind].
    destruct (off_ok ncol _ _ IA NC) as (O1 & O2).
    apply (inner_gen _ _ _ _ _ _ Rth (o_np t) (w_e r) (w_orb r) x ldi ncol); [split; assumption| |exact Ha|exact O1|exact O2].
    intros n g Hn Hg. specialize (IP g Hg). nia.
  - reflexivity.
  - exists al. split; [exact E|]. split; [exact S1|]. intros t J n p HJ Hn Hp.
    rewrite V. cbn [at_].
    transitivity (ksum (map (fun tr : otype * row => if e_atom (w_e (snd tr)) =? J then
        ival (w_e (snd tr)) (w_orb (snd tr)) x ldi (mul (ph (w_e (snd tr))) dV) n p else zero) (images ts L))).
    { rewrite <- (sum_act (images ts L) (fun r => e_atom (w_e r)) t J (fun tr => ival (w_e (snd tr)) (w_orb (snd tr)) x ldi (mul (ph (w_e (snd tr))) dV) n p) HJ ltac:(lia)).
      2:{ intros tr Htr. apply (HI _ Htr). }
      match goal with |- (?a + ?b)%k = ?c => transitivity b; [ring|] end.
      apply ksum_ext. intros tr Htr. apply filter_In in Htr. destruct Htr as [Htr _].
      rewrite (sel_slot ncol t J n p (fst tr) (e_atom (w_e (snd tr))) (fun n p => ival (w_e (snd tr)) (w_orb (snd tr)) x ldi (mul (ph (w_e (snd tr))) dV) n p) HJ) by (try lia; apply (HI _ Htr)).
      reflexivity. }
    unfold HubSpec.isum at 1. unfold orbital.
    transitivity (mul dV (ksum (map (fun g => ksum (map (fun tr : otype * row => mul
       (if e_atom (w_e (snd tr)) =? J then
         mul (ph (w_e (snd tr))) (isum 0 (e_ndc (w_e (snd tr))) (fun j =>
         if nth (Z.to_nat j) (e_pos (w_e (snd tr))) 0 =? g then at_ (w_orb (snd tr)) (p * e_ndc (w_e (snd tr)) + j) else zero))
        else zero) (at_ x (n * ldi + g)%Z)) (images ts L))) (zrange 0 (nd - 1))))).
    2:{ f_equal. apply ksum_ext. intros g _. rewrite (ksum_mul_r _ _ _ _ _ _ Rth). reflexivity. }
    rewrite (ksum_swap _ _ _ _ _ _ Rth). rewrite <- (ksum_mul_l _ _ _ _ _ _ Rth). apply ksum_ext. intros [t' r] Hr. cbn [fst snd].
    destruct (HI _ Hr) as (_ & IN & _ & IP). cbn [fst snd] in *.
    destruct (e_atom (w_e r) =? J).
    2:{ rewrite (ksum_zero _ _ _ _ _ _ Rth); [ring|]. intros; ring. }
    unfold HubLem.ival, HubSpec.isum.
    transitivity (mul dV (ksum (map (fun g => ksum (map (fun j => mul (ph (w_e r)) (mul
       (if nth (Z.to_nat j) (e_pos (w_e r)) 0 =? g then at_ (w_orb r) (p * e_ndc (w_e r) + j) else zero) (at_ x (n * ldi + g)%Z)))
        (zrange 0 (e_ndc (w_e r) - 1)))) (zrange 0 (nd - 1))))).
    2:{ f_equal. apply ksum_ext. intros g _. rewrite (ksum_mul_l _ _ _ _ _ _ Rth), (ksum_mul_r _ _ _ _ _ _ Rth). ring. }
    rewrite (ksum_swap _ _ _ _ _ _ Rth).
    rewrite (ksum_ext _ _ (fun y => ksum (map _ _)) (fun j => mul (ph (w_e r)) (mul (at_ (w_orb r) (p * e_ndc (w_e r) + j)) (at_ x (n * ldi + pos (w_e r) j))))).
    { rewrite (ksum_mul_l _ _ _ _ _ _ Rth). ring. }
    intros j Hj. apply in_zrange in Hj.
    assert (HP : In (pos (w_e r) j) (e_pos (w_e r))) by (apply pos_in; rewrite <- IN; lia).
    rewrite (ksum_mul_l _ _ _ _ _ _ Rth). f_equal.
    rewrite (ksum_only _ _ _ _ _ _ Rth _ _ (pos (w_e r) j)).
    + unfold pos at 1. fold (pos (w_e r) j). change (nth (Z.to_nat j) (e_pos (w_e r)) 0) with (pos (w_e r) j).
      now rewrite Z.eqb_refl.
    + apply NoDup_zrange.
    + apply in_zrange. specialize (IP _ HP). lia.
    + intros g _ NE. change (nth (Z.to_nat j) (e_pos (w_e r)) 0) with (pos (w_e r) j).
      destruct (Z.eqb_spec (pos (w_e r) j) g); [congruence|ring].
Qed.

(** ** The middle factor *)
Variable half : K.

Lemma prefac_ok (t : otype) (rho : arr K) : 0 <= o_np t -> o_np t * o_np t <= sz rho -> o_np t <= sz (o_uval t) ->
  exists pf, prefac zero mul sub half (o_np t) rho (o_uval t) = Ok pf /\ sz pf = o_np t * o_np t /\
    forall r c, 0 <= r < o_np t -> 0 <= c < o_np t ->
      at_ pf (o_np t * c + r) = vmat zero mul sub half t rho r c.
Proof.
  intros H0 HR HU. unfold prefac.
  rewrite (ofold_nest (fun pf col row_ => do r <- rd rho (o_np t * col + row_) ; do v <- rd (o_uval t) row_ ;
      wr pf (o_np t * col + row_) (mul (sub (if row_ =? col then half else zero) r) v)) (fun _ => zrange 0 (o_np t - 1))).
  destruct (oupd_ok (o_np t * o_np t)
    (fun pf (xy : Z * Z) => do r <- rd rho (o_np t * fst xy + snd xy) ; do v <- rd (o_uval t) (snd xy) ;
      wr pf (o_np t * fst xy + snd xy) (mul (sub (if snd xy =? fst xy then half else zero) r) v))
    (fun xy => o_np t * fst xy + snd xy) (fun xy _ => vmat zero mul sub half t rho (snd xy) (fst xy))
    (flat_map (fun a => map (pair a) (zrange 0 (o_np t - 1))) (zrange 0 (o_np t - 1))))
    with (a := Arr (o_np t * o_np t) (fun _ : Z => zero)) as (pf & E & S1 & V & _).
  - intros [c r] a Hx Ha. apply in_pairs in Hx. cbn [fst snd] in *. destruct Hx as [H1 H2].
    apply in_zrange in H1, H2. rewrite !rd_ok by nia. cbn [obind]. rewrite wr_ok by nia. rewrite Ha. reflexivity.
  - apply NoDup_pairs; try apply NoDup_zrange. intros [c r] [c' r']. cbn [fst snd]. rewrite !in_zrange. intros.
    assert (c = c') by nia. subst. f_equal. lia.
  - reflexivity.
  - exists pf. split; [exact E|]. split; [exact S1|]. intros r c Hr Hc.
    apply (V (c, r)). apply in_pairs. cbn [fst snd]. rewrite !in_zrange. lia.
Qed.

Lemma hphase2_ok (rho : Z -> arr K) (al : arr K) : sz al = tot * ncol ->
  (forall t J, In (t, J) (catoms 0 ts) -> o_np t * o_np t <= sz (rho J) /\ o_np t <= sz (o_uval t)) ->
  exists be, hphase2 zero add mul sub half ts ipd ncol rho al = Ok be /\ sz be = tot * ncol /\
    forall t J n r, In (t, J) (catoms 0 ts) -> 0 <= n < ncol -> 0 <= r < o_np t ->
      at_ be (slot ncol t J n r) =
      isum 0 (o_np t) (fun c => mul (vmat zero mul sub half t (rho J) r c) (at_ al (slot ncol t J n c))).
Proof.
  intros HS HR. unfold hphase2. rewrite over_atoms_flat.
  destruct (blocks_ok (B := Z * Z) (tot * ncol)
    (fun (out : arr K) (tJ : otype * Z) =>
      do pf <- prefac zero mul sub half (o_np (fst tJ)) (rho (snd tJ)) (o_uval (fst tJ)) ;
      do d <- rd ipd (snd tJ) ;
      ofold (fun out n => ofold (fun out r =>
        do s <- osum zero add (fun c => do p <- rd pf (o_np (fst tJ) * c + r) ;
                               do a <- rd al (d * ncol + n * o_np (fst tJ) + c) ; Ok (mul p a))
                     (zrange 0 (o_np (fst tJ) - 1)) ;
        wr out (d * ncol + n * o_np (fst tJ) + r) s)
      out (zrange 0 (o_np (fst tJ) - 1)))
      out (zrange 0 (ncol - 1)))
    (fun tJ nr => 0 <= fst nr < ncol /\ 0 <= snd nr < o_np (fst tJ))
    (fun tJ nr => slot ncol (fst tJ) (snd tJ) (fst nr) (snd nr))
    (fun tJ nr _ => isum 0 (o_np (fst tJ)) (fun c => mul (vmat zero mul sub half (fst tJ) (rho (snd tJ)) (snd nr) c)
       (at_ al (slot ncol (fst tJ) (snd tJ) (fst nr) c))))
    (filter act (catoms 0 ts))) with (a := Arr (sz al) (fun _ : Z => zero)) as (be & E & S1 & V & _).
  - intros [t J] a Hx Ha. apply filter_In in Hx. destruct Hx as [Hx _]. cbn [fst snd].
    destruct (HR _ _ Hx) as (R1 & R2).
    assert (P0 : 0 <= o_np t).
    { rewrite Forall_forall in TOK. apply TOK. apply (catoms_nth o_np ts F1 0 t J Hx). }
    destruct (prefac_ok t (rho J) P0 R1 R2) as (pf & E1 & Sp & Vp). rewrite E1. cbn [obind].
    rewrite (ipd_rd _ _ Hx). cbn [obind].
    rewrite (ofold_nest (fun out n r => do s <- osum zero add (fun c => do p <- rd pf (o_np t * c + r) ;
        do a <- rd al (at_ ipd J * ncol + n * o_np t + c) ; Ok (mul p a)) (zrange 0 (o_np t - 1)) ;
        wr out (at_ ipd J * ncol + n * o_np t + r) s) (fun _ => zrange 0 (o_np t - 1))).
    destruct (oupd_ok (tot * ncol)
      (fun out (nr : Z * Z) => do s <- osum zero add (fun c => do p <- rd pf (o_np t * c + snd nr) ;
        do a <- rd al (at_ ipd J * ncol + fst nr * o_np t + c) ; Ok (mul p a)) (zrange 0 (o_np t - 1)) ;
        wr out (at_ ipd J * ncol + fst nr * o_np t + snd nr) s)
      (fun nr => slot ncol t J (fst nr) (snd nr))
      (fun nr _ => isum 0 (o_np t) (fun c => mul (vmat zero mul sub half t (rho J) (snd nr) c) (at_ al (slot ncol t J (fst nr) c))))
      (flat_map (fun a => map (pair a) (zrange 0 (o_np t - 1))) (zrange 0 (ncol - 1)))) with (a := a) as (a' & E2 & S2 & V2 & W2).
    + intros [n r] b Hnr Hb. apply in_pairs in Hnr. cbn [fst snd] in *. rewrite !in_zrange in Hnr. destruct Hnr as [Hn Hr].
      rewrite (osum_ok _ _ _ (fun c => mul (vmat zero mul sub half t (rho J) r c) (at_ al (slot ncol t J n c)))).
      * cbn [obind]. assert (SR := slot_range ncol t J n r Hx ltac:(lia) ltac:(lia)).
        fold (slot ncol t J n r). rewrite wr_ok by lia. rewrite Hb. reflexivity.
      * intros c Hc. apply in_zrange in Hc. rewrite rd_ok by nia. cbn [obind].
        assert (SR := slot_range ncol t J n c Hx ltac:(lia) ltac:(lia)).
        fold (slot ncol t J n c). rewrite rd_ok by lia. cbn [obind]. rewrite Vp by lia. reflexivity.
    + apply NoDup_pairs; try apply NoDup_zrange. intros [n r] [n' r']. cbn [fst snd]. rewrite !in_zrange. intros A1 A2 A3 A4 EE.
      apply (slot_inj ts ipd tot ncol t J n r t J n' r') in EE; auto; try lia. destruct EE as (_ & -> & ->). reflexivity.
    + exact Ha.
    + exists a'. split; [exact E2|]. split; [exact S2|]. split.
      * intros [n r] [Hn Hr]. apply (V2 (n, r)). apply in_pairs. cbn [fst snd]. rewrite !in_zrange. cbn [fst snd] in *. lia.
      * intros i Hi. apply W2. intros Hin. apply in_map_iff in Hin. destruct Hin as (nr & E3 & Hnr).
        apply in_pairs in Hnr. rewrite !in_zrange in Hnr. apply (Hi nr); [lia|now symmetry].
  - intros [t J] [t' J'] [n r] [n' r'] Hx Hx' [A1 A2] [A3 A4] EE. cbn [fst snd] in *.
    apply filter_In in Hx, Hx'. destruct Hx as [Hx _], Hx' as [Hx' _].
    apply (slot_inj ts ipd tot ncol t J n r t' J' n' r') in EE; auto. destruct EE as (-> & _).
    f_equal. exact (catoms_fun o_np ts F1 _ _ _ _ Hx Hx').
  - apply NoDup_filter. eapply NoDup_map_inv. exact (catoms_NoDup o_np ts F1 0).
  - exact HS.
  - exists be. split; [exact E|]. split; [exact S1|]. intros t J n r HJ Hn Hr.
    apply (V (t, J) (n, r)); [|split; assumption]. apply filter_In. split; [exact HJ|].
    unfold act. cbn [fst]. destruct (Z.eqb_spec (o_np t) 0); [lia|reflexivity].
Qed.

(** ** The second product *)
Lemma hphase3_ok (L : list (list row)) (be h : arr K) (ldo nd : Z) : sz be = tot * ncol ->
  Forall (image_ok ts nd) (images ts L) -> nd <= ldo -> ncol * ldo <= sz h ->
  exists h', hphase3 zero add mul ph ts ipd ncol ldo L be h = Ok h' /\ sz h' = sz h /\
    (forall n g, 0 <= n < ncol -> 0 <= g < nd -> at_ h' (n * ldo + g) =
      (at_ h (n * ldo + g)%Z + ksum (map (fun tJ => isum 0 (o_np (fst tJ)) (fun r =>
         mul (orbital zero add mul ph (images ts L) (snd tJ) r g) (at_ be (slot ncol (fst tJ) (snd tJ) n r))))
         (catoms 0 ts)))%k) /\
    (forall i, (forall n g, 0 <= n < ncol -> 0 <= g < nd -> i <> n * ldo + g) -> at_ h' i = at_ h i).
Proof.
  intros HS HI HL HX. rewrite Forall_forall in HI. unfold hphase3. rewrite over_images_flat.
  destruct (ofold_acc _ _ _ _ _ _ Rth
    (fun a (tr : otype * row) => do d <- rd ipd (e_atom (w_e (snd tr))) ;
      scatter zero add mul (w_orb (snd tr)) be ldo ncol (o_np (fst tr)) (d * ncol) (ph (w_e (snd tr))) (w_e (snd tr)) a)
    (fun tr i => isum 0 ncol (fun n => isum 0 (e_ndc (w_e (snd tr))) (fun j =>
        sel i (n * ldo + pos (w_e (snd tr)) j)
          (sval (w_e (snd tr)) (w_orb (snd tr)) be (o_np (fst tr)) (at_ ipd (e_atom (w_e (snd tr))) * ncol) (ph (w_e (snd tr))) n j)))) (sz h)
    (filter act (images ts L))) with (a := h) as (h' & E & S1 & V).
  - intros [t r] a Hr Ha. apply filter_In in Hr. destruct Hr as [Hr _]. cbn [fst snd].
    destruct (HI _ Hr) as (IA & IN & IS & IP). cbn [fst snd] in *.
    rewrite (ipd_rd _ _ IA). cbn [obind].
    destruct (off_ok ncol _ _ IA NC) as (O1 & O2).
    assert (P0 : 0 <= o_np t).
    { rewrite Forall_forall in TOK. apply TOK. apply (catoms_nth o_np ts F1 0 t _ IA). }
    apply (scatter_gen _ _ _ _ _ _ Rth (o_np t) (w_e r) (w_orb r) be ldo ncol); [split; assumption|exact P0| |exact Ha|exact O1|].
    + intros n g Hn Hg. specialize (IP g Hg). nia.
    + rewrite HS. exact O2.
  - reflexivity.
  - exists h'. split; [exact E|]. split; [exact S1|]. split.
    + intros n g Hn Hg. rewrite V. f_equal.
      (* every image gives its share to node g of column n *)
      transitivity (ksum (map (fun tr : otype * row => isum 0 (o_np (fst tr)) (fun p =>
         mul (mul (ph (w_e (snd tr))) (isum 0 (e_ndc (w_e (snd tr))) (fun j =>
           if nth (Z.to_nat j) (e_pos (w_e (snd tr))) 0 =? g then at_ (w_orb (snd tr)) (p * e_ndc (w_e (snd tr)) + j) else zero)))
          (at_ be (slot ncol (fst tr) (e_atom (w_e (snd tr))) n p)))) (images ts L))).
      { rewrite (ksum_filter _ _ _ _ _ _ Rth). apply ksum_ext. intros [t r] Hr. cbn [fst snd].
        destruct (HI _ Hr) as (IA & IN & _ & IP). cbn [fst snd] in *.
        destruct (act (t, r)) eqn:EA.
        2:{ unfold act in EA. cbn [fst] in EA. apply negb_false_iff, Z.eqb_eq in EA. rewrite EA. reflexivity. }
        rewrite (isum_only _ _ _ _ _ _ Rth _ _ _ n); [|lia|].
        2:{ intros n' Hn' NE. apply (isum_zero _ _ _ _ _ _ Rth). intros j Hj. unfold VnlLem.sel.
            assert (HP : In (pos (w_e r) j) (e_pos (w_e r))) by (apply pos_in; rewrite <- IN; lia).
            specialize (IP _ HP).
            destruct (Z.eqb_spec (n * ldo + g) (n' * ldo + pos (w_e r) j)) as [EE|]; [|reflexivity].
            exfalso. apply NE. nia. }
        unfold HubLem.sval.
        transitivity (isum 0 (e_ndc (w_e r)) (fun j => isum 0 (o_np t) (fun p => mul (mul (ph (w_e r))
          (if nth (Z.to_nat j) (e_pos (w_e r)) 0 =? g then at_ (w_orb r) (p * e_ndc (w_e r) + j) else zero))
          (at_ be (slot ncol t (e_atom (w_e r)) n p))))).
        { apply isum_ext. intros j Hj. change (nth (Z.to_nat j) (e_pos (w_e r)) 0) with (pos (w_e r) j).
          unfold VnlLem.sel. destruct (Z.eqb_spec (n * ldo + g) (n * ldo + pos (w_e r) j)) as [EE|NE].
          - replace (pos (w_e r) j =? g) with true by (symmetry; apply Z.eqb_eq; lia).
            unfold HubSpec.isum. rewrite <- (ksum_mul_l _ _ _ _ _ _ Rth). apply ksum_ext. intros p _. unfold slot. ring.
          - replace (pos (w_e r) j =? g) with false by (symmetry; apply Z.eqb_neq; lia).
            symmetry. apply (isum_zero _ _ _ _ _ _ Rth). intros; ring. }
        unfold HubSpec.isum. rewrite (ksum_swap _ _ _ _ _ _ Rth). apply ksum_ext. intros p _.
        rewrite (ksum_mul_r _ _ _ _ _ _ Rth), (ksum_mul_l _ _ _ _ _ _ Rth). reflexivity. }
      (* sort the images by atoms *)
      symmetry.
      transitivity (ksum (map (fun tJ : otype * Z => ksum (map (fun tr : otype * row =>
         if e_atom (w_e (snd tr)) =? snd tJ then isum 0 (o_np (fst tJ)) (fun p =>
         mul (mul (ph (w_e (snd tr))) (isum 0 (e_ndc (w_e (snd tr))) (fun j =>
           if nth (Z.to_nat j) (e_pos (w_e (snd tr))) 0 =? g then at_ (w_orb (snd tr)) (p * e_ndc (w_e (snd tr)) + j) else zero)))
          (at_ be (slot ncol (fst tJ) (snd tJ) n p))) else zero) (images ts L))) (catoms 0 ts))).
      { apply ksum_ext. intros [t J] _. cbn [fst snd]. unfold orbital.
        transitivity (isum 0 (o_np t) (fun r => ksum (map (fun tr : otype * row => mul (if e_atom (w_e (snd tr)) =? J then
           mul (ph (w_e (snd tr))) (isum 0 (e_ndc (w_e (snd tr))) (fun j =>
           if nth (Z.to_nat j) (e_pos (w_e (snd tr))) 0 =? g then at_ (w_orb (snd tr)) (r * e_ndc (w_e (snd tr)) + j) else zero))
           else zero) (at_ be (slot ncol t J n r))) (images ts L)))).
        { apply isum_ext. intros r _. rewrite (ksum_mul_r _ _ _ _ _ _ Rth). reflexivity. }
        unfold HubSpec.isum at 1. rewrite (ksum_swap _ _ _ _ _ _ Rth). apply ksum_ext. intros tr _.
        destruct (e_atom (w_e (snd tr)) =? J); [reflexivity|].
        apply (ksum_zero _ _ _ _ _ _ Rth). intros; ring. }
      rewrite (ksum_swap _ _ _ _ _ _ Rth). apply ksum_ext. intros [t r] Hr. cbn [fst snd].
      destruct (HI _ Hr) as (IA & _). cbn [fst snd] in IA.
      rewrite (ksum_only _ _ _ _ _ _ Rth _ _ (t, e_atom (w_e r))).
      * cbn [fst snd]. now rewrite Z.eqb_refl.
      * eapply NoDup_map_inv. exact (catoms_NoDup o_np ts F1 0).
      * exact IA.
      * intros [t' J'] HJ' NE. cbn [fst snd]. destruct (Z.eqb_spec (e_atom (w_e r)) J') as [<-|]; [|reflexivity].
        exfalso. apply NE. f_equal. exact (catoms_fun o_np ts F1 _ _ _ _ HJ' IA).
    + intros i Hi. rewrite V.
      rewrite (ksum_zero _ _ _ _ _ _ Rth); [ring|]. intros [t r] Hr. apply filter_In in Hr. destruct Hr as [Hr _].
      destruct (HI _ Hr) as (IA & IN & _ & IP). cbn [fst snd] in *.
      apply (isum_zero _ _ _ _ _ _ Rth). intros n Hn. apply (isum_zero _ _ _ _ _ _ Rth). intros j Hj.
      unfold VnlLem.sel. destruct (Z.eqb_spec i (n * ldo + pos (w_e r) j)) as [EE|]; [|reflexivity].
      exfalso. assert (HP : In (pos (w_e r) j) (e_pos (w_e r))) by (apply pos_in; rewrite <- IN; lia).
      specialize (IP _ HP). apply (Hi n (pos (w_e r) j)); [lia|lia|exact EE].
Qed.

End IP.
End RING.
