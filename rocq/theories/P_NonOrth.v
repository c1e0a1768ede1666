(** C56: on a non-orthogonal cell the exchange with the 26 neighbours and the
    stencil loops compute the global operator with the mixed derivatives. *)
From Coq Require Import ZArith List Bool Lia FinFun Ring.
From Coq Require Import ZifyBool.
From Verif Require Import CBase BlockDecomp Text Collect P_Collect Halo HaloLem P_Halo NonOrth NonOrthLem.
Import ListNotations.
Local Open Scope Z_scope.
Local Opaque slots26 off_of slot_of.

(** ** Specification *)
Section Spec26.
  Variable K : Type.
  Variables (k0 k1 : K) (kadd kmul ksub : K -> K -> K).
  Variables (per : nat -> bool) (N : pt) (ph : pt -> K) (g : pt -> K).
  (** the periodic image cell in which a point lies, for points at most one
      period away *)
  Definition cellof (G : pt) : pt := vec (fun d => if at_ G d <? 0 then -1 else if at_ N d <=? at_ G d then 1 else 0).
  (** a function on the global grid, extended: zero beyond a Dirichlet
      boundary, Bloch-periodic in the other directions *)
  Definition gx26 (G : pt) : K :=
    let o := cellof G in
    if existsb (fun d => negb (per d) && negb (at_ o d =? 0)) [0; 1; 2]%nat then k0
    else kmul (g (vec (fun d => at_ G d - at_ o d * at_ N d))) (if pt_eqb o (0, 0, 0) then k1 else ph o).
  Variables (F : Z) (T : nat -> nat -> K) (w1 w2 : Z -> K) (hinv : nat -> K).
  Notation ksum := (ksum K k0 kadd).
  (** central differences along d of a function on the infinite grid *)
  Definition diff1 (d : nat) (f : pt -> K) (G : pt) : K :=
    kmul (hinv d) (ksum (fun r => kmul (w1 r) (ksub (f (move G d r)) (f (move G d (- r))))) (Z.to_nat F)).
  Definition diff2 (d : nat) (f : pt -> K) (G : pt) : K :=
    kmul (kmul (hinv d) (hinv d)) (kadd (kmul (w2 0) (f G)) (ksum (fun r => kmul (w2 r) (kadd (f (move G d r)) (f (move G d (- r))))) (Z.to_nat F))).
  (** sum over d, e of T d e times the second derivative along d and e *)
  Definition lap26 (G : pt) : K :=
    let m d e := kmul (kmul (kadd k1 k1) (T d e)) (diff1 d (diff1 e gx26) G) in
    kadd (kadd (kadd (kmul (T 0 0)%nat (diff2 0 gx26 G)) (kmul (T 1 1)%nat (diff2 1 gx26 G))) (kmul (T 2 2)%nat (diff2 2 gx26 G)))
         (kadd (kadd (m 0 1)%nat (m 0 2)%nat) (m 1 2)%nat).
  Definition lap26_spec (a b c : K) (v : pt -> K) (G : pt) : K :=
    kadd (kadd (kmul a (lap26 G)) (kmul b (kmul (v G) (g G)))) (kmul c (g G)).
End Spec26.

(** ** The exchange *)
Definition len1 (o F n : Z) : Z := if o =? 0 then n else F.
Lemma count_ok F n s : (s < 26)%nat ->
  count26 F n s = len1 (at_ (off_of s) 0) F (at_ n 0) * len1 (at_ (off_of s) 1) F (at_ n 1) * len1 (at_ (off_of s) 2) F (at_ n 2).
Proof.
  revert s. apply (all26 (fun s => count26 F n s = len1 (at_ (off_of s) 0) F (at_ n 0) * len1 (at_ (off_of s) 1) F (at_ n 1) * len1 (at_ (off_of s) 2) F (at_ n 2))).
  Local Transparent slots26 off_of. cbv [slots26 seq].
  repeat (apply Forall_cons; [match goal with |- context [off_of ?s] => let o := eval vm_compute in (off_of s) in change (off_of s) with o end; cbn -[Z.mul]; ring|]); apply Forall_nil.
  Local Opaque slots26 off_of.
Qed.
Lemma displ_total F n : displ26 F n 26 = nd26 F n.
Proof. unfold nd26. cbn -[Z.mul Z.add]. ring. Qed.
Lemma len_send rv o F n : tern o -> en1 rv o F n - st1 rv o F n = len1 o F n.
Proof. intros [-> | [-> | ->]]; destruct rv; cbn; lia. Qed.
Lemma len_recv o F n : tern o -> eni o F n - sti o F n = len1 o F n.
Proof. intros [-> | [-> | ->]]; cbn; lia. Qed.
Lemma slots26_split s : (s < 26)%nat -> slots26 = seq 0 s ++ s :: seq (S s) (25 - s).
Proof. intros H. Local Transparent slots26. unfold slots26. Local Opaque slots26. replace 26%nat with (s + (1 + (25 - s)))%nat by lia. rewrite !seq_app. cbn [seq app]. rewrite Nat.add_0_l, Nat.add_1_r. reflexivity. Qed.

Section Seg26.
  Variable K : Type.
  Variables (F : Z) (n : pt) (f : nat -> list K).
  Hypothesis L : forall s, (s < 26)%nat -> Z.of_nat (length (f s)) = count26 F n s.
  Lemma displ_len s : (s <= 26)%nat -> Z.of_nat (length (flat_map f (seq 0 s))) = displ26 F n s.
  Proof.
    induction s as [|s IH]; intros H; [reflexivity|]. rewrite seq_S, flat_map_app, app_length. cbn [flat_map]. rewrite app_nil_r, Nat2Z.inj_add, IH, L by lia. reflexivity.
  Qed.
  Lemma slice26 s : (s < 26)%nat -> slice K (flat_map f slots26) (displ26 F n s) (count26 F n s) = Ok (f s).
  Proof.
    intros H. unfold slice. rewrite <- (displ_len s) by lia. rewrite <- (L s H).
    rewrite (slots26_split s H), flat_map_app. cbn [flat_map]. rewrite !app_length.
    match goal with |- context [if ?c then _ else _] => replace c with true by lia end.
    rewrite !Nat2Z.id, skipn_app, skipn_all, Nat.sub_diag. cbn [skipn app]. rewrite firstn_app, firstn_all, Nat.sub_diag. cbn [firstn]. rewrite app_nil_r. reflexivity.
  Qed.
End Seg26.

Section Ext26.
  Variable K : Type.
  Variables (k0 k1 : K) (kadd kmul ksub : K -> K -> K) (kopp : K -> K).
  Hypothesis KR : ring_theory k0 k1 kadd kmul ksub kopp eq.
  Add Ring Kring : KR.
  Variables (dims : pt) (per : nat -> bool) (N : pt) (F : Z) (ph : pt -> K).
  Hypothesis Hdims : forall d, (d < 3)%nat -> 1 <= at_ dims d.
  Hypothesis HF : 1 <= F.
  Hypothesis HNF : forall d, (d < 3)%nat -> F * at_ dims d <= at_ N d.
  Variable g : pt -> K.
  Notation sz := (Halo.sz dims N).
  Notation st := (Halo.st dims N).
  Notation nproc := (Halo.nproc dims).
  Notation szx := (Halo.szx dims N F (fun _ => true)).
  Notation okp := (P_Halo.okp dims).
  Notation nbr26 := (NonOrth.nbr26 dims per).
  Notation sw := (NonOrthLem.sw dims per).
  Notation gx := (gx26 K k0 k1 kmul per N ph g).
  Notation send_box := (NonOrth.send_box dims per F).
  Notation recv_box := (NonOrth.recv_box dims F).
  Notation recv_corner := (NonOrth.recv_corner dims F).
  Notation count := (count26 F).
  Variable x : pt -> Z -> K.
  Hypothesis Hx : holds K dims N g x.

  Lemma N_nonneg d : (d < 3)%nat -> 0 <= at_ N d.
  Proof. intros Hd. pose proof (HNF d Hd). pose proof (Hdims d Hd). nia. Qed.
  Lemma facts p d : (d < 3)%nat -> okp p ->
    let n := at_ (sz p) d in let s := at_ (st p) d in
    F <= n /\ 0 <= s /\ s + n <= at_ N d /\ (at_ p d = 0 -> s = 0) /\ (at_ p d = at_ dims d - 1 -> s + n = at_ N d) /\
    (1 <= at_ p d -> F <= s) /\ (at_ p d + 1 < at_ dims d -> s + n + F <= at_ N d).
  Proof.
    intros Hd Hp n s. unfold n, s. rewrite (sz_at dims N p d Hd), (st_at dims N p d Hd).
    pose proof (blk_facts dims per N F (fun _ => true) Hdims N_nonneg (fun e He _ => HNF e He) d (at_ p d) Hd (Hp d Hd)) as H. cbv beta zeta in H. destruct H as (H1 & H2 & H3 & H4 & H5 & H6 & H7 & H8). repeat split; auto.
  Qed.
  (** consecutive blocks *)
  Lemma next p q d : (d < 3)%nat -> okp p -> okp q -> at_ q d = at_ p d + 1 -> at_ (st q) d = at_ (st p) d + at_ (sz p) d.
  Proof.
    intros Hd Hp Hq E. rewrite (sz_at dims N p d Hd), !(st_at dims N _ d Hd), E. pose proof (Hp d Hd). pose proof (Hq d Hd).
    apply BlockDecomp.bd_start_S; [apply N_nonneg; exact Hd|lia|lia].
  Qed.
  Definition glob26 (p b : pt) : pt := vec (fun d => at_ b d - F + at_ (st p) d).
  (** the point of block q that fills the halo point b of slot r of a block of size n *)
  Definition src26 (n n' : pt) (r : nat) (b : pt) : pt :=
    vec (fun d => at_ b d - sti (at_ (off_of r) d) F (at_ n d) + (if at_ (off_of r) d =? -1 then at_ n' d - F else 0)).
  Definition rcv26 (p : pt) (r : nat) (b : pt) : K :=
    match nbr26 p (off_of r) with None => k0 | Some q => g (addp (st q) (src26 (sz p) (sz q) r b)) end.

  Lemma recv_in26 n r b : (r < 26)%nat -> In b (recv_box n r) <->
    forall d, (d < 3)%nat -> sti (at_ (off_of r) d) F (at_ n d) <= at_ b d < eni (at_ (off_of r) d) F (at_ n d).
  Proof.
    intros Hr. unfold NonOrth.recv_box, NonOrth.recv_corner. rewrite box_in. split; intros H d Hd; specialize (H d Hd); rewrite !at_vec in * by exact Hd;
    rewrite start_in_tab_ok, end_in_tab_ok in * by assumption; exact H.
  Qed.
  Lemma nbr_coord p r q : nbr26 p (off_of r) = Some q -> forall d, (d < 3)%nat -> coord dims per p (off_of r) d = Some (at_ q d).
  Proof.
    unfold NonOrth.nbr26. destruct (coord dims per p (off_of r) 0) as [i|] eqn:E0; [|discriminate].
    destruct (coord dims per p (off_of r) 1) as [j|] eqn:E1; [|discriminate].
    destruct (coord dims per p (off_of r) 2) as [k|] eqn:E2; [|discriminate].
    intros E. injection E as <-. intros d Hd. destruct d as [|[|[|]]]; [exact E0|exact E1|exact E2|lia].
  Qed.
  Lemma nbr_none p r : nbr26 p (off_of r) = None -> exists d, (d < 3)%nat /\ coord dims per p (off_of r) d = None.
  Proof.
    unfold NonOrth.nbr26. destruct (coord dims per p (off_of r) 0) as [i|] eqn:E0; [|intros _; exists 0%nat; split; [lia|exact E0]].
    destruct (coord dims per p (off_of r) 1) as [j|] eqn:E1; [|intros _; exists 1%nat; split; [lia|exact E1]].
    destruct (coord dims per p (off_of r) 2) as [k|] eqn:E2; [discriminate|intros _; exists 2%nat; split; [lia|exact E2]].
  Qed.
  Notation cellof := (cellof N).
  (** one dimension: the source point is the halo point moved by the period *)
  Lemma dim_src p r q b d : (r < 26)%nat -> (d < 3)%nat -> okp p -> nbr26 p (off_of r) = Some q -> In b (recv_box (sz p) r) ->
    at_ (st q) d + at_ (src26 (sz p) (sz q) r b) d = at_ (glob26 p b) d - at_ (cellof (glob26 p b)) d * at_ N d /\
    0 <= at_ (src26 (sz p) (sz q) r b) d < at_ (sz q) d /\
    (per d = false -> at_ (cellof (glob26 p b)) d = 0).
  Proof.
    intros Hr Hd Hp E Hb. pose proof (nbr_okp dims per Hdims p r q Hr Hp E) as Hq.
    pose proof (nbr_coord p r q E d Hd) as C. rewrite recv_in26 in Hb by exact Hr. specialize (Hb d Hd).
    pose proof (off_tern r d Hr Hd) as Ho. unfold src26, glob26, P_NonOrth.cellof. rewrite !at_vec by exact Hd.
    pose proof (facts p d Hd Hp) as FP. pose proof (facts q d Hd Hq) as FQ. cbv zeta in FP, FQ.
    pose proof (next p q d Hd Hp Hq) as NX. pose proof (next q p d Hd Hq Hp) as NY.
    pose proof (Hp d Hd) as Pp. pose proof (Hq d Hd) as Pq. pose proof (Hdims d Hd) as Pd. pose proof (HNF d Hd) as NFd.
    assert (SAME : at_ q d = at_ p d -> at_ (st q) d = at_ (st p) d /\ at_ (sz q) d = at_ (sz p) d).
    { intros X. rewrite !(sz_at dims N _ d Hd), !(st_at dims N _ d Hd), X. split; reflexivity. }
    unfold NonOrth.coord in C. revert C Hb. generalize (at_ (off_of r) d) Ho. intros o Ho' C Hb. clear Ho E.
    revert FP FQ NX NY SAME Hb.
    generalize (at_ (sz p) d) (at_ (st p) d) (at_ (sz q) d) (at_ (st q) d). intros n s n' s' FP FQ NX NY SAME Hb.
    unfold sti, eni in *. revert FP FQ NX NY SAME Hb C Pp Pq Pd NFd.
    generalize (at_ p d) (at_ q d) (at_ dims d) (at_ N d) (at_ b d). intros cp cq D Nd bd FP FQ NX NY SAME Hb C Pp Pq Pd NFd.
    assert (NN : F <= Nd) by (clear - NFd HF Pd; nia). clear NFd.
    destruct FP as (p1 & p2 & p3 & p4 & p5 & p6 & p7). destruct FQ as (q1 & q2 & q3 & q4 & q5 & q6 & q7). clear p6 p7 q6 q7 Hx Hdims HNF Hr Hd Hp Hq.
    destruct Ho' as [-> | [-> | ->]]; cbn [Z.eqb Pos.eqb] in *.
    - assert (W : (cp = 0 /\ per d = true /\ cq = D - 1) \/ (cp = cq + 1)).
      { clear - C Pp Pd. destruct (per d).
        - injection C as C. destruct (cp + -1 <? 0) eqn:A1; [left; lia|]. destruct (D <=? cp + -1) eqn:A2; lia.
        - destruct ((cp + -1 <? 0) || (D <=? cp + -1)) eqn:A; [discriminate C|]. injection C as C. right. lia. }
      clear C. destruct W as [(E1 & E2 & E3) | E1].
      + rewrite (p4 E1) in *. specialize (q5 E3). rewrite E2. clear - Hb q5 p1 q1 p3 q3 NN HF. assert (bd - F + 0 <? 0 = true) as -> by lia. split; [lia|]. split; [lia|discriminate].
      + specialize (NY E1). clear - NY Hb p1 p2 p3 q1 q2 q3. assert (bd - F + s <? 0 = false) as -> by lia. assert (Nd <=? bd - F + s = false) as -> by lia. lia.
    - assert (cq = cp) as X.
      { clear - C Pp. destruct (per d); [injection C as C|]. { destruct (cp + 0 <? 0) eqn:A1; [lia|]. destruct (D <=? cp + 0) eqn:A2; lia. } destruct ((cp + 0 <? 0) || (D <=? cp + 0)) eqn:A; [discriminate C|]. injection C as C. lia. }
      destruct (SAME X) as [-> ->]. clear - Hb p1 p2 p3. assert (bd - F + s <? 0 = false) as -> by lia. assert (Nd <=? bd - F + s = false) as -> by lia. lia.
    - assert (W : (cp = D - 1 /\ per d = true /\ cq = 0) \/ (cq = cp + 1)).
      { clear - C Pp Pd. destruct (per d).
        - injection C as C. destruct (cp + 1 <? 0) eqn:A1; [lia|]. destruct (D <=? cp + 1) eqn:A2; [left; lia|right; lia].
        - destruct ((cp + 1 <? 0) || (D <=? cp + 1)) eqn:A; [discriminate C|]. injection C as C. right. lia. }
      clear C. destruct W as [(E1 & E2 & E3) | E1].
      + rewrite (q4 E3) in *. specialize (p5 E1). rewrite E2. clear - Hb p5 p1 p2 q1 q3 NN. assert (bd - F + s <? 0 = false) as -> by lia. assert (Nd <=? bd - F + s = true) as -> by lia. split; [lia|]. split; [lia|discriminate].
      + specialize (NX E1). clear - NX Hb p1 p2 p3 q1 q2 q3. assert (bd - F + s <? 0 = false) as -> by lia. assert (Nd <=? bd - F + s = false) as -> by lia. lia.
  Qed.

  (** cells *)
  Lemma cell_const p r b : (r < 26)%nat -> okp p -> In b (recv_box (sz p) r) ->
    cellof (glob26 p b) = cellof (glob26 p (recv_corner (sz p) r)).
  Proof.
    intros Hr Hp Hb. apply pt_ext. intros d Hd. rewrite recv_in26 in Hb by exact Hr. specialize (Hb d Hd).
    unfold P_NonOrth.cellof, glob26, NonOrth.recv_corner. rewrite !at_vec by exact Hd. rewrite start_in_tab_ok by assumption.
    pose proof (off_tern r d Hr Hd) as Ho. pose proof (facts p d Hd Hp) as FP. cbv zeta in FP. pose proof (Hp d Hd) as Pp.
    revert Hb FP Pp Ho. generalize (at_ (off_of r) d) (at_ (sz p) d) (at_ (st p) d) (at_ p d) (at_ dims d) (at_ N d) (at_ b d).
    intros o n s cp D Nd bd Hb FP Pp Ho. unfold sti, eni in *.
    destruct Ho as [-> | [-> | ->]]; cbn [Z.eqb Pos.eqb] in *.
    - destruct (Z.eq_dec cp 0) as [E0 | E0].
      + assert (s = 0) by tauto. subst s. replace (bd - F + 0 <? 0) with true by lia. replace (0 - F + 0 <? 0) with true by lia. reflexivity.
      + assert (F <= s) by (apply FP; lia). replace (bd - F + s <? 0) with false by lia. replace (0 - F + s <? 0) with false by lia.
        replace (Nd <=? bd - F + s) with false by lia. replace (Nd <=? 0 - F + s) with false by lia. reflexivity.
    - replace (bd - F + s <? 0) with false by lia. replace (F - F + s <? 0) with false by lia.
      replace (Nd <=? bd - F + s) with false by lia. replace (Nd <=? F - F + s) with false by lia. reflexivity.
    - replace (bd - F + s <? 0) with false by lia. replace (n + F - F + s <? 0) with false by lia.
      destruct (Z_lt_dec (cp + 1) D) as [E0 | E0].
      + assert (s + n + F <= Nd) by (apply FP; lia). replace (Nd <=? bd - F + s) with false by lia. replace (Nd <=? n + F - F + s) with false by lia. reflexivity.
      + assert (s + n = Nd) by (apply FP; lia). replace (Nd <=? bd - F + s) with true by lia. replace (Nd <=? n + F - F + s) with true by lia. reflexivity.
  Qed.
  Definition fac (o : pt) : K := if pt_eqb o (0, 0, 0) then k1 else ph o.
  Lemma cell_tern G d : (d < 3)%nat -> tern (at_ (cellof G) d).
  Proof. intros Hd. unfold P_NonOrth.cellof, tern. rewrite at_vec by exact Hd. destruct (_ <? _); [lia|]. destruct (_ <=? _); lia. Qed.
  Lemma offs_nth s : (s < 26)%nat -> nth_error offs s = Some (off_of s).
  Proof.
    intros H. Local Transparent off_of. unfold off_of. Local Opaque off_of. apply nth_error_nth'. replace (length offs) with 26%nat by reflexivity. exact H.
  Qed.
  Lemma block_phase_ok p r : (r < 26)%nat -> okp p -> block_phase K k1 dims N F ph p r = Ok (fac (cellof (glob26 p (recv_corner (sz p) r)))).
  Proof.
    intros Hr Hp. unfold block_phase, grid_outside_region. cbn [v0 v2 v4]. set (t := recv_corner (sz p) r). cbv zeta.
    assert (I : forall d, (d < 3)%nat -> b2z (0 <=? at_ t d + - F + at_ (st p) d) - b2z (at_ t d + - F + at_ (st p) d <? at_ N d) = at_ (cellof (glob26 p t)) d).
    { intros d Hd. unfold P_NonOrth.cellof, glob26. rewrite !at_vec by exact Hd. pose proof (HNF d Hd). pose proof (Hdims d Hd). assert (1 <= at_ N d) by nia.
      replace (at_ t d - F + at_ (st p) d) with (at_ t d + - F + at_ (st p) d) by lia. generalize (at_ t d + - F + at_ (st p) d). intros z.
      destruct (z <? 0) eqn:A; [replace (0 <=? z) with false by lia; replace (z <? at_ N d) with true by lia; reflexivity|].
      replace (0 <=? z) with true by lia. destruct (at_ N d <=? z) eqn:B; [replace (z <? at_ N d) with false by lia|replace (z <? at_ N d) with true by lia]; reflexivity. }
    rewrite (I 0%nat), (I 1%nat), (I 2%nat) by lia.
    assert (CT : forall d, (d < 3)%nat -> tern (at_ (cellof (glob26 p t)) d)) by (intros; apply cell_tern; assumption).
    revert CT. generalize (cellof (glob26 p t)). intros o CT. fold (idx27 o). unfold fac.
    destruct (pt_eqb o (0, 0, 0)) eqn:E.
    - apply pt_eqb_eq in E. subst o. reflexivity.
    - assert (Ne : o <> (0, 0, 0)) by (intros X; apply pt_eqb_eq in X; congruence).
      destruct (slot_off o CT Ne) as [S1 S2].
      assert (R : 0 <= idx27 o <= 26 /\ idx27 o <> 13).
      { unfold idx27. pose proof (CT 0%nat ltac:(lia)) as T0. pose proof (CT 1%nat ltac:(lia)) as T1. pose proof (CT 2%nat ltac:(lia)) as T2. unfold tern in *.
        split; [lia|]. intros X. apply Ne. apply pt_ext. intros d Hd. destruct d as [|[|[|]]]; [| | |lia]; cbn [at_] in *; lia. }
      replace (idx27 o =? 13) with false by lia.
      assert (SE : slot_of o = Z.to_nat (if idx27 o <? 13 then idx27 o else idx27 o - 1)). { Local Transparent slot_of. reflexivity. Local Opaque slot_of. }
      rewrite <- SE. replace (0 <=? (if idx27 o <? 13 then idx27 o else idx27 o - 1)) with true by (destruct (idx27 o <? 13) eqn:A; lia).
      rewrite offs_nth, S2 by exact S1. reflexivity.
  Qed.
  (** the value received, with its phase factor, is the one of the specification *)
  Lemma existsb_false (f : nat -> bool) : (forall d, (d < 3)%nat -> f d = false) -> existsb f [0; 1; 2]%nat = false.
  Proof. intros H. cbn [existsb]. rewrite !H by lia. reflexivity. Qed.
  Lemma existsb_at (f : nat -> bool) d : (d < 3)%nat -> f d = true -> existsb f [0; 1; 2]%nat = true.
  Proof. intros Hd H. apply existsb_exists. exists d. split; [|exact H]. destruct d as [|[|[|]]]; cbn; intuition lia. Qed.
  Lemma phased26 p r b : (r < 26)%nat -> okp p -> In b (recv_box (sz p) r) ->
    kmul (rcv26 p r b) (fac (cellof (glob26 p b))) = gx (glob26 p b).
  Proof.
    intros Hr Hp Hb. unfold gx26, rcv26. cbv zeta. destruct (nbr26 p (off_of r)) as [q|] eqn:E.
    - rewrite existsb_false.
      2:{ intros d Hd. destruct (per d) eqn:Ep; [reflexivity|]. cbn [negb andb]. destruct (dim_src p r q b d Hr Hd Hp E Hb) as (_ & _ & H3). rewrite (H3 Ep). reflexivity. }
      unfold fac. f_equal. f_equal. apply pt_ext. intros d Hd. destruct (dim_src p r q b d Hr Hd Hp E Hb) as (H1 & _). unfold addp. rewrite !at_vec by exact Hd. exact H1.
    - destruct (nbr_none p r E) as [d [Hd C]].
      rewrite (existsb_at _ d Hd); [ring|].
      unfold NonOrth.coord in C. destruct (per d) eqn:Ep; [discriminate C|]. cbn [negb andb].
      rewrite recv_in26 in Hb by exact Hr. specialize (Hb d Hd). unfold P_NonOrth.cellof, glob26. rewrite !at_vec by exact Hd.
      pose proof (off_tern r d Hr Hd) as Ho. pose proof (facts p d Hd Hp) as FP. cbv zeta in FP. pose proof (Hp d Hd) as Pp.
      destruct ((at_ p d + at_ (off_of r) d <? 0) || (at_ dims d <=? at_ p d + at_ (off_of r) d)) eqn:A; [|discriminate C].
      revert Hb FP Pp Ho A. generalize (at_ (off_of r) d) (at_ (sz p) d) (at_ (st p) d) (at_ p d) (at_ dims d) (at_ N d) (at_ b d).
      intros o n s cp D Nd bd Hb FP Pp Ho A. unfold sti, eni in *.
      destruct Ho as [-> | [-> | ->]]; cbn [Z.eqb Pos.eqb] in *.
      + assert (s = 0) by (apply FP; lia). replace (bd - F + s <? 0) with true by lia. reflexivity.
      + lia.
      + assert (s + n = Nd) by (apply FP; lia). replace (bd - F + s <? 0) with false by lia. replace (Nd <=? bd - F + s) with true by lia. reflexivity.
  Qed.
  (** send blocks *)
  Lemma nproc_pos : 1 <= nproc.
  Proof. unfold Halo.nproc. pose proof (Hdims 0 ltac:(lia)). pose proof (Hdims 1 ltac:(lia)). pose proof (Hdims 2 ltac:(lia)). nia. Qed.
  Notation rv := (rev_ nproc dims per).
  Lemma send_in26 q s c : (s < 26)%nat -> okp q -> In c (send_box (sz q) s) -> inblk (sz q) c.
  Proof.
    intros Hs Hq Hc d Hd. unfold NonOrth.send_box in Hc. rewrite box_in in Hc. specialize (Hc d Hd). rewrite !at_vec in Hc by exact Hd.
    rewrite start_tab_ok, end_tab_ok in Hc by assumption. pose proof (facts q d Hd Hq) as FQ. cbv zeta in FQ. unfold st1, en1 in Hc.
    destruct (_ =? 0); [lia|]. destruct (Bool.eqb _ _); lia.
  Qed.
  Lemma send_len26 q s : (s < 26)%nat -> okp q -> Z.of_nat (length (send_box (sz q) s)) = count (sz q) s.
  Proof.
    intros Hs Hq. unfold NonOrth.send_box. rewrite box_len.
    - rewrite !at_vec by lia. rewrite !start_tab_ok, !end_tab_ok by (assumption || lia). rewrite !len_send by (apply off_tern; [exact Hs|lia]). rewrite count_ok by exact Hs. ring.
    - intros d Hd. rewrite !at_vec by exact Hd. rewrite start_tab_ok, end_tab_ok by assumption.
      pose proof (len_send (rv d) (at_ (off_of s) d) F (at_ (sz q) d) (off_tern s d Hs Hd)). pose proof (facts q d Hd Hq) as FQ. cbv zeta in FQ. unfold len1 in *. destruct (_ =? 0); lia.
  Qed.
  Lemma recv_len26 p r : (r < 26)%nat -> okp p -> Z.of_nat (length (recv_box (sz p) r)) = count (sz p) r.
  Proof.
    intros Hr Hp. unfold NonOrth.recv_box, NonOrth.recv_corner. rewrite box_len.
    - rewrite !at_vec by lia. rewrite !start_in_tab_ok, !end_in_tab_ok by (assumption || lia). rewrite !len_recv by (apply off_tern; [exact Hr|lia]). rewrite count_ok by exact Hr. ring.
    - intros d Hd. rewrite !at_vec by exact Hd. rewrite start_in_tab_ok, end_in_tab_ok by assumption.
      pose proof (len_recv (at_ (off_of r) d) F (at_ (sz p) d) (off_tern r d Hr Hd)). pose proof (facts p d Hd Hp) as FQ. cbv zeta in FQ. unfold len1 in *. destruct (_ =? 0); lia.
  Qed.
  Definition sendvals (q : pt) (s : nat) : list K := map (fun c => g (addp (st q) c)) (send_box (sz q) s).
  Definition recvvals (p : pt) (r : nat) : list K := map (rcv26 p r) (recv_box (sz p) r).
  Lemma flat_len q : okp q -> Z.of_nat (length (flat_map (sendvals q) slots26)) = nd26 F (sz q).
  Proof.
    intros Hq. rewrite <- displ_total. Local Transparent slots26. unfold slots26. Local Opaque slots26. apply (displ_len K).
    - intros s Hs. unfold sendvals. rewrite map_length. apply send_len26; assumption.
    - lia.
  Qed.
  Lemma pack_ok q : okp q -> pack26 K dims per F (sz q) (x q) = Ok (flat_map (sendvals q) slots26).
  Proof.
    intros Hq. unfold pack26.
    rewrite (omap_ok _ (fun c => g (addp (st q) c))).
    2:{ intros c Hc. apply in_flat_map in Hc as [s [Hs Hc]]. apply in26 in Hs. apply (rdx_ok K dims N g x Hx); [exact Hq|]. apply (send_in26 q s); assumption. }
    cbn [obind]. rewrite map_flat_map. change (flat_map (fun x0 => map (fun c => g (addp (st q) c)) (send_box (sz q) x0)) slots26) with (flat_map (sendvals q) slots26).
    rewrite (flat_len q Hq), Z.leb_refl. reflexivity.
  Qed.
  (** the send block of slot s is the receive block of slot r, moved *)
  Lemma same_dim p r q d : (r < 26)%nat -> (d < 3)%nat -> okp p -> nbr26 p (off_of r) = Some q -> at_ (off_of r) d = 0 -> at_ (sz q) d = at_ (sz p) d.
  Proof.
    intros Hr Hd Hp E O. pose proof (nbr_coord p r q E d Hd) as C. unfold NonOrth.coord in C. rewrite O in C. pose proof (Hp d Hd).
    rewrite !(sz_at dims N _ d Hd). f_equal. destruct (per d); [injection C as C|]. { destruct (at_ p d + 0 <? 0) eqn:A1; [lia|]. destruct (at_ dims d <=? at_ p d + 0) eqn:A2; lia. }
    destruct (_ || _) eqn:A; [discriminate C|]. injection C as C. lia.
  Qed.
  Lemma send_recv p r q s : (r < 26)%nat -> (s < 26)%nat -> okp p -> nbr26 p (off_of r) = Some q ->
    (forall d, (d < 3)%nat -> at_ (off_of s) d = if rv d then at_ (off_of r) d else - at_ (off_of r) d) ->
    sendvals q s = recvvals p r.
  Proof.
    intros Hr Hs Hp E EO. unfold sendvals, recvvals.
    unfold NonOrth.send_box.
    rewrite (box_same (recv_corner (sz p) r) (vec (fun d => nth r (end_in_tab nproc F (sz p) d) 0))
      (vec (fun d => nth s (start_tab nproc dims per F (sz q) d) 0)) (vec (fun d => nth s (end_tab nproc dims per F (sz q) d) 0))).
    - fold (recv_box (sz p) r). rewrite map_map. apply map_ext_in. intros b Hb. unfold rcv26. rewrite E. f_equal. f_equal.
      apply pt_ext. intros d Hd. unfold src26, NonOrth.recv_corner. rewrite !at_vec by exact Hd. rewrite start_in_tab_ok, start_tab_ok by assumption. f_equal.
      rewrite (EO d Hd). pose proof (off_tern r d Hr Hd) as Ho. unfold st1. destruct Ho as [-> | [-> | ->]], (rv d); reflexivity.
    - intros d Hd. unfold NonOrth.recv_corner. rewrite !at_vec by exact Hd. rewrite start_tab_ok, end_tab_ok, start_in_tab_ok, end_in_tab_ok by assumption.
      rewrite len_send by (apply off_tern; assumption). rewrite len_recv by (apply off_tern; assumption). rewrite (EO d Hd).
      pose proof (same_dim p r q d Hr Hd Hp E) as SD. pose proof (off_tern r d Hr Hd) as Ho. unfold len1. destruct Ho as [Ho | [Ho | Ho]]; rewrite Ho in *; destruct (rv d); try reflexivity; cbn [Z.eqb Z.opp]; auto.
  Qed.
  Lemma message_ok26 p r : (r < 26)%nat -> okp p -> 1 < nproc ->
    message26 K dims per N F x p r = Ok (match nbr26 p (off_of r) with None => None | Some _ => Some (recvvals p r) end).
  Proof.
    intros Hr Hp HP. unfold message26. destruct (nbr26 p (off_of r)) as [q|] eqn:E; [|reflexivity].
    pose proof (nbr_okp dims per Hdims p r q Hr Hp E) as Hq.
    destruct (match26_ok dims per Hdims p r q Hr Hp E) as (M1 & M2 & M3). rewrite M1. set (s := slot_of _) in *. clearbody s.
    rewrite pack_ok by exact Hq. cbn [obind]. rewrite (slice26 K F (sz q) (sendvals q)) by (first [assumption | intros; unfold sendvals; rewrite map_length; apply send_len26; assumption]).
    cbn [obind]. rewrite (send_recv p r q s Hr M2 Hp E).
    - unfold recvvals at 1. rewrite map_length, recv_len26, Z.eqb_refl by assumption. reflexivity.
    - intros d Hd. unfold rev_. replace (1 <? nproc) with true by lia. apply M3. exact Hd.
  Qed.
  Lemma recvvals_len p r : (r < 26)%nat -> okp p -> Z.of_nat (length (recvvals p r)) = count (sz p) r.
  Proof. intros Hr Hp. unfold recvvals. rewrite map_length. apply recv_len26; assumption. Qed.
  Lemma count_nonneg p r : (r < 26)%nat -> okp p -> 0 <= count (sz p) r.
  Proof. intros Hr Hp. rewrite <- recv_len26 by assumption. lia. Qed.
  Lemma displ_S n s : displ26 F n (S s) = displ26 F n s + count26 F n s.
  Proof. reflexivity. Qed.
  Lemma displ_le p : okp p -> forall k s, (s + k <= 26)%nat -> displ26 F (sz p) s <= displ26 F (sz p) (s + k).
  Proof.
    intros Hp. induction k as [|k IH]; intros s H; [rewrite Nat.add_0_r; lia|]. rewrite Nat.add_succ_r, displ_S. pose proof (IH s ltac:(lia)). pose proof (count_nonneg p (s + k) ltac:(lia) Hp). lia.
  Qed.
  Lemma receive_ok26 p : okp p -> 1 < nproc -> forall k s, (s + k = 26)%nat ->
    receive26 K dims per N F x p (seq s k) (flat_map (recvvals p) (seq 0 s) ++ repeat k0 (Z.to_nat (nd26 F (sz p) - displ26 F (sz p) s))) = Ok (flat_map (recvvals p) slots26).
  Proof.
    intros Hp HP. assert (LN : forall r, (r < 26)%nat -> Z.of_nat (length (recvvals p r)) = count (sz p) r) by (intros; apply recvvals_len; assumption).
    induction k as [|k IH]; intros s Hs.
    - assert (s = 26)%nat by lia. subst s. rewrite displ_total, Z.sub_diag. cbn [repeat seq receive26 Z.to_nat]. rewrite app_nil_r. reflexivity.
    - assert (Hr : (s < 26)%nat) by lia. cbn [seq receive26]. rewrite message_ok26 by assumption. cbn [obind].
      specialize (IH (S s) ltac:(lia)). rewrite seq_S, flat_map_app in IH. cbn [flat_map Nat.add] in IH. rewrite app_nil_r, <- app_assoc, displ_S in IH.
      pose proof (displ_len K F (sz p) (recvvals p) LN s ltac:(lia)) as PL. pose proof (count_nonneg p s Hr Hp) as CN.
      pose proof (displ_le p Hp k (S s) ltac:(lia)) as DL. replace (S s + k)%nat with 26%nat in DL by lia. rewrite displ_S, displ_total in DL.
      replace (Z.to_nat (nd26 F (sz p) - displ26 F (sz p) s)) with (Z.to_nat (count (sz p) s) + Z.to_nat (nd26 F (sz p) - (displ26 F (sz p) s + count (sz p) s)))%nat by lia.
      rewrite repeat_app. pose proof (LN s Hr) as LR.
      destruct (nbr26 p (off_of s)) as [q|] eqn:EN.
      + unfold place. rewrite <- PL. rewrite !app_length, !repeat_length.
        match goal with |- context [if ?c then _ else _] => replace c with true by lia end. cbn [obind].
        rewrite !Nat2Z.id. rewrite firstn_app, firstn_all, Nat.sub_diag. cbn [firstn]. rewrite app_nil_r.
        rewrite skipn_app. rewrite skipn_all2 by lia. rewrite skipn_app, skipn_all2 by (rewrite repeat_length; lia).
        rewrite repeat_length. cbn [app].
        replace (length (flat_map (recvvals p) (seq 0 s)) + length (recvvals p s) - length (flat_map (recvvals p) (seq 0 s)) - Z.to_nat (count (sz p) s))%nat with 0%nat by lia.
        cbn [skipn]. rewrite PL. exact IH.
      + cbn [obind]. replace (repeat k0 (Z.to_nat (count (sz p) s))) with (recvvals p s); [exact IH|].
        rewrite <- LR, Nat2Z.id. unfold recvvals. rewrite map_length. generalize (recv_box (sz p) s) as l0. intros l0.
        clear - EN. induction l0 as [|c l0 IH]; [reflexivity|]. cbn [map length repeat]. rewrite <- IH. unfold rcv26 at 1. rewrite EN. reflexivity.
  Qed.
  Definition targets26 (p : pt) : list (nat * pt) := flat_map (fun s => map (fun q => (s, q)) (recv_box (sz p) s)) slots26.
  Lemma halo_recv_ok26 p : okp p -> 1 < nproc ->
    halo_recv26 K k0 k1 kmul dims per N F ph x p = Ok (map (fun z => (lin (szx p) (snd z), gx (glob26 p (snd z)))) (targets26 p)).
  Proof.
    intros Hp HP. unfold halo_recv26. cbv zeta.
    pose proof (receive_ok26 p Hp HP 26 0 eq_refl) as R. cbn [flat_map app seq displ26] in R. rewrite Z.sub_0_r in R.
    assert (SE : slots26 = seq 0 26). { Local Transparent slots26. reflexivity. Local Opaque slots26. }
    change (seq 0 26) with [0;1;2;3;4;5;6;7;8;9;10;11;12;13;14;15;16;17;18;19;20;21;22;23;24;25]%nat in SE. rewrite <- SE in R. rewrite R. clear R. cbn [obind].
    rewrite (omap_ok _ (fun r => fac (cellof (glob26 p (recv_corner (sz p) r))))).
    2:{ intros r Hr. apply in26 in Hr. apply block_phase_ok; assumption. }
    cbn [obind]. fold (targets26 p).
    assert (E : flat_map (recvvals p) slots26 = map (fun z => rcv26 p (fst z) (snd z)) (targets26 p)).
    { unfold targets26. rewrite map_flat_map. apply flat_map_ext. intros s. unfold recvvals. rewrite map_map. reflexivity. }
    rewrite E, map_length, Z.leb_refl. rewrite combine_map, map_map. f_equal. apply map_ext_in. intros [s c] Hz. cbn [fst snd]. f_equal.
    unfold targets26 in Hz. apply in_flat_map in Hz as [s' [Hs Hz]]. apply in_map_iff in Hz as [c' [Ez Hc]]. injection Ez as -> ->. apply in26 in Hs.
    rewrite (nth_indep _ k1 (fac (cellof (glob26 p (recv_corner (sz p) 0))))).
    2:{ rewrite map_length, SE. cbn [length]. exact Hs. }
    rewrite (map_nth (fun r => fac (cellof (glob26 p (recv_corner (sz p) r))))).
    replace (nth s slots26 0%nat) with s.
    2:{ change [0;1;2;3;4;5;6;7;8;9;10;11;12;13;14;15;16;17;18;19;20;21;22;23;24;25]%nat with (seq 0 26) in SE. rewrite SE, seq_nth by exact Hs. reflexivity. }
    rewrite <- (cell_const p s c Hs Hp Hc). apply phased26; assumption.
  Qed.
  Definition self26 (p : pt) : list (Z * K) :=
    flat_map (fun s => if live per (off_of s) then map (fun b => (lin (szx p) b, gx (glob26 p b))) (recv_box (sz p) s) else []) slots26.
  Lemma one_proc : nproc = 1 -> forall d, (d < 3)%nat -> at_ dims d = 1.
  Proof.
    intros H1 d Hd. unfold Halo.nproc in H1. pose proof (Hdims 0 ltac:(lia)). pose proof (Hdims 1 ltac:(lia)). pose proof (Hdims 2 ltac:(lia)).
    assert (at_ dims 0 * at_ dims 1 * at_ dims 2 >= at_ dims 0 * at_ dims 1) by nia.
    assert (at_ dims 0 * at_ dims 1 >= at_ dims 0) by nia. assert (at_ dims 0 * at_ dims 1 >= at_ dims 1) by nia. assert (at_ dims 0 * at_ dims 1 * at_ dims 2 >= at_ dims 2) by nia.
    destruct d as [|[|[|]]]; lia.
  Qed.
  Lemma self_nbr p r : (r < 26)%nat -> okp p -> nproc = 1 -> nbr26 p (off_of r) = if live per (off_of r) then Some p else None.
  Proof.
    intros Hr Hp H1.
    assert (C : forall d, (d < 3)%nat -> coord dims per p (off_of r) d = if (at_ (off_of r) d =? 0) || per d then Some (at_ p d) else None).
    { intros d Hd. pose proof (one_proc H1 d Hd) as D1. pose proof (Hp d Hd) as Pp. pose proof (off_tern r d Hr Hd) as Ho. unfold NonOrth.coord. rewrite D1 in *.
      assert (P0 : at_ p d = 0) by lia. rewrite P0. destruct Ho as [-> | [-> | ->]], (per d); reflexivity. }
    unfold NonOrth.nbr26, live. rewrite (C 0%nat), (C 1%nat), (C 2%nat) by lia.
    destruct ((at_ (off_of r) 0 =? 0) || per 0%nat); [|reflexivity]. destruct ((at_ (off_of r) 1 =? 0) || per 1%nat); [|reflexivity].
    destruct ((at_ (off_of r) 2 =? 0) || per 2%nat); [|reflexivity]. cbn [andb]. destruct p as [[i j] k]. reflexivity.
  Qed.
  Lemma self_cell p r b : (r < 26)%nat -> okp p -> nproc = 1 -> In b (recv_box (sz p) r) -> cellof (glob26 p b) = off_of r.
  Proof.
    intros Hr Hp H1 Hb. apply pt_ext. intros d Hd. rewrite recv_in26 in Hb by exact Hr. specialize (Hb d Hd).
    pose proof (one_proc H1 d Hd) as D1. pose proof (Hp d Hd) as Pp. pose proof (off_tern r d Hr Hd) as Ho.
    pose proof (facts p d Hd Hp) as FP. cbv zeta in FP. unfold P_NonOrth.cellof, glob26. rewrite !at_vec by exact Hd. rewrite D1 in *.
    destruct FP as (p1 & p2 & p3 & p4 & p5 & _). specialize (p4 ltac:(clear - Pp; lia)). specialize (p5 ltac:(clear - Pp; lia)). rewrite p4 in *.
    revert Hb Ho p1 p5. generalize (at_ (off_of r) d) (at_ (sz p) d) (at_ b d). intros o n bd Hb Ho p1 p5. clear - Hb Ho p1 p5. unfold sti, eni in Hb.
    destruct Ho as [-> | [-> | ->]]; cbn [Z.eqb Pos.eqb] in Hb.
    - replace (bd - F + 0 <? 0) with true by lia. reflexivity.
    - replace (bd - F + 0 <? 0) with false by lia. replace (at_ N d <=? bd - F + 0) with false by lia. reflexivity.
    - replace (bd - F + 0 <? 0) with false by lia. replace (at_ N d <=? bd - F + 0) with true by lia. reflexivity.
  Qed.
  Lemma outside_cell p b : okp p -> is_grid_outside (at_ b 0) (at_ b 1) (at_ b 2) (- F) (- F) (- F)
      (DM (at_ (st p) 0) (at_ (st p) 0 + at_ (sz p) 0 - 1) (at_ (st p) 1) (at_ (st p) 1 + at_ (sz p) 1 - 1) (at_ (st p) 2) (at_ (st p) 2 + at_ (sz p) 2 - 1))
      (at_ N 0) (at_ N 1) (at_ N 2) = negb (pt_eqb (cellof (glob26 p b)) (0, 0, 0)).
  Proof.
    intros Hp. unfold is_grid_outside. cbn [v0 v2 v4]. cbv zeta.
    assert (I : forall d, (d < 3)%nat -> ((at_ b d + - F + at_ (st p) d <? 0) || (at_ b d + - F + at_ (st p) d >=? at_ N d)) = negb (at_ (cellof (glob26 p b)) d =? 0)).
    { intros d Hd. unfold P_NonOrth.cellof, glob26. rewrite !at_vec by exact Hd. replace (at_ b d - F + at_ (st p) d) with (at_ b d + - F + at_ (st p) d) by lia.
      generalize (at_ b d + - F + at_ (st p) d). intros z. rewrite Z.geb_leb. destruct (z <? 0); [reflexivity|]. destruct (at_ N d <=? z); reflexivity. }
    pose proof (I 0%nat ltac:(lia)) as I0. pose proof (I 1%nat ltac:(lia)) as I1. pose proof (I 2%nat ltac:(lia)) as I2.
    rewrite <- !orb_assoc, (orb_assoc (at_ b 1 + - F + at_ (st p) 1 <? 0)), (orb_assoc (at_ b 0 + - F + at_ (st p) 0 <? 0)).
    rewrite I0, I1, I2. unfold pt_eqb. generalize (cellof (glob26 p b)). intros [[i j] k]. cbn [at_]. destruct (i =? 0), (j =? 0), (k =? 0); reflexivity.
  Qed.
  Lemma halo_self_ok26 p : okp p -> nproc = 1 -> halo_self26 K kmul dims per N F ph x p = Ok (self26 p).
  Proof.
    intros Hp H1. unfold halo_self26. cbv zeta. unfold self26. apply omap_concat. intros s Hs. apply in26 in Hs. rewrite isnonzero_ok by exact Hs.
    destruct (live per (off_of s)) eqn:L; [|reflexivity].
    pose proof (self_nbr p s Hs Hp H1) as E. rewrite L in E.
    rewrite (omap_ok _ (fun c => g (addp (st p) c))).
    2:{ intros c Hc. apply (rdx_ok K dims N g x Hx); [exact Hp|]. apply (send_in26 p s); assumption. }
    cbn [obind]. fold (sendvals p s). rewrite (send_recv p s p s Hs Hs Hp E).
    2:{ intros d Hd. unfold rev_. rewrite H1. reflexivity. }
    unfold recvvals. rewrite combine_map, map_map. f_equal. apply map_ext_in. intros b Hb. cbn [fst snd]. f_equal.
    rewrite outside_cell by exact Hp. rewrite <- (phased26 p s b Hs Hp Hb), (self_cell p s b Hs Hp H1 Hb). unfold fac.
    pose proof (off_nonzero s Hs) as Z0. destruct (pt_eqb (off_of s) (0, 0, 0)) eqn:X; [apply pt_eqb_eq in X; contradiction|]. reflexivity.
  Qed.

  (** ** x_ex *)
  Lemma szx_at26 p d : (d < 3)%nat -> at_ (szx p) d = at_ (sz p) d + 2 * F.
  Proof. intros H. unfold Halo.szx, Halo.w. rewrite at_vec by exact H. reflexivity. Qed.
  Lemma recv_inblk p s b : (s < 26)%nat -> okp p -> In b (recv_box (sz p) s) -> inblk (szx p) b.
  Proof.
    intros Hs Hp Hb d Hd. rewrite szx_at26 by exact Hd. rewrite recv_in26 in Hb by exact Hs. specialize (Hb d Hd). pose proof (off_tern s d Hs Hd) as Ho.
    pose proof (facts p d Hd Hp) as FP. cbv zeta in FP. destruct FP as (p1 & p2 & _). clear - Hb Ho p1 p2 HF. revert Hb Ho. generalize (at_ (off_of s) d). intros o Hb Ho. unfold sti, eni in Hb. destruct Ho as [-> | [-> | ->]]; cbn [Z.eqb Pos.eqb] in Hb; lia.
  Qed.
  (** every point of the extended block lies in the interior or in one receive block *)
  Lemma cover26 p b : okp p -> inblk (szx p) b ->
    (forall d, (d < 3)%nat -> F <= at_ b d < at_ (sz p) d + F) \/ exists s, (s < 26)%nat /\ In b (recv_box (sz p) s).
  Proof.
    intros Hp Hb. set (o := vec (fun d => if at_ b d <? F then -1 else if at_ b d <? at_ (sz p) d + F then 0 else 1)).
    assert (OT : forall d, (d < 3)%nat -> tern (at_ o d)).
    { intros d Hd. unfold o, tern. rewrite at_vec by exact Hd. destruct (_ <? _); [lia|]. destruct (_ <? _); lia. }
    assert (R : forall d, (d < 3)%nat -> sti (at_ o d) F (at_ (sz p) d) <= at_ b d < eni (at_ o d) F (at_ (sz p) d)).
    { intros d Hd. unfold o. rewrite at_vec by exact Hd. pose proof (Hb d Hd) as B. rewrite szx_at26 in B by exact Hd. revert B. generalize (at_ b d) (at_ (sz p) d). intros z n B. clear - B HF.
      unfold sti, eni. destruct (z <? F) eqn:A1; [cbn [Z.eqb Pos.eqb]; lia|]. destruct (z <? n + F) eqn:A2; cbn [Z.eqb Pos.eqb]; lia. }
    destruct (pt_eqb o (0, 0, 0)) eqn:E.
    - left. apply pt_eqb_eq in E. intros d Hd. specialize (R d Hd). rewrite E in R. replace (at_ (0, 0, 0) d) with 0 in R by (destruct d as [|[|[|]]]; [reflexivity|reflexivity|reflexivity|lia]). unfold sti, eni in R. cbn [Z.eqb] in R. lia.
    - right. assert (Ne : o <> (0, 0, 0)) by (intros X; apply pt_eqb_eq in X; congruence).
      destruct (slot_off o OT Ne) as [S1 S2]. exists (slot_of o). split; [exact S1|]. apply recv_in26; [exact S1|]. rewrite S2. exact R.
  Qed.
  Lemma inner_gx26 p b : okp p -> (forall d, (d < 3)%nat -> F <= at_ b d < at_ (sz p) d + F) -> gx (glob26 p b) = g (glob26 p b).
  Proof.
    intros Hp Hb. assert (C : cellof (glob26 p b) = (0, 0, 0)).
    { apply pt_ext. intros d Hd. unfold P_NonOrth.cellof, glob26. rewrite !at_vec by exact Hd. specialize (Hb d Hd). pose proof (facts p d Hd Hp) as FP. cbv zeta in FP.
      replace (at_ b d - F + at_ (st p) d <? 0) with false by lia. replace (at_ N d <=? at_ b d - F + at_ (st p) d) with false by lia. destruct d as [|[|[|]]]; [reflexivity|reflexivity|reflexivity|lia]. }
    assert (A0 : forall d, (d < 3)%nat -> at_ (0, 0, 0) d = 0) by (intros d Hd; destruct d as [|[|[|]]]; [reflexivity|reflexivity|reflexivity|lia]).
    unfold gx26. rewrite C. cbv zeta. rewrite existsb_false by (intros d Hd; rewrite A0, andb_false_r by exact Hd; reflexivity).
    change (pt_eqb (0, 0, 0) (0, 0, 0)) with true. cbv iota.
    replace (vec (fun d => at_ (glob26 p b) d - at_ (0, 0, 0) d * at_ N d)) with (glob26 p b); [ring|].
    apply pt_ext. intros d Hd. rewrite (at_vec (fun d => at_ (glob26 p b) d - at_ (0, 0, 0) d * at_ N d)) by exact Hd. rewrite A0 by exact Hd. lia.
  Qed.
  Theorem extend_ok26 p : okp p -> exists m, extend26 K k0 k1 kmul dims per N F ph x p = Ok m /\
    forall b, inblk (szx p) b -> m (lin (szx p) b) = Some (gx (glob26 p b)).
  Proof.
    intros Hp. unfold extend26. cbv zeta.
    set (inner := box (vec (fun _ => F)) (vec (fun d => at_ (sz p) d + F))).
    assert (NN : forall d, (d < 3)%nat -> 0 <= at_ (sz p) d) by (intros d Hd; pose proof (facts p d Hd Hp) as FP; cbv zeta in FP; lia).
    assert (EI : inner = map (fun q => vec (fun d => at_ q d - 0 + F)) (box (vec (fun _ => 0)) (sz p))).
    { unfold inner. rewrite (box_same (vec (fun _ => 0)) (sz p)).
      - apply map_ext. intros q. apply pt_ext. intros d Hd. rewrite !at_vec by exact Hd. reflexivity.
      - intros d Hd. rewrite !at_vec by exact Hd. lia. }
    assert (LI : length inner = Z.to_nat (nd (sz p))).
    { rewrite EI, map_length. rewrite <- (map_length (lin (sz p))), lin_box by exact NN. unfold zrange. rewrite map_length, seq_length. reflexivity. }
    rewrite LI, <- (lin_box (sz p) NN).
    rewrite (omap_ok _ (x p)).
    2:{ intros a Ha. apply in_map_iff in Ha as [c [<- Hc]]. unfold rdx. rewrite box_in in Hc.
        assert (Ic : inblk (sz p) c) by (intros d Hd; specialize (Hc d Hd); rewrite at_vec in Hc by exact Hd; exact Hc).
        pose proof (lin_bound _ _ Ic). replace ((0 <=? lin (sz p) c) && (lin (sz p) c <? nd (sz p))) with true by lia. reflexivity. }
    cbn [obind]. rewrite map_map. rewrite EI, map_map.
    assert (CM : forall (A B C : Type) (f1 : A -> B) (f2 : A -> C) l, combine (map f1 l) (map f2 l) = map (fun a => (f1 a, f2 a)) l) by (intros A B C f1 f2 l; induction l as [|a l IH]; [reflexivity|cbn; rewrite IH; reflexivity]).
    rewrite CM.
    set (m0 := fun a => if (0 <=? a) && (a <? nd (szx p)) then Some k0 else None).
    destruct (wr_all_fun K (nd (szx p)) (fun a => gx (glob26 p (unlin (szx p) a)))
      (map (fun q => (lin (szx p) (vec (fun d => at_ q d - 0 + F)), x p (lin (sz p) q))) (box (vec (fun _ => 0)) (sz p))) m0) as [m1 [E1 M1]].
    { intros a v Hav. apply in_map_iff in Hav as [c [Ec Hc]]. injection Ec as <- <-. rewrite box_in in Hc.
      assert (Ic : inblk (sz p) c) by (intros d Hd; specialize (Hc d Hd); rewrite at_vec in Hc by exact Hd; exact Hc).
      assert (Iw : inblk (szx p) (vec (fun d => at_ c d - 0 + F))).
      { intros d Hd. rewrite at_vec, szx_at26 by exact Hd. pose proof (Ic d Hd). lia. }
      split; [apply lin_bound; exact Iw|]. rewrite unlin_lin by exact Iw. rewrite Hx by assumption. rewrite inner_gx26.
      - f_equal. apply pt_ext. intros d Hd. unfold addp, glob26. rewrite !at_vec by exact Hd. lia.
      - exact Hp.
      - intros d Hd. rewrite at_vec by exact Hd. pose proof (Ic d Hd). lia. }
    rewrite E1. cbn [obind].
    assert (EH : exists h, (if 1 <? nproc then halo_recv26 K k0 k1 kmul dims per N F ph x p else halo_self26 K kmul dims per N F ph x p) = Ok h /\
      (forall a v, In (a, v) h -> exists s b, (s < 26)%nat /\ In b (recv_box (sz p) s) /\ a = lin (szx p) b /\ v = gx (glob26 p b)) /\
      (forall s b, (s < 26)%nat -> In b (recv_box (sz p) s) -> In (lin (szx p) b) (map fst h) \/ gx (glob26 p b) = k0)).
    { destruct (1 <? nproc) eqn:EN.
      - exists (map (fun z => (lin (szx p) (snd z), gx (glob26 p (snd z)))) (targets26 p)). split; [apply halo_recv_ok26; [exact Hp|lia]|]. split.
        + intros a v H. apply in_map_iff in H as [[s b] [Ez Hz]]. injection Ez as <- <-. unfold targets26 in Hz. apply in_flat_map in Hz as [s' [Hs Hz]].
          apply in_map_iff in Hz as [b' [Ez Hc]]. injection Ez as -> ->. apply in26 in Hs. exists s, b. cbn [snd]. auto.
        + intros s b Hs Hb. left. rewrite map_map. apply in_map_iff. exists (s, b). split; [reflexivity|]. unfold targets26. apply in_flat_map. exists s. split; [apply in26; exact Hs|].
          apply in_map_iff. exists b. auto.
      - assert (H1 : nproc = 1) by (pose proof nproc_pos; lia). exists (self26 p). split; [apply halo_self_ok26; assumption|]. unfold self26. split.
        + intros a v H. apply in_flat_map in H as [s [Hs H]]. apply in26 in Hs. destruct (live per (off_of s)); [|destruct H]. apply in_map_iff in H as [b [Ez Hb]]. injection Ez as <- <-. exists s, b. auto.
        + intros s b Hs Hb. destruct (live per (off_of s)) eqn:L.
          * left. rewrite map_flat_map. apply in_flat_map. exists s. split; [apply in26; exact Hs|]. rewrite L, map_map. apply in_map_iff. exists b. auto.
          * right. rewrite <- (phased26 p s b Hs Hp Hb). unfold rcv26. rewrite self_nbr, L by assumption. ring. }
    destruct EH as (h & EH & H1 & H2). rewrite EH. cbn [obind].
    destruct (wr_all_fun K (nd (szx p)) (fun a => gx (glob26 p (unlin (szx p) a))) h m1) as [m2 [E2 M2]].
    { intros a v Hav. destruct (H1 a v Hav) as (s & b & Hs & Hb & -> & ->). pose proof (recv_inblk p s b Hs Hp Hb) as I. split; [apply lin_bound; exact I|]. rewrite unlin_lin by exact I. reflexivity. }
    exists m2. split; [exact E2|]. intros b Ib. destruct (M2 (lin (szx p) b)) as [F1 F2]. destruct (M1 (lin (szx p) b)) as [G1 G2]. rewrite unlin_lin in F1, F2, G1, G2 by exact Ib.
    destruct (cover26 p b Hp Ib) as [H|(s & Hs & Hb)].
    - apply F2. apply G1. rewrite map_map. cbn [fst]. apply in_map_iff. exists (vec (fun d => at_ b d - F)). split.
      + f_equal. apply pt_ext. intros d Hd. rewrite !at_vec by exact Hd. lia.
      + apply box_in. intros d Hd. rewrite !at_vec by exact Hd. pose proof (H d Hd). lia.
    - destruct (H2 s b Hs Hb) as [H|H]; [apply F1; exact H|]. apply F2. apply G2. rewrite H. unfold m0. pose proof (lin_bound _ _ Ib). replace ((0 <=? lin (szx p) b) && (lin (szx p) b <? nd (szx p))) with true by lia. reflexivity.
  Qed.
End Ext26.

(** ** The stencils *)
Lemma lin_move26 ex b d r : (d < 3)%nat -> lin ex (move b d r) = lin ex b + r * shiftd ex d.
Proof. intros Hd. unfold lin, move, shiftd. rewrite !at_set by lia. destruct d as [|[|[|]]]; try lia; cbn [Nat.eqb]; ring. Qed.
Section Sten.
  Variable K : Type.
  Variables (k0 k1 : K) (kadd kmul ksub : K -> K -> K) (kopp : K -> K).
  Hypothesis KR : ring_theory k0 k1 kadd kmul ksub kopp eq.
  Add Ring Kring3 : KR.
  Notation ksum := (ksum K k0 kadd).
  Lemma sweepa_fun size addr inv (f : pt -> outcome K) (h : pt -> K) : forall l y,
    (forall q, In q l -> 0 <= addr q < size /\ inv (addr q) = q /\ f q = Ok (h q)) ->
    exists y', sweepa K size addr f l y = Ok y' /\
      forall q, inv (addr q) = q -> (In q l -> y' (addr q) = Some (h q)) /\ (y (addr q) = Some (h q) -> y' (addr q) = Some (h q)).
  Proof.
    induction l as [|q l IH]; intros y H.
    - exists y. split; [reflexivity|]. intros q Hq. split; [intros []|auto].
    - destruct (H q (or_introl eq_refl)) as (B & I & E). cbn [sweepa]. rewrite E. cbn [obind]. unfold wr.
      replace ((0 <=? addr q) && (addr q <? size)) with true by lia. cbn [obind].
      destruct (IH (fun b => if b =? addr q then Some (h q) else y b)) as [y' [E' Y]]; [intros; apply H; right; assumption|].
      exists y'. split; [exact E'|]. intros q' Iq. destruct (Y q' Iq) as [Y1 Y2].
      assert (SAME : addr q' = addr q -> q' = q) by (intros X; rewrite <- Iq, X; exact I).
      split.
      + intros [<- | Hq]; [apply Y2; rewrite Z.eqb_refl; reflexivity|apply Y1; exact Hq].
      + intros X. apply Y2. destruct (addr q' =? addr q) eqn:A; [|exact X]. apply Z.eqb_eq in A. rewrite (SAME A). reflexivity.
  Qed.
  Variables (S0 n : pt) (F : Z).
  Hypothesis HF : 1 <= F.
  (** an array with extents ex whose point b stands for the global point S0 + b - o *)
  Definition arr (size : Z) (m : Z -> option K) (ex o : pt) (f : pt -> K) : Prop :=
    size = nd ex /\ forall b, inblk ex b -> m (lin ex b) = Some (f (vec (fun e => at_ b e - at_ o e + at_ S0 e))).
  Lemma move_at G d r e : (d < 3)%nat -> (e < 3)%nat -> at_ (move G d r) e = if Nat.eqb e d then at_ G d + r else at_ G e.
  Proof. intros Hd He. unfold move. apply at_set; assumption. Qed.
  Lemma move_0 G d : (d < 3)%nat -> move G d 0 = G.
  Proof. intros Hd. apply pt_ext. intros e He. rewrite move_at by assumption. destruct (Nat.eqb e d) eqn:E; [apply Nat.eqb_eq in E; subst; lia|reflexivity]. Qed.
  Lemma rdA size m ex o f xo sy sz_ q d r stride : arr size m ex o f -> sy = at_ ex 0 -> sz_ = at_ ex 0 * at_ ex 1 -> stride = shiftd ex d -> (d < 3)%nat ->
    inblk ex (move (addp q xo) d r) ->
    rd K size m (sadr (0, 0, 0) xo sy sz_ q + r * stride) = Ok (f (move (vec (fun e => at_ q e + at_ xo e - at_ o e + at_ S0 e)) d r)).
  Proof.
    intros [-> A] -> -> -> Hd I.
    assert (E : sadr (0, 0, 0) xo (at_ ex 0) (at_ ex 0 * at_ ex 1) q + r * shiftd ex d = lin ex (move (addp q xo) d r)).
    { rewrite lin_move26 by exact Hd. f_equal. unfold sadr, lin, addp. rewrite !at_vec by lia. cbn [at_]. ring. }
    rewrite E. unfold rd. pose proof (lin_bound _ _ I). replace ((0 <=? lin ex (move (addp q xo) d r)) && (lin ex (move (addp q xo) d r) <? nd ex)) with true by lia.
    rewrite (A _ I). f_equal. f_equal. apply pt_ext. intros e He. rewrite at_vec by exact He. rewrite !move_at by assumption. unfold addp. destruct (Nat.eqb e d) eqn:Ed.
    - apply Nat.eqb_eq in Ed. subst e. rewrite !at_vec by exact He. lia.
    - rewrite !at_vec by exact He. lia.
  Qed.
  Lemma rdA0 size m ex o f xo sy sz_ q : arr size m ex o f -> sy = at_ ex 0 -> sz_ = at_ ex 0 * at_ ex 1 -> inblk ex (addp q xo) ->
    rd K size m (sadr (0, 0, 0) xo sy sz_ q) = Ok (f (vec (fun e => at_ q e + at_ xo e - at_ o e + at_ S0 e))).
  Proof.
    intros A E1 E2 I. replace (sadr (0, 0, 0) xo sy sz_ q) with (sadr (0, 0, 0) xo sy sz_ q + 0 * shiftd ex 0) by lia.
    rewrite (rdA size m ex o f xo sy sz_ q 0 0 _ A E1 E2 eq_refl ltac:(lia)); [rewrite move_0 by lia; reflexivity|rewrite move_0 by lia; exact I].
  Qed.
  Lemma rdAm size m ex o f xo sy sz_ q d r stride : arr size m ex o f -> sy = at_ ex 0 -> sz_ = at_ ex 0 * at_ ex 1 -> stride = shiftd ex d -> (d < 3)%nat ->
    inblk ex (move (addp q xo) d (- r)) ->
    rd K size m (sadr (0, 0, 0) xo sy sz_ q - r * stride) = Ok (f (move (vec (fun e => at_ q e + at_ xo e - at_ o e + at_ S0 e)) d (- r))).
  Proof. intros A E1 E2 E3 Hd I. unfold Z.sub. rewrite <- Z.mul_opp_l. apply (rdA size m ex); assumption. Qed.

  Definition dsum (coef : Z -> K) (d : nat) (f : pt -> K) (G : pt) : K :=
    ksum (fun r => kmul (ksub (f (move G d r)) (f (move G d (- r)))) (coef r)) (Z.to_nat F).
  Lemma radius1 f h acc : (forall r, 1 <= r <= F -> f r = Ok (h r)) -> radius_sum K kadd f 1 (Z.to_nat F) acc = Ok (kadd acc (ksum h (Z.to_nat F))).
  Proof.
    intros H. rewrite (radius_ok K k0 k1 kadd kmul ksub kopp KR f h) by (intros r Hr; apply H; lia).
    reflexivity.
  Qed.
  Lemma in_box0 hi q : In q (box (0, 0, 0) hi) <-> inblk hi q.
  Proof.
    rewrite box_in. unfold inblk. split; intros H d Hd; specialize (H d Hd); (replace (at_ (0, 0, 0) d) with 0 in * by (destruct d as [|[|[|]]]; [reflexivity|reflexivity|reflexivity|lia])); exact H.
  Qed.
  Variables (szX : Z) (X : Z -> option K) (ex oF : pt) (gx : pt -> K).
  Hypothesis HX : arr szX X ex oF gx.
  Hypothesis Hex : forall e, (e < 3)%nat -> at_ ex e = at_ n e + 2 * F.
  Hypothesis HoF : forall e, (e < 3)%nat -> at_ oF e = F.

  Section DX.
    Variables (oD dn xo : pt).
    Hypothesis HoD : forall e, (e < 3)%nat -> 0 <= at_ oD e <= F.
    Hypothesis Hdn : forall e, (e < 3)%nat -> at_ dn e = at_ n e + 2 * at_ oD e.
    Hypothesis Hxo : forall e, (e < 3)%nat -> at_ xo e = F - at_ oD e.
    Lemma DX_pos q : vec (fun e => at_ q e + at_ xo e - at_ oF e + at_ S0 e) = vec (fun e => at_ q e - at_ oD e + at_ S0 e).
    Proof. apply pt_ext. intros e He. rewrite !at_vec, Hxo, HoF by exact He. lia. Qed.
    Lemma DX_in q d r : inblk dn q -> (d < 3)%nat -> at_ oD d = 0 -> - F <= r <= F -> inblk ex (move (addp q xo) d r).
    Proof.
      intros Hq Hd Z0 Hr e He. rewrite move_at by assumption. unfold addp. rewrite !at_vec by assumption. pose proof (Hq e He) as Q. rewrite Hdn in Q by exact He.
      pose proof (HoD e He). rewrite Hex, !Hxo by assumption. destruct (Nat.eqb e d) eqn:E; [|lia]. apply Nat.eqb_eq in E. subst e. lia.
    Qed.
    Lemma sweep_arr (f : pt -> outcome K) (h : pt -> K) : (forall q, inblk dn q -> f q = Ok (h (vec (fun e => at_ q e - at_ oD e + at_ S0 e)))) ->
      exists D, sweepa K (nd dn) (fun q => at_ q 2 * (at_ dn 0 * at_ dn 1) + at_ q 1 * at_ dn 0 + at_ q 0) f (box (0, 0, 0) dn) (fun _ => None) = Ok D /\ arr (nd dn) D dn oD h.
    Proof.
      intros H. change (fun q => at_ q 2 * (at_ dn 0 * at_ dn 1) + at_ q 1 * at_ dn 0 + at_ q 0) with (lin dn).
      destruct (sweepa_fun (nd dn) (lin dn) (unlin dn) f (fun q => h (vec (fun e => at_ q e - at_ oD e + at_ S0 e))) (box (0, 0, 0) dn) (fun _ => None)) as [D [E Y]].
      - intros q Hq. apply in_box0 in Hq. split; [apply lin_bound; exact Hq|]. split; [apply unlin_lin; exact Hq|apply H; exact Hq].
      - exists D. split; [exact E|]. split; [reflexivity|]. intros b Hb. apply (proj1 (Y b (unlin_lin _ _ Hb))). apply in_box0. exact Hb.
    Qed.
    Lemma Calc_DX_ok d stride sy_X sz_X szD sy_D sz_D coef c : (d < 3)%nat -> at_ oD d = 0 -> stride = shiftd ex d -> sy_X = at_ ex 0 -> sz_X = at_ ex 0 * at_ ex 1 ->
      szD = nd dn -> sy_D = at_ dn 0 -> sz_D = at_ dn 0 * at_ dn 1 ->
      exists D, Calc_DX K kadd kmul ksub szX X szD F stride sy_X sy_D sz_X sz_D (0, 0, 0) dn xo coef c = Ok D /\
        arr szD D dn oD (fun G => kadd (kmul (gx G) c) (dsum coef d gx G)).
    Proof.
      intros Hd Z0 E1 E2 E3 -> -> ->. unfold Calc_DX. apply sweep_arr. intros q Hq. cbv zeta.
      rewrite (rdA0 szX X ex oF gx xo sy_X sz_X q HX E2 E3); [|rewrite <- (move_0 (addp q xo) d Hd); apply DX_in; auto; lia]. cbn [obind].
      rewrite (radius1 _ (fun r => kmul (ksub (gx (move (vec (fun e => at_ q e - at_ oD e + at_ S0 e)) d r)) (gx (move (vec (fun e => at_ q e - at_ oD e + at_ S0 e)) d (- r)))) (coef r))).
      - rewrite DX_pos. reflexivity.
      - intros r Hr. rewrite (rdA szX X ex oF gx xo sy_X sz_X q d r stride HX E2 E3 E1 Hd) by (apply DX_in; auto; lia). cbn [obind].
        rewrite (rdAm szX X ex oF gx xo sy_X sz_X q d r stride HX E2 E3 E1 Hd) by (apply DX_in; auto; lia). cbn [obind]. rewrite DX_pos. reflexivity.
    Qed.
    Lemma Calc_DX1_DX2_ok d1 d2 stride1 stride2 sy_X sz_X szD sy_D sz_D coef1 coef2 : (d1 < 3)%nat -> at_ oD d1 = 0 -> (d2 < 3)%nat -> at_ oD d2 = 0 ->
      stride1 = shiftd ex d1 -> stride2 = shiftd ex d2 -> sy_X = at_ ex 0 -> sz_X = at_ ex 0 * at_ ex 1 -> szD = nd dn -> sy_D = at_ dn 0 -> sz_D = at_ dn 0 * at_ dn 1 ->
      exists D, Calc_DX1_DX2 K k0 kadd kmul ksub szX X szD F stride1 stride2 sy_X sy_D sz_X sz_D (0, 0, 0) dn xo coef1 coef2 = Ok D /\
        arr szD D dn oD (fun G => kadd (dsum coef1 d1 gx G) (dsum coef2 d2 gx G)).
    Proof.
      intros Hd1 Z1 Hd2 Z2 E1 E1' E2 E3 -> -> ->. unfold Calc_DX1_DX2. apply sweep_arr. intros q Hq. cbv zeta.
      assert (ONE : forall d stride coef, (d < 3)%nat -> at_ oD d = 0 -> stride = shiftd ex d ->
        radius_sum K kadd (fun r => do p2 <- rd K szX X (sadr (0, 0, 0) xo sy_X sz_X q + r * stride); do p1 <- rd K szX X (sadr (0, 0, 0) xo sy_X sz_X q - r * stride); Ok (kmul (ksub p2 p1) (coef r))) 1 (Z.to_nat F) k0
        = Ok (dsum coef d gx (vec (fun e => at_ q e - at_ oD e + at_ S0 e)))).
      { intros d stride coef Hd Z0 ES. rewrite (radius1 _ (fun r => kmul (ksub (gx (move (vec (fun e => at_ q e - at_ oD e + at_ S0 e)) d r)) (gx (move (vec (fun e => at_ q e - at_ oD e + at_ S0 e)) d (- r)))) (coef r))).
        - f_equal. unfold dsum. ring.
        - intros r Hr. rewrite (rdA szX X ex oF gx xo sy_X sz_X q d r stride HX E2 E3 ES Hd) by (apply DX_in; auto; lia). cbn [obind].
          rewrite (rdAm szX X ex oF gx xo sy_X sz_X q d r stride HX E2 E3 ES Hd) by (apply DX_in; auto; lia). cbn [obind]. rewrite DX_pos. reflexivity. }
      rewrite (ONE d1 stride1 coef1 Hd1 Z1 E1). cbn [obind]. rewrite (ONE d2 stride2 coef2 Hd2 Z2 E1'). cbn [obind]. reflexivity.
    Qed.
    (** reads of DX around a point of the block *)
    Lemma DX_rd szD D h q d r stride sy_D sz_D : arr szD D dn oD h -> inblk n q -> (d < 3)%nat -> at_ oD d = F -> 1 <= r <= F ->
      stride = shiftd dn d -> sy_D = at_ dn 0 -> sz_D = at_ dn 0 * at_ dn 1 ->
      rd K szD D (sadr (0, 0, 0) oD sy_D sz_D q + r * stride) = Ok (h (move (addp S0 q) d r)) /\
      rd K szD D (sadr (0, 0, 0) oD sy_D sz_D q - r * stride) = Ok (h (move (addp S0 q) d (- r))).
    Proof.
      clear Hxo. intros A Hq Hd Z0 Hr E1 E2 E3.
      assert (I : forall r, - F <= r <= F -> inblk dn (move (addp q oD) d r)).
      { intros r' Hr' e He. rewrite move_at by assumption. unfold addp. rewrite !at_vec by assumption. pose proof (Hq e He) as Q. pose proof (HoD e He). rewrite Hdn by exact He.
        destruct (Nat.eqb e d) eqn:E; [|lia]. apply Nat.eqb_eq in E. subst e. lia. }
      assert (P : vec (fun e => at_ q e + at_ oD e - at_ oD e + at_ S0 e) = addp S0 q) by (apply pt_ext; intros e He; unfold addp; rewrite !at_vec by exact He; lia).
      rewrite (rdA szD D dn oD h oD sy_D sz_D q d r stride A E2 E3 E1 Hd) by (apply I; lia).
      rewrite (rdAm szD D dn oD h oD sy_D sz_D q d r stride A E2 E3 E1 Hd) by (apply I; lia). rewrite P. split; reflexivity.
    Qed.
  End DX.
  (** reads of x_ex around a point of the block *)
  Lemma X_pos q : vec (fun e => at_ q e + at_ oF e - at_ oF e + at_ S0 e) = addp S0 q.
  Proof. apply pt_ext. intros e He. unfold addp. rewrite !at_vec by exact He. lia. Qed.
  Lemma X_in q d r : inblk n q -> (d < 3)%nat -> - F <= r <= F -> inblk ex (move (addp q oF) d r).
  Proof.
    intros Hq Hd Hr e He. rewrite move_at by assumption. unfold addp. rewrite !at_vec by assumption. pose proof (Hq e He) as Q. rewrite Hex, !HoF by assumption.
    destruct (Nat.eqb e d) eqn:E; [|lia]. apply Nat.eqb_eq in E. subst e. lia.
  Qed.
  Lemma X_rd0 q sy_X sz_X : inblk n q -> sy_X = at_ ex 0 -> sz_X = at_ ex 0 * at_ ex 1 -> rd K szX X (sadr (0, 0, 0) oF sy_X sz_X q) = Ok (gx (addp S0 q)).
  Proof. intros Hq E2 E3. rewrite (rdA0 szX X ex oF gx oF sy_X sz_X q HX E2 E3); [rewrite X_pos; reflexivity|]. rewrite <- (move_0 (addp q oF) 0) by lia. apply X_in; [exact Hq|lia|lia]. Qed.
  Lemma X_pl q d r sy_X sz_X (wt : Z -> outcome K) i c s : inblk n q -> (d < 3)%nat -> 1 <= r <= F -> sy_X = at_ ex 0 -> sz_X = at_ ex 0 * at_ ex 1 -> s = r * shiftd ex d -> wt i = Ok c ->
    (do p1 <- rd K szX X (sadr (0, 0, 0) oF sy_X sz_X q - s) ; do p2 <- rd K szX X (sadr (0, 0, 0) oF sy_X sz_X q + s) ; do cf <- wt i ; Ok (kmul (kadd p1 p2) cf)) =
    Ok (kmul (kadd (gx (move (addp S0 q) d (- r))) (gx (move (addp S0 q) d r))) c).
  Proof.
    intros Hq Hd Hr E2 E3 -> W. rewrite (rdAm szX X ex oF gx oF sy_X sz_X q d r (shiftd ex d) HX E2 E3 eq_refl Hd) by (apply X_in; auto; lia). cbn [obind].
    rewrite (rdA szX X ex oF gx oF sy_X sz_X q d r (shiftd ex d) HX E2 E3 eq_refl Hd) by (apply X_in; auto; lia). cbn [obind]. rewrite W. cbn [obind]. rewrite X_pos. reflexivity.
  Qed.
  Lemma ksum_add' f h m : ksum (fun i => kadd (f i) (h i)) m = kadd (ksum f m) (ksum h m).
  Proof. induction m as [|m IH]; cbn [P_Halo.ksum]; [|rewrite IH]; ring. Qed.
  Definition psum (coef : Z -> K) (d : nat) (G : pt) : K :=
    ksum (fun r => kmul (kadd (gx (move G d (- r))) (gx (move G d r))) (coef r)) (Z.to_nat F).

  Lemma stencil_4_ok oD dn d szD D h stride sy_X1 sz_X1 sy_X sz_X sy_D sz_D wt c1 coef0 b v0 vg szX1 :
    (forall e, (e < 3)%nat -> 0 <= at_ oD e <= F) -> (forall e, (e < 3)%nat -> at_ dn e = at_ n e + 2 * at_ oD e) ->
    arr szD D dn oD h -> (d < 3)%nat -> at_ oD d = F -> stride = shiftd dn d -> sy_D = at_ dn 0 -> sz_D = at_ dn 0 * at_ dn 1 ->
    sy_X = at_ ex 0 -> sz_X = at_ ex 0 * at_ ex 1 -> sy_X1 = at_ n 0 -> sz_X1 = at_ n 0 * at_ n 1 -> szX1 = nd n ->
    (forall r j, 1 <= r <= F -> 0 <= j < 4 -> wt (4 * r + 1 + j) = Ok (c1 j r)) -> (forall q, inblk n q -> v0 (lin n q) = Ok (vg (addp S0 q))) ->
    exists y, stencil_4comp K kadd kmul ksub szX X szD D F stride sy_X1 sy_X sy_D sz_X1 sz_X sz_D (0, 0, 0) n oF oD wt coef0 b v0 szX1 = Ok y /\
      forall q, inblk n q -> y (lin n q) = Some (let G := addp S0 q in
        kadd (kadd (kmul coef0 (gx G)) (kadd (kadd (kadd (psum (c1 0) 0 G) (psum (c1 1) 1 G)) (psum (c1 2) 2 G)) (dsum (c1 3) d h G))) (kmul b (kmul (vg G) (gx G)))).
  Proof.
    intros HoD Hdn A Hd Z0 E1 E2 E3 E4 E5 -> -> -> W V. unfold stencil_4comp. cbv zeta.
    destruct (sweep_arr (0, 0, 0) n (fun q =>
      do x0 <- rd K szX X (sadr (0, 0, 0) oF sy_X sz_X q) ;
      do res <- radius_sum K kadd (fun r =>
        do rx <- (do p1 <- rd K szX X (sadr (0, 0, 0) oF sy_X sz_X q - r) ; do p2 <- rd K szX X (sadr (0, 0, 0) oF sy_X sz_X q + r) ; do cf <- wt (4 * r + 1) ; Ok (kmul (kadd p1 p2) cf)) ;
        do ry <- (do p1 <- rd K szX X (sadr (0, 0, 0) oF sy_X sz_X q - r * sy_X) ; do p2 <- rd K szX X (sadr (0, 0, 0) oF sy_X sz_X q + r * sy_X) ; do cf <- wt (4 * r + 1 + 1) ; Ok (kmul (kadd p1 p2) cf)) ;
        do rz <- (do p1 <- rd K szX X (sadr (0, 0, 0) oF sy_X sz_X q - r * sz_X) ; do p2 <- rd K szX X (sadr (0, 0, 0) oF sy_X sz_X q + r * sz_X) ; do cf <- wt (4 * r + 1 + 2) ; Ok (kmul (kadd p1 p2) cf)) ;
        do m2 <- rd K szD D (sadr (0, 0, 0) oD sy_D sz_D q + r * stride) ; do m1 <- rd K szD D (sadr (0, 0, 0) oD sy_D sz_D q - r * stride) ; do cm <- wt (4 * r + 1 + 3) ;
        Ok (kadd (kadd (kadd rx ry) rz) (kmul (ksub m2 m1) cm))) 1 (Z.to_nat F) (kmul coef0 x0) ;
      do vq <- v0 (lin n q) ;
      Ok (kadd res (kmul b (kmul vq x0))))
      (fun G => kadd (kadd (kmul coef0 (gx G)) (kadd (kadd (kadd (psum (c1 0) 0 G) (psum (c1 1) 1 G)) (psum (c1 2) 2 G)) (dsum (c1 3) d h G))) (kmul b (kmul (vg G) (gx G))))) as [y [E Y]].
    - intros q Hq. assert (GE : vec (fun e => at_ q e - at_ (0, 0, 0) e + at_ S0 e) = addp S0 q).
      { apply pt_ext. intros e He. unfold addp. rewrite !at_vec by exact He. replace (at_ (0, 0, 0) e) with 0 by (destruct e as [|[|[|]]]; [reflexivity|reflexivity|reflexivity|lia]). lia. }
      rewrite GE. set (G := addp S0 q). rewrite X_rd0 by assumption. cbn [obind]. fold G.
      rewrite (radius1 _ (fun r => kadd (kadd (kadd (kmul (kadd (gx (move G 0 (- r))) (gx (move G 0 r))) (c1 0 r)) (kmul (kadd (gx (move G 1 (- r))) (gx (move G 1 r))) (c1 1 r))) (kmul (kadd (gx (move G 2 (- r))) (gx (move G 2 r))) (c1 2 r))) (kmul (ksub (h (move G d r)) (h (move G d (- r)))) (c1 3 r)))).
      2:{ intros r Hr.
          rewrite (X_pl q 0 r sy_X sz_X wt (4 * r + 1) (c1 0 r) r Hq ltac:(lia) Hr E4 E5); [|cbn [shiftd]; lia|rewrite <- W by lia; f_equal; lia]. cbn [obind].
          rewrite (X_pl q 1 r sy_X sz_X wt (4 * r + 1 + 1) (c1 1 r) (r * sy_X) Hq ltac:(lia) Hr E4 E5); [|rewrite E4; reflexivity|apply W; lia]. cbn [obind].
          rewrite (X_pl q 2 r sy_X sz_X wt (4 * r + 1 + 2) (c1 2 r) (r * sz_X) Hq ltac:(lia) Hr E4 E5); [|rewrite E5; reflexivity|apply W; lia]. cbn [obind].
          destruct (DX_rd oD dn HoD Hdn szD D h q d r stride sy_D sz_D A Hq Hd Z0 Hr E1 E2 E3) as [R1 R2]. rewrite R1. cbn [obind]. rewrite R2. cbn [obind].
          rewrite W by lia. cbn [obind]. reflexivity. }
      cbn [obind]. rewrite V by exact Hq. cbn [obind]. fold G. rewrite !ksum_add'. reflexivity.
    - exists y. split; [exact E|]. intros q Hq. destruct Y as [_ Y]. rewrite (Y q Hq). cbv zeta.
      replace (vec (fun e => at_ q e - at_ (0, 0, 0) e + at_ S0 e)) with (addp S0 q); [reflexivity|].
      apply pt_ext. intros e He. unfold addp. rewrite !at_vec by exact He. replace (at_ (0, 0, 0) e) with 0 by (destruct e as [|[|[|]]]; [reflexivity|reflexivity|reflexivity|lia]). lia.
  Qed.
  Lemma stencil_5_ok oD dn d szD D h stride oE en e' szE E_ k stride' sy_X1 sz_X1 sy_X sz_X sy_D sz_D sy_E sz_E wt c1 coef0 b v0 vg szX1 :
    (forall e, (e < 3)%nat -> 0 <= at_ oD e <= F) -> (forall e, (e < 3)%nat -> at_ dn e = at_ n e + 2 * at_ oD e) ->
    arr szD D dn oD h -> (d < 3)%nat -> at_ oD d = F -> stride = shiftd dn d -> sy_D = at_ dn 0 -> sz_D = at_ dn 0 * at_ dn 1 ->
    (forall e, (e < 3)%nat -> 0 <= at_ oE e <= F) -> (forall e, (e < 3)%nat -> at_ en e = at_ n e + 2 * at_ oE e) ->
    arr szE E_ en oE k -> (e' < 3)%nat -> at_ oE e' = F -> stride' = shiftd en e' -> sy_E = at_ en 0 -> sz_E = at_ en 0 * at_ en 1 ->
    sy_X = at_ ex 0 -> sz_X = at_ ex 0 * at_ ex 1 -> sy_X1 = at_ n 0 -> sz_X1 = at_ n 0 * at_ n 1 -> szX1 = nd n ->
    (forall r j, 1 <= r <= F -> 0 <= j < 5 -> wt (5 * r + j) = Ok (c1 j r)) -> (forall q, inblk n q -> v0 (lin n q) = Ok (vg (addp S0 q))) ->
    exists y, stencil_5comp K kadd kmul ksub szX X szD D szE E_ F stride stride' sy_X1 sy_X sy_D sy_E sz_X1 sz_X sz_D sz_E (0, 0, 0) n oF oD oE wt coef0 b v0 szX1 = Ok y /\
      forall q, inblk n q -> y (lin n q) = Some (let G := addp S0 q in
        kadd (kadd (kmul coef0 (gx G)) (kadd (kadd (kadd (psum (c1 0) 0 G) (psum (c1 1) 1 G)) (psum (c1 2) 2 G)) (kadd (dsum (c1 3) d h G) (dsum (c1 4) e' k G)))) (kmul b (kmul (vg G) (gx G)))).
  Proof.
    intros HoD Hdn A Hd Z0 E1 E2 E3 HoE Hen A' He' Z0' E1' E2' E3' E4 E5 -> -> -> W V. unfold stencil_5comp. cbv zeta.
    destruct (sweep_arr (0, 0, 0) n (fun q =>
      do x0 <- rd K szX X (sadr (0, 0, 0) oF sy_X sz_X q) ;
      do res <- radius_sum K kadd (fun r =>
        do rx <- (do p1 <- rd K szX X (sadr (0, 0, 0) oF sy_X sz_X q - r) ; do p2 <- rd K szX X (sadr (0, 0, 0) oF sy_X sz_X q + r) ; do cf <- wt (5 * r) ; Ok (kmul (kadd p1 p2) cf)) ;
        do ry <- (do p1 <- rd K szX X (sadr (0, 0, 0) oF sy_X sz_X q - r * sy_X) ; do p2 <- rd K szX X (sadr (0, 0, 0) oF sy_X sz_X q + r * sy_X) ; do cf <- wt (5 * r + 1) ; Ok (kmul (kadd p1 p2) cf)) ;
        do rz <- (do p1 <- rd K szX X (sadr (0, 0, 0) oF sy_X sz_X q - r * sz_X) ; do p2 <- rd K szX X (sadr (0, 0, 0) oF sy_X sz_X q + r * sz_X) ; do cf <- wt (5 * r + 2) ; Ok (kmul (kadd p1 p2) cf)) ;
        do m2 <- rd K szD D (sadr (0, 0, 0) oD sy_D sz_D q + r * stride) ; do m1 <- rd K szD D (sadr (0, 0, 0) oD sy_D sz_D q - r * stride) ; do cm <- wt (5 * r + 3) ;
        do n2 <- rd K szE E_ (sadr (0, 0, 0) oE sy_E sz_E q + r * stride') ; do n1 <- rd K szE E_ (sadr (0, 0, 0) oE sy_E sz_E q - r * stride') ; do cn <- wt (5 * r + 4) ;
        Ok (kadd (kadd (kadd (kadd rx ry) rz) (kmul (ksub m2 m1) cm)) (kmul (ksub n2 n1) cn))) 1 (Z.to_nat F) (kmul coef0 x0) ;
      do vq <- v0 (lin n q) ;
      Ok (kadd res (kmul b (kmul vq x0))))
      (fun G => kadd (kadd (kmul coef0 (gx G)) (kadd (kadd (kadd (psum (c1 0) 0 G) (psum (c1 1) 1 G)) (psum (c1 2) 2 G)) (kadd (dsum (c1 3) d h G) (dsum (c1 4) e' k G)))) (kmul b (kmul (vg G) (gx G))))) as [y [E Y]].
    - intros q Hq. assert (GE : vec (fun e => at_ q e - at_ (0, 0, 0) e + at_ S0 e) = addp S0 q).
      { apply pt_ext. intros e He. unfold addp. rewrite !at_vec by exact He. replace (at_ (0, 0, 0) e) with 0 by (destruct e as [|[|[|]]]; [reflexivity|reflexivity|reflexivity|lia]). lia. }
      rewrite GE. set (G := addp S0 q). rewrite X_rd0 by assumption. cbn [obind]. fold G.
      rewrite (radius1 _ (fun r => kadd (kadd (kadd (kadd (kmul (kadd (gx (move G 0 (- r))) (gx (move G 0 r))) (c1 0 r)) (kmul (kadd (gx (move G 1 (- r))) (gx (move G 1 r))) (c1 1 r))) (kmul (kadd (gx (move G 2 (- r))) (gx (move G 2 r))) (c1 2 r))) (kmul (ksub (h (move G d r)) (h (move G d (- r)))) (c1 3 r))) (kmul (ksub (k (move G e' r)) (k (move G e' (- r)))) (c1 4 r)))).
      2:{ intros r Hr.
          rewrite (X_pl q 0 r sy_X sz_X wt (5 * r) (c1 0 r) r Hq ltac:(lia) Hr E4 E5); [|cbn [shiftd]; lia|rewrite <- W by lia; f_equal; lia]. cbn [obind].
          rewrite (X_pl q 1 r sy_X sz_X wt (5 * r + 1) (c1 1 r) (r * sy_X) Hq ltac:(lia) Hr E4 E5); [|rewrite E4; reflexivity|apply W; lia]. cbn [obind].
          rewrite (X_pl q 2 r sy_X sz_X wt (5 * r + 2) (c1 2 r) (r * sz_X) Hq ltac:(lia) Hr E4 E5); [|rewrite E5; reflexivity|apply W; lia]. cbn [obind].
          destruct (DX_rd oD dn HoD Hdn szD D h q d r stride sy_D sz_D A Hq Hd Z0 Hr E1 E2 E3) as [R1 R2]. rewrite R1. cbn [obind]. rewrite R2. cbn [obind].
          rewrite W by lia. cbn [obind].
          destruct (DX_rd oE en HoE Hen szE E_ k q e' r stride' sy_E sz_E A' Hq He' Z0' Hr E1' E2' E3') as [R3 R4]. rewrite R3. cbn [obind]. rewrite R4. cbn [obind].
          rewrite W by lia. cbn [obind]. reflexivity. }
      cbn [obind]. rewrite V by exact Hq. cbn [obind]. fold G. rewrite !ksum_add'. unfold psum, dsum. f_equal. f_equal. ring.
    - exists y. split; [exact E|]. intros q Hq. destruct Y as [_ Y]. rewrite (Y q Hq). cbv zeta.
      replace (vec (fun e => at_ q e - at_ (0, 0, 0) e + at_ S0 e)) with (addp S0 q); [reflexivity|].
      apply pt_ext. intros e He. unfold addp. rewrite !at_vec by exact He. replace (at_ (0, 0, 0) e) with 0 by (destruct e as [|[|[|]]]; [reflexivity|reflexivity|reflexivity|lia]). lia.
  Qed.
End Sten.

(** ** Sums and differences *)
Section Alg.
  Variable K : Type.
  Variables (k0 k1 : K) (kadd kmul ksub : K -> K -> K) (kopp : K -> K).
  Hypothesis KR : ring_theory k0 k1 kadd kmul ksub kopp eq.
  Add Ring Kring4 : KR.
  Notation ksum := (ksum K k0 kadd).
  Lemma sum_add f h n : ksum (fun i => kadd (f i) (h i)) n = kadd (ksum f n) (ksum h n).
  Proof. induction n as [|n IH]; cbn [P_Halo.ksum]; [|rewrite IH]; ring. Qed.
  Lemma sum_scale a f n : ksum (fun i => kmul a (f i)) n = kmul a (ksum f n).
  Proof. induction n as [|n IH]; cbn [P_Halo.ksum]; [|rewrite IH]; ring. Qed.
  Lemma sum_ext f h n : (forall i, f i = h i) -> ksum f n = ksum h n.
  Proof. intros H. induction n as [|n IH]; cbn [P_Halo.ksum]; [|rewrite IH, H]; reflexivity. Qed.
  Lemma sum_swap (f : Z -> Z -> K) n m : ksum (fun i => ksum (fun j => f i j) m) n = ksum (fun j => ksum (fun i => f i j) n) m.
  Proof.
    induction n as [|n IH].
    - cbn [P_Halo.ksum]. induction m as [|m IH]; cbn [P_Halo.ksum]; [reflexivity|rewrite <- IH; ring].
    - cbn [P_Halo.ksum]. rewrite IH, <- sum_add. apply sum_ext. reflexivity.
  Qed.
  Variables (F : Z) (T : nat -> nat -> K) (w1 w2 : Z -> K) (hinv : nat -> K).
  Notation diff1 := (diff1 K k0 kadd kmul ksub F w1 hinv).
  Notation dsum := (dsum K k0 kadd kmul ksub F).
  Lemma dsum_diff c d f G : dsum (fun r => kmul c (D1_ K kmul w1 hinv d r)) d f G = kmul c (diff1 d f G).
  Proof.
    unfold P_NonOrth.dsum, P_NonOrth.diff1, D1_. rewrite <- !sum_scale. apply sum_ext. intros r. ring.
  Qed.
  Lemma dsum_ext coef coef' d f f' G : (forall r, coef r = coef' r) -> (forall H, f H = f' H) -> dsum coef d f G = dsum coef' d f' G.
  Proof. intros H1 H2. unfold P_NonOrth.dsum. apply sum_ext. intros r. rewrite H1, !H2. reflexivity. Qed.
  Lemma diff1_ext d f f' G : (forall H, f H = f' H) -> diff1 d f G = diff1 d f' G.
  Proof. intros H. unfold P_NonOrth.diff1. f_equal. apply sum_ext. intros r. rewrite !H. reflexivity. Qed.
  Lemma diff1_lin d c e f h G : diff1 d (fun H => kadd (kmul c (f H)) (kmul e (h H))) G = kadd (kmul c (diff1 d f G)) (kmul e (diff1 d h G)).
  Proof.
    unfold P_NonOrth.diff1.
    rewrite (sum_ext _ (fun r => kadd (kmul c (kmul (w1 r) (ksub (f (move G d r)) (f (move G d (- r)))))) (kmul e (kmul (w1 r) (ksub (h (move G d r)) (h (move G d (- r)))))))) by (intros; ring).
    rewrite sum_add, !sum_scale. ring.
  Qed.
  Lemma move_move G d e r s : d <> e -> (d < 3)%nat -> (e < 3)%nat -> move (move G d r) e s = move (move G e s) d r.
  Proof.
    intros Ne Hd He. apply pt_ext. intros i Hi. rewrite !move_at by assumption.
    destruct (Nat.eqb i d) eqn:E1, (Nat.eqb i e) eqn:E2, (Nat.eqb e d) eqn:E3, (Nat.eqb d e) eqn:E4;
      repeat match goal with H : Nat.eqb _ _ = true |- _ => apply Nat.eqb_eq in H | H : Nat.eqb _ _ = false |- _ => apply Nat.eqb_neq in H end; subst; try congruence; try lia; reflexivity.
  Qed.
  Lemma diff1_diff1 d e f G : diff1 d (diff1 e f) G = kmul (kmul (hinv d) (hinv e)) (ksum (fun r => ksum (fun s => kmul (kmul (w1 r) (w1 s))
    (ksub (ksub (f (move (move G d r) e s)) (f (move (move G d r) e (- s)))) (ksub (f (move (move G d (- r)) e s)) (f (move (move G d (- r)) e (- s)))))) (Z.to_nat F)) (Z.to_nat F)).
  Proof.
    unfold P_NonOrth.diff1. rewrite <- !sum_scale. apply sum_ext. intros r.
    rewrite (sum_ext (fun s => kmul (kmul (w1 r) (w1 s)) (ksub (ksub (f (move (move G d r) e s)) (f (move (move G d r) e (- s)))) (ksub (f (move (move G d (- r)) e s)) (f (move (move G d (- r)) e (- s))))))
      (fun s => kadd (kmul (w1 r) (kmul (w1 s) (ksub (f (move (move G d r) e s)) (f (move (move G d r) e (- s))))))
                     (kmul (kopp (w1 r)) (kmul (w1 s) (ksub (f (move (move G d (- r)) e s)) (f (move (move G d (- r)) e (- s)))))))) by (intros; ring).
    rewrite sum_add, !sum_scale. ring.
  Qed.
  Lemma diff1_comm d e f G : d <> e -> (d < 3)%nat -> (e < 3)%nat -> diff1 d (diff1 e f) G = diff1 e (diff1 d f) G.
  Proof.
    intros Ne Hd He. rewrite !diff1_diff1, sum_swap.
    replace (kmul (hinv e) (hinv d)) with (kmul (hinv d) (hinv e)) by ring. f_equal. apply sum_ext. intros s. apply sum_ext. intros r.
    rewrite !(fun G r s => move_move G d e r s Ne Hd He). ring.
  Qed.
  Lemma psum_diff2 gx a d G : kadd (kmul (kmul a (D2_ K kmul T w2 hinv d 0)) (gx G)) (psum K k0 kadd kmul F gx (fun r => kmul (D2_ K kmul T w2 hinv d r) a) d G) =
    kmul a (kmul (T d d) (kmul (kmul (hinv d) (hinv d)) (kadd (kmul (w2 0) (gx G)) (ksum (fun r => kmul (w2 r) (kadd (gx (move G d r)) (gx (move G d (- r))))) (Z.to_nat F))))).
  Proof.
    unfold psum, D2_.
    rewrite (sum_ext (fun r => kmul (kadd (gx (move G d (- r))) (gx (move G d r))) (kmul (kmul (kmul (T d d) (w2 r)) (kmul (hinv d) (hinv d))) a))
      (fun r => kmul (kmul (kmul a (T d d)) (kmul (hinv d) (hinv d))) (kmul (w2 r) (kadd (gx (move G d r)) (gx (move G d (- r))))))) by (intros; ring).
    rewrite sum_scale. ring.
  Qed.
  Lemma nth_flat (f : Z -> list K) wd : (forall z, length (f z) = wd) -> forall m a i j, (i < m)%nat -> (j < wd)%nat ->
    nth_error (flat_map f (zrange a m)) (wd * i + j) = nth_error (f (a + Z.of_nat i)) j.
  Proof.
    intros L. induction m as [|m IH]; intros a i j Hi Hj; [lia|]. rewrite zrange_S. cbn [flat_map]. destruct i as [|i].
    - rewrite Nat.mul_0_r, Z.add_0_r. cbn [Nat.add]. rewrite nth_error_app1 by (rewrite L; exact Hj). reflexivity.
    - rewrite nth_error_app2 by (rewrite L; lia). rewrite L. replace (wd * S i + j - wd)%nat with (wd * i + j)%nat by lia.
      rewrite IH by lia. f_equal. f_equal. lia.
  Qed.
  Lemma lap_wt_ok typ a wd r j : 1 <= F -> (forall z, length (compact K k1 kadd kmul T w1 w2 hinv typ a z) = wd) -> (wd <= 5)%nat -> 1 <= r <= F -> 0 <= j < Z.of_nat wd ->
    lap_wt K k1 kadd kmul F T w1 w2 hinv typ a (Z.of_nat wd * r + (5 - Z.of_nat wd) + j) = Ok (nth (Z.to_nat j) (compact K k1 kadd kmul T w1 w2 hinv typ a r) k0).
  Proof.
    intros HF L W Hr Hj. unfold lap_wt. cbv zeta.
    assert (I : 5 <= Z.of_nat wd * r + (5 - Z.of_nat wd) + j < 5 * (F + 1)) by nia.
    match goal with |- context [if ?c then _ else _] => replace c with true by lia end.
    match goal with |- context [if ?c then _ else _] => replace c with false by lia end.
    replace (Z.to_nat (Z.of_nat wd * r + (5 - Z.of_nat wd) + j - 5)) with (wd * Z.to_nat (r - 1) + Z.to_nat j)%nat by nia.
    rewrite (nth_flat _ wd L) by lia. replace (1 + Z.of_nat (Z.to_nat (r - 1))) with r by lia.
    rewrite (nth_error_nth' _ k0) by (rewrite L; lia). reflexivity.
  Qed.
End Alg.

(** ** C56 *)
(** the mixed entries of lapcT that a cell type keeps, src/initialization.c:3594-3609:
    11 xy, 12 xz, 13 yz, 14 xy xz, 15 xz yz, 16 xy yz, 17 all *)
Definition dropped (typ : Z) (d e : nat) : bool :=
  match d, e with
  | 0%nat, 1%nat => existsb (Z.eqb typ) [12; 13; 15]
  | 0%nat, 2%nat => existsb (Z.eqb typ) [11; 13; 16]
  | 1%nat, 2%nat => existsb (Z.eqb typ) [11; 12; 14]
  | _, _ => false
  end.
Section C56.
  Variable K : Type.
  Variables (k0 k1 : K) (kadd kmul ksub : K -> K -> K) (kopp : K -> K).
  Hypothesis KR : ring_theory k0 k1 kadd kmul ksub kopp eq.
  Add Ring Kring5 : KR.
  Variables (dims : pt) (per : nat -> bool) (N : pt) (F : Z) (ph : pt -> K).
  Hypothesis Hdims : forall d, (d < 3)%nat -> 1 <= at_ dims d.
  Hypothesis HF : 1 <= F.
  Hypothesis HNF : forall d, (d < 3)%nat -> F * at_ dims d <= at_ N d.
  Variable g : pt -> K.
  Notation sz := (sz dims N).
  Notation st := (st dims N).
  Notation szx := (szx dims N F (fun _ => true)).
  Variables (T : nat -> nat -> K) (w1 w2 : Z -> K) (hinv : nat -> K).

  (** Every point of the extended block, edges and corners included, receives
      the value of the global function extended by the boundary conditions. *)
  Theorem C56_halo : forall (x : pt -> Z -> K) (p : pt), holds K dims N g x -> okp dims p ->
    exists m, extend26 K k0 k1 kmul dims per N F ph x p = Ok m /\
      forall b, inblk (vec (fun d => at_ (sz p) d + 2 * F)) b ->
        m (lin (vec (fun d => at_ (sz p) d + 2 * F)) b) = Some (gx26 K k0 k1 kmul per N ph g (vec (fun d => at_ (st p) d + at_ b d - F))).
  Proof.
    intros x p Hx Hp. destruct (extend_ok26 K k0 k1 kadd kmul ksub kopp KR dims per N F ph Hdims HF HNF g x Hx p Hp) as [m [E M]].
    exists m. split; [exact E|]. intros b Hb. specialize (M b Hb). change (szx p) with (vec (fun d => at_ (sz p) d + 2 * F)) in M. rewrite M. f_equal. f_equal.
    apply pt_ext. intros d Hd. unfold glob26. rewrite !at_vec by exact Hd. lia.
  Qed.

  Theorem C56_laplacian :
    forall (typ : Z) (useb : bool) (a b c : K) (v x : pt -> Z -> K) (vg : pt -> K) (p : pt),
    11 <= typ <= 17 -> (forall d e, (d < e < 3)%nat -> dropped typ d e = true -> T d e = k0) ->
    holds K dims N g x -> (useb = true -> holds K dims N vg v) -> okp dims p ->
    exists y, lap_nonorth K k0 k1 kadd kmul ksub dims per N F ph T w1 w2 hinv typ useb a b c v x p = Ok y /\
      forall q, inblk (sz p) q ->
        y (lin (sz p) q) = Some (lap26_spec K k0 k1 kadd kmul ksub per N ph g F T w1 w2 hinv a (if useb then b else k0) c vg (addp (st p) q)).
  Proof.
    intros typ useb a b c v x vg p Ht HT Hx Hv Hp.
    destruct (extend_ok26 K k0 k1 kadd kmul ksub kopp KR dims per N F ph Hdims HF HNF g x Hx p Hp) as [X [EX M]].
    unfold lap_nonorth. cbv zeta. replace ((10 <? typ) && (typ <? 20)) with true by lia. rewrite EX. cbn [obind].
    set (n := sz p) in *. set (nx := at_ n 0). set (ny := at_ n 1). set (nz := at_ n 2).
    set (gx := gx26 K k0 k1 kmul per N ph g).
    assert (HX : arr K (st p) ((nx + 2 * F) * (ny + 2 * F) * (nz + 2 * F)) X (szx p) (F, F, F) gx).
    { split; [reflexivity|]. intros e He. rewrite (M e He). reflexivity. }
    assert (Hex : forall e, (e < 3)%nat -> at_ (szx p) e = at_ n e + 2 * F) by (intros e He; unfold Halo.szx; rewrite at_vec by exact He; reflexivity).
    assert (HoF : forall e, (e < 3)%nat -> at_ (F, F, F) e = F) by (intros e He; destruct e as [|[|[|]]]; [reflexivity|reflexivity|reflexivity|lia]).
    set (vv := fun G => if useb then vg G else g G).
    assert (V : forall q, inblk n q -> rdx K n (if useb then v p else x p) (lin n q) = Ok (vv (addp (st p) q))).
    { intros q Hq. unfold rdx. pose proof (lin_bound _ _ Hq). replace ((0 <=? lin n q) && (lin n q <? nd n)) with true by lia. unfold vv. destruct useb.
      - rewrite (Hv eq_refl) by assumption. reflexivity.
      - rewrite Hx by assumption. reflexivity. }
    set (b' := if useb then b else k0). set (w0 := kadd (kmul (kadd (kadd (D2_ K kmul T w2 hinv 0 0) (D2_ K kmul T w2 hinv 1 0)) (D2_ K kmul T w2 hinv 2 0)) a) c).
    assert (GX : forall q, inblk n q -> gx (addp (st p) q) = g (addp (st p) q)).
    { intros q Hq. assert (PE : addp (st p) q = glob26 dims N F p (vec (fun d => at_ q d + F))) by (apply pt_ext; intros d Hd; unfold addp, glob26; rewrite !at_vec by exact Hd; lia).
      rewrite PE. apply (inner_gx26 K k0 k1 kadd kmul ksub kopp KR dims per N F ph Hdims HF HNF); [exact Hp|]. intros d Hd. rewrite at_vec by exact Hd. pose proof (Hq d Hd). fold n. lia. }
    assert (Hw4 : forall j r, 11 <= typ <= 16 -> 1 <= r <= F -> 0 <= j < 4 -> lap_wt K k1 kadd kmul F T w1 w2 hinv typ a (4 * r + 1 + j) = Ok (nth (Z.to_nat j) (compact K k1 kadd kmul T w1 w2 hinv typ a r) k0)).
    { intros j r H1 H2 H3. apply (lap_wt_ok K k0 k1 kadd kmul F T w1 w2 hinv typ a 4 r j HF); try lia. intros z. unfold compact. cbv zeta.
      assert (TT : typ = 11 \/ typ = 12 \/ typ = 13 \/ typ = 14 \/ typ = 15 \/ typ = 16) by lia. destruct TT as [-> | [-> | [-> | [-> | [-> | ->]]]]]; reflexivity. }
    assert (Hw5 : forall r j, 1 <= r <= F -> 0 <= j < 5 -> lap_wt K k1 kadd kmul F T w1 w2 hinv 17 a (5 * r + j) = Ok (nth (Z.to_nat j) (compact K k1 kadd kmul T w1 w2 hinv 17 a r) k0)).
    { intros r j H2 H3. rewrite <- (lap_wt_ok K k0 k1 kadd kmul F T w1 w2 hinv 17 a 5 r j HF); try lia; [f_equal; lia|]. reflexivity. }
    (** what remains: the sums equal the specification *)
    assert (FIN : forall (cf : Z -> Z -> K) (mix : pt -> K) y,
      (forall r, cf 0 r = kmul (D2_ K kmul T w2 hinv 0 r) a) -> (forall r, cf 1 r = kmul (D2_ K kmul T w2 hinv 1 r) a) -> (forall r, cf 2 r = kmul (D2_ K kmul T w2 hinv 2 r) a) ->
      (forall G, mix G = kmul a (kadd (kadd (kmul (kmul (kadd k1 k1) (T 0 1)%nat) (diff1 K k0 kadd kmul ksub F w1 hinv 0 (diff1 K k0 kadd kmul ksub F w1 hinv 1 gx) G))
         (kmul (kmul (kadd k1 k1) (T 0 2)%nat) (diff1 K k0 kadd kmul ksub F w1 hinv 0 (diff1 K k0 kadd kmul ksub F w1 hinv 2 gx) G)))
         (kmul (kmul (kadd k1 k1) (T 1 2)%nat) (diff1 K k0 kadd kmul ksub F w1 hinv 1 (diff1 K k0 kadd kmul ksub F w1 hinv 2 gx) G)))) ->
      (forall q, inblk n q -> y (lin n q) = Some (let G := addp (st p) q in
        kadd (kadd (kmul w0 (gx G)) (kadd (kadd (kadd (psum K k0 kadd kmul F gx (cf 0) 0 G) (psum K k0 kadd kmul F gx (cf 1) 1 G)) (psum K k0 kadd kmul F gx (cf 2) 2 G)) (mix G))) (kmul b' (kmul (vv G) (gx G))))) ->
      forall q, inblk n q -> y (lin n q) = Some (lap26_spec K k0 k1 kadd kmul ksub per N ph g F T w1 w2 hinv a b' c vg (addp (st p) q))).
    { intros cf mix y C0 C1 C2 MX Y q Hq. rewrite (Y q Hq). cbv zeta. f_equal. set (G := addp (st p) q).
      assert (PE : forall d j, (forall r, cf j r = kmul (D2_ K kmul T w2 hinv d r) a) -> psum K k0 kadd kmul F gx (cf j) d G = psum K k0 kadd kmul F gx (fun r => kmul (D2_ K kmul T w2 hinv d r) a) d G).
      { intros d j H. unfold psum. apply sum_ext. intros r. rewrite H. reflexivity. }
      rewrite (PE 0%nat 0 C0), (PE 1%nat 1 C1), (PE 2%nat 2 C2), MX. clear PE.
      unfold lap26_spec, lap26. cbv zeta. fold gx. pose proof (GX q Hq) as GQ. fold G in GQ. rewrite <- GQ.
      pose proof (psum_diff2 K k0 k1 kadd kmul ksub kopp KR F T w2 hinv gx a) as PD.
      unfold diff2.
      assert (B : kmul b' (kmul (vv G) (gx G)) = kmul b' (kmul (vg G) (gx G))) by (unfold b', vv; destruct useb; [reflexivity|ring]). rewrite B. unfold w0.
      pose proof (PD 0%nat G) as P0. pose proof (PD 1%nat G) as P1. pose proof (PD 2%nat G) as P2. clear PD.
      match goal with |- _ = kadd (kadd (kmul a (kadd (kadd (kadd ?t0 ?t1) ?t2) ?mm)) ?r1) ?r2 =>
        transitivity (kadd (kadd (kadd (kadd (kadd (kmul a t0) (kmul a t1)) (kmul a t2)) (kmul a mm)) r1) r2) end; [|ring].
      rewrite <- P0, <- P1, <- P2. ring. }
    assert (N3 : (nx, ny, nz) = n) by reflexivity. rewrite N3. clearbody n. clear M EX Hp.
    assert (TY : typ = 11 \/ typ = 12 \/ typ = 13 \/ typ = 14 \/ typ = 15 \/ typ = 16 \/ typ = 17) by lia.
    assert (NA : at_ n 0 = nx /\ at_ n 1 = ny /\ at_ n 2 = nz) by (repeat split). destruct NA as (NA0 & NA1 & NA2).
    assert (EA : at_ (szx p) 0 = nx + 2 * F /\ at_ (szx p) 1 = ny + 2 * F /\ at_ (szx p) 2 = nz + 2 * F) by (rewrite !Hex by lia; repeat split). destruct EA as (EA0 & EA1 & EA2).
    clearbody nx ny nz w0 gx vv b'.
    Ltac pt3 := intros e He; destruct e as [|[|[|]]]; [| | |lia]; cbn [at_]; lia.
    Ltac side := first [reflexivity | lia | pt3 | (unfold shiftd, nd; cbn [at_]; (reflexivity || lia || nia)) | assumption].
    assert (DS : forall d H, dsum K k0 kadd kmul ksub F (D1_ K kmul w1 hinv d) d gx H = diff1 K k0 kadd kmul ksub F w1 hinv d gx H).
    { intros d H. rewrite (dsum_ext K k0 kadd kmul ksub F _ (fun r => kmul k1 (D1_ K kmul w1 hinv d r)) d gx gx); [rewrite (dsum_diff K k0 k1 kadd kmul ksub kopp KR); ring|intros; ring|reflexivity]. }
    assert (DM : forall d e H, dsum K k0 kadd kmul ksub F (D1m K k1 kadd kmul T w1 hinv d e) e gx H = kmul (kmul (kadd k1 k1) (T (Nat.min d e) (Nat.max d e))) (diff1 K k0 kadd kmul ksub F w1 hinv e gx H)).
    { intros d e H. rewrite <- (dsum_diff K k0 k1 kadd kmul ksub kopp KR). apply dsum_ext; [intros r; unfold D1m, D1_; ring|reflexivity]. }
    destruct TY as [-> | [-> | [-> | [-> | [-> | [-> | ->]]]]]]; cbn [Z.eqb Pos.eqb].
    - lazymatch goal with |- context [Calc_DX K kadd kmul ksub ?sX X ?sD F ?str ?syX ?syD ?szX' ?szD (0, 0, 0) ?dn ?xo ?cf ?cc] =>
        destruct (Calc_DX_ok K k0 k1 kadd kmul ksub kopp KR (st p) n F HF sX X (szx p) (F, F, F) gx HX Hex HoF (F, 0, 0) dn xo ltac:(side) ltac:(side) ltac:(side)
          1%nat str syX szX' sD syD szD cf cc ltac:(side) ltac:(side) ltac:(side) ltac:(side) ltac:(side) ltac:(side) ltac:(side) ltac:(side)) as [D [ED AD]]
      end. rewrite ED. cbn [obind].
      lazymatch type of AD with arr _ _ ?sD _ ?dn _ ?h =>
        lazymatch goal with |- context [stencil_4comp K kadd kmul ksub ?sX X sD D F ?str ?sy1 ?syX ?syD ?sz1 ?szX' ?szD (0, 0, 0) n ?oo ?od ?wt ?c0 ?bb ?v0 ?s1] =>
        destruct (stencil_4_ok K k0 k1 kadd kmul ksub kopp KR (st p) n F HF sX X (szx p) (F, F, F) gx HX Hex HoF (F, 0, 0) dn 0%nat sD D h str sy1 sz1 syX szX' syD szD wt (fun j r => nth (Z.to_nat j) (compact K k1 kadd kmul T w1 w2 hinv 11 a r) k0) c0 bb v0 vv s1
          ltac:(side) ltac:(side) AD ltac:(side) ltac:(side) ltac:(side) ltac:(side) ltac:(side) ltac:(side) ltac:(side) ltac:(side) ltac:(side) ltac:(side) (fun r j H1 H2 => Hw4 j r ltac:(lia) H1 H2) V) as [y [EY Y]]
      end end.
      exists y. split; [exact EY|].
      lazymatch type of AD with arr _ _ _ _ _ _ ?h => refine (FIN (fun j r => nth (Z.to_nat j) (compact K k1 kadd kmul T w1 w2 hinv 11 a r) k0) (dsum K k0 kadd kmul ksub F (fun r => nth 3 (compact K k1 kadd kmul T w1 w2 hinv 11 a r) k0) 0 h) y _ _ _ _ Y) end; [intros r; reflexivity|intros r; reflexivity|intros r; reflexivity|].
      intros G. cbv beta.
      rewrite (dsum_ext K k0 kadd kmul ksub F _ (fun r => kmul (kmul (kmul (kadd k1 k1) (T 0 1)%nat) a) (D1_ K kmul w1 hinv 0 r)) 0 _ (diff1 K k0 kadd kmul ksub F w1 hinv 1 gx)); [|intros r; unfold compact, D2m, D1_; cbn; ring|intros H; rewrite DS; ring].
      rewrite (dsum_diff K k0 k1 kadd kmul ksub kopp KR). rewrite (HT 0%nat 2%nat ltac:(lia) eq_refl). rewrite (HT 1%nat 2%nat ltac:(lia) eq_refl). ring.
    - lazymatch goal with |- context [Calc_DX K kadd kmul ksub ?sX X ?sD F ?str ?syX ?syD ?szX' ?szD (0, 0, 0) ?dn ?xo ?cf ?cc] =>
        destruct (Calc_DX_ok K k0 k1 kadd kmul ksub kopp KR (st p) n F HF sX X (szx p) (F, F, F) gx HX Hex HoF (F, 0, 0) dn xo ltac:(side) ltac:(side) ltac:(side)
          2%nat str syX szX' sD syD szD cf cc ltac:(side) ltac:(side) ltac:(side) ltac:(side) ltac:(side) ltac:(side) ltac:(side) ltac:(side)) as [D [ED AD]]
      end. rewrite ED. cbn [obind].
      lazymatch type of AD with arr _ _ ?sD _ ?dn _ ?h =>
        lazymatch goal with |- context [stencil_4comp K kadd kmul ksub ?sX X sD D F ?str ?sy1 ?syX ?syD ?sz1 ?szX' ?szD (0, 0, 0) n ?oo ?od ?wt ?c0 ?bb ?v0 ?s1] =>
        destruct (stencil_4_ok K k0 k1 kadd kmul ksub kopp KR (st p) n F HF sX X (szx p) (F, F, F) gx HX Hex HoF (F, 0, 0) dn 0%nat sD D h str sy1 sz1 syX szX' syD szD wt (fun j r => nth (Z.to_nat j) (compact K k1 kadd kmul T w1 w2 hinv 12 a r) k0) c0 bb v0 vv s1
          ltac:(side) ltac:(side) AD ltac:(side) ltac:(side) ltac:(side) ltac:(side) ltac:(side) ltac:(side) ltac:(side) ltac:(side) ltac:(side) ltac:(side) (fun r j H1 H2 => Hw4 j r ltac:(lia) H1 H2) V) as [y [EY Y]]
      end end.
      exists y. split; [exact EY|].
      lazymatch type of AD with arr _ _ _ _ _ _ ?h => refine (FIN (fun j r => nth (Z.to_nat j) (compact K k1 kadd kmul T w1 w2 hinv 12 a r) k0) (dsum K k0 kadd kmul ksub F (fun r => nth 3 (compact K k1 kadd kmul T w1 w2 hinv 12 a r) k0) 0 h) y _ _ _ _ Y) end; [intros r; reflexivity|intros r; reflexivity|intros r; reflexivity|].
      intros G. cbv beta.
      rewrite (dsum_ext K k0 kadd kmul ksub F _ (fun r => kmul (kmul (kmul (kadd k1 k1) (T 0 2)%nat) a) (D1_ K kmul w1 hinv 0 r)) 0 _ (diff1 K k0 kadd kmul ksub F w1 hinv 2 gx)); [|intros r; unfold compact, D2m, D1_; cbn; ring|intros H; rewrite DS; ring].
      rewrite (dsum_diff K k0 k1 kadd kmul ksub kopp KR). rewrite (HT 0%nat 1%nat ltac:(lia) eq_refl). rewrite (HT 1%nat 2%nat ltac:(lia) eq_refl). ring.
    - lazymatch goal with |- context [Calc_DX K kadd kmul ksub ?sX X ?sD F ?str ?syX ?syD ?szX' ?szD (0, 0, 0) ?dn ?xo ?cf ?cc] =>
        destruct (Calc_DX_ok K k0 k1 kadd kmul ksub kopp KR (st p) n F HF sX X (szx p) (F, F, F) gx HX Hex HoF (0, F, 0) dn xo ltac:(side) ltac:(side) ltac:(side)
          2%nat str syX szX' sD syD szD cf cc ltac:(side) ltac:(side) ltac:(side) ltac:(side) ltac:(side) ltac:(side) ltac:(side) ltac:(side)) as [D [ED AD]]
      end. rewrite ED. cbn [obind].
      lazymatch type of AD with arr _ _ ?sD _ ?dn _ ?h =>
        lazymatch goal with |- context [stencil_4comp K kadd kmul ksub ?sX X sD D F ?str ?sy1 ?syX ?syD ?sz1 ?szX' ?szD (0, 0, 0) n ?oo ?od ?wt ?c0 ?bb ?v0 ?s1] =>
        destruct (stencil_4_ok K k0 k1 kadd kmul ksub kopp KR (st p) n F HF sX X (szx p) (F, F, F) gx HX Hex HoF (0, F, 0) dn 1%nat sD D h str sy1 sz1 syX szX' syD szD wt (fun j r => nth (Z.to_nat j) (compact K k1 kadd kmul T w1 w2 hinv 13 a r) k0) c0 bb v0 vv s1
          ltac:(side) ltac:(side) AD ltac:(side) ltac:(side) ltac:(side) ltac:(side) ltac:(side) ltac:(side) ltac:(side) ltac:(side) ltac:(side) ltac:(side) (fun r j H1 H2 => Hw4 j r ltac:(lia) H1 H2) V) as [y [EY Y]]
      end end.
      exists y. split; [exact EY|].
      lazymatch type of AD with arr _ _ _ _ _ _ ?h => refine (FIN (fun j r => nth (Z.to_nat j) (compact K k1 kadd kmul T w1 w2 hinv 13 a r) k0) (dsum K k0 kadd kmul ksub F (fun r => nth 3 (compact K k1 kadd kmul T w1 w2 hinv 13 a r) k0) 1 h) y _ _ _ _ Y) end; [intros r; reflexivity|intros r; reflexivity|intros r; reflexivity|].
      intros G. cbv beta.
      rewrite (dsum_ext K k0 kadd kmul ksub F _ (fun r => kmul (kmul (kmul (kadd k1 k1) (T 1 2)%nat) a) (D1_ K kmul w1 hinv 1 r)) 1 _ (diff1 K k0 kadd kmul ksub F w1 hinv 2 gx)); [|intros r; unfold compact, D2m, D1_; cbn; ring|intros H; rewrite DS; ring].
      rewrite (dsum_diff K k0 k1 kadd kmul ksub kopp KR). rewrite (HT 0%nat 1%nat ltac:(lia) eq_refl). rewrite (HT 0%nat 2%nat ltac:(lia) eq_refl). ring.
    - lazymatch goal with |- context [Calc_DX1_DX2 K k0 kadd kmul ksub ?sX X ?sD F ?str ?str' ?syX ?syD ?szX' ?szD (0, 0, 0) ?dn ?xo ?cf ?cf'] =>
        destruct (Calc_DX1_DX2_ok K k0 k1 kadd kmul ksub kopp KR (st p) n F HF sX X (szx p) (F, F, F) gx HX Hex HoF (F, 0, 0) dn xo ltac:(side) ltac:(side) ltac:(side)
          1%nat 2%nat str str' syX szX' sD syD szD cf cf' ltac:(side) ltac:(side) ltac:(side) ltac:(side) ltac:(side) ltac:(side) ltac:(side) ltac:(side) ltac:(side) ltac:(side) ltac:(side)) as [D [ED AD]]
      end. rewrite ED. cbn [obind].
      lazymatch type of AD with arr _ _ ?sD _ ?dn _ ?h =>
        lazymatch goal with |- context [stencil_4comp K kadd kmul ksub ?sX X sD D F ?str ?sy1 ?syX ?syD ?sz1 ?szX' ?szD (0, 0, 0) n ?oo ?od ?wt ?c0 ?bb ?v0 ?s1] =>
        destruct (stencil_4_ok K k0 k1 kadd kmul ksub kopp KR (st p) n F HF sX X (szx p) (F, F, F) gx HX Hex HoF (F, 0, 0) dn 0%nat sD D h str sy1 sz1 syX szX' syD szD wt (fun j r => nth (Z.to_nat j) (compact K k1 kadd kmul T w1 w2 hinv 14 a r) k0) c0 bb v0 vv s1
          ltac:(side) ltac:(side) AD ltac:(side) ltac:(side) ltac:(side) ltac:(side) ltac:(side) ltac:(side) ltac:(side) ltac:(side) ltac:(side) ltac:(side) (fun r j H1 H2 => Hw4 j r ltac:(lia) H1 H2) V) as [y [EY Y]]
      end end.
      exists y. split; [exact EY|].
      lazymatch type of AD with arr _ _ _ _ _ _ ?h => refine (FIN (fun j r => nth (Z.to_nat j) (compact K k1 kadd kmul T w1 w2 hinv 14 a r) k0) (dsum K k0 kadd kmul ksub F (fun r => nth 3 (compact K k1 kadd kmul T w1 w2 hinv 14 a r) k0) 0 h) y _ _ _ _ Y) end; [intros r; reflexivity|intros r; reflexivity|intros r; reflexivity|].
      intros G. cbv beta.
      rewrite (dsum_ext K k0 kadd kmul ksub F _ (fun r => kmul a (D1_ K kmul w1 hinv 0 r)) 0 _
        (fun H => kadd (kmul (kmul (kadd k1 k1) (T 0 1)%nat) (diff1 K k0 kadd kmul ksub F w1 hinv 1 gx H)) (kmul (kmul (kadd k1 k1) (T 0 2)%nat) (diff1 K k0 kadd kmul ksub F w1 hinv 2 gx H)))); [|intros r; unfold compact, D1_; cbn; ring|intros H; rewrite <- (DM 0 1)%nat, <- (DM 0 2)%nat; reflexivity].
      rewrite (dsum_diff K k0 k1 kadd kmul ksub kopp KR), (diff1_lin K k0 k1 kadd kmul ksub kopp KR). rewrite (HT 1%nat 2%nat ltac:(lia) eq_refl). ring.
    - lazymatch goal with |- context [Calc_DX1_DX2 K k0 kadd kmul ksub ?sX X ?sD F ?str ?str' ?syX ?syD ?szX' ?szD (0, 0, 0) ?dn ?xo ?cf ?cf'] =>
        destruct (Calc_DX1_DX2_ok K k0 k1 kadd kmul ksub kopp KR (st p) n F HF sX X (szx p) (F, F, F) gx HX Hex HoF (0, 0, F) dn xo ltac:(side) ltac:(side) ltac:(side)
          0%nat 1%nat str str' syX szX' sD syD szD cf cf' ltac:(side) ltac:(side) ltac:(side) ltac:(side) ltac:(side) ltac:(side) ltac:(side) ltac:(side) ltac:(side) ltac:(side) ltac:(side)) as [D [ED AD]]
      end. rewrite ED. cbn [obind].
      lazymatch type of AD with arr _ _ ?sD _ ?dn _ ?h =>
        lazymatch goal with |- context [stencil_4comp K kadd kmul ksub ?sX X sD D F ?str ?sy1 ?syX ?syD ?sz1 ?szX' ?szD (0, 0, 0) n ?oo ?od ?wt ?c0 ?bb ?v0 ?s1] =>
        destruct (stencil_4_ok K k0 k1 kadd kmul ksub kopp KR (st p) n F HF sX X (szx p) (F, F, F) gx HX Hex HoF (0, 0, F) dn 2%nat sD D h str sy1 sz1 syX szX' syD szD wt (fun j r => nth (Z.to_nat j) (compact K k1 kadd kmul T w1 w2 hinv 15 a r) k0) c0 bb v0 vv s1
          ltac:(side) ltac:(side) AD ltac:(side) ltac:(side) ltac:(side) ltac:(side) ltac:(side) ltac:(side) ltac:(side) ltac:(side) ltac:(side) ltac:(side) (fun r j H1 H2 => Hw4 j r ltac:(lia) H1 H2) V) as [y [EY Y]]
      end end.
      exists y. split; [exact EY|].
      lazymatch type of AD with arr _ _ _ _ _ _ ?h => refine (FIN (fun j r => nth (Z.to_nat j) (compact K k1 kadd kmul T w1 w2 hinv 15 a r) k0) (dsum K k0 kadd kmul ksub F (fun r => nth 3 (compact K k1 kadd kmul T w1 w2 hinv 15 a r) k0) 2 h) y _ _ _ _ Y) end; [intros r; reflexivity|intros r; reflexivity|intros r; reflexivity|].
      intros G. cbv beta.
      rewrite (dsum_ext K k0 kadd kmul ksub F _ (fun r => kmul a (D1_ K kmul w1 hinv 2 r)) 2 _
        (fun H => kadd (kmul (kmul (kadd k1 k1) (T 0 2)%nat) (diff1 K k0 kadd kmul ksub F w1 hinv 0 gx H)) (kmul (kmul (kadd k1 k1) (T 1 2)%nat) (diff1 K k0 kadd kmul ksub F w1 hinv 1 gx H)))); [|intros r; unfold compact, D1_; cbn; ring|intros H; rewrite <- (DM 2 0)%nat, <- (DM 2 1)%nat; reflexivity].
      rewrite (dsum_diff K k0 k1 kadd kmul ksub kopp KR), (diff1_lin K k0 k1 kadd kmul ksub kopp KR). rewrite (diff1_comm K k0 k1 kadd kmul ksub kopp KR F w1 hinv 2 0) by lia. rewrite (diff1_comm K k0 k1 kadd kmul ksub kopp KR F w1 hinv 2 1) by lia. rewrite (HT 0%nat 1%nat ltac:(lia) eq_refl). ring.
    - lazymatch goal with |- context [Calc_DX1_DX2 K k0 kadd kmul ksub ?sX X ?sD F ?str ?str' ?syX ?syD ?szX' ?szD (0, 0, 0) ?dn ?xo ?cf ?cf'] =>
        destruct (Calc_DX1_DX2_ok K k0 k1 kadd kmul ksub kopp KR (st p) n F HF sX X (szx p) (F, F, F) gx HX Hex HoF (0, F, 0) dn xo ltac:(side) ltac:(side) ltac:(side)
          0%nat 2%nat str str' syX szX' sD syD szD cf cf' ltac:(side) ltac:(side) ltac:(side) ltac:(side) ltac:(side) ltac:(side) ltac:(side) ltac:(side) ltac:(side) ltac:(side) ltac:(side)) as [D [ED AD]]
      end. rewrite ED. cbn [obind].
      lazymatch type of AD with arr _ _ ?sD _ ?dn _ ?h =>
        lazymatch goal with |- context [stencil_4comp K kadd kmul ksub ?sX X sD D F ?str ?sy1 ?syX ?syD ?sz1 ?szX' ?szD (0, 0, 0) n ?oo ?od ?wt ?c0 ?bb ?v0 ?s1] =>
        destruct (stencil_4_ok K k0 k1 kadd kmul ksub kopp KR (st p) n F HF sX X (szx p) (F, F, F) gx HX Hex HoF (0, F, 0) dn 1%nat sD D h str sy1 sz1 syX szX' syD szD wt (fun j r => nth (Z.to_nat j) (compact K k1 kadd kmul T w1 w2 hinv 16 a r) k0) c0 bb v0 vv s1
          ltac:(side) ltac:(side) AD ltac:(side) ltac:(side) ltac:(side) ltac:(side) ltac:(side) ltac:(side) ltac:(side) ltac:(side) ltac:(side) ltac:(side) (fun r j H1 H2 => Hw4 j r ltac:(lia) H1 H2) V) as [y [EY Y]]
      end end.
      exists y. split; [exact EY|].
      lazymatch type of AD with arr _ _ _ _ _ _ ?h => refine (FIN (fun j r => nth (Z.to_nat j) (compact K k1 kadd kmul T w1 w2 hinv 16 a r) k0) (dsum K k0 kadd kmul ksub F (fun r => nth 3 (compact K k1 kadd kmul T w1 w2 hinv 16 a r) k0) 1 h) y _ _ _ _ Y) end; [intros r; reflexivity|intros r; reflexivity|intros r; reflexivity|].
      intros G. cbv beta.
      rewrite (dsum_ext K k0 kadd kmul ksub F _ (fun r => kmul a (D1_ K kmul w1 hinv 1 r)) 1 _
        (fun H => kadd (kmul (kmul (kadd k1 k1) (T 0 1)%nat) (diff1 K k0 kadd kmul ksub F w1 hinv 0 gx H)) (kmul (kmul (kadd k1 k1) (T 1 2)%nat) (diff1 K k0 kadd kmul ksub F w1 hinv 2 gx H)))); [|intros r; unfold compact, D1_; cbn; ring|intros H; rewrite <- (DM 1 0)%nat, <- (DM 1 2)%nat; reflexivity].
      rewrite (dsum_diff K k0 k1 kadd kmul ksub kopp KR), (diff1_lin K k0 k1 kadd kmul ksub kopp KR). rewrite (diff1_comm K k0 k1 kadd kmul ksub kopp KR F w1 hinv 1 0) by lia. rewrite (HT 0%nat 2%nat ltac:(lia) eq_refl). ring.
    - lazymatch goal with |- context [Calc_DX1_DX2 K k0 kadd kmul ksub ?sX X ?sD F ?str ?str' ?syX ?syD ?szX' ?szD (0, 0, 0) ?dn ?xo ?cf ?cf'] =>
        destruct (Calc_DX1_DX2_ok K k0 k1 kadd kmul ksub kopp KR (st p) n F HF sX X (szx p) (F, F, F) gx HX Hex HoF (F, 0, 0) dn xo ltac:(side) ltac:(side) ltac:(side)
          1%nat 2%nat str str' syX szX' sD syD szD cf cf' ltac:(side) ltac:(side) ltac:(side) ltac:(side) ltac:(side) ltac:(side) ltac:(side) ltac:(side) ltac:(side) ltac:(side) ltac:(side)) as [D [ED AD]]
      end. rewrite ED. cbn [obind].
      lazymatch goal with |- context [Calc_DX K kadd kmul ksub ?sX X ?sD F ?str ?syX ?syD ?szX' ?szD (0, 0, 0) ?dn ?xo ?cf ?cc] =>
        destruct (Calc_DX_ok K k0 k1 kadd kmul ksub kopp KR (st p) n F HF sX X (szx p) (F, F, F) gx HX Hex HoF (0, F, 0) dn xo ltac:(side) ltac:(side) ltac:(side)
          2%nat str syX szX' sD syD szD cf cc ltac:(side) ltac:(side) ltac:(side) ltac:(side) ltac:(side) ltac:(side) ltac:(side) ltac:(side)) as [E_ [EE_ AE_]]
      end. rewrite EE_. cbn [obind].
      lazymatch type of AD with arr _ _ ?sD _ ?dn _ ?h => lazymatch type of AE_ with arr _ _ ?sE _ ?en _ ?k =>
        lazymatch goal with |- context [stencil_5comp K kadd kmul ksub ?sX X sD D sE E_ F ?str ?str' ?sy1 ?syX ?syD ?syE ?sz1 ?szX' ?szD ?szE (0, 0, 0) n ?oo ?od ?oe ?wt ?c0 ?bb ?v0 ?s1] =>
        destruct (stencil_5_ok K k0 k1 kadd kmul ksub kopp KR (st p) n F HF sX X (szx p) (F, F, F) gx HX Hex HoF (F, 0, 0) dn 0%nat sD D h str (0, F, 0) en 1%nat sE E_ k str' sy1 sz1 syX szX' syD szD syE szE wt (fun j r => nth (Z.to_nat j) (compact K k1 kadd kmul T w1 w2 hinv 17 a r) k0) c0 bb v0 vv s1
          ltac:(side) ltac:(side) AD ltac:(side) ltac:(side) ltac:(side) ltac:(side) ltac:(side) ltac:(side) ltac:(side) AE_ ltac:(side) ltac:(side) ltac:(side) ltac:(side) ltac:(side) ltac:(side) ltac:(side) ltac:(side) ltac:(side) ltac:(side) ltac:(exact Hw5) V) as [y [EY Y]]
      end end end.
      exists y. split; [exact EY|].
      lazymatch type of AD with arr _ _ _ _ _ _ ?h => lazymatch type of AE_ with arr _ _ _ _ _ _ ?k =>
        refine (FIN (fun j r => nth (Z.to_nat j) (compact K k1 kadd kmul T w1 w2 hinv 17 a r) k0) (fun G => kadd (dsum K k0 kadd kmul ksub F (fun r => nth 3 (compact K k1 kadd kmul T w1 w2 hinv 17 a r) k0) 0 h G) (dsum K k0 kadd kmul ksub F (fun r => nth 4 (compact K k1 kadd kmul T w1 w2 hinv 17 a r) k0) 1 k G)) y _ _ _ _ Y) end end; [intros r; reflexivity|intros r; reflexivity|intros r; reflexivity|].
      intros G. cbv beta.
      rewrite (dsum_ext K k0 kadd kmul ksub F _ (fun r => kmul a (D1_ K kmul w1 hinv 0 r)) 0 _
        (fun H => kadd (kmul (kmul (kadd k1 k1) (T 0 1)%nat) (diff1 K k0 kadd kmul ksub F w1 hinv 1 gx H)) (kmul (kmul (kadd k1 k1) (T 0 2)%nat) (diff1 K k0 kadd kmul ksub F w1 hinv 2 gx H)))); [|intros r; unfold compact, D1_; cbn; ring|intros H; rewrite <- (DM 0 1)%nat, <- (DM 0 2)%nat; reflexivity].
      rewrite (dsum_diff K k0 k1 kadd kmul ksub kopp KR), (diff1_lin K k0 k1 kadd kmul ksub kopp KR).
      rewrite (dsum_ext K k0 kadd kmul ksub F _ (fun r => kmul (kmul (kmul (kadd k1 k1) (T 1 2)%nat) a) (D1_ K kmul w1 hinv 1 r)) 1 _ (diff1 K k0 kadd kmul ksub F w1 hinv 2 gx)); [|intros r; unfold compact, D2m, D1_; cbn; ring|intros H; rewrite DS; ring].
      rewrite (dsum_diff K k0 k1 kadd kmul ksub kopp KR). ring.
  Qed.
End C56.

(** The number of processes and their arrangement do not change the result. *)
Theorem C56_grid_independent :
  forall (K : Type) (k0 k1 : K) (kadd kmul ksub : K -> K -> K) (kopp : K -> K), ring_theory k0 k1 kadd kmul ksub kopp eq ->
  forall (per : nat -> bool) (N : pt) (F : Z) (ph : pt -> K) (g vg : pt -> K) (T : nat -> nat -> K) (w1 w2 : Z -> K) (hinv : nat -> K) (typ : Z) (useb : bool) (a b c : K),
  1 <= F -> 11 <= typ <= 17 -> (forall d e, (d < e < 3)%nat -> dropped typ d e = true -> T d e = k0) ->
  forall (dims1 dims2 : pt) (v1 x1 v2 x2 : pt -> Z -> K) (p1 q1 p2 q2 : pt),
  (forall d, (d < 3)%nat -> 1 <= at_ dims1 d /\ F * at_ dims1 d <= at_ N d /\ 1 <= at_ dims2 d /\ F * at_ dims2 d <= at_ N d) ->
  holds K dims1 N g x1 -> holds K dims1 N vg v1 -> holds K dims2 N g x2 -> holds K dims2 N vg v2 ->
  okp dims1 p1 -> inblk (sz dims1 N p1) q1 -> okp dims2 p2 -> inblk (sz dims2 N p2) q2 ->
  addp (st dims1 N p1) q1 = addp (st dims2 N p2) q2 ->
  exists y1 y2 r,
    lap_nonorth K k0 k1 kadd kmul ksub dims1 per N F ph T w1 w2 hinv typ useb a b c v1 x1 p1 = Ok y1 /\
    lap_nonorth K k0 k1 kadd kmul ksub dims2 per N F ph T w1 w2 hinv typ useb a b c v2 x2 p2 = Ok y2 /\
    y1 (lin (sz dims1 N p1) q1) = Some r /\ y2 (lin (sz dims2 N p2) q2) = Some r.
Proof.
  intros K k0 k1 kadd kmul ksub kopp KR per N F ph g vg T w1 w2 hinv typ useb a b c HF Ht HT dims1 dims2 v1 x1 v2 x2 p1 q1 p2 q2 HD X1 V1 X2 V2 P1 Q1 P2 Q2 E.
  destruct (C56_laplacian K k0 k1 kadd kmul ksub kopp KR dims1 per N F ph (fun d Hd => proj1 (HD d Hd)) HF (fun d Hd => proj1 (proj2 (HD d Hd))) g T w1 w2 hinv typ useb a b c v1 x1 vg p1) as [y1 [E1 Y1]]; auto.
  destruct (C56_laplacian K k0 k1 kadd kmul ksub kopp KR dims2 per N F ph (fun d Hd => proj1 (proj2 (proj2 (HD d Hd)))) HF (fun d Hd => proj2 (proj2 (proj2 (HD d Hd)))) g T w1 w2 hinv typ useb a b c v2 x2 vg p2) as [y2 [E2 Y2]]; auto.
  exists y1, y2, (lap26_spec K k0 k1 kadd kmul ksub per N ph g F T w1 w2 hinv a (if useb then b else k0) c vg (addp (st dims1 N p1) q1)).
  repeat split; auto. rewrite E. apply Y2. exact Q2.
Qed.

(** ** Examples and limits, over the integers *)
Definition Tz (typ : Z) (d e : nat) : Z := if dropped typ d e then 0 else 2 + 3 * Z.of_nat d + 5 * Z.of_nat e.
Definition w1z (r : Z) : Z := if r =? 0 then 0 else 4 - r.
Definition w2z (r : Z) : Z := 7 - 3 * r.
Definition hz (d : nat) : Z := 1 + Z.of_nat d.
Definition ph26z (o : pt) : Z := 2 + 3 * at_ o 0 + 5 * at_ o 1 - 7 * at_ o 2.
Definition lap26z (typ : Z) (dims N : pt) (per : nat -> bool) (F : Z) (p q : pt) : outcome (option Z) :=
  do y <- lap_nonorth Z 0 1 Z.add Z.mul Z.sub dims per N F ph26z (Tz typ) w1z w2z hz typ true 2 3 4 (scatter dims N vz) (scatter dims N gz) p ;
  Ok (y (lin (sz dims N p) q)).
Definition lap26z_spec (typ : Z) (N : pt) (per : nat -> bool) (F : Z) (G : pt) : Z :=
  lap26_spec Z 0 1 Z.add Z.mul Z.sub per N ph26z gz F (Tz typ) w1z w2z hz 2 3 4 vz G.
(** 2 x 3 x 1 processes, 5 x 7 x 2 points, FDn = 2, y not periodic: a corner of
    the last block, where edge and corner neighbours contribute *)
Example C56_ex : Forall (fun typ =>
  lap26z typ (2, 3, 1) (5, 7, 2) perz 2 (1, 2, 0) (1, 1, 1) = Ok (Some (lap26z_spec typ (5, 7, 2) perz 2 (4, 6, 1))) /\
  lap26z typ (1, 1, 1) (5, 7, 2) perz 2 (0, 0, 0) (4, 6, 1) = Ok (Some (lap26z_spec typ (5, 7, 2) perz 2 (4, 6, 1))) /\
  lap26z_spec typ (5, 7, 2) perz 2 (4, 6, 1) <> 0) [11; 12; 13; 14; 15; 16; 17].
Proof. repeat (apply Forall_cons; [vm_compute; repeat split; congruence|]). apply Forall_nil. Qed.
Example C56_ex_hyp : (forall d, (d < 3)%nat -> 1 <= at_ (2, 3, 1) d /\ 2 * at_ (2, 3, 1) d <= at_ (5, 7, 2) d) /\
  (forall typ d e, dropped typ d e = true -> Tz typ d e = 0) /\ (exists d e, Tz 14 d e <> 0 /\ dropped 14 d e = false) /\
  okp (2, 3, 1) (1, 2, 0) /\ inblk (sz (2, 3, 1) (5, 7, 2) (1, 2, 0)) (1, 1, 1) /\
  holds Z (2, 3, 1) (5, 7, 2) gz (scatter (2, 3, 1) (5, 7, 2) gz).
Proof.
  split; [|split; [|split; [|split; [|split]]]].
  - intros d Hd. destruct d as [|[|[|]]]; cbn; lia.
  - intros typ d e H. unfold Tz. rewrite H. reflexivity.
  - exists 0%nat, 1%nat. split; [vm_compute; congruence|reflexivity].
  - intros d Hd. destruct d as [|[|[|]]]; vm_compute; split; congruence.
  - intros d Hd. destruct d as [|[|[|]]]; vm_compute; split; congruence.
  - apply scatter_holds.
Qed.
(** The cell type 1, which src/initialization.c can leave behind (C48), is
    outside the range the routine is written for. *)
Theorem C56_cell_type_refuted : exists typ, (typ = 1) /\ forall dims N per F p q, lap26z typ dims N per F p q = UB.
Proof. exists 1. split; [reflexivity|]. intros. reflexivity. Qed.
(** A block narrower than FDn makes the packing loops leave the block. *)
Theorem C56_narrow_refuted : exists (dims N : pt) (per : nat -> bool) (F : Z) (p : pt),
  (forall d, (d < 3)%nat -> at_ dims d = 1 /\ 1 <= at_ N d) /\ 1 <= F /\ okp dims p /\ forall q, lap26z 17 dims N per F p q = UB.
Proof.
  exists (1, 1, 1), (1, 1, 1), (fun _ => true), 2, (0, 0, 0).
  split; [intros d Hd; destruct d as [|[|[|]]]; cbn; lia|]. split; [lia|]. split; [intros d Hd; destruct d as [|[|[|]]]; cbn; lia|]. intros q. unfold lap26z.
  replace (lap_nonorth Z 0 1 Z.add Z.mul Z.sub (1, 1, 1) (fun _ => true) (1, 1, 1) 2 ph26z (Tz 17) w1z w2z hz 17 true 2 3 4 (scatter (1, 1, 1) (1, 1, 1) vz) (scatter (1, 1, 1) (1, 1, 1) gz) (0, 0, 0)) with (@UB (Z -> option Z)); [reflexivity|].
  vm_compute. reflexivity.
Qed.
Print Assumptions C56_halo.
Print Assumptions C56_laplacian.
Print Assumptions C56_grid_independent.
Print Assumptions C56_cell_type_refuted.
Print Assumptions C56_narrow_refuted.
