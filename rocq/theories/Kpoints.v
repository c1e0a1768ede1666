(** Monkhorst-Pack grid, time-reversal reduction and Hartree-Fock k-point maps
    (src/initialization.c:3179-3403, Calculate_kpoints).

    Simplifications: exact rational arithmetic; k-vectors are kept in reduced
    coordinates, i.e. the common factor 2*pi/L of every comparison is divided
    out, so the tolerance of direction d is [tol d] = TEMP_TOL*L/(2*pi), an
    arbitrary positive rational. The reduction and the Hartree-Fock part of
    the triple loop touch disjoint variables and are written as two loops
    over the same grid. *)
From Coq Require Import ZArith QArith Qabs Qround List Lia Bool Lqa Permutation.
From Verif Require Import CBase Spline Wrap.
Import ListNotations.
Local Open Scope Q_scope.

(** src/initialization.c:53 *)
Definition TEMP_TOL : Q := 1 # 1000000000000.

(** one direction: grid size Kx, shift kptshift[0], whether it is wrapped
    (all directions, only z when CyclixFlag), tolerance *)
Record dir := Dir { K : Z; shift : Q; wrapped : bool; tol : Q }.

(** src/initialization.c:3247-3253 *)
Definition n_start (d : dir) : Z := (- Z.quot (K d - 1) 2)%Z.
Definition range (d : dir) : list Z :=
  map (fun i => (n_start d + Z.of_nat i)%Z) (seq 0 (Z.to_nat (K d))).

(** src/initialization.c:3260-3273 *)
Definition red1 (d : dir) (n : Z) : Q :=
  if wrapped d
  then fmod (inject_Z n / inject_Z (K d) + shift d / inject_Z (K d) + (1 # 2) - TEMP_TOL) 1 - (1 # 2) + TEMP_TOL
  else inject_Z n / inject_Z (K d).

Record pt := Pt { p1 : Q; p2 : Q; p3 : Q }.
Record idx := Ix { i1 : Z; i2 : Z; i3 : Z }.
Record mesh := Mesh { dx : dir; dy : dir; dz : dir }.

(** the triple loop, src/initialization.c:3255-3257 *)
Definition grid (m : mesh) : list idx :=
  flat_map (fun a => flat_map (fun b => map (fun c => Ix a b c) (range (dz m))) (range (dy m))) (range (dx m)).
Definition red (m : mesh) (i : idx) : pt :=
  Pt (red1 (dx m) (i1 i)) (red1 (dy m) (i2 i)) (red1 (dz m) (i3 i)).

(** src/initialization.c:3283-3285 (one direction; sumx is 1 in reduced units) *)
Definition opp1 (d : dir) (a b : Q) : bool :=
  qltb (Qabs (a + b)) (tol d) || qltb (Qabs (a + b - 1)) (tol d).
Definition opposite (m : mesh) (p q : pt) : bool :=
  opp1 (dx m) (p1 p) (p1 q) && opp1 (dy m) (p2 p) (p2 q) && opp1 (dz m) (p3 p) (p3 q).

(** src/initialization.c:3281-3299: the search loop and the [else] branch *)
Fixpoint mark (m : mesh) (p : pt) (l : list (pt * Z)) : option (list (pt * Z)) :=
  match l with
  | [] => None
  | (q, w) :: r =>
      if opposite m p q then Some ((q, 2%Z) :: r)
      else match mark m p r with Some r' => Some ((q, w) :: r') | None => None end
  end.
(** src/initialization.c:3281-3299; [cap] entries are allocated (2644-2649) *)
Definition kstep (m : mesh) (cap : nat) (l : list (pt * Z)) (p : pt) : outcome (list (pt * Z)) :=
  match mark m p l with
  | Some l' => Ok l'
  | None => if (length l <? cap)%nat then Ok (l ++ [(p, 1%Z)]) else UB
  end.
Fixpoint kloop (m : mesh) (cap : nat) (ps : list pt) (l : list (pt * Z)) : outcome (list (pt * Z)) :=
  match ps with [] => Ok l | p :: r => do l' <- kstep m cap l p ; kloop m cap r l' end.
(** Nkpts = Kx*Ky*Kz, src/readfiles.c:304 *)
Definition Nkpts (m : mesh) : Z := (K (dx m) * K (dy m) * K (dz m))%Z.
Definition Calculate_kpoints (m : mesh) : outcome (list (pt * Z)) :=
  kloop m (Z.to_nat (Nkpts m)) (map (red m) (grid m)) [].

(** ** Hartree-Fock part *)
Record down := Down { sx : Z; sy : Z; sz : Z }.
(** src/initialization.c:3210-3232 *)
Definition K_hf (d : dir) (s : Z) : Z := if (s =? 0)%Z then 1%Z else Z.quot (K d) s.
Definition Nkpts_hf (m : mesh) (s : down) : Z :=
  (K_hf (dx m) (sx s) * K_hf (dy m) (sy s) * K_hf (dz m) (sz s))%Z.
(** src/initialization.c:3195-3208 *)
Definition ds_rejected (d : dir) (s : Z) : bool :=
  (s <? 0)%Z || ((0 <? s)%Z && negb (Z.rem (K d) s =? 0)%Z).
(** src/initialization.c:3302-3321 *)
Definition flag_c (d : dir) (s : Z) (n : Z) : bool :=
  if (s =? 0)%Z then qltb (Qabs (red1 d n)) (tol d)
  else (Z.rem (n - n_start d + 1) s =? 0)%Z.
Definition chosen (m : mesh) (s : down) (i : idx) : bool :=
  flag_c (dx m) (sx s) (i1 i) && flag_c (dy m) (sy s) (i2 i) && flag_c (dz m) (sz s) (i3 i).
(** src/initialization.c:3323-3328, arrays of Nkpts_hf entries *)
Fixpoint hf_store (m : mesh) (s : down) (cap : nat) (is : list idx) (l : list pt) : outcome (list pt) :=
  match is with
  | [] => Ok l
  | i :: r => if chosen m s i
              then if (length l <? cap)%nat then hf_store m s cap r (l ++ [red m i]) else UB
              else hf_store m s cap r l
  end.
(** src/initialization.c:3304,3311,3318 and 3338-3352 *)
Definition gamma_missing (d : dir) (s : Z) (comp : idx -> Z) (g : list idx) : bool :=
  (s =? 0)%Z && negb (existsb (fun i => flag_c d s (comp i)) g).

(** src/initialization.c:3355-3363 *)
Definition same1 (d : dir) (a b : Q) : bool := qltb (Qabs (a - b)) (tol d).
Definition same (m : mesh) (p q : pt) : bool :=
  same1 (dx m) (p1 p) (p1 q) && same1 (dy m) (p2 p) (p2 q) && same1 (dz m) (p3 p) (p3 q).
Fixpoint find_same (m : mesh) (i : nat) (ks : list pt) (h : pt) : option nat :=
  match ks with [] => None | q :: r => if same m q h then Some i else find_same m (S i) r h end.
(** src/initialization.c:3365-3372: no [break], the last hit stays *)
Fixpoint find_opp (m : mesh) (i : nat) (ks : list pt) (h : pt) (cur : nat) : nat :=
  match ks with [] => cur | q :: r => find_opp m (S i) r h (if opposite m q h then i else cur) end.
(** kpthf_ind and kpthf_pn (calloc'ed to 0), src/initialization.c:3354-3373 *)
Definition hf_link (m : mesh) (ks : list pt) (h : pt) : nat * bool :=
  match find_same m 0 ks h with
  | Some k => (k, true)
  | None => (find_opp m 0 ks h 0, false)
  end.
(** src/initialization.c:3376-3390 *)
Fixpoint red_loop (cap : nat) (seen inds acc : list nat) : outcome (list nat) :=
  match inds with
  | [] => Ok acc
  | k :: r =>
      if existsb (Nat.eqb k) seen then red_loop cap (seen ++ [k]) r acc
      else if (length acc <? cap)%nat then red_loop cap (seen ++ [k]) r (acc ++ [k]) else UB
  end.
Definition hf_red_list (cap : nat) (inds : list nat) : outcome (list nat) :=
  match inds with
  | [] => UB (* kpthf_ind[0] of an empty array *)
  | k :: r => if (0 <? cap)%nat then red_loop cap [k] r [k] else UB
  end.
(** src/initialization.c:3392-3406: rows of kpthfred2kpthf, entry 0 is the count, two slots *)
Fixpoint find_nat (i : nat) (l : list nat) (k : nat) : option nat :=
  match l with [] => None | x :: r => if (k =? x)%nat then Some i else find_nat (S i) r k end.
Definition push (rows : nat -> list nat) (k a : nat) : outcome (nat -> list nat) :=
  if (length (rows k) <? 2)%nat then Ok (fun j => if (j =? k)%nat then rows k ++ [a] else rows j) else UB.
Fixpoint inv_loop (rl : list nat) (a : nat) (inds : list nat) (rows : nat -> list nat) (ir : list nat)
    : outcome ((nat -> list nat) * list nat) :=
  match inds with
  | [] => Ok (rows, ir)
  | k :: r =>
      match find_nat 0 rl k with
      | None => inv_loop rl (S a) r rows (ir ++ [0%nat]) (* calloc'ed *)
      | Some j => do rows' <- push rows j a ; inv_loop rl (S a) r rows' (ir ++ [j])
      end
  end.

Record hf := Hf { hf_pts : list pt; hf_ind : list nat; hf_pn : list bool;
                  red_list : list nat; rows : nat -> list nat; ind_red : list nat }.
(** src/initialization.c:3193-3406 *)
Definition Calculate_hf (m : mesh) (s : down) (ks : list pt) : outcome hf :=
  if ds_rejected (dx m) (sx s) || ds_rejected (dy m) (sy s) || ds_rejected (dz m) (sz s) then Exit
  else
    do pts <- hf_store m s (Z.to_nat (Nkpts_hf m s)) (grid m) [] ;
    if gamma_missing (dx m) (sx s) i1 (grid m) || gamma_missing (dy m) (sy s) i2 (grid m)
       || gamma_missing (dz m) (sz s) i3 (grid m) then Exit
    else
      (* entries beyond the stored ones are zero *)
      let all := pts ++ repeat (Pt 0 0 0) (Z.to_nat (Nkpts_hf m s) - length pts) in
      let links := map (hf_link m ks) all in
      let inds := map fst links in
      do rl <- hf_red_list (length ks) inds ;
      do ri <- inv_loop rl 0 inds (fun _ => []) [] ;
      Ok (Hf all inds (map snd links) rl (fst ri) (snd ri)).

(** ** Facts about one direction *)
Definition sh (d : dir) : Q := if wrapped d then shift d else 0.
(** preconditions: at least one point, tolerance at most half the spacing *)
Definition dir_ok (d : dir) : Prop := (0 < K d)%Z /\ 0 < tol d /\ 2 * tol d <= 1 / inject_Z (K d).

Lemma inject_pos z : (0 < z)%Z -> 0 < inject_Z z.
Proof. intros H. change 0 with (inject_Z 0). rewrite <- Zlt_Qlt. exact H. Qed.

Lemma red1_int d n : (0 < K d)%Z -> exists z, red1 d n == (inject_Z n + sh d) / inject_Z (K d) - inject_Z z.
Proof.
  intros HK. pose proof (inject_pos _ HK) as P. unfold red1, sh. destruct (wrapped d).
  - unfold fmod.
    set (y := inject_Z n / inject_Z (K d) + shift d / inject_Z (K d) + (1 # 2) - TEMP_TOL).
    exists (qtrunc (y / 1)). set (z := qtrunc (y / 1)). unfold y. field. lra.
  - exists 0%Z. change (inject_Z 0) with 0. field. lra.
Qed.

Lemma inject_lt_1 z : - (1) < inject_Z z -> inject_Z z < 1 -> z = 0%Z.
Proof.
  change (- (1)) with (inject_Z (-1)). change 1 with (inject_Z 1). rewrite <- !Zlt_Qlt. lia.
Qed.
Lemma near_int k a z : (0 < k)%Z ->
  - (1 / inject_Z k) < inject_Z a / inject_Z k - inject_Z z ->
  inject_Z a / inject_Z k - inject_Z z < 1 / inject_Z k -> a = (k * z)%Z.
Proof.
  intros HK L U. pose proof (inject_pos _ HK) as P.
  assert (E : inject_Z (a - k * z) == (inject_Z a / inject_Z k - inject_Z z) * inject_Z k).
  { unfold Zminus. rewrite inject_Z_plus, inject_Z_opp, inject_Z_mult. field. lra. }
  assert (F : 1 / inject_Z k * inject_Z k == 1) by (field; lra).
  enough (a - k * z = 0)%Z by lia.
  apply inject_lt_1; rewrite E.
  - rewrite <- F. setoid_replace (- (1 / inject_Z k * inject_Z k)) with (- (1 / inject_Z k) * inject_Z k) by ring.
    apply Qmult_lt_r; assumption.
  - apply Qlt_le_trans with (1 / inject_Z k * inject_Z k); [apply Qmult_lt_r; assumption|rewrite F; apply Qle_refl].
Qed.

Lemma qabs_lt x t : qltb (Qabs x) t = true <-> - t < x /\ x < t.
Proof. rewrite qltb_lt. apply Qabs_Qlt_condition. Qed.

Lemma opp1_int d a b : opp1 d a b = true -> exists e, - tol d < a + b - inject_Z e /\ a + b - inject_Z e < tol d.
Proof.
  unfold opp1. intros H. apply orb_true_iff in H. destruct H as [H|H]; apply qabs_lt in H.
  - exists 0%Z. change (inject_Z 0) with 0. lra.
  - exists 1%Z. change (inject_Z 1) with 1. lra.
Qed.
Lemma opp1_sym d a b : opp1 d a b = opp1 d b a.
Proof.
  apply eq_true_iff_eq. unfold opp1. rewrite !orb_true_iff, !qabs_lt. split; intros [H|H]; [left|right|left|right]; lra.
Qed.

Lemma opp1_unique d n n' m : dir_ok d ->
  opp1 d (red1 d n) m = true -> opp1 d (red1 d n') m = true -> exists z, (n - n' = K d * z)%Z.
Proof.
  intros [HK [_ Ht]] A B. pose proof (inject_pos _ HK) as P.
  destruct (opp1_int _ _ _ A) as [e [A1 A2]]. destruct (opp1_int _ _ _ B) as [e' [B1 B2]].
  destruct (red1_int d n HK) as [z Hz]. destruct (red1_int d n' HK) as [z' Hz'].
  exists (z - z' + e - e')%Z. apply near_int; [exact HK| |];
    assert (E : inject_Z (n - n') / inject_Z (K d) - inject_Z (z - z' + e - e')
            == (red1 d n + m - inject_Z e) - (red1 d n' + m - inject_Z e')) by
     (rewrite Hz, Hz'; unfold Zminus; rewrite !inject_Z_plus, !inject_Z_opp; field; lra);
    rewrite E; lra.
Qed.
Lemma same1_cong d n n' : dir_ok d -> same1 d (red1 d n) (red1 d n') = true -> exists z, (n - n' = K d * z)%Z.
Proof.
  intros [HK [Hp Ht]] A. apply qabs_lt in A. pose proof (inject_pos _ HK) as P.
  destruct (red1_int d n HK) as [z Hz]. destruct (red1_int d n' HK) as [z' Hz'].
  exists (z - z')%Z.
  assert (E : inject_Z (n - n') / inject_Z (K d) - inject_Z (z - z') == red1 d n - red1 d n')
    by (rewrite Hz, Hz'; unfold Zminus; rewrite !inject_Z_plus, !inject_Z_opp; field; lra).
  apply near_int; [exact HK| |]; rewrite E; lra.
Qed.
Lemma zero_unique d n n' : dir_ok d -> qltb (Qabs (red1 d n)) (tol d) = true ->
  qltb (Qabs (red1 d n')) (tol d) = true -> exists z, (n - n' = K d * z)%Z.
Proof.
  intros [HK [Hp Ht]] A B. apply qabs_lt in A. apply qabs_lt in B. pose proof (inject_pos _ HK) as P.
  destruct (red1_int d n HK) as [z Hz]. destruct (red1_int d n' HK) as [z' Hz'].
  exists (z - z')%Z.
  assert (E : inject_Z (n - n') / inject_Z (K d) - inject_Z (z - z') == red1 d n - red1 d n')
    by (rewrite Hz, Hz'; unfold Zminus; rewrite !inject_Z_plus, !inject_Z_opp; field; lra).
  apply near_int; [exact HK| |]; rewrite E; lra.
Qed.
Lemma same1_refl d a : 0 < tol d -> same1 d a a = true.
Proof. intros H. apply qabs_lt. lra. Qed.

Lemma in_range d n : In n (range d) <-> (n_start d <= n < n_start d + K d)%Z.
Proof.
  unfold range. rewrite in_map_iff. split.
  - intros [i [<- Hi]]. apply in_seq in Hi. lia.
  - intros H. exists (Z.to_nat (n - n_start d)). split; [lia|]. apply in_seq. lia.
Qed.
Lemma window d n n' z : In n (range d) -> In n' (range d) -> (n - n' = K d * z)%Z -> n = n'.
Proof. rewrite !in_range. intros. assert (z = 0)%Z by nia. lia. Qed.
Lemma range_nodup d : NoDup (range d).
Proof.
  unfold range. apply FinFun.Injective_map_NoDup; [intros a b; lia|apply seq_NoDup].
Qed.
Lemma range_length d : length (range d) = Z.to_nat (K d).
Proof. unfold range. rewrite map_length, seq_length. reflexivity. Qed.

(** ** The grid *)
Definition mesh_ok (m : mesh) : Prop := dir_ok (dx m) /\ dir_ok (dy m) /\ dir_ok (dz m).

Lemma in_grid m i : In i (grid m) <-> In (i1 i) (range (dx m)) /\ In (i2 i) (range (dy m)) /\ In (i3 i) (range (dz m)).
Proof.
  unfold grid. rewrite in_flat_map. split.
  - intros [a [Ha H]]. apply in_flat_map in H. destruct H as [b [Hb H]].
    apply in_map_iff in H. destruct H as [c [<- Hc]]. auto.
  - destruct i as [a b c]; cbn. intros [Ha [Hb Hc]]. exists a. split; [exact Ha|].
    apply in_flat_map. exists b. split; [exact Hb|]. apply in_map_iff. exists c. auto.
Qed.
Lemma flat_map_nodup {A B} (f : A -> list B) (l : list A) :
  NoDup l -> (forall a, In a l -> NoDup (f a)) ->
  (forall a a' b, In a l -> In a' l -> In b (f a) -> In b (f a') -> a = a') -> NoDup (flat_map f l).
Proof.
  induction l as [|a l IH]; intros N H1 H2; cbn; [constructor|].
  apply NoDup_cons_iff in N. destruct N as [Na N].
  assert (R : NoDup (flat_map f l)).
  { apply IH; auto; [intros; apply H1; right; auto|intros a1 a2 b X Y; apply H2; right; auto]. }
  pose proof (H1 a (or_introl eq_refl)) as Ra.
  assert (D : forall b, In b (f a) -> ~ In b (flat_map f l)).
  { intros b Hb Hc. apply in_flat_map in Hc. destruct Hc as [a' [Ha' Hc]].
    apply Na. rewrite (H2 a a' b); cbn; auto. }
  clear H1 H2 IH. revert Ra D. generalize (f a) as u; intros u. induction u as [|b u IHu]; cbn; intros Ra D; [exact R|].
  apply NoDup_cons_iff in Ra. destruct Ra as [Nb Ra]. constructor.
  - intros X. apply in_app_or in X. destruct X as [X|X]; [exact (Nb X)|]. exact (D b (or_introl eq_refl) X).
  - apply IHu; auto.
Qed.
Lemma grid_nodup m : NoDup (grid m).
Proof.
  unfold grid. apply flat_map_nodup; [apply range_nodup| |].
  - intros a _. apply flat_map_nodup; [apply range_nodup| |].
    + intros b _. apply FinFun.Injective_map_NoDup; [intros c c' E; congruence|apply range_nodup].
    + intros b b' i _ _ H H'. apply in_map_iff in H. apply in_map_iff in H'.
      destruct H as [c [<- _]]. destruct H' as [c' [E _]]. congruence.
  - intros a a' i _ _ H H'. apply in_flat_map in H. apply in_flat_map in H'.
    destruct H as [b [_ H]]. destruct H' as [b' [_ H']]. apply in_map_iff in H. apply in_map_iff in H'.
    destruct H as [c [<- _]]. destruct H' as [c' [E _]]. congruence.
Qed.
Lemma flat_map_const_length {A B} (f : A -> list B) l k :
  (forall a, In a l -> length (f a) = k) -> length (flat_map f l) = (length l * k)%nat.
Proof.
  induction l as [|a l IH]; intros H; cbn; [reflexivity|].
  rewrite app_length, IH by (intros; apply H; right; auto). rewrite H by (left; auto). lia.
Qed.
Lemma grid_length m : mesh_ok m -> length (grid m) = Z.to_nat (Nkpts m).
Proof.
  intros [[Hx _] [[Hy _] [Hz _]]]. unfold grid, Nkpts.
  rewrite (flat_map_const_length _ _ (Z.to_nat (K (dy m)) * Z.to_nat (K (dz m)))).
  - rewrite range_length, !Z2Nat.inj_mul by lia. lia.
  - intros a _. rewrite (flat_map_const_length _ _ (Z.to_nat (K (dz m)))).
    + rewrite range_length. reflexivity.
    + intros b _. rewrite map_length, range_length. reflexivity.
Qed.

Lemma idx_eq (i j : idx) : i1 i = i1 j -> i2 i = i2 j -> i3 i = i3 j -> i = j.
Proof. destruct i, j; cbn; intros; subst; reflexivity. Qed.

Lemma opposite_unique m i j q : mesh_ok m -> In i (grid m) -> In j (grid m) ->
  opposite m (red m i) q = true -> opposite m (red m j) q = true -> i = j.
Proof.
  intros [Ox [Oy Oz]] Hi Hj A B. apply in_grid in Hi. apply in_grid in Hj.
  unfold opposite in *. rewrite !andb_true_iff in *. cbn in *.
  apply idx_eq.
  - destruct (opp1_unique _ _ _ _ Ox (proj1 (proj1 A)) (proj1 (proj1 B))) as [z E].
    eapply window; [| |exact E]; tauto.
  - destruct (opp1_unique _ _ _ _ Oy (proj2 (proj1 A)) (proj2 (proj1 B))) as [z E].
    eapply window; [| |exact E]; tauto.
  - destruct (opp1_unique _ _ _ _ Oz (proj2 A) (proj2 B)) as [z E].
    eapply window; [| |exact E]; tauto.
Qed.
Lemma opposite_sym m p q : opposite m p q = opposite m q p.
Proof. unfold opposite. rewrite !(opp1_sym _ (p1 p)), (opp1_sym _ (p2 p)), (opp1_sym _ (p3 p)). reflexivity. Qed.
Lemma same_unique m i j : mesh_ok m -> In i (grid m) -> In j (grid m) ->
  same m (red m i) (red m j) = true -> i = j.
Proof.
  intros [Ox [Oy Oz]] Hi Hj A. apply in_grid in Hi. apply in_grid in Hj.
  unfold same in *. rewrite !andb_true_iff in *. cbn in *.
  apply idx_eq.
  - destruct (same1_cong _ _ _ Ox (proj1 (proj1 A))) as [z E]. eapply window; [| |exact E]; tauto.
  - destruct (same1_cong _ _ _ Oy (proj2 (proj1 A))) as [z E]. eapply window; [| |exact E]; tauto.
  - destruct (same1_cong _ _ _ Oz (proj2 A)) as [z E]. eapply window; [| |exact E]; tauto.
Qed.
Lemma same_refl m p : mesh_ok m -> same m p p = true.
Proof.
  intros [[_ [Hx _]] [[_ [Hy _]] [_ [Hz _]]]]. unfold same. rewrite !same1_refl; auto.
Qed.

(** ** Ghost description of the reduced list: each entry with its partner *)
Definition gent := (idx * option idx)%type.
Definition g_entry (m : mesh) (e : gent) : pt * Z :=
  (red m (fst e), match snd e with None => 1%Z | Some _ => 2%Z end).
Definition g_idx (e : gent) : list idx := fst e :: match snd e with None => [] | Some j => [j] end.
Definition ghost (m : mesh) (P : list idx) (g : list gent) : Prop :=
  Permutation P (flat_map g_idx g) /\
  forall i j, In (i, Some j) g -> opposite m (red m j) (red m i) = true.

Lemma mark_ghost m P g i : mesh_ok m -> (forall j, In j (i :: P) -> In j (grid m)) -> ~ In i P -> ghost m P g ->
  match mark m (red m i) (map (g_entry m) g) with
  | Some l => exists g', l = map (g_entry m) g' /\ ghost m (i :: P) g'
  | None => forall e, In e g -> opposite m (red m i) (red m (fst e)) = false
  end.
Proof.
  intros Om HP Hi [Pm Ho].
  assert (HG : forall e j, In e g -> In j (g_idx e) -> In j P).
  { intros e j He Hj. eapply Permutation_in; [apply Permutation_sym; exact Pm|].
    apply in_flat_map. eauto. }
  enough (X : match mark m (red m i) (map (g_entry m) g) with
              | Some l => exists g1 g2 q, g = g1 ++ (q, None) :: g2 /\ l = map (g_entry m) (g1 ++ (q, Some i) :: g2)
                            /\ opposite m (red m i) (red m q) = true
              | None => forall e, In e g -> opposite m (red m i) (red m (fst e)) = false
              end).
  { destruct (mark m (red m i) (map (g_entry m) g)) as [l|]; [|exact X].
    destruct X as [g1 [g2 [q [-> [-> Hq]]]]]. exists (g1 ++ (q, Some i) :: g2). split; [reflexivity|]. split.
    - rewrite flat_map_app in Pm |- *. cbn in Pm |- *.
      transitivity (i :: flat_map g_idx g1 ++ q :: flat_map g_idx g2).
      + constructor. exact Pm.
      + rewrite Permutation_middle. apply Permutation_app_head.
        apply perm_swap.
    - intros a b H. apply in_app_or in H. cbn in H. destruct H as [H|[[= -> ->]|H]].
      + apply Ho. apply in_or_app. left; exact H.
      + exact Hq.
      + apply Ho. apply in_or_app. right; right; exact H. }
  clear Pm. induction g as [|[q o] g IH]; cbn [map mark].
  - intros e [].
  - unfold g_entry at 1. cbn [fst snd].
    destruct (opposite m (red m i) (red m q)) eqn:E.
    + destruct o as [j|].
      * exfalso. pose proof (Ho q j (or_introl eq_refl)) as Oj.
        assert (In j P) by (eapply (HG (q, Some j)); [left; reflexivity|right; left; reflexivity]).
        assert (i = j) by (eapply opposite_unique; [exact Om| | |exact E|exact Oj]; apply HP; [left|right]; auto).
        subst; contradiction.
      * exists [], g, q. repeat split; assumption.
    + specialize (IH (fun a b H => Ho a b (or_intror H)) (fun e j He => HG e j (or_intror He))).
      destruct (mark m (red m i) (map (g_entry m) g)) as [l|].
      * destruct IH as [g1 [g2 [q' [-> [-> Hq']]]]]. exists ((q, o) :: g1), g2, q'. repeat split. exact Hq'.
      * intros e [<-|He]; [exact E|exact (IH e He)].
Qed.

Lemma ghost_length m P g : ghost m P g -> (length g <= length P)%nat.
Proof.
  intros [Pm _]. rewrite (Permutation_length Pm). clear. induction g as [|[q [o|]] g IH]; cbn; lia.
Qed.

Lemma kloop_ghost m cap : mesh_ok m -> forall is P g,
  NoDup (rev P ++ is) -> (forall j, In j (rev P ++ is) -> In j (grid m)) ->
  (length P + length is <= cap)%nat -> ghost m P g ->
  exists g', kloop m cap (map (red m) is) (map (g_entry m) g) = Ok (map (g_entry m) g') /\
             ghost m (rev is ++ P) g'.
Proof.
  intros Om is. induction is as [|i is IH]; intros P g N HG Hc Gh.
  - exists g. split; [reflexivity|exact Gh].
  - cbn [map kloop]. unfold kstep.
    assert (Hi : ~ In i P).
    { apply NoDup_remove_2 in N. intros X. apply N. apply in_or_app. left. apply in_rev in X. exact X. }
    assert (HP : forall j, In j (i :: P) -> In j (grid m)).
    { intros j [<-|Hj]; apply HG; apply in_or_app; [right; left; auto|left; apply in_rev in Hj; exact Hj]. }
    assert (N' : NoDup (rev (i :: P) ++ is)) by (cbn; rewrite <- app_assoc; exact N).
    assert (HG' : forall j, In j (rev (i :: P) ++ is) -> In j (grid m)).
    { intros j; cbn; rewrite <- app_assoc; apply HG. }
    cbn [length] in Hc.
    pose proof (mark_ghost m P g i Om HP Hi Gh) as M.
    destruct (mark m (red m i) (map (g_entry m) g)) as [l|].
    + destruct M as [g' [-> Gh']]. cbn [obind].
      destruct (IH (i :: P) g' N' HG' ltac:(cbn; lia) Gh') as [g2 [E2 G2]].
      exists g2. split; [exact E2|]. cbn. rewrite <- app_assoc. exact G2.
    + pose proof (ghost_length _ _ _ Gh) as Lg. rewrite map_length.
      replace (length g <? cap)%nat with true by (symmetry; apply Nat.ltb_lt; lia). cbn [obind].
      change [(red m i, 1%Z)] with (map (g_entry m) [(i, None)]). rewrite <- map_app.
      assert (Gh' : ghost m (i :: P) (g ++ [(i, None)])).
      { destruct Gh as [Pm Ho]. split.
        - rewrite flat_map_app. cbn. rewrite <- Permutation_cons_append. constructor. exact Pm.
        - intros a b H. apply in_app_or in H. destruct H as [H|[[= ]|[]]]. exact (Ho a b H). }
      destruct (IH (i :: P) _ N' HG' ltac:(cbn; lia) Gh') as [g2 [E2 G2]].
      exists g2. split; [exact E2|]. cbn. rewrite <- app_assoc. exact G2.
Qed.

Lemma kpoints_ghost m : mesh_ok m ->
  exists g, Calculate_kpoints m = Ok (map (g_entry m) g) /\ ghost m (grid m) g.
Proof.
  intros Om. unfold Calculate_kpoints.
  destruct (kloop_ghost m (Z.to_nat (Nkpts m)) Om (grid m) [] []) as [g [E [Pm Ho]]].
  - cbn. apply grid_nodup.
  - cbn. auto.
  - cbn. rewrite grid_length by exact Om. lia.
  - split; [constructor|intros i j []].
  - exists g. split; [exact E|]. split; [|exact Ho].
    rewrite app_nil_r in Pm. rewrite <- Permutation_rev in Pm. exact Pm.
Qed.
