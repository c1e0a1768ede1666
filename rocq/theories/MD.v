(** Models of the molecular-dynamics integrators of src/md.c in real
    arithmetic: [NVE] (642-658) with [Leapfrog_part1] (660-684) and
    [Leapfrog_part2] (689-711), [NVK_G] (716-733) with [Calc_vel1_G]
    (738-790) and [Calc_vel2_G] (795-848), the velocity initialisation of
    [Initialize_MD] (203-488), and [wraparound_dynamics] (1808-1860).
    Per-atom data are lists with one entry per atom; the C arrays are the
    concatenation of these entries, and the loops over types and atoms of a
    type run over the list, with the mass of the type of each atom in the
    list of masses.  Orthogonal cells without cyclix symmetry. *)
From Coq Require Import Reals Lra Lia List Bool ZArith.
From Verif Require Import CBase.
Import ListNotations.
Local Open Scope R_scope.

Record v3 := V3 { cx : R; cy : R; cz : R }.
Definition comp (d : nat) (v : v3) : R := match d with 0 => cx v | 1 => cy v | _ => cz v end%nat.
Definition add3 (u v : v3) : v3 := V3 (cx u + cx v) (cy u + cy v) (cz u + cz v).
Definition scale3 (a : R) (u : v3) : v3 := V3 (a * cx u) (a * cy u) (a * cz u).
Definition dot3 (u v : v3) : R := cx u * cx v + cy u * cy v + cz u * cz v.
Definition opp3 (u : v3) : v3 := V3 (- cx u) (- cy u) (- cz u).

Fixpoint map2 {A B C} (f : A -> B -> C) (u : list A) (v : list B) : list C :=
  match u, v with x :: u', y :: v' => f x y :: map2 f u' v' | _, _ => [] end.
Fixpoint rlsum (l : list R) : R := match l with [] => 0 | x :: l' => x + rlsum l' end.

(** Kinetic energy and one component of the momentum: the quantities the
    properties speak about. *)
Definition kinetic (ms : list R) (vs : list v3) : R := rlsum (map2 (fun m v => / 2 * m * dot3 v v) ms vs).
Definition momentum (d : nat) (ms : list R) (vs : list v3) : R := rlsum (map2 (fun m v => m * comp d v) ms vs).
Definition total (d : nat) (fs : list v3) : R := rlsum (map (comp d) fs).

(** ** wraparound_dynamics *)
(** fmod: x - n L, n = x / L truncated toward zero. *)
Definition rtrunc (u : R) : Z := if Rle_dec 0 u then Int_part u else (- Int_part (- u))%Z.
Definition rfmod (x L : R) : R := x - IZR (rtrunc (x / L)) * L.
(** src/md.c:1842-1849 *)
Definition rwrap (L x : R) : R :=
  if Rlt_dec x 0 then let y := rfmod x L in if Rlt_dec y 0 then y + L else y
  else if Rle_dec L x then let y := rfmod x L in if Rlt_dec y 0 then y + L else y
  else x.
Definition put3 (d : nat) (a : R) (v : v3) : v3 :=
  match d with 0 => V3 a (cy v) (cz v) | 1 => V3 (cx v) a (cz v) | _ => V3 (cx v) (cy v) a end%nat.
(** src/md.c:1831-1840, the test on one Dirichlet coordinate. *)
Definition outside (L x : R) : bool := if Rle_dec L x then true else if Rlt_dec x 0 then true else false.
(** src/md.c:1821-1858, one direction; BC = 1 Dirichlet, 0 periodic. *)
Definition rwrap_dir (BC : Z) (L : R) (d : nat) (ps : list v3) : outcome (list v3) :=
  if (BC =? 1)%Z then if existsb (fun p => outside L (comp d p)) ps then Exit else Ok ps
  else if (BC =? 0)%Z then Ok (map (fun p => put3 d (rwrap L (comp d p)) p) ps)
  else Ok ps.
(** src/md.c:1808-1860 *)
Definition rwraparound (BC : nat -> Z) (L : nat -> R) (ps : list v3) : outcome (list v3) :=
  do p0 <- rwrap_dir (BC 0%nat) (L 0%nat) 0 ps ;
  do p1 <- rwrap_dir (BC 1%nat) (L 1%nat) 1 p0 ;
  rwrap_dir (BC 2%nat) (L 2%nat) 2 p1.

(** ** NVE *)
Record mdstate := MD { pos : list v3; vel : list v3; acc : list v3 }.
(** src/md.c:660-684 *)
Definition leapfrog1 (dt : R) (s : mdstate) : mdstate :=
  let v := map2 (fun v a => add3 v (scale3 (/ 2 * dt) a)) (vel s) (acc s) in
  MD (map2 (fun r v => add3 r (scale3 dt v)) (pos s) v) v (acc s).
(** src/md.c:698-700, also 474-481: accelerations from forces. *)
Definition accel (ms : list R) (fs : list v3) : list v3 := map2 (fun m f => scale3 (/ m) f) ms fs.
(** src/md.c:689-711; the second component is pSPARC->KE. *)
Definition leapfrog2 (dt : R) (ms : list R) (fs : list v3) (s : mdstate) : mdstate * R :=
  let a := accel ms fs in
  let v := map2 (fun v a => add3 v (scale3 (/ 2 * dt) a)) (vel s) a in
  (MD (pos s) v a, kinetic ms v).
(** src/md.c:642-658.  [forces] stands for Calculate_Properties: the DFT
    forces as a function of the positions; [check] is Check_atomlocation
    (1759-1803), which apart from warnings is wraparound_dynamics. *)
Definition nve (check : list v3 -> outcome (list v3)) (forces : list v3 -> list v3)
    (dt : R) (ms : list R) (s : mdstate) : outcome (mdstate * R) :=
  let s1 := leapfrog1 dt s in
  do p <- check (pos s1) ;
  Ok (leapfrog2 dt ms (forces p) (MD p (vel s1) (acc s1))).
(** The step loop of main_MD, without output. *)
Fixpoint nve_run check forces dt ms (n : nat) (s : mdstate) : outcome mdstate :=
  match n with
  | O => Ok s
  | S n' => do r <- nve check forces dt ms s ; nve_run check forces dt ms n' (fst r)
  end.

(** ** NVK: Gaussian thermostat *)
(** src/md.c:738-790 and 804-845, the common update: [UB] stands for a
    result that is not a real number (0/0, or the root of a negative
    number). *)
Definition gauss_vel (dt : R) (ms : list R) (vs fs accs : list v3) : outcome (list v3) :=
  let v2 := rlsum (map2 (fun m v => dot3 v v * m) ms vs) in
  if Req_EM_T v2 0 then UB else
  let a := rlsum (map2 dot3 fs vs) / v2 in
  let b := rlsum (map2 dot3 fs accs) / v2 in
  if Rle_dec b 0 then UB else
  let sqb := sqrt b in
  let as0 := sqb * dt / 2 in
  let as1 := if Rlt_dec 300 as0 then 300 else as0 in
  let s1 := cosh as1 in
  let s2 := sinh as1 in
  let s := a * (s1 - 1) / b + s2 / sqb in
  let scdot := a * s2 / sqb + s1 in
  if Req_EM_T scdot 0 then UB else
  Ok (map2 (fun v a => scale3 (/ scdot) (add3 v (scale3 s a))) vs accs).
(** src/md.c:738-790 *)
Definition calc_vel1 (dt : R) (ms : list R) (fs : list v3) (s : mdstate) : outcome mdstate :=
  do v <- gauss_vel dt ms (vel s) fs (acc s) ;
  Ok (MD (map2 (fun r v => add3 r (scale3 dt v)) (pos s) v) v (acc s)).
(** src/md.c:795-848 *)
Definition calc_vel2 (dt : R) (ms : list R) (fs : list v3) (s : mdstate) : outcome (mdstate * R) :=
  let a := accel ms fs in
  do v <- gauss_vel dt ms (vel s) fs a ;
  Ok (MD (pos s) v a, kinetic ms v).
(** src/md.c:716-733; [fs] are the forces stored from the previous step. *)
Definition nvk (check : list v3 -> outcome (list v3)) (forces : list v3 -> list v3)
    (dt : R) (ms : list R) (fs : list v3) (s : mdstate) : outcome (mdstate * R) :=
  do s1 <- calc_vel1 dt ms fs s ;
  do p <- check (pos s1) ;
  calc_vel2 dt ms (forces p) (MD p (vel s1) (acc s1)).

(** ** Initialize_MD *)
(** mvAtmConstraint, 0 (fixed) or 1 (free) per coordinate. *)
Record c3 := C3 { kx : Z; ky : Z; kz : Z }.
Definition kcomp (d : nat) (c : c3) : Z := match d with 0 => kx c | 1 => ky c | _ => kz c end%nat.
(** src/md.c:217-229 *)
Definition free_count (d : nat) (cs : list c3) : Z := fold_left (fun a c => (a + kcomp d c)%Z) cs 0%Z.
Definition dof (cs : list c3) : Z :=
  let n := Z.of_nat (length cs) in
  let t d := (free_count d cs - (if free_count d cs =? n then 1 else 0))%Z in
  (t 0%nat + t 1%nat + t 2%nat)%Z.
(** src/md.c:379-401 rejection loop for one atom: [rnd] are the values of
    (double)rand()/RAND_MAX taken two at a time; [None] when the given
    values run out. *)
Fixpoint redraw (s x y : R) (rnd : list (R * R)) : option (R * R * R * list (R * R)) :=
  if Rlt_dec 1 s then
    match rnd with
    | [] => None
    | (u, u') :: rnd' =>
        let x' := 2 * u - 1 in let y' := 2 * u' - 1 in
        redraw (x' * x' + y' * y') x' y' rnd'
    end
  else Some (s, x, y, rnd).
(** src/md.c:386-394, the loop over atoms (one seed; [s], [x], [y] live
    across atoms as in the code). *)
Fixpoint uniform_vels (vel_cm : R) (n : nat) (s x y : R) (rnd : list (R * R)) : option (list v3) :=
  match n with
  | O => Some []
  | S n' =>
      match redraw s x y rnd with
      | None => None
      | Some (s1, x1, y1, rnd1) =>
          let vz := vel_cm * (1 - 2 * s1) in
          let s2 := 2 * sqrt (1 - s1) in
          match uniform_vels vel_cm n' s2 x1 y1 rnd1 with
          | None => None
          | Some l => Some (V3 (s2 * x1 * vel_cm) (s2 * y1 * vel_cm) vz :: l)
          end
      end
  end.
(** src/md.c:409-410 one Maxwell component from two values of
    rand()/RAND_MAX; log 0 is not a number. *)
Definition maxwell (kB T m u u' : R) : outcome R :=
  if Rle_dec u' 0 then UB else Ok (sqrt (kB * T / m) * cos (2 * PI * u) * sqrt (- 2 * ln u')).
(** src/md.c:427-440: removal of the translation; the sums [mvsum] are
    accumulated for ion_vel_dstr 1 and 2 only (394-396, 415-417). *)
Definition remove_translation (dstr : Z) (ms : list R) (vs : list v3) : list v3 :=
  let msum := rlsum ms in
  let mv d := if (dstr =? 3)%Z then 0 else momentum d ms vs in
  map (fun v => V3 (cx v - mv 0%nat / msum) (cy v - mv 1%nat / msum) (cz v - mv 2%nat / msum)) vs.
(** src/md.c:442-455 *)
Definition zero_fixed (cs : list c3) (vs : list v3) : list v3 :=
  map2 (fun c v => V3 (cx v * IZR (kx c)) (cy v * IZR (ky c)) (cz v * IZR (kz c))) cs vs.
(** src/md.c:370-471: from the drawn (or given) velocities to the initial
    ones and pSPARC->KE; [UB] when the rescaling factor is not a number. *)
Definition init_vel (dstr : Z) (kB T : R) (ms : list R) (cs : list c3) (raw : list v3) : outcome (list v3 * R) :=
  let v1 := zero_fixed cs (remove_translation dstr ms raw) in
  let ke := kinetic ms v1 in
  if Rle_dec ke 0 then UB else
  if Rlt_dec (IZR (dof cs) * kB * T / (2 * ke)) 0 then UB else
  let fac := sqrt (IZR (dof cs) * kB * T / (2 * ke)) in
  let v2 := map (scale3 fac) v1 in
  Ok (v2, kinetic ms v2).

(** ** Lemmas *)
Lemma map2_length {A B C} (f : A -> B -> C) : forall u v n, length u = n -> length v = n -> length (map2 f u v) = n.
Proof. induction u as [|x u IH]; intros [|y v] n <- H; cbn in *; try lia. f_equal. apply IH; lia. Qed.

Lemma v3_eq a b c a' b' c' : a = a' -> b = b' -> c = c' -> V3 a b c = V3 a' b' c'.
Proof. intros -> -> ->. reflexivity. Qed.

(** *** Wrapping *)
Lemma Int_part_unique x (n : Z) : IZR n <= x < IZR n + 1 -> Int_part x = n.
Proof.
  intros [H1 H2]. destruct (base_Int_part x) as [A B].
  assert (C : IZR (Int_part x) < IZR n + 1) by lra.
  assert (D : IZR n < IZR (Int_part x) + 1) by lra.
  rewrite <- plus_IZR in C, D. apply lt_IZR in C. apply lt_IZR in D. lia.
Qed.

Definition rfloor (x : R) : Z := Int_part x.
Lemma rwrap_floor L x : 0 < L -> rwrap L x = x - IZR (rfloor (x / L)) * L.
Proof.
  intros HL. unfold rwrap, rfloor.
  assert (Hx : x = x / L * L) by (field; lra).
  set (u := x / L) in *.
  assert (M : forall w, (w * L < 0 <-> w < 0) /\ (L <= w * L <-> 1 <= w)).
  { intros w. repeat split; intros H; try nra. }
  assert (F : forall n, x - IZR n * L = (u - IZR n) * L) by (intros; rewrite Hx at 1; ring).
  destruct (base_Int_part u) as [A B].
  assert (In : Int_part u = rtrunc u \/ (u < 0 /\ IZR (rtrunc u) = IZR (Int_part u) + 1 /\ IZR (Int_part u) < u) \/ False).
  { unfold rtrunc. destruct (Rle_dec 0 u) as [G|G]; [left; reflexivity|].
    destruct (base_Int_part (- u)) as [A' B']. assert (u < 0) by lra.
    destruct (Req_EM_T (IZR (Int_part u)) u) as [E|E].
    - left. symmetry. assert (X : Int_part (- u) = (- Int_part u)%Z).
      { apply Int_part_unique. rewrite opp_IZR. lra. }
      rewrite X. lia.
    - right. left. repeat split; try lra.
      rewrite <- plus_IZR. f_equal.
      assert (X : Int_part (- u) = (- Int_part u - 1)%Z).
      { apply Int_part_unique. rewrite minus_IZR, opp_IZR. lra. }
      rewrite X. lia. }
  unfold rfmod. fold u.
  assert (Gen : (if Rlt_dec (x - IZR (rtrunc u) * L) 0 then x - IZR (rtrunc u) * L + L else x - IZR (rtrunc u) * L)
                = x - IZR (Int_part u) * L).
  { destruct In as [E|[(E1 & E2 & E3)|[]]].
    - rewrite <- E. rewrite F. destruct (Rlt_dec ((u - IZR (Int_part u)) * L) 0) as [G|G]; [|reflexivity].
      apply (proj1 (proj1 (M _))) in G. lra.
    - rewrite E2. replace (x - (IZR (Int_part u) + 1) * L) with ((u - IZR (Int_part u) - 1) * L) by (rewrite Hx at 1; ring).
      destruct (Rlt_dec ((u - IZR (Int_part u) - 1) * L) 0) as [G|G].
      + rewrite Hx at 1. ring.
      + assert (~ (u - IZR (Int_part u) - 1 < 0)) by (intros Q; apply G; apply (proj2 (proj1 (M _))); exact Q). lra. }
  cbn zeta.
  destruct (Rlt_dec x 0) as [G1|G1]; [exact Gen|].
  destruct (Rle_dec L x) as [G2|G2]; [exact Gen|].
  assert (Int_part u = 0%Z).
  { apply Int_part_unique. rewrite Hx in G1, G2.
    assert (~ u < 0) by (intros Q; apply G1; apply (proj2 (proj1 (M _))); exact Q).
    assert (~ 1 <= u) by (intros Q; apply G2; apply (proj2 (proj2 (M _))); exact Q). lra. }
  rewrite H. lra.
Qed.

Lemma rfloor_shift x (n : Z) : rfloor (x - IZR n) = (rfloor x - n)%Z.
Proof. apply Int_part_unique. destruct (base_Int_part x). unfold rfloor. rewrite minus_IZR. lra. Qed.

Lemma rwrap_shift L x y : 0 < L -> rwrap L (rwrap L x + y) = rwrap L (x + y).
Proof.
  intros HL. rewrite !rwrap_floor by exact HL. set (n := rfloor (x / L)).
  replace ((x - IZR n * L + y) / L) with ((x + y) / L - IZR n) by (field; lra).
  rewrite rfloor_shift, minus_IZR. ring.
Qed.

Lemma rwrap_range L x : 0 < L -> 0 <= rwrap L x < L.
Proof.
  intros HL. rewrite rwrap_floor by exact HL. unfold rfloor. destruct (base_Int_part (x / L)) as [A B].
  replace (x - IZR (Int_part (x / L)) * L) with ((x / L - IZR (Int_part (x / L))) * L) by (field; lra). nra.
Qed.

(** The three passes as one test and one map. *)
Definition chk1 (BC : Z) (L : R) (x : R) : bool := if (BC =? 1)%Z then negb (outside L x) else true.
Definition fix1 (BC : Z) (L : R) (x : R) : R := if (BC =? 1)%Z then x else if (BC =? 0)%Z then rwrap L x else x.
Definition chk3 BC L (p : v3) : bool :=
  chk1 (BC 0%nat) (L 0%nat) (cx p) && chk1 (BC 1%nat) (L 1%nat) (cy p) && chk1 (BC 2%nat) (L 2%nat) (cz p).
Definition fix3 BC L (p : v3) : v3 :=
  V3 (fix1 (BC 0%nat) (L 0%nat) (cx p)) (fix1 (BC 1%nat) (L 1%nat) (cy p)) (fix1 (BC 2%nat) (L 2%nat) (cz p)).

Lemma rwrap_dir_spec BC L d ps :
  rwrap_dir BC L d ps = if forallb (fun p => chk1 BC L (comp d p)) ps
                        then Ok (map (fun p => put3 d (fix1 BC L (comp d p)) p) ps) else Exit.
Proof.
  assert (P : forall p, put3 d (comp d p) p = p) by (intros [a b c]; destruct d as [|[|d]]; reflexivity).
  unfold rwrap_dir, chk1, fix1. destruct (BC =? 1)%Z.
  - rewrite (map_ext _ (fun p => p)) by (intros; apply P). rewrite map_id.
    induction ps as [|p ps IH]; [reflexivity|]. cbn [existsb forallb].
    destruct (outside L (comp d p)); cbn; [reflexivity|].
    destruct (existsb _ ps), (forallb _ ps); congruence.
  - assert (T : forallb (fun _ : v3 => true) ps = true) by (induction ps; auto). rewrite T.
    destruct (BC =? 0)%Z; [reflexivity|].
    rewrite (map_ext _ (fun p => p)) by (intros; apply P). rewrite map_id. reflexivity.
Qed.

Lemma forallb_map {A B} (f : A -> B) p l : forallb p (map f l) = forallb (fun x => p (f x)) l.
Proof. induction l as [|x l IH]; cbn; [reflexivity|]. rewrite IH. reflexivity. Qed.
Lemma forallb_and {A} (p q : A -> bool) l : forallb (fun x => p x && q x) l = forallb p l && forallb q l.
Proof. induction l as [|x l IH]; cbn; [reflexivity|]. rewrite IH. destruct (p x), (q x), (forallb p l); reflexivity. Qed.

Lemma rwraparound_spec BC L ps :
  rwraparound BC L ps = if forallb (chk3 BC L) ps then Ok (map (fix3 BC L) ps) else Exit.
Proof.
  unfold rwraparound, chk3. rewrite rwrap_dir_spec. rewrite !forallb_and.
  destruct (forallb (fun p => chk1 (BC 0%nat) (L 0%nat) (comp 0 p)) ps) eqn:E0; cbn in E0; rewrite E0; cbn [obind andb]; [|reflexivity].
  rewrite rwrap_dir_spec, forallb_map. cbn [comp put3 cy].
  destruct (forallb (fun p => chk1 (BC 1%nat) (L 1%nat) (cy p)) ps); cbn [obind andb]; [|reflexivity].
  rewrite rwrap_dir_spec, !forallb_map. cbn [comp put3 cz].
  destruct (forallb (fun p => chk1 (BC 2%nat) (L 2%nat) (cz p)) ps); [|reflexivity].
  rewrite !map_map. reflexivity.
Qed.

Lemma fix1_shift BC L x y : (BC = 0%Z -> 0 < L) -> fix1 BC L (fix1 BC L x + y) = fix1 BC L (x + y).
Proof.
  intros HL. unfold fix1. destruct (BC =? 1)%Z; [reflexivity|]. destruct (BC =? 0)%Z eqn:E; [|reflexivity].
  apply rwrap_shift. apply HL. lia.
Qed.
Lemma chk1_shift BC L x y : chk1 BC L (fix1 BC L x + y) = chk1 BC L (x + y).
Proof. unfold fix1, chk1. destruct (BC =? 1)%Z; reflexivity. Qed.

Lemma rwraparound_shift BC L x x' y : (forall d, (d < 3)%nat -> BC d = 0%Z -> 0 < L d) ->
  rwraparound BC L x = Ok x' ->
  rwraparound BC L (map2 add3 x' y) = rwraparound BC L (map2 add3 x y).
Proof.
  intros HL. rewrite !rwraparound_spec. destruct (forallb (chk3 BC L) x) eqn:E; [|discriminate].
  intros H. injection H as <-. clear E.
  assert (C : forall x y, forallb (chk3 BC L) (map2 add3 (map (fix3 BC L) x) y) = forallb (chk3 BC L) (map2 add3 x y)).
  { induction x0 as [|a x0 IH]; intros [|b y0]; cbn; try reflexivity. rewrite IH. f_equal.
    unfold chk3, fix3; cbn. rewrite !chk1_shift. reflexivity. }
  assert (F : forall x y, map (fix3 BC L) (map2 add3 (map (fix3 BC L) x) y) = map (fix3 BC L) (map2 add3 x y)).
  { induction x0 as [|a x0 IH]; intros [|b y0]; cbn; try reflexivity. rewrite IH. f_equal.
    unfold fix3, add3; cbn. rewrite !fix1_shift by (apply HL; lia). reflexivity. }
  rewrite C, F. reflexivity.
Qed.
Lemma rwraparound_length BC L x x' : rwraparound BC L x = Ok x' -> length x' = length x.
Proof. rewrite rwraparound_spec. destruct (forallb _ x); [|discriminate]. intros H. injection H as <-. apply map_length. Qed.

(** *** NVE *)
Definition neg_vel (s : mdstate) : mdstate := MD (pos s) (map opp3 (vel s)) (acc s).
Definition shift_ok (check : list v3 -> outcome (list v3)) : Prop :=
  (forall x x', check x = Ok x' -> length x' = length x) /\
  (forall x x' y, check x = Ok x' -> check (map2 add3 x' y) = check (map2 add3 x y)).
(** A state between two steps: positions in the cell, stored accelerations
    those of the stored positions. *)
Definition settled check (forces : list v3 -> list v3) (ms : list R) (s : mdstate) : Prop :=
  check (pos s) = Ok (pos s) /\ acc s = accel ms (forces (pos s)) /\
  length (pos s) = length ms /\ length (vel s) = length ms /\ length (acc s) = length ms.

Lemma add3_zero a d v : add3 (add3 a (scale3 d v)) (scale3 d (opp3 v)) = a.
Proof. destruct a, v. unfold add3, scale3, opp3. cbn. apply v3_eq; ring. Qed.

Lemma back_vel dt : forall v a n, length v = n -> length a = n ->
  map2 (fun v a => add3 v (scale3 (/ 2 * dt) a)) (map opp3 (map2 (fun v a => add3 v (scale3 (/ 2 * dt) a)) v a)) a
  = map opp3 v.
Proof.
  induction v as [|x v IH]; intros [|b a] n <- H; cbn in *; try discriminate; [reflexivity|].
  f_equal; [|apply (IH a (length v)); lia]. destruct x, b. unfold add3, scale3, opp3; cbn. apply v3_eq; ring.
Qed.
Lemma shift_as_map2 dt : forall p v, map2 (fun r v => add3 r (scale3 dt v)) p v = map2 add3 p (map (scale3 dt) v).
Proof. induction p as [|a p IH]; intros [|b v]; cbn; try reflexivity. rewrite IH. reflexivity. Qed.
Lemma shift_back dt : forall p v n, length p = n -> length v = n ->
  map2 add3 (map2 add3 p (map (scale3 dt) v)) (map (scale3 dt) (map opp3 v)) = p.
Proof.
  induction p as [|a p IH]; intros [|b v] n <- H; cbn in *; try discriminate; [reflexivity|].
  f_equal; [apply add3_zero | apply (IH v (length p)); lia].
Qed.

Section NVE.
  Variable check : list v3 -> outcome (list v3).
  Variable forces : list v3 -> list v3.
  Variables (dt : R) (ms : list R).
  Hypothesis Hc : shift_ok check.
  Hypothesis Hf : forall p, length p = length ms -> length (forces p) = length ms.

  Lemma check_idem x x' : check x = Ok x' -> check x' = Ok x'.
  Proof.
    destruct Hc as [_ H2]. intros E.
    assert (Z : forall l, map2 add3 l (map (fun _ => V3 0 0 0) l) = l).
    { induction l as [|a l IHl]; [reflexivity|]. cbn. rewrite IHl. f_equal. destruct a. unfold add3; cbn. apply v3_eq; ring. }
    destruct Hc as [H1 _]. pose proof (H1 _ _ E) as Lx.
    assert (Z' : forall (l k : list v3), length k = length l -> map2 add3 l (map (fun _ => V3 0 0 0) k) = l).
    { induction l as [|a l IHl]; intros [|b k] HK; cbn in *; try discriminate; [reflexivity|]. rewrite IHl by lia. f_equal.
      destruct a. unfold add3; cbn. apply v3_eq; ring. }
    specialize (H2 x x' (map (fun _ => V3 0 0 0) x) E). rewrite Z' in H2 by lia. rewrite Z in H2. congruence.
  Qed.

  Lemma nve_settled s s' ke : settled check forces ms s -> nve check forces dt ms s = Ok (s', ke) ->
    settled check forces ms s'.
  Proof.
    intros (S1 & S2 & L1 & L2 & L3). unfold nve. destruct (check (pos (leapfrog1 dt s))) as [p| |] eqn:E; try discriminate.
    cbn [obind]. intros H. injection H as <- _. unfold settled. cbn.
    assert (Lp : length p = length ms).
    { rewrite (proj1 Hc _ _ E). cbn. apply map2_length; [exact L1|]. apply map2_length; assumption. }
    assert (La : length (accel ms (forces p)) = length ms) by (unfold accel; apply map2_length; [reflexivity | apply Hf; exact Lp]).
    repeat split; [apply (check_idem _ _ E) | exact Lp | | exact La].
    apply map2_length; [|exact La]. apply map2_length; assumption.
  Qed.

  Lemma nve_back s s' ke : settled check forces ms s -> nve check forces dt ms s = Ok (s', ke) ->
    exists ke', nve check forces dt ms (neg_vel s') = Ok (neg_vel s, ke').
  Proof.
    intros (S1 & S2 & L1 & L2 & L3) H. unfold nve in H.
    destruct (check (pos (leapfrog1 dt s))) as [p| |] eqn:E; try discriminate.
    cbn [obind] in H. injection H as <- _.
    assert (Lp : length p = length ms).
    { rewrite (proj1 Hc _ _ E). cbn. apply map2_length; [exact L1|]. apply map2_length; assumption. }
    set (vh := map2 (fun v a => add3 v (scale3 (/ 2 * dt) a)) (vel s) (acc s)) in *.
    assert (Lv : length vh = length ms) by (apply map2_length; assumption).
    assert (La : length (accel ms (forces p)) = length ms) by (unfold accel; apply map2_length; [reflexivity | apply Hf; exact Lp]).
    unfold nve, neg_vel, leapfrog2, leapfrog1. cbn [pos vel acc fst].
    fold vh. rewrite (back_vel dt vh (accel ms (forces p)) (length ms) Lv La).
    cbn [pos vel acc leapfrog1] in E. unfold leapfrog1 in E. cbn [pos] in E. fold vh in E.
    rewrite shift_as_map2 in *.
    rewrite (proj2 Hc _ _ (map (scale3 dt) (map opp3 vh)) E).
    rewrite (shift_back dt (pos s) vh (length ms) L1 Lv), S1. cbn [obind].
    rewrite <- S2. unfold vh. rewrite (back_vel dt (vel s) (acc s) (length ms) L2 L3).
    eexists. reflexivity.
  Qed.

  Lemma neg_settled s : settled check forces ms s -> settled check forces ms (neg_vel s).
  Proof. intros (S1 & S2 & L1 & L2 & L3). unfold settled, neg_vel. cbn. rewrite map_length. auto. Qed.
  Lemma run_app a b s : nve_run check forces dt ms (a + b) s
    = (do s' <- nve_run check forces dt ms a s ; nve_run check forces dt ms b s').
  Proof.
    revert s. induction a as [|a IH]; intros s; [reflexivity|]. cbn [Nat.add nve_run].
    destruct (nve check forces dt ms s) as [[s1 k]| |]; cbn [obind fst]; try reflexivity. apply IH.
  Qed.
  Lemma nve_run_back n : forall s s', settled check forces ms s -> nve_run check forces dt ms n s = Ok s' ->
    settled check forces ms s' /\ nve_run check forces dt ms n (neg_vel s') = Ok (neg_vel s).
  Proof.
    induction n as [|n IH]; intros s s' Hs H.
    - cbn in H. injection H as <-. split; [exact Hs | reflexivity].
    - cbn [nve_run] in H. destruct (nve check forces dt ms s) as [[s1 k]| |] eqn:E; try discriminate. cbn [obind fst] in H.
      pose proof (nve_settled _ _ _ Hs E) as Hs1. destruct (IH _ _ Hs1 H) as [A B]. split; [exact A|].
      replace (S n) with (n + 1)%nat by lia. rewrite run_app, B. cbn [obind nve_run].
      destruct (nve_back _ _ _ Hs E) as [k' ->]. reflexivity.
  Qed.

  Lemma momentum_kick d h : forall m v a f, length v = length m -> length f = length m -> Forall (fun x => x <> 0) m ->
    a = accel m f -> momentum d m (map2 (fun v a => add3 v (scale3 h a)) v a) = momentum d m v + h * total d f.
  Proof.
    induction m as [|m0 m IH]; intros [|v0 v] a [|f0 f] Lv Lf Hm ->; cbn in *; try discriminate; [unfold momentum, total; cbn; ring|].
    inversion_clear Hm. unfold momentum, total in *. cbn. rewrite (IH v _ f) by (auto; lia).
    destruct d as [|[|d]]; cbn; field; assumption.
  Qed.

  Hypothesis Hm : Forall (fun x => x <> 0) ms.
  Lemma nve_momentum d s s' ke : settled check forces ms s -> nve check forces dt ms s = Ok (s', ke) ->
    momentum d ms (vel s') = momentum d ms (vel s) + / 2 * dt * (total d (forces (pos s)) + total d (forces (pos s'))).
  Proof.
    intros (S1 & S2 & L1 & L2 & L3) H. unfold nve in H.
    destruct (check (pos (leapfrog1 dt s))) as [p| |] eqn:E; try discriminate.
    cbn [obind] in H. injection H as <- _. cbn.
    assert (Lp : length p = length ms).
    { rewrite (proj1 Hc _ _ E). cbn. apply map2_length; [exact L1|]. apply map2_length; assumption. }
    rewrite (momentum_kick d (/ 2 * dt) ms _ (accel ms (forces p)) (forces p)); auto using map2_length.
    rewrite (momentum_kick d (/ 2 * dt) ms (vel s) (acc s) (forces (pos s))); auto. ring.
  Qed.
  Lemma nve_run_momentum d n : (forall p, length p = length ms -> total d (forces p) = 0) ->
    forall s s', settled check forces ms s -> nve_run check forces dt ms n s = Ok s' ->
    momentum d ms (vel s') = momentum d ms (vel s).
  Proof.
    intros H0. induction n as [|n IH]; intros s s' Hs H; [cbn in H; congruence|].
    cbn [nve_run] in H. destruct (nve check forces dt ms s) as [[s1 k]| |] eqn:E; try discriminate. cbn [obind fst] in H.
    pose proof (nve_settled _ _ _ Hs E) as Hs1. rewrite (IH _ _ Hs1 H), (nve_momentum d _ _ _ Hs E).
    destruct Hs as (_ & _ & L & _). destruct Hs1 as (_ & _ & L' & _). rewrite !H0 by assumption. ring.
  Qed.
End NVE.

(** *** Gaussian thermostat *)
Definition v2sum (ms : list R) (vs : list v3) : R := rlsum (map2 (fun m v => dot3 v v * m) ms vs).
Lemma kinetic_v2 : forall ms vs, kinetic ms vs = / 2 * v2sum ms vs.
Proof.
  unfold kinetic, v2sum. induction ms as [|m ms IH]; intros [|v vs]; cbn; try ring. rewrite IH. ring.
Qed.
Lemma v2_expand t : forall ms vs fs, length vs = length ms -> length fs = length ms -> Forall (fun m => m <> 0) ms ->
  v2sum ms (map2 (fun v a => add3 v (scale3 t a)) vs (accel ms fs))
  = v2sum ms vs + 2 * t * rlsum (map2 dot3 fs vs) + t * t * rlsum (map2 dot3 fs (accel ms fs)).
Proof.
  unfold v2sum, accel. induction ms as [|m ms IH]; intros [|v vs] [|f fs] L1 L2 Hm; cbn in *; try discriminate; [ring|].
  inversion_clear Hm. rewrite (IH vs fs) by (auto; lia). unfold dot3, add3, scale3. cbn. field. assumption.
Qed.
Lemma v2_scale c : forall ms vs, v2sum ms (map (scale3 c) vs) = c * c * v2sum ms vs.
Proof.
  unfold v2sum. induction ms as [|m ms IH]; intros [|v vs]; cbn; try ring. rewrite IH. unfold dot3, scale3; cbn. ring.
Qed.
Lemma v2_nonneg : forall ms vs, Forall (fun m => 0 < m) ms -> 0 <= v2sum ms vs.
Proof.
  unfold v2sum. induction ms as [|m ms IH]; intros [|v vs] H; cbn; try lra. inversion_clear H.
  specialize (IH vs H1). assert (0 <= dot3 v v) by (unfold dot3; nra). nra.
Qed.
Lemma fa_nonneg : forall ms fs, Forall (fun m => 0 < m) ms -> 0 <= rlsum (map2 dot3 fs (accel ms fs)).
Proof.
  unfold accel. induction ms as [|m ms IH]; intros [|f fs] H; cbn; try lra. inversion_clear H.
  specialize (IH fs H1). assert (0 < / m) by (apply Rinv_0_lt_compat; exact H0).
  assert (E : dot3 f (scale3 (/ m) f) = / m * dot3 f f) by (unfold dot3, scale3; cbn; ring). rewrite E.
  assert (0 <= dot3 f f) by (unfold dot3; nra). nra.
Qed.
Lemma dot3_zero v : dot3 v v = 0 -> v = V3 0 0 0.
Proof. destruct v as [a b c]. unfold dot3; cbn. intros H. assert (a = 0) by nra. assert (b = 0) by nra. assert (c = 0) by nra. subst. reflexivity. Qed.
Lemma v2_pos_iff : forall ms vs, Forall (fun m => 0 < m) ms -> length vs = length ms ->
  v2sum ms vs = 0 -> Forall (fun v => v = V3 0 0 0) vs.
Proof.
  unfold v2sum. induction ms as [|m ms IH]; intros [|v vs] H L E; cbn in *; try discriminate; constructor; inversion_clear H.
  - pose proof (v2_nonneg ms vs H1) as P. unfold v2sum in P. assert (0 <= dot3 v v) by (unfold dot3; nra).
    apply dot3_zero. nra.
  - apply IH; auto. pose proof (v2_nonneg ms vs H1) as P. unfold v2sum in P. assert (0 <= dot3 v v) by (unfold dot3; nra). nra.
Qed.
Lemma fa_pos_iff : forall ms fs, Forall (fun m => 0 < m) ms -> length fs = length ms ->
  rlsum (map2 dot3 fs (accel ms fs)) = 0 -> Forall (fun v => v = V3 0 0 0) fs.
Proof.
  unfold accel. induction ms as [|m ms IH]; intros [|f fs] H L E; cbn in *; try discriminate; constructor; inversion_clear H;
    pose proof (fa_nonneg ms fs H1) as P; unfold accel in P;
    assert (0 < / m) by (apply Rinv_0_lt_compat; exact H0);
    assert (X : dot3 f (scale3 (/ m) f) = / m * dot3 f f) by (unfold dot3, scale3; cbn; ring); rewrite X in E;
    assert (0 <= dot3 f f) by (unfold dot3; nra).
  - apply dot3_zero. assert (/ m * dot3 f f = 0) by nra. nra.
  - apply IH; auto. nra.
Qed.

Lemma cosh_sinh_sq x : cosh x * cosh x - sinh x * sinh x = 1.
Proof.
  unfold cosh, sinh. assert (E : exp x * exp (- x) = 1) by (rewrite <- exp_plus; replace (x + - x) with 0 by ring; apply exp_0).
  nra.
Qed.
Lemma cosh_sinh_bound x : - cosh x < sinh x < cosh x.
Proof. unfold cosh, sinh. pose proof (exp_pos x). pose proof (exp_pos (- x)). lra. Qed.

Lemma map_map2 {A B C D} (f : A -> B -> C) (g : C -> D) : forall u v, map g (map2 f u v) = map2 (fun x y => g (f x y)) u v.
Proof. induction u as [|x u IH]; intros [|y v]; cbn; try reflexivity. rewrite IH. reflexivity. Qed.

(** The algebra of one half step. *)
Lemma gauss_identity a q c h : q <> 0 -> c * c - h * h = 1 ->
  let s := a * (c - 1) / (q * q) + h / q in
  let sd := a * h / q + c in
  1 + 2 * s * a + s * s * (q * q) = sd * sd.
Proof. intros Hq Hc s sd. unfold s, sd. replace (1) with (c * c - h * h) at 1 by exact Hc. 
  replace (c * c - h * h + 2 * (a * (c - 1) / (q * q) + h / q) * a + (a * (c - 1) / (q * q) + h / q) * (a * (c - 1) / (q * q) + h / q) * (q * q))
    with (c * c - h * h + 2 * a * a * (c - 1) / (q * q) + 2 * a * h / q + a * a * (c - 1) * (c - 1) / (q * q) + 2 * a * (c - 1) * h / q + h * h) by (field; exact Hq).
  replace (c * c - h * h + 2 * a * a * (c - 1) / (q * q) + 2 * a * h / q + a * a * (c - 1) * (c - 1) / (q * q) + 2 * a * (c - 1) * h / q + h * h)
    with (c * c + a * a / (q * q) * (c * c - 1) + 2 * a * c * h / q) by (field; exact Hq).
  replace (c * c - 1) with (h * h) by lra. field. exact Hq.
Qed.

Lemma gauss_ok dt ms vs fs :
  Forall (fun m => 0 < m) ms -> length vs = length ms -> length fs = length ms ->
  Exists (fun v => v <> V3 0 0 0) vs -> Exists (fun f => f <> V3 0 0 0) fs ->
  exists vs', gauss_vel dt ms vs fs (accel ms fs) = Ok vs' /\ length vs' = length ms /\ kinetic ms vs' = kinetic ms vs.
Proof.
  intros Hm Lv Lf Ev Ef.
  assert (Hm0 : Forall (fun m => m <> 0) ms) by (eapply Forall_impl; [|exact Hm]; cbn; intros; lra).
  unfold gauss_vel. fold (v2sum ms vs).
  set (V := v2sum ms vs). set (A := rlsum (map2 dot3 fs vs)). set (B := rlsum (map2 dot3 fs (accel ms fs))).
  assert (V0 : 0 < V).
  { destruct (Rle_lt_or_eq_dec 0 V (v2_nonneg ms vs Hm)) as [|E]; [assumption|]. exfalso.
    pose proof (v2_pos_iff ms vs Hm Lv (eq_sym E)) as Q. apply Exists_exists in Ev. destruct Ev as (v & I & N).
    rewrite Forall_forall in Q. apply N, Q, I. }
  assert (B0 : 0 < B).
  { destruct (Rle_lt_or_eq_dec 0 B (fa_nonneg ms fs Hm)) as [|E]; [assumption|]. exfalso.
    pose proof (fa_pos_iff ms fs Hm Lf (eq_sym E)) as Q. apply Exists_exists in Ef. destruct Ef as (v & I & N).
    rewrite Forall_forall in Q. apply N, Q, I. }
  assert (CS : A * A <= V * B).
  { pose proof (v2_nonneg ms (map2 (fun v a => add3 v (scale3 (- A / B) a)) vs (accel ms fs)) Hm) as P.
    rewrite v2_expand in P by assumption. fold V A B in P.
    replace (V + 2 * (- A / B) * A + - A / B * (- A / B) * B) with (V - A * A / B) in P by (field; lra).
    assert (A * A / B * B = A * A) by (field; lra). nra. }
  destruct (Req_EM_T V 0) as [E|_]; [lra|].
  assert (Hb : 0 < B / V) by (apply Rdiv_lt_0_compat; assumption).
  destruct (Rle_dec (B / V) 0) as [E|_]; [lra|].
  set (a := A / V). set (b := B / V) in *. set (q := sqrt b).
  assert (Hq : 0 < q) by (apply sqrt_lt_R0; exact Hb).
  assert (Hqq : q * q = b) by (apply sqrt_sqrt; lra).
  set (t := if Rlt_dec 300 (q * dt / 2) then 300 else q * dt / 2).
  set (c := cosh t). set (h := sinh t).
  assert (Hch : c * c - h * h = 1) by (apply cosh_sinh_sq).
  assert (Hbd : - c < h < c) by apply cosh_sinh_bound.
  assert (Ha : a * a <= q * q).
  { rewrite Hqq. unfold a, b. apply Rmult_le_reg_r with (V * V); [nra|].
    replace (A / V * (A / V) * (V * V)) with (A * A) by (field; lra).
    replace (B / V * (V * V)) with (V * B) by (field; lra). exact CS. }
  assert (Hsd : 0 < a * h / q + c).
  { apply Rmult_lt_reg_r with q; [exact Hq|]. rewrite Rmult_0_l.
    replace ((a * h / q + c) * q) with (a * h + c * q) by (field; lra).
    assert (- q <= a <= q) by (split; nra).
    destruct (Rle_dec 0 a); [assert (a * - c <= a * h) by (apply Rmult_le_compat_l; lra) | assert (- a * - c <= - a * - h) by (apply Rmult_le_compat_l; lra)];
      destruct (Req_EM_T a 0); nra. }
  destruct (Req_EM_T (a * h / q + c) 0) as [E|_]; [lra|].
  rewrite <- Hqq. set (sd := a * h / q + c) in *.
  set (s := a * (c - 1) / (q * q) + h / q).
  eexists. split; [reflexivity|]. split.
  - apply map2_length; [exact Lv|]. unfold accel. apply map2_length; [reflexivity | exact Lf].
  - rewrite !kinetic_v2. f_equal.
    replace (map2 (fun v a0 => scale3 (/ sd) (add3 v (scale3 s a0))) vs (accel ms fs))
      with (map (scale3 (/ sd)) (map2 (fun v a0 => add3 v (scale3 s a0)) vs (accel ms fs))).
    2:{ apply map_map2. }
    rewrite v2_scale, v2_expand by assumption. fold V A B.
    assert (EA : A = a * V) by (unfold a; field; lra). assert (EB : B = q * q * V) by (rewrite Hqq; unfold b; field; lra).
    rewrite EA, EB.
    replace (V + 2 * s * (a * V) + s * s * (q * q * V)) with ((1 + 2 * s * a + s * s * (q * q)) * V) by ring.
    assert (I : 1 + 2 * s * a + s * s * (q * q) = sd * sd) by (apply (gauss_identity a q c h); [lra | exact Hch]).
    rewrite I. field. lra.
Qed.

(** *** Velocity initialisation *)
Lemma momentum_removed ms vs d : (d < 3)%nat -> length vs = length ms -> rlsum ms <> 0 ->
  momentum d ms (map (fun v => V3 (cx v - momentum 0 ms vs / rlsum ms) (cy v - momentum 1 ms vs / rlsum ms)
                                   (cz v - momentum 2 ms vs / rlsum ms)) vs) = 0.
Proof.
  intros Hd L Hs.
  assert (G : forall px py pz ms vs, length vs = length ms ->
    momentum d ms (map (fun v => V3 (cx v - px) (cy v - py) (cz v - pz)) vs)
    = momentum d ms vs - rlsum ms * match d with 0 => px | 1 => py | _ => pz end%nat).
  { intros px py pz. unfold momentum. induction ms0 as [|m ms0 IH]; intros [|v vs0] L0; cbn in *; try discriminate; [ring|].
    rewrite IH by lia. destruct d as [|[|d]]; cbn; ring. }
  rewrite G by exact L. destruct d as [|[|[|d]]]; try lia; field; exact Hs.
Qed.
Lemma momentum_scale c d : forall ms vs, momentum d ms (map (scale3 c) vs) = c * momentum d ms vs.
Proof.
  unfold momentum. induction ms as [|m ms IH]; intros [|v vs]; cbn; try ring. rewrite IH. destruct d as [|[|d]]; cbn; ring.
Qed.
Lemma momentum_free d : forall ms cs vs, length cs = length vs -> Forall (fun c => kcomp d c = 1%Z) cs ->
  momentum d ms (zero_fixed cs vs) = momentum d ms vs.
Proof.
  unfold momentum, zero_fixed. induction ms as [|m ms IH]; intros [|c cs] [|v vs] L H; cbn in *; try discriminate; try reflexivity.
  inversion_clear H. rewrite (IH cs vs) by (auto; lia). destruct d as [|[|d]]; cbn in *; rewrite H0; ring.
Qed.
