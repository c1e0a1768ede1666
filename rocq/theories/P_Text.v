(** C18, C21, C22, C42, C44: keyword comparison, memory-size formatting,
    numeric-list input, outside-region code, socket addresses. *)
From Coq Require Import ZArith List Lia Bool QArith ZifyBool ZifyNat.
From Verif Require Import CBase Text TextLem.
Import ListNotations.
Local Open Scope Z_scope.

(** * C18 *)
(** For NUL-terminated buffers (with anything behind the terminator) the
    comparison is defined (no byte behind a terminator is read) and yields 0
    exactly when the strings agree letter by letter up to ASCII case. *)
Theorem C18_keyword_equality : forall a b ja jb,
  Forall is_char a -> Forall is_char b ->
  exists r, strcmpi false (a ++ 0 :: ja) (b ++ 0 :: jb) = Ok r /\
    (r = 0 <-> Forall2 same_upto_case a b).
Proof.
  intros a b ja jb Ha Hb. destruct (strcmpi_total a b ja jb Ha Hb) as (r & E & H & _).
  exists r. split; [exact E|]. rewrite H. apply map_tolower_same.
Qed.
Print Assumptions C18_keyword_equality.

(** The same-pointer shortcut is consistent with the comparison. *)
Theorem C18_same_pointer : forall a ja, Forall is_char a ->
  strcmpi true (a ++ 0 :: ja) (a ++ 0 :: ja) = strcmpi false (a ++ 0 :: ja) (a ++ 0 :: ja).
Proof.
  intros a ja Ha. destruct (strcmpi_total a a ja ja Ha Ha) as (r & E & H & _).
  unfold strcmpi. rewrite E. f_equal. symmetry. now apply H.
Qed.
Print Assumptions C18_same_pointer.

(** Swapping the arguments negates the result (it is a comparison usable for
    ordering). *)
Theorem C18_antisymmetric : forall a b ja jb,
  Forall is_char a -> Forall is_char b ->
  exists r, strcmpi false (a ++ 0 :: ja) (b ++ 0 :: jb) = Ok r /\
            strcmpi false (b ++ 0 :: jb) (a ++ 0 :: ja) = Ok (- r).
Proof.
  unfold strcmpi.
  induction a as [|x a IH]; intros b ja jb Ha Hb.
  - destruct b as [|y b]; cbn; [now exists 0|].
    inversion Hb; subst. pose proof (tolower_pos y ltac:(assumption)).
    exists (0 - tolower y). split; [reflexivity|].
    replace (tolower y =? 0) with false by lia. f_equal; lia.
  - inversion Ha as [|? ? Hx Ha']; subst. pose proof (tolower_pos x Hx).
    destruct b as [|y b]; cbn [app strcmpi_loop].
    + change (tolower 0) with 0. cbn [Z.eqb]. replace (tolower x =? 0) with false by lia.
      exists (tolower x - 0). split; [reflexivity|]. f_equal; lia.
    + inversion Hb as [|? ? Hy Hb']; subst. pose proof (tolower_pos y Hy).
      replace (tolower x =? 0) with false by lia. replace (tolower y =? 0) with false by lia.
      destruct (tolower x =? tolower y) eqn:E.
      * replace (tolower y =? tolower x) with true by lia. now apply IH.
      * replace (tolower y =? tolower x) with false by lia.
        exists (tolower x - tolower y). split; [reflexivity|]. f_equal; lia.
Qed.
Print Assumptions C18_antisymmetric.

(** [strlwr] rewrites exactly the string and nothing behind the terminator,
    and two strings compare equal iff their lower-case versions are equal. *)
Theorem C18_lowercase : forall a ja, Forall is_char a ->
  exists a', strlwr (a ++ 0 :: ja) = Ok (a' ++ 0 :: ja) /\
    Forall2 same_upto_case a a' /\ Forall (fun c => ~ (65 <= c <= 90)) a'.
Proof.
  induction a as [|x a IH]; intros ja Ha.
  - exists []. cbn. repeat split; constructor.
  - inversion Ha as [|? ? Hx Ha']; subst. destruct (IH ja Ha') as (a' & E & H1 & H2).
    exists (tolower x :: a'). unfold strlwr in *. cbn [app str_map].
    replace (x =? 0) with false by (unfold is_char in Hx; lia). rewrite E. cbn [obind].
    split; [reflexivity|]. split; constructor; auto.
    + unfold same_upto_case, tolower. destruct (_ && _) eqn:C; lia.
    + unfold tolower. destruct (_ && _) eqn:C; lia.
Qed.
Print Assumptions C18_lowercase.

(** "NSTATES:" and "nStates:" are the same keyword, "NSTATE:" is not. *)
Example C18_example :
  strcmpi false ([78;83;84;65;84;69;83;58] ++ 0 :: [7]) ([110;83;116;97;116;101;115;58] ++ 0 :: []) = Ok 0 /\
  strcmpi false ([78;83;84;65;84;69;58] ++ 0 :: [7]) ([110;83;116;97;116;101;115;58] ++ 0 :: []) = Ok (-57).
Proof. split; reflexivity. Qed.

(** * C21 *)
(** Below 1024^9 bytes the printed number times the printed unit is the
    requested number of bytes, and the number is scaled as far as possible. *)
Theorem C21_magnitude : forall v, (v < pow1024 9)%Q ->
  exists m i, formatBytes v = Ok (m, i) /\ (i <= 8)%nat /\ (m * pow1024 i == v)%Q /\
    (m < inject_Z 1024)%Q /\ ((0 < i)%nat -> (1 <= m)%Q).
Proof.
  intros v Hv. unfold formatBytes.
  destruct (fb_loop (S NUM_UNITS) 0 v) as [j w] eqn:E.
  apply fb_loop_spec in E; [|lia|unfold NUM_UNITS; lia].
  destruct E as (E1 & E2 & E3 & E4). rewrite Nat.sub_0_r in E2.
  assert (J : (j <= 8)%nat).
  { destruct (Nat.eq_dec j 9) as [-> | N]; [|lia]. exfalso.
    apply (Qlt_not_le _ _ Hv). rewrite <- E2.
    rewrite <- (Qmult_1_l (pow1024 9)) at 1.
    apply Qmult_le_compat_r; [apply E4; lia | apply Qlt_le_weak, pow1024_pos]. }
  unfold NUM_UNITS. cbn [Nat.sub]. rewrite Nat.min_l by lia.
  replace (j =? 9)%nat with false by lia. cbn [andb].
  exists w, j. split; [reflexivity|]. split; [exact J|]. split; [exact E2|].
  split; [apply E3; lia | apply E4].
Qed.
Print Assumptions C21_magnitude.

(** At and above 1024^9 bytes the function never takes its error exit (the
    test [i == NUM_UNITS] follows a clamp to NUM_UNITS-1), and the size it
    prints is 1024 times too small. *)
Theorem C21_huge_values : forall v, (pow1024 9 <= v)%Q ->
  exists m, formatBytes v = Ok (m, 8%nat) /\ (inject_Z 1024 * (m * pow1024 8) == v)%Q.
Proof.
  intros v Hv. unfold formatBytes.
  destruct (fb_loop (S NUM_UNITS) 0 v) as [j w] eqn:E.
  apply fb_loop_spec in E; [|lia|unfold NUM_UNITS; lia].
  destruct E as (E1 & E2 & E3 & E4). rewrite Nat.sub_0_r in E2.
  assert (j = 9)%nat as ->.
  { destruct (Nat.eq_dec j 9) as [-> | N]; [reflexivity|]. exfalso.
    assert (Hj : (w < inject_Z 1024)%Q) by (apply E3; lia).
    apply (Qle_not_lt _ _ Hv). rewrite <- E2.
    assert (P8 : (pow1024 j <= pow1024 8)%Q).
    { replace 8%nat with ((8 - j) + j)%nat by lia. generalize (8 - j)%nat as d.
      clear. induction d as [|d IH]; cbn [plus pow1024]; [apply Qle_refl|].
      eapply Qle_trans; [exact IH|].
      rewrite <- (Qmult_1_l (pow1024 (d + j))) at 1.
      apply Qmult_le_compat_r; [discriminate|]. apply Qlt_le_weak, pow1024_pos. }
    apply Qlt_le_trans with (inject_Z 1024 * pow1024 j)%Q.
    - apply Qmult_lt_compat_r; [apply pow1024_pos | exact Hj].
    - change (pow1024 9) with (inject_Z 1024 * pow1024 8)%Q.
      apply Qmult_le_l; [reflexivity | exact P8]. }
  unfold NUM_UNITS. cbn [Nat.sub Nat.min Nat.eqb andb].
  exists w. split; [reflexivity|]. rewrite <- E2.
  change (pow1024 9) with (inject_Z 1024 * pow1024 8)%Q. ring.
Qed.
Print Assumptions C21_huge_values.

Theorem C21_huge_refuted : exists v m i,
  formatBytes v = Ok (m, i) /\ ~ (m * pow1024 i == v)%Q.
Proof.
  exists (pow1024 9). destruct (C21_huge_values (pow1024 9) (Qle_refl _)) as (m & E & H).
  exists m, 8%nat. split; [exact E|]. intros C. rewrite C in H.
  vm_compute in H. discriminate.
Qed.
Print Assumptions C21_huge_refuted.

Example C21_example : formatBytes (inject_Z 3145728) = Ok ((3145728 # 1) / 1024 / 1024, 2%nat)%Q /\
  ((3145728 # 1) / 1024 / 1024 == 3)%Q.
Proof. split; reflexivity. Qed.

(** * C22 *)
Lemma nth_error_firstn' {A} (l : list A) : forall n i, (i < n)%nat ->
  nth_error (firstn n l) i = nth_error l i.
Proof.
  induction l as [|x l IH]; intros n i H; [now rewrite firstn_nil|].
  destruct n; [lia|]. destruct i; [reflexivity|]. cbn. apply IH. lia.
Qed.
Section C22.
  Variable V : Type.
  Variable scan : str -> option (V * nat).
  Definition consumes := forall s v k, scan s = Some (v, k) -> (1 <= k <= length s)%nat.
  (** the numbers on the line *)
  Definition line_numbers (line : str) : list V := numbers scan (S (length line)) line.

  (** With an array of at least 11 elements every line is handled; the return
      value is the number of numbers, capped at 10, and the array holds the
      first eleven of them. *)
  Theorem C22_array_of_eleven : consumes -> forall cap line, (11 <= cap)%nat ->
    exists arr, check_num_input scan cap line = Ok (Nat.min (length (line_numbers line)) 10, arr) /\
      forall i, (i < 11)%nat -> arr i = nth_error (line_numbers line) i.
  Proof.
    intros Hc cap line Hcap. unfold check_num_input, line_numbers.
    destruct (cni_ok V scan Hc (S (length line)) cap line 0 (fun _ => None)) as (arr & E & H);
      [lia | lia | rewrite firstn_length; lia |].
    exists arr. rewrite E. split.
    - do 2 f_equal. rewrite firstn_length. cbn [Nat.sub plus]. lia.
    - intros i Hi. rewrite H. unfold stores. replace (i - 0)%nat with i by lia.
      replace (i <? 0)%nat with false by lia.
      rewrite nth_error_firstn' by lia. now destruct (nth_error _ i).
  Qed.

  (** With the arrays of 10 that src/readfiles.c:1619-1620 passes, the call is
      free of undefined behaviour exactly for lines of at most ten numbers,
      and then it returns their number and stores them in order. *)
  Theorem C22_array_of_ten : consumes -> forall line,
    ((length (line_numbers line) <= 10)%nat ->
       exists arr, check_num_input scan 10 line = Ok (length (line_numbers line), arr) /\
         forall i, arr i = nth_error (line_numbers line) i) /\
    ((11 <= length (line_numbers line))%nat -> check_num_input scan 10 line = UB).
  Proof.
    intros Hc line. split; intros HN; unfold check_num_input, line_numbers in *.
    - destruct (cni_ok V scan Hc (S (length line)) 10 line 0 (fun _ => None)) as (arr & E & H);
        [lia | lia | rewrite firstn_length; lia |].
      exists arr. rewrite E. rewrite (firstn_all2 (n := 11 - 0)) in * by lia.
      split; [do 2 f_equal; lia|].
      intros i. rewrite H. unfold stores. replace (i <? 0)%nat with false by lia.
      rewrite Nat.sub_0_r. now destruct (nth_error _ i).
    - apply cni_ub; [exact Hc | lia | lia | lia |]. rewrite firstn_length. lia.
  Qed.
End C22.
Print Assumptions C22_array_of_eleven.
Print Assumptions C22_array_of_ten.

(** A concrete [sscanf("%d%n")] for single-digit numbers separated by single
    spaces, to exhibit lines. *)
Definition scan_digit (s : str) : option (Z * nat) :=
  match s with
  | 32 :: c :: _ => if isdigit c then Some (c - 48, 2%nat) else None
  | c :: _ => if isdigit c then Some (c - 48, 1%nat) else None
  | [] => None
  end.
Lemma scan_digit_consumes : consumes Z scan_digit.
Proof.
  intros s v k. unfold scan_digit. destruct s as [|c s]; [easy|].
  destruct (Z.eq_dec c 32) as [-> | N].
  - destruct s as [|d s]; [easy|]. destruct (isdigit d); [|easy]. intros [= <- <-]. cbn. lia.
  - assert (E : (match c with
                 | 32 => match s with c0 :: _ => if isdigit c0 then Some (c0 - 48, 2%nat) else None
                                  | [] => if isdigit c then Some (c - 48, 1%nat) else None end
                 | _ => if isdigit c then Some (c - 48, 1%nat) else None end)
                = if isdigit c then Some (c - 48, 1%nat) else None).
    { destruct c as [|p|p]; try reflexivity.
      do 6 (destruct p as [p|p|]; try reflexivity). congruence. }
    intros H. cbn in H. rewrite E in H. destruct (isdigit c); [|easy].
    injection H as <- <-. cbn. lia.
Qed.
(** Eleven numbers on one line overrun the caller's array of ten. *)
Theorem C22_eleven_numbers_refuted : exists line,
  length (line_numbers Z scan_digit line) = 11%nat /\ check_num_input scan_digit 10 line = UB.
Proof.
  exists (49 :: concat (repeat [32;50] 10)). split; reflexivity.
Qed.
Print Assumptions C22_eleven_numbers_refuted.
Example C22_example : exists arr,
  check_num_input scan_digit 10 [49;32;50;32;51] = Ok (3%nat, arr) /\ arr 2%nat = Some 3.
Proof. eexists. split; reflexivity. Qed.

(** * C42 *)
(** Spec: on which side of the interval [0,n) a coordinate lies. *)
Definition side_of (g n s : Z) : Prop :=
  (s = -1 /\ g < 0) \/ (s = 0 /\ 0 <= g < n) \/ (s = 1 /\ n <= g /\ 0 <= g).

(** The region code is -1 iff the point is inside; otherwise it is in 0..25
    and is the position, in the order in which [phase_factors] is filled, of
    the direction in which the point lies outside. *)
Theorem C42_region_exact : forall ip jp kp oi oj ok D gx gy gz,
  0 <= gx -> 0 <= gy -> 0 <= gz ->
  let i := ip + oi + v0 D in let j := jp + oj + v2 D in let k := kp + ok + v4 D in
  let r := grid_outside_region ip jp kp oi oj ok D gx gy gz in
  (r = -1 <-> 0 <= i < gx /\ 0 <= j < gy /\ 0 <= k < gz) /\
  (r = -1 <-> is_grid_outside ip jp kp oi oj ok D gx gy gz = false) /\
  (r <> -1 -> 0 <= r <= 25 /\
     exists si sj sk, side_of i gx si /\ side_of j gy sj /\ side_of k gz sk /\
       nth_error phase_dirs (Z.to_nat r) = Some (si, sj, sk)).
Proof.
  intros ip jp kp oi oj ok D gx gy gz Hx Hy Hz i j k r.
  unfold r, grid_outside_region, is_grid_outside. fold i j k. clearbody i j k. clear r.
  assert (S : forall g n, 0 <= n ->
     (g < 0 /\ b2z (0 <=? g) - b2z (g <? n) = -1) \/
     (0 <= g < n /\ b2z (0 <=? g) - b2z (g <? n) = 0) \/
     (n <= g /\ 0 <= g /\ b2z (0 <=? g) - b2z (g <? n) = 1)).
  { intros g n Hn. unfold b2z. destruct (0 <=? g) eqn:A, (g <? n) eqn:B; lia. }
  cbv zeta.
  destruct (S i gx Hx) as [[Hi Ei] | [[Hi Ei] | [Hi [Hi0 Ei]]]];
  destruct (S j gy Hy) as [[Hj Ej] | [[Hj Ej] | [Hj [Hj0 Ej]]]];
  destruct (S k gz Hz) as [[Hk Ek] | [[Hk Ek] | [Hk [Hk0 Ek]]]];
  rewrite Ei, Ej, Ek; cbn -[phase_dirs nth_error];
  (split; [lia|]; split; [split; [lia|]; destruct ((i <? 0) || _ || _ || _ || _ || _) eqn:O; [easy|intros _; lia]|];
   first [ (intros C; exfalso; apply C; reflexivity)
         | (intros _; split; [lia|]; do 3 eexists;
            split; [|split; [|split; [|reflexivity]]]; unfold side_of; lia) ]).
Qed.
Print Assumptions C42_region_exact.

(** The 26 directions are all different, so the code determines the region. *)
Theorem C42_code_unique : length phase_dirs = 26%nat /\ NoDup phase_dirs /\
  forall si sj sk, In (si, sj, sk) phase_dirs <->
    (-1 <= si <= 1 /\ -1 <= sj <= 1 /\ -1 <= sk <= 1 /\ (si, sj, sk) <> (0, 0, 0)).
Proof.
  split; [reflexivity|]. split.
  - assert (H : nodup (fun a b : Z * Z * Z => ltac:(repeat decide equality) : {a = b} + {a <> b}) phase_dirs = phase_dirs)
      by (vm_compute; reflexivity).
    rewrite <- H. apply NoDup_nodup.
  - intros si sj sk. split.
    + intros H. cbn in H.
      repeat (destruct H as [H | H]; [injection H as <- <- <-; repeat split; try lia; congruence|]).
      contradiction.
    + intros (Hi & Hj & Hk & N).
      assert (Ci : si = -1 \/ si = 0 \/ si = 1) by lia.
      assert (Cj : sj = -1 \/ sj = 0 \/ sj = 1) by lia.
      assert (Ck : sk = -1 \/ sk = 0 \/ sk = 1) by lia.
      destruct Ci as [-> | [-> | ->]]; destruct Cj as [-> | [-> | ->]]; destruct Ck as [-> | [-> | ->]];
        try congruence; cbn; tauto.
Qed.
Print Assumptions C42_code_unique.

Example C42_example :
  grid_outside_region 0 5 5 (-2) (-2) (-2) (DM 0 4 5 9 0 4) 10 10 10 = 12 /\
  grid_outside_region 3 5 5 (-2) (-2) (-2) (DM 0 4 5 9 0 4) 10 10 10 = -1 /\
  grid_outside_region 3 8 5 (-2) (-2) (-2) (DM 0 4 5 9 0 4) 10 10 10 = 15.
Proof. repeat split. Qed.

(** * C44 *)
(** Spec: the documented address forms. *)
Definition valid_address (s : str) (host : str) (port inet : Z) : Prop :=
  exists h p, s = h ++ COLON :: p /\ ~ In COLON h /\ ~ In COLON p /\
    host = (match h with [] => LOCALHOST | _ => h end) /\
    ((decimal p port /\ 1 <= port <= 65535 /\ inet = 1) \/
     (Forall2 same_upto_case p UNIX_STR /\ port = 0 /\ inet = 0)).

(** A port that spells UNIX is not a decimal number. *)
Lemma unix_not_decimal p v : Forall2 same_upto_case p UNIX_STR -> ~ decimal p v.
Proof.
  intros H (ws & sg & ds & -> & F & Hsg & Hds & Fd & _).
  unfold UNIX_STR in H.
  assert (X : exists c r, ws ++ sg ++ ds = c :: r /\ (isspace c = true \/ c = 43 \/ c = 45 \/ 48 <= c <= 57)).
  { destruct ws as [|w ws]; [|exists w, (ws ++ sg ++ ds); split; [reflexivity | left; now inversion F]].
    cbn [app]. destruct Hsg as [-> | [-> | ->]]; cbn [app].
    - destruct ds as [|d ds]; [easy|]. exists d, ds. split; [reflexivity|]. inversion Fd; subst. tauto.
    - exists 43, ds. tauto.
    - exists 45, ds. tauto. }
  destruct X as (c & r & E & Hc). rewrite E in H. inversion H as [|? ? ? ? Hs _]; subst.
  unfold same_upto_case in Hs. unfold isspace in Hc. lia.
Qed.

Theorem C44_accepts_exactly : forall cap s host port inet,
  (10 <= cap)%nat -> (length s < cap)%nat ->
  split_socket_name cap s = Ok (Some (host, port, inet)) <-> valid_address s host port inet.
Proof.
  intros cap s host port inet Hcap Hlen. unfold split_socket_name, valid_address.
  split.
  - destruct (strchr s COLON) as [d|] eqn:E1; [|easy].
    destruct (strchr (skipn (S d) s) COLON) eqn:E2; [easy|].
    apply strchr_some in E1. destruct E1 as (Es & Hn & Hd).
    apply strchr_none in E2.
    set (h := firstn d s) in *. set (p := skipn (S d) s) in *.
    assert (Lh : length h = d) by (unfold h; rewrite firstn_length; lia).
    destruct (0 <? d)%nat eqn:D0.
    + replace (cap <? S d)%nat with false by lia.
      destruct h as [|h0 h'] eqn:Eh; [cbn in Lh; lia|]. cbn [andb].
      destruct (strtol p) as [v endp] eqn:Ep.
      intros H. exists (h0 :: h'), p.
      split; [exact Es|]. split; [exact Hn|]. split; [exact E2|].
      destruct endp as [|e endp].
      * destruct ((0 <? v) && (v <=? 65535)) eqn:B; [|easy]. injection H as <- <- <-.
        split; [reflexivity|]. left.
        replace (v =? 0) with false by lia.
        split; [|split; [lia|reflexivity]].
        apply (proj1 (strtol_whole p v)). exists v. split; [exact Ep|]. split; [|split; [lia | reflexivity]].
        intros ->. cbn in Ep. injection Ep as <-. lia.
      * destruct (strcaseeq p UNIX_STR) eqn:B; [|easy]. injection H as <- <- <-.
        split; [reflexivity|]. right. split; [now apply strcaseeq_spec | easy].
    + replace (cap <? 1)%nat with false by lia. cbn [andb].
      replace (cap <? 10)%nat with false by lia.
      destruct h as [|h0 h'] eqn:Eh; [|cbn in Lh; lia].
      destruct (strtol p) as [v endp] eqn:Ep.
      intros H. exists [], p.
      split; [exact Es|]. split; [exact Hn|]. split; [exact E2|].
      destruct endp as [|e endp].
      * destruct ((0 <? v) && (v <=? 65535)) eqn:B; [|easy]. injection H as <- <- <-.
        split; [reflexivity|]. left.
        replace (v =? 0) with false by lia.
        split; [|split; [lia|reflexivity]].
        apply (proj1 (strtol_whole p v)). exists v. split; [exact Ep|]. split; [|split; [lia | reflexivity]].
        intros ->. cbn in Ep. injection Ep as <-. lia.
      * destruct (strcaseeq p UNIX_STR) eqn:B; [|easy]. injection H as <- <- <-.
        split; [reflexivity|]. right. split; [now apply strcaseeq_spec | easy].
  - intros (h & p & -> & Hh & Hp & -> & Hport).
    rewrite (strchr_app h COLON p Hh).
    assert (Sk : skipn (S (length h)) (h ++ COLON :: p) = p).
    { replace (S (length h)) with (length (h ++ [COLON])) by (rewrite app_length; cbn; lia).
      replace (h ++ COLON :: p) with ((h ++ [COLON]) ++ p) by (rewrite <- app_assoc; reflexivity).
      rewrite skipn_app, skipn_all, Nat.sub_diag. reflexivity. }
    rewrite Sk. apply strchr_none in Hp as Hp'. rewrite Hp'.
    rewrite app_length in Hlen. cbn [length] in Hlen.
    assert (F0 : firstn (length h) (h ++ COLON :: p) = h).
    { rewrite firstn_app, Nat.sub_diag, firstn_all. cbn [firstn]. apply app_nil_r. }
    rewrite F0.
    replace (cap <? S (if (0 <? length h)%nat then length h else 0%nat))%nat with false
      by (destruct (0 <? length h)%nat; lia).
    replace (if (0 <? length h)%nat then h else []) with h by (destruct h; reflexivity).
    replace (cap <? 10)%nat with false by lia. rewrite andb_false_r.
    destruct Hport as [(Hdec & Hr & ->) | (Hu & -> & ->)].
    + destruct (proj2 (strtol_whole p port)) as (w & E & Hne & Hw & ->); [split; [exact Hdec | lia]|].
      rewrite E. replace ((0 <? w) && (w <=? 65535)) with true by lia.
      replace (w =? 0) with false by lia. reflexivity.
    + destruct (strtol p) as [v endp] eqn:Ep.
      apply strcaseeq_spec in Hu as Hu'. rewrite Hu'.
      destruct endp as [|e endp]; [|reflexivity]. exfalso.
      inversion Hu as [|c ? p' ? Hc Hr']; subst. unfold same_upto_case in Hc.
      unfold strtol in Ep.
      assert (Hsp : skip_space (c :: p') = c :: p').
      { cbn [skip_space]. replace (isspace c) with false by (unfold isspace; lia). reflexivity. }
      rewrite Hsp in Ep. replace (c =? 45) with false in Ep by lia. replace (c =? 43) with false in Ep by lia.
      replace (starts_digit (c :: p')) with false in Ep by (cbn; unfold isdigit; lia).
      discriminate.
Qed.
Print Assumptions C44_accepts_exactly.

(** Everything else is rejected (and never undefined) as long as the host
    array is larger than the string. *)
Theorem C44_rejects_rest : forall cap s, (10 <= cap)%nat -> (length s < cap)%nat ->
  (forall host port inet, ~ valid_address s host port inet) ->
  split_socket_name cap s = Ok None.
Proof.
  intros cap s Hcap Hlen Hno.
  destruct (split_socket_name cap s) as [[[[h p] i]|]| |] eqn:E; [|reflexivity| |].
  - exfalso. apply (Hno h p i). now apply (C44_accepts_exactly cap s h p i Hcap Hlen).
  - exfalso. clear Hno. unfold split_socket_name in E.
    destruct (strchr s COLON) as [d|] eqn:E1; [|easy].
    apply strchr_some in E1. destruct E1 as (_ & _ & Hd).
    destruct (strchr _ COLON); [easy|].
    destruct (0 <? d)%nat; replace (cap <? S _)%nat with false in E by lia;
      replace (cap <? 10)%nat with false in E by lia; rewrite andb_false_r in E;
      (destruct (strtol _) as [v [|e endp]];
       [destruct ((0 <? v) && (v <=? 65535)) | destruct (strcaseeq _ _)]; discriminate).
  - exfalso. clear Hno. unfold split_socket_name in E.
    destruct (strchr s COLON) as [d|] eqn:E1; [|easy].
    destruct (strchr (skipn (S d) s) COLON); [easy|].
    destruct (cap <? _)%nat; [easy|]. destruct (_ && (cap <? 10)%nat); [easy|].
    destruct (strtol _) as [v [|e endp]];
      [destruct ((0 <? v) && (v <=? 65535)) | destruct (strcaseeq _ _)]; discriminate.
Qed.
Print Assumptions C44_rejects_rest.

(** A host part of 512 or more characters overruns [socket_host]
    (src/include/isddft.h:1196): the length is never checked. *)
Theorem C44_long_host_refuted : exists s host port inet,
  valid_address s host port inet /\ split_socket_name 512 s = UB.
Proof.
  exists (repeat 97 512 ++ COLON :: [49]), (repeat 97 512), 1, 1. split.
  - exists (repeat 97 512), [49]. split; [reflexivity|].
    split. { intros H. apply repeat_spec in H. discriminate. }
    split. { intros [H | []]. discriminate. }
    split; [reflexivity|]. left. split; [|lia].
    exists [], [], [49]. repeat split; try constructor; try lia; try tauto; try constructor. discriminate.
  - vm_compute. reflexivity.
Qed.
Print Assumptions C44_long_host_refuted.

Example C44_example :
  split_socket_name 512 (COLON :: [49;50;51;52]) = Ok (Some (LOCALHOST, 1234, 1)) /\
  split_socket_name 512 ([97;98] ++ COLON :: [117;78;73;120]) = Ok (Some ([97;98], 0, 0)) /\
  split_socket_name 512 ([97;98] ++ COLON :: []) = Ok None /\
  split_socket_name 512 ([97;98] ++ COLON :: [54;53;53;51;54]) = Ok None.
Proof. repeat split. Qed.
