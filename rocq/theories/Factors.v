(** Divisor enumeration: [factor], [xferFactors], [sorted_factor], [ceil_div]
    (src/tools.c:293-366). *)
From Coq Require Import ZArith List Lia Bool Sorted.
From Coq Require Import ZifyBool ZifyNat.
From Verif Require Import CBase Mem DivCount.
Import ListNotations.
Local Open Scope Z_scope.

(** [SHRT_MAX]; [Factors.count] is a [short] (src/include/tools.h, cited at
    src/tools.c:290-292). *)
Definition SHRT_MAX : Z := 32767.

(** Size of the scratch array [int flist[301]], src/tools.c:311. *)
Definition FLIST : Z := 301.

(** The store [flist[flix++] = x], src/tools.c:324,325,329. The scratch array
    is represented by the list of its first [flix] entries; a store past the
    end of the array is UB. *)
Definition fpush (fl : list Z) (x : Z) : outcome (list Z) :=
  if Z.of_nat (length fl) <? FLIST then Ok (fl ++ [x]) else UB.

(** src/tools.c:293-307 [xferFactors]: append the scratch array to the heap
    list (allocated to exactly the new size, so the stores are in bounds).
    [count] is a [short]; a new size that does not fit would wrap it and is
    reported as [UB] (strictly: implementation-defined, followed by an
    inconsistent list). *)
Definition xferFactors (lst fl : list Z) : outcome (list Z) :=
  let newSize := Z.of_nat (length lst) + Z.of_nat (length fl) in
  if newSize <=? SHRT_MAX then Ok (lst ++ fl) else UB.

(** [int] multiplication: signed overflow is UB. *)
Definition imul (a b : Z) : outcome Z :=
  if (-2147483648 <=? a * b) && (a * b <=? INT_MAX) then Ok (a * b) else UB.

(** The loop of [factor], src/tools.c:317-326. State: divisor candidate,
    scratch list, heap list. [fuel] bounds the number of iterations; running
    out of it is reported as [Exit], and shown never to happen. *)
Fixpoint factor_loop (fuel : nat) (num dvsr : Z) (fl lst : list Z)
  : outcome (Z * list Z * list Z) :=
  match fuel with
  | O => Exit
  | S k =>
    do sq <- imul dvsr dvsr ;
    if sq <? num then
      do r <- c_mod num dvsr ;
      if negb (r =? 0) then factor_loop k num (dvsr + 1) fl lst
      else
        do st <- (if Z.of_nat (length fl) =? 300
                  then do l2 <- xferFactors lst fl ; Ok (@nil Z, l2)
                  else Ok (fl, lst)) ;
        do fl1 <- fpush (fst st) dvsr ;
        do q <- c_div num dvsr ;
        do fl2 <- fpush fl1 q ;
        factor_loop k num (dvsr + 1) fl2 (snd st)
    else Ok (dvsr, fl, lst)
  end.

(** src/tools.c:309-332 [factor]. *)
Definition factor (num : Z) : outcome (list Z) :=
  do st <- factor_loop (S (Z.to_nat num)) num 1 [] [] ;
  let '(dvsr, fl, lst) := st in
  do sq <- imul dvsr dvsr ;
  do fl' <- (if sq =? num then fpush fl dvsr else Ok fl) ;
  if 0 <? Z.of_nat (length fl') then xferFactors lst fl' else Ok lst.

(** The stores of [sorted_factor], src/tools.c:346-354: destination index and
    source index, in program order. *)
Definition sorted_stores (len : Z) : list (Z * Z) :=
  map (fun i => (i, 2 * i)) (zseq 0 (Z.to_nat ((len + 1) / 2))) ++
  map (fun t => (len - 1 - t, 1 + 2 * t)) (zseq 0 (Z.to_nat (len / 2))).

Definition in_rng (n i : Z) : bool := (0 <=? i) && (i <? n).

(** src/tools.c:336-359 [sorted_factor]. [junk] is the uninitialised content
    of the malloc'ed array; every load and store is bounds-checked. *)
Definition sorted_factor (junk : mem Z) (num : Z) : outcome (list Z) :=
  do l <- factor num ;
  let len := Z.of_nat (length l) in
  if forallb (fun w => in_rng len (fst w) && in_rng len (snd w)) (sorted_stores len)
  then
    let m := run_writes junk
               (map (fun w => (fst w, nth (Z.to_nat (snd w)) l 0)) (sorted_stores len)) in
    Ok (map m (zseq 0 (length l)))
  else UB.

(** src/tools.c:363-366 [ceil_div]: unsigned 32-bit arithmetic. *)
Definition u32 (z : Z) : Z := z mod 4294967296.
Definition ceil_div (x y : Z) : outcome Z :=
  let x := u32 x in let y := u32 y in
  if y =? 0 then UB else Ok (to_int32 (u32 (x + y - 1) / y)).

(** ** Mathematical content *)

(** Divisors below the square root, as met by the loop. *)
Definition small_divs (num : Z) (a : Z) (n : nat) : list Z :=
  filter (fun d => num mod d =? 0) (zseq a n).

Definition pairs_of (num : Z) (l : list Z) : list Z :=
  flat_map (fun d => [d; num / d]) l.

Lemma length_pairs num l : length (pairs_of num l) = (2 * length l)%nat.
Proof. unfold pairs_of. induction l; cbn [flat_map app length]; lia. Qed.

Lemma pairs_app num a b : pairs_of num (a ++ b) = pairs_of num a ++ pairs_of num b.
Proof. unfold pairs_of; apply flat_map_app. Qed.

(** First [d >= 1] with [d*d >= num]. *)
Definition root_up (num : Z) : Z :=
  if Z.sqrt num * Z.sqrt num =? num then Z.sqrt num else Z.sqrt num + 1.

Lemma root_up_spec num : 1 <= num ->
  1 <= root_up num /\ num <= root_up num * root_up num
  /\ (root_up num - 1) * (root_up num - 1) < num.
Proof.
  intros H. pose proof (Z.sqrt_spec num ltac:(lia)) as (A & B).
  pose proof (Z.sqrt_nonneg num).
  unfold root_up. destruct (_ =? _) eqn:E; nia.
Qed.
(** [factor_loop] visits exactly the divisors below the square root. *)
Lemma factor_loop_ok num : 1 <= num -> (root_up num) * (root_up num) <= INT_MAX ->
  forall n fuel dvsr fl lst, (n < fuel)%nat -> 1 <= dvsr ->
  root_up num = dvsr + Z.of_nat n ->
  Nat.Even (length fl) -> (length fl <= 300)%nat ->
  Z.of_nat (length lst + length fl + 2 * length (small_divs num dvsr n)) <= SHRT_MAX ->
  exists fl' lst', factor_loop fuel num dvsr fl lst = Ok (root_up num, fl', lst')
    /\ lst' ++ fl' = lst ++ fl ++ pairs_of num (small_divs num dvsr n)
    /\ (length fl' <= 300)%nat.
Proof.
  intros Hnum Hsq. destruct (root_up_spec num Hnum) as (R1 & R2 & R3).
  induction n as [|n IH]; intros fuel dvsr fl lst Hf Hd Hr Hev Hfl Hc;
    (destruct fuel as [|fuel]; [lia|]); cbn [factor_loop].
  - replace dvsr with (root_up num) by lia. unfold imul.
    replace (_ && _) with true by (unfold INT_MAX in *; lia). cbn [obind].
    replace (_ <? _) with false by lia.
    exists fl, lst. split; [reflexivity|]. split; [|assumption].
    unfold small_divs, pairs_of; cbn [zseq filter flat_map]. now rewrite app_nil_r.
  - assert (Hlt : dvsr * dvsr < num) by nia.
    unfold imul. replace (_ && _) with true by (unfold INT_MAX in *; nia). cbn [obind].
    replace (_ <? _) with true by lia.
    unfold c_mod, c_div. replace (dvsr =? 0) with false by lia. cbn [obind].
    rewrite rem_mod_nonneg, quot_div_nonneg by lia.
    assert (Es : small_divs num dvsr (S n) = if num mod dvsr =? 0
              then dvsr :: small_divs num (dvsr + 1) n else small_divs num (dvsr + 1) n) by reflexivity.
    rewrite Es in *. clear Es.
    destruct (num mod dvsr =? 0) eqn:E; cbn [negb].
    + cbn [length] in Hc.
      assert (St : exists fl0 lst0,
        (if Z.of_nat (length fl) =? 300
                  then do l2 <- xferFactors lst fl ; Ok (@nil Z, l2)
                  else Ok (fl, lst)) = Ok (fl0, lst0) /\ lst0 ++ fl0 = lst ++ fl
        /\ (length fl0 <= 298)%nat /\ Nat.Even (length fl0)
        /\ (length lst0 + length fl0 = length lst + length fl)%nat).
      { destruct (Z.of_nat (length fl) =? 300) eqn:E3.
        - exists [], (lst ++ fl). unfold xferFactors.
          replace (_ <=? _) with true by lia. cbn [obind].
          split; [reflexivity|]. split; [apply app_nil_r|]. split; [cbn; lia|].
          split; [exists 0%nat; reflexivity|]. rewrite app_length; cbn; lia.
        - exists fl, lst. split; [reflexivity|]. split; [reflexivity|].
          split; [|split; [assumption|lia]].
          destruct Hev as (h & Hh). lia. }
      destruct St as (fl0 & lst0 & -> & Happ & Hl0 & Hev0 & Hlen). cbn [obind fst snd].
      unfold fpush at 1. unfold FLIST. replace (_ <? _) with true by lia. cbn [obind].
      unfold fpush at 1. unfold FLIST. rewrite app_length; cbn [length].
      replace (_ <? _) with true by lia. cbn [obind].
      destruct (IH fuel (dvsr + 1) ((fl0 ++ [dvsr]) ++ [num / dvsr]) lst0) as (fl' & lst' & A & B & C).
      * lia.
      * lia.
      * lia.
      * rewrite !app_length; cbn [length]. destruct Hev0 as (h & Hh). exists (S h). lia.
      * rewrite !app_length; cbn [length]; lia.
      * rewrite !app_length; cbn [length]. lia.
      * exists fl', lst'. split; [exact A|]. split; [|exact C].
        rewrite B. unfold pairs_of; cbn [flat_map]. rewrite <- !app_assoc. cbn [app].
        rewrite !app_assoc. rewrite Happ. rewrite <- !app_assoc. reflexivity.
    + destruct (IH fuel (dvsr + 1) fl lst) as (fl' & lst' & A & B & C); try assumption; try lia.
      exists fl', lst'. auto.
Qed.

(** The divisor list in the order the C code produces it. *)
Definition divisor_list (num : Z) : list Z :=
  pairs_of num (small_divs num 1 (Z.to_nat (root_up num - 1))) ++
  (if root_up num * root_up num =? num then [root_up num] else []).

Definition smalls (num : Z) : list Z := small_divs num 1 (Z.to_nat (root_up num - 1)).

Lemma in_smalls num d : 1 <= num -> (In d (smalls num) <-> 0 < d /\ (d | num) /\ d * d < num).
Proof.
  intros Hn. destruct (root_up_spec num Hn) as (R1 & R2 & R3).
  unfold smalls, small_divs. rewrite filter_In, in_zseq. split.
  - intros (A & B). split; [lia|]. split; [apply Z.mod_divide; lia|]. nia.
  - intros (A & B & C). split.
    + assert (d < root_up num); [|lia]. nia.
    + apply Z.eqb_eq. apply Z.mod_divide; [lia|assumption].
Qed.

Lemma NoDup_smalls num : NoDup (smalls num).
Proof. apply NoDup_filter, NoDup_zseq. Qed.

Lemma in_pairs num l d : In d (pairs_of num l) <-> exists s, In s l /\ (d = s \/ d = num / s).
Proof.
  unfold pairs_of. rewrite in_flat_map. split.
  - intros (s & A & B). exists s. split; [assumption|]. cbn in B. intuition.
  - intros (s & A & B). exists s. split; [assumption|]. cbn. intuition.
Qed.

Lemma in_divisor_list num d : 1 <= num ->
  (In d (divisor_list num) <-> 0 < d /\ (d | num)).
Proof.
  intros Hn. destruct (root_up_spec num Hn) as (R1 & R2 & R3).
  unfold divisor_list. fold (smalls num). rewrite in_app_iff, in_pairs. split.
  - intros [(s & A & [-> | ->]) | H].
    + apply in_smalls in A; tauto.
    + apply in_smalls in A; [|assumption]. destruct A as (A & (k & Hk) & C).
      assert (E : num / s = k) by (subst num; apply Z.div_mul; lia).
      rewrite E. split; [nia|]. exists s. lia.
    + destruct (_ =? _) eqn:E; [|easy]. destruct H as [<- | []].
      split; [lia|]. exists (root_up num). lia.
  - intros (A & B).
    destruct (Z_lt_le_dec (d * d) num) as [Hl|Hl].
    + left. exists d. split; [apply in_smalls; auto|]. now left.
    + destruct B as (k & Hk).
      destruct (Z.eq_dec (d * d) num) as [He|He].
      * right. assert (root_up num = d) by nia.
        replace (root_up num * root_up num =? num) with true by nia. now left.
      * left. exists k. assert (0 < k) by nia. split.
        -- apply in_smalls; [assumption|]. split; [lia|]. split; [exists d; lia|]. nia.
        -- right. subst num. rewrite Z.mul_comm, Z.div_mul; lia.
Qed.

(** ** Sortedness *)
Definition mid (num : Z) : list Z :=
  if root_up num * root_up num =? num then [root_up num] else [].
Definition sorted_list (num : Z) : list Z :=
  smalls num ++ mid num ++ rev (map (Z.div num) (smalls num)).

Lemma divisor_list_eq num : divisor_list num = pairs_of num (smalls num) ++ mid num.
Proof. reflexivity. Qed.

Lemma sorted_zseq n : forall a, StronglySorted Z.lt (zseq a n).
Proof.
  induction n as [|n IH]; intros a; cbn [zseq]; constructor; [apply IH|].
  apply Forall_forall. intros x Hx. rewrite in_zseq in Hx. lia.
Qed.
Lemma sorted_filter (f : Z -> bool) l : StronglySorted Z.lt l -> StronglySorted Z.lt (filter f l).
Proof.
  induction 1 as [|a l Hs IH Hf]; cbn [filter]; [constructor|].
  destruct (f a); [|assumption]. constructor; [assumption|].
  rewrite Forall_forall in *. intros x Hx. apply filter_In in Hx. apply Hf, Hx.
Qed.
Lemma sorted_app l m : StronglySorted Z.lt l -> StronglySorted Z.lt m ->
  (forall x y, In x l -> In y m -> x < y) -> StronglySorted Z.lt (l ++ m).
Proof.
  induction 1 as [|a l Hs IH Hf]; intros Hm H; cbn [app]; [assumption|].
  constructor.
  - apply IH; [assumption|]. intros x y Hx Hy. apply H; [now right|assumption].
  - rewrite Forall_forall in *. intros x Hx. apply in_app_iff in Hx.
    destruct Hx; [now apply Hf|]. apply H; [now left|assumption].
Qed.
Lemma sorted_rev_dec (f : Z -> Z) l : StronglySorted Z.lt l ->
  (forall x y, In x l -> In y l -> x < y -> f y < f x) ->
  StronglySorted Z.lt (rev (map f l)).
Proof.
  induction 1 as [|a l Hs IH Hf]; intros H; cbn [map rev]; [constructor|].
  apply sorted_app.
  - apply IH. intros x y Hx Hy. apply H; now right.
  - repeat constructor.
  - intros x y Hx [<- | []]. rewrite <- in_rev, in_map_iff in Hx.
    destruct Hx as (z & <- & Hz). rewrite Forall_forall in Hf.
    apply H; [now left | now right | now apply Hf].
Qed.
Lemma sorted_NoDup l : StronglySorted Z.lt l -> NoDup l.
Proof.
  induction 1 as [|a l Hs IH Hf]; constructor; [|assumption].
  intros Hin. rewrite Forall_forall in Hf. specialize (Hf a Hin). lia.
Qed.

Lemma sorted_smalls num : StronglySorted Z.lt (smalls num).
Proof. apply sorted_filter, sorted_zseq. Qed.

Lemma small_cofactor num s : 1 <= num -> In s (smalls num) ->
  0 < s /\ s * (num / s) = num /\ s * s < num.
Proof.
  intros Hn Hs. apply in_smalls in Hs; [|assumption]. destruct Hs as (A & (k & Hk) & C).
  split; [lia|]. split; [|lia]. rewrite Hk at 1. rewrite Z.div_mul by lia. lia.
Qed.

Lemma cof_dec x y a b n : 1 <= n -> 0 < x -> x < y -> x * a = n -> y * b = n -> b < a.
Proof. intros. assert (0 < a) by nia. assert (0 < b) by nia. nia. Qed.
Lemma cof_cross x y b n : 1 <= n -> 0 < x -> 0 < y -> x * x < n -> y * y < n -> y * b = n -> x < b.
Proof. intros. assert (0 < b) by nia. assert (y < b) by nia. nia. Qed.
Lemma cof_root r y b n : 1 <= n -> 0 < y -> 1 <= r -> r * r = n -> y * y < n -> y * b = n -> r < b.
Proof. intros. assert (0 < b) by nia. assert (y < r) by nia. nia. Qed.
Lemma root_gt r x n : 0 < x -> 1 <= r -> r * r = n -> x * x < n -> x < r.
Proof. intros. nia. Qed.

Lemma sorted_list_sorted num : 1 <= num -> StronglySorted Z.lt (sorted_list num).
Proof.
  intros Hn. unfold sorted_list. apply sorted_app.
  - apply sorted_smalls.
  - apply sorted_app.
    + unfold mid. destruct (_ =? _); repeat constructor.
    + apply sorted_rev_dec; [apply sorted_smalls|].
      intros x y Hx Hy Hxy. destruct (small_cofactor num x Hn Hx) as (A & B & C).
      destruct (small_cofactor num y Hn Hy) as (A' & B' & C').
      apply (cof_dec x y _ _ num); assumption.
    + intros x y Hx Hy. rewrite <- in_rev, in_map_iff in Hy. destruct Hy as (s & <- & Hs).
      unfold mid in Hx. destruct (_ =? _) eqn:E; [|easy]. destruct Hx as [<- | []].
      destruct (small_cofactor num s Hn Hs) as (A & B & C).
      destruct (root_up_spec num Hn) as (R & _). apply (cof_root _ s _ num); auto. lia.
  - intros x y Hx Hy. destruct (small_cofactor num x Hn Hx) as (A & B & C).
    apply in_app_iff in Hy. destruct Hy as [Hy|Hy].
    + unfold mid in Hy. destruct (_ =? _) eqn:E; [|easy]. destruct Hy as [<- | []].
      destruct (root_up_spec num Hn) as (R & _). apply (root_gt _ x num); auto. lia.
    + rewrite <- in_rev, in_map_iff in Hy. destruct Hy as (s & <- & Hs).
      destruct (small_cofactor num s Hn Hs) as (A' & B' & C').
      apply (cof_cross x s _ num); assumption.
Qed.

Lemma in_sorted_list num d : In d (sorted_list num) <-> In d (divisor_list num).
Proof.
  unfold sorted_list. rewrite divisor_list_eq, !in_app_iff, <- in_rev, in_pairs, in_map_iff.
  split.
  - intros [H | [H | (s & <- & H)]].
    + left. exists d. auto.
    + now right.
    + left. exists s. auto.
  - intros [(s & A & [-> | ->]) | H].
    + now left.
    + right. right. exists s. auto.
    + right. now left.
Qed.

Lemma length_sorted_list num : length (sorted_list num) = length (divisor_list num).
Proof.
  unfold sorted_list. rewrite divisor_list_eq, !app_length, length_pairs, rev_length, map_length. lia.
Qed.

Lemma NoDup_divisor_list num : 1 <= num -> NoDup (divisor_list num).
Proof.
  intros Hn. apply NoDup_incl_NoDup with (sorted_list num).
  - apply sorted_NoDup, sorted_list_sorted, Hn.
  - rewrite length_sorted_list. lia.
  - intros d Hd. now apply in_sorted_list.
Qed.

Lemma divisor_list_count num : 1 <= num <= INT_MAX ->
  Z.of_nat (length (divisor_list num)) <= 4551.
Proof.
  intros Hn. etransitivity; [|apply (dcount_int num Hn)].
  unfold dcount. apply inj_le. apply NoDup_incl_length.
  - apply NoDup_divisor_list; lia.
  - intros d Hd. apply in_divisors; [lia|]. apply in_divisor_list in Hd; [exact Hd|lia].
Qed.

(** The largest argument for which [dvsr*dvsr] stays in [int] range. *)
Definition FACTOR_MAX : Z := 2147395600. (* 46340^2 *)

Lemma root_up_int num : 1 <= num <= FACTOR_MAX -> root_up num * root_up num <= INT_MAX.
Proof.
  intros H. unfold FACTOR_MAX, INT_MAX in *. destruct (root_up_spec num ltac:(lia)) as (A & B & C).
  assert (root_up num <= 46340); [|nia].
  destruct (Z_le_gt_dec (root_up num) 46340); [assumption|]. nia.
Qed.

Lemma factor_ok num : 1 <= num <= FACTOR_MAX -> factor num = Ok (divisor_list num).
Proof.
  intros Hn. pose proof (root_up_int num Hn) as Hr.
  assert (HI : 1 <= num <= INT_MAX) by (unfold FACTOR_MAX, INT_MAX in *; lia).
  pose proof (divisor_list_count num HI) as Hc.
  rewrite divisor_list_eq, app_length, length_pairs in Hc.
  destruct (root_up_spec num ltac:(lia)) as (A & B & C).
  unfold factor.
  assert (Hroot : root_up num <= num).
  { destruct (Z_le_gt_dec (root_up num) num); [assumption|]. nia. }
  destruct (factor_loop_ok num ltac:(lia) Hr (Z.to_nat (root_up num - 1))
              (S (Z.to_nat num)) 1 [] []) as (fl & lst & E & Happ & Hfl).
  - lia.
  - lia.
  - lia.
  - exists 0%nat; reflexivity.
  - cbn; lia.
  - cbn [length]. fold (smalls num). unfold SHRT_MAX. lia.
  - rewrite E. cbn [obind]. unfold imul.
    replace (_ && _) with true by (unfold INT_MAX in *; lia). cbn [obind].
    fold (smalls num) in Happ. cbn [app] in Happ.
    assert (Hl : length (lst ++ fl) = length (pairs_of num (smalls num))) by now rewrite Happ.
    rewrite app_length, length_pairs in Hl.
    rewrite divisor_list_eq, <- Happ. unfold mid in *.
    destruct (root_up num * root_up num =? num) eqn:Em.
    + unfold fpush, FLIST. replace (_ <? _) with true by lia. cbn [obind].
      rewrite app_length. cbn [length] in *. replace (0 <? _) with true by lia.
      unfold xferFactors, SHRT_MAX. rewrite app_length. cbn [length].
      replace (_ <=? _) with true by lia. now rewrite app_assoc.
    + cbn [obind]. rewrite app_nil_r. destruct (0 <? _) eqn:E0.
      * unfold xferFactors, SHRT_MAX. replace (_ <=? _) with true by lia. reflexivity.
      * destruct fl; [now rewrite app_nil_r | cbn [length] in E0; lia].
Qed.

(** ** Rearrangement *)
Lemma nth_pairs_even num l i : (i < length l)%nat -> nth (2 * i) (pairs_of num l) 0 = nth i l 0.
Proof.
  revert i; induction l as [|a l IH]; intros i Hi; [cbn in Hi; lia|].
  destruct i; [reflexivity|]. replace (2 * S i)%nat with (S (S (2 * i))) by lia.
  cbn [pairs_of flat_map app nth]. apply IH. cbn [length] in Hi; lia.
Qed.
Lemma nth_pairs_odd num l i : (i < length l)%nat ->
  nth (2 * i + 1) (pairs_of num l) 0 = num / nth i l 0.
Proof.
  revert i; induction l as [|a l IH]; intros i Hi; [cbn in Hi; lia|].
  destruct i; [reflexivity|]. replace (2 * S i + 1)%nat with (S (S (2 * i + 1))) by lia.
  cbn [pairs_of flat_map app nth]. apply IH. cbn [length] in Hi; lia.
Qed.

Lemma sorted_factor_ok junk num : 1 <= num <= FACTOR_MAX ->
  sorted_factor junk num = Ok (sorted_list num).
Proof.
  intros Hn. unfold sorted_factor. rewrite (factor_ok num Hn). cbn [obind].
  set (l := divisor_list num). set (len := Z.of_nat (length l)).
  set (s := smalls num). set (k := length s).
  assert (Hlen : len = Z.of_nat (2 * k + length (mid num))).
  { unfold len, l. rewrite divisor_list_eq, app_length, length_pairs. reflexivity. }
  assert (Hmid : (length (mid num) <= 1)%nat) by (unfold mid; destruct (_ =? _); cbn; lia).
  assert (H2 : len / 2 = Z.of_nat k /\ (len + 1) / 2 = Z.of_nat (k + length (mid num))).
  { split.
    - symmetry. apply Z.div_unique with (r := Z.of_nat (length (mid num))); lia.
    - symmetry. apply Z.div_unique with (r := 1 - Z.of_nat (length (mid num))); lia. }
  destruct H2 as (Hd1 & Hd2).
  replace (forallb _ _) with true.
  2:{ symmetry. apply forallb_forall. intros [a b] Hab. unfold sorted_stores in Hab.
      rewrite in_app_iff, !in_map_iff in Hab. unfold in_rng. cbn [fst snd].
      destruct Hab as [(x & E & Hx) | (x & E & Hx)]; apply pair_equal_spec in E; destruct E as (<- & <-);
        rewrite in_zseq in Hx; rewrite ?Hd1, ?Hd2 in Hx; clear - Hx Hlen Hmid; lia. }
  f_equal. set (m := run_writes _ _).
  assert (Hm1 : forall i, (i < k + length (mid num))%nat ->
            m (Z.of_nat i) = nth (2 * i) l 0).
  { intros i Hi. unfold m. apply run_writes_in.
    - exists (nth (2 * i) l 0). unfold sorted_stores. rewrite map_app, in_app_iff. left.
      rewrite map_map. apply in_map_iff. exists (Z.of_nat i). cbn [fst snd].
      split; [|apply in_zseq; lia]. f_equal. f_equal. lia.
    - intros w Hw. unfold sorted_stores in Hw. rewrite map_app, in_app_iff, !map_map, !in_map_iff in Hw.
      cbn [fst snd] in Hw. destruct Hw as [(x & E & Hx) | (x & E & Hx)]; apply pair_equal_spec in E; destruct E as (E1 & <-);
        rewrite in_zseq in Hx.
      + f_equal. lia.
      + exfalso. lia. }
  assert (Hm2 : forall t, (t < k)%nat ->
            m (len - 1 - Z.of_nat t) = nth (2 * t + 1) l 0).
  { intros t Ht. unfold m. apply run_writes_in.
    - exists (nth (2 * t + 1) l 0). unfold sorted_stores. rewrite map_app, in_app_iff. right.
      rewrite map_map. apply in_map_iff. exists (Z.of_nat t). cbn [fst snd].
      split; [|apply in_zseq; lia]. f_equal. f_equal. lia.
    - intros w Hw. unfold sorted_stores in Hw. rewrite map_app, in_app_iff, !map_map, !in_map_iff in Hw.
      cbn [fst snd] in Hw. destruct Hw as [(x & E & Hx) | (x & E & Hx)]; apply pair_equal_spec in E; destruct E as (E1 & <-);
        rewrite in_zseq in Hx.
      + exfalso. lia.
      + f_equal. lia. }
  clearbody m.
  apply nth_ext with (d := 0) (d' := 0).
  { rewrite map_length, zseq_length. unfold l. now rewrite length_sorted_list. }
  intros i Hi. rewrite map_length, zseq_length in Hi.
  assert (Hll : length l = (2 * k + length (mid num))%nat) by lia.
  rewrite nth_indep with (d' := m 0) by (rewrite map_length, zseq_length; assumption).
  rewrite map_nth.
  assert (Hz : nth i (zseq 0 (length l)) 0 = Z.of_nat i).
  { pose proof (nth_error_zseq 0 (length l) i Hi) as Hz. apply nth_error_nth with (d := 0) in Hz.
    rewrite Hz. lia. }
  rewrite Hz. unfold sorted_list. fold s.
  destruct (lt_dec i k) as [H1|H1].
  - rewrite Hm1 by lia. rewrite app_nth1 by (fold k; lia).
    unfold l. rewrite divisor_list_eq, app_nth1 by (rewrite length_pairs; fold s k; lia).
    apply nth_pairs_even. fold s k; lia.
  - rewrite app_nth2 by (fold k; lia). fold k.
    destruct (lt_dec i (k + length (mid num))) as [H2|H2].
    + rewrite Hm1 by lia. rewrite app_nth1 by lia.
      unfold l. rewrite divisor_list_eq, app_nth2 by (rewrite length_pairs; fold s k; lia).
      rewrite length_pairs. fold s k. f_equal. lia.
    + rewrite app_nth2 by lia.
      rewrite rev_nth by (rewrite map_length; fold k; lia). rewrite map_length. fold k.
      set (t := (k - S (i - k - length (mid num)))%nat).
      replace (Z.of_nat i) with (len - 1 - Z.of_nat t) by lia.
      rewrite Hm2 by lia. unfold l.
      rewrite divisor_list_eq, app_nth1 by (rewrite length_pairs; fold s k; lia).
      fold s. rewrite nth_pairs_odd by (fold k; lia).
      rewrite (nth_indep (map (Z.div num) s) 0 (num / 0)) by (rewrite map_length; fold k; lia).
      now rewrite (map_nth (Z.div num)).
Qed.

(** Unsigned arithmetic does not interfere for arguments in [int] range. *)
Lemma ceil_div_ok x y : 0 <= x <= INT_MAX -> 1 <= y <= INT_MAX ->
  ceil_div x y = Ok ((x + y - 1) / y).
Proof.
  intros Hx Hy. unfold INT_MAX in *. unfold ceil_div, u32.
  rewrite !(Z.mod_small x), !(Z.mod_small y) by lia.
  replace (y =? 0) with false by lia. f_equal.
  rewrite Z.mod_small by lia. unfold to_int32.
  assert (0 <= (x + y - 1) / y) by (apply Z.div_pos; lia).
  assert ((x + y - 1) / y <= 2147483647).
  { apply Z.div_le_upper_bound; [lia|]. nia. }
  rewrite Z.mod_small by lia. replace (_ <? _) with true by lia. reflexivity.
Qed.
