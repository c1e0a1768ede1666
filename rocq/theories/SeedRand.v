(** Model of [SeededRandVec] (src/tools.c:967-993) and of the offsets used by
    [Init_orbital] (src/orbitalElecDensInit.c:378-426). *)
From Coq Require Import ZArith List Lia Bool ZifyBool ZifyNat.
From Verif Require Import CBase Mem Factors.
Import ListNotations.
Local Open Scope Z_scope.

(** [int] addition: UB on overflow. *)
Definition iadd (a b : Z) : outcome Z :=
  if (-2147483648 <=? a + b) && (a + b <=? INT_MAX) then Ok (a + b) else UB.

Fixpoint osequence {A} (l : list (outcome A)) : outcome (list A) :=
  match l with
  | [] => Ok []
  | x :: l' => do a <- x ; do r <- osequence l' ; Ok (a :: r)
  end.

(** The local box: inclusive vertices as in DMVert[6]. *)
Record box := Box { xs : Z; xe : Z; ys : Z; ye : Z; zs : Z; ze : Z }.

(** src/tools.c:986-988: the seed of one point. *)
Definition seed_of (gx gy off ig jg kg : Z) : outcome Z :=
  do shift_gz <- imul gx gy ;
  do a <- imul kg shift_gz ;
  do b <- imul jg gx ;
  do c <- iadd a b ;
  do d <- iadd c ig ;
  do e <- iadd d 1 ;
  iadd e off.

(** src/tools.c:967-993: the stores performed, in order.  [rnd s] is the value
    [rand_min + (rand_max-rand_min)*rand()/RAND_MAX] after [srand(s)]: a
    function of the seed (ISO C 7.22.2.2). *)
Definition SeededRandVec {V} (rnd : Z -> V) (D : box) (gx gy off : Z) : outcome (list (Z * V)) :=
  let nx := xe D - xs D + 1 in
  let ny := ye D - ys D + 1 in
  let nz := ze D - zs D + 1 in
  osequence (loop3 nz ny nx (fun k j i =>
    do s <- seed_of gx gy off (xs D + i) (ys D + j) (zs D + k) ;
    Ok (k * (nx * ny) + j * nx + i, rnd s))).

(** src/orbitalElecDensInit.c:382-385 (kg = 0 there) and 413-420: offset of
    the orbital (k-point kg, band ng, spinor sg). *)
Definition orbital_offset (Nd Nspinor Nstates kg ng sg : Z) : outcome Z :=
  do Ndsp <- imul Nd Nspinor ;
  do size_kg <- imul Ndsp Nstates ;
  do a <- imul kg size_kg ;
  do b <- imul ng Ndsp ;
  do c <- imul sg Nd ;
  do d <- iadd a b ;
  iadd d c.

(** ** Lemmas *)
Lemma imul_in a b : -2147483648 <= a * b <= INT_MAX -> imul a b = Ok (a * b).
Proof. intros H. unfold imul. replace (_ && _) with true by lia. reflexivity. Qed.
Lemma iadd_in a b : -2147483648 <= a + b <= INT_MAX -> iadd a b = Ok (a + b).
Proof. intros H. unfold iadd. replace (_ && _) with true by lia. reflexivity. Qed.

Lemma seed_of_ok gx gy gz off ig jg kg :
  0 <= ig < gx -> 0 <= jg < gy -> 0 <= kg < gz -> 0 <= off ->
  gx * gy * gz + off <= INT_MAX ->
  seed_of gx gy off ig jg kg = Ok (idx3 gx gy ig jg kg + 1 + off).
Proof.
  intros Hi Hj Hk Ho Hb. unfold seed_of, idx3.
  assert (P1 : 0 <= gx * gy) by nia.
  assert (P2 : gx * gy <= gx * gy * gz) by nia.
  assert (P3 : 0 <= kg * (gx * gy)) by nia.
  assert (P4 : 0 <= jg * gx) by nia.
  assert (P5 : jg * gx + ig < gx * gy) by nia.
  assert (P6 : kg * (gx * gy) + gx * gy <= gx * gy * gz) by nia.
  unfold INT_MAX in *.
  rewrite imul_in by (unfold INT_MAX; lia). cbn [obind].
  rewrite imul_in by (unfold INT_MAX; lia). cbn [obind].
  rewrite imul_in by (unfold INT_MAX; lia). cbn [obind].
  rewrite iadd_in by (unfold INT_MAX; lia). cbn [obind].
  rewrite iadd_in by (unfold INT_MAX; lia). cbn [obind].
  rewrite iadd_in by (unfold INT_MAX; lia). cbn [obind].
  rewrite iadd_in by (unfold INT_MAX; lia).
  f_equal. ring.
Qed.

Lemma osequence_ok {A} (l : list (outcome A)) (f : list A) :
  map Ok f = l -> osequence l = Ok f.
Proof.
  revert l; induction f as [|a f IH]; intros l <-; [reflexivity|]. cbn.
  rewrite (IH (map Ok f) eq_refl). reflexivity.
Qed.

Lemma loop3_map {A B} nz ny nx (f : Z -> Z -> Z -> A) (g : A -> B) :
  map g (loop3 nz ny nx f) = loop3 nz ny nx (fun k j i => g (f k j i)).
Proof.
  unfold loop3, loop1.
  induction (zseq 0 (Z.to_nat nz)) as [|k ks IHk]; cbn [flat_map map]; [reflexivity|].
  rewrite map_app, IHk. f_equal. clear.
  induction (zseq 0 (Z.to_nat ny)) as [|j js IHj]; cbn [flat_map map]; [reflexivity|].
  rewrite map_app, IHj, map_map. reflexivity.
Qed.
Lemma flat_map_ext_in' {A B} (f g : A -> list B) l :
  (forall x, In x l -> f x = g x) -> flat_map f l = flat_map g l.
Proof.
  induction l as [|x l IH]; intros H; [reflexivity|]. cbn. rewrite (H x) by now left.
  f_equal. apply IH. intros y Hy; apply H; now right.
Qed.
Lemma loop3_ext {B} nz ny nx (f g : Z -> Z -> Z -> B) :
  (forall k j i, 0 <= k < nz -> 0 <= j < ny -> 0 <= i < nx -> f k j i = g k j i) ->
  loop3 nz ny nx f = loop3 nz ny nx g.
Proof.
  intros H. unfold loop3, loop1.
  apply flat_map_ext_in'; intros k Hk. apply flat_map_ext_in'; intros j Hj.
  apply map_ext_in. intros i Hi. rewrite in_zseq in *. apply H; lia.
Qed.

Lemma seeded_writes {V} (rnd : Z -> V) D gx gy gz off :
  0 <= xs D -> xe D < gx -> 0 <= ys D -> ye D < gy -> 0 <= zs D -> ze D < gz ->
  0 <= off -> gx * gy * gz + off <= INT_MAX ->
  let nx := xe D - xs D + 1 in let ny := ye D - ys D + 1 in let nz := ze D - zs D + 1 in
  SeededRandVec rnd D gx gy off = Ok (loop3 nz ny nx (fun k j i =>
    (idx3 nx ny i j k, rnd (idx3 gx gy (xs D + i) (ys D + j) (zs D + k) + 1 + off)))).
Proof.
  intros Hx1 Hx2 Hy1 Hy2 Hz1 Hz2 Ho Hb nx ny nz. unfold SeededRandVec. fold nx ny nz.
  apply osequence_ok. rewrite loop3_map. apply loop3_ext. intros k j i Hk Hj Hi.
  rewrite (seed_of_ok gx gy gz) by (unfold nx, ny, nz in *; lia). cbn [obind].
  do 2 f_equal. unfold idx3. ring.
Qed.
