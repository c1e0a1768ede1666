(** Model of the DFT-D3 correction: /repo/src/xc/vdW/d3/d3correction.c:30-55
    (numbers of images), 57-94 (coordination numbers), 127-183 (C6 and its
    derivatives), 190-646 (energy, gradient and virial), and
    /repo/src/xc/vdW/d3/d3forceStress.c:20-97 (stress), 99-103 (forces).

    Doubles are real numbers; rounding is ignored, and sums are written without
    their order.  Positions are Cartesian (the code converts them before and
    after).  The tables of [set_D3_coefficients], [copyC6] and [find_r0ab] are
    parameters.  [d3_getC6] and [selfAtomC6] (96-125, 249-257) have no effect and
    are left out. *)
From Coq Require Import ZArith Reals List Lia Bool.
From Verif Require Import CBase Nloc VnlOp.
Import ListNotations.
Local Open Scope R_scope.

Definition vec := (R * R * R)%type.
Definition vadd (u v : vec) : vec := let '(a, b, c) := u in let '(a', b', c') := v in (a + a', b + b', c + c').
Definition vsub (u v : vec) : vec := let '(a, b, c) := u in let '(a', b', c') := v in (a - a', b - b', c - c').
Definition vscal (k : R) (u : vec) : vec := let '(a, b, c) := u in (k * a, k * b, k * c).
Definition n2 (u : vec) : R := let '(a, b, c) := u in a ^ 2 + b ^ 2 + c ^ 2.
(** Component [c] of a vector: 0, 1 or 2. *)
Definition comp (u : vec) (c : Z) : R :=
  let '(x, y, z) := u in if (c =? 0)%Z then x else if (c =? 1)%Z then y else z.
Notation rsum := (ksum 0 Rplus).

(** An image cell and the rows of [lattice]. *)
Definition img := (Z * Z * Z)%type.
Definition lat := (vec * vec * vec)%type.

(** The images in the order of the triple loops
    (d3correction.c:62-73, 280-289, 364-376). *)
Definition box (a a' b b' c c' : Z) : list img :=
  flat_map (fun x => flat_map (fun y => map (fun z => (x, y, z)) (zrange c c')) (zrange b b')) (zrange a a').
Definition imgs (n : img) : list img := let '(a, b, c) := n in box (- a) a (- b) b (- c) c.

(** The vector of an image (65-67, 283-285). *)
Definition ivec (l : lat) (m : img) : vec :=
  let '(l0, l1, l2) := l in let '(x, y, z) := m in
  vadd (vadd (vscal (IZR x) l0) (vscal (IZR y) l1)) (vscal (IZR z) l2).

(** [imageNumberEG] (259) and [d3_count_image] (643-646). *)
Definition numimg (n : img) : Z := let '(a, b, c) := n in ((a * 2 + 1) * (b * 2 + 1) * (c * 2 + 1))%Z.
Definition count_image (m n : img) : Z :=
  let '(x, y, z) := m in let '(a, b, c) := n in
  ((x + a) * (2 * b + 1) * (2 * c + 1) + (y + b) * (2 * c + 1) + (z + c))%Z.
Definition isub (m' m : img) : img := let '(x', y', z') := m' in let '(x, y, z) := m in (x' - x, y' - y, z' - z)%Z.

(** ** Numbers of images (30-55) *)
Definition cross (u v : vec) : vec :=
  let '(s1, s2, s3) := u in let '(t1, t2, t3) := v in (s2 * t3 - t2 * s3, s3 * t1 - t3 * s1, s1 * t2 - t1 * s2).
Definition dotv (u v : vec) : R := let '(a, b, c) := u in let '(a', b', c') := v in a * a' + b * b' + c * c'.
(** [solve_cos] (47-55). *)
Definition solve_cos (f s t : vec) : R := dotv f (cross s t) / sqrt (n2 (cross s t)).
(** One entry of [nImage] (37-43); [floor x] is [up x - 1]. *)
Definition n_image (rlimit : R) (periodic : bool) (f s t : vec) : Z :=
  if periodic then (up (sqrt rlimit / solve_cos f s t) - 1 + 1)%Z else 0%Z.
Definition set_criteria (rlimit : R) (bc : bool * bool * bool) (l : lat) : img :=
  let '(l0, l1, l2) := l in let '(p0, p1, p2) := bc in
  (n_image rlimit p0 l0 l1 l2, n_image rlimit p1 l1 l2 l0, n_image rlimit p2 l2 l0 l1).

Definition K1 : R := 16.
Definition K3 : R := -4.

(** ** C6 of a pair (127-183): value and derivatives with respect to the two
    coordination numbers.  A sample is (C6, CN_i, CN_j). *)
Definition sample := (R * R * R)%type.
Definition s_c6 (s : sample) : R := fst (fst s).
Definition sdist (ci cj : R) (s : sample) : R := (snd (fst s) - ci) ^ 2 + (snd s - cj) ^ 2.
Definition weight (ci cj : R) (s : sample) : R := exp (K3 * sdist ci cj s).
Definition nearest (ci cj : R) (ss : list sample) : R :=
  snd (fold_left (fun rc s => if Rlt_dec (sdist ci cj s) (fst rc) then (sdist ci cj s, s_c6 s) else rc)
    ss (10 ^ 20, - / 10 ^ 20)).
Definition tiny : R := / 10 ^ 99.
Definition c6_pair (all : list sample) (ci cj : R) : R * R * R :=
  let ss := filter (fun s => if Rlt_dec 0 (s_c6 s) then true else false) all in
  let W := rsum (map (weight ci cj) ss) in
  let T := rsum (map (fun s => weight ci cj s * s_c6 s) ss) in
  let dwI s := weight ci cj s * 2 * K3 * (ci - snd (fst s)) in
  let dwJ s := weight ci cj s * 2 * K3 * (cj - snd s) in
  let dTI := rsum (map (fun s => dwI s * s_c6 s) ss) in
  let dWI := rsum (map dwI ss) in
  let dTJ := rsum (map (fun s => dwJ s * s_c6 s) ss) in
  let dWJ := rsum (map dwJ ss) in
  if Rlt_dec tiny W then (T / W, (dTI * W - dWI * T) / W ^ 2, (dTJ * W - dWJ * T) / W ^ 2)
  else (nearest ci cj ss, 0, 0).

(** [d3_dAng] (634-640). *)
Definition dAng (ab bc ac D : R) : R :=
  - (3 / 8) * (ab * ab * ab + ab * ab * (bc + ac) + ab * (3 * bc * bc + 2 * bc * ac + 3 * ac * ac)
    - 5 * (bc - ac) * (bc - ac) * (bc + ac)) / (sqrt ab * Rpower D (5 / 2)).

Section D3.
(** [n_atom]; [atomScaledRcov], [atomScaledR2R4], [find_r0ab] and the samples of
    [c6ab] for the elements of two atoms; [d3Rs6], [d3S18], [d3Cn_thr],
    [d3Rthr]; [nImageCN], [nImageEG]. *)
Variables (n : Z) (rcov r2r4 : Z -> R) (r0ab : Z -> Z -> R) (smp : Z -> Z -> list sample).
Variables (rs6 s8 cn_thr rthr : R) (nCN nEG : img).

Section CONF.
Variables (pos : Z -> vec) (l : lat).

Notation atoms := (zrange 0 (n - 1)).

(** [atomCN[i]] (76-92). *)
Definition cn_term (i j : Z) (m : img) : R :=
  let dist := sqrt (n2 (vsub (vsub (pos i) (pos j)) (ivec l m))) in
  if Rlt_dec dist (sqrt cn_thr) then
    if Rlt_dec (/ 10 ^ 10) dist then
      1 / (1 + exp (- K1 * ((rcov i + rcov j) / dist - 1)))
    else 0
  else 0.
Definition CN (i : Z) : R := rsum (map (fun j => rsum (map (cn_term i j) (imgs nCN))) atoms).

(** The results of [d3_comp_dC6_dCNij] for i >= j, and the matrices [dC6ij] and
    [sqrtC6matrix] (296-310). *)
Definition c6of (i j : Z) : R * R * R := c6_pair (smp i j) (CN i) (CN j).
Definition dC6 (a b : Z) : R := if (b <=? a)%Z then snd (fst (c6of a b)) else snd (c6of b a).
Definition sq6 (a b : Z) : R := if (b <=? a)%Z then sqrt (fst (fst (c6of a b))) else sqrt (fst (fst (c6of b a))).

(** The accumulators [e6], [e8], [e63], [drij] and [FdivR6mulDC6]. *)
Record st := St { t_e6 : R; t_e8 : R; t_e63 : R; t_dr : Z -> Z -> Z -> R; t_F : Z -> R }.

Definition inr (i k : Z) : bool := (0 <=? i)%Z && (i <? k)%Z.
(** [drij[x][i][j] += v] and [drij[x][i][j] = drij[x'][i'][j']]. *)
Definition dr_set (s : st) (x i j : Z) (v : R) : outcome st :=
  if inr x (numimg nEG) && inr i n && inr j n then
    Ok (St (t_e6 s) (t_e8 s) (t_e63 s)
      (fun x' i' j' => if (x' =? x)%Z && (i' =? i)%Z && (j' =? j)%Z then v else t_dr s x' i' j') (t_F s))
  else UB.
Definition dr_add (s : st) (x i j : Z) (v : R) : outcome st := dr_set s x i j (t_dr s x i j + v).
Definition F_add (s : st) (i : Z) (v : R) : outcome st :=
  if inr i n then
    Ok (St (t_e6 s) (t_e8 s) (t_e63 s) (t_dr s) (fun i' => if (i' =? i)%Z then t_F s i' + v else t_F s i'))
  else UB.
Definition e_sub (s : st) (a b c : R) : st := St (t_e6 s - a) (t_e8 s - b) (t_e63 s - c) (t_dr s) (t_F s).

(** An image of a pair (313-353). *)
Definition pair_image (i j : Z) (s : st) (im : Z * img) : outcome st :=
  let '(x, m) := im in
  let '(c6, dI, dJ) := c6of i j in
  let q := r2r4 i * r2r4 j in
  let iDist2 := n2 (vsub (vsub (pos i) (pos j)) (ivec l m)) in
  if Rlt_dec rthr iDist2 then Ok s else if Rlt_dec iDist2 (/ 10 ^ 15) then Ok s else
  let iDist := sqrt iDist2 in
  let iDist6 := iDist2 ^ 3 in
  let iDist7 := iDist6 * iDist in
  let iDist8 := iDist6 * iDist2 in
  let iDist9 := iDist8 * iDist in
  let rr := r0ab i j / iDist in
  let t6 := (rs6 * rr) ^ 14 in
  let t8 := (1 * rr) ^ 16 in
  let damp6 := 1 / (1 + 6 * t6) in
  let damp8 := 1 / (1 + 6 * t8) in
  let de6dr := 1 * 6 * damp6 * c6 / iDist7 in
  let de8dr := s8 * 6 * c6 * q * damp8 / iDist9 in
  if (i =? j)%Z then
    do s1 <- dr_add s x i j (- ((de6dr + 4 * de8dr) / 2)) ;
    do s2 <- dr_add s1 x i j ((de6dr * 14 * t6 * damp6 + 3 * de8dr * 16 * t8 * damp8) / 2) ;
    let F := (1 / iDist6 * damp6 + 3 * s8 * q / iDist8 * damp8) / 2 in
    F_add (e_sub s2 (1 / iDist6 * damp6 * c6 / 2) (3 * s8 * q / iDist8 * damp8 * c6 / 2) 0) i (F * (dI + dJ))
  else
    do s1 <- dr_add s x i j (- (de6dr + 4 * de8dr)) ;
    do s2 <- dr_add s1 x i j (de6dr * 14 * t6 * damp6 + 3 * de8dr * 16 * t8 * damp8) ;
    do s3 <- dr_set s2 x j i (t_dr s2 x i j) ;
    let F := 1 / iDist6 * damp6 + 3 * s8 * q / iDist8 * damp8 in
    do s4 <- F_add (e_sub s3 (1 / iDist6 * damp6 * c6) (3 * s8 * q / iDist8 * damp8 * c6) 0) i (F * dI) ;
    F_add s4 j (F * dJ).

(** [imageIndex] and the image. *)
Definition numbered : list (Z * img) := combine (zrange 0 (numimg nEG - 1)) (imgs nEG).

Definition pair_loop (s : st) : outcome st :=
  ofold (fun s i => ofold (fun s j => ofold (pair_image i j) s numbered) s (zrange 0 i)) s atoms.

(** One triangle (420-502); [m] is the image of j, [m'] that of k. *)
Definition tri_dr (w : R) (s : st) (x a b : Z) (dFdamp r c9 ang dang damp3 : R) : outcome st :=
  do s1 <- dr_add s x a b (dFdamp / r * c9 * ang * w) ;
  dr_add s1 x a b (- (dang * c9 * damp3 * w)).

Definition triangle (i j : Z) (m : img) (k : Z) (s : st) (m' : img) : outcome st :=
  let ijDist2 := n2 (vadd (vsub (pos j) (pos i)) (ivec l m)) in
  let ikDist2 := n2 (vadd (vsub (pos k) (pos i)) (ivec l m')) in
  let jkDist2 := n2 (vadd (vsub (vsub (pos k) (pos j)) (ivec l m)) (ivec l m')) in
  if Rlt_dec cn_thr ikDist2 then Ok s else if Rlt_dec ikDist2 (/ 10 ^ 15) then Ok s else
  if Rlt_dec cn_thr jkDist2 then Ok s else if Rlt_dec jkDist2 (/ 10 ^ 15) then Ok s else
  let ijDist := sqrt ijDist2 in let ikDist := sqrt ikDist2 in let jkDist := sqrt jkDist2 in
  let c9 := sq6 i j * sq6 i k * sq6 j k in
  let geoMean := Rpower ((ijDist / r0ab i j) * (ikDist / r0ab i k) * (jkDist / r0ab j k)) (1 / 3) in
  let u16 := ((4 / 3) / geoMean) ^ 16 in
  let damp3 := 1 / (1 + 6 * u16) in
  let t1 := ijDist2 + jkDist2 - ikDist2 in
  let t2 := ijDist2 + ikDist2 - jkDist2 in
  let t3 := ikDist2 + jkDist2 - ijDist2 in
  let D := ijDist2 * jkDist2 * ikDist2 in
  let ang := ((3 / 8) * t1 * t2 * t3 / D + 1) / Rpower D (3 / 2) in
  (* 1/6, 1/2 or 1 (438-443, 471-501) *)
  let w := if (i =? j)%Z && (i =? k)%Z then 1 / 6 else if (i =? j)%Z || (j =? k)%Z then 1 / 2 else 1 in
  let dFdamp := -2 * 16 * u16 * damp3 ^ 2 in
  let xij := count_image m nEG in
  let xjk := count_image (isub m' m) nEG in
  let xik := count_image m' nEG in
  let dC9i := - (1 / 2) * c9 * (dC6 i j / (sq6 i j * sq6 i j) + dC6 i k / (sq6 i k * sq6 i k)) in
  let dC9j := - (1 / 2) * c9 * (dC6 j i / (sq6 i j * sq6 i j) + dC6 j k / (sq6 j k * sq6 j k)) in
  let dC9k := - (1 / 2) * c9 * (dC6 k i / (sq6 i k * sq6 i k) + dC6 k j / (sq6 j k * sq6 j k)) in
  let all := (i =? j)%Z && (i =? k)%Z in
  do s1 <- tri_dr w (e_sub s 0 0 (damp3 * c9 * ang * w)) xij i j dFdamp ijDist c9 ang (dAng ijDist2 jkDist2 ikDist2 D) damp3 ;
  do s2 <- (if all then Ok s1 else dr_set s1 xij j i (t_dr s1 xij i j)) ;
  do s3 <- tri_dr w s2 xjk j k dFdamp jkDist c9 ang (dAng jkDist2 ikDist2 ijDist2 D) damp3 ;
  do s4 <- (if all then Ok s3 else dr_set s3 xjk k j (t_dr s3 xjk k j)) ;
  do s5 <- tri_dr w s4 xik i k dFdamp ikDist c9 ang (dAng ikDist2 jkDist2 ijDist2 D) damp3 ;
  do s6 <- (if all then Ok s5 else dr_set s5 xik k i (t_dr s5 xik i k)) ;
  let F := ang * damp3 * w in
  do s7 <- F_add s6 i (F * dC9i) ;
  do s8 <- F_add s7 j (F * dC9j) ;
  F_add s8 k (F * dC9k).

(** The images of k for an image of j (396-416). *)
Definition scope (m : img) : list img :=
  let '(a, b, c) := nCN in let '(x, y, z) := m in
  box (Z.max (- a) (x - a)) (Z.min a (x + a)) (Z.max (- b) (y - b)) (Z.min b (y + b))
      (Z.max (- c) (z - c)) (Z.min c (z + c)).

Definition tri_image (i j : Z) (s : st) (m : img) : outcome st :=
  let ijDist2 := n2 (vadd (vsub (pos j) (pos i)) (ivec l m)) in
  if Rlt_dec cn_thr ijDist2 then Ok s else if Rlt_dec ijDist2 (/ 10 ^ 15) then Ok s else
  ofold (fun s k => ofold (triangle i j m k) s (scope m)) s (zrange 0 j).

Definition tri_loop (s : st) : outcome st :=
  ofold (fun s i => ofold (fun s j => ofold (tri_image i j) s (imgs nCN)) s (zrange 0 i)) s atoms.

(** Gradient and virial of one image of a pair (536-603): the result is [vec] and
    [ijImageVecs], or nothing if it is left out. *)
Definition pull (s : st) (i j : Z) (im : Z * img) : option (vec * vec) :=
  let '(x, m) := im in
  let d := vadd (vsub (pos j) (pos i)) (ivec l m) in
  let rc := rcov i + rcov j in
  let iDist2 := n2 d in
  if (if (i =? j)%Z then if Rlt_dec iDist2 (/ 10 ^ 15) then true else false
      else if Rlt_dec rthr iDist2 then true else if Rlt_dec iDist2 (1 / 2) then true else false)
  then None else
  let iDist := sqrt iDist2 in
  let dcn := if Rlt_dec iDist2 cn_thr then if Rlt_dec (/ 10 ^ 15) iDist2 then
               let ex := exp (- K1 * (rc / iDist - 1)) in - K1 * rc * ex / (iDist * (ex + 1)) ^ 2
             else 0 else 0 in
  let xi := if (i =? j)%Z then t_dr s x i j + dcn * t_F s i
            else t_dr s x i j + dcn * (t_F s i + t_F s j) in
  Some (vscal (xi / iDist) d, d).

(** [d3Grads] and [d3Sigma] (518-604).  The sum [gi] over j is added to atom i at
    once here. *)
Definition gs := ((Z -> Z -> R) * (Z -> Z -> R))%type.
Definition gs_add (i j : Z) (vd : vec * vec) (g : gs) : gs :=
  (fun a c => if (i =? j)%Z then fst g a c
              else fst g a c + (if (a =? i)%Z then comp (fst vd) c else 0) - (if (a =? j)%Z then comp (fst vd) c else 0),
   fun r c => snd g r c + comp (fst vd) r * comp (snd vd) c).
Definition grad_loop (s : st) : gs :=
  fold_left (fun g i => fold_left (fun g j => fold_left (fun g im =>
      match pull s i j im with None => g | Some vd => gs_add i j vd g end) numbered g) (zrange 0 i) g)
    atoms ((fun _ _ => 0), (fun _ _ => 0)).

(** [d3_energy_gradient]: [d3Energy[0]], [d3Grads], [d3Sigma] (504-604). *)
Record d3out := D3Out { o_e : R; o_g : Z -> Z -> R; o_sg : Z -> Z -> R }.
Definition d3_run : outcome d3out :=
  do s1 <- pair_loop (St 0 0 0 (fun _ _ _ => 0) (fun _ => 0)) ;
  do s2 <- tri_loop s1 ;
  let g := grad_loop s2 in
  Ok (D3Out (t_e6 s2 + t_e8 s2 - t_e63 s2) (fst g) (snd g)).
End CONF.
End D3.

(** ** Stress (d3forceStress.c:24-33, 70-75) *)

(** [detLattice]: the sum over the permutations of the three indices. *)
Definition detLattice (l : lat) : R :=
  let '((a0, a1, a2), (b0, b1, b2), (c0, c1, c2)) := l in
  a0 * b1 * c2 - a0 * c1 * b2 - b0 * a1 * c2 + b0 * c1 * a2 + c0 * a1 * b2 - c0 * b1 * a2.
Definition d3_stress (l : lat) (sg : Z -> Z -> R) (r c : Z) : R := - sg r c / detLattice l.

(** [cell_measure], by which the other parts of the stress are divided
    (/repo/src/stress.c:97-103, 585-591): [Jacbdet] times the lengths of the
    periodic directions. *)
Definition cell_measure (jac : R) (bc : bool * bool * bool) (len : vec) : R :=
  let '(p0, p1, p2) := bc in let '(lx, ly, lz) := len in
  jac * (if p0 then lx else 1) * (if p1 then ly else 1) * (if p2 then lz else 1).
