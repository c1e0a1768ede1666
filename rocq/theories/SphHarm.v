(* Real and complex spherical harmonics: RealSphericalHarmonic
   (/repo/src/tools.c:1226-1655) and ComplexSphericalHarmonic (tools.c:1659-2042).

   Doubles are modelled by real numbers, so the decimal literals of the C code are the
   exact decimals written there.  [x[i] / r[i]] with r[i] = 0 is no undefined behaviour
   for IEEE doubles (it is an infinity or a NaN); the loop that closes both functions
   overwrites the entry, so Rocq's arbitrary value of a quotient by zero is never seen
   for l > 0, and l = 0 has no quotient.  An access past the end of Ylm is undefined.
   [cpow(w,n)] with integer n is the n-fold product. *)

From Coq Require Import Reals List ZArith Lia Lra.
From Verif Require Import CBase.
Import ListNotations.
Open Scope R_scope.

(* double _Complex values, as pairs (real part, imaginary part). *)
Definition cplx : Type := (R * R)%type.
(* a real number converted to double _Complex (C11 6.3.1.7) *)
Definition re (a : R) : cplx := (a, 0).
(* [x - I*y] and [x + I*y] *)
Definition zm (x y : R) : cplx := (x, - y).
Definition zp (x y : R) : cplx := (x, y).
(* products complex*complex, real*complex, complex*real and the quotient complex/real *)
Definition cm (a b : cplx) : cplx :=
  (fst a * fst b - snd a * snd b, fst a * snd b + snd a * fst b).
Definition rc (a : R) (b : cplx) : cplx := (a * fst b, a * snd b).
Definition cr (a : cplx) (b : R) : cplx := (fst a * b, snd a * b).
Definition cdv (a : cplx) (b : R) : cplx := (fst a / b, snd a / b).
Fixpoint cpow (a : cplx) (n : nat) : cplx :=
  match n with O => (1, 0) | S n' => cm a (cpow a n') end.

(* The constants of RealSphericalHarmonic: tools.c:1239-1295. *)
Definition C00 : R := 0.282094791773878. (* 1240 *)
Definition C1m1 : R := 0.488602511902920. (* 1242 *)
Definition C10 : R := 0.488602511902920. (* 1243 *)
Definition C1p1 : R := 0.488602511902920. (* 1244 *)
Definition C2m2 : R := 1.092548430592079. (* 1246 *)
Definition C2m1 : R := 1.092548430592079. (* 1247 *)
Definition C20 : R := 0.315391565252520. (* 1248 *)
Definition C2p1 : R := 1.092548430592079. (* 1249 *)
Definition C2p2 : R := 0.546274215296040. (* 1250 *)
Definition C3m3 : R := 0.590043589926644. (* 1252 *)
Definition C3m2 : R := 2.890611442640554. (* 1253 *)
Definition C3m1 : R := 0.457045799464466. (* 1254 *)
Definition C30 : R := 0.373176332590115. (* 1255 *)
Definition C3p1 : R := 0.457045799464466. (* 1256 *)
Definition C3p2 : R := 1.445305721320277. (* 1257 *)
Definition C3p3 : R := 0.590043589926644. (* 1258 *)
Definition C4m4 : R := 2.503342941796705. (* 1260 *)
Definition C4m3 : R := 1.770130769779930. (* 1261 *)
Definition C4m2 : R := 0.946174695757560. (* 1262 *)
Definition C4m1 : R := 0.669046543557289. (* 1263 *)
Definition C40 : R := 0.105785546915204. (* 1264 *)
Definition C4p1 : R := 0.669046543557289. (* 1265 *)
Definition C4p2 : R := 0.473087347878780. (* 1266 *)
Definition C4p3 : R := 1.770130769779930. (* 1267 *)
Definition C4p4 : R := 0.625835735449176. (* 1268 *)
Definition C5m5 : R := 0.656382056840170. (* 1270 *)
Definition C5m4 : R := 2.075662314881042. (* 1271 *)
Definition C5m3 : R := 0.489238299435250. (* 1272 *)
Definition C5m2 : R := 4.793536784973324. (* 1273 *)
Definition C5m1 : R := 0.452946651195697. (* 1274 *)
Definition C50 : R := 0.116950322453424. (* 1275 *)
Definition C5p1 : R := 0.452946651195697. (* 1276 *)
Definition C5p2 : R := 2.396768392486662. (* 1277 *)
Definition C5p3 : R := 0.489238299435250. (* 1278 *)
Definition C5p4 : R := 2.075662314881042. (* 1279 *)
Definition C5p5 : R := 0.656382056840170. (* 1280 *)
Definition C6m6 : R := 0.683184105191914. (* 1282 *)
Definition C6m5 : R := 2.366619162231752. (* 1283 *)
Definition C6m4 : R := 0.504564900728724. (* 1284 *)
Definition C6m3 : R := 0.921205259514923. (* 1285 *)
Definition C6m2 : R := 0.460602629757462. (* 1286 *)
Definition C6m1 : R := 0.582621362518731. (* 1287 *)
Definition C60 : R := 0.0635692022676284. (* 1288 *)
Definition C6p1 : R := 0.582621362518731. (* 1289 *)
Definition C6p2 : R := 0.460602629757462. (* 1290 *)
Definition C6p3 : R := 0.921205259514923. (* 1291 *)
Definition C6p4 : R := 0.504564900728724. (* 1292 *)
Definition C6p5 : R := 2.366619162231752. (* 1293 *)
Definition C6p6 : R := 0.683184105191914. (* 1294 *)

(* The value written for each (l, m); None stands for the "incorrect m" branch.
   The array index [i] is dropped, 2.0 is written 2 and pow(a,n) is a^n. *)
(* l = 0: tools.c:1300-1300 *)
Definition rsh0 (m : Z) : option (R -> R -> R -> R -> R) :=
  Some (fun _ _ _ _ => C00).

(* l = 1: tools.c:1309-1319 *)
Definition rsh1 (m : Z) : option (R -> R -> R -> R -> R) :=
  match m with
  | (-1)%Z => (* 1309 *)
      Some (fun x y z r =>
            C1m1 * (y / r))
  | 0%Z => (* 1314 *)
      Some (fun x y z r =>
            C10 * (z / r))
  | 1%Z => (* 1319 *)
      Some (fun x y z r =>
            C1p1 * (x / r))
  | _ => None
  end.

(* l = 2: tools.c:1333-1353 *)
Definition rsh2 (m : Z) : option (R -> R -> R -> R -> R) :=
  match m with
  | (-2)%Z => (* 1333 *)
      Some (fun x y z r =>
            C2m2 * (x * y) / (r * r))
  | (-1)%Z => (* 1338 *)
      Some (fun x y z r =>
            C2m1 * (y * z) / (r * r))
  | 0%Z => (* 1343 *)
      Some (fun x y z r =>
            C20 * ((- x) * x - y * y + 2 * z * z) / (r * r))
  | 1%Z => (* 1348 *)
      Some (fun x y z r =>
            C2p1 * (z * x) / (r * r))
  | 2%Z => (* 1353 *)
      Some (fun x y z r =>
            C2p2 * (x * x - y * y) / (r * r))
  | _ => None
  end.

(* l = 3: tools.c:1368-1398 *)
Definition rsh3 (m : Z) : option (R -> R -> R -> R -> R) :=
  match m with
  | (-3)%Z => (* 1368 *)
      Some (fun x y z r =>
            C3m3 * (3 * x * x - y * y) * y / (r * r * r))
  | (-2)%Z => (* 1373 *)
      Some (fun x y z r =>
            C3m2 * (x * y * z) / (r * r * r))
  | (-1)%Z => (* 1378 *)
      Some (fun x y z r =>
            C3m1 * y * (4 * z * z - x * x - y * y) / (r * r * r))
  | 0%Z => (* 1383 *)
      Some (fun x y z r =>
            C30 * z * (2 * z * z - 3 * x * x - 3 * y * y) / (r * r * r))
  | 1%Z => (* 1388 *)
      Some (fun x y z r =>
            C3p1 * x * (4 * z * z - x * x - y * y) / (r * r * r))
  | 2%Z => (* 1393 *)
      Some (fun x y z r =>
            C3p2 * z * (x * x - y * y) / (r * r * r))
  | 3%Z => (* 1398 *)
      Some (fun x y z r =>
            C3p3 * x * (x * x - 3 * y * y) / (r * r * r))
  | _ => None
  end.

(* l = 4: tools.c:1413-1453 *)
Definition rsh4 (m : Z) : option (R -> R -> R -> R -> R) :=
  match m with
  | (-4)%Z => (* 1413 *)
      Some (fun x y z r =>
            C4m4 * (x * y * (x * x - y * y)) / (r * r * r * r))
  | (-3)%Z => (* 1418 *)
      Some (fun x y z r =>
            C4m3 * (3 * x * x - y * y) * y * z / (r * r * r * r))
  | (-2)%Z => (* 1423 *)
      Some (fun x y z r =>
            C4m2 * x * y * (7 * z * z - r * r) / (r * r * r * r))
  | (-1)%Z => (* 1428 *)
      Some (fun x y z r =>
            C4m1 * y * z * (7 * z * z - 3 * r * r) / (r * r * r * r))
  | 0%Z => (* 1433 *)
      Some (fun x y z r =>
            C40 * (35 * z * z * z * z - 30 * z * z * r * r + 3 * r * r * r * r) / (r * r * r *
            r))
  | 1%Z => (* 1438 *)
      Some (fun x y z r =>
            C4p1 * x * z * (7 * z * z - 3 * r * r) / (r * r * r * r))
  | 2%Z => (* 1443 *)
      Some (fun x y z r =>
            C4p2 * (x * x - y * y) * (7 * z * z - r * r) / (r * r * r * r))
  | 3%Z => (* 1448 *)
      Some (fun x y z r =>
            C4p3 * (x * x - 3 * y * y) * x * z / (r * r * r * r))
  | 4%Z => (* 1453 *)
      Some (fun x y z r =>
            C4p4 * (x * x * (x * x - 3 * y * y) - y * y * (3 * x * x - y * y)) / (r * r * r * r))
  | _ => None
  end.

(* l = 5: tools.c:1470-1540 *)
Definition rsh5 (m : Z) : option (R -> R -> R -> R -> R) :=
  match m with
  | (-5)%Z => (* 1470 *)
      Some (fun x y z r => let p := sqrt (x * x + y * y) in
            C5m5 * (8 * x * x * x * x * y - 4 * x * x * y * y * y + 4 * y^5 - 3 * y * p * p * p
            * p) / (r * r * r * r * r))
  | (-4)%Z => (* 1477 *)
      Some (fun x y z r =>
            C5m4 * (4 * x * x * x * y - 4 * x * y * y * y) * z / (r * r * r * r * r))
  | (-3)%Z => (* 1484 *)
      Some (fun x y z r => let p := sqrt (x * x + y * y) in
            C5m3 * (3 * y * p * p - 4 * y * y * y) * (9 * z * z - r * r) / (r * r * r * r * r))
  | (-2)%Z => (* 1491 *)
      Some (fun x y z r =>
            C5m2 * x * y * (3 * z * z * z - z * r * r) / (r * r * r * r * r))
  | (-1)%Z => (* 1498 *)
      Some (fun x y z r =>
            C5m1 * y * (21 * z * z * z * z - 14 * r * r * z * z + r * r * r * r) / (r * r * r *
            r * r))
  | 0%Z => (* 1505 *)
      Some (fun x y z r =>
            C50 * (63 * z * z * z * z * z - 70 * z * z * z * r * r + 15 * z * r * r * r * r) /
            (r * r * r * r * r))
  | 1%Z => (* 1512 *)
      Some (fun x y z r =>
            C5p1 * x * (21 * z * z * z * z - 14 * r * r * z * z + r * r * r * r) / (r * r * r *
            r * r))
  | 2%Z => (* 1519 *)
      Some (fun x y z r =>
            C5p2 * (x * x - y * y) * (3 * z * z * z - r * r * z) / (r * r * r * r * r))
  | 3%Z => (* 1526 *)
      Some (fun x y z r => let p := sqrt (x * x + y * y) in
            C5p3 * (4 * x * x * x - 3 * p * p * x) * (9 * z * z - r * r) / (r * r * r * r * r))
  | 4%Z => (* 1533 *)
      Some (fun x y z r => let p := sqrt (x * x + y * y) in
            C5p4 * (4 * (x * x * x * x + y * y * y * y) - 3 * p * p * p * p) * z / (r * r * r *
            r * r))
  | 5%Z => (* 1540 *)
      Some (fun x y z r => let p := sqrt (x * x + y * y) in
            C5p5 * (4 * x * x * x * x * x + 8 * x * y * y * y * y - 4 * x * x * x * y * y - 3 *
            x * p * p * p * p) / (r * r * r * r * r))
  | _ => None
  end.

(* l = 6: tools.c:1558-1638 *)
Definition rsh6 (m : Z) : option (R -> R -> R -> R -> R) :=
  match m with
  | (-6)%Z => (* 1558 *)
      Some (fun x y z r => let p := sqrt (x * x + y * y) in
            C6m6 * (12 * x^5 * y + 12 * x * y^5 - 8 * x * x * x * y * y * y - 6 * x * y * p^4) /
            (r * r * r * r * r * r))
  | (-5)%Z => (* 1565 *)
      Some (fun x y z r => let p := sqrt (x * x + y * y) in
            C6m5 * (8 * x^4 * y - 4 * x * x * y * y * y + 4 * y^5 - 3 * y * p^4) * z / (r * r *
            r * r * r * r))
  | (-4)%Z => (* 1571 *)
      Some (fun x y z r =>
            C6m4 * (4 * x * x * x * y - 4 * x * y * y * y) * (11 * z * z - r * r) / (r * r * r *
            r * r * r))
  | (-3)%Z => (* 1577 *)
      Some (fun x y z r => let p := sqrt (x * x + y * y) in
            C6m3 * ((- 4) * y * y * y + 3 * y * p * p) * (11 * z * z * z - 3 * z * r * r) / (r *
            r * r * r * r * r))
  | (-2)%Z => (* 1584 *)
      Some (fun x y z r =>
            C6m2 * (2 * x * y) * (33 * z^4 - 18 * z * z * r * r + r^4) / (r * r * r * r * r * r))
  | (-1)%Z => (* 1590 *)
      Some (fun x y z r =>
            C6m1 * y * (33 * z^5 - 30 * z * z * z * r * r + 5 * z * r^4) / (r * r * r * r * r *
            r))
  | 0%Z => (* 1596 *)
      Some (fun x y z r =>
            C60 * (231 * z^6 - 315 * z^4 * r * r + 105 * z * z * r^4 - 5 * r^6) / (r * r * r * r
            * r * r))
  | 1%Z => (* 1603 *)
      Some (fun x y z r =>
            C6p1 * x * (33 * z^5 - 30 * z * z * z * r * r + 5 * z * r^4) / (r * r * r * r * r *
            r))
  | 2%Z => (* 1610 *)
      Some (fun x y z r =>
            C6p2 * (x * x - y * y) * (33 * z^4 - 18 * z * z * r * r + r^4) / (r * r * r * r * r
            * r))
  | 3%Z => (* 1617 *)
      Some (fun x y z r => let p := sqrt (x * x + y * y) in
            C6p3 * (4 * x * x * x - 3 * x * p * p) * (11 * z * z * z - 3 * z * r * r) / (r * r *
            r * r * r * r))
  | 4%Z => (* 1624 *)
      Some (fun x y z r => let p := sqrt (x * x + y * y) in
            C6p4 * (4 * x^4 + 4 * y^4 - 3 * p^4) * (11 * z * z - r * r) / (r * r * r * r * r *
            r))
  | 5%Z => (* 1631 *)
      Some (fun x y z r => let p := sqrt (x * x + y * y) in
            C6p5 * (4 * x^5 + 8 * x * y^4 - 4 * x * x * x * y * y - 3 * x * p^4) * z / (r * r *
            r * r * r * r))
  | 6%Z => (* 1638 *)
      Some (fun x y z r => let p := sqrt (x * x + y * y) in
            C6p6 * (4 * x^6 - 4 * y^6 + 12 * x * x * y^4 - 12 * x^4 * y * y + 3 * y * y * p^4 -
            3 * x * x * p^4) / (r * r * r * r * r * r))
  | _ => None
  end.

(* The constants of ComplexSphericalHarmonic: tools.c:1671-1704. *)
Definition KC00 : R := 0.282094791773878. (* 1671 *)
Definition KC11 : R := 0.345494149471335. (* 1673 *)
Definition KC10 : R := 0.488602511902920. (* 1674 *)
Definition KC22 : R := 0.386274202023190. (* 1676 *)
Definition KC21 : R := 0.772548404046379. (* 1677 *)
Definition KC20 : R := 0.315391565252520. (* 1678 *)
Definition KC33 : R := 0.417223823632784. (* 1680 *)
Definition KC32 : R := 1.021985476433282. (* 1681 *)
Definition KC31 : R := 0.323180184114151. (* 1682 *)
Definition KC30 : R := 0.373176332590115. (* 1683 *)
Definition KC44 : R := 0.442532692444983. (* 1685 *)
Definition KC43 : R := 1.251671470898352. (* 1686 *)
Definition KC42 : R := 0.334523271778645. (* 1687 *)
Definition KC41 : R := 0.473087347878780. (* 1688 *)
Definition KC40 : R := 0.105785546915204. (* 1689 *)
Definition KC55 : R := 0.464132203440858. (* 1691 *)
Definition KC54 : R := 1.467714898305751. (* 1692 *)
Definition KC53 : R := 0.345943719146840. (* 1693 *)
Definition KC52 : R := 1.694771183260899. (* 1694 *)
Definition KC51 : R := 0.320281648576215. (* 1695 *)
Definition KC50 : R := 0.116950322453424. (* 1696 *)
Definition KC66 : R := 0.483084113580066. (* 1698 *)
Definition KC65 : R := 1.673452458100098. (* 1699 *)
Definition KC64 : R := 0.356781262853998. (* 1700 *)
Definition KC63 : R := 0.651390485867716. (* 1701 *)
Definition KC62 : R := 0.325695242933858. (* 1702 *)
Definition KC61 : R := 0.411975516301141. (* 1703 *)
Definition KC60 : R := 0.063569202267628. (* 1704 *)

(* The value ComplexSphericalHarmonic writes for each (l, m). *)
(* l = 0: tools.c:1710-1710 *)
Definition csh0 (m : Z) : option (R -> R -> R -> R -> cplx) :=
  Some (fun _ _ _ _ => re KC00).

(* l = 1: tools.c:1719-1729 *)
Definition csh1 (m : Z) : option (R -> R -> R -> R -> cplx) :=
  match m with
  | (-1)%Z => (* 1719 *)
      Some (fun x y z r =>
            rc KC11 (cdv (zm x y) r))
  | 0%Z => (* 1724 *)
      Some (fun x y z r =>
            re (KC10 * (z / r)))
  | 1%Z => (* 1729 *)
      Some (fun x y z r =>
            rc (- KC11) (cdv (zp x y) r))
  | _ => None
  end.

(* l = 2: tools.c:1743-1763 *)
Definition csh2 (m : Z) : option (R -> R -> R -> R -> cplx) :=
  match m with
  | (-2)%Z => (* 1743 *)
      Some (fun x y z r =>
            cdv (rc KC22 (cm (zm x y) (zm x y))) (r * r))
  | (-1)%Z => (* 1748 *)
      Some (fun x y z r =>
            cdv (rc KC21 (cr (zm x y) z)) (r * r))
  | 0%Z => (* 1753 *)
      Some (fun x y z r =>
            re (KC20 * (2 * z * z - x * x - y * y) / (r * r)))
  | 1%Z => (* 1758 *)
      Some (fun x y z r =>
            cdv (rc (- KC21) (cr (zp x y) z)) (r * r))
  | 2%Z => (* 1763 *)
      Some (fun x y z r =>
            cdv (rc KC22 (cm (zp x y) (zp x y))) (r * r))
  | _ => None
  end.

(* l = 3: tools.c:1778-1808 *)
Definition csh3 (m : Z) : option (R -> R -> R -> R -> cplx) :=
  match m with
  | (-3)%Z => (* 1778 *)
      Some (fun x y z r =>
            cdv (rc KC33 (cm (cm (zm x y) (zm x y)) (zm x y))) (r * r * r))
  | (-2)%Z => (* 1783 *)
      Some (fun x y z r =>
            cdv (rc KC32 (cr (cm (zm x y) (zm x y)) z)) (r * r * r))
  | (-1)%Z => (* 1788 *)
      Some (fun x y z r =>
            cdv (cr (rc KC31 (zm x y)) (4 * z * z - x * x - y * y)) (r * r * r))
  | 0%Z => (* 1793 *)
      Some (fun x y z r =>
            re (KC30 * z * (2 * z * z - 3 * x * x - 3 * y * y) / (r * r * r)))
  | 1%Z => (* 1798 *)
      Some (fun x y z r =>
            cdv (cr (rc (- KC31) (zp x y)) (4 * z * z - x * x - y * y)) (r * r * r))
  | 2%Z => (* 1803 *)
      Some (fun x y z r =>
            cdv (rc KC32 (cr (cm (zp x y) (zp x y)) z)) (r * r * r))
  | 3%Z => (* 1808 *)
      Some (fun x y z r =>
            cdv (rc (- KC33) (cm (cm (zp x y) (zp x y)) (zp x y))) (r * r * r))
  | _ => None
  end.

(* l = 4: tools.c:1823-1863 *)
Definition csh4 (m : Z) : option (R -> R -> R -> R -> cplx) :=
  match m with
  | (-4)%Z => (* 1823 *)
      Some (fun x y z r =>
            cdv (rc KC44 (cm (cm (cm (zm x y) (zm x y)) (zm x y)) (zm x y))) (r^4))
  | (-3)%Z => (* 1828 *)
      Some (fun x y z r =>
            cdv (rc KC43 (cr (cm (cm (zm x y) (zm x y)) (zm x y)) z)) (r^4))
  | (-2)%Z => (* 1833 *)
      Some (fun x y z r =>
            cdv (rc KC42 (cr (cm (zm x y) (zm x y)) (7 * z * z - r * r))) (r^4))
  | (-1)%Z => (* 1838 *)
      Some (fun x y z r =>
            cdv (rc KC41 (cr (cr (zm x y) z) (7 * z * z - 3 * r * r))) (r^4))
  | 0%Z => (* 1843 *)
      Some (fun x y z r =>
            re (KC40 * (35 * z * z * z * z - 30 * (z * z) * (r * r) + 3 * r * r * r * r) / r^4))
  | 1%Z => (* 1848 *)
      Some (fun x y z r =>
            cdv (rc (- KC41) (cr (cr (zp x y) z) (7 * z * z - 3 * r * r))) (r^4))
  | 2%Z => (* 1853 *)
      Some (fun x y z r =>
            cdv (rc KC42 (cr (cm (zp x y) (zp x y)) (7 * z * z - r * r))) (r^4))
  | 3%Z => (* 1858 *)
      Some (fun x y z r =>
            cdv (rc (- KC43) (cr (cm (cm (zp x y) (zp x y)) (zp x y)) z)) (r^4))
  | 4%Z => (* 1863 *)
      Some (fun x y z r =>
            cdv (rc KC44 (cm (cm (cm (zp x y) (zp x y)) (zp x y)) (zp x y))) (r^4))
  | _ => None
  end.

(* l = 5: tools.c:1878-1938 *)
Definition csh5 (m : Z) : option (R -> R -> R -> R -> cplx) :=
  match m with
  | (-5)%Z => (* 1878 *)
      Some (fun x y z r =>
            cdv (rc KC55 (cpow (zm x y) 5)) (r^5))
  | (-4)%Z => (* 1884 *)
      Some (fun x y z r =>
            cdv (rc KC54 (cr (cpow (zm x y) 4) z)) (r^5))
  | (-3)%Z => (* 1890 *)
      Some (fun x y z r =>
            cdv (rc KC53 (cr (cm (cm (zm x y) (zm x y)) (zm x y)) (9 * z * z - r * r))) (r^5))
  | (-2)%Z => (* 1896 *)
      Some (fun x y z r =>
            cdv (rc KC52 (cr (cm (zm x y) (zm x y)) (3 * z * z * z - z * r * r))) (r^5))
  | (-1)%Z => (* 1902 *)
      Some (fun x y z r =>
            cdv (rc KC51 (cr (zm x y) (21 * z^4 - 14 * z * z * r * r + r^4))) (r^5))
  | 0%Z => (* 1908 *)
      Some (fun x y z r =>
            re (KC50 * (63 * z^5 - 70 * (z * z * z) * (r * r) + 15 * z * r^4) / r^5))
  | 1%Z => (* 1914 *)
      Some (fun x y z r =>
            cdv (rc (- KC51) (cr (zp x y) (21 * z^4 - 14 * z * z * r * r + r^4))) (r^5))
  | 2%Z => (* 1920 *)
      Some (fun x y z r =>
            cdv (rc KC52 (cr (cm (zp x y) (zp x y)) (3 * z * z * z - z * r * r))) (r^5))
  | 3%Z => (* 1926 *)
      Some (fun x y z r =>
            cdv (rc (- KC53) (cr (cm (cm (zp x y) (zp x y)) (zp x y)) (9 * z * z - r * r)))
            (r^5))
  | 4%Z => (* 1932 *)
      Some (fun x y z r =>
            cdv (rc KC54 (cr (cpow (zp x y) 4) z)) (r^5))
  | 5%Z => (* 1938 *)
      Some (fun x y z r =>
            cdv (rc (- KC55) (cpow (zp x y) 5)) (r^5))
  | _ => None
  end.

(* l = 6: tools.c:1954-2024 *)
Definition csh6 (m : Z) : option (R -> R -> R -> R -> cplx) :=
  match m with
  | (-6)%Z => (* 1954 *)
      Some (fun x y z r =>
            cdv (rc KC66 (cpow (zm x y) 6)) (r^6))
  | (-5)%Z => (* 1960 *)
      Some (fun x y z r =>
            cdv (rc KC65 (cr (cpow (zm x y) 5) z)) (r^6))
  | (-4)%Z => (* 1966 *)
      Some (fun x y z r =>
            cdv (rc KC64 (cr (cpow (zm x y) 4) (11 * z * z - r * r))) (r^6))
  | (-3)%Z => (* 1971 *)
      Some (fun x y z r =>
            cdv (rc KC63 (cr (cm (cm (zm x y) (zm x y)) (zm x y)) (11 * z * z * z - 3 * z * r *
            r))) (r^6))
  | (-2)%Z => (* 1977 *)
      Some (fun x y z r =>
            cdv (rc KC62 (cr (cm (zm x y) (zm x y)) (33 * z^4 - 18 * (z * z) * (r * r) + r^4)))
            (r^6))
  | (-1)%Z => (* 1983 *)
      Some (fun x y z r =>
            cdv (rc KC61 (cr (zm x y) (33 * z^5 - 30 * (z * z * z) * (r * r) + 5 * z * r^4)))
            (r^6))
  | 0%Z => (* 1988 *)
      Some (fun x y z r =>
            re (KC60 * (231 * z^6 - 315 * z^4 * (r * r) + 105 * (z * z) * r^4 - 5 * r^6) / r^6))
  | 1%Z => (* 1994 *)
      Some (fun x y z r =>
            cdv (rc (- KC61) (cr (zp x y) (33 * z^5 - 30 * (z * z * z) * (r * r) + 5 * z *
            r^4))) (r^6))
  | 2%Z => (* 2000 *)
      Some (fun x y z r =>
            cdv (rc KC62 (cr (cm (zp x y) (zp x y)) (33 * z^4 - 18 * (z * z) * (r * r) + r^4)))
            (r^6))
  | 3%Z => (* 2006 *)
      Some (fun x y z r =>
            cdv (rc (- KC63) (cr (cm (cm (zp x y) (zp x y)) (zp x y)) (11 * z * z * z - 3 * z *
            (r * r)))) (r^6))
  | 4%Z => (* 2012 *)
      Some (fun x y z r =>
            cdv (rc KC64 (cr (cpow (zp x y) 4) (11 * z * z - r * r))) (r^6))
  | 5%Z => (* 2018 *)
      Some (fun x y z r =>
            cdv (rc (- KC65) (cr (cpow (zp x y) 5) z)) (r^6))
  | 6%Z => (* 2024 *)
      Some (fun x y z r =>
            cdv (rc KC66 (cpow (zp x y) 6)) (r^6))
  | _ => None
  end.

(* The outer switch on l: tools.c:1296-1648; None also stands for "incorrect l". *)
Definition rsh (l m : Z) : option (R -> R -> R -> R -> R) :=
  match l with
  | 0%Z => rsh0 m | 1%Z => rsh1 m | 2%Z => rsh2 m | 3%Z => rsh3 m
  | 4%Z => rsh4 m | 5%Z => rsh5 m | 6%Z => rsh6 m
  | _ => None
  end.

(* tools.c:1706-2034 *)
Definition csh (l m : Z) : option (R -> R -> R -> R -> cplx) :=
  match l with
  | 0%Z => csh0 m | 1%Z => csh1 m | 2%Z => csh2 m | 3%Z => csh3 m
  | 4%Z => csh4 m | 5%Z => csh5 m | 6%Z => csh6 m
  | _ => None
  end.

(* A grid point as the callers pass it: x[i], y[i], z[i], r[i]. *)
Record point := Pt { px : R; py : R; pz : R; pr : R }.

(* [for (i = 0; i < len; i++) Ylm[i] = f(x[i],y[i],z[i],r[i])]: the loop of every case.
   The input arrays are one list of len points. *)
Fixpoint fill {T} (f : R -> R -> R -> R -> T) (ps : list point) (Y : list T)
  : outcome (list T) :=
  match ps, Y with
  | [], _ => Ok Y
  | _ :: _, [] => UB
  | p :: ps', _ :: Y' =>
      do t <- fill f ps' Y' ; Ok (f (px p) (py p) (pz p) (pr p) :: t)
  end.

(* [for (...) { if (r[i] < 1e-10) Ylm[i] = 0.0; }]: tools.c:1650-1654, 2036-2040.
   Ylm[i] is touched only where the test holds. *)
Fixpoint clear {T} (zero : T) (ps : list point) (Y : list T) : outcome (list T) :=
  match ps, Y with
  | [], _ => Ok Y
  | p :: ps', [] =>
      if Rlt_dec (pr p) 1e-10 then UB else clear zero ps' []
  | p :: ps', y :: Y' =>
      do t <- clear zero ps' Y' ;
      Ok ((if Rlt_dec (pr p) 1e-10 then zero else y) :: t)
  end.

Definition spherical {T} (zero : T) (sh : Z -> Z -> option (R -> R -> R -> R -> T))
    (ps : list point) (l m : Z) (Y : list T) : outcome (list T) :=
  do Y1 <- match sh l m with
           | Some f => fill f ps Y
           | None => Ok Y            (* printf of the error message, nothing written *)
           end ;
  if (0 <? l)%Z then clear zero ps Y1 else Ok Y1.

(* tools.c:1231-1655 *)
Definition RealSphericalHarmonic : list point -> Z -> Z -> list R -> outcome (list R) :=
  spherical 0 rsh.

(* tools.c:1664-2042 *)
Definition ComplexSphericalHarmonic
  : list point -> Z -> Z -> list cplx -> outcome (list cplx) :=
  spherical (re 0) csh.
