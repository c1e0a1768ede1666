(* What a spherical harmonic is, written without reference to the code: the textbook
   formula in polar coordinates with Legendre polynomials from Bonnet's recursion. *)

From Coq Require Import Reals ZArith.
From Coquelicot Require Import Coquelicot.
Open Scope R_scope.

(* (P_n(t), P_{n+1}(t)): P_0 = 1, P_1 = t, (k+2) P_{k+2} = (2k+3) t P_{k+1} - (k+1) P_k. *)
Fixpoint leg2 (n : nat) (t : R) : R * R :=
  match n with
  | O => (1, t)
  | S k =>
      let (a, b) := leg2 k t in
      (b, ((2 * INR k + 3) * t * b - (INR k + 1) * a) / (INR k + 2))
  end.
Definition leg (n : nat) (t : R) : R := fst (leg2 n t).

(* n!, in the reals *)
Fixpoint rfact (n : nat) : R := match n with O => 1 | S k => INR (S k) * rfact k end.

(* The real harmonic: Y_l0 = N P_l(cos theta); for m > 0 (m < 0) it is sqrt(2) N times
   (sin theta)^|m| P_l^(|m|)(cos theta) times cos(m phi) (sin(|m| phi)), where
   N^2 = (2l+1)/(4 pi) (l-|m|)!/(l+|m|)!. *)
Definition Yreal (l : nat) (m : Z) (th ph : R) : R :=
  let a := Z.abs_nat m in
  sqrt ((if (m =? 0)%Z then 1 else 2) * ((2 * INR l + 1) / (4 * PI))
        * (rfact (l - a) / rfact (l + a)))
  * (sin th ^ a * Derive_n (leg l) a (cos th)
     * (if (m <? 0)%Z then sin (INR a * ph) else cos (INR a * ph))).

(* The complex harmonic with the Condon-Shortley phase, as (real, imaginary) part:
   Y_l^m = (-1)^m N (sin theta)^m P_l^(m)(cos theta) exp(i m phi) for m >= 0 and
   Y_l^{-m} = (-1)^m conj(Y_l^m). *)
Definition Ycplx (l : nat) (m : Z) (th ph : R) : R * R :=
  let a := Z.abs_nat m in
  let n := sqrt ((2 * INR l + 1) / (4 * PI) * (rfact (l - a) / rfact (l + a)))
           * (sin th ^ a * Derive_n (leg l) a (cos th)) in
  if (m <? 0)%Z then (n * cos (INR a * ph), - (n * sin (INR a * ph)))
  else ((-1) ^ a * (n * cos (INR a * ph)), (-1) ^ a * (n * sin (INR a * ph))).
