(* What the MLFF theorems are stated against: Legendre polynomials by Bonnet's
   recursion, the textbook spherical harmonics, and paths of atoms. *)

From Coq Require Import Reals List ZArith Lia Lra.
From Coquelicot Require Import Coquelicot.
Open Scope R_scope.

(** (P_l, P_{l-1}) by (l+1) P_{l+1} = (2l+1) x P_l - l P_{l-1}. *)
Fixpoint leg2 (l : nat) (x : R) : R * R :=
  match l with
  | O => (1, 0)
  | S k => let '(p, q) := leg2 k x in (((2 * INR k + 1) * x * p - INR k * q) / INR (S k), p)
  end.
Definition legendre (l : nat) (x : R) : R := fst (leg2 l x).

(** Normalisation of the spherical harmonics, with the Condon-Shortley sign. *)
Definition ynorm (l m : nat) : R :=
  (-1) ^ m * sqrt ((2 * INR l + 1) / (4 * PI) * (INR (fact (l - m)) / INR (fact (l + m)))).

(** theta part: N_lm sin^m d^m P_l / dx^m at cos theta, 0 <= m <= l. *)
Definition ytheta (l m : nat) (theta : R) : R :=
  ynorm l m * (sin theta ^ m * Derive_n (legendre l) m (cos theta)).

(** Y_lm for 0 <= m, and Y_{l,-m} = (-1)^m conj Y_lm. *)
Definition Ytext (theta phi : R) (l : nat) (m : Z) : C :=
  if (0 <=? m)%Z then
    (ytheta l (Z.to_nat m) theta * cos (IZR m * phi), ytheta l (Z.to_nat m) theta * sin (IZR m * phi))
  else
    let k := Z.to_nat (- m) in
    ((-1) ^ k * (ytheta l k theta * cos (IZR m * phi)), (-1) ^ k * (ytheta l k theta * sin (IZR m * phi))).

(** The same function of a point of space: N_lm P_l^(m)(z/r) ((x + i y)/r)^m. *)
Fixpoint cpowr (z : C) (m : nat) : C := match m with O => RtoC 1 | S k => (z * cpowr z k)%C end.
Definition Yspace (l m : nat) (x y z : R) : C :=
  let r := sqrt (x * x + y * y + z * z) in
  Cmult (RtoC (ynorm l m * Derive_n (legendre l) m (z / r))) (cpowr (x / r, y / r) m).

(** A complex function of a real variable has derivative v at t. *)
Definition cder (f : R -> C) (t : R) (v : C) : Prop :=
  is_derive (fun s => fst (f s)) t (fst v) /\ is_derive (fun s => snd (f s)) t (snd v).

(** -l, ..., l *)
Fixpoint msym (l : nat) : list Z :=
  match l with O => (0%Z :: nil)%list | S k => (Z.opp (Z.of_nat (S k)) :: msym k ++ (Z.of_nat (S k) :: nil))%list end.
(** Y_lm of a point of space for every sign of m. *)
Definition YZ (l : nat) (m : Z) (x y z : R) : C :=
  if (0 <=? m)%Z then Yspace l (Z.to_nat m) x y z
  else (RtoC ((-1) ^ Z.to_nat (- m)) * Cconj (Yspace l (Z.to_nat (- m)) x y z))%C.
(** Rotations about the z axis and about the x axis. *)
Definition rotz (al : R) (v : R * R * R) : R * R * R :=
  let '(x, y, z) := v in (x * cos al - y * sin al, x * sin al + y * cos al, z).
Definition rotx (al : R) (v : R * R * R) : R * R * R :=
  let '(x, y, z) := v in (x, y * cos al - z * sin al, y * sin al + z * cos al).
(** Every rotation is a product of such rotations. *)
Inductive rotation : (R * R * R -> R * R * R) -> Prop :=
| rot_id : rotation (fun v => v)
| rot_z al f : rotation f -> rotation (fun v => rotz al (f v))
| rot_x al f : rotation f -> rotation (fun v => rotx al (f v)).
