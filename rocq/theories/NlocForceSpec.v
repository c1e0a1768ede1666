(** The nonlocal energy of an atom and the force on it as formulas over
    orbitals and the grid; nothing here refers to processes or arrays. *)
From Coq Require Import ZArith QArith List.
From Verif Require Import CBase Nloc NlocSpec VnlOp VnlSpec.
Import ListNotations.
Local Open Scope Z_scope.

(** An orbital: occupation, weight of its k-point, the Bloch factor of an
    image in <Chi, .>, its values and its derivative in a direction. *)
Record orb (K : Type) := Orb { o_occ : K; o_wt : K; o_w : Q * Q * Q -> K; o_psi : tri -> K; o_d : Z -> tri -> K }.
Arguments Orb {K} _ _ _ _ _.
Arguments o_occ {K} _.
Arguments o_wt {K} _.
Arguments o_w {K} _ _.
Arguments o_psi {K} _ _.
Arguments o_d {K} _ _ _.

Section SPEC.
Context {K : Type} (zero one : K) (add mul : K -> K -> K) (opp : K -> K).
Variable chi : nat -> Z * Z * Z -> Q * Q * Q -> K.
Variable gamma : nat -> list K.
Variables dV occfac : K.
Variables cj re : K -> K.
Variables (c : cell) (pos : list (Q * Q * Q)) (All : Z -> list tri) (grid : list tri).

(** <Chi, f> summed over the grid. *)
Definition coef (w : Q * Q * Q -> K) (st : site) (cl : Z * Z * Z) (f : tri -> K) : K :=
  ksum zero add (map (fun nd => mul (projector zero add mul chi c pos All w st cl nd) (f nd)) grid).

(** sum over projectors of Gamma [F (conj <Chi,f> <Chi,h>)] dV *)
Definition form (F : K -> K) (w : Q * Q * Q -> K) (st : site) (f h : tri -> K) : K :=
  ksum zero add (map (fun cl =>
    mul (gamma_of zero gamma st cl) (F (mul dV (mul (cj (coef w st cl f)) (coef w st cl h))))) (cols (st_psp st))).

(** Share of atom [st] in the nonlocal energy when the orbitals have the
    values [val]. *)
Definition atom_energy (val : orb K -> tri -> K) (os : list (orb K)) (st : site) : K :=
  ksum zero add (map (fun o =>
    mul (mul (mul occfac (o_wt o)) (o_occ o)) (form (fun z => z) (o_w o) st (val o) (val o))) os).

(** Force on atom [st] in direction [d]. *)
Definition atom_force (os : list (orb K)) (st : site) (d : Z) : K :=
  opp (ksum zero add (map (fun o =>
    mul (mul (mul (mul occfac (add one one)) (o_wt o)) (o_occ o)) (form re (o_w o) st (o_psi o) (o_d o d))) os)).

End SPEC.
