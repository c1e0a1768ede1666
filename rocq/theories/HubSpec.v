(** The DFT+U operator and occupation matrix as formulas (property C74). *)
From Coq Require Import ZArith QArith List Lia Bool.
From Verif Require Import CBase Nloc VnlOp HubInit Hub.
Import ListNotations.
Local Open Scope Z_scope.

Section SPEC.
Context {K : Type} (zero : K) (add mul sub : K -> K -> K) (conj : K -> K).
Notation ksum := (ksum zero add).

(** The sum of f(i) for a <= i < b. *)
Definition isum (a b : Z) (f : Z -> K) : K := ksum (map f (zrange a (b - 1))).

(** The corrected atoms, numbered in the order of the types. *)
Fixpoint catoms (J : Z) (ts : list (otype (K:=K))) : list (otype (K:=K) * Z) :=
  match ts with
  | [] => []
  | t :: ts' => (if o_solve t then map (pair t) (zrange J (J + o_nat t - 1)) else [])
                ++ catoms (J + o_nat t) ts'
  end.

(** The images of corrected types in the lists of a process. *)
Fixpoint images (ts : list (otype (K:=K))) (L : list (list (row (K:=K)))) : list (otype (K:=K) * row (K:=K)) :=
  match ts, L with
  | t :: ts', rs :: L' => (if o_solve t then map (pair t) rs else []) ++ images ts' L'
  | _, _ => []
  end.

(** The local orbital [p] of atom [J] at node [g] of a process: all images of
    the atom with their factors. *)
Definition orbital (ph : entry -> K) (im : list (otype (K:=K) * row (K:=K))) (J p g : Z) : K :=
  ksum (map (fun tr => if e_atom (w_e (snd tr)) =? J then
      mul (ph (w_e (snd tr))) (isum 0 (e_ndc (w_e (snd tr))) (fun j =>
        if nth (Z.to_nat j) (e_pos (w_e (snd tr))) 0 =? g then at_ (w_orb (snd tr)) (p * e_ndc (w_e (snd tr)) + j) else zero))
    else zero) im).

(** A list of images is well formed: every image of a corrected type belongs to
    an atom of that type, holds nodes of the process ([nd] of them), and its
    matrix has the right size. *)
Definition image_ok (ts : list (otype (K:=K))) (nd : Z) (tr : otype (K:=K) * row (K:=K)) : Prop :=
  In (fst tr, e_atom (w_e (snd tr))) (catoms 0 ts) /\
  e_ndc (w_e (snd tr)) = Z.of_nat (length (e_pos (w_e (snd tr)))) /\
  sz (w_orb (snd tr)) = e_ndc (w_e (snd tr)) * o_np (fst tr) /\
  forall g, In g (e_pos (w_e (snd tr))) -> 0 <= g < nd.

Definition types_ok (ts : list (otype (K:=K))) : Prop :=
  Forall (fun t => 1 <= o_nat t /\ 0 <= o_np t) ts /\ existsb o_solve ts = true.

(** Inner product of the orbital with a vector on the grid of all processes:
    each process has its images, its number of nodes and its values. *)
Definition proj (ph : entry -> K) (dV : K) (ts : list (otype (K:=K)))
    (D : list (list (list (row (K:=K))) * Z * (Z -> K))) (J p : Z) : K :=
  mul dV (ksum (map (fun pr => let '(L, nd, x) := pr in
    isum 0 nd (fun g => mul (orbital ph (images ts L) J p g) (x g))) D)).

(** U_r (1/2 - n)_{rc} *)
Definition vmat (half : K) (t : otype (K:=K)) (n : arr K) (r c : Z) : K :=
  mul (sub (if r =? c then half else zero) (at_ n (o_np t * c + r))) (at_ (o_uval t) r).

End SPEC.
