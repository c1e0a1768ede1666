(** The nonlocal operator as a formula: a sum over the atoms and their
    projectors of  Gamma |P2> <P1|, where a projector on the grid is a sum over
    the periodic images of the atom.  Nothing here refers to processes,
    influence lists or array positions. *)
From Coq Require Import ZArith QArith List.
From Verif Require Import CBase Nloc NlocSpec VnlOp.
Import ListNotations.
Local Open Scope Z_scope.

(** The projectors of a type are the triples (l, g, m): a channel [l] other
    than the local one, one of its radial functions, a magnetic number; [g] is
    the index of the radial function among those of all channels, the local
    one included. *)
Definition is_projector (s : psp) (cl : Z * Z * Z) : Prop :=
  let '(l, g, m) := cl in
  0 <= l < Z.of_nat (length (p_ppl s)) /\ l <> p_loc s /\ - l <= m <= l /\
  zsum (firstn (Z.to_nat l) (p_ppl s)) <= g < zsum (firstn (S (Z.to_nat l)) (p_ppl s)).

(** Every atom with its type, cutoff and index; atoms are stored type by
    type. *)
Record site := Site { st_typ : nat; st_psp : psp; st_rc : Q; st_atom : Z }.
Fixpoint sites (ty : nat) (a : Z) (ats : list atyp) (ps : list psp) : list site :=
  match ats, ps with
  | t :: ats', s :: ps' =>
    map (fun j => Site ty s (max_rc t) j) (zseq a (Z.to_nat (t_n t))) ++
    sites (S ty) (a + t_n t) ats' ps'
  | _, _ => []
  end.

Definition atom_pos (pos : list (Q * Q * Q)) (a : Z) : Q * Q * Q :=
  nth (Z.to_nat a) pos (0%Q, 0%Q, 0%Q).

(** [All a] holds every image of atom [a] that matters: it has no duplicates,
    only images, and all images with a grid node inside the cutoff. *)
Definition all_images (c : cell) (pos : list (Q * Q * Q)) (grid : list tri) (ss : list site)
    (All : Z -> list tri) : Prop :=
  forall st, In st ss ->
    NoDup (All (st_atom st)) /\ (forall im, In im (All (st_atom st)) -> is_image c im) /\
    (forall im nd, is_image c im -> In nd grid ->
       (norm2 c (disp c (atom_pos pos (st_atom st)) im nd) < st_rc st * st_rc st)%Q ->
       In im (All (st_atom st))).

Section SPEC.
Context {K : Type} (zero : K) (add mul : K -> K -> K).
Variable chi : nat -> Z * Z * Z -> Q * Q * Q -> K.
Variable gamma : nat -> list K.
Variable dV : K.

(** Projector [cl] of an atom at a node, the image at [R] weighted with
    [w R]. *)
Definition projector (c : cell) (pos : list (Q * Q * Q)) (All : Z -> list tri)
    (w : Q * Q * Q -> K) (st : site) (cl : Z * Z * Z) (nd : tri) : K :=
  let p0 := atom_pos pos (st_atom st) in
  ksum zero add (map (fun im => mul (w (image_pos c p0 im)) (chi (st_typ st) cl (disp c p0 im nd)))
    (All (st_atom st))).

(** Inner product of a projector with a grid function. *)
Definition overlap (c : cell) (pos : list (Q * Q * Q)) (All : Z -> list tri)
    (w : Q * Q * Q -> K) (grid : list tri) (f : tri -> K) (st : site) (cl : Z * Z * Z) : K :=
  ksum zero add (map (fun nd => mul (mul dV (projector c pos All w st cl nd)) (f nd)) grid).

Definition gamma_of (st : site) (cl : Z * Z * Z) : K :=
  nth (Z.to_nat (snd (fst cl))) (gamma (st_typ st)) zero.

Definition Vnl_spec (c : cell) (pos : list (Q * Q * Q)) (All : Z -> list tri)
    (w1 w2 : Q * Q * Q -> K) (grid : list tri) (ss : list site) (f : tri -> K) (nd : tri) : K :=
  ksum zero add (map (fun st =>
    ksum zero add (map (fun cl =>
      mul (gamma_of st cl) (mul (projector c pos All w2 st cl nd)
        (overlap c pos All w1 grid f st cl))) (cols (st_psp st)))) ss).

End SPEC.
