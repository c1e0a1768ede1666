(** Check_atomlocation: the warning about atoms that are too close (/repo/src/md.c:1759-1803, without the wrapping of 1802,
    which is C28). Simplifications: real numbers; atom_pos as a list of triples; the text of the warning is the distance. *)
From Coq Require Import Reals ZArith List Bool.
From Verif Require Import CBase BandK.
Import ListNotations.
Local Open Scope R_scope.

(** md.c:1761 *)
Definition tol_close : R := / 2.
Definition rd {A} (l : list A) (i : nat) : outcome A := match nth_error l i with Some x => Ok x | None => UB end.
(** md.c:1766-1768: the largest cutoff of a type; [lmax] as read from the pseudopotential *)
Definition rc_of (lmax : nat) (rc : list R) : outcome R :=
  fold_left (fun acc i => do m <- acc ; do r <- rd rc i ; Ok (Rmax m r)) (seq 0 (lmax + 1)) (Ok 0).
Fixpoint all_rc (psd : list (nat * nat * list R)) : outcome (list (nat * R)) :=
  match psd with
  | [] => Ok []
  | (nat_, lmax, rc) :: psd => do r <- rc_of lmax rc ; do l <- all_rc psd ; Ok ((nat_, r) :: l)
  end.
(** md.c:1772-1780 and 1782-1790: the variable keeps its value when no type is found *)
Fixpoint find_rc (count : nat) (ts : list (nat * R)) (a : nat) (old : R) : R :=
  match ts with
  | [] => old
  | (m, r) :: ts => let count := (count + m)%nat in if (a <? count)%nat then r else find_rc count ts a old
  end.
(** md.c:1791 *)
Definition dist (p q : vec) : R := Rabs (sqrt ((vx p - vx q) ^ 2 + (vy p - vy q) ^ 2 + (vz p - vz q) ^ 2)).
(** md.c:1781-1798: the warning, if any, and rc2 *)
Fixpoint inner (ts : list (nat * R)) (pos : list vec) (a : nat) (rc1 : R) (l : list nat) (rc2 : R) : outcome (option R * R) :=
  match l with
  | [] => Ok (None, rc2)
  | b :: l =>
      let rc2 := find_rc 0 ts b rc2 in
      do p <- rd pos a ; do q <- rd pos b ;
      let temp := dist p q in
      if Rlt_dec temp ((1 - tol_close) * (rc1 + rc2)) then Ok (Some temp, rc2) else inner ts pos a rc1 l rc2
  end.
(** md.c:1771-1799; both loops end at the first warning (1795-1796) *)
Fixpoint outer (ts : list (nat * R)) (pos : list vec) (n : nat) (l : list nat) (rc1 rc2 : R) : outcome (option R) :=
  match l with
  | [] => Ok None
  | a :: l =>
      let rc1 := find_rc 0 ts a rc1 in
      do r <- inner ts pos a rc1 (seq (a + 1) (n - (a + 1))) rc2 ;
      match fst r with Some d => Ok (Some d) | None => outer ts pos n l rc1 (snd r) end
  end.
Definition check_close (psd : list (nat * nat * list R)) (n : nat) (pos : list vec) : outcome (option R) :=
  do ts <- all_rc psd ; outer ts pos n (seq 0 (n - 1)) 0 0.
