(** Cell lengths, the lattice vectors used for band-structure k-points, and the
    Bloch phase those k-points enter. *)
From Coq Require Import Reals.
From Verif Require Import CBase BandK Lattice.
Local Open Scope R_scope.

(** what the input file gives: LATVEC_SCALE (flag and three factors) or CELL
    (three lengths), and the LATVEC rows; src/readfiles.c:1030-1033 rejects both *)
Record cell_input := CI { Flag_latvec_scale : bool; latvec_scale : vec; cell : vec; LatVec : mat }.
Definition comp (v : vec) (i : nat) : R :=
  match i with 0%nat => vx v | 1%nat => vy v | _ => vz v end.
(** src/readfiles.c:1035-1049 (LATVEC_SCALE), src/initialization.c:1502-1508 *)
Definition range (c : cell_input) (i : nat) : R :=
  if Flag_latvec_scale c then comp (latvec_scale c) i * mag (LatVec c) i else comp (cell c) i.
(** src/initialization.c:792-794: the factors stay -1 when LATVEC_SCALE is absent *)
Definition scale_seen (c : cell_input) : vec :=
  if Flag_latvec_scale c then latvec_scale c else V (-1) (-1) (-1).
(** src/initialization.c:83-96 *)
Definition band_a (c : cell_input) (i : nat) : vec :=
  V (LatVec c i 0%nat * comp (scale_seen c) i) (LatVec c i 1%nat * comp (scale_seen c) i) (LatVec c i 2%nat * comp (scale_seen c) i).
(** src/initialization.c:121-162: k1, k2, k3 of a point with reduced coordinates [k] *)
Definition band_k (c : cell_input) (k : vec) : vec := to_cart (band_a c 0) (band_a c 1) (band_a c 2) k.
(** src/lapVecRoutinesKpt.c:370-372, src/gradVecRoutinesKpt.c:179-181,
    src/nlocVecRoutines.c:915: angle of the Bloch factor picked up by going once
    through the cell along direction [i] *)
Definition bloch_angle (c : cell_input) (k : vec) (i : nat) : R := comp k i * range c i.
