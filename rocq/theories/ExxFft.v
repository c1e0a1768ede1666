(** Exact exchange with k-points: the table of Bloch shifts k-q, the phase factors, the kernel tables on the
    reciprocal grid and the FFT Poisson solver.
    src/xc/exx/exactExchangeInitialization.c (compute_pois_fft_const, find_k_shift, kshift_phasefactor,
    auxiliary_constant) and src/xc/exx/exactExchangeKpt.c (apply_phase_factor, pois_fft_kpt),
    src/xc/exx/exactExchange.c (pois_fft).  Real and complex arithmetic are exact; one right-hand side at a time
    (the code repeats the same steps for each of its ncol columns, which do not overlap). *)
From Coq Require Import Reals ZArith List Bool Lia Lra.
From Coquelicot Require Import Complex.
From Verif Require Import CBase BandK Lattice ExxKernel.
Import ListNotations.
Open Scope R_scope.

(** ** Bloch shifts *)

(** fabs(.) < TEMP_TOL in all three components (exactExchangeInitialization.c:617-618, 626-628; TEMP_TOL = 1e-12,
    the TOL of Lattice.v). *)
Definition near (a b : vec) : bool :=
  Rltb (Rabs (vx a - vx b)) TOL && Rltb (Rabs (vy a - vy b)) TOL && Rltb (Rabs (vz a - vz b)) TOL.
Definition vzero : vec := V 0 0 0.
Definition tiny (a : vec) : bool := Rltb (Rabs (vx a)) TOL && Rltb (Rabs (vy a)) TOL && Rltb (Rabs (vz a)) TOL.

(** The search `for (i = 0; i < count; i++) if (...) { flag = i; break; }` with flag = 0 before
    (exactExchangeInitialization.c:624-633). *)
Fixpoint find_flag (i : nat) (sh : list vec) (t : vec) : nat :=
  match sh with [] => 0%nat | s :: r => if near s t then i else find_flag (Datatypes.S i) r t end.

(** One (k,q) pair (exactExchangeInitialization.c:614-642).  [cap] is the length of the three calloc'ed arrays
    k1_shift, k2_shift, k3_shift; a write at index count >= cap is out of bounds.  [mp] collects
    Kptshift_map in storage order: the loops run k_ind fastest and the macro index is k_ind + q_ind*Nkpts_sym. *)
Definition shift_step (cap : nat) (st : list vec * list nat) (t : vec) : outcome (list vec * list nat) :=
  let (sh, mp) := st in
  if tiny t then Ok (sh, mp ++ [0%nat])
  else match find_flag 0 sh t with
       | 0%nat => if (length sh <? cap)%nat then Ok (sh ++ [t], mp ++ [length sh]) else UB
       | flag => Ok (sh, mp ++ [flag])
       end.
Fixpoint shift_loop (cap : nat) (ts : list vec) (st : list vec * list nat) : outcome (list vec * list nat) :=
  match ts with [] => Ok st | t :: r => do st' <- shift_step cap st t ; shift_loop cap r st' end.
(** The differences k - q in the order of the loops (exactExchangeInitialization.c:611-616). *)
Definition diffs (ks qs : list vec) : list vec := flat_map (fun q => map (fun k => vsub k q) ks) qs.
(** find_k_shift (exactExchangeInitialization.c:591-674): entry 0 is the zero shift (:609); the arrays have
    Nkpts_sym*Nkpts_hf entries (:600-602).  Result: all shifts with the zero one first (the code drops it again,
    :645-654, so its k_shift[i] is our entry i+1 and Nkpts_shift is our length) and Kptshift_map. *)
Definition find_k_shift (ks qs : list vec) : outcome (list vec * list nat) :=
  let cap := (length ks * length qs)%nat in
  if (cap =? 0)%nat then UB else shift_loop cap (diffs ks qs) ([vzero], []).

(** ** Reciprocal grid *)

(** Mesh: numbers of points, lengths delta*N used for wave vectors (exactExchangeInitialization.c:295-297), cell
    lengths range_x,y,z used for positions (:690-692), and the transformation matrix lapcT. *)
Record grid := Grid { Nx : nat; Ny : nat; Nz : nat; len : vec; range : vec; lapT : mat }.
Definition Nd (g : grid) : nat := (Nx g * Ny g * Nz g)%nat.

(** (i < N/2+1) ? i : i-N (exactExchangeInitialization.c:307-309). *)
Definition fold1 (N i : nat) : Z := if (i <? N / 2 + 1)%nat then Z.of_nat i else (Z.of_nat i - Z.of_nat N)%Z.
(** G[0..2] before the shift (:307-309). *)
Definition Gvec (g : grid) (i j k : nat) : vec :=
  V (IZR (fold1 (Nx g) i) * 2 * PI / vx (len g)) (IZR (fold1 (Ny g) j) * 2 * PI / vy (len g))
    (IZR (fold1 (Nz g) k) * 2 * PI / vz (len g)).
(** matrixTimesVec_3d (tools.c:2411-2420), A(i,j) = A[i+3j], applied to the row-major lapcT. *)
Definition matvec (A : mat) (b : vec) : vec :=
  let row i := 0 + A 0%nat i * vx b + A 1%nat i * vy b + A 2%nat i * vz b in V (row 0%nat) (row 1%nat) (row 2%nat).
(** G2 = G . lapcT G (exactExchangeInitialization.c:315-316). *)
Definition G2of (g : grid) (q : vec) : R := dot q (matvec (lapT g) q).

(** Triple loop storing at successive positions, i fastest. *)
Definition grid3 {A} (nx ny nz : nat) (f : nat -> nat -> nat -> A) : list A :=
  flat_map (fun k => flat_map (fun j => map (fun i => f i j k) (seq 0 nx)) (seq 0 ny)) (seq 0 nz).

(** The shift with loop index l: k_shift[l] = our entry l+1, except the last, which is zero
    (exactExchangeInitialization.c:310-314; also :100-106 for the real-space solver). *)
Definition shift_of (sh : list vec) (l : nat) : vec :=
  if (l <? length sh - 1)%nat then nth (l + 1) sh vzero else vzero.
(** compute_pois_fft_const (exactExchangeInitialization.c:286-325) without the real-FFT saving: count runs through
    the grid and each slice l starts at l*Nd, which is where the previous one ended. *)
Definition compute_pois_fft_const (e : exx) (g : grid) (sh : list vec) : list R :=
  flat_map (fun l => grid3 (Nx g) (Ny g) (Nz g) (fun i j k => kval e (G2of g (vadd (Gvec g i j k) (shift_of sh l)))))
    (seq 0 (length sh)).
(** The same for the gamma point: Nx_len = Nx/2+1 (exactExchangeInitialization.c:287) and one shift, the zero one. *)
Definition compute_pois_fft_const_gamma (e : exx) (g : grid) : list R :=
  grid3 (Nx g / 2 + 1) (Ny g) (Nz g) (fun i j k => kval e (G2of g (Gvec g i j k))).

(** ** Phase factors *)

Definition cis (t : R) : C := (cos t, sin t).
(** Grid position (exactExchangeInitialization.c:709-711). *)
Definition pos (g : grid) (i j k : nat) : vec :=
  V (INR i * vx (range g) / INR (Nx g)) (INR j * vy (range g) / INR (Ny g)) (INR k * vz (range g) / INR (Nz g)).
(** kshift_phasefactor (exactExchangeInitialization.c:681-723); sg = -1 for neg_phase, 1 for pos_phase;
    Nkpts_shift - 1 slices, index l*Nd + k*Nxy + j*Nx + i. *)
Definition phases (sg : R) (g : grid) (sh : list vec) : list C :=
  flat_map (fun l => grid3 (Nx g) (Ny g) (Nz g) (fun i j k =>
    let dot_prod := vx (pos g i j k) * vx (nth (l + 1) sh vzero) + vy (pos g i j k) * vy (nth (l + 1) sh vzero)
                    + vz (pos g i j k) * vz (nth (l + 1) sh vzero) in
    (cos dot_prod, sg * sin dot_prod))) (seq 0 (length sh - 1)).

(** Array reads; outside the array the behaviour is undefined. *)
Definition get {A} (a : list A) (i : nat) : outcome A := match nth_error a i with Some v => Ok v | None => UB end.
Fixpoint mapo {A} (f : nat -> outcome A) (is : list nat) : outcome (list A) :=
  match is with [] => Ok [] | i :: r => do v <- f i ; do vs <- mapo f r ; Ok (v :: vs) end.

(** apply_phase_factor for one column (exactExchangeKpt.c:1152-1157). *)
Definition apply_phase_factor (n : nat) (phase : list C) (l : nat) (v : list C) : outcome (list C) :=
  match l with
  | 0%nat => Ok v
  | _ => mapo (fun i => do x <- get v i ; do p <- get phase (i + (l - 1) * n)%nat ; Ok (Cmult x p)) (seq 0 n)
  end.

(** ** Discrete Fourier transform *)
Fixpoint csum (n : nat) (f : nat -> C) : C :=
  match n with 0%nat => RtoC 0 | Datatypes.S m => Cplus (csum m f) (f m) end.
Definition csum3 (nx ny nz : nat) (f : nat -> nat -> nat -> C) : C :=
  csum nz (fun k => csum ny (fun j => csum nx (fun i => f i j k))).
Definition ix (nx ny i j k : nat) : nat := (i + j * nx + k * (nx * ny))%nat.
(** The angle 2 pi (a i/Nx + b j/Ny + c k/Nz). *)
Definition angle (nx ny nz a b c i j k : nat) : R :=
  2 * PI * (INR a * INR i / INR nx + INR b * INR j / INR ny + INR c * INR k / INR nz).
(** FFTW_FORWARD / DftiComputeForward on dimensions {Nz,Ny,Nx}, last one fastest (exactExchangeKpt.c:937-942,
    tools.c:2733-2740): the unscaled transform.  The libraries are trusted to compute it. *)
Definition dft (nx ny nz : nat) (v : list C) : list C :=
  grid3 nx ny nz (fun a b c => csum3 nx ny nz (fun i j k =>
    Cmult (nth (ix nx ny i j k) v (RtoC 0)) (cis (- angle nx ny nz a b c i j k)))).
(** FFTW_BACKWARD / DftiComputeBackward followed by the division by N (tools.c:2743-2754, 2644-2672). *)
Definition idft (nx ny nz : nat) (v : list C) : list C :=
  grid3 nx ny nz (fun i j k => Cdiv (csum3 nx ny nz (fun a b c =>
    Cmult (nth (ix nx ny a b c) v (RtoC 0)) (cis (angle nx ny nz a b c i j k)))) (RtoC (INR (nx * ny * nz)))).

(** ** Poisson solver *)

(** pois_fft_kpt for one column (exactExchangeKpt.c:910-973); [l] is Kptshift_map(kpt_k, kpt_q), [ns] is
    Nkpts_shift, [neg], [ps] the phase tables and [alpha0] the constants (pois_const or one of the others). *)
Definition pois_fft_kpt (g : grid) (neg ps : list C) (alpha0 : list R) (ns l : nat) (rhs : list C) : outcome (list C) :=
  do rhs_ <- apply_phase_factor (Nd g) neg l rhs ;
  let rhs_bar := dft (Nx g) (Ny g) (Nz g) rhs_ in
  let off := match l with 0%nat => (Nd g * (ns - 1))%nat | _ => (Nd g * (l - 1))%nat end in
  do rhs_bar' <- mapo (fun i => do x <- get rhs_bar i ; do a <- get alpha0 (off + i)%nat ; Ok (Re x * a, Im x * a))
                   (seq 0 (Nd g)) ;
  apply_phase_factor (Nd g) ps l (idft (Nx g) (Ny g) (Nz g) rhs_bar').

(** The complex-to-real transform uses the stored half and, for the other half, its conjugate at the opposite
    wave vector (FFTW c2r / MKL CCE storage; tools.c:2766-2776, 2580-2612). *)
Definition opp1 (N a : nat) : nat := if (a =? 0)%nat then 0%nat else (N - a)%nat.
Definition hermitian (nx ny nz : nat) (h : list C) : list C :=
  let hx := (nx / 2 + 1)%nat in
  grid3 nx ny nz (fun a b c =>
    if (a <? hx)%nat then nth (ix hx ny a b c) h (RtoC 0)
    else Cconj (nth (ix hx ny (opp1 nx a) (opp1 ny b) (opp1 nz c)) h (RtoC 0))).
(** The real-to-complex transform keeps a <= Nx/2 (tools.c:2757-2764). *)
Definition dft_half (nx ny nz : nat) (v : list C) : list C :=
  grid3 (nx / 2 + 1) ny nz (fun a b c => nth (ix nx ny a b c) (dft nx ny nz v) (RtoC 0)).
(** pois_fft for one column (exactExchange.c:906-950).  The complex-to-real transform returns real numbers: it drops
    the imaginary parts of the entries that are their own opposites. *)
Definition pois_fft (g : grid) (alpha : list R) (rhs : list R) : outcome (list R) :=
  let hx := (Nx g / 2 + 1)%nat in
  let bar := dft_half (Nx g) (Ny g) (Nz g) (map RtoC rhs) in
  do bar' <- mapo (fun i => do x <- get bar i ; do a <- get alpha i ; Ok (Re x * a, Im x * a))
               (seq 0 (Nz g * Ny g * hx)) ;
  Ok (map Re (idft (Nx g) (Ny g) (Nz g) (hermitian (Nx g) (Ny g) (Nz g) bar'))).
