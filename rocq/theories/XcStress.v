(** Exchange-correlation stress and pressure: Calculate_XC_stress (/repo/src/stress.c:508-596), Calculate_XC_pressure
    (/repo/src/pressure.c:151-209) and Exc_corr (/repo/src/energy.c:93-115, 166).

    Simplifications, for the whole file: those of XcGrid.v. The density and the arrays left by Calculate_Vxc belong
    together (the SCF loop has converged). The terms added afterwards by other functions are left out: the core term
    (stress.c:598-606), DFT-D3 (608-610, C75), vdW-DF (612-614), the orbital term of the meta-GGAs (stress.c:130-140)
    and the exact exchange that energy.c:185 adds to Exc. The sums over processes are sums over the grid. *)
From Coq Require Import Reals ZArith List Bool String.
From Verif Require Import CBase Collect Halo P_Halo Xc XcSpin XcGrid.
Import ListNotations.
Local Open Scope R_scope.

(** cell_measure (stress.c:583-590, pressure.c:124-131): BC = 0 is periodic. *)
Definition cell_measure (Jacbdet : R) (BC : nat -> Z) (range : nat -> R) : R :=
  let m := Jacbdet in
  let m := if (BC 0%nat =? 0)%Z then m * range 0%nat else m in
  let m := if (BC 1%nat =? 0)%Z then m * range 1%nat else m in
  if (BC 2%nat =? 0)%Z then m * range 2%nat else m.

(** gradT (initialization.c:3575-3580) of the lattice vectors, the rows of [L] *)
Definition gradT (L : nat -> R) (Jacbdet : R) (k : nat) : R :=
  let j := Nat.div k 3 in let i := Nat.modulo k 3 in
  let n a b := (Nat.modulo (a + b) 3) in
  (L (3 * n j 1 + n i 1)%nat * L (3 * n j 2 + n i 2)%nat - L (3 * n j 1 + n i 2)%nat * L (3 * n j 2 + n i 1)%nat) / Jacbdet.
(** lapcT (initialization.c:3583-3593) *)
Definition lapcT (G : nat -> R) (k : nat) : R :=
  let i := Nat.div k 3 in let j := Nat.modulo k 3 in
  fold_left (fun a k => a + G (3 * i + k)%nat * G (3 * j + k)%nat) [0; 1; 2]%nat 0.

Section Stress.
  (** grid, stencil, lapcT, gradT (both row by row), cell_typ, dV *)
  Variables (N : pt) (per : nat -> bool) (D1 : nat -> Z -> R) (F : Z) (T G : nat -> R) (cell_typ : Z) (dV : R).
  Variables (nlcc : bool) (core : field).
  Variables (metax metac : Z -> R -> R -> R -> outcome (R * R * R * R)).
  Variable metax_s : Z -> R * R * R -> R * R * R -> R * R * R -> outcome (R * (R * R) * (R * R) * (R * R)).
  Variable metac_s : Z -> R * R * R -> R * R * R -> R * R * R -> outcome (R * (R * R) * R * R).
  Variable pbexsr : R -> R -> outcome (R * R * R).

  (** Dxcdgrho as Calculate_Vxc leaves it (exchangeCorrelation.c:178-188), spin_typ 0 *)
  Definition dxc1 (XC : string) (c : cfg) (first : bool) (dens tau : field) (m : pt -> res1) : outcome field :=
    let rho := add_rho_core nlcc core dens in
    do r <- fill (fun p => point1 metax metac pbexsr XC c first (rho p) (sigma1 N per D1 F T cell_typ c rho p) (tau p)) (pts N) m ;
    Ok (fun p => dflt0 (snd (fst (r p)))).
  (** the same for spin_typ 1 (exchangeCorrelation.c:334-345): the three columns *)
  Definition dxc3 (XC : string) (c : cfg) (first : bool) (up dn : field) (tau : pt -> R * R * R) (m : pt -> res3)
    : outcome (field * field * field) :=
    let rho := add_rho_core3 nlcc core up dn in
    do r <- fill (fun p => point3 metax_s metac_s pbexsr XC c first (rho p)
                    (sigma3 T cell_typ c (grads_col N per D1 F rho) p) (tau p)) (pts N) m ;
    let w p := dflt3 (snd (fst (r p))) in Ok (col0 w, col1 w, col2 w).

  (** ixc[2] *)
  Definition meta (c : cfg) : outcome bool := do i <- rdo (ixc c) ; let '(_, _, i2, _) := i in Ok (negb (i2 =? 0)%Z).
  Definition dotp (f g : field) : R := fold_left (fun a p => a + f p * g p) (pts N) 0.
  (** Exc_corr (energy.c:95-115, 166), spin_typ 0 and spin_typ 1 *)
  Definition exc_corr1 (mg : bool) (dens v tau z : field) : R :=
    let E3 := dotp dens v * dV in if mg then E3 + dotp tau z * dV else E3.
  Definition exc_corr3 (mg : bool) (up dn vu vd tu td zu zd : field) : R :=
    let E3 := (dotp up vu + dotp dn vd) * dV in if mg then E3 + (dotp tu zu + dotp td zd) * dV else E3.

  (** nonCart2Cart_grad (initialization.c:3674-3684), stress.c:544, 560 *)
  Definition cart (g : R * R * R) : R * R * R :=
    let '(x, y, z) := g in
    if (cell_typ =? 0)%Z then g
    else (G 0 * x + G 3 * y + G 6 * z, G 1 * x + G 4 * y + G 7 * z, G 2 * x + G 5 * y + G 8 * z).
  (** the six products (stress.c:546-551, 562-567) *)
  Definition prod6 (k : nat) (g : R * R * R) : R :=
    let '(x, y, z) := g in
    match k with 0%nat => x * x | 1%nat => x * y | 2%nat => x * z | 3%nat => y * y | 4%nat => y * z | _ => z * z end.
  (** one column of len_tot: the gradient of the density and Dxcdgrho *)
  Definition column : Type := (pt -> R * R * R) * field.
  (** the loop over len_tot entries (stress.c:545-554, 560-570) *)
  Definition sum6 (cols : list column) (k : nat) : R :=
    fold_left (fun a col => fold_left (fun a p => a + prod6 k (cart (fst col p)) * snd col p) (pts N) a) cols 0 * dV.
  (** Calculate_XC_stress up to stress.c:594 *)
  Definition xc_stress (isg : bool) (Exc Exc_corr measure : R) (cols : list column) (k : nat) : outcome R :=
    let d := match k with 0%nat | 3%nat | 5%nat => Exc - Exc_corr | _ => 0 end in
    cdiv (if isg then d - sum6 cols k else d) measure.

  (** Calculate_XC_pressure up to pressure.c:206 *)
  Definition pnorm (g : R * R * R) : R :=
    let '(x, y, z) := g in
    if (cell_typ =? 0)%Z then x * x + y * y + z * z
    else x * (T 0 * x + 2 * T 1 * y) + y * (T 4 * y + 2 * T 5 * z) + z * (T 8 * z + 2 * T 2 * x).
  Definition xc_pressure (isg : bool) (Exc Exc_corr : R) (cols : list column) : R :=
    let d := 3 * Exc - Exc_corr in
    if isg then d - fold_left (fun a col => fold_left (fun a p => a + pnorm (fst col p) * snd col p) (pts N) a) cols 0 * dV else d.

  (** Calculate_Vxc, Calculate_Exc, energy.c and Calculate_XC_stress in turn, spin_typ 0: (stress_xc, pres_xc) *)
  Definition run1 (XC : string) (c : cfg) (first : bool) (dens tau : field) (m : pt -> res1) (measure : R)
    : outcome ((nat -> outcome R) * R) :=
    do r <- calc_vxc1 N per D1 F T cell_typ nlcc core metax metac pbexsr XC c first dens tau m ;
    let '(e, v, z) := r in
    do w <- dxc1 XC c first dens tau m ;
    do mg <- meta c ;
    let Exc := calc_exc N dV nlcc core dens e in
    let corr := exc_corr1 mg dens v tau z in
    let cols := [(grad3 N per D1 F (add_rho_core nlcc core dens), w)] in
    Ok (xc_stress (isgrad c) Exc corr measure cols, xc_pressure (isgrad c) Exc corr cols).
  (** the same for spin_typ 1 *)
  Definition run3 (XC : string) (c : cfg) (first : bool) (up dn tu td : field) (m : pt -> res3) (measure : R)
    : outcome ((nat -> outcome R) * R) :=
    let tau p := (tu p + td p, tu p, td p) in
    do r <- calc_vxc_sp N per D1 F T cell_typ nlcc core metax_s metac_s pbexsr XC c first up dn tau m ;
    let '(e, (vu, vd), (zu, zd)) := r in
    do w <- dxc3 XC c first up dn tau m ;
    do mg <- meta c ;
    let Exc := calc_exc N dV nlcc core (fun p => up p + dn p) e in
    let corr := exc_corr3 mg up dn vu vd tu td zu zd in
    let rho := add_rho_core3 nlcc core up dn in
    let '(w0, w1, w2) := w in
    let cols := [(grad3 N per D1 F (col0 rho), w0); (grad3 N per D1 F (col1 rho), w1); (grad3 N per D1 F (col2 rho), w2)] in
    Ok (xc_stress (isgrad c) Exc corr measure cols, xc_pressure (isgrad c) Exc corr cols).
End Stress.
