(** Process-grid selection (src/parallelization.c:1226-1938) and the chunked
    all-reduce (src/parallelization.c:3002-3047).

    Floating-point quantities only steer comparisons in these functions. They
    are kept abstract: a type [W] of doubles, the conversion of an integer
    quotient and the comparisons are parameters, so the results hold for any
    rounding. *)
From Coq Require Import ZArith List Lia Bool.
From Coq Require Import ZifyBool ZifyNat.
From Verif Require Import CBase Mem Factors.
Import ListNotations.
Local Open Scope Z_scope.

(** ** SPARC_Dims_create, src/parallelization.c:1226-1424 *)

(** ndims = 1, src/parallelization.c:1231-1233. *)
Definition dims1 (nproc g minsize : Z) : outcome Z :=
  do q <- c_div g minsize ; Ok (Z.max (Z.min nproc q) 1).

(** Wrapping of a candidate that leaves [1,nproc],
    src/parallelization.c:1245, 1263, 1318, 1347, 1374. [S] is the number of
    candidates (NPSTRIDE*2+1). *)
Definition wrap_cand (S nproc t : Z) : Z :=
  if 0 <? t then (if t <=? nproc then t else t - S) else t + S.

(** The scan for the candidate using most processes,
    src/parallelization.c:1281-1298 and 1398-1413. A candidate is the list of
    its dimensions; [None] is an entry with [npi = 0]. [ok] is the minimum
    size test, [lt c b] compares [rnormi] of [c] with [min_rnorm], which is
    the norm of the current best [b], or 1e4 initially ([None]). *)
Section Scan.
  Variable lt : list Z -> option (list Z) -> bool.
  Variable nproc : Z.
  Variable ok : list Z -> outcome bool.

  Fixpoint iprod (l : list Z) : outcome Z :=
    match l with
    | [] => Ok 1
    | x :: r => do p <- iprod r ; imul x p
    end.

  Fixpoint scan (cs : list (option (list Z))) (best : option (list Z)) (max_npi : Z)
    : outcome (option (list Z)) :=
    match cs with
    | [] => Ok best
    | None :: r =>
      (* npi = 0 is skipped by [npi <= 0] *)
      scan r best max_npi
    | Some c :: r =>
      do npi <- iprod c ;
      if (npi <? max_npi) || (nproc <? npi) || (npi <=? 0) then scan r best max_npi
      else
        do b <- ok c ;
        if (max_npi <? npi) && b then scan r (Some c) npi
        else if (npi =? max_npi) && lt c best then scan r (Some c) max_npi
        else scan r best max_npi
    end.
End Scan.

(** Minimum size test [gridsizes[k]/dims[k] >= minsize] for all k,
    src/parallelization.c:1286 and 1403. *)
Fixpoint size_ok (minsize : Z) (g c : list Z) : outcome bool :=
  match g, c with
  | gi :: g', ci :: c' =>
    do q <- c_div gi ci ;
    if minsize <=? q then size_ok minsize g' c' else Ok false
  | _, _ => Ok true
  end.

(** ndims = 2, src/parallelization.c:1234-1307. [est] is the initial estimate
    [(round(g0*r), round(g1*r))]; [lt] the comparison of norms. *)
Definition cands2 (nproc g0 g1 minsize : Z) (est : Z * Z) : outcome (list (option (list Z))) :=
  let fst_cand i :=
    let x := wrap_cand 11 nproc (fst est + i - 5) in
    if (0 <? x) && (x <=? nproc) then
      do q <- c_div nproc x ; do y <- dims1 (Z.max 1 q) g1 minsize ; Ok (Some [x; y])
    else Ok None in
  let snd_cand j :=
    let y := wrap_cand 11 nproc (snd est + j - 5) in
    if (0 <? y) && (y <=? nproc) then
      do q <- c_div nproc y ; do x <- dims1 (Z.max 1 q) g0 minsize ; Ok (Some [x; y])
    else Ok None in
  fold_right (fun c acc => do x <- c ; do l <- acc ; Ok (x :: l)) (Ok [])
    (map fst_cand (zseq 0 11) ++ map snd_cand (zseq 0 11)).

Section DimsCreate.
  (** Estimates [round(g*r)] and norm comparisons, as oracles. *)
  Variable est2 : Z -> Z -> Z -> Z -> Z * Z.          (* nproc g0 g1 minsize *)
  Variable est3 : Z -> Z -> Z -> Z -> Z -> Z * Z * Z. (* nproc g0 g1 g2 minsize *)
  Variable lt : list Z -> list Z -> option (list Z) -> bool. (* grid, candidate, best *)

  Definition dims2 (nproc g0 g1 minsize : Z) : outcome (list Z * Z) :=
    do cs <- cands2 nproc g0 g1 minsize (est2 nproc g0 g1 minsize) ;
    do best <- scan (lt [g0; g1]) nproc (size_ok minsize [g0; g1]) cs None 0 ;
    match best with
    | Some c => Ok (c, 0)
    | None => Ok ([nproc; 1], 1)
    end.

  (** One candidate of the 3-D search: direction [ax] gets [d] processes and
      the other two are split by the 2-D search,
      src/parallelization.c:1315-1341, 1344-1370, 1372-1395. The second
      component is the value of [*ierr] afterwards. *)
  Definition cand3 (nproc g0 g1 g2 minsize : Z) (ax : nat) (t ierr : Z)
    : outcome (option (list Z) * Z) :=
    let d := wrap_cand 5 nproc t in
    if (0 <? d) && (d <=? nproc) then
      do q <- c_div nproc d ;
      match ax with
      | O => do r <- dims2 (Z.max 1 q) g1 g2 minsize ;
             match fst r with [y; z] => Ok (Some [d; y; z], snd r) | _ => UB end
      | S O => do r <- dims2 (Z.max 1 q) g0 g2 minsize ;
             match fst r with [x; z] => Ok (Some [x; d; z], snd r) | _ => UB end
      | _ => do r <- dims2 (Z.max 1 q) g0 g1 minsize ;
             match fst r with [x; y] => Ok (Some [x; y; d], snd r) | _ => UB end
      end
    else Ok (None, ierr).

  Fixpoint cands3 (nproc g0 g1 g2 minsize : Z) (todo : list (nat * Z)) (ierr : Z)
    : outcome (list (option (list Z)) * Z) :=
    match todo with
    | [] => Ok ([], ierr)
    | (ax, t) :: r =>
      do c <- cand3 nproc g0 g1 g2 minsize ax t ierr ;
      do rest <- cands3 nproc g0 g1 g2 minsize r (snd c) ;
      Ok (fst c :: fst rest, snd rest)
    end.

  Definition dims3 (nproc g0 g1 g2 minsize : Z) : outcome (list Z * Z) :=
    let '(e0, e1, e2) := est3 nproc g0 g1 g2 minsize in
    let todo := map (fun i => (0%nat, e0 + i - 2)) (zseq 0 5)
             ++ map (fun i => (1%nat, e1 + i - 2)) (zseq 0 5)
             ++ map (fun i => (2%nat, e2 + i - 2)) (zseq 0 5) in
    do r <- cands3 nproc g0 g1 g2 minsize todo 0 ;
    do best <- scan (lt [g0; g1; g2]) nproc (size_ok minsize [g0; g1; g2]) (fst r) None 0 ;
    match best with
    | Some c => Ok (c, snd r)
    | None => Ok ([nproc; 1; 1], 1)
    end.

  (** src/parallelization.c:1226-1424. Any other number of directions exits. *)
  Definition SPARC_Dims_create (nproc : Z) (gridsizes : list Z) (minsize : Z)
    : outcome (list Z * Z) :=
    let minsize := Z.max minsize 0 in
    match gridsizes with
    | [g] => do d <- dims1 nproc g minsize ; Ok ([d], 0)
    | [g0; g1] => dims2 nproc g0 g1 minsize
    | [g0; g1; g2] => dims3 nproc g0 g1 g2 minsize
    | _ => Exit
    end.
End DimsCreate.

(** Exact values of the floating-point quantities.
    [r = min((nproc/prod)^(1/n), 1/minsize)], src/parallelization.c:1237-1238
    and 1311-1312; [round(g*r) = floor((floor(2*g*r)+1)/2)]. *)
Fixpoint icbrt_search (k : nat) (b n : Z) : Z :=
  match k with
  | O => b
  | S k' => let t := b + 2 ^ Z.of_nat k' in
            if t * t * t <=? n then icbrt_search k' t n else icbrt_search k' b n
  end.
Definition icbrt (n : Z) : Z := icbrt_search 22 0 n.

Definition est2_exact (nproc g0 g1 m : Z) : Z * Z :=
  let G := g0 * g1 in
  let e g := if m * m * nproc <=? G
             then (Z.sqrt (4 * g * g * nproc / G) + 1) / 2
             else (2 * g / m + 1) / 2 in
  (e g0, e g1).
Definition est3_exact (nproc g0 g1 g2 m : Z) : Z * Z * Z :=
  let G := g0 * g1 * g2 in
  let e g := if m * m * m * nproc <=? G
             then (icbrt (8 * g * g * g * nproc / G) + 1) / 2
             else (2 * g / m + 1) / 2 in
  (e g0, e g1, e g2).

(** Exact [rnormi] (without the common positive factor r^2) as a fraction:
    src/parallelization.c:1250-1252 (2-D) and 1324-1328 (3-D). *)
Definition rnorm (g c : list Z) : Z * Z :=
  match g, c with
  | [g0; g1], [x; y] => ((g0 * y - g1 * x) ^ 2, (x * y) ^ 2)
  | [g0; g1; g2], [x; y; z] =>
      ((g0 * y * z - g1 * x * z) ^ 2 + (g0 * y * z - g2 * x * y) ^ 2
       + (g1 * x * z - g2 * x * y) ^ 2, (x * y * z) ^ 2)
  | _, _ => (0, 1)
  end.
Definition lt_exact (g c : list Z) (b : option (list Z)) : bool :=
  match b with
  | Some b => fst (rnorm g c) * snd (rnorm g b) <? fst (rnorm g b) * snd (rnorm g c)
  | None => false (* compared with 1e4 only when npi = max_npi = 0: unreachable *)
  end.

(** ** Work splitting *)

(** src/parallelization.c:1500-1504. *)
Definition workload_assigned (Nk Ns np1 np2 : Z) : outcome Z :=
  do a <- ceil_div Nk np1 ; do b <- ceil_div Ns np2 ; imul a b.

(** Inner loop over the factors of [p], src/parallelization.c:1576-1591.
    [inl] = early return of the pair, [inr] = loop finished. [search_count]
    is never incremented in the C code, so its test never fires. *)
Fixpoint dd2_inner (N1 N2 p : Z) (facs : list Z) (cur1 cur2 best : Z)
  : outcome ((Z * Z) + (Z * Z * Z)) :=
  match facs with
  | [] => Ok (inr (cur1, cur2, best))
  | fac1 :: r =>
    do fac2 <- c_div p fac1 ;
    do load <- workload_assigned N1 N2 fac2 fac1 ;
    let '(c1, c2, b) := if load <? best then (fac2, fac1, load) else (cur1, cur2, best) in
    do m1 <- c_mod N1 fac2 ;
    do hit <- (if m1 =? 0 then do m2 <- c_mod N2 fac1 ; Ok (m2 =? 0) else Ok false) ;
    if hit then Ok (inl (c1, c2)) else dd2_inner N1 N2 p r c1 c2 b
  end.

(** Outer loop, src/parallelization.c:1571-1594. Leaving it normally would
    return without setting *np1, *np2 (the callers then read uninitialised
    variables): [UB]. *)
Fixpoint dd2_outer (junk : mem Z) (N1 N2 : Z) (p : nat) (cur1 cur2 best : Z) : outcome (Z * Z) :=
  match p with
  | O => UB
  | S q =>
    do facs <- sorted_factor junk (Z.of_nat (S q)) ;
    do r <- dd2_inner N1 N2 (Z.of_nat (S q)) facs cur1 cur2 best ;
    match r with
    | inl res => Ok res
    | inr (c1, c2, b) => dd2_outer junk N1 N2 q c1 c2 b
    end
  end.

(** src/parallelization.c:1561-1595. *)
Definition dims_divide_2d (junk : mem Z) (N1 N2 np : Z) : outcome (Z * Z) :=
  let cur1 := Z.min np N1 in
  do q <- c_div np cur1 ;
  let cur2 := Z.min q N2 in
  do best <- workload_assigned N1 N2 cur1 cur2 ;
  do prod <- imul N1 N2 ;
  let np_up := if prod <? np then prod else np in
  dd2_outer junk N1 N2 (Z.to_nat np_up) cur1 cur2 best.

Section Weights.
  Variable W : Type.                       (* double *)
  Variable dquot : Z -> Z -> W.            (* int / (double)int *)
  Variable gtW : W -> W -> bool.           (* comparisons of weights *)
  Variable geW : W -> W -> bool.
  Variable above : Z -> W -> bool.         (* weight > 0.97, 0.95, ... *)
  (** scaling_DMndbyNband, skbd_band/domain_efficiency applied to a weight:
      src/parallelization.c:1701-1780. *)
  Variable scale_fock : Z -> Z -> W -> W.  (* ceil(Nd/npd), ceil(Ns/npb) *)
  Variable scale_skbd : Z -> Z -> W -> W.  (* npb, npd *)

  (** src/parallelization.c:1526-1533. *)
  Definition work_load_efficiency (Nk Ns np np1 np2 np3 : Z) : outcome W :=
    do ncols <- workload_assigned Nk Ns np1 np2 ;
    do a <- imul Nk Ns ; do b <- imul a np3 ; do c <- imul ncols np ;
    Ok (dquot b c).

  (** The list of npdomain (npband) values tried, src/parallelization.c:1653-1671
      and 1806-1824. *)
  Fixpoint np_list (np base : Z) (is : list Z) : outcome (list Z) :=
    match is with
    | [] => Ok []
    | i :: r =>
      do t <- imul base i ;
      do l <- np_list np base r ;
      Ok (if t <=? np then t :: l else l)
    end.
  Definition try_list (len : nat) (np full : Z) : outcome (list Z) :=
    if full <? np then do base <- c_div np full ; np_list np base (zseq 1 len)
    else Ok (zseq 1 len).

  (** Loop of [dims_divide_kbd], src/parallelization.c:1673-1692. *)
  Fixpoint kbd_loop (junk : mem Z) (Nk Ns np : Z) (l : list Z) (cur : Z * Z * Z) (best : W)
    : outcome (Z * Z * Z) :=
    match l with
    | [] => Ok cur
    | npdm :: r =>
      do np_2d <- c_div np npdm ;
      if np_2d <? 1 then kbd_loop junk Nk Ns np r cur best
      else
        do kb <- dims_divide_2d junk Nk Ns np_2d ;
        let '(npkpt, npband) := kb in
        do t <- imul npkpt npband ;
        do npdm <- c_div np t ;
        do weight <- work_load_efficiency Nk Ns np npkpt npband npdm ;
        let '(cur', best') := if gtW weight best then ((npkpt, npband, npdm), weight) else (cur, best) in
        if above 95 weight then Ok cur' else kbd_loop junk Nk Ns np r cur' best'
    end.

  (** src/parallelization.c:1634-1698. *)
  Definition dims_divide_kbd (junk : mem Z) (Nk Ns np : Z) : outcome (Z * Z * Z) :=
    let cur1 := Z.min np Nk in
    do q <- c_div np cur1 ;
    let cur2 := Z.min q Ns in
    do t <- imul cur1 cur2 ;
    do cur3 <- c_div np t ;
    do best <- work_load_efficiency Nk Ns np cur1 cur2 cur3 ;
    if above 97 best then Ok (cur1, cur2, cur3)
    else
      do full <- imul Nk Ns ;
      do l <- try_list 8 np full ;
      kbd_loop junk Nk Ns np l (cur1, cur2, cur3) best.

  (** src/parallelization.c:1739-1747: integer part of [scaling_DMndbyNband]. *)
  Definition scaling (Ns : Z) (gs : Z * Z * Z) (npb npd : Z) (w : W) : outcome W :=
    let '(g0, g1, g2) := gs in
    do a <- imul g0 g1 ; do Nd <- imul a g2 ;
    do x <- ceil_div Nd npd ; do y <- ceil_div Ns npb ;
    Ok (scale_fock x y w).

  (** src/parallelization.c:1769-1778. *)
  Definition work_load_efficiency_fock (Nk Ns : Z) (gs : Z * Z * Z) (np np1 np2 np3 : Z) : outcome W :=
    do w <- work_load_efficiency Nk Ns np np1 np2 np3 ; scaling Ns gs np2 np3 w.

  (** Loop of [dims_divide_kbd_fock], src/parallelization.c:1826-1842. *)
  Fixpoint fock_loop (Nk Ns : Z) (gs : Z * Z * Z) (np : Z) (l : list Z) (cur : Z * Z * Z) (best : W)
    : outcome (Z * Z * Z) :=
    match l with
    | [] => Ok cur
    | npb :: r =>
      do np_2d <- c_div np npb ;
      if np_2d <? 1 then fock_loop Nk Ns gs np r cur best
      else
        let npkpt := Z.min np_2d Nk in
        do npdm <- c_div np_2d npkpt ;
        do t <- imul npkpt npdm ;
        do npband <- c_div np t ;
        do weight <- work_load_efficiency_fock Nk Ns gs np npkpt npband npdm ;
        let '(cur', best') := if gtW weight best then ((npkpt, npband, npdm), weight) else (cur, best) in
        if above 93 weight then Ok cur' else fock_loop Nk Ns gs np r cur' best'
    end.

  (** Maximum number of domain processes, src/parallelization.c:1788-1791 and
      1883-1886. *)
  Definition npd_max (gs : Z * Z * Z) (minsize : Z) : outcome Z :=
    let '(g0, g1, g2) := gs in
    do x <- c_div g0 minsize ; do y <- c_div g1 minsize ; do z <- c_div g2 minsize ;
    do a <- imul x y ; imul a z.

  (** src/parallelization.c:1780-1847. *)
  Definition dims_divide_kbd_fock (Nk Ns : Z) (gs : Z * Z * Z) (np minsize : Z) : outcome (Z * Z * Z) :=
    let cur1 := Z.min np Nk in
    do pm <- npd_max gs minsize ;
    do q <- c_div np cur1 ;
    let cur3 := Z.min pm q in
    do t <- imul cur1 cur3 ;
    do q2 <- c_div np t ;
    let cur2 := Z.min q2 Ns in
    do best <- work_load_efficiency_fock Nk Ns gs np cur1 cur2 cur3 ;
    if above 90 best then Ok (cur1, cur2, cur3)
    else
      do full <- imul Nk pm ;
      do l <- try_list 20 np full ;
      fock_loop Nk Ns gs np l (cur1, cur2, cur3) best.

  (** src/parallelization.c:1749-1767. *)
  Definition skbd_weighted_efficiency (Nspin Nk Ns : Z) (gs : Z * Z * Z) (np nps npk npb npd : Z)
     (isfock : bool) : outcome W :=
    do a <- imul Nspin Nk ; do b <- imul nps npk ;
    do ncols <- workload_assigned a Ns b npb ;
    do c <- imul a Ns ; do d <- imul c npd ; do e <- imul ncols np ;
    let eff := scale_skbd npb npd (dquot d e) in
    if isfock then scaling Ns gs npb npd eff else Ok eff.

  (** src/parallelization.c:1866-1938. *)
  Definition dims_divide_skbd (junk : mem Z) (Nspin Nk Ns : Z) (gs : Z * Z * Z) (np minsize : Z)
     (isfock : bool) : outcome (Z * Z * Z * Z) :=
    if negb (Nspin =? 1) && negb (Nspin =? 2) then Exit else
    let nps := Z.min Nspin np in
    do q <- c_div np nps ;
    let npk := Z.min Nk q in
    do sk <- imul nps npk ;
    do naive <- (if isfock then
        do pm <- npd_max gs minsize ;
        do q2 <- c_div np sk ;
        let npd := Z.min pm q2 in
        do t <- imul sk npd ;
        do npb <- c_div np t ; Ok (npb, npd)
      else
        do q2 <- c_div np sk ;
        let npb := Z.min Ns q2 in
        do t <- imul sk npb ;
        do npd <- c_div np t ; Ok (npb, npd)) ;
    let '(npb, npd) := naive in
    do w0 <- skbd_weighted_efficiency Nspin Nk Ns gs np nps npk npb npd isfock ;
    do r1 <- (if isfock then dims_divide_kbd_fock Nk Ns gs np minsize
              else dims_divide_kbd junk Nk Ns np) ;
    let '(k1, b1, d1) := r1 in
    do w1 <- skbd_weighted_efficiency Nspin Nk Ns gs np 1 k1 b1 d1 isfock ;
    let '(cur, wc) := if gtW w1 w0 then ((1, k1, b1, d1), w1) else ((nps, npk, npb, npd), w0) in
    if (1 <? Nspin) && (1 <? np) then
      do h <- c_div np 2 ;
      do r2 <- (if isfock then dims_divide_kbd_fock Nk Ns gs h minsize
                else dims_divide_kbd junk Nk Ns h) ;
      let '(k2, b2, d2) := r2 in
      do w2 <- skbd_weighted_efficiency Nspin Nk Ns gs np 2 k2 b2 d2 isfock ;
      Ok (if geW w2 wc then (2, k2, b2, d2) else cur)
    else Ok cur.

  (** ** ScaLAPACK_Dims_2D_BLCYC, src/parallelization.c:1439-1489 *)

  (** [fabs(a/f1 - b/f2)] and [<] on doubles. *)
  Variable absdiff : Z -> Z -> Z -> Z -> W.
  Variable ltW : W -> W -> bool.
  Variable last0 zero : W.                 (* 1e20 and 0.0 *)

  Definition rd (l : list Z) (i : Z) : outcome Z :=
    if i <? 0 then UB else
    match nth_error l (Z.to_nat i) with Some v => Ok v | None => UB end.

  (** The loop, src/parallelization.c:1462-1476; [n] iterations are left.
      Result: final [i], [ind1], [ind2], [diff]. *)
  Fixpoint blcyc_loop (g0 g1 : Z) (fl : list Z) (n : nat) (i ind1 ind2 : Z) (diff last : W)
    : outcome (Z * Z * Z * W) :=
    match n with
    | O => Ok (i, ind1, ind2, diff)
    | S k =>
      do f1 <- rd fl (2 * i) ; do f2 <- rd fl (2 * i + 1) ;
      let diff1 := absdiff g1 f1 g0 f2 in
      let diff2 := absdiff g0 f1 g1 f2 in
      let diff := if ltW diff1 diff2 then diff1 else diff2 in
      if (0 <? i) && ltW last diff then Ok (i, (i - 1) * 2, (i - 1) * 2 + 1, diff)
      else blcyc_loop g0 g1 fl k (i + 1) (i * 2) (i * 2 + 1) diff diff
    end.

  Definition ScaLAPACK_Dims_2D_BLCYC (nproc g0 g1 : Z) : outcome (Z * Z) :=
    do fl <- factor nproc ;
    let count := Z.of_nat (length fl) in
    do st <- blcyc_loop g0 g1 fl (Z.to_nat (count / 2)) 0 0 0 zero last0 ;
    let '(i, ind1, ind2, diff) := st in
    do inds <- (if (count mod 2 =? 1) && (i =? count / 2) then
        do f <- rd fl (count - 1) ;
        Ok (if ltW (absdiff g1 f g0 f) diff then (count - 1, count - 1) else (ind1, ind2))
      else Ok (ind1, ind2)) ;
    let '(ind1, ind2) := inds in
    do a <- rd fl ind1 ; do b <- rd fl ind2 ;
    Ok (if g1 <? g0 then (b, a) else (a, b)).
End Weights.

(** ** MPI_Allreduce_overload, src/parallelization.c:3002-3047 *)

(** Loop computing counts/displs, src/parallelization.c:3027-3030. Each entry
    is (displacement, count). [counts[i]] is a [size_t]. *)
Fixpoint ar_chunks (n : nat) (i displ batch extra : Z) : list (Z * Z) :=
  match n with
  | O => []
  | S k =>
    let c := batch + (if i <? extra then 1 else 0) in
    (displ, c) :: ar_chunks k (i + 1) (displ + c) batch extra
  end.

(** The sequence of (offset, count) reductions issued. [unit] is the element
    size in bytes. A non-positive [reps] (it is converted from [size_t] to
    [int]) makes the allocation/first store [displs[0] = 0] invalid: UB. *)
Definition allreduce_calls (count unit : Z) : outcome (list (Z * Z)) :=
  let size := u64 (u64 count * unit) in
  let reps := to_int32 (u64 (Z.max (u64 (u64 (size - 1) / 100000000 + 1)) 1)) in
  if reps =? 1 then Ok [(0, count)]
  else if reps <=? 0 then UB
  else
    do batch <- c_div count reps ;
    do extra <- c_mod count batch ;
    Ok (ar_chunks (Z.to_nat reps) 0 0 batch extra).
