(** Models of the MD driver loop and its restart files (src/md.c):
    step numbering in [main_MD] (44-197), the snapshot files written by
    [PrintMD] (2261-2364) with [Rename_restart] (2685-2688) and chosen by
    [main_MD] (57-69) and [RestartMD] (2377-2385), and the broadcast of the
    restart data in [RestartMD] (2369-2678). *)
From Coq Require Import ZArith List Lia Bool.
From Verif Require Import CBase.
Import ListNotations.
Local Open Scope Z_scope.

(** ** Step numbering *)
(** What an observer sees: a step is executed, a periodic snapshot is
    written with a number, the final snapshot is written with a number. *)
Inductive event := Exec (k : Z) | Snap (k : Z) | Final (k : Z).
Record mdcfg := Cfg { flag : Z; rcount : Z; nstep : Z; print_md : bool; print_rst : bool; rst_fq : Z }.
Definition fits (z : Z) : bool := (-2147483648 <=? z) && (z <=? INT_MAX).
Definition b2z (b : bool) : Z := if b then 1 else 0.
(** The number PrintMD writes: src/md.c:2285. *)
Definition snap_no (f : mdcfg) (mdc : Z) : Z := mdc + rcount f + b2z (flag f =? 0).
(** src/md.c:190-194 *)
Definition finish (f : mdcfg) (mdc : Z) : list event :=
  if print_rst f then [Final (snap_no f (mdc - 1))] else [].
(** src/md.c:128-189; [go k] is the wall-time test before step [k],
    [stop k] the presence of SPARC.stop after it; Count % 0 and Count++
    beyond INT_MAX are undefined. *)
Fixpoint md_loop (f : mdcfg) (go stop : Z -> bool) (fuel : nat) (maxstep mdc count : Z) : outcome (list event) :=
  if (count <=? maxstep) && go count then
    match fuel with
    | O => Ok []
    | S fuel' =>
        do m <- (if print_rst f then c_mod count (rst_fq f) else Ok 1) ;
        let snap := if m =? 0 then [Snap (snap_no f mdc)] else [] in
        if stop count then Ok (Exec count :: snap ++ finish f (mdc + 1))
        else if negb (fits (count + 1)) then UB
        else do r <- md_loop f go stop fuel' maxstep (mdc + 1) (count + 1) ; Ok (Exec count :: snap ++ r)
    end
  else Ok (finish f mdc).
(** src/md.c:86-127; MDCount starts at 0 (src/initialization.c:1831), is set
    to -1 and incremented at 96-98, and incremented at 120. *)
Definition md_run (f : mdcfg) (go stop : Z -> bool) : outcome (list event) :=
  let maxstep := rcount f + nstep f in
  if negb (fits maxstep) then UB else
  let mdc0 := if print_md f && (0 <? nstep f) then -1 + 1 else 0 in
  let mdc := mdc0 + 1 in
  let count := mdc + rcount f + b2z (flag f =? 0) in
  if negb (fits count) then UB else
  md_loop f go stop (Z.to_nat (maxstep - count + 1)) maxstep mdc count.

Definition execs (l : list event) : list Z := flat_map (fun e => match e with Exec k => [k] | _ => [] end) l.
Definition finals (l : list event) : list Z := flat_map (fun e => match e with Final k => [k] | _ => [] end) l.
Definition snaps (l : list event) : list Z := flat_map (fun e => match e with Snap k => [k] | _ => [] end) l.

(** A chain of runs: the first one fresh, every later one restarted from the
    number in the final snapshot of the one before.  Each run has its own
    number of requested steps and interruptions. *)
Fixpoint md_runs (pm : bool) (fq : Z) (fl rc : Z) (runs : list (Z * (Z -> bool) * (Z -> bool))) : outcome (list Z * Z) :=
  match runs with
  | [] => Ok ([], rc)
  | (n, go, stop) :: runs' =>
      do ev <- md_run (Cfg fl rc n pm true fq) go stop ;
      match finals ev with
      | [k] => do r <- md_runs pm fq 1 k runs' ; Ok (execs ev ++ fst r, snd r)
      | _ => UB
      end
  end.

(** ** Snapshot files *)
(** A file being written is a prefix of its sections: step number, positions,
    velocities, thermostat data, temperatures (src/md.c:2284-2361). *)
Definition full : nat := 5.
Record file := File { fstep : Z; written : nat }.
Record fs := Fs { rst : option file; cfile : option file; pfile : option file }.
Inductive op := Rename | OpenC (k : Z) | AppC | OpenR (k : Z) | AppR.
Definition app1 (o : option file) : option file :=
  match o with Some g => Some (File (fstep g) (S (written g))) | None => None end.
(** rename(2) and fopen(.., "w") are single steps; a section may reach the
    disk at any later time. *)
Definition do_op (s : fs) (o : op) : fs :=
  match o with
  | Rename => match cfile s with Some g => Fs (rst s) None (Some g) | None => s end
  | OpenC k => Fs (rst s) (Some (File k 0)) (pfile s)
  | AppC => Fs (rst s) (app1 (cfile s)) (pfile s)
  | OpenR k => Fs (Some (File k 0)) (cfile s) (pfile s)
  | AppR => Fs (app1 (rst s)) (cfile s) (pfile s)
  end.
Definition do_ops (l : list op) (s : fs) : fs := fold_left do_op l s.
(** src/md.c:2277-2281, type 0, and 2282-2283, type 1. *)
Definition snap_ops (k : Z) : list op := Rename :: OpenC k :: repeat AppC full.
Definition final_ops (k : Z) : list op := OpenR k :: repeat AppR full.
Definition complete (g : file) : Prop := written g = full.
(** The file a restart reads: src/md.c:2379-2384. *)
Definition choose (s : fs) : option file :=
  match rst s with Some g => Some g | None => match cfile s with Some g => Some g | None => pfile s end end.
(** What the restart makes of it: no file means a fresh start; without the
    velocity section ion_vel stays uninitialised memory (malloc, 2390). *)
Definition resume (s : fs) : outcome (option Z) :=
  match choose s with
  | None => Ok None
  | Some g => if (written g <? 3)%nat then UB else Ok (Some (fstep g))
  end.

(** ** Broadcast of the restart data *)
Inductive meth := NVE | NVK | NVT_NH | NPT_NH | NPT_NP.
Inductive var :=
  | StopCount | RestartCount | Pos | Vel | ElecT | IonT | Snose | XiNose | ThermosTi
  | Nnos | Qmass | Vlogs | Xlogs | Bmass | Vlogv | Scale | RangeX | RangeY | RangeZ | Prtarget
  | NPqmass | NPSv | NPS | NPbmass | RangeXv | RangeYv | RangeZv | NPham | NPPm.
Definition var_eq_dec (a b : var) : {a = b} + {a <> b}.
Proof. decide equality. Defined.

(** Variables written by PrintMD, src/md.c:2284-2361 (CELL or LATVEC_SCALE
    stands for the three ranges; for NVT_NH the tag TTHRMI carries
    thermos_T). *)
Definition written_vars (m : meth) : list var :=
  [RestartCount; Pos; Vel]
  ++ (match m with
      | NVT_NH => [Snose; XiNose; ThermosTi]
      | NPT_NH => [Nnos; Qmass; Bmass; Vlogs; Vlogv; Xlogs; RangeX; RangeY; RangeZ; ThermosTi; Prtarget]
      | NPT_NP => [NPqmass; NPbmass; NPSv; NPPm; NPS; RangeXv; RangeYv; RangeZv; RangeX; RangeY; RangeZ; ThermosTi; Prtarget; NPham]
      | _ => []
      end)
  ++ [ElecT; IonT].
(** Variables rank 0 sets from the file, src/md.c:2423-2556. *)
Definition read_vars (fl : Z) (m : meth) : list var :=
  [StopCount; RestartCount; Pos; Vel]
  ++ (if fl =? 1 then [Snose; XiNose; ElecT; IonT; ThermosTi] else [])
  ++ (match m with
      | NPT_NH => [Nnos; Qmass; Vlogs; Xlogs; Bmass; Vlogv; RangeX; RangeY; RangeZ; Scale; ThermosTi; Prtarget]
      | NPT_NP => [NPqmass; NPSv; NPS; NPbmass; RangeXv; RangeYv; RangeZv; RangeX; RangeY; RangeZ; Scale; ThermosTi; Prtarget; NPham]
      | _ => []
      end).
(** src/md.c:2564-2610 *)
Definition pack_vars (fl : Z) (m : meth) : list var :=
  [StopCount; RestartCount; Pos; Vel]
  ++ (if fl =? 1 then
        [ElecT; IonT]
        ++ match m with
           | NVT_NH => [Snose; XiNose; ThermosTi]
           | NPT_NH => [Nnos; Qmass; Vlogs; Xlogs; Bmass; Vlogv; Scale; RangeX; RangeY; RangeZ; ThermosTi; Prtarget]
           | NPT_NP => [NPqmass; NPSv; NPS; NPbmass; RangeXv; RangeYv; RangeZv; Scale; RangeX; RangeY; RangeZ; ThermosTi; Prtarget; NPham]
           | _ => []
           end
      else []).
(** src/md.c:2624-2667 *)
Definition unpack_vars (fl : Z) (m : meth) : list var :=
  [StopCount; RestartCount; Pos; Vel]
  ++ (if fl =? 1 then
        [ElecT; IonT]
        ++ match m with
           | NVT_NH => [Snose; XiNose; ThermosTi]
           | NPT_NH => [Nnos; Qmass; Vlogs; Xlogs; Bmass; Vlogv; Scale; RangeX; RangeY; RangeZ; ThermosTi; Prtarget]
           | NPT_NP => [NPqmass; NPSv; NPS; NPbmass; RangeXv; RangeYv; RangeZv; Scale; RangeX; RangeY; RangeZ; ThermosTi; Prtarget; NPham]
           | _ => []
           end
      else []).
Definition is_int (v : var) : bool := match v with StopCount | RestartCount | Nnos => true | _ => false end.
Definition elt_size (v : var) : Z := if is_int v then 4 else 8.
(** Number of elements of a variable for [n] atoms and a chain of [c]. *)
Definition count (n c : Z) (v : var) : Z :=
  match v with Pos | Vel => 3 * n | Qmass | Vlogs | Xlogs => c | NPPm => 3 | _ => 1 end.
(** src/md.c:2397-2411; [c] is the chain length known before the file is
    read (from the .inpt file). *)
Definition l_buff (fl : Z) (m : meth) (n c : Z) : Z :=
  if fl =? 1 then
    match m with
    | NPT_NH => (2 + 1) * 4 + (6 * n + (5 + 3 * c + 9)) * 8
    | NPT_NP => 2 * 4 + (6 * n + (5 + 14)) * 8
    | _ => 2 * 4 + (6 * n + 5) * 8
    end
  else 2 * 4 + (6 * n + 3) * 8.

Section Broadcast.
  (** Elements: integers and doubles as one abstract type; [as_int] is the
      value of an element unpacked as the chain length. *)
  Variable E : Type.
  Variable as_int : E -> Z.
  Definition state := var -> list E.
  Definition upd (s : state) (v : var) (x : list E) : state := fun w => if var_eq_dec w v then x else s w.
  Definition chain_len (s : state) : Z := match s Nnos with [x] => as_int x | _ => 0 end.
  (** MPI_Pack of a list of variables: [Exit] when the buffer of [room]
      bytes is too small (an MPI error is fatal). *)
  Fixpoint pack (n room : Z) (vs : list var) (s : state) : outcome (list E) :=
    match vs with
    | [] => Ok []
    | v :: vs' =>
        let k := count n (chain_len s) v in
        let room' := room - k * elt_size v in
        if room' <? 0 then Exit else
        do r <- pack n room' vs' s ; Ok (firstn (Z.to_nat k) (s v) ++ r)
    end.
  (** MPI_Unpack of a list of variables: the chain length is the one the
      rank holds at that moment. *)
  Fixpoint unpack (n : Z) (vs : list var) (b : list E) (s : state) : outcome state :=
    match vs with
    | [] => Ok s
    | v :: vs' =>
        let k := Z.to_nat (count n (chain_len s) v) in
        if (length b <? k)%nat then Exit else
        unpack n vs' (skipn k b) (upd s v (firstn k b))
    end.
  (** src/md.c:2423-2556 on rank 0: the file as a partial map. *)
  Definition read_file (vs : list var) (file : var -> option (list E)) (s : state) : state :=
    fun v => if in_dec var_eq_dec v vs then match file v with Some x => x | None => s v end else s v.
End Broadcast.

(** ** Lemmas: step numbering *)
Lemma execs_app a b : execs (a ++ b) = execs a ++ execs b.
Proof. apply flat_map_app. Qed.
Lemma finals_app a b : finals (a ++ b) = finals a ++ finals b.
Proof. apply flat_map_app. Qed.
Lemma snaps_app a b : snaps (a ++ b) = snaps a ++ snaps b.
Proof. apply flat_map_app. Qed.

(** One run of the loop. *)
Lemma md_loop_spec f go stop maxstep : print_rst f = true -> rst_fq f <> 0 -> maxstep < INT_MAX ->
  forall fuel mdc count, -2147483648 <= count -> count = snap_no f mdc -> Z.of_nat fuel = Z.max 0 (maxstep - count + 1) ->
  exists ev last, md_loop f go stop fuel maxstep mdc count = Ok ev /\
    count - 1 <= last <= Z.max (count - 1) maxstep /\
    execs ev = zseq count (Z.to_nat (last - count + 1)) /\
    finals ev = [last] /\
    snaps ev = filter (fun k => Z.rem k (rst_fq f) =? 0) (execs ev) /\
    ((forall k, go k = true) -> (forall k, stop k = false) -> last = Z.max (count - 1) maxstep).
Proof.
  intros Hp Hq Hm. induction fuel as [|fuel IH]; intros mdc count Hlo Hc Hf.
  - cbn [md_loop]. destruct (Z.leb_spec count maxstep); [lia|]. cbn [andb].
    unfold finish. rewrite Hp. exists [Final (snap_no f (mdc - 1))], (count - 1). unfold snap_no in *. repeat split; try lia.
    + replace (Z.to_nat (count - 1 - count + 1)) with 0%nat by lia. reflexivity.
    + cbn. f_equal. lia.
  - cbn [md_loop]. destruct (Z.leb_spec count maxstep); [|lia]. destruct (go count) eqn:Eg; cbn [andb].
    + rewrite Hp. unfold c_mod. destruct (Z.eqb_spec (rst_fq f) 0); [lia|]. cbn [obind].
      set (sn := if Z.rem count (rst_fq f) =? 0 then [Snap (snap_no f mdc)] else []).
      assert (Es : execs sn = []) by (unfold sn; destruct (_ =? 0); reflexivity).
      assert (Ef : finals sn = []) by (unfold sn; destruct (_ =? 0); reflexivity).
      assert (Ep : snaps sn = if Z.rem count (rst_fq f) =? 0 then [count] else []).
      { unfold sn. rewrite Hc at 1. rewrite <- Hc. destruct (_ =? 0); cbn; [rewrite Hc|]; reflexivity. }
      destruct (stop count) eqn:Et.
      * unfold finish. rewrite Hp. exists (Exec count :: sn ++ [Final (snap_no f (mdc + 1 - 1))]), count.
        split; [reflexivity|]. split; [lia|].
        replace (Z.to_nat (count - count + 1)) with 1%nat by lia.
        assert (X : execs (Exec count :: sn ++ [Final (snap_no f (mdc + 1 - 1))]) = [count]).
        { cbn [execs flat_map]. change (flat_map _ (sn ++ _)) with (execs (sn ++ [Final (snap_no f (mdc + 1 - 1))])).
          rewrite execs_app, Es. reflexivity. }
        rewrite X. split; [reflexivity|]. split; [|split].
        -- cbn [finals flat_map app]. change (flat_map _ (sn ++ _)) with (finals (sn ++ [Final (snap_no f (mdc + 1 - 1))])).
           rewrite finals_app, Ef. cbn. replace (mdc + 1 - 1) with mdc by lia. rewrite <- Hc. reflexivity.
        -- cbn [snaps flat_map app]. change (flat_map _ (sn ++ _)) with (snaps (sn ++ [Final (snap_no f (mdc + 1 - 1))])).
           rewrite snaps_app, Ep. cbn. rewrite app_nil_r. reflexivity.
        -- intros _ Hs. rewrite Hs in Et. discriminate.
      * unfold fits. destruct (Z.leb_spec (-2147483648) (count + 1)); [|lia]. destruct (Z.leb_spec (count + 1) INT_MAX); [|lia].
        cbn [andb negb].
        destruct (IH (mdc + 1) (count + 1)) as (ev & last & -> & HL & HE & HF & HS & HA); [lia | unfold snap_no in *; lia | lia |].
        cbn [obind]. exists (Exec count :: sn ++ ev), last. split; [reflexivity|]. split; [lia|].
        assert (X : execs (Exec count :: sn ++ ev) = count :: execs ev).
        { cbn [execs flat_map]. change (flat_map _ (sn ++ ev)) with (execs (sn ++ ev)). rewrite execs_app, Es. reflexivity. }
        rewrite X, HE. replace (Z.to_nat (last - count + 1)) with (S (Z.to_nat (last - (count + 1) + 1))) by lia.
        split; [reflexivity|]. split; [|split].
        -- cbn [finals flat_map app]. change (flat_map _ (sn ++ ev)) with (finals (sn ++ ev)).
           rewrite finals_app, Ef. exact HF.
        -- cbn [snaps flat_map app]. change (flat_map _ (sn ++ ev)) with (snaps (sn ++ ev)).
           rewrite snaps_app, Ep, HS, HE. cbn [filter]. destruct (Z.rem count (rst_fq f) =? 0); reflexivity.
        -- intros G S. rewrite (HA G S). lia.
    + unfold finish. rewrite Hp. exists [Final (snap_no f (mdc - 1))], (count - 1). unfold snap_no in *. repeat split; try lia.
      * replace (Z.to_nat (count - 1 - count + 1)) with 0%nat by lia. reflexivity.
      * cbn. f_equal. lia.
      * intros G _. rewrite G in Eg. discriminate.
Qed.
