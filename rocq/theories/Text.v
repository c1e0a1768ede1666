(** Models of the small string and number utilities of /repo/src/tools.c and
    /repo/src/socket/driver.c.

    A C string is the list of its character codes (each in 1..255) without the
    terminating NUL; where reading past the terminator matters the buffer is
    modelled with the NUL in it. *)
From Coq Require Import ZArith List Lia Bool QArith.
From Verif Require Import CBase.
Import ListNotations.
Local Open Scope Z_scope.

Definition str := list Z.

(** [tolower] in the "C" locale (called at src/tools.c:91-92). *)
Definition tolower (c : Z) : Z := if (65 <=? c) && (c <=? 90) then c + 32 else c.

(** src/tools.c:82-99 [strcmpi].  The arguments are the buffers read from the
    two pointers on, so a read past the end of the buffer is UB.  The
    [s1 == s2] pointer shortcut is the argument [same]. *)
Fixpoint strcmpi_loop (b1 b2 : list Z) : outcome Z :=
  match b1, b2 with
  | x :: b1', y :: b2' =>
      let c1 := tolower x in
      let c2 := tolower y in
      if c1 =? 0 then Ok (c1 - c2)
      else if c1 =? c2 then strcmpi_loop b1' b2'
      else Ok (c1 - c2)
  | _, _ => UB
  end.
Definition strcmpi (same : bool) (b1 b2 : list Z) : outcome Z :=
  if same then Ok 0 else strcmpi_loop b1 b2.

(** src/tools.c:45-56 [strlwr], 62-73 [strupr]: the string converted in place. *)
Definition toupper (c : Z) : Z := if (97 <=? c) && (c <=? 122) then c - 32 else c.
Fixpoint str_map (f : Z -> Z) (b : list Z) : outcome (list Z) :=
  match b with
  | [] => UB
  | c :: b' => if c =? 0 then Ok (c :: b')
               else do r <- str_map f b' ; Ok (f c :: r)
  end.
Definition strlwr := str_map tolower.
Definition strupr := str_map toupper.

(** src/tools.c:1205-1222 [formatBytes].  The value is an exact rational (the
    division by 1024 is exact in binary floating point except for subnormal
    results).  Result: the printed number and the index of the unit suffix;
    the final check is reproduced literally. *)
Definition NUM_UNITS : nat := 9.
Definition Qgeb (a b : Q) : bool := Qle_bool b a.
Definition Qgtb (a b : Q) : bool := negb (Qle_bool a b).
Fixpoint fb_loop (fuel : nat) (i : nat) (v : Q) : nat * Q :=
  match fuel with
  | O => (i, v)
  | S k => if (i <? NUM_UNITS)%nat && Qgeb v (inject_Z 1024)
           then fb_loop k (S i) (v / inject_Z 1024)%Q else (i, v)
  end.
Definition formatBytes (bytes : Q) : outcome (Q * nat) :=
  let '(i, v) := fb_loop (S NUM_UNITS) 0 bytes in
  let i := Nat.min i (NUM_UNITS - 1) in
  if (i =? NUM_UNITS)%nat && Qgtb v (inject_Z 1024) then Exit else Ok (v, i).

(** src/tools.c:2382-2400 [check_num_input], the counting loop (the ['I'] and
    ['D'] loops are the same text).  [scan s] is the [sscanf] with ["%d%n"]:
    [Some (v, k)] when a number was converted consuming [k] characters.  The
    loop calls [sscanf] (which stores the value) *before* testing
    [nums_read < 10].  [cap] is the length of the caller's array; a store at
    an index outside it is UB.  The fuel is the number of characters left
    plus one (a conversion consumes at least one character). *)
Section CheckNum.
  Variable V : Type.
  Variable scan : str -> option (V * nat).
  Fixpoint cni_loop (fuel : nat) (cap : nat) (s : str) (nums_read : nat) (arr : nat -> option V)
    : outcome (nat * (nat -> option V)) :=
    match fuel with
    | O => Ok (nums_read, arr)
    | S f =>
      match scan s with
      | None => Ok (nums_read, arr)
      | Some (v, k) =>
          if (nums_read <? cap)%nat then
            let arr' := fun i => if (i =? nums_read)%nat then Some v else arr i in
            if (nums_read <? 10)%nat
            then cni_loop f cap (skipn k s) (S nums_read) arr'
            else Ok (nums_read, arr')
          else UB
      end
    end.
  Definition check_num_input (cap : nat) (line : str) : outcome (nat * (nat -> option V)) :=
    cni_loop (S (length line)) cap line 0 (fun _ => None).

  (** The numbers on a line, i.e. what repeated scanning yields (independent
      of the loop above: no bound, no array). *)
  Fixpoint numbers (fuel : nat) (s : str) : list V :=
    match fuel with
    | O => []
    | S f => match scan s with
             | None => []
             | Some (v, k) => v :: numbers f (skipn k s)
             end
    end.
End CheckNum.
Arguments check_num_input {V}.
Arguments cni_loop {V}.
Arguments numbers {V}.

(** * Splitting a socket address: src/socket/driver.c:34-106 *)
Definition COLON : Z := 58.
Definition isdigit (c : Z) : bool := (48 <=? c) && (c <=? 57).
(** [isspace] in the C locale. *)
Definition isspace (c : Z) : bool := (c =? 32) || ((9 <=? c) && (c <=? 13)).

(** [strchr(s, c)]: the index of the first occurrence. *)
Fixpoint strchr (s : str) (c : Z) : option nat :=
  match s with
  | [] => None
  | x :: s' => if x =? c then Some O
               else match strchr s' c with Some i => Some (S i) | None => None end
  end.

(** [strtol(s, &endptr, 10)] (ISO C 7.22.1.4): skip white space, optional
    sign, digits; saturates at LONG_MIN/LONG_MAX; without digits the end
    pointer is the start of the string.  Returns value and rest. *)
Definition LONG_MAX : Z := 9223372036854775807.
Fixpoint skip_space (s : str) : str :=
  match s with c :: s' => if isspace c then skip_space s' else s | [] => [] end.
Fixpoint digits (s : str) (acc : Z) : Z * str :=
  match s with
  | c :: s' => if isdigit c then digits s' (10 * acc + (c - 48)) else (acc, s)
  | [] => (acc, [])
  end.
Definition clamp_long (v : Z) : Z := Z.max (- LONG_MAX - 1) (Z.min v LONG_MAX).
Definition starts_digit (s : str) : bool :=
  match s with c :: _ => isdigit c | [] => false end.
Definition strtol (s : str) : Z * str :=
  let t := skip_space s in
  let '(neg, u) := match t with
                   | c :: t' => if c =? 45 then (true, t') else if c =? 43 then (false, t') else (false, t)
                   | [] => (false, [])
                   end in
  if starts_digit u then
    let '(v, rest) := digits u 0 in
    (clamp_long (if neg : bool then - v else v), rest)
  else (0, s).

Definition LOCALHOST : str := [108;111;99;97;108;104;111;115;116].
Definition UNIX_STR : str := [85;78;73;88].
Fixpoint str_eqb (a b : str) : bool :=
  match a, b with
  | [], [] => true
  | x :: a', y :: b' => (x =? y) && str_eqb a' b'
  | _, _ => false
  end.
(** [strcasecmp(a,b) == 0]. *)
Definition strcaseeq (a b : str) : bool := str_eqb (map tolower a) (map tolower b).

(** src/socket/driver.c:34-106 [split_socket_name].  [None] is the return
    value 1; [Some (host, port, inet)] the return value 0 with the output
    arguments.  [hostcap] is the size of the caller's [host] array
    (src/include/isddft.h:1196: L_STRING = 512): writing more is UB. *)
Definition split_socket_name (hostcap : nat) (s : str) : outcome (option (str * Z * Z)) :=
  match strchr s COLON with
  | None => Ok None
  | Some d =>
    match strchr (skipn (S d) s) COLON with
    | Some _ => Ok None
    | None =>
      (* lines 64-79: host part *)
      if (hostcap <? S (if (0 <? d)%nat then d else 0%nat))%nat then UB else
      let host := if (0 <? d)%nat then firstn d s else [] in
      if (match host with [] => true | _ => false end) && (hostcap <? 10)%nat then UB else
      let host := match host with [] => LOCALHOST | _ => host end in
      (* lines 81-103: port part *)
      let port_str := skipn (S d) s in
      let '(value, endp) := strtol port_str in
      match endp with
      | [] => if (0 <? value) && (value <=? 65535)
              then Ok (Some (host, value, if value =? 0 then 0 else 1))
              else Ok None
      | _ => if strcaseeq port_str UNIX_STR
             then Ok (Some (host, 0, 0))
             else Ok None
      end
    end
  end.

(** * Region code of a grid point: src/tools.c:1077-1088, 1109-1123 *)
Definition b2z (b : bool) : Z := if b then 1 else 0.
Record dm_verts := DM { v0 : Z; v1 : Z; v2 : Z; v3 : Z; v4 : Z; v5 : Z }.
Definition is_grid_outside (ip jp kp oi oj ok : Z) (D : dm_verts) (gx gy gz : Z) : bool :=
  let i := ip + oi + v0 D in
  let j := jp + oj + v2 D in
  let k := kp + ok + v4 D in
  (i <? 0) || (i >=? gx) || (j <? 0) || (j >=? gy) || (k <? 0) || (k >=? gz).
Definition grid_outside_region (ip jp kp oi oj ok : Z) (D : dm_verts) (gx gy gz : Z) : Z :=
  let i := ip + oi + v0 D in
  let j := jp + oj + v2 D in
  let k := kp + ok + v4 D in
  let i_ind := b2z (0 <=? i) - b2z (i <? gx) in
  let j_ind := b2z (0 <=? j) - b2z (j <? gy) in
  let k_ind := b2z (0 <=? k) - b2z (k <? gz) in
  let r := (k_ind + 1) * 9 + (j_ind + 1) * 3 + (i_ind + 1) in
  if r =? 13 then -1 else if r <? 13 then r else r - 1.

(** src/lapVecRoutinesKpt.c:647-660: the order in which [phase_factors] is
    filled, here with the translation direction in place of the factor
    computed from it. *)
Definition phase_dirs : list (Z * Z * Z) :=
  flat_map (fun k => flat_map (fun j => flat_map (fun i =>
     if (i =? 0) && (j =? 0) && (k =? 0) then [] else [(i, j, k)])
     [-1;0;1]) [-1;0;1]) [-1;0;1].
