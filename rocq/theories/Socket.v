(** Models of the socket driver, src/socket/driver.c. *)
From Coq Require Import ZArith List Lia Bool QArith.
From Verif Require Import CBase Text.
Import ListNotations.
Local Open Scope Z_scope.

(** ** The connection *)
(** What the peer and the kernel will deliver: blocks of bytes, the end of
    the stream, or a failing call.  An exhausted list is the end of the
    stream. *)
Inductive cev := Data (b : list Z) | Eof | Err.
Definition conn := list cev.
(** A block is at least one byte long: read(2) returns 0 only at the end. *)
Definition wf_conn (c : conn) : Prop := forall b, In (Data b) c -> b <> [].

(** One call [read(fd, p, req)]: return value, bytes stored, rest. *)
Definition sys_read (c : conn) (req : nat) : Z * list Z * conn :=
  match req with
  | O => (0, [], c)
  | _ =>
    match c with
    | [] => (0, [], [])
    | Eof :: r => (0, [], Eof :: r)
    | Err :: r => (-1, [], r)
    | Data b :: r =>
        let got := firstn req b in
        let rest := skipn req b in
        (Z.of_nat (length got), got, match rest with [] => r | _ => Data rest :: r end)
    end
  end.

(** src/socket/driver.c:230-254 [readBuffer].  [n] and [nr] are the C
    variables, [buf] the bytes stored so far; each further read stores at
    [data + n].  The fuel bounds the while loop (every round but the last
    stores a byte).  Result: return code, bytes stored, connection. *)
Fixpoint rb_loop (fuel : nat) (c : conn) (len : nat) (n nr : Z) (buf : list Z) : Z * list Z * conn :=
  match fuel with
  | O => (n, buf, c)
  | S f =>
    if (0 <? nr) && (n <? Z.of_nat len) then
      let '(nr', got, c') := sys_read c (len - Z.to_nat n) in
      rb_loop f c' len (n + nr') nr' (buf ++ got)
    else (n, buf, c)
  end.
Definition readBuffer (c : conn) (len : nat) : Z * list Z * conn :=
  let '(nr, got, c1) := sys_read c len in
  let '(n, buf, c2) := rb_loop (S len) c1 len nr nr got in
  ((if n =? 0 then -1 else 0), buf, c2).

(** Specification: the bytes that arrive before the stream ends or fails,
    and how it ends. *)
Fixpoint stream (c : conn) : list Z :=
  match c with Data b :: r => b ++ stream r | _ => [] end.
Fixpoint fails (c : conn) : bool :=
  match c with Data _ :: r => fails r | Err :: _ => true | _ => false end.

(** ** Message headers *)
(** src/socket/driver.c:644-667: the C library [strncasecmp] test against a
    keyword of the same length. *)
Definition header_is (h kw : list Z) : bool := strcaseeq (firstn (length kw) h) kw.
Definition K_STATUS : list Z := [83;84;65;84;85;83].
Definition K_POSDATA : list Z := [80;79;83;68;65;84;65].
Definition K_GETFORCE : list Z := [71;69;84;70;79;82;67;69].
Definition K_SETPARAM : list Z := [83;69;84;80;65;82;65;77].
Definition K_EXIT : list Z := [69;88;73;84].
(** Status codes of src/socket/driver.h:58-71. *)
Inductive msg := MStatus | MPosdata | MGetforce | MSetparam | MOther | MExit | MNeedinit.
Definition read_socket_header (h : list Z) : msg :=
  if header_is h K_STATUS then MStatus
  else if header_is h K_POSDATA then MPosdata
  else if header_is h K_GETFORCE then MGetforce
  else if header_is h K_SETPARAM then MSetparam
  else MOther.

(** ** The protocol loop *)
(** What follows a POSDATA header: a configuration with the right number of
    atoms, a failed transfer, or a wrong number of atoms. *)
Inductive payload := PosOk (cfg : Z) | PosFail | PosWrongN.
(** One client message with its header and payload and whether our reply can
    be written; or a closed connection. *)
Inductive event := Ev (h : list Z) (p : payload) (wok : bool) | Closed.

(** Replies; [Force c] sends the results of configuration [c] ([None] when
    no configuration has been computed). *)
Inductive reply := Ready | HaveData | Force (c : option Z).
Record sst := mkS { count : Z; hasdata : bool; last_cfg : option Z; computed : list Z; replies : list reply }.
Inductive ending := Waiting | Normal | SocketErr | Failure.

Definition st0 : sst := mkS 0 false None [] [].
Definition add_reply (s : sst) (r : reply) : sst :=
  mkS (count s) (hasdata s) (last_cfg s) (computed s) (replies s ++ [r]).

(** src/socket/driver.c:1095-1190 [main_Socket]. *)
Fixpoint main_Socket (max_niter : Z) (s : sst) (es : list event) : sst * ending :=
  if count s <=? max_niter then
    match es with
    | [] => (s, Waiting)
    | Closed :: _ => (s, Normal)
    | Ev h p wok :: r =>
      match read_socket_header h with
      | MStatus =>
          if wok then main_Socket max_niter (add_reply s (if hasdata s then HaveData else Ready)) r
          else (s, SocketErr)
      | MNeedinit => (s, Failure)
      | MPosdata =>
          let s1 := mkS (count s + 1) (hasdata s) (last_cfg s) (computed s) (replies s) in
          match p with
          | PosFail => (s1, SocketErr)
          | PosWrongN => (s1, Failure)
          | PosOk c => main_Socket max_niter (mkS (count s1) true (Some c) (computed s1 ++ [c]) (replies s1)) r
          end
      | MGetforce =>
          if wok then
            let s1 := add_reply s (Force (last_cfg s)) in
            main_Socket max_niter (mkS (count s1) false (last_cfg s1) (computed s1) (replies s1)) r
          else (s, SocketErr)
      | MSetparam => main_Socket max_niter s r
      | MOther => (s, Failure)
      | MExit => (s, Normal)
      end
    end
  else (s, Normal).

(** src/socket/driver.c:864-897 [write_forces_to_socket]: the returned code
    is [1 & (r1+1) & ... & (rk+1)] minus one for the write results r1..rk. *)
Definition forces_ret (rs : list Z) : Z := fold_left (fun a r => Z.land a (r + 1)) rs 1 - 1.

(** ** Virial *)
(** src/socket/driver.c:772-862 [stress_to_virial].  The counter of the
    rescaling loops is declared without a value: [i0 = None].  [i0 = Some k]
    is the program in which the counter happens to start at k. *)
Definition rescale (i0 : option Z) (f : Q -> Q) (v : list Q) : outcome (list Q) :=
  match i0 with
  | None => UB
  | Some k => if (k <? 0) then UB
              else Ok (map (fun iv => if (k <=? Z.of_nat (fst iv)) then f (snd iv) else snd iv)
                           (combine (seq 0 (length v)) v))
  end.
Record cell := mkC { jac : Q; rx : Q; ry : Q; rz : Q; bcx : Z; bcy : Z; bcz : Z; bc : Z; calc_stress : Z; ring_area : Q }.
Definition stress_to_virial (i0 : option Z) (c : cell) (s : list Q) : outcome (list Q) :=
  let vol := (jac c * rx c * ry c * rz c)%Q in
  let e k := (- nth k s 0 * vol)%Q in
  let v := [e 0%nat; e 1%nat; e 2%nat; e 1%nat; e 3%nat; e 4%nat; e 2%nat; e 4%nat; e 5%nat] in
  if calc_stress c =? 0 then rescale i0 (fun _ => 0%Q) v
  else if bc c =? 1 then rescale i0 (fun _ => 0%Q) v
  else if bc c =? 3 then
    if (bcx c =? 0) && (bcy c =? 0) then rescale i0 (fun x => x / rz c)%Q v
    else if (bcx c =? 0) && (bcz c =? 0) then rescale i0 (fun x => x / ry c)%Q v
    else if (bcy c =? 0) && (bcz c =? 0) then rescale i0 (fun x => x / rx c)%Q v
    else Ok v
  else if bc c =? 4 then
    if bcx c =? 0 then rescale i0 (fun x => x / (ry c * rz c))%Q v
    else if bcy c =? 0 then rescale i0 (fun x => x / (rx c * rz c))%Q v
    else if bcx c =? 0 then rescale i0 (fun x => x / (rx c * ry c))%Q v
    else Ok v
  else if (5 <=? bc c) && (bc c <=? 7) then rescale i0 (fun x => x / ring_area c)%Q v
  else Ok v.
