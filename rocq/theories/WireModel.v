(** * Bytes on the wire between i-PI and a driver

    Model of the message encoding and decoding in
    /repo/ipi/interfaces/sockets.py (server side, [DriverSocket] and [Driver])
    and /repo/drivers/py/driver.py (the reference client).

    Simplifications:
    - a byte is a [Z] (between 0 and 255);
    - a float64 is the list of its 8 bytes: [tobytes] and [np.frombuffer] copy
      them and nothing here computes with the numbers;
    - a native int32 is little endian;
    - the incoming side of a connection is the list of what successive [recv]
      calls will find: chunks of available bytes and timeouts; at the end of the
      list the peer has closed the connection;
    - [parse_extra] (interfaces/utils.py) is applied to the string afterwards and
      is not modelled here. *)

From Coq Require Import Ascii String List ZArith Lia Bool Arith.
Import ListNotations.
Open Scope nat_scope.
Open Scope list_scope.

Definition byte := Z.
Definition bytes := list byte.

(** ** Headers *)

(** sockets.py:30, driver.py:47. *)
Definition HDRLEN := 12.

(** [str.upper] on ASCII. *)
Definition upper (c : Z) : Z := (if (97 <=? c) && (c <=? 122) then c - 32 else c)%Z.

(** sockets.py:38-42, driver.py:50-54: [str.ljust(str.upper(mystr), HDRLEN).encode()]. *)
Definition Message (s : string) : bytes :=
  let l := map (fun a => upper (Z.of_N (N_of_ascii a))) (list_ascii_of_string s) in
  l ++ repeat 32%Z (HDRLEN - length l).

Definition bytes_eqb (a b : bytes) : bool :=
  if list_eq_dec Z.eq_dec a b then true else false.

(** ** Numbers *)

(** [np.int32(z).tobytes()]. *)
Definition le4 (z : Z) : bytes :=
  [z mod 256; (z / 256) mod 256; (z / 65536) mod 256; (z / 16777216) mod 256]%Z.

(** [np.frombuffer(b, np.int32)[0]]. *)
Definition int32 (b : bytes) : Z :=
  let v := (nth 0 b 0 + 256 * nth 1 b 0 + 65536 * nth 2 b 0 + 16777216 * nth 3 b 0)%Z in
  (if v <? 2147483648 then v else v - 4294967296)%Z.

(** A float64 array; [np.frombuffer(b, np.float64)]. *)
Definition f64 := bytes.
Fixpoint chop (n : nat) (b : bytes) : list f64 :=
  match n with
  | 0 => []
  | S n' => firstn 8 b :: chop n' (skipn 8 b)
  end.
(** [a.tobytes()]. *)
Definition tobytes (a : list f64) : bytes := concat a.

(** ** Strings: UTF-8 *)

(** [str.encode("utf-8")] for one code point. *)
Definition utf8_1 (c : Z) : bytes :=
  (if c <? 128 then [c]
   else if c <? 2048 then [192 + c / 64; 128 + c mod 64]
   else if c <? 65536 then [224 + c / 4096; 128 + (c / 64) mod 64; 128 + c mod 64]
   else [240 + c / 262144; 128 + (c / 4096) mod 64; 128 + (c / 64) mod 64; 128 + c mod 64])%Z.
Definition utf8 (s : list Z) : bytes := flat_map utf8_1 s.

Definition cont (b : Z) : bool := ((128 <=? b) && (b <? 192))%Z.

(** [bytes.decode("utf-8")]; [None] is UnicodeDecodeError. The fuel is the number
    of bytes. Overlong forms, surrogates and values above 0x10FFFF are refused. *)
Fixpoint unutf8 (fuel : nat) (b : bytes) : option (list Z) :=
  match fuel, b with
  | _, [] => Some []
  | 0, _ => None
  | S fuel', x :: r =>
      let next c r' := match unutf8 fuel' r' with Some s => Some (c :: s) | None => None end in
      if (x <? 128)%Z then next x r
      else if (x <? 192)%Z then None
      else if (x <? 224)%Z then
        match r with
        | y :: r' =>
            let c := ((x - 192) * 64 + (y - 128))%Z in
            if cont y && (128 <=? c)%Z then next c r' else None
        | _ => None
        end
      else if (x <? 240)%Z then
        match r with
        | y :: z :: r' =>
            let c := ((x - 224) * 4096 + (y - 128) * 64 + (z - 128))%Z in
            if cont y && cont z && (2048 <=? c)%Z && negb ((55296 <=? c) && (c <? 57344))%Z
            then next c r' else None
        | _ => None
        end
      else if (x <? 248)%Z then
        match r with
        | y :: z :: w :: r' =>
            let c := ((x - 240) * 262144 + (y - 128) * 4096 + (z - 128) * 64 + (w - 128))%Z in
            if cont y && cont z && cont w && (65536 <=? c)%Z && (c <? 1114112)%Z
            then next c r' else None
        | _ => None
        end
      else None
  end.
Definition decode_utf8 (b : bytes) : option (list Z) := unutf8 (length b) b.

(** ** Receiving *)

Inductive nevent := NChunk (l : bytes) | NTimeout.
Definition net := list nevent.

(** sockets.py:34. *)
Definition NTIMEOUT := 20.

(** Outcome of a receiving method: a value with the scratch buffer and what is
    left on the connection; or Disconnected, InvalidSize, or another exception
    (ValueError, UnicodeDecodeError). *)
Inductive res (A : Type) :=
| Got (a : A) (buf : bytes) (n : net)
| Lost
| BadSize
| Crash.
Arguments Got {A}. Arguments Lost {A}. Arguments BadSize {A}. Arguments Crash {A}.

(** [recv_into] at position [pos] of the scratch buffer. *)
Definition write (pos : nat) (l buf : bytes) : bytes :=
  firstn pos buf ++ l ++ skipn (pos + length l) buf.

(** sockets.py:174-199, 695-714, 743-755: the loop that fills the scratch buffer
    up to [blen], starting at [bpos]; [recv_into] returns at most the bytes
    asked for and leaves the others. *)
Fixpoint fill (blen bpos nto : nat) (buf : bytes) (n : net) {struct n} : res unit :=
  if blen <=? bpos then Got tt buf n else
  match n with
  | [] => Lost
  | NTimeout :: n' =>
      if NTIMEOUT <? S nto then Lost else fill blen bpos (S nto) buf n'
  | NChunk [] :: _ => Lost
  | NChunk l :: n' =>
      if length l <=? blen - bpos
      then fill blen (bpos + length l) nto (write bpos l buf) n'
      else Got tt (write bpos (firstn (blen - bpos) l) buf) (NChunk (skipn (blen - bpos) l) :: n')
  end.

(** sockets.py:171-172, 691-692, 738-739: the buffer is replaced when too short. *)
Definition grow (blen : nat) (buf : bytes) : bytes :=
  if length buf <? blen then repeat 0%Z blen else buf.

(** sockets.py:158-204: the first [blen] bytes of the buffer, copied to [dest]. *)
Definition recvall (blen : nat) (buf : bytes) (n : net) : res bytes :=
  match fill blen 0 0 (grow blen buf) n with
  | Got _ buf' n' => Got (firstn blen buf') buf' n'
  | Lost => Lost | BadSize => BadSize | Crash => Crash
  end.

(** What a driver returns: potential, forces, virial, extra string. *)
Record reply := mkReply { r_pot : f64; r_for : list f64; r_vir : list f64; r_extra : list Z }.

(** sockets.py:670-759. *)
Definition recv_forces_bulk (natoms : nat) (buf : bytes) (n : net) : res reply :=
  let full_size := HDRLEN + 8 + 4 + 24 * natoms + 72 + 4 in
  match fill full_size 0 0 (grow full_size buf) n with
  | Got _ b n1 =>
      if negb (bytes_eqb (firstn HDRLEN b) (Message "forceready")) then Lost else
      let off := HDRLEN in
      let mu := firstn 8 (skipn off b) in
      let off := off + 8 in
      let mlen := int32 (firstn 4 (skipn off b)) in
      let off := off + 4 in
      if negb (mlen =? Z.of_nat natoms)%Z then BadSize else
      let mf := chop (3 * natoms) (skipn off b) in
      let off := off + 24 * natoms in
      let mvir := chop 9 (skipn off b) in
      let off := off + 72 in
      let extra_len := int32 (firstn 4 (skipn off b)) in
      if (0 <? extra_len)%Z then
        let el := Z.to_nat extra_len in
        match fill el 0 0 (grow el b) n1 with
        | Got _ b2 n2 =>
            match decode_utf8 (firstn el b2) with
            | Some s => Got (mkReply mu mf mvir s) b2 n2
            | None => Crash
            end
        | Lost => Lost | BadSize => BadSize | Crash => Crash
        end
      else Got (mkReply mu mf mvir []) b n1
  | Lost => Lost | BadSize => BadSize | Crash => Crash
  end.

Definition bind {A B} (r : res A) (f : A -> bytes -> net -> res B) : res B :=
  match r with
  | Got a b n => f a b n
  | Lost => Lost | BadSize => BadSize | Crash => Crash
  end.

(** sockets.py:893-899: one length-prefixed extra string. *)
Definition recv_extra (buf : bytes) (n : net) : res (list Z) :=
  bind (recvall 4 buf n) (fun lb b n =>
  let elen := int32 lb in
  if (0 <? elen)%Z then
    bind (recvall (Z.to_nat elen) b n) (fun xb b n =>
    match decode_utf8 xb with Some s => Got s b n | None => Crash end)
  else Got [] b n).

Fixpoint recv_extras (k : nat) (buf : bytes) (n : net) : res (list (list Z)) :=
  match k with
  | 0 => Got [] buf n
  | S k' => bind (recv_extra buf n) (fun x b n =>
            bind (recv_extras k' b n) (fun xs b n => Got (x :: xs) b n))
  end.

(** Rows of a (k, m) float64 array. *)
Fixpoint rows (k m : nat) (b : bytes) : list (list f64) :=
  match k with
  | 0 => []
  | S k' => chop m b :: rows k' m (skipn (8 * m) b)
  end.

Fixpoint zip4 (ps : list f64) (fs vs : list (list f64)) (xs : list (list Z)) : list reply :=
  match ps, fs, vs, xs with
  | p :: ps, f :: fs, v :: vs, x :: xs => mkReply p f v x :: zip4 ps fs vs xs
  | _, _, _, _ => []
  end.

(** sockets.py:863-911: all [nbatch] results are read, [n_real] are kept. *)
Definition recv_forces_bulk_batch (nbatch natoms n_real : nat) (buf : bytes) (n : net)
  : res (list reply) :=
  bind (recvall HDRLEN buf n) (fun hdr b n =>
  if negb (bytes_eqb hdr (Message "forceready")) then Lost else
  bind (recvall (8 * nbatch) b n) (fun pots b n =>
  bind (recvall 4 b n) (fun ml b n =>
  if negb (int32 ml =? Z.of_nat natoms)%Z then BadSize else
  bind (recvall (nbatch * (8 * (3 * natoms))) b n) (fun forces b n =>
  bind (recvall (nbatch * (8 * 9)) b n) (fun virs b n =>
  bind (recv_extras nbatch b n) (fun xs b n =>
  Got (firstn n_real (zip4 (chop nbatch pots) (rows nbatch (3 * natoms) forces)
                           (rows nbatch 9 virs) xs)) b n)))))).

(** sockets.py:459-486 (legacy mode): the number of atoms is believed. *)
Definition recv_force_data (buf : bytes) (n : net) : res reply :=
  bind (recvall 8 buf n) (fun mu b n =>
  bind (recvall 4 b n) (fun ml b n =>
  if (int32 ml <? 0)%Z then Crash else
  let m := 3 * Z.to_nat (int32 ml) in
  bind (recvall (8 * m) b n) (fun mf b n =>
  bind (recvall 72 b n) (fun mvir b n =>
  bind (recv_extra b n) (fun x b n =>
  Got (mkReply mu (chop m mf) (chop 9 mvir) x) b n))))).

(** [recv(k)] once: [None] is a timeout; nothing left is an empty reply. *)
Definition recv (k : nat) (n : net) : option bytes * net :=
  match n with
  | [] => (Some [], [])
  | NTimeout :: n' => (None, n')
  | NChunk l :: n' =>
      if length l <=? k then (Some l, n') else (Some (firstn k l), NChunk (skipn k l) :: n')
  end.

(** sockets.py:430-457. The empty reply is compared with the string "" (a bytes
    object never equals it), so a closed connection is not noticed. [None]: still
    looping when the fuel is used up. *)
Fixpoint recv_forceready (fuel : nat) (n : net) : option net :=
  match fuel with
  | 0 => None
  | S fuel' =>
      let '(r, n') := recv HDRLEN n in
      match r with
      | None => recv_forceready fuel' n'
      | Some b => if bytes_eqb b (Message "forceready") then Some n' else recv_forceready fuel' n'
      end
  end.

(** sockets.py:274-303: the status derived from one [recv(HDRLEN)]. *)
Inductive wstatus := WDisc | WReady | WInit | WData | WUnknown | WBusy.
Definition getstatus_reply (n : net) : wstatus * net :=
  let '(r, n') := recv HDRLEN n in
  (match r with
   | None => WBusy
   | Some b =>
       if negb (length b =? HDRLEN) then WDisc
       else if bytes_eqb b (Message "ready") then WReady
       else if bytes_eqb b (Message "needinit") then WInit
       else if bytes_eqb b (Message "havedata") then WData
       else WUnknown
   end, n').

(** ** Sending *)

(** A structure: cell, inverse cell, positions (of the active atoms). *)
Record struct := mkStruct { s_h : list f64; s_ih : list f64; s_pos : list f64 }.

(** sockets.py:606-614. *)
Definition posdata (s : struct) : bytes :=
  Message "posdata" ++ tobytes (s_h s) ++ tobytes (s_ih s)
  ++ le4 (Z.of_nat (length (s_pos s) / 3)) ++ tobytes (s_pos s).
Definition dispatch_send_bytes (s : struct) : bytes := posdata s ++ Message "getforce".

(** sockets.py:802-816. *)
Definition padded (bs : nat) (l : list struct) : list struct :=
  match l with
  | [] => []
  | s0 :: _ => l ++ repeat (last l s0) (bs - length l)
  end.
Definition dispatch_send_batch_bytes (bs : nat) (l : list struct) : bytes :=
  let p := padded bs l in
  let nat_ := match p with [] => 0 | s :: _ => length (s_pos s) / 3 end in
  Message "posdata" ++ le4 (Z.of_nat nat_)
  ++ flat_map (fun s => tobytes (s_h s) ++ tobytes (s_ih s)) p
  ++ flat_map (fun s => tobytes (s_pos s)) p
  ++ Message "getforce".

(** sockets.py:377-384 ([pars] already carries the batch_size token). *)
Definition init_bytes (rid : Z) (pars : list Z) : bytes :=
  Message "init" ++ le4 rid ++ le4 (Z.of_nat (length pars)) ++ utf8 pars.

(** ** The reference driver, drivers/py/driver.py *)

(** driver.py:14-35. On a timeout [bpart] is still 1 (line 23). The buffer is new. *)
Fixpoint d_fill (blen bpos : nat) (buf : bytes) (n : net) {struct n} : option (bytes * net) :=
  if blen <=? bpos then Some (buf, n) else
  match n with
  | [] => None
  | NTimeout :: n' => d_fill blen (bpos + 1) buf n'
  | NChunk [] :: _ => None
  | NChunk l :: n' =>
      if length l <=? blen - bpos
      then d_fill blen (bpos + length l) (write bpos l buf) n'
      else Some (write bpos (firstn (blen - bpos) l) buf, NChunk (skipn (blen - bpos) l) :: n')
  end.
Definition recv_data (blen : nat) (n : net) : option (bytes * net) :=
  match d_fill blen 0 (repeat 0%Z blen) n with
  | Some (b, n') => Some (firstn blen b, n')
  | None => None
  end.

(** driver.py:79-99: the variables of [run_driver]. [d_npos] is len(pos);
    [d_out] the results computed for the last POSDATA. *)
Record driver := mkDriver {
  d_init : bool; d_data : bool; d_batch : nat; d_npos : nat; d_nat : Z; d_out : list reply }.
Definition driver0 := mkDriver false false 1 0 0 [].

(** The potential, called with one structure (driver.py:203) or with the lists
    of a batch (driver.py:184). It gets the cells and positions only. *)
Section Driver.
Variable pes : list f64 -> list f64 -> reply.

(** driver.py:269-274 after FORCEREADY: one reply. [len(extras)] counts
    characters, [encode] gives bytes. *)
Definition send_single (nat_ : Z) (r : reply) : bytes :=
  Message "FORCEREADY" ++ r_pot r ++ le4 nat_ ++ tobytes (r_for r) ++ tobytes (r_vir r)
  ++ le4 (Z.of_nat (length (r_extra r))) ++ utf8 (r_extra r).
(** driver.py:220-240. *)
Definition send_batch (nat_ : Z) (l : list reply) : bytes :=
  Message "FORCEREADY" ++ flat_map r_pot l ++ le4 nat_
  ++ flat_map (fun r => tobytes (r_for r)) l ++ flat_map (fun r => tobytes (r_vir r)) l
  ++ flat_map (fun r => le4 (Z.of_nat (length (r_extra r))) ++ utf8 (r_extra r)) l.

(** What one turn of the driver's loop does: new state, bytes sent, input left;
    [DExit] after EXIT or an exception. Unknown headers (and fragments of
    headers) are ignored. *)
Inductive dres := DGo (d : driver) (out : bytes) (n : net) | DExit.

Definition obind {A} (o : option (bytes * net)) (k : bytes -> net -> A) (e : A) : A :=
  match o with Some (b, n) => k b n | None => e end.

(** driver.py:179-181: the cells and positions of the batch, row by row. *)
Fixpoint d_structs (k nat3 : nat) (cb pb : bytes) : list (list f64 * list f64) :=
  match k with
  | 0 => []
  | S k' => (chop 9 cb, chop nat3 pb) :: d_structs k' nat3 (skipn 144 cb) (skipn (8 * nat3) pb)
  end.

(** driver.py:117-125: the batch_size token of the INIT string, given by the
    caller of the model. *)
Variable parse_batch : list Z -> option nat.

(** driver.py:100-285, without the shared-memory branches. *)
Definition driver_turn (d : driver) (n : net) : dres :=
  match recv HDRLEN n with
  | (None, n') => DExit
  | (Some hdr, n') =>
      if bytes_eqb hdr (Message "STATUS") then
        DGo d (if negb (d_init d) then Message "NEEDINIT"
               else if d_data d then Message "HAVEDATA" else Message "READY") n'
      else if bytes_eqb hdr (Message "INIT") then
        obind (recv_data 4 n') (fun _ n1 =>
        obind (recv_data 4 n1) (fun lb n2 =>
        if (int32 lb <? 0)%Z then DExit else
        obind (recv_data (Z.to_nat (int32 lb)) n2) (fun sb n3 =>
        let b := match parse_batch sb with Some k => k | None => d_batch d end in
        DGo (mkDriver true (d_data d) b (d_npos d) (d_nat d) (d_out d)) [] n3) DExit) DExit) DExit
      else if bytes_eqb hdr (Message "POSDATA") then
        if 1 <? d_batch d then
          obind (recv_data 4 n') (fun nb n1 =>
          let nat_ := int32 nb in
          if (nat_ <? 0)%Z then DExit else
          let nat3 := 3 * Z.to_nat nat_ in
          obind (recv_data (d_batch d * 144) n1) (fun cb n2 =>
          obind (recv_data (d_batch d * (8 * nat3)) n2) (fun pb n3 =>
          DGo (mkDriver (d_init d) true (d_batch d) (d_npos d) nat_
                 (map (fun cp => pes (fst cp) (snd cp)) (d_structs (d_batch d) nat3 cb pb))) [] n3)
          DExit) DExit) DExit
        else
          obind (recv_data 72 n') (fun cb n1 =>
          obind (recv_data 72 n1) (fun _ n2 =>
          obind (recv_data 4 n2) (fun nb n3 =>
          let nat_ := int32 nb in
          if (nat_ <? 0)%Z then DExit else
          let np := if d_npos d =? 0 then Z.to_nat nat_ else d_npos d in
          if negb (Z.of_nat np =? nat_)%Z then DExit else
          obind (recv_data (8 * (3 * np)) n3) (fun pb n4 =>
          DGo (mkDriver (d_init d) true (d_batch d) np nat_
                 [pes (chop 9 cb) (chop (3 * np) pb)]) [] n4) DExit) DExit) DExit) DExit
      else if bytes_eqb hdr (Message "GETFORCE") then
        if 1 <? d_batch d then
          DGo (mkDriver (d_init d) false (d_batch d) (d_npos d) (d_nat d) (d_out d))
              (send_batch (d_nat d) (d_out d)) n'
        else
          match d_out d with
          | r :: _ =>
              (* driver.py:246-267: size checks *)
              if (length (r_for r) =? 3 * d_npos d) && (length (r_vir r) =? 9)
              then DGo (mkDriver (d_init d) false (d_batch d) (d_npos d) (d_nat d) (d_out d))
                       (send_single (d_nat d) r) n'
              else DExit
          | [] => DExit
          end
      else if bytes_eqb hdr (Message "EXIT") then DExit
      else DGo d [] n'
  end.

End Driver.
