(* Model of the MPI interface between i-PI and its drivers.

   ipi/interfaces/mpi.py: MPIWorldManager._handshake 79-101, _assign
   103-127, roots_for 129-130; InterfaceMPI.poll 215-227, _collect 246-271,
   _unpack_results 273-292, _dispatch 294-324; ipi/engine/forcefields.py:
   FFMPI 432-487, the request of ForceField.queue 186-199;
   drivers/py/driver.py: _mpi_eval_batch 301-310, _mpi_send_results 313-331,
   run_driver_mpi 334-431.

   Messages between two ranks with one tag arrive in order and are not
   lost (that is MPI).  Numbers are of any type, since they are only copied;
   subtracting the offset is a function.  Strings are lists of code points,
   in UTF-8 on the way (WireModel).  A slice assignment of another length
   is an error of numpy.  The list of requests only grows here: a released
   request stays in it with another status. *)
From Coq Require Import String List Arith ZArith Bool Lia.
From Verif Require Import WireModel.
Import ListNotations.
Local Open Scope nat_scope.

(* ---------------- driver groups ---------------- *)

(* one HELLO: root, members of the group, force field name *)
Record hello := Hello { root : nat; members : list nat; tag : string }.

(* run_driver_mpi 366-382: the ranks 1 to size-1, each launched with an mpi_id,
   a group size and a name, form pools of equal mpi_id; in a pool the position
   divided by the group size is the colour; ranks of one colour are a group.
   Split keeps the order of ranks.  The first rank of a group is its root and
   sends the HELLO, with the name it was launched with *)
Record launch := Launch { id_of : nat -> nat; size_of : nat -> nat; name_of : nat -> string }.
Section Groups.
Variable L : launch.
Variable size : nat.
Definition pool_rank (r : nat) : nat := length (filter (fun x => Nat.eqb (id_of L x) (id_of L r)) (seq 1 (r - 1))).
Definition colour (r : nat) : nat := pool_rank r / size_of L r.
Definition group (r : nat) : list nat :=
  filter (fun x => Nat.eqb (id_of L x) (id_of L r) && Nat.eqb (colour x) (colour r)) (seq 1 (size - 1)).
Definition is_root (r : nat) : bool := match group r with x :: _ => Nat.eqb x r | nil => false end.
Definition hellos : list hello := map (fun r => Hello r (group r) (name_of L r)) (filter is_root (seq 1 (size - 1))).
End Groups.

(* roots_by_name: a dictionary, in the order of insertion *)
Definition buckets := list (string * list nat).
(* setdefault(name, []).append(r) *)
Fixpoint push (name : string) (r : nat) (b : buckets) : buckets :=
  match b with
  | nil => [(name, [r])]
  | (n, rs) :: b => if String.eqb n name then (n, rs ++ [r]) :: b else (n, rs) :: push name r b
  end.
Fixpoint bget (name : string) (b : buckets) : list nat :=
  match b with nil => [] | (n, rs) :: b => if String.eqb n name then rs else bget name b end.

Definition mem (x : nat) (l : list nat) : bool := existsb (Nat.eqb x) l.
(* covered == expected, as sets *)
Definition same (a b : list nat) : bool := forallb (fun x => mem x b) a && forallb (fun x => mem x a) b.

(* _handshake 84-99: messages are taken in the order of arrival until the
   groups cover the ranks 1 to size-1.  None: Probe waits for ever *)
Fixpoint handshake (size : nat) (ms : list hello) (covered : list nat) (b : buckets) {struct ms} : option (buckets * list hello) :=
  if same covered (seq 1 (size - 1)) then Some (b, ms)
  else match ms with
       | nil => None
       | m :: ms => handshake size ms (covered ++ members m) (push (tag m) (root m) b)
       end.

Fixpoint insert (x : nat) (l : list nat) : list nat :=
  match l with nil => [x] | y :: l => if x <=? y then x :: y :: l else y :: insert x l end.
Fixpoint sort (l : list nat) : list nat := match l with nil => [] | x :: l => insert x (sort l) end.

(* _assign 103-127; None is a ValueError.  registered: the set of names of
   force fields *)
Definition isname (n : string) (l : list string) : bool := existsb (String.eqb n) l.
Definition assign (registered : list string) (b : buckets) : option buckets :=
  match registered with
  | [only] => Some [(only, sort (concat (map snd b)))]
  | _ =>
      if isname "" (map fst b) then None
      else if negb (forallb (fun n => isname n registered) (map fst b)) then None
      else if negb (forallb (fun n => negb (Nat.eqb (length (bget n b)) 0)) registered) then None
      else Some (map (fun e => (fst e, sort (snd e))) b)
  end.

(* roots_for 129-130 *)
Definition roots_for (name : string) (b : buckets) : list nat := bget name b.

(* ---------------- packing ---------------- *)

Section Data.
Variable F : Type.
(* a request: cell and its inverse, positions, and the coordinates the driver
   should see (request["active"], never looked at here) *)
Record struct := Struct { h : list F; ih : list F; pos : list F; act : list nat }.
Record result := Result { pot : F; force : list F; vir : list F; extra : list Z }.

(* a[off : off+n] = l: the length must be right *)
Definition fits (n : nat) (l : list F) : bool := Nat.eqb (length l) n.

(* _dispatch 307-318: header and body of a batch; None: numpy refuses *)
Definition pack_work (batch : list struct) : option (nat * nat * list F) :=
  match batch with
  | nil => None
  | s :: _ =>
      let nat := length (pos s) / 3 in
      if forallb (fun s => fits 9 (h s) && fits 9 (ih s) && fits (3 * nat) (pos s)) batch
      then Some (nat, length batch, concat (map (fun s => h s ++ ih s ++ pos s) batch))
      else None
  end.

Definition slice (a b : nat) (l : list F) : list F := firstn (b - a) (skipn a l).

(* driver.py 301-310: cells and positions of every structure *)
Definition unpack_work (nat batch : nat) (body : list F) : list (list F * list F) :=
  let stride := 18 + 3 * nat in
  map (fun i => (slice (i * stride) (i * stride + 9) body, slice (i * stride + 18) (i * stride + stride) body))
      (seq 0 batch).

(* driver.py 313-331; None: a result of the wrong size *)
Definition pack_result (nat : nat) (rs : list result) : option (list F * bytes) :=
  if forallb (fun r => fits (3 * nat) (force r) && fits 9 (vir r)) rs
  then Some (concat (map (fun r => pot r :: force r ++ vir r) rs),
             concat (map (fun r => le4 (Z.of_nat (length (utf8 (extra r)))) ++ utf8 (extra r)) rs))
  else None.

(* _unpack_results 273-292, without the offset; None: UnicodeDecodeError, or
   an index out of range *)
Fixpoint unpack_results (k i nat : nat) (numeric : list F) (ebuf : bytes) : option (list result) :=
  match k with
  | 0 => Some []
  | S k =>
      let stride := 1 + 3 * nat + 9 in
      let base := i * stride in
      match nth_error numeric base with
      | None => None
      | Some p =>
          let f := slice (base + 1) (base + 1 + 3 * nat) numeric in
          let v := slice (base + 1 + 3 * nat) (base + stride) numeric in
          if negb (Nat.eqb (length v) 9) then None   (* reshape(3, 3) *)
          else if negb (Nat.eqb (length (firstn 4 ebuf)) 4) then None
          else
            let elen := Z.to_nat (int32 (firstn 4 ebuf)) in
            let rest := skipn 4 ebuf in
            match (if Nat.eqb elen 0 then Some [] else decode_utf8 (firstn elen rest)) with
            | None => None
            | Some e =>
                match unpack_results k (S i) nat numeric (skipn elen rest) with
                | None => None
                | Some rs => Some (Result p f v e :: rs)
                end
            end
      end
  end.

(* ---------------- the pool ---------------- *)

Variable eval : list F * list F -> result.   (* the driver's potential *)
Variable shift : F -> F.                     (* pot - offset *)

Inductive status := Queued | Running | Done (r : result) | Released.
Record request := Request { st : struct; status_of : status }.
Record slot := Slot { rank : nat; work : option (list nat * nat) }.   (* BUSY with requests and nat, or IDLE *)
(* what is on its way from or to a rank *)
Inductive channel := Quiet | Work (nat batch : nat) (body : list F) | Reply (numeric : list F) (ebuf : bytes).
Record state := State { requests : list request; slots : list slot; wire : nat -> channel }.

Definition set_wire (w : nat -> channel) (r : nat) (c : channel) : nat -> channel :=
  fun x => if Nat.eqb x r then c else w x.
Fixpoint set_status (rs : list request) (i : nat) (s : status) : list request :=
  match rs, i with
  | nil, _ => nil
  | r :: rs, 0 => Request (st r) s :: rs
  | r :: rs, S i => r :: set_status rs i s
  end.
Fixpoint deliver (rs : list request) (ids : list nat) (vs : list result) : list request :=
  match ids, vs with
  | i :: ids, v :: vs =>
      deliver (set_status rs i (Done (Result (shift (pot v)) (force v) (vir v) (extra v)))) ids vs
  | _, _ => rs
  end.

(* _collect 246-271 *)
Fixpoint collect (sl : list slot) (rs : list request) (w : nat -> channel)
  : option (list slot * list request * (nat -> channel)) :=
  match sl with
  | nil => Some ([], rs, w)
  | s :: sl =>
      match work s with
      | Some (ids, nat) =>
          match w (rank s) with
          | Reply numeric ebuf =>
              match unpack_results (length ids) 0 nat numeric ebuf with
              | None => None
              | Some vs =>
                  match collect sl (deliver rs ids vs) (set_wire w (rank s) Quiet) with
                  | None => None
                  | Some (sl', rs', w') => Some (Slot (rank s) None :: sl', rs', w')
                  end
              end
          | _ => match collect sl rs w with
                 | None => None
                 | Some (sl', rs', w') => Some (s :: sl', rs', w')
                 end
          end
      | None => match collect sl rs w with
                | None => None
                | Some (sl', rs', w') => Some (s :: sl', rs', w')
                end
      end
  end.

Definition is_queued (r : request) : bool := match status_of r with Queued => true | _ => false end.
Definition queued (rs : list request) : list nat :=
  filter (fun i => match nth_error rs i with Some r => is_queued r | None => false end) (seq 0 (length rs)).
Definition structs (rs : list request) (ids : list nat) : list struct :=
  flat_map (fun i => match nth_error rs i with Some r => [st r] | None => [] end) ids.

(* _dispatch 294-324: q are the queued requests not yet taken *)
Fixpoint dispatch (batch_size : nat) (sl : list slot) (q : list nat) (rs : list request) (w : nat -> channel)
  : option (list slot * list request * (nat -> channel)) :=
  match sl with
  | nil => Some ([], rs, w)
  | s :: sl =>
      match work s, q with
      | None, _ :: _ =>
          let batch := firstn batch_size q in
          match pack_work (structs rs batch) with
          | None => None
          | Some (nat, n, body) =>
              match dispatch batch_size sl (skipn batch_size q)
                      (fold_left (fun rs i => set_status rs i Running) batch rs)
                      (set_wire w (rank s) (Work nat n body)) with
              | None => None
              | Some (sl', rs', w') => Some (Slot (rank s) (Some (batch, nat)) :: sl', rs', w')
              end
          end
      | _, _ =>
          match dispatch batch_size sl q rs w with
          | None => None
          | Some (sl', rs', w') => Some (s :: sl', rs', w')
          end
      end
  end.

(* poll 215-227 (the INIT message is not modelled) *)
Definition poll (batch_size : nat) (x : state) : option state :=
  match collect (slots x) (requests x) (wire x) with
  | None => None
  | Some (sl, rs, w) =>
      match dispatch batch_size sl (queued rs) rs w with
      | None => None
      | Some (sl, rs, w) => Some (State rs sl w)
      end
  end.

(* the driver at a rank takes a WORK message and answers *)
Definition turn (r : nat) (x : state) : option state :=
  match wire x r with
  | Work nat n body =>
      match pack_result nat (map eval (unpack_work nat n body)) with
      | None => None
      | Some (num, eb) => Some (State (requests x) (slots x) (set_wire (wire x) r (Reply num eb)))
      end
  | _ => Some x
  end.

Definition start (ranks : list nat) : state := State [] (map (fun r => Slot r None) ranks) (fun _ => Quiet).
Definition queue (s : struct) (x : state) : state :=
  State (requests x ++ [Request s Queued]) (slots x) (wire x).
(* a request is released after its result has been read *)
Definition release (i : nat) (x : state) : state :=
  match nth_error (requests x) i with
  | Some (Request s (Done _)) => State (set_status (requests x) i Released) (slots x) (wire x)
  | _ => x
  end.

Inductive event := Queue (s : struct) | Poll | Turn (r : nat) | Release (i : nat).
Definition next (batch_size : nat) (e : event) (x : state) : option state :=
  match e with
  | Queue s => Some (queue s x)
  | Poll => poll batch_size x
  | Turn r => turn r x
  | Release i => Some (release i x)
  end.
Fixpoint run (batch_size : nat) (es : list event) (x : state) : option state :=
  match es with
  | nil => Some x
  | e :: es => match next batch_size e x with Some x => run batch_size es x | None => None end
  end.
End Data.

Arguments Struct {F}. Arguments h {F}. Arguments ih {F}. Arguments pos {F}. Arguments act {F}.
Arguments Result {F}. Arguments pot {F}. Arguments force {F}. Arguments vir {F}. Arguments extra {F}.
Arguments Queued {F}. Arguments Running {F}. Arguments Done {F}. Arguments Released {F}.
Arguments Request {F}. Arguments st {F}. Arguments status_of {F}.
Arguments Quiet {F}. Arguments Work {F}. Arguments Reply {F}.
Arguments State {F}. Arguments requests {F}. Arguments slots {F}. Arguments wire {F}.
Arguments Queue {F}. Arguments Poll {F}. Arguments Turn {F}. Arguments Release {F}.
Arguments slice {F}. Arguments fits {F}. Arguments pack_work {F}. Arguments unpack_work {F}.
Arguments pack_result {F}. Arguments unpack_results {F}. Arguments set_wire {F}. Arguments set_status {F}.
Arguments queued {F}. Arguments structs {F}. Arguments is_queued {F}. Arguments start {F}. Arguments queue {F}. Arguments release {F}.
Arguments dispatch {F}.
