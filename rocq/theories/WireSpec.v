(** * What the messages must be

    The protocol as documented for drivers, stated without reference to how the
    server or the driver read or write it. *)

From Coq Require Import Ascii String List ZArith Lia Bool Arith.
From Verif Require Import WireModel.
Import ListNotations.
Open Scope nat_scope.
Open Scope list_scope.

(** The bytes that arrive, in order. *)
Fixpoint data (n : net) : bytes :=
  match n with
  | [] => []
  | NChunk l :: n' => l ++ data n'
  | NTimeout :: n' => data n'
  end.

(** The number of times the connection stalls. *)
Fixpoint stalls (n : net) : nat :=
  match n with
  | [] => 0
  | NChunk _ :: n' => stalls n'
  | NTimeout :: n' => S (stalls n')
  end.

(** Before the end no [recv] returns zero bytes. *)
Definition alive (n : net) : Prop := forall l, In (NChunk l) n -> l <> [].

(** The places, counted in bytes from the start, where the stream is cut. *)
Fixpoint cuts (n : net) : list nat :=
  match n with
  | [] => []
  | NChunk l :: n' => length l :: map (fun c => length l + c) (cuts n')
  | NTimeout :: n' => cuts n'
  end.
(** No cut falls inside the [k] bytes that start at [a]. *)
Definition whole (a k : nat) (n : net) : Prop :=
  forall c, In c (cuts n) -> ~ (a < c < a + k).

(** A float64 is 8 bytes; an array of [k] of them. *)
Definition f64s (k : nat) (a : list f64) : Prop :=
  length a = k /\ forall x, In x a -> length x = 8.

(** A Unicode string: code points without surrogates. *)
Definition unicode (s : list Z) : Prop :=
  forall c, In c s -> (0 <= c < 1114112 /\ ~ (55296 <= c < 57344))%Z.
Definition ascii (s : list Z) : Prop := forall c, In c s -> (0 <= c < 128)%Z.

(** Sizes announced on the wire fit in an int32. *)
Definition small (n : nat) : Prop := (Z.of_nat n < 2147483648)%Z.

(** A reply for [nat_] atoms. *)
Definition proper (nat_ : nat) (r : reply) : Prop :=
  length (r_pot r) = 8 /\ f64s (3 * nat_) (r_for r) /\ f64s 9 (r_vir r) /\
  unicode (r_extra r) /\ small (length (utf8 (r_extra r))).

(** The force message. *)
Definition force_message (nat_ : nat) (r : reply) : bytes :=
  Message "forceready" ++ r_pot r ++ le4 (Z.of_nat nat_) ++ concat (r_for r) ++ concat (r_vir r)
  ++ le4 (Z.of_nat (length (utf8 (r_extra r)))) ++ utf8 (r_extra r).

(** The force message for a batch. *)
Definition batch_message (nat_ : nat) (l : list reply) : bytes :=
  Message "forceready" ++ flat_map r_pot l ++ le4 (Z.of_nat nat_)
  ++ flat_map (fun r => concat (r_for r)) l ++ flat_map (fun r => concat (r_vir r)) l
  ++ flat_map (fun r => le4 (Z.of_nat (length (utf8 (r_extra r)))) ++ utf8 (r_extra r)) l.

(** [p] is a proper prefix of [m]. *)
Definition truncated (p m : bytes) : Prop := exists s, s <> [] /\ m = p ++ s.

(** The value received, if any. *)
Definition received {A} (r : res A) : option A :=
  match r with Got a _ _ => Some a | _ => None end.
(** What is left for the next reader. *)
Definition left_over {A} (r : res A) : option bytes :=
  match r with Got _ _ n => Some (data n) | _ => None end.
