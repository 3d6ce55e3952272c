(** * What the socket dispatcher promises

    Vocabulary for the theorems about SockModel.v, stated on the observable
    state only: the list of requests with their status and result, the list of
    connected clients and the list of jobs. *)

From Coq Require Import List Arith Lia Bool.
From Verif Require Import SockModel.
Import ListNotations.

Section Spec.
Context {E P : Type}.
Variable sub : E -> E -> E.
Variable offset : E.
Variable energy : nat -> E.
Variable payload : nat -> P.
Notation state := (state E P).

(** Number of jobs that contain request [k]. *)
Definition jobs_with (k : nat) (st : state) : nat :=
  length (filter (fun j => existsb (Nat.eqb k) (fst j)) (jobs st)).

(** The client is connected: in the pool, with the Up flag set. *)
Definition connected (c : nat) (st : state) : Prop :=
  exists cl, In cl (clients st) /\ cid cl = c /\ Nat.land (cstat cl) 1 = 1.

(** The trichotomy of C07: a request is waiting, or in exactly one job and
    computed by one connected client, or finished. *)
Definition accounted (st : state) (r : request E P) : Prop :=
  match rst r with
  | Queued => jobs_with (rkey r) st = 0
  | Running =>
      jobs_with (rkey r) st = 1 /\
      exists ks c, In (ks, c) (jobs st) /\ In (rkey r) ks /\ connected c st /\
                   (exists cl, In cl (clients st) /\ cid cl = c /\ In (rkey r) (csent cl))
  | Done => jobs_with (rkey r) st = 0
  end.

(** The result a request must carry: the energy of its own structure minus the
    offset, once, and the rest of the payload as computed. *)
Definition right_result (r : request E P) : Prop :=
  rres r = Some (sub (energy (rkey r)) offset, payload (rkey r)).

(** Client [c] has work outstanding. *)
Definition working (c : nat) (st : state) : Prop := exists ks, In (ks, c) (jobs st).

End Spec.
