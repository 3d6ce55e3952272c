(** Model of the soft exit (ipi/utils/softexit.py), as an interleaving of the
    threads that request it.  Every event is one test or one effect of a thread
    on the shared object; between two events any other thread may run.
    Not modelled: printing, [reset], the timer and the file test of the monitor
    (a request may come at any time). *)
Require Import List Arith Bool Lia.
Import ListNotations.

(** the strings accepted by cleanup, anything else raises ValueError (99-106) *)
Inductive status := Restartable | Success | Bad | Unknown.
(** how a registered function ends (115-121): normally, with a RuntimeError or with another exception *)
Inductive outcome := Fine | RuntimeErr | OtherErr.

(** where a thread is *)
Inductive pc :=
| Idle               (* not in the soft exit *)
| Calls (st : status) (* trigger called, 79 *)
| Enters (st : status) (* past the test in trigger: cleanup called, 84-93 *)
| Window (st : status) (* past the test at 94, flags not yet set *)
| Flagged (st : status) (* flags set, 95-98 *)
| Runs (i : nat)      (* about to call function i, 115-121 *)
| Relaxes            (* 123 *)
| Stops (j : nat)     (* about to clear the flag of registered thread j, 125-126 *)
| Joins (j : nat)     (* waiting for registered thread j, 128-134 *)
| Back               (* trigger returned *)
| Dead               (* sys.exit, 136-139 *)
| Failed             (* left by an exception *).

(** What is registered: functions with their outcome; threads, each with its
    identity and whether there is a variable controlling its loop (57-65); the
    monitor thread. *)
Record env := mkenv { flist : list outcome; tids : list nat; control : nat -> bool; monitor : nat }.
(** The shared object, the registered threads and the log of function calls. *)
Record st := mkst { triggered : bool; exiting : bool; loops : nat -> bool; alive : nat -> bool;
  pcs : nat -> pc; calls : list (nat * nat) }.

Definition upd {A} (f : nat -> A) (k : nat) (a : A) : nat -> A := fun x => if Nat.eqb x k then a else f x.
Definition goto (s : st) (t : nat) (p : pc) : st := mkst (triggered s) (exiting s) (loops s) (alive s) (upd (pcs s) t p) (calls s).

(** [join] of registered thread [j] by thread [t] is skipped for the monitor and
    for the thread itself (129-132), and otherwise waits for its end. *)
Definition may_pass (e : env) (s : st) (t j : nat) : bool :=
  Nat.eqb t (monitor e) || Nat.eqb t (nth j (tids e) 0) || negb (alive s j).

(** One step of thread [t]; [None]: it cannot move. *)
Definition act (e : env) (s : st) (t : nat) : option st :=
  match pcs s t with
  | Calls c => Some (goto s t (if triggered s then Back else Enters c))
  | Enters c => Some (goto s t (if triggered s then Joins 0 else Window c))
  | Window c => Some (mkst true true (loops s) (alive s) (upd (pcs s) t (Flagged c)) (calls s))
  | Flagged c => Some (goto s t (match c with Unknown => Failed | _ => Runs 0 end))
  | Runs i =>
      match nth_error (flist e) i with
      | None => Some (goto s t Relaxes)
      | Some o => Some (mkst (triggered s) (exiting s) (loops s) (alive s)
                          (upd (pcs s) t (match o with OtherErr => Failed | _ => Runs (S i) end)) (calls s ++ [(t, i)]))
      end
  | Relaxes => Some (mkst (triggered s) false (loops s) (alive s) (upd (pcs s) t (Stops 0)) (calls s))
  | Stops j =>
      if j <? length (tids e)
      then if control e j
           then Some (mkst (triggered s) (exiting s) (upd (loops s) j false) (alive s) (upd (pcs s) t (Stops (S j))) (calls s))
           else Some (goto s t Failed)
      else Some (goto s t (Joins 0))
  | Joins j =>
      if j <? length (tids e)
      then if may_pass e s t j then Some (goto s t (Joins (S j))) else None
      else Some (goto s t Dead)
  | Idle | Back | Dead | Failed => None
  end.

(** Events: a request (trigger is called), a step of a thread, the end of a
    registered thread, and a second signal: _kill_handler (165-188) calls trigger,
    which returns at once, and then the previous handler, which raises
    (KeyboardInterrupt; for SIGTERM the default handler cannot be called). *)
Inductive ev := Req (t : nat) (c : status) | Act (t : nat) | Fin (j : nat) | Sig (t : nat).
Definition may_request (p : pc) : bool := match p with Idle | Back | Failed => true | _ => false end.
Definition may_end (s : st) (p : pc) (j : nat) : bool :=
  match p with Idle | Back => negb (loops s j) | Dead | Failed => true | _ => false end.
Definition cleaning (p : pc) : bool := match p with Runs _ | Relaxes | Stops _ | Joins _ => true | _ => false end.
Definition next (e : env) (s : st) (x : ev) : option st :=
  match x with
  | Req t c => if may_request (pcs s t) then Some (goto s t (Calls c)) else None
  | Act t => act e s t
  | Fin j => if (j <? length (tids e)) && alive s j && may_end s (pcs s (nth j (tids e) 0)) j
             then Some (mkst (triggered s) (exiting s) (loops s) (upd (alive s) j false) (pcs s) (calls s)) else None
  | Sig t => if triggered s && cleaning (pcs s t) then Some (goto s t Failed) else None
  end.
Fixpoint exec (e : env) (s : st) (l : list ev) : option st :=
  match l with
  | [] => Some s
  | x :: l => match next e s x with None => None | Some s' => exec e s' l end
  end.
Definition start : st := mkst false false (fun _ => true) (fun _ => true) (fun _ => Idle) [].
