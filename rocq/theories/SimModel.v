(** Model of the run loop, the outputs and the restart file
    (ipi/engine/simulation.py:315-470, ipi/engine/outputs.py:100-160, 259-300, 640-760).
    One event is an action of the main thread or a soft exit requested by another
    thread; such a request may come between any two actions and in the middle of
    a step.  The state of the systems, motions, thermostats and random numbers is
    an abstract type; storing and fetching it is the identity. *)
Require Import List Arith Bool Lia.
Import ListNotations.

Section Sim.
Variable D : Type.
(** run_step (433-465): motion of all systems and the super motion *)
Variable adv : nat -> D -> D.
(** whether a motion reports to be finished after that step (442-449, 457-462) *)
Variable fin : nat -> D -> bool.

(** an output: whether it is a checkpoint, and its stride *)
Record output := mkout { is_chk : bool; stride : nat }.

(** where the main thread is; [k] is the loop variable *)
Inductive pc :=
| PStart
| PInit (rest : list (nat * output))       (* 323-341 initial configuration *)
| PTop (k : nat)                          (* 355-367 *)
| PStoring (k : nat)                      (* 370-371, chk._storing set *)
| PRun (k : nat)                          (* 373 *)
| PMid (k : nat) (before : D)             (* in the middle of the step *)
| PAfter (k : nat)                        (* 375-377 *)
| PWrite (k : nat) (rest : list (nat * output)) (* 379-391 *)
| PEnd (k : nat)                          (* 421-430 *)
| PBreak                                  (* out of the loop, 432 not yet executed *)
| POver                                   (* run has returned *)
| PCrash                                  (* ZeroDivisionError in active *).

(** [lab] is self.step + 1 (the initial outputs are made with step -1); [chk]
    is the status kept by the RESTART checkpoint: step and data. *)
Record sim := mksim { lab : nat; data : D; chk : nat * D; rollback : bool; triggered : bool; at_ : pc;
  log : list (nat * nat * D); ckpts : list (nat * (nat * D)); restart : option (nat * D) }.

Variable tsteps safe : nat.
Variable outs : list output.
Definition numbered : list (nat * output) := combine (seq 0 (length outs)) outs.

Definition goto (s : sim) (p : pc) : sim := mksim (lab s) (data s) (chk s) (rollback s) (triggered s) p (log s) (ckpts s) (restart s).
Definition at_step (s : sim) (l : nat) (p : pc) : sim := mksim l (data s) (chk s) (rollback s) (triggered s) p (log s) (ckpts s) (restart s).

(** One output: PropertyOutput.write and TrajectoryOutput.write return at once
    when the exit has been triggered (outputs.py:273-277, 456-459), CheckpointOutput.write
    does not test it (690-745); active (157-160, 681-684). *)
Definition write_out (s : sim) (io : nat * output) (p : pc) : sim :=
  let '(i, o) := io in
  if negb (is_chk o) && triggered s then goto s p
  else if stride o =? 0 then goto s PCrash
  else if lab s mod stride o =? 0
  then if is_chk o then mksim (lab s) (data s) (chk s) (rollback s) (triggered s) p (log s) (ckpts s ++ [(i, (lab s, data s))]) (restart s)
       else mksim (lab s) (data s) (chk s) (rollback s) (triggered s) p (log s ++ [(i, lab s, data s)]) (ckpts s) (restart s)
  else goto s p.
(** the for statement (355): next step or end of the loop *)
Definition loop (s : sim) (k : nat) : sim := if k <? tsteps then at_step s (S k) (PTop k) else goto s PBreak.
(** Next action of the main thread; [stop]: the EXIT file exists or the time is over (421-430). *)
Definition go (stop : bool) (s : sim) : option sim :=
  match at_ s with
  | PStart => Some (if lab s =? 1 then at_step s 0 (PInit numbered) else loop s (lab s - 1))
  | PInit [] => Some (loop s 0)
  | PInit (o :: r) => Some (write_out s o (PInit r))
  | PTop k => Some (goto s (if triggered s then PBreak else if k mod safe =? 0 then PStoring k else PRun k))
  | PStoring k => Some (mksim (lab s) (data s) (lab s - 1, data s) (rollback s) (triggered s) (PRun k) (log s) (ckpts s) (restart s))
  | PRun k => Some (mksim (lab s) (adv k (data s)) (chk s) (rollback s) (triggered s) (PAfter k) (log s) (ckpts s) (restart s))
  | PMid k d => Some (mksim (lab s) (adv k d) (chk s) (rollback s) (triggered s) (PAfter k) (log s) (ckpts s) (restart s))
  | PAfter k => Some (goto s (if triggered s || fin k (data s) then PBreak else PWrite k numbered))
  | PWrite k [] => Some (goto s (PEnd k))
  | PWrite k (o :: r) => Some (write_out s o (PWrite k r))
  | PEnd k => Some (if stop then goto s PBreak else loop s (S k))
  | PBreak => Some (mksim (lab s) (data s) (chk s) false (triggered s) POver (log s) (ckpts s) (restart s))
  | POver | PCrash => None
  end.
(** Simulation.softexit (304-313) with CheckpointOutput.write(store=False) (690-745). *)
Definition softexit (s : sim) : sim :=
  let l := if lab s <=? tsteps then S (lab s) else lab s in
  let c := if rollback s then chk s else (l - 1, data s) in
  let c := match at_ s with PStoring _ => (l - 1, data s) | _ => c end in
  mksim l (data s) c (rollback s) true (at_ s) (log s) (ckpts s) (Some c).

Inductive ev := Go (stop : bool) | Mid (d : D) | Trig.
Definition next (s : sim) (x : ev) : option sim :=
  match x with
  | Go b => go b s
  | Mid d => match at_ s with
             | PRun k => Some (mksim (lab s) d (chk s) (rollback s) (triggered s) (PMid k (data s)) (log s) (ckpts s) (restart s))
             | PMid k b => Some (mksim (lab s) d (chk s) (rollback s) (triggered s) (PMid k b) (log s) (ckpts s) (restart s))
             | _ => None
             end
  | Trig => if triggered s then None else Some (softexit s)
  end.
Fixpoint exec (s : sim) (l : list ev) : option sim :=
  match l with
  | [] => Some s
  | x :: l => match next s x with None => None | Some s' => exec s' l end
  end.
(** Simulation.bind (227-303): step from the input file, the status is stored,
    refused if there is nothing left to do. *)
Definition bind (k0 : nat) (d0 : D) : option sim :=
  if tsteps <=? k0 then None else Some (mksim (S k0) d0 (k0, d0) true false PStart [] [] None).
End Sim.
