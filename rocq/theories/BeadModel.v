(** * Requests sent ahead of a read

    /repo/ipi/engine/forces.py: ForceBead 60-240 (queue 126-141, get_all 143-209),
    Forces.queue 1181-1189, f_combine 1458-1473 (pot_combine, vir_combine and
    extra_combine have the same shape), MTSForces 605-705.

    Several force components of one system; a component is one ForceBead (the
    beads of a component are queued and read together, 409-423, 424-500, so a
    component stands for any of its beads). [X]: positions and cell, [Y]: what the
    force field returns. The force field answers with the result for the
    positions in the request (forcefields.py:166-199 copies them).

    Simplifications: one thread; reads do not fail. *)

From Coq Require Import List Arith Bool.
Import ListNotations.

Section Bead.
Context {X Y : Type}.
(** The force field of a component. *)
Variable ff : nat -> X -> Y.

(** A component: [self._ufvx] tainted, its cached value, [self.request] with the
    positions stored in it. *)
Record comp := mkComp { tainted : bool; cached : option Y; req : option X }.
(** One entry of the trace: component, value returned, positions at that time. *)
Record seen := mkSeen { s_comp : nat; s_val : option Y; s_pos : X }.
Record st := mkSt { q : X; comps : nat -> comp; trace : list seen }.
Definition init (x : X) : st := mkSt x (fun _ => mkComp true None None) [].

Definition upd (f : nat -> comp) (i : nat) (c : comp) : nat -> comp :=
  fun j => if j =? i then c else f j.

(** Assigning positions or cell taints everything that depends on them
    (forces.py:98-104: ufvx depends on atoms.q and cell.h; area Depend). *)
Definition set (x : X) (s : st) : st :=
  mkSt x (fun i => let c := comps s i in mkComp true (cached c) (req c)) (trace s).

(** forces.py:136-141. *)
Definition queue (i : nat) (s : st) : st :=
  let c := comps s i in
  match req c with
  | None => if tainted c then mkSt (q s) (upd (comps s) i (mkComp true (cached c) (Some (q s)))) (trace s)
            else s
  | Some _ => s
  end.

(** Reading the value: if tainted, get_all (forces.py:160-209) is called: queues
    if there is no request, waits, drops the request, stores the result. *)
Definition read (i : nat) (s : st) : st :=
  let out v s' := mkSt (q s') (comps s') (trace s' ++ [mkSeen i v (q s')]) in
  if tainted (comps s i) then
    let s1 := queue i s in
    let v := option_map (ff i) (req (comps s1 i)) in
    out v (mkSt (q s1) (upd (comps s1) i (mkComp false v None)) (trace s1))
  else out (cached (comps s i)) s.

(** [qs] are queued, then [rs] are read: Forces.queue then f_combine (1461-1473)
    have the same list twice (components of nonzero weight). *)
Definition gather (qs rs : list nat) (s : st) : st :=
  fold_left (fun s i => read i s) rs (fold_left (fun s i => queue i s) qs s).

Inductive op := Set_ (x : X) | Queue (i : nat) | Read (i : nat) | Gather (qs rs : list nat).
Definition exec (s : st) (o : op) : st :=
  match o with
  | Set_ x => set x s
  | Queue i => queue i s
  | Read i => read i s
  | Gather qs rs => gather qs rs s
  end.
Definition run (os : list op) (s : st) : st := fold_left exec os s.
End Bead.

(** ** Which components a multiple-time-step level queues and reads *)

Section Mts.
Context {W : Type}.
Variable nz : W -> bool.
Record comp_w := mkW { weight : W; mtsw : list W }.
Definition has_level (c : comp_w) (l : nat) : bool :=
  match nth_error (mtsw c) l with Some w => nz w | None => false end.
(** forces.py:648-656. *)
Definition queues (c : comp_w) (l : nat) : bool :=
  ((length (mtsw c) =? 0) && (l =? 0)) || (has_level c l && nz (weight c)).
(** forces.py:668-675, get_forces_mts: the same condition. *)
Definition reads_f (c : comp_w) (l : nat) : bool := queues c l.
(** forces.py:693-698, get_virs_mts. *)
Definition reads_v (c : comp_w) (l : nat) : bool := has_level c l && nz (weight c).
(** forces.py:1187, 1467. *)
Definition in_total (c : comp_w) : bool := nz (weight c).
Definition pick (f : comp_w -> bool) (cs : list comp_w) : list nat :=
  filter (fun i => match nth_error cs i with Some c => f c | None => false end) (seq 0 (length cs)).
(** The traffic of reading f, f of a level and the virials of a level. *)
Definition get_f (cs : list comp_w) {X} : @op X := Gather (pick in_total cs) (pick in_total cs).
Definition get_f_mts (cs : list comp_w) (l : nat) {X} : @op X :=
  Gather (pick (fun c => queues c l) cs) (pick (fun c => reads_f c l) cs).
Definition get_v_mts (cs : list comp_w) (l : nat) {X} : @op X :=
  Gather (pick (fun c => queues c l) cs) (pick (fun c => reads_v c l) cs).
End Mts.
