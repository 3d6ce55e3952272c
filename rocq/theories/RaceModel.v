(** * Two races around a finished force request

    Part 1: the thread that evaluates a request against the thread that waits
    for it. /repo/ipi/engine/forcefields.py:389-429 (FFEval), 579-589 (FFDirect),
    1656-1665 (FFCommittee), 1859-1872 (FFRotations); sockets.py:545-569;
    the readers are forces.py:143-209 (ForceBead.get_all) and the gather methods
    (forcefields.py:1445-1658, 1803-1857).

    Part 2: the thread that queues a composite request against the polling
    thread. forcefields.py:1428-1443, 1656-1666 (FFCommittee) and 1743-1794,
    1859-1872 (FFRotations).

    Simplifications: python statements are atomic; the result is only the
    potential ([result[0]]); a reader holds a reference to the result list, so it
    sees later in-place changes. *)

From Coq Require Import List Arith Lia Bool.
Import ListNotations.

(** ** Part 1 *)
Section Offset.
Context {E : Type}.
Variable sub : E -> E -> E.
Variable offset : E.

(** Statements of the evaluating thread: store a result, set Done (and the
    event), subtract the offset in place. *)
Inductive wact := WPut (e : E) | WMark | WSub.
(** Statements of the reader: wait for Done, join the evaluating thread (release,
    forcefields.py:259-260), read the potential. *)
Inductive ract := RWait | RJoin | RRead.

(** forcefields.py:394-397 with 421-429 or 666-691. *)
Definition ffeval (e : E) : list wact := [WPut e; WMark; WSub].
(** forcefields.py:579-589: the offset is removed from the local list first. *)
Definition ffdirect (e : E) : list wact := [WPut (sub e offset); WMark].
(** forcefields.py:1662-1666, 1867-1871; sockets.py:546-569. *)
Definition put_sub_mark (e : E) : list wact := [WPut e; WSub; WMark].

(** forces.py:169-209: waits for Done, takes a reference to the result, releases
    the request, returns the result. *)
Definition get_all : list ract := [RWait; RJoin; RRead].
(** forcefields.py:1494-1527, 1822-1829: FFCommittee/FFRotations.gather read the
    potentials of requests seen Done (check_finish) and release them afterwards. *)
Definition gather : list ract := [RWait; RRead; RJoin].

Record conf := mkConf {
  cell : option E; done : bool; work : list wact; rd : list ract; out : list (option E) }.
Definition start (w : list wact) (r : list ract) : conf := mkConf None false w r [].

Definition wstep (c : conf) : conf :=
  match work c with
  | [] => c
  | WPut e :: w => mkConf (Some e) (done c) w (rd c) (out c)
  | WMark :: w => mkConf (cell c) true w (rd c) (out c)
  | WSub :: w => mkConf (option_map (fun x => sub x offset) (cell c)) (done c) w (rd c) (out c)
  end.
(** A blocked reader does nothing. *)
Definition rstep (c : conf) : conf :=
  match rd c with
  | [] => c
  | RWait :: r => if done c then mkConf (cell c) (done c) (work c) r (out c) else c
  | RJoin :: r => match work c with
                  | [] => mkConf (cell c) (done c) (work c) r (out c)
                  | _ => c
                  end
  | RRead :: r => mkConf (cell c) (done c) (work c) r (out c ++ [cell c])
  end.
(** A schedule says which thread makes the next step. *)
Definition sched (s : list bool) (c : conf) : conf :=
  fold_left (fun c (b : bool) => if b then wstep c else rstep c) s c.
End Offset.

(** ** Part 2 *)

Inductive cstatus := CQueued | CRunning | CDone.

(** [rot]: FFRotations (true) or FFCommittee (false). *)
Section Composite.
Variable rot : bool.

(** [clist]: self.requests, by key; [cst]: the status of each request; [csub]:
    all its sub-requests are Done; [cpend]: queue() has appended the request and
    has not yet executed [req["status"] = "Running"] (1782, FFRotations only). *)
Record cstate := mkC {
  clist : list nat; cst : nat -> cstatus; csub : nat -> bool; cpend : list nat; cnext : nat }.
Definition cinit := mkC [] (fun _ => CQueued) (fun _ => false) [] 0.

Definition upd {A} (f : nat -> A) (k : nat) (v : A) : nat -> A := fun x => if x =? k then v else f x.

(** forcefields.py:1437-1439 / 1779-1781 with 189-209. The sub-requests have been
    queued before and may be Done already. *)
Definition cappend (st : cstate) : cstate :=
  mkC (clist st ++ [cnext st]) (upd (cst st) (cnext st) CQueued) (csub st)
      (if rot then cnext st :: cpend st else cpend st) (S (cnext st)).
(** forcefields.py:1782. *)
Definition csetrunning (k : nat) (st : cstate) : cstate :=
  if existsb (Nat.eqb k) (cpend st) then
    mkC (clist st) (upd (cst st) k CRunning) (csub st)
        (filter (fun x => negb (x =? k)) (cpend st)) (cnext st)
  else st.

Definition cready (st : cstate) (k : nat) : bool :=
  csub st k && match cst st k with CDone => false | _ => true end.

(** [self.requests.remove(request)]. *)
Definition cremove (k : nat) (l : list nat) : list nat := filter (fun x => negb (x =? k)) l.

(** forcefields.py:1659-1665, 1862-1872: the loop over [self.requests], an index
    that grows by one even if the current element has been removed (FFRotations
    releases the request inside the loop). *)
Fixpoint cloop (n i : nat) (st : cstate) : cstate :=
  match n with
  | 0 => st
  | S n' =>
      match nth_error (clist st) i with
      | None => st
      | Some k =>
          if cready st k then
            cloop n' (S i)
              (mkC (if rot then cremove k (clist st) else clist st)
                   (upd (cst st) k CDone) (csub st) (cpend st) (cnext st))
          else cloop n' (S i) st
      end
  end.
Definition cpoll (st : cstate) : cstate := cloop (length (clist st)) 0 st.

Inductive cevent := CAppend | CSetRunning (k : nat) | CSub (k : nat) | CPoll | CRelease (k : nat).
Definition cstep (st : cstate) (e : cevent) : cstate :=
  match e with
  | CAppend => cappend st
  | CSetRunning k => csetrunning k st
  | CSub k => mkC (clist st) (cst st) (upd (csub st) k true) (cpend st) (cnext st)
  | CPoll => cpoll st
  | CRelease k =>
      match cst st k with
      | CDone => mkC (cremove k (clist st)) (cst st) (csub st) (cpend st) (cnext st)
      | _ => st
      end
  end.
Definition crun (es : list cevent) (st : cstate) : cstate := fold_left cstep es st.
End Composite.
