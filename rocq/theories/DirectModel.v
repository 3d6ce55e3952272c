(** * Direct force evaluation

    Model of FFDirect in /repo/ipi/engine/forcefields.py:490-616 together with
    the queue and release of ForceField (130-214, 249-271).

    Simplifications:
    - a request is identified by a key; its structure is the copy of positions
      and cell taken when it is queued (159, 193) and never changes, so the key
      also stands for the structure;
    - results are a pair of the potential and the rest; the reshaping of forces
      and virial and parse_extra (582-584) are left out;
    - [_threadlock] is held during the whole of [poll] (559) and around the
      changes of [requests] (208, 262), so these are the atomic steps;
    - times are left out. *)

From Coq Require Import List Arith Lia Bool.
Import ListNotations.

Inductive dstatus := DQueued | DRunning | DDone.
Definition dstatus_eqb (a b : dstatus) : bool :=
  match a, b with
  | DQueued, DQueued | DRunning, DRunning | DDone, DDone => true
  | _, _ => false
  end.

Section Direct.
Context {E P : Type}.
Variable sub : E -> E -> E.
Variable offset : E.
(** [batch_size] and the driver: called with one structure (610) or with a batch
    (600); [None] when it raises an exception. *)
Variable bs : nat.
Variable drv1 : nat -> option (E * P).
Variable drv : list nat -> option (list (E * P)).

Record dreq := mkDReq { dkey : nat; dst : dstatus; dres : option (E * P) }.

(** [evals] is a ghost: the structures of each call of the driver, in order.
    [dead] is set when an exception leaves [poll]. *)
Record dstate := mkD {
  dreqs : list dreq; batch : list nat; idle : nat; evals : list (list nat); dead : bool; dnext : nat }.
Definition dinit := mkD [] [] 0 [] false 0.

Definition set_req (k : nat) (f : dreq -> dreq) (l : list dreq) : list dreq :=
  map (fun r => if dkey r =? k then f r else r) l.
Definition get_req (k : nat) (l : list dreq) : option dreq := find (fun r => dkey r =? k) l.

(** forcefields.py:579-589. *)
Definition process_results (k : nat) (ep : E * P) (l : list dreq) : list dreq :=
  set_req k (fun r => mkDReq (dkey r) DDone (Some (sub (fst ep) offset, snd ep))) l.

(** forcefields.py:601-602: [zip(results_batch, self.request_batch)]. *)
Fixpoint process_all (ks : list nat) (res : list (E * P)) (l : list dreq) : list dreq :=
  match res, ks with
  | ep :: res', k :: ks' => process_all ks' res' (process_results k ep l)
  | _, _ => l
  end.

(** forcefields.py:591-604. *)
Definition launch_batch (st : dstate) : dstate :=
  let ev := evals st ++ [batch st] in
  match drv (batch st) with
  | None => mkD (dreqs st) (batch st) (idle st) ev true (dnext st)
  | Some res => mkD (process_all (batch st) res (dreqs st)) [] 0 ev (dead st) (dnext st)
  end.

(** forcefields.py:607-616. *)
Definition evaluate (k : nat) (st : dstate) : dstate :=
  if bs =? 1 then
    let ev := evals st ++ [[k]] in
    match drv1 k with
    | None => mkD (dreqs st) (batch st) (idle st) ev true (dnext st)
    | Some ep => mkD (process_results k ep (dreqs st)) (batch st) (idle st) ev (dead st) (dnext st)
    end
  else
    let st1 := mkD (dreqs st) (batch st ++ [k]) (idle st) (evals st) (dead st) (dnext st) in
    if bs <=? length (batch st1) then launch_batch st1 else st1.

(** forcefields.py:561-566: the loop over the requests; returns whether there
    were new ones. An exception ends it. *)
Fixpoint poll_requests (ks : list nat) (st : dstate) : dstate * bool :=
  match ks with
  | [] => (st, false)
  | k :: ks' =>
      if dead st then (st, false) else
      match get_req k (dreqs st) with
      | Some r =>
          if dstatus_eqb (dst r) DQueued then
            let st1 := mkD (set_req k (fun r => mkDReq (dkey r) DRunning (dres r)) (dreqs st))
                           (batch st) (idle st) (evals st) (dead st) (dnext st) in
            let '(st2, _) := poll_requests ks' (evaluate k st1) in (st2, true)
          else poll_requests ks' st
      | None => poll_requests ks' st
      end
  end.

(** forcefields.py:553-577. *)
Definition dpoll (st : dstate) : dstate :=
  if dead st then st else
  let '(st1, new_requests) := poll_requests (map dkey (dreqs st)) st in
  if dead st1 then st1 else
  if (1 <? bs) && (0 <? length (batch st1)) then
    let i := if new_requests then 0 else S (idle st1) in
    let st2 := mkD (dreqs st1) (batch st1) i (evals st1) (dead st1) (dnext st1) in
    if bs <=? i then launch_batch st2 else st2
  else st1.

(** forcefields.py:189-209. *)
Definition dqueue (st : dstate) : dstate :=
  mkD (dreqs st ++ [mkDReq (dnext st) DQueued None]) (batch st) (idle st) (evals st) (dead st)
      (S (dnext st)).

(** forcefields.py:262-265; callers release only what they have seen Done. *)
Definition drelease (k : nat) (st : dstate) : dstate :=
  mkD (filter (fun r => negb ((dkey r =? k) && dstatus_eqb (dst r) DDone)) (dreqs st))
      (batch st) (idle st) (evals st) (dead st) (dnext st).

(** What the threads do, in any order. Without threads [queue] is DQueue followed
    by DPoll (211-212); with threads [poll] is called in a loop (233-247). *)
Inductive devent := DQueue | DRelease (k : nat) | DPoll.
Definition dstep (st : dstate) (e : devent) : dstate :=
  match e with
  | DQueue => dqueue st
  | DRelease k => drelease k st
  | DPoll => dpoll st
  end.
Definition drun (es : list devent) (st : dstate) : dstate := fold_left dstep es st.

End Direct.

Arguments dreq : clear implicits.
Arguments mkDReq {E P}.
Arguments dstate : clear implicits.
Arguments mkD {E P}.
