(** * The legacy (thread-pool) mode of the socket dispatcher

    /repo/ipi/interfaces/sockets.py, consolidate_messages = False: the polling
    thread hands each job to a worker thread running [Driver.dispatch] and later
    asks [check_job_finished]. The state is that of SockModel.v; a job is
    ([key], client). The simplifications listed there apply. The polling thread
    never dies here, so [crashed] stays false. *)
From Coq Require Import List Arith Lia Bool.
From Verif Require Import SockModel.
Import ListNotations.

Section Legacy.
Context {E P : Type}.
Variable sub : E -> E -> E.
Variable offset : E.
Variable energy : nat -> E.
Variable payload : nat -> P.
Notation state := (state E P).
Notation request := (request E P).

(** sockets.py:1676-1751 with consolidate_messages = False (and batch_size = 1,
    the only value accepted, forcefields.py:371-375): the job is submitted to
    the thread pool (1747-1748). [csent] is set when the worker sends. *)
Definition l_dispatch_free_client (m : mmode) (i : mids) (c : nat) (st : state) : state * bool :=
  match find_cl c (clients st) with
  | None => (st, false)
  | Some fc =>
      if negb (usable fc) then (st, false)
      else match pick m i (clients st) fc (reqs st) (prl st) with
           | None => (st, false)
           | Some r =>
               (mkSt (upd_reqs [rkey r] (mark_running offset) (reqs st))
                     (remove1 (rkey r) (prl st))
                     (upd_cl c (fun x => mkCl (cid x) (cstat x) (clast x)
                                   (opt_eqb (clast fc) (Some (rid r))) (csent x)) (clients st))
                     (jobs st ++ [([rkey r], c)]) (piter st) (crashed st) (nextk st) (nextc st), true)
           end
  end.

(** sockets.py:1496-1502. *)
Fixpoint l_inner (m : mmode) (i : mids) (todo freec : list nat) (st : state) : state * list nat :=
  match todo with
  | [] => (st, freec)
  | fc :: todo' =>
      let '(st', ok) := l_dispatch_free_client m i fc st in
      let freec' := if ok then remove1 fc freec else freec in
      match prl st' with
      | [] => (st', freec')
      | _ => l_inner m i todo' freec' st'
      end
  end.

(** sockets.py:1495-1502. *)
Fixpoint l_outer (m : mmode) (is : list mids) (freec : list nat) (st : state) : state * list nat :=
  match is with
  | [] => (st, freec)
  | i :: is' => let '(st', fr') := l_inner m i freec freec st in l_outer m is' fr' st'
  end.

(** sockets.py:1494-1509. [None]: still looping when the fuel is used up. While
    the loop runs no other code accepts or removes clients, and only this thread
    takes a request out of the Queued status. *)
Fixpoint l_loop (fuel : nat) (m : mmode) (freec : list nat) (st : state)
  : option (state * list nat) :=
  match freec, prl st with
  | [], _ => Some (st, freec)
  | _, [] => Some (st, freec)
  | _, _ =>
      match fuel with
      | 0 => None
      | S fuel' =>
          let '(st1, fr1) := l_outer m (match_seq m) freec st in
          match m with
          | MLock => Some (st1, fr1)
          | _ => l_loop fuel' m fr1 (match fr1 with [] => st1 | _ => refill st1 end)
          end
      end
  end.

(** sockets.py:1475-1510. *)
Definition l_dispatch_phase (fuel : nat) (m : mmode) (st : state) : option (state * list nat) :=
  let freec := free_clients st in
  let st1 := if (length (prl st) =? 0) || (length (prl st) <? length freec)
             then refill st else st in
  l_loop fuel m freec st1.

(** What a worker thread running [dispatch] (sockets.py:507-569) ends with:
    the forces were received (545-569), the client was lost (514-519, 547-549,
    or a status probe returned Disconnected), or it gave up because the client
    was in an unexpected state but still Up (527-532, 538-543) after setting
    "start" or not. *)
Inductive worker := WDone (p : probe) | WLost (started : bool) | WGaveUp (p : probe) (started : bool).

Definition set_start (b : bool) (r : request) : request :=
  mkReq (rkey r) (rid r) (rst r) b (roff r) (rres r).

(** sockets.py:507-569. The worker answers for the structure of its own request
    [k], which it has sent itself (535). Once its job is no longer in [jobs] its
    socket has been closed (1806-1811) and it cannot finish. *)
Definition l_worker (c : nat) (w : worker) (st : state) : state :=
  match job_of c (jobs st) with
  | Some ([k], _) =>
      match w with
      | WDone p =>
          mkSt (upd_reqs [k] (fun r => mark_done sub (energy k, payload k) (set_start true r)) (reqs st))
               (prl st)
               (upd_cl c (fun x => mkCl (cid x) (status_of p) (last_id [k] (reqs st))
                                        (clocked x) [k]) (clients st))
               (jobs st) (piter st) (crashed st) (nextk st) (nextc st)
      | WLost b =>
          mkSt (upd_reqs [k] (set_start b) (reqs st)) (prl st)
               (upd_cl c (set_stat stDisconnected) (clients st))
               (jobs st) (piter st) (crashed st) (nextk st) (nextc st)
      | WGaveUp p b =>
          mkSt (upd_reqs [k] (set_start b) (reqs st)) (prl st)
               (upd_cl c (set_stat (status_of p)) (clients st))
               (jobs st) (piter st) (crashed st) (nextk st) (nextc st)
      end
  | _ => st
  end.

(** sockets.py:1526-1537 for one job, with check_job_finished (1780-1814);
    [late]: more than the timeout has elapsed since "start". *)
Definition l_check (c : nat) (late : bool) (st : state) : state :=
  match job_of c (jobs st) with
  | Some (k :: _, _) =>
      match find_req k (reqs st) with
      | Some r =>
          if rstatus_eqb (rst r) Done then
            mkSt (reqs st) (prl st) (clients st) (drop_job c (jobs st)) (piter st) (crashed st)
                 (nextk st) (nextc st)
          else if rstart r && late then
            mkSt (reqs st) (prl st) (upd_cl c (set_stat stDisconnected) (clients st))
                 (drop_job c (jobs st)) 10 (crashed st) (nextk st) (nextc st)
          else st
      | None => st
      end
  | _ => st
  end.

(** sockets.py:1383-1408: dead clients leave, their jobs are requeued. *)
Definition dead_ids (st : state) : list nat :=
  map cid (filter (fun c => negb (has (cstat c) stUp)) (clients st)).
Definition l_prune (st : state) : state :=
  let dead := dead_ids st in
  let gone := filter (fun j => existsb (Nat.eqb (snd j)) dead) (jobs st) in
  mkSt (upd_reqs (concat (map fst gone)) mark_requeued (reqs st)) (prl st)
       (filter (fun c => has (cstat c) stUp) (clients st))
       (filter (fun j => negb (existsb (Nat.eqb (snd j)) dead)) (jobs st))
       (piter st) (crashed st) (nextk st) (nextc st).

(** Everything that can happen, in any order. *)
Inductive levent :=
| LQueue (id : nat) | LRelease (k : nat) | LAccept (p : probe) | LPrune | LRefill
| LDispatch (i : mids) (c : nat) | LWorker (c : nat) (w : worker) | LCheck (c : nat) (late : bool).

Definition lstep (m : mmode) (st : state) (e : levent) : state :=
  match e with
  | LQueue id => queue id st
  | LRelease k => release k st
  | LAccept p => accept p st
  | LPrune => l_prune st
  | LRefill => refill st
  | LDispatch i c => fst (l_dispatch_free_client m i c st)
  | LWorker c w => l_worker c w st
  | LCheck c late => l_check c late st
  end.

Definition lrun (m : mmode) (es : list levent) (st : state) : state := fold_left (lstep m) es st.

(** sockets.py:1363-1372 and 1461-1510: a polling pass up to the end of its
    dispatch loop. [None]: it has not left the loop within the fuel. *)
Definition l_poll_dispatch (fuel : nat) (m : mmode) (news : list probe) (st : state) : option state :=
  let st1 := if needs_update st
             then fold_left (fun s p => accept p s) news (l_prune (set_piter 0 st)) else st in
  let st2 := set_piter (S (piter st1)) st1 in
  match reqs st2, jobs st2 with
  | [], [] => Some st2
  | _, _ => match l_dispatch_phase fuel m st2 with
            | None => None
            | Some (st3, _) => Some st3
            end
  end.

End Legacy.
