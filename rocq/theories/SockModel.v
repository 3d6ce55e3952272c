(** * The socket dispatcher of i-PI

    Model of [InterfaceSocket] and of the dispatch methods of [Driver] in
    /repo/ipi/interfaces/sockets.py, together with [ForceField.queue] and
    [ForceField.release] of /repo/ipi/engine/forcefields.py, for the
    consolidated-messaging mode (one polling thread does all the socket I/O).
    The legacy thread-pool mode is in SockLegacyModel.v.

    Simplifications, all of the file:
    - wall-clock times are abstracted: a request remembers only whether its
      "start" field is positive, and whether a running request is past the
      timeout is an answer of the environment;
    - the bytes on the wire are not here (they are in WireModel.v): what the
      client computes for a request is [energy k], [payload k] where [k] is the
      identity of the request object, and a client answers for the structures
      that were last sent to it ([csent], a ghost field);
    - [fc.lastreq is r["id"]] compares the identity of two Python integers; the
      identifiers are the [uid] integer objects stored once per ForceBead
      (forces.py:88-92, 140), so it is modelled as equality of numbers;
    - warnings and logging are dropped. *)

From Coq Require Import List Arith Lia Bool.
Import ListNotations.

Section Sockets.

(** Energies, subtraction of the offset, and the remaining payload (forces,
    virial, extras) of a reply; [offset] is [self.offset]
    (forcefields.py:361). *)
Context {E P : Type}.
Variable sub : E -> E -> E.
Variable offset : E.
(** What a client computes for the structure of request [k]. *)
Variable energy : nat -> E.
Variable payload : nat -> P.

(** sockets.py:102-108, class Status. *)
Definition stDisconnected := 0.
Definition stUp := 1.
Definition stReady := 2.
Definition stNeedsInit := 4.
Definition stHasData := 8.
Definition stBusy := 16.
Definition stTimeout := 32.

(** Python's [status & flag] used as a boolean. *)
Definition has (s flag : nat) : bool := negb (Nat.land s flag =? 0).

(** forcefields.py:196 and the values assigned in sockets.py:666, 1671, 1725. *)
Inductive rstatus := Queued | Running | Done.

Definition rstatus_eqb (a b : rstatus) : bool :=
  match a, b with
  | Queued, Queued | Running, Running | Done, Done => true
  | _, _ => false
  end.

(** A ForceRequest (forcefields.py:41-56, fields 189-201). [rkey] is the object
    identity used by [==]; [rid] the "id" field; [rstart] whether "start" is
    positive; [roff] the "offset" entry, absent until first dispatched. *)
Record request := mkReq {
  rkey : nat; rid : nat; rst : rstatus; rstart : bool;
  roff : option E; rres : option (E * P) }.

(** A Driver (sockets.py:221-234). [cid] is the object identity. [csent] is a
    ghost field: the structures most recently sent to the client. *)
Record client := mkCl {
  cid : nat; cstat : nat; clast : option nat; clocked : bool; csent : list nat }.

(** An entry of [self.jobs]: the requests of the job (a single request is a
    one-element list) and the client (sockets.py:1745, 1777). *)
Definition job := (list nat * nat)%type.

(** sockets.py:1207-1259: requests, prlist, clients, jobs, poll_iter.
    [crashed] records that an exception left [poll], which ends the polling
    thread (forcefields.py:244-247 has no handler). [nextk], [nextc] supply
    fresh object identities. *)
Record state := mkSt {
  reqs : list request; prl : list nat; clients : list client; jobs : list job;
  piter : nat; crashed : bool; nextk : nat; nextc : nat }.

Definition init : state := mkSt [] [] [] [] 10 false 0 0.

(** sockets.py:1567-1572: the configured [match_mode]. *)
Inductive mmode := MAuto | MAny | MLock.
(** The entries of [match_seq]. *)
Inductive mids := IMatch | INone | IFree | IAny.

Definition match_seq (m : mmode) : list mids :=
  match m with
  | MAuto => [IMatch; INone; IFree; IAny]
  | MAny => [IAny]
  | MLock => [IMatch; INone]
  end.

(** What [get_status] may return once it stops looping on Busy
    (sockets.py:251-303, 349-356). *)
Inductive probe := PDisc | PReady | PInit | PData | PUnknown.
Definition status_of (p : probe) : nat :=
  match p with
  | PDisc => stDisconnected
  | PReady => Nat.lor stUp stReady
  | PInit => Nat.lor stUp stNeedsInit
  | PData => Nat.lor stUp stHasData
  | PUnknown => stUp
  end.

(** Answers of the environment to one [dispatch_send]: the two status probes
    and the outcome of [sendall]. *)
Inductive send_out := SendOk | SendTimeout | SendError.
Record send_ans := mkSend { sa_probe1 : probe; sa_probe2 : probe; sa_out : send_out }.

(** Answers to one [dispatch_recv]: connection lost, wrong number of atoms
    (InvalidSize), or a complete message followed by the status probe. *)
Inductive recv_ans := RDisc | RInvalid | RForces (p : probe).

(** [upd_req k f l] mutates the request object [k]. *)
Definition upd_req (k : nat) (f : request -> request) (l : list request) :=
  map (fun r => if rkey r =? k then f r else r) l.
Definition upd_reqs (ks : list nat) (f : request -> request) (l : list request) :=
  map (fun r => if existsb (Nat.eqb (rkey r)) ks then f r else r) l.
(** Mutates the client object [c]. *)
Definition upd_cl (c : nat) (f : client -> client) (l : list client) :=
  map (fun x => if cid x =? c then f x else x) l.

Definition find_req (k : nat) (l : list request) := find (fun r => rkey r =? k) l.
Definition find_cl (c : nat) (l : list client) := find (fun x => cid x =? c) l.

Definition set_rst (s : rstatus) (r : request) :=
  mkReq (rkey r) (rid r) s (rstart r) (roff r) (rres r).
(** sockets.py:1721-1725. *)
Definition mark_running (r : request) :=
  mkReq (rkey r) (rid r) Running (rstart r) (Some offset) (rres r).
(** sockets.py:604, 799-800. *)
Definition mark_start (r : request) :=
  mkReq (rkey r) (rid r) (rst r) true (roff r) (rres r).
(** sockets.py:1671-1672. *)
Definition mark_requeued (r : request) :=
  mkReq (rkey r) (rid r) Queued false (roff r) (rres r).
(** sockets.py:647-667, 846-856: the result with the offset removed, then Done.
    A missing "offset" would be a KeyError; it is modelled as no result. *)
Definition mark_done (ep : E * P) (r : request) :=
  mkReq (rkey r) (rid r) Done (rstart r) (roff r)
        (match roff r with Some o => Some (sub (fst ep) o, snd ep) | None => None end).

Definition set_stat (s : nat) (c : client) :=
  mkCl (cid c) s (clast c) (clocked c) (csent c).

(** ** Driver methods *)

(** sockets.py:571-633 (dispatch_send) and 761-833 (dispatch_send_batch), on the
    client and the keys actually sent. Returns the client, whether "start" was
    set, and the boolean result. [initialize] (358-389) only talks to the
    client, its effect is in the second probe. *)
Definition dispatch_send (c : client) (sent : list nat) (a : send_ans)
  : client * bool * bool :=
  if negb (has (cstat c) stUp) then (c, false, false)
  else
    let s1 := if negb (has (cstat c) stReady) then status_of (sa_probe1 a) else cstat c in
    let s2 := if has s1 stNeedsInit then status_of (sa_probe2 a) else s1 in
    if negb (has s2 stReady) then (set_stat s2 c, false, false)
    else match sa_out a with
         | SendTimeout => (set_stat stTimeout c, true, false)
         | SendError => (set_stat stDisconnected c, true, false)
         | SendOk =>
             (mkCl (cid c) (Nat.lor stUp stHasData) (clast c) (clocked c) sent, true, true)
         end.

(** sockets.py:802-805: padding by replicating the last request. *)
Definition pad (bs : nat) (ks : list nat) : list nat :=
  ks ++ repeat (last ks 0) (bs - length ks).

(** The reply of an honest client: one answer per structure last sent to it. *)
Definition reply (c : client) : list (E * P) :=
  map (fun k => (energy k, payload k)) (csent c).

(** sockets.py:846-856: [zip(reqs, results)], each result stored in its request
    (single request: 647-667, a zip of one-element lists). *)
Fixpoint deliver (ks : list nat) (res : list (E * P)) (l : list request) : list request :=
  match ks, res with
  | k :: ks', ep :: res' => deliver ks' res' (upd_req k (mark_done ep) l)
  | _, _ => l
  end.

(** sockets.py:660, 857: [lastreq] becomes the id of the (last) request. *)
Definition last_id (ks : list nat) (l : list request) : option nat :=
  match find_req (last ks 0) l with Some r => Some (rid r) | None => None end.

(** ** InterfaceSocket *)

(** sockets.py:1662-1674. *)
Definition requeue (ks : list nat) (c : nat) (st : state) : state :=
  mkSt (upd_reqs ks mark_requeued (reqs st)) (prl st)
       (upd_cl c (set_stat stDisconnected) (clients st)) (jobs st)
       10 (crashed st) (nextk st) (nextc st).

(** sockets.py:1481, 1565, 1586. *)
Definition queued_keys (l : list request) : list nat :=
  map rkey (filter (fun r => rstatus_eqb (rst r) Queued) l).
Definition refill (st : state) : state :=
  mkSt (reqs st) (queued_keys (reqs st)) (clients st) (jobs st)
       (piter st) (crashed st) (nextk st) (nextc st).

(** sockets.py:1682-1695: the client is really free. *)
Definition usable (c : client) : bool :=
  has (cstat c) stUp && negb (has (cstat c) stHasData)
  && has (cstat c) (Nat.lor (Nat.lor stReady stNeedsInit) stBusy).

Definition opt_eqb (a b : option nat) : bool :=
  match a, b with
  | Some x, Some y => x =? y
  | None, None => true
  | _, _ => false
  end.

(** sockets.py:1702-1716: whether request [r] passes the filters for [fc]. *)
Definition admissible (m : mmode) (i : mids) (cls : list client) (fc : client) (r : request) : bool :=
  match i with
  | IMatch => opt_eqb (clast fc) (Some (rid r))
  | INone =>
      match clast fc with
      | Some _ => false
      | None =>
          match m with
          | MLock => negb (existsb (fun c => opt_eqb (clast c) (Some (rid r))) cls)
          | _ => true
          end
      end
  | IFree => negb (clocked fc)
  | IAny => true
  end.

(** sockets.py:1701-1716: the first request of prlist passing the filters. *)
Fixpoint pick (m : mmode) (i : mids) (cls : list client) (fc : client)
         (l : list request) (ks : list nat) : option request :=
  match ks with
  | [] => None
  | k :: ks' =>
      match find_req k l with
      | Some r => if admissible m i cls fc r then Some r else pick m i cls fc l ks'
      | None => pick m i cls fc l ks'
      end
  end.

(** [prlist.remove(r)] removes the first occurrence (sockets.py:1726, 1764). *)
Fixpoint remove1 (k : nat) (l : list nat) : list nat :=
  match l with
  | [] => []
  | x :: l' => if x =? k then l' else x :: remove1 k l'
  end.

(** Common tail of sockets.py:1741-1749 and 1774-1778: the chosen requests are
    marked Running (1721-1726 / 1761-1764), sent, and either become a job or are
    requeued. [sent] is what goes on the wire. *)
Definition assign (ks sent : list nat) (lock : bool) (fc : client) (a : send_ans) (st : state)
  : state * bool :=
  let rs := upd_reqs ks mark_running (reqs st) in
  let pl := fold_left (fun l k => remove1 k l) ks (prl st) in
  let fc1 := mkCl (cid fc) (cstat fc) (clast fc) lock (csent fc) in
  let '(fc2, started, ok) := dispatch_send fc1 sent a in
  let rs2 := if started then upd_reqs ks mark_start rs else rs in
  let cls := upd_cl (cid fc) (fun _ => fc2) (clients st) in
  if ok then
    (mkSt rs2 pl cls (jobs st ++ [(ks, cid fc)]) (piter st) (crashed st) (nextk st) (nextc st), true)
  else
    (requeue ks (cid fc)
       (mkSt rs2 pl cls (jobs st) (piter st) (crashed st) (nextk st) (nextc st)), false).

(** sockets.py:1676-1751 and 1753-1778. [bs] is batch_size. *)
Definition dispatch_free_client (bs : nat) (m : mmode) (i : mids) (c : nat) (a : send_ans)
           (st : state) : state * bool :=
  match find_cl c (clients st) with
  | None => (st, false)
  | Some fc =>
      if negb (usable fc) then (st, false)
      else if 1 <? bs then
             match prl st with
             | [] => (st, false)
             | _ => let ks := firstn bs (prl st) in
                    assign ks (pad bs ks) false fc a st
             end
           else
             match pick m i (clients st) fc (reqs st) (prl st) with
             | None => (st, false)
             | Some r => assign [rkey r] [rkey r] (opt_eqb (clast fc) (Some (rid r))) fc a st
             end
  end.

Definition busy (st : state) (c : nat) : bool := existsb (fun j => snd j =? c) (jobs st).
Definition job_of (c : nat) (js : list job) : option job := find (fun j => snd j =? c) js.
Definition drop_job (c : nat) (js : list job) : list job :=
  filter (fun j => negb (snd j =? c)) js.

(** sockets.py:1610-1629 for one readable client: dispatch_recv (635-668) or
    dispatch_recv_batch (835-861), then the job is removed. The code removes the
    jobs of all the readable clients together after the loop; InvalidSize leaves
    the polling thread before that. Nothing but the polling thread looks at
    jobs, so the job is removed here at once and not at all upon InvalidSize. *)
Definition recv_job (c : nat) (a : recv_ans) (st : state) : state :=
  match job_of c (jobs st), find_cl c (clients st) with
  | Some (ks, _), Some cl =>
      match a with
      | RDisc =>
          let st' := requeue ks c st in
          mkSt (reqs st') (prl st') (clients st') (drop_job c (jobs st'))
               (piter st') (crashed st') (nextk st') (nextc st')
      | RInvalid =>
          mkSt (reqs st) (prl st) (clients st) (jobs st) (piter st) true (nextk st) (nextc st)
      | RForces p =>
          mkSt (deliver ks (firstn (length ks) (reply cl)) (reqs st)) (prl st)
               (upd_cl c (fun x => mkCl (cid x) (status_of p) (last_id ks (reqs st))
                                        (clocked x) (csent x)) (clients st))
               (drop_job c (jobs st)) (piter st) (crashed st) (nextk st) (nextc st)
      end
  | _, _ => st
  end.

(** sockets.py:1633-1660 for one client found past the timeout; [start] is that
    of the first request of the job. *)
Definition timeout_job (c : nat) (st : state) : state :=
  match job_of c (jobs st) with
  | Some (ks, _) =>
      match find_req (hd 0 ks) (reqs st) with
      | Some r =>
          if rstart r then
            let st' := requeue ks c st in
            mkSt (reqs st') (prl st') (clients st') (drop_job c (jobs st'))
                 (piter st') (crashed st') (nextk st') (nextc st')
          else st
      | None => st
      end
  | None => st
  end.

(** sockets.py:1383-1408: remove the clients that are not Up. In consolidated
    mode the third entry of a job is None, so [tc.result()] (1401) raises
    AttributeError as soon as one client is removed while a job exists: the
    first dead client has then been removed and the polling thread is gone. *)
Fixpoint prune (cls : list client) (js : list job) : list client * bool :=
  match cls with
  | [] => ([], false)
  | c :: cls' =>
      if has (cstat c) stUp then
        let '(r, b) := prune cls' js in (c :: r, b)
      else match js with
           | [] => prune cls' js
           | _ => (cls', true)
           end
  end.
Definition pool_prune (st : state) : state :=
  let '(cls, b) := prune (clients st) (jobs st) in
  mkSt (reqs st) (prl st) cls (jobs st) (piter st) (crashed st || b) (nextk st) (nextc st).

(** sockets.py:1420-1440: accept one client. [driver.status | Status.Up] (1432)
    is never zero, so the client is always added. *)
Definition accept (p : probe) (st : state) : state :=
  let c := mkCl (nextc st) (status_of p) None false [] in
  if negb (Nat.lor (status_of p) stUp =? 0) then
    mkSt (reqs st) (prl st) (clients st ++ [c]) (jobs st) 10 (crashed st) (nextk st) (S (nextc st))
  else
    mkSt (reqs st) (prl st) (clients st) (jobs st) (piter st) (crashed st) (nextk st) (S (nextc st)).

(** forcefields.py:189-209: a new request is appended. *)
Definition queue (id : nat) (st : state) : state :=
  mkSt (reqs st ++ [mkReq (nextk st) id Queued false None None]) (prl st) (clients st) (jobs st)
       (piter st) (crashed st) (S (nextk st)) (nextc st).

(** forcefields.py:262-265. The callers (forces.py ForceBead.get_all,
    forcefields.py FFCommittee.gather, FFRotations.gather) release only requests
    they have seen Done; the model ignores other releases. *)
Definition release (k : nat) (st : state) : state :=
  mkSt (filter (fun r => negb ((rkey r =? k) && rstatus_eqb (rst r) Done)) (reqs st))
       (prl st) (clients st) (jobs st) (piter st) (crashed st) (nextk st) (nextc st).

(** ** Events: every atomic thing the two threads and the network can do *)
Inductive event :=
| EvQueue (id : nat)
| EvRelease (k : nat)
| EvAccept (p : probe)
| EvPrune
| EvRefill
| EvDispatch (i : mids) (c : nat) (a : send_ans)
| EvRecv (c : nat) (a : recv_ans)
| EvTimeout (c : nat)
| EvTick (n : nat).

(** sockets.py:1368, 1371, 1594: the poll counter. *)
Definition set_piter (n : nat) (st : state) : state :=
  mkSt (reqs st) (prl st) (clients st) (jobs st) n (crashed st) (nextk st) (nextc st).

(** One event. The events of the polling thread stop when it has crashed. Events
    may come in any order: in particular a dispatch may be attempted on any
    client, with or without a job, and the main thread may queue or release
    between any two of them. That a polling pass is such a sequence of events is
    proved in SockPoll.v. *)
Definition step (bs : nat) (m : mmode) (st : state) (e : event) : state :=
  match e with
  | EvQueue id => queue id st
  | EvRelease k => release k st
  | _ =>
      if crashed st then st else
      match e with
      | EvAccept p => accept p st
      | EvPrune => pool_prune st
      | EvRefill => refill st
      | EvDispatch i c a => fst (dispatch_free_client bs m i c a st)
      | EvRecv c a => recv_job c a st
      | EvTimeout c => timeout_job c st
      | EvTick n => set_piter n st
      | _ => st
      end
  end.

Definition run (bs : nat) (m : mmode) (es : list event) (st : state) : state :=
  fold_left (step bs m) es st.

(** ** One polling pass, as written *)

(** sockets.py:1577-1582: the inner [for fc in freec[:]] loop. [ans] gives the
    network's answer to each client. Returns the state, the clients still free
    and whether anything was dispatched. *)
Fixpoint inner_loop (bs : nat) (m : mmode) (i : mids) (ans : nat -> send_ans)
         (todo freec : list nat) (st : state) : state * list nat * bool :=
  match todo with
  | [] => (st, freec, false)
  | fc :: todo' =>
      let '(st', ok) := dispatch_free_client bs m i fc (ans fc) st in
      let freec' := if ok then remove1 fc freec else freec in
      match prl st' with
      | [] => (st', freec', ok)
      | _ => let '(st2, fr2, ok2) := inner_loop bs m i ans todo' freec' st' in
             (st2, fr2, ok || ok2)
      end
  end.

(** sockets.py:1576-1582: [for match_ids in match_seq]. *)
Fixpoint outer_loop (bs : nat) (m : mmode) (is : list mids) (ans : nat -> send_ans)
         (freec : list nat) (st : state) : state * list nat * bool :=
  match is with
  | [] => (st, freec, false)
  | i :: is' =>
      let '(st', fr', ok) := inner_loop bs m i ans freec freec st in
      let '(st2, fr2, ok2) := outer_loop bs m is' ans fr' st' in
      (st2, fr2, ok || ok2)
  end.

(** sockets.py:1574-1588: the [while] loop, with a fuel bound; [None] means the
    loop has not ended within the fuel. *)
Fixpoint dispatch_loop (fuel : nat) (bs : nat) (m : mmode) (ans : nat -> send_ans)
         (freec : list nat) (st : state) : option (state * list nat) :=
  match freec, prl st with
  | [], _ => Some (st, freec)
  | _, [] => Some (st, freec)
  | _, _ =>
      match fuel with
      | 0 => None
      | S fuel' =>
          let '(st1, fr1, ok) := outer_loop bs m (match_seq m) ans freec st in
          match m with
          | MLock => Some (st1, fr1)
          | _ =>
              let st2 := match fr1 with [] => st1 | _ => refill st1 end in
              if ok then dispatch_loop fuel' bs m ans fr1 st2 else Some (st2, fr1)
          end
      end
  end.

(** sockets.py:1561-1562. *)
Definition free_clients (st : state) : list nat :=
  filter (fun c => negb (busy st c)) (map cid (clients st)).

(** sockets.py:1560-1588: the dispatch phase. *)
Definition dispatch_phase (fuel : nat) (bs : nat) (m : mmode) (ans : nat -> send_ans) (st : state)
  : option (state * list nat) :=
  let freec := free_clients st in
  let st1 := if (length (prl st) =? 0) || (length (prl st) <? length freec)
             then refill st else st in
  dispatch_loop fuel bs m ans freec st1.

(** One turn of the collect loop, sockets.py:1599-1660: the answers of the
    readable clients, then the clients past the timeout. *)
Record round := mkRound { rd_ready : nat -> option recv_ans; rd_late : nat -> bool }.

Definition collect_ready (rd : round) (js : list job) (st : state) : state :=
  fold_left (fun s j =>
     if crashed s then s else
     match rd_ready rd (snd j) with
     | Some a => recv_job (snd j) a s
     | None => s
     end) js st.
Definition collect_late (rd : round) (js : list job) (st : state) : state :=
  fold_left (fun s j =>
     if crashed s then s else
     if rd_late rd (snd j) then timeout_job (snd j) s else s) js st.
Definition collect_round (rd : round) (st : state) : state :=
  let st1 := collect_ready rd (jobs st) st in
  collect_late rd (jobs st1) st1.

(** sockets.py:1599: [while self.jobs]; the list gives the successive rounds
    observed so far. *)
Fixpoint collect (rds : list round) (st : state) : state :=
  match rds with
  | [] => st
  | rd :: rds' =>
      match jobs st with
      | [] => st
      | _ => if crashed st then st else collect rds' (collect_round rd st)
      end
  end.

(** sockets.py:1590-1596: a Disconnected client forces a pool_update. *)
Definition flag_dead (st : state) : state :=
  if existsb (fun c => cstat c =? stDisconnected) (clients st)
  then mkSt (reqs st) (prl st) (clients st) (jobs st) 10 (crashed st) (nextk st) (nextc st)
  else st.

(** sockets.py:1363-1367. *)
Definition needs_update (st : state) : bool :=
  (10 <=? piter st) ||
  match clients st with
  | [] => true
  | c :: _ => negb (has (cstat c) stUp)
  end.

(** sockets.py:1374-1449 (pool_update), [news] the connections accepted. *)
Definition pool_update (news : list probe) (st : state) : state :=
  let st1 := pool_prune st in
  if crashed st1 then st1 else fold_left (fun s p => accept p s) news st1.

(** sockets.py:1354-1372 (poll) and 1461-1470, 1547-1660. [None]: the dispatch
    loop does not end within the fuel. *)
Definition poll (fuel bs : nat) (m : mmode) (news : list probe) (ans : nat -> send_ans)
           (rds : list round) (st : state) : option state :=
  if crashed st then Some st else
  let st1 := if needs_update st then pool_update news (set_piter 0 st) else st in
  if crashed st1 then Some st1 else
  let st2 := set_piter (S (piter st1)) st1 in
  match reqs st2, jobs st2 with
  | [], [] => Some st2
  | _, _ =>
      match dispatch_phase fuel bs m ans st2 with
      | None => None
      | Some (st3, _) =>
          match jobs st3 with
          | [] => Some (flag_dead st3)
          | _ => Some (collect rds st3)
          end
      end
  end.

End Sockets.

Arguments request : clear implicits.
Arguments mkReq {E P}.
Arguments state : clear implicits.
Arguments mkSt {E P}.
