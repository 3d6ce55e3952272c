(** * Theorems of record about the socket dispatcher (C07-C11, C14, C15, C64) *)
From Coq Require Import List Arith Lia Bool ZArith Sorting.Sorted.
From Verif Require Import SockModel SockSpec SockProofs SockThms SockAge SockPoll SockLegacyModel SockLegacyProofs.
Import ListNotations.

Section Record.
Context {E P : Type}.
Variable sub : E -> E -> E.
Variable offset : E.
Variable energy : nat -> E.
Variable payload : nat -> P.
Notation run := (run sub offset energy payload).
Notation step := (step sub offset energy payload).
Notation init := (@init E P).

(** C07. After any history of events every request in the list is waiting and
    in no job, or running in exactly one job on a connected client that was sent
    its structure, or done and in no job. *)
Theorem request_always_accounted bs m es r :
  In r (reqs (run bs m es init)) -> accounted (run bs m es init) r.
Proof. apply (inv_accounted sub offset energy payload). apply inv_reachable. Qed.

(** C07. A queued request stays in the list until it is released, ... *)
Theorem request_never_lost bs m es1 id es2 :
  let k := nextk (run bs m es1 init) in
  ~ In (EvRelease k) es2 ->
  exists r, In r (reqs (run bs m (es1 ++ EvQueue id :: es2) init)) /\ rkey r = k.
Proof.
  intros k Hn. unfold SockModel.run. rewrite fold_left_app. cbn [fold_left].
  set (st := fold_left _ es1 init).
  assert (Hk : In k (map rkey (reqs (step bs m st (EvQueue id))))).
  { cbn. rewrite map_app. apply in_app_iff. right. now left. }
  pose proof (not_lost sub offset energy payload bs m es2 _ k Hk Hn) as H.
  apply in_map_iff in H. destruct H as (r & H1 & H2). now exists r.
Qed.

(** ... and it can leave the list only by being released when done. *)
Theorem request_leaves_only_when_done bs m es e r :
  let st := run bs m es init in
  In r (reqs st) -> ~ In (rkey r) (map rkey (reqs (step bs m st e))) ->
  e = EvRelease (rkey r) /\ rst r = Done.
Proof.
  intros st Hr Hn. destruct (leaves_only_done sub offset energy payload bs m st e r Hr Hn) as [H1 H2].
  split; [easy|]. apply H2. apply (inv_reachable sub offset energy payload bs m es).
Qed.

(** The polling pass as the code writes it is one of these histories, with the
    dispatches allowed by the policy; so the theorems above and below hold
    before, during and after any number of passes. *)
Theorem polling_pass_is_a_history fuel bs m news ans rds st st' :
  poll sub offset energy payload fuel bs m news ans rds st = Some st' ->
  exists es, Forall (policy_event m) es /\ st' = run bs m es st.
Proof. apply poll_steps. Qed.

(** C08. No client ever has two jobs, and a client that has a job is not sent
    anything. *)
Theorem client_has_one_job bs m es :
  let st := run bs m es init in
  (forall ks1 ks2 c, In (ks1, c) (jobs st) -> In (ks2, c) (jobs st) -> ks1 = ks2) /\
  NoDup (map snd (jobs st)) /\
  (forall i c a, working c st -> dispatch_free_client offset bs m i c a st = (st, false)).
Proof.
  intros st. pose proof (inv_reachable sub offset energy payload bs m es) as H. fold st in H.
  split; [|split].
  - intros ks1 ks2 c H1 H2.
    pose proof (snd_unique (jobs st) _ _ (i_jc _ _ _ _ _ H) H1 H2 eq_refl) as He. congruence.
  - apply H.
  - intros i c a (ks & Hw). apply (dispatch_busy sub offset energy payload); [easy|].
    unfold busy. apply existsb_exists. exists (ks, c). split; [easy | apply Nat.eqb_refl].
Qed.

(** C09, C11. The result of a done request is the energy computed for its own
    structure minus the offset, once, with the payload computed for its own
    structure: for every batch size, after any number of requeues. *)
Theorem done_result_is_own bs m es r :
  In r (reqs (run bs m es init)) -> rst r = Done -> right_result sub offset energy payload r.
Proof.
  intros Hr Hs. apply (i_done _ _ _ _ _ (inv_reachable sub offset energy payload bs m es)); easy.
Qed.

(** C09. Once done, a request is never changed again. *)
Theorem done_result_is_final bs m es1 es2 r r' :
  In r (reqs (run bs m es1 init)) -> rst r = Done ->
  In r' (reqs (run bs m (es1 ++ es2) init)) -> rkey r' = rkey r -> r' = r.
Proof.
  intros Hr Hs Hr' Hk.
  assert (HI := inv_reachable sub offset energy payload bs m es1).
  assert (Hf := In_find_req _ _ (i_keys _ _ _ _ _ HI) Hr).
  assert (HI2 := inv_reachable sub offset energy payload bs m (es1 ++ es2)).
  assert (Hf' := In_find_req _ _ (i_keys _ _ _ _ _ HI2) Hr').
  assert (Heq : run bs m (es1 ++ es2) init = run bs m es2 (run bs m es1 init))
    by (unfold SockModel.run; apply fold_left_app).
  rewrite Heq, Hk in Hf'.
  destruct (done_run sub offset energy payload bs m es2 _ _ _ HI Hf Hs); congruence.
Qed.

(** C10. When a client disconnects while its reply is awaited, or exceeds the
    timeout, its requests become queued and are in no job; every other request,
    job and client is untouched; the client is no longer connected; and the next
    refill offers the requests for dispatch. *)
Theorem vanished_client_requests_requeued bs m es ks c e :
  let st := run bs m es init in
  crashed st = false -> In (ks, c) (jobs st) -> e = EvRecv c RDisc \/ e = EvTimeout c ->
  let st' := step bs m st e in
  (forall k, In k ks -> exists r, find_req k (reqs st') = Some r /\ rst r = Queued /\
                                  jobs_with k st' = 0) /\
  (forall k, ~ In k ks -> find_req k (reqs st') = find_req k (reqs st)) /\
  (forall j, In j (jobs st') <-> In j (jobs st) /\ j <> (ks, c)) /\
  ~ connected c st' /\
  (forall c', c' <> c -> find_cl c' (clients st') = find_cl c' (clients st)) /\
  (forall k, In k ks -> In k (prl (step bs m st' EvRefill))).
Proof.
  intros st Hc Hj He. apply (requeue_effect sub offset energy payload bs m st ks c e); try easy.
  apply inv_reachable.
Qed.

(** C14. The requests and the waiting list are always in order of arrival. *)
Theorem waiting_list_in_order_of_arrival bs m es :
  let st := run bs m es init in
  StronglySorted lt (map rkey (reqs st)) /\ StronglySorted lt (prl st).
Proof. apply order_reachable. Qed.

(** C14. A dispatch (without batching) gives the client the oldest request of the
    waiting list that the policy allows. *)
Theorem dispatch_takes_oldest_compatible bs m i c a es st' :
  let st := run bs m es init in
  bs <= 1 -> dispatch_free_client offset bs m i c a st = (st', true) ->
  exists fc r pre post,
    find_cl c (clients st) = Some fc /\ In r (reqs st) /\ rst r = Queued /\
    prl st = pre ++ rkey r :: post /\
    jobs st' = jobs st ++ [([rkey r], c)] /\
    may_serve m i (clients st) fc r /\
    (forall r', In r' (reqs st) -> In (rkey r') (prl st) -> rkey r' < rkey r ->
                ~ may_serve m i (clients st) fc r').
Proof.
  intros st Hbs H.
  destruct (dispatch_choice sub offset energy payload bs m i c a st st') as
    (fc & r & pre & post & H1 & H2 & H3 & H4 & H5 & H6 & H7); [apply inv_reachable | easy | easy |].
  exists fc, r, pre, post. do 6 (split; [easy|]). intros r' Hr' Hp Hlt. apply H7; [easy|].
  apply (in_order_before pre (rkey r) post); try easy; rewrite <- H4; [|easy].
  apply (order_reachable sub offset energy payload bs m es).
Qed.

(** C14. In lock mode (without batching) a client that has served replica [i]
    only ever holds jobs of replica [i], and this never changes while it stays
    connected. *)
Theorem lock_mode_client_keeps_replica es1 es2 c cl i :
  Forall lock_event es1 -> Forall lock_event es2 ->
  let st1 := run 1 MLock es1 init in
  let st2 := run 1 MLock (es1 ++ es2) init in
  find_cl c (clients st1) = Some cl -> clast cl = Some i ->
  (forall cl', find_cl c (clients st2) = Some cl' -> clast cl' = Some i) /\
  (forall ks k r, find_cl c (clients st2) <> None -> In (ks, c) (jobs st2) -> In k ks ->
                  find_req k (reqs st2) = Some r -> rid r = i).
Proof.
  intros H1 H2 st1 st2 Hc Hl.
  assert (Heq : st2 = run 1 MLock es2 st1)
    by (unfold st2, st1, SockModel.run; apply fold_left_app).
  assert (L0 : locked_jobs (E:=E) (P:=P) init) by easy.
  destruct (locked_run sub offset energy payload es1 init (inv_init _ _ _ _) L0 H1) as [L1 _].
  destruct (locked_run sub offset energy payload es2 st1
              (inv_reachable sub offset energy payload 1 MLock es1) L1 H2) as [L2 C2].
  rewrite Heq. split.
  - intros cl' Hcl'. now apply (C2 c cl i Hc Hl).
  - intros ks k r Hn Hj Hk Hr.
    destruct (find_cl c (clients (run 1 MLock es2 st1))) as [cl'|] eqn:Ecl; [|easy].
    apply (L2 ks c cl' i Hj Ecl (C2 c cl i Hc Hl cl' Ecl) k r Hk Hr).
Qed.

(** C15. The dispatch loop of a polling pass ends, whatever the clients do; one
    turn per connected client is enough. *)
Theorem dispatch_loop_terminates bs m es ans :
  let st := run bs m es init in
  exists r, dispatch_phase offset (length (clients st)) bs m ans st = Some r.
Proof. intros st. apply (dispatch_phase_ends sub offset energy payload). apply inv_reachable. Qed.

(** C15, modes auto and any. After the dispatch phase no request is waiting, or
    no idle usable client is left, or a client has been found broken. Missing
    for the full property: lock mode and the collect loop, both refuted below. *)
Theorem dispatch_pass_progress_partial fuel bs m ans es st' fr :
  let st := run bs m es init in
  m <> MLock -> dispatch_phase offset fuel bs m ans st = Some (st', fr) ->
  (forall r, In r (reqs st') -> rst r <> Queued) \/
  (forall cl, In cl (clients st') -> busy st' (cid cl) = false -> usable cl = false) \/
  broke st st'.
Proof.
  intros st. apply (dispatch_phase_progress sub offset energy payload). apply inv_reachable.
Qed.

(** C10, legacy mode: a client found lost by its worker is requeued. Missing:
    the timeout, refuted below. *)
Theorem legacy_lost_client_requeued_partial (st : state E P) k c :
  In ([k], c) (jobs st) ->
  (exists cl, In cl (clients st) /\ cid cl = c /\ has (cstat cl) stUp = false) ->
  (exists r, find_req k (reqs st) = Some r) ->
  (exists r, find_req k (reqs (l_prune st)) = Some r /\ rst r = Queued) /\
  (forall j, In j (jobs (l_prune st)) -> snd j <> c).
Proof. apply l_prune_requeues. Qed.

(** C15, legacy mode: whenever all the idle clients are unusable (for instance
    the connection dropped during the handshake) and a request is waiting, the
    dispatch loop never ends. *)
Theorem legacy_dispatch_never_ends m (st : state E P) :
  m <> MLock -> free_clients st <> [] ->
  (forall c cl, In c (free_clients st) -> find_cl c (clients st) = Some cl -> usable cl = false) ->
  queued_keys (reqs st) <> [] ->
  forall fuel, l_dispatch_phase offset fuel m st = None.
Proof.
  intros Hm Hf Hu Hq fuel. unfold l_dispatch_phase.
  destruct ((length (prl st) =? 0) || (length (prl st) <? length (free_clients st))) eqn:Eb.
  - apply l_loop_stuck; easy.
  - apply l_loop_stuck; try easy. intros Hp. now rewrite Hp in Eb.
Qed.

End Record.

(** ** Concrete energies for the examples and refutations *)
Definition zsub := Z.sub.
Definition zoff : Z := 5%Z.
Definition zen (k : nat) : Z := (100 + Z.of_nat k)%Z.
Definition zpay (k : nat) : nat := k.
Notation zrun := (run zsub zoff zen zpay).
Notation zinit := (@init Z nat).
Definition sok := mkSend PReady PReady SendOk.
Definition sbad := mkSend PReady PReady SendError.

(** C10 is false of the legacy mode: after a timeout the request is in no job,
    not queued, and stays "Running" whatever happens afterwards. *)
Theorem legacy_timeout_loses_request_refuted :
  exists es k, forall es',
    let st := lrun zsub zoff zen zpay MAuto (es ++ es') zinit in
    (exists r, find_req k (reqs st) = Some r /\ rst r = Running) /\
    jobs_with k st = 0.
Proof.
  exists [LQueue 0; LAccept PReady; LRefill; LDispatch IAny 0; LWorker 0 (WGaveUp PUnknown true);
          LCheck 0 true], 0.
  intros es'. unfold lrun. rewrite fold_left_app.
  match goal with |- context [fold_left _ es' ?s] => set (st := s) end.
  assert (Ho : orphan 0 st).
  { assert (Hst : st = mkSt [mkReq 0 0 Running true (Some zoff) None] []
                         [mkCl 0 0 None false []] [] 10 false 1 1)
      by (vm_compute; reflexivity).
    rewrite Hst. unfold orphan. cbn [reqs prl jobs nextk map rkey].
    split; [eexists; split; reflexivity|].
    split; [intros []|]. split; [intros j []|].
    split; [constructor; [intros [] | constructor] | lia]. }
  assert (Hlt : forall r, In r (reqs st) -> rkey r < nextk st).
  { replace st with (mkSt (P:=nat) [mkReq 0 0 Running true (Some zoff) None] []
                         [mkCl 0 0 None false []] [] 10 false 1 1)
      by (vm_compute; reflexivity).
    cbn. intros r [<-|[]]. cbn. lia. }
  destruct (orphan_forever zsub zoff zen zpay MAuto es' 0 st Hlt Ho) as (H1 & _ & H3 & _).
  split; [exact H1|]. unfold jobs_with.
  match goal with |- length (filter ?f ?l) = 0 =>
    destruct (filter f l) as [|j js] eqn:Ef; [easy|]; exfalso;
    assert (Hin : In j (filter f l)) by (rewrite Ef; now left) end.
  apply filter_In in Hin. destruct Hin as [Hin Hb].
  apply existsb_eqb_In in Hb. now apply (H3 j Hin).
Qed.

(** C15 is false of the legacy mode, from a fresh start: one request waiting and
    one connection that drops during the handshake. *)
Theorem legacy_poll_hangs_refuted :
  exists st : state Z nat, st = lrun zsub zoff zen zpay MAuto [LQueue 0] zinit /\
  forall fuel, l_poll_dispatch zoff fuel MAuto [PDisc] st = None.
Proof.
  eexists. split; [reflexivity|]. intros fuel.
  unfold l_poll_dispatch. cbn -[l_dispatch_phase].
  rewrite legacy_dispatch_never_ends; cbn; try easy.
  intros c cl [<-|[]] [= <-]. reflexivity.
Qed.

(** C15 is false in lock mode: client 1 is idle, has served replica 2, and
    request of replica 2 is waiting; but the waiting list still holds only an
    older request that client 1 may not take, so the pass dispatches nothing. *)
Definition starved : state Z nat :=
  zrun 1 MLock
    [EvQueue 1; EvAccept PReady; EvRefill; EvDispatch INone 0 sok; EvRecv 0 (RForces PReady);
     EvRelease 0;
     EvQueue 2; EvAccept PReady; EvRefill; EvDispatch INone 1 sok; EvRecv 1 (RForces PReady);
     EvRelease 1;
     (* client 0 dies on its next request and is removed *)
     EvQueue 1; EvRefill; EvDispatch IMatch 0 sok; EvRecv 0 RDisc; EvPrune; EvRefill;
     EvQueue 2] zinit.
Theorem lock_mode_starves_refuted :
  exists st fc r, st = starved /\ crashed st = false /\ In fc (clients st) /\ usable fc = true /\
    busy st (cid fc) = false /\ In r (reqs st) /\ rst r = Queued /\
    may_serve MLock IMatch (clients st) fc r /\
    forall ans, dispatch_phase zoff 10 1 MLock ans st = Some (st, [cid fc]).
Proof.
  exists starved, (mkCl 1 3 (Some 2) false [1]), (mkReq 3 2 Queued false None None).
  assert (Hst : starved = mkSt [mkReq 2 1 Queued false (Some zoff) None; mkReq 3 2 Queued false None None]
                            [2] [mkCl 1 3 (Some 2) false [1]] [] 10 false 4 2)
    by (vm_compute; reflexivity).
  rewrite Hst.
  split; [reflexivity|]. split; [reflexivity|]. split; [now left|]. split; [reflexivity|].
  split; [reflexivity|]. split; [right; now left|]. split; [reflexivity|]. split; [reflexivity|].
  intros ans. vm_compute. reflexivity.
Qed.

(** C15: the collect loop waits for every outstanding job: with no timeout a
    client that never answers keeps the pass from ending, while an idle client
    and a waiting request are at hand. *)
Definition hung : state Z nat :=
  zrun 1 MAuto [EvQueue 1; EvAccept PReady; EvAccept PReady; EvRefill; EvDispatch IAny 0 sok; EvQueue 2] zinit.
Definition silent : round := mkRound (fun _ => None) (fun _ => false).
Theorem hung_client_blocks_the_pass_refuted :
  exists st fc r, st = hung /\ In fc (clients st) /\ usable fc = true /\ busy st (cid fc) = false /\
    In r (reqs st) /\ rst r = Queued /\
    forall n, let st' := collect zsub zen zpay (repeat silent n) st in
              jobs st' <> [] /\ st' = st.
Proof.
  assert (Hst : hung = mkSt [mkReq 0 1 Running true (Some zoff) None; mkReq 1 2 Queued false None None]
                         [] [mkCl 0 9 None false [0]; mkCl 1 3 None false []] [([0], 0)] 10 false 2 2)
    by (vm_compute; reflexivity).
  exists hung, (mkCl 1 3 None false []), (mkReq 1 2 Queued false None None).
  rewrite Hst. clear Hst.
  split; [reflexivity|]. split; [right; now left|]. split; [reflexivity|]. split; [reflexivity|].
  split; [right; now left|]. split; [reflexivity|].
  intros n. match goal with |- context [collect _ _ _ _ ?s] => set (st := s) end.
  assert (Hs : collect zsub zen zpay (repeat silent n) st = st).
  { induction n as [|n IH]; [reflexivity|]. cbn [repeat collect].
    change (jobs st) with [([0], 0)]. cbv iota. change (crashed st) with false. cbv iota.
    replace (collect_round zsub zen zpay silent st) with st by (vm_compute; reflexivity).
    exact IH. }
  cbv zeta. rewrite Hs. split; [discriminate | reflexivity].
Qed.

(** C14 is false with batching: in lock mode a client that has served replica 1
    is given replica 2 (the code says so in a comment, sockets.py:1698). *)
Theorem lock_mode_batched_refuted :
  exists es c cl k r, Forall lock_event es /\
    let st := zrun 2 MLock es zinit in
    find_cl c (clients st) = Some cl /\ clast cl = Some 1 /\
    In ([k], c) (jobs st) /\ find_req k (reqs st) = Some r /\ rid r = 2.
Proof.
  exists [EvQueue 1; EvAccept PReady; EvRefill; EvDispatch IMatch 0 sok; EvRecv 0 (RForces PReady);
          EvQueue 2; EvRefill; EvDispatch IMatch 0 sok], 0.
  exists (mkCl 0 9 (Some 1) false [1; 1]), 1, (mkReq 1 2 Running true (Some zoff) None).
  split; [repeat constructor|]. vm_compute. repeat split. now left.
Qed.

(** C64 is false: a reply with the wrong number of atoms from one client ends
    the polling thread; whatever happens afterwards no further request is ever
    finished. *)
Lemma crashed_stays bs m es : forall st : state Z nat, crashed st = true ->
  crashed (zrun bs m es st) = true /\
  forall r, In r (reqs (zrun bs m es st)) -> rst r = Done -> exists r0, In r0 (reqs st) /\ rst r0 = Done /\ rkey r0 = rkey r.
Proof.
  induction es as [|e es IH]; intros st Hc; [split; [easy | intros r H1 H2; now exists r]|].
  cbn. assert (Hc' : crashed (step zsub zoff zen zpay bs m st e) = true).
  { destruct e; cbn; rewrite ?Hc; easy. }
  destruct (IH _ Hc') as [H1 H2]. split; [easy|].
  intros r Hr Hs. destruct (H2 r Hr Hs) as (r0 & Hr0 & Hs0 & Hk0).
  destruct e; cbn in Hr0; rewrite ?Hc in Hr0; try (now exists r0).
  - apply in_app_iff in Hr0. cbn in Hr0. destruct Hr0 as [Hr0|[<-|[]]]; [now exists r0 | easy].
  - apply filter_In in Hr0. now exists r0.
Qed.

Theorem wrong_size_reply_stops_service_refuted :
  exists es, forall es' r,
    In r (reqs (zrun 1 MAuto (es ++ es') zinit)) -> rst r <> Done.
Proof.
  exists [EvQueue 1; EvAccept PReady; EvRefill; EvDispatch IAny 0 sok; EvRecv 0 RInvalid].
  intros es' r. unfold run. rewrite fold_left_app.
  match goal with |- context [fold_left _ es' ?s] => set (st := s) end.
  intros Hr Hs.
  assert (Hst : st = mkSt [mkReq 0 1 Running true (Some zoff) None] [] [mkCl 0 9 None false [0]]
                       [([0], 0)] 10 true 1 1) by (vm_compute; reflexivity).
  rewrite Hst in Hr.
  match type of Hr with context [fold_left _ es' ?s] =>
    destruct (crashed_stays 1 MAuto es' s eq_refl) as [_ H] end.
  destruct (H r Hr Hs) as (r0 & [<-|[]] & Hs0 & _). discriminate.
Qed.

(** ** The hypotheses are met *)

(** Two clients, batch size 1: the first client drops mid-receive, its request
    is requeued and completed by the second. *)
Definition hist1 : list event :=
  [EvQueue 0; EvQueue 1; EvAccept PReady; EvAccept PInit; EvRefill;
   EvDispatch IMatch 0 sok; EvDispatch INone 0 sok; EvDispatch INone 1 sok;
   EvRecv 0 RDisc; EvTimeout 1].
Example hist1_mid :
  let st := zrun 1 MAuto (firstn 8 hist1) zinit in
  crashed st = false /\ jobs st = [([0], 0); ([1], 1)] /\ map rst (reqs st) = [Running; Running].
Proof. vm_compute. repeat split. Qed.
Example hist1_end :
  let st := zrun 1 MAuto hist1 zinit in
  map rst (reqs st) = [Queued; Queued] /\ jobs st = [] /\
  map cstat (clients st) = [0; 0].
Proof. vm_compute. repeat split. Qed.
Definition hist2 : list event :=
  hist1 ++ [EvPrune; EvAccept PReady; EvRefill; EvDispatch IAny 2 sok; EvRecv 2 (RForces PInit);
            EvDispatch IAny 2 sok; EvRecv 2 (RForces PReady)].
Example hist2_end :
  map (fun r => (rkey r, rst r, rres r)) (reqs (zrun 1 MAuto hist2 zinit)) =
  [(0, Done, Some (95%Z, 0)); (1, Done, Some (96%Z, 1))].
Proof. vm_compute. reflexivity. Qed.

(** Batch of two padded to three. *)
Example batch_end :
  map (fun r => (rkey r, rst r, rres r))
    (reqs (zrun 3 MAuto [EvQueue 0; EvQueue 1; EvAccept PReady; EvRefill; EvDispatch IAny 0 sok;
                         EvRecv 0 (RForces PReady)] zinit)) =
  [(0, Done, Some (95%Z, 0)); (1, Done, Some (96%Z, 1))].
Proof. vm_compute. reflexivity. Qed.

(** A polling pass with two good clients and three requests, then the collect
    loop with one client dropping. *)
Example poll_runs :
  exists st, poll zsub zoff zen zpay 5 1 MAuto [PReady; PReady] (fun _ => sok)
     [mkRound (fun c => if c =? 0 then Some (RForces PReady) else None) (fun _ => false);
      mkRound (fun c => Some RDisc) (fun _ => false)]
     (zrun 1 MAuto [EvQueue 0; EvQueue 1; EvQueue 2] zinit) = Some st /\
  map rst (reqs st) = [Done; Queued; Queued] /\ jobs st = [].
Proof. eexists. split; [vm_compute; reflexivity|]. split; vm_compute; reflexivity. Qed.

(** The dispatch phase with a broken client first. *)
Example phase_broken :
  exists st' fr,
    dispatch_phase zoff 2 1 MAuto (fun c => if c =? 0 then sbad else sok)
      (zrun 1 MAuto [EvQueue 0; EvAccept PReady; EvAccept PReady] zinit) = Some (st', fr) /\
    jobs st' = [] /\ map cstat (clients st') = [0; 3].
Proof. do 2 eexists. split; [vm_compute; reflexivity|]. split; vm_compute; reflexivity. Qed.

(** Lock mode: client 0 has served replica 1 and is serving it again. *)
Definition lockes1 := [EvQueue 1; EvAccept PReady; EvRefill; EvDispatch INone 0 sok; EvRecv 0 (RForces PReady)].
Definition lockes2 := [EvQueue 2; EvQueue 1; EvRefill; EvDispatch IMatch 0 sok].
Example lock_case :
  Forall lock_event lockes1 /\ Forall lock_event lockes2 /\
  (exists cl, find_cl 0 (clients (zrun 1 MLock lockes1 zinit)) = Some cl /\ clast cl = Some 1) /\
  jobs (zrun 1 MLock (lockes1 ++ lockes2) zinit) = [([2], 0)].
Proof.
  split; [repeat (constructor; [cbn; auto|]); constructor|].
  split; [repeat (constructor; [cbn; auto|]); constructor|].
  split; [eexists; split; vm_compute; reflexivity | vm_compute; reflexivity].
Qed.

(** Legacy: a worker lost its client. *)
Example legacy_lost :
  let st := lrun zsub zoff zen zpay MAuto
     [LQueue 0; LAccept PReady; LRefill; LDispatch IAny 0; LWorker 0 (WLost true)] zinit in
  jobs st = [([0], 0)] /\ map cstat (clients st) = [0] /\ map rst (reqs (l_prune st)) = [Queued].
Proof. vm_compute. repeat split. Qed.

Print Assumptions waiting_list_in_order_of_arrival.
Print Assumptions request_always_accounted.
Print Assumptions request_never_lost.
Print Assumptions request_leaves_only_when_done.
Print Assumptions polling_pass_is_a_history.
Print Assumptions client_has_one_job.
Print Assumptions done_result_is_own.
Print Assumptions done_result_is_final.
Print Assumptions vanished_client_requests_requeued.
Print Assumptions dispatch_takes_oldest_compatible.
Print Assumptions lock_mode_client_keeps_replica.
Print Assumptions dispatch_loop_terminates.
Print Assumptions dispatch_pass_progress_partial.
Print Assumptions legacy_lost_client_requeued_partial.
Print Assumptions legacy_dispatch_never_ends.
Print Assumptions legacy_timeout_loses_request_refuted.
Print Assumptions legacy_poll_hangs_refuted.
Print Assumptions lock_mode_starves_refuted.
Print Assumptions hung_client_blocks_the_pass_refuted.
Print Assumptions lock_mode_batched_refuted.
Print Assumptions wrong_size_reply_stops_service_refuted.
