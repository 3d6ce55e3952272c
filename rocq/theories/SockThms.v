(** * Consequences of the dispatcher invariant *)
From Coq Require Import List Arith Lia Bool.
From Verif Require Import SockModel SockSpec SockProofs.
Import ListNotations.

Section Thms.
Context {E P : Type}.
Variable sub : E -> E -> E.
Variable offset : E.
Variable energy : nat -> E.
Variable payload : nat -> P.
Notation state := (state E P).
Notation request := (request E P).
Notation step := (step sub offset energy payload).
Notation run := (run sub offset energy payload).
Notation Inv := (@Inv E P sub offset energy payload).

Lemma jobs_with_count (js : list job) k :
  NoDup (concat (map fst js)) ->
  length (filter (fun j => existsb (Nat.eqb k) (fst j)) js) =
  if existsb (Nat.eqb k) (concat (map fst js)) then 1 else 0.
Proof.
  induction js as [|j js IH]; cbn [map concat filter]; [easy|].
  rewrite NoDup_app_iff', existsb_app. intros (H1 & H2 & H3).
  destruct (existsb (Nat.eqb k) (fst j)) eqn:Ej; cbn [orb length].
  - apply existsb_eqb_In in Ej. apply H3 in Ej. apply existsb_eqb_not in Ej.
    rewrite IH, Ej by easy. reflexivity.
  - now apply IH.
Qed.

Lemma jobs_with_spec (st : state) k :
  NoDup (job_keys st) ->
  (In k (job_keys st) -> jobs_with k st = 1) /\ (~ In k (job_keys st) -> jobs_with k st = 0).
Proof.
  intros H. unfold jobs_with. rewrite jobs_with_count by exact H. split.
  - intros Hi. apply existsb_eqb_In in Hi. unfold job_keys in Hi. now rewrite Hi.
  - intros Hi. apply existsb_eqb_not in Hi. unfold job_keys in Hi. now rewrite Hi.
Qed.

Lemma inv_accounted st : Inv st -> forall r, In r (reqs st) -> accounted st r.
Proof.
  intros H r Hr. destruct (jobs_with_spec st (rkey r) (i_jk _ _ _ _ _ H)) as [J1 J0].
  assert (Hf := In_find_req _ _ (i_keys _ _ _ _ _ H) Hr).
  unfold accounted. destruct (rst r) eqn:Es.
  - apply J0. intros Hk. destruct (i_jrun _ _ _ _ _ H _ Hk) as (r' & H1 & H2 & _). congruence.
  - assert (Hk := i_run _ _ _ _ _ H r Hr Es). split; [now apply J1|].
    apply In_job_keys in Hk. destruct Hk as ([ks c] & Hj & Hk). cbn in Hk.
    destruct (i_jcl _ _ _ _ _ H _ Hj) as (cl & H1 & H2 & H3). cbn in H1, H3.
    destruct (find_cl_In _ _ _ H1) as [Hi Hc].
    exists ks, c. split; [easy|]. split; [easy|]. split.
    + exists cl. repeat split; try easy. now rewrite H2.
    + exists cl. repeat split; try easy. apply (In_firstn (length ks)). now rewrite H3.
  - apply J0. intros Hk. destruct (i_jrun _ _ _ _ _ H _ Hk) as (r' & H1 & H2 & _). congruence.
Qed.

(** ** How the list of requests evolves *)

Lemma keys_assign ks sent lock fc a (st : state) :
  map rkey (reqs (fst (assign offset ks sent lock fc a st))) = map rkey (reqs st) /\
  nextk (fst (assign offset ks sent lock fc a st)) = nextk st.
Proof.
  unfold assign. destruct (dispatch_send _ sent a) as [[fc2 started] ok].
  destruct ok, started; cbn; rewrite ?keys_upds by easy; easy.
Qed.

Lemma keys_step bs m (st : state) e :
  match e with
  | EvQueue _ => map rkey (reqs (step bs m st e)) = map rkey (reqs st) ++ [nextk st] /\
                 nextk (step bs m st e) = S (nextk st)
  | EvRelease _ => nextk (step bs m st e) = nextk st
  | _ => map rkey (reqs (step bs m st e)) = map rkey (reqs st) /\
         nextk (step bs m st e) = nextk st
  end.
Proof.
  destruct e as [id|k|p| | |i c a|c a|c|n]; cbn [SockModel.step].
  - unfold queue; cbn. now rewrite map_app.
  - easy.
  - destruct (crashed st); [easy|]. unfold accept. destruct (negb _); easy.
  - destruct (crashed st); [easy|]. unfold pool_prune.
    destruct (prune (clients st) (jobs st)); easy.
  - destruct (crashed st); easy.
  - destruct (crashed st); [easy|]. unfold dispatch_free_client.
    destruct (find_cl c (clients st)) as [fc|]; [|easy].
    destruct (negb (usable fc)); [easy|]. destruct (1 <? bs).
    + destruct (prl st) as [|k0 pl]; [easy|]. apply keys_assign.
    + destruct (pick _ _ _ _ _ _); [|easy]. apply keys_assign.
  - destruct (crashed st); [easy|]. unfold recv_job.
    destruct (job_of c (jobs st)) as [[ks c']|]; [|easy].
    destruct (find_cl c (clients st)) as [cl|]; [|easy]. destruct a; cbn; try easy.
    + now rewrite keys_upds.
    + now rewrite deliver_keys.
  - destruct (crashed st); [easy|]. unfold timeout_job.
    destruct (job_of c (jobs st)) as [[ks c']|]; [|easy].
    destruct (find_req (hd 0 ks) (reqs st)) as [r|]; [|easy]. destruct (rstart r); cbn; [|easy].
    now rewrite keys_upds.
  - destruct (crashed st); easy.
Qed.

(** A request disappears from the list only by being released when Done. *)
Lemma leaves_only_done bs m (st : state) e r :
  In r (reqs st) -> ~ In (rkey r) (map rkey (reqs (step bs m st e))) ->
  e = EvRelease (rkey r) /\ (NoDup (map rkey (reqs st)) -> rst r = Done).
Proof.
  intros Hr Hn. assert (Hk := keys_step bs m st e).
  assert (Hin : In (rkey r) (map rkey (reqs st))) by now apply in_map.
  destruct e as [id|k|p| | |i c a|c a|c|n];
    try (destruct Hk as [Hk _]; rewrite Hk in Hn; now destruct Hn).
  - destruct Hk as [Hk _]. rewrite Hk in Hn. destruct Hn. apply in_app_iff. now left.
  - cbn in Hn.
    destruct ((rkey r =? k) && rstatus_eqb (rst r) Done) eqn:Eb.
    + apply andb_true_iff in Eb. destruct Eb as [E1 E2]. apply Nat.eqb_eq in E1.
      apply rstatus_eqb_eq in E2. now subst.
    + exfalso. apply Hn. apply in_map. apply filter_In. split; [easy|]. now rewrite Eb.
Qed.

Lemma not_lost bs m es : forall (st : state) k,
  In k (map rkey (reqs st)) -> ~ In (EvRelease k) es ->
  In k (map rkey (reqs (run bs m es st))).
Proof.
  induction es as [|e es IH]; intros st k Hk Hn; [easy|]. cbn.
  apply IH.
  - apply in_map_iff in Hk. destruct Hk as (r & <- & Hr).
    destruct (in_dec Nat.eq_dec (rkey r) (map rkey (reqs (step bs m st e)))) as [Hi|Hi]; [easy|].
    destruct (leaves_only_done bs m st e r Hr Hi) as [-> _]. exfalso. apply Hn. now left.
  - intros H. apply Hn. now right.
Qed.

(** ** A Done request is never touched again *)

Lemma upds_other ks f (l : list request) k r :
  (forall r, rkey (f r) = rkey r) -> ~ In k ks -> find_req k l = Some r ->
  find_req k (upd_reqs ks f l) = Some r.
Proof.
  intros Hf Hn H. rewrite find_req_upds by easy. apply existsb_eqb_not in Hn. now rewrite Hn.
Qed.

Lemma assign_other ks sent lock fc a (st : state) k r :
  ~ In k ks -> find_req k (reqs st) = Some r ->
  find_req k (reqs (fst (assign offset ks sent lock fc a st))) = Some r.
Proof.
  intros Hn H. unfold assign. destruct (dispatch_send _ sent a) as [[fc2 started] ok].
  destruct ok, started; cbn; repeat apply upds_other; easy.
Qed.

Lemma done_not_prl st k r : Inv st -> find_req k (reqs st) = Some r -> rst r = Done ->
  ~ In k (prl st) /\ ~ In k (job_keys st).
Proof.
  intros H Hf Hs. split; intros Hk.
  - destruct (i_prlq _ _ _ _ _ H k Hk) as (r' & H1 & H2). congruence.
  - destruct (i_jrun _ _ _ _ _ H k Hk) as (r' & H1 & H2 & _). congruence.
Qed.

Lemma done_step bs m st e k r :
  Inv st -> find_req k (reqs st) = Some r -> rst r = Done ->
  find_req k (reqs (step bs m st e)) = Some r \/ find_req k (reqs (step bs m st e)) = None.
Proof.
  intros H Hf Hs. destruct (done_not_prl st k r H Hf Hs) as [Hp Hj].
  destruct e as [id|k'|p| | |i c a|c a|c|n]; cbn [SockModel.step].
  - left. unfold queue; cbn. now rewrite find_req_app, Hf.
  - unfold release; cbn. destruct (rkey r =? k') eqn:Ek.
    + right. destruct (find_req k (filter _ (reqs st))) as [x|] eqn:Ex; [|easy].
      exfalso. apply find_req_In in Ex. destruct Ex as [Ex Hx]. apply filter_In in Ex.
      destruct Ex as [Ex1 Ex2].
      assert (Hx2 := In_find_req _ _ (i_keys _ _ _ _ _ H) Ex1). rewrite Hx, Hf in Hx2.
      injection Hx2 as <-. rewrite Hs, Ek in Ex2. discriminate.
    + left. apply find_req_filter; [apply H | easy |]. now rewrite Ek.
  - left. destruct (crashed st); [easy|]. unfold accept. destruct (negb _); easy.
  - left. destruct (crashed st); [easy|]. unfold pool_prune.
    destruct (prune (clients st) (jobs st)); easy.
  - left. destruct (crashed st); easy.
  - left. destruct (crashed st); [easy|]. unfold dispatch_free_client.
    destruct (find_cl c (clients st)) as [fc|]; [|easy].
    destruct (negb (usable fc)); [easy|]. destruct (1 <? bs).
    + destruct (prl st) as [|k0 pl] eqn:Epl; [easy|]. apply assign_other; [|easy].
      intros Hi. apply In_firstn in Hi. now apply Hp.
    + destruct (pick _ _ _ _ _ _) as [r'|] eqn:Epk; [|easy]. apply pick_spec in Epk.
      apply assign_other; [|easy]. intros [<-|[]]. now apply Hp.
  - left. destruct (crashed st); [easy|]. unfold recv_job.
    destruct (job_of c (jobs st)) as [[ks c']|] eqn:Ej; [|easy].
    destruct (find_cl c (clients st)) as [cl|] eqn:Ec; [|easy].
    destruct (job_of_In _ _ _ Ej) as [Hj1 Hj2]. cbn in Hj2. subst c'.
    assert (Hks : ~ In k ks) by (intros Hi; apply Hj, In_job_keys; now exists (ks, c)).
    destruct a; cbn; [| easy |].
    + now apply upds_other.
    + generalize (firstn (length ks) (reply energy payload cl)).
      clear - Hks Hf. revert Hf. generalize (reqs st).
      induction ks as [|x ks IH]; intros l Hf [|ep res]; cbn [deliver]; try easy.
      apply IH.
      * intros Hi. apply Hks. now right.
      * rewrite upd_req_upds. apply upds_other; [easy | | easy].
        intros [->|[]]. apply Hks. now left.
  - left. destruct (crashed st); [easy|]. unfold timeout_job.
    destruct (job_of c (jobs st)) as [[ks c']|] eqn:Ej; [|easy].
    destruct (job_of_In _ _ _ Ej) as [Hj1 Hj2]. cbn in Hj2. subst c'.
    destruct (find_req (hd 0 ks) (reqs st)) as [r'|]; [|easy]. destruct (rstart r'); cbn; [|easy].
    apply upds_other; [easy | | easy]. intros Hi. apply Hj, In_job_keys. now exists (ks, c).
  - left. destruct (crashed st); easy.
Qed.

Lemma find_req_None k (l : list request) : find_req k l = None <-> ~ In k (map rkey l).
Proof.
  split.
  - intros H Hi. destruct (find_req_key k l Hi) as (r & Hr). congruence.
  - intros H. destruct (find_req k l) as [r|] eqn:Er; [|easy].
    exfalso. apply H. apply find_req_In in Er. destruct Er as [Er <-]. now apply in_map.
Qed.

Lemma gone_run bs m es : forall (st : state) k,
  find_req k (reqs st) = None -> k < nextk st -> find_req k (reqs (run bs m es st)) = None.
Proof.
  induction es as [|e es IH]; intros st k H Hl; [easy|]. cbn. apply find_req_None in H.
  assert (Hk := keys_step bs m st e).
  apply IH.
  - apply find_req_None. intros Hi.
    destruct e as [id|k'|p| | |i c a|c a|c|n];
      try (destruct Hk as [Hk _]; rewrite Hk in Hi; now apply H).
    + destruct Hk as [Hk _]. rewrite Hk in Hi. apply in_app_iff in Hi. cbn in Hi.
      destruct Hi as [Hi|[Hi|[]]]; [now apply H | lia].
    + cbn in Hi. apply in_map_iff in Hi. destruct Hi as (r & <- & Hr). apply filter_In in Hr.
      apply H. now apply in_map.
  - destruct e; try (destruct Hk as [_ ->]); try lia; rewrite ?Hk; lia.
Qed.

Lemma done_run bs m es : forall st k r,
  Inv st -> find_req k (reqs st) = Some r -> rst r = Done ->
  find_req k (reqs (run bs m es st)) = Some r \/ find_req k (reqs (run bs m es st)) = None.
Proof.
  induction es as [|e es IH]; intros st k r H Hf Hs; [now left|]. cbn.
  destruct (done_step bs m st e k r H Hf Hs) as [H1|H1].
  - apply IH; [now apply inv_step | easy | easy].
  - right. apply gone_run; [easy|].
    assert (Hl : k < nextk st).
    { apply find_req_In in Hf. destruct Hf as [Hf <-]. now apply (i_keylt _ _ _ _ _ H). }
    assert (Hk := keys_step bs m st e).
    destruct e; try (destruct Hk as [_ ->]); try lia; rewrite ?Hk; lia.
Qed.

(** ** Requeueing *)
Definition drop_outcome (e : event) (c : nat) : Prop := e = EvRecv c RDisc \/ e = EvTimeout c.

Lemma drop_event_state bs m st ks c e :
  Inv st -> crashed st = false -> In (ks, c) (jobs st) -> drop_outcome e c ->
  step bs m st e = dropped c (requeue ks c st).
Proof.
  intros H Hc Hj He.
  assert (Hjo : job_of c (jobs st) = Some (ks, c)).
  { destruct (job_of c (jobs st)) as [j|] eqn:Ej.
    - destruct (job_of_In _ _ _ Ej) as [Hj1 Hj2].
      f_equal. now apply (snd_unique (jobs st)); [apply H | ..].
    - exfalso. apply (find_none _ _ Ej) in Hj. cbn in Hj. now rewrite Nat.eqb_refl in Hj. }
  destruct (i_jcl _ _ _ _ _ H _ Hj) as (cl & Hcl & _). cbn in Hcl.
  destruct He as [-> | ->]; cbn [SockModel.step]; rewrite Hc.
  - unfold recv_job. now rewrite Hjo, Hcl.
  - unfold timeout_job. rewrite Hjo.
    assert (Hne := i_jne _ _ _ _ _ H _ Hj). cbn in Hne.
    destruct ks as [|k ks]; [easy|]. cbn [hd].
    destruct (i_jrun _ _ _ _ _ H k) as (r & Hr & _ & Hs & _).
    { apply In_job_keys. exists (k :: ks, c). split; [easy | now left]. }
    rewrite Hr, Hs. reflexivity.
Qed.

Lemma requeue_effect bs m st ks c e :
  Inv st -> crashed st = false -> In (ks, c) (jobs st) -> drop_outcome e c ->
  let st' := step bs m st e in
  (forall k, In k ks -> exists r, find_req k (reqs st') = Some r /\ rst r = Queued /\
                                  jobs_with k st' = 0) /\
  (forall k, ~ In k ks -> find_req k (reqs st') = find_req k (reqs st)) /\
  (forall j, In j (jobs st') <-> In j (jobs st) /\ j <> (ks, c)) /\
  ~ connected c st' /\
  (forall c', c' <> c -> find_cl c' (clients st') = find_cl c' (clients st)) /\
  (forall k, In k ks -> In k (prl (step bs m st' EvRefill))).
Proof.
  intros H Hc Hj He st'.
  assert (Hst : st' = dropped c (requeue ks c st)) by now apply drop_event_state.
  assert (Hinv : Inv st') by (unfold st'; now apply inv_step).
  assert (Hq : forall k, In k ks -> exists r, find_req k (reqs st') = Some r /\ rst r = Queued).
  { intros k Hk. destruct (i_jrun _ _ _ _ _ H k) as (r & Hr & _).
    { apply In_job_keys. exists (ks, c). now split. }
    exists (mark_requeued r). rewrite Hst. cbn. rewrite find_req_upds by easy.
    apply existsb_eqb_In in Hk. now rewrite Hk, Hr. }
  split; [|split; [|split; [|split; [|split]]]].
  - intros k Hk. destruct (Hq k Hk) as (r & Hr & Hs). exists r. split; [easy|]. split; [easy|].
    apply jobs_with_spec; [apply Hinv|]. intros Hi.
    destruct (i_jrun _ _ _ _ _ Hinv k Hi) as (r' & H1 & H2 & _). congruence.
  - intros k Hk. rewrite Hst. cbn. rewrite find_req_upds by easy.
    apply existsb_eqb_not in Hk. now rewrite Hk.
  - intros j. rewrite Hst. cbn. rewrite drop_job_In. split.
    + intros [H1 H2]. split; [easy|]. intros ->. now apply H2.
    + intros [H1 H2]. split; [easy|]. intros He2. apply H2.
      apply (snd_unique (jobs st)); [apply H | easy | easy | easy].
  - intros (cl & H1 & H2 & H3). rewrite Hst in H1. cbn in H1. unfold upd_cl in H1.
    apply in_map_iff in H1. destruct H1 as (x & <- & Hx).
    destruct (Nat.eqb_spec (cid x) c) as [Hxc|Hxc]; cbn in *; congruence.
  - intros c' Hc'. rewrite Hst. cbn. rewrite find_cl_upd by easy.
    apply Nat.eqb_neq in Hc'. now rewrite Hc'.
  - intros k Hk. destruct (Hq k Hk) as (r & Hr & Hs).
    assert (Hcr : crashed st' = false) by now rewrite Hst.
    cbn [SockModel.step]. rewrite Hcr. cbn. apply queued_keys_spec; [apply Hinv|]. now exists r.
Qed.

(** ** Matching *)

(** What the policy allows, in words: "match": the client last served this
    replica; "none": the client has served nobody (and, in lock mode, nobody
    else has served the replica); "free": the client is not locked; "any". *)
Definition may_serve (m : mmode) (i : mids) (cls : list client) (fc : client) (r : request) : Prop :=
  match i with
  | IMatch => clast fc = Some (rid r)
  | INone => clast fc = None /\
             (m = MLock -> forall c, In c cls -> clast c <> Some (rid r))
  | IFree => clocked fc = false
  | IAny => True
  end.

Lemma opt_eqb_eq a b : opt_eqb a b = true <-> a = b.
Proof.
  destruct a, b; cbn; rewrite ?Nat.eqb_eq; split; congruence.
Qed.

Lemma admissible_spec m i cls fc r : admissible m i cls fc r = true <-> may_serve m i cls fc r.
Proof.
  destruct i; cbn.
  - apply opt_eqb_eq.
  - destruct (clast fc); [split; [easy | intros [? _]; easy]|]. destruct m.
    + split; [|easy]. intros _. now split.
    + split; [|easy]. intros _. now split.
    + rewrite negb_true_iff. split.
      * intros H. split; [easy|]. intros _ c Hc He.
        assert (Ht : existsb (fun c => opt_eqb (clast c) (Some (rid r))) cls = true).
        { apply existsb_exists. exists c. split; [easy|]. now apply opt_eqb_eq. }
        congruence.
      * intros [_ H]. destruct (existsb _ cls) eqn:Ex; [|easy]. exfalso.
        apply existsb_exists in Ex. destruct Ex as (c & Hc & He). apply opt_eqb_eq in He.
        now apply (H eq_refl c Hc).
  - rewrite negb_true_iff. easy.
  - easy.
Qed.

Lemma pick_oldest m i cls fc (l : list request) ks r :
  NoDup (map rkey l) ->
  pick m i cls fc l ks = Some r ->
  exists pre post, ks = pre ++ rkey r :: post /\ In r l /\ may_serve m i cls fc r /\
    forall r', In r' l -> In (rkey r') pre -> ~ may_serve m i cls fc r'.
Proof.
  intros Hn. induction ks as [|k ks IH]; cbn; [easy|].
  destruct (find_req k l) as [x|] eqn:Ex.
  - destruct (admissible m i cls fc x) eqn:Ea.
    + intros [= ->]. destruct (find_req_In _ _ _ Ex) as [Hi <-].
      exists [], ks. repeat split; try easy. now apply admissible_spec.
    + intros H. apply IH in H. destruct H as (pre & post & -> & H2 & H3 & H4).
      exists (k :: pre), post. repeat split; try easy.
      intros r' Hr' [Hk|Hk] Hm; [|now apply (H4 r')].
      assert (Hx := In_find_req _ _ Hn Hr'). rewrite <- Hk, Ex in Hx. injection Hx as ->.
      apply admissible_spec in Hm. congruence.
  - intros H. apply IH in H. destruct H as (pre & post & -> & H2 & H3 & H4).
    exists (k :: pre), post. repeat split; try easy.
    intros r' Hr' [Hk|Hk] Hm; [|now apply (H4 r')].
    assert (Hx := In_find_req _ _ Hn Hr'). congruence.
Qed.

Lemma pick_none m i cls fc (l : list request) ks :
  NoDup (map rkey l) ->
  pick m i cls fc l ks = None ->
  forall r, In r l -> In (rkey r) ks -> ~ may_serve m i cls fc r.
Proof.
  intros Hn. induction ks as [|k ks IH]; cbn; [easy|].
  destruct (find_req k l) as [x|] eqn:Ex.
  - destruct (admissible m i cls fc x) eqn:Ea; [easy|].
    intros H r Hr [Hk|Hk] Hm; [|now apply (IH H r)].
    assert (Hx := In_find_req _ _ Hn Hr). rewrite <- Hk, Ex in Hx. injection Hx as ->.
    apply admissible_spec in Hm. congruence.
  - intros H r Hr [Hk|Hk] Hm; [|now apply (IH H r)].
    assert (Hx := In_find_req _ _ Hn Hr). congruence.
Qed.

(** Successful dispatch of one request. *)
Lemma dispatch_choice bs m i c a st st' :
  Inv st -> bs <= 1 ->
  dispatch_free_client offset bs m i c a st = (st', true) ->
  exists fc r pre post,
    find_cl c (clients st) = Some fc /\ In r (reqs st) /\ rst r = Queued /\
    prl st = pre ++ rkey r :: post /\
    jobs st' = jobs st ++ [([rkey r], c)] /\
    may_serve m i (clients st) fc r /\
    (forall r', In r' (reqs st) -> In (rkey r') pre -> ~ may_serve m i (clients st) fc r').
Proof.
  intros H Hbs. unfold dispatch_free_client.
  destruct (find_cl c (clients st)) as [fc|] eqn:Efc; [|easy].
  destruct (negb (usable fc)); [easy|].
  destruct (Nat.ltb_spec 1 bs); [lia|].
  destruct (pick m i (clients st) fc (reqs st) (prl st)) as [r|] eqn:Epk; [|easy].
  destruct (pick_oldest _ _ _ _ _ _ _ (i_keys _ _ _ _ _ H) Epk) as (pre & post & H1 & H2 & H3 & H4).
  unfold assign. destruct (dispatch_send _ _ a) as [[fc2 started] ok].
  destruct ok; [|easy]. intros [= <-]. exists fc, r, pre, post. cbn.
  assert (Hcc : cid fc = c) by now destruct (find_cl_In _ _ _ Efc).
  rewrite Hcc. repeat split; try easy.
  destruct (i_prlq _ _ _ _ _ H (rkey r)) as (r' & Hr' & Hs).
  { rewrite H1. apply in_app_iff. right. now left. }
  rewrite (In_find_req _ _ (i_keys _ _ _ _ _ H) H2) in Hr'. now injection Hr' as <-.
Qed.

(** ** Lock mode *)

(** The dispatches the code makes in lock mode use "match" and "none" only. *)
Definition lock_event (e : event) : Prop :=
  match e with
  | EvDispatch i _ _ => i = IMatch \/ i = INone
  | _ => True
  end.

(** A client that has served replica [i] has only replica [i] in its job. *)
Definition locked_jobs (st : state) : Prop :=
  forall ks c cl i, In (ks, c) (jobs st) -> find_cl c (clients st) = Some cl -> clast cl = Some i ->
  forall k r, In k ks -> find_req k (reqs st) = Some r -> rid r = i.

Lemma rid_upds ks f (l : list request) k r :
  (forall r, rkey (f r) = rkey r) -> (forall r, rid (f r) = rid r) ->
  find_req k (upd_reqs ks f l) = Some r ->
  exists r0, find_req k l = Some r0 /\ rid r0 = rid r.
Proof.
  intros Hk Hi. rewrite find_req_upds by easy. destruct (existsb _ ks); [|eauto].
  destruct (find_req k l) as [r0|]; cbn; [|easy]. intros [= <-]. eauto.
Qed.

Lemma rid_deliver ks : forall res (l : list request) k r,
  find_req k (deliver sub ks res l) = Some r ->
  exists r0, find_req k l = Some r0 /\ rid r0 = rid r.
Proof.
  induction ks as [|x ks IH]; intros [|ep res] l k r; cbn [deliver]; try (intros H; now exists r).
  intros H. apply IH in H. destruct H as (r1 & H1 & H2).
  rewrite upd_req_upds in H1. apply rid_upds in H1; try easy.
  destruct H1 as (r0 & H3 & H4). exists r0. split; [easy | congruence].
Qed.

(** [clast] of every client after an event: unchanged, except after a complete
    receive. [rid] never changes. *)
Lemma find_prune st c cl js :
  NoDup (map cid st) -> find_cl c (fst (prune st js)) = Some cl -> find_cl c st = Some cl.
Proof.
  intros Hn H. destruct (find_cl_In _ _ _ H) as [Hi <-].
  apply In_find_cl; [easy|]. now apply prune_incl in Hi.
Qed.

Lemma clast_send fc sent a : clast (fst (fst (dispatch_send fc sent a))) = clast fc.
Proof.
  unfold dispatch_send. destruct (negb (has (cstat fc) stUp)); [easy|]. cbv zeta.
  match goal with |- context [if negb ?b then _ else _] => destruct (negb b) end; [easy|].
  now destruct (sa_out a).
Qed.

Lemma assign_clast ks sent lock fc a (st : state) c cl :
  find_cl (cid fc) (clients st) = Some fc ->
  find_cl c (clients (fst (assign offset ks sent lock fc a st))) = Some cl ->
  exists cl0, find_cl c (clients st) = Some cl0 /\ clast cl0 = clast cl.
Proof.
  intros Hfc. unfold assign.
  set (fc1 := mkCl (cid fc) (cstat fc) (clast fc) lock (csent fc)).
  destruct (dispatch_send fc1 sent a) as [[fc2 started] ok] eqn:Ed.
  assert (Hl : clast fc2 = clast fc).
  { pose proof (clast_send fc1 sent a) as H. rewrite Ed in H. exact H. }
  assert (Hc : cid fc2 = cid fc).
  { pose proof (dispatch_send_cid fc1 sent a) as H. rewrite Ed in H. exact H. }
  destruct ok; cbn.
  - rewrite find_cl_upd by (intros x Hx; now rewrite Hx).
    destruct (Nat.eqb_spec c (cid fc)) as [->|Hne]; [|eauto].
    rewrite Hfc. cbn. intros [= <-]. exists fc. now split.
  - rewrite find_cl_upd by easy. rewrite find_cl_upd by (intros x Hx; now rewrite Hx).
    destruct (Nat.eqb_spec c (cid fc)) as [->|Hne]; [|eauto].
    rewrite Hfc. cbn. intros [= <-]. exists fc. now split.
Qed.

Lemma assign_rid ks sent lock fc a (st : state) k r :
  find_req k (reqs (fst (assign offset ks sent lock fc a st))) = Some r ->
  exists r0, find_req k (reqs st) = Some r0 /\ rid r0 = rid r.
Proof.
  unfold assign. destruct (dispatch_send _ sent a) as [[fc2 started] ok].
  destruct ok, started; cbn; intros H.
  - apply rid_upds in H; try easy. destruct H as (r1 & H1 & H2).
    apply rid_upds in H1; try easy. destruct H1 as (r0 & H3 & H4). exists r0. split; congruence.
  - apply rid_upds in H; try easy.
  - apply rid_upds in H; try easy. destruct H as (r1 & H1 & H2).
    apply rid_upds in H1; try easy. destruct H1 as (r2 & H3 & H4).
    apply rid_upds in H3; try easy. destruct H3 as (r0 & H5 & H6). exists r0. split; congruence.
  - apply rid_upds in H; try easy. destruct H as (r1 & H1 & H2).
    apply rid_upds in H1; try easy. destruct H1 as (r0 & H3 & H4). exists r0. split; congruence.
Qed.

Lemma find_app_old k (l : list request) r0 r :
  find_req k (l ++ [r0]) = Some r -> rkey r0 <> k -> find_req k l = Some r.
Proof.
  rewrite find_req_app. destruct (find_req k l); [easy|].
  unfold find_req; cbn. intros H Hn. apply Nat.eqb_neq in Hn. now rewrite Hn in H.
Qed.

Lemma find_filter_inv k (p : request -> bool) (l : list request) r :
  NoDup (map rkey l) -> find_req k (filter p l) = Some r -> find_req k l = Some r.
Proof.
  intros Hn H. destruct (find_req_In _ _ _ H) as [Hi <-]. apply filter_In in Hi.
  now apply In_find_req.
Qed.

Lemma locked_step st e :
  Inv st -> locked_jobs st -> lock_event e ->
  locked_jobs (step 1 MLock st e) /\
  (forall c cl i, find_cl c (clients st) = Some cl -> clast cl = Some i ->
     forall cl', find_cl c (clients (step 1 MLock st e)) = Some cl' -> clast cl' = Some i).
Proof.
  intros H HL Hev. destruct e as [id|k|p| | |i c a|c a|c|n]; cbn [SockModel.step].
  - split; [|cbn; intros; congruence].
    intros ks c cl i Hj Hc Hl k r Hk Hr. cbn in *. apply (HL ks c cl i Hj Hc Hl k r Hk).
    apply find_app_old in Hr; [easy|]. cbn. intros He.
    destruct (i_jrun _ _ _ _ _ H k) as (r' & Hr' & _); [apply In_job_keys; now exists (ks, c)|].
    apply find_req_In in Hr'. destruct Hr' as [Hr' Hkk].
    apply (i_keylt _ _ _ _ _ H) in Hr'. lia.
  - split; [|cbn; intros; congruence].
    intros ks c cl i Hj Hc Hl k' r Hk Hr. cbn in *. apply (HL ks c cl i Hj Hc Hl k' r Hk).
    apply find_filter_inv in Hr; [easy | apply H].
  - destruct (crashed st); [split; [easy | intros; congruence]|]. unfold accept.
    destruct (negb _); [|split; [easy | cbn; intros; congruence]]. split.
    + intros ks c cl i Hj Hc Hl k r Hk Hr. cbn in *.
      destruct (i_jcl _ _ _ _ _ H _ Hj) as (cl0 & Hc0 & _). cbn in Hc0.
      rewrite find_cl_app, Hc0 in Hc. injection Hc as ->.
      now apply (HL ks c cl i Hj Hc0 Hl k r Hk).
    + cbn. intros c cl i Hc Hl cl'. rewrite find_cl_app, Hc. now intros [= <-].
  - destruct (crashed st); [split; [easy | intros; congruence]|]. unfold pool_prune.
    assert (Hp := fun c cl => find_prune (clients st) c cl (jobs st) (i_cids _ _ _ _ _ H)).
    destruct (prune (clients st) (jobs st)) as [cls b]. cbn in *. split.
    + intros ks c cl i Hj Hc Hl k r Hk Hr. cbn in *. now apply (HL ks c cl i Hj (Hp c cl Hc) Hl k r Hk).
    + intros c cl i Hc Hl cl' Hc'. apply Hp in Hc'. congruence.
  - destruct (crashed st); split; try easy; cbn; intros; congruence.
  - destruct (crashed st); [split; [easy | intros; congruence]|].
    destruct (busy st c) eqn:Hb.
    { rewrite (dispatch_busy sub offset energy payload) by easy. cbn. split; [easy|].
      intros; congruence. }
    unfold dispatch_free_client.
    destruct (find_cl c (clients st)) as [fc|] eqn:Efc; [|split; [easy | cbn; intros; congruence]].
    destruct (negb (usable fc)); [split; [easy | cbn; intros; congruence]|].
    cbn [Nat.ltb Nat.leb].
    destruct (pick MLock i (clients st) fc (reqs st) (prl st)) as [r0|] eqn:Epk;
      [|split; [easy | cbn; intros; congruence]].
    assert (Hcc : cid fc = c) by now destruct (find_cl_In _ _ _ Efc).
    assert (Hfc := find_cl_cid _ _ _ Efc).
    destruct (pick_oldest _ _ _ _ _ _ _ (i_keys _ _ _ _ _ H) Epk) as (pre & post & H1 & H2 & H3 & H4).
    set (lk := opt_eqb (clast fc) (Some (rid r0))).
    assert (Hcl := fun c cl => assign_clast [rkey r0] [rkey r0] lk fc a st c cl Hfc).
    assert (Hrid := fun k r => assign_rid [rkey r0] [rkey r0] lk fc a st k r).
    split.
    + intros ks c' cl' i' Hj Hc' Hl' k r Hk Hr.
      destruct (Hcl _ _ Hc') as (cl0 & Hc0 & Hl0).
      destruct (Hrid _ _ Hr) as (r1 & Hr1 & Hid).
      assert (Hjj : In (ks, c') (jobs st) \/ (ks, c') = ([rkey r0], cid fc)).
      { unfold assign in Hj. destruct (dispatch_send _ _ a) as [[fc2 started] ok].
        destruct ok; cbn in Hj; [|now left]. apply in_app_iff in Hj. cbn in Hj.
        destruct Hj as [Hj|[Hj|[]]]; [now left | right; congruence]. }
      destruct Hjj as [Hjj|Hjj].
      * rewrite <- Hid. apply (HL ks c' cl0 i' Hjj Hc0 ltac:(congruence) k r1 Hk Hr1).
      * injection Hjj as -> ->. destruct Hk as [<-|[]].
        rewrite (In_find_req _ _ (i_keys _ _ _ _ _ H) H2) in Hr1. injection Hr1 as <-.
        rewrite Hfc in Hc0. injection Hc0 as <-.
        rewrite <- Hid. cbn in Hev. destruct Hev as [-> | ->]; cbn in H3.
        -- congruence.
        -- destruct H3 as [H3 _]. congruence.
    + intros c' cl' i' Hc' Hl' cl2 Hc2. destruct (Hcl _ _ Hc2) as (cl0 & Hc0 & Hl0). congruence.
  - destruct (crashed st); [split; [easy | intros; congruence]|]. unfold recv_job.
    destruct (job_of c (jobs st)) as [[ks c']|] eqn:Ej; [|split; [easy | intros; congruence]].
    destruct (find_cl c (clients st)) as [cl|] eqn:Ec; [|split; [easy | intros; congruence]].
    destruct (job_of_In _ _ _ Ej) as [Hj1 Hj2]. cbn in Hj2. subst c'.
    destruct a; cbn.
    + split.
      * intros ks' c' cl' i' Hj Hc' Hl' k r Hk Hr. cbn in *.
        apply drop_job_In in Hj. destruct Hj as [Hj Hne]. cbn in Hne.
        rewrite find_cl_upd in Hc' by easy. apply Nat.eqb_neq in Hne. rewrite Hne in Hc'.
        apply rid_upds in Hr; try easy. destruct Hr as (r1 & Hr1 & Hid). rewrite <- Hid.
        now apply (HL ks' c' cl' i' Hj Hc' Hl' k r1).
      * intros c' cl' i' Hc' Hl' cl2. rewrite find_cl_upd by easy.
        destruct (c' =? c); [|congruence]. rewrite Hc'. cbn. intros [= <-]. easy.
    + split; [exact HL | intros; congruence].
    + split.
      * intros ks' c' cl' i' Hj Hc' Hl' k r Hk Hr. cbn in *.
        apply drop_job_In in Hj. destruct Hj as [Hj Hne]. cbn in Hne.
        rewrite find_cl_upd in Hc' by easy. apply Nat.eqb_neq in Hne. rewrite Hne in Hc'.
        apply rid_deliver in Hr; try easy. destruct Hr as (r1 & Hr1 & Hid). rewrite <- Hid.
        now apply (HL ks' c' cl' i' Hj Hc' Hl' k r1).
      * intros c' cl' i' Hc' Hl' cl2. rewrite find_cl_upd by easy.
        destruct (Nat.eqb_spec c' c) as [->|Hne]; [|congruence]. rewrite Hc'. cbn. intros [= <-]. cbn.
        unfold last_id.
        assert (Hne := i_jne _ _ _ _ _ H _ Hj1). cbn in Hne.
        assert (Hlast : In (last ks 0) ks).
        { destruct (exists_last Hne) as (l & x & ->). rewrite last_last. apply in_app_iff.
          right. now left. }
        destruct (i_jrun _ _ _ _ _ H (last ks 0)) as (r & Hr & _).
        { apply In_job_keys. now exists (ks, c). }
        rewrite Hr. f_equal. now apply (HL ks c cl' i' Hj1 Hc' Hl' (last ks 0) r).
  - destruct (crashed st); [split; [easy | intros; congruence]|]. unfold timeout_job.
    destruct (job_of c (jobs st)) as [[ks c']|] eqn:Ej; [|split; [easy | intros; congruence]].
    destruct (find_req (hd 0 ks) (reqs st)) as [r0|]; [|split; [easy | intros; congruence]].
    destruct (rstart r0); [|split; [easy | intros; congruence]]. cbn. split.
    + intros ks' c'' cl' i' Hj Hc' Hl' k r Hk Hr. cbn in *.
      apply drop_job_In in Hj. destruct Hj as [Hj Hne]. cbn in Hne.
      rewrite find_cl_upd in Hc' by easy. apply Nat.eqb_neq in Hne. rewrite Hne in Hc'.
      apply rid_upds in Hr; try easy. destruct Hr as (r1 & Hr1 & Hid). rewrite <- Hid.
      now apply (HL ks' c'' cl' i' Hj Hc' Hl' k r1).
    + intros c'' cl' i' Hc' Hl' cl2. rewrite find_cl_upd by easy.
      destruct (c'' =? c); [|congruence]. rewrite Hc'. cbn. intros [= <-]. easy.
  - destruct (crashed st); split; try easy; cbn; intros; congruence.
Qed.

(** A client that left the pool never comes back under the same identity. *)
Lemma client_gone_step bs m st e c :
  Inv st -> c < nextc st -> find_cl c (clients st) = None ->
  find_cl c (clients (step bs m st e)) = None /\ c < nextc (step bs m st e).
Proof.
  intros H Hc Hn.
  assert (Hupd : forall c' f l, (forall x, cid x = c' -> cid (f x) = cid x) ->
            find_cl c l = None -> find_cl c (upd_cl c' f l) = None).
  { intros c' f l Hf Hl. rewrite find_cl_upd by easy. destruct (c =? c'); now rewrite Hl. }
  assert (Hasg : forall ks sent lock fc a,
     find_cl c (clients (fst (assign offset ks sent lock fc a st))) = None /\
     c < nextc (fst (assign offset ks sent lock fc a st))).
  { intros ks sent lock fc a. unfold assign.
    set (fc1 := mkCl (cid fc) (cstat fc) (clast fc) lock (csent fc)).
    destruct (dispatch_send fc1 sent a) as [[fc2 started] ok] eqn:Ed.
    assert (Hci : cid fc2 = cid fc).
    { pose proof (dispatch_send_cid fc1 sent a) as Hq. rewrite Ed in Hq. exact Hq. }
    destruct ok; cbn; split; try easy.
    - apply Hupd; [intros x Hx; now rewrite Hx | easy].
    - apply Hupd; [easy|]. apply Hupd; [intros x Hx; now rewrite Hx | easy]. }
  destruct e as [id|k|p| | |i c' a|c' a|c'|n]; cbn [SockModel.step];
    try (destruct (crashed st); [easy|]); try easy.
  - unfold accept. destruct (negb _); cbn; [|split; [easy|lia]].
    split; [|lia]. rewrite find_cl_app, Hn. unfold find_cl; cbn.
    destruct (Nat.eqb_spec (nextc st) c); [lia|easy].
  - unfold pool_prune. assert (Hp := fun cl => find_prune (clients st) c cl (jobs st) (i_cids _ _ _ _ _ H)).
    destruct (prune (clients st) (jobs st)) as [cls b]. cbn in *. split; [|easy].
    destruct (find_cl c cls) as [cl|] eqn:Ecl; [|easy]. specialize (Hp cl eq_refl). congruence.
  - unfold dispatch_free_client. destruct (find_cl c' (clients st)) as [fc|]; [|easy].
    destruct (negb (usable fc)); [easy|]. destruct (1 <? bs).
    + destruct (prl st); [easy | apply Hasg].
    + destruct (pick _ _ _ _ _ _); [apply Hasg | easy].
  - unfold recv_job. destruct (job_of c' (jobs st)) as [[ks c'']|]; [|easy].
    destruct (find_cl c' (clients st)); [|easy]. destruct a; cbn; split; try easy; now apply Hupd.
  - unfold timeout_job. destruct (job_of c' (jobs st)) as [[ks c'']|]; [|easy].
    destruct (find_req _ _) as [r|]; [|easy]. destruct (rstart r); [|easy]. cbn.
    split; [now apply Hupd | easy].
Qed.

Lemma client_gone bs m es : forall st c,
  Inv st -> c < nextc st -> find_cl c (clients st) = None ->
  find_cl c (clients (run bs m es st)) = None.
Proof.
  induction es as [|e es IH]; intros st c H Hc Hn; [easy|]. cbn.
  destruct (client_gone_step bs m st e c H Hc Hn) as [H1 H2].
  apply IH; [now apply inv_step | easy | easy].
Qed.

Lemma locked_run es : forall st,
  Inv st -> locked_jobs st -> Forall lock_event es ->
  locked_jobs (run 1 MLock es st) /\
  (forall c cl i, find_cl c (clients st) = Some cl -> clast cl = Some i ->
     forall cl', find_cl c (clients (run 1 MLock es st)) = Some cl' -> clast cl' = Some i).
Proof.
  induction es as [|e es IH]; intros st H HL Hall; [split; [easy | cbn; congruence]|].
  inversion Hall as [|x l H1 H2 Hx]; subst. cbn.
  destruct (locked_step st e H HL H1) as [HL' Hc'].
  assert (Hinv := inv_step sub offset energy payload 1 MLock st e H).
  destruct (IH _ Hinv HL' H2) as [HL2 Hc2]. split; [easy|].
  intros c cl i Hc Hl cl' Hfin.
  destruct (find_cl c (clients (step 1 MLock st e))) as [cl1|] eqn:E1.
  - apply (Hc2 c cl1 i E1); [|easy]. now apply (Hc' c cl i Hc Hl).
  - exfalso.
    destruct (find_cl_In _ _ _ Hc) as [Hin Hcid].
    assert (Hlt : c < nextc st) by (rewrite <- Hcid; now apply (i_cidlt _ _ _ _ _ H)).
    assert (Hlt2 : nextc st <= nextc (step 1 MLock st e)).
    { clear. destruct e as [id|k|p| | |i c' a|c' a|c'|n]; cbn [SockModel.step];
        try (destruct (crashed st); [easy|]); try easy.
      - unfold accept. destruct (negb _); cbn; lia.
      - unfold pool_prune. now destruct (prune (clients st) (jobs st)).
      - unfold dispatch_free_client. destruct (find_cl c' (clients st)) as [fc|]; [|easy].
        destruct (negb (usable fc)); [easy|]. cbn [Nat.ltb Nat.leb].
        destruct (pick _ _ _ _ _ _); [|easy]. unfold assign.
        destruct (dispatch_send _ _ _) as [[fc2 started] ok]. now destruct ok.
      - unfold recv_job. destruct (job_of c' (jobs st)) as [[ks c'']|]; [|easy].
        destruct (find_cl c' (clients st)); [|easy]. now destruct a.
      - unfold timeout_job. destruct (job_of c' (jobs st)) as [[ks c'']|]; [|easy].
        destruct (find_req _ _) as [r|]; [|easy]. now destruct (rstart r). }
    change (find_cl c (clients (run 1 MLock es (step 1 MLock st e))) = Some cl') in Hfin.
    rewrite (client_gone 1 MLock es _ c Hinv) in Hfin; [easy | lia | easy].
Qed.

End Thms.
