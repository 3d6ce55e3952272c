(** * The legacy mode: two ways to hang, and what does work *)
From Coq Require Import List Arith Lia Bool.
From Verif Require Import SockModel SockLegacyModel SockSpec SockProofs SockThms.
Import ListNotations.

Section LP.
Context {E P : Type}.
Variable sub : E -> E -> E.
Variable offset : E.
Variable energy : nat -> E.
Variable payload : nat -> P.
Notation state := (state E P).
Notation request := (request E P).
Implicit Types st : state.
Notation lstep := (lstep sub offset energy payload).
Notation lrun := (lrun sub offset energy payload).

(** ** Livelock *)

(** None of the listed clients can be used. *)
Definition all_unusable (l : list nat) st : Prop :=
  forall c cl, In c l -> find_cl c (clients st) = Some cl -> usable cl = false.

Lemma l_dispatch_unusable m i c st l :
  all_unusable l st -> In c l -> l_dispatch_free_client offset m i c st = (st, false).
Proof.
  intros H Hc. unfold l_dispatch_free_client.
  destruct (find_cl c (clients st)) as [cl|] eqn:Ec; [|easy].
  now rewrite (H c cl Hc Ec).
Qed.

Lemma l_inner_stuck m i l st : all_unusable l st -> forall todo freec,
  (forall c, In c todo -> In c l) -> l_inner offset m i todo freec st = (st, freec).
Proof.
  intros H. induction todo as [|c todo IH]; intros freec Ht; cbn; [easy|].
  rewrite (l_dispatch_unusable m i c st l H (Ht c (or_introl eq_refl))).
  destruct (prl st); [easy|]. apply IH. intros x Hx. apply Ht. now right.
Qed.

Lemma l_outer_stuck m is freec st :
  all_unusable freec st -> l_outer offset m is freec st = (st, freec).
Proof.
  intros H. induction is as [|i is IH]; cbn; [easy|].
  rewrite (l_inner_stuck m i freec st H freec freec (fun c Hc => Hc)). exact IH.
Qed.

Lemma l_loop_stuck m : m <> MLock -> forall fuel freec st,
  freec <> [] -> all_unusable freec st -> prl st <> [] -> queued_keys (reqs st) <> [] ->
  l_loop offset fuel m freec st = None.
Proof.
  intros Hm. induction fuel as [|fuel IH]; intros freec st Hf Hu Hp Hq; cbn [l_loop].
  - destruct freec; [easy|]. now destruct (prl st).
  - destruct freec as [|c0 freec]; [easy|]. destruct (prl st) as [|k pl] eqn:Ep; [easy|].
    rewrite (l_outer_stuck m (match_seq m) (c0 :: freec) st Hu).
    destruct m; try easy; apply IH; easy.
Qed.

(** ** The lost request *)
Definition orphan (k : nat) st : Prop :=
  (exists r, find_req k (reqs st) = Some r /\ rst r = Running) /\
  ~ In k (prl st) /\ (forall j, In j (jobs st) -> ~ In k (fst j)) /\
  NoDup (map rkey (reqs st)) /\ k < nextk st.

Lemma queued_not_running k (l : list request) r :
  NoDup (map rkey l) -> find_req k l = Some r -> rst r = Running -> ~ In k (queued_keys l).
Proof.
  intros Hn Hf Hs Hi. apply queued_keys_spec in Hi; [|easy].
  destruct Hi as (r' & H1 & H2). congruence.
Qed.

Lemma orphan_upds k ks f (l : list request) :
  (forall r, rkey (f r) = rkey r) -> ~ In k ks ->
  find_req k (upd_reqs ks f l) = find_req k l.
Proof.
  intros Hf Hn. rewrite find_req_upds by easy. apply existsb_eqb_not in Hn. now rewrite Hn.
Qed.

Lemma orphan_step m k st e :
  (forall r, In r (reqs st) -> rkey r < nextk st) ->
  orphan k st -> orphan k (lstep m st e) /\
  (forall r, In r (reqs (lstep m st e)) -> rkey r < nextk (lstep m st e)).
Proof.
  intros Hlt ((r & Hr & Hs) & Hp & Hj & Hn & Hk).
  assert (Hkeys : forall ks (f : request -> request), (forall r, rkey (f r) = rkey r) ->
            forall x, In x (upd_reqs ks f (reqs st)) -> rkey x < nextk st)
    by (intros; eapply map_key_lt; eauto).
  destruct e as [id|k'|p| | |i c|c w|c late]; cbn [SockLegacyModel.lstep].
  - unfold queue, orphan; cbn. split.
    + split; [exists r; now rewrite find_req_app, Hr|]. repeat split; try easy; [|lia].
      rewrite map_app, NoDup_app_iff'. cbn. repeat split; [easy | repeat constructor; easy |].
      intros x Hx [<-|[]]. apply in_map_iff in Hx. destruct Hx as (y & Hy & Hi).
      apply Hlt in Hi. lia.
    + intros x Hx. apply in_app_iff in Hx. cbn in Hx.
      destruct Hx as [Hx|[<-|[]]]; [apply Hlt in Hx|]; cbn; lia.
  - unfold release, orphan; cbn. split.
    + split.
      * exists r. split; [|easy]. apply find_req_filter; [easy | easy |].
        rewrite Hs. cbn. now rewrite andb_false_r.
      * repeat split; try easy. now apply NoDup_map_filter.
    + intros x Hx. apply filter_In in Hx. now apply Hlt.
  - unfold accept. destruct (negb _); split; try easy; repeat split; try easy; now exists r.
  - unfold l_prune, orphan; cbn. split.
    + split.
      * exists r. rewrite orphan_upds; [easy | easy |]. intros Hi. apply in_concat in Hi.
        destruct Hi as (l & Hl & Hkl). apply in_map_iff in Hl. destruct Hl as (j & <- & Hjj).
        apply filter_In in Hjj. now apply (Hj j).
      * repeat split; try easy.
        -- intros j Hjj. apply filter_In in Hjj. now apply Hj.
        -- now rewrite keys_upds.
    + now apply Hkeys.
  - split; [|easy]. unfold orphan; cbn. split; [now exists r|]. repeat split; try easy.
    now apply (queued_not_running k (reqs st) r).
  - unfold l_dispatch_free_client.
    assert (Hself : orphan k st) by (repeat split; try easy; now exists r).
    destruct (find_cl c (clients st)) as [fc|]; [|now split].
    destruct (negb (usable fc)); [now split|].
    destruct (pick m i (clients st) fc (reqs st) (prl st)) as [r0|] eqn:Epk; [|now split].
    destruct (pick_spec _ _ _ _ _ _ _ Epk) as (P1 & P2 & _).
    assert (Hne : ~ In k [rkey r0]) by (intros [He|[]]; subst; now apply Hp).
    cbn. split; [|now apply Hkeys]. unfold orphan; cbn. split.
    + exists r. now rewrite orphan_upds.
    + repeat split; try easy.
      * intros Hi. apply remove1_In in Hi. now apply Hp.
      * intros j Hjj. apply in_app_iff in Hjj. cbn in Hjj.
        destruct Hjj as [Hjj|[<-|[]]]; [now apply Hj | exact Hne].
      * now rewrite keys_upds.
  - unfold l_worker.
    assert (Hself : orphan k st) by (repeat split; try easy; now exists r).
    destruct (job_of c (jobs st)) as [[ks c']|] eqn:Ej; [|now split].
    destruct (job_of_In _ _ _ Ej) as [Hj1 _].
    assert (Hne := Hj _ Hj1). cbn in Hne.
    destruct ks as [|k0 [|k1 ks]]; try (now split).
    destruct w; cbn; (split; [|now apply Hkeys]); unfold orphan; cbn;
      (split; [exists r; now rewrite orphan_upds | repeat split; try easy; now rewrite keys_upds]).
  - unfold l_check.
    assert (Hself : orphan k st) by (repeat split; try easy; now exists r).
    destruct (job_of c (jobs st)) as [[ks c']|] eqn:Ej; [|now split].
    destruct ks as [|k0 ks]; [now split|].
    destruct (find_req k0 (reqs st)) as [r0|]; [|now split].
    destruct (rstatus_eqb (rst r0) Done).
    + split; [|easy]. unfold orphan; cbn. split; [now exists r|]. repeat split; try easy.
      intros j Hjj. apply drop_job_In in Hjj. now apply Hj.
    + destruct (rstart r0 && late); [|now split]. split; [|easy].
      unfold orphan; cbn. split; [now exists r|]. repeat split; try easy.
      intros j Hjj. apply drop_job_In in Hjj. now apply Hj.
Qed.

Lemma orphan_forever m es : forall k st,
  (forall r, In r (reqs st) -> rkey r < nextk st) -> orphan k st -> orphan k (lrun m es st).
Proof.
  induction es as [|e es IH]; intros k st Hlt H; [easy|]. cbn.
  destruct (orphan_step m k st e Hlt H) as [H1 H2]. now apply IH.
Qed.

(** ** What works: a client lost by its worker is requeued by the next prune *)
Lemma l_prune_requeues st k c :
  In ([k], c) (jobs st) -> (exists cl, In cl (clients st) /\ cid cl = c /\ has (cstat cl) stUp = false) ->
  (exists r, find_req k (reqs st) = Some r) ->
  (exists r, find_req k (reqs (l_prune st)) = Some r /\ rst r = Queued) /\
  (forall j, In j (jobs (l_prune st)) -> snd j <> c).
Proof.
  intros Hj (cl & Hcl & Hc & Hd) (r & Hr).
  assert (Hdead : In c (dead_ids st)).
  { unfold dead_ids. rewrite <- Hc. apply in_map. apply filter_In. split; [easy|]. now rewrite Hd. }
  split.
  - exists (mark_requeued r). split; [|easy]. unfold l_prune; cbn.
    rewrite find_req_upds by easy.
    match goal with |- context [existsb (Nat.eqb k) ?l] => assert (Hi : In k l) end.
    { apply in_concat. exists [k]. split; [|now left]. apply in_map_iff. exists ([k], c).
      split; [easy|]. apply filter_In. split; [easy|]. cbn. now apply existsb_eqb_In. }
    apply existsb_eqb_In in Hi. now rewrite Hi, Hr.
  - intros j Hjj He. cbn in Hjj. apply filter_In in Hjj. destruct Hjj as [_ Hb].
    apply negb_true_iff, existsb_eqb_not in Hb. apply Hb. now rewrite He.
Qed.

End LP.
