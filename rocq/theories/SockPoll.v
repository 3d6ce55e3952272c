(** * A polling pass is a sequence of events, it ends, and it makes progress *)
From Coq Require Import List Arith Lia Bool.
From Verif Require Import SockModel SockSpec SockProofs SockThms.
Import ListNotations.

Section Poll.
Context {E P : Type}.
Variable sub : E -> E -> E.
Variable offset : E.
Variable energy : nat -> E.
Variable payload : nat -> P.
Notation state := (state E P).
Notation request := (request E P).
Notation step := (step sub offset energy payload).
Notation run := (run sub offset energy payload).
Notation Inv := (@Inv E P sub offset energy payload).
Notation dispatch_free_client := (dispatch_free_client offset).
Implicit Types st : state.

(** The dispatches made by the code follow the configured policy. *)
Definition policy_event (m : mmode) (e : event) : Prop :=
  match e with
  | EvDispatch i _ _ => In i (match_seq m)
  | EvQueue _ | EvRelease _ => False
  | _ => True
  end.

Definition steps (bs : nat) (m : mmode) (st st' : state) : Prop :=
  exists es, Forall (policy_event m) es /\ st' = run bs m es st.

Lemma steps_refl bs m st : steps bs m st st.
Proof. exists []. split; [constructor | easy]. Qed.

Lemma steps_trans bs m a b c : steps bs m a b -> steps bs m b c -> steps bs m a c.
Proof.
  intros (e1 & H1 & ->) (e2 & H2 & ->). exists (e1 ++ e2). split.
  - apply Forall_app. now split.
  - unfold SockModel.run. now rewrite fold_left_app.
Qed.

Lemma steps_one bs m st e : policy_event m e -> steps bs m st (step bs m st e).
Proof. intros H. exists [e]. split; [repeat constructor; easy | easy]. Qed.

Lemma steps_inv bs m st st' : Inv st -> steps bs m st st' -> Inv st'.
Proof. intros H (es & _ & ->). now apply inv_run. Qed.

Lemma dispatch_crashed bs m i c a st :
  crashed (fst (dispatch_free_client bs m i c a st)) = crashed st.
Proof.
  unfold SockModel.dispatch_free_client. destruct (find_cl c (clients st)) as [fc|]; [|easy].
  destruct (negb (usable fc)); [easy|].
  assert (Ha : forall ks sent lk, crashed (fst (assign offset ks sent lk fc a st)) = crashed st).
  { intros. unfold assign. destruct (dispatch_send _ _ _) as [[x y] ok]. now destruct ok. }
  destruct (1 <? bs).
  - destruct (prl st); [easy | apply Ha].
  - destruct (pick _ _ _ _ _ _); [apply Ha | easy].
Qed.

Lemma steps_dispatch bs m i c a st :
  In i (match_seq m) -> crashed st = false ->
  steps bs m st (fst (dispatch_free_client bs m i c a st)).
Proof.
  intros Hi Hc. replace (fst (dispatch_free_client bs m i c a st))
    with (step bs m st (EvDispatch i c a)).
  - now apply steps_one.
  - cbn. now rewrite Hc.
Qed.

Lemma steps_inner bs m i ans : In i (match_seq m) -> forall todo freec st,
  crashed st = false ->
  steps bs m st (fst (fst (inner_loop offset bs m i ans todo freec st))) /\
  crashed (fst (fst (inner_loop offset bs m i ans todo freec st))) = false.
Proof.
  intros Hi. induction todo as [|fc todo IH]; intros freec st Hc; cbn.
  - split; [apply steps_refl | easy].
  - pose proof (steps_dispatch bs m i fc (ans fc) st Hi Hc) as Hs.
    pose proof (dispatch_crashed bs m i fc (ans fc) st) as Hcr.
    destruct (dispatch_free_client bs m i fc (ans fc) st) as [st' ok]. cbn in Hs, Hcr.
    rewrite Hc in Hcr. destruct (prl st') as [|k pl]; [now split|].
    specialize (IH (if ok then remove1 fc freec else freec) st' Hcr).
    destruct (inner_loop _ _ _ _ _ todo _ st') as [[st2 fr2] ok2]. cbn in *.
    destruct IH as [H1 H2]. split; [|easy]. eapply steps_trans; eassumption.
Qed.

Lemma steps_outer bs m ans : forall is freec st, (forall i, In i is -> In i (match_seq m)) ->
  crashed st = false ->
  steps bs m st (fst (fst (outer_loop offset bs m is ans freec st))) /\
  crashed (fst (fst (outer_loop offset bs m is ans freec st))) = false.
Proof.
  induction is as [|i is IH]; intros freec st His Hc; cbn.
  - split; [apply steps_refl | easy].
  - destruct (steps_inner bs m i ans (His i (or_introl eq_refl)) freec freec st Hc) as [H1 H2].
    destruct (inner_loop _ _ _ _ _ freec freec st) as [[st1 fr1] ok1]. cbn in H1, H2.
    destruct (IH fr1 st1 (fun j Hj => His j (or_intror Hj)) H2) as [H3 H4].
    destruct (outer_loop _ _ _ _ _ fr1 st1) as [[st2 fr2] ok2]. cbn in *.
    split; [|easy]. eapply steps_trans; eassumption.
Qed.

Lemma steps_refill bs m st : crashed st = false -> steps bs m st (refill st).
Proof.
  intros H. replace (refill st) with (step bs m st EvRefill) by (cbn; now rewrite H).
  now apply steps_one.
Qed.

Lemma steps_loop bs m ans : forall fuel freec st st' fr,
  crashed st = false -> dispatch_loop offset fuel bs m ans freec st = Some (st', fr) ->
  steps bs m st st' /\ crashed st' = false.
Proof.
  induction fuel as [|fuel IH]; intros freec st st' fr Hc; cbn [dispatch_loop].
  - destruct freec; [|destruct (prl st)]; intros [= <- <-]; split; try easy; apply steps_refl.
  - destruct freec as [|c0 freec].
    { intros [= <- <-]; split; try easy; apply steps_refl. }
    destruct (prl st) as [|k pl] eqn:Epl.
    { intros [= <- <-]; split; try easy; apply steps_refl. }
    destruct (steps_outer bs m ans (match_seq m) (c0 :: freec) st (fun i H => H) Hc) as [H1 H2].
    destruct (outer_loop _ _ _ _ _ _ st) as [[st1 fr1] ok]. cbn in H1, H2.
    assert (H3 : steps bs m st (match fr1 with [] => st1 | _ => refill st1 end)).
    { destruct fr1; [easy|]. eapply steps_trans; [eassumption | now apply steps_refill]. }
    assert (H4 : crashed (match fr1 with [] => st1 | _ => refill st1 end) = false)
      by (now destruct fr1).
    destruct m.
    + destruct ok.
      * intros H. apply IH in H; [|easy]. destruct H. split; [|easy].
        eapply steps_trans; eassumption.
      * now intros [= <- <-].
    + destruct ok.
      * intros H. apply IH in H; [|easy]. destruct H. split; [|easy].
        eapply steps_trans; eassumption.
      * now intros [= <- <-].
    + now intros [= <- <-].
Qed.

Lemma steps_collect_ready bs m rd js : forall st,
  steps bs m st (collect_ready sub energy payload rd js st).
Proof.
  unfold collect_ready. induction js as [|j js IH]; intros st; cbn; [apply steps_refl|].
  eapply steps_trans; [|apply IH].
  destruct (crashed st) eqn:Ec; [apply steps_refl|].
  destruct (rd_ready rd (snd j)) as [a|]; [|apply steps_refl].
  replace (recv_job sub energy payload (snd j) a st) with (step bs m st (EvRecv (snd j) a))
    by (cbn; now rewrite Ec). now apply steps_one.
Qed.

Lemma steps_collect_late bs m rd js : forall st, steps bs m st (collect_late rd js st).
Proof.
  unfold collect_late. induction js as [|j js IH]; intros st; cbn; [apply steps_refl|].
  eapply steps_trans; [|apply IH].
  destruct (crashed st) eqn:Ec; [apply steps_refl|].
  destruct (rd_late rd (snd j)); [|apply steps_refl].
  replace (timeout_job (snd j) st) with (step bs m st (EvTimeout (snd j)))
    by (cbn; now rewrite Ec). now apply steps_one.
Qed.

Lemma steps_collect bs m rds : forall st, steps bs m st (collect sub energy payload rds st).
Proof.
  induction rds as [|rd rds IH]; intros st; cbn; [apply steps_refl|].
  destruct (jobs st); [apply steps_refl|]. destruct (crashed st); [apply steps_refl|].
  eapply steps_trans; [|apply IH]. unfold collect_round.
  eapply steps_trans; [apply steps_collect_ready | apply steps_collect_late].
Qed.

Lemma steps_tick bs m n st : crashed st = false -> steps bs m st (set_piter n st).
Proof.
  intros H. replace (set_piter n st) with (step bs m st (EvTick n)) by (cbn; now rewrite H).
  now apply steps_one.
Qed.

Lemma steps_accepts bs m news : forall st, crashed st = false ->
  steps bs m st (fold_left (fun s p => accept p s) news st) /\
  crashed (fold_left (fun s p => accept p s) news st) = false.
Proof.
  induction news as [|p news IH]; intros st Hc; cbn; [split; [apply steps_refl | easy]|].
  assert (Hc' : crashed (accept p st) = false) by (unfold accept; now destruct (negb _)).
  destruct (IH (accept p st) Hc') as [H1 H2]. split; [|easy].
  eapply steps_trans; [|exact H1].
  replace (accept p st) with (step bs m st (EvAccept p)) by (cbn; now rewrite Hc).
  now apply steps_one.
Qed.

Theorem poll_steps fuel bs m news ans rds st st' :
  poll sub offset energy payload fuel bs m news ans rds st = Some st' -> steps bs m st st'.
Proof.
  unfold poll. destruct (crashed st) eqn:Ec; [intros [= <-]; apply steps_refl|].
  set (st1 := if needs_update st then _ else st).
  assert (H1 : steps bs m st st1).
  { unfold st1. destruct (needs_update st); [|apply steps_refl].
    unfold pool_update. eapply steps_trans; [apply (steps_tick bs m 0 st Ec)|].
    set (sp := pool_prune (set_piter 0 st)).
    assert (Hp : steps bs m (set_piter 0 st) sp).
    { unfold sp. replace (pool_prune (set_piter 0 st)) with (step bs m (set_piter 0 st) EvPrune).
      - now apply steps_one.
      - cbn [SockModel.step]. change (crashed (set_piter 0 st)) with (crashed st). now rewrite Ec. }
    destruct (crashed sp) eqn:Es; [easy|].
    eapply steps_trans; [exact Hp|]. now apply steps_accepts. }
  destruct (crashed st1) eqn:Ec1; [now intros [= <-]|].
  set (st2 := set_piter (S (piter st1)) st1).
  assert (H2 : steps bs m st st2) by (eapply steps_trans; [exact H1 | now apply steps_tick]).
  assert (Ec2 : crashed st2 = false) by exact Ec1.
  assert (Hmain : forall o, (match dispatch_phase offset fuel bs m ans st2 with
      | None => None
      | Some (st3, _) => match jobs st3 with [] => Some (flag_dead st3)
                         | _ => Some (collect sub energy payload rds st3) end end) = Some o ->
      steps bs m st o).
  { intros o. unfold dispatch_phase.
    match goal with |- context [if ?b then refill st2 else st2] => set (st2' := if b then refill st2 else st2) end.
    assert (H3 : steps bs m st2 st2' /\ crashed st2' = false).
    { unfold st2'. match goal with |- context [if ?b then _ else _] => destruct b end.
      - split; [now apply steps_refill | easy].
      - split; [apply steps_refl | easy]. }
    destruct H3 as [H3 H3c].
    destruct (dispatch_loop _ _ _ _ _ _ st2') as [[st3 fr]|] eqn:Ed; [|easy].
    destruct (steps_loop _ _ _ _ _ _ _ _ H3c Ed) as [H4 H4c].
    assert (H5 : steps bs m st st3).
    { eapply steps_trans; [exact H2|]. eapply steps_trans; [exact H3 | exact H4]. }
    destruct (jobs st3) eqn:Ej.
    - intros [= <-]. eapply steps_trans; [exact H5|]. unfold flag_dead.
      destruct (existsb _ _); [|apply steps_refl]. exact (steps_tick bs m 10 st3 H4c).
    - intros [= <-]. eapply steps_trans; [exact H5 | apply steps_collect]. }
  destruct (reqs st2); [destruct (jobs st2)|]; try apply Hmain. now intros [= <-].
Qed.

(** ** Termination of the dispatch loop *)
Lemma remove1_length k l : In k l -> S (length (remove1 k l)) = length l.
Proof.
  induction l as [|x l IH]; cbn; [easy|].
  destruct (Nat.eqb_spec x k) as [->|Hn]; [easy|].
  intros [H|H]; [congruence|]. cbn. now rewrite IH.
Qed.

Lemma inner_length bs m i ans : forall todo freec (st : state),
  NoDup todo -> NoDup freec -> (forall c, In c todo -> In c freec) ->
  let '(st', fr, ok) := inner_loop offset bs m i ans todo freec st in
  NoDup fr /\ (forall c, In c fr -> In c freec) /\
  (if ok then length fr < length freec else fr = freec).
Proof.
  induction todo as [|fc todo IH]; intros freec st Hn1 Hn2 Hi; cbn.
  - split; [easy|]. split; auto.
  - apply NoDup_cons_iff in Hn1. destruct Hn1 as [Hn1 Hn1'].
    destruct (dispatch_free_client bs m i fc (ans fc) st) as [st' ok].
    set (fr' := if ok then remove1 fc freec else freec).
    assert (Hfr : NoDup fr' /\ (forall c, In c fr' -> In c freec) /\
                  (if ok then length fr' < length freec else fr' = freec) /\
                  (forall c, In c todo -> In c fr')).
    { unfold fr'. destruct ok.
      - split; [now apply remove1_NoDup|]. split; [intros c; apply remove1_In|].
        assert (Hl := remove1_length fc freec (Hi fc (or_introl eq_refl))). split; [lia|].
        intros c Hc. apply remove1_keep; [apply Hi; now right|]. intros ->. now apply Hn1.
      - split; [easy|]. split; [auto|]. split; [easy|]. intros c Hc. apply Hi. now right. }
    destruct Hfr as (F1 & F2 & F3 & F4). clearbody fr'.
    destruct (prl st') as [|k pl].
    + split; [easy|]. now split.
    + specialize (IH fr' st' Hn1' F1 F4).
      destruct (inner_loop _ _ _ _ _ todo fr' st') as [[st2 fr2] ok2].
      destruct IH as (G1 & G2 & G3). split; [easy|]. split; [auto|].
      destruct ok, ok2; cbn; subst; try lia; try easy; congruence.
Qed.

Lemma outer_length bs m ans : forall is freec (st : state),
  NoDup freec ->
  let '(st', fr, ok) := outer_loop offset bs m is ans freec st in
  NoDup fr /\ (forall c, In c fr -> In c freec) /\
  (if ok then length fr < length freec else fr = freec).
Proof.
  induction is as [|i is IH]; intros freec st Hn; cbn.
  - split; [easy|]. split; auto.
  - pose proof (inner_length bs m i ans freec freec st Hn Hn (fun c H => H)) as H1.
    destruct (inner_loop _ _ _ _ _ freec freec st) as [[st1 fr1] ok1].
    destruct H1 as (A1 & A2 & A3).
    specialize (IH fr1 st1 A1).
    destruct (outer_loop _ _ _ _ _ fr1 st1) as [[st2 fr2] ok2].
    destruct IH as (B1 & B2 & B3). split; [easy|]. split; [auto|].
    destruct ok1, ok2; cbn; subst; try lia; try easy; congruence.
Qed.

Lemma loop_terminates bs m ans : forall fuel freec (st : state),
  NoDup freec -> length freec <= fuel -> dispatch_loop offset fuel bs m ans freec st <> None.
Proof.
  induction fuel as [|fuel IH]; intros freec st Hn Hl; cbn [dispatch_loop].
  - destruct freec; cbn in Hl; [easy|lia].
  - destruct freec as [|c0 freec]; [easy|]. destruct (prl st); [easy|].
    pose proof (outer_length bs m ans (match_seq m) (c0 :: freec) st Hn) as Ho.
    destruct (outer_loop _ _ _ _ _ _ st) as [[st1 fr1] ok]. destruct Ho as (O1 & O2 & O3).
    destruct m; try easy; (destruct ok; [|easy]); apply IH; try easy; lia.
Qed.

Lemma NoDup_filter' {A} (p : A -> bool) l : NoDup l -> NoDup (filter p l).
Proof.
  induction 1 as [|x l Hx Hl IH]; cbn; [constructor|].
  destruct (p x); [|easy]. constructor; [|easy]. intros H. apply filter_In in H. now apply Hx.
Qed.

Theorem dispatch_phase_ends bs m ans st :
  Inv st -> exists r, dispatch_phase offset (length (clients st)) bs m ans st = Some r.
Proof.
  intros H. unfold dispatch_phase.
  match goal with |- context [if ?b then refill st else st] => set (st1 := if b then refill st else st) end.
  destruct (dispatch_loop offset (length (clients st)) bs m ans (free_clients st) st1) as [r|] eqn:Ed;
    [eauto|].
  exfalso. revert Ed. apply loop_terminates.
  - unfold free_clients. apply NoDup_filter'. apply H.
  - unfold free_clients. rewrite <- (map_length cid (clients st)).
    generalize (map cid (clients st)). intros l.
    induction l as [|x l IH]; cbn; [lia|]. destruct (negb _); cbn; lia.
Qed.

(** ** Progress *)

(** During the pass a client that was usable has been found broken. *)
Definition broke (st st' : state) : Prop :=
  exists c cl cl', find_cl c (clients st) = Some cl /\ usable cl = true /\
                   find_cl c (clients st') = Some cl' /\ cstat cl' = 0.

(** A usable client has not been touched. *)
Definition untouched (st st' : state) : Prop :=
  (forall c cl, find_cl c (clients st') = Some cl -> usable cl = true ->
                find_cl c (clients st) = Some cl) /\
  (forall c cl, find_cl c (clients st) = Some cl -> cstat cl = 0 ->
                find_cl c (clients st') = Some cl) /\
  map cid (clients st') = map cid (clients st).

Lemma untouched_refl st : untouched st st.
Proof. split; [easy|]. split; easy. Qed.

Lemma untouched_trans a b c : untouched a b -> untouched b c -> untouched a c.
Proof.
  intros (H1 & H2 & H3) (G1 & G2 & G3). split; [|split].
  - intros x cl Hx Hu. apply H1; [|easy]. now apply G1.
  - intros x cl Hx Hu. apply G2; [|easy]. now apply H2.
  - congruence.
Qed.

Lemma broke_later a b c : broke a b -> untouched b c -> broke a c.
Proof.
  intros (x & cl & cl' & H1 & H2 & H3 & H4) (_ & G2 & _).
  exists x, cl, cl'. repeat split; try easy. now apply G2.
Qed.

Lemma broke_earlier a b c : untouched a b -> broke b c -> broke a c.
Proof.
  intros (G1 & _ & _) (x & cl & cl' & H1 & H2 & H3 & H4).
  exists x, cl, cl'. repeat split; try easy. now apply G1.
Qed.

Lemma assign_outcome ks sent lk fc a st :
  find_cl (cid fc) (clients st) = Some fc -> usable fc = true ->
  let '(st', ok) := assign offset ks sent lk fc a st in
  untouched st st' /\
  (if ok then jobs st' = jobs st ++ [(ks, cid fc)]
   else jobs st' = jobs st /\ broke st st').
Proof.
  intros Hfc Hu. unfold assign.
  set (fc1 := mkCl (cid fc) (cstat fc) (clast fc) lk (csent fc)).
  destruct (dispatch_send fc1 sent a) as [[fc2 started] ok] eqn:Ed.
  assert (Hci : cid fc2 = cid fc).
  { pose proof (dispatch_send_cid fc1 sent a) as Hq. rewrite Ed in Hq. exact Hq. }
  assert (Hf1 : forall x, cid x = cid fc -> cid fc2 = cid x) by (intros x Hx; now rewrite Hx).
  assert (Hst0 : cstat fc <> 0) by (intros He; unfold usable in Hu; now rewrite He in Hu).
  destruct ok; cbn.
  - destruct (dispatch_send_ok _ _ _ _ _ Ed) as (_ & Hs9 & _). split; [|easy].
    split; [|split].
    + intros c cl. cbn. rewrite find_cl_upd by easy.
      destruct (Nat.eqb_spec c (cid fc)) as [->|Hne]; [|easy].
      rewrite Hfc. cbn. intros [= <-]. unfold usable. now rewrite Hs9.
    + intros c cl Hc H0. cbn. rewrite find_cl_upd by easy.
      destruct (Nat.eqb_spec c (cid fc)) as [->|Hne]; [|easy]. congruence.
    + cbn. now rewrite cids_upd.
  - split; [split; [|split]|split; [easy|]].
    + intros c cl. cbn. rewrite find_cl_upd by easy. rewrite find_cl_upd by easy.
      destruct (Nat.eqb_spec c (cid fc)) as [->|Hne]; [|easy].
      rewrite Hfc. cbn. intros [= <-]. easy.
    + intros c cl Hc H0. cbn. rewrite find_cl_upd by easy. rewrite find_cl_upd by easy.
      destruct (Nat.eqb_spec c (cid fc)) as [->|Hne]; [|easy]. congruence.
    + cbn. rewrite cids_upd by easy. now rewrite cids_upd.
    + exists (cid fc), fc, (set_stat stDisconnected fc2). cbn.
      rewrite find_cl_upd by easy. rewrite find_cl_upd by easy. rewrite Nat.eqb_refl, Hfc. easy.
Qed.

Lemma dispatch_outcome bs m i c a st :
  let '(st', ok) := dispatch_free_client bs m i c a st in
  untouched st st' /\
  (if ok then exists ks, jobs st' = jobs st ++ [(ks, c)]
   else jobs st' = jobs st /\ (st' = st \/ broke st st')).
Proof.
  unfold SockModel.dispatch_free_client.
  destruct (find_cl c (clients st)) as [fc|] eqn:Efc;
    [|split; [apply untouched_refl | split; [easy | now left]]].
  destruct (usable fc) eqn:Eu; cbn [negb];
    [|split; [apply untouched_refl | split; [easy | now left]]].
  assert (Hcc : cid fc = c) by now destruct (find_cl_In _ _ _ Efc).
  assert (Hfc := find_cl_cid _ _ _ Efc).
  assert (Ha : forall ks sent lk, let '(st', ok) := assign offset ks sent lk fc a st in
     untouched st st' /\
     (if ok then exists ks, jobs st' = jobs st ++ [(ks, c)]
      else jobs st' = jobs st /\ (st' = st \/ broke st st'))).
  { intros ks sent lk. pose proof (assign_outcome ks sent lk fc a st Hfc Eu) as H.
    destruct (assign _ _ _ _ _ _ _) as [st' ok]. destruct H as [H1 H2]. split; [easy|].
    destruct ok; [exists ks; now rewrite <- Hcc|]. split; [easy | now right]. }
  destruct (1 <? bs).
  - destruct (prl st); [split; [apply untouched_refl | split; [easy | now left]] | apply Ha].
  - destruct (pick _ _ _ _ _ _); [apply Ha|].
    split; [apply untouched_refl | split; [easy | now left]].
Qed.

(** With "any", a usable client and a waiting request: dispatched, or broken. *)
Lemma dispatch_any bs m c a st fc :
  Inv st -> prl st <> [] -> find_cl c (clients st) = Some fc -> usable fc = true ->
  snd (dispatch_free_client bs m IAny c a st) = false ->
  broke st (fst (dispatch_free_client bs m IAny c a st)).
Proof.
  intros H Hp Hf Hu. unfold SockModel.dispatch_free_client. rewrite Hf, Hu. cbn [negb].
  assert (Hfc := find_cl_cid _ _ _ Hf).
  assert (Ha : forall ks sent lk, snd (assign offset ks sent lk fc a st) = false ->
     broke st (fst (assign offset ks sent lk fc a st))).
  { intros ks sent lk Hs. pose proof (assign_outcome ks sent lk fc a st Hfc Hu) as H2.
    destruct (assign _ _ _ _ _ _ _) as [st' ok]. cbn in *. subst ok. tauto. }
  destruct (1 <? bs).
  - destruct (prl st); [easy | apply Ha].
  - destruct (pick m IAny (clients st) fc (reqs st) (prl st)) as [r|] eqn:Epk; [apply Ha|].
    exfalso. destruct (prl st) as [|k pl] eqn:Epl; [easy|].
    destruct (i_prlq _ _ _ _ _ H k) as (r & Hr & _); [rewrite Epl; now left|].
    cbn in Epk. now rewrite Hr in Epk.
Qed.

Definition free_set (freec : list nat) (st : state) : Prop :=
  forall c, In c freec <-> In c (map cid (clients st)) /\ busy st c = false.

Lemma busy_app st js c ks c' :
  jobs st = js ++ [(ks, c')] -> busy st c = (existsb (fun j : job => snd j =? c) js || (c' =? c)).
Proof. intros H. unfold busy. rewrite H, existsb_app. cbn. now rewrite orb_false_r. Qed.

Lemma free_set_dispatch bs m i c a (st : state) freec :
  NoDup freec -> free_set freec st ->
  let '(st', ok) := dispatch_free_client bs m i c a st in
  free_set (if ok then remove1 c freec else freec) st'.
Proof.
  intros Hn Hf. pose proof (dispatch_outcome bs m i c a st) as H.
  destruct (dispatch_free_client bs m i c a st) as [st' ok].
  destruct H as [(_ & _ & Hids) H2]. destruct ok.
  - destruct H2 as (ks & Hj). intros x. rewrite Hids.
    rewrite (busy_app st' (jobs st) x ks c Hj). fold (busy st x).
    rewrite orb_false_iff. rewrite Nat.eqb_neq. split.
    + intros Hx. assert (Hx' := remove1_In _ _ _ Hx). apply Hf in Hx'.
      split; [easy|]. split; [easy|]. intros ->. now apply remove1_NoDup in Hx.
    + intros (H3 & H4 & H5). apply remove1_keep; [|congruence]. apply Hf. now split.
  - destruct H2 as [Hj _]. intros x. rewrite Hids. unfold busy. rewrite Hj. apply Hf.
Qed.

Lemma inner_outcome bs m i ans : forall todo freec st,
  Inv st -> NoDup todo -> NoDup freec -> (forall c, In c todo -> In c freec) -> free_set freec st ->
  let '(st', fr, ok) := inner_loop offset bs m i ans todo freec st in
  untouched st st' /\ free_set fr st' /\
  (ok = false -> (st' = st /\
       (i = IAny -> prl st <> [] ->
         forall c cl, In c todo -> find_cl c (clients st) = Some cl -> usable cl = false))
      \/ broke st st').
Proof.
  induction todo as [|fc todo IH]; intros freec st HI Hn1 Hn2 Hi Hf; cbn.
  - split; [apply untouched_refl|]. split; [easy|]. intros _. left. split; easy.
  - apply NoDup_cons_iff in Hn1. destruct Hn1 as [Hn1 Hn1'].
    pose proof (dispatch_outcome bs m i fc (ans fc) st) as Hd.
    pose proof (free_set_dispatch bs m i fc (ans fc) st freec Hn2 Hf) as Hfs.
    pose proof (inv_dispatch sub offset energy payload bs m i fc (ans fc) st HI) as HI'.
    assert (Hany : i = IAny -> prl st <> [] -> forall cl, find_cl fc (clients st) = Some cl ->
               usable cl = true -> snd (dispatch_free_client bs m i fc (ans fc) st) = false ->
               broke st (fst (dispatch_free_client bs m i fc (ans fc) st))).
    { intros -> Hp cl Hc Hu Hs. now apply (dispatch_any bs m fc (ans fc) st cl). }
    destruct (dispatch_free_client bs m i fc (ans fc) st) as [st' ok]. cbn in HI', Hany.
    destruct Hd as [Hd1 Hd2].
    set (fr' := if ok then remove1 fc freec else freec) in *.
    assert (Hfr : NoDup fr' /\ (forall c, In c todo -> In c fr')).
    { unfold fr'. destruct ok.
      - split; [now apply remove1_NoDup|].
        intros c Hc. apply remove1_keep; [apply Hi; now right|]. intros ->. now apply Hn1.
      - split; [easy|]. intros c Hc. apply Hi. now right. }
    destruct Hfr as [F1 F2].
    destruct (prl st') as [|k pl] eqn:Epl.
    + split; [easy|]. split; [easy|]. intros ->. destruct Hd2 as [_ [->|Hb]]; [|now right].
      left. split; [easy|]. intros _ Hp. congruence.
    + specialize (IH fr' st' HI' Hn1' F1 F2 Hfs).
      destruct (inner_loop _ _ _ _ _ todo fr' st') as [[st2 fr2] ok2].
      destruct IH as (G1 & G2 & G3). split; [eapply untouched_trans; eassumption|].
      split; [easy|]. intros Hok. apply orb_false_iff in Hok. destruct Hok as [-> ->].
      destruct Hd2 as [_ [->|Hb]].
      * specialize (G3 eq_refl). destruct G3 as [[-> G3]|G3]; [|now right].
        destruct (find_cl fc (clients st)) as [cl0|] eqn:Ecl.
        -- destruct (usable cl0) eqn:Eu.
           ++ destruct (match i with IAny => true | _ => false end) eqn:Ei.
              ** right. apply (Hany ltac:(now destruct i) ltac:(congruence) cl0 eq_refl Eu eq_refl).
              ** left. split; [easy|]. intros ->. discriminate.
           ++ left. split; [easy|]. intros Hia Hp c cl [<-|Hc] Hcl.
              ** congruence.
              ** now apply (G3 Hia Hp c cl).
        -- left. split; [easy|]. intros Hia Hp c cl [<-|Hc] Hcl.
           ++ congruence.
           ++ now apply (G3 Hia Hp c cl).
      * right. eapply broke_later; eassumption.
Qed.

Lemma outer_outcome bs m ans : forall is freec st,
  Inv st -> NoDup freec -> free_set freec st ->
  let '(st', fr, ok) := outer_loop offset bs m is ans freec st in
  Inv st' /\ NoDup fr /\
  untouched st st' /\ free_set fr st' /\
  (ok = false -> (st' = st /\
       (In IAny is -> prl st <> [] ->
         forall c cl, In c fr -> find_cl c (clients st) = Some cl -> usable cl = false))
      \/ broke st st').
Proof.
  induction is as [|i is IH]; intros freec st HI Hn Hf; cbn.
  - split; [easy|]. split; [easy|]. split; [apply untouched_refl|]. split; [easy|].
    intros _. left. split; easy.
  - pose proof (inner_outcome bs m i ans freec freec st HI Hn Hn (fun c H => H) Hf) as H1.
    pose proof (inner_length bs m i ans freec freec st Hn Hn (fun c H => H)) as L1.
    assert (HI1 : Inv (fst (fst (inner_loop offset bs m i ans freec freec st)))).
    { clear - HI. revert HI. generalize freec at 1 as todo. intros todo.
      revert freec st. induction todo as [|x todo IH]; intros freec st HI; cbn; [easy|].
      pose proof (inv_dispatch sub offset energy payload bs m i x (ans x) st HI) as HI'.
      destruct (dispatch_free_client bs m i x (ans x) st) as [st' ok]. cbn in HI'.
      destruct (prl st'); [easy|].
      specialize (IH (if ok then remove1 x freec else freec) st' HI').
      destruct (inner_loop _ _ _ _ _ todo _ st') as [[a b] c]. exact IH. }
    destruct (inner_loop _ _ _ _ _ freec freec st) as [[st1 fr1] ok1]. cbn in HI1.
    destruct H1 as (A1 & A2 & A3). destruct L1 as (L1 & L2 & L3).
    specialize (IH fr1 st1 HI1 L1 A2).
    pose proof (outer_length bs m ans is fr1 st1 L1) as L4.
    destruct (outer_loop _ _ _ _ _ fr1 st1) as [[st2 fr2] ok2].
    destruct IH as (B0 & B00 & B1 & B2 & B3). destruct L4 as (_ & L4 & L5).
    split; [easy|]. split; [easy|]. split; [eapply untouched_trans; eassumption|].
    split; [easy|].
    intros Hok. apply orb_false_iff in Hok. destruct Hok as [-> ->].
    destruct (A3 eq_refl) as [[-> A4]|A4].
    + destruct (B3 eq_refl) as [[-> B4]|B4]; [|now right].
      left. split; [easy|]. intros [->|Hin] Hp c cl Hc Hcl.
      * subst. now apply (A4 eq_refl Hp c cl).
      * now apply (B4 Hin Hp c cl).
    + right. eapply broke_later; eassumption.
Qed.

Lemma refill_untouched st : untouched st (refill st).
Proof. split; [easy|]. split; easy. Qed.

Lemma no_queued st : Inv st -> prl (refill st) = [] -> forall r, In r (reqs st) -> rst r <> Queued.
Proof.
  intros H Hp r Hr Hs. assert (Hin : In (rkey r) (queued_keys (reqs st))).
  { apply queued_keys_spec; [apply H|]. exists r. split; [|easy].
    apply In_find_req; [apply H | easy]. }
  cbn in Hp. now rewrite Hp in Hin.
Qed.

Lemma loop_outcome bs m ans : m <> MLock -> forall fuel freec st st' fr,
  Inv st -> NoDup freec -> free_set freec st ->
  (prl st = [] -> forall r, In r (reqs st) -> rst r <> Queued) ->
  dispatch_loop offset fuel bs m ans freec st = Some (st', fr) ->
  untouched st st' /\ free_set fr st' /\
  ((forall r, In r (reqs st') -> rst r <> Queued) \/
   (forall c cl, In c fr -> find_cl c (clients st') = Some cl -> usable cl = false) \/
   broke st st').
Proof.
  intros Hm. induction fuel as [|fuel IH]; intros freec st st' fr HI Hn Hf Hq; cbn [dispatch_loop].
  - destruct freec as [|c0 freec].
    + intros [= <- <-]. split; [apply untouched_refl|]. split; [easy|]. right. left. easy.
    + destruct (prl st) eqn:Ep; [|easy]. intros [= <- <-].
      split; [apply untouched_refl|]. split; [easy|]. left. now apply Hq.
  - destruct freec as [|c0 freec].
    { intros [= <- <-]. split; [apply untouched_refl|]. split; [easy|]. right. left. easy. }
    destruct (prl st) as [|k pl] eqn:Ep.
    { intros [= <- <-]. split; [apply untouched_refl|]. split; [easy|]. left. now apply Hq. }
    pose proof (outer_outcome bs m ans (match_seq m) (c0 :: freec) st HI Hn Hf) as Ho.
    destruct (outer_loop _ _ _ _ _ _ st) as [[st1 fr1] ok].
    destruct Ho as (O1 & O2 & O3 & O4 & O5).
    set (st2 := match fr1 with [] => st1 | _ => refill st1 end).
    assert (HI2 : Inv st2) by (unfold st2; destruct fr1; [easy | now apply inv_refill]).
    assert (Hu2 : untouched st st2).
    { unfold st2. destruct fr1; [easy|]. eapply untouched_trans; [exact O3 | apply refill_untouched]. }
    assert (Hf2 : free_set fr1 st2) by (unfold st2; destruct fr1; exact O4).
    assert (Hmain : (if ok then dispatch_loop offset fuel bs m ans fr1 st2 else Some (st2, fr1))
                    = Some (st', fr) ->
      untouched st st' /\ free_set fr st' /\
      ((forall r, In r (reqs st') -> rst r <> Queued) \/
       (forall c cl, In c fr -> find_cl c (clients st') = Some cl -> usable cl = false) \/
       broke st st')).
    { destruct ok.
      - intros H. destruct fr1 as [|c1 fr1].
        + assert (Heq : st' = st1 /\ fr = []).
          { destruct fuel; cbn in H; injection H; auto. }
          destruct Heq as [-> ->]. split; [easy|]. split; [easy|]. right. left. easy.
        + apply IH in H; try easy.
          * destruct H as (G1 & G2 & G3). split; [eapply untouched_trans; eassumption|].
            split; [easy|]. destruct G3 as [G3|[G3|G3]]; [now left | right; now left |].
            right. right. eapply broke_earlier; eassumption.
          * intros Hp. apply (no_queued st1 O1). exact Hp.
      - intros [= <- <-]. split; [easy|]. split; [easy|].
        destruct (O5 eq_refl) as [[-> O6]|O6].
        + right. left. intros c cl Hc Hcl. apply (O6 ltac:(destruct m; cbn; tauto) ltac:(congruence) c cl Hc).
          unfold st2 in Hcl. now destruct fr1.
        + right. right. unfold st2. destruct fr1; [easy|].
          eapply broke_later; [exact O6 | apply refill_untouched]. }
    destruct m; try easy; exact Hmain.
Qed.

Theorem dispatch_phase_progress fuel bs m ans st st' fr :
  Inv st -> m <> MLock ->
  dispatch_phase offset fuel bs m ans st = Some (st', fr) ->
  (forall r, In r (reqs st') -> rst r <> Queued) \/
  (forall cl, In cl (clients st') -> busy st' (cid cl) = false -> usable cl = false) \/
  broke st st'.
Proof.
  intros HI Hm. unfold dispatch_phase.
  match goal with |- context [if ?b then refill st else st] => set (st1 := if b then refill st else st) end.
  assert (Hu : untouched st st1) by (unfold st1; destruct (_ || _); [apply refill_untouched | apply untouched_refl]).
  assert (HI1 : Inv st1) by (unfold st1; destruct (_ || _); [now apply inv_refill | easy]).
  assert (Hf : free_set (free_clients st) st1).
  { intros c. unfold free_clients. rewrite filter_In, negb_true_iff.
    unfold st1. destruct (_ || _); easy. }
  assert (Hn : NoDup (free_clients st)) by (apply NoDup_filter', HI).
  assert (Hq : prl st1 = [] -> forall r, In r (reqs st1) -> rst r <> Queued).
  { unfold st1. destruct (prl st) as [|k pl] eqn:Ep; cbn [length Nat.eqb orb].
    - intros Hp. now apply (no_queued st HI).
    - destruct (_ <? _); [intros Hp; now apply (no_queued st HI) | congruence]. }
  intros H. destruct (loop_outcome bs m ans Hm fuel _ _ _ _ HI1 Hn Hf Hq H) as (G1 & G2 & G3).
  destruct G3 as [G3|[G3|G3]]; [now left | right; left |].
  - intros cl Hcl Hb.
    assert (Hl : NoDup (map cid (clients st'))).
    { destruct G1 as (_ & _ & G1). destruct Hu as (_ & _ & Hu). rewrite G1, Hu. apply HI. }
    apply (G3 (cid cl) cl); [|now apply In_find_cl].
    apply G2. split; [now apply in_map | easy].
  - right. right. eapply broke_earlier; eassumption.
Qed.

(** A responsive client: idle when asked, and the positions get through. *)
Definition responsive (a : send_ans) : Prop :=
  sa_probe1 a = PReady /\ sa_probe2 a = PReady /\ sa_out a = SendOk.

Lemma responsive_send fc sent a :
  responsive a -> has (cstat fc) stUp = true -> snd (dispatch_send fc sent a) = true.
Proof.
  intros (H1 & H2 & H3) Hu. unfold dispatch_send. rewrite Hu, H1, H2, H3. cbn [negb].
  destruct (has (cstat fc) stReady) eqn:Er; cbn [negb].
  - destruct (has (cstat fc) stNeedsInit); [reflexivity|]. now rewrite Er.
  - reflexivity.
Qed.

End Poll.
