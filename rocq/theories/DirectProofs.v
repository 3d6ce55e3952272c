(** * Invariant of direct force evaluation *)
From Coq Require Import List Arith Lia Bool.
From Verif Require Import DirectModel.
Import ListNotations.

Section Proofs.
Context {E P : Type}.
Variable sub : E -> E -> E.
Variable offset : E.
Variable bs : nat.
Variable f : nat -> E * P.
Variable drv1 : nat -> option (E * P).
Variable drv : list nat -> option (list (E * P)).
(** An honest driver: one result per structure in order, possibly followed by more. *)
Hypothesis H1 : forall k, drv1 k = Some (f k).
Hypothesis Hn : forall ks, exists more, drv ks = Some (map f ks ++ more).

Notation dstate := (dstate E P).
Notation dreq := (dreq E P).
Notation process_results := (process_results sub offset).
Notation process_all := (process_all sub offset).
Notation launch_batch := (launch_batch sub offset drv).
Notation evaluate := (evaluate sub offset bs drv1 drv).
Notation poll_requests := (poll_requests sub offset bs drv1 drv).
Notation dpoll := (dpoll sub offset bs drv1 drv).
Notation dstep := (dstep sub offset bs drv1 drv).
Notation drun := (drun sub offset bs drv1 drv).

Definition done_as (k : nat) : option (E * P) := Some (sub (fst (f k)) offset, snd (f k)).

Record Inv (st : dstate) : Prop := {
  d_alive : dead st = false;
  d_keys : NoDup (map dkey (dreqs st));
  d_lt : forall r, In r (dreqs st) -> dkey r < dnext st;
  d_ev : NoDup (concat (evals st) ++ batch st);
  d_evlt : forall k, In k (concat (evals st) ++ batch st) -> k < dnext st;
  d_batch : forall k, In k (batch st) -> exists r, In r (dreqs st) /\ dkey r = k /\ dst r = DRunning;
  d_q : forall r, In r (dreqs st) -> dst r = DQueued -> ~ In (dkey r) (concat (evals st) ++ batch st);
  d_r : forall r, In r (dreqs st) -> dst r = DRunning -> In (dkey r) (batch st);
  d_d : forall r, In r (dreqs st) -> dst r = DDone ->
        In (dkey r) (concat (evals st)) /\ dres r = done_as (dkey r) }.

Lemma inv_init : Inv dinit.
Proof. constructor; cbn; try easy; constructor. Qed.

(** ** Lists of requests *)
Lemma set_req_keys k g (l : list dreq) :
  (forall r, dkey (g r) = dkey r) -> map dkey (set_req k g l) = map dkey l.
Proof.
  intros Hg. unfold set_req. rewrite map_map. apply map_ext. intros r.
  destruct (dkey r =? k); [apply Hg | easy].
Qed.

Lemma In_set_req k g (l : list dreq) r :
  In r (set_req k g l) <-> (In r l /\ dkey r <> k) \/ (exists r0, In r0 l /\ dkey r0 = k /\ r = g r0)
  \/ False.
Proof.
  unfold set_req. rewrite in_map_iff. split.
  - intros (x & Hx & Hi). destruct (Nat.eqb_spec (dkey x) k) as [e|e].
    + right. left. exists x. now subst.
    + left. now subst.
  - intros [[Hi Hk]|[(r0 & Hi & Hk & ->)|[]]].
    + exists r. apply Nat.eqb_neq in Hk. now rewrite Hk.
    + exists r0. apply Nat.eqb_eq in Hk. now rewrite Hk.
Qed.

Lemma get_req_In k (l : list dreq) r : get_req k l = Some r -> In r l /\ dkey r = k.
Proof.
  unfold get_req. intros H. apply find_some in H. destruct H as [Hi Hk]. now apply Nat.eqb_eq in Hk.
Qed.

Lemma keys_inj (l : list dreq) a b : NoDup (map dkey l) -> In a l -> In b l -> dkey a = dkey b -> a = b.
Proof.
  induction l as [|x l IH]; cbn; [easy|]. intros Hd Ha Hb Hk. inversion Hd; subst.
  destruct Ha as [->|Ha], Hb as [->|Hb]; try easy.
  - exfalso. apply H2. rewrite Hk. now apply in_map.
  - exfalso. apply H2. rewrite <- Hk. now apply in_map.
  - now apply IH.
Qed.

Lemma get_req_spec k (l : list dreq) r :
  NoDup (map dkey l) -> In r l -> dkey r = k -> get_req k l = Some r.
Proof.
  intros Hd Hr Hk. destruct (get_req k l) as [r'|] eqn:Eg.
  - apply get_req_In in Eg. destruct Eg. f_equal. apply (keys_inj l); congruence.
  - unfold get_req in Eg. apply find_none with (x := r) in Eg; [|easy].
    apply Nat.eqb_neq in Eg. congruence.
Qed.

(** ** Delivering a batch *)
Definition finish (k : nat) : dreq := mkDReq k DDone (done_as k).

Lemma In_process_all more : forall ks (l : list dreq) r,
  In r (process_all ks (map f ks ++ more) l) ->
  (In r l /\ ~ In (dkey r) ks) \/ (In (dkey r) ks /\ r = finish (dkey r)).
Proof.
  induction ks as [|k ks IH]; intros l r Hr.
  - left. destruct more; cbn in Hr; easy.
  - cbn [map app DirectModel.process_all] in Hr. apply IH in Hr. destruct Hr as [[Hr Hn']|[Hi Hr]].
    + unfold DirectModel.process_results in Hr. rewrite In_set_req in Hr.
      destruct Hr as [[Hr Hk]|[(r0 & Hr0 & Hk & ->)|[]]].
      * left. split; [easy|]. intros [Hi|Hi]; [now apply Hk | now apply Hn'].
      * right. cbn. rewrite Hk. split; [now left|]. reflexivity.
    + right. split; [now right | easy].
Qed.

Lemma process_all_keys res : forall ks (l : list dreq), map dkey (process_all ks res l) = map dkey l.
Proof.
  induction res as [|ep res IH]; intros [|k ks] l; cbn; try easy.
  rewrite IH. now apply set_req_keys.
Qed.

Lemma process_all_keeps more : forall ks (l : list dreq) k,
  In k (map dkey l) -> In k (map dkey (process_all ks (map f ks ++ more) l)).
Proof. intros. now rewrite process_all_keys. Qed.

Lemma launch_inv st : Inv st -> Inv (launch_batch st).
Proof.
  intros H. unfold DirectModel.launch_batch. destruct (Hn (batch st)) as [more ->].
  constructor; cbn [dreqs batch evals dead dnext].
  - apply H.
  - rewrite process_all_keys. apply H.
  - intros r Hr. apply (in_map dkey) in Hr. rewrite process_all_keys in Hr.
    apply in_map_iff in Hr. destruct Hr as (r0 & <- & Hr0). now apply H.
  - rewrite concat_app. cbn. rewrite !app_nil_r. apply H.
  - rewrite concat_app. cbn. rewrite !app_nil_r. apply H.
  - easy.
  - intros r Hr Hs. rewrite concat_app. cbn. rewrite !app_nil_r.
    apply In_process_all in Hr. destruct Hr as [[Hr _]|[_ Hr]]; [now apply H|].
    rewrite Hr in Hs. discriminate.
  - intros r Hr Hs. apply In_process_all in Hr. destruct Hr as [[Hr Hb]|[_ Hr]].
    + exfalso. apply Hb. now apply H.
    + rewrite Hr in Hs. discriminate.
  - intros r Hr Hs. rewrite concat_app, in_app_iff. cbn. rewrite app_nil_r.
    apply In_process_all in Hr. destruct Hr as [[Hr Hb]|[Hb Hr]].
    + apply (d_d _ H) in Hs; [|easy]. destruct Hs. split; [now left | easy].
    + split; [now right|]. now rewrite Hr.
Qed.

(** Taking up a queued request. *)
Definition runit (k : nat) (st : dstate) : dstate :=
  mkD (set_req k (fun r => mkDReq (dkey r) DRunning (dres r)) (dreqs st))
      (batch st) (idle st) (evals st) (dead st) (dnext st).

Lemma evaluate_inv st r : Inv st -> In r (dreqs st) -> dst r = DQueued ->
  Inv (evaluate (dkey r) (runit (dkey r) st)).
Proof.
  intros H Hr Hs. unfold DirectModel.evaluate. pose proof (d_q _ H r Hr Hs) as Hq.
  pose proof (d_lt _ H r Hr) as Hlt. rewrite in_app_iff in Hq.
  destruct (Nat.eqb_spec bs 1) as [_|_].
  - rewrite H1. unfold runit. constructor; cbn [dreqs batch evals dead dnext].
    + apply H.
    + unfold DirectModel.process_results. rewrite !set_req_keys by easy. apply H.
    + intros x Hx. apply (in_map dkey) in Hx. unfold DirectModel.process_results in Hx.
      rewrite !set_req_keys in Hx by easy. apply in_map_iff in Hx. destruct Hx as (y & <- & Hy). now apply H.
    + rewrite concat_app. cbn. rewrite <- app_assoc. cbn.
      apply NoDup_Add with (a := dkey r) (l := concat (evals st) ++ batch st).
      * apply Add_app.
      * split; [apply H|]. rewrite in_app_iff. tauto.
    + intros k Hk. rewrite concat_app in Hk. cbn in Hk. rewrite !in_app_iff in Hk. cbn in Hk.
      destruct Hk as [[Hk|[<-|[]]]|Hk]; [|easy|]; apply (d_evlt _ H); rewrite in_app_iff; tauto.
    + intros k Hk. destruct (d_batch _ H k Hk) as (x & Hx & Hkx & Hsx). exists x.
      split; [|easy]. unfold DirectModel.process_results. rewrite In_set_req. left.
      assert (k <> dkey r) by (intros ->; tauto).
      split; [|congruence]. rewrite In_set_req. left. split; [easy|congruence].
    + intros x Hx Hsx. unfold DirectModel.process_results in Hx. rewrite In_set_req in Hx.
      destruct Hx as [[Hx Hne]|[(y & _ & _ & ->)|[]]]; [|discriminate].
      rewrite In_set_req in Hx. destruct Hx as [[Hx _]|[(y & _ & _ & ->)|[]]]; [|discriminate].
      rewrite concat_app, !in_app_iff. cbn. pose proof (d_q _ H x Hx Hsx) as Hqx.
      rewrite in_app_iff in Hqx. intros [[?|[?|[]]]|?]; try tauto. congruence.
    + intros x Hx Hsx. unfold DirectModel.process_results in Hx. rewrite In_set_req in Hx.
      destruct Hx as [[Hx Hne]|[(y & _ & _ & ->)|[]]]; [|discriminate].
      rewrite In_set_req in Hx. destruct Hx as [[Hx _]|[(y & _ & Hky & ->)|[]]]; [now apply H|].
      cbn in Hne. congruence.
    + intros x Hx Hsx. unfold DirectModel.process_results in Hx. rewrite In_set_req in Hx.
      rewrite concat_app, in_app_iff. cbn.
      destruct Hx as [[Hx Hne]|[(y & Hy & Hky & ->)|[]]].
      * rewrite In_set_req in Hx. destruct Hx as [[Hx _]|[(y & _ & _ & ->)|[]]]; [|discriminate].
        destruct (d_d _ H x Hx Hsx). tauto.
      * cbn. rewrite Hky. split; [tauto|]. reflexivity.
  - assert (HI : Inv (mkD (dreqs (runit (dkey r) st)) (batch (runit (dkey r) st) ++ [dkey r])
                          (idle (runit (dkey r) st)) (evals (runit (dkey r) st))
                          (dead (runit (dkey r) st)) (dnext (runit (dkey r) st)))).
    { unfold runit. constructor; cbn [dreqs batch evals dead dnext].
      - apply H.
      - rewrite set_req_keys by easy. apply H.
      - intros x Hx. apply (in_map dkey) in Hx. rewrite set_req_keys in Hx by easy.
        apply in_map_iff in Hx. destruct Hx as (y & <- & Hy). now apply H.
      - rewrite app_assoc. apply NoDup_Add with (a := dkey r) (l := concat (evals st) ++ batch st).
        + rewrite <- (app_nil_r (concat (evals st) ++ batch st)) at 1. apply Add_app.
        + split; [apply H|]. rewrite in_app_iff. tauto.
      - intros k Hk. rewrite app_assoc, in_app_iff in Hk. cbn in Hk.
        destruct Hk as [Hk|[<-|[]]]; [now apply H | easy].
      - intros k Hk. apply in_app_iff in Hk. destruct Hk as [Hk|[<-|[]]].
        + destruct (d_batch _ H k Hk) as (x & Hx & Hkx & Hsx). exists x. split; [|easy].
          rewrite In_set_req. left. split; [easy|]. intros Hx'. apply Hq. right. congruence.
        + exists (mkDReq (dkey r) DRunning (dres r)). split; [|easy]. rewrite In_set_req.
          right. left. now exists r.
      - intros x Hx Hsx. rewrite In_set_req in Hx. destruct Hx as [[Hx Hne]|[(y & _ & _ & ->)|[]]]; [|discriminate].
        rewrite app_assoc, in_app_iff. cbn. pose proof (d_q _ H x Hx Hsx). intros [?|[?|[]]]; [easy|congruence].
      - intros x Hx Hsx. rewrite in_app_iff. cbn. rewrite In_set_req in Hx.
        destruct Hx as [[Hx Hne]|[(y & _ & Hky & ->)|[]]]; [left; now apply H | right; left; easy].
      - intros x Hx Hsx. rewrite In_set_req in Hx. destruct Hx as [[Hx Hne]|[(y & _ & _ & ->)|[]]]; [|discriminate].
        now apply H. }
    destruct (bs <=? _); [now apply launch_inv | exact HI].
Qed.

(** ** The polling loop *)
Definition queued_in (st : dstate) (k : nat) : Prop :=
  exists r, In r (dreqs st) /\ dkey r = k /\ dst r = DQueued.

Lemma launch_queued st k : queued_in (launch_batch st) k -> queued_in st k.
Proof.
  unfold DirectModel.launch_batch. destruct (Hn (batch st)) as [more ->].
  intros (r & Hr & Hk & Hs). cbn in Hr. apply In_process_all in Hr.
  destruct Hr as [[Hr _]|[_ Hr]]; [now exists r|]. rewrite Hr in Hs. discriminate.
Qed.

Lemma evaluate_queued st k k' : queued_in (evaluate k (runit k st)) k' -> queued_in st k' /\ k' <> k.
Proof.
  assert (Hu : queued_in (runit k st) k' -> queued_in st k' /\ k' <> k).
  { intros (r & Hr & Hk & Hs). cbn in Hr. rewrite In_set_req in Hr.
    destruct Hr as [[Hr Hne]|[(y & _ & _ & ->)|[]]]; [|discriminate]. split; [now exists r | congruence]. }
  unfold DirectModel.evaluate. destruct (bs =? 1).
  - rewrite H1. intros (r & Hr & Hk & Hs). cbn [dreqs] in Hr. unfold DirectModel.process_results in Hr.
    rewrite In_set_req in Hr. destruct Hr as [[Hr Hne]|[(y & _ & _ & ->)|[]]]; [|discriminate].
    apply Hu. now exists r.
  - destruct (bs <=? _).
    + intros H. apply launch_queued in H. apply Hu. exact H.
    + intros H. apply Hu. exact H.
Qed.

Lemma poll_requests_spec : forall ks st st' b,
  Inv st -> poll_requests ks st = (st', b) ->
  Inv st' /\ (forall k, queued_in st' k -> queued_in st k /\ ~ In k ks) /\
  (b = false -> st' = st).
Proof.
  induction ks as [|k ks IH]; intros st st' b H Hp; cbn in Hp.
  - injection Hp as <- <-. split; [easy|]. split; [|easy]. intros k Hk. split; [easy|]. intros [].
  - rewrite (d_alive _ H) in Hp at 1.
    destruct (get_req k (dreqs st)) as [r|] eqn:Eg.
    + pose proof (get_req_In _ _ _ Eg) as [Hr Hk]. subst k.
      destruct (dstatus_eqb (dst r) DQueued) eqn:Es.
      * assert (Hs : dst r = DQueued) by (destruct (dst r); easy).
        fold (runit (dkey r) st) in Hp.
        destruct (poll_requests ks (evaluate (dkey r) (runit (dkey r) st))) as [st2 b2] eqn:Ep.
        injection Hp as <- <-.
        destruct (IH _ _ _ (evaluate_inv st r H Hr Hs) Ep) as (HI & Hq & _).
        split; [easy|]. split; [|easy]. intros k' Hk'. apply Hq in Hk'. destruct Hk' as [Hk' Hni].
        apply evaluate_queued in Hk'. destruct Hk'. split; [easy|]. intros [Hx|Hx]; [congruence|easy].
      * destruct (IH _ _ _ H Hp) as (HI & Hq & Hb). split; [easy|]. split; [|easy].
        intros k' Hk'. apply Hq in Hk'. destruct Hk' as [Hk' Hni]. split; [easy|].
        intros [Hx|Hx]; [|easy]. subst k'. destruct Hk' as (y & Hy & Hky & Hsy).
        assert (y = r) by (apply (keys_inj (dreqs st)); [apply H|easy|easy|easy]). subst y.
        rewrite Hsy in Es. discriminate.
    + destruct (IH _ _ _ H Hp) as (HI & Hq & Hb). split; [easy|]. split; [|easy].
      intros k' Hk'. apply Hq in Hk'. destruct Hk' as [Hk' Hni]. split; [easy|].
      intros [Hx|Hx]; [|easy]. subst k'. destruct Hk' as (y & Hy & Hky & Hsy).
      rewrite (get_req_spec k (dreqs st) y) in Eg; [discriminate|apply H|easy|easy].
Qed.

Lemma poll_inv st : Inv st -> Inv (dpoll st) /\ (forall k, ~ queued_in (dpoll st) k).
Proof.
  intros H. unfold DirectModel.dpoll. rewrite (d_alive _ H).
  destruct (poll_requests (map dkey (dreqs st)) st) as [st1 b] eqn:Ep.
  destruct (poll_requests_spec _ _ _ _ H Ep) as (H' & Hq & _). rewrite (d_alive _ H').
  assert (Hnq : forall k, ~ queued_in st1 k).
  { intros k Hk. apply Hq in Hk. destruct Hk as [(r & Hr & <- & _) Hni]. apply Hni. now apply in_map. }
  destruct ((1 <? bs) && _); [|now split].
  match goal with |- context [launch_batch ?s] => assert (HI : Inv s) by (constructor; cbn; try reflexivity; apply H') end.
  destruct (bs <=? _).
  - split; [now apply launch_inv|]. intros k Hk. apply launch_queued in Hk. now apply (Hnq k).
  - split; [exact HI|]. exact Hnq.
Qed.

Lemma step_inv st e : Inv st -> Inv (dstep st e).
Proof.
  intros H. destruct e as [|k|]; cbn.
  - constructor; cbn.
    + apply H.
    + rewrite map_app. cbn. apply NoDup_Add with (a := dnext st) (l := map dkey (dreqs st)).
      * rewrite <- (app_nil_r (map dkey (dreqs st))) at 1. apply Add_app.
      * split; [apply H|]. intros Hi. apply in_map_iff in Hi. destruct Hi as (r & Hk & Hr).
        apply (d_lt _ H) in Hr. lia.
    + intros r Hr. apply in_app_iff in Hr. destruct Hr as [Hr|[<-|[]]]; [|cbn; lia].
      apply (d_lt _ H) in Hr. lia.
    + apply H.
    + intros k Hk. apply (d_evlt _ H) in Hk. lia.
    + intros k Hk. destruct (d_batch _ H k Hk) as (r & Hr & Hx). exists r. split; [|easy].
      apply in_app_iff. now left.
    + intros r Hr Hs. apply in_app_iff in Hr. destruct Hr as [Hr|[<-|[]]]; [now apply H|]. cbn.
      intros Hk. apply (d_evlt _ H) in Hk. lia.
    + intros r Hr Hs. apply in_app_iff in Hr. destruct Hr as [Hr|[<-|[]]]; [now apply H|discriminate].
    + intros r Hr Hs. apply in_app_iff in Hr. destruct Hr as [Hr|[<-|[]]]; [now apply H|discriminate].
  - constructor; cbn; try apply H.
    + pose proof (d_keys _ H) as Hd. induction (dreqs st) as [|r l IH]; cbn in *; [constructor|].
      inversion Hd; subst. destruct (negb _); cbn; [|now apply IH]. constructor; [|now apply IH].
      intros Hi. apply H3. apply in_map_iff in Hi. destruct Hi as (x & Hx & Hxi). apply filter_In in Hxi.
      rewrite <- Hx. now apply in_map.
    + intros r Hr. apply filter_In in Hr. now apply H.
    + intros k' Hk. destruct (d_batch _ H k' Hk) as (r & Hr & Hkr & Hs). exists r. split; [|easy].
      apply filter_In. split; [easy|]. rewrite Hs. cbn. now rewrite andb_false_r.
    + intros r Hr. apply filter_In in Hr. now apply H.
    + intros r Hr. apply filter_In in Hr. now apply H.
    + intros r Hr. apply filter_In in Hr. now apply H.
  - now apply poll_inv.
Qed.

Lemma inv_reachable es : Inv (drun es dinit).
Proof.
  induction es as [|e es IH] using rev_ind; [apply inv_init|].
  unfold DirectModel.drun in *. rewrite fold_left_app. now apply step_inv.
Qed.

(** ** Flushing *)

(** Nothing queued, and the batch waits since [i] polls or is empty. *)
Definition waiting (i : nat) (st : dstate) : Prop :=
  Inv st /\ (forall k, ~ queued_in st k) /\ (batch st = [] \/ (1 < bs /\ i <= idle st)).

Lemma no_queued_poll st : Inv st -> (forall k, ~ queued_in st k) ->
  forall ks, poll_requests ks st = (st, false).
Proof.
  intros H Hq ks. induction ks as [|k ks IH]; cbn; [easy|]. rewrite (d_alive _ H).
  destruct (get_req k (dreqs st)) as [r|] eqn:Eg; [|easy].
  apply get_req_In in Eg. destruct Eg as [Hr Hk].
  destruct (dstatus_eqb (dst r) DQueued) eqn:Es; [|easy].
  exfalso. apply (Hq k). exists r. destruct (dst r); easy.
Qed.

Lemma launch_batch_nil st : batch (launch_batch st) = [].
Proof. unfold DirectModel.launch_batch. now destruct (Hn (batch st)) as [more ->]. Qed.

Lemma batch_small st : bs <= 1 -> forall es, st = drun es dinit -> batch st = [].
Proof.
  intros Hb es ->. induction es as [|e es IH] using rev_ind; [easy|].
  unfold DirectModel.drun in *. rewrite fold_left_app. cbn [fold_left].
  set (s := fold_left dstep es dinit) in *. destruct e as [|k|]; cbn; try easy.
  unfold DirectModel.dpoll. destruct (dead s); [easy|].
  assert (Hp : forall ks s0, batch s0 = [] -> batch (fst (poll_requests ks s0)) = []).
  { induction ks as [|k ks IHk]; intros s0 H0; cbn; [easy|]. destruct (dead s0); [easy|].
    destruct (get_req k (dreqs s0)); [|now apply IHk].
    destruct (dstatus_eqb _ _); [|now apply IHk].
    match goal with |- context [poll_requests ks ?x] => specialize (IHk x); destruct (poll_requests ks x) end.
    cbn in *. apply IHk. unfold DirectModel.evaluate. destruct (Nat.eqb_spec bs 1).
    - rewrite H1. easy.
    - cbn. rewrite H0. cbn. destruct (Nat.leb_spec bs 1); [apply launch_batch_nil|lia]. }
  specialize (Hp (map dkey (dreqs s)) s IH). destruct (poll_requests _ s) as [s1 b]. cbn in Hp.
  destruct (dead s1); [easy|]. rewrite Hp. cbn. now rewrite andb_false_r.
Qed.

Lemma poll_waits i st : waiting i st -> i < bs -> waiting (S i) (dpoll st) /\
   (batch st = [] -> batch (dpoll st) = []) /\ (bs = S i -> batch (dpoll st) = []).
Proof.
  intros (H & Hq & Hi) Hlt. destruct (poll_inv st H) as [H' Hq'].
  revert H' Hq'. unfold DirectModel.dpoll. rewrite (d_alive _ H), no_queued_poll, (d_alive _ H) by easy.
  destruct Hi as [Hb|[Hb Hi]].
  - rewrite Hb. cbn. rewrite andb_false_r. intros H' Hq'. split; [|easy]. split; [easy|]. split; [easy|]. now left.
  - destruct (Nat.ltb_spec 1 bs) as [_|]; [|lia]. cbn [andb].
    destruct (Nat.ltb_spec 0 (length (batch st))) as [Hl|Hl].
    + destruct (Nat.leb_spec bs (S (idle st))) as [Hf|Hf].
      * intros H' Hq'. split; [|split; intros _; apply launch_batch_nil].
        split; [easy|]. split; [easy|]. left. apply launch_batch_nil.
      * intros H' Hq'. split; [|split]; [| intros E0; rewrite E0 in Hl; cbn in Hl; lia | lia].
        split; [easy|]. split; [easy|]. right. cbn. lia.
    + intros H' Hq'. assert (Hbn : batch st = []) by (destruct (batch st); [easy | cbn in Hl; lia]).
      split; [|easy]. split; [easy|]. split; [easy|]. now left.
Qed.

Lemma release_waits i st k : waiting i st -> waiting i (drelease k st) /\ batch (drelease k st) = batch st.
Proof.
  intros (H & Hq & Hi). split; [|easy]. split; [now apply (step_inv st (DRelease k))|].
  split; [|exact Hi]. intros k' (r & Hr & Hx). cbn in Hr. apply filter_In in Hr. apply (Hq k'). now exists r.
Qed.

Fixpoint polls (es : list devent) : nat :=
  match es with [] => 0 | DPoll :: es' => S (polls es') | _ :: es' => polls es' end.

Lemma flush_aux es : forall i st, ~ In DQueue es -> waiting i st -> i <= bs ->
  bs <= i + polls es -> (i = bs -> batch st = []) ->
  Inv (drun es st) /\ (forall k, ~ queued_in (drun es st) k) /\ batch (drun es st) = [].
Proof.
  induction es as [|e es IH]; intros i st Hno Hw Hle Hp Hb.
  - cbn in Hp. destruct Hw as (H & Hq & _). cbn. split; [easy|]. split; [easy|]. apply Hb. lia.
  - destruct e as [|k|].
    + exfalso. apply Hno. now left.
    + destruct (release_waits i st k Hw) as [Hw' Hb']. cbn. apply (IH i); try easy.
      intros Hi. apply Hno. now right.
    + cbn. destruct (Nat.eq_dec i bs) as [->|Hne].
      * specialize (Hb eq_refl). destruct Hw as (H & Hq & _).
        assert (Hw' : waiting bs (dpoll st) /\ batch (dpoll st) = []).
        { destruct (poll_inv st H) as [H' Hq']. revert H' Hq'. unfold DirectModel.dpoll.
          rewrite (d_alive _ H), no_queued_poll, (d_alive _ H), Hb by easy. cbn. rewrite andb_false_r.
          intros H' Hq'. split; [|easy]. split; [easy|]. split; [easy|]. now left. }
        apply (IH bs); try easy; try lia. intros Hi; apply Hno; now right.
      * destruct (poll_waits i st Hw ltac:(lia)) as (Hw' & _ & Hf).
        apply (IH (S i)); try easy; try lia; try (cbn in Hp; lia);
          [intros Hi; apply Hno; now right | intros Hx; apply Hf; lia].
Qed.

(** After the first poll. *)
Lemma first_poll es0 : waiting 0 (dpoll (drun es0 dinit)).
Proof.
  pose proof (inv_reachable es0) as H. destruct (poll_inv _ H) as [H' Hq]. split; [easy|]. split; [easy|].
  destruct (Nat.le_gt_cases bs 1) as [Hb|Hb].
  - left. apply (batch_small _ Hb (es0 ++ [DPoll])). unfold DirectModel.drun. now rewrite fold_left_app.
  - right. split; [easy|lia].
Qed.

Lemma all_done st : Inv st -> (forall k, ~ queued_in st k) -> batch st = [] ->
  forall r, In r (dreqs st) -> dst r = DDone.
Proof.
  intros H Hq Hb r Hr. destruct (dst r) eqn:Es; [|exfalso|easy].
  - exfalso. apply (Hq (dkey r)). now exists r.
  - pose proof (d_r _ H r Hr Es) as Hi. rewrite Hb in Hi. easy.
Qed.

End Proofs.
