(** * Invariant of the socket dispatcher *)
From Coq Require Import List Arith Lia Bool.
From Verif Require Import SockModel SockSpec.
Import ListNotations.

Arguments find_req : simpl never.
Arguments find_cl : simpl never.
Arguments upd_req : simpl never.
Arguments upd_reqs : simpl never.
Arguments upd_cl : simpl never.
Arguments drop_job : simpl never.
Arguments queued_keys : simpl never.
Arguments has : simpl never.

(** ** Lists *)
Lemma existsb_eqb_In k l : existsb (Nat.eqb k) l = true <-> In k l.
Proof.
  rewrite existsb_exists. split.
  - intros (x & H & E1). apply Nat.eqb_eq in E1. now subst.
  - intros H. exists k. split; [easy | apply Nat.eqb_refl].
Qed.

Lemma existsb_eqb_not k l : existsb (Nat.eqb k) l = false <-> ~ In k l.
Proof.
  rewrite <- existsb_eqb_In. destruct (existsb (Nat.eqb k) l); split; congruence || easy.
Qed.

Lemma remove1_In k x l : In x (remove1 k l) -> In x l.
Proof.
  induction l as [|y l IH]; cbn; [easy|].
  destruct (y =? k) eqn:Ey; cbn; intuition.
Qed.

Lemma remove1_NoDup k l : NoDup l -> NoDup (remove1 k l) /\ ~ In k (remove1 k l).
Proof.
  induction 1 as [|y l Hy Hl [IH1 IH2]]; cbn; [split; [constructor | easy]|].
  destruct (Nat.eqb_spec y k) as [->|Hn].
  - now split.
  - split.
    + constructor; [|easy]. intros H. apply Hy. eapply remove1_In; eassumption.
    + cbn. intros [H|H]; [congruence | now apply IH2].
Qed.

Lemma remove1_keep k x l : In x l -> x <> k -> In x (remove1 k l).
Proof.
  induction l as [|y l IH]; cbn; [easy|].
  intros [->|H] Hn.
  - destruct (Nat.eqb_spec x k); [congruence | now left].
  - destruct (y =? k); [easy | right; now apply IH].
Qed.

Lemma remove_all_spec ks : forall l, NoDup l ->
  NoDup (fold_left (fun l k => remove1 k l) ks l) /\
  (forall x, In x (fold_left (fun l k => remove1 k l) ks l) <-> In x l /\ ~ In x ks).
Proof.
  induction ks as [|k ks IH]; intros l Hl; cbn [fold_left].
  - split; [easy|]. intros x. cbn. tauto.
  - destruct (remove1_NoDup k l Hl) as [H1 H2].
    destruct (IH _ H1) as [H3 H4]. split; [easy|].
    intros x. rewrite H4. split.
    + intros [Hx Hn]. split; [eapply remove1_In; eassumption|].
      intros [->|H]; [now apply H2 | now apply Hn].
    + intros [Hx Hn]. split.
      * apply remove1_keep; [easy|]. intros ->. apply Hn. now left.
      * intros H. apply Hn. now right.
Qed.

Lemma NoDup_firstn {A} n (l : list A) : NoDup l -> NoDup (firstn n l).
Proof.
  intros H. revert n. induction H as [|x l Hx Hl IH]; intros [|n]; cbn; try constructor.
  - intros HI. apply Hx. clear -HI. revert n HI.
    induction l as [|y l IH]; intros [|n]; cbn; try easy. intros [->|H]; [now left|].
    right. now apply (IH n).
  - apply IH.
Qed.

Lemma In_firstn {A} n (x : A) l : In x (firstn n l) -> In x l.
Proof.
  revert n. induction l as [|y l IH]; intros [|n]; cbn; try easy.
  intros [->|H]; [now left | right; now apply (IH n)].
Qed.

Lemma NoDup_app_iff' {A} (l1 l2 : list A) :
  NoDup (l1 ++ l2) <-> NoDup l1 /\ NoDup l2 /\ (forall x, In x l1 -> ~ In x l2).
Proof.
  induction l1 as [|x l1 IH]; cbn.
  - split; [intros H; repeat split; [constructor | easy | easy] | tauto].
  - rewrite !NoDup_cons_iff, IH, in_app_iff. split.
    + intros (H1 & H2 & H3 & H4). repeat split; try tauto.
      intros y [->|Hy]; [tauto | now apply H4].
    + intros ((H1 & H2) & H3 & H4). repeat split; try tauto.
      * intros [H|H]; [tauto|]. now apply (H4 x (or_introl eq_refl)).
      * intros y Hy. apply H4. now right.
Qed.

(** Clients. *)
Lemma find_cl_upd c c' f l :
  (forall x, cid x = c' -> cid (f x) = cid x) ->
  find_cl c (upd_cl c' f l) =
  (if c =? c' then option_map f (find_cl c l) else find_cl c l).
Proof.
  intros Hf. unfold find_cl, upd_cl. induction l as [|x l IH]; cbn.
  - now destruct (c =? c').
  - destruct (Nat.eqb_spec (cid x) c') as [He|He].
    + rewrite (Hf x He). destruct (Nat.eqb_spec (cid x) c) as [He2|He2].
      * subst c c'. rewrite Nat.eqb_refl. reflexivity.
      * rewrite IH. destruct (Nat.eqb_spec c c'); [congruence|easy].
    + destruct (Nat.eqb_spec (cid x) c) as [He2|He2].
      * subst c. destruct (Nat.eqb_spec (cid x) c'); [congruence|easy].
      * apply IH.
Qed.

Lemma cids_upd c f l :
  (forall x, cid x = c -> cid (f x) = cid x) -> map cid (upd_cl c f l) = map cid l.
Proof.
  intros Hf. unfold upd_cl. rewrite map_map. apply map_ext.
  intros x. destruct (Nat.eqb_spec (cid x) c) as [He|He]; [now apply Hf | easy].
Qed.

Lemma find_cl_In c l x : find_cl c l = Some x -> In x l /\ cid x = c.
Proof.
  unfold find_cl. intros H. apply find_some in H. destruct H as [H1 H2].
  apply Nat.eqb_eq in H2. now split.
Qed.

Lemma In_find_cl l x : NoDup (map cid l) -> In x l -> find_cl (cid x) l = Some x.
Proof.
  unfold find_cl. induction l as [|y l IH]; cbn; [easy|].
  rewrite NoDup_cons_iff. intros [H1 H2] [->|Hr].
  - now rewrite Nat.eqb_refl.
  - destruct (Nat.eqb_spec (cid y) (cid x)) as [He|He].
    + exfalso. apply H1. rewrite He. now apply in_map.
    + now apply IH.
Qed.

Lemma find_cl_app c l1 l2 :
  find_cl c (l1 ++ l2) = match find_cl c l1 with Some r => Some r | None => find_cl c l2 end.
Proof.
  unfold find_cl. induction l1 as [|x l IH]; cbn; [easy|]. destruct (cid x =? c); easy.
Qed.

Lemma job_of_In c (js : list job) j : job_of c js = Some j -> In j js /\ snd j = c.
Proof.
  unfold job_of. intros H. apply find_some in H. destruct H as [H1 H2].
  apply Nat.eqb_eq in H2. now split.
Qed.

Lemma drop_job_In c (js : list job) j : In j (drop_job c js) <-> In j js /\ snd j <> c.
Proof.
  unfold drop_job. rewrite filter_In. rewrite negb_true_iff, Nat.eqb_neq. tauto.
Qed.

Lemma NoDup_concat_filter (p : job -> bool) (js : list job) :
  NoDup (concat (map fst js)) -> NoDup (concat (map fst (filter p js))).
Proof.
  induction js as [|j js IH]; cbn; [easy|].
  rewrite NoDup_app_iff'. intros (H1 & H2 & H3).
  destruct (p j); cbn; [|now apply IH].
  rewrite NoDup_app_iff'. repeat split; [easy | now apply IH |].
  intros x Hx Hi. apply (H3 x Hx).
  apply in_concat in Hi. destruct Hi as (l & Hl & Hxl). apply in_concat. exists l.
  split; [|easy]. apply in_map_iff in Hl. destruct Hl as (j' & <- & Hj').
  apply filter_In in Hj'. now apply in_map.
Qed.

Lemma NoDup_snd_filter (p : job -> bool) (js : list job) :
  NoDup (map snd js) -> NoDup (map snd (filter p js)).
Proof.
  induction js as [|j js IH]; cbn; [easy|].
  rewrite NoDup_cons_iff. intros [H1 H2]. destruct (p j); cbn; [|now apply IH].
  constructor; [|now apply IH]. intros Hi. apply H1.
  apply in_map_iff in Hi. destruct Hi as (j' & <- & Hj'). apply filter_In in Hj'.
  now apply in_map.
Qed.

Section Proofs.
Context {E P : Type}.
Variable sub : E -> E -> E.
Variable offset : E.
Variable energy : nat -> E.
Variable payload : nat -> P.
Notation state := (state E P).
Notation request := (request E P).
Notation step := (step sub offset energy payload).
Notation run := (run sub offset energy payload).
Notation g := (fun k => (energy k, payload k)).

(** ** Lookup *)
Lemma find_req_upds k ks f l :
  (forall r, rkey (f r) = rkey r) ->
  find_req k (upd_reqs ks f l) =
  (if existsb (Nat.eqb k) ks then option_map f (find_req k l) else @find_req E P k l).
Proof.
  intros Hf. unfold find_req, upd_reqs. induction l as [|r l IH]; cbn.
  - now destruct (existsb _ ks).
  - destruct (Nat.eqb_spec (rkey r) k) as [Hk|Hk].
    + subst k. destruct (existsb (Nat.eqb (rkey r)) ks).
      * rewrite Hf, Nat.eqb_refl. reflexivity.
      * rewrite Nat.eqb_refl. reflexivity.
    + rewrite <- IH. destruct (existsb (Nat.eqb (rkey r)) ks).
      * rewrite Hf. apply Nat.eqb_neq in Hk. now rewrite Hk.
      * apply Nat.eqb_neq in Hk. now rewrite Hk.
Qed.

Lemma upd_req_upds k f (l : list request) : upd_req k f l = upd_reqs [k] f l.
Proof.
  unfold upd_req, upd_reqs. apply map_ext. intros r. cbn. now rewrite orb_false_r.
Qed.

Lemma keys_upds ks f (l : list request) :
  (forall r, rkey (f r) = rkey r) -> map rkey (upd_reqs ks f l) = map rkey l.
Proof.
  intros Hf. unfold upd_reqs. rewrite map_map. apply map_ext.
  intros r. destruct (existsb _ ks); [apply Hf | easy].
Qed.

Lemma find_req_In k (l : list request) r : find_req k l = Some r -> In r l /\ rkey r = k.
Proof.
  unfold find_req. intros H. apply find_some in H. destruct H as [H1 H2].
  apply Nat.eqb_eq in H2. now split.
Qed.

Lemma In_find_req (l : list request) r :
  NoDup (map rkey l) -> In r l -> find_req (rkey r) l = Some r.
Proof.
  unfold find_req. induction l as [|x l IH]; cbn; [easy|].
  rewrite NoDup_cons_iff. intros [H1 H2] [->|Hr].
  - now rewrite Nat.eqb_refl.
  - destruct (Nat.eqb_spec (rkey x) (rkey r)) as [He|He].
    + exfalso. apply H1. rewrite He. now apply in_map.
    + now apply IH.
Qed.

Lemma find_req_app k (l1 l2 : list request) :
  find_req k (l1 ++ l2) = match find_req k l1 with Some r => Some r | None => find_req k l2 end.
Proof.
  unfold find_req. induction l1 as [|x l IH]; cbn; [easy|]. destruct (rkey x =? k); easy.
Qed.

Lemma deliver_find k : forall ks (l : list request), NoDup ks ->
  find_req k (deliver sub ks (map g ks) l) =
  (if existsb (Nat.eqb k) ks then option_map (mark_done sub (g k)) (find_req k l)
   else find_req k l).
Proof.
  induction ks as [|x ks IH]; intros l Hn; cbn [map deliver].
  - reflexivity.
  - apply NoDup_cons_iff in Hn. destruct Hn as [Hx Hn].
    rewrite IH by easy. rewrite upd_req_upds, find_req_upds by easy.
    cbn [existsb]. rewrite orb_false_r.
    destruct (Nat.eqb_spec k x) as [->|Hk]; cbn [orb].
    + apply existsb_eqb_not in Hx. now rewrite Hx.
    + reflexivity.
Qed.

Lemma deliver_keys ks : forall res (l : list request),
  map rkey (deliver sub ks res l) = map rkey l.
Proof.
  induction ks as [|k ks IH]; intros [|ep res] l; cbn [deliver]; try easy.
  rewrite IH, upd_req_upds. now apply keys_upds.
Qed.

(** ** The invariant *)
Definition has_st (s : rstatus) (k : nat) (l : list request) : Prop :=
  exists r, find_req k l = Some r /\ rst r = s.

Definition job_keys (st : state) : list nat := concat (map fst (jobs st)).

Arguments job_keys : simpl never.

Record Inv (st : state) : Prop := {
  i_keys : NoDup (map rkey (reqs st));
  i_keylt : forall r, In r (reqs st) -> rkey r < nextk st;
  i_cids : NoDup (map cid (clients st));
  i_cidlt : forall c, In c (clients st) -> cid c < nextc st;
  i_prl : NoDup (prl st);
  i_prlq : forall k, In k (prl st) -> has_st Queued k (reqs st);
  i_jk : NoDup (job_keys st);
  i_jc : NoDup (map snd (jobs st));
  i_jne : forall j, In j (jobs st) -> fst j <> [];
  i_jrun : forall k, In k (job_keys st) ->
      exists r, find_req k (reqs st) = Some r /\ rst r = Running /\ rstart r = true /\
                roff r = Some offset;
  i_jcl : forall j, In j (jobs st) ->
      exists cl, find_cl (snd j) (clients st) = Some cl /\ cstat cl = 9 /\
                 firstn (length (fst j)) (csent cl) = fst j;
  i_run : forall r, In r (reqs st) -> rst r = Running -> In (rkey r) (job_keys st);
  i_done : forall r, In r (reqs st) -> rst r = Done ->
      rres r = Some (sub (energy (rkey r)) offset, payload (rkey r)) }.

Lemma inv_init : Inv (@init E P).
Proof. constructor; cbn; try easy; constructor. Qed.

Lemma In_job_keys k (st : state) : In k (job_keys st) <-> exists j, In j (jobs st) /\ In k (fst j).
Proof.
  unfold job_keys. rewrite in_concat. split.
  - intros (l & H1 & H2). apply in_map_iff in H1. destruct H1 as (j & <- & Hj). eauto.
  - intros (j & H1 & H2). exists (fst j). split; [now apply in_map | easy].
Qed.

(** Two jobs sharing a request are the same job. *)
Lemma job_key_unique (st : state) j1 j2 k :
  NoDup (job_keys st) -> In j1 (jobs st) -> In j2 (jobs st) ->
  In k (fst j1) -> In k (fst j2) -> j1 = j2.
Proof.
  unfold job_keys. generalize (jobs st). intros js.
  induction js as [|j js IH]; cbn; [easy|].
  rewrite NoDup_app_iff'. intros (H1 & H2 & H3) [Ha|Ha] [Hb|Hb] Hk1 Hk2; subst; try easy.
  - exfalso. apply (H3 k Hk1). apply in_concat. exists (fst j2). split; [now apply in_map | easy].
  - exfalso. apply (H3 k Hk2). apply in_concat. exists (fst j1). split; [now apply in_map | easy].
  - now apply IH.
Qed.

Lemma find_req_key k (l : list request) : In k (map rkey l) -> exists r, find_req k l = Some r.
Proof.
  unfold find_req. induction l as [|x l IH]; cbn; [easy|].
  intros [->|H].
  - rewrite Nat.eqb_refl. eauto.
  - destruct (rkey x =? k); eauto.
Qed.

(** *** Events of the main thread *)
Lemma inv_queue id st : Inv st -> Inv (queue id st).
Proof.
  intros H. destruct H. unfold queue. constructor; cbn; try assumption.
  - rewrite map_app, NoDup_app_iff'. cbn. repeat split; [easy | repeat constructor; easy |].
    intros x Hx [<-|[]]. apply in_map_iff in Hx. destruct Hx as (r & Hr & Hi).
    apply i_keylt0 in Hi. lia.
  - intros r. rewrite in_app_iff. cbn. intros [Hi|[<-|[]]]; cbn; [|lia].
    apply i_keylt0 in Hi. lia.
  - intros k Hk. destruct (i_prlq0 k Hk) as (r & Hr & Hs). exists r. split; [|easy].
    now rewrite find_req_app, Hr.
  - intros k Hk. destruct (i_jrun0 k Hk) as (r & Hr & Hs). exists r. split; [|easy].
    now rewrite find_req_app, Hr.
  - intros r. rewrite in_app_iff. cbn. intros [Hi|[<-|[]]]; cbn; [|easy]. now apply i_run0.
  - intros r. rewrite in_app_iff. cbn. intros [Hi|[<-|[]]]; cbn; [|easy]. now apply i_done0.
Qed.

Lemma find_req_filter k (p : request -> bool) (l : list request) r :
  NoDup (map rkey l) -> find_req k l = Some r -> p r = true -> find_req k (filter p l) = Some r.
Proof.
  unfold find_req. induction l as [|x l IH]; cbn; [easy|].
  rewrite NoDup_cons_iff. intros [H1 H2] Hf Hp.
  destruct (Nat.eqb_spec (rkey x) k) as [He|He].
  - injection Hf as ->. rewrite Hp. cbn. apply Nat.eqb_eq in He. now rewrite He.
  - destruct (p x); cbn; [|now apply IH].
    apply Nat.eqb_neq in He. rewrite He. now apply IH.
Qed.

Lemma NoDup_map_filter {A} (f : A -> nat) (p : A -> bool) l :
  NoDup (map f l) -> NoDup (map f (filter p l)).
Proof.
  induction l as [|x l IH]; cbn; [easy|]. rewrite NoDup_cons_iff. intros [H1 H2].
  destruct (p x); cbn; [|now apply IH]. constructor; [|now apply IH].
  intros Hi. apply H1. apply in_map_iff in Hi. destruct Hi as (y & <- & Hy).
  apply filter_In in Hy. now apply in_map.
Qed.

Lemma inv_release k st : Inv st -> Inv (release k st).
Proof.
  intros H. destruct H. unfold release. constructor; cbn; try assumption.
  - now apply NoDup_map_filter.
  - intros r Hr. apply filter_In in Hr. now apply i_keylt0.
  - intros x Hx. destruct (i_prlq0 x Hx) as (r & Hr & Hs). exists r. split; [|easy].
    apply find_req_filter; [easy | easy |]. rewrite Hs. cbn. now rewrite andb_false_r.
  - intros x Hx. destruct (i_jrun0 x Hx) as (r & Hr & Hs & Hrest). exists r. split; [|easy].
    apply find_req_filter; [easy | easy |]. rewrite Hs. cbn. now rewrite andb_false_r.
  - intros r Hr. apply filter_In in Hr. now apply i_run0.
  - intros r Hr. apply filter_In in Hr. now apply i_done0.
Qed.

(** *** Clients coming and going *)
Lemma inv_accept p st : Inv st -> Inv (accept p st).
Proof.
  intros H. destruct H. unfold accept.
  assert (Hl : (Nat.lor (status_of p) stUp =? 0) = false) by now destruct p.
  rewrite Hl. cbn [negb]. constructor; cbn; try assumption.
  - rewrite map_app, NoDup_app_iff'. cbn. repeat split; [easy | repeat constructor; easy |].
    intros x Hx [<-|[]]. apply in_map_iff in Hx. destruct Hx as (r & Hr & Hi).
    apply i_cidlt0 in Hi. lia.
  - intros c. rewrite in_app_iff. cbn. intros [Hi|[<-|[]]]; cbn; [|lia].
    apply i_cidlt0 in Hi. lia.
  - intros j Hj. destruct (i_jcl0 j Hj) as (cl & H1 & H2). exists cl. split; [|easy].
    now rewrite find_cl_app, H1.
Qed.

Lemma prune_keeps js cls c cl :
  find_cl c cls = Some cl -> has (cstat cl) stUp = true -> NoDup (map cid cls) ->
  find_cl c (fst (prune cls js)) = Some cl.
Proof.
  unfold find_cl. revert cl. induction cls as [|x cls IH]; cbn; [easy|].
  intros cl Hf Hu Hn. apply NoDup_cons_iff in Hn. destruct Hn as [Hn1 Hn2].
  destruct (has (cstat x) stUp) eqn:Hx.
  - destruct (prune cls js) as [r b] eqn:Ep. cbn in *.
    destruct (cid x =? c) eqn:Ec; [easy|]. now apply IH.
  - destruct (cid x =? c) eqn:Ec; [congruence|].
    destruct js; cbn; [now apply IH | easy].
Qed.

Lemma prune_incl js cls c : In c (fst (prune cls js)) -> In c cls.
Proof.
  induction cls as [|x cls IH]; cbn; [easy|].
  destruct (has (cstat x) stUp).
  - destruct (prune cls js) as [r b]. cbn in *. intros [H|H]; [now left | right; now apply IH].
  - destruct js; cbn; intros H; right; [now apply IH | easy].
Qed.

Lemma prune_NoDup js cls : NoDup (map cid cls) -> NoDup (map cid (fst (prune cls js))).
Proof.
  induction cls as [|x cls IH]; cbn; [easy|].
  rewrite NoDup_cons_iff. intros [H1 H2].
  destruct (has (cstat x) stUp).
  - assert (Hi := prune_incl js cls).
    destruct (prune cls js) as [r b]. cbn in *. constructor; [|now apply IH].
    intros H. apply H1. apply in_map_iff in H. destruct H as (y & <- & Hy).
    apply in_map. now apply Hi.
  - destruct js; cbn; [now apply IH | easy].
Qed.

Lemma inv_prune st : Inv st -> Inv (pool_prune st).
Proof.
  intros H. destruct H. unfold pool_prune.
  assert (Hk := fun c cl => prune_keeps (jobs st) (clients st) c cl).
  assert (Hi := prune_incl (jobs st) (clients st)).
  assert (Hn := prune_NoDup (jobs st) (clients st) i_cids0).
  destruct (prune (clients st) (jobs st)) as [cls b]. cbn in *.
  constructor; cbn; try assumption.
  - intros c Hc. now apply i_cidlt0, Hi.
  - intros j Hj. destruct (i_jcl0 j Hj) as (cl & H1 & H2 & H3). exists cl.
    split; [|easy]. apply Hk; [easy | | easy]. now rewrite H2.
Qed.

(** *** prlist *)
Lemma rstatus_eqb_eq a b : rstatus_eqb a b = true <-> a = b.
Proof. destruct a, b; cbn; split; congruence. Qed.

Lemma queued_keys_spec (l : list request) k :
  NoDup (map rkey l) -> (In k (queued_keys l) <-> has_st Queued k l).
Proof.
  intros Hn. unfold queued_keys, has_st. rewrite in_map_iff. split.
  - intros (r & <- & Hr). apply filter_In in Hr. destruct Hr as [H1 H2].
    exists r. split; [now apply In_find_req | now apply rstatus_eqb_eq].
  - intros (r & H1 & H2). apply find_req_In in H1. destruct H1 as [H1 H3].
    exists r. split; [easy|]. apply filter_In. split; [easy|]. now rewrite H2.
Qed.

Lemma inv_refill st : Inv st -> Inv (refill st).
Proof.
  intros H. destruct H. unfold refill. constructor; cbn; try assumption.
  - unfold queued_keys. now apply NoDup_map_filter.
  - intros k Hk. now apply queued_keys_spec.
Qed.

(** *** Requeue and drop *)
Lemma by_find (l : list request) (Q : request -> Prop) :
  NoDup (map rkey l) ->
  (forall k r, find_req k l = Some r -> Q r) -> forall r, In r l -> Q r.
Proof. intros Hn H r Hi. eapply H. now apply In_find_req. Qed.

Definition dropped (c : nat) (st : state) : state :=
  mkSt (reqs st) (prl st) (clients st) (drop_job c (jobs st))
       (piter st) (crashed st) (nextk st) (nextc st).

Lemma map_key_lt ks f (l : list request) n :
  (forall r, rkey (f r) = rkey r) ->
  (forall r, In r l -> rkey r < n) -> forall r, In r (upd_reqs ks f l) -> rkey r < n.
Proof.
  intros Hf Hl r Hr. unfold upd_reqs in Hr. apply in_map_iff in Hr.
  destruct Hr as (x & <- & Hx). destruct (existsb _ ks); [rewrite Hf|]; now apply Hl.
Qed.

Lemma In_cids_find (l : list client) c : In c (map cid l) -> exists x, find_cl c l = Some x.
Proof.
  unfold find_cl. induction l as [|x l IH]; cbn; [easy|].
  intros [->|H].
  - rewrite Nat.eqb_refl. eauto.
  - destruct (cid x =? c); eauto.
Qed.

Lemma upd_cl_lt c f l n :
  (forall x, cid x = c -> cid (f x) = cid x) ->
  (forall x, In x l -> cid x < n) -> forall x, In x (upd_cl c f l) -> cid x < n.
Proof.
  intros Hf Hl x Hx. unfold upd_cl in Hx. apply in_map_iff in Hx.
  destruct Hx as (y & <- & Hy). destruct (Nat.eqb_spec (cid y) c) as [He|He].
  - rewrite Hf by easy. now apply Hl.
  - now apply Hl.
Qed.

Lemma inv_requeue_drop ks c st :
  Inv st -> In (ks, c) (jobs st) -> Inv (dropped c (requeue ks c st)).
Proof.
  intros H Hj. destruct H.
  assert (Hks : forall k, In k ks -> In k (job_keys st)).
  { intros k Hk. apply In_job_keys. now exists (ks, c). }
  assert (Hother : forall j, In j (drop_job c (jobs st)) -> forall k, In k (fst j) -> ~ In k ks).
  { intros j Hj' k Hk Hn. apply drop_job_In in Hj'. destruct Hj' as [Hj1 Hj2].
    assert (j = (ks, c)) by (apply (job_key_unique st j (ks, c) k); easy).
    subst j. now apply Hj2. }
  assert (Hfind : forall k, find_req k (upd_reqs ks mark_requeued (reqs st)) =
     if existsb (Nat.eqb k) ks then option_map mark_requeued (find_req k (reqs st))
     else find_req k (reqs st)) by (intros; now apply find_req_upds).
  assert (Hkeys : map rkey (upd_reqs ks mark_requeued (reqs st)) = map rkey (reqs st))
    by now apply keys_upds.
  unfold dropped, requeue. constructor; cbn.
  - now rewrite Hkeys.
  - now apply map_key_lt.
  - now rewrite cids_upd.
  - now apply upd_cl_lt.
  - easy.
  - intros k Hk. destruct (i_prlq0 k Hk) as (r & Hr & Hs). unfold has_st. rewrite Hfind, Hr.
    destruct (existsb _ ks); cbn; eauto.
  - now apply NoDup_concat_filter.
  - now apply NoDup_snd_filter.
  - intros j Hj'. apply drop_job_In in Hj'. now apply i_jne0.
  - intros k Hk. apply In_job_keys in Hk. destruct Hk as (j & Hj1 & Hk). cbn in Hj1.
    rewrite Hfind. assert (Hn := Hother j Hj1 k Hk). apply existsb_eqb_not in Hn. rewrite Hn.
    apply i_jrun0. apply In_job_keys. exists j. apply drop_job_In in Hj1. now split.
  - intros j Hj1. apply drop_job_In in Hj1. destruct Hj1 as [Hj1 Hj2].
    destruct (i_jcl0 j Hj1) as (cl & H1 & H2). exists cl. split; [|easy].
    rewrite find_cl_upd by easy. apply Nat.eqb_neq in Hj2. now rewrite Hj2.
  - refine (by_find _ _ _ _); [now rewrite Hkeys|]. intros k r. rewrite Hfind.
    destruct (existsb (Nat.eqb k) ks) eqn:Ek.
    + destruct (find_req k (reqs st)); cbn; [|easy]. intros [= <-]. easy.
    + intros Hr Hs. apply existsb_eqb_not in Ek.
      destruct (find_req_In _ _ _ Hr) as [Hi <-].
      specialize (i_run0 r Hi Hs). apply In_job_keys in i_run0.
      destruct i_run0 as (j & Hj1 & Hj2). apply In_job_keys. exists j. split; [|easy].
      cbn. apply drop_job_In. split; [easy|]. intros Hc. apply Ek.
      assert (j = (ks, c)) as ->; [|easy].
      clear -i_jc0 Hj Hj1 Hc.
      assert (Hgen : forall js : list job, NoDup (map snd js) -> forall a b, In a js -> In b js -> snd a = snd b -> a = b).
      { induction js as [|x js IH]; cbn; [easy|]. rewrite NoDup_cons_iff.
        intros [Ha Hb] a b [->|H1] [->|H2] He; try easy.
        - exfalso. apply Ha. rewrite He. now apply in_map.
        - exfalso. apply Ha. rewrite <- He. now apply in_map.
        - now apply IH. }
      now apply (Hgen (jobs st)).
  - refine (by_find _ _ _ _); [now rewrite Hkeys|]. intros k r. rewrite Hfind.
    destruct (existsb (Nat.eqb k) ks) eqn:Ek.
    + destruct (find_req k (reqs st)); cbn; [|easy]. intros [= <-]. easy.
    + intros Hr. apply find_req_In in Hr. destruct Hr as [Hr <-]. now apply i_done0.
Qed.

Lemma snd_unique (js : list job) a b :
  NoDup (map snd js) -> In a js -> In b js -> snd a = snd b -> a = b.
Proof.
  induction js as [|x js IH]; cbn; [easy|]. rewrite NoDup_cons_iff.
  intros [Ha Hb] [->|H1] [->|H2] He; try easy.
  - exfalso. apply Ha. rewrite He. now apply in_map.
  - exfalso. apply Ha. rewrite <- He. now apply in_map.
  - now apply IH.
Qed.

(** *** Receiving *)
Lemma concat_NoDup_each (st : state) j : NoDup (job_keys st) -> In j (jobs st) -> NoDup (fst j).
Proof.
  unfold job_keys. generalize (jobs st). intros js. induction js as [|x js IH]; cbn; [easy|].
  rewrite NoDup_app_iff'. intros (H1 & H2 & H3) [->|Hj]; [easy | now apply IH].
Qed.

Lemma inv_recv c a st : Inv st -> Inv (recv_job sub energy payload c a st).
Proof.
  intros H. unfold recv_job.
  destruct (job_of c (jobs st)) as [[ks c']|] eqn:Ej; [|easy].
  destruct (job_of_In _ _ _ Ej) as [Hj Hc]. cbn in Hc. subst c'.
  destruct (find_cl c (clients st)) as [cl|] eqn:Ec; [|easy].
  destruct a as [| |p].
  - exact (inv_requeue_drop ks c st H Hj).
  - destruct H. constructor; easy.
  - destruct H.
    destruct (i_jcl0 _ Hj) as (cl' & H1 & H2 & H3). cbn in H1, H3.
    rewrite Ec in H1. injection H1 as <-.
    assert (Hnd : NoDup ks) by exact (concat_NoDup_each st (ks, c) i_jk0 Hj).
    assert (Hrep : firstn (length ks) (reply energy payload cl) = map g ks).
    { unfold reply. rewrite firstn_map. now rewrite H3. }
    rewrite Hrep.
    assert (Hfind := fun k => deliver_find k ks (reqs st) Hnd).
    assert (Hkeys := deliver_keys ks (map g ks) (reqs st)).
    assert (Hks : forall k, In k ks -> In k (job_keys st)).
    { intros k Hk. apply In_job_keys. now exists (ks, c). }
    assert (Hother : forall j, In j (drop_job c (jobs st)) -> forall k, In k (fst j) -> ~ In k ks).
    { intros j Hj' k Hk Hn. apply drop_job_In in Hj'. destruct Hj' as [Hj1 Hj2].
      assert (j = (ks, c)) by (apply (job_key_unique st j (ks, c) k); easy).
      subst j. now apply Hj2. }
    constructor; cbn.
    + now rewrite Hkeys.
    + refine (by_find _ _ _ _); [now rewrite Hkeys|]. intros k r Hr.
      apply find_req_In in Hr. destruct Hr as [Hr _].
      assert (Hin : In (rkey r) (map rkey (reqs st))) by (rewrite <- Hkeys; now apply in_map).
      apply in_map_iff in Hin. destruct Hin as (r' & <- & Hr'). now apply i_keylt0.
    + now rewrite cids_upd.
    + now apply upd_cl_lt.
    + easy.
    + intros k Hk. destruct (i_prlq0 k Hk) as (r & Hr & Hs).
      unfold has_st. rewrite Hfind.
      destruct (existsb (Nat.eqb k) ks) eqn:Ek.
      * apply existsb_eqb_In in Ek. destruct (i_jrun0 k (Hks k Ek)) as (r' & Hr' & Hs' & _).
        congruence.
      * eauto.
    + now apply NoDup_concat_filter.
    + now apply NoDup_snd_filter.
    + intros j Hj'. apply drop_job_In in Hj'. now apply i_jne0.
    + intros k Hk. apply In_job_keys in Hk. destruct Hk as (j & Hj1 & Hk). cbn in Hj1.
      rewrite Hfind. assert (Hn := Hother j Hj1 k Hk). apply existsb_eqb_not in Hn. rewrite Hn.
      apply i_jrun0. apply In_job_keys. exists j. apply drop_job_In in Hj1. now split.
    + intros j Hj1. apply drop_job_In in Hj1. destruct Hj1 as [Hj1 Hj2].
      destruct (i_jcl0 j Hj1) as (cl' & Hl1 & Hl2). exists cl'. split; [|easy].
      rewrite find_cl_upd by easy. apply Nat.eqb_neq in Hj2. now rewrite Hj2.
    + refine (by_find _ _ _ _); [now rewrite Hkeys|]. intros k r. rewrite Hfind.
      destruct (existsb (Nat.eqb k) ks) eqn:Ek.
      * destruct (find_req k (reqs st)); cbn; [|easy]. intros [= <-]. easy.
      * intros Hr Hs. apply existsb_eqb_not in Ek.
        destruct (find_req_In _ _ _ Hr) as [Hi <-].
        specialize (i_run0 r Hi Hs). apply In_job_keys in i_run0.
        destruct i_run0 as (j & Hj1 & Hj2). apply In_job_keys. exists j. split; [|easy].
        cbn. apply drop_job_In. split; [easy|]. intros Hc. apply Ek.
        assert (j = (ks, c)) as ->; [|easy]. now apply (snd_unique (jobs st)).
    + refine (by_find _ _ _ _); [now rewrite Hkeys|]. intros k r. rewrite Hfind.
      destruct (existsb (Nat.eqb k) ks) eqn:Ek.
      * apply existsb_eqb_In in Ek. destruct (i_jrun0 k (Hks k Ek)) as (r' & Hr' & _ & _ & Ho).
        rewrite Hr'. cbn [option_map]. intros [= <-] _. cbn. rewrite Ho.
        apply find_req_In in Hr'. destruct Hr' as [_ ->]. reflexivity.
      * intros Hr. apply find_req_In in Hr. destruct Hr as [Hr <-]. now apply i_done0.
Qed.

Lemma inv_timeout c st : Inv st -> Inv (timeout_job c st).
Proof.
  intros H. unfold timeout_job.
  destruct (job_of c (jobs st)) as [[ks c']|] eqn:Ej; [|easy].
  destruct (job_of_In _ _ _ Ej) as [Hj Hc]. cbn in Hc. subst c'.
  destruct (find_req (hd 0 ks) (reqs st)) as [r|]; [|easy].
  destruct (rstart r); [|easy].
  exact (inv_requeue_drop ks c st H Hj).
Qed.

(** *** Dispatching *)
Lemma dispatch_send_cid fc sent a : cid (fst (fst (dispatch_send fc sent a))) = cid fc.
Proof.
  unfold dispatch_send. destruct (negb (has (cstat fc) stUp)); [easy|]. cbv zeta.
  match goal with |- context [if negb ?b then _ else _] => destruct (negb b) end; [easy|].
  now destruct (sa_out a).
Qed.

Lemma dispatch_send_ok fc sent a fc2 started :
  dispatch_send fc sent a = (fc2, started, true) ->
  started = true /\ cstat fc2 = 9 /\ csent fc2 = sent /\ cid fc2 = cid fc /\ clast fc2 = clast fc.
Proof.
  unfold dispatch_send. destruct (negb (has (cstat fc) stUp)); [easy|]. cbv zeta.
  match goal with |- context [if negb ?b then _ else _] => destruct (negb b) end; [easy|].
  destruct (sa_out a); [|easy|easy]. now intros [= <- <-].
Qed.

Lemma inv_assign ks sent lock fc a st :
  Inv st -> find_cl (cid fc) (clients st) = Some fc -> busy st (cid fc) = false ->
  ks <> [] -> NoDup ks -> (forall k, In k ks -> In k (prl st)) ->
  firstn (length ks) sent = ks ->
  Inv (fst (assign offset ks sent lock fc a st)).
Proof.
  intros H Hfc Hbusy Hne Hnd Hin Hsent. destruct H. unfold assign.
  set (fc1 := mkCl (cid fc) (cstat fc) (clast fc) lock (csent fc)).
  destruct (dispatch_send fc1 sent a) as [[fc2 started] ok] eqn:Ed.
  assert (Hcid : cid fc2 = cid fc).
  { pose proof (dispatch_send_cid fc1 sent a) as Hc. rewrite Ed in Hc. exact Hc. }
  assert (Hnojob : forall j, In j (jobs st) -> snd j <> cid fc).
  { intros j Hj He. unfold busy in Hbusy.
    assert (Ht : existsb (fun j => snd j =? cid fc) (jobs st) = true).
    { apply existsb_exists. exists j. split; [easy|]. now apply Nat.eqb_eq. }
    congruence. }
  assert (Hq : forall k, In k ks -> has_st Queued k (reqs st)) by auto.
  assert (Hnotjob : forall k, In k ks -> ~ In k (job_keys st)).
  { intros k Hk Hj. destruct (Hq k Hk) as (r & Hr & Hs).
    destruct (i_jrun0 k Hj) as (r' & Hr' & Hs' & _). congruence. }
  destruct (remove_all_spec ks (prl st) i_prl0) as [Hpl Hpli].
  set (pl := fold_left _ ks (prl st)) in *.
  set (rs := upd_reqs ks (mark_running offset) (reqs st)).
  assert (Hrs : forall k, find_req k rs =
     if existsb (Nat.eqb k) ks then option_map (mark_running offset) (find_req k (reqs st))
     else find_req k (reqs st)) by (intros; now apply find_req_upds).
  assert (Hrk : map rkey rs = map rkey (reqs st)) by now apply keys_upds.
  set (cls := upd_cl (cid fc) (fun _ => fc2) (clients st)).
  assert (Hcls : forall c, find_cl c cls =
     if c =? cid fc then option_map (fun _ => fc2) (find_cl c (clients st))
     else find_cl c (clients st)).
  { intros c. apply find_cl_upd. intros x Hx. rewrite Hx. exact Hcid. }
  assert (Hclsid : map cid cls = map cid (clients st)).
  { apply cids_upd. intros x Hx. now rewrite Hx. }
  assert (Hclslt : forall x, In x cls -> cid x < nextc st).
  { apply upd_cl_lt; [|easy]. intros x Hx. now rewrite Hx. }
  destruct ok; cbn [fst].
  - (* success *)
    destruct (dispatch_send_ok _ _ _ _ _ Ed) as (-> & Hst9 & Hse & _).
    set (rs2 := upd_reqs ks mark_start rs).
    assert (Hrs2 : forall k, find_req k rs2 =
       if existsb (Nat.eqb k) ks
       then option_map (fun r => mark_start (mark_running offset r)) (find_req k (reqs st))
       else find_req k (reqs st)).
    { intros k. unfold rs2. rewrite find_req_upds by easy. rewrite Hrs.
      destruct (existsb _ ks); [|easy]. now destruct (find_req k (reqs st)). }
    assert (Hr2k : map rkey rs2 = map rkey (reqs st)).
    { unfold rs2. rewrite keys_upds by easy. exact Hrk. }
    constructor; cbn.
    + now rewrite Hr2k.
    + apply map_key_lt; [easy|]. now apply map_key_lt.
    + now rewrite Hclsid.
    + easy.
    + easy.
    + intros k Hk. apply Hpli in Hk. destruct Hk as [Hk Hn].
      unfold has_st. rewrite Hrs2. apply existsb_eqb_not in Hn. rewrite Hn. now apply i_prlq0.
    + unfold job_keys; cbn. rewrite map_app, concat_app. cbn. rewrite app_nil_r.
      apply NoDup_app_iff'. repeat split; [easy | easy |].
      intros x Hx Hk. now apply (Hnotjob x Hk).
    + rewrite map_app. cbn. apply NoDup_app_iff'. repeat split; [easy | repeat constructor; easy |].
      intros x Hx [<-|[]]. apply in_map_iff in Hx. destruct Hx as (j & He & Hj).
      now apply (Hnojob j Hj).
    + intros j. rewrite in_app_iff. cbn. intros [Hj|[<-|[]]]; [now apply i_jne0 | easy].
    + intros k Hk. apply In_job_keys in Hk. destruct Hk as (j & Hj & Hk). cbn in Hj.
      rewrite in_app_iff in Hj. rewrite Hrs2. destruct Hj as [Hj|[<-|[]]].
      * assert (Hkj : In k (job_keys st)) by (apply In_job_keys; eauto).
        destruct (existsb (Nat.eqb k) ks) eqn:Ek.
        -- apply existsb_eqb_In in Ek. now destruct (Hnotjob k Ek).
        -- now apply i_jrun0.
      * cbn in Hk. destruct (Hq k Hk) as (r & Hr & Hs).
        apply existsb_eqb_In in Hk. rewrite Hk, Hr. cbn. eexists. split; [reflexivity|].
        now cbn.
    + intros j. rewrite in_app_iff. cbn. intros [Hj|[<-|[]]].
      * destruct (i_jcl0 j Hj) as (cl & H1 & H2). exists cl. split; [|easy].
        rewrite Hcls. assert (Hne2 := Hnojob j Hj). apply Nat.eqb_neq in Hne2. now rewrite Hne2.
      * cbn. exists fc2. rewrite Hcls, Nat.eqb_refl, Hfc. cbn. split; [easy|]. split; [easy|].
        now rewrite Hse.
    + refine (by_find _ _ _ _); [now rewrite Hr2k|]. intros k r. rewrite Hrs2.
      unfold job_keys; cbn. rewrite map_app, concat_app, in_app_iff. cbn. rewrite app_nil_r.
      destruct (existsb (Nat.eqb k) ks) eqn:Ek.
      * destruct (find_req k (reqs st)) as [r0|] eqn:Er; cbn; [|easy]. intros [= <-] _. cbn.
        right. apply find_req_In in Er. destruct Er as [_ ->]. now apply existsb_eqb_In.
      * intros Hr Hs. left. apply find_req_In in Hr. destruct Hr as [Hr _]. now apply i_run0.
    + refine (by_find _ _ _ _); [now rewrite Hr2k|]. intros k r. rewrite Hrs2.
      destruct (existsb (Nat.eqb k) ks) eqn:Ek.
      * destruct (find_req k (reqs st)) as [r0|] eqn:Er; cbn; [|easy]. now intros [= <-].
      * intros Hr. apply find_req_In in Hr. destruct Hr as [Hr _]. now apply i_done0.
  - (* failure *)
    set (rs2 := if started then upd_reqs ks mark_start rs else rs).
    assert (Hrs2 : exists f : request -> request, (forall r, rkey (f r) = rkey r) /\
       forall k, find_req k rs2 =
       if existsb (Nat.eqb k) ks then option_map f (find_req k (reqs st))
       else find_req k (reqs st)).
    { unfold rs2. destruct started.
      - exists (fun r => mark_start (mark_running offset r)). split; [easy|].
        intros k. rewrite find_req_upds by easy. rewrite Hrs.
        destruct (existsb _ ks); [|easy]. now destruct (find_req k (reqs st)).
      - exists (mark_running offset). now split. }
    destruct Hrs2 as (f & Hf & Hrs2).
    assert (Hr2k : map rkey rs2 = map rkey (reqs st)).
    { unfold rs2. destruct started; [|easy]. rewrite keys_upds by easy. exact Hrk. }
    assert (Hr2lt : forall r, In r rs2 -> rkey r < nextk st).
    { unfold rs2. destruct started; [apply map_key_lt; [easy|]|]; now apply map_key_lt. }
    set (rs3 := upd_reqs ks mark_requeued rs2).
    assert (Hrs3 : forall k, find_req k rs3 =
       if existsb (Nat.eqb k) ks
       then option_map (fun r => mark_requeued (f r)) (find_req k (reqs st))
       else find_req k (reqs st)).
    { intros k. unfold rs3. rewrite find_req_upds by easy. rewrite Hrs2.
      destruct (existsb _ ks); [|easy]. now destruct (find_req k (reqs st)). }
    assert (Hr3k : map rkey rs3 = map rkey (reqs st)).
    { unfold rs3. rewrite keys_upds by easy. exact Hr2k. }
    assert (Hrunq : forall k r, find_req k rs3 = Some r -> rst r <> Queued ->
               find_req k (reqs st) = Some r).
    { intros k r. rewrite Hrs3. destruct (existsb (Nat.eqb k) ks); [|easy].
      destruct (find_req k (reqs st)); cbn; [|easy]. intros [= <-]. now cbn. }
    unfold requeue; cbn.
    constructor; cbn.
    + exact (eq_ind_r (fun l => NoDup l) i_keys0 Hr3k).
    + apply map_key_lt; easy.
    + rewrite cids_upd by easy. now rewrite Hclsid.
    + now apply upd_cl_lt.
    + easy.
    + intros k Hk. apply Hpli in Hk. destruct Hk as [Hk Hn].
      unfold has_st. change (upd_reqs ks mark_requeued rs2) with rs3. rewrite Hrs3.
      apply existsb_eqb_not in Hn. rewrite Hn. now apply i_prlq0.
    + easy.
    + easy.
    + easy.
    + intros k Hk. change (upd_reqs ks mark_requeued rs2) with rs3. rewrite Hrs3.
      destruct (existsb (Nat.eqb k) ks) eqn:Ek.
      * apply existsb_eqb_In in Ek. now destruct (Hnotjob k Ek).
      * now apply i_jrun0.
    + intros j Hj. destruct (i_jcl0 j Hj) as (cl & H1 & H2). exists cl. split; [|easy].
      assert (Hne2 := Hnojob j Hj). apply Nat.eqb_neq in Hne2.
      rewrite find_cl_upd by easy. rewrite Hne2. rewrite Hcls. now rewrite Hne2.
    + refine (by_find _ _ _ _); [exact (eq_ind_r (fun l => NoDup l) i_keys0 Hr3k)|]. intros k r Hr Hs.
      assert (Hr' := Hrunq k r Hr). rewrite Hs in Hr'. specialize (Hr' ltac:(discriminate)).
      apply find_req_In in Hr'. destruct Hr' as [Hr' _]. now apply i_run0.
    + refine (by_find _ _ _ _); [exact (eq_ind_r (fun l => NoDup l) i_keys0 Hr3k)|]. intros k r Hr Hs.
      assert (Hr' := Hrunq k r Hr). rewrite Hs in Hr'. specialize (Hr' ltac:(discriminate)).
      apply find_req_In in Hr'. destruct Hr' as [Hr' _]. now apply i_done0.
Qed.

Lemma pick_spec m i cls fc (l : list request) ks r :
  pick m i cls fc l ks = Some r ->
  In (rkey r) ks /\ find_req (rkey r) l = Some r /\ admissible m i cls fc r = true.
Proof.
  induction ks as [|k ks IH]; cbn; [easy|].
  destruct (find_req k l) as [x|] eqn:Ex.
  - destruct (admissible m i cls fc x) eqn:Ea.
    + intros [= ->]. destruct (find_req_In _ _ _ Ex) as [_ <-]. split; [now left|]. now split.
    + intros H. apply IH in H. destruct H as (H1 & H2 & H3). split; [now right|]. now split.
  - intros H. apply IH in H. destruct H as (H1 & H2 & H3). split; [now right|]. now split.
Qed.

Lemma firstn_pad bs ks : firstn (length ks) (pad bs ks) = ks.
Proof. unfold pad. rewrite firstn_app, Nat.sub_diag, firstn_all. cbn. apply app_nil_r. Qed.

Lemma find_cl_cid c l x : find_cl c l = Some x -> find_cl (cid x) l = Some x.
Proof. intros H. destruct (find_cl_In _ _ _ H) as [_ ->]. exact H. Qed.

Lemma dispatch_busy bs m i c a st :
  Inv st -> busy st c = true -> dispatch_free_client offset bs m i c a st = (st, false).
Proof.
  intros H Hb. unfold busy in Hb. apply existsb_exists in Hb. destruct Hb as (j & Hj & He).
  apply Nat.eqb_eq in He. destruct (i_jcl _ H j Hj) as (cl & H1 & H2 & _).
  unfold dispatch_free_client. rewrite He in H1. rewrite H1. unfold usable. rewrite H2. reflexivity.
Qed.

Lemma inv_dispatch bs m i c a st :
  Inv st -> Inv (fst (dispatch_free_client offset bs m i c a st)).
Proof.
  intros H. destruct (busy st c) eqn:Hb; [now rewrite dispatch_busy|].
  unfold dispatch_free_client.
  destruct (find_cl c (clients st)) as [fc|] eqn:Efc; [|easy].
  assert (Hc := find_cl_cid _ _ _ Efc).
  assert (Hcc : cid fc = c) by now destruct (find_cl_In _ _ _ Efc).
  destruct (negb (usable fc)); [easy|].
  destruct (1 <? bs) eqn:Ebs.
  - destruct (prl st) as [|k0 pl] eqn:Ep; [easy|]. rewrite <- Ep.
    apply inv_assign; try easy.
    + now rewrite Hcc.
    + apply Nat.ltb_lt in Ebs. destruct bs; [lia|]. now rewrite Ep.
    + apply NoDup_firstn. now destruct H.
    + intros k. apply In_firstn.
    + apply firstn_pad.
  - destruct (pick m i (clients st) fc (reqs st) (prl st)) as [r|] eqn:Er; [|easy].
    apply pick_spec in Er. destruct Er as (H1 & H2 & H3).
    apply inv_assign; try easy.
    + now rewrite Hcc.
    + repeat constructor. easy.
    + intros k [<-|[]]. easy.
Qed.

Lemma inv_step bs m st e : Inv st -> Inv (step bs m st e).
Proof.
  intros H. destruct e as [id|k|p| | |i c a|c a|c|n]; cbn [SockModel.step].
  - now apply inv_queue.
  - now apply inv_release.
  - destruct (crashed st); [easy | now apply inv_accept].
  - destruct (crashed st); [easy | now apply inv_prune].
  - destruct (crashed st); [easy | now apply inv_refill].
  - destruct (crashed st); [easy | now apply inv_dispatch].
  - destruct (crashed st); [easy | now apply inv_recv].
  - destruct (crashed st); [easy | now apply inv_timeout].
  - destruct (crashed st); [easy|]. destruct H. now constructor.
Qed.

Lemma inv_run bs m es : forall st, Inv st -> Inv (run bs m es st).
Proof.
  induction es as [|e es IH]; intros st H; [easy|]. cbn. apply IH. now apply inv_step.
Qed.

Theorem inv_reachable bs m es : Inv (run bs m es (init (E:=E) (P:=P))).
Proof. apply inv_run. apply inv_init. Qed.

End Proofs.
