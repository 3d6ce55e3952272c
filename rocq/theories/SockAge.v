(** * The list of requests and the waiting list are in order of arrival *)
From Coq Require Import List Arith Lia Bool Sorting.Sorted.
From Verif Require Import SockModel SockSpec SockProofs SockThms.
Import ListNotations.

Section Age.
Context {E P : Type}.
Variable sub : E -> E -> E.
Variable offset : E.
Variable energy : nat -> E.
Variable payload : nat -> P.
Notation state := (state E P).
Notation request := (request E P).
Notation step := (step sub offset energy payload).
Notation run := (run sub offset energy payload).

(** Strictly increasing: keys are handed out in order of arrival. *)
Definition in_order (l : list nat) : Prop := StronglySorted lt l.

Lemma in_order_filter (f : request -> bool) (l : list request) :
  in_order (map rkey l) -> in_order (map rkey (filter f l)).
Proof.
  unfold in_order. induction l as [|r l IH]; cbn; [easy|]. intros H. inversion H; subst.
  destruct (f r); cbn; [|now apply IH]. constructor; [now apply IH|].
  apply Forall_forall. intros k Hk. rewrite Forall_forall in H3. apply H3.
  apply in_map_iff in Hk. destruct Hk as (x & <- & Hx). apply filter_In in Hx.
  apply in_map. apply Hx.
Qed.

Lemma in_order_snoc l k : in_order l -> (forall x, In x l -> x < k) -> in_order (l ++ [k]).
Proof.
  unfold in_order. induction l as [|x l IH]; cbn; intros H Hk.
  - constructor; constructor.
  - inversion H; subst. constructor.
    + apply IH; [easy|]. intros y Hy. apply Hk. now right.
    + apply Forall_app. split; [easy|]. constructor; [|constructor]. apply Hk. now left.
Qed.

Lemma in_order_remove1 k l : in_order l -> in_order (remove1 k l).
Proof.
  unfold in_order. induction l as [|x l IH]; cbn; [easy|]. intros H. inversion H; subst.
  destruct (x =? k); [easy|]. constructor; [now apply IH|].
  rewrite Forall_forall in *. intros y Hy. apply H3. clear -Hy.
  induction l as [|z l IH]; cbn in *; [easy|]. destruct (z =? k); [now right|].
  destruct Hy as [->|Hy]; [now left|right; auto].
Qed.

Lemma in_order_removes ks : forall l, in_order l -> in_order (fold_left (fun l k => remove1 k l) ks l).
Proof. induction ks as [|k ks IH]; cbn; [easy|]. intros l H. apply IH. now apply in_order_remove1. Qed.

Lemma prl_assign ks sent lock fc a (st : state) :
  prl (fst (assign offset ks sent lock fc a st)) = fold_left (fun l k => remove1 k l) ks (prl st).
Proof.
  unfold assign. destruct (dispatch_send _ sent a) as [[fc2 started] ok]. now destruct ok.
Qed.

Lemma prl_step bs m (st : state) e :
  in_order (map rkey (reqs st)) -> in_order (prl st) -> in_order (prl (step bs m st e)).
Proof.
  intros Hr Hp. destruct e as [id|k|p| | |i c a|c a|c|n]; cbn [SockModel.step]; try easy;
    (destruct (crashed st); [easy|]).
  - unfold accept. destruct (negb _); easy.
  - unfold pool_prune. destruct (prune (clients st) (jobs st)); easy.
  - cbn. now apply in_order_filter.
  - unfold dispatch_free_client.
    destruct (find_cl c (clients st)) as [fc|]; [|easy].
    destruct (negb (usable fc)); [easy|]. destruct (1 <? bs).
    + destruct (prl st) as [|k0 pl] eqn:Ep; [cbn; now rewrite Ep|]. rewrite prl_assign, Ep.
      now apply in_order_removes.
    + destruct (pick _ _ _ _ _ _); [|easy]. rewrite prl_assign. now apply in_order_removes.
  - unfold recv_job.
    destruct (job_of c (jobs st)) as [[ks c']|]; [|easy].
    destruct (find_cl c (clients st)) as [cl|]; [|easy]. now destruct a.
  - unfold timeout_job.
    destruct (job_of c (jobs st)) as [[ks c']|]; [|easy].
    destruct (find_req (hd 0 ks) (reqs st)) as [r|]; [|easy]. now destruct (rstart r).
  - easy.
Qed.

Lemma order_step bs m (st : state) e :
  (forall r, In r (reqs st) -> rkey r < nextk st) ->
  in_order (map rkey (reqs st)) -> in_order (map rkey (reqs (step bs m st e))).
Proof.
  intros Hlt H. pose proof (keys_step sub offset energy payload bs m st e) as Hk.
  destruct e as [id|k|p| | |i c a|c a|c|n];
    try (destruct Hk as [Hk _]; now rewrite Hk).
  - destruct Hk as [-> _]. apply in_order_snoc; [easy|]. intros x Hx.
    apply in_map_iff in Hx. destruct Hx as (r & <- & Hr). now apply Hlt.
  - cbn. now apply in_order_filter.
Qed.

Lemma order_reachable bs m es :
  let st := run bs m es (@init E P) in
  in_order (map rkey (reqs st)) /\ in_order (prl st).
Proof.
  cbn zeta. induction es as [|e es IH] using rev_ind; [cbn; split; constructor|].
  unfold SockModel.run in *. rewrite fold_left_app. cbn [fold_left]. destruct IH as [H1 H2].
  pose proof (inv_reachable sub offset energy payload bs m es) as HI.
  split.
  - apply order_step; [|easy]. apply HI.
  - now apply prl_step.
Qed.

(** In an ordered list, what is smaller than an element comes before it. *)
Lemma in_order_before pre k post x :
  in_order (pre ++ k :: post) -> In x (pre ++ k :: post) -> x < k -> In x pre.
Proof.
  intros H Hx Hlt. apply in_app_iff in Hx. destruct Hx as [Hx|[Hx|Hx]]; [easy|lia|].
  exfalso. induction pre as [|y pre IH]; cbn in H; inversion H; subst; [|now apply IH].
  rewrite Forall_forall in H3. apply H3 in Hx. lia.
Qed.

End Age.
