(** * Theorems of record about races on finished requests (C18, C19) *)
From Coq Require Import List Arith Lia Bool ZArith.
From Verif Require Import RaceModel.
Import ListNotations.

(** ** Part 1: the offset *)
Section Offset.
Context {E : Type}.
Variable sub : E -> E -> E.
Variable offset : E.
Notation sched := (sched sub offset).
Notation wstep := (wstep sub offset).

(** The result once the evaluating thread has finished. *)
Definition final (c : option E) (w : list (@wact E)) : option E :=
  fold_left (fun c a => match a with
                        | WPut e => Some e
                        | WMark => c
                        | WSub => option_map (fun x => sub x offset) c
                        end) w c.
Definition marks (w : list (@wact E)) : Prop := In WMark w.

Lemma sched_snoc s b c : sched (s ++ [b]) c = (let c' := sched s c in if b then wstep c' else rstep c').
Proof. unfold RaceModel.sched. now rewrite fold_left_app. Qed.

(** C18. ForceBead.get_all: for any evaluating thread, in any interleaving, what
    is returned is the result after the thread has ended. *)
Theorem get_all_reads_final_result (w : list wact) s :
  forall v, In v (out (sched s (start w get_all))) -> v = final None w.
Proof.
  assert (H : let c := sched s (start w get_all) in
    final (cell c) (work c) = final None w /\
    ((rd c = get_all \/ rd c = [RJoin; RRead]) /\ out c = [] \/
     (rd c = [RRead] /\ work c = [] /\ out c = []) \/
     (rd c = [] /\ work c = [] /\ out c = [cell c]))).
  { induction s as [|b s IH] using rev_ind; [cbn; split; [easy|]; left; split; [now left|easy]|].
    rewrite sched_snoc. cbv zeta in *. set (c := sched s (start w get_all)) in *.
    destruct IH as [Hf IH]. destruct b.
    - unfold RaceModel.wstep. destruct (work c) as [|a w'] eqn:Ew.
      + rewrite Ew. now split.
      + assert (Hx : final (cell (wstep c)) (work (wstep c)) = final None w).
        { rewrite <- Hf. unfold RaceModel.wstep. rewrite Ew. now destruct a. }
        unfold RaceModel.wstep in Hx. rewrite Ew in Hx.
        split; [exact Hx|]. destruct IH as [IH|[IH|IH]]; [|destruct IH as (_ & IH & _); congruence..].
        left. now destruct a.
    - unfold RaceModel.rstep. destruct IH as [[[Hr|Hr] Ho]|[(Hr & Hw & Ho)|(Hr & Hw & Ho)]].
      + rewrite Hr. cbn. destruct (done c); cbn; (split; [easy|]); left; rewrite Ho; tauto.
      + rewrite Hr. cbn. destruct (work c) as [|a w'] eqn:Ew; cbn.
        * split; [easy|]. right. left. easy.
        * rewrite Ew. split; [easy|]. left. split; [now right | easy].
      + rewrite Hr. cbn. rewrite Ho, Hw in *. cbn. split; [easy|]. right. right. easy.
      + rewrite Hr. split; [easy|]. right. right. easy. }
  cbv zeta in H. intros v Hv. destruct H as [Hf [[_ Ho]|[(_ & _ & Ho)|(_ & Hw & Ho)]]];
    rewrite Ho in Hv; [destruct Hv|destruct Hv|]. destruct Hv as [<-|[]]. rewrite <- Hf, Hw. easy.
Qed.

(** C18. If Done is set as the last thing, any reader that first waits for Done
    sees the final result. *)
Theorem mark_last_reads_final_result (p : list wact) r s :
  ~ In WMark p ->
  forall v, In v (out (sched s (start (p ++ [WMark]) (RWait :: r)))) -> v = final None p.
Proof.
  intros Hp.
  assert (H : let c := sched s (start (p ++ [WMark]) (RWait :: r)) in
    (done c = false /\ rd c = RWait :: r /\ out c = [] /\
     exists q, work c = q ++ [WMark] /\ ~ In WMark q /\ final (cell c) q = final None p) \/
    (done c = true /\ work c = [] /\ cell c = final None p /\ forall v, In v (out c) -> v = final None p)).
  { induction s as [|b s IH] using rev_ind; [left; cbn; repeat split; try easy; exists p; now split|].
    rewrite sched_snoc. cbv zeta in *. set (c := sched s _) in *.
    destruct b.
    - unfold RaceModel.wstep. destruct IH as [(Hd & Hr & Ho & q & Hw & Hq & Hf)|(Hd & Hw & Hc & Ho)].
      + rewrite Hw. destruct q as [|a q]; cbn.
        * right. repeat split; try easy. rewrite Ho. easy.
        * left. assert (Ha : a <> WMark) by (intros ->; apply Hq; now left).
          assert (Hq' : ~ In WMark q) by (intros Hi; apply Hq; now right).
          destruct a; cbn; try (now destruct Ha); (repeat split; try easy; exists q; easy).
      + rewrite Hw. right. easy.
    - unfold RaceModel.rstep. destruct IH as [(Hd & Hr & Ho & Hx)|(Hd & Hw & Hc & Ho)].
      + rewrite Hr, Hd. left. easy.
      + right. destruct (rd c) as [|[| |] rr]; cbn; rewrite ?Hd, ?Hw; cbn; try easy.
        repeat split; try easy. intros v Hv. apply in_app_iff in Hv. destruct Hv as [Hv|[<-|[]]]; auto. }
  cbv zeta in H. intros v Hv. destruct H as [(_ & _ & Ho & _)|(_ & _ & _ & Ho)]; [|auto].
  rewrite Ho in Hv. easy.
Qed.

(** C18. The instances: a thread waiting in get_all sees the offset removed for
    every kind of force field; a composite force field does for members that are
    FFDirect, sockets or composite. *)
Theorem done_request_has_offset_removed e s :
  (forall v, In v (out (sched s (start (ffeval e) get_all))) -> v = Some (sub e offset)) /\
  (forall r v, In v (out (sched s (start (ffdirect sub offset e) (RWait :: r)))) -> v = Some (sub e offset)) /\
  (forall r v, In v (out (sched s (start (put_sub_mark e) (RWait :: r)))) -> v = Some (sub e offset)).
Proof.
  split; [|split].
  - intros v Hv. now apply get_all_reads_final_result in Hv.
  - intros r v Hv. apply (mark_last_reads_final_result [WPut (sub e offset)]) in Hv; [easy|].
    intros [H|[]]; discriminate.
  - intros r v Hv. apply (mark_last_reads_final_result [WPut e; WSub]) in Hv; [easy|].
    intros [H|[H|[]]]; discriminate.
Qed.
End Offset.

(** C18 is false for a committee or rotation average of a threaded FFEval (e.g.
    FFLennardJones): the offset may still be there when the potential is read. *)
Theorem committee_may_miss_offset_refuted :
  exists s (e off : Z), off <> 0%Z /\ In (Some e) (out (sched Z.sub off s (start (ffeval e) gather))).
Proof. exists [true; true; false; false], 7%Z, 2%Z. split; [easy|]. cbn. now left. Qed.

(** ** Part 2: composite requests *)

Lemma cloop_done rot n : forall i st k, cst st k = CDone -> cst (cloop rot n i st) k = CDone.
Proof.
  induction n as [|n IH]; intros i st k H; cbn; [easy|].
  destruct (nth_error (clist st) i) as [k'|]; [|easy]. destruct (cready st k'); apply IH; [|easy].
  cbn. unfold upd. now destruct (k =? k').
Qed.

Lemma cloop_pend rot n : forall i st, cpend (cloop rot n i st) = cpend st /\ cnext (cloop rot n i st) = cnext st.
Proof.
  induction n as [|n IH]; intros i st; cbn; [easy|].
  destruct (nth_error (clist st) i) as [k'|]; [|easy]. destruct (cready st k'); now rewrite !(proj1 (IH _ _)), !(proj2 (IH _ _)).
Qed.

Lemma committee_pend es : cpend (crun false es cinit) = [].
Proof.
  induction es as [|e es IH] using rev_ind; [easy|]. unfold crun in *. rewrite fold_left_app. cbn [fold_left].
  set (st := fold_left _ es cinit) in *. destruct e; cbn; try easy.
  - unfold csetrunning. now rewrite IH.
  - unfold cpoll. now rewrite (proj1 (cloop_pend _ _ _ _)).
  - now destruct (cst st k).
Qed.

Lemma next_run_mono rot es : forall st, cnext st <= cnext (crun rot es st).
Proof.
  induction es as [|e es IH]; intros st; [easy|]. cbn. etransitivity; [|apply IH].
  destruct e; cbn; try lia.
  - unfold csetrunning. destruct (existsb _ _); cbn; lia.
  - unfold cpoll. rewrite (proj2 (cloop_pend _ _ _ _)). lia.
  - destruct (cst st k); cbn; lia.
Qed.

Lemma done_step rot st e k :
  cst st k = CDone -> k < cnext st -> ~ In k (cpend st) ->
  cst (cstep rot st e) k = CDone /\ k < cnext (cstep rot st e) /\ ~ In k (cpend (cstep rot st e)).
Proof.
  intros Hd Hlt Hp. destruct e as [|k'|k'| |k']; cbn.
  - unfold upd. destruct (Nat.eqb_spec k (cnext st)); [lia|]. repeat split; [easy|lia|].
    destruct rot; [|easy]. intros [H|H]; [lia|easy].
  - unfold csetrunning. destruct (existsb (Nat.eqb k') (cpend st)) eqn:Ee; [|easy]. cbn.
    apply existsb_exists in Ee. destruct Ee as (x & Hx & Hxk). apply Nat.eqb_eq in Hxk. subst x.
    unfold upd. destruct (Nat.eqb_spec k k'); [congruence|]. repeat split; try easy.
    intros H. apply filter_In in H. easy.
  - easy.
  - unfold cpoll. rewrite (proj1 (cloop_pend _ _ _ _)), (proj2 (cloop_pend _ _ _ _)).
    split; [now apply cloop_done | easy].
  - destruct (cst st k'); easy.
Qed.

Lemma done_forever rot es : forall st k,
  cst st k = CDone -> k < cnext st -> ~ In k (cpend st) -> cst (crun rot es st) k = CDone.
Proof.
  induction es as [|e es IH]; intros st k Hd Hlt Hp; [easy|]. cbn.
  destruct (done_step rot st e k Hd Hlt Hp) as (H1 & H2 & H3). now apply IH.
Qed.

(** C19. A committee request that is Done stays Done. *)
Theorem committee_done_is_final es es' k :
  let st := crun false es cinit in
  k < cnext st -> cst st k = CDone -> cst (crun false (es ++ es') cinit) k = CDone.
Proof.
  intros st Hlt Hd. unfold crun. rewrite fold_left_app. apply done_forever; [easy|easy|].
  pose proof (committee_pend es) as H. unfold crun in H. rewrite H. easy.
Qed.

(** C19. A rotation-averaged request stays Done if the polling thread reaches it
    only after queue() has returned. *)
Theorem rotations_done_is_final_partial es es' k :
  let st := crun true es cinit in
  k < cnext st -> cst st k = CDone -> ~ In k (cpend st) ->
  cst (crun true (es ++ es') cinit) k = CDone.
Proof. intros st Hlt Hd Hp. unfold crun. rewrite fold_left_app. now apply done_forever. Qed.

(** C19 is false for FFRotations: if the inner requests are finished when the
    request is appended, the polling thread may finish and remove it before
    queue() sets "Running"; it is never Done again. *)
Lemma running_forever rot es : forall st k,
  cst st k = CRunning -> k < cnext st -> ~ In k (cpend st) -> ~ In k (clist st) ->
  cst (crun rot es st) k = CRunning.
Proof.
  induction es as [|e es IH]; intros st k Hd Hlt Hp Hl; [easy|]. cbn.
  assert (H : cst (cstep rot st e) k = CRunning /\ k < cnext (cstep rot st e) /\
              ~ In k (cpend (cstep rot st e)) /\ ~ In k (clist (cstep rot st e))).
  { destruct e as [|k'|k'| |k']; cbn.
    - unfold upd. destruct (Nat.eqb_spec k (cnext st)); [lia|]. repeat split; [easy|lia| |].
      + destruct rot; [|easy]. intros [H|H]; [lia|easy].
      + rewrite in_app_iff. cbn. intros [H|[H|[]]]; [easy|lia].
    - unfold csetrunning. destruct (existsb (Nat.eqb k') (cpend st)) eqn:Ee; [|easy]. cbn.
      apply existsb_exists in Ee. destruct Ee as (x & Hx & Hxk). apply Nat.eqb_eq in Hxk. subst x.
      unfold upd. destruct (Nat.eqb_spec k k'); [congruence|]. repeat split; try easy.
      intros H. apply filter_In in H. easy.
    - easy.
    - unfold cpoll. generalize (length (clist st)), 0. clear IH.
      revert st Hd Hlt Hp Hl. intros st Hd Hlt Hp Hl n. revert st Hd Hlt Hp Hl.
      induction n as [|n IHn]; intros st Hd Hlt Hp Hl i; cbn; [easy|].
      destruct (nth_error (clist st) i) as [k'|] eqn:En; [|easy].
      assert (Hne : k' <> k) by (intros ->; apply nth_error_In in En; easy).
      destruct (cready st k'); [|now apply IHn]. apply IHn; cbn; try easy.
      + unfold upd. destruct (Nat.eqb_spec k k'); [congruence|easy].
      + destruct rot; [|easy]. unfold cremove. intros H. apply filter_In in H. easy.
    - destruct (cst st k'); try easy. cbn. repeat split; try easy.
      unfold cremove. intros H. apply filter_In in H. easy. }
  destruct H as (H1 & H2 & H3 & H4). now apply IH.
Qed.
Theorem rotations_request_lost_refuted :
  exists es k,
    cst (crun true (firstn 3 es) cinit) k = CDone /\
    forall es', cst (crun true (es ++ es') cinit) k = CRunning.
Proof.
  exists [CAppend; CSub 0; CPoll; CSetRunning 0], 0. split; [reflexivity|].
  intros es'. unfold crun. rewrite fold_left_app. apply running_forever; cbn; try lia; try easy.
Qed.

(** ** Every poll makes progress *)

Fixpoint count (f : nat -> bool) (l : list nat) : nat :=
  match l with [] => 0 | k :: l' => (if f k then 1 else 0) + count f l' end.

Lemma count_le f g l : (forall k, In k l -> f k = true -> g k = true) -> count f l <= count g l.
Proof.
  induction l as [|k l IH]; intros H; cbn; [lia|].
  specialize (IH (fun x Hx => H x (or_intror Hx))).
  pose proof (H k (or_introl eq_refl)). destruct (f k), (g k); try lia.
Qed.
Lemma count_remove f k l : count f (cremove k l) <= count f l.
Proof. induction l as [|x l IH]; [easy|]. unfold cremove in *. cbn. destruct (x =? k); cbn; destruct (f x); lia. Qed.
Lemma count_remove_lt f g k l : In k l -> g k = true -> f k = false ->
  (forall x, f x = true -> g x = true) -> count f l < count g l.
Proof.
  induction l as [|x l IH]; intros Hi Hg Hf Hfg; [easy|]. cbn.
  assert (count f l <= count g l) by (apply count_le; auto).
  destruct Hi as [->|Hi].
  - rewrite Hg, Hf. lia.
  - specialize (IH Hi Hg Hf Hfg). destruct (f x) eqn:Ef; [rewrite (Hfg x Ef); lia | destruct (g x); lia].
Qed.

(** Requests in the list that could be finished. *)
Definition pending (st : cstate) : nat := count (cready st) (clist st).

Lemma finish_pending (rot : bool) st k : In k (clist st) -> cready st k = true ->
  pending (mkC (if rot then cremove k (clist st) else clist st) (upd (cst st) k CDone) (csub st)
               (cpend st) (cnext st)) < pending st.
Proof.
  intros Hi Hr. unfold pending. match goal with |- count (cready ?s) _ < _ => set (st' := s) end.
  assert (H : count (cready st') (clist st) < count (cready st) (clist st)).
  { apply (count_remove_lt _ _ k); try easy.
    - unfold cready, st', upd. cbn. rewrite Nat.eqb_refl. now rewrite andb_false_r.
    - intros x. unfold cready, st', upd. cbn. destruct (x =? k); [now rewrite andb_false_r | easy]. }
  unfold st' at 2. cbn [clist]. destruct rot; [|easy].
  pose proof (count_remove (cready st') k (clist st)). lia.
Qed.

Lemma cloop_mono rot n : forall i st, pending (cloop rot n i st) <= pending st.
Proof.
  induction n as [|n IH]; intros i st; cbn; [lia|]. destruct (nth_error (clist st) i) as [k|] eqn:En; [|lia].
  destruct (cready st k) eqn:Er; [|apply IH]. etransitivity; [apply IH|].
  apply Nat.lt_le_incl. apply finish_pending; [now apply nth_error_In in En | easy].
Qed.

Lemma cloop_progress rot n : forall i st, length (clist st) <= i + n ->
  (exists k, In k (skipn i (clist st)) /\ cready st k = true) -> pending (cloop rot n i st) < pending st.
Proof.
  induction n as [|n IH]; intros i st Hl (k & Hk & Hr); cbn.
  - rewrite skipn_all2 in Hk by lia. easy.
  - destruct (nth_error (clist st) i) as [k'|] eqn:En.
    + destruct (cready st k') eqn:Er.
      * eapply Nat.le_lt_trans; [apply cloop_mono|]. apply finish_pending; [now apply nth_error_In in En | easy].
      * apply IH; [lia|]. exists k. split; [|easy].
        assert (Hs : skipn i (clist st) = k' :: skipn (S i) (clist st)).
        { clear -En. revert i En. induction (clist st) as [|x l IHl]; intros [|i] En; cbn in *; try easy.
          - now injection En as ->.
          - now apply IHl. }
        rewrite Hs in Hk. destruct Hk as [->|Hk]; [congruence | easy].
    + apply nth_error_None in En. rewrite skipn_all2 in Hk by lia. easy.
Qed.

(** C19. A poll finishes at least one of the requests that can be finished, even
    though FFRotations removes entries from the list it iterates over; so as many
    polls as there are such requests finish them all. *)
Theorem composite_poll_progress rot st n :
  pending st <= n -> pending (crun rot (repeat CPoll n) st) = 0.
Proof.
  revert st. induction n as [|n IH]; intros st Hn; cbn; [lia|].
  apply IH. destruct (Nat.eq_dec (pending st) 0) as [H0|H0].
  - unfold cpoll. pose proof (cloop_mono rot (length (clist st)) 0 st). lia.
  - enough (pending (cpoll rot st) < pending st) by lia. apply cloop_progress; [lia|].
    cbn. unfold pending in H0. clear -H0. induction (clist st) as [|k l IH]; cbn in H0; [lia|].
    destruct (cready st k) eqn:Er; [exists k; split; [now left|easy]|].
    destruct IH as (x & Hx & Hr); [cbn in H0; lia|]. exists x. split; [now right|easy].
Qed.

(** ** The hypotheses are met *)
Example get_all_case : out (sched Z.sub 2%Z [true; true; false; false; true; false; false] (start (ffeval 7%Z) get_all)) = [Some 5%Z].
Proof. reflexivity. Qed.
Example gather_direct_case : out (sched Z.sub 2%Z [true; false; true; false; false] (start (ffdirect Z.sub 2%Z 7%Z) gather)) = [Some 5%Z].
Proof. reflexivity. Qed.
Example committee_case :
  let st := crun false [CAppend; CAppend; CSub 1; CPoll] cinit in 1 < cnext st /\ cst st 1 = CDone /\ cst st 0 = CQueued.
Proof. vm_compute. repeat split; lia. Qed.
Example rotations_case :
  let st := crun true [CAppend; CSetRunning 0; CSub 0; CPoll] cinit in
  0 < cnext st /\ cst st 0 = CDone /\ cpend st = [].
Proof. vm_compute. repeat split; lia. Qed.
(** The second of two finished requests is skipped by the first poll. *)
Example rotations_skip :
  let st := crun true [CAppend; CSetRunning 0; CAppend; CSetRunning 1; CSub 0; CSub 1] cinit in
  pending st = 2 /\ cst (crun true [CPoll] st) 1 = CRunning /\ cst (crun true [CPoll; CPoll] st) 1 = CDone.
Proof. vm_compute. repeat split. Qed.

Print Assumptions get_all_reads_final_result.
Print Assumptions mark_last_reads_final_result.
Print Assumptions done_request_has_offset_removed.
Print Assumptions committee_may_miss_offset_refuted.
Print Assumptions committee_done_is_final.
Print Assumptions rotations_done_is_final_partial.
Print Assumptions rotations_request_lost_refuted.
Print Assumptions composite_poll_progress.
