(** * Theorems of record about direct force evaluation (C16, C17) *)
From Coq Require Import List Arith Lia Bool ZArith.
From Verif Require Import DirectModel DirectProofs.
Import ListNotations.

Section AnyDriver.
Context {E P : Type}.
Variable sub : E -> E -> E.
Variable offset : E.
Variable bs : nat.
Variable drv1 : nat -> option (E * P).
Variable drv : list nat -> option (list (E * P)).
Notation dstate := (dstate E P).
Notation dstep := (dstep sub offset bs drv1 drv).
Notation drun := (drun sub offset bs drv1 drv).
Notation poll_requests := (poll_requests sub offset bs drv1 drv).
Notation evaluate := (evaluate sub offset bs drv1 drv).

Lemma launch_keys (st : dstate) : map dkey (dreqs (launch_batch sub offset drv st)) = map dkey (dreqs st).
Proof. unfold launch_batch. destruct (drv (batch st)); [apply process_all_keys | easy]. Qed.

Lemma evaluate_keys k (st : dstate) : map dkey (dreqs (evaluate k st)) = map dkey (dreqs st).
Proof.
  unfold DirectModel.evaluate. destruct (bs =? 1).
  - destruct (drv1 k); [|easy]. cbn. now apply set_req_keys.
  - destruct (bs <=? _); [now rewrite launch_keys | easy].
Qed.

Lemma poll_requests_keys ks : forall st : dstate,
  map dkey (dreqs (fst (poll_requests ks st))) = map dkey (dreqs st).
Proof.
  induction ks as [|k ks IH]; intros st; cbn; [easy|]. destruct (dead st); [easy|].
  destruct (get_req k (dreqs st)); [|apply IH]. destruct (dstatus_eqb _ _); [|apply IH].
  match goal with |- context [poll_requests ks ?x] => specialize (IH x); destruct (poll_requests ks x) end.
  cbn in *. rewrite IH, evaluate_keys. cbn. now apply set_req_keys.
Qed.

Lemma dpoll_keys (st : dstate) : map dkey (dreqs (dpoll sub offset bs drv1 drv st)) = map dkey (dreqs st).
Proof.
  unfold dpoll. destruct (dead st); [easy|].
  pose proof (poll_requests_keys (map dkey (dreqs st)) st) as H.
  destruct (poll_requests _ st) as [st1 b]. cbn in H. destruct (dead st1); [easy|].
  destruct (_ && _); [|easy]. destruct (bs <=? _); [|easy]. now rewrite launch_keys.
Qed.

(** C16. Whatever the driver does, a request stays in the list until it is
    released. *)
Theorem direct_request_never_lost es : forall (st : dstate) k,
  In k (map dkey (dreqs st)) -> ~ In (DRelease k) es -> In k (map dkey (dreqs (drun es st))).
Proof.
  induction es as [|e es IH]; intros st k Hk Hn; [easy|]. cbn. apply IH; [|intros H; apply Hn; now right].
  destruct e as [|k'|]; cbn.
  - rewrite map_app. apply in_app_iff. now left.
  - apply in_map_iff in Hk. destruct Hk as (r & Hr & Hi). subst k. apply in_map. apply filter_In.
    split; [easy|]. destruct (Nat.eqb_spec (dkey r) k') as [e|e]; [|easy].
    exfalso. apply Hn. left. congruence.
  - now rewrite dpoll_keys.
Qed.

(** A request that is running but in no batch is never looked at again. *)
Definition stuck (k : nat) (st : dstate) : Prop :=
  (exists r, In r (dreqs st) /\ dkey r = k /\ dst r = DRunning) /\
  (forall r, In r (dreqs st) -> dkey r = k -> dst r = DRunning) /\ ~ In k (batch st) /\ k < dnext st.

Lemma process_all_other res : forall ks k (l : list (dreq E P)) r, ~ In k ks -> dkey r = k ->
  (In r (process_all sub offset ks res l) <-> In r l).
Proof.
  induction res as [|ep res IH]; intros [|k' ks] k l r Hn Hk; cbn; try easy.
  rewrite IH with (k := k) by (try easy; intros H; apply Hn; now right).
  unfold process_results. rewrite In_set_req. split.
  - intros [[H _]|[(r0 & _ & H0 & ->)|[]]]; [easy|]. cbn in Hk. exfalso. apply Hn. left. congruence.
  - intros H. left. split; [easy|]. intros H0. apply Hn. left. congruence.
Qed.

Lemma launch_stuck k (st : dstate) : stuck k st -> stuck k (launch_batch sub offset drv st).
Proof.
  intros ((r & Hr & Hk & Hs) & Ha & Hb & Hlt). unfold launch_batch.
  destruct (drv (batch st)) as [res|].
  - split; [|split; [|split; [easy|easy]]]; cbn [dreqs].
    + exists r. split; [|easy]. now apply (process_all_other res _ k).
    + intros r' Hr' Hk'. rewrite (process_all_other res _ k) in Hr' by easy. now apply Ha.
  - split; [now exists r|]. easy.
Qed.

Lemma evaluate_stuck k k' (st : dstate) : k' <> k -> stuck k st -> stuck k (evaluate k' st).
Proof.
  intros Hne Hst. unfold DirectModel.evaluate. destruct (bs =? 1).
  - destruct Hst as ((r & Hr & Hk & Hs) & Ha & Hb & Hlt). destruct (drv1 k') as [ep|].
    + split; [|split; [|easy]]; cbn; unfold process_results.
      * exists r. split; [|easy]. rewrite In_set_req. left. split; [easy|congruence].
      * intros r' Hr' Hk'. rewrite In_set_req in Hr'. destruct Hr' as [[H _]|[(r0 & _ & H0 & ->)|[]]]; [now apply Ha|].
        cbn in Hk'. congruence.
    + split; [now exists r|]. easy.
  - assert (H : stuck k (mkD (dreqs st) (batch st ++ [k']) (idle st) (evals st) (dead st) (dnext st))).
    { destruct Hst as (H1 & Ha & Hb & Hlt). split; [easy|]. split; [easy|]. split; [|easy]. cbn.
      rewrite in_app_iff. cbn. intros [?|[?|[]]]; [easy|congruence]. }
    destruct (bs <=? _); [now apply launch_stuck | exact H].
Qed.

Lemma poll_requests_stuck k ks : forall st : dstate, stuck k st -> stuck k (fst (poll_requests ks st)).
Proof.
  induction ks as [|k' ks IH]; intros st Hst; cbn; [easy|]. destruct (dead st) eqn:Ed; [easy|].
  destruct (get_req k' (dreqs st)) as [r|] eqn:Eg; [|now apply IH].
  destruct (dstatus_eqb (dst r) DQueued) eqn:Es; [|now apply IH].
  match goal with |- context [poll_requests ks ?x] => specialize (IH x); destruct (poll_requests ks x) end.
  cbn in *. apply IH. apply get_req_In in Eg. destruct Eg as [Hr Hk'].
  assert (Hne : k' <> k).
  { intros ->. destruct Hst as (_ & Ha & _). rewrite (Ha r Hr Hk') in Es. discriminate. }
  apply evaluate_stuck; [easy|]. destruct Hst as ((x & Hx & Hkx & Hsx) & Ha & Hb & Hlt).
  split; [|split; [|easy]]; cbn.
  - exists x. split; [|easy]. rewrite In_set_req. left. split; [easy|congruence].
  - intros y Hy Hky. rewrite In_set_req in Hy. destruct Hy as [[H _]|[(r0 & _ & H0 & ->)|[]]]; [now apply Ha|].
    cbn in Hky. congruence.
Qed.

Lemma stuck_step k (st : dstate) e : stuck k st -> stuck k (dstep st e).
Proof.
  intros Hst. destruct e as [|k'|]; cbn.
  - destruct Hst as ((r & Hr & Hk & Hs) & Ha & Hb & Hlt). split; [|split; [|split]]; cbn.
    + exists r. split; [apply in_app_iff; now left | easy].
    + intros x Hx Hkx. apply in_app_iff in Hx. destruct Hx as [Hx|[<-|[]]]; [now apply Ha|]. cbn in Hkx. lia.
    + easy.
    + lia.
  - destruct Hst as ((r & Hr & Hk & Hs) & Ha & Hb & Hlt). split; [|split; [|split]]; cbn; try easy.
    + exists r. split; [|easy]. apply filter_In. split; [easy|]. rewrite Hs. cbn. now rewrite andb_false_r.
    + intros x Hx Hkx. apply filter_In in Hx. now apply Ha.
  - unfold dpoll. destruct (dead st); [easy|].
    pose proof (poll_requests_stuck k (map dkey (dreqs st)) st Hst) as H.
    destruct (poll_requests _ st) as [st1 b]. cbn in H. destruct (dead st1) eqn:Ed; [easy|].
    assert (H2 : forall i, stuck k (mkD (dreqs st1) (batch st1) i (evals st1) false (dnext st1))) by easy.
    destruct (_ && _); [|easy]. destruct (bs <=? _); [|apply H2]. apply launch_stuck. apply H2.
Qed.

Lemma stuck_forever k es : forall st : dstate, stuck k st -> stuck k (drun es st).
Proof. induction es as [|e es IH]; intros st H; [easy|]. cbn. apply IH. now apply stuck_step. Qed.

End AnyDriver.

Section Honest.
Context {E P : Type}.
Variable sub : E -> E -> E.
Variable offset : E.
Variable bs : nat.
Variable f : nat -> E * P.
Variable drv1 : nat -> option (E * P).
Variable drv : list nat -> option (list (E * P)).
Notation drun := (drun sub offset bs drv1 drv).

(** The driver gives structure [k] the result [f k]: one by one, and in order
    in a batch (results beyond the batch are ignored). *)
Definition honest : Prop :=
  (forall k, drv1 k = Some (f k)) /\ (forall ks, exists more, drv ks = Some (map f ks ++ more)).

(** C16. Every request in the list has been evaluated once if it is Done and not
    yet otherwise; a Done request carries its own result with the offset removed
    once; a Running one is waiting in the batch. *)
Theorem direct_evaluates_exactly_once es r :
  honest -> let st := drun es dinit in
  In r (dreqs st) ->
  count_occ Nat.eq_dec (concat (evals st)) (dkey r) = (match dst r with DDone => 1 | _ => 0 end) /\
  (dst r = DDone -> dres r = Some (sub (fst (f (dkey r))) offset, snd (f (dkey r)))) /\
  (dst r = DRunning <-> In (dkey r) (batch st)).
Proof.
  intros [H1 Hn] st Hr. pose proof (inv_reachable sub offset bs f drv1 drv H1 Hn es) as H. fold st in H.
  pose proof (d_ev _ _ _ _ H) as Hd.
  assert (Hdc : NoDup (concat (evals st))).
  { clear -Hd. induction (concat (evals st)) as [|x l IH]; [constructor|]. cbn in Hd. inversion Hd; subst.
    constructor; [|now apply IH]. intros Hx. apply H1. apply in_app_iff. now left. }
  assert (Hdis : forall k, In k (concat (evals st)) -> In k (batch st) -> False).
  { clear -Hd. induction (concat (evals st)) as [|x l IH]; [easy|]. cbn in Hd. inversion Hd; subst.
    intros k [->|Hk] Hb; [apply H1; apply in_app_iff; now right | now apply (IH H2 k)]. }
  assert (Hone : forall k, In k (concat (evals st)) -> count_occ Nat.eq_dec (concat (evals st)) k = 1).
  { intros k Hk. rewrite (NoDup_count_occ' Nat.eq_dec) in Hdc. now apply Hdc. }
  assert (Hzero : forall k, ~ In k (concat (evals st)) -> count_occ Nat.eq_dec (concat (evals st)) k = 0).
  { intros k Hk. now apply count_occ_not_In. }
  assert (Hrun : In (dkey r) (batch st) -> dst r = DRunning).
  { intros Hb. destruct (d_batch _ _ _ _ H _ Hb) as (x & Hx & Hkx & Hsx).
    rewrite <- (keys_inj (dreqs st) x r); try easy. apply H. }
  destruct (dst r) eqn:Es.
  - pose proof (d_q _ _ _ _ H r Hr Es) as Hq. rewrite in_app_iff in Hq. split; [|split].
    + apply Hzero. tauto.
    + easy.
    + split; [easy|]. tauto.
  - pose proof (d_r _ _ _ _ H r Hr Es) as Hq. split; [|split].
    + apply Hzero. intros Hk. now apply (Hdis (dkey r)).
    + easy.
    + easy.
  - destruct (d_d _ _ _ _ H r Hr Es) as [He Hv]. split; [|split].
    + now apply Hone.
    + intros _. exact Hv.
    + split; [easy|]. intros Hb. exfalso. now apply (Hdis (dkey r)).
Qed.

(** C16. Once requests stop coming, one poll more than the batch size is enough
    for all of them to be Done, also if the last batch is incomplete. *)
Theorem direct_flushes_incomplete_batch es es' :
  honest -> ~ In DQueue es' -> S bs <= polls es' ->
  forall r, In r (dreqs (drun (es ++ es') dinit)) -> dst r = DDone.
Proof.
  intros [H1 Hn] Hno Hp.
  assert (Hsplit : exists a b, es' = a ++ DPoll :: b /\ polls a = 0).
  { clear Hno. induction es' as [|e es' IH]; [cbn in Hp; lia|]. destruct e as [|k|].
    - destruct (IH Hp) as (a & b & -> & Ha). exists (DQueue :: a), b. now split.
    - destruct (IH Hp) as (a & b & -> & Ha). exists (DRelease k :: a), b. now split.
    - exists [], es'. now split. }
  destruct Hsplit as (a & b & -> & Ha).
  assert (Hb : bs <= polls b).
  { assert (Hpa : forall x y, polls (x ++ y) = polls x + polls y).
    { induction x as [|[| |] x IHx]; intros y; cbn; rewrite ?IHx; easy. }
    rewrite Hpa, Ha in Hp. cbn in Hp. lia. }
  rewrite app_assoc. unfold DirectModel.drun. rewrite fold_left_app. cbn [fold_left].
  pose proof (first_poll sub offset bs f drv1 drv H1 Hn (es ++ a)) as Hw.
  unfold DirectModel.drun in Hw.
  set (st1 := dstep sub offset bs drv1 drv (fold_left (dstep sub offset bs drv1 drv) (es ++ a) dinit) DPoll).
  destruct (flush_aux sub offset bs f drv1 drv H1 Hn b 0 st1) as (HI & Hq & Hbn).
  - intros Hi. apply Hno. apply in_app_iff. right. now right.
  - exact Hw.
  - lia.
  - lia.
  - intros Hz. destruct Hw as (_ & _ & [Hw|Hw]); [exact Hw | lia].
  - intros r Hr. apply (all_done sub offset f _ HI Hq Hbn r Hr).
Qed.

(** C16. The driver is never called with an empty batch nor with more structures
    than the batch size. *)
Definition sized (st : dstate E P) : Prop :=
  Forall (fun b => 1 <= length b <= Nat.max 1 bs) (evals st) /\ length (batch st) < Nat.max 1 bs.
Lemma evaluate_sized k st : honest -> sized st -> sized (evaluate sub offset bs drv1 drv k st).
Proof.
  intros [H1 Hn] [He Hb]. unfold evaluate. destruct (Nat.eqb_spec bs 1).
  - rewrite H1. split; [|easy]. cbn [evals]. apply Forall_app. split; [easy|]. constructor; [cbn [length]; lia | constructor].
  - cbn [batch]. destruct (Nat.leb_spec bs (length (batch st ++ [k]))) as [Hl|Hl].
    + unfold launch_batch. cbn [batch]. destruct (Hn (batch st ++ [k])) as [more ->]. split; cbn [batch evals length]; [|lia].
      apply Forall_app. split; [easy|]. constructor; [|constructor]. rewrite app_length. cbn [length]. lia.
    + split; [easy|]. cbn [batch]. lia.
Qed.
Lemma poll_requests_sized ks : honest -> forall st, sized st ->
  sized (fst (poll_requests sub offset bs drv1 drv ks st)).
Proof.
  intros Hh. induction ks as [|k ks IH]; intros st H; cbn; [easy|]. destruct (dead st); [easy|].
  destruct (get_req k (dreqs st)); [|now apply IH]. destruct (dstatus_eqb _ _); [|now apply IH].
  match goal with |- context [poll_requests _ _ _ _ _ ks ?x] =>
    specialize (IH x); destruct (poll_requests sub offset bs drv1 drv ks x) end.
  cbn in *. apply IH. now apply evaluate_sized.
Qed.
Theorem direct_batch_sizes es :
  honest -> Forall (fun b => 1 <= length b <= Nat.max 1 bs) (evals (drun es dinit)).
Proof.
  intros Hh. enough (H : sized (drun es dinit)) by apply H.
  induction es as [|e es IH] using rev_ind; [split; [apply Forall_nil | cbn [batch length drun DirectModel.drun fold_left dinit]; lia]|].
  unfold DirectModel.drun in *. rewrite fold_left_app. cbn [fold_left].
  set (st := fold_left _ es dinit) in *. destruct e as [|k|]; cbn; try easy.
  unfold dpoll. destruct (dead st); [easy|].
  pose proof (poll_requests_sized (map dkey (dreqs st)) Hh st IH) as H.
  destruct (poll_requests _ _ _ _ _ _ st) as [st1 b]. cbn in H. destruct (dead st1); [easy|].
  destruct (Nat.ltb_spec 1 bs); [|easy]. destruct (Nat.ltb_spec 0 (length (batch st1))); [|easy].
  cbn [andb]. destruct (bs <=? _).
  - destruct H as [He Hb]. unfold launch_batch. cbn [batch evals]. destruct Hh as [_ Hn].
    destruct (Hn (batch st1)) as [more ->]. split; cbn [batch evals length]; [|lia].
    apply Forall_app. split; [easy|]. constructor; [lia | constructor].
  - exact H.
Qed.

End Honest.

(** ** C17 is false *)
Definition zs (a b : Z) : Z := (a - b)%Z.
(** A driver that forgets the last structure of a batch. *)
Definition short (ks : list nat) : option (list (Z * nat)) :=
  Some (map (fun k => (Z.of_nat k, k)) (removelast ks)).
Definition one (k : nat) : option (Z * nat) := Some (Z.of_nat k, k).

Theorem too_few_results_hang_refuted :
  exists es k, forall es',
    exists r, In r (dreqs (drun zs 0%Z 2 one short (es ++ es') dinit)) /\ dkey r = k /\ dst r = DRunning.
Proof.
  exists [DQueue; DQueue; DPoll], 1. intros es'. unfold drun. rewrite fold_left_app.
  match goal with |- context [fold_left _ es' ?s] => set (st := s) end.
  assert (Hst : st = mkD [mkDReq 0 DDone (Some (0%Z, 0)); mkDReq 1 DRunning None] [] 0 [[0; 1]] false 2)
    by (vm_compute; reflexivity).
  destruct (stuck_forever zs 0%Z 2 one short 1 es' st) as [H _]; [|exact H].
  rewrite Hst. split; [|split; [|split]]; cbn; try lia; try easy.
  - exists (mkDReq 1 DRunning None). split; [right; now left | easy].
  - intros r [<-|[<-|[]]]; cbn; easy.
Qed.

(** A driver that raises an exception: the polling thread is gone and the waiting
    thread is not told. *)
Definition raises (ks : list nat) : option (list (Z * nat)) := None.
Lemma dead_forever es : forall st : dstate Z nat, dead st = true ->
  (exists r, In r (dreqs st) /\ dkey r = 0 /\ dst r = DRunning) ->
  exists r, In r (dreqs (drun zs 0%Z 2 one raises es st)) /\ dkey r = 0 /\ dst r = DRunning.
Proof.
  induction es as [|e es IH]; intros st Hd Hr; [easy|]. cbn. apply IH.
  - destruct e; cbn; try easy. unfold dpoll. now rewrite Hd.
  - destruct Hr as (r & Hr & Hk & Hs). exists r. split; [|easy]. destruct e; cbn.
    + apply in_app_iff. now left.
    + apply filter_In. split; [easy|]. rewrite Hs. cbn. now rewrite andb_false_r.
    + unfold dpoll. now rewrite Hd.
Qed.
Theorem driver_exception_hangs_refuted :
  exists es, forall es',
    exists r, In r (dreqs (drun zs 0%Z 2 one raises (es ++ es') dinit)) /\ dkey r = 0 /\ dst r = DRunning.
Proof.
  exists [DQueue; DQueue; DPoll]. intros es'. unfold drun. rewrite fold_left_app.
  match goal with |- context [fold_left _ es' ?s] => set (st := s) end.
  assert (Hst : st = mkD [mkDReq 0 DRunning None; mkDReq 1 DRunning None] [0; 1] 0 [[0; 1]] true 2)
    by (vm_compute; reflexivity).
  apply dead_forever; rewrite Hst; [easy|]. exists (mkDReq 0 DRunning None). split; [now left | easy].
Qed.

(** ** The hypotheses are met *)
Definition good (ks : list nat) : option (list (Z * nat)) := Some (map (fun k => (Z.of_nat k, k)) ks).
Example good_honest : honest (fun k => (Z.of_nat k, k)) one good.
Proof. split; [easy|]. intros ks. exists []. now rewrite app_nil_r. Qed.
(** Five requests in batches of three, one of them released in between. *)
Definition des := [DQueue; DQueue; DPoll; DQueue; DQueue; DPoll; DRelease 0; DQueue; DPoll].
Example direct_mid :
  let st := drun zs 7%Z 3 one good des dinit in
  map (fun r => (dkey r, dst r)) (dreqs st) = [(1, DDone); (2, DDone); (3, DRunning); (4, DRunning)] /\
  batch st = [3; 4] /\ evals st = [[0; 1; 2]].
Proof. vm_compute. repeat split. Qed.
Example direct_end :
  let st := drun zs 7%Z 3 one good (des ++ [DPoll; DPoll; DPoll; DPoll]) dinit in
  map (fun r => (dkey r, dst r, dres r)) (dreqs st) =
    [(1, DDone, Some ((-6)%Z, 1)); (2, DDone, Some ((-5)%Z, 2)); (3, DDone, Some ((-4)%Z, 3)); (4, DDone, Some ((-3)%Z, 4))] /\
  evals st = [[0; 1; 2]; [3; 4]].
Proof. vm_compute. repeat split. Qed.

Print Assumptions direct_request_never_lost.
Print Assumptions direct_evaluates_exactly_once.
Print Assumptions direct_flushes_incomplete_batch.
Print Assumptions direct_batch_sizes.
Print Assumptions too_few_results_hang_refuted.
Print Assumptions driver_exception_hangs_refuted.
