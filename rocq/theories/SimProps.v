(** * Theorems of record: run loop, outputs and restart files *)
Require Import List Arith Bool Lia.
From Verif Require Import SimModel.
Import ListNotations.

Section Sim.
Variable D : Type.
Variable adv : nat -> D -> D.
Variable fin : nat -> D -> bool.
Variable tsteps safe : nat.
Variable outs : list output.
Notation sim := (sim D).
Notation exec := (exec D adv fin tsteps safe outs).
Notation next := (next D adv fin tsteps safe outs).
Notation bind := (bind D tsteps).
Notation numbered := (numbered outs).

(** ** Specification *)
(** The state after [n] further steps from step [k] *)
Fixpoint evolve (k n : nat) (d : D) : D := match n with O => d | S n => evolve (S k) n (adv k d) end.
(** A request of an exit while the state is being stored. *)
Definition storing (s : sim) : bool := match at_ D s with PStoring _ _ => true | _ => false end.
(** Executions without one. *)
Inductive reaches (s : sim) : list (ev D) -> sim -> Prop :=
| r_nil : reaches s [] s
| r_step l s1 x s2 : reaches s l s1 -> (x = Trig D -> storing s1 = false) -> next s1 x = Some s2 -> reaches s (l ++ [x]) s2.
(** steps at which an output with stride [st] has to appear *)
Definition due (st : nat) (l : list nat) : list nat := filter (fun n => n mod st =? 0) l.

Lemma evolve_app k n m d : evolve k (n + m) d = evolve (k + n) m (evolve k n d).
Proof. revert k d. induction n as [|n IH]; intros k d; cbn [evolve Nat.add]; [now rewrite Nat.add_0_r|]. rewrite IH. f_equal. lia. Qed.

Section Run.
Variables (k0 : nat) (d0 : D).
Definition T (k : nat) : D := evolve k0 (k - k0) d0.
Local Arguments T : simpl never.
Lemma T_0 : T k0 = d0.
Proof. unfold T. now rewrite Nat.sub_diag. Qed.
Lemma T_S k : k0 <= k -> T (S k) = adv k (T k).
Proof. intros H. unfold T. replace (S k - k0) with ((k - k0) + 1) by lia. rewrite evolve_app. cbn [evolve]. f_equal. lia. Qed.

Definition labels (m : nat) : list nat := (if k0 =? 0 then [0] else []) ++ seq (S k0) (m - k0).
Definition plain_entry (l : nat) (io : nat * output) : list (nat * nat * D) :=
  if negb (is_chk (snd io)) && (l mod stride (snd io) =? 0) then [(fst io, l, T l)] else [].
Definition chk_entry (l : nat) (io : nat * output) : list (nat * (nat * D)) :=
  if is_chk (snd io) && (l mod stride (snd io) =? 0) then [(fst io, (l, T l))] else [].
Definition entries (l : nat) := flat_map (plain_entry l) numbered.
Definition centries (l : nat) := flat_map (chk_entry l) numbered.

Lemma labels_0 : k0 = 0 -> labels 0 = [0].
Proof. intros E. unfold labels. now rewrite E. Qed.
Lemma labels_pos : k0 <> 0 -> labels k0 = [].
Proof. intros E. unfold labels. rewrite (proj2 (Nat.eqb_neq _ _) E), Nat.sub_diag. easy. Qed.
Lemma labels_S m : k0 <= m -> labels (S m) = labels m ++ [S m].
Proof.
  intros H. unfold labels. rewrite <- app_assoc. f_equal. replace (S m - k0) with (S (m - k0)) by lia. rewrite seq_S. f_equal. f_equal. lia.
Qed.

(** what holds as long as no exit has been requested *)
Definition written (s : sim) (m : nat) : Prop := log D s = flat_map entries (labels m) /\ ckpts D s = flat_map centries (labels m).
Definition writing (s : sim) (before : list nat) (l : nat) (rest : list (nat * output)) : Prop := exists pre, numbered = pre ++ rest /\
  log D s = flat_map entries before ++ flat_map (plain_entry l) pre /\ ckpts D s = flat_map centries before ++ flat_map (chk_entry l) pre.
Definition place (s : sim) : Prop :=
  match at_ D s with
  | PStart _ => lab D s = S k0 /\ data D s = d0 /\ log D s = [] /\ ckpts D s = []
  | PInit _ r => k0 = 0 /\ lab D s = 0 /\ data D s = d0 /\ writing s [] 0 r
  | PTop _ k | PStoring _ k | PRun _ k => k0 <= k < tsteps /\ lab D s = S k /\ data D s = T k /\ written s k
  | PMid _ k b => k0 <= k < tsteps /\ lab D s = S k /\ b = T k /\ written s k
  | PAfter _ k => k0 <= k < tsteps /\ lab D s = S k /\ data D s = T (S k) /\ written s k
  | PWrite _ k r => k0 <= k < tsteps /\ lab D s = S k /\ data D s = T (S k) /\ writing s (labels k) (S k) r
  | PEnd _ k => k0 <= k < tsteps /\ lab D s = S k /\ data D s = T (S k) /\ written s (S k)
  | PBreak _ | POver _ => exists k, k0 <= k < tsteps /\ lab D s = S k /\ data D s = T (S k) /\
      (written s (S k) \/ (fin k (T (S k)) = true /\ written s k))
  | PCrash _ => exists o, In o outs /\ stride o = 0
  end.
Definition inv (s : sim) : Prop :=
  (exists c, chk D s = (c, T c) /\ k0 <= c <= tsteps) /\ rollback D s = (match at_ D s with POver _ => false | _ => true end) /\
  restart D s = None /\ place s.

Lemma numbered_in i o r pre : numbered = pre ++ (i, o) :: r -> In o outs.
Proof.
  intros E. assert (H : In (i, o) numbered) by (rewrite E; apply in_or_app; right; now left). exact (in_combine_r _ _ _ _ H).
Qed.

Lemma written_writing s m p l : written s m -> writing (mksim D l (data D s) (chk D s) (rollback D s) (triggered D s) p (log D s) (ckpts D s) (restart D s)) (labels m) (S m) numbered.
Proof. intros [A B]. exists []. cbn [log ckpts app flat_map]. rewrite !app_nil_r. easy. Qed.

(** writing one output *)
Lemma write_place s before l io r p : triggered D s = false -> lab D s = l -> data D s = T l -> writing s before l (io :: r) ->
  let s' := write_out D s io p in
  (at_ D s' = PCrash D /\ (exists o, In o outs /\ stride o = 0)) \/ (at_ D s' = p /\ writing s' before l r /\ lab D s' = lab D s /\ data D s' = data D s /\
    chk D s' = chk D s /\ rollback D s' = rollback D s /\ restart D s' = restart D s /\ triggered D s' = false).
Proof.
  intros Tr L Da (pre & E & A & B). cbv zeta. destruct io as [i o]. unfold write_out. rewrite Tr, andb_false_r.
  destruct (Nat.eqb_spec (stride o) 0) as [Z|Z].
  { left. split; [easy|]. exists o. split; [|easy]. now apply (numbered_in i o r pre). }
  right. assert (E' : numbered = (pre ++ [(i, o)]) ++ r) by (rewrite <- app_assoc; exact E).
  destruct (lab D s mod stride o =? 0) eqn:M; [destruct (is_chk o) eqn:C|]; cbn [at_ lab data chk rollback restart goto triggered]; repeat split; try easy;
  exists (pre ++ [(i, o)]); (split; [exact E'|]); cbn [log ckpts goto]; rewrite !flat_map_app; cbn [flat_map]; unfold plain_entry at 2, chk_entry at 2; cbn [fst snd];
  rewrite <- L, M, A, B, ?C, ?andb_false_r; cbn [negb andb app]; rewrite ?app_nil_r, ?app_assoc, ?Da, <- ?L; try easy.
  all: rewrite L; split; easy.
Qed.

(** the for statement *)
Lemma loop_place s k : k < tsteps -> place (loop D tsteps s k) <-> (k0 <= k < tsteps /\ data D s = T k /\ written s k).
Proof.
  intros H. unfold loop. rewrite (proj2 (Nat.ltb_lt _ _) H). unfold place, at_step. cbn [at_ lab data]. split.
  - intros (A & _ & B & C). split; [easy|]. split; [easy|]. exact C.
  - intros (A & B & C). split; [easy|]. split; [easy|]. split; [easy|]. exact C.
Qed.
Lemma loop_same s k : chk D (loop D tsteps s k) = chk D s /\ rollback D (loop D tsteps s k) = rollback D s /\ restart D (loop D tsteps s k) = restart D s /\
  triggered D (loop D tsteps s k) = triggered D s /\ (at_ D (loop D tsteps s k) = PTop D k \/ at_ D (loop D tsteps s k) = PBreak D).
Proof. unfold loop. destruct (k <? tsteps); cbn; repeat split; auto. Qed.

Lemma inv_go s stop s' : k0 < tsteps -> inv s -> triggered D s = false -> go D adv fin tsteps safe outs stop s = Some s' -> inv s' /\ triggered D s' = false.
Proof.
  intros Hk ((c & C & Cb) & R & Re & P) Tr H. unfold go in H. unfold place in P. rewrite Tr in H.
  assert (K : forall s1, chk D s1 = chk D s -> restart D s1 = restart D s -> triggered D s1 = triggered D s ->
     rollback D s1 = (match at_ D s1 with POver _ => false | _ => true end) -> place s1 -> inv s1 /\ triggered D s1 = false).
  { intros s1 A1 A2 A3 A4 A5. split; [|congruence]. split; [exists c; split; congruence|]. split; [easy|]. split; [congruence|easy]. }
  destruct (at_ D s) as [|rest|k|k|k|k b|k|k rest|k| | |] eqn:E.
  - destruct P as (P1 & P2 & P3 & P4). injection H as <-. rewrite P1. destruct (Nat.eqb_spec (S k0) 1) as [Z|Z].
    + apply K; cbn; try easy. unfold place. cbn. split; [lia|]. split; [easy|]. split; [easy|]. exists []. cbn. rewrite P3, P4. easy.
    + replace (S k0 - 1) with k0 by lia. destruct (loop_same s k0) as (L1 & L2 & L3 & L4 & L5).
      apply K; try congruence; [rewrite L2, R; destruct L5 as [-> | ->]; easy|].
      apply loop_place; [easy|]. split; [lia|]. rewrite T_0. split; [easy|]. split; rewrite labels_pos by lia; easy.
  - destruct P as (P1 & P2 & P3 & P4). destruct rest as [|o r].
    + injection H as <-. destruct (loop_same s 0) as (L1 & L2 & L3 & L4 & L5).
      apply K; try congruence; [rewrite L2, R; destruct L5 as [-> | ->]; easy|].
      apply loop_place; [lia|]. split; [lia|]. split; [rewrite P3; rewrite <- T_0; now f_equal|].
      destruct P4 as (pre & Q1 & Q2 & Q3). rewrite app_nil_r in Q1. unfold written. rewrite Q2, Q3, <- Q1.
      rewrite labels_0 by easy. cbn [flat_map app]. rewrite !app_nil_r. unfold entries, centries. split; reflexivity.
    + injection H as <-. destruct (write_place s [] 0 o r (PInit D r) Tr P2) as [(W1 & W2)|(W1 & W2 & W3 & W4 & W5 & W6 & W7 & W8)]; [rewrite P3, <- T_0; now f_equal|exact P4| |].
      * split; [|destruct o; unfold write_out; rewrite Tr, andb_false_r; repeat (destruct (_ =? _)); try destruct (is_chk _); easy].
        split; [exists c; split; [|easy]; rewrite <- C; destruct o; unfold write_out; rewrite Tr, andb_false_r; repeat (destruct (_ =? _)); try destruct (is_chk _); easy|].
        split; [rewrite W1, <- R; destruct o; unfold write_out; rewrite Tr, andb_false_r; repeat (destruct (_ =? _)); try destruct (is_chk _); easy|].
        split; [rewrite <- Re; destruct o; unfold write_out; rewrite Tr, andb_false_r; repeat (destruct (_ =? _)); try destruct (is_chk _); easy|].
        unfold place. rewrite W1. easy.
      * apply K; try congruence; [rewrite W6, W1; easy|]. unfold place. rewrite W1. split; [easy|]. split; [congruence|]. split; [congruence|easy].
  - destruct P as (P1 & P2 & P3 & P4). injection H as <-. apply K; try easy; [cbn; rewrite R; now destruct (_ =? _)|].
    unfold place. cbn [goto at_]. destruct (k mod safe =? 0); cbn; (split; [easy|]; split; [easy|]; split; [easy|exact P4]).
  - destruct P as (P1 & P2 & P3 & P4). injection H as <-. split; [|first [exact Tr | reflexivity]]. split; [|split; [|split]]; cbn; [|exact R|exact Re|].
    + exists k. rewrite P2, P3. cbn. rewrite Nat.sub_0_r. split; [easy|lia].
    + unfold place. cbn. split; [easy|]. split; [easy|]. split; [easy|exact P4].
  - destruct P as (P1 & P2 & P3 & P4). injection H as <-. apply K; try easy. unfold place. cbn. split; [easy|]. split; [easy|]. split; [rewrite P3, T_S by lia; easy|exact P4].
  - destruct P as (P1 & P2 & P3 & P4). injection H as <-. apply K; try easy. unfold place. cbn. split; [easy|]. split; [easy|]. split; [rewrite P3, T_S by lia; easy|exact P4].
  - destruct P as (P1 & P2 & P3 & P4). injection H as <-. cbn [orb]. destruct (fin k (data D s)) eqn:F; apply K; try easy; unfold place; cbn.
    + exists k. split; [easy|]. split; [easy|]. split; [easy|]. right. split; [now rewrite <- P3|exact P4].
    + split; [easy|]. split; [easy|]. split; [easy|]. now apply written_writing.
  - destruct P as (P1 & P2 & P3 & P4). destruct rest as [|o r].
    + injection H as <-. apply K; try easy. unfold place. cbn. split; [easy|]. split; [easy|]. split; [easy|].
      destruct P4 as (pre & Q1 & Q2 & Q3). rewrite app_nil_r in Q1. unfold written. cbn [goto log ckpts]. rewrite Q2, Q3, <- Q1, labels_S by lia.
      rewrite !flat_map_app. cbn [flat_map]. rewrite !app_nil_r. split; reflexivity.
    + injection H as <-. destruct (write_place s (labels k) (S k) o r (PWrite D k r) Tr P2 P3 P4) as [(W1 & W2)|(W1 & W2 & W3 & W4 & W5 & W6 & W7 & W8)].
      * split; [|destruct o; unfold write_out; rewrite Tr, andb_false_r; repeat (destruct (_ =? _)); try destruct (is_chk _); easy].
        split; [exists c; split; [|easy]; rewrite <- C; destruct o; unfold write_out; rewrite Tr, andb_false_r; repeat (destruct (_ =? _)); try destruct (is_chk _); easy|].
        split; [rewrite W1, <- R; destruct o; unfold write_out; rewrite Tr, andb_false_r; repeat (destruct (_ =? _)); try destruct (is_chk _); easy|].
        split; [rewrite <- Re; destruct o; unfold write_out; rewrite Tr, andb_false_r; repeat (destruct (_ =? _)); try destruct (is_chk _); easy|].
        unfold place. rewrite W1. easy.
      * apply K; try congruence; [rewrite W6, W1; easy|]. unfold place. rewrite W1. split; [easy|]. split; [congruence|]. split; [congruence|easy].
  - destruct P as (P1 & P2 & P3 & P4). injection H as <-. destruct stop.
    + apply K; try easy. unfold place. cbn. exists k. split; [easy|]. split; [easy|]. split; [easy|]. left. exact P4.
    + destruct (loop_same s (S k)) as (L1 & L2 & L3 & L4 & L5).
      apply K; try congruence; [rewrite L2, R; destruct L5 as [-> | ->]; easy|].
      destruct (Nat.lt_ge_cases (S k) tsteps) as [Hl|Hl].
      * apply loop_place; [easy|]. split; [lia|]. split; [easy|exact P4].
      * unfold loop. replace (S k <? tsteps) with false by (symmetry; now apply Nat.ltb_ge). unfold place. cbn. exists k. split; [easy|]. split; [easy|]. split; [easy|]. left. exact P4.
  - injection H as <-. split; [|first [exact Tr | reflexivity]]. split; [exists c; easy|]. split; [easy|]. split; [easy|]. exact P.
  - easy.
  - easy.
Qed.
Lemma inv_mid s d s' : inv s -> triggered D s = false -> next s (Mid D d) = Some s' -> inv s' /\ triggered D s' = false.
Proof.
  intros ((c & C & Cb) & R & Re & P) Tr H. cbn [SimModel.next] in H. unfold place in P. destruct (at_ D s) as [|rest|k|k|k|k b|k|k rest|k| | |] eqn:E; try easy;
  injection H as <-; (split; [|first [exact Tr | reflexivity]]); (split; [exists c; easy|]); (split; [exact R|]); (split; [easy|]); unfold place; cbn; destruct P as (P1 & P2 & P3 & P4);
  (split; [easy|]; split; [easy|]; split; [easy|exact P4]).
Qed.

(** what the restart file contains *)
Definition complete (s : sim) (m : nat) : Prop := m = 0 \/ forall i o l, nth_error outs i = Some o -> is_chk o = false -> l mod stride o = 0 ->
  In l (labels m) -> In (i, l, T l) (log D s).
Definition saved (s : sim) : Prop := exists r, restart D s = Some (r, T r) /\ k0 <= r <= tsteps.

Lemma inv_trig s : k0 < tsteps -> inv s -> triggered D s = false -> storing s = false -> saved (softexit D tsteps s).
Proof.
  intros Hk ((c & C & Cb) & R & Re & P) Tr Hs. unfold saved, softexit. cbn [restart]. unfold storing in Hs. unfold place in P.
  assert (G : rollback D s = true -> exists r, Some (chk D s) = Some (r, T r) /\ k0 <= r <= tsteps) by (intros _; exists c; rewrite C; easy).
  destruct (at_ D s) as [|rest|k|k|k|k b|k|k rest|k| | |] eqn:E; try (rewrite R; exact (G R)); try easy.
  destruct P as (k & P1 & P2 & P3 & P4). rewrite R. exists (S k). replace (lab D s <=? tsteps) with true by (symmetry; apply Nat.leb_le; lia).
  rewrite P2, P3. cbn [Nat.sub]. split; [easy|lia].
Qed.
Lemma restart_kept s x s' : triggered D s = true -> next s x = Some s' -> restart D s' = restart D s /\ triggered D s' = true /\ log D s' = log D s.
Proof.
  intros Tr H. destruct x as [b|d|]; cbn [SimModel.next] in H.
  - unfold go in H. assert (W : forall io p, restart D (write_out D s io p) = restart D s /\ triggered D (write_out D s io p) = true /\ log D (write_out D s io p) = log D s).
    { intros [i o] p. unfold write_out. rewrite Tr, andb_true_r. destruct (is_chk o); cbn [negb]; repeat (destruct (_ =? _)); easy. }
    assert (L : forall k, restart D (loop D tsteps s k) = restart D s /\ triggered D (loop D tsteps s k) = true /\ log D (loop D tsteps s k) = log D s).
    { intros k. unfold loop. destruct (_ <? _); easy. }
    destruct (at_ D s) as [|[|o r]|k|k|k|k b'|k|k [|o r]|k| | |]; try easy; injection H as <-; try apply W; try apply L; try easy.
    + destruct (_ =? _); [easy|apply L].
    + destruct b; [easy|apply L].
  - destruct (at_ D s); try easy; now injection H as <-.
  - now rewrite Tr in H.
Qed.
Lemma reaches_inv l s : forall s0, k0 < tsteps -> inv s0 -> triggered D s0 = false -> reaches s0 l s ->
  (triggered D s = false /\ inv s) \/ (triggered D s = true /\ saved s).
Proof.
  intros s0 Hk I0 T0 R. induction R as [|l s1 x s2 R IH N X]; [left; easy|]. destruct IH as [[Tr I]|[Tr Sv]].
  - destruct x as [b|d|].
    + left. destruct (inv_go s1 b s2 Hk I Tr X). easy.
    + left. destruct (inv_mid s1 d s2 I Tr X). easy.
    + right. cbn [SimModel.next] in X. rewrite Tr in X. injection X as <-. split; [easy|]. apply inv_trig; try easy. now apply N.
  - right. destruct (restart_kept s1 x s2 Tr X) as (A & B & _). split; [easy|]. unfold saved. now rewrite A.
Qed.
Lemma inv_bind s : bind k0 d0 = Some s -> inv s /\ triggered D s = false /\ k0 < tsteps.
Proof.
  unfold SimModel.bind. destruct (Nat.leb_spec tsteps k0) as [|Hk]; [easy|]. intros H. injection H as <-. split; [|easy].
  split; [exists k0; rewrite T_0; split; [easy|lia]|]. split; [easy|]. split; [easy|]. unfold place. cbn. easy.
Qed.
End Run.

(** ** Restart *)
(** Any number of interrupted runs, each started from the restart file of the one before. *)
Inductive restarts (k0 : nat) (d0 : D) : nat -> D -> Prop :=
| rs_none : restarts k0 d0 k0 d0
| rs_more k d s l s' k' d' : restarts k0 d0 k d -> bind k d = Some s -> reaches s l s' -> restart D s' = Some (k', d') -> restarts k0 d0 k' d'.

(** Whenever the exit is asked for, except while the status is being stored, the
    restart file holds the state of an uninterrupted run at the step it carries. *)
Theorem restart_file_is_on_trajectory_partial k0 d0 s l s' k d : bind k0 d0 = Some s -> reaches s l s' -> restart D s' = Some (k, d) ->
  d = evolve k0 (k - k0) d0 /\ k0 <= k <= tsteps.
Proof.
  intros B R E. destruct (inv_bind k0 d0 s B) as (I & Tr & Hk). destruct (reaches_inv k0 d0 l s' s Hk I Tr R) as [[_ (_ & _ & N & _)]|[_ (r & Er & Hr)]]; [congruence|].
  rewrite E in Er. injection Er as -> ->. easy.
Qed.
(** and so does the restart file of the last of any number of such runs *)
Theorem restarts_are_on_trajectory_partial k0 d0 k d : restarts k0 d0 k d -> d = evolve k0 (k - k0) d0 /\ k0 <= k.
Proof.
  intros H. induction H as [|k d s l s' k' d' _ [IH1 IH2] B R E]; [rewrite Nat.sub_diag; easy|].
  destruct (restart_file_is_on_trajectory_partial k d s l s' k' d' B R E) as [A Bd]. split; [|lia]. rewrite A, IH1.
  replace (k' - k0) with ((k - k0) + (k' - k)) by lia. rewrite evolve_app. f_equal. lia.
Qed.
(** Once an exit has been asked for, the restart file exists and is not changed any more. *)
Theorem exit_leaves_restart_file_partial k0 d0 s l s' : bind k0 d0 = Some s -> reaches s l s' -> triggered D s' = true -> exists r, restart D s' = Some r.
Proof.
  intros B R Tr. destruct (inv_bind k0 d0 s B) as (I & T0 & Hk). destruct (reaches_inv k0 d0 l s' s Hk I T0 R) as [[? _]|[_ (r & Er & _)]]; [congruence|]. now exists (r, T k0 d0 r).
Qed.
Lemma reaches_exec s l s' : exec s l = Some s' -> ~ In (Trig D) l -> reaches s l s'.
Proof.
  revert s'. induction l as [|x l IH] using rev_ind; intros s' H N; [injection H as <-; constructor|].
  assert (A : forall l1 l2 a, exec a (l1 ++ l2) = match exec a l1 with Some b => exec b l2 | None => None end).
  { intros l1. induction l1 as [|y l1 IH1]; intros l2 a; [easy|]. cbn [app SimModel.exec]. destruct (next a y); [apply IH1|easy]. }
  rewrite A in H. destruct (exec s l) as [s1|] eqn:E; [|easy]. cbn [SimModel.exec] in H. destruct (next s1 x) as [s2|] eqn:E2; [|easy]. injection H as ->.
  apply (r_step s l s1 x s'); [apply IH; [easy|]|intros ->|easy]; [|exfalso; apply N, in_or_app; right; now left]. intros I. apply N, in_or_app. now left.
Qed.

(** ** The run comes to an end *)
Definition width : nat := length outs + 10.
Definition measure (s : sim) : nat :=
  match at_ D s with
  | PStart _ => tsteps * width + length outs + 12
  | PInit _ r => tsteps * width + length r + 3
  | PTop _ k => (tsteps - k - 1) * width + length outs + 8
  | PStoring _ k => (tsteps - k - 1) * width + length outs + 7
  | PRun _ k => (tsteps - k - 1) * width + length outs + 6
  | PMid _ k _ => (tsteps - k - 1) * width + length outs + 6
  | PAfter _ k => (tsteps - k - 1) * width + length outs + 5
  | PWrite _ k r => (tsteps - k - 1) * width + length r + 3
  | PEnd _ k => (tsteps - k - 1) * width + 2
  | PBreak _ => 1
  | POver _ | PCrash _ => 0
  end.
Definition is_go (x : ev D) : bool := match x with Go _ _ => true | _ => false end.
Lemma numbered_length : length numbered = length outs.
Proof. unfold SimModel.numbered. rewrite combine_length, seq_length. lia. Qed.
Lemma measure_loop s k w : (tsteps - k) * width + 2 <= w -> measure (loop D tsteps s k) < w.
Proof.
  intros H. unfold loop. destruct (Nat.ltb_spec k tsteps) as [Hk|Hk]; unfold measure; cbn; [|unfold width in H; lia].
  assert (E : (tsteps - k) * width = (tsteps - k - 1) * width + width) by (replace (tsteps - k) with (S (tsteps - k - 1)) at 1 by lia; cbn; lia).
  unfold width in *. lia.
Qed.
Lemma measure_write s io p : measure (write_out D s io p) = measure (goto D s p) \/ measure (write_out D s io p) = 0.
Proof. destruct io as [i o]. unfold write_out. repeat (destruct (_ && _)); repeat (destruct (_ =? _)); try destruct (is_chk o); auto. Qed.
Ltac nlia := repeat match goal with |- context [(?a * width)] => generalize (a * width); intro end; lia.
Lemma measure_next s x s' : next s x = Some s' -> measure s' + (if is_go x then 1 else 0) <= measure s.
Proof.
  intros H. destruct x as [b|d|]; cbn [SimModel.next is_go] in *.
  - unfold go in H. destruct (at_ D s) as [|[|o r]|k|k|k|k b'|k|k [|o r]|k| | |] eqn:E; unfold measure at 2; rewrite E; try easy; injection H as <-.
    + destruct (_ =? _); [unfold measure; cbn; rewrite numbered_length; lia|].
      enough (measure (loop D tsteps s (lab D s - 1)) < tsteps * width + length outs + 12) by lia. apply measure_loop. pose proof (Nat.mul_le_mono_r (tsteps - (lab D s - 1)) tsteps width). lia.
    + enough (measure (loop D tsteps s 0) < tsteps * width + length (@nil (nat * output)) + 3) by lia. apply measure_loop. cbn. rewrite Nat.sub_0_r. lia.
    + destruct (measure_write s o (PInit D r)) as [-> | ->]; unfold measure; cbn [at_ goto length]; nlia.
    + destruct (triggered D s); [unfold measure; cbn [at_ goto length]; nlia|]. destruct (_ =? _); unfold measure; cbn [at_ goto length]; nlia.
    + unfold measure; cbn [at_ goto length]; nlia.
    + unfold measure; cbn [at_ goto length]; nlia.
    + unfold measure; cbn [at_ goto length]; nlia.
    + destruct (_ || _); unfold measure; cbn [at_ goto length]; rewrite ?numbered_length; nlia.
    + unfold measure; cbn [at_ goto length]; nlia.
    + destruct (measure_write s o (PWrite D k r)) as [-> | ->]; unfold measure; cbn [at_ goto length]; nlia.
    + destruct b; [unfold measure; cbn [at_ goto length]; nlia|]. enough (measure (loop D tsteps s (S k)) < (tsteps - k - 1) * width + 2) by lia. apply measure_loop. replace (tsteps - S k) with (tsteps - k - 1) by lia. lia.
    + unfold measure; cbn [at_ goto length]; nlia.
  - destruct (at_ D s) as [|rest|k|k|k|k b'|k|k rest|k| | |] eqn:E; try easy; injection H as <-; unfold measure; rewrite E; cbn; lia.
  - destruct (triggered D s); [easy|]. injection H as <-. unfold measure, softexit. cbn. lia.
Qed.
(** The main thread makes a bounded number of actions, and is only stuck when run has returned or crashed. *)
Theorem run_ends k0 d0 s l s' : bind k0 d0 = Some s -> exec s l = Some s' -> length (filter is_go l) <= tsteps * (length outs + 10) + length outs + 12 /\
  ((exists b s2, next s' (Go D b) = Some s2) \/ at_ D s' = POver D \/ at_ D s' = PCrash D).
Proof.
  intros B H. split.
  - assert (M : measure s = tsteps * (length outs + 10) + length outs + 12).
    { unfold SimModel.bind in B. destruct (_ <=? _); [easy|]. injection B as <-. reflexivity. }
    rewrite <- M. clear M B. revert s H. induction l as [|x l IH]; intros s H; [cbn; lia|]. cbn [SimModel.exec] in H. destruct (next s x) as [s1|] eqn:E; [|easy].
    specialize (IH s1 H). pose proof (measure_next s x s1 E) as M. cbn [filter]. destruct (is_go x); cbn [length]; lia.
  - destruct (at_ D s') as [|[|o r]|k|k|k|k b'|k|k [|o r]|k| | |] eqn:E; auto; left; exists false; eexists; cbn [SimModel.next]; unfold go; rewrite E; reflexivity.
Qed.

(** ** Outputs *)
Lemma flat_filter {A} (i : nat) (f : nat -> nat * output -> list (nat * A)) :
  (forall l j o x, In x (f l (j, o)) -> fst x = j) ->
  forall l, filter (fun e => fst e =? i) (flat_map (f l) numbered) = match nth_error outs i with Some o => f l (i, o) | None => [] end.
Proof.
  intros Hf l. unfold SimModel.numbered.
  assert (G : forall os b, filter (fun e => fst e =? i) (flat_map (f l) (combine (seq b (length os)) os)) = if i <? b then [] else match nth_error os (i - b) with Some o => f l (i, o) | None => [] end).
  { assert (F1 : forall j o, j = i -> filter (fun e => fst e =? i) (f l (j, o)) = f l (j, o)).
    { intros j o ->. specialize (Hf l i o). induction (f l (i, o)) as [|x t IH]; [easy|]. cbn [filter]. rewrite (Hf x), Nat.eqb_refl by now left. rewrite IH; [easy|]. intros y Hy. apply Hf. now right. }
    assert (F2 : forall j o, j <> i -> filter (fun e => fst e =? i) (f l (j, o)) = []).
    { intros j o Hj. specialize (Hf l j o). induction (f l (j, o)) as [|x t IH]; [easy|]. cbn [filter]. rewrite (Hf x) by now left. rewrite (proj2 (Nat.eqb_neq _ _) Hj). apply IH. intros y Hy. apply Hf. now right. }
    induction os as [|o os IH]; intros b; cbn [length seq combine flat_map]; [destruct (i <? b); [easy|]; now destruct (i - b)|].
    rewrite filter_app, IH. destruct (Nat.eq_dec b i) as [->|Hb].
    - rewrite (F1 i o eq_refl), Nat.ltb_irrefl, Nat.sub_diag. cbn [nth_error]. replace (i <? S i) with true by (symmetry; apply Nat.ltb_lt; lia). apply app_nil_r.
    - rewrite (F2 b o Hb). cbn [app]. destruct (Nat.ltb_spec i b).
      + replace (i <? S b) with true by (symmetry; apply Nat.ltb_lt; lia). easy.
      + replace (i <? S b) with false by (symmetry; apply Nat.ltb_ge; lia). replace (i - b) with (S (i - S b)) by lia. easy. }
  rewrite G, Nat.sub_0_r. easy.
Qed.
Definition frames (i : nat) (s : sim) : list (nat * D) := map (fun e => (snd (fst e), snd e)) (filter (fun e => fst (fst e) =? i) (log D s)).
Definition saves (i : nat) (s : sim) : list (nat * D) := map snd (filter (fun e => fst e =? i) (ckpts D s)).
Lemma frames_written k0 d0 s m i o : written k0 d0 s m -> nth_error outs i = Some o -> is_chk o = false -> frames i s = map (fun l => (l, T k0 d0 l)) (due (stride o) (labels k0 m)).
Proof.
  intros [A _] No C. unfold frames. rewrite A.
  assert (Q : forall e, filter (fun e => fst (fst e) =? i) (entries k0 d0 e) = if e mod stride o =? 0 then [(i, e, T k0 d0 e)] else []).
  { intros e. pose proof (flat_filter (A := nat * D) i (fun l io => map (fun x => (fst (fst x), (snd (fst x), snd x))) (plain_entry k0 d0 l io))) as F.
    specialize (F ltac:(intros l j o' x; unfold plain_entry; destruct (_ && _); cbn; [intros [<-|[]]|intros []]; easy) e).
    rewrite No in F. unfold plain_entry in F at 2. cbn [fst snd] in F. rewrite C in F. cbn [negb andb] in F.
    assert (M : forall t, filter (fun e => fst e =? i) (flat_map (fun io => map (fun x => (fst (fst x), (snd (fst x), snd x))) (plain_entry k0 d0 e io)) t) =
       map (fun x => (fst (fst x), (snd (fst x), snd x))) (filter (fun e => fst (fst e) =? i) (flat_map (plain_entry k0 d0 e) t))).
    { intros t. induction t as [|x t IH]; [easy|]. cbn [flat_map]. rewrite !filter_app, map_app, IH. f_equal. unfold plain_entry. destruct (negb (is_chk (snd x)) && (e mod stride (snd x) =? 0)); [|easy]. cbn. destruct (_ =? i); easy. }
    rewrite M in F. unfold entries. destruct (filter _ _) as [|[[x1 x2] x3] t]; destruct (e mod stride o =? 0); try easy; cbn in F; injection F as -> -> -> F; destruct t; easy. }
  clear A. induction (labels k0 m) as [|e t IH]; [easy|]. cbn [flat_map due filter]. rewrite filter_app, map_app, Q. rewrite IH. destruct (e mod stride o =? 0); easy.
Qed.
Lemma saves_written k0 d0 s m i o : written k0 d0 s m -> nth_error outs i = Some o -> is_chk o = true -> saves i s = map (fun l => (l, T k0 d0 l)) (due (stride o) (labels k0 m)).
Proof.
  intros [_ A] No C. unfold saves. rewrite A.
  assert (Q : forall e, filter (fun e => fst e =? i) (centries k0 d0 e) = if e mod stride o =? 0 then [(i, (e, T k0 d0 e))] else []).
  { intros e. pose proof (flat_filter i (chk_entry k0 d0)) as F.
    specialize (F ltac:(intros l j o' x; unfold chk_entry; destruct (_ && _); cbn; [intros [<-|[]]|intros []]; easy) e). unfold centries. rewrite F, No. unfold chk_entry. cbn. now rewrite C. }
  clear A. induction (labels k0 m) as [|e t IH]; [easy|]. cbn [flat_map due filter]. rewrite filter_app, map_app, Q. rewrite IH. destruct (e mod stride o =? 0); easy.
Qed.

(** A run that has returned without an exit being asked for has written every
    output at exactly the multiples of its stride, in order and once, with the
    state of that step; a file started at step 0 begins with the initial state. *)
Theorem outputs_at_stride_partial k0 d0 s l s' i o : (forall k d, fin k d = false) -> bind k0 d0 = Some s -> reaches s l s' -> triggered D s' = false -> at_ D s' = POver D ->
  nth_error outs i = Some o -> exists m, k0 < m <= tsteps /\ lab D s' = m /\ data D s' = evolve k0 (m - k0) d0 /\
    (if is_chk o then saves i s' else frames i s') = map (fun n => (n, evolve k0 (n - k0) d0)) (due (stride o) (if k0 =? 0 then seq 0 (S m) else seq (S k0) (m - k0))).
Proof.
  intros F B R Tr A No. destruct (inv_bind k0 d0 s B) as (I & T0 & Hk). destruct (reaches_inv k0 d0 l s' s Hk I T0 R) as [[_ (_ & _ & _ & P)]|[? _]]; [|congruence].
  unfold place in P. rewrite A in P. destruct P as (k & P1 & P2 & P3 & [P4|[P4 _]]); [|now rewrite F in P4].
  exists (S k). split; [lia|]. split; [easy|]. split; [easy|].
  assert (L : labels k0 (S k) = if k0 =? 0 then seq 0 (S (S k)) else seq (S k0) (S k - k0)).
  { unfold labels. destruct (Nat.eqb_spec k0 0) as [-> |_]; easy. }
  rewrite <- L. destruct (is_chk o) eqn:C; [now apply saves_written|now apply frames_written].
Qed.
(** Two such runs, the second from the restart file of the first, write together
    what one run would have written. *)
Theorem clean_restart_continues_outputs_partial k0 d0 s1 l1 s1' s2 l2 s2' r d i o : (forall k d, fin k d = false) ->
  bind k0 d0 = Some s1 -> reaches s1 l1 s1' -> triggered D s1' = false -> at_ D s1' = POver D -> restart D (softexit D tsteps s1') = Some (r, d) ->
  bind r d = Some s2 -> reaches s2 l2 s2' -> triggered D s2' = false -> at_ D s2' = POver D ->
  nth_error outs i = Some o -> is_chk o = false -> exists m, r < m <= tsteps /\
    frames i s1' ++ frames i s2' = map (fun n => (n, evolve k0 (n - k0) d0)) (due (stride o) (if k0 =? 0 then seq 0 (S m) else seq (S k0) (m - k0))).
Proof.
  intros F B1 R1 T1 A1 E B2 R2 T2 A2 No C.
  destruct (outputs_at_stride_partial k0 d0 s1 l1 s1' i o F B1 R1 T1 A1 No) as (m1 & M1 & L1 & D1 & O1).
  destruct (outputs_at_stride_partial r d s2 l2 s2' i o F B2 R2 T2 A2 No) as (m2 & M2 & _ & D2 & O2). rewrite C in O1, O2.
  assert (X : r = m1 /\ d = evolve k0 (m1 - k0) d0).
  { destruct (inv_bind k0 d0 s1 B1) as (I & T0 & Hk). destruct (reaches_inv k0 d0 l1 s1' s1 Hk I T0 R1) as [[_ (_ & Rb & _ & P)]|[? _]]; [|congruence].
    rewrite A1 in Rb. unfold softexit in E. cbn [restart] in E. rewrite A1, Rb, L1 in E. replace (m1 <=? tsteps) with true in E by (symmetry; apply Nat.leb_le; lia).
    cbn [Nat.sub] in E. rewrite Nat.sub_0_r in E. injection E as <- <-. easy. }
  destruct X as [-> ->]. exists m2. split; [easy|]. rewrite O1, O2.
  replace (m1 =? 0) with false by (symmetry; apply Nat.eqb_neq; lia).
  assert (Y : map (fun n => (n, evolve m1 (n - m1) (evolve k0 (m1 - k0) d0))) (due (stride o) (seq (S m1) (m2 - m1))) = map (fun n => (n, evolve k0 (n - k0) d0)) (due (stride o) (seq (S m1) (m2 - m1)))).
  { apply map_ext_in. intros n Hn. apply filter_In in Hn. destruct Hn as [Hn _]. apply in_seq in Hn. f_equal. replace (n - k0) with ((m1 - k0) + (n - m1)) by lia. rewrite evolve_app. f_equal. lia. }
  rewrite Y, <- map_app. f_equal. unfold due. rewrite <- filter_app. f_equal. destruct (k0 =? 0).
  - change (S m1) with (0 + S m1) at 2. rewrite <- seq_app. f_equal. lia.
  - replace (S m1) with (S k0 + (m1 - k0)) by lia. rewrite <- seq_app. f_equal. lia.
Qed.

(** *** Frames of runs that are interrupted *)
Definition sound (k0 : nat) (d0 : D) (s : sim) : Prop := forall i l d, In (i, l, d) (log D s) ->
  d = evolve k0 (l - k0) d0 /\ k0 <= l <= tsteps /\ exists o, nth_error outs i = Some o /\ is_chk o = false /\ l mod stride o = 0.
Definition prefix (k0 : nat) (d0 : D) (s : sim) : Prop := fst (chk D s) = 0 \/ exists suf, log D s = flat_map (entries k0 d0) (labels k0 (fst (chk D s))) ++ suf.
Lemma write_log s i o r pre p : numbered = pre ++ (i, o) :: r -> log D (write_out D s (i, o) p) = log D s \/
  (log D (write_out D s (i, o) p) = log D s ++ [(i, lab D s, data D s)] /\ nth_error outs i = Some o /\ is_chk o = false /\ lab D s mod stride o = 0).
Proof.
  intros E.
  assert (N : nth_error outs i = Some o).
  { assert (G : forall os b pre, combine (seq b (length os)) os = pre ++ (i, o) :: r -> b <= i /\ nth_error os (i - b) = Some o).
    { clear E pre. induction os as [|x os IH]; intros b pre E; [destruct pre; easy|]. destruct pre as [|y pre]; cbn in E.
      - injection E as -> -> _. rewrite Nat.sub_diag. split; [lia|easy].
      - injection E as _ E2. destruct (IH (S b) pre E2) as [A B]. split; [lia|]. replace (i - b) with (S (i - S b)) by lia. exact B. }
    destruct (G outs 0 pre E) as [_ H]. now rewrite Nat.sub_0_r in H. }
  unfold write_out. destruct (_ && _); [now left|]. destruct (_ =? 0); [now left|]. destruct (lab D s mod stride o =? 0) eqn:M; [|now left]. destruct (is_chk o) eqn:C; [now left|].
  right. cbn [log]. apply Nat.eqb_eq in M. auto.
Qed.
Lemma next_log k0 d0 s x s' : inv k0 d0 s -> triggered D s = false -> next s x = Some s' -> log D s' = log D s \/
  exists i l o, log D s' = log D s ++ [(i, l, T k0 d0 l)] /\ k0 <= l <= tsteps /\ nth_error outs i = Some o /\ is_chk o = false /\ l mod stride o = 0.
Proof.
  intros (_ & _ & _ & P) Tr H. destruct x as [b|d|]; cbn [SimModel.next] in H.
  - unfold go in H. unfold place in P. assert (L : forall k, log D (loop D tsteps s k) = log D s) by (intros k; unfold loop; destruct (_ <? _); easy).
    destruct (at_ D s) as [|[|[i o] r]|k|k|k|k b'|k|k [|[i o] r]|k| | |]; try easy; injection H as <-; try (left; reflexivity); try (left; apply L).
    + left. destruct (_ =? _); [easy|apply L].
    + destruct P as (P1 & P2 & P3 & (pre & Q1 & _)). destruct (write_log s i o r pre (PInit D r) Q1) as [W|(W & W1 & W2 & W3)]; [now left|right].
      exists i, 0, o. rewrite P2, P3 in W. rewrite P2 in W3. rewrite <- (T_0 k0 d0), P1 in W. rewrite P1. split; [exact W|]. split; [lia|easy].
    + destruct P as (P1 & P2 & P3 & (pre & Q1 & _)). destruct (write_log s i o r pre (PWrite D k r) Q1) as [W|(W & W1 & W2 & W3)]; [now left|right].
      exists i, (S k), o. rewrite P2, P3 in W. rewrite P2 in W3. split; [exact W|]. split; [lia|easy].
    + left. destruct b; [easy|apply L].
  - left. destruct (at_ D s); try easy; now injection H as <-.
  - left. rewrite Tr in H. now injection H as <-.
Qed.
Lemma go_chk k0 d0 s x s' : inv k0 d0 s -> triggered D s = false -> x <> Trig D -> next s x = Some s' -> chk D s' = chk D s \/ (written k0 d0 s (fst (chk D s')) /\ log D s' = log D s).
Proof.
  intros (_ & _ & _ & P) Tr X H. destruct x as [b|d|]; cbn [SimModel.next] in H; [| |easy].
  - unfold go in H. unfold place in P. assert (L : forall k, chk D (loop D tsteps s k) = chk D s) by (intros k; unfold loop; destruct (_ <? _); easy).
    assert (W : forall io p, chk D (write_out D s io p) = chk D s) by (intros [i o] p; unfold write_out; destruct (_ && _); [easy|]; repeat (destruct (_ =? 0)); try destruct (is_chk o); easy).
    destruct (at_ D s) as [|[|io r]|k|k|k|k b'|k|k [|io r]|k| | |]; try easy; injection H as <-; try (left; reflexivity); try (left; apply L); try (left; apply W).
    + left. destruct (_ =? _); [easy|apply L].
    + right. cbn. destruct P as (_ & -> & _ & P). cbn. rewrite Nat.sub_0_r. easy.
    + left. destruct b; [easy|apply L].
  - left. destruct (at_ D s); try easy; now injection H as <-.
Qed.
Definition inv2 (k0 : nat) (d0 : D) (s : sim) : Prop := inv k0 d0 s /\ sound k0 d0 s /\ prefix k0 d0 s.
Lemma log_grows k0 d0 s x s' : inv k0 d0 s -> triggered D s = false -> next s x = Some s' -> exists suf, log D s' = log D s ++ suf.
Proof. intros I Tr H. destruct (next_log k0 d0 s x s' I Tr H) as [-> |(i & l & o & -> & _)]; [exists []; now rewrite app_nil_r|eexists; reflexivity]. Qed.
Lemma sound_next k0 d0 s x s' : inv k0 d0 s -> triggered D s = false -> sound k0 d0 s -> next s x = Some s' -> sound k0 d0 s'.
Proof.
  intros I Tr Hs H i l d Hin. destruct (next_log k0 d0 s x s' I Tr H) as [E|(i' & l' & o & E & B & O)]; rewrite E in Hin; [now apply (Hs i)|].
  apply in_app_or in Hin. destruct Hin as [Hin|[Hin|[]]]; [now apply (Hs i)|]. injection Hin as <- <- <-. split; [easy|]. split; [easy|]. now exists o.
Qed.
Lemma prefix_next k0 d0 s x s' : inv k0 d0 s -> triggered D s = false -> prefix k0 d0 s -> x <> Trig D -> next s x = Some s' -> prefix k0 d0 s'.
Proof.
  intros I Tr Hp X H. destruct (go_chk k0 d0 s x s' I Tr X H) as [E|[[E _] El]].
  - unfold prefix in *. rewrite E. destruct Hp as [Hp|[suf Hp]]; [now left|right]. destruct (log_grows k0 d0 s x s' I Tr H) as [suf' E']. exists (suf ++ suf'). rewrite E', Hp, app_assoc. easy.
  - right. exists []. rewrite El, E, app_nil_r. easy.
Qed.
(** when the exit is asked for *)
Definition kept (k0 : nat) (d0 : D) (s : sim) : Prop := exists r, restart D s = Some (r, T k0 d0 r) /\ (r = 0 \/ (exists suf, log D s = flat_map (entries k0 d0) (labels k0 r) ++ suf) \/
  exists k, r = S k /\ fin k (T k0 d0 r) = true).
Lemma reaches_inv2 k0 d0 l s : forall s0, k0 < tsteps -> inv2 k0 d0 s0 -> triggered D s0 = false -> reaches s0 l s ->
  (triggered D s = false /\ inv2 k0 d0 s) \/ (triggered D s = true /\ sound k0 d0 s /\ kept k0 d0 s).
Proof.
  intros s0 Hk I0 T0 R. induction R as [|l s1 x s2 R IH N X]; [left; easy|]. destruct IH as [[Tr (I & So & Pr)]|[Tr (So & Kp)]].
  - pose proof (sound_next k0 d0 s1 x s2 I Tr So X) as So'. destruct x as [b|d|].
    + left. destruct (inv_go k0 d0 s1 b s2 Hk I Tr X). split; [easy|]. split; [easy|]. split; [easy|]. apply (prefix_next k0 d0 s1 (Go D b) s2); easy.
    + left. destruct (inv_mid k0 d0 s1 d s2 I Tr X). split; [easy|]. split; [easy|]. split; [easy|]. apply (prefix_next k0 d0 s1 (Mid D d) s2); easy.
    + right. pose proof (inv_trig k0 d0 s1 Hk I Tr (N eq_refl)) as (r & Er & Br). cbn [SimModel.next] in X. rewrite Tr in X. injection X as <-. split; [easy|]. split; [easy|].
      destruct I as ((c & C & Cb) & Rb & _ & P). exists r. split; [easy|]. specialize (N eq_refl). unfold storing in N. unfold prefix in Pr. rewrite C in Pr. cbn [fst] in Pr.
      unfold softexit in Er |- *. cbn [restart log] in Er |- *. unfold place in P.
      assert (G : Some (chk D s1) = Some (r, T k0 d0 r) -> r = c) by (rewrite C; intros [= -> _]; easy).
      destruct (at_ D s1) as [|rest|k|k|k|k b|k|k rest|k| | |] eqn:E; try easy; rewrite Rb in Er; try (apply G in Er; subst r; destruct Pr as [Pr|Pr]; auto).
      destruct P as (k & P1 & P2 & P3 & P4). rewrite P2 in Er. replace (S k <=? tsteps) with true in Er by (symmetry; apply Nat.leb_le; lia). cbn in Er. injection Er as <- _.
      right. destruct P4 as [[P4 _]|[P4 _]]; [left; exists []; now rewrite P4, app_nil_r|right; now exists k].
  - right. destruct (restart_kept s1 x s2 Tr X) as (A & B & C). split; [easy|]. split; [intros i n d; rewrite C; apply So|]. destruct Kp as (r & K1 & K2). exists r. rewrite A, C. easy.
Qed.
Lemma inv2_bind k0 d0 s : bind k0 d0 = Some s -> inv2 k0 d0 s /\ triggered D s = false /\ k0 < tsteps.
Proof.
  intros B. destruct (inv_bind k0 d0 s B) as (I & Tr & Hk). split; [|easy]. split; [easy|]. unfold SimModel.bind in B. destruct (_ <=? _); [easy|]. injection B as <-. split; [easy|].
  unfold prefix. cbn. destruct (Nat.eq_dec k0 0) as [Z|Z]; [now left|right; exists []]. now rewrite labels_pos.
Qed.

(** Whatever happens, every frame is one due at its step, with the state of an
    uninterrupted run at that step. *)
Theorem frames_are_right_partial k0 d0 s l s' i n d : bind k0 d0 = Some s -> reaches s l s' -> In (i, n, d) (log D s') ->
  d = evolve k0 (n - k0) d0 /\ k0 <= n <= tsteps /\ exists o, nth_error outs i = Some o /\ is_chk o = false /\ n mod stride o = 0.
Proof.
  intros B R H. destruct (inv2_bind k0 d0 s B) as (I & Tr & Hk). destruct (reaches_inv2 k0 d0 l s' s Hk I Tr R) as [[_ (_ & So & _)]|[_ (So & _)]]; now apply (So i).
Qed.
(** No frame due up to the step of the restart file is missing, so that nothing
    is missing after the continuation either. *)
Theorem no_frame_missing_partial k0 d0 s l s' r d i o n : (forall k d, fin k d = false) -> bind k0 d0 = Some s -> reaches s l s' -> restart D s' = Some (r, d) -> r <> 0 ->
  nth_error outs i = Some o -> is_chk o = false -> n mod stride o = 0 -> (k0 < n <= r \/ (k0 = 0 /\ n = 0)) -> In (i, n, evolve k0 (n - k0) d0) (log D s').
Proof.
  intros F B R E Hr No C M Hn. destruct (inv2_bind k0 d0 s B) as (I & Tr & Hk). destruct (reaches_inv2 k0 d0 l s' s Hk I Tr R) as [[_ ((_ & _ & N & _) & _)]|[_ (_ & (r' & Er & Kp))]]; [congruence|].
  rewrite E in Er. injection Er as <- ->. destruct Kp as [|[[suf Kp]|(k & _ & Kp)]]; [easy| |now rewrite F in Kp].
  rewrite Kp. apply in_or_app. left. apply in_flat_map. exists n. split.
  - unfold labels. apply in_or_app. destruct Hn as [Hn|[-> ->]]; [right; apply in_seq; lia|left; now left].
  - unfold entries. apply in_flat_map. exists (i, o). split.
    + unfold SimModel.numbered. assert (G : forall os b, nth_error os i = Some o -> In (b + i, o) (combine (seq b (length os)) os)).
      { clear -i. intros os. revert i. induction os as [|x os IH]; intros i b H; [destruct i; easy|]. destruct i as [|i]; cbn in *; [left; rewrite Nat.add_0_r; congruence|].
        right. replace (b + S i) with (S b + i) by lia. now apply IH. }
      apply (G outs 0 No).
    + unfold plain_entry. cbn. rewrite C, M. cbn. now left.
Qed.
(** Checkpoints written before an exit is asked for hold the state of their step. *)
Theorem checkpoints_are_right_partial k0 d0 s l s' i m d : bind k0 d0 = Some s -> reaches s l s' -> triggered D s' = false -> at_ D s' <> PCrash D -> In (i, (m, d)) (ckpts D s') ->
  d = evolve k0 (m - k0) d0 /\ k0 <= m <= tsteps.
Proof.
  intros B R Tr A H. destruct (inv_bind k0 d0 s B) as (I & T0 & Hk). destruct (reaches_inv k0 d0 l s' s Hk I T0 R) as [[_ (_ & _ & _ & P)]|[? _]]; [|congruence].
  assert (E : forall e io, In (i, (m, d)) (chk_entry k0 d0 e io) -> m = e /\ d = T k0 d0 e) by (intros e io; unfold chk_entry; destruct (_ && _); cbn; [intros [[= _ <- <-]|[]]|intros []]; easy).
  assert (W : forall n, k0 <= n <= tsteps -> In (i, (m, d)) (flat_map (centries k0 d0) (labels k0 n)) -> d = evolve k0 (m - k0) d0 /\ k0 <= m <= tsteps).
  { intros n Hn Hin. apply in_flat_map in Hin. destruct Hin as (e & He & Hin). apply in_flat_map in Hin. destruct Hin as (io & _ & Hin). destruct (E e io Hin) as [-> ->]. split; [easy|].
    unfold labels in He. apply in_app_or in He. destruct He as [He|He]; [|apply in_seq in He; lia]. destruct (Nat.eqb_spec k0 0); [destruct He as [<-|[]]; lia|destruct He]. }
  assert (V : forall before n r, k0 <= n <= tsteps -> writing k0 d0 s' before n r -> ~ In (i, (m, d)) (flat_map (centries k0 d0) before) -> d = evolve k0 (m - k0) d0 /\ k0 <= m <= tsteps).
  { intros before n r Hn (pre & _ & _ & Ec) Nb. rewrite Ec in H. apply in_app_or in H. destruct H as [H|H]; [easy|]. apply in_flat_map in H. destruct H as (io & _ & H). destruct (E n io H) as [-> ->]. easy. }
  unfold place in P. destruct (at_ D s') as [|rest|k|k|k|k b|k|k rest|k| | |]; try easy.
  - destruct P as (_ & _ & _ & P). rewrite P in H. destruct H.
  - destruct P as (P1 & _ & _ & P). apply (V [] 0 rest); [lia|easy|intros []].
  - destruct P as (P1 & _ & _ & _ & P). rewrite P in H. apply (W k); [lia|easy].
  - destruct P as (P1 & _ & _ & _ & P). rewrite P in H. apply (W k); [lia|easy].
  - destruct P as (P1 & _ & _ & _ & P). rewrite P in H. apply (W k); [lia|easy].
  - destruct P as (P1 & _ & _ & _ & P). rewrite P in H. apply (W k); [lia|easy].
  - destruct P as (P1 & _ & _ & _ & P). rewrite P in H. apply (W k); [lia|easy].
  - destruct P as (P1 & _ & _ & (pre & _ & _ & Ec)). rewrite Ec in H. apply in_app_or in H. destruct H as [H|H]; [apply (W k); [lia|easy]|].
    apply in_flat_map in H. destruct H as (io & _ & H). destruct (E (S k) io H) as [-> ->]. split; [easy|lia].
  - destruct P as (P1 & _ & _ & _ & P). rewrite P in H. apply (W (S k)); [lia|easy].
  - destruct P as (k & P1 & _ & _ & [[_ P]|[_ [_ P]]]); rewrite P in H; [apply (W (S k))|apply (W k)]; try easy; lia.
  - destruct P as (k & P1 & _ & _ & [[_ P]|[_ [_ P]]]); rewrite P in H; [apply (W (S k))|apply (W k)]; try easy; lia.
Qed.
(** The run crashes only if some stride is zero. *)
Theorem crash_needs_zero_stride k0 d0 s l s' : bind k0 d0 = Some s -> reaches s l s' -> triggered D s' = false -> at_ D s' = PCrash D -> exists o, In o outs /\ stride o = 0.
Proof.
  intros B R Tr A. destruct (inv_bind k0 d0 s B) as (I & T0 & Hk). destruct (reaches_inv k0 d0 l s' s Hk I T0 R) as [[_ (_ & _ & _ & P)]|[? _]]; [|congruence].
  unfold place in P. now rewrite A in P.
Qed.
End Sim.

(** ** Counterexamples and concrete runs: the state counts the steps made *)
Definition cnt (k d : nat) : nat := S d.
Definition never (k d : nat) : bool := false.
Notation crun := (exec nat cnt never).
Notation G := (Go nat false).
Definition ck (tsteps safe : nat) (outs : list output) (fin : nat -> nat -> bool) (k0 d0 : nat) (l : list (ev nat)) (p : sim nat -> bool) : bool :=
  match bind nat tsteps k0 d0 with None => false | Some s => match exec nat cnt fin tsteps safe outs s l with None => false | Some s' => p s' end end.
Definition plain (n : nat) := mkout false n.
Definition check (n : nat) := mkout true n.

(** An exit asked for while the status is stored at the head of a step: softexit
    first advances the step and then stores once more, so the restart file is
    labelled one step too far and that step is never made. *)
Theorem exit_while_storing_refuted : exists s l s' k d, bind nat 3 0 0 = Some s /\ crun 3 1 [] s l = Some s' /\ restart nat s' = Some (k, d) /\ d <> evolve nat cnt 0 (k - 0) 0.
Proof.
  eexists. exists [G; G; G; Trig nat]. eexists. exists 1, 0. split; [reflexivity|]. split; [vm_compute; reflexivity|]. split; [vm_compute; reflexivity|]. vm_compute. easy.
Qed.
(** A checkpoint written by the main thread after an exit has been asked for
    carries the step advanced by softexit. *)
Theorem checkpoint_after_exit_refuted : exists s l s' k d, bind nat 3 0 0 = Some s /\ crun 3 1 [check 1] s l = Some s' /\ In (0, (k, d)) (ckpts nat s') /\
  d <> evolve nat cnt 0 (k - 0) 0.
Proof.
  eexists. exists [G; G; G; G; G; G; G; Trig nat; G]. eexists. exists 2, 1. split; [reflexivity|]. split; [vm_compute; reflexivity|]. split; [right; left; vm_compute; reflexivity|].
  vm_compute. easy.
Qed.
(** An exit asked for after the outputs of a step: the restart file is older than
    the outputs, and the next run writes the same frames again. *)
Theorem duplicate_frames_refuted : exists s1 l1 s1' k d s2 l2 s2', bind nat 2 0 0 = Some s1 /\ crun 2 1 [plain 1] s1 l1 = Some s1' /\ restart nat s1' = Some (k, d) /\
  bind nat 2 k d = Some s2 /\ crun 2 1 [plain 1] s2 l2 = Some s2' /\ at_ nat s2' = POver nat /\ map fst (frames nat 0 s1' ++ frames nat 0 s2') = [0; 1; 0; 1; 2].
Proof.
  eexists. exists [G; G; G; G; G; G; G; G; G; Trig nat]. eexists. exists 0, 0. eexists. exists (repeat G 18). eexists.
  split; [reflexivity|]. split; [vm_compute; reflexivity|]. split; [reflexivity|]. split; [reflexivity|]. split; [vm_compute; reflexivity|]. split; [reflexivity|]. vm_compute. reflexivity.
Qed.
(** also after a clean sequence of steps when the status is only stored every other step *)
Theorem duplicate_frames_safe_stride_refuted : exists s1 l1 s1' k d, bind nat 9 0 0 = Some s1 /\ crun 9 4 [plain 1] s1 l1 = Some s1' /\ restart nat s1' = Some (k, d) /\
  k = 0 /\ map fst (frames nat 0 s1') = [0; 1; 2; 3].
Proof.
  eexists. exists (repeat G 22 ++ [Trig nat]). eexists. exists 0, 0. split; [reflexivity|]. split; [vm_compute; reflexivity|]. split; [reflexivity|]. split; [easy|]. vm_compute. reflexivity.
Qed.
(** The last state of a motion that reports to be finished is not written by any output. *)
Theorem finished_frame_missing_refuted : exists s l s' k, bind nat 5 0 0 = Some s /\ exec nat cnt (fun k _ => k =? 1) 5 1 [plain 1] s l = Some s' /\ at_ nat s' = POver nat /\
  triggered nat s' = true /\ restart nat s' = Some (k, k) /\ ~ In k (map fst (frames nat 0 s')).
Proof.
  eexists. exists (repeat G 15 ++ [Trig nat]). eexists. exists 2. split; [reflexivity|]. split; [vm_compute; reflexivity|]. split; [reflexivity|]. split; [reflexivity|]. split; [reflexivity|].
  vm_compute. intros [H|[H|[]]]; easy.
Qed.
(** Stride zero passes the checks of the input and ends the run with an exception. *)
(** inputs/outputs.py, check of InputProperties, InputTrajectory and InputCheckpoint: only a negative stride is refused *)
Definition stride_accepted (n : nat) : bool := negb (n <? 0).
Theorem zero_stride_refuted : exists o s l s', stride_accepted (stride o) = true /\ bind nat 5 0 0 = Some s /\ crun 5 1 [o] s l = Some s' /\ at_ nat s' = PCrash nat.
Proof. exists (plain 0). eexists. exists [G; G]. eexists. split; [reflexivity|]. split; [reflexivity|]. split; [vm_compute; reflexivity|]. reflexivity. Qed.

(** The hypotheses are met: a run of five steps with two outputs and a checkpoint,
    stopped after three by a file EXIT, and continued. *)
Example ex_first : ck 5 2 [plain 2; check 3; plain 1] never 0 0 (repeat G 30 ++ [Go nat true; G; Trig nat])
  (fun s => match restart nat s with Some (k, d) => (k =? 3) && (d =? 3) && (length (frames nat 0 s) =? 2) && (length (frames nat 2 s) =? 4) && (length (saves nat 1 s) =? 2) | None => false end) = true.
Proof. vm_compute. reflexivity. Qed.
Example ex_second : ck 5 2 [plain 2; check 3; plain 1] never 3 3 (repeat G 19)
  (fun s => match at_ nat s with POver _ => true | _ => false end && (data nat s =? 5) && (length (frames nat 0 s) =? 1) && (length (frames nat 2 s) =? 2)) = true.
Proof. vm_compute. reflexivity. Qed.
Example ex_mid : ck 5 1 [plain 2] never 0 0 (repeat G 12 ++ [Mid nat 77; Mid nat 78; Trig nat; G; G]) (fun s => match restart nat s with Some (k, d) => (k =? 1) && (d =? 1) | None => false end) = true.
Proof. vm_compute. reflexivity. Qed.

Print Assumptions restart_file_is_on_trajectory_partial.
Print Assumptions restarts_are_on_trajectory_partial.
Print Assumptions exit_leaves_restart_file_partial.
Print Assumptions run_ends.
Print Assumptions outputs_at_stride_partial.
Print Assumptions clean_restart_continues_outputs_partial.
Print Assumptions frames_are_right_partial.
Print Assumptions no_frame_missing_partial.
Print Assumptions checkpoints_are_right_partial.
Print Assumptions crash_needs_zero_stride.
Print Assumptions exit_while_storing_refuted.
Print Assumptions checkpoint_after_exit_refuted.
Print Assumptions duplicate_frames_refuted.
Print Assumptions duplicate_frames_safe_stride_refuted.
Print Assumptions finished_frame_missing_refuted.
Print Assumptions zero_stride_refuted.
