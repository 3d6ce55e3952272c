(** * Theorems of record: self-consistent phonons, drawing, sequence of steps, branches *)
From Coq Require Import List Arith Lia Bool Reals Lra String FinFun.
From Verif Require Import RSum MinModel PhonModel ScpModel.
Import ListNotations.
Open Scope R_scope.

(** ** Drawing (C212) *)
(** The row of the [p]-th pair of iteration [i]. *)
Definition row (h i p : nat) : nat := (i * h + p + 1)%nat.
Lemma irng_row i h p : irng i (2 * h) (2 * p + 1) = row h i p.
Proof.
  unfold irng, row. replace (i * (2 * h))%nat with (i * h * 2)%nat by lia. rewrite Nat.div_mul by lia.
  replace (2 * p + 1 + 1)%nat with ((p + 1) * 2)%nat by lia. rewrite Nat.div_mul by lia. lia.
Qed.
Definition neg (v : vec) : vec := fun i => - v i.
Definition two_of (q : vec) (dev : nat -> vec) (h i p : nat) : list vec :=
  [vadd q (dev (row h i p)); vadd q (neg (dev (row h i p)))].
Lemma put_ok {A} ms k (v : A) l : (k < ms)%nat -> k = List.length l -> put ms k v l = Some (l ++ [v])%list.
Proof. intros H E. unfold put. rewrite (proj2 (Nat.ltb_lt k ms) H), (proj2 (Nat.eqb_eq _ _) E). easy. Qed.
Lemma draw_pairs i h q dev : forall m p fuel l, (m = h - p)%nat -> (p <= h)%nat -> (m < fuel)%nat -> List.length l = (2 * p)%nat ->
  draw fuel i (2 * h) q dev (2 * p + 1) l = Some (l ++ flat_map (two_of q dev h i) (seq p m))%list.
Proof.
  induction m as [|m IH]; intros p fuel l E P F L.
  - destruct fuel as [|fuel]; [lia|]. cbn [draw]. rewrite (proj2 (Nat.leb_gt _ _)) by lia. cbn. now rewrite app_nil_r.
  - destruct fuel as [|fuel]; [lia|]. cbn [draw]. rewrite (proj2 (Nat.leb_le _ _)) by lia.
    rewrite irng_row, (put_ok _ _ _ l) by lia. cbv zeta iota.
    rewrite put_ok by (rewrite ?app_length; cbn [List.length]; lia).
    replace (2 * p + 1 + 2)%nat with (2 * S p + 1)%nat by lia.
    rewrite IH by (rewrite ?app_length; cbn [List.length]; lia).
    f_equal. cbn [seq flat_map]. unfold two_of at 2. cbn [List.app]. rewrite <- !app_assoc. reflexivity.
Qed.
Lemma samples_even i h q dev : samples i (2 * h) q dev = Some (flat_map (two_of q dev h i) (seq 0 h)).
Proof. unfold samples. change 1%nat with (2 * 0 + 1)%nat at 2. rewrite (draw_pairs i h q dev h 0); try lia; reflexivity. Qed.
Lemma flat_two_length q dev h i k a : List.length (flat_map (two_of q dev h i) (seq a k)) = (2 * k)%nat.
Proof. revert a. induction k as [|k IH]; intros a; [reflexivity|]. cbn [seq flat_map]. rewrite app_length, IH. cbn. lia. Qed.
Lemma flat_two_nth q dev h i d : forall k a p, (p < k)%nat ->
  nth (2 * p) (flat_map (two_of q dev h i) (seq a k)) d = vadd q (dev (row h i (a + p))) /\
  nth (2 * p + 1) (flat_map (two_of q dev h i) (seq a k)) d = vadd q (neg (dev (row h i (a + p)))).
Proof.
  induction k as [|k IH]; intros a p P; [lia|]. cbn [seq flat_map]. unfold two_of at 1 3. cbn [List.app].
  destruct p as [|p].
  - cbn. rewrite Nat.add_0_r. easy.
  - replace (2 * S p)%nat with (S (S (2 * p))) by lia. replace (S (S (2 * p)) + 1)%nat with (S (S (2 * p + 1))) by lia.
    cbn [nth]. replace (a + S p)%nat with (S a + p)%nat by lia. apply IH. lia.
Qed.
(** With an even number of configurations, every one has its mirror image about the mean position
    next to it. *)
Theorem draws_mirrored i h q dev : exists l, samples i (2 * h) q dev = Some l /\ List.length l = (2 * h)%nat /\
  forall p c, (p < h)%nat -> nth (2 * p) l q c - q c = dev (row h i p) c /\ nth (2 * p + 1) l q c - q c = - dev (row h i p) c.
Proof.
  exists (flat_map (two_of q dev h i) (seq 0 h)). split; [apply samples_even|]. split; [apply flat_two_length|].
  intros p c P. destruct (flat_two_nth q dev h i q h 0 p P) as [E F]. rewrite E, F. unfold vadd, neg. cbn [Nat.add]. split; ring.
Qed.
Print Assumptions draws_mirrored.
Lemma Rsum_pairs h (f : nat -> R) : Rsum (2 * h) f = Rsum h (fun p => f (2 * p)%nat + f (2 * p + 1)%nat).
Proof.
  induction h as [|h IH]; [reflexivity|]. replace (2 * S h)%nat with (S (S (2 * h))) by lia. cbn [Rsum]. rewrite IH.
  replace (2 * h + 1)%nat with (S (2 * h)) by lia. ring.
Qed.
(** So the mean of the configurations is the mean position itself, whatever the random numbers. *)
Theorem draws_mean i h q dev l c : samples i (2 * h) q dev = Some l ->
  Rsum (2 * h) (fun k => nth k l q c - q c) = 0.
Proof.
  intros E. destruct (draws_mirrored i h q dev) as (l' & E' & _ & M). rewrite E in E'. injection E' as <-.
  rewrite Rsum_pairs. apply Rsum_0. intros p P. destruct (M p c P) as [-> ->]. ring.
Qed.
Print Assumptions draws_mean.
(** With an odd number the last mirror image falls outside of the array: IndexError. *)
Lemma draw_odd i h q dev : forall m p fuel l, (m = h - p)%nat -> (p <= h)%nat -> (m < fuel)%nat -> List.length l = (2 * p)%nat ->
  draw fuel i (2 * h + 1) q dev (2 * p + 1) l = None.
Proof.
  induction m as [|m IH]; intros p fuel l E P F L.
  - destruct fuel as [|fuel]; [lia|]. cbn [draw]. rewrite (proj2 (Nat.leb_le _ _)) by lia. cbv zeta.
    rewrite put_ok by lia. unfold put at 1. now rewrite (proj2 (Nat.ltb_ge _ _)) by lia.
  - destruct fuel as [|fuel]; [lia|]. cbn [draw]. rewrite (proj2 (Nat.leb_le _ _)) by lia. cbv zeta.
    rewrite put_ok by lia. rewrite put_ok by (rewrite ?app_length; cbn [List.length]; lia).
    replace (2 * p + 1 + 2)%nat with (2 * S p + 1)%nat by lia. apply IH; rewrite ?app_length; cbn [List.length]; lia.
Qed.
Theorem draws_odd i h q dev : samples i (2 * h + 1) q dev = None.
Proof. unfold samples. change 1%nat with (2 * 0 + 1)%nat at 3. apply (draw_odd i h q dev h 0); try lia. reflexivity. Qed.
Print Assumptions draws_odd.
(** Any positive number of configurations a user may ask for can be drawn: false. *)
Theorem draws_refuted : exists ms, (0 < ms)%nat /\ forall i q dev, samples i ms q dev = None.
Proof. exists 3%nat. split; [lia|]. intros. apply (draws_odd i 1). Qed.
Print Assumptions draws_refuted.
(** No row of the table of random numbers is used twice, in one iteration or in two, none is out of
    the table, and the first row is not used. *)
Theorem rows_fresh h i p i' p' : (p < h)%nat -> (p' < h)%nat -> row h i p = row h i' p' -> i = i' /\ p = p'.
Proof.
  unfold row. intros P P' E. destruct (Nat.lt_trichotomy i i') as [H|[H|H]]; [exfalso; nia|subst; lia|exfalso; nia].
Qed.
Print Assumptions rows_fresh.
Theorem rows_inside h i p mi : (p < h)%nat -> (i < mi)%nat ->
  (0 < row h i p)%nat /\ (row h i p < rows_pseudo (2 * h) mi)%nat /\ (row h i p < rows_sobol (2 * h) mi)%nat.
Proof. unfold row, rows_pseudo, rows_sobol. intros P I. nia. Qed.
Print Assumptions rows_inside.
Example draws_case : let dev := fun r => (fun c => INR r) : vec in
  exists l, samples 2 4 (fun _ => 1) dev = Some l /\ map (fun x => x 0%nat) l = [6; -4; 7; -5].
Proof.
  cbv zeta. rewrite (samples_even 2 2). eexists. split; [reflexivity|]. unfold two_of, row, vadd, neg. cbn [flat_map seq map List.app Nat.mul Nat.add INR].
  repeat f_equal; ring.
Qed.

(** ** The sequence of steps (C213) *)
Lemma NoDup_both {A} (l l' : list A) : NoDup l -> NoDup l' -> (forall x, In x l -> ~ In x l') -> NoDup (l ++ l').
Proof.
  intros H. induction H as [|x l X H IH]; intros N D; [exact N|]. cbn. constructor.
  - rewrite in_app_iff. intros [Y|Y]; [easy|]. apply (D x); [now left|easy].
  - apply IH; [easy|]. intros y Y. apply D. now right.
Qed.
Section Run.
Context {D : Type}.
Variables (np m mi : nat) (prep : D -> D) (move : nat -> D -> D).
Let ms := (np * m)%nat.
Let nofile : nat -> option D := fun _ => None.
Let stepf := scp_step ms np mi nofile prep move.
Let runf := scp_run ms np mi nofile prep move.
Hypothesis NP : (0 < np)%nat.
Hypothesis EV : Nat.even ms = true.
Hypothesis M0 : (0 < m)%nat.

Lemma run_add a b s : runf (a + b) s = match runf a s with Running s' => runf b s' | r => r end.
Proof.
  revert s. induction a as [|a IH]; intros s; [reflexivity|]. unfold runf in *. cbn [Nat.add scp_run].
  destruct (scp_step ms np mi nofile prep move s); try reflexivity. apply IH.
Qed.
(** The Monte Carlo steps of one iteration. *)
Lemma run_mc (k : nat) (s : sched D) : (k <= m)%nat -> (isc s < mi)%nat -> imc s = 1%nat ->
  runf k s = Running (Sched (isc s) (1 + np * k) (cur s) (recd s) (prov s)
                        (done s ++ map (fun j => (isc s, j)) (seq 0 (np * k)))).
Proof.
  intros K I E. induction k as [|k IH].
  - cbn. rewrite Nat.mul_0_r. cbn. rewrite app_nil_r. destruct s; cbn in *. now subst.
  - replace (S k) with (k + 1)%nat by lia. rewrite run_add, IH by lia. unfold runf. cbn [scp_run]. unfold scp_step. cbn [isc imc].
    rewrite (proj2 (Nat.eqb_neq _ _)) by lia. rewrite (proj2 (Nat.eqb_neq _ _)) by lia.
    rewrite (proj2 (Nat.leb_le _ _)) by (unfold ms; nia). unfold mc_step, nofile. cbn [isc imc cur recd prov done].
    do 2 f_equal; [lia|]. rewrite <- app_assoc, <- map_app. do 2 f_equal.
    replace (np * (k + 1))%nat with (np * k + np)%nat by lia. rewrite seq_app. do 2 f_equal; lia.
Qed.
(** One iteration: m + 2 steps. *)
Lemma run_iteration (s : sched D) : (isc s < mi)%nat -> imc s = 0%nat ->
  runf (m + 2) s = Running (Sched (S (isc s)) 0 (move (S (isc s)) (prep (cur s)))
     (upd (recd s) (isc s) (prep (cur s))) (upd (prov s) (isc s) (prep (cur s)))
     (done s ++ map (fun j => (isc s, j)) (seq 0 ms))).
Proof.
  intros I E. replace (m + 2)%nat with (1 + (m + 1))%nat by lia. rewrite run_add.
  assert (R : runf 1 s = Running (Sched (isc s) 1 (prep (cur s)) (upd (recd s) (isc s) (prep (cur s)))
     (upd (prov s) (isc s) (prep (cur s))) (done s))).
  { unfold runf. cbn [scp_run]. unfold scp_step. rewrite (proj2 (Nat.eqb_neq _ _)) by lia. rewrite E. cbn [Nat.eqb].
    unfold reset, nofile. now rewrite EV. }
  rewrite R, run_add, run_mc by (cbn; lia). cbn [isc imc cur recd prov done].
  unfold runf. cbn [scp_run]. unfold scp_step. cbn [isc imc cur recd prov done].
  rewrite (proj2 (Nat.eqb_neq _ _)) by lia. rewrite (proj2 (Nat.eqb_neq _ _)) by lia.
  rewrite (proj2 (Nat.leb_gt _ _)) by (unfold ms; lia). reflexivity.
Qed.
(** What is computed in the first [k] iterations: every configuration of each, in order. *)
Fixpoint all_done (k : nat) : list (nat * nat) :=
  match k with O => [] | S k => (all_done k ++ map (fun j => (k, j)) (seq 0 ms))%list end.
(** After [k] iterations of [m + 2] steps: every configuration of each has been computed exactly
    once, and the distribution recorded for each is the one it was drawn from. *)
Theorem scp_iterations d k : (k <= mi)%nat -> exists s, runf (k * (m + 2)) (start d) = Running s /\
  isc s = k /\ imc s = 0%nat /\ done s = all_done k /\ (forall i, (i < k)%nat -> recd s i = prov s i).
Proof.
  induction k as [|k IH]; intros K.
  - exists (start d). cbn. repeat split; lia.
  - destruct IH as (s & R & I & E & L & P); [lia|]. replace (S k * (m + 2))%nat with (k * (m + 2) + (m + 2))%nat by lia.
    rewrite run_add, R, run_iteration by lia. eexists. split; [reflexivity|]. cbn [isc imc cur recd prov done all_done].
    rewrite L, I. repeat split; try lia. intros i Hi. unfold upd. destruct (Nat.eqb_spec i k); [easy|]. apply P. lia.
Qed.
(** Then the run ends, and does not before. *)
Theorem scp_ends d k : (k < mi * (m + 2))%nat -> exists s, runf k (start d) = Running s.
Proof.
  intros K. set (i := (k / (m + 2))%nat). set (j := (k mod (m + 2))%nat).
  assert (E : k = (i * (m + 2) + j)%nat) by (unfold i, j; rewrite Nat.mul_comm; apply Nat.div_mod; lia).
  assert (J : (j < m + 2)%nat) by (apply Nat.mod_upper_bound; lia).
  assert (I : (i < mi)%nat) by (apply Nat.div_lt_upper_bound; lia).
  destruct (scp_iterations d i) as (s & R & Is & Im & _); [lia|]. rewrite E, run_add, R.
  generalize (run_iteration s). rewrite Is. intros G. specialize (G I Im).
  replace (m + 2)%nat with (j + (m + 2 - j))%nat in G by lia. rewrite run_add in G.
  destruct (runf j s) as [s'|s'|]; [now exists s'|discriminate|discriminate].
Qed.
Theorem scp_stops d k : exists s, runf (mi * (m + 2) + S k) (start d) = Stopped s /\ isc s = mi /\ done s = all_done mi.
Proof.
  destruct (scp_iterations d mi) as (s & R & Is & _ & L & _); [lia|]. rewrite run_add, R. exists s. unfold runf. cbn [scp_run].
  unfold scp_step. rewrite Is, Nat.eqb_refl. easy.
Qed.
Lemma all_done_in k i j : In (i, j) (all_done k) <-> (i < k /\ j < ms)%nat.
Proof.
  induction k as [|k IH]; [cbn; split; [easy|lia]|]. cbn [all_done]. rewrite in_app_iff, IH, in_map_iff. split.
  - intros [H|(x & E & H)]; [lia|]. injection E as <- <-. apply in_seq in H. lia.
  - intros [H J]. destruct (Nat.eq_dec i k) as [->|N]; [right; exists j; split; [easy|apply in_seq; lia]|left; lia].
Qed.
Lemma all_done_nodup k : NoDup (all_done k).
Proof.
  induction k as [|k IH]; [constructor|]. cbn [all_done]. apply NoDup_both; [exact IH| |].
  - apply FinFun.Injective_map_NoDup; [intros x y E; now injection E|apply seq_NoDup].
  - intros [i j] H1 H2. apply all_done_in in H1. apply in_map_iff in H2. destruct H2 as (x & E & _). injection E as <- _. lia.
Qed.
(** Every configuration of every iteration is computed, and none twice. *)
Theorem scp_computes_once d k : exists s, runf (mi * (m + 2) + S k) (start d) = Stopped s /\ NoDup (done s) /\
  forall i j, In (i, j) (done s) <-> (i < mi /\ j < ms)%nat.
Proof.
  destruct (scp_stops d k) as (s & R & _ & L). exists s. rewrite L. split; [easy|]. split; [apply all_done_nodup|apply all_done_in].
Qed.
End Run.
Print Assumptions scp_iterations.
Print Assumptions scp_ends.
Print Assumptions scp_stops.
Print Assumptions scp_computes_once.
Example scp_run_case : exists s, scp_run 4 2 2 (fun _ => None) (fun d => d) (fun i d => (d + i)%nat) 7 (start 5%nat) = Running s /\
  isc s = 1%nat /\ done s = [(0, 0); (0, 1); (0, 2); (0, 3); (1, 0); (1, 1); (1, 2); (1, 3)]%nat /\ recd s 1%nat = 6%nat.
Proof. eexists. split; [vm_compute; reflexivity|]. repeat split. Qed.
(** An odd number of configurations passes the checks of bind and fails in the first step. *)
Theorem scp_odd_refuted : exists ms np, bind_ok ms np 1 = true /\
  forall (D : Type) mi prep move (d : D), (0 < mi)%nat -> scp_run ms np mi (fun _ => None) prep move 1 (start d) = Failed_index.
Proof.
  exists 3%nat, 1%nat. split; [reflexivity|]. intros D mi prep move d H. destruct mi; [lia|]. reflexivity.
Qed.
Print Assumptions scp_odd_refuted.
(** A run that finds configurations of an earlier run on disk (a restart begins with iteration
    zero again, bind 154-156, and the position and matrix of the checkpoint): it records
    the distribution of the checkpoint for configurations drawn from another. *)
Theorem scp_restart_refuted : exists ms np mi (move : nat -> nat -> nat) s0 s,
  scp_run ms np mi (fun _ => None) (fun d => d) move 4 (start 0%nat) = Running s0 /\
  (let found := fun i => if Nat.ltb i (isc s0) then Some (prov s0 i) else None in
   scp_run ms np mi found (fun d => d) move 1 (start (cur s0)) = Running s) /\
  recd s 0%nat <> prov s 0%nat.
Proof.
  exists 4%nat, 2%nat, 2%nat, (fun i d => (d + i)%nat). eexists. eexists. split; [vm_compute; reflexivity|].
  split; [cbv zeta; vm_compute; reflexivity|]. cbn. lia.
Qed.
Print Assumptions scp_restart_refuted.
(** Found on disk from a run with the same starting position and matrix they are used as drawn
    (first iteration). *)
Theorem scp_reuse (D : Type) ms np mi file prep move (d : D) s : (0 < mi)%nat -> file 0%nat = Some (prep d) ->
  scp_run ms np mi file prep move 1 (start d) = Running s -> recd s 0%nat = prov s 0%nat.
Proof.
  intros M F H. cbn [scp_run] in H. unfold scp_step in H. cbn [isc imc start] in H.
  destruct mi; [lia|]. cbn [Nat.eqb] in H. unfold reset in H. cbn [isc cur start] in H. rewrite F in H. injection H as <-.
  reflexivity.
Qed.
Print Assumptions scp_reuse.

(** ** Branches (C214) *)
Local Open Scope string_scope.
(** Without the check, or with forces that matter, the chosen way of moving is carried out, and no
    other: true of all but sd, which needs the check to be off. *)
Theorem branch_done mode precheck : In mode displace_options -> mode <> "sd" -> branches precheck false mode = [mode].
Proof.
  intros H N. destruct precheck; repeat (destruct H as [<-|H]; [try reflexivity; now contradict N|]); destruct H.
Qed.
Print Assumptions branch_done.
Theorem branch_sd : branches false false "sd" = ["sd"].
Proof. reflexivity. Qed.
Print Assumptions branch_sd.
Theorem branch_skipped mode : branches true true mode = [].
Proof. reflexivity. Qed.
Print Assumptions branch_skipped.
(** With the default check, sd never moves anything. *)
Theorem branch_sd_refuted : In "sd" displace_options /\ forall insig, branches precheck_default insig "sd" = [].
Proof. split; [cbn; tauto|]. now destruct insig. Qed.
Print Assumptions branch_sd_refuted.

(** ** The inner loop of rnmik (C215) *)
Local Open Scope R_scope.
Section Loop.
Variables (n : nat) (V : mat) (z : nat -> bool) (iw2 : vec) (wthr : R) (look : vec -> vec * vec * list R).
Lemma insig_at fnm err k : insignificant n fnm err = true -> (k < n)%nat -> Rabs (fnm k) < err k.
Proof.
  unfold insignificant. rewrite forallb_forall. intros H K. specialize (H k). cbv beta in H.
  destruct (Rlt_dec (Rabs (fnm k)) (err k)); [easy|]. discriminate H. apply in_seq. lia.
Qed.
Lemma insig_iff fnm err : insignificant n fnm err = true <-> forall k, (k < n)%nat -> Rabs (fnm k) < err k.
Proof.
  split; [intros H k; now apply insig_at|]. intros H. unfold insignificant. apply forallb_forall. intros k K.
  apply in_seq in K. destruct (Rlt_dec (Rabs (fnm k)) (err k)) as [L|L]; [easy|]. contradict L. apply H. lia.
Qed.
Lemma err_zero fe k : (forall i, (i < n)%nat -> fe i = 0) -> fmode_err n V fe k = 0.
Proof. intros H. unfold fmode_err. rewrite Rsum_0; [apply sqrt_0|]. intros i I. rewrite H by easy. ring. Qed.
(** Forces without error are never insignificant. *)
Theorem exact_significant f fe : (0 < n)%nat -> (forall i, (i < n)%nat -> fe i = 0) ->
  insignificant n (fmode n V z f) (fmode_err n V fe) = false.
Proof.
  intros N H. destruct (insignificant _ _ _) eqn:E; [|reflexivity]. apply (insig_at _ _ 0%nat) in E; [|lia].
  rewrite err_zero in E by easy. pose proof (Rabs_pos (fmode n V z f 0%nat)). lra.
Qed.
(** If the loop ends, all components are within their errors, or the weights have become small. *)
Theorem inner_ends fuel : forall s s', inner_loop n V z iw2 wthr look fuel s = Some s' ->
  let '(f, fe, bw) := look (i_q s') in
  (forall k, (k < n)%nat -> Rabs (fmode n V z f k) < fmode_err n V fe k) \/ rmax bw < wthr.
Proof.
  induction fuel as [|fuel IH]; intros s s' H; [discriminate|]. cbn [inner_loop] in H.
  destruct (inner_pass n V z iw2 wthr look s) as [t|t] eqn:E; [|now apply (IH t)].
  injection H as ->. unfold inner_pass in E. destruct (look (i_q s)) as [[f fe] bw] eqn:L.
  destruct (insignificant n (fmode n V z f) (fmode_err n V fe)) eqn:I.
  - injection E as <-. cbn [i_q]. rewrite L. left. now apply insig_iff.
  - destruct (Rlt_dec (rmax bw) wthr) as [W|W]; [|discriminate]. injection E as <-. cbn [i_q]. rewrite L. now right.
Qed.
(** With forces without error and weights that stay large it never ends. *)
Theorem inner_never : (0 < n)%nat ->
  (forall q, let '(f, fe, bw) := look q in (forall i, (i < n)%nat -> fe i = 0) /\ wthr <= rmax bw) ->
  forall fuel s, inner_loop n V z iw2 wthr look fuel s = None.
Proof.
  intros N H fuel. induction fuel as [|fuel IH]; intros s; [reflexivity|]. cbn [inner_loop].
  unfold inner_pass. specialize (H (i_q s)). destruct (look (i_q s)) as [[f fe] bw]. destruct H as [F W].
  rewrite (exact_significant f fe) by easy. destruct (Rlt_dec (rmax bw) wthr) as [L|L]; [lra|]. apply IH.
Qed.
End Loop.
Print Assumptions exact_significant.
Print Assumptions inner_ends.
Print Assumptions inner_never.
