(** * Theorems of record about requests sent ahead of a read (C20) *)
From Coq Require Import List Arith Lia Bool.
From Verif Require Import BeadModel.
Import ListNotations.

Section Bead.
Context {X Y : Type}.
Variable ff : nat -> X -> Y.

(** Every value handed out is the force field's result for the positions at
    that time. *)
Definition all_fresh (t : list (@seen X Y)) : Prop :=
  forall e, In e t -> s_val e = Some (ff (s_comp e) (s_pos e)).

(** What a caller has to respect: positions are not assigned while a component
    has been queued and not read. [pend]: components possibly in that situation. *)
Fixpoint disciplined (pend : list nat) (os : list (@op X)) : Prop :=
  match os with
  | [] => True
  | Set_ _ :: os' => pend = [] /\ disciplined pend os'
  | Queue i :: os' => disciplined (i :: pend) os'
  | Read i :: os' => disciplined (filter (fun j => negb (j =? i)) pend) os'
  | Gather qs rs :: os' =>
      disciplined (filter (fun j => negb (existsb (Nat.eqb j) rs)) (qs ++ pend)) os'
  end.

Definition inv (pend : list nat) (s : @st X Y) : Prop :=
  all_fresh (trace s) /\
  (forall i, tainted (comps s i) = false -> cached (comps s i) = Some (ff i (q s))) /\
  (forall i x, req (comps s i) = Some x -> x = q s /\ In i pend).

Lemma inv_mono p p' s : incl p p' -> inv p s -> inv p' s.
Proof. intros Hi (H1 & H2 & H3). split; [easy|split; [easy|]]. intros i x H. split; [now apply (H3 i)|]. apply Hi. now apply (H3 i x). Qed.

Lemma inv_queue p i s : inv p s -> inv (i :: p) (queue i s).
Proof.
  intros H. unfold queue. destruct (req (comps s i)) eqn:Er; [eapply inv_mono; [|exact H]; now right|].
  destruct (tainted (comps s i)) eqn:Et; [|eapply inv_mono; [|exact H]; now right].
  destruct H as (H1 & H2 & H3). split; [easy|]. cbn. unfold upd. split.
  - intros j Hj. destruct (j =? i); [discriminate|]. now apply H2.
  - intros j x. destruct (Nat.eqb_spec j i) as [->|Hn]; cbn.
    + intros [= <-]. split; [easy|now left].
    + intros Hx. split; [now apply (H3 j)|right; now apply (H3 j x)].
Qed.

(** A component with a request is tainted. *)
Definition req_tainted (s : @st X Y) : Prop := forall i, req (comps s i) <> None -> tainted (comps s i) = true.

Lemma rt_queue i s : req_tainted s -> req_tainted (queue i s).
Proof.
  intros H. unfold queue. destruct (req (comps s i)) eqn:Er; [easy|]. destruct (tainted (comps s i)); [|easy].
  intros j. cbn. unfold upd. destruct (j =? i); [easy|apply H].
Qed.
Lemma rt_read i s : req_tainted s -> req_tainted (read ff i s).
Proof.
  intros H. unfold read. destruct (tainted (comps s i)) eqn:Et; [|easy].
  intros j. cbn. unfold upd. destruct (j =? i); [easy|apply (rt_queue i s H)].
Qed.

Lemma inv_read p i s : req_tainted s -> inv p s -> inv (filter (fun j => negb (j =? i)) p) (read ff i s).
Proof.
  intros Hrt H. unfold read. destruct (tainted (comps s i)) eqn:Et.
  - pose proof (inv_queue p i s H) as (H1 & H2 & H3).
    assert (Hv : req (comps (queue i s) i) = Some (q (queue i s))).
    { unfold queue. destruct (req (comps s i)) as [x|] eqn:Er; [rewrite Er; f_equal; now apply (proj2 (proj2 H) i)|].
      rewrite Et. cbn. unfold upd. now rewrite Nat.eqb_refl. }
    set (s1 := queue i s) in *. cbn. rewrite Hv. cbn. split; [|split].
    + intros e He. cbn in He. apply in_app_iff in He. destruct He as [He|[<-|[]]]; [now apply H1|easy].
    + cbn. intros j. unfold upd. destruct (Nat.eqb_spec j i) as [->|Hn]; cbn; [easy|apply H2].
    + cbn. intros j x. unfold upd. destruct (Nat.eqb_spec j i) as [->|Hn]; cbn; [easy|].
      intros Hx. destruct (H3 j x Hx) as [H4 H5]. split; [easy|]. apply filter_In. split.
      * destruct H5 as [H5|H5]; [congruence|easy].
      * now apply negb_true_iff, Nat.eqb_neq.
  - destruct H as (H1 & H2 & H3). split; [|split]; cbn.
    + intros e He. apply in_app_iff in He. destruct He as [He|[<-|[]]]; [now apply H1|]. cbn. now apply H2.
    + easy.
    + intros j x Hx. destruct (H3 j x Hx) as [H4 H5]. split; [easy|]. apply filter_In. split; [easy|].
      apply negb_true_iff, Nat.eqb_neq. intros ->. rewrite Hrt in Et; [discriminate|]. congruence.
Qed.

Lemma inv_gather qs rs p s : req_tainted s -> inv p s ->
  req_tainted (gather ff qs rs s) /\
  inv (filter (fun j => negb (existsb (Nat.eqb j) rs)) (qs ++ p)) (gather ff qs rs s).
Proof.
  intros Hrt Hi. unfold gather.
  assert (H : req_tainted (fold_left (fun s i => queue i s) qs s) /\ inv (qs ++ p) (fold_left (fun s i => queue i s) qs s)).
  { revert p s Hrt Hi. induction qs as [|i qs IH]; intros p s Hrt Hi; cbn; [easy|].
    destruct (IH (i :: p) (queue i s)) as [H1 H2]; [now apply rt_queue | now apply inv_queue|].
    split; [easy|]. eapply inv_mono; [|exact H2]. intros x Hx. apply in_app_iff in Hx.
    destruct Hx as [Hx|[<-|Hx]]; [right; apply in_app_iff; now left | now left | right; apply in_app_iff; now right]. }
  revert H. generalize (fold_left (fun s i => queue i s) qs s). generalize (qs ++ p). clear.
  induction rs as [|i rs IH]; intros p s [Hrt Hi]; cbn.
  - split; [easy|]. eapply inv_mono; [|exact Hi]. intros x Hx. apply filter_In. easy.
  - destruct (IH (filter (fun j => negb (j =? i)) p) (read ff i s)) as [H1 H2]; [split; [now apply rt_read | now apply inv_read]|].
    split; [easy|]. eapply inv_mono; [|exact H2]. intros x Hx. apply filter_In in Hx. destruct Hx as [Hx Hx2].
    apply filter_In in Hx. destruct Hx as [Hx Hx1]. apply filter_In. split; [easy|].
    rewrite negb_orb, Hx1, Hx2. easy.
Qed.

Lemma run_inv os : forall p s, req_tainted s -> inv p s -> disciplined p os -> all_fresh (trace (run ff os s)).
Proof.
  induction os as [|o os IH]; intros p s Hrt Hi Hd; [apply Hi|]. cbn. destruct o as [x|i|i|qs rs]; cbn in Hd |- *.
  - destruct Hd as [-> Hd]. apply (IH []); [| |easy].
    + intros i _. easy.
    + destruct Hi as (H1 & H2 & H3). split; [easy|split; [easy|]]. intros i y Hy. now destruct (proj2 (H3 i y Hy)).
  - apply (IH (i :: p)); [now apply rt_queue | now apply inv_queue | easy].
  - apply (IH (filter (fun j => negb (j =? i)) p)); [now apply rt_read | now apply inv_read | easy].
  - destruct (inv_gather qs rs p s Hrt Hi) as [H1 H2].
    apply (IH _ _ H1 H2 Hd).
Qed.

(** C20 with the discipline: in any sequence of assignments, early requests and
    reads in which positions are not assigned while a request is out, every
    value read belongs to the current positions. *)
Theorem reads_are_fresh_partial os x :
  disciplined [] os -> all_fresh (trace (run ff os (init x))).
Proof.
  intros Hd. apply (run_inv os [] (init x)); [now intros i H | | easy].
  split; [easy|split; [easy|]]. intros i y H. discriminate.
Qed.

(** C20. The library's own pattern meets the discipline: total forces (or
    potential, virial, extras) and forces of a multiple-time-step level are read
    for everything that was queued. *)
Inductive libop (cs : list (@comp_w nat)) : @op X -> Prop :=
| lib_set x : libop cs (Set_ x)
| lib_read i : libop cs (Read i)
| lib_total : libop cs (get_f (fun w => negb (w =? 0)) cs)
| lib_level l : libop cs (get_f_mts (fun w => negb (w =? 0)) cs l)
| lib_virs l : (forall c, In c cs -> mtsw c <> []) -> libop cs (get_v_mts (fun w => negb (w =? 0)) cs l).

Lemma filter_none {A} (f : A -> bool) l : (forall x, In x l -> f x = false) -> filter f l = [].
Proof. induction l as [|x l IH]; intros H; [easy|]. cbn. rewrite (H x) by now left. apply IH. intros y Hy. apply H. now right. Qed.

Theorem library_reads_are_fresh cs os x :
  Forall (libop cs) os -> all_fresh (trace (run ff os (init x))).
Proof.
  intros H. apply reads_are_fresh_partial. induction H as [|o os Ho Hos IH]; [easy|].
  assert (Hg : forall l l', (forall i, In i l -> In i l') ->
      filter (fun j => negb (existsb (Nat.eqb j) l')) (l ++ []) = []).
  { intros l l' Hll. apply filter_none. intros i Hi. rewrite app_nil_r in Hi. apply negb_false_iff, existsb_exists.
    exists i. split; [now apply Hll|]. apply Nat.eqb_refl. }
  destruct Ho as [y|i| |l|l Hc]; cbn.
  - easy.
  - easy.
  - now rewrite Hg.
  - now rewrite Hg.
  - rewrite Hg; [easy|]. intros i Hi. unfold pick in *. apply filter_In in Hi. destruct Hi as [Hi Hq].
    apply filter_In. split; [easy|]. destruct (nth_error cs i) as [c|] eqn:Ec; [|easy].
    unfold queues, reads_v in *. destruct (mtsw c) eqn:Em; [|easy].
    exfalso. apply (Hc c); [now apply nth_error_In in Ec | easy].
Qed.
End Bead.

(** C20 is false in general: a request sent ahead is answered for the positions
    at the time of sending, and the result is kept as if it were current. *)
Theorem early_request_gives_stale_forces_refuted :
  exists (os : list (@op nat)) e1 e2,
    trace (run (fun _ x => x) os (init 0)) = [e1; e2] /\
    s_pos e1 = 2 /\ s_val e1 = Some 1 /\ s_pos e2 = 2 /\ s_val e2 = Some 1.
Proof.
  exists [Set_ 1; Queue 0; Set_ 2; Read 0; Read 0], (mkSeen 0 (Some 1) 2), (mkSeen 0 (Some 1) 2).
  now vm_compute.
Qed.

(** It happens inside the library for a component without mts_weights: reading
    the level-0 virials queues it and does not read it. *)
Theorem mts_virial_leaves_request_refuted :
  exists (cs : list (@comp_w nat)) e,
    let nz w := negb (w =? 0) in
    last (trace (run (fun _ x => x) [get_v_mts nz cs 0; Set_ 9; get_f nz cs] (init 5))) e =
      mkSeen 0 (Some 5) 9.
Proof. exists [mkW 1 []], (mkSeen 7 None 0). now vm_compute. Qed.

(** ** The hypotheses are met *)
Example lib_case :
  let cs := [mkW 1 [1; 0]; mkW 0 [1; 1]; mkW 2 [0; 3]] in
  let nz w := negb (w =? 0) in
  let os := [get_f_mts nz cs 1; Set_ 4; get_f_mts nz cs 0; get_v_mts nz cs 1; Set_ 6; get_f nz cs] in
  Forall (@libop nat cs) os /\
  map (fun e => (s_comp e, s_val e)) (trace (run (fun i x => i + x) os (init 5)))
   = [(2, Some 7); (0, Some 4); (2, Some 6); (0, Some 6); (2, Some 8)].
Proof.
  split; [|now vm_compute]. repeat constructor;
  intros c Hc; repeat destruct Hc as [<-|Hc]; easy.
Qed.
Example disciplined_case :
  disciplined [] [Queue 0; Queue 1; @Read nat 1; Read 0; Set_ 3; Gather [0; 1] [1; 0]; Set_ 4].
Proof. cbn. repeat split. Qed.

Print Assumptions reads_are_fresh_partial.
Print Assumptions library_reads_are_fresh.
Print Assumptions early_request_gives_stale_forces_refuted.
Print Assumptions mts_virial_leaves_request_refuted.
