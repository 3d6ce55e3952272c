(** * Inputs of force fields: theorems of record *)
From Coq Require Import List Arith ZArith Lia Bool String Reals Lra.
From Verif Require Import FfinModel.
Import ListNotations.
Open Scope list_scope.
Open Scope string_scope.

(** What the input of a class holds, next to the attribute it is about (an independent list). *)
Definition base_pairs : list (string * string) :=
  [("name", "name"); ("latency", "latency"); ("offset", "offset"); ("parameters", "pars"); ("pbc", "dopbc"); ("activelist", "active"); ("threaded", "threaded")].
Definition all_classes : list cls := [Socket; Direct; MPI; LJ; Dmd; Debye; Plumed; Yaff; Sgdml; Committee; Rotations; Cavity].
(** The fields that never reach the force field. *)
Definition ignored (c : cls) : list string :=
  match c with
  | Socket | MPI | LJ => []
  | Direct | Dmd => ["activelist"]
  | Debye | Plumed => ["pbc"; "activelist"; "parameters"; "threaded"]
  | Yaff | Sgdml => ["activelist"; "parameters"]
  | Committee => ["activelist"; "threaded"]
  | Rotations => ["threaded"]
  | Cavity => ["max_workers"; "consolidate_messages"; "batch_size"]
  end.
Ltac eqbs := repeat match goal with H : _ \/ _ |- _ => destruct H as [H|H] | H : False |- _ => destruct H | H : (_, _) = (_, _) |- _ => injection H as <- <- end.
(** Each field of an input but the ignored ones is an attribute of the force field that is built, as given. *)
Theorem field_reaches c fields ff f a : fetch c fields = Some ff -> In (f, a) (stored c) -> ~ In f (ignored c) ->
  (c = Socket -> f = "exit_on_disconnect" -> fields "matching" <> Word "lock") -> ff a = fields f.
Proof.
  intros E I N L.
  assert (K : construct c fields a = fields f).
  { destruct c; cbn in I; eqbs; try reflexivity; exfalso; apply N; cbn; tauto. }
  destruct c; cbn [fetch] in E; try (injection E as <-; exact K).
  - destruct (is_false (fields "threaded")); [discriminate|]. destruct (is_word "lock" (fields "matching")) eqn:W; [|injection E as <-; exact K].
    injection E as <-. cbn in I. eqbs; try reflexivity. exfalso. apply (L eq_refl eq_refl). unfold is_word in W. destruct (fields "matching"); try discriminate. apply String.eqb_eq in W. now subst.
  - destruct (is_false (fields "threaded")); [discriminate|injection E as <-; exact K].
  - destruct (is_false (fields "threaded")); [discriminate|injection E as <-; exact K].
Qed.
(** The ignored ones do not matter at all, but that sockets must be threaded. *)
Theorem field_ignored c fields fields' : (forall f, ~ In f (ignored c) -> fields f = fields' f) ->
  match fetch c fields, fetch c fields' with Some u, Some v => forall a, u a = v a | None, None => True | _, _ => False end.
Proof.
  intros H.
  assert (A : forall g g' : values, (forall f, ~ In f (ignored c) -> g f = g' f) -> forall a, construct c g a = construct c g' a).
  { intros g g' G a. unfold construct. destruct (fixed c a) eqn:F; [reflexivity|]. destruct (assoc a (passed c)) as [f|] eqn:E; [|reflexivity]. apply G. intros I.
    destruct c; cbn in I; eqbs; subst; revert E; cbn;
      repeat match goal with |- context [String.eqb a ?k] => destruct (String.eqb_spec a k) as [->|]; [first [discriminate | intros _; cbn in F; discriminate]|] end; discriminate. }
  destruct c; cbn [fetch]; try (now apply A).
  - rewrite (H "threaded"), (H "matching") by easy. destruct (is_false (fields' "threaded")); [exact I|]. destruct (is_word "lock" (fields' "matching")); apply A; intros f Hf; [|now apply H].
    destruct (String.eqb f "exit_on_disconnect"); [reflexivity|now apply H].
  - rewrite (H "threaded") by easy. destruct (is_false (fields' "threaded")); [exact I|now apply A].
  - rewrite (H "threaded") by (cbn; intuition discriminate). destruct (is_false (fields' "threaded")); [exact I|now apply A].
Qed.
(** So the list of active atoms of a direct force field is not obeyed, nor the size of the batches of a cavity. *)
Theorem active_refuted : exists fields ff, fetch Direct fields = Some ff /\ fields "activelist" = Other 1 /\ ff "active" = AllAtoms.
Proof. exists (fun _ => Other 1). eexists. repeat split. Qed.
Theorem cavity_refuted : exists fields ff, fetch Cavity fields = Some ff /\ fields "batch_size" = Other 1 /\ ff "batch_size" <> Other 1.
Proof. exists (fun _ => Other 1). eexists. split; [reflexivity|]. split; [reflexivity|]. cbn. discriminate. Qed.
(** A force field that came from an input comes back from its checkpoint the same. *)
Theorem restart_same c fields ff : fetch c fields = Some ff ->
  exists ff', fetch c (store c ff) = Some ff' /\ forall f a, In (f, a) (stored c) -> ((c = Socket \/ c = Cavity) /\ a = "threaded") \/ ff' a = ff a.
Proof.
  intros E.
  assert (K : forall g f a, In (f, a) (stored c) -> ff = construct c g -> ((c = Socket \/ c = Cavity) /\ a = "threaded") \/ construct c (store c ff) a = ff a).
  { intros g f a I ->. destruct c; cbn in I; eqbs; try (right; reflexivity); left; split; auto. }
  destruct c; cbn [fetch] in E |- *; try (injection E as E; symmetry in E; eexists; split; [reflexivity|]; intros f a I; exact (K fields f a I E)).
  - destruct (is_false (fields "threaded")) eqn:T; [discriminate|]. change (store Socket ff "threaded") with (Flag true). cbn [is_false].
    change (store Socket ff "matching") with (ff "match_mode"). destruct (is_word "lock" (fields "matching")) eqn:W; injection E as E; symmetry in E.
    + assert (M : ff "match_mode" = fields "matching") by (rewrite E; reflexivity). rewrite M, W. eexists. split; [reflexivity|]. intros f a I.
      cbn in I. eqbs; try (left; split; [now left|reflexivity]); right; rewrite E; reflexivity.
    + assert (M : ff "match_mode" = fields "matching") by (rewrite E; reflexivity). rewrite M, W. eexists. split; [reflexivity|]. intros f a I. exact (K fields f a I E).
  - destruct (is_false (fields "threaded")) eqn:T; [discriminate|]. injection E as E. symmetry in E.
    change (store MPI ff "threaded") with (ff "threaded"). replace (ff "threaded") with (fields "threaded") by (rewrite E; reflexivity). rewrite T.
    eexists. split; [reflexivity|]. intros f a I. exact (K fields f a I E).
  - destruct (is_false (fields "threaded")) eqn:T; [discriminate|]. injection E as E. symmetry in E. change (store Cavity ff "threaded") with (Flag true). cbn [is_false].
    eexists. split; [reflexivity|]. intros f a I. exact (K fields f a I E).
Qed.
(** What is fixed whatever the fields, and what is refused: sockets and MPI that are not threaded. *)
Theorem fixed_values c fields ff : fetch c fields = Some ff ->
  match c with Debye | Plumed => ff "dopbc" = Flag false /\ ff "threaded" = Flag false | Committee | Rotations => ff "threaded" = Flag true
             | Socket => fields "matching" = Word "lock" -> ff "exit_on_disconnect" = Flag true | _ => True end.
Proof.
  destruct c; cbn [fetch]; intros E; try exact I; try (injection E as <-; repeat split; reflexivity).
  intros L. rewrite L in E. cbn in E. destruct (is_false (fields "threaded")); [discriminate|]. injection E as <-. reflexivity.
Qed.
Theorem fetch_refused c fields : fetch c fields = None <-> (c = Socket \/ c = Cavity \/ c = MPI) /\ fields "threaded" = Flag false.
Proof.
  assert (F : is_false (fields "threaded") = true <-> fields "threaded" = Flag false).
  { destruct (fields "threaded") as [[]| | | |]; cbn; split; congruence. }
  rewrite <- F. destruct c; cbn [fetch]; try (split; [discriminate|intros [[X|[X|X]] _]; discriminate]).
  all: destruct (is_false (fields "threaded")); split; try (intros; split; auto; fail); try reflexivity; try (intros [_ X]; discriminate).
  all: destruct (is_word "lock" (fields "matching")); discriminate.
Qed.
Print Assumptions fixed_values.
Print Assumptions fetch_refused.
Print Assumptions field_reaches.
Print Assumptions field_ignored.
Print Assumptions active_refuted.
Print Assumptions cavity_refuted.
Print Assumptions restart_same.
(** A checkpoint has an entry of the right kind for each force field. *)
Theorem sim_entries c : sim_entry c = Some (tag c).
Proof. destruct c; reflexivity. Qed.
Lemma cls_direct c : {c = Direct} + {c <> Direct}.
Proof. destruct c; (now left) || (right; discriminate). Qed.
Lemma write_some l : Forall (fun o => o <> None) l -> exists ts, write_extra l = Some ts.
Proof. induction 1 as [|o l Ho _ [ts IH]]; [now exists []|]. destruct o as [t|]; [|easy]. cbn. rewrite IH. now eexists. Qed.
(** The members of a committee can be written exactly if none is a direct force field. *)
Theorem committee_written l : incl l members -> (write_extra (map committee_entry l) <> None <-> ~ In Direct l) /\
  (~ In Direct l -> write_extra (map committee_entry l) = Some (map tag l)).
Proof.
  induction l as [|c l IH]; intros M; [cbn; split; [split; [tauto|discriminate]|reflexivity]|].
  assert (Hc : In c members) by (apply M; now left). destruct (IH (fun x Hx => M x (or_intror Hx))) as [I1 I2].
  destruct (cls_direct c) as [->|D].
  - split; [|intros N; exfalso; apply N; now left]. cbn. split; [easy|]. intros N. exfalso. apply N. now left.
  - assert (E : committee_entry c = Some (tag c)) by (cbn in Hc; repeat destruct Hc as [<-|Hc]; try reflexivity; easy). cbn [map write_extra]. rewrite E. split.
    + destruct (write_extra (map committee_entry l)); split; try discriminate; try easy.
      * intros _ [->|X]; [easy|]. now apply (proj1 I1).
      * intros N _. apply (proj2 I1); [|reflexivity]. intros X. apply N. now right.
    + intros N. rewrite I2; [reflexivity|]. intros X. apply N. now right.
Qed.
Theorem committee_refuted : exists l, incl l members /\ l <> [] /\ write_extra (map committee_entry l) = None.
Proof. exists [Direct]. repeat split; [|discriminate]. intros x [<-|[]]. cbn. tauto. Qed.
(** The checks of a socket. *)
Theorem socket_checked port slots latency timeout : check_socket port slots latency timeout = true <->
  (1 <= port <= 65535)%Z /\ (1 <= slots <= 5)%Z /\ (0 <= latency)%R /\ (0 <= timeout)%R.
Proof.
  unfold check_socket, lt0. destruct (port <? 1)%Z eqn:A; destruct (65535 <? port)%Z eqn:B; destruct (slots <? 1)%Z eqn:C; destruct (5 <? slots)%Z eqn:D; cbn [orb];
    destruct (Rlt_dec latency 0), (Rlt_dec timeout 0); rewrite ?Z.ltb_lt, ?Z.ltb_ge in *; split; try discriminate; intros; try lia; try lra; intuition (lia || lra).
Qed.
Print Assumptions sim_entries.
Print Assumptions committee_written.
Print Assumptions committee_refuted.
Print Assumptions socket_checked.
Example socket_case : exists fields ff, fetch Socket fields = Some ff /\ ff "port" = Other 31415 /\ ff "exit_on_disconnect" = Flag true.
Proof. exists (fun f => if String.eqb f "matching" then Word "lock" else if String.eqb f "port" then Other 31415 else Flag true). eexists. repeat split. Qed.
Example committee_case : write_extra (map committee_entry [Socket; LJ; Plumed]) = Some ["ffsocket"; "fflj"; "ffplumed"].
Proof. reflexivity. Qed.
Example check_case : check_socket 31415 4 0.01 0 = true.
Proof. apply socket_checked. repeat split; lia || lra. Qed.
