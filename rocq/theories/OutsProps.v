(** * Inputs of outputs: theorems of record *)
From Coq Require Import List Arith ZArith Lia Bool String.
From Verif Require Import OutsModel.
Import ListNotations.
Open Scope list_scope.
Open Scope string_scope.

(** The last value that is given for an attribute, or its default. *)
Fixpoint last_of {A} (get : attr -> option A) (d : A) (l : list attr) : A :=
  match l with [] => d | a :: r => last_of get (match get a with Some v => v | None => d end) r end.
Definition get_file (a : attr) := match a with AFile s => Some s | _ => None end.
Definition get_stride (a : attr) := match a with AStride z => z | _ => None end.
Definition get_over (a : attr) := match a with AOver b => b | _ => None end.
Definition readable (a : attr) : Prop := match a with AFile _ => True | AStride z => z <> None | AOver b => b <> None | AUnknown _ => False end.
Lemma attributes_read l : Forall readable l -> forall f s o n, attributes (Chk f s o n) l = Read (Chk (last_of get_file f l) (last_of get_stride s l) (last_of get_over o l) n).
Proof.
  induction 1 as [|a l Ha _ IH]; intros f s o n; [reflexivity|]. destruct a as [f'|[s'|]|[o'|]|]; cbn in Ha; try easy; cbn [attributes last_of get_file get_stride get_over]; apply IH.
Qed.
(** A tag whose attributes can be read has them, and the step of its text, or none for an empty one. *)
Theorem checkpoint_read l text : Forall readable l ->
  parse l text = Some (Chk (last_of get_file "restart" l) (last_of get_stride 1%Z l) (last_of get_over true l) (match text with Some z => z | None => 0%Z end)).
Proof. intros H. unfold parse, parse_value, fresh. rewrite attributes_read by exact H. now destruct text. Qed.
(** The last of several of the same attribute counts. *)
Theorem last_counts {A} (get : attr -> option A) d l a v r : get a = Some v -> Forall (fun b => get b = None) r -> last_of get d (l ++ a :: r) = v.
Proof.
  intros G N. assert (K : forall d, last_of get d r = d) by (induction N as [|b r Hb _ IH]; intros d'; [reflexivity|]; cbn; rewrite Hb; apply IH).
  revert d. induction l as [|b l IH]; intros d; [cbn; rewrite G; apply K|]. cbn. apply IH.
Qed.
(** At an attribute that cannot be read all the others that follow are left, and the step, without an error. *)
Theorem checkpoint_unreadable l a r text : Forall readable l -> (a = AStride None \/ a = AOver None) ->
  parse (l ++ a :: r) text = Some (Chk (last_of get_file "restart" l) (last_of get_stride 1%Z l) (last_of get_over true l) 0%Z).
Proof.
  intros H Ha.
  assert (E : forall f s o n, attributes (Chk f s o n) (l ++ a :: r) = Value_Error (Chk (last_of get_file f l) (last_of get_stride s l) (last_of get_over o l) n)).
  { induction H as [|b l Hb _ IH]; intros f s o n; [destruct Ha as [-> | ->]; reflexivity|].
    destruct b as [f'|[s'|]|[o'|]|]; cbn in Hb; try easy; cbn [app attributes last_of get_file get_stride get_over]; apply IH. }
  unfold parse, parse_value, fresh. now rewrite E.
Qed.
(** So what cannot be read is not refused: a tag that asks for separate files at a stride that is not a whole number
    is taken as one that overwrites its file at each step. *)
Theorem checkpoint_refuted : exists l c, In (AOver (Some false)) l /\ ~ Forall readable l /\ parse l (Some 7%Z) = Some c /\ fetch c = Some c /\ over c = true /\ stride c = 1%Z /\ step c = 0%Z.
Proof.
  exists [AFile "chk"; AStride None; AOver (Some false)], (Chk "chk" 1 true 0). split; [cbn; auto|]. split; [|now repeat split].
  intros H. apply (proj1 (Forall_forall _ _) H (AStride None)); [cbn; auto|reflexivity].
Qed.
Print Assumptions checkpoint_read.
Print Assumptions last_counts.
Print Assumptions checkpoint_unreadable.
Print Assumptions checkpoint_refuted.
(** Only negative strides are refused later. *)
Theorem checkpoint_checked c : fetch c = None <-> (stride c < 0)%Z.
Proof. unfold fetch. destruct (Z.ltb_spec (stride c) 0); split; try discriminate; try easy; lia. Qed.
(** A list of outputs is stored as it is, in order and with its tags, whatever was stored before. *)
Theorem outputs_stored plist extra : store plist extra = map (fun o => Some (tag o, o)) plist.
Proof.
  assert (F : forall e : list entry, List.length e = List.length plist -> fill plist e = map (fun o => Some (tag o, o)) plist).
  { induction plist as [|o r IH]; intros [|x e] L; try discriminate; [reflexivity|]. cbn. f_equal. apply IH. cbn in L. lia. }
  unfold store. destruct (Nat.eqb_spec (List.length extra) (List.length plist)) as [E|N]; [now apply F|]. apply F. now rewrite repeat_length.
Qed.
Theorem outputs_kinds plist extra i o : nth_error plist i = Some o -> exists t, nth_error (store plist extra) i = Some (Some (t, o)) /\
  match o with Properties _ _ _ _ _ => t = "properties" | Trajectory _ _ _ _ _ _ _ _ => t = "trajectory" | Checkpoint _ => t = "checkpoint" end.
Proof. intros N. exists (tag o). rewrite outputs_stored, nth_error_map, N. split; [reflexivity|]. now destruct o. Qed.
Print Assumptions outputs_kinds.
Print Assumptions checkpoint_checked.
Print Assumptions outputs_stored.
Example read_case : parse [AFile "chk"; AStride (Some 100%Z); AOver (Some false)] None = Some (Chk "chk" 100 false 0).
Proof. reflexivity. Qed.
Example stored_case : store [Checkpoint (Chk "a" 1 true 3); Properties ["time"] "md" 10 1 "low"] [None] =
  [Some ("checkpoint", Checkpoint (Chk "a" 1 true 3)); Some ("properties", Properties ["time"] "md" 10 1 "low")].
Proof. reflexivity. Qed.
