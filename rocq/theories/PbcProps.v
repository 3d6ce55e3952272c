(** * Old defaults in inputs: theorems of record *)
From Coq Require Import String List Bool Arith.
From Verif Require Import TextLib JsonModel JsonProps PbcModel.
Import ListNotations.
Local Open Scope string_scope.
Local Open Scope list_scope.

(** The element at the end of a path of field numbers, with its name. *)
Fixpoint walk (p : list nat) (name : string) (n : node) : option (string * node) :=
  match p with
  | [] => Some (name, n)
  | i :: r => match nth_error (fields_of n) i with Some (Child k c) => walk r k c | _ => None end
  end.
Lemma set_pbc_fields name n : fields_of (set_pbc name n) = map (fun f => match f with Text t => Text t | Child k c => Child k (set_pbc k c) end) (fields_of n).
Proof. now destruct n. Qed.
Lemma get_app A k (d e : list (string * A)) : get k (d ++ e) = match get k d with Some v => Some v | None => get k e end.
Proof. induction d as [|[x v] d IH]; [reflexivity|]. cbn [app get]. now destruct (String.eqb x k). Qed.
(** Every element stays where it is, with its name, and is changed in the same way. *)
Theorem pbc_everywhere p name n : walk p name (set_pbc name n) = option_map (fun e => (fst e, set_pbc (fst e) (snd e))) (walk p name n).
Proof.
  revert name n. induction p as [|i p IH]; intros name n; cbn [walk]; [reflexivity|]. rewrite set_pbc_fields, nth_error_map. destruct (nth_error (fields_of n) i) as [[t|k c]|]; cbn [option_map]; try reflexivity. apply IH.
Qed.
(** Sockets without the flag get the old default; what is given is kept, and so is everything else. *)
Theorem pbc_attributes name n k : get k (attribs_of (set_pbc name n)) =
  if String.eqb name "ffsocket" && String.eqb k "pbc" then Some (match get "pbc" (attribs_of n) with Some v => v | None => tx "True" end) else get k (attribs_of n).
Proof.
  destruct n as [a fs]. cbn [set_pbc attribs_of]. unfold with_pbc. destruct (String.eqb_spec name "ffsocket") as [->|]; cbn [andb]; [|reflexivity]. destruct (get "pbc" a) eqn:G.
  - destruct (String.eqb_spec k "pbc") as [->|]; [exact G|reflexivity].
  - rewrite get_app. destruct (String.eqb_spec k "pbc") as [->|N]; [rewrite G; reflexivity|]. destruct (get k a); [reflexivity|]. cbn [get]. destruct (String.eqb_spec "pbc" k) as [<-|]; [contradiction|reflexivity].
Qed.
Theorem pbc_rest name n : texts (fields_of (set_pbc name n)) = texts (fields_of n) /\ List.length (fields_of (set_pbc name n)) = List.length (fields_of n) /\
  (name <> "ffsocket" -> attribs_of (set_pbc name n) = attribs_of n).
Proof.
  destruct n as [a fs]. cbn [set_pbc attribs_of fields_of]. split; [|split].
  - unfold texts. induction fs as [|[t|k c] fs IH]; cbn; [reflexivity|now rewrite IH|exact IH].
  - apply map_length.
  - intros N. unfold with_pbc. destruct (String.eqb_spec name "ffsocket"); [contradiction|reflexivity].
Qed.
(** Applying the tool again changes nothing. *)
Theorem pbc_twice name n : set_pbc name (set_pbc name n) = set_pbc name n.
Proof.
  revert name. induction n as [a fs IH] using node_induction. intros name. cbn [set_pbc]. f_equal.
  - unfold with_pbc. destruct (String.eqb name "ffsocket"); [|reflexivity]. destruct (get "pbc" a) eqn:G; [now rewrite G|]. rewrite get_app, G. reflexivity.
  - rewrite map_map. apply map_ext_in. intros [t|k c] I; [reflexivity|]. now rewrite (IH k c I).
Qed.
Print Assumptions pbc_everywhere.
Print Assumptions pbc_attributes.
Print Assumptions pbc_rest.
Print Assumptions pbc_twice.
Definition old_input : node := Node [] [Child "ffsocket" (Node [("name", tx "driver")] []); Child "ffcommittee" (Node [] [Child "ffsocket" (Node [("pbc", tx "False")] [Text (tx " ")])])].
Example pbc_case : set_pbc "simulation" old_input = Node [] [Child "ffsocket" (Node [("name", tx "driver"); ("pbc", tx "True")] []); Child "ffcommittee" (Node [] [Child "ffsocket" (Node [("pbc", tx "False")] [Text (tx " ")])])] /\
  walk [1; 0] "simulation" old_input = Some ("ffsocket", Node [("pbc", tx "False")] [Text (tx " ")]).
Proof. split; reflexivity. Qed.
