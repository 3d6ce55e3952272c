(** * Model of the tool that writes old defaults into inputs

    tools/py/default_input_changes_2.0_to_3.0.py:23-44.  Elements are the nodes of JsonModel.  The layout of prettify (lines 7-21)
    and comments, which ElementTree drops, are left out. *)
From Coq Require Import String List Bool.
From Verif Require Import TextLib JsonModel.
Import ListNotations.
Local Open Scope string_scope.
Local Open Scope list_scope.

(** Lines 40-41 *)
Definition with_pbc (name : string) (a : list (string * text)) : list (string * text) :=
  if String.eqb name "ffsocket" then match get "pbc" a with None => a ++ [("pbc", tx "True")] | Some _ => a end else a.
(** Lines 38-41: iter goes through the root and everything below it. *)
Fixpoint set_pbc (name : string) (n : node) : node :=
  match n with
  | Node a fs => Node (with_pbc name a) (map (fun f => match f with Text t => Text t | Child k c => Child k (set_pbc k c) end) fs)
  end.
