(** * Model of inputs in JSON format

    ipi/utils/io/inputs/io_json.py:54-185.  A node has attributes and a list of fields, texts or named children; the name of a
    node is the one it has as a field.  Dictionaries are lists of pairs in the order of insertion.  What str() gives for lists and
    dictionaries is a parameter.  The errors of children called _text, and of texts beside children called value, are left out. *)
From Coq Require Import String Ascii List Bool Arith.
From Verif Require Import TextLib.
Import ListNotations.
Local Open Scope string_scope.
Local Open Scope list_scope.

Inductive node := Node (attribs : list (string * text)) (fields : list field)
with field := Text (t : text) | Child (name : string) (n : node).
(** Prim is a string, or a number, truth value or null with what str() gives for it. *)
Inductive json := Prim (s : text) | Lst (l : list json) | Obj (d : list (string * json)).

Fixpoint get {A} (k : string) (d : list (string * A)) : option A :=
  match d with [] => None | (x, v) :: r => if String.eqb x k then Some v else get k r end.
Fixpoint set {A} (k : string) (v : A) (d : list (string * A)) : list (string * A) :=
  match d with [] => [(k, v)] | (x, w) :: r => if String.eqb x k then (x, v) :: r else (x, w) :: set k v r end.

(** Lines 162-169 *)
Definition add_text (t : text) (d : list (string * json)) : list (string * json) :=
  match strip blank t with
  | [] => d
  | s => match get "value" d with
         | None => set "value" (Prim s) d
         | Some (Prim v) => set "value" (Prim (v ++ s)) d
         | Some _ => d
         end
  end.
(** Lines 170-180 *)
Definition add_child (k : string) (c : json) (d : list (string * json)) : list (string * json) :=
  match get k d with
  | Some (Lst l) => set k (Lst (l ++ [c])) d
  | Some x => set k (Lst [x; c]) d
  | None => set k c d
  end.
(** Lines 156-158 *)
Definition with_attribs (a : list (string * text)) : list (string * json) :=
  match a with [] => [] | _ => [("attributes", Obj (map (fun p => (fst p, Prim (snd p))) a))] end.
(** Lines 182-185 *)
Definition collapse (d : list (string * json)) : json :=
  match d with [(k, v)] => if String.eqb k "value" then v else Obj d | _ => Obj d end.
(** xmlnode_to_json, lines 144-185 *)
Fixpoint to_json (n : node) : json :=
  match n with
  | Node a fs => collapse ((fix go fs d := match fs with
                              | [] => d
                              | Text t :: r => go r (add_text t d)
                              | Child k c :: r => go r (add_child k (to_json c) d)
                              end) fs (with_attribs a))
  end.

Section Str.
Variable render : json -> text.
Definition str (j : json) : text := match j with Prim s => s | _ => render j end.
Definition reserved (k : string) : bool := String.eqb k "attributes" || String.eqb k "value".
(** json_to_xmlnode, lines 90-141 *)
Fixpoint to_node (j : json) : node :=
  match j with
  | Obj d =>
    Node (match get "attributes" d with Some (Obj a) => map (fun p => (fst p, str (snd p))) a | _ => [] end)
         ((match get "value" d with Some v => [Text (str v)] | None => [] end) ++
          flat_map (fun p : string * json => let (k, v) := p in
                             if reserved k then @nil field else
                             match v with
                             | Lst l => map (fun i => Child k (to_node i)) l
                             | _ => [Child k (to_node v)]
                             end) d)
  | _ => Node [] [Text (str j)]
  end.
(** _process_json_node, lines 54-87 *)
Definition process (n : node) : node :=
  match n with
  | Node [] [Child k c] => if String.eqb k "simulation" then n else Node [] [Child "simulation" n]
  | _ => Node [] [Child "simulation" n]
  end.
(** json_parse_file, lines 18-33, of what json.load returns *)
Definition parse (j : json) : node := process (to_node j).
End Str.
