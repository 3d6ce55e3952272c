(** * Model of the inputs of outputs

    ipi/inputs/outputs.py.  The texts of attributes are given by what they are read as (None where ipi/utils/inputvalue.py's
    read_type raises ValueError, see area Val). *)
From Coq Require Import List Arith ZArith Lia Bool String.
Import ListNotations.
Open Scope list_scope.
Open Scope string_scope.

(** ** A checkpoint tag *)
Record chk := Chk { file : string; stride : Z; over : bool; step : Z }.
(** lines 293-334: the defaults. *)
Definition fresh : chk := Chk "restart" 1 true 0.
Inductive attr := AFile (s : string) | AStride (z : option Z) | AOver (b : option bool) | AUnknown (name : string).
Inductive outcome := Read (c : chk) | Value_Error (c : chk) | Name_Error.
(** Input.parse, ipi/utils/inputvalue.py 324-348: the attributes one after the other. *)
Fixpoint attributes (c : chk) (l : list attr) : outcome :=
  let '(Chk f s o n) := c in
  match l with
  | [] => Read c
  | AFile f' :: r => attributes (Chk f' s o n) r
  | AStride (Some s') :: r => attributes (Chk f s' o n) r
  | AOver (Some o') :: r => attributes (Chk f s o' n) r
  | AStride None :: _ | AOver None :: _ => Value_Error c
  | AUnknown _ :: _ => Name_Error
  end.
(** InputValue.parse, ipi/utils/inputvalue.py 1159-1160 *)
Definition parse_value (l : list attr) (text : option Z) : outcome :=
  match attributes fresh l with
  | Read (Chk f s o n) => match text with Some z => Read (Chk f s o z) | None => Value_Error (Chk f s o n) end
  | x => x
  end.
(** InputCheckpoint.parse, outputs.py 356-374: None is NameError. *)
Definition parse (l : list attr) (text : option Z) : option chk :=
  match parse_value l text with
  | Read c => Some c
  | Value_Error (Chk f s o _) => Some (Chk f s o 0)
  | Name_Error => None
  end.
(** store, fetch and check, lines 344-354, 376-393; None is ValueError. *)
Definition fetch (c : chk) : option chk := if (stride c <? 0)%Z then None else Some c.

(** ** Lists of outputs, lines 452-478: [plist] is stored over a list of entries [extra]. *)
Inductive output := Properties (what : list string) (f : string) (str fl : Z) (verb : string)
| Trajectory (what f : string) (str fl : Z) (format units : string) (bead : Z) (extra_type : string)
| Checkpoint (c : chk).
Definition tag (o : output) : string := match o with Properties _ _ _ _ _ => "properties" | Trajectory _ _ _ _ _ _ _ _ => "trajectory" | Checkpoint _ => "checkpoint" end.
(** An entry is a pair, which is no input: a new one is made each time (lines 462, 469, 476). *)
Definition entry := option (string * output).
Fixpoint fill (plist : list output) (extra : list entry) : list entry :=
  match plist, extra with
  | [], rest => rest
  | _, [] => []
  | o :: r, _ :: e => Some (tag o, o) :: fill r e
  end.
Definition store (plist : list output) (extra : list entry) : list entry :=
  fill plist (if (List.length extra =? List.length plist)%nat then extra else repeat None (List.length plist)).
