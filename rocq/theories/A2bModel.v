(** * Model of the tool that converts trajectories from one format into another

    tools/py/a2b.py:30-106.  What the tool takes from the comment of the first frame, and one frame of an xyz file written
    to an xyz file.  The searches and the functions that read and write a frame are those of AutoModel. *)
From Coq Require Import String Ascii List Arith Bool QArith Qreals Reals.
From Verif Require Import TextLib UnitModel AutoModel.
Import ListNotations.
Local Open Scope string_scope.
Local Open Scope list_scope.

Inductive result (A : Type) := Returned (a : A) | KeyError | ValueError | UnboundLocalError.
Arguments Returned {A}. Arguments KeyError {A}. Arguments ValueError {A}. Arguments UnboundLocalError {A}.

(** Lines 30-40 *)
Definition get_cell_units (comment mode : text) : text :=
  match search (tx "cell") comment with
  | Some u => u
  | None => if eqt mode (tx "pdb") then tx "angstrom" else tx "atomic_unit"
  end.

(** Lines 56-65: the first pattern found. *)
Fixpoint first_key (d : list (string * option string)) (s : text) : option (string * option string * text) :=
  match d with
  | [] => None
  | (k, dim) :: r => match search (tx k) s with
                     | Some u => Some (k, dim, u)
                     | None => first_key r s
                     end
  end.

(** Lines 43-72: key, dimension and units.  An empty comment has no match. *)
Definition get_key_dim_units (comment mode : text) : result (text * text * text) :=
  let pdb := eqt mode (tx "pdb") in
  match first_key traj_dict comment with
  | Some (_, None, _) => KeyError
  | Some (k, Some dim, u) => if pdb && negb (eqt (tx dim) (tx "length")) then ValueError else Returned (tx k, tx dim, u)
  | None => UnboundLocalError
  end.

(** Lines 75-106: the first frame of an xyz file with this comment, value and cell length; head is what print_file puts before the label.
    Errors of units inside read_file and print_file are None. *)
Definition convert (head comment : text) (x y : R) : result (option (text * R * R)) :=
  let cell := get_cell_units comment (tx "xyz") in
  match get_key_dim_units comment (tx "xyz") with
  | Returned (key, dim, units) =>
    Returned (match read comment x y with
              | Some (x', y') => write head key dim units cell x' y'
              | None => None
              end)
  | KeyError => KeyError
  | ValueError => ValueError
  | UnboundLocalError => UnboundLocalError
  end.
