(** * Model of the tool that interpolates paths

    tools/py/neb_interpolate.py.  Floating point numbers are real numbers; [q b c] is coordinate [c] of
    geometry [b].  Reading geometries, the check of cells and masses, the printed distances and the
    units of the output are not modelled; the spline is that of StrModel. *)
From Coq Require Import List Arith Lia Reals Lra Bool String.
From Verif Require Import RSum StrModel.
Import ListNotations.
Open Scope list_scope.
Open Scope R_scope.

(** make_interp_spline(t, comp, k=1): the broken line. *)
Definition broken (N : nat) (t y : vec) (s : R) : R :=
  let i := locate t s N in y i + (s - t i) / (t (S i) - t i) * (y (S i) - y i).
(** spline_resample, lines 47-116, of [dof] coordinates.  None stands for RuntimeError (less than two
    new images), for scipy's ValueError (knots that do not increase) and for the orders that the assert of line 213
    refuses. *)
Definition resample (dof old new k : nat) (q : mat) : option mat :=
  if (new <? 2)%nat then None
  else if negb (apart dof old q) then None
  else
    let t := param dof old q in
    let new_t := fun b => INR b / INR (new - 1) in
    if (k =? 3)%nat then Some (fun b c => spline (old - 1) t (fun i => q i c) (new_t b))
    else if (k =? 1)%nat then Some (fun b c => broken (old - 1) t (fun i => q i c) (new_t b))
    else None.
(** lines 385-407: the active atoms; None of the list is all of them.  An index out of range ends the
    tool. *)
Definition fixmask (natoms : nat) (active : option (list nat)) : option (nat -> bool) :=
  match active with
  | None => Some (fun _ => true)
  | Some l => if existsb (fun a => (natoms <=? a)%nat) l then None
              else Some (fun c => existsb (fun a => ((c =? 3 * a) || (c =? 3 * a + 1) || (c =? 3 * a + 2))%nat%bool) l)
  end.
(** lines 425-449: the coordinates that are masked are left out of the distances, here set to zero. *)
Definition new_path (natoms old new k : nat) (active : option (list nat)) (q : mat) : option mat :=
  match fixmask natoms active with
  | None => None
  | Some mask =>
    match resample (3 * natoms) old new k (fun b c => if mask c then q b c else 0) with
    | None => None
    | Some r => Some (fun b c => if mask c then r b c else if (new =? old)%nat then q b c else q 0%nat c)
    end
  end.
(** lines 203-208 and 455: argparse turns the text that follows --dry into a truth value by bool(). *)
Definition py_bool (s : string) : bool := negb (String.eqb s "").
Definition writes (dry : option string) : bool := match dry with None => true | Some s => negb (py_bool s) end.
