(** Model of the driven dynamics: the time of FFdmd (ipi/engine/forcefields.py:757-795) as
    moved by the DMD super motion (ipi/engine/smotion/dmd.py:48-63), and a
    velocity Verlet step with the forces kept from one step to the next
    (ipi/engine/motion/dynamics.py: pstep, qcstep, pstep). *)
Require Import String List Arith Bool.
Import ListNotations.

(** the force fields of the bias: name, counter dmdstep, or None if there is no dmd_update *)
Definition ffs := list (string * option nat).
Fixpoint find (f : ffs) (k : string) : option (option nat) :=
  match f with
  | [] => None
  | (n, c) :: f => if String.eqb n k then Some c else find f k
  end.
(** f.dmd_update() (792-795) *)
Fixpoint update (f : ffs) (k : string) : ffs :=
  match f with
  | [] => []
  | (n, c) :: f => if String.eqb n k then (n, option_map S c) :: f else (n, c) :: update f k
  end.
(** DMD.step: the bias components of all systems one after the other; [dmdff] is the
    list of names of the input; None: the force field has no dmd_update *)
Definition one (dmdff : list string) (f : option ffs) (k : string) : option ffs :=
  match f with
  | None => None
  | Some f =>
      if existsb (String.eqb k) dmdff
      then match find f k with Some (Some _) => Some (update f k) | _ => None end
      else Some f
  end.
Definition dmd_step (dmdff : list string) (systems : list (list string)) (f : ffs) : option ffs :=
  fold_left (one dmdff) (concat systems) (Some f).

(** a run: positions and momenta [x], dmdstep [t], the bias force kept by the
    dependency system [f]; it is computed again only when the positions have changed *)
Section Run.
Variable X : Type.
Variable Fc : Type.
(** half a kick and the move; the second half *)
Variable kick_move : Fc -> X -> X.
Variable kick : Fc -> X -> X.
(** evaluate (757-790): the force at the positions and dmdstep *)
Variable force : X -> nat -> Fc.
Record drun := mkd { x : X; t : nat; f : Fc }.
Definition dstep (s : drun) : drun :=
  let y := kick_move (f s) (x s) in
  let g := force y (t s) in
  mkd (kick g y) (S (t s)) g.
(** a start, from an input or a checkpoint: nothing is kept *)
Definition dstart (x0 : X) (t0 : nat) : drun := mkd x0 t0 (force x0 t0).
Fixpoint dsteps (n : nat) (s : drun) : drun := match n with 0 => s | S n => dsteps n (dstep s) end.
End Run.
Arguments x {X Fc}. Arguments t {X Fc}. Arguments f {X Fc}. Arguments mkd {X Fc}.
