(** * Averaging a force field over rotations

    /repo/ipi/engine/forcefields.py:1743-1786 (FFRotations.queue), 1797-1857
    (gather). Real numbers for floats; positions and forces are functions of atom
    and Cartesian component, matrices functions of two indices below 3. The inner
    force field is an arbitrary function of positions and cell. Not modelled:
    extras; how the rotations are chosen (utils/mathtools.py). *)

From Coq Require Import List Reals.
From Verif Require Import RSum.
Import ListNotations.
Open Scope R_scope.

Definition M3 := nat -> nat -> R.
Definition coords := nat -> nat -> R.
Record out := mkOut { pot : R; frc : coords; vir : M3 }.
Definition model := coords -> M3 -> out.

Definition mmul (A B : M3) : M3 := fun i j => Rsum 3 (fun k => A i k * B k j).
Definition tr (A : M3) : M3 := fun i j => A j i.
(** [q.reshape(-1,3) @ R]. *)
Definition rowmul (q : coords) (A : M3) : coords := fun a j => Rsum 3 (fun k => q a k * A k j).
Definition neg (A : M3) : M3 := fun i j => A i j * (-1).

(** forcefields.py:1752-1776: the list of matrices and weights. *)
Definition rotations (grid : list (M3 * R)) (Rrand : M3) (inversion : bool) : list (M3 * R) :=
  flat_map (fun Rw => let R1 := mmul (fst Rw) Rrand in
                      if inversion then [(R1, snd Rw); (neg R1, snd Rw)] else [(R1, snd Rw)]) grid.
(** forcefields.py:1755-1762: what is sent for one rotation. *)
Definition rotated (ff : model) (q : coords) (h : M3) (A : M3) : out :=
  ff (rowmul q (tr A)) (mmul A h).
(** forcefields.py:1815-1840. *)
Definition wsum (l : list (M3 * R)) : R := Rsuml (map snd l).
Definition gather (l : list (M3 * R)) (res : M3 -> out) : out :=
  let avg (f : M3 -> R) := Rsuml (map (fun Rw => f (fst Rw) * snd Rw) l) / wsum l in
  mkOut (avg (fun A => pot (res A)))
        (fun a i => avg (fun A => rowmul (frc (res A)) A a i))
        (fun i j => avg (fun A => mmul (mmul (tr A) (vir (res A))) A i j)).
Definition evaluate (ff : model) (l : list (M3 * R)) (q : coords) (h : M3) : out :=
  gather l (rotated ff q h).
