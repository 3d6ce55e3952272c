(** * Model of reading structures with the Atomic Simulation Environment

    ipi/utils/io/backends/io_ase.py:78-132.  What that library does is given: a structure is what its reader returns, and
    turning a vector into the x axis is some rotation.  The list of open files (94-106) is left out. *)
From Coq Require Import List Arith Lia Bool String Reals Lra.
Import ListNotations.
Open Scope R_scope.
Open Scope list_scope.

Definition v3 : Type := R * R * R.
Definition px (v : v3) : R := fst (fst v).
Definition py (v : v3) : R := snd (fst v).
Definition pz (v : v3) : R := snd v.
(** np.arctan2 *)
Definition arctan2 (y x : R) : R :=
  if Rlt_dec 0 x then atan (y / x)
  else if Rlt_dec x 0 then (if Rle_dec 0 y then atan (y / x) + PI else atan (y / x) - PI)
  else if Rlt_dec 0 y then PI / 2 else if Rlt_dec y 0 then - (PI / 2) else 0.
(** Atoms.rotate(degrees, "x"): right handed, about the origin. *)
Definition rotate_x (deg : R) (v : v3) : v3 :=
  let t := deg * PI / 180 in (px v, py v * cos t - pz v * sin t, py v * sin t + pz v * cos t).

(** A structure: rows of the cell, periodic directions, positions, names of columns, masses. *)
Record structure := Structure { va : v3; vb : v3; vc : v3; pbc : bool * bool * bool; positions : list v3; columns : list string; masses : list R }.
Definition move (f : v3 -> v3) (s : structure) : structure :=
  Structure (f (va s)) (f (vb s)) (f (vc s)) (pbc s) (map f (positions s)) (columns s) (masses s).
Definition norm (v : v3) : R := sqrt (px v ^ 2 + py v ^ 2 + pz v ^ 2).
Definition over (v : v3) (k : R) : v3 := (px v / k, py v / k, pz v / k).
(** Lines 117-124; [turn] is Atoms.rotate(a, "x"). *)
Definition conform (turn : v3 -> v3 -> v3) (s : structure) : structure :=
  match pbc s with
  | (true, true, true) =>
    let s1 := move (turn (va s)) s in
    let b := over (vb s1) (norm (vb s1)) in
    let ang := - arctan2 (pz b) (py b) * 180 / PI in
    move (rotate_x ang) s1
  | _ => s
  end.
Record data := Data { cell : nat -> nat -> R; qatoms : list R; dmasses : list R }.
Definition component (v : v3) (i : nat) : R := match i with 0%nat => px v | 1%nat => py v | _ => pz v end.
(** Lines 109-132: lattice vectors are the columns.  None is the RuntimeError for a column called mass. *)
Definition read_ase (amu : R) (turn : v3 -> v3 -> v3) (s : structure) : option data :=
  if in_dec string_dec "mass"%string (columns s) then
    if in_dec string_dec "masses"%string (columns s) then
      let s' := conform turn s in
      Some (Data (fun i j => component (match j with 0%nat => va s' | 1%nat => vb s' | _ => vc s' end) i) (flat_map (fun v => [px v; py v; pz v]) (positions s')) (map (fun m => m * amu) (masses s')))
    else None
  else
    let s' := conform turn s in
    Some (Data (fun i j => component (match j with 0%nat => va s' | 1%nat => vb s' | _ => vc s' end) i) (flat_map (fun v => [px v; py v; pz v]) (positions s')) (map (fun m => m * amu) (masses s'))).
