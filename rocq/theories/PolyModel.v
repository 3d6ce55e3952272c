(** * Model of ring polymers in pdb files

    ipi/utils/io/backends/io_pdb.py:22-79 (print_pdb_path), ipi/utils/io/__init__.py:116-182 (print_file_path for pdb), and
    tools/py/mergebeadspdb.py:24-50.  Records instead of lines of text; all frames have the same number of atoms. *)
From Coq Require Import List Arith Lia String Reals.
Import ListNotations.
Open Scope list_scope.

(** Lines 53, 72, 76 *)
Definition serial (natoms j i : nat) : nat := j * natoms + i + 1.
(** Lines 48-68: number, label and position of each ATOM record. *)
Definition atom_records {A} (natoms nbeads : nat) (lab : nat -> string) (qs : nat -> nat -> A) : list (nat * string * (A * A * A)) :=
  flat_map (fun j => map (fun i => (serial natoms j i, lab i, (qs j (3 * i), qs j (3 * i + 1), qs j (3 * i + 2)))) (seq 0 natoms)) (seq 0 nbeads).
(** Lines 70-77 *)
Definition conect (natoms nbeads : nat) : list (nat * nat) :=
  if 1 <? nbeads then
    map (fun i => (i + 1, (nbeads - 1) * natoms + i + 1)) (seq 0 natoms) ++
    flat_map (fun j => map (fun i => (j * natoms + i + 1, (j + 1) * natoms + i + 1)) (seq 0 natoms)) (seq 0 (nbeads - 1))
  else [].

(** A frame as read_file returns it, in atomic units. *)
Record frame := Frame { names : list string; q : list R; h : list R }.
(** What is printed: labels, positions of the beads, cell. *)
Record merged := Merged { labels : list string; beads : list (list R); cell : list R }.
Inductive ending := Exit0 | UnboundLocalError.
(** mergebeadspdb.py 36-45: one frame of each file; names and cell are those of the last one. None is the end of a file. *)
Fixpoint heads (files : list (list frame)) : option (list frame * list (list frame)) :=
  match files with
  | [] => Some ([], [])
  | [] :: _ => None
  | (f :: r) :: fs => match heads fs with Some (a, b) => Some (f :: a, r :: b) | None => None end
  end.
Definition scale (c : R) (l : list R) : list R := map (fun x => (x * c)%R) l.
(** ang is the factor into angstrom of print_file_path 141-144, 171-172. *)
Definition merge (unitconv ang : R) (fs : list frame) : merged :=
  let l := last fs (Frame [] [] []) in
  Merged (names l) (map (fun f => scale ang (scale unitconv (q f))) fs) (scale ang (scale unitconv (h l))).
(** Lines 31-50.  Without files nothing is read and the beads are not bound. *)
Fixpoint loop (fuel : nat) (unitconv ang : R) (files : list (list frame)) : list merged :=
  match fuel with
  | 0 => []
  | S n => match heads files with
           | None => []
           | Some (fs, rest) => merge unitconv ang fs :: loop n unitconv ang rest
           end
  end.
Definition main (unitconv ang : R) (files : list (list frame)) : list merged * ending :=
  match files with
  | [] => ([], UnboundLocalError)
  | f :: _ => (loop (S (List.length f)) unitconv ang files, Exit0)
  end.
