(** * Model of the input of initialisation

    ipi/inputs/initializer.py.  The value of an entry is its text; that of a cell also the numbers in it.  What is done
    with the queue is area Init. *)
From Coq Require Import List Arith ZArith Lia Bool String Reals.
From Verif Require Import RSum NMModel CellModel.
Import ListNotations.
Open Scope string_scope.
Open Scope list_scope.

Inductive err := TypeError | ValueError.
Inductive res (A : Type) := Val (a : A) | Raise (e : err).
Arguments Val {A}. Arguments Raise {A}.

(** ** Entries, lines 126-295, 357-430 *)
Inductive kind := Positions | Velocities | Momenta | Masses | Labels | Cell | File | Gle.
Inductive what := WPositions | WVelocities | WMomenta | WMasses | WLabels | WCell | WGle.
Record entry := Entry { sort : kind; mode : string; units : string; index : Z; bead : Z; cell_units : string; value : string }.
Record init := Init { imode : string; iunits : string; iindex : Z; ibead : Z; ivalue : string }.
(** lines 157-162, 190-195, 204-209, 220-224, 253-276, 282-291 *)
Definition options (k : kind) : list string :=
  match k with
  | Positions | Masses | Labels => ["manual"; "xyz"; "pdb"; "ase"; "chk"]
  | Velocities | Momenta => ["manual"; "xyz"; "pdb"; "ase"; "chk"] ++ ["thermal"]
  | Cell => ["manual"; "pdb"; "chk"; "abc"; "abcABC"]
  | File => ["xyz"; "pdb"; "chk"; "ase"]
  | Gle => ["chk"; "manual"]
  end.
(** The signatures of fetch: lines 109 (InputInitBase), 234 (InputInitMomenta, also for velocities), 299 (InputInitCell). *)
Definition takes_class (k : kind) : bool := match k with Momenta | Velocities | Cell => false | _ => true end.
Definition item (k : kind) : what :=
  match k with Positions | File => WPositions | Velocities => WVelocities | Momenta => WMomenta | Masses => WMasses | Labels => WLabels | Cell => WCell | Gle => WGle end.
Definition is (s t : string) : bool := String.eqb s t.
(** fetch of the classes, lines 109-123, 234-250, 299-354: the modes of a cell that are numbers become manual. *)
Definition fetch_self (e : entry) : init :=
  Init (match sort e with Cell => if is (mode e) "abc" || is (mode e) "abcABC" then "manual" else mode e | _ => mode e end) (units e) (index e) (bead e) (value e).
Definition with_units (u : string) (e : entry) : init := Init (mode e) u (index e) (bead e) (value e).
(** InputInitializer.fetch, lines 480-521, for one entry. *)
Definition fetch_one (e : entry) : res (list (what * init)) :=
  let m := mode e in
  if is m "chk" && negb (takes_class (sort e)) then Raise TypeError
  else if is m "chk" && negb (is (units e) "" || is (units e) "automatic") then Raise ValueError
  else Val match sort e with
    | File =>
      (if is m "xyz" || is m "manual" || is m "pdb" || is m "chk" || is m "ase" then [(WPositions, with_units (units e) e)] else [])
      ++ (if is m "xyz" || is m "pdb" || is m "chk" || is m "ase" then [(WMasses, with_units "" e); (WLabels, with_units (units e) e); (WCell, with_units (cell_units e) e)] else [])
      ++ (if is m "chk" then [(WMomenta, with_units "" e)] else [])
    | k => [(item k, fetch_self e)]
    end.
Fixpoint fetch (l : list entry) : res (list (what * init)) :=
  match l with
  | [] => Val []
  | e :: r => match fetch_one e with
              | Raise x => Raise x
              | Val q => match fetch r with Val qs => Val (q ++ qs) | Raise x => Raise x end
              end
  end.

(** ** The numbers of a cell, lines 299-354.  A manual value without brackets is a single number in the code and has no
    size; square roots of negative numbers and divisions by zero in abc2h are not modelled. *)
Definition flat (h : nat -> nat -> R) : list R := [h 0 0; h 0 1; h 0 2; h 1 0; h 1 1; h 1 2; h 2 0; h 2 1; h 2 2]%nat.
Definition manual (h : list R) : res (list R) :=
  match h with
  | [a; b; c; d; e; f; g; i; j] => Val [a; b; c; 0; e; f; 0; 0; j]%R
  | _ => Raise ValueError
  end.
Definition cell_numbers (m : string) (h : list R) : res (list R) :=
  if is m "abc" then match h with [a; b; c] => manual (flat (abc2h (mk_abc a b c (PI / 2) (PI / 2) (PI / 2)))) | _ => Raise ValueError end
  else if is m "abcABC" then
    match h with [a; b; c; x; y; z] => manual (flat (abc2h (mk_abc a b c (x * PI / 180) (y * PI / 180) (z * PI / 180)))) | _ => Raise ValueError end
  else manual h.
