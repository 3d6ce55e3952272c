(* Model of the units written into and read from trajectory files.

   ipi/utils/io/io_units.py: cell_unit_re, traj_re 17-21, auto_units 24-83,
   process_units 85-135; ipi/utils/io/__init__.py: print_file 210-283;
   ipi/engine/properties.py: Trajectories.traj_dict 2929-3140 (names and
   dimensions only).

   Modelled for the format "xyz".  The comment is searched without first
   removing the blanks around it, which no pattern contains. *)
From Coq Require Import String Ascii List Arith Bool QArith Qreals Reals.
From Verif Require Import TextLib UnitModel.
Import ListNotations.
Local Open Scope string_scope.
Local Open Scope list_scope.

(* properties.py 2929-3140: in the order of the dictionary; no dimension
   for the extras *)
Definition traj_dict : list (string * option string) :=
  [("positions", Some "length"); ("velocities", Some "velocity"); ("momenta", Some "momentum");
   ("becx", Some "number"); ("becy", Some "number"); ("becz", Some "number");
   ("forces", Some "force"); ("forces_spring", Some "force"); ("Eforces", Some "force");
   ("forces_sc", Some "force"); ("x_centroid", Some "length"); ("v_centroid", Some "velocity");
   ("x_centroid_even", Some "length"); ("v_centroid_even", Some "velocity");
   ("x_centroid_odd", Some "length"); ("v_centroid_odd", Some "velocity");
   ("p_centroid", Some "momentum"); ("f_centroid", Some "force");
   ("kinetic_cv", Some "energy"); ("kinetic_od", Some "energy"); ("r_gyration", Some "length");
   ("extras", None); ("forces_component", Some "force"); ("forces_component_raw", Some "force");
   ("extras_component_raw", None); ("extras_bias", None);
   ("isotope_zetatd", Some "undefined"); ("isotope_zetasc", Some "undefined")].

(* [A-Za-z_] *)
Definition letter (a : ascii) : bool :=
  let n := nat_of_ascii a in
  ((65 <=? n) && (n <=? 90) || (97 <=? n) && (n <=? 122) || (n =? 95))%nat.

(* [A-Za-z_]*\} at the beginning of a text *)
Fixpoint unit_of (l : text) : option text :=
  match l with
  | [] => None
  | a :: r => if Ascii.eqb "}" a then Some []
              else if letter a then option_map (cons a) (unit_of r) else None
  end.

(* re.compile(key + r"\{[A-Za-z_]*\}").search(comment): the unit of the
   leftmost match *)
Fixpoint search (k : text) (s : text) : option text :=
  match (match pre (k ++ ["{"%char]) s with Some r => unit_of r | None => None end) with
  | Some u => Some u
  | None => match s with [] => None | _ :: r => search k r end
  end.

(* io_units.py 49-56: the first key of the dictionary that is found *)
Fixpoint first_found (d : list (string * option string)) (s : text) : option (option string * text) :=
  match d with
  | [] => None
  | (k, dim) :: r => match search (tx k) s with
                     | Some u => Some (dim, u)
                     | None => first_found r s
                     end
  end.

(* auto_units 24-83 with everything requested "automatic"; None is the
   KeyError of a key without dimension *)
Definition auto_units (comment : text) : option (text * text * text) :=
  let cell := match search (tx "cell") comment with Some u => u | None => tx "atomic_unit" end in
  match first_found traj_dict comment with
  | None => Some (tx "undefined", tx "atomic_unit", cell)
  | Some (Some dim, u) => Some (tx dim, u, cell)
  | Some (None, _) => None
  end.

(* print_file 262-268: what "automatic" stands for when writing *)
Definition chosen (units : text) : text :=
  if eqt units (tx "automatic") then tx "atomic_unit" else units.

(* print_file 273: the end of the comment line *)
Definition label (key units cell_units : text) : text :=
  key ++ tx "{" ++ units ++ tx "}  cell{" ++ cell_units ++ tx "}".

(* print_file 270-273: the comment line after the header and the title,
   and the number that stands for the value x and for the cell length y *)
Definition write (head key dim units cell_units : text) (x y : R) : option (text * R * R) :=
  match unit_to_user (tx "length") (chosen cell_units) 1, unit_to_user dim (chosen units) 1 with
  | Ok cc, Ok ac => Some (head ++ label key (chosen units) (chosen cell_units), (x * ac)%R, (y * cc)%R)
  | _, _ => None
  end.

(* process_units 85-135 *)
Definition read (comment : text) (x y : R) : option (R * R) :=
  match auto_units comment with
  | None => None
  | Some (dim, units, cell) =>
    match unit_to_internal (tx "length") cell 1, unit_to_internal dim units 1 with
    | Ok cc, Ok ac => Some ((x * ac)%R, (y * cc)%R)
    | _, _ => None
    end
  end.
