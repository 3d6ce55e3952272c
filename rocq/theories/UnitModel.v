(* Model of the unit conversions.

   ipi/utils/units.py: UnitMap 203-304, UnitPrefix 340-358, UnitPrefixRE
   362-366, unit_to_internal 376-424, unit_to_user 427-440.

   The conversion factors are the rationals that the decimal literals of
   the source denote; the converted number is a real.  The rows "ase"
   (lines 307-337) exist only when another package is installed and are
   not modelled. *)
From Coq Require Import String Ascii List Arith Bool QArith Qreals Reals.
From Verif Require Import TextLib.
Import ListNotations.
Local Open Scope string_scope.
Local Open Scope list_scope.

(* units.py 203-304; every family has the three names "", "automatic",
   "atomic_unit" of factor 1 in front of its own *)
Definition common : list (string * Q) :=
  [("", 1); ("automatic", 1); ("atomic_unit", 1)]%Q.

(* Constants.amu, units.py 35 *)
Definition amu : Q := 1822.8885.

Definition unit_map : list (string * list (string * Q)) :=
  [("undefined", common);
   ("energy", common ++ [("electronvolt", 0.036749326%Q);
                         ("j/mol", 0.00000038087989%Q);
                         ("cal/mol", 0.0000015946679%Q);
                         ("kelvin", 3.1668152e-06%Q)]);
   ("temperature", common ++ [("kelvin", 3.1668152e-06%Q)]);
   ("time", common ++ [("second", 4.1341373e16%Q)]);
   ("frequency", common ++ [("inversecm", 4.5563353e-06%Q);
                            ("hertz*rad", 2.4188843e-17%Q);
                            ("hertz", 1.5198298e-16%Q);
                            ("hz", 1.5198298e-16%Q);
                            ("thz", 1.5198298e-4%Q)]);
   ("electric-field", common ++ [("v/ang", 0.019446903811441516%Q)]);
   ("electric-dipole", common ++ [("eang", 1.8897261%Q); ("debye", 0.3934303%Q)]);
   ("ms-momentum", common);
   ("length", common ++ [("angstrom", 1.8897261%Q); ("meter", 1.8897261e10%Q);
                         ("radian", 1%Q); ("degree", 0.017453292519943295%Q)]);
   ("action", common ++ [("joule*second", 9.4825216e33%Q)]);
   ("volume", common ++ [("angstrom3", 6.748334231%Q)]);
   ("velocity", common ++ [("m/s", 4.5710289e-7%Q)]);
   ("momentum", common);
   ("mass", common ++ [("dalton", amu); ("electronmass", 1%Q)]);
   ("pressure", common ++ [("bar", 3.398827377e-9%Q); ("atmosphere", 3.44386184e-9%Q);
                           ("pascal", 3.398827377e-14%Q); ("ev/ang3", 0.0054456877%Q)]);
   ("density", common ++ [("g/cm3", 162.67263%Q)]);
   ("force", common ++ [("newton", 12137805%Q); ("ev/ang", 0.019446904%Q)]);
   ("hessian", common ++ [("ev/ang^2", 0.010290858%Q)])].

(* units.py 340-358 *)
Definition unit_prefix : list (string * Q) :=
  [("", 1%Q); ("yotta", 1e24%Q); ("zetta", 1e21%Q); ("exa", 1e18%Q); ("peta", 1e15%Q);
   ("tera", 1e12%Q); ("giga", 1e9%Q); ("mega", 1e6%Q); ("kilo", 1e3%Q);
   ("milli", 1e-3%Q); ("micro", 1e-6%Q); ("nano", 1e-9%Q); ("pico", 1e-12%Q);
   ("femto", 1e-15%Q); ("atto", 1e-18%Q); ("zepto", 1e-21%Q); ("yocto", 1e-24%Q)].

(* units.py 362-366: the alternatives of the expression in order; the
   leading "|" that stands for the empty prefix is cut off by [1:] and
   the last "|" leaves an empty alternative at the end *)
Definition alternatives : list text :=
  (map (fun p => tx (fst p)) (tl unit_prefix) ++ [[]])%list.

(* the first alternative that is a prefix: matching any rest of line after it cannot
   fail, so there is no going back to a later one *)
Fixpoint first_prefix (ps : list text) (u : text) : option (text * text) :=
  match ps with
  | [] => None
  | p :: rest => match pre p u with
                 | Some r => Some (p, r)
                 | None => first_prefix rest u
                 end
  end.

Fixpoint takew (f : ascii -> bool) (l : text) : text :=
  match l with
  | [] => []
  | a :: r => if f a then a :: takew f r else []
  end.

(* UnitPrefixRE.match(unit): " *" skips blanks, group 1 is a prefix,
   group 2 is everything up to the end of the line *)
Definition unit_match (u : text) : option (text * text) :=
  match first_prefix alternatives (dropw (Ascii.eqb " ") u) with
  | Some (p, r) => Some (p, takew (fun a => negb (Ascii.eqb nl a)) r)
  | None => None
  end.

Fixpoint lookup {A} (k : text) (d : list (string * A)) : option A :=
  match d with
  | [] => None
  | (k', v) :: r => if eqt k (tx k') then Some v else lookup k r
  end.

Inductive result (A : Type) := Ok (a : A) | IndexErr | ValueErr | TypeErr.
Arguments Ok {A} a. Arguments IndexErr {A}. Arguments ValueErr {A}. Arguments TypeErr {A}.

(* the factor found by unit_to_internal: units.py 396-424 *)
Definition factor (family unit : text) : result Q :=
  if eqt family (tx "number") then Ok 1%Q else
  match lookup family unit_map with
  | None => IndexErr
  | Some bases =>
    match (if eqt unit [] then Some ([], []) else unit_match unit) with
    | None => ValueErr
    | Some (prefix, base) =>
      match lookup prefix unit_prefix with
      | None => TypeErr
      | Some p => match lookup (lower base) bases with
                  | None => TypeErr
                  | Some b => Ok (b * p)%Q
                  end
      end
    end
  end.

(* units.py 376-424 *)
Definition unit_to_internal (family unit : text) (x : R) : result R :=
  match factor family unit with
  | Ok f => Ok (x * Q2R f)%R
  | IndexErr => IndexErr | ValueErr => ValueErr | TypeErr => TypeErr
  end.

(* units.py 427-440 *)
Definition unit_to_user (family unit : text) (x : R) : result R :=
  match unit_to_internal family unit 1 with
  | Ok f => Ok (x / f)%R
  | IndexErr => IndexErr | ValueErr => ValueErr | TypeErr => TypeErr
  end.
