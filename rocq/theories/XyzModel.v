(* Model of reading and writing structure files in the xyz format.

   ipi/utils/io/backends/io_xyz.py: print_xyz 50-80, read_xyz 91-160;
   ipi/utils/io/__init__.py: iter_file_raw 352-376.

   A file is its list of lines (without the end of line).  A number is the
   text that was printed for it; which texts float() accepts is a
   parameter.  The comment line is kept as it is; taking the cell out of
   it is not modelled, and neither are the masses looked up from labels. *)
From Coq Require Import String Ascii List Arith Bool ZArith.
From Verif Require Import TextLib ValModel.
Import ListNotations.
Local Open Scope string_scope.
Local Open Scope list_scope.

Record atom := Atom { label : text; ax : text; ay : text; az : text }.
Record frame := Frame { comment : text; atoms : list atom }.

(* "%8s": blanks in front up to the width *)
Definition rjust (n : nat) (t : text) : text := repeat " "%char (n - length t) ++ t.

(* print_xyz 75-79: "%8s %12.5e %12.5e %12.5e\n" *)
Definition print_atom (a : atom) : text :=
  rjust 8 (label a) ++ [" "%char] ++ rjust 12 (ax a) ++ [" "%char] ++
  rjust 12 (ay a) ++ [" "%char] ++ rjust 12 (az a).

(* print_xyz 65-80: the number of atoms, the comment, one line per atom *)
Definition print_xyz (f : frame) : list text :=
  show_z (Z.of_nat (length (atoms f))) :: comment f :: map print_atom (atoms f).

(* The errors: EOFError is what iter_file_raw takes as the end. *)
Inductive outcome := EndOfFile | StopIter | ValueError | IndexError | Read (f : frame) (rest : list text).

Section Float.
Variable is_float : text -> bool.

(* lines 139-152: one atom line; None is an IndexError, Some None a
   ValueError; names[iat] keeps four characters (dtype |U4) *)
Definition read_atom (line : text) : option (option atom) :=
  match words line with
  | w :: x :: y :: z :: _ =>
    if is_float x && is_float y && is_float z
    then Some (Some (Atom (firstn 4 w) x y z)) else Some None
  | _ => None
  end.

(* the element that np.zeros leaves *)
Definition zero_atom : atom := Atom [] (tx "0") (tx "0") (tx "0").

(* lines 137-155: [left] elements of the arrays are still to be filled *)
Fixpoint read_atoms (left : nat) (lines : list text) (acc : list atom) {struct lines} : (list atom * list text) + bool :=
  match lines with
  | [] => inl (rev acc ++ repeat zero_atom left, [])   (* the file ended *)
  | l :: rest =>
    match left with
    | O => inr false                                     (* names[0] of an empty array *)
    | S left' =>
      match read_atom l with
      | None => inr false
      | Some None => inr true
      | Some (Some a) =>
        match left' with
        | O => inl (rev (a :: acc), rest)                (* break *)
        | S _ => read_atoms left' rest (a :: acc)
        end
      end
    end
  end.

(* read_xyz 91-160 *)
Definition read_xyz (lines : list text) : outcome :=
  match lines with
  | [] => EndOfFile
  | h :: rest =>
    match read_int h with
    | None => EndOfFile                                  (* ValueError -> EOFError *)
    | Some n =>
      match rest with
      | [] => StopIter
      | c :: rest =>
        if (n <? 0)%Z then ValueError else
        match read_atoms (Z.to_nat n) rest [] with
        | inr false => IndexError
        | inr true => ValueError
        | inl (l, rest') =>
          if (Z.of_nat (length l) =? n)%Z then Read (Frame c l) rest' else ValueError
        end
      end
    end
  end.

(* iter_file_raw 352-376: frames are read until EOFError; the result is
   the frames and whether the loop ended without another error *)
Fixpoint iter_file (fuel : nat) (lines : list text) : list frame * bool :=
  match fuel with
  | O => ([], false)
  | S k => match read_xyz lines with
           | Read f rest => let (fs, ok) := iter_file k rest in (f :: fs, ok)
           | EndOfFile => ([], true)
           | _ => ([], false)
           end
  end.

(* every frame takes at least two lines *)
Definition read_all (lines : list text) := iter_file (S (length lines)) lines.

End Float.
