(* Model of reading and writing structure files in the pdb format.

   ipi/utils/io/backends/io_pdb.py: print_pdb 82-132, read_pdb 135-200.

   A file is its list of lines.  A coordinate is the number of thousandths
   that is printed for it, an angle the number of hundredths (the rounding
   of the float is done before).  Taking the masses from the labels and
   the default units added to the comment are not modelled. *)
From Coq Require Import String Ascii List Arith Bool ZArith.
From Verif Require Import TextLib ValModel XyzModel.
Import ListNotations.
Local Open Scope string_scope.
Local Open Scope list_scope.

(* ---------------- numbers with a fixed number of decimals ------------- *)

Definition digit (n : Z) : ascii := ascii_of_nat (48 + Z.to_nat n).

(* decimal digits of a number that is not negative *)
Fixpoint dec (fuel : nat) (n : Z) : text :=
  match fuel with
  | O => [digit (n mod 10)]
  | S f => if (n <? 10)%Z then [digit n] else dec f (n / 10) ++ [digit (n mod 10)]
  end.
Definition show_n (n : Z) : text := dec (Z.to_nat (Z.log2 n)) n.

(* the last k digits *)
Fixpoint digits (k : nat) (n : Z) : text :=
  match k with
  | O => []
  | S k => digits k (n / 10) ++ [digit (n mod 10)]
  end.

(* "%.kf" of z / 10^k *)
Definition fixed (k : nat) (z : Z) : text :=
  (if (z <? 0)%Z then ["-"%char] else []) ++
  show_n (Z.abs z / 10 ^ Z.of_nat k) ++ ["."%char] ++ digits k (Z.abs z).

Definition is_digit (a : ascii) : bool :=
  (48 <=? nat_of_ascii a)%nat && (nat_of_ascii a <=? 57)%nat.
Definition digit_val (a : ascii) : Z := Z.of_nat (nat_of_ascii a - 48).
Definition val (l : text) : Z := fold_left (fun v a => 10 * v + digit_val a)%Z l 0%Z.

(* float(s) for numerals without exponent: sign, digits, point, digits;
   the result (m, k) is m / 10^k, None a ValueError *)
Definition read_float (t : text) : option (Z * nat) :=
  let s := strip blank t in
  let neg := match s with a :: _ => Ascii.eqb "-" a | [] => false end in
  let u := match s with
           | a :: r => if Ascii.eqb "-" a || Ascii.eqb "+" a then r else s
           | [] => s end in
  match cut "." u with
  | Some (i, f) =>
    if forallb is_digit i && forallb is_digit f && negb (eqt (i ++ f) [])
    then Some (if neg then - val (i ++ f) else val (i ++ f), length f)%Z else None
  | None =>
    if forallb is_digit u && negb (eqt u [])
    then Some (if neg then - val u else val u, O)%Z else None
  end.

(* ---------------- frames ---------------- *)

Record patom := PAtom { plabel : text; px : Z; py : Z; pz : Z }.
Record pframe := PFrame { title : text; sides : Z * Z * Z; angles : Z * Z * Z; patoms : list patom }.

(* fmt_atom 98-100 with the data of 114-129 *)
Definition print_atom_line (i : Z) (a : patom) : text :=
  tx "ATOM  " ++ rjust 5 (show_n i) ++ tx " " ++ rjust 4 (plabel a) ++ tx " " ++ tx "  1" ++
  tx " " ++ tx " " ++ tx "   1" ++ tx " " ++ tx "   " ++
  rjust 8 (fixed 3 (px a)) ++ rjust 8 (fixed 3 (py a)) ++ rjust 8 (fixed 3 (pz a)) ++
  tx "  0.00" ++ tx "  0.00" ++ tx "          " ++ tx "  " ++ tx " 0".

(* fmt_cryst 97 with the data of 107-108 *)
Definition print_cryst (s g : Z * Z * Z) : text :=
  let '(a, b, c) := s in let '(al, be, ga) := g in
  tx "CRYST1" ++ rjust 9 (fixed 3 a) ++ rjust 9 (fixed 3 b) ++ rjust 9 (fixed 3 c) ++
  rjust 7 (fixed 2 al) ++ rjust 7 (fixed 2 be) ++ rjust 7 (fixed 2 ga) ++
  tx " P 1        " ++ tx "   1".

Fixpoint print_atoms (i : Z) (l : list patom) : list text :=
  match l with
  | [] => []
  | a :: r => print_atom_line i a :: print_atoms (i + 1) r
  end.

(* print_pdb 82-132 *)
Definition print_pdb (f : pframe) : list text :=
  (match title f with [] => [] | _ => [tx "TITLE   " ++ rjust 70 (title f)] end) ++
  print_cryst (sides f) (angles f) :: print_atoms 1 (patoms f) ++ [tx "END"].

(* a frame as it is read: numbers with their number of decimals *)
Definition num := (Z * nat)%type.
Record ratom := RAtom { rlabel : text; rx : num; ry : num; rz : num }.
Record rframe := RFrame { rtitle : option text; rsides : num * num * num; rangles : num * num * num;
                          ratoms : list ratom }.

(* lines 182-190; None is a ValueError; the label is kept to four
   characters, which the slice has at most *)
Definition read_atom_line (body : text) : option ratom :=
  match read_float (slice 31 39 body), read_float (slice 39 47 body), read_float (slice 47 55 body) with
  | Some x, Some y, Some z => Some (RAtom (strip blank (slice 12 16 body)) x y z)
  | _, _, _ => None
  end.

(* lines 180-192 *)
Fixpoint read_lines (lines : list text) : option (list ratom * list text) :=
  match lines with
  | [] => Some ([], [])
  | b :: rest =>
    if eqt (strip blank b) [] || eqt (strip blank b) (tx "END") then Some ([], rest)
    else match read_atom_line b with
         | None => None
         | Some a => match read_lines rest with
                     | Some (l, r) => Some (a :: l, r)
                     | None => None
                     end
         end
  end.

(* p in s *)
Fixpoint contains (p s : text) : bool :=
  match pre p s with
  | Some _ => true
  | None => match s with [] => false | _ :: r => contains p r end
  end.

Inductive poutcome := PEnd | PValueError | PRead (f : rframe) (rest : list text).

(* lines 163-173 *)
Definition read_cryst (h : text) : option ((num * num * num) * (num * num * num)) :=
  match read_float (slice 6 15 h), read_float (slice 15 24 h), read_float (slice 24 33 h),
        read_float (slice 33 40 h), read_float (slice 40 47 h), read_float (slice 47 54 h) with
  | Some a, Some b, Some c, Some al, Some be, Some ga => Some ((a, b, c), (al, be, ga))
  | _, _, _, _, _, _ => None
  end.

Definition read_body (t : option text) (lines : list text) : poutcome :=
  match lines with
  | [] => PEnd                                    (* header == "" *)
  | h :: rest =>
    match read_cryst h with
    | None => PValueError
    | Some (s, g) =>
      match read_lines rest with
      | None => PValueError
      | Some (l, rest') => PRead (RFrame t s g l) rest'
      end
    end
  end.

(* read_pdb 135-200 *)
Definition read_pdb (lines : list text) : poutcome :=
  match lines with
  | h :: rest => if contains (tx "TITLE") h then read_body (Some h) rest else read_body None lines
  | [] => read_body None []
  end.

Fixpoint iter_pdb (fuel : nat) (lines : list text) : list rframe * bool :=
  match fuel with
  | O => ([], false)
  | S k => match read_pdb lines with
           | PRead f rest => let (fs, ok) := iter_pdb k rest in (f :: fs, ok)
           | PEnd => ([], true)
           | PValueError => ([], false)
           end
  end.
Definition read_all_pdb (lines : list text) := iter_pdb (S (length lines)) lines.
