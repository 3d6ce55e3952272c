(** * Model of the JSON and binary formats and of the choice of the format
      (ipi/utils/io/backends/io_json.py, io_binary.py, ipi/utils/io/__init__.py, io_units.py)

    Characters are their code points. Floating point numbers of a JSON file are real numbers; those of a binary
    file are an argument with an encoding in two words of four bytes. A binary file is the list of its words:
    everything written has a length that is a multiple of four bytes. *)
From Coq Require Import List Arith NArith Lia Bool Reals Lra.
From Verif Require Import RSum CellModel.
Import ListNotations.

Definition text := list N.

(** ** JSON *)
(** print_json 48-62: what is written on a line; cell in degrees. *)
Record data := Data { d_natoms : nat; d_cell : abc; d_title : text; d_q : list R; d_labels : list text }.
(** A frame as read: title, cell, positions, names, masses. *)
Record frame (C Q : Type) := Frame { f_title : text; f_cell : C; f_q : Q; f_names : list text; f_masses : list R }.
Arguments Frame {C Q}. Arguments f_title {C Q}. Arguments f_cell {C Q}. Arguments f_q {C Q}. Arguments f_names {C Q}. Arguments f_masses {C Q}.
Section Json.
Variable line : Type.
(** json.dumps and json.loads; [None] is the ValueError of the latter. *)
Variable dumps : data -> line.
Variable loads : line -> option data.
Open Scope R_scope.
(** print_json 35-62 *)
Definition scaled (c : R) (h : mat3) : mat3 := fun i j => h i j * c.
Definition print_json (h : mat3) (q : list R) (names : list text) (title : text) (cell_conv atoms_conv : R) : line :=
  dumps (Data (List.length names) (h2abc_deg (scaled cell_conv h)) title (map (fun x => x * atoms_conv) q) names).
(** read_json 65-94; names are cut to four characters (84). *)
Definition radians (p : abc) : abc :=
  mk_abc (len_a p) (len_b p) (len_c p) (ang_alpha p * (PI / 180)) (ang_beta p * (PI / 180)) (ang_gamma p * (PI / 180)).
Definition of_data (d : data) : frame mat3 (list R) :=
  Frame (d_title d) (abc2h (radians (d_cell d))) (d_q d) (map (firstn 4) (d_labels d)) (map (fun _ => 0) (d_labels d)).
(** iter_json 97-112: a ValueError of json.loads ends it, that of an empty string (end of the file) as well. *)
Fixpoint iter_json (file : list line) : list (frame mat3 (list R)) :=
  match file with
  | [] => []
  | l :: file => match loads l with None => [] | Some d => of_data d :: iter_json file end
  end.
End Json.

(** ** Binary *)
Section Binary.
Variable Fl : Type.
Variable enc : Fl -> N * N.
Variable dec : N -> N -> Fl.
Definition wide (x : Fl) : list N := let (a, b) := enc x in [a; b].
(** A 64 bit integer, the low word first. *)
Definition int64 (n : N) : list N := [n mod 2 ^ 32; n / 2 ^ 32]%N.
(** numpy's array of one string: the empty string takes one character, zero. *)
Definition chars (s : text) : list N := match s with [] => [0%N] | _ => s end.
Definition bar : N := 124%N.
(** "|".join *)
Fixpoint join (l : list text) : text :=
  match l with [] => [] | [s] => s | s :: l => s ++ bar :: join l end.
(** print_binary 16-41 *)
Definition print_binary (cell : list Fl) (natoms : N) (q : list Fl) (names : list text) (title : text) : list N :=
  flat_map wide cell ++ int64 natoms ++ flat_map wide q ++ int64 (N.of_nat (List.length (join names))) ++ chars (join names) ++ chars title.
(** np.fromfile: at most [count] items; what is left. *)
Fixpoint doubles (count : nat) (w : list N) : list Fl * list N :=
  match count, w with
  | S count, a :: b :: w => let (l, r) := doubles count w in (dec a b :: l, r)
  | S _, _ => ([], [])
  | O, _ => ([], w)
  end.
Definition integer (w : list N) : option (N * list N) :=
  match w with a :: b :: w => Some (a + b * 2 ^ 32, w)%N | _ => None end.
(** Characters: an element that is zero is the empty string. *)
Definition letters (w : list N) : text := filter (fun c => negb (N.eqb c 0)) w.
(** str.split("|") *)
Fixpoint split (s : text) : list text :=
  match s with
  | [] => [[]]
  | c :: s => if N.eqb c bar then [] :: split s else match split s with x :: l => (c :: x) :: l | [] => [[c]] end
  end.
(** read_binary 44-58: [Eof] is the EOFError, [Index_err] the IndexError of [0], which is not caught. *)
Inductive got := Got (f : frame (list Fl) (list Fl)) (rest : list N) | Eof | Index_err.
Definition read_binary (w : list N) : got :=
  let (cell, w) := doubles 9 w in
  if negb (Nat.eqb (List.length cell) 9) then Eof
  else match integer w with
       | None => Index_err
       | Some (nat_, w) =>
         let (q, w) := doubles (N.to_nat (3 * nat_)) w in
         match integer w with
         | None => Index_err
         | Some (len, w) =>
           let names := split (letters (firstn (N.to_nat len) w)) in
           Got (Frame (letters (skipn (N.to_nat len) w)) cell q names (map (fun _ => 0%R) names)) []
         end
       end.
(** iter_file_raw (__init__.py 352-376): frames until an EOFError; [false] if another exception ended it. *)
Fixpoint iter_binary (fuel : nat) (w : list N) : list (frame (list Fl) (list Fl)) * bool :=
  match fuel with
  | O => ([], true)
  | S fuel => match read_binary w with
              | Eof => ([], true)
              | Index_err => ([], false)
              | Got f w => let (l, b) := iter_binary fuel w in (f :: l, b)
              end
  end.
End Binary.

(** ** Choice of the format and of units *)
Definition dot_ : N := 46%N.
(** _get_io_function 75-77: mode[mode.find(".") + 1 :] and mode_map *)
Fixpoint after_dot (m : text) : option text :=
  match m with [] => None | c :: m => if N.eqb c dot_ then Some m else after_dot m end.
Definition txt_bin : text := [98; 105; 110]%N.
Definition txt_binary : text := [98; 105; 110; 97; 114; 121]%N.
Definition same (a b : text) : bool := if list_eq_dec N.eq_dec a b then true else false.
Definition backend (m : text) : text :=
  let m := match after_dot m with Some r => r | None => m end in if same m txt_bin then txt_binary else m.
(** auto_units 33-44 of io_units.py without a comment: the units of the positions and the cell. *)
Inductive unit_ := Angstrom | Ase | Atomic.
Definition txt_pdb : text := [112; 100; 98]%N.
Definition txt_ase : text := [97; 115; 101]%N.
Definition default_unit (m : text) : unit_ := if same m txt_pdb then Angstrom else if same m txt_ase then Ase else Atomic.
(** read_file (__init__.py 310-336) hands the same [mode] to the reader and to process_units; read_file_name (339-349) and
    iter_file_name (405-415) give os.path.splitext(name)[1], which starts with the dot. *)
Definition read_file (m : text) : text * unit_ := (backend m, default_unit m).
Definition read_file_name (ext : text) : text * unit_ := read_file (dot_ :: ext).
