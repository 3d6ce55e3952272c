(* Model of the replay of trajectories.

   ipi/engine/motion/replay.py: Replay.__init__ 37-88 (one file, or one file
   per bead sorted by the bead index in its first comment), step 90-174.

   A file is the list of its frames that have not been read yet; reading is
   modelled elsewhere (XyzModel, PdbModel, AutoModel).  A frame has
   positions and a cell, whose volume tells whether it is valid.  The
   multiplication of both by unit_to_internal of the declared units is the
   map conv.  A frame with another number of atoms would be an error of
   numpy; frames are taken to fit.  The mode "chk"
   (one checkpoint, then finish) is not modelled. *)
From Coq Require Import String List Bool Arith Lia ZArith Reals.
From Verif Require Import TextLib UnitModel AutoModel.
Import ListNotations.

Section Replay.
Variables X C : Type.              (* positions of one bead, cells *)
Variable positive : C -> bool.     (* mycell.V > 0 *)
Variable conv : X -> X.            (* 124-125, 138-139: *= unit_to_internal("length", units, 1.0) *)
Variable convc : C -> C.

Record frame := Frame { pos : X; box : C }.
Record state := State {
  rstep : nat;
  files : list (list frame);       (* what is left to read of every file *)
  beads : list X;                  (* beads.q *)
  cell : C;
  finished : bool }.

(* read_file on the i-th file; None is EOFError *)
Fixpoint pull (i : nat) (fs : list (list frame)) : option (frame * list (list frame)) :=
  match fs, i with
  | nil, _ => None
  | nil :: _, 0 => None
  | (x :: f) :: fs, 0 => Some (x, f :: fs)
  | f :: fs, S i => match pull i fs with Some (x, fs') => Some (x, f :: fs') | None => None end
  end.

(* 117-141: for bindex, b in enumerate(beads): the new positions of the
   beads from number b on, the last cell read, and whether the end of a file
   was met (the beads after it keep their positions) *)
Fixpoint load (wild : bool) (b : nat) (old : list X) (fs : list (list frame)) (last : option C)
  : list X * list (list frame) * option C * bool :=
  match old with
  | nil => ([], fs, last, true)
  | x :: old =>
      match pull (if wild then b else 0) fs with
      | None => (x :: old, fs, last, false)
      | Some (f, fs') =>
          let '(new, fs'', last', ok) := load wild (S b) old fs' (Some (convc (box f))) in
          (conv (pos f) :: new, fs'', last', ok)
      end
  end.

(* the body of the while loop: 111-170 *)
Definition once (wild : bool) (s : state) : state :=
  let '(new, fs, last, ok) := load wild 0 (beads s) (files s) None in
  if ok then
    State (S (rstep s)) fs new
      (match last with Some c => if positive c then c else cell s | None => cell s end) (finished s)
  else State (S (rstep s)) fs new (cell s) true.

(* 110-172: while True; step None leaves after one round *)
Fixpoint rounds (n : nat) (wild : bool) (s : state) : state :=
  let s' := once wild s in
  if finished s' then s'
  else match n with 0 => s' | S n => rounds n wild s' end.
(* the loop is left when rstep > step, so that there are step - rstep + 1
   rounds at least, and one in any case.  None: 103-109, wrong number of files *)
Definition step (wild : bool) (k : option nat) (s : state) : option state :=
  if wild && negb (Nat.eqb (length (files s)) (length (beads s))) then None
  else Some (rounds (match k with None => 0 | Some k => k - rstep s end) wild s).

(* 37-88 *)
Definition open_files (fs : list (list frame)) (q : list X) (c : C) : state := State 0 fs q c false.
End Replay.

Arguments Frame {X C}. Arguments pos {X C}. Arguments box {X C}.
Arguments State {X C}. Arguments rstep {X C}. Arguments files {X C}. Arguments beads {X C}.
Arguments cell {X C}. Arguments finished {X C}.
Arguments open_files {X C}. Arguments pull {X C}.

(* 121-126: a number x of a frame and a length y of its cell, as read with
   automatic units, and then multiplied by the declared units *)
Definition declared (comment units : text) (x y : R) : option (R * R) :=
  match read comment x y, unit_to_internal (tx "length"%string) units 1 with
  | Some (x', y'), Ok u => Some ((x' * u)%R, (y' * u)%R)
  | _, _ => None
  end.

(* 55-86: every file comes with the numbers that follow "Bead:" in its first
   comment; these are collected in one list, zipped with the files, and the
   files are sorted by them (sorted is stable) *)
Section Order.
Variable F : Type.
Fixpoint insert (f : F * Z) (l : list (F * Z)) : list (F * Z) :=
  match l with
  | nil => [f]
  | g :: l => if Z.leb (snd f) (snd g) then f :: g :: l else g :: insert f l
  end.
Fixpoint sort (l : list (F * Z)) : list (F * Z) := match l with nil => [] | f :: l => insert f (sort l) end.
Definition by_bead (l : list (F * list Z)) : list F :=
  map fst (sort (combine (map fst l) (concat (map snd l)))).
End Order.
