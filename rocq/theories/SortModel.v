(** * Model of the tools that sort and cut the outputs of a simulation
      (tools/py/remdsort.py, tools/py/trimsim.py)

    A file is the list of the lines that readline returns, each with its end of line, so that no line of a file is
    empty and the empty string is the end of the file. The lines of the swap file are already split into numbers. *)
From Coq Require Import String Ascii List Arith ZArith Lia Bool.
From Verif Require Import FileModel.
Import ListNotations.
Local Open Scope string_scope.
Local Open Scope nat_scope.

Definition file := list string.

(** How a reading ends: normally, with the EOFError that ends the loop, or with another error. *)
Inductive status := Fine | EndOfFile | Crash.

(** ** Reading one frame *)
(** The next character of a line; "#" starts a comment (remdsort 210, trimsim 199). *)
Definition is_comment (l : string) : bool := match l with String c _ => Ascii.eqb c "#" | EmptyString => false end.
(** remdsort 210-213, trimsim 199-202: comments are passed on until a line that is not one; at the end of the file
    iline[0] raises IndexError, after the comments have been written. Returns what is written and what is left. *)
Fixpoint comments (f : file) : file * file * status :=
  match f with
  | [] => ([], [], Crash)
  | l :: r => if is_comment l then let '(w, r', s) := comments r in (l :: w, r', s) else ([l], r, Fine)
  end.
(** remdsort 207-213 checks for the end of the file; trimsim 198-202 does not. *)
Definition read_prop (checked : bool) (f : file) : file * file * status :=
  match f with [] => ([], [], if checked then EndOfFile else Crash) | _ => comments f end.

(** str.strip *)
Definition blank (c : ascii) : bool := let n := nat_of_ascii c in ((n =? 32) || ((9 <=? n) && (n <=? 13)) || ((28 <=? n) && (n <=? 31)))%nat.
Fixpoint lstrip (s : string) : string := match s with String c r => if blank c then lstrip r else s | EmptyString => "" end.
Fixpoint rstrip (s : string) : string :=
  match s with
  | EmptyString => ""
  | String c r => match rstrip r with EmptyString => if blank c then "" else String c "" | r' => String c r' end
  end.
Definition strip (s : string) : string := rstrip (lstrip s).
(** remdsort 233-237, trimsim 220-224 *)
Definition pdb_end (l : string) : bool := String.eqb (strip l) "" || String.eqb (strip l) "END".
Fixpoint read_pdb (f : file) : file * file :=
  match f with
  | [] => ([], [])
  | l :: r => if pdb_end l then ([l], r) else let '(w, r') := read_pdb r in (l :: w, r')
  end.

(** What a stream holds: properties, or a trajectory in a format (None for the extras). *)
Inductive kind := KProp | KTraj (format : option string).
Section Tools.
(** int() of a line *)
Variable int_of : string -> option Z.
(** remdsort 219-238, trimsim 206-225: readline gives empty strings at the end of the file. An error of int() is not caught. *)
Definition read_traj (format : option string) (f : file) : file * file * status :=
  match format with
  | None => (firstn 2 f, skipn 2 f, Fine)
  | Some k =>
      if String.eqb k "xyz" || String.eqb k "ase" then
        match f with
        | [] => match int_of "" with None => ([], [], Crash) | Some n => ([], [], Fine) end
        | l :: r => match int_of l with
                    | None => ([], r, Crash)
                    | Some n => (l :: firstn (S (Z.to_nat n)) r, skipn (S (Z.to_nat n)) r, Fine)
                    end
        end
      else if String.eqb k "pdb" then let '(w, r) := read_pdb f in (w, r, Fine)
      else ([], f, Fine)
  end.
Definition read (checked : bool) (k : kind) (f : file) : file * file * status :=
  match k with KProp => read_prop checked f | KTraj fm => read_traj fm f end.

(** ** The streams of one output, one per system (remdsort 86-190, trimsim 57-151) *)
Record stream := Stream { s_kind : kind; s_stride : nat; s_in : list file; s_out : list file }.
Fixpoint update {A} (i : nat) (g : A -> A) (l : list A) : list A :=
  match l, i with [], _ => [] | a :: r, O => g a :: r | a :: r, S i => a :: update i g r end.
(** remdsort 205-213, 216-238, one system: the frame is read, then written to the file of the replica. *)
Definition pass (checked : bool) (irep : list nat) (isys : nat) (st : stream) : stream * status :=
  match nth_error (s_in st) isys with
  | None => (st, Crash)
  | Some f =>
      let '(w, r, s) := read checked (s_kind st) f in
      let left := Stream (s_kind st) (s_stride st) (update isys (fun _ => r) (s_in st)) (s_out st) in
      match s with
      | EndOfFile => (left, EndOfFile)
      | _ => match nth_error irep isys with
             | Some k => if (k <? List.length (s_out st))%nat
                         then (Stream (s_kind st) (s_stride st) (s_in left) (update k (fun o => o ++ w)%list (s_out st)), s)
                         else (left, Crash)
             | None => (left, Crash)
             end
      end
  end.
(** the loop over the systems *)
Fixpoint passes (checked : bool) (irep : list nat) (l : list nat) (st : stream) : stream * status :=
  match l with
  | [] => (st, Fine)
  | i :: l => let '(st', s) := pass checked irep i st in match s with Fine => passes checked irep l st' | _ => (st', s) end
  end.
(** the loops over the properties and over the trajectories (203-238; trimsim 194-225), the properties being first *)
Fixpoint frames (checked : bool) (nsys : nat) (irep : list nat) (step : nat) (l : list stream) : list stream * status :=
  match l with
  | [] => ([], Fine)
  | st :: l =>
      if step mod s_stride st =? 0
      then let '(st', s) := passes checked irep (seq 0 nsys) st in
           match s with Fine => let '(l', s') := frames checked nsys irep step l in (st' :: l', s') | _ => (st' :: l, s) end
      else let '(l', s') := frames checked nsys irep step l in (st :: l', s')
  end.

(** ** remdsort *)
Definition swaps := list (nat * list nat).
(** 242-245 *)
Definition follow (step : nat) (irep : list nat) (sw : swaps) : list nat * swaps :=
  match sw with (s, r) :: t => if s =? step then (r, t) else (irep, sw) | [] => (irep, []) end.
(** 200-247, at most [fuel] turns; Fine: still running. *)
Fixpoint turns (nsys fuel step : nat) (irep : list nat) (sw : swaps) (l : list stream) : list stream * status :=
  match fuel with
  | O => (l, Fine)
  | S fuel =>
      let '(l', s) := frames true nsys irep step l in
      match s with
      | Fine => let '(irep', sw') := follow step irep sw in turns nsys fuel (S step) irep' sw' l'
      | _ => (l', s)
      end
  end.
(** 197-200 *)
Definition remdsort (nsys fuel : nat) (sw : swaps) (l : list stream) : list stream * status := turns nsys fuel 0 (seq 0 nsys) sw l.

(** ** trimsim *)
(** 177-187 *)
Fixpoint trim_swaps (trimstep : nat) (sw : swaps) : swaps :=
  match sw with [] => [] | (s, r) :: t => if (s <? trimstep)%nat then (s, r) :: trim_swaps trimstep t else [] end.
(** 190-227: steps 0 to trimstep, each frame to the file of its own system *)
Fixpoint trims (nsys fuel step : nat) (l : list stream) : list stream * status :=
  match fuel with
  | O => (l, Fine)
  | S fuel => let '(l', s) := frames false nsys (seq 0 nsys) step l in
              match s with Fine => trims nsys fuel (S step) l' | _ => (l', s) end
  end.
Definition trimsim (nsys trimstep : nat) (l : list stream) : list stream * status := trims nsys (S trimstep) 0 l.
End Tools.

(** ** Names of the files *)
Definition mem (k : string) (l : list string) : bool := existsb (String.eqb k) l.
Definition extension (format : string) : string := if String.eqb format "ase" then "extxyz" else format.
Definition is_extras (k : string) : bool := String.eqb (substring 0 6 k) "extras".
(** TrajectoryOutput.open_stream (engine/outputs.py:380-436): names opened for a system whose base name is [f]
    with [nb] beads; [w] is the width of the bead number. *)
Definition bead_keys := ["positions"; "velocities"; "forces"; "forces_spring"; "Eforces"; "extras"; "extras_bias"; "forces_sc"; "momenta"; "becx"; "becy"; "becz"].
Definition written (w nb : nat) (key format : string) (ibead : Z) (f : string) : list string :=
  if mem key bead_keys
  then map (fun b => f ++ "_" ++ pad w b ++ (if is_extras key then "" else "." ++ extension format))
         (filter (fun b => ((ibead <? 0)%Z && (Z.of_nat b mod (- ibead) =? 0)%Z) || (ibead =? Z.of_nat b)%Z) (seq 0 nb))
  else [if is_extras key then f else f ++ "." ++ extension format].
(** remdsort 109-190: names opened for a system; the number of beads is that of the first system. *)
Definition remd_keys := ["positions"; "velocities"; "forces"; "extras"; "extras_bias"].
Definition remd_files (w nb : nat) (key format : string) (ibead : Z) (f : string) : list string :=
  if mem key remd_keys
  then map (fun b => if mem key ["extras"; "extras_bias"] then f ++ "_" ++ pad w b else f ++ "_" ++ pad w b ++ "." ++ extension format)
         (filter (fun b => (ibead <? 0)%Z || (ibead =? Z.of_nat b)%Z) (seq 0 nb))
  else [f ++ "." ++ extension format].
(** trimsim 80-151 *)
Definition trim_keys := ["positions"; "velocities"; "forces"; "extras"].
Definition trim_files (w nb : nat) (key format : string) (ibead : Z) (f : string) : list string :=
  if mem key trim_keys
  then map (fun b => if String.eqb key "extras" then f ++ "_" ++ pad w b else f ++ "_" ++ pad w b ++ "." ++ extension format)
         (filter (fun b => (ibead <? 0)%Z || (ibead =? Z.of_nat b)%Z) (seq 0 nb))
  else [f ++ "." ++ format].
(** remdsort 192: the prefix of the swap file; ReplicaExchange writes it through OutputMaker.get_output (outputs.py:94-96). *)
Definition remd_swapfile (pre swapfile : string) : string := pre ++ "." ++ swapfile.
(** what the simulation writes for an output with prefix [pre] of a system with prefix [s] is [with_sys s (with_prefix pre f)]:
    remdsort 80-93 does the same, and writes to a name with a further prefix (94). *)
Definition sorted_name (prefix f : string) : string := prefix ++ f.
