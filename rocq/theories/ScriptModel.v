(** Model of the scripting interface: ipi/scripting/interactive.py (stepping a
    simulation from a script, fetching properties, getting and setting structures,
    thermalizing momenta) and ipi/scripting/parsing.py (reading back property
    files and trajectories), with the parts of ipi/engine/simulation.py:326-466 and
    ipi/engine/outputs.py:231-300 they rest on. *)
Require Import String List Arith Bool Lia Reals Ascii DecimalString.
Import ListNotations.
Local Open Scope nat_scope.
Local Open Scope list_scope.

(** * Stepping *)
Section Run.
Variable D : Type.
(** run_step (simulation.py:433-466) *)
Variable adv : nat -> D -> D.
(** a motion reports to be finished after that step (446-462) *)
Variable fin : nat -> D -> bool.
(** the EXIT file exists or the wall clock time is over after that step (421-429) *)
Variable stop : nat -> bool.
(** safe_stride, and the strides of the outputs *)
Variable safe : nat.
Variable outs : list nat.

(** [chk]: the status held by the RESTART checkpoint; [restart]: the last RESTART
    file.  InteractiveSimulation copies the attributes of the Simulation it is made
    from (interactive.py:47-51): the step and the checkpoint are shared with it. *)
Record isim := mkis { step : nat; data : D; finished : bool; chk : nat * D;
  log : list (nat * nat * D); restart : option (nat * D) }.

(** o.write of all outputs with self.step + 1 = l (active: outputs.py:157-160) *)
Definition frame_at (l : nat) (d : D) : list (nat * nat * D) :=
  map (fun io => (fst io, l, d)) (filter (fun io => l mod snd io =? 0) (combine (seq 0 (length outs)) outs)).
Definition write (s : isim) (l : nat) : isim :=
  mkis (step s) (data s) (finished s) (chk s) (log s ++ frame_at l (data s)) (restart s).
(** CheckpointOutput.store (outputs.py:717-728) *)
Definition store (s : isim) : isim := mkis (step s) (data s) (finished s) (step s, data s) (log s) (restart s).
(** self.step := k *)
Definition at_step (s : isim) (k : nat) : isim := mkis k (data s) (finished s) (chk s) (log s) (restart s).
(** self.run_step(self.step) *)
Definition run_step (s : isim) : isim :=
  let d := adv (step s) (data s) in mkis (step s) d (fin (step s) d) (chk s) (log s) (restart s).

(** the main loop (360-429), [n] values of the range left, the next one being [k] *)
Fixpoint loop (wo : bool) (n k : nat) (s : isim) : isim :=
  match n with
  | 0 => s
  | S n =>
      let s := at_step s k in
      if finished s then s
      else
        let s := run_step (if k mod safe =? 0 then store s else s) in
        if finished s then s
        else
          let s := if wo then write s (S k) else s in
          if stop k then s else loop wo n (S k) s
  end.
(** Simulation.run (326-431) with tsteps = step + n *)
Definition sim_run (n : nat) (wo : bool) (s : isim) : isim :=
  let s := if (step s =? 0) && wo then write s 0 else s in loop wo n (step s) s.
(** CheckpointOutput.write(store=True) (outputs.py:730-779) on RESTART, stride 1 *)
Definition checkpoint (s : isim) : isim :=
  let c := (S (step s), data s) in mkis (step s) (data s) (finished s) c (log s) (Some c).
(** InteractiveSimulation.run (interactive.py:89-100) *)
Definition run (n : nat) (wo : bool) (s : isim) : isim :=
  let s := checkpoint (sim_run n wo s) in at_step s (S (step s)).
(** Simulation.softexit of the registered object (simulation.py:315-324): it is
    the one the attributes were copied from, its rollback is never cleared *)
Definition softexit (s : isim) : isim := mkis (step s) (data s) (finished s) (chk s) (log s) (Some (chk s)).
(** a new simulation read from an input with the given step *)
Definition new (k : nat) (d : D) : isim := mkis k d false (k, d) [] None.
End Run.
Arguments step {D}. Arguments data {D}. Arguments finished {D}. Arguments chk {D}. Arguments log {D}. Arguments restart {D}.
Arguments mkis {D}.

(** * Fetching properties (interactive.py:102-114) *)
Section Props.
Local Open Scope R_scope.
Local Open Scope string_scope.
(** the families of units that have an "ase" entry (units.py:306-337) *)
Definition ase_families : list string :=
  ["undefined"; "energy"; "length"; "temperature"; "time"; "velocity"; "force"; "volume"; "frequency"; "action"; "mass";
   "pressure"; "momentum"; "density"; "hessian"; "electric-dipole"; "electric-field"].
(** the value of that entry *)
Variable ase : string -> R.
(** value * unit_to_user(dimension, "ase", 1.0) (units.py:376-434); None: IndexError
    for an unknown family, TypeError for a family without that unit *)
Definition to_ase (dim : string) (v : list R) : option (list R) :=
  if String.eqb dim "number" then Some (map (fun x => x * 1) v)
  else if existsb (String.eqb dim) ase_families then Some (map (fun x => x * (1 / ase dim)) v) else None.
(** the answer: one value for a single system, a list otherwise *)
Inductive answer (A : Type) := One (a : A) | Many (l : list A).
Arguments One {A}. Arguments Many {A}.
Fixpoint all_some {A} (l : list (option A)) : option (list A) :=
  match l with
  | [] => Some []
  | None :: _ => None
  | Some a :: l => match all_some l with Some r => Some (a :: r) | None => None end
  end.
Definition flat {A} (l : list A) : answer A := match l with [a] => One a | _ => Many l end.
(** properties: every system gives a value, a dimension and the unit asked for
    between braces; the last one is not used *)
Definition properties (l : list (list R * string * string)) : option (answer (list R)) :=
  match all_some (map (fun x => to_ase (snd (fst x)) (fst (fst x))) l) with Some r => Some (flat r) | None => None end.
End Props.
Arguments One {A}. Arguments Many {A}.

(** * Structures (interactive.py:116-177) *)
Section Struct.
Local Open Scope R_scope.
(** the "ase" units of length and momentum *)
Variable ul um : R.
(** an ASE structure: positions, momenta if there are any, cell *)
Record struc := mkst { pos : list R; mom : option (list R); scell : list R }.
(** a system: positions and momenta of the beads, cell matrix (nine numbers by rows) *)
Record system := mksy { beads : list (list R * list R); cell : list R }.
Definition transp (h : list R) : list R := map (fun i => nth i h 0) [0; 3; 6; 1; 4; 7; 2; 5; 8]%nat.
Definition to_user (u : R) (l : list R) : list R := map (fun x => x * (1 / u)) l.
Definition to_int (u : R) (l : list R) : list R := map (fun x => x * (1 * u)) l.
Inductive tree := Leaf (s : struc) | Node (l : list tree).
Definition get_bead (h : list R) (b : list R * list R) : struc :=
  mkst (to_user ul (fst b)) (Some (to_user um (snd b))) (to_user ul (transp h)).
(** flattened when there is just one *)
Definition flatten (l : list tree) : tree := match l with [t] => t | _ => Node l end.
Definition get_structures (sys : list system) : tree :=
  flatten (map (fun s => flatten (map (fun b => Leaf (get_bead (cell s) b)) (beads s))) sys).

(** the loop over the structures of one system; None: the index of the bead is out
    of range, or what is found is not a structure *)
Fixpoint set_beads (i : nat) (s : system) (l : list tree) : option system :=
  match l with
  | [] => Some s
  | Leaf t :: l =>
      if (i <? length (beads s))%nat
      then let p := match mom t with Some p => to_int um p | None => snd (nth i (beads s) ([], [])) end in
           set_beads (S i) (mksy (firstn i (beads s) ++ (to_int ul (pos t), p) :: skipn (S i) (beads s)) (to_int ul (transp (scell t)))) l
      else None
  | Node _ :: _ => None
  end.
Fixpoint set_systems (sys : list system) (l : list tree) : option (list system) :=
  match sys, l with
  | s :: sys, t :: l =>
      match (if (length (beads s) =? 1)%nat then set_beads 0 s [t] else match t with Node ts => set_beads 0 s ts | Leaf _ => None end) with
      | Some s => match set_systems sys l with Some r => Some (s :: r) | None => None end
      | None => None
      end
  | _, _ => Some sys
  end.
Definition set_structures (sys : list system) (t : tree) : option (list system) :=
  if (length sys =? 1)%nat then set_systems sys [t] else match t with Node l => set_systems sys l | Leaf _ => None end.
End Struct.

(** * Thermalizing the momenta (interactive.py:179-206) *)
Section Therm.
Local Open Scope R_scope.
(** kinetic energy of momenta [p] with masses [m] *)
Fixpoint kin (m p : list R) : R :=
  match m, p with
  | a :: m, x :: p => x * x / (2 * a) + kin m p
  | _, _ => 0
  end.
Fixpoint rsum (l : list R) : R := match l with [] => 0 | x :: l => x + rsum l end.
(** Integrator.pconstraints with fixcom (motion/dynamics.py:373-396), one direction:
    momenta less mass times velocity of the center of mass, the energy goes to eens *)
Definition vcom (m p : list R) : R := rsum p / rsum m.
Fixpoint less (v : R) (m p : list R) : list R :=
  match m, p with
  | a :: m, x :: p => (x - a * v) :: less v m p
  | _, _ => p
  end.
Definition pconstraints (fixcom : bool) (m p : list R) (eens : R) : list R * R :=
  if fixcom then (less (vcom m p) m p, eens + vcom m p * vcom m p * (1 / 2) * rsum m) else (p, eens).
(** thermalize_momenta: gaussian numbers [g] times the square root of the mass and
    of P T k_B; eens corrected for the change *)
Fixpoint gauss (f : R) (m g : list R) : list R :=
  match m, g with
  | a :: m, x :: g => x * sqrt a * f :: gauss f m g
  | _, _ => []
  end.
Definition thermalize (fixcom : bool) (m p g : list R) (nb T kb eens : R) : list R * R :=
  let e := eens + kin m p in
  let p := gauss (sqrt (nb * T * kb)) m g in
  pconstraints fixcom m p (e - kin m p).
End Therm.

(** * Reading a property file back (parsing.py:24-106) *)
Section Read.
Variable V : Type.
(** what print_header knows of a property (outputs.py:244-264): the name with its
    arguments, its size, whether it has a help string *)
Record prop := mkpr { key : string; size : nat; help : bool }.
(** the header lines found by read_output: first and last column (1-based), name; a
    line without help has no colon and is not matched *)
Fixpoint header (icol : nat) (l : list prop) : list (nat * nat * string) :=
  match l with
  | [] => []
  | p :: l => (if help p then [(icol, icol + size p - 1, key p)] else []) ++ header (icol + size p) l
  end.
(** a data line: all values of all properties *)
Definition line (vals : list (list V)) : list V := concat vals.
(** a python dictionary *)
Definition dict := list (string * list (list V)).
Fixpoint dset (d : dict) (k : string) (v : list (list V)) : dict :=
  match d with
  | [] => [(k, v)]
  | (k', v') :: d => if String.eqb k' k then (k, v) :: d else (k', v') :: dset d k v
  end.
Fixpoint dget (d : dict) (k : string) : option (list (list V)) :=
  match d with
  | [] => None
  | (k', v) :: d => if String.eqb k' k then Some v else dget d k
  end.
Definition dappend (d : dict) (k : string) (x : list V) : dict :=
  dset d k (match dget d k with Some l => l | None => [] end ++ [x]).
(** values[start_col - 1 : end_col] *)
Definition slice (a b : nat) (vs : list V) : list V := firstn (b - (a - 1)) (skipn (a - 1) vs).
Definition read_line (hd : list (nat * nat * string)) (d : dict) (vs : list V) : dict :=
  fold_left (fun d h => dappend d (snd h) (slice (fst (fst h)) (snd (fst h)) vs)) hd d.
Definition read_output (hd : list (nat * nat * string)) (rows : list (list V)) : dict :=
  fold_left (read_line hd) rows (fold_left (fun d h => dset d (snd h) []) hd []).
End Read.

(** * Reading a trajectory back (parsing.py:109-239) *)
(** frame.info["step"] = int(matches[-1][0]) where matches is the list of the digits
    found after "Step:" (217-220): the expression has one group, so findall
    gives strings and [0] takes the first character *)
Definition digits (n : nat) : string := NilZero.string_of_uint (Nat.to_uint n).
Definition digit (c : ascii) : option nat :=
  let k := nat_of_ascii c in if (48 <=? k) && (k <=? 57) then Some (k - 48) else None.
Definition read_step (matches : list string) : option nat :=
  match rev matches with
  | String c _ :: _ => digit c
  | _ => None
  end.

(** extras (152-196): a line is a header with a name and a step, or data *)
Inductive eline := Head (name : string) (n : nat) | Data (s : string).
Record estate := mkes { steps : list nat; datas : list (list string); cur : list string; pname : string }.
Definition close (s : estate) : estate :=
  match cur s with [] => s | _ => mkes (steps s) (datas s ++ [cur s]) [] (pname s) end.
Definition eread (s : option estate) (l : eline) : option estate :=
  match s with
  | None => None
  | Some s =>
      match l with
      | Head nm n =>
          let s := close s in
          if String.eqb (pname s) "" then Some (mkes (steps s ++ [n]) (datas s) (cur s) nm)
          else if String.eqb (pname s) nm then Some (mkes (steps s ++ [n]) (datas s) (cur s) (pname s))
          else None
      | Data x => Some (mkes (steps s) (datas s) (cur s ++ [x]) (pname s))
      end
  end.
Definition read_extras (l : list eline) : option estate :=
  match fold_left eread l (Some (mkes [] [] [] "")) with Some s => Some (close s) | None => None end.
(** the newline character *)
Definition nl : string := String (ascii_of_nat 10) EmptyString.
(** the raw text of a frame that is not an array: "\n".join(data_frame) *)
Definition raw (frame : list string) : string := String.concat nl frame.
(** a frame as it is in the file, the lines ending with a newline *)
Definition frame_lines (l : list string) : list string := map (fun x => String.append x nl) l.
