(** * Model of the inputs of force fields

    ipi/inputs/forcefields.py and the part of ipi/inputs/simulation.py that stores force fields.  A force field is
    its class and the values of its attributes; values other than truth values, words and the list of all atoms are
    told apart by a number only.  Attributes of an interface are those of its force field.  Checks of parameters by
    the constructors are not modelled but for threaded, and neither is the filling in of an empty list of weights;
    the names of plumed_extras are an attribute. *)
From Coq Require Import List Arith ZArith Lia Bool String Reals.
Import ListNotations.
Open Scope list_scope.
Open Scope string_scope.

Inductive cls := Socket | Direct | MPI | LJ | Dmd | Debye | Plumed | Yaff | Sgdml | Committee | Rotations | Cavity.
(** [Preset] is the value that a constructor takes for an argument that is not given. *)
Inductive val := Flag (b : bool) | Word (s : string) | AllAtoms | Preset (s : string) | Other (n : nat).
Definition values := string -> val.
Fixpoint assoc (k : string) (l : list (string * string)) : option string :=
  match l with [] => None | (a, b) :: r => if String.eqb k a then Some b else assoc k r end.

(** ** Storing *)
(** InputForceField.store, lines 131-145: field and attribute. *)
Definition base_stored : list (string * string) :=
  [("name", "name"); ("latency", "latency"); ("offset", "offset"); ("parameters", "pars"); ("pbc", "dopbc"); ("activelist", "active"); ("threaded", "threaded")].
(** lines 309-318 *)
Definition socket_stored : list (string * string) :=
  [("address", "address"); ("port", "port"); ("timeout", "timeout"); ("slots", "slots"); ("mode", "mode"); ("matching", "match_mode");
   ("exit_on_disconnect", "exit_on_disconnect"); ("max_workers", "max_workers"); ("consolidate_messages", "consolidate_messages"); ("batch_size", "batch_size")].
(** lines 432-436, 502-505, 577-582, 642-646, 726-732, 835-845, 888-890, 1001-1014, 1164-1174, 1278-1297 *)
Definition stored (c : cls) : list (string * string) :=
  base_stored ++
  match c with
  | Socket => socket_stored
  | Direct => [("pes", "pes"); ("pes_path", "pes_path"); ("batch_size", "batch_size")]
  | MPI => [("mode", "mode"); ("batch_size", "batch_size")]
  | LJ => []
  | Dmd => [("dmd_coupling", "coupling"); ("dmd_freq", "freq"); ("dmd_dt", "dtdmd"); ("dmd_step", "dmdstep")]
  | Debye => [("hessian", "H"); ("x_reference", "xref"); ("v_reference", "vref")]
  | Plumed => [("plumed_dat", "plumed_dat"); ("plumed_step", "plumed_step"); ("compute_work", "compute_work"); ("file", "init_file"); ("plumed_extras", "plumed_extras")]
  | Yaff => [("yaffpara", "yaffpara"); ("yaffsys", "yaffsys"); ("yafflog", "yafflog"); ("rcut", "rcut"); ("alpha_scale", "alpha_scale"); ("gcut_scale", "gcut_scale");
             ("skin", "skin"); ("smooth_ei", "smooth_ei"); ("reci_ei", "reci_ei")]
  | Sgdml => [("sGDML_model", "sGDML_model")]
  | Committee => [("weights", "ffweights"); ("alpha", "alpha"); ("baseline_uncertainty", "baseline_uncertainty"); ("baseline_name", "baseline_name");
                  ("active_thresh", "active_thresh"); ("active_output", "active_out"); ("parse_json", "parse_json")]
  | Rotations => [("inversion", "inversion"); ("grid_order", "grid_order"); ("grid_mode", "grid_mode"); ("random", "random"); ("prng", "prng"); ("ffsocket", "ffsocket"); ("ffdirect", "ffdirect")]
  | Cavity => socket_stored ++ [("charge_array", "charge_array"); ("apply_photon", "apply_photon"); ("dipole_surface", "dipole_surface"); ("evaluate_photon", "evaluate_photon");
                                ("E0", "E0"); ("omega_c", "omega_c"); ("ph_rep", "ph_rep")]
  end.
(** line 319: sockets are stored as threaded. *)
Definition store (c : cls) (ff : values) : values := fun f =>
  match c, String.eqb f "threaded" with
  | (Socket | Cavity), true => Flag true
  | _, _ => match assoc f (stored c) with Some a => ff a | None => Preset f end
  end.

(** ** Fetching *)
(** The arguments that all classes are given, and their fields. *)
Definition common : list (string * string) := [("name", "name"); ("latency", "latency"); ("offset", "offset"); ("dopbc", "pbc")].
Definition socket_passed : list (string * string) :=
  [("address", "address"); ("port", "port"); ("slots", "slots"); ("mode", "mode"); ("timeout", "timeout"); ("match_mode", "matching"); ("exit_on_disconnect", "exit_on_disconnect")].
Definition swap (l : list (string * string)) : list (string * string) := map (fun p => (snd p, fst p)) l.
Definition own (c : cls) : list (string * string) := swap (skipn 7 (stored c)).
(** lines 158-166, 340-360, 441-451, 510-520, 587-598, 651-660, 737-748, 850-865, 895-902, 1059-1073, 1179-1194, 1310-1334:
    argument and field.  [own] are the arguments of the class itself, each of which is given; but see Cavity. *)
Definition passed (c : cls) : list (string * string) :=
  common ++
  match c with
  | Socket | MPI | LJ | Rotations => ("pars", "parameters") :: ("active", "activelist") :: ("threaded", "threaded") :: own c
  | Direct | Dmd => ("pars", "parameters") :: ("threaded", "threaded") :: own c
  | Debye | Plumed | Yaff | Sgdml => ("threaded", "threaded") :: own c
  | Committee => ("pars", "parameters") :: own c
  | Cavity => ("pars", "parameters") :: ("active", "activelist") :: ("threaded", "threaded") :: socket_passed ++ skipn 10 (own c)
  end.
(** What the constructors (ipi/engine/forcefields.py) fix whatever they are given: 834, 917-926, 1384, 1690-1694. *)
Definition fixed (c : cls) (a : string) : option val :=
  match c with
  | Debye => if String.eqb a "dopbc" then Some (Flag false) else if String.eqb a "threaded" then Some (Flag false) else None
  | Plumed => if String.eqb a "dopbc" then Some (Flag false) else if String.eqb a "threaded" then Some (Flag false) else None
  | Committee | Rotations => if String.eqb a "threaded" then Some (Flag true) else None
  | _ => None
  end.
Definition preset (a : string) : val := if String.eqb a "active" then AllAtoms else Preset a.
Definition construct (c : cls) (fields : values) : values := fun a =>
  match fixed c a with
  | Some v => v
  | None => match assoc a (passed c) with Some f => fields f | None => preset a end
  end.
Definition is_false (v : val) : bool := match v with Flag false => true | _ => false end.
Definition is_word (s : string) (v : val) : bool := match v with Word t => String.eqb s t | _ => false end.
(** fetch; None stands for ValueError (lines 328-329, 1306-1307; FFMPI, engine 457-458).  Lines 333-338: a locked
    matching asks for an exit on disconnection. *)
Definition fetch (c : cls) (fields : values) : option values :=
  match c with
  | Socket => if is_false (fields "threaded") then None
              else if is_word "lock" (fields "matching") then Some (construct c (fun f => if String.eqb f "exit_on_disconnect" then Flag true else fields f))
              else Some (construct c fields)
  | Cavity | MPI => if is_false (fields "threaded") then None else Some (construct c fields)
  | _ => Some (construct c fields)
  end.

(** ** Lists of force fields *)
(** isinstance *)
Definition is_a (c d : cls) : bool :=
  match c, d with
  | Socket, Socket | Direct, Direct | MPI, MPI | LJ, LJ | Dmd, Dmd | Debye, Debye | Plumed, Plumed | Yaff, Yaff | Sgdml, Sgdml
  | Committee, Committee | Rotations, Rotations | Cavity, Cavity | Cavity, Socket => true
  | _, _ => false
  end.
Definition tag (c : cls) : string :=
  match c with
  | Socket => "ffsocket" | Direct => "ffdirect" | MPI => "ffmpi" | LJ => "fflj" | Dmd => "ffdmd" | Debye => "ffdebye" | Plumed => "ffplumed"
  | Yaff => "ffyaff" | Sgdml => "ffsgdml" | Committee => "ffcommittee" | Rotations => "ffrotations" | Cavity => "ffcavphsocket"
  end.
(** InputSimulation.store, ipi/inputs/simulation.py 250-308: None is an entry that stays 0. *)
Definition sim_entry (c : cls) : option string :=
  match c with
  | Socket => Some (tag Socket)
  | _ => option_map tag (find (is_a c) [Direct; MPI; LJ; Dmd; Debye; Plumed; Yaff; Sgdml; Committee; Rotations; Cavity])
  end.
(** InputFFCommittee.store, lines 1016-1045. *)
Definition committee_entry (c : cls) : option string := option_map tag (find (is_a c) [Socket; LJ; Debye; Plumed; Yaff; Sgdml]).
(** InputFFCommittee, lines 926-934: the members that an input may have. *)
Definition members : list cls := [Socket; Direct; LJ; Debye; Plumed; Yaff; Sgdml].
(** Input.write, ipi/utils/inputvalue.py 293-295: an entry 0 cannot be unpacked, None stands for TypeError. *)
Fixpoint write_extra (l : list (option string)) : option (list string) :=
  match l with
  | [] => Some []
  | None :: _ => None
  | Some t :: r => match write_extra r with Some ts => Some (t :: ts) | None => None end
  end.

(** ** InputFFSocket.check, lines 362-383 *)
Definition lt0 (x : R) : bool := if Rlt_dec x 0 then true else false.
Definition check_socket (port slots : Z) (latency timeout : R) : bool :=
  if ((port <? 1) || (65535 <? port))%Z then false else if ((slots <? 1) || (5 <? slots))%Z then false
  else if lt0 latency then false else if lt0 timeout then false else true.
