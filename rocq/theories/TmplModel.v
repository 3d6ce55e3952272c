(** * Model of the helpers that write inputs for scripts

    ipi/scripting/templates.py.  A block of text is modelled as its tag, attributes and fields, numbers as reals and their texts
    as read back without loss.  Structures are those of the Atomic Simulation Environment. *)
From Coq Require Import List Arith ZArith Lia Bool String Reals.
Import ListNotations.
Open Scope string_scope.
Open Scope list_scope.

Inductive err := ValueError | UnboundLocalError.
Inductive res (A : Type) := Val (a : A) | Raise (e : err).
Arguments Val {A}. Arguments Raise {A}.
Inductive value := Text (s : string) | Int (z : Z) | Num (x : R).
Record block := Block { tag : string; attribs : list (string * string); fields : list (string * value) }.

(** ** forcefield_xml, lines 134-176 *)
Inductive params := Nothing | Dict (s : string) | Str (s : string).
(** The type of potential has to be one of the drivers; a dictionary is written by write_dict. *)
Definition forcefield_xml (drivers : string -> bool) (write_dict : string -> string) (name mode : string) (parameters : params) (pes address : option string) (port : option Z) : res block :=
  if String.eqb mode "direct" then
    match pes with
    | None => Raise ValueError
    | Some p => if negb (drivers p) then Raise ValueError
                else Val (Block "ffdirect" [("name", name)]
                       (("pes", Text p) :: match parameters with Nothing => [] | Dict d => [("parameters", Text (write_dict d))] | Str s => [("parameters", Text s)] end))
    end
  else if String.eqb mode "unix" || String.eqb mode "inet" then
    match address with
    | None => Raise ValueError
    | Some a =>
      if String.eqb mode "inet" && (match port with None => true | _ => false end) then Raise ValueError
      else Val (Block "ffsocket" [("name", name)]
        (("address", Text a) :: (if String.eqb mode "inet" then match port with Some z => [("port", Int z)] | None => [] end else []) ++ [("latency", Num (1 / 10000)%R)]))
    end
  else Raise ValueError.

(** Reading of blocks: what is given, or the default (area Inp); ipi/inputs/forcefields.py:187-243, 259-266. *)
Definition attrib (b : block) (k d : string) : string := match find (fun p => String.eqb (fst p) k) (attribs b) with Some p => snd p | None => d end.
Definition field (b : block) (k : string) (d : value) : value := match find (fun p => String.eqb (fst p) k) (fields b) with Some p => snd p | None => d end.
Definition socket_mode (b : block) : string := attrib b "mode" "inet".
Definition socket_port (b : block) : value := field b "port" (Int 65535).
Definition socket_address (b : block) : value := field b "address" (Text "localhost").

(** ** motion_nvt_xml, lines 179-209: the thermostat is given as text. *)
Definition motion_nvt_xml (timestep : R) (thermostat : option string) (path_integrals : bool) : res (block * block) :=
  match thermostat with
  | Some _ => Raise UnboundLocalError
  | None => Val (Block "dynamics" [("mode", "nvt")] [("timestep", Num timestep)],
                 if path_integrals then Block "thermostat" [("mode", "pile_g")] [("tau", Num (10 * timestep)); ("pile_lambda", Num (1 / 2))]
                 else Block "thermostat" [("mode", "svr")] [("tau", Num (10 * timestep))])
  end.

(** ** simulation_xml, lines 36-131 *)
(** Arrays of numbers by name: those set by set_masses are called masses. *)
Record atoms := Atoms { symbols : list string; positions : list R; arrays : list (string * list R); h : nat -> nat -> R }.
Inductive structures := One (a : atoms) | Many (l : list atoms).
Record system := System { s_nbeads : nat; s_natoms : nat; s_q : list (list R); s_names : list string; s_m : list R; s_h : nat -> nat -> R;
  s_init : option (nat * R); s_temp : option R; s_field : string; s_output : block }.
(** The units of length and mass, the masses of the elements, the default outputs. *)
Section Simulation.
Variables (ulength umass : R) (element : string -> R) (default_outputs : block).
Definition frames (s : structures) : list atoms := match s with One a => [a] | Many l => l end.
Definition set_prefix (p : string) (b : block) : block := Block (tag b) (("prefix", p) :: filter (fun x => negb (String.eqb (fst x) "prefix")) (attribs b)) (fields b).
(** None for an empty list, of which the first element is taken (IndexError), or a force field without a name (KeyError). *)
Definition simulation_xml (s : structures) (forcefield : block) (temperature : option R) (output : option block) (prefix : option string) : option (res system) :=
  match frames s, find (fun p => String.eqb (fst p) "name") (attribs forcefield) with
  | a :: _, Some (_, ff) =>
    let out := match output with None => default_outputs | Some b => b end in
    let mk o := Val (System (List.length (frames s)) (List.length (symbols a)) (map (fun f => map (fun x => x * ulength)%R (positions f)) (frames s)) (symbols a)
        (match find (fun p => String.eqb (fst p) "mass") (arrays a) with Some p => map (fun x => x * umass)%R (snd p) | None => map element (symbols a) end)
        (fun i j => h a j i * ulength)%R
        (match temperature with Some t => Some (List.length (frames s), t) | None => None end) temperature ff o) in
    Some match prefix with
      | None => mk out
      | Some p => if String.eqb (tag out) "output" then mk (set_prefix p out) else Raise ValueError
      end
  | _, _ => None
  end.
End Simulation.
