(** * The perturbed path integral tools
    tools/py/energies_ppi.py, heat_capacity_ppi.py, total_energy_ppi.py, kinetic_energy_ppi.py, potential_energy_ppi.py, energy_ppi.py
    and the Fortran functions they call (tools/f90/fortran.f90). Numbers are reals; files are lists of frames and of header lines. *)
From Coq Require Import String Ascii List Reals Lra Lia Arith Bool.
From Verif Require Import RSum.
Import ListNotations.
Open Scope R_scope.

(** ** The estimators of one frame *)
Section Frame.
Variables (P N : nat) (m : nat -> R) (kb hbar T : R).
Definition table : Type := nat -> nat -> R.                       (* bead, coordinate *)
(** np.dot of two slices [i * 3 : i * 3 + 3] *)
Definition dot3 (a b : nat -> R) (i : nat) : R :=
  a (i * 3)%nat * b (i * 3)%nat + a (i * 3 + 1)%nat * b (i * 3 + 1)%nat + a (i * 3 + 2)%nat * b (i * 3 + 2)%nat.
Definition diff (a b : nat -> R) (c : nat) : R := a c - b c.
(** energies_ppi.py 106: beta *)
Definition beta : R := 1 / (kb * T).
(** 107-112: const_1 .. const_6 *)
Definition const_1 : R := 5 / 10 * INR P / (beta * hbar) ^ 2.
Definition const_2 : R := 15 / 10 * INR P / beta.
Definition const_3 : R := 15 / 10 / beta.
Definition const_4 : R := kb ^ 2 / hbar ^ 2.
Definition const_5 : R := hbar ^ 2 * beta ^ 3 / (24 * INR P ^ 3).
Definition const_6 : R := hbar ^ 2 * beta ^ 2 / (24 * INR P ^ 3).
(** 163-169: f2 *)
Definition f2_slow (f : table) : R := Rsum P (fun j => Rsum N (fun i => dot3 (f j) (f j) i / m i)).
(** 170-187, 200-201: KPa; the ring is closed first, then the bonds in order *)
Definition KPa_slow (q : table) : R :=
  (0 - Rsum N (fun i => dot3 (diff (q 0%nat) (q (P - 1)%nat)) (diff (q 0%nat) (q (P - 1)%nat)) i * m i)
     - Rsum (P - 1) (fun j => Rsum N (fun i => dot3 (diff (q (S j)) (q j)) (diff (q (S j)) (q j)) i * m i))) * const_1
  + const_2 * INR N.
(** 188-198, 202-203: KVir *)
Definition rc (q : table) (c : nat) : R := Rsum P (fun j => q j c) / INR P.
Definition KVir_slow (q f : table) : R :=
  Rsum N (fun i => Rsum P (fun j => dot3 (diff (rc q) (q j)) (f j) i)) / (2 * INR P) + const_3 * INR N.

(** fortran.f90 1-27 F2divM *)
Definition F2divM (f : table) : R :=
  Rsum P (fun b => Rsum N (fun i =>
    (f b (3 * S i - 3)%nat * f b (3 * S i - 3)%nat + f b (3 * S i - 2)%nat * f b (3 * S i - 2)%nat + f b (3 * S i - 1)%nat * f b (3 * S i - 1)%nat) / m i)).
(** 32-70 findCentroidVirialKineticEnergy: first argument [atxyz], second [fatxyz] *)
Definition xc (x : table) (c : nat) : R := Rsum P (fun b => x b c) / INR P.
Definition find_virial (atxyz fatxyz : table) : R :=
  Rsum N (fun i => Rsum 3 (fun k => Rsum P (fun b =>
    (xc atxyz (k + 3 * i)%nat - atxyz b (k + 3 * i)%nat) * fatxyz b (k + 3 * i)%nat))) / (2 * INR P).
(** 75-107 findCoupling *)
Definition sq3 (x : table) (b b' i : nat) : R :=
  (x b (3 * i)%nat - x b' (3 * i)%nat) ^ 2 + (x b (3 * i + 1)%nat - x b' (3 * i + 1)%nat) ^ 2 + (x b (3 * i + 2)%nat - x b' (3 * i + 2)%nat) ^ 2.
Definition find_coupling (x : table) : R :=
  - Rsum N (fun i => (Rsum (P - 1) (fun b => sq3 x b (S b) i) + sq3 x (P - 1)%nat 0%nat i) * m i) * (5 / 10) * INR P * T ^ 2.
(** energies_ppi.py 205-224: the branch with the compiled module; the virial gets the forces first *)
Definition KPa_fast (q : table) : R := find_coupling q * const_4 + const_2 * INR N.
Definition KVir_fast (q f : table) : R := find_virial f q + const_3 * INR N.

(** ** The loop of energies_ppi.py *)
Record frame := mkfr { ft : R; fU : R; f2 : R; fKPa : R; fKVir : R }.
(** 127-141 and 161-224: the quantities of a frame as read from the files *)
Definition frame_of (fast : bool) (time U : R) (q f : table) : frame :=
  if fast then mkfr time U (F2divM f) (KPa_fast q) (KVir_fast q f) else mkfr time U (f2_slow f) (KPa_slow q) (KVir_slow q f).

Record sums := mksums { ifr : nat; time0 : R; f2_av : R; KPa_av : R; f2KPa_av : R; U_av : R; f2U_av : R; KVir_av : R; E2_av : R; f2E2_av : R }.
Definition sums0 : sums := mksums 0 0 0 0 0 0 0 0 0 0.
(** 226-231 (energies_ppi), 201-208 (heat_capacity_ppi) *)
Definition add (s : sums) (x : frame) : sums :=
  mksums (S (ifr s)) (time0 s) (f2_av s + f2 x) (KPa_av s + fKPa x) (f2KPa_av s + f2 x * fKPa x) (U_av s + fU x) (f2U_av s + f2 x * fU x)
    (KVir_av s + fKVir x) (E2_av s + (fKPa x + fU x) ^ 2) (f2E2_av s + f2 x * (fKPa x + fU x) ^ 2).
(** 154-159 and 274-275 *)
Definition step {A} (skip : nat) (out : sums -> R -> A) (s : sums) (x : frame) : sums * list A :=
  if (ifr s <? skip)%nat
  then (mksums (S (ifr s)) (ft x) (f2_av s) (KPa_av s) (f2KPa_av s) (U_av s) (f2U_av s) (KVir_av s) (E2_av s) (f2E2_av s), [])
  else let s' := add s x in (s', [out s' (ft x - time0 s)]).
Fixpoint run {A} (skip : nat) (out : sums -> R -> A) (s : sums) (l : list frame) : list A :=
  match l with [] => [] | x :: l' => let (s', o) := step skip out s x in o ++ run skip out s' l' end.
Definition norm (skip : nat) (s : sums) : R := INR (ifr s - skip).

(** 235-237 dU, 239-243 dK (before the conversion of units) *)
Definition dU (n : R) (s : sums) : R := (2 * f2_av s / n - beta * (f2U_av s / n - f2_av s * U_av s / n ^ 2)) * const_6.
Definition dK (n : R) (s : sums) : R := ((kb * T + KPa_av s / n) * f2_av s / n - f2KPa_av s / n) * const_5.
(** 245-268: the ten columns; [user] is unit_to_user("energy", unit, .) *)
Definition columns (user : R -> R) (skip : nat) (s : sums) (time : R) : list R :=
  let n := norm skip s in
  let du := user (dU n s) in let dk := user (dK n s) in let u := user (U_av s / n) in let kv := user (KVir_av s / n) in
  [time; kv + u + dk + du; kv + u; dk + du; u + du; u; du; kv + dk; kv; dk].
Definition energies (user : R -> R) (skip : nat) (l : list frame) : list (list R) := run skip (columns user skip) sums0 l.

(** ** heat_capacity_ppi.py *)
(** 216-217: this tool's dK *)
Definition dK_heat (n : R) (s : sums) : R := (f2_av s / n - beta * (f2KPa_av s / n - f2_av s * KPa_av s / n ^ 2)) * const_6.
(** 219-225 *)
Definition heat (n : R) (s : sums) : R :=
  (E2_av s / n - ((KPa_av s + U_av s) / n) ^ 2 + (2 / beta) * KPa_av s / n - 15 / 10 * INR P * INR N / beta ^ 2) * (kb * beta ^ 2).
(** 227-236 *)
Definition dheat (n : R) (s : sums) : R :=
  2 * (5 + 3 * beta * (KPa_av s + U_av s) / n) * beta * f2_av s * const_6 / n
  - 2 * (3 + beta * (KPa_av s + U_av s) / n) * beta * (dK_heat n s + dU n s)
  + 2 * beta * dK_heat n s - const_6 * (f2E2_av s / n - f2_av s * E2_av s / n ^ 2) * beta ^ 3.
(** 238-240: the four columns *)
Definition heat_columns (skip : nat) (s : sums) (time : R) : list R :=
  let n := norm skip s in [time; heat n s + dheat n s; heat n s; dheat n s].
Definition heat_capacity (skip : nat) (l : list frame) : list (list R) := run skip (heat_columns skip) sums0 l.

(** ** total_energy_ppi.py 186-190, 221-224 (energy_ppi.py 170-175 alike) *)
Definition dE_total (l : list frame) : R :=
  let n := INR (List.length l) in
  ((3 * kb * T + Rsuml (map (fun x => fKPa x + fU x) l) / n) * Rsuml (map f2 l) / n - Rsuml (map (fun x => f2 x * (fKPa x + fU x)) l) / n) * const_5.
End Frame.

(** ** extractUnits and read_U (energies_ppi.py 278-350) *)
Definition lower (a : ascii) : bool := let n := nat_of_ascii a in ((97 <=? n) && (n <=? 122))%nat.
(** [a-z]* followed by a closing brace *)
Fixpoint unit_at (s : string) : option string :=
  match s with
  | String a s' => if lower a then option_map (String a) (unit_at s') else if Ascii.eqb a "}"%char then Some ""%string else None
  | EmptyString => None
  end.
Fixpoint strip (p s : string) : option string :=
  match p, s with
  | EmptyString, _ => Some s
  | String a p', String b s' => if Ascii.eqb a b then strip p' s' else None
  | String _ _, EmptyString => None
  end.
Definition here (name s : string) : option string :=
  match strip (name ++ "{") s with Some r => unit_at r | None => None end.
(** re.search of name\{[a-z]*\}, reduced to the unit between the braces *)
Fixpoint search (name s : string) : option string :=
  match here name s with
  | Some u => Some u
  | None => match s with String _ s' => search name s' | EmptyString => None end
  end.
(** 310-321: the last header line that matches gives unit and index *)
Fixpoint last_match (name : string) (i : nat) (found : option (string * nat)) (l : list string) : option (string * nat) :=
  match l with
  | [] => found
  | s :: l' => last_match name (S i) (match search name s with Some u => Some (u, i) | None => found end) l'
  end.
(** 323-327: [None] is sys.exit(1); otherwise timeUnit, potentialEnergyUnit, potentialEnergy_index, time_index *)
Definition extract_units (header : list string) : option (string * string * nat * nat) :=
  match last_match "time" 0 None header, last_match "potential" 0 None header with
  | Some (t, ti), Some (u, ui) => Some (t, u, ui, ti)
  | _, _ => None
  end.
(** 330-350: the values taken from a data line; [None] when the line is too short *)
Definition read_U {A} (ui ti : nat) (line : list A) : option (A * A) :=
  match nth_error line ui, nth_error line ti with Some u, Some t => Some (u, t) | _, _ => None end.

(** PropertyOutput.print_header (ipi/engine/outputs.py 232-258): one line per property of the list; a property is its text, the
    number of its columns and its help. The column numbers are left out. PropertyOutput.write puts the values of all of them on a line. *)
Record prop := mkprop { what : string; size : nat; help : string }.
Definition header_line (p : prop) : string :=
  ("# " ++ (if (size p =? 1)%nat then "column        " else "cols.         ") ++ " --> " ++ what p ++ " : " ++ help p)%string.
Definition header (l : list prop) : list string := map header_line l.

(** ** Calls of read_file (ipi/utils/io/__init__.py 310-336) *)
Definition read_file_parameters : list string := ["mode"; "filedesc"; "dimension"; "units"; "cell_units"]%string.
(** io_units.py 131: the keys of what it returns *)
Definition read_file_keys : list string := ["atoms"; "cell"; "comment"]%string.
Definition in_names (l : list string) (x : string) : bool := existsb (String.eqb x) l.
(** a tool is what it names in its calls and what it takes from the answer *)
Record tool := mktool { tname : string; keywords : list string; taken : list string }.
Definition tools : list tool :=
  [ mktool "energies_ppi" ["dimension"] ["atoms"]; mktool "heat_capacity_ppi" ["dimension"] ["atoms"];
    mktool "total_energy_ppi" ["output"] ["data"; "masses"]; mktool "kinetic_energy_ppi" ["output"] ["data"; "masses"];
    mktool "potential_energy_ppi" ["output"] ["data"; "masses"]; mktool "energy_ppi" [] ["masses"; "units"; "atoms"] ]%string.
(** a call with an unknown keyword is a TypeError, a missing key a KeyError *)
Definition reads_frames (t : tool) : bool := forallb (in_names read_file_parameters) (keywords t) && forallb (in_names read_file_keys) (taken t).
