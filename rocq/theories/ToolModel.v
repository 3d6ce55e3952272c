(** * Post-processing tools: tools/py/{contract-trajectory, mux-positions, posforce2kinetic, kinetic2tag, fixcom,
      effective_temperatures, getproperty}.py

    Floats are reals. Files are lists of frames or of lines; opening them, progress messages and command lines are left out. *)
From Coq Require Import String Ascii List Reals Arith Bool ZArith.
From Verif Require Import RSum NMModel TextLib UnitModel AutoModel.
Import ListNotations.
Open Scope R_scope.

(** ** contract-trajectory.py 31-137, with the units "automatic" *)
(** One frame of [n] files, contracted to [n_new]: [comment] and cell length [h] of the first file, numbers [q] of the files, all
    as read (iter_file_name_raw, no conversion). 76-80: units of the first comment; 104-106: numbers to internal units; 99: the cell as read;
    112-122: print_file with the same units and no key. [None]: an exception from the units. *)
Definition contract_frame (comment : text) (n n_new : nat) (q : nat -> nat -> R) (h : R) : option (text * (nat -> nat -> R) * R) :=
  match auto_units comment with
  | None => None
  | Some (dim, units, cell) =>
    match unit_to_internal dim units 1, unit_to_user (tx "length") (chosen cell) 1, unit_to_user dim (chosen units) 1 with
    | Ok u, Ok cc, Ok ac =>
      let qc := rescale_b1tob2 n n_new [] true (fun b c => q b c * u) in
      Some (label [] (chosen units) (chosen cell), (fun b c => qc b c * ac), h * cc)
    | _, _, _ => None
    end
  end.

(** ** mux-positions.py *)
Section Mux.
Variable F : Type.
(** 60-94: one frame of every trajectory, printed as it is read when [out]; [None] when one of them is at its end. *)
Fixpoint mux_round (out : bool) (trjs : list (list F)) : list F * option (list (list F)) :=
  match trjs with
  | [] => ([], Some [])
  | [] :: _ => ([], None)
  | (x :: t) :: trjs => let (o, r) := mux_round out trjs in ((if out then [x] else []) ++ o, option_map (cons t) r)
  end.
(** 51-102 without wrap and unwrap; [last] = None is --end -1. *)
Fixpoint mux (fuel i first : nat) (last : option nat) (stride : nat) (trjs : list (list F)) : list F :=
  match fuel with
  | O => []
  | S fuel =>
    if match last with Some e => Nat.leb e i | None => false end then []
    else let out := Nat.leb first i && Nat.eqb (i mod stride) 0 in
         let (o, r) := mux_round out trjs in
         o ++ match r with Some trjs => mux fuel (S i) first last stride trjs | None => [] end
  end.
End Mux.
(** 112-141: pos.shape = (len(pos) / 3, 3); the quotient is a float, and numpy raises TypeError. 124-125 returns before that when
    there is no previous frame. *)
Definition wrap_positions {A} (frame : A) : option A := None.
Definition unwrap_positions {A} (frame : A) (last : option A) : option A := match last with None => Some frame | Some _ => None end.

(** ** posforce2kinetic.py 94-115: [kcv i k] for the arrays q, f of a frame; [kb temp] as used there *)
Definition centroid (nb : nat) (q : nat -> nat -> R) (c : nat) : R := Rsum nb (fun b => q b c) / INR nb.
Definition tool_kcv (nb : nat) (kb temp : R) (q f : nat -> nat -> R) (i k : nat) : R :=
  let d b a := q b (3 * i + a)%nat - centroid nb q (3 * i + a) in
  let g b a := f b (3 * i + a)%nat in
  match k with
  | 0%nat => Rsum nb (fun b => d b 0%nat * g b 0%nat) * (- (1 / 2) / INR nb) + 1 / 2 * kb * temp
  | 1%nat => Rsum nb (fun b => d b 1%nat * g b 1%nat) * (- (1 / 2) / INR nb) + 1 / 2 * kb * temp
  | 2%nat => Rsum nb (fun b => d b 2%nat * g b 2%nat) * (- (1 / 2) / INR nb) + 1 / 2 * kb * temp
  | 3%nat => Rsum nb (fun b => d b 0%nat * g b 1%nat + d b 1%nat * g b 0%nat) * (- (1 / 2) / INR nb) * (1 / 2)
  | 4%nat => Rsum nb (fun b => d b 0%nat * g b 2%nat + d b 2%nat * g b 0%nat) * (- (1 / 2) / INR nb) * (1 / 2)
  | _ => Rsum nb (fun b => d b 1%nat * g b 2%nat + d b 2%nat * g b 1%nat) * (- (1 / 2) / INR nb) * (1 / 2)
  end.

(** ** kinetic2tag.py *)
(** 41-45: natoms = len(kin) / 3 is a float, for which np.zeros raises TypeError. *)
Definition tag_arrays (len : nat) : option nat := None.
(** 33, 61: the circular buffer of 2 lag + 1 frames *)
Definition tag_store {A} (cbuf : nat) (buf : nat -> A) (ifr : nat) (x : A) : nat -> A :=
  fun p => if Nat.eqb p (ifr mod cbuf) then x else buf p.
Fixpoint tag_fill {A} (cbuf : nat) (buf : nat -> A) (k : nat -> A) (n : nat) : nat -> A :=
  match n with O => buf | S n => tag_store cbuf (tag_fill cbuf buf k n) n (k n) end.
(** 67: weights *)
Definition tag_w (lag j : nat) : R := 1 - Rabs (INR j - INR lag) / INR lag.
(** 62-70: the mean written for the frame ifr - lag, after the frames 0..ifr were stored *)
Definition tag_mean (lag : nat) (buf : nat -> R) (ifr : nat) : R :=
  Rsum (2 * lag + 1) (fun j => tag_w lag j * buf ((ifr - j) mod (2 * lag + 1))%nat) * (1 / Rsum (2 * lag + 1) (tag_w lag)).

(** ** fixcom.py *)
Section Fixcom.
(** beads, atoms *)
Variables (nb na : nat).
(** positions (bead, coordinate) and masses (bead, atom) of a frame *)
Definition cframe : Type := (nat -> nat -> R) * (nat -> nat -> R).
(** atoms.q, atoms.m *)
Definition acc : Type := (nat -> R) * (nat -> R).
(** 46-79: one frame; the sums start from what [a] holds and are set to zero at the end. *)
Definition fix_frame (a : acc) (fr : cframe) : acc * (nat -> nat -> R) :=
  let '(aq, am) := a in
  let '(q, m) := fr in
  let cq := fun c => (aq c + Rsum nb (fun b => q b c)) / INR nb in
  let cm := fun i => (am i + Rsum nb (fun b => m b i)) / INR nb in
  let com := fun k => Rsum na (fun i => cm i * cq (3 * i + k)%nat) / Rsum na cm in
  ((fun _ => 0, fun _ => 0), fun b c => q b c - com (c mod 3)%nat).
Fixpoint fix_run (a : acc) (l : list cframe) : list (nat -> nat -> R) :=
  match l with [] => [] | fr :: l => let (a, o) := fix_frame a fr in o :: fix_run a l end.
Definition fixcom (l : list cframe) : list (nat -> nat -> R) := fix_run (fun _ => 0, fun _ => 0) l.
End Fixcom.

(** ** effective_temperatures.py *)
Section Eff.
Variables (hbar kb T : R) (nb : nat) (m : nat -> R).
(** 67: const *)
Definition eff_const : R := hbar ^ 2 / (12 * (INR nb * kb * T) ^ 3).
(** 93-97: f2 of a frame [f] (bead, coordinate) *)
Definition eff_f2 (f : nat -> nat -> R) (c : nat) : R := Rsum nb (fun j => f j c ^ 2 / m (c / 3)%nat).
(** 92-102: the sums over the frames from number [skip] on *)
Definition eff_sum (skip : nat) (l : list (nat -> nat -> R)) (c : nat) : R := Rsuml (map (fun f => eff_f2 f c) (skipn skip l)).
(** 104: dT; ifr - skipSteps is an integer that may be negative *)
Definition eff_dT (skip : nat) (l : list (nat -> nat -> R)) (c : nat) : R :=
  eff_const * eff_sum skip l c / (INR (List.length l) - INR skip).
(** 108-118 *)
Definition eff_T (skip : nat) (l : list (nat -> nat -> R)) (c : nat) : R := T * (1 + eff_dT skip l c).
Definition eff_avg (skip : nat) (l : list (nat -> nat -> R)) (i : nat) : R :=
  T * (1 + (eff_dT skip l (3 * i) + eff_dT skip l (3 * i + 1) + eff_dT skip l (3 * i + 2)) / 3).
End Eff.

(** ** getproperty.py *)
Definition digit (a : ascii) : bool := let n := nat_of_ascii a in ((48 <=? n) && (n <=? 57))%nat.
Definition sp : ascii := " "%char.
Fixpoint takew (f : ascii -> bool) (l : text) : text :=
  match l with a :: r => if f a then a :: takew f r else [] | [] => [] end.
(** the pattern of line 26 (a blank, digits, blanks, an arrow, the name) at the beginning of a text: the group of digits. No character of [name] is special in a pattern. *)
Definition match_at (name : text) (s : text) : option text :=
  match s with
  | a :: r => if Ascii.eqb a sp then
                match pre (tx "--> " ++ name) (dropw (Ascii.eqb sp) (dropw digit r)) with
                | Some _ => Some (takew digit r)
                | None => None
                end
              else None
  | [] => None
  end.
(** search: the leftmost match *)
Fixpoint search_prop (name : text) (s : text) : option text :=
  match match_at name s with
  | Some g => Some g
  | None => match s with [] => None | _ :: r => search_prop name r end
  end.
(** int(...) of decimal digits; ValueError without any *)
Definition value (ds : text) : option nat :=
  match ds with [] => None | _ => Some (fold_left (fun n a => (10 * n + (nat_of_ascii a - 48))%nat) ds 0%nat) end.
Inductive pline := Comment (t : text) | Data (cols : list text).
Inductive ending := Finished | Multiple | Missing | Crashed.
(** 32-60; [icol] None is -1 *)
Fixpoint get_prop (name : text) (skip : nat) (icol : option nat) (step : nat) (l : list pline) : list text * ending :=
  match l with
  | [] => ([], Finished)
  | Comment t :: l =>
    match search_prop name t with
    | None => get_prop name skip icol step l
    | Some g => match icol with
                | Some _ => ([], Multiple)
                | None => match value g with
                          | None => ([], Crashed)
                          | Some O => get_prop name skip None step l
                          | Some (S k) => get_prop name skip (Some k) step l
                          end
                end
    end
  | Data cols :: l =>
    match icol with
    | None => ([], Missing)
    | Some k => if Nat.leb skip step then
                  match nth_error cols k with
                  | None => ([], Crashed)
                  | Some x => let (o, e) := get_prop name skip icol (S step) l in (x :: o, e)
                  end
                else get_prop name skip icol (S step) l
    end
  end.
