(** * Model of the dynamics driven by an electric field (ipi/engine/motion/driven_dynamics.py)

    Floating point numbers are real numbers, [None] as the width of the envelope is infinity, [None]
    as a number of a dipole is NaN.  The momenta, positions, constraints and the plain step are
    those of area MTS. *)
From Coq Require Import List Arith Lia Reals Lra Bool String.
From Verif Require Import RSum NMModel SpringModel MTSModel.
Import ListNotations.
Open Scope list_scope.
Open Scope R_scope.

Inductive res (A : Type) : Type := Val (a : A) | ValueError | IndexError.
Arguments Val {A} _.
Arguments ValueError {A}.
Arguments IndexError {A}.
Definition bind {A B} (x : res A) (f : A -> res B) : res B := match x with Val a => f a | ValueError => ValueError | IndexError => IndexError end.

(** ** ElectricField, lines 397-466 *)
Record efield : Type := EField { amp : nat -> R; freq : R; phase : R; peak : R; sigma : option R; enabled : bool }.
(** _Eenvelope_is_on, lines 443-444 *)
Definition envelope_on (e : efield) : bool :=
  if Rlt_dec 0 (peak e) then match sigma e with Some _ => true | None => false end else false.
(** Eenvelope, lines 446-456 *)
Definition envelope (e : efield) (t : R) : R :=
  if envelope_on e then match sigma e with Some s => exp (- (1 / 2) * ((t - peak e) / s) ^ 2) | None => 1 end else 1.
(** _get_Ecos, lines 458-460 *)
Definition ecos (e : efield) (t : R) : R := cos (freq e * t + phase e).
(** Efield, lines 428-441: one time, and a list of times. *)
Definition efield_at (e : efield) (t : R) : nat -> R :=
  if enabled e then fun k => ecos e t * envelope e t * amp e k else fun _ => 0.
Definition efield_list (e : efield) (ts : list R) : list (nat -> R) :=
  if enabled e then map (fun x k => x * amp e k) (map (fun t => ecos e t * envelope e t) ts) else map (fun _ _ => 0) (seq 0 (List.length ts)).
(** ElectricField.bind, lines 414-417 with the list DrivenDynamics.driven_integrators. *)
Definition field_enabled (enstype : string) : bool := (String.eqb enstype "eda-nve" || String.eqb enstype "eda-nvt")%bool.

(** ** EDAIntegrator, lines 95-157; Constants.e is 1 (units.py:35). *)
Definition qe : R := 1.
Definition tensor := nat -> nat -> nat -> R.
(** EDAforces, lines 130-135 *)
Definition eda_forces (Z : tensor) (E : nat -> R) : mat := fun b c => Rsum 3 (fun k => qe * Z b c k * E k).
(** dipole_dtime, lines 137-156, of one bead. *)
Definition dipole_dtime (n3 : nat) (Z : tensor) (p : mat) (m : nat -> R) (b k : nat) : R := qe * Rsum n3 (fun c => Z b c k * (p b c / m c)).
(** td_pstep, lines 111-128: all momenta are kicked, then the constraints; [bec] gives the charges
    at the positions (lines 220-226: computed again whenever the positions change). *)
Definition td_pstep (y : sys) (bec : mat -> tensor) (E : R -> nat -> R) (time : R) (level : nat) (s : st) : res st :=
  if negb (level =? 0)%nat then ValueError
  else
    let f := eda_forces (bec (sq s)) (E time) in
    let h := nth level (get_pdt (tstep_dt y) (nmts y)) 0 in
    Val (pconstraints y (mkSt (fun b c => sp s b c + f b c * h) (sq s) (eens s))).
(** EDANVEIntegrator.step and EDANVTIntegrator.step, lines 162-185; [mid] is the plain step of the
    parent class.  The time of the ensemble is increased by Dynamics.step (dynamics.py:240-244). *)
Definition driven_step (y : sys) (bec : mat -> tensor) (E : R -> nat -> R) (mid : st -> st) (x : R * st) : res (R * st) :=
  let time := fst x in
  bind (td_pstep y bec E time 0 (snd x)) (fun s1 =>
  let s2 := mid s1 in
  let time2 := time + tstep_dt y in
  bind (td_pstep y bec E time2 0 s2) (fun s3 => Val (fst x + tstep_dt y, s3))).
Fixpoint driven_steps (k : nat) (y : sys) (bec : mat -> tensor) (E : R -> nat -> R) (mid : st -> st) (x : R * st) : res (R * st) :=
  match k with O => Val x | S k' => bind (driven_step y bec E mid x) (driven_steps k' y bec E mid) end.

(** ** Dynamics.bind, dynamics.py:204-233: the tests of the temperature. *)
Definition temperature_checked (enstype : string) (nbeads : nat) (temp : R) : bool :=
  let negative := if Rlt_dec temp 0 then true else false in
  negb ((String.eqb enstype "nvt" || String.eqb enstype "nvt-cc" || String.eqb enstype "npt" || String.eqb enstype "nst") && negative
        || (String.eqb enstype "nve" && (1 <? nbeads)%nat && negative))%bool.

(** ** BEC, lines 188-315 *)
(** What the driver sends for one bead: two numbers of rows and columns and the entries. *)
Record bec_array : Type := Bec { rows : nat; cols : nat; entry : nat -> nat -> R }.
Definition sum_rule (N : nat) (a : bec_array) (i k : nat) : R := Rsum N (fun j => entry a (3 * j + i)%nat k) / INR N.
Definition within (thr : R) (N : nat) (a : bec_array) : bool :=
  forallb (fun i => forallb (fun k => if Rle_dec (Rabs (sum_rule N a i k)) (thr * INR N) then true else false) (seq 0 3)) (seq 0 3).
(** _get_driver_BEC, lines 241-293; [extras] is forces.extras["BEC"], [None] when the key is missing. *)
Fixpoint driver_loop (N : nat) (thr : R) (l : list bec_array) (b : nat) (Z : tensor) : res tensor :=
  match l with
  | [] => Val Z
  | a :: l' =>
      if negb (rows a =? 3 * N)%nat then ValueError
      else if negb (cols a =? 3)%nat then ValueError
      else if negb (within thr N a) then ValueError
      else driver_loop N thr l' (S b) (fun b' c k => if (b' =? b)%nat then entry a c k else Z b' c k)
  end.
Definition get_driver_bec (P N : nat) (thr : R) (cbec : bool) (extras : option (list bec_array)) : res tensor :=
  if cbec then
    match extras with
    | None => ValueError
    | Some l => if (List.length l <? P)%nat then match driver_loop N thr l 0 (fun _ _ _ => 0) with Val _ => IndexError | e => e end
                else driver_loop N thr (firstn P l) 0 (fun _ _ _ => 0)
    end
  else ValueError.
(** _get_fixed_BEC, lines 295-312: reshape of the array of the input file. *)
Definition get_fixed_bec (P N : nat) (flat : list R) : res tensor :=
  if (List.length flat =? P * (3 * N) * 3)%nat then Val (fun b c k => nth ((b * (3 * N) + c) * 3 + k) flat 0) else ValueError.
(** What a checkpoint writes: the array flattened again. *)
Definition flatten (P N : nat) (Z : tensor) : list R :=
  flat_map (fun b => flat_map (fun c => map (fun k => Z b c k) (seq 0 3)) (seq 0 (3 * N))) (seq 0 P).

(** ** ElectricDipole._get_dipole, lines 343-391.  The parts of forces.extras; [contains] tells of a
    text whether it has the words, [numbers] how many numbers are found in it.  In the branch of the
    texts the product of a number and an array of strings raises TypeError; every exception ends in
    the array of NaN. *)
Inductive outcome (A : Type) : Type := Good (a : A) | Raised.
Arguments Good {A} _.
Arguments Raised {A}.
Definition nan_dipole : nat -> nat -> option R := fun _ _ => None.
Definition times_strings : outcome (nat -> option R) := Raised.
Definition from_key (P : nat) (l : list (list R)) : outcome (nat -> nat -> option R) :=
  if (List.length l <? P)%nat then Raised
  else if forallb (fun v => (List.length v =? 3)%nat) (firstn P l)
       then Good (fun n k => if (n <? P)%nat then nth_error (nth n l []) k else None) else Raised.
Definition from_text (contains : string -> bool) (numbers : string -> nat) (P : nat) (raws : list string) : outcome (nat -> nat -> option R) :=
  if forallb contains raws then
    if (List.length raws <? P)%nat then Raised
    else match raws with
         | [] => Raised
         | raw :: _ =>
             if negb (numbers raw =? 3)%nat then Raised
             else match times_strings with
                  | Good v => Good (fun n k => if (n =? 0)%nat then v k else None)
                  | Raised => Raised end
         end
  else Raised.
Definition get_dipole (contains : string -> bool) (numbers : string -> nat) (P : nat) (key : option (list (list R))) (raw : option (list string)) : nat -> nat -> option R :=
  match (match key with
         | Some l => from_key P l
         | None => match raw with None => Raised | Some raws => from_text contains numbers P raws end
         end) with Good d => d | Raised => nan_dipole end.
