(** * Model of the instanton post-processing tools

    ipi/utils/tools/instanton_postproc.py and ipi/utils/tools/instanton_interpolation.py.  Floating
    point numbers are real numbers, lengths and energies are in atomic units.  [q b c] is coordinate
    [c] of bead [b]; in a flat matrix it has the index [b * dof + c].  Reading the checkpoint, the
    printed text and the diagonalisation (a list of eigenvalues) are not modelled here; the matrix
    that is diagonalised and the modes that are deleted are those of HessModel. *)
From Coq Require Import List Arith Lia Reals Lra Bool String.
From Verif Require Import RSum NMModel InstFix InstModel.
Import ListNotations.
Open Scope list_scope.
Open Scope R_scope.

(** instanton_postproc.py:18-19: Constants.kb and Constants.hbar are 1. *)
Definition kb : R := 1.
Definition hbar : R := 1.

(** ** The full ring from its half *)
(** get_double, lines 27-32: positions. *)
Definition double_q (n0 : nat) (q : mat) : mat := fun b c => if (b <? n0)%nat then q b c else q (n0 - 1 - (b - n0))%nat c.
(** get_double, lines 33-44: the first block is h0, then one block for each bead. *)
Definition set_block (dof i j : nat) (B : mat) (h : mat) : mat := fun r s =>
  if ((r / dof =? i) && (s / dof =? j))%nat then B (r mod dof)%nat (s mod dof)%nat else h r s.
Definition double_h (dof n0 : nat) (h0 : mat) : mat :=
  let iii := (dof * n0)%nat in
  let h := fun r s => if ((r <? iii) && (s <? iii))%nat then h0 r s else 0 in
  fold_left (fun h i => let y := (n0 - 1 - i)%nat in
               set_block dof (i + n0) (i + n0) (fun c c' => h0 (y * dof + c)%nat (y * dof + c')%nat) h) (seq 0 n0) h.
(** spring_pot, lines 47-52: bonds between successive beads. *)
Definition spring_pot (dof n : nat) (q : mat) (omega2 : R) (m3 : vec) : R :=
  Rsum (n - 1) (fun i => omega2 * / 2 * Rsum dof (fun c => m3 c * (q (i + 1)%nat c - q i c) * (q (i + 1)%nat c - q i c))).

(** ** Filter, lines 55-67: np.delete drops the listed positions, repeated or not *)
Definition delete {A} (l : list A) (filt : list nat) : list A :=
  map snd (filter (fun p => negb (existsb (Nat.eqb (fst p)) filt)) (combine (seq 0 (List.length l)) l)).
Definition filter_atoms {A} (m : list A) (natoms : nat) (filt : list nat) : list A * nat := (delete m filt, (natoms - List.length filt)%nat).

(** ** get_rp_freq, lines 70-117 *)
Definition betaP (n : nat) (T : R) : R := 1 / (kb * INR n * T).
Definition is_zero (x : R) : bool := if Req_EM_T x 0 then true else false.
Definition any_negative (w : list R) : bool := existsb (fun x => if Rlt_dec x 0 then true else false) w.
(** mode "rate": the sum of the logarithms.  The smallest of no numbers raises ValueError. *)
Definition rate_arg (n : nat) (T w0 : R) (k : nat) : R :=
  betaP n T * hbar * sqrt (4 / (betaP n T * hbar) ^ 2 * sin (INR k * PI / INR n) ^ 2 + w0).
Definition rate_mode (n : nat) (T w0 : R) : R := Rsum n (fun k => if (is_zero w0 && (k =? 0)%nat)%bool then 0 else ln (rate_arg n T w0 k)).
Definition rp_freq_rate (w0 : list R) (n : nat) (T : R) : res R :=
  if (List.length w0 =? 0)%nat then ValueError else if any_negative w0 then Stop else Val (Rsuml (map (rate_mode n T) w0)).
(** mode "splitting": the frequencies. *)
Definition split_freq (n : nat) (T w0 : R) (k : nat) : R :=
  sqrt (4 / (betaP n T * hbar) ^ 2 * sin (INR (k + 1) * PI / (2 * INR n + 2)) ^ 2 + w0).
Definition rp_freq_splitting (w0 : list R) (n : nat) (T : R) : res (list R) :=
  if (List.length w0 =? 0)%nat then ValueError else if any_negative w0 then Stop
  else Val (flat_map (fun x => map (split_freq n T x) (seq 0 n)) w0).

(** ** instanton_compute *)
(** lines 149-168, 184-194, 230-234, 248-255 and 273-275: what is refused. [temp2] is the temperature of the
    checkpoint and [K] one kelvin; Stop is sys.exit. NotImplementedError is told apart. *)
Inductive refusal : Type := Bad_value | Not_implemented | Exit | Fine.
Definition checks (case asr mode : string) (T temp2 K : R) (nbeads nbeadsR : nat) (freq : bool) : refusal :=
  if negb (String.eqb case "reactant" || String.eqb case "TS" || String.eqb case "instanton") then Bad_value
  else if negb (String.eqb asr "poly" || String.eqb asr "linear" || String.eqb asr "crystal" || String.eqb asr "none") then Bad_value
  else if String.eqb asr "linear" then Not_implemented
  else if is_zero T then Bad_value
  else if (String.eqb case "reactant" && (nbeadsR =? 0)%nat)%bool then Exit
  else if (negb (String.eqb case "instanton") && (1 <? nbeads)%nat)%bool then Exit
  else if String.eqb case "instanton" then
    if Rlt_dec 2 (Rabs (T - temp2) / K) then Exit
    else if String.eqb mode "rate" then Fine
    else if String.eqb mode "splitting" then (if freq then Fine else Exit)
    else Exit
  else Fine.
(** lines 158-163 *)
Definition nzeros (asr : string) : nat := if String.eqb asr "poly" then 6 else if String.eqb asr "crystal" then 3 else 0.
(** lines 268-272: sum rules are dropped for the splitting. *)
Definition used_asr (case mode asr : string) : string :=
  if (String.eqb case "instanton" && String.eqb mode "splitting")%bool then "none"%string else asr.
(** save_frequencies, lines 120-130, called at line 299: zeros for the modes that were deleted, then
    the frequencies; [cm] is one inverse centimetre. *)
Definition sign (x : R) : R := if Rlt_dec x 0 then - 1 else if Rlt_dec 0 x then 1 else 0.
Definition save_frequencies (cm : R) (asr : string) (d : list R) : list R :=
  repeat 0 (nzeros asr) ++ map (fun x => sign x * sqrt (Rabs x) / cm) d.

(** lines 302-307, 325-330 and 353-359: translations and rotations; [x ** 1.5] for x >= 0. *)
Definition pow32 (x : R) : R := x * sqrt x.
Definition beta (T : R) : R := 1 / (kb * T).
Definition Qtras (m : list R) (T : R) : R := pow32 (Rsuml m / (2 * PI * beta T * hbar ^ 2)).
Definition Qrot (asr : string) (detI T : R) : R := if String.eqb asr "poly" then sqrt (8 * PI * detI / (hbar ^ 6 * beta T ^ 3)) else 1.
Definition Qrot_inst (asr : string) (quiet : bool) (detI : R) (n : nat) (T : R) : R :=
  if (String.eqb asr "poly" && negb quiet)%bool then sqrt (8 * PI * detI / (hbar ^ 6 * betaP n T ^ 3)) / INR n ^ 3 else 1.
(** hesstools.py:62-79: centre of mass and moment of inertia of [ii] atoms, for the product of its
    eigenvalues the determinant. *)
Definition com (ii : nat) (mm : vec) (r : mat) : vec := fun c => Rsum ii (fun k => r k c * mm k) / Rsum ii mm.
Definition moi (ii : nat) (mm : vec) (r : mat) : mat := fun a b =>
  let x := fun k c => r k c - com ii mm r c in
  Rsum ii (fun k => mm k * ((if (a =? b)%nat then x k 0%nat ^ 2 + x k 1%nat ^ 2 + x k 2%nat ^ 2 else 0) - x k a * x k b)).
Definition det3 (M : mat) : R :=
  M 0%nat 0%nat * (M 1%nat 1%nat * M 2%nat 2%nat - M 1%nat 2%nat * M 2%nat 1%nat)
  - M 0%nat 1%nat * (M 1%nat 0%nat * M 2%nat 2%nat - M 1%nat 2%nat * M 2%nat 0%nat)
  + M 0%nat 2%nat * (M 1%nat 0%nat * M 2%nat 1%nat - M 1%nat 1%nat * M 2%nat 0%nat).

(** Reactant, line 310: [nbeadsR] beads. *)
Definition reactant_logQvib (d : list R) (nbeadsR : nat) (T : R) : res R := bind (rp_freq_rate d nbeadsR T) (fun w => Val (- w)).
(** Reactant, lines 313-317: eigenvalues_reactant.dat. *)
Definition eigenvalues_file (asr : string) (d : list R) : list R := repeat 0 (nzeros asr) ++ d.
(** TS, lines 332-336: without the first mode; the energy. *)
Definition ts_logQvib (d : list R) (T : R) : R := - Rsuml (map (fun x => ln (2 * sinh (beta T * hbar * sqrt x / 2))) (skipn 1 d)).
Definition ts_energy (pots : list R) (V0 : R) : R := Rsuml pots - V0.
(** np.delete(d, 1) *)
Definition delete1 {A} (d : list A) : list A := firstn 1 d ++ skipn 2 d.
(** Instanton rate, lines 373-379: [n] is the number of beads of the full ring. *)
Definition inst_logQvib (asr : string) (d : list R) (n : nat) (T : R) : R :=
  - Rsuml (map (fun x => ln (betaP n T * hbar * sqrt (Rabs x))) (delete1 d)) + INR (nzeros asr) * ln (INR n) + ln (INR n).
(** lines 241 and 383-388: for a half path of [n0] beads. *)
Definition omega2 (n : nat) (T : R) : R := (T * INR n * kb / hbar) ^ 2.
Definition bonds (dof n0 : nat) (m3 : vec) (q : mat) : R := Rsum (n0 - 1) (fun i => Rsum dof (fun c => m3 c * (q (i + 1)%nat c - q i c) ^ 2)).
Definition rate_BN (dof n0 : nat) (m3 : vec) (q : mat) : R := 2 * bonds dof n0 m3 q.
Definition rate_action1 (n0 : nat) (T V0 : R) (pots : vec) : R :=
  let n := (2 * n0)%nat in (2 * Rsum n0 pots * 1 - INR n * V0) * 1 / (T * INR n * kb).
Definition rate_action2 (dof n0 : nat) (T : R) (m3 : vec) (q : mat) : R :=
  let n := (2 * n0)%nat in spring_pot dof n (double_q n0 q) (omega2 n T) m3 / (T * INR n * kb).
(** The Hessian that is diagonalised, lines 237-246. *)
Definition rate_hessian (dof n0 : nat) (T : R) (m3 : vec) (h : mat) : res mat :=
  let n := (2 * n0)%nat in
  let hessian := double_h dof n0 (red2comp dof n0 (repeat 1 (n0 + 1)) h) in
  bind (spring_hessian dof n m3 (omega2 n T) "full" (repeat 1 (n + 1))) (fun s => Val (fun r c => hessian r c + s r c)).

(** Splitting, lines 422-433: the first line of the file is split in words and turned into numbers;
    [None] is a word that is not a number.  A line that is too short raises IndexError. *)
Fixpoint read_numbers (dof : nat) (words : list (option R)) : option (list R) :=
  match dof, words with
  | O, _ => Some []
  | S k, Some x :: l => option_map (cons x) (read_numbers k l)
  | S _, _ => None
  end.
Definition react (dof : nat) (line : list (option R)) (n : nat) (T : R) : res R :=
  match read_numbers dof line with
  | None => ValueError
  | Some d_min => bind (rp_freq_splitting (map (fun d => sign d * d ^ 2) d_min) n T) (fun ww => Val (Rsuml (map ln ww)))
  end.
(** lines 435-458 *)
Definition split_action1 (n : nat) (T V0 : R) (pots : vec) : R := (Rsum n pots - INR n * V0) * 1 / (T * INR n * kb).
Definition split_action2 (dof n : nat) (T : R) (m3 : vec) (q : mat) : R := spring_pot dof n q (omega2 n T) m3 / (T * INR n * kb).
Definition split_BN (dof n : nat) (T : R) (m3 : vec) (q : mat) : R := bonds dof n m3 q / (hbar ^ 2 * betaP n T).
Definition split_phi (d : list R) (re : R) : R := exp (Rsuml (map (fun x => ln (sqrt (Rabs x))) (delete1 d)) - re).
Definition split_element (n : nat) (T action phi : R) : R :=
  let tetaphi := betaP n T * hbar * sqrt (action / (2 * hbar * PI)) * exp (- action / hbar) in
  - (tetaphi / phi) / betaP n T.

(** ** instanton_interpolation.py *)
(** lines 78-80: [n] and [n'] beads of half the ring.  There are no open paths. *)
Definition interpolated_ring (n n' : nat) (q : mat) : mat := rescale_b1tob2 (2 * n) (2 * n') [] true (double_q n q).
Definition new_path (n n' : nat) (q : mat) : mat := fun b c => interpolated_ring n n' q b c.
(** lines 157-177: each entry of the Hessian along the ring; [h] has the columns of all beads one
    after another and so has the result. *)
Definition new_hessian (dof n n' : nat) (h : mat) : mat := fun i col =>
  let j := (col mod dof)%nat in
  rescale_b1tob2 (2 * n) (2 * n') [] false (double_q n (fun b _ => h i (j + dof * b)%nat)) (col / dof)%nat 0%nat.
