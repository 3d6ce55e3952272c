(** * Model of the anharmonic normal modes (ipi/engine/motion/vscf.py)

    Floating point numbers are real numbers; [None] for a frequency is numpy's nan. [n] is the number of
    degrees of freedom. Interpolation by scipy and numpy's eigh are arguments. Loops without bound carry
    a number of passages [fuel]; [None] is a loop still running after them. *)
From Coq Require Import List Arith ZArith Lia Bool Reals Lra.
From Verif Require Import RSum MinModel PhonModel.
Import ListNotations.
Open Scope R_scope.

(** ** Frequencies: IMF.bind 202-212 *)
Definition tiny2 : R := / 10 ^ 15.
(** Lines 206-207; the eigenvalues are in ascending order. *)
Definition zeroed (ev : vec) : vec := fun k => if Rlt_dec (Rabs (ev k)) tiny2 then 0 else ev k.
Definition nzero (n : nat) (ev : vec) : nat :=
  List.length (filter (fun k => if Rlt_dec (Rabs (ev k)) tiny2 then true else false) (seq 0 n)).
(** np.sqrt gives nan for a negative number. *)
Definition np_sqrt (x : R) : option R := if Rlt_dec x 0 then None else Some (sqrt x).
(** Lines 211-212. *)
Definition freq (n : nat) (ev : vec) (k : nat) : option R :=
  if Nat.ltb k (nzero n ev) then Some 0 else np_sqrt (zeroed ev k).
(** The 2 cm^-1 of lines 348 and 799. *)
Definition wmin : R := 91126705 / 10 ^ 13.
(** A comparison with nan is false. *)
Definition slow (w : option R) : bool := match w with Some x => if Rlt_dec x wmin then true else false | None => false end.

(** ** The sequence of modes: IMF.step 336-368 *)
(** State: the number of zero modes, the modes treated so far, and whether terminate was called. *)
Record imf := Imf { nz : nat; treated : list nat; ended : bool }.
Definition imf_step (n : nat) (w : nat -> option R) (s : imf) (step : nat) : imf :=
  if ended s then s
  else if Nat.eqb step n then Imf (nz s) (treated s) true
  else if Nat.ltb step (nz s) then s
  else if slow (w step) then Imf (S (nz s)) (treated s) false
  else Imf (nz s) (treated s ++ [step]) false.
Definition imf_run (n : nat) (ev : vec) (steps : nat) : imf :=
  fold_left (imf_step n (freq n ev)) (seq 0 steps) (Imf (nzero n ev) [] false).

(** ** Walking along a mode: lines 470-504, 512-545 *)
(** The counters visited from [c] on by steps of [d], the one at which the walk stops included. *)
Fixpoint walk (fuel : nat) (stop : Z -> bool) (d c : Z) : option (list Z) :=
  match fuel with
  | O => None
  | S fuel => if stop c then Some [c]
              else match walk fuel stop d (c + d) with None => None | Some l => Some (c :: l) end
  end.
(** Lines 456-459, 465-468. *)
Definition nmd (fnmrms nmrms : R) (it : nat) : R := fnmrms * (/ 2) ^ it * 2 * nmrms.
Definition dcount (it : nat) : Z := if Nat.eqb it 0 then 1 else 2.
Section Mode.
(** Potential and force of the simulated cell, which has [np] primitive cells; positions [q], mode [v] (a
    column of V), its eigenvalue [w2]. *)
Variables (n : nat) (pot : vec -> R) (frc : vec -> vec) (np : R) (q v : vec) (w2 : R).
Variables (fnmrms nmrms : R) (thr : R).   (* thr: nevib * nmevib *)
Definition at_ (a : R) (c : Z) : vec := fun i => q i + v i * a * sqrt np * IZR c.
(** Lines 432-436. *)
Definition v_0 : R := pot q / np.
Definition f_0 : R := dot n (frc q) v / np.
(** Lines 480-488. *)
Definition dv (a : R) (c : Z) : R := pot (at_ a c) / np - 1 / 2 * w2 * (a * IZR c) ^ 2 - v_0.
Definition df (a : R) (c : Z) : R := dot n (frc (at_ a c)) v / np + w2 * (a * IZR c).
(** Lines 498-501. *)
Definition stop (a : R) (c : Z) : bool := if Rlt_dec thr (Rabs (1 / 2 * w2 * (a * IZR c) ^ 2 + dv a c)) then true else false.
(** One passage of the loop of line 450: displacement, potential and force of the samples added. *)
Definition sample (a : R) (c : Z) : R * R * R := (a * IZR c, dv a c, df a c).
Definition density (fuel it : nat) : option (list (R * R * R)) :=
  let a := nmd fnmrms nmrms it in
  match walk fuel (stop a) (dcount it) 1, walk fuel (stop a) (- dcount it) (-1) with
  | Some p, Some m => Some (map (sample a) p ++ map (sample a) m)
  | _, _ => None
  end.
(** All samples of [its] passages, lines 441-444 first. *)
Fixpoint densities (fuel its : nat) : option (list (R * R * R)) :=
  match its with
  | O => Some [(0, 0, f_0)]
  | S its => match densities fuel its, density fuel its with Some l, Some l' => Some (l ++ l') | _, _ => None end
  end.
End Mode.

(** ** Convergence: lines 381-417, 444-446, 558-609 *)
(** [A i] is the free energy of passage [i]; the one it is compared with at first is 1e-20. The last passage
    and its value. *)
Definition first_A : R := / 10 ^ 20.
Fixpoint converge (fuel : nat) (A : nat -> R) (m athresh prev : R) (i : nat) : option (nat * R) :=
  match fuel with
  | O => None
  | S fuel => if Rlt_dec (Rabs (A i - prev) / m) athresh then Some (i, A i) else converge fuel A m athresh (A i) (S i)
  end.
(** Size of the basis of passage [i]: line 567, and lines 390-391 when the samples are read from a file. *)
Definition basis_new (nbasis i : nat) : nat := (Nat.max 1 (nbasis - 5) + 5 * i)%nat.
Definition basis_read (nbasis i : nat) : nat := (nbasis + 5 * i)%nat.

(** Line 437, in the branch without file only; zero before (line 276). [read k] tells whether the samples of mode
    [k] come from a file, [v0] is the potential at the minimum. terminate prints the offset (line 689). *)
Definition offset (read : nat -> bool) (ms : list nat) (v0 : R) : R := fold_left (fun o k => if read k then o else v0) ms 0.

(** ** The Schroedinger equation: solve_schroedingers_equation 303-334 *)
Section Schroedinger.
Variables (nb ng : nat) (hw T : R) (psi : nat -> nat -> R) (vg : nat -> R).
(** Lines 314-318: the upper triangle, the diagonal halved; line 319 adds the transpose. *)
Definition upper : mat := fun i j =>
  if Nat.ltb j i then 0
  else let e := Rsum ng (fun g => psi i g * psi j g * vg g) in
       if Nat.eqb i j then e * (1 / 2) + 1 / 2 * (INR i + 1 / 2) * hw else e.
Definition hmat : mat := fun i j => upper i j + upper j i.
(** Lines 325-328. *)
Definition partition (e : vec) : R := Rsum nb (fun k => exp (- 1 * e k / T)).
Definition free (e : vec) : R := - ln (partition e) * T.
Definition internal (e : vec) : R := Rsum nb (fun k => e k * exp (- 1 * e k / T)) / partition e.
(** Lines 637-664: the same sums for the harmonic oscillator. *)
Definition har (k : nat) : R := hw * (1 / 2 + INR k).
End Schroedinger.
(** Lines 572-576: normalisation of the functions on the grid. *)
Definition normalised (ng : nat) (f : nat -> R) : nat -> R := fun g => f g / sqrt (Rsum ng (fun g => f g * f g)).
(** terminate, lines 692-708: free energy of one mode printed as harmonic. *)
Definition har_printed (w T : R) : R := 1 / 2 * w + T * ln (1 - exp (- w / T)).

(** ** VSCF: modes and pairs, lines 790-844 *)
(** Lines 797-810. *)
Definition modes (n : nat) (w : nat -> option R) : list nat := filter (fun k => negb (slow (w k))) (seq 0 n).
(** Lines 790-794: np.loadtxt of a file with one number gives a scalar, whose tolist has no length: [None]. *)
Definition modes_read (file : list nat) : option (list nat) := if Nat.eqb (List.length file) 1 then None else Some file.
(** Line 827: itertools.combinations(l, 2). *)
Fixpoint pairs (l : list nat) : list (nat * nat) :=
  match l with [] => [] | a :: l => map (fun b => (a, b)) l ++ pairs l end.
(** step 860-1249. *)
Inductive phase := Offset | Mode1 (k : nat) | Pair (a b : nat) | Nothing | Solve | Terminate | Index_error.
Definition vscf_phase (inms : list nat) (lo hi : nat) (solve : bool) (step : nat) : phase :=
  if Nat.eqb step 0 then Offset
  else if Nat.leb step (List.length inms) then Mode1 (nth (step - 1) inms 0%nat)
  else let p := (step - List.length inms - 1)%nat in
    if Nat.ltb p hi then
      if Nat.leb lo p then match nth_error (pairs inms) p with Some (a, b) => Pair a b | None => Index_error end else Nothing
    else if solve then Solve else Terminate.

(** ** one_dimensional_mapper 1415-1472 *)
(** [V c] is the potential per primitive cell at the displacement of [c] units. *)
Definition mapper (fuel : nat) (V : Z -> R) (v0 thr : R) : option (nat * nat * list R) :=
  let stop c := if Rlt_dec thr (Rabs (V c - v0)) then true else false in
  match walk fuel stop (-1) (-1), walk fuel stop 1 1 with
  | Some m, Some p =>
    let cm := last m 0%Z in let cp := last p 0%Z in
    Some (Z.to_nat (- cm), Z.to_nat cp,
          rev (v0 :: map V m ++ [V (cm - 1); V (cm - 2)])%Z ++ map V p ++ [V (cp + 1); V (cp + 2)])%Z
  | _, _ => None
  end.
(** Lines 919-926, 954-961; [u] is fnmrms * nmrms of the mode. *)
Definition displacements (u : R) (neg pos : nat) : list R :=
  map (fun i => u * (- INR neg + INR i - 2)) (seq 0 (neg + pos + 1 + 4)).

(** ** Maps of pairs: lines 1041-1141 *)
(** What is known of each mode of [inms]: number of samples on both sides, unit of displacement, potentials. *)
Record known := Known { k_neg : nat; k_pos : nat; k_unit : R; k_v : list R }.
(** The two lists: potentials are appended in the order of [inms]; displacements too, after as many [0] as
    there are modes left out (lines 843-844). *)
Definition v_list (inms : list nat) (kn : nat -> known) : list (list R) := map (fun k => k_v (kn k)) inms.
Definition d_list (n : nat) (inms : list nat) (kn : nat -> known) : list (list R) :=
  (repeat [0] (n - List.length inms) ++ map (fun k => displacements (k_unit (kn k)) (k_neg (kn k)) (k_pos (kn k))) inms)%list.
(** Python's list access with a non-negative index. *)
Definition get {A} (l : list A) (i : nat) : option A := nth_error l i.
Definition bind2 {A B} (x : option A) (f : A -> option B) : option B := match x with Some a => f a | None => None end.
(** One value of v_coupled, lines 1118-1136; [V2 a b] is the potential at amplitudes [a] and [b]. *)
Definition coupled (n : nat) (inms : list nat) (nzb : nat) (kn : nat -> known) (V2 : R -> R -> R) (a b i j : nat) : option R :=
  if Nat.eqb i (k_neg (kn a) + 2) then bind2 (get (v_list inms kn) (b - nzb)) (fun l => get l j)
  else if Nat.eqb j (k_neg (kn b) + 2) then bind2 (get (v_list inms kn) (a - nzb)) (fun l => get l i)
  else bind2 (get (d_list n inms kn) a) (fun da => bind2 (get (d_list n inms kn) b) (fun db =>
       bind2 (get da i) (fun x => bind2 (get db j) (fun y => Some (V2 x y))))).

(** ** The self-consistent field: solver 1324-1376 *)
Section Field.
Variables (ng : nat) (T : R).
(** Lines 1341-1353: [p k] is the square of state [k] on the grid; each state is added with its Boltzmann
    factor, and the density is divided by its sum each time. *)
Definition boltz (e : vec) (k : nat) : R := exp (- 1 * (e k - e 0%nat) / T).
Fixpoint rho (nb : nat) (e : vec) (p : nat -> nat -> R) : nat -> R :=
  match nb with
  | O => fun _ => 0
  | S k => let r := fun g => rho k e p g + boltz e k * p k g in fun g => r g / Rsum ng r
  end.
(** Lines 1358-1366; [C] is the sum over the other modes of their couplings averaged over their density. *)
Definition mft (alpha vi old C : R) : R := vi + (1 - alpha) * old + alpha * C.
End Field.
(** The inner sum of lines 1363-1366: the coupling of a mode with itself is zero (line 1263). *)
Definition mean_field (ng : nat) (np : R) (inms : list nat) (vc : nat -> nat -> nat -> nat -> R) (r : nat -> nat -> R) (a g : nat) : R :=
  Rsuml (map (fun b => Rsum ng (fun h => (if Nat.eqb a b then 0 else vc a b g h) * r b h) / np) inms).
