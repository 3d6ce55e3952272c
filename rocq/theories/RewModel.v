(** * Reweighting tools: tools/py/committee-reweight.py and tools/py/paraweights.py

    Arrays of shape (nframes, nmodels) are functions [frame -> model -> R]; floating point numbers (float128 for the weights)
    are reals.  Reading and writing of the tables, and the command line, are left out except where a claim is about them. *)
From Coq Require Import List Reals Arith String.
From Verif Require Import RSum CellModel.
Import ListNotations.
Open Scope R_scope.

Section Committee.
(** frames, potentials per frame *)
Variables (nf nm : nat).
(** np.mean(pot, axis=1) *)
Definition frame_mean (n : nat) (pot : nat -> nat -> R) (f : nat) : R := Rsum n (pot f) / INR n.
(** np.mean(x, axis=0) *)
Definition time_mean (x : nat -> nat -> R) (j : nat) : R := Rsum nf (fun f => x f j) / INR nf.

(** direct_reweight 40-46: weights = exp(-beta (pot - mean)), divided by their sum over the frames *)
Definition raw_weight (beta : R) (pot : nat -> nat -> R) (f i : nat) : R := exp (- beta * (pot f i - frame_mean nm pot f)).
Definition weight (beta : R) (pot : nat -> nat -> R) (f i : nat) : R :=
  raw_weight beta pot f i / Rsum nf (fun g => raw_weight beta pot g i).
(** 47: obs.T @ weights *)
Definition direct_b (beta : R) (pot obs : nat -> nat -> R) (j i : nat) : R := Rsum nf (fun f => obs f j * weight beta pot f i).
(** 27: beta = 1.0 / kbT *)
Definition direct_reweight (kbT : R) (pot obs : nat -> nat -> R) (j i : nat) : R := direct_b (1 / kbT) pot obs j i.
End Committee.

(** CEA 72-99; [nf] frames, [nm] columns of the first argument. *)
Definition h_matrix (nm : nat) (beta : R) (pot : nat -> nat -> R) (f i : nat) : R := beta * (pot f i - frame_mean nm pot f).
Definition CEA (nf nm : nat) (kbT : R) (pot obs : nat -> nat -> R) (j i : nat) : R :=
  let h := h_matrix nm (1 / kbT) pot in
  let obsxh := Rsum nf (fun f => obs f j * h f i) / INR nf in
  time_mean nf obs j - obsxh + time_mean nf obs j * time_mean nf h i.

(** np.var(x, ddof=1) of x 0 .. x (n-1) *)
Definition var1 (n : nat) (x : nat -> R) : R :=
  let m := Rsum n x / INR n in Rsum n (fun i => (x i - m) * (x i - m)) / (INR n - 1).
(** np.mean *)
Definition mean (n : nat) (x : nat -> R) : R := Rsum n x / INR n.

(** uncertainty_CEA_multiple_models 126-133; [nm] = pot.shape[1], [no] = obs.shape[1].
    Line 127 calls CEA(obs, pot, kbT), whose parameters are (pot, obs, kbT): the table it returns has a row for each potential and
    a column for each observable model. Result: mean, sigma2_a, sigma2_aV, sigma2_tilde. *)
Definition uncertainty (nf nm no : nat) (kbT : R) (pot obs : nat -> nat -> R) : R * R * R * R :=
  let obs_avg := time_mean nf obs in
  let table := CEA nf no kbT obs pot in
  let fac_a := INR nm * (INR no - 1) / (INR nm * INR no - 1) in
  let fac_aV := (INR nm - 1) * INR no / (INR nm * INR no - 1) in
  let sigma2_a := var1 no obs_avg in
  let sigma2_aV := mean nm (fun r => var1 no (table r)) in
  (mean no obs_avg, sigma2_a, sigma2_aV, fac_a * sigma2_a + fac_aV * sigma2_aV).

(** commitee_reweight 173-179: which frames of the two tables are used. [None] is an exception: ValueError for 0; with a negative
    stride [potentials] is never assigned, and its use below raises UnboundLocalError. *)
Fixpoint every_from {A} (k : nat) (s : nat) (l : list A) : list A :=
  match l with
  | [] => []
  | x :: l => match k with O => x :: every_from (pred s) s l | S k => every_from k s l end
  end.
(** l[::s] *)
Definition every {A} (s : nat) (l : list A) : list A := every_from 0 s l.
Inductive stride := Pos (s : nat) | Zero | Neg (s : nat).
Definition tables {A B} (s : stride) (pot : list A) (obs : list B) : option (list A * list B) :=
  match s with
  | Pos s => Some (every s pot, obs)
  | Neg _ => None
  | Zero => None
  end.

(** ** paraweights.py *)
(** 171-197: the quantities kept for a temperature: reference potential, number of frames, log of the sum of weights and of their
    squares. *)
Record pw := mkpw { ref : R; nw : nat; tw : R; tw2 : R }.
Definition pw0 : pw := mkpw 0 0 0 0.
Section Para.
(** temperature of the replica, target temperature, frames to leave out *)
Variables (temp ttemp : R) (skip : nat).
(** a line with the potential [pot] at [step]; the second component is the log-weight written *)
Definition para_line (s : pw) (step : nat) (pot : R) : pw * R :=
  let s := if Nat.eqb (nw s) 0 then mkpw pot (nw s) (tw s) (tw2 s) else s in
  let lw := (pot - ref s) * (1 / temp - 1 / ttemp) in
  let s := if Nat.ltb skip step then
             if Nat.eqb (nw s) 0 then mkpw (ref s) (S (nw s)) lw lw
             else mkpw (ref s) (S (nw s)) (fst (logsumlog (tw s, 1) (lw, 1))) (fst (logsumlog (tw2 s, 1) (2 * lw, 1)))
           else s in
  (s, lw).
(** the lines of a run: final state and log-weights written *)
Fixpoint para_run (s : pw) (l : list (nat * R)) : pw * list R :=
  match l with
  | [] => (s, [])
  | (step, pot) :: l => let (s, lw) := para_line s step pot in let (s, o) := para_run s l in (s, lw :: o)
  end.
(** 213-219: the factor written in the WEIGHTS file *)
Definition global_weight (s : pw) : R := 1 / (exp (tw2 s - 2 * tw s) * INR (nw s)).
End Para.

(** 144-199: the property files with a potential, in the order in which they were found, keep their sums at the positions 0, 1, ...;
    at every step [wk] counts the ones read so far at this step. [files]: stride of every file with a potential; the result gives
    for each file read at [step] (its position, the position of the sums it is added to). *)
Fixpoint slots_from (step : nat) (k wk : nat) (files : list nat) : list (nat * nat) :=
  match files with
  | [] => []
  | s :: files => if Nat.eqb (step mod s) 0 then (k, wk) :: slots_from step (S k) (S wk) files else slots_from step (S k) wk files
  end.
Definition slots (step : nat) (files : list nat) : list (nat * nat) := slots_from step 0 0 files.

(** 64-65: the mode of the simulation must be "paratemp"; ipi/inputs/simulation.py 116-124 accepts the modes below. [false] is the
    ValueError. *)
Definition modes : list string := ["md"; "static"]%string.
Definition para_accepts (mode : string) : bool := String.eqb mode "paratemp".
