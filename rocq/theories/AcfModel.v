(** * Autocorrelation functions: ipi/utils/tools/acf_xyz.py and tools/py/getacf.py

    Floats are reals, arrays are functions of their indices with their lengths kept apart. numpy's rfft, irfft, hfft, gradient
    and windows are given by the formulas of its documentation. Reading of frames and units of the time step are left out:
    [dt] is the time step in atomic units and a file is the list of its frames, all with the same atoms. *)
From Coq Require Import String List Reals Arith Bool ZArith.
From Verif Require Import RSum.
Import ListNotations.
Open Scope R_scope.

(** ** numpy *)
(** |rfft(x)[j]|^2 for [n] numbers; rfft gives n//2 + 1 values. *)
Definition rfft_len (n : nat) : nat := (n / 2 + 1)%nat.
Definition rfft_re (n : nat) (x : nat -> R) (j : nat) : R := Rsum n (fun t => x t * cos (2 * PI * INR j * INR t / INR n)).
Definition rfft_im (n : nat) (x : nat -> R) (j : nat) : R := - Rsum n (fun t => x t * sin (2 * PI * INR j * INR t / INR n)).
Definition power (n : nat) (x : nat -> R) (j : nat) : R := rfft_re n x j ^ 2 + rfft_im n x j ^ 2.
(** hfft(a)[j] for [m] real numbers, taken as the first half of an even sequence of 2 (m - 1): 2 (m - 1) values. *)
Definition hfft_len (m : nat) : nat := (2 * (m - 1))%nat.
Definition hfft (m : nat) (a : nat -> R) (j : nat) : R :=
  a 0%nat + 2 * Rsum (m - 2) (fun i => a (S i) * cos (2 * PI * INR j * INR (S i) / INR (hfft_len m))) + a (m - 1)%nat * cos (PI * INR j).
(** irfft(a)[k] of [m] real numbers: 2 (m - 1) values. *)
Definition irfft (m : nat) (a : nat -> R) (k : nat) : R := hfft m a k / INR (hfft_len m).
(** np.gradient along the first axis, [n] points *)
Definition gradient (n : nat) (x : nat -> R) (i : nat) : R :=
  if (i =? 0)%nat then x 1%nat - x 0%nat else if (i =? n - 1)%nat then x (n - 1)%nat - x (n - 2)%nat else (x (i + 1)%nat - x (i - 1)%nat) / 2.
(** np.hanning(M)[n] and the others, for M = 2 mlag + 1 *)
Definition angle (mlag n : nat) : R := 2 * PI * INR n / INR (2 * mlag).
Definition hanning mlag n := / 2 - / 2 * cos (angle mlag n).
Definition hamming mlag n := 54 / 100 - 46 / 100 * cos (angle mlag n).
Definition blackman mlag n := 42 / 100 - / 2 * cos (angle mlag n) + 8 / 100 * cos (2 * angle mlag n).
Definition bartlett mlag n := 2 / INR (2 * mlag) * (INR (2 * mlag) / 2 - Rabs (INR n - INR (2 * mlag) / 2)).

(** ** compute_acf_xyz *)
(** 37-56: the lag, block length and padding used. [None] for an argument is None; the result [None] is ValueError. *)
Definition or_default (a : option Z) (d : Z) : Z := match a with None => d | Some z => if (z =? 0)%Z then d else z end.
Definition checked (maximum_lag block_length : option Z) (npad : Z) : option (nat * nat * nat) :=
  let mlag := or_default maximum_lag 100 in
  let bsize := or_default block_length (2 * mlag + 1) in
  if (mlag <=? 0)%Z then None
  else if (npad <? 0)%Z then None
  else if (bsize <? 2 * mlag)%Z
       then if (bsize =? -1)%Z then Some (Z.to_nat mlag, Z.to_nat (2 * mlag), Z.to_nat npad) else None
       else Some (Z.to_nat mlag, Z.to_nat bsize, Z.to_nat npad).
(** 64-74: the atoms chosen *)
Definition chosen_atoms (labels names : list string) : list nat :=
  filter (fun a => existsb (String.eqb "*") labels || existsb (String.eqb (nth a names ""%string)) labels) (seq 0 (length names)).
(** 91-101: the window; [None]: win is never set *)
Definition window (ftbox : string) (mlag n : nat) : option R :=
  if String.eqb ftbox "none" then Some 1
  else if String.eqb ftbox "cosine-hanning" then Some (hanning mlag n)
  else if String.eqb ftbox "cosine-hamming" then Some (hamming mlag n)
  else if String.eqb ftbox "cosine-blackman" then Some (blackman mlag n)
  else if String.eqb ftbox "triangle-bartlett" then Some (bartlett mlag n)
  else None.
(** 82-87: time and omega *)
Definition times (dt : R) (k : nat) : R := INR k * dt.
Definition omega (mlag npad : nat) (dt : R) (j : nat) : R := INR j / INR (2 * (mlag + npad)) * (2 * PI / dt).

(** A frame: atom, Cartesian direction *)
Definition frame := nat -> nat -> R.
(** 108-118: a block, from [bsize] frames; data[t, a, c] *)
Definition block_data (der : bool) (dt : R) (bsize : nat) (fr : list frame) (t a c : nat) : R :=
  let x t := nth t fr (fun _ _ => 0) a c in
  if der then gradient bsize x t / dt else x t.
(** 121-129: mfvvacf; the mean over chosen atoms and directions *)
Definition mfvvacf (dt : R) (bsize : nat) (sel : list nat) (data : nat -> nat -> nat -> R) (j : nat) : R :=
  3 * (Rsuml (map (fun a => Rsum 3 (fun c => power bsize (fun t => data t a c) j)) sel) / (INR (length sel) * 3)) * dt / (2 * PI) / INR bsize.
(** 132 *)
Definition mvvacf (dt : R) (bsize : nat) (sel : list nat) (data : nat -> nat -> nat -> R) (k : nat) : R :=
  irfft (rfft_len bsize) (mfvvacf dt bsize sel data) k.
(** 135: windowed and padded, mlag + 1 + npad numbers; [win] is the whole window *)
Definition padded (mlag : nat) (win acf : nat -> R) (k : nat) : R :=
  if (k <=? mlag)%nat then acf k * win (mlag + k)%nat else 0.
(** 138 *)
Definition mfpvvacf (mlag npad : nat) (win acf : nat -> R) (j : nat) : R := hfft (mlag + 1 + npad) (padded mlag win acf) j.
(** 103-152: the blocks read, until a frame is missing *)
Fixpoint blocks (fuel bsize : nat) (fr : list frame) : list (list frame) :=
  match fuel with
  | O => []
  | S fuel => if (length fr <? bsize)%nat then [] else firstn bsize fr :: blocks fuel bsize (skipn bsize fr)
  end.
(** 155-162: mean and error over the blocks *)
Definition bmean (l : list R) : R := Rsuml l / INR (length l).
Definition berr2 (l : list R) : R := Rsuml (map (fun v => v ^ 2) l) / INR (length l) - bmean l ^ 2.
Definition berr (l : list R) : R := sqrt (berr2 l).

Inductive outcome := BadArgument | EndOfFile | NoWindow | NotANumber
  | Result (time acf acf_err om facf facf_err : nat -> R) (lags freqs : nat).
Definition compute_acf (maximum_lag block_length : option Z) (length_zeropadding : Z) (ftbox : string) (labels names : list string)
  (dt : R) (fskip : nat) (der : bool) (fr : list frame) : outcome :=
  match checked maximum_lag block_length length_zeropadding with
  | None => BadArgument
  | Some (mlag, bsize, npad) =>
    if (length fr =? 0)%nat then EndOfFile
    else if (length fr <? fskip)%nat then EndOfFile
    else
      let bl := blocks (length fr) bsize (skipn fskip fr) in
      match window ftbox mlag 0 with
      | None => if (length bl =? 0)%nat then NotANumber else NoWindow
      | Some _ =>
        let win n := match window ftbox mlag n with Some w => w | None => 0 end in
        let sel := chosen_atoms labels names in
        if (length bl =? 0)%nat || (length sel =? 0)%nat then NotANumber
        else
          let acf b := mvvacf dt bsize sel (block_data der dt bsize b) in
          Result (times dt) (fun k => bmean (map (fun b => acf b k) bl)) (fun k => berr (map (fun b => acf b k) bl))
            (omega mlag npad dt) (fun j => bmean (map (fun b => mfpvvacf mlag npad win (acf b) j) bl))
            (fun j => berr (map (fun b => mfpvvacf mlag npad win (acf b) j) bl)) (mlag + 1) (2 * (mlag + npad))
      end
  end.

(** ** getacf.py 104-123: the lines written; arguments as integers, -1 when there is no -bsize *)
Definition getacf (mlag bsize npad : Z) (ftbox : string) (labels names : list string) (dt : R) (fskip : nat) (der : bool) (fr : list frame)
  : option (list (R * R * R) * list (R * R * R)) :=
  match compute_acf (Some mlag) (Some bsize) npad ftbox labels names dt fskip der fr with
  | Result time acf err om facf ferr lags freqs =>
    let rows := Z.to_nat (mlag + npad) in
    Some (map (fun k => (time k, acf k, err k)) (firstn rows (seq 0 lags)), map (fun j => (om j, facf j, ferr j)) (firstn rows (seq 0 freqs)))
  | _ => None
  end.
