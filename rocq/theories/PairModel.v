(** * The force fields evaluated inside i-PI

    /repo/ipi/engine/forcefields.py:666-691 (FFLennardJones.evaluate), 749-792
    (FFdmd.evaluate), 848-872 (FFDebye.evaluate); utils/distance.py:12-43.
    Real numbers for floats; coordinates are functions of atom and component.
    Division by zero (coinciding atoms) has no meaning here: the theorems assume
    distinct positions. *)

From Coq Require Import List Reals ZArith.
From Flocq Require Import Core.
From Verif Require Import RSum.
Import ListNotations.
Open Scope R_scope.

Definition coords := nat -> nat -> R.
Definition vec := nat -> R.

(** [for i in range(1, nat)] of both pair potentials, for row [i]: the energy gets
    [e i j] for all [j < i]; with [g i j] the row [f[i]] gets the sum over [j] and
    row [j] loses [g i j]. *)
Definition row_update (g : nat -> vec) (i : nat) (f : coords) : coords :=
  fun a k => if (a =? i)%nat then f a k + Rsum i (fun j => g j k)
             else if (a <? i)%nat then f a k - g a k else f a k.
(** [n] rows: i = 1 ... n. *)
Fixpoint pair_loop (e : nat -> nat -> R) (g : nat -> nat -> vec) (n : nat) : R * coords :=
  match n with
  | O => (0, fun _ _ => 0)
  | S n' => let '(v, f) := pair_loop e g n' in
            (v + Rsum n (e n), row_update (g n) n f)
  end.

Definition sep (q : coords) (i j : nat) : vec := fun k => q i k - q j k.
Definition norm2 (d : vec) : R := Rsum 3 (fun k => d k * d k).

(** forcefields.py:663-691. *)
Definition lj_x6 (sigma2 r2 : R) : R := (sigma2 / r2) ^ 3.
Definition lj_e (sigma2 : R) (d : vec) : R := lj_x6 sigma2 (norm2 d) ^ 2 - lj_x6 sigma2 (norm2 d).
Definition lj_g (sixepsfour sigma2 : R) (d : vec) : vec := fun k =>
  d k * (sixepsfour * (2 * lj_x6 sigma2 (norm2 d) ^ 2 - lj_x6 sigma2 (norm2 d)) / norm2 d).
Definition lj (eps sigma : R) (nat_ : nat) (q : coords) : R * coords :=
  let epsfour := eps * 4 in let sixepsfour := 6 * epsfour in let sigma2 := sigma * sigma in
  let '(v, f) := pair_loop (fun i j => lj_e sigma2 (sep q i j))
                           (fun i j => lj_g sixepsfour sigma2 (sep q i j)) (nat_ - 1) in
  (v * epsfour, f).

(** np.rint: nearest integer, ties to even. *)
Definition rint (x : R) : R := IZR (ZnearestE x).
(** utils/distance.py:37-43; [h], [ih] 3x3 matrices. *)
Definition mvec (m : nat -> nat -> R) (v : vec) : vec := fun i => Rsum 3 (fun k => m i k * v k).
Definition vector_separation (h ih : nat -> nat -> R) (qi qj : vec) : vec :=
  mvec h (fun k => mvec ih (fun c => qi c - qj c) k - rint (mvec ih (fun c => qi c - qj c) k)).

(** forcefields.py:760-792. [coupling] has one entry per pair, row after row;
    [periodic] is the sine factor. Result: energy, forces, virial. *)
Definition cpl (coupling : nat -> R) (i j : nat) : R := coupling (i * (i - 1) / 2 + j)%nat.
Definition dmd (coupling : nat -> R) (periodic : R) (h ih : nat -> nat -> R) (nat_ : nat) (q : coords)
  : R * coords * (nat -> nat -> R) :=
  let d i j := vector_separation h ih (q i) (q j) in
  let r i j := sqrt (norm2 (d i j)) in
  let g i j k := d i j k * - (cpl coupling i j / r i j) * periodic in
  let '(v, f) := pair_loop (fun i j => cpl coupling i j * r i j * periodic) g (nat_ - 1) in
  (v, f, fun a b => Rsum nat_ (fun i => Rsum i (fun j => g i j a * d i j b))).

(** forcefields.py:848-872, [n3] coordinates. *)
Definition debye (H : nat -> nat -> R) (xref : vec) (vref : R) (n3 : nat) (q : vec) : R * vec :=
  let d k := q k - xref k in
  let mf i := Rsum n3 (fun j => H i j * d j) in
  (vref + / 2 * Rsum n3 (fun i => d i * mf i), fun i => - mf i).
