(** * Model of the tool for radial distribution functions with perturbed path integrals

    tools/py/rdf_ppi.py:95-248.  A frame is what the compiled functions add for it (tools/f90/fortran.f90:152-172): histogram,
    sum of squared forces over masses, and derivative terms.  Distances stay in atomic units, at least two bins, real numbers. *)
From Coq Require Import List Arith Bool Reals.
Import ListNotations.
Open Scope R_scope.
Open Scope list_scope.

(** Per frame: f2temp, what is added to the second column of rdf and to frdf in each bin, and the volume of the cell. *)
Record frame := Frame { f2temp : R; count : nat -> R; deriv : nat -> R; volume : R }.
(** Settings: bins, range, beads, kb T, hbar, skipped frames. *)
Record setup := Setup { nbins : nat; r_min : R; r_max : R; nbeads : nat; kT : R; hbar : R; skip : nat }.
(** Lines 98-101 *)
Definition dr (c : setup) : R := (r_max c - r_min c) / INR (nbins c).
Definition radius (c : setup) (b : nat) : R := r_min c + (1 / 2 + INR b) * dr c.

(** What the files hold: the two functions by bin. *)
Record output := Output { g : nat -> R; gq : nat -> R }.
(** Lines 109-123: sums, number of frames read, and what was last written. *)
Record state := State { rdf : nat -> R; f2rdf : nat -> R; frdf : nat -> R; f2 : R; vol : R; ifr : nat; out : option output }.
Definition start : state := State (fun _ => 0) (fun _ => 0) (fun _ => 0) 0 0 0 None.
(** Lines 200-244 *)
Definition result (c : setup) (s : state) : output :=
  let const := 1 / INR (ifr s - skip c) in let P := INR (nbeads c) in
  let alpha := hbar c ^ 2 / (24 * P ^ 3 * kT c ^ 3) in let beta := hbar c ^ 2 / (12 * P ^ 3 * kT c ^ 2) in
  let rdf' b := rdf s b * (const / P) in
  let f2' := f2 s * alpha * const in
  let f2rdf' b := f2rdf s b * (alpha * const) in
  let frdf' b := frdf s b * (beta * const) in
  let q b := rdf' b + (rdf' b * f2' - f2rdf' b / P) - frdf' b / 2 in
  let w := vol s / (4 * PI / 3) in let d := radius c 1 - radius c 0 in
  let shell b := (radius c b + 1 / 2 * d) ^ 3 - (radius c b - 1 / 2 * d) ^ 3 in
  Output (fun b => w * rdf' b / shell b) (fun b => w * q b / shell b).
(** Lines 125-248: one frame. *)
Definition step (c : setup) (s : state) (f : frame) : state :=
  let s1 := if (skip c <=? ifr s)%nat
            then State (fun b => rdf s b + count f b) (fun b => f2rdf s b + f2temp f * count f b) (fun b => frdf s b + deriv f b) (f2 s + f2temp f) (volume f) (ifr s + 1) (out s)
            else State (rdf s) (f2rdf s) (frdf s) (f2 s) (volume f) (ifr s + 1) (out s) in
  if ((skip c <? ifr s1) && (ifr s1 mod 100 =? 0))%nat
  then State (rdf s1) (f2rdf s1) (frdf s1) (f2 s1) (vol s1) (ifr s1) (Some (result c s1)) else s1.
Definition run (c : setup) (l : list frame) : state := fold_left (step c) l start.
