(** * Suzuki-Chin forces

    /repo/ipi/engine/forces.py: forcesvirs_4th_order 1260-1445 (force part), fvir_4th_order_combine
    1475-1485, get_potssc 1575-1588, get_fsc_part_1 1590-1593, get_fsc_part_2 1595-1598, get_fsc 1612-1614,
    get_coeffsc_part_1 1620-1626, get_coeffsc_part_2 1628-1634, Forces.clone 1000-1034.

    Real numbers; masses do not depend on the bead. [None]: the program stops (exit, or
    UnboundLocalError when epsilon is zero). The virials follow the same formulas and are left out. *)

From Coq Require Import List Reals Arith Bool.
From Verif Require Import RSum NMModel FSumModel FSumProps.
Import ListNotations.
Open Scope R_scope.

Definition even_b (b : nat) : bool := (b mod 2 =? 0)%nat.
(** 1620-1634 *)
Definition coeffsc_part_1 (b : nat) : R := if even_b b then - 1 / 3 else 1 / 3.
Definition coeffsc_part_2 (alpha omegan2 : R) (b : nat) : R :=
  if even_b b then alpha / omegan2 / 9 else (1 - alpha) / omegan2 / 9.

(** A component with its finite-difference parameter. *)
Record scomp := mkSC { base : ffield; epsilon : R }.

Section SC.
Variables (n ncol natoms : nat) (open : list nat) (m : nat -> R) (alpha omegan2 : R).

(** Contracted beads of a component on a ring of n' beads (798-800). *)
Definition beads_of (n' nb : nat) : nat := if ((nb =? 0) || (n' <? nb))%nat then n' else nb.
(** The expanded force of a component on a ring of n' beads at positions q'. *)
Definition dforce (n' : nat) (f : ffield) (q' : mat) : mat :=
  let nb := beads_of n' (f_nb f) in
  rescale_b2tob1 n' nb open true (fun b => f_F f (rescale_b1tob2 n' nb open true q' b)).

(** 1268-1283 *)
Definition foverm (f : mat) : R :=
  sqrt (Rsum n (fun b => Rsum ncol (fun c => f b c / m c * f b c / m c)) / INR (n * natoms)).
Definition delta_of (eps : R) (f : mat) : R :=
  if Rlt_dec (/ 10 ^ 20) (Rabs (foverm f)) then Rabs eps / foverm f else Rabs eps.
Definition is0 (x : R) : bool := negb (nz x).
Definition pos (x : R) : bool := if Rlt_dec 0 x then true else false.

(** [f]: the total force (self.f); [q]: positions. *)
Definition forces_4th_order (sc : scomp) (f q : mat) : option mat :=
  if negb (even_b n) then None else
  let delta := delta_of (epsilon sc) f in
  let dq : mat := fun b c => delta * f b c / m c in
  let fbase := dforce n (base sc) q in
  if pos (epsilon sc) then
    if negb (beads_of n (f_nb (base sc)) =? n)%nat then None
    else if is0 alpha then
      (* odd beads only, on a ring of n/2 beads *)
      let fminus := dforce (n / 2) (base sc) (fun k c => q (2 * k + 1)%nat c - dq (2 * k + 1)%nat c) in
      Some (fun b c => if even_b b then 0 else 2 * (fminus (b / 2)%nat c - fbase b c) / delta)
    else
      let fplus := dforce n (base sc) (fun b c => q b c + dq b c) in
      Some (fun b c => 2 * (fbase b c - fplus b c) / delta)
  else if pos (- epsilon sc) then
    if is0 alpha then
      let fpm := dforce n (base sc) (fun k c => if (k <? n / 2)%nat
           then q (2 * k + 1)%nat c + dq (2 * k + 1)%nat c
           else q (2 * (k - n / 2) + 1)%nat c - dq (2 * (k - n / 2) + 1)%nat c) in
      Some (fun b c => if even_b b then 0 else 2 * (fpm (n / 2 + b / 2)%nat c - fpm (b / 2)%nat c) / 2 / delta)
    else
      let fplus := dforce n (base sc) (fun b c => q b c + dq b c) in
      let fminus := dforce n (base sc) (fun b c => q b c - dq b c) in
      Some (fun b c => 2 * (fminus b c - fplus b c) / 2 / delta)
  else None.

(** 1475-1485 *)
Definition fvir_step (f q : mat) (acc : option mat) (sc : scomp) : option mat :=
  match acc with
  | None => None
  | Some rf =>
      if nz (f_w (base sc)) && nz (Rsuml (f_mts (base sc))) then
        match forces_4th_order sc f q with
        | Some fv => Some (addto rf (f_w (base sc) * Rsuml (f_mts (base sc))) fv)
        | None => None
        end
      else Some rf
  end.
Definition f_4th_order (scs : list scomp) (f q : mat) : option mat := fold_left (fvir_step f q) scs (Some zeros).

(** The physical components at positions q. *)
Definition comps_at (scs : list scomp) (q : mat) : list comp := map (at_ n open q) (map base scs).
Definition f_at (scs : list scomp) (q : mat) : mat := f_combine n open (comps_at scs q).
Definition pots_at (scs : list scomp) (q : mat) : nat -> R := pot_combine n open (comps_at scs q).
(** 1575-1588 (the difference to the Trotter potential), for an even number of beads. *)
Definition potssc (scs : list scomp) (q : mat) : nat -> R := fun b =>
  coeffsc_part_1 b * pots_at scs q b
  + coeffsc_part_2 alpha omegan2 b * Rsum ncol (fun c => f_at scs q b c / m c * f_at scs q b c).
Definition potsc (scs : list scomp) (q : mat) : R := Rsum n (potssc scs q).
(** 1590-1614 *)
Definition fsc (scs : list scomp) (q : mat) : option mat :=
  match f_4th_order scs (f_at scs q) q with
  | None => None
  | Some f4 => Some (fun b c => coeffsc_part_1 b * f_at scs q b c + coeffsc_part_2 alpha omegan2 b * f4 b c)
  end.
End SC.
