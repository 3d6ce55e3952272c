(** * Model of the string method

    ipi/engine/motion/stringmep.py (StringMover) and its place in ipi/inputs/motion/motion.py:372-385.
    Floating point numbers are real numbers.  [q b c] is coordinate [c] of bead [b]; only the [dof]
    coordinates that are not fixed appear, since all arrays are masked.  The optimisers are those of
    MinModel and are not repeated here.  scipy's make_interp_spline(t, y, bc_type="natural") is the
    interpolating cubic spline with zero second derivative at the ends, here computed by shooting. *)
From Coq Require Import List Arith Lia Reals Lra Bool String.
From Verif Require Import RSum.
Import ListNotations.
Open Scope list_scope.
Open Scope R_scope.

Definition vec := nat -> R.
Definition mat := nat -> vec.

(** ** The natural spline *)
(** Second derivatives at the knots that start with 0 and [a] and solve the equations of the inner
    knots, [h] being the distances of the knots and [r] the right hand sides. *)
Fixpoint shoot (h r : vec) (a : R) (k : nat) : R * R :=
  match k with
  | O => (0, a)
  | S k => let '(x, y) := shoot h r a k in (y, (r (S k) - h k * x - 2 * (h k + h (S k)) * y) / h (S k))
  end.
Definition rhs (h y : vec) : vec := fun i => 6 * ((y (S i) - y i) / h i - (y i - y (i - 1)%nat) / h (i - 1)%nat).
(** [N] intervals: the last one vanishes too. *)
Definition moments (N : nat) (h y : vec) : vec := fun i =>
  let p := fun k => fst (shoot h (rhs h y) 0 k) in
  let u := fun k => fst (shoot h (fun _ => 0) 1 k) in
  p i - p N / u N * u i.
Definition steps (t : vec) : vec := fun i => t (S i) - t i.
(** The polynomial between the knots [i] and [i + 1], and its derivative. *)
Definition piece (t y M : vec) (i : nat) (s : R) : R :=
  let h := steps t i in
  M i * (t (S i) - s) ^ 3 / (6 * h) + M (S i) * (s - t i) ^ 3 / (6 * h)
  + (y i / h - M i * h / 6) * (t (S i) - s) + (y (S i) / h - M (S i) * h / 6) * (s - t i).
Definition dpiece (t y M : vec) (i : nat) (s : R) : R :=
  let h := steps t i in
  - M i * (t (S i) - s) ^ 2 / (2 * h) + M (S i) * (s - t i) ^ 2 / (2 * h) + (y (S i) - y i) / h - (M (S i) - M i) * h / 6.
(** splev: the last of the first [N] knots that is not beyond [s]. *)
Fixpoint locate (t : vec) (s : R) (N : nat) : nat :=
  match N with O => O | S k => if Rle_dec (t k) s then k else locate t s k end.
Definition spline (N : nat) (t y : vec) (s : R) : R := piece t y (moments N (steps t) y) (locate t s N) s.
Definition dspline (N : nat) (t y : vec) (s : R) : R := dpiece t y (moments N (steps t) y) (locate t s N) s.

(** ** spline_resample (lines 1167-1222) and spline_derv (1225-1270) *)
Definition dot (dof : nat) (a b : vec) : R := Rsum dof (fun c => a c * b c).
Definition npnorm (dof : nat) (a : vec) : R := sqrt (dot dof a a).
Definition dist (dof : nat) (q : mat) (i : nat) : R := npnorm dof (fun c => q (S i) c - q i c).
(** lines 1182-1194, 1239-1251 *)
Definition param (dof n : nat) (q : mat) : vec := fun i => Rsum i (dist dof q) / Rsum (n - 1) (dist dof q).
(** make_interp_spline refuses knots that do not increase; None stands for ValueError. *)
Definition apart (dof n : nat) (q : mat) : bool := forallb (fun i => if Req_EM_T (dist dof q i) 0 then false else true) (seq 0 (n - 1)).
Definition spline_resample (dof n : nat) (q : mat) : option mat :=
  if (n <=? 2)%nat then None else if negb (apart dof n q) then None
  else Some (fun b c => spline (n - 1) (param dof n q) (fun i => q i c) (INR b / INR (n - 1))).
Definition spline_derv (dof n : nat) (q : mat) : option mat :=
  if (n <=? 2)%nat then None else if negb (apart dof n q) then None
  else let d := fun b c => dspline (n - 1) (param dof n q) (fun i => q i c) (param dof n q b) in
       Some (fun b c => d b c / npnorm dof (d b)).

(** ** Mappers *)
(** StringGradientMapper.__call__, lines 78-103: [f] and [tangent] of the inner beads. *)
Definition string_grad (dof : nat) (tangent f : mat) : mat := fun b c => - (f b c - tangent b c * dot dof (f b) (tangent b)).
Definition string_pot (n : nat) (pots : vec) : R := Rsum (n - 2) (fun b => pots (S b)).
(** StringClimbGrMapper.__call__, lines 208-242. *)
Definition climb_tau (dof : nat) (qprev x qnext : vec) : vec :=
  let d1 := fun c => x c - qprev c in
  let d2 := fun c => qnext c - x c in
  let tau := fun c => d1 c / npnorm dof d1 + d2 c / npnorm dof d2 in
  fun c => tau c / npnorm dof tau.
Definition climb_grad (dof : nat) (tau f : vec) : vec := fun c => - (f c - 2 * dot dof f tau * tau c).

(** ** StringMover *)
(** step, lines 1119-1158, at step 0: the path is resampled, but the forces are those of
    [stringgm.dforces], whose beads were cloned when the mapper was bound (line 63) and have not been
    moved; they are then handed to the inner beads of the resampled path.  [F] gives the forces of a
    path. *)
Definition step0 (dof n : nat) (F : mat -> mat) (q : mat) : option (mat * mat * mat) :=
  match spline_resample dof n q with
  | None => None
  | Some q' => match spline_derv dof n q' with
               | None => None
               | Some tg => let full_f := F q in Some (q', full_f, string_grad dof tg full_f)
               end
  end.
(** path_step_textbook2002, lines 587-599: the euler step of [m] coordinates. *)
Fixpoint amax (m : nat) (v : vec) : R := match m with O => 0 | S k => Rmax (amax k v) (Rabs (v k)) end.
Definition euler (m : nat) (big_step : R) (grad : vec) : vec :=
  let dq := fun i => - grad i * / 1000 in
  if Rlt_dec big_step (amax m dq) then fun i => dq i * (big_step / amax m dq) else dq.

Inductive stage : Type := Endpoints | String_ | Climb | Converged.
Inductive status : Type := Success | Bad.
Inductive outcome : Type := Bound (side : nat) | ValueErr | AttributeErr | NotImplemented | Finish (s : status) | Moved (s : stage) | Nothing.
(** path_step_textbook2002, lines 650-676: what follows the step. *)
Definition le_b (x y : R) : bool := if Rle_dec x y then true else false.
Definition path_end (use_climb : bool) (de dx fmax tol_e tol_x tol_f : R) : outcome :=
  if (le_b de tol_e && le_b dx tol_x && le_b fmax tol_f)%bool
  then if use_climb then Moved Climb else Finish Success
  else Moved String_.
Definition member (x : string) (l : list string) : bool := existsb (String.eqb x) l.
(** lines 507-606: the optimisers that exist. *)
Definition path_modes : list string := ["damped_bfgs"; "bfgstrm"; "fire"; "euler"]%string.
Definition climb_modes : list string := ["damped_bfgs"; "bfgstrm"; "fire"]%string.
(** The attributes of a StringClimbGrMapper once bound (lines 187-206). *)
Definition climb_attrs : list string := ["fixatoms_dof"; "fixatoms_mask"; "rbeads"; "rcell"; "q_prev"; "q_next"; "rforces"]%string.
(** climb_step, lines 954-1017: after the optimiser the attribute [fixmask] of the mapper is read. *)
Definition climb_step (attrs : list string) (mode : string) : outcome :=
  if negb (member mode climb_modes) then Finish Bad
  else if member "fixmask" attrs then Moved Climb else AttributeErr.
(** step, lines 1095-1164: [zero] tells whether a neighbour of the climbing bead is all zeros, [edge]
    whether the highest bead is an end (init_climb, lines 440-447). *)
Definition step (stg : stage) (optimize : bool) (mode : string) (zero edge : bool) (path : outcome) : outcome :=
  match stg with
  | Converged => Finish Success
  | Endpoints => if optimize then NotImplemented else Nothing
  | String_ => if member mode path_modes then path else NotImplemented
  | Climb => if (zero && edge)%bool then Finish Bad else climb_step climb_attrs mode
  end.

(** ** StringMover.bind, lines 350-432 *)
(** The attributes that Motion.__init__ and StringMover.__init__ (motion.py:32-55, lines 290-348) and
    Motion.bind (motion.py:84-92) give. *)
Definition mover_attrs : list string :=
  ["_dt"; "fixcom"; "fixatoms_dof"; "beads"; "cell"; "forces"; "prng"; "nm"; "enstype"; "finished"; "exit_status"; "exit_message";
   "tolerances"; "mode"; "big_step"; "old_x"; "stringpot"; "stringgrad"; "d"; "full_f"; "full_v"; "corrections"; "qlist"; "glist"; "scale";
   "tr_trm"; "endpoints"; "use_climb"; "cl_indx"; "stage"; "hessian"; "v"; "a"; "N_dn"; "N_up"; "dt_fire"; "dtmax"; "stringgm"; "climbgm";
   "ensemble"; "output_maker"]%string.
(** StringGradientMapper.__init__ (line 53) and StringClimbGrMapper.__init__ (179): before they are bound. *)
Definition string_attrs0 : list string := ["allpots"]%string.
Definition climb_attrs0 : list string := [].
(** StringClimbGrMapper.bind, lines 181-206: [ffixatoms_mask] of the mapper with fixed coordinates, and
    [fixatoms] of the mover. *)
Definition climb_bind (mapper mover : list string) (nfix : nat) (side : nat) : outcome :=
  if ((0 <? nfix) && negb (member "ffixatoms_mask" mapper))%nat%bool then AttributeErr
  else if member "fixatoms" mover then Bound side else AttributeErr.
(** Lines 360-421: the Hessian of [hsize] numbers; the side of the matrix that is used. *)
Definition hessian_side (string0 climb0 : list string) (mode : string) (stg : stage) (hsize natoms nbeads nfix : nat) : outcome :=
  let act := (3 * natoms - nfix)%nat in
  if member mode ["damped_bfgs"; "bfgstrm"]%string then
    match stg with
    | String_ =>
        if (hsize =? (act * (nbeads - 2)) ^ 2)%nat then Bound (act * (nbeads - 2))
        else if (hsize =? (nbeads * (3 * natoms)) ^ 2)%nat then
          if member "fixatoms_mask" string0 then Bound (act * (nbeads - 2)) else AttributeErr
        else if (hsize =? 0)%nat then Bound ((nbeads - 2) * act) else ValueErr
    | Climb =>
        if ((negb (hsize =? act ^ 2)) && (hsize =? (3 * natoms) ^ 2) && negb (member "fixatoms_mask" climb0))%nat%bool then AttributeErr
        else if (hsize =? 0)%nat then Bound act else ValueErr
    | _ => Bound 0
    end
  else Bound 0.
Definition bind (string0 climb0 mover : list string) (mode : string) (stg : stage) (hsize natoms nbeads nfix : nat) : outcome :=
  match hessian_side string0 climb0 mode stg hsize natoms nbeads nfix with
  | Bound side => if (nfix =? 3 * natoms)%nat then ValueErr else climb_bind (["fixatoms_dof"; "fixatoms_mask"]%string ++ climb0) mover nfix side
  | e => e
  end.
