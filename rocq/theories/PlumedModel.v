(** * Model of the PLUMED force field and of metadynamics
      (ipi/engine/forcefields.py 877-1104, ipi/engine/smotion/metad.py)

    Floating point numbers are real numbers. PLUMED itself is an argument: its state [X], the bias, what it
    adds to the force and virial arrays it is given, and the change of its state by an update. [None] is a
    python exception. Force fields are numbered. *)
From Coq Require Import List Arith Lia Bool Reals Lra.
From Verif Require Import RSum.
Import ListNotations.
Open Scope R_scope.

Definition arr := nat -> R.                       (* positions or forces, flattened *)
Definition ten := nat -> nat -> R.                (* 3 x 3 *)
(** What system_force gives: potential, force and virial of the physical system (1021-1026). *)
Record physical := Physical { p_pot : R; p_f : arr; p_vir : ten }.
Definition zero_arr : arr := fun _ => 0.
Definition zero_ten : ten := fun _ _ => 0.

Section Plumed.
Variable X : Type.
(** getBias; the energy is the one set by setEnergy, if any. *)
Variable bias : X -> option R -> arr -> ten -> R.
(** The arrays given by setForces and setVirial are incremented; PLUMED sees what they contain (the energy as a
    collective variable scales them). *)
Variable dforce : X -> option R -> arr -> ten -> arr -> arr.
Variable dvirial : X -> option R -> arr -> ten -> ten -> ten.
(** update: state, step set before. It works on the positions set last. *)
Variable update : X -> nat -> option R -> arr -> ten -> X.
(** The force field: state of PLUMED with what it was given last, and the attributes. *)
Record ffp := Ffp { px : X; penergy : option R; ppos : arr; pbox : ten;
                    pstep : nat; lastq : arr; natoms : nat; sysforce : option physical; compute_work : bool }.
Record answer := Answer { a_v : R; a_f : arr; a_vir : ten }.

(** evaluate 999-1060; [len] is the length of the position array. *)
Definition evaluate (s : ffp) (len : nat) (pos : arr) (cell : ten) : option (ffp * answer) :=
  if negb (Nat.eqb len (3 * natoms s)) then None
  else
    let f0 := match sysforce s with Some p => p_f p | None => zero_arr end in
    let w0 := match sysforce s with Some p => (fun i j => - p_vir p i j) | None => zero_ten end in
    let en := match sysforce s with Some p => Some (p_pot p) | None => penergy s end in
    let box := fun i j => cell j i in
    let f1 := fun i => f0 i + dforce (px s) en pos box f0 i in
    let w1 := fun i j => w0 i j + dvirial (px s) en pos box w0 i j in
    let w2 := fun i j => w1 i j * - (1) in
    let f3 := match sysforce s with Some p => fun i => f1 i - p_f p i | None => f1 end in
    let w3 := match sysforce s with Some p => fun i j => w2 i j - - p_vir p i j | None => w2 end in
    Some (Ffp (px s) en pos box (pstep s) pos (natoms s) (sysforce s) (compute_work s),
          Answer (bias (px s) en pos box) f3 w3).

(** mtd_update 1062-1104. The request made at line 1087 is a dictionary: evaluate ends with the attribute error
    of line 1060. *)
Definition mtd_update (s : ffp) (len : nat) (pos : arr) (cell : ten) : option (ffp * R) :=
  if Rlt_dec (/ 10 ^ 10) (sqrt (Rsum len (fun i => (lastq s i - pos i) ^ 2))) then None
  else
    let before := if compute_work s then bias (px s) (penergy s) (ppos s) (pbox s) else 0 in
    let x := update (px s) (S (pstep s)) (penergy s) (ppos s) (pbox s) in
    let after := if compute_work s then bias x (penergy s) (ppos s) (pbox s) else 0 in
    Some (Ffp x (penergy s) (ppos s) (pbox s) (S (pstep s)) (lastq s) (natoms s) (sysforce s) (compute_work s), before - after).

(** ** Metadynamics: metad.py 62-101 *)
(** A component of the bias: its force field, its weight (the bweights are piped to it), the cached potentials of
    its beads. *)
Record comp := Comp { c_ff : nat; c_w : R; c_u : list R }.
(** One system: number of beads, components of the bias, eens, the centroid, the cell, the rest of the conserved
    quantity (ensembles.py get_econs). *)
Record sys := Sys { nbeads : nat; comps : list comp; eens : R; centroid : arr; qlen : nat; hcell : ten; rest : R }.
(** Forces.pot of the bias: the potentials are expanded to all beads and added up (area ForceNet, RPC). *)
Definition comp_pot (nb : nat) (c : comp) : R := c_w c * (INR nb / INR (List.length (c_u c)) * Rsuml (c_u c)).
Definition bias_pot (s : sys) : R := Rsuml (map (comp_pot (nbeads s)) (comps s)).
Definition econs (s : sys) : R := rest s + bias_pot s + eens s.
(** Line 96-101. *)
Definition lower (k : nat) (w : R) (c : comp) : comp := if Nat.eqb (c_ff c) k then Comp (c_ff c) (c_w c) (map (fun u => u - w) (c_u c)) else c.
(** Force fields: [None] has no mtd_update. *)
Definition fields := nat -> option ffp.
Definition set_field (F : fields) (k : nat) (s : ffp) : fields := fun i => if Nat.eqb i k then Some s else F i.
(** The body of the loop for component [ik], lines 66-101. *)
Definition metad_one (metaff : nat -> bool) (fs : fields * sys) (ik : nat) : option (fields * sys) :=
  let (F, s) := fs in
  match nth_error (comps s) ik with
  | None => Some fs
  | Some c =>
    if negb (metaff (c_ff c)) then Some fs
    else match F (c_ff c) with
         | None => None
         | Some p =>
           if Req_EM_T (c_w c) 0 then Some fs
           else match mtd_update p (qlen s) (centroid s) (hcell s) with
                | None => None
                | Some (p', w) =>
                  Some (set_field F (c_ff c) p',
                        Sys (nbeads s) (if Req_EM_T w 0 then comps s else map (lower (c_ff c) w) (comps s))
                            (eens s + w * INR (nbeads s)) (centroid s) (qlen s) (hcell s) (rest s))
                end
         end
  end.
Fixpoint metad_loop (metaff : nat -> bool) (fs : fields * sys) (l : list nat) : option (fields * sys) :=
  match l with
  | [] => Some fs
  | ik :: l => match metad_one metaff fs ik with None => None | Some fs => metad_loop metaff fs l end
  end.
Definition metad_step (metaff : nat -> bool) (F : fields) (s : sys) : option (fields * sys) :=
  metad_loop metaff (F, s) (seq 0 (List.length (comps s))).
(** bind 36-60 with use_energy: one system after the other sets system_force; [None]: more than one bead. *)
Fixpoint bind_energy (l : list (nat * physical)) (s : ffp) : option ffp :=
  match l with
  | [] => Some s
  | (nb, p) :: l => if Nat.ltb 1 nb then None
    else bind_energy l (Ffp (px s) (penergy s) (ppos s) (pbox s) (pstep s) (lastq s) (natoms s) (Some p) (compute_work s))
  end.
End Plumed.

(** ** plumed_extras: lines 976-986 *)
(** [rank] and [shape] are what PLUMED says of the variable. The shape is looked at before it is asked for. *)
Inductive extra := Accepted (size : list nat) | Value_error | Index_error.
Definition extra_init (rank : nat) (shape : list nat) : extra :=
  if Nat.ltb 1 rank then Value_error
  else match repeat 0%nat rank with
       | [] => Index_error
       | z :: _ => if Nat.ltb 1 z then Value_error else Accepted shape
       end.

(** ** Metadynamics in one collective variable *)
(** PLUMED's METAD: the bias is a sum of Gaussians of width [sg], one added at each update with height [h]. *)
Definition gauss (h sg c s : R) : R := h * exp (- (s - c) ^ 2 / (2 * sg ^ 2)).
Definition hills (sg : R) (l : list (R * R)) (s : R) : R := Rsuml (map (fun hc => gauss (fst hc) sg (snd hc) s) l).
