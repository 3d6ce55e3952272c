(** * Model of normal modes, force components and ensembles in checkpoints

    ipi/inputs/normalmodes.py, ipi/inputs/forces.py, ipi/inputs/ensembles.py with the constructors in ipi/engine and the parts
    of bind that change what is stored.  A is the type of numbers, of which only the number one is used; that values are
    written and read without loss is area Inp.  None is an exception. *)
From Coq Require Import List Arith ZArith Lia Bool String.
From Verif Require Import ExchNM.
Import ListNotations.

Section Inputs.
Context {A : Type} (one : A).

(** ** Normal modes *)
(** normalmodes.py:407-435: bosons as read are a list and what it means, later they are indices.  Labels are numbers. *)
Inductive bosons := Read (label : bool) (l : list nat) | Indices (l : list nat).
Record modes := Modes { style : string; transform : string; propagator : string; freqs : list A; open_paths : list nat;
  bose : bosons; dt : A; nmts : Z; threads : Z; float32 : bool }.
Record modes_input := ModesInput { i_style : string; i_transform : string; i_propagator : string; i_freqs : list A; i_open : list nat;
  i_bosons : list nat; i_label : bool; i_nmts : Z; i_threads : Z; i_float32 : bool }.
(** inputs/normalmodes.py:109-119, 218-226; a pair has no shape. *)
Definition store_modes (n : modes) : option modes_input :=
  match bose n with
  | Read _ _ => None
  | Indices l => Some (ModesInput (style n) (transform n) (propagator n) (freqs n) (open_paths n) l false (nmts n) (threads n) (float32 n))
  end.
(** inputs/normalmodes.py:121-126, 228-240; engine/normalmodes.py:80-122 *)
Definition fetch_modes (i : modes_input) : modes :=
  Modes (i_style i) (i_transform i) (i_propagator i) (i_freqs i) (i_open i) (Read (i_label i) (i_bosons i)) one (i_nmts i) (i_threads i) (i_float32 i).
(** engine/normalmodes.py:149-176: the time step is that of the motion. *)
Definition bind_modes (natoms : nat) (name : nat -> nat) (step : A) (n : modes) : option modes :=
  let put l := Modes (style n) (transform n) (propagator n) (freqs n) (open_paths n) (Indices l) step (nmts n) (threads n) (float32 n) in
  match bose n with
  | Indices l => Some (put l)
  | Read true l => option_map put (resolve_labels natoms name l)
  | Read false l => option_map put (resolve_bosons natoms l)
  end.
(** engine/normalmodes.py:124-147 *)
Definition copy_modes (f : option (list A)) (n : modes) : modes :=
  Modes (style n) (transform n) (propagator n) (match f with Some l => l | None => freqs n end) (open_paths n) (bose n) (dt n) (nmts n) (threads n) (float32 n).

(** ** Force components *)
(** engine/forces.py:287-327 *)
Record comp := Comp { field : string; beads : Z; weight : A; name : string; mts : list A; extras : list string; eps : A }.
Record comp_input := CompInput { c_beads : Z; c_weight : A; c_mts : list A; c_extras : list string; c_eps : A; c_name : string; c_field : string }.
(** inputs/forces.py:98-113 *)
Definition store_comp (c : comp) : comp_input := CompInput (beads c) (weight c) (mts c) (extras c) (eps c) (name c) (field c).
(** inputs/forces.py:115-140 *)
Definition fetch_comp (i : comp_input) : option comp :=
  if Z.ltb (c_beads i) 0 then None else Some (Comp (c_field i) (c_beads i) (c_weight i) (c_name i) (c_mts i) (c_extras i) (c_eps i)).
(** inputs/forces.py:173-194: slots of an earlier list of the same length are used again. *)
Fixpoint fill (l : list comp) (extra : list (option comp_input)) : list (option comp_input) :=
  match l, extra with
  | c :: r, _ :: e => Some (store_comp c) :: fill r e
  | [], e => e
  | _ :: _, [] => []
  end.
Definition store_forces (l : list comp) (extra : list (option comp_input)) : list (option comp_input) :=
  fill l (if Nat.eqb (List.length extra) (List.length l) then extra else repeat None (List.length l)).
(** inputs/forces.py:160-171 *)
Fixpoint fetch_forces (l : list (option comp_input)) : option (list comp) :=
  match l with
  | [] => Some []
  | None :: _ => None
  | Some i :: r => match fetch_comp i, fetch_forces r with Some c, Some cs => Some (c :: cs) | _, _ => None end
  end.

(** ** Ensembles *)
Record ens := Ens { temp : A; pext : A; stress : list A; eens : A; bias : list comp; bweights : list A; hweights : list A; time : A }.
(** engine/ensembles.py:72-139, with all arguments given. *)
Definition new_ens (e t p : A) (s : list A) (b : list comp) (bw hw : list A) (tm : A) : ens :=
  Ens t p s e b (match bw with [] => repeat one (List.length b) | _ => bw end) hw tm.
Record ens_input := EnsInput { e_temp : A; e_pext : A; e_stress : list A; e_eens : A; e_bias : list (option comp_input); e_bweights : list A; e_hweights : list A; e_time : A }.
(** inputs/ensembles.py:112-127 *)
Definition store_ens (n : ens) : ens_input :=
  EnsInput (temp n) (pext n) (stress n) (eens n) (store_forces (bias n) []) (bweights n) (hweights n) (time n).
(** inputs/ensembles.py:129-150 *)
Definition fetch_ens (i : ens_input) : option ens :=
  option_map (fun b => new_ens (e_eens i) (e_temp i) (e_pext i) (e_stress i) b (e_bweights i) (e_hweights i) (e_time i)) (fetch_forces (e_bias i)).
(** engine/ensembles.py:200-204 *)
Definition bind_ens (nforces : nat) (n : ens) : ens :=
  Ens (temp n) (pext n) (stress n) (eens n) (bias n) (bweights n) (match hweights n with [] => repeat one nforces | w => w end) (time n).
End Inputs.
