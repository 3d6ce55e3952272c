(* Model of the first stage of initialisation.

   ipi/engine/initializer.py: init_beads 175-201, init_vector 204-242,
   set_vector 245-294, Initializer.init_stage1 346-598; ipi/engine/beads.py: resize 70-140, mtom3 192-205.

   Arrays are functions of bead and column with their sizes beside (NMModel);
   floats are reals.  What is read from files is a parameter: the frames of a
   file and the contents of a checkpoint, already in internal units.  Values
   given by hand come with the factor of their units.  An error of python or
   numpy is None.  numpy's stretching of arrays of length one is modelled
   where it is reachable.  Negative indices mean "all", here None.  Atom
   labels are not cut to six characters; gle commands belong to the second
   stage.  Random numbers are a parameter of the command. *)
From Coq Require Import String List Reals Arith Bool.
From Verif Require Import RSum NMModel.
Import ListNotations.
Local Open Scope R_scope.

(* ---------------- data to initialise from ---------------- *)

Inductive source :=
  | Hand (vs : list R) (unit : R)                                   (* mode manual, numbers *)
  | HandNames (ns : list string)                                    (* mode manual, strings *)
  | Frames (nb na : nat) (x : mat) (ms : nat -> R) (ns : nat -> string)     (* xyz, pdb, ase *)
  | Chk (nb na : nat) (q p : mat) (ms : nat -> R) (ns : nat -> string).     (* checkpoint *)

(* init_vector 204-242: beads, atoms and values.  For values by hand the unit
   is not used (line 231).  By hand, for one bead: a single row *)
Definition init_vector (s : source) (nbeads : nat) (momenta : bool) (bead : option nat) : option (nat * nat * mat) :=
  match s with
  | Frames nb na x _ _ => Some (nb, na, x)
  | Chk nb na q p _ _ => Some (nb, na, if momenta then p else q)
  | Hand vs _ =>
      let nb := match bead with Some _ => 1%nat | None => nbeads end in
      let na := (length vs / (nb * 3))%nat in
      if Nat.eqb (length vs) (nb * (3 * na)) then Some (nb, na, fun i j => nth (i * (3 * na) + j) vs 0) else None
  | HandNames _ => None
  end.

(* set_vector 245-294.  dq has dbeads rows of 3*datoms columns *)
Definition set_vector (index bead : option nat) (dbeads datoms : nat) (dq : mat) (src : nat * nat * mat) : option mat :=
  let '(nb, na, rq) := src in
  let col k c := (3 * k <=? c)%nat && (c <? 3 * (k + 1))%nat in
  if match index with None => negb (Nat.eqb na datoms) | Some k => (datoms <=? k)%nat end then None
  else if match bead with None => false | Some b => (dbeads <=? b)%nat end then None
  else match bead, index with
  | None, None => Some (rescale_b1tob2 nb dbeads [] true rq)
  | None, Some k =>
      if negb (Nat.eqb na 1) then None
      else let res := rescale_b1tob2 nb dbeads [] true rq in
           Some (fun i c => if col k c then res i (c - 3 * k)%nat else dq i c)
  | Some b, None =>
      if negb (Nat.eqb nb 1) then None
      else Some (fun i c => if Nat.eqb i b then rq 0%nat c else dq i c)
  | Some b, Some k =>
      if negb (Nat.eqb nb 1 && Nat.eqb na 1) then None
      else Some (fun i c => if Nat.eqb i b && col k c then rq 0%nat (c - 3 * k)%nat else dq i c)
  end.

(* ---------------- the system ---------------- *)

Record sys := Sys {
  nb : nat; na : nat;                    (* 0 beads: nothing yet *)
  q : mat; p : mat; m : nat -> R; names : nat -> string;
  h : mat;                               (* cell, upper triangular *)
  fpos : bool; fmom : bool; fmass : bool; flab : bool; fcell : bool
}.
Definition vol (h : mat) : R := h 0%nat 0%nat * h 1%nat 1%nat * h 2%nat 2%nat.   (* Cell.get_volume *)
Definition m3 (s : sys) (c : nat) : R := m s (c / 3).                          (* mtom3 *)

(* Beads.resize: everything is zero again *)
Definition resize (s : sys) (natoms nbeads : nat) : sys :=
  Sys nbeads natoms (fun _ _ => 0) (fun _ _ => 0) (fun _ => 0) (fun _ => ""%string) (h s)
      (fpos s) (fmom s) (fmass s) (flab s) (fcell s).

Inductive cell_source :=
  | HandCell (h : mat) (unit : R)
  | FileCell (h : mat).              (* trace -3: no cell in the file *)

(* thermal: temperature asked for, and the simulation's; mass factors of the
   normal modes; random numbers *)
Inductive command :=
  | Cell (c : cell_source)
  | Masses (s : source) (index bead : option nat)
  | Labels (s : source) (index bead : option nat)
  | Positions (s : source) (index bead : option nat)
  | Thermal (temp : R) (g : mat) (index bead : option nat)
  | Momenta (s : source) (index bead : option nat)
  | Velocities (s : source) (index bead : option nat)
  | Gle.

(* assigning an array of n values to an array of na: equal length, or one *)
Definition stretch {A} (n na : nat) (x : nat -> A) : option (nat -> A) :=
  if Nat.eqb n na then Some x else if Nat.eqb n 1 then Some (fun _ => x 0%nat) else None.
(* a[k:k+1] = x: beyond the end the slice is empty and nothing happens *)
Definition set_one {A} (n na k : nat) (x a : nat -> A) : option (nat -> A) :=
  if negb (Nat.eqb n 1) then None
  else Some (fun i => if Nat.eqb i k then x 0%nat else a i).

Section Init.
Variable nbeads : nat.             (* Initializer.nbeads *)
Variable ens_temp : R.             (* ensemble temperature *)
Variable nm_factor : nat -> R.     (* dynamical mass factor of a mode *)

Definition with_q (s : sys) (x : mat) := Sys (nb s) (na s) x (p s) (m s) (names s) (h s) true (fmom s) (fmass s) (flab s) (fcell s).
Definition with_p (s : sys) (x : mat) := Sys (nb s) (na s) (q s) x (m s) (names s) (h s) (fpos s) true (fmass s) (flab s) (fcell s).

(* 374-396 *)
Definition do_cell (s : sys) (c : cell_source) : option sys :=
  let set x := Some (Sys (nb s) (na s) (q s) (p s) (m s) (names s) x (fpos s) (fmom s) (fmass s) (flab s) true) in
  match c with
  | HandCell x u => set (fun i j => x i j * u)
  | FileCell x => if Req_EM_T (x 0%nat 0%nat + x 1%nat 1%nat + x 2%nat 2%nat) (-3) then Some s else set x
  end.

(* 397-427 *)
Definition do_masses (s : sys) (src : source) (index bead : option nat) : option sys :=
  if Nat.eqb (nb s) 0 then None
  else match (match src with
              | Hand vs u => Some (length vs, fun i => nth i vs 0 * u)
              | HandNames _ => None
              | Frames _ n _ ms _ | Chk _ n _ _ ms _ => Some (n, ms)
              end) with
  | None => None
  | Some (n, rm) =>
      match bead with
      | Some _ => None
      | None =>
          let scale := fmom s && fmass s in
          let p1 := if scale then (fun i c => p s i c / sqrt (m3 s c)) else p s in
          match (match index with None => stretch n (na s) rm | Some k => set_one n (na s) k rm (m s) end) with
          | None => None
          | Some m' =>
              let p2 := if scale then (fun i c => p1 i c * sqrt (m' (c / 3)%nat)) else p1 in
              Some (Sys (nb s) (na s) (q s) p2 m' (names s) (h s) (fpos s) (fmom s) true (flab s) (fcell s))
          end
      end
  end.

(* 428-448 *)
Definition do_labels (s : sys) (src : source) (index bead : option nat) : option sys :=
  if Nat.eqb (nb s) 0 then None
  else match (match src with
              | HandNames ns => Some (length ns, fun i => nth i ns ""%string)
              | Hand _ _ => None
              | Frames _ n _ _ ns | Chk _ n _ _ _ ns => Some (n, ns)
              end) with
  | None => None
  | Some (n, rn) =>
      match bead with
      | Some _ => None
      | None =>
          match (match index with None => stretch n (na s) rn | Some k => set_one n (na s) k rn (names s) end) with
          | None => None
          | Some n' => Some (Sys (nb s) (na s) (q s) (p s) (m s) n' (h s) (fpos s) (fmom s) (fmass s) true (fcell s))
          end
      end
  end.

(* 449-469 and 534-554: the size of the system is taken from the first vector *)
Definition sized (s : sys) (index : option nat) (natoms : nat) : option sys :=
  if Nat.eqb (nb s) 0 then match index with Some _ => None | None => Some (resize s natoms nbeads) end else Some s.

Definition do_positions (s : sys) (src : source) (index bead : option nat) : option sys :=
  match init_vector src nbeads false bead with
  | None => None
  | Some (rb, ra, rq) =>
      match sized s index ra with
      | None => None
      | Some s => match set_vector index bead (nb s) (na s) (q s) (rb, ra, rq) with
                  | None => None
                  | Some x => Some (with_q s x)
                  end
      end
  end.

Definition scaled (f : R) (x : mat) : mat := fun i c => x i c * f.
Definition do_momenta (s : sys) (src : source) (index bead : option nat) : option sys :=
  match init_vector src nbeads true bead with
  | None => None
  | Some (rb, ra, rp) =>
      match sized s index ra with
      | None => None
      | Some s => match set_vector index bead (nb s) (na s) (p s) (rb, ra, scaled (sqrt (INR nbeads / INR rb)) rp) with
                  | None => None
                  | Some x => Some (with_p s x)
                  end
      end
  end.

(* 555-581: the ValueError is built, not raised, and init_vector is called
   without momenta *)
Definition do_velocities (s : sys) (src : source) (index bead : option nat) : option sys :=
  match init_vector src nbeads false bead with
  | None => None
  | Some (rb, ra, rv) =>
      let s := if Nat.eqb (nb s) 0 || negb (fmass s) then resize s ra nbeads else s in
      match (match index with
             | Some k => if (na s <=? k)%nat then None else Some (fun i c => rv i c * m s k)
             | None => if Nat.eqb ra (na s) then Some (fun i c => rv i c * m3 s c) else None
             end) with
      | None => None
      | Some rv =>
          match set_vector index bead (nb s) (na s) (p s) (rb, ra, scaled (sqrt (INR nbeads / INR rb)) rv) with
          | None => None
          | Some x => Some (with_p s x)
          end
      end
  end.

(* 470-533; kb is 1 *)
Definition do_thermal (s : sys) (temp : R) (g : mat) (index bead : option nat) : option sys :=
  if Nat.eqb (na s) 0 then None
  else if negb (fmass s) then None
  else match bead with
  | Some _ => None
  | None =>
      let rtemp := if Rle_dec temp 0 then ens_temp else temp in
      let draw (mass : nat -> R) : mat :=
        nm_trans_nm2b (nb s) [] (fun k c => g k c * sqrt (nm_factor k * mass c) * sqrt (INR (nb s) * rtemp)) in
      match index with
      | None => Some (with_p s (draw (m3 s)))
      | Some k =>
          if (na s <=? k)%nat then None
          else let x := draw (fun _ => m s k) in
               Some (with_p s (fun i c => if (3 * k <=? c)%nat && (c <? 3 * (k + 1))%nat then x i (c - 3 * k)%nat else p s i c))
      end
  end.

Definition step (s : sys) (c : command) : option sys :=
  match c with
  | Cell c => do_cell s c
  | Masses x i b => do_masses s x i b
  | Labels x i b => do_labels s x i b
  | Positions x i b => do_positions s x i b
  | Thermal t g i b => do_thermal s t g i b
  | Momenta x i b => do_momenta s x i b
  | Velocities x i b => do_velocities s x i b
  | Gle => Some s
  end.
Fixpoint steps (s : sys) (cs : list command) : option sys :=
  match cs with nil => Some s | c :: cs => match step s c with Some s => steps s cs | None => None end end.

(* 585-593 *)
Definition complete (s : sys) : bool :=
  negb (Nat.eqb (na s) 0) && (if Req_EM_T (vol (h s)) 0 then false else true) &&
  forallb (fun i => (if Rle_dec (m s i) 0 then false else true) && negb (String.eqb (names s i) "")) (seq 0 (na s)).
Definition init_stage1 (s : sys) (cs : list command) : option sys :=
  match steps s cs with Some s => if complete s then Some s else None | None => None end.
End Init.

(* no beads in the input; the cell is zero *)
Definition nothing : sys :=
  Sys 0 0 (fun _ _ => 0) (fun _ _ => 0) (fun _ => 0) (fun _ => ""%string) (fun _ _ => 0) false false false false false.
