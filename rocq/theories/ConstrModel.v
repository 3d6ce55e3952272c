(** * Model of constrained molecular dynamics

    ipi/utils/constrtools.py (constraint functions, Jacobians, bookkeeping of indices) and
    ipi/engine/motion/constrained_dynamics.py 168-175 and 195-544 (solver and integrators).  There is one bead
    (bind 206-210 refuses others); coordinates, momenta and masses are functions of the flat index,
    floating point numbers are reals.  The linear solver of numpy or scipy is a parameter, as are
    the norm of the constraint values and the forces.  Depend objects are functions: g of the
    current positions of the constraint, Dg and Gram of the positions after the last projection.
    Left out: pconstraints (fixed atoms, momentum of the centre of mass) after the parts of a step. *)
From Coq Require Import List Arith Bool Reals.
From Verif Require Import RSum MinModel.
Import ListNotations.
Open Scope R_scope.

(** ** Indices, ConstraintBase 30-67 *)
(** np.unique *)
Fixpoint insert (a : nat) (l : list nat) : list nat :=
  match l with
  | [] => [a]
  | b :: l' => if a <? b then a :: l else if a =? b then l else b :: insert a l'
  end.
Fixpoint unique (l : list nat) : list nat := match l with [] => [] | a :: l' => insert a (unique l') end.
(** The dictionary i_reverse (line 51); [None] is a KeyError. *)
Fixpoint index_of (j : nat) (l : list nat) : option nat :=
  match l with
  | [] => None
  | a :: l' => if j =? a then Some O else match index_of j l' with Some i => Some (S i) | None => None end
  end.
Definition rev_index (l : list nat) (j : nat) : nat := match index_of j (unique l) with Some i => i | None => O end.
(** i3_unique, lines 54-61. *)
Definition three (u : nat) : list nat := [3 * u; 3 * u + 1; 3 * u + 2]%nat.
Definition i3 (l : list nat) : list nat := flat_map three l.
(** v[ic], and v[ic] -= d for indices without repetition. *)
Definition take (ic : list nat) (v : vec) : vec := fun i => v (nth i ic O).
Definition sub_at (ic : list nat) (v d : vec) : vec :=
  fun j => match index_of j ic with Some i => v j - d i | None => v j end.

(** A constraint, or a list of them that is solved together: the coordinates it acts on, the number
    of conditions, their values and Jacobian as functions of these coordinates. *)
Record group : Type := Group { ic : list nat; ncons : nat; gfun : vec -> vec; dgfun : vec -> mat }.
Definition dim (G : group) : nat := length (ic G).

(** ** RigidBondConstraint, lines 204-262: a list of pairs of atoms *)
Definition pair_atoms (l : list (nat * nat)) : list nat := flat_map (fun p => [fst p; snd p]) l.
Definition diff3 (q : vec) (u v : nat) : nat -> R := fun k => q (3 * u + k)%nat - q (3 * v + k)%nat.
Definition bond_g (l : list (nat * nat)) (d : vec) (q : vec) : vec := fun a =>
  let '(u, v) := nth a l (O, O) in
  let r := rev_index (pair_atoms l) in
  Rsum 3 (fun k => diff3 q (r u) (r v) k ^ 2) - d a ^ 2.
(** The second assignment (line 261) comes after the first. *)
Definition bond_dg (l : list (nat * nat)) (q : vec) : mat := fun a i =>
  let '(u, v) := nth a l (O, O) in
  let r := rev_index (pair_atoms l) in
  if (i / 3 =? r v)%nat then -2 * diff3 q (r u) (r v) (i mod 3)
  else if (i / 3 =? r u)%nat then 2 * diff3 q (r u) (r v) (i mod 3)
  else 0.
Definition bonds (l : list (nat * nat)) (d : vec) : group :=
  Group (i3 (unique (pair_atoms l))) (length l) (bond_g l d) (bond_dg l).
(** bind 222-227: without values, the distances of the first frame (the values are zero then). *)
Definition bond_values (l : list (nat * nat)) (q : vec) : vec :=
  fun a => sqrt (bond_g l (fun _ => 0) (take (i3 (unique (pair_atoms l))) q) a).

(** ** AngleConstraint, lines 265-327: a list of triples, the middle atom first *)
Notation trip := (nat * nat * nat)%type (only parsing).
Definition trip_atoms (l : list trip) : list nat := flat_map (fun '(u, v, w) => [u; v; w]) l.
Definition dot3 (a b : nat -> R) : R := Rsum 3 (fun k => a k * b k).
Definition angle_g (l : list trip) (theta : vec) (q : vec) : vec := fun a =>
  let '(u, v, w) := nth a l (O, O, O) in
  let r := rev_index (trip_atoms l) in
  let q1 := diff3 q (r v) (r u) in
  let q2 := diff3 q (r w) (r u) in
  dot3 q1 q2 / sqrt (dot3 q1 q1) / sqrt (dot3 q2 q2) - cos (theta a).
(** The three assignments of lines 324-326, the last of which wins. *)
Definition angle_dg (l : list trip) (q : vec) : mat := fun a i =>
  let '(u, v, w) := nth a l (O, O, O) in
  let r := rev_index (trip_atoms l) in
  let q1 := diff3 q (r v) (r u) in
  let r1 := sqrt (dot3 q1 q1) in
  let n1 := fun k => q1 k / r1 in
  let q2 := diff3 q (r w) (r u) in
  let r2 := sqrt (dot3 q2 q2) in
  let n2 := fun k => q2 k / r2 in
  let ct := dot3 n1 n2 in
  let dv := fun k => (n2 k - ct * n1 k) / r1 in
  let dw := fun k => (n1 k - ct * n2 k) / r2 in
  if (i / 3 =? r u)%nat then - (dv (i mod 3) + dw (i mod 3))
  else if (i / 3 =? r w)%nat then dw (i mod 3)
  else if (i / 3 =? r v)%nat then dv (i mod 3)
  else 0.
Definition angles (l : list trip) (theta : vec) : group :=
  Group (i3 (unique (trip_atoms l))) (length l) (angle_g l theta) (angle_dg l).

(** ** EckartConstraint, lines 330-445; [m] are the masses of its coordinates *)
Definition mtot (n : nat) (m : vec) : R := Rsum n (fun a => m (3 * a)%nat).
Definition ref_com (n : nat) (m qref : vec) (k : nat) : R :=
  Rsum n (fun a => qref (3 * a + k)%nat * m (3 * a + k)%nat) / mtot n m.
Definition mref (n : nat) (m qref : vec) : vec := fun i => (qref i - ref_com n m qref (i mod 3)) * m i.
(** numpy.cross of the three components of two rows. *)
Definition cross (a b : nat -> R) (k : nat) : R :=
  match k with
  | O => a 1%nat * b 2%nat - a 2%nat * b 1%nat
  | 1%nat => a 2%nat * b 0%nat - a 0%nat * b 2%nat
  | _ => a 0%nat * b 1%nat - a 1%nat * b 0%nat
  end.
Definition row (v : vec) (a : nat) : nat -> R := fun k => v (3 * a + k)%nat.
Definition eckart_g (n : nat) (m qref : vec) (q : vec) : vec := fun c =>
  let D := fun i => q i - qref i in
  if (c <? 3)%nat then Rsum n (fun a => m (3 * a + c)%nat * D (3 * a + c)%nat) / mtot n m
  else Rsum n (fun a => cross (row (mref n m qref) a) (row D a) (c - 3)) / mtot n m.
Definition eckart_dg (n : nat) (m qref : vec) : mat := fun c i =>
  let a := (i / 3)%nat in
  let k := (i mod 3)%nat in
  let x := row (mref n m qref) a in
  match c, k with
  | 0%nat, 0%nat | 1%nat, 1%nat | 2%nat, 2%nat => m i
  | 3%nat, 1%nat => - x 2%nat
  | 3%nat, 2%nat => x 1%nat
  | 4%nat, 0%nat => x 2%nat
  | 4%nat, 2%nat => - x 0%nat
  | 5%nat, 0%nat => - x 1%nat
  | 5%nat, 1%nat => x 0%nat
  | _, _ => 0
  end / mtot n m.
(** __init__ 344-346: the check for repeated atoms.  An array of one element is stretched by the
    comparison, other sizes are an error anyway. *)
Definition eckart_accepts (l : list nat) : bool :=
  match unique l with
  | [u] => forallb (fun a => a =? u)%nat l
  | us => if list_eq_dec Nat.eq_dec l us then true else false
  end.
Definition eckart (l : list nat) (m3 qref : vec) : group :=
  let c := i3 (unique l) in
  Group c 6 (eckart_g (length (unique l)) (take c m3) qref) (fun _ => eckart_dg (length (unique l)) (take c m3) qref).

(** ** ConstraintList, lines 448-538: the constraints with the indices they were given *)
Definition all_atoms (cs : list (list nat * group)) : list nat := unique (concat (map fst cs)).
(** ic3_map 472-479: where the coordinates of a constraint are in the compact list. *)
Definition ic3_map (all one : list nat) : list nat :=
  i3 (map (fun j => match index_of j all with Some i => i | None => O end) (unique one)).
(** The constraint, and the condition in it, for a condition of the list. *)
Fixpoint locate (cs : list (list nat * group)) (a : nat) : option (list nat * group * nat) :=
  match cs with
  | [] => None
  | c :: cs' => if (a <? ncons (snd c))%nat then Some (c, a) else locate cs' (a - ncons (snd c))
  end.
Definition joined (cs : list (list nat * group)) : group :=
  let all := all_atoms cs in
  Group (i3 all) (fold_right (fun c s => (ncons (snd c) + s)%nat) O cs)
    (fun q a => match locate cs a with
                | Some (l, G, b) => gfun G (take (ic3_map all l) q) b
                | None => 0
                end)
    (fun q a j => match locate cs a with
                  | Some (l, G, b) => match index_of j (ic3_map all l) with
                                      | Some i => dgfun G (take (ic3_map all l) q) b i
                                      | None => 0
                                      end
                  | None => 0
                  end).

(** ** ConstraintSolver, constrained_dynamics.py 237-336 *)
Section solver.
Variable solve : nat -> mat -> vec -> vec.
Variable nrm : nat -> vec -> R.
Variable m3 : vec.
Variable tol : R.
Variable maxit : nat.

(** Gfunc, constrtools.py 135-141. *)
Definition gram (G : group) (dg : mat) : mat :=
  fun a b => Rsum (dim G) (fun i => dg a i * (dg b i / take (ic G) m3 i)).
Definition push (G : group) (dg : mat) (x : vec) : vec := fun i => Rsum (ncons G) (fun a => dg a i * x a).
(** proj_cotangent 264-285; [Q] are the positions after the last projection (qprev). *)
Definition cot_one (Q : vec) (p : vec) (G : group) : vec :=
  let dg := dgfun G (take (ic G) Q) in
  let b := fun a => Rsum (dim G) (fun i => dg a i * (take (ic G) p i / take (ic G) m3 i)) in
  let x := solve (ncons G) (gram G dg) b in
  sub_at (ic G) p (push G dg x).
Definition proj_cotangent (Gs : list group) (Q p : vec) : vec := fold_left (cot_one Q) Gs p.

(** proj_manifold 287-336: the iteration of one constraint.  The third result is the loop variable
    afterwards, the last tells whether the loop was left by break. *)
Fixpoint newton (G : group) (dg : mat) (dt : R) (left k : nat) (i : option nat) (q p : vec) : vec * vec * option nat * bool :=
  match left with
  | O => (q, p, i, false)
  | S left' =>
      let g := gfun G (take (ic G) q) in
      if Rlt_dec (nrm (ncons G) g) tol then (q, p, Some k, true)
      else
        let delta := push G dg (solve (ncons G) (gram G dg) g) in
        newton G dg dt left' (S k) (Some k)
          (sub_at (ic G) q (fun i => delta i / take (ic G) m3 i)) (sub_at (ic G) p (fun i => delta i / dt))
  end.
(** One constraint after the other: positions, momenta, loop variable, number of warnings, and
    whether all loops were left by break. [None]: the loop variable is not defined (line 326). *)
Record pos_out : Type := PosOut { o_q : vec; o_p : vec; o_i : option nat; o_warn : nat; o_conv : bool }.
Definition man_one (Q : vec) (dt : R) (s : option pos_out) (G : group) : option pos_out :=
  match s with
  | None => None
  | Some s =>
      let dg := dgfun G (take (ic G) Q) in
      let '(q, p, i, c) := newton G dg dt maxit 0 (o_i s) (o_q s) (o_p s) in
      match i with
      | None => None
      | Some k => Some (PosOut q p i (if Nat.eqb k maxit then S (o_warn s) else o_warn s) (andb (o_conv s) c))
      end
  end.
Definition proj_manifold (Gs : list group) (Q : vec) (dt : R) (q p : vec) : option pos_out :=
  fold_left (man_one Q dt) Gs (Some (PosOut q p None 0 true)).

(** ** Integrators, constrained_dynamics.py 339-544.  [s_ok]: all projections of positions so far
    converged (for the statements; the program does not know). *)
Record state : Type := St { s_q : vec; s_p : vec; s_prev : vec; s_ok : bool }.
Variable Gs : list group.
Variable force : nat -> vec -> vec.
Variable pdt : nat -> R.
Variable qdt : R.
Variable nsteps_geo : nat.
Definition do_cot (s : state) : state := St (s_q s) (proj_cotangent Gs (s_prev s) (s_p s)) (s_prev s) (s_ok s).
(** step_A 399-401; qdt is divided by the number of substeps (354-356), and it is the time step of the
    solver (380). *)
Definition step_A (s : state) : state :=
  St (fun i => s_q s i + s_p s i / m3 i * qdt) (s_p s) (s_prev s) (s_ok s).
Definition do_man (s : state) : option state :=
  match proj_manifold Gs (s_prev s) qdt (s_q s) (s_p s) with
  | None => None
  | Some o => Some (St (o_q o) (o_p o) (o_q o) (s_ok s && o_conv o))
  end.
(** step_B, step_Bc 403-411 *)
Definition step_B (level : nat) (s : state) : state :=
  St (s_q s) (fun i => s_p s i + force level (s_q s) i * pdt level) (s_prev s) (s_ok s).
Definition step_Bc (level : nat) (s : state) : option state := Some (do_cot (step_B level s)).
(** step_Ag 413-427 *)
Definition and_then (f g : state -> option state) : state -> option state :=
  fun s => match f s with Some s' => g s' | None => None end.
Fixpoint times (n : nat) (f : state -> option state) : state -> option state :=
  match n with O => fun s => Some s | S n' => and_then f (times n' f) end.
Definition geo (s : state) : option state :=
  match do_man (step_A s) with Some s' => Some (do_cot s') | None => None end.
Definition step_Ag (s : state) : option state := times nsteps_geo geo (do_cot s).
(** mtsprop_ba, mtsprop_ab, mtsprop 429-490: both halves, for the levels from [index] on.  An empty
    list does not occur. *)
Fixpoint halves (index : nat) (nmts : list nat) : (state -> option state) * (state -> option state) :=
  match nmts with
  | [] => (fun s => Some s, fun s => Some s)
  | n :: l =>
      let Bc := step_Bc index in
      let '(ba, ab) := halves (S index) l in
      let once_ba := match l with [] => step_Ag | _ => ba end in
      let once_ab := match l with [] => step_Ag | _ => ab end in
      let twice := match l with [] => and_then step_Ag step_Ag | _ => and_then ba ab end in
      let full := and_then Bc (and_then twice Bc) in
      (and_then (times (n / 2) full) (if Nat.odd n then and_then Bc once_ba else fun s => Some s),
       and_then (if Nat.odd n then and_then once_ab Bc else fun s => Some s) (times (n / 2) full))
  end.
Definition nve_step (nmts : list nat) : state -> option state :=
  and_then (fst (halves 0 nmts)) (snd (halves 0 nmts)).

(** step_Oc 512-528: the thermostat changes the momenta; the second number is eens. *)
Variable natoms3 : nat.
Definition kin2 (p : vec) : R := Rsum natoms3 (fun j => p j * (p j / m3 j)) * (1 / 2).
Fixpoint step_Oc (thermo : nat -> vec -> vec) (n : nat) (s : state) (eens : R) : state * R :=
  match n with
  | O => (s, eens)
  | S n' =>
      let s1 := St (s_q s) (thermo n (s_p s)) (s_prev s) (s_ok s) in
      let s2 := do_cot s1 in
      step_Oc thermo n' s2 (eens + kin2 (s_p s1) - kin2 (s_p s2))
  end.
(** step 530-544 *)
Inductive splitting := Obabo | Baoab.
Definition nvt_step (sp : splitting) (th1 th2 : nat -> vec -> vec) (nsteps_o : nat) (nmts : list nat) (s : state) (eens : R)
  : option (state * R) :=
  match sp with
  | Obabo =>
      let '(s1, e1) := step_Oc th1 nsteps_o s eens in
      match nve_step nmts s1 with
      | None => None
      | Some s2 => Some (step_Oc th2 nsteps_o s2 e1)
      end
  | Baoab =>
      match fst (halves 0 nmts) s with
      | None => None
      | Some s1 =>
          let '(s2, e2) := step_Oc th1 nsteps_o s1 eens in
          match snd (halves 0 nmts) s2 with
          | None => None
          | Some s3 => Some (s3, e2)
          end
      end
  end.
End solver.

(** ** get_fixdof, constrained_dynamics.py 168-175 *)
Definition fixdof (base : nat) (Gs : list group) : nat := fold_left (fun n G => (n + ncons G)%nat) Gs base.
