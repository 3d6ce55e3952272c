(** * Model of the barostats (ipi/engine/barostats.py) and of the constant pressure integrators
    (ipi/engine/motion/dynamics.py 613-676, 759-836)

    Floating point numbers are real numbers.  The beads are given by the centroid and the
    deviations from it: the position of bead [b] along coordinate [c] (three per atom) is
    [qc c + dq b c].  Normal mode 0 is [sqrt nbeads] times the centroid (area NM), so a
    change of mode 0 alone is a change of the centroid alone, and the other modes only change the
    deviations.  Boltzmann's constant times the temperature of the simulation (beads.nbeads times
    the physical one, dynamics.py 235-238) is [kT]. *)
From Coq Require Import List Arith Lia Reals Lra String.
From Verif Require Import RSum CellModel.
Import ListNotations.
Open Scope R_scope.

Definition vec := nat -> R.
(** What does not change during a run. [m]: masses of the atoms. [nlev]: number of levels of
    forces (nmtslevels). [force l q h] are mts_forces[l].f and [vir l q h] is mts_forces[l].vir,
    the sum over beads; [bias] is the bias (None: has_bias is False, and its forces are zero). *)
Record sys : Type := Sys
  { nb : nat; natoms : nat; m : vec; kT : R; pext : R; wmass : R; nlev : nat; frozen : list nat;
    force : nat -> (nat -> vec) -> mat3 -> nat -> vec;
    vir : nat -> (nat -> vec) -> mat3 -> mat3;
    bias : option (((nat -> vec) -> mat3 -> nat -> vec) * ((nat -> vec) -> mat3 -> mat3)) }.
(** Atoms and cell. *)
Record atm : Type := Atm { qc : vec; pc : vec; dq : nat -> vec; dp : nat -> vec; hh : mat3 }.
Definition pos (s : atm) : nat -> vec := fun b c => qc s c + dq s b c.
Definition vol (s : atm) : R := det_ut3x3 (hh s).

Section Baro.
Variable y : sys.
Notation n3 := (3 * natoms y)%nat.
Definition m3 (c : nat) : R := m y (c / 3)%nat.
Definition innermost (l : nat) : bool := Nat.eqb l (nlev y - 1).
(** kstress_mts 304-307, stress_mts 387-389: the bias comes with level 0. *)
Definition fbias (l : nat) (s : atm) : nat -> vec :=
  match bias y with Some (f, _) => if Nat.eqb l 0 then f (pos s) (hh s) else fun _ _ => 0 | None => fun _ _ => 0 end.
Definition bvir (l : nat) (s : atm) : mat3 :=
  match bias y with Some (_, v) => if Nat.eqb l 0 then v (pos s) (hh s) else fun _ _ => 0 | None => fun _ _ => 0 end.
Definition fall (l : nat) (s : atm) : nat -> vec := fun b c => force y l (pos s) (hh s) b c + fbias l s b c.
(** kstress_mts 299-328: -(q - qc)^T f, and on the diagonal, at the innermost level, the kinetic
    term of the centroid. *)
Definition kin_diag (s : atm) (i : nat) : R := Rsum (natoms y) (fun a => pc s (3 * a + i)%nat * (pc s (3 * a + i)%nat / m y a)) * INR (nb y).
Definition kstress (f : nat -> vec) (s : atm) : mat3 := fun i j =>
  - Rsum (nb y) (fun b => Rsum (natoms y) (fun a => dq s b (3 * a + i)%nat * f b (3 * a + j)%nat)).
Definition kstress_mts (l : nat) (s : atm) : mat3 := fun i j =>
  kstress (fall l s) s i j + (if innermost l then if Nat.eqb i j then kin_diag s i else 0 else 0).
(** stress_mts 382-393 *)
Definition stress_mts (l : nat) (s : atm) : mat3 := fun i j =>
  (kstress_mts l s i j + vir y l (pos s) (hh s) i j + bvir l s i j) / vol s.
Definition trace (A : mat3) : R := A 0%nat 0%nat + A 1%nat 1%nat + A 2%nat 2%nat.

(** ** NVEIntegrator.pstep, dynamics.py 423-439: the kick of the atoms. The forces of all beads:
    the centroid gets their mean. *)
Definition is_frozen (c : nat) : bool := existsb (Nat.eqb c) (frozen y).
Definition mean (f : nat -> vec) : vec := fun c => Rsum (nb y) (fun b => f b c) / INR (nb y).
Definition kicked (f : nat -> vec) (dt : R) (s : atm) : atm :=
  let g := fun b c => if is_frozen c then 0 else f b c * dt in
  Atm (qc s) (fun c => pc s c + mean g c) (dq s) (fun b c => dp s b c + (g b c - mean g c)) (hh s).
Definition kick (l : nat) (dt : R) (s : atm) : atm := kicked (fall l s) dt s.

(** ** BaroBZP, 429-626 *)
(** fc (601): forces of the level, without the bias, and of frozen atoms as well. *)
Definition fc (l : nat) (s : atm) : vec := mean (force y l (pos s) (hh s)).
Definition dotm (u v : vec) : R := Rsum n3 (fun c => u c * (v c / m3 c)).
(** pstep 573-604: [dt] is pdt[level]. *)
Definition bzp_pstep (l : nat) (dt : R) (s : atm) (P : R) : R :=
  let press := trace (stress_mts l s) / 3 in
  let P1 := P + dt * 3 * (vol s * press) in
  if innermost l then
    let P2 := P1 + 3 * dt * (vol s * (0 - INR (nb y) * pext y) + kT y) in
    P2 + (dotm (pc s) (fc l s) + dt / 3 * dotm (fc l s) (fc l s)) * (dt * dt * INR (nb y))
  else P1.
(** qcstep 606-623. [None]: with a barostat at rest the quotient is 0 / 0, nan in numpy, and so
    are all positions. *)
Definition bzp_qcstep (dt : R) (s : atm) (P : R) : option atm :=
  let v := P / wmass y in
  if Req_EM_T v 0 then None
  else
    let expq := exp (v * dt) in let expp := exp (- v * dt) in
    Some (Atm (fun c => qc s c * expq + (expq - expp) / (2 * v) * (pc s c / m3 c)) (fun c => expp * pc s c)
              (dq s) (dp s) (fun i j => hh s i j * expq)).
(** kin, pot and cell_jacobian (530-571), with the heat of the thermostat left out. *)
Definition bzp_ebaro (s : atm) (P : R) : R :=
  1 / 2 * P ^ 2 / wmass y + vol s * pext y * INR (nb y) + - 1 * ln (vol s) * kT y.
(** NPTIntegrator.pstep, dynamics.py 641-642: barostat first, then the atoms. *)
Definition npt_pstep (l : nat) (dt : R) (x : atm * R) : atm * R :=
  let '(s, P) := x in let P' := bzp_pstep l dt s P in (kick l dt s, P').

(** ** BaroSCBZP, 628-842: forces and virials scaled bead by bead (coeffsc_part_1 is -1/3 and
    1/3 in turn). [virs l q h b] is the virial of one bead. *)
Definition coeffsc (b : nat) : R := if Nat.eqb (b mod 2) 0 then - (1 / 3) else 1 / 3.
Definition sc_force (f : nat -> vec) : nat -> vec := fun b c => f b c * (1 + coeffsc b).
Definition sc_vir (virs : nat -> mat3) : mat3 := fun i j => Rsum (nb y) (fun b => virs b i j * (1 + coeffsc b)).
(** kstress_mts_sc 267-297 and stress_mts_sc 363-380: the bias is added with its forces not
    scaled. *)
Definition kstress_mts_sc (l : nat) (s : atm) : mat3 := fun i j =>
  kstress (fun b c => sc_force (force y l (pos s) (hh s)) b c + fbias l s b c) s i j + (if innermost l then if Nat.eqb i j then kin_diag s i else 0 else 0).
Definition stress_mts_sc (virs : nat -> (nat -> vec) -> mat3 -> nat -> mat3) (l : nat) (s : atm) : mat3 := fun i j =>
  (kstress_mts_sc l s i j + sc_vir (virs l (pos s) (hh s)) i j + bvir l s i j) / vol s.
Definition scbzp_pstep (virs : nat -> (nat -> vec) -> mat3 -> nat -> mat3) (l : nat) (dt : R) (s : atm) (P : R) : R :=
  let dt2 := dt ^ 2 in let dt3 := dt ^ 3 / 3 in
  let press := trace (stress_mts_sc virs l s) / 3 in
  let P1 := P + dt * 3 * (vol s * press) in
  if innermost l then
    let P2 := P1 + dt * 3 * (vol s * (0 - INR (nb y) * pext y) + kT y) in
    let fc := mean (sc_force (force y l (pos s) (hh s))) in
    P2 + (dt2 * dotm (pc s) fc + dt3 * dotm fc fc) * INR (nb y)
  else P1.
(** pscstep 773-779 with stress_sc 357-361 and kstress_sc 330-346; [f2], [vir2]: fsc_part_2 and
    the sum of virssc_part_2. The time step is half of that of the simulation. *)
Definition stress_sc (f2 : nat -> vec) (vir2 : mat3) (s : atm) : mat3 := fun i j => (kstress f2 s i j + vir2 i j) / vol s.
Definition scbzp_pscstep (f2 : nat -> vec) (vir2 : mat3) (halfdt : R) (s : atm) (P : R) : R :=
  P + halfdt * 3 * (vol s * (trace (stress_sc f2 vir2 s) / 3)).

(** ** BaroRGB and BaroMTK, 844-1433 *)
(** mask_from_fix 34-60 *)
Definition entries (f : string) : option (list (nat * nat)) :=
  if String.eqb f "xx" then Some [(0, 0)]%nat else if String.eqb f "xy" then Some [(0, 1)]%nat
  else if String.eqb f "xz" then Some [(0, 2)]%nat else if String.eqb f "yx" then Some [(0, 1)]%nat
  else if String.eqb f "yy" then Some [(1, 1)]%nat else if String.eqb f "yz" then Some [(1, 2)]%nat
  else if String.eqb f "zx" then Some [(0, 2)]%nat else if String.eqb f "zy" then Some [(1, 2)]%nat
  else if String.eqb f "zz" then Some [(2, 2)]%nat
  else if String.eqb f "offdiagonal" then Some [(0, 1); (0, 2); (1, 2)]%nat
  else None.
Definition set0 (A : mat3) (e : nat * nat) : mat3 := fun i j => if (Nat.eqb i (fst e) && Nat.eqb j (snd e))%bool then 0 else A i j.
Fixpoint mask_loop (fix_ : list string) (A : mat3) : option mat3 :=
  match fix_ with
  | [] => Some A
  | f :: r => match entries f with None => None | Some l => mask_loop r (fold_left set0 l A) end
  end.
Definition mask_from_fix (fix_ : list string) : option mat3 := mask_loop fix_ (fun _ _ => 1).
(** self.L, 936 and 1229: row sums of the upper triangle of the mask. *)
Definition Lmat (hmask : mat3) : mat3 := fun i j =>
  if Nat.eqb i j then match i with 0%nat => hmask 0%nat 0%nat + hmask 0%nat 1%nat + hmask 0%nat 2%nat
                            | 1%nat => hmask 1%nat 1%nat + hmask 1%nat 2%nat | _ => hmask 2%nat 2%nat end else 0.
Definition triu (A : mat3) : mat3 := fun i j => if (i <=? j)%nat then A i j else 0.
(** get_3x3to6 and get_6to3x3, 1025-1043 and 1310-1328 *)
Definition to6 (p : mat3) : vec := fun k =>
  match k with 0%nat => p 0%nat 0%nat | 1%nat => p 1%nat 1%nat | 2%nat => p 2%nat 2%nat | 3%nat => p 0%nat 1%nat | 4%nat => p 0%nat 2%nat | 5%nat => p 1%nat 2%nat | _ => 0 end.
Definition to33 (p : vec) : mat3 := rows3 (p 0%nat) (p 3%nat) (p 4%nat) 0 (p 1%nat) (p 5%nat) 0 0 (p 2%nat).
(** kin: trace of p^T p, 1002 and 1287. *)
Definition kin33 (p : mat3) : R := 1 / 2 * trace (prod3 (fun i j => p j i) p) / wmass y.
(** get_cell_jacobian, 1055-1059 and 1339-1343 *)
Definition jac33 (s : atm) : R := - 1 * kT y * (3 * ln (hh s 0%nat 0%nat) + 2 * ln (hh s 1%nat 1%nat) + ln (hh s 2%nat 2%nat)).
Definition eye3 : mat3 := fun i j => if Nat.eqb i j then 1 else 0.
(** External stress: of BaroMTK 1357-1359, and of BaroRGB 1073-1074 with reference cell [h0]. *)
Definition pi_mtk (s : atm) : mat3 := fun i j => eye3 i j * pext y.
Definition strain_F (h0 : mat3) (s : atm) : mat3 := prod3 (hh s) (invert_ut3x3 h0).
Definition pi_rgb (h0 sigma : mat3) (s : atm) : mat3 := fun i j =>
  prod3 (strain_F h0 s) (prod3 sigma (fun i j => strain_F h0 s j i)) i j * det_ut3x3 h0 / vol s.
(** get_pot, 1330-1337 and 1045-1053 *)
Definition pot_mtk (s : atm) : R := vol s * pext y * INR (nb y).
Definition eps_rgb (h0 : mat3) (s : atm) : mat3 := fun i j =>
  1 / 2 * (prod3 (fun i j => strain_F h0 s j i) (strain_F h0 s) i j - eye3 i j).
Definition pot_rgb (h0 sigma : mat3) (s : atm) : R := det_ut3x3 h0 * trace (prod3 sigma (eps_rgb h0 s)) * INR (nb y).
(** pstep 1066-1104 and 1350-1394; [pi] is the external stress; [volc] the volume constraint (of
    BaroMTK only). The second component is the heat of the barostat's thermostat. *)
Definition fcTonm (l : nat) (s : atm) (w : vec) : mat3 := fun i j =>
  Rsum (natoms y) (fun a => fc l s (3 * a + i)%nat / m y a * w (3 * a + j)%nat).
Definition raw_pstep (pi : atm -> mat3) (hmask : mat3) (l : nat) (dt : R) (s : atm) (p : mat3) : mat3 := fun i j =>
  let p1 := p i j + dt * (vol s * triu (stress_mts l s) i j) in
  if innermost l then
    p1 + dt * (vol s * triu (fun i j => - INR (nb y) * pi s i j) i j + kT y * Lmat hmask i j)
       + triu (fun i j => dt ^ 2 * fcTonm l s (pc s) i j + dt ^ 3 / 3 * fcTonm l s (fc l s) i j) i j * INR (nb y)
  else p1.
Definition constrain (hmask : mat3) (volc : bool) (p : mat3) : mat3 :=
  let p1 := fun i j => p i j * hmask i j in
  if volc then fun i j => p1 i j - eye3 i j * trace p1 / 3 else p1.
Definition cell_pstep (pi : atm -> mat3) (hmask : mat3) (volc : bool) (l : nat) (dt : R) (s : atm) (x : mat3 * R) : mat3 * R :=
  let '(p, e) := x in
  let p1 := raw_pstep pi hmask l dt s p in
  let p2 := constrain hmask volc p1 in
  (p2, e + kin33 p1 - kin33 p2).
(** qcstep 1106-1139 and 1396-1430. [eig] returns eigenvalues and eigenvectors (columns), and
    [inv] inverts a matrix; real numbers only, as v is upper triangular. *)
Definition scal3 (t : R) (A : mat3) : mat3 := fun i j => t * A i j.
Definition diag0 (v : mat3) : bool :=
  if Req_EM_T (v 0%nat 0%nat) 0 then if Req_EM_T (v 1%nat 1%nat) 0 then if Req_EM_T (v 2%nat 2%nat) 0 then true else false else false else false.
(** mat_taylor, ipi/utils/mathtools.py 431-456 *)
Definition add3 (A B : mat3) : mat3 := fun i j => A i j + B i j.
Definition mat_taylor (x : mat3) : mat3 :=
  let x2 := prod3 x x in
  add3 eye3 (prod3 (scal3 (/ (2 * 3)) x2) (add3 eye3 (prod3 (scal3 (/ (4 * 5)) x2)
    (add3 eye3 (prod3 (scal3 (/ (6 * 7)) x2) (add3 eye3 (scal3 (/ (8 * 9)) x2))))))).
Definition sinh_of (eig : mat3 -> vec * mat3) (inv : mat3 -> mat3) (v : mat3) (dt : R) : mat3 :=
  if diag0 v then mat_taylor (scal3 dt v)
  else
    let '(w, U) := eig v in
    scal3 dt (prod3 U (prod3 (fun i j => if Nat.eqb i j then sinch (dt * w i) else 0) (inv U))).
(** (p / m3) sinh.T, a row for each atom. *)
Definition rowmul (A : mat3) (u : vec) : vec := fun c =>
  Rsum 3 (fun k => A (c mod 3)%nat k * u (3 * (c / 3) + k)%nat).
Definition cell_qcstep (eig : mat3 -> vec * mat3) (inv : mat3 -> mat3) (dt : R) (s : atm) (p : mat3) : atm :=
  let v := fun i j => p i j / wmass y in
  let sinh := sinh_of eig inv v dt in
  let expq := matrix_exp 3 20 10 (scal3 dt v) in
  let expp := matrix_exp 3 20 10 (scal3 dt (fun i j => - v i j)) in
  Atm (fun c => rowmul expq (qc s) c + rowmul sinh (fun k => pc s k / m3 k) c) (rowmul expp (pc s)) (dq s) (dp s) (prod3 expq (hh s)).
End Baro.
