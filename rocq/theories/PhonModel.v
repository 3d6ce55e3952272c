(** * Model of the dynamical matrix motion (ipi/engine/motion/phonons.py)

    Finite differences of forces along Cartesian directions (fd) and along normal modes (nmfd,
    enmfd), the acoustic sum rules, and what is printed.  Positions are flattened: [n] is three
    times the number of atoms, entry [3 a + k] belongs to direction [k] of atom [a].  Floating
    point numbers are real numbers.  [F] is the force at a position ([dforces.f] after
    [dbeads.q] was set), [ism] is the vector [1 / sqrt (m3)] (line 95), and numpy's [eigh] and
    [eig] are arguments: they return eigenvalues, and eigenvectors as columns. *)
From Coq Require Import List Arith Lia Reals Lra String.
From Verif Require Import RSum MinModel.
Import ListNotations.
Open Scope R_scope.

Definition memb (i : nat) (l : list nat) : bool := existsb (Nat.eqb i) l.
(** The two matrices of the motion, [dynmatrix] and [refdynmatrix]. *)
Record mats : Type := Mats { dyn : mat; ref : mat }.
(** assignment to one row of a matrix. *)
Definition set_row (A : mat) (i : nat) (r : vec) : mat := fun a b => if Nat.eqb a i then r b else A a b.

(** ** FDPhononCalculator, lines 305-372 *)
(** lines 351-352: the displacement. *)
Definition fd_dev (step : nat) (deltax : R) : vec := fun j => if Nat.eqb j step then deltax else 0.
(** lines 353-362: forces at both ends, and one row of the matrix. *)
Definition fd_row (F : vec -> vec) (q : vec) (deltax : R) (ism : vec) (step : nat) : vec :=
  let dev := fd_dev step deltax in
  let plus := fun j => - F (vadd q dev) j in
  let minus := fun j => - F (vsub q dev) j in
  fun j => (plus j - minus j) / (2 * deltax) * ism step * ism j.
(** lines 346-366: fixed degrees of freedom are skipped. *)
Definition fd_step (fixed : list nat) (F : vec -> vec) (q : vec) (deltax : R) (ism : vec) (step : nat) (s : mats) : mats :=
  if memb step fixed then s
  else let r := fd_row F q deltax ism step in Mats (set_row (dyn s) step r) (set_row (ref s) step r).
(** lines 368-372: both matrices are symmetrised; both come from dynmatrix. *)
Definition sym (A : mat) : mat := fun i j => 1 / 2 * (A i j + A j i).
Definition fd_transform (s : mats) : mats := Mats (sym (dyn s)) (sym (dyn s)).

(** ** NMFDPhononCalculator, lines 375-424 *)
(** lines 398-401: eigenvectors of the matrix given in the input, scaled. *)
Definition nm_V (U : mat) (ism : vec) : mat := fun i k => U i k * ism i.
Definition column (A : mat) (k : nat) : vec := fun i => A i k.
(** lines 403-417. [delta] is deltax for nmfd and edelta for enmfd. *)
Definition nm_dev (n : nat) (V : mat) (delta : R) (step : nat) : vec :=
  fun i => V i step / norm n (column V step) * delta.
Definition nm_row (n : nat) (F : vec -> vec) (q : vec) (V : mat) (delta : R) (step : nat) : vec :=
  let vknorm := norm n (column V step) in
  let dev := nm_dev n V delta step in
  let plus := fun j => - F (vadd q dev) j in
  let minus := fun j => - F (vsub q dev) j in
  let dmrowk := fun j => (plus j - minus j) / (2 * delta / vknorm) in
  fun l => Rsum n (fun j => V j l * dmrowk j).
Definition nm_step (n : nat) (F : vec -> vec) (q : vec) (V : mat) (delta : nat -> R) (step : nat) (s : mats) : mats :=
  Mats (dyn s) (set_row (ref s) step (nm_row n F q V (delta step) step)).
(** lines 420-422: back to Cartesian coordinates. *)
Definition mm (n : nat) (A B : mat) : mat := fun i j => Rsum n (fun k => A i k * B k j).
Definition tr (A : mat) : mat := fun i j => A j i.
Definition nm_back (n : nat) (U : mat) (A : mat) : mat := mm n U (mm n A (tr U)).
(** lines 419-424: ... and then the two lines that follow, which start from dynmatrix again. *)
Definition nm_transform (n : nat) (U : mat) (s : mats) : mats :=
  let s := Mats (dyn s) (nm_back n U (ref s)) in
  let rdm := dyn s in
  Mats (dyn s) (sym rdm).

(** ** ENMFDPhononCalculator, lines 427-447 *)
(** lines 434-437: the displacement that costs the energy deltae, limited to 100 deltax. A zero
    eigenvalue (for a positive deltae a division by zero, inf, hence the limit) is written as a
    case of its own; the theorems ask for a positive deltae. *)
Definition edelta (n : nat) (V : mat) (w2 : vec) (deltae deltax : R) (step : nat) : R :=
  if Req_EM_T (w2 step) 0 then 100 * deltax
  else
    let e := norm n (column V step) * sqrt (deltae * 2 / Rabs (w2 step)) in
    if Rlt_dec (100 * deltax) e then 100 * deltax else e.

(** ** apply_asr, lines 194-293, and ipi/utils/phonontools.py *)
(** lines 203-209: centre of mass, and positions relative to it. *)
Definition com (N : nat) (m q : vec) (k : nat) : R :=
  Rsum N (fun a => q (3 * a + k)%nat * m a) / Rsum N m.
Definition rel (N : nat) (m q : vec) (a k : nat) : R := q (3 * a + k)%nat - com N m q k.
(** numpy's cross of two vectors; [np.cross(v, np.identity(3))] is the matrix of its rows. *)
Definition cross (u v : vec) : vec := fun k =>
  match k with
  | 0%nat => u 1%nat * v 2%nat - u 2%nat * v 1%nat
  | 1%nat => u 2%nat * v 0%nat - u 0%nat * v 2%nat
  | _ => u 0%nat * v 1%nat - u 1%nat * v 0%nat
  end.
Definition cross_eye (v : vec) : mat := fun i j => cross v (fun k => delta i k) j.
(** lines 211-219: the tensor of inertia. *)
Definition moi (N : nat) (m q : vec) : mat := fun i j =>
  Rsum N (fun a => - (mm 3 (cross_eye (rel N m q a)) (cross_eye (rel N m q a)) i j * m a)).
(** lines 221-228 and 260-281: the vectors along translations and rotations; [U] holds the
    eigenvectors of the tensor of inertia. *)
Definition asr_R (N : nat) (m q : vec) (U : mat) (a k : nat) : R := Rsum 3 (fun l => rel N m q a l * U l k).
Definition asr_D (N : nat) (m q ism : vec) (U : mat) (k : nat) : vec := fun i =>
  let a := (i / 3)%nat in let d := (i mod 3)%nat in let X := asr_R N m q U in
  match k with
  | 0%nat => (if Nat.eqb d 0 then 1 else 0) / ism i
  | 1%nat => (if Nat.eqb d 1 then 1 else 0) / ism i
  | 2%nat => (if Nat.eqb d 2 then 1 else 0) / ism i
  | 3%nat => (X a 1%nat * U d 2%nat - X a 2%nat * U d 1%nat) / ism i
  | 4%nat => (X a 2%nat * U d 0%nat - X a 0%nat * U d 2%nat) / ism i
  | _ => (X a 0%nat * U d 1%nat - X a 1%nat * U d 0%nat) / ism i
  end.
(** lines 230-232: normalised. (A linear molecule has a rotation of norm zero, for which numpy
    gives nan: the theorems exclude it.) *)
Definition unit_rows (n : nat) (D : nat -> vec) : nat -> vec := fun k i => D k i / norm n (D k).
(** lines 234-237: one minus the projector, on both sides. [r] is 3 or 6. *)
Definition transf (r : nat) (D : nat -> vec) : mat := fun i j => eye i j - Rsum r (fun k => D k i * D k j).
Definition asr_apply (n r : nat) (D : nat -> vec) (dm : mat) : mat :=
  mm n (tr (transf r D)) (mm n dm (transf r D)).
(** lines 194-293: [None] is python's None, which is returned for every other name; the input
    accepts "lin" as well (inputs/motion/phonons.py 74-82). *)
Definition apply_asr (N : nat) (m q ism : vec) (eig : mat -> vec * mat) (asr : string) (dm : mat) : option mat :=
  let n := (3 * N)%nat in
  if String.eqb asr "none" then Some dm
  else if String.eqb asr "crystal" then
    let U := snd (eig (moi N m q)) in
    Some (asr_apply n 3 (unit_rows n (asr_D N m q ism U)) dm)
  else if String.eqb asr "poly" then
    let U := snd (eig (moi N m q)) in
    Some (asr_apply n 6 (unit_rows n (asr_D N m q ism U)) dm)
  else None.
Definition asr_options : list string := ["none"; "poly"; "lin"; "crystal"]%string.

(** ** printall, lines 118-192 *)
(** lines 127-134: indices of active degrees of freedom (np.delete of np.arange). *)
Definition active (n : nat) (fixed : list nat) : list nat := filter (fun i => negb (memb i fixed)) (seq 0 n).
(** A[mask][:, mask] and v[mask]. *)
Definition submat (l : list nat) (A : mat) : mat := fun i j => A (nth i l O) (nth j l O).
Definition subvec (l : list nat) (v : vec) : vec := fun i => v (nth i l O).
(** What goes to the files .dynmat, .hess, _full.hess, .eigval, .eigvec and .mode; the first
    [o_n] rows and columns count, in the full matrix [n] of them. *)
Record printed : Type := Printed
  { o_n : nat; o_dynmat : mat; o_hess : mat; o_full : mat; o_eigval : vec; o_eigvec : mat; o_mode : mat }.
(** lines 121, 152: dmatx + eye deltaw; dmatx[i] / (ism[i] * ism). *)
Definition shifted (A : mat) (deltaw : R) : mat := fun i j => A i j + eye i j * deltaw.
Definition to_hess (A : mat) (ism : vec) : mat := fun i j => A i j / (ism i * ism j).
(** lines 181-186: eigenvectors divided by the square root of the masses, normalised. *)
Definition modes (n : nat) (W : mat) (ism : vec) : mat := fun i k =>
  W i k * ism i / norm n (fun j => W j k * ism j).
Definition printall (n : nat) (eigh : nat -> mat -> vec * mat) (ism : vec) (dmatx : mat) (deltaw : R) (fixed : list nat) : printed :=
  let dmatx := shifted dmatx deltaw in
  let activedof := (n - List.length fixed)%nat in
  let mask := active n fixed in
  let dma := submat mask dmatx in
  let isma := subvec mask ism in
  let e := eigh activedof dma in
  Printed activedof dma (to_hess dma isma) (to_hess dmatx ism) (fst e) (snd e) (modes activedof (snd e) isma).

(** ** DynMatrixMover.step, lines 103-116 *)
Inductive outcome : Type :=
| Going (s : mats)                 (* one more row is known *)
| Finished (s : mats) (p : printed) (* files written, end of the simulation requested *)
| Failed.                          (* None has no copy: AttributeError *)
(** The calculator is given by its two methods; lines 110-112 call printall with its default
    shift of zero. *)
Definition dyn_step (N : nat) (m q ism : vec) (eigh : nat -> mat -> vec * mat) (eig : mat -> vec * mat) (asr : string)
    (fixed : list nat) (deltaw : R) (cstep : nat -> mats -> mats) (ctransform : mats -> mats) (step : nat) (s : mats) : outcome :=
  if (step <? 3 * N)%nat then Going (cstep step s)
  else
    let s := ctransform s in
    match apply_asr N m q ism eig asr (ref s) with
    | None => Failed
    | Some r => Finished (Mats (dyn s) r) (printall (3 * N) eigh ism r 0 fixed)
    end.
(** The simulation: steps [first], [first + 1], ... until the motion asks for the end. *)
Fixpoint dyn_run (one : nat -> mats -> outcome) (first : nat) (left : nat) (s : mats) : outcome :=
  match left with
  | O => Going s
  | S l => match one first s with Going s' => dyn_run one (S first) l s' | o => o end
  end.
