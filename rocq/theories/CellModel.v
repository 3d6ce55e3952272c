(** Model of the simulation cell (ipi/engine/cell.py) and of the small
    mathematical tools of ipi/utils/mathtools.py.  Floats are idealised as
    reals; matrices are functions of row and column. *)
Require Import Reals List ZArith Lia Lra.
From Verif Require Import RSum PairModel.
Import ListNotations.
Local Open Scope R_scope.

Definition mat3 := nat -> nat -> R.
(** A matrix from its three rows. *)
Definition rows3 (a b c d e f g h i : R) : mat3 := fun r s =>
  match r, s with
  | 0%nat, 0%nat => a | 0%nat, 1%nat => b | 0%nat, 2%nat => c
  | 1%nat, 0%nat => d | 1%nat, 1%nat => e | 1%nat, 2%nat => f
  | 2%nat, 0%nat => g | 2%nat, 1%nat => h | 2%nat, 2%nat => i
  | _, _ => 0
  end.
Definition prod3 (A B : mat3) : mat3 := fun i j => Rsum 3 (fun k => A i k * B k j).

(** ** mathtools.py: triangular matrices *)

(** invert_ut3x3 (249-265) *)
Definition invert_ut3x3 (h : mat3) : mat3 :=
  let i0 := 1 / h 0%nat 0%nat in let i1 := 1 / h 1%nat 1%nat in let i2 := 1 / h 2%nat 2%nat in
  let ih01 := - i0 * h 0%nat 1%nat * i1 in
  let ih12 := - i1 * h 1%nat 2%nat * i2 in
  let ih02 := - ih12 * h 0%nat 1%nat * i0 - i0 * h 0%nat 2%nat * i2 in
  rows3 i0 ih01 ih02 0 i1 ih12 0 0 i2.
(** det_ut3x3 (300-314) *)
Definition det_ut3x3 (h : mat3) : R := h 0%nat 0%nat * h 1%nat 1%nat * h 2%nat 2%nat.

(** ** cell.py *)

(** Cell.apply_pbc (65-82); python's round and numpy's round are both to
    nearest, ties to even.  array_pbc (84-103) does the same on every atom. *)
Definition apply_pbc (h : mat3) (q : vec) : vec :=
  let ih := invert_ut3x3 h in
  let s := mvec ih q in
  mvec h (fun i => s i - rint (s i)).
Definition array_pbc (h : mat3) (pos : nat -> vec) : nat -> vec := fun a => apply_pbc h (pos a).
(** Cell.minimum_distance (105-128) *)
Definition minimum_distance (h : mat3) (q1 q2 : vec) : vec :=
  let ih := invert_ut3x3 h in
  let s := mvec ih (fun i => q1 i - q2 i) in
  mvec h (fun i => s i - rint (s i)).

(** ** mathtools.py: cell parameters *)

Record abc := mk_abc { len_a : R; len_b : R; len_c : R; ang_alpha : R; ang_beta : R; ang_gamma : R }.
(** h2abc (153-175) *)
Definition h2abc (h : mat3) : abc :=
  let a := h 0%nat 0%nat in
  let b := sqrt (h 0%nat 1%nat ^ 2 + h 1%nat 1%nat ^ 2) in
  let c := sqrt (h 0%nat 2%nat ^ 2 + h 1%nat 2%nat ^ 2 + h 2%nat 2%nat ^ 2) in
  mk_abc a b c (acos (Rsum 3 (fun k => h k 1%nat * h k 2%nat) / (b * c))) (acos (h 0%nat 2%nat / c)) (acos (h 0%nat 1%nat / b)).
(** genh2abc (178-200): a general matrix whose rows are the cell vectors. *)
Definition dot3 (u v : vec) : R := Rsum 3 (fun k => u k * v k).
Definition genh2abc (h : mat3) : abc :=
  let a := sqrt (dot3 (h 0%nat) (h 0%nat)) in
  let b := sqrt (dot3 (h 1%nat) (h 1%nat)) in
  let c := sqrt (dot3 (h 2%nat) (h 2%nat)) in
  mk_abc a b c (acos (dot3 (h 2%nat) (h 1%nat) / (b * c))) (acos (dot3 (h 0%nat) (h 2%nat) / (a * c)))
         (acos (dot3 (h 0%nat) (h 1%nat) / (a * b))).
(** h2abc_deg (203-219) *)
Definition h2abc_deg (h : mat3) : abc :=
  let p := h2abc h in
  mk_abc (len_a p) (len_b p) (len_c p) (ang_alpha p * 180 / PI) (ang_beta p * 180 / PI) (ang_gamma p * 180 / PI).
(** abc2h (222-246) *)
Definition abc2h (p : abc) : mat3 :=
  let h01 := len_b p * cos (ang_gamma p) in
  let h02 := len_c p * cos (ang_beta p) in
  let h11 := len_b p * sin (ang_gamma p) in
  let h12 := (len_b p * len_c p * cos (ang_alpha p) - h01 * h02) / h11 in
  let h22 := sqrt (len_c p ^ 2 - h02 ^ 2 - h12 ^ 2) in
  rows3 (len_a p) h01 h02 0 h11 h12 0 0 h22.

(** ** mathtools.py: sums of signed logarithms (35-57) *)
Definition logsumlog (lasa lbsb : R * R) : R * R :=
  let '(la, sa) := lasa in
  let '(lb, sb) := lbsb in
  if Rlt_dec lb la then (la + ln (1 + sb * exp (lb - la)), sa)
  else (lb + ln (1 + sa * exp (la - lb)), sb).

(** ** mathtools.py: rotations *)

(** quat2rot (522-546) *)
Definition quat2rot (q1 q2 q3 q4 : R) : mat3 :=
  rows3 (1 - 2 * (q3 ^ 2 + q4 ^ 2)) (2 * (q2 * q3 - q1 * q4)) (2 * (q2 * q4 + q1 * q3))
        (2 * (q2 * q3 + q1 * q4)) (1 - 2 * (q2 ^ 2 + q4 ^ 2)) (2 * (q3 * q4 - q1 * q2))
        (2 * (q2 * q4 - q1 * q3)) (2 * (q3 * q4 + q1 * q2)) (1 - 2 * (q2 ^ 2 + q3 ^ 2)).
(** euler_zxz_to_matrix (549-587) *)
Definition rot_z (t : R) : mat3 := rows3 (cos t) (- sin t) 0 (sin t) (cos t) 0 0 0 1.
Definition rot_x (t : R) : mat3 := rows3 1 0 0 0 (cos t) (- sin t) 0 (sin t) (cos t).
Definition euler_zxz (theta v w : R) : mat3 := prod3 (prod3 (rot_z w) (rot_x v)) (rot_z theta).
(** random_rotation (638-651); the four Gaussians and the uniform number are
    arguments. *)
Definition random_rotation (g1 g2 g3 g4 u : R) (improper : bool) : mat3 :=
  let nrm := sqrt (g1 ^ 2 + g2 ^ 2 + g3 ^ 2 + g4 ^ 2) in
  let rot := quat2rot (g1 / nrm) (g2 / nrm) (g3 / nrm) (g4 / nrm) in
  if (improper && (if Rlt_dec u (1 / 2) then true else false))%bool then (fun i j => rot i j * -1) else rot.

(** ** mathtools.py: exponentials *)

(** matrix_exp (59-91): Horner's rule for the truncated series of M / 2^nsquare,
    then repeated squaring. *)
Definition nmul (n : nat) (A B : mat3) : mat3 := fun i j => Rsum n (fun k => A i k * B k j).
Definition tcoef (i : nat) : R := / INR (fact i).
Fixpoint horner (n : nat) (SM : mat3) (k : nat) (EM : mat3) : mat3 :=
  match k with
  | O => EM
  | Datatypes.S k' => horner n SM k' (fun i j => nmul n SM EM i j + delta i j * tcoef k')
  end.
Fixpoint squarings (n : nat) (k : nat) (EM : mat3) : mat3 :=
  match k with O => EM | Datatypes.S k' => squarings n k' (nmul n EM EM) end.
Definition matrix_exp (n ntaylor nsquare : nat) (M : mat3) : mat3 :=
  let SM := fun i j => M i j / 2 ^ nsquare in
  squarings n nsquare (horner n SM ntaylor (fun i j => delta i j * tcoef ntaylor)).

(** exp_ut3x3 (320-373).  MINSERIES is 1e-8.  A division by a zero diagonal
    element, which raises ZeroDivisionError, is [None]. *)
Definition minseries : R := / 10 ^ 8.
Definition far (x y : R) : bool := if Rlt_dec minseries (Rabs ((x - y) / x)) then true else false.
Definition dd (x y ex ey : R) : R :=
  if far x y then (ex - ey) / (x - y) else ex * (1 + (x - y) * (1 / 2 + (x - y) / 6)).
Definition exp_ut3x3 (h : mat3) : option mat3 :=
  let h00 := h 0%nat 0%nat in let h11 := h 1%nat 1%nat in let h22 := h 2%nat 2%nat in
  let h01 := h 0%nat 1%nat in let h02 := h 0%nat 2%nat in let h12 := h 1%nat 2%nat in
  if (if Req_EM_T h00 0 then true else if Req_EM_T h11 0 then true else if Req_EM_T h22 0 then true else false) then None
  else
    let e00 := exp h00 in let e11 := exp h11 in let e22 := exp h22 in
    let r01 := dd h00 h11 e00 e11 in
    let r12 := dd h11 h22 e11 e22 in
    let r02 := dd h22 h00 e22 e00 in
    let add :=
      if far h22 h00 then h01 * h02 * (r01 - r12) / (h00 - h22)
      else if far h11 h00 then h01 * h02 * (r12 - r02) / (h11 - h00)
      else if far h11 h22 then h01 * h02 * (r02 - r01) / (h22 - h11)
      else h01 * h02 * e00 / 24 * (12 + 4 * (h11 + h22 - 2 * h00) + (h11 - h00) * (h22 - h00)) in
    Some (rows3 e00 (h01 * r01) (h02 * r02 + add) 0 e11 (h12 * r12) 0 0 e22).

(** eigensystem_ut3x3 (268-297): eigenvalues and the matrix of eigenvectors.  The
    division by zero, which numpy turns into inf, is not distinguished. *)
Definition nonzero (x : R) : bool := if Req_EM_T x 0 then false else true.
Definition eigensystem_ut3x3 (p : mat3) : (nat -> R) * mat3 :=
  let p00 := p 0%nat 0%nat in let p11 := p 1%nat 1%nat in let p22 := p 2%nat 2%nat in
  let p01 := p 0%nat 1%nat in let p02 := p 0%nat 2%nat in let p12 := p 1%nat 2%nat in
  let e01 := if nonzero (- p01) then - p01 / (p00 - p11) else - p01 in
  let e12 := if nonzero (- p12) then - p12 / (p11 - p22) else - p12 in
  let e02 := - (p01 * p12 - p02 * p11 + p02 * p22) in
  let e12' := if nonzero e12 then e12 / ((p00 - p22) * (p22 - p11)) else e12 in
  ((fun i => p i i), rows3 1 e01 e02 0 1 e12' 0 0 1).

(** _sinch (414-424) *)
Definition sinch (x : R) : R :=
  let x2 := x * x in
  if Rlt_dec (Rabs x2) (/ 10 ^ 12) then 1 + (x2 / 6) * (1 + (x2 / 20) * (1 + x2 / 42)) else sinh x / x.

(** gaussian_inv (458-499), with its two polynomials as parameters: [pa]/[pb] in
    y^2 for the centre and [pc] for the tails.  np.polyval is evaluation. *)
Definition gaussian_inv (pa pb pc : R -> R) (x : R) : R :=
  let y := x - 1 / 2 in
  if (if Rlt_dec (8 / 100) x then if Rlt_dec x (92 / 100) then true else false else false)
  then y * pa (y * y) / pb (y * y)
  else
    let z := if Rlt_dec 0 y then 1 - x else x in
    (if Rlt_dec y 0 then -1 else if Rlt_dec 0 y then 1 else 0) * pc (ln (- ln z)).

(** io_xyz.py:120-127 and 143-148: with a "# CELL(GENH)" header (the rows of [genh]
    are the cell vectors) the cell becomes the standard one and every position
    goes to fractional coordinates with the inverse [inv] that numpy computes and
    back with the new cell. *)
Definition genh_cell (genh : mat3) : mat3 := abc2h (genh2abc genh).
Definition genh_position (genh inv : mat3) (u : vec) : vec :=
  let us := fun j => Rsum 3 (fun k => u k * inv k j) in
  mvec (genh_cell genh) us.
