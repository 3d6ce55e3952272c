(** * Normal-mode transformations and ring-polymer contraction

    /repo/ipi/utils/nmtransform.py. Arrays are functions of the bead (row) and of the
    column; real numbers for floats. *)
From Coq Require Import List Reals Arith Bool.
From Verif Require Import RSum.
Import ListNotations.
Open Scope R_scope.

Definition mat := nat -> nat -> R.

(** nmtransform.py:25-47 (before the division by sqrt n): row 0 is one, rows up to n//2
    cosines, the others sines; for even n row n//2 is overwritten by +1, -1, ... *)
Definition nm_entry (n i j : nat) : R :=
  if (n mod 2 =? 0)%nat && (i =? n / 2)%nat then (if (j mod 2 =? 0)%nat then 1 else -1)
  else if (i =? 0)%nat then sqrt 1
  else if (i <=? n / 2)%nat then sqrt 2 * cos (2 * PI * INR j * INR i / INR n)
  else sqrt 2 * sin (2 * PI * INR j * INR i / INR n).
Definition mk_nm_matrix (n : nat) : mat := fun i j => nm_entry n i j / sqrt (INR n).

(** nmtransform.py:50-55 *)
Definition nm_eva (n k : nat) : R := 2 * sin (INR k * PI / INR n).
Definition o_nm_eva (n k : nat) : R := 2 * sin (INR k * PI / (2 * INR n)).

(** nmtransform.py:58-69 *)
Definition o_nm_entry (n i j : nat) : R :=
  if (i =? 0)%nat then sqrt 1 else sqrt 2 * cos (PI * (INR j + / 2) * INR i / INR n).
Definition mk_o_nm_matrix (n : nat) : mat := fun i j => o_nm_entry n i j / sqrt (INR n).

(** nmtransform.py:85-99, 120-134: the matrix that picks modes, built by assignments. *)
Definition upd (m : mat) (r c : nat) (v : R) : mat :=
  fun a b => if (a =? r)%nat && (b =? c)%nat then v else m a b.
Definition reduction (nb1 nb2 : nat) : mat :=
  let m0 := upd (fun _ _ => 0) 0 0 1 in
  let m1 := fold_left (fun m i => upd (upd m i i 1) (nb2 - i) (nb1 - i) 1) (seq 1 (nb2 / 2)) m0 in
  if (nb2 mod 2 =? 0)%nat then upd m1 (nb2 / 2) (nb1 - nb2 / 2) 0 else m1.

(** nmtransform.py:72-104 and 107-139 (same code with the other matrix). [rs] is the case
    nb1 > nb2. *)
Definition rs (mk : nat -> mat) (nb1 nb2 : nat) : mat := fun i j =>
  Rsum nb2 (fun a => mk nb2 a i * Rsum nb1 (fun b => reduction nb1 nb2 a b * mk nb1 b j))
  * sqrt (INR nb2 / INR nb1).
Definition mk_rs (mk : nat -> mat) (nb1 nb2 : nat) : mat :=
  if (nb1 =? nb2)%nat then delta
  else if (nb2 <? nb1)%nat then rs mk nb1 nb2
  else fun i j => rs mk nb2 nb1 j i * (INR nb2 / INR nb1).
Definition mk_rs_matrix := mk_rs mk_nm_matrix.
Definition mk_o_rs_matrix := mk_rs mk_o_nm_matrix.

(** Application of a matrix with [n] columns to one column of an array. *)
Definition app (n : nat) (m : mat) (x : nat -> R) : nat -> R := fun i => Rsum n (fun j => m i j * x j).
Definition transpose (m : mat) : mat := fun i j => m j i.

(** nm_trans, nmtransform.py:159-227: the columns of open atoms use the other matrix. *)
Definition is_open (open : list nat) (c : nat) : bool := existsb (Nat.eqb (c / 3)) open.
Definition nm_trans_b2nm (n : nat) (open : list nat) (q : mat) : mat := fun i c =>
  app n (if is_open open c then mk_o_nm_matrix n else mk_nm_matrix n) (fun j => q j c) i.
Definition nm_trans_nm2b (n : nat) (open : list nat) (qnm : mat) : mat := fun i c =>
  app n (transpose (if is_open open c then mk_o_nm_matrix n else mk_nm_matrix n)) (fun j => qnm j c) i.

(** nm_rescale, nmtransform.py:230-328. [two_d]: the array is two-dimensional
    (beads x 3 natoms); otherwise potentials or virials. *)
Definition b1tob2_m (open : bool) (n1 n2 : nat) : mat :=
  if open then mk_o_rs_matrix n1 n2 else mk_rs_matrix n1 n2.
Definition b2tob1_m (open : bool) (n1 n2 : nat) : mat :=
  fun i j => b1tob2_m open n1 n2 j i * (INR n1 / INR n2).
Definition nonempty (l : list nat) : bool := match l with [] => false | _ => true end.
(** 267-299 *)
Definition rescale_b1tob2 (n1 n2 : nat) (open : list nat) (two_d : bool) (q : mat) : mat :=
  if (n1 =? n2)%nat then q
  else fun i c =>
    let o := if nonempty open then (if two_d then is_open open c else true) else false in
    app n1 (b1tob2_m o n1 n2) (fun j => q j c) i.
(** 301-328: the [else] belongs to the [for] and so is always executed. *)
Definition rescale_b2tob1 (n1 n2 : nat) (open : list nat) (two_d : bool) (q : mat) : mat :=
  if (n1 =? n2)%nat then q
  else fun i c =>
    let o := if nonempty open then two_d else false in
    app n2 (b2tob1_m o n1 n2) (fun j => q j c) i.

(** Discrete Fourier transforms (numpy.fft.rfft / irfft, pyfftw): real and imaginary part of
    component k. *)
Definition rfft_re (n : nat) (x : nat -> R) (k : nat) : R := Rsum n (fun j => x j * cos (2 * PI * INR j * INR k / INR n)).
Definition rfft_im (n : nat) (x : nat -> R) (k : nat) : R := - Rsum n (fun j => x j * sin (2 * PI * INR j * INR k / INR n)).
(** The inverse transform of a half spectrum: components 0 and n/2 (n even) count once, the
    others twice. *)
Definition irfft (n : nat) (re im : nat -> R) (j : nat) : R :=
  (re 0%nat
   + 2 * Rsum ((n - 1) / 2) (fun k => re (S k) * cos (2 * PI * INR j * INR (S k) / INR n)
                                    - im (S k) * sin (2 * PI * INR j * INR (S k) / INR n))
   + (if (n mod 2 =? 0)%nat then re (n / 2)%nat * cos (PI * INR j) else 0)) / INR n.

(** nm_fft.b2nm, nmtransform.py:440-483, one column. *)
Definition fft_b2nm_col (n : nat) (x : nat -> R) : nat -> R :=
  if (n =? 1)%nat then x
  else if (n =? 2)%nat then fun i => rfft_re n x i / sqrt (INR n)
  else
    let nmodes := (n / 2)%nat in
    let re k := rfft_re n x k / sqrt (INR n) in
    let im k := rfft_im n x k / sqrt (INR n) in
    if (n mod 2 =? 0)%nat then
      fun i => if (i =? 0)%nat then re 0%nat
               else if (i =? nmodes)%nat then re nmodes
               else if (i <? nmodes)%nat then re i * sqrt 2
               else im (n - i)%nat * sqrt 2
    else
      fun i => if (i =? 0)%nat then re 0%nat
               else if (i <=? nmodes)%nat then re i * sqrt 2
               else im (n - i)%nat * sqrt 2.
(** nm_fft.nm2b, 485-525, one column. *)
Definition fft_nm2b_col (n : nat) (y : nat -> R) : nat -> R :=
  if (n =? 1)%nat then y
  else if (n =? 2)%nat then fun j => irfft n y (fun _ => 0) j * sqrt (INR n)
  else
    let nmodes := (n / 2)%nat in
    let isqrt2 := sqrt (1 / 2) in
    let re k := if (k =? 0)%nat then y 0%nat
                else if (n mod 2 =? 0)%nat && (k =? nmodes)%nat then y nmodes else y k * isqrt2 in
    let im k := if (k =? 0)%nat then 0
                else if (n mod 2 =? 0)%nat && (k =? nmodes)%nat then 0 else y (n - k)%nat * isqrt2 in
    fun j => irfft n re im j * sqrt (INR n).
Definition nm_fft_b2nm (n : nat) (open : list nat) (q : mat) : mat := fun i c =>
  if (n <=? 2)%nat then fft_b2nm_col n (fun j => q j c) i
  else if is_open open c then app n (mk_o_nm_matrix n) (fun j => q j c) i
  else fft_b2nm_col n (fun j => q j c) i.
Definition nm_fft_nm2b (n : nat) (open : list nat) (y : mat) : mat := fun i c =>
  if (n <=? 2)%nat then fft_nm2b_col n (fun j => y j c) i
  else if is_open open c then app n (transpose (mk_o_nm_matrix n)) (fun j => y j c) i
  else fft_nm2b_col n (fun j => y j c) i.
