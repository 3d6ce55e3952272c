(** * Generalised Langevin tools: ipi/utils/tools/gle.py and tools/py/gleacf.py

    Floats are reals. Matrices are functions of two indices with the dimension kept apart. What numpy.linalg.eig and inv return is an argument
    (eigenvalues, eigenvectors, inverse), complex in general. Parsing of the input file and printing are left out. *)
From Coq Require Import List Reals Arith Bool ZArith.
From Coquelicot Require Import Complex.
From Verif Require Import RSum.
Import ListNotations.
Open Scope R_scope.

Definition mat := nat -> nat -> R.
Definition cmat := nat -> nat -> C.
Definition Csum (n : nat) (f : nat -> C) : C := (Rsum n (fun i => fst (f i)), Rsum n (fun i => snd (f i))).

(** get_gle_matrices 34-54: drift, covariance and diffusion of the momentum and the additional degrees of freedom; [A], [C] of the thermostat, which has been
    given the temperature [kbT]. *)
Definition mdot (n : nat) (A B : mat) : mat := fun i j => Rsum n (fun k => A i k * B k j).
Definition mtr (A : mat) : mat := fun i j => A j i.
Definition gle_A (scaling : R) (A : mat) : mat := fun i j => A i j * scaling.
Definition gle_C (kbT : R) (C : mat) : mat := fun i j => C i j / kbT.
Definition gle_D (n : nat) (A C : mat) : mat := fun i j => mdot n A C i j + mdot n C (mtr A) i j.
(** 44-50: white noise with a time constant [tau] *)
Definition lang_A (scaling tau : R) : mat := fun _ _ => 1 / tau * scaling.
Definition lang_C : mat := fun _ _ => 1.

(** Aqp 58-68, Dqp 71-80 *)
Definition Aqp (omega0 : R) (Ap : mat) : mat := fun i j =>
  match i, j with
  | S i, S j => Ap i j
  | 1%nat, 0%nat => - omega0 ^ 2
  | 0%nat, 1%nat => 1
  | _, _ => 0
  end.
Definition Dqp (Dp : mat) : mat := fun i j => match i, j with S i, S j => Dp i j | _, _ => 0 end.

(** Cqp 94-119 *)
(** 99-100: dAqp[:, 0] *= omega0; dAqp[0, :] /= omega0 *)
Definition scale_A (omega0 : R) (A : mat) : mat := fun i j =>
  (A i j * (if (j =? 0)%nat then omega0 else 1)) / (if (i =? 0)%nat then omega0 else 1).
(** 101-102: dDqp[:, 0] /= omega0, twice *)
Definition scale_D (omega0 : R) (D : mat) : mat := fun i j => D i j / (if (j =? 0)%nat then omega0 else 1) / (if (j =? 0)%nat then omega0 else 1).
(** 105-111: [a], [om], [oinv] are the eigenvalues and eigenvectors of the scaled drift, and the inverse *)
Definition lyap_W (n : nat) (a : nat -> C) (oinv : cmat) (D : mat) : cmat := fun i j =>
  (Csum n (fun l => Csum n (fun k => oinv i k * RtoC (D k l)) * oinv j l) / (a i + a j))%C.
Definition lyap (n : nat) (a : nat -> C) (om oinv : cmat) (D : mat) : mat := fun i j =>
  fst (Csum n (fun k => om i k * Csum n (fun l => lyap_W n a oinv D k l * om j l))%C).
(** 113-114 *)
Definition Cqp (n : nat) (omega0 : R) (a : nat -> C) (om oinv : cmat) (D : mat) : mat := fun i j =>
  lyap n a om oinv (scale_D omega0 D) i j / (if (j =? 0)%nat then omega0 else 1) / (if (i =? 0)%nat then omega0 else 1).

(** gle_frequency_kernel 122-165 *)
(** 131-134: the frequencies used *)
Definition kernel_dw (omega : nat -> R) : R := Rabs (omega 1%nat - omega 0%nat).
Definition omlist (omega : nat -> R) (i : nat) : R := if (i =? 0)%nat then Rmax (omega 0%nat) (kernel_dw omega * / 10) else omega i.
(** 148-153: dAqp and dDqp over omega0, and the smallest friction *)
Definition over (A : mat) (w : R) : mat := fun i j => A i j / w.
Definition raise_friction (dw omega0 : R) (A : mat) : mat := fun i j =>
  if ((i =? 1)%nat && (j =? 1)%nat) then (if Rlt_dec (A 1%nat 1%nat) (2 * dw / omega0) then 2 * dw / omega0 else A 1%nat 1%nat) else A i j.
(** 155-163: an entry before the factor of 165: [w2], [om], [oinv] belong to the square of the drift, [w] are the roots, [C] comes from Cqp *)
Definition ker_entry (n : nat) (omega0 : R) (w w2 : nat -> C) (om oinv : cmat) (C : mat) (oo0x : R) : R :=
  fst (Csum n (fun k => om 1%nat k * w k / RtoC omega0 * (Csum n (fun l => oinv k l * RtoC (C l 1%nat)) / (w2 k + RtoC oo0x)))%C).
Definition kernel (dw entry : R) : R := entry * dw * 2 / PI.

(** isra_deconvolute 168-197 *)
Definition tdot (n : nat) (ker : mat) (y : nat -> R) (i : nat) : R := Rsum n (fun k => ker k i * y k).
Definition kdot (n : nat) (ker : mat) (y : nat -> R) (i : nat) : R := Rsum n (fun k => ker i k * y k).
Definition gram (n : nat) (ker : mat) : mat := fun i j => Rsum n (fun k => ker k i * ker k j).
Definition isra_step (n : nat) (ker : mat) (y f : nat -> R) (i : nat) : R := f i * tdot n ker y i / kdot n (gram n ker) f i.
Fixpoint isra (steps n : nat) (ker : mat) (y f : nat -> R) : nat -> R :=
  match steps with O => f | S s => isra_step n ker y (isra s n ker y f) end.
(** 178: the first estimate is the spectrum *)
Definition deconvolute (steps n : nat) (ker : mat) (y : nat -> R) : nat -> R := isra steps n ker y y.
(** 188: the error reported, norm of np.dot(f, ker) - y, squared *)
Definition reported_error (n : nat) (ker : mat) (y f : nat -> R) : R := Rsum n (fun i => (tdot n ker f i - y i) ^ 2).
(** gleacf.py 72: conv *)
Definition convolute (n : nat) (ker : mat) (y : nat -> R) (i : nat) : R := Rsum n (fun k => y k * ker i k).
