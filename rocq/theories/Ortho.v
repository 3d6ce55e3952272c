(** * Square real matrices with orthonormal rows *)
From Coq Require Import Reals Lra Lia Arith.
From Verif Require Import RSum.
Open Scope R_scope.

Definition mat := nat -> nat -> R.
Definition orthonormal_rows (n : nat) (C : mat) : Prop :=
  forall i k, (i < n)%nat -> (k < n)%nat -> Rsum n (fun j => C i j * C k j) = delta i k.
Definition orthonormal_cols (n : nat) (C : mat) : Prop :=
  forall i k, (i < n)%nat -> (k < n)%nat -> Rsum n (fun j => C j i * C j k) = delta i k.

(** Orthonormal rows of a square matrix give orthonormal columns: [P = C^T C] is an
    idempotent of trace [n], so the square norm of [1 - P] is zero. *)
Lemma rows_cols n C : orthonormal_rows n C -> orthonormal_cols n C.
Proof.
  intros H. set (P := fun i k => Rsum n (fun j => C j i * C j k)).
  assert (Hsym : forall i k, P i k = P k i) by (intros i k; apply Rsum_ext; intros; ring).
  assert (Hidem : forall i k, (i < n)%nat -> (k < n)%nat -> Rsum n (fun l => P i l * P l k) = P i k).
  { intros i k Hi Hk. unfold P.
    transitivity (Rsum n (fun j => C j i * Rsum n (fun j' => C j' k * Rsum n (fun l => C j l * C j' l)))).
    - transitivity (Rsum n (fun l => Rsum n (fun j => Rsum n (fun j' => C j i * C j l * (C j' l * C j' k))))).
      + apply Rsum_ext. intros l _. rewrite <- Rsum_scal_r. apply Rsum_ext. intros j _. now rewrite <- Rsum_scal.
      + rewrite Rsum_swap. apply Rsum_ext. intros j _. rewrite Rsum_swap. rewrite <- Rsum_scal. apply Rsum_ext. intros j' _.
        rewrite <- !Rsum_scal. apply Rsum_ext. intros; ring.
    - apply Rsum_ext. intros j Hj. f_equal. rewrite <- (Rsum_delta_l n j (fun j' => C j' k) Hj). apply Rsum_ext. intros j' Hj'.
      now rewrite H. }
  assert (Htr : Rsum n (fun i => P i i) = INR n).
  { unfold P. rewrite Rsum_swap. rewrite (Rsum_ext n _ (fun _ => 1)); [rewrite Rsum_const; ring|].
    intros j Hj. rewrite H by easy. unfold delta. now rewrite Nat.eqb_refl. }
  set (Q := fun i k => delta i k - P i k).
  assert (Hq : Rsum n (fun i => Rsum n (fun k => Q i k * Q i k)) = 0).
  { transitivity (Rsum n (fun i => Q i i)).
    - apply Rsum_ext. intros i Hi. unfold Q.
      transitivity (Rsum n (fun k => (delta i k - 2 * P i k) * delta i k) + Rsum n (fun k => P i k * P k i)).
      + rewrite <- Rsum_plus. apply Rsum_ext. intros k _. rewrite (Hsym k i). ring.
      + rewrite Hidem by easy. assert (E := Rsum_delta_l n i (fun k => delta i k - 2 * P i k) Hi). cbv beta in E.
        rewrite E. ring.
    - unfold Q. rewrite Rsum_minus, Htr. rewrite (Rsum_ext n _ (fun _ => 1)); [rewrite Rsum_const; ring|].
      intros i _. unfold delta. now rewrite Nat.eqb_refl. }
  intros i k Hi Hk. fold (P i k).
  assert (Hi0 : Rsum n (fun k => Q i k * Q i k) = 0).
  { apply (Rsum_eq0 n (fun i => Rsum n (fun k => Q i k * Q i k))); [|easy|easy]. intros; apply Rsum_nonneg; intros; apply Rle_0_sqr. }
  assert (Hk0 : Q i k * Q i k = 0).
  { apply (Rsum_eq0 n (fun k => Q i k * Q i k)); [|easy|easy]. intros; apply Rle_0_sqr. }
  apply Rmult_integral in Hk0. unfold Q in Hk0. lra.
Qed.

Lemma cols_rows n C : orthonormal_cols n C -> orthonormal_rows n C.
Proof. intros H. exact (rows_cols n (fun i j => C j i) H). Qed.

(** Norms. *)
Lemma ortho_norm n C x : orthonormal_cols n C ->
  Rsum n (fun i => Rsum n (fun j => C i j * x j) * Rsum n (fun j => C i j * x j)) = Rsum n (fun j => x j * x j).
Proof.
  intros H.
  transitivity (Rsum n (fun j => Rsum n (fun k => x j * x k * Rsum n (fun i => C i j * C i k)))).
  - transitivity (Rsum n (fun i => Rsum n (fun j => Rsum n (fun k => C i j * x j * (C i k * x k))))).
    + apply Rsum_ext. intros i _. rewrite <- Rsum_scal_r. apply Rsum_ext. intros j _. now rewrite <- Rsum_scal.
    + rewrite Rsum_swap. apply Rsum_ext. intros j _. rewrite Rsum_swap. apply Rsum_ext. intros k _. rewrite <- Rsum_scal. apply Rsum_ext. intros; ring.
  - apply Rsum_ext. intros j Hj.
    rewrite (Rsum_ext n _ (fun k => x j * x k * delta j k)) by (intros k Hk; now rewrite H).
    apply (Rsum_delta_l n j (fun k => x j * x k) Hj).
Qed.
Lemma ortho_roundtrip n C x j : orthonormal_cols n C -> (j < n)%nat ->
  Rsum n (fun i => C i j * Rsum n (fun k => C i k * x k)) = x j.
Proof.
  intros H Hj.
  transitivity (Rsum n (fun k => x k * Rsum n (fun i => C i j * C i k))).
  - transitivity (Rsum n (fun i => Rsum n (fun k => C i j * (C i k * x k)))); [apply Rsum_ext; intros; now rewrite <- Rsum_scal|].
    rewrite Rsum_swap. apply Rsum_ext. intros k _. rewrite <- Rsum_scal. apply Rsum_ext. intros; ring.
  - rewrite (Rsum_ext n _ (fun k => x k * delta j k)) by (intros k Hk; now rewrite H). now apply Rsum_delta_l.
Qed.
Lemma ortho_roundtrip' n C x i : orthonormal_rows n C -> (i < n)%nat ->
  Rsum n (fun j => C i j * Rsum n (fun k => C k j * x k)) = x i.
Proof. intros H Hi. exact (ortho_roundtrip n (fun i j => C j i) x i H Hi). Qed.
