(** How close the truncated series of mathtools.py come to the functions they
    replace (C83). *)
From Coq Require Import Reals Lra Lia List.
From Coquelicot Require Import Coquelicot.
From Verif Require Import RSum CellModel CellProps.
Local Open Scope R_scope.

(** ** sinch *)
(** integrating an inequality from zero *)
Lemma integrate_le (f g df dg : R -> R) a : f 0 = g 0 ->
  (forall t, 0 <= t <= a -> is_derive f t (df t)) -> (forall t, 0 <= t <= a -> is_derive g t (dg t)) ->
  (forall t, 0 <= t <= a -> df t <= dg t) -> forall x, 0 <= x <= a -> f x <= g x.
Proof.
  intros E Df Dg L x [X0 Xa].
  destruct (Rle_lt_or_eq_dec 0 x X0) as [X0' | <-]; [|rewrite E; lra].
  destruct (MVT_gen (fun t => g t - f t) 0 x (fun t => dg t - df t)) as (c & Hc & M).
  - rewrite Rmin_left, Rmax_right by lra. intros t Ht. apply (is_derive_minus g f); [apply Dg | apply Df]; lra.
  - rewrite Rmin_left, Rmax_right by lra. intros t Ht.
    apply continuity_pt_filterlim. apply (ex_derive_continuous (fun t => g t - f t)). exists (dg t - df t).
    apply (is_derive_minus g f); [apply Dg | apply Df]; lra.
  - rewrite Rmin_left, Rmax_right in Hc by lra. specialize (L c ltac:(lra)).
    assert (0 <= (dg c - df c) * (x - 0)) by (apply Rmult_le_pos; lra). lra.
Qed.

Lemma d_sinh t : is_derive sinh t (cosh t).
Proof. unfold sinh, cosh. auto_derive; [easy|]. field. Qed.
Lemma d_cosh t : is_derive cosh t (sinh t).
Proof. unfold sinh, cosh. auto_derive; [easy|]. field. Qed.

Lemma exp_small t : 0 <= t <= 1 / 10 -> exp t <= 10 / 9.
Proof.
  intros H. assert (A := exp_ineq1_le (- t)). rewrite exp_Ropp in A.
  assert (P := exp_pos t). apply Rmult_le_reg_r with (/ exp t * (9 / 10)); [apply Rmult_lt_0_compat; [apply Rinv_0_lt_compat|]; lra|].
  replace (exp t * (/ exp t * (9 / 10))) with (9 / 10) by (field; lra). lra.
Qed.
Lemma cosh_small t : 0 <= t <= 1 / 10 -> cosh t <= 6 / 5.
Proof.
  intros H. unfold cosh. assert (A := exp_small t H).
  assert (exp (- t) <= 1). { rewrite <- exp_0. destruct (Req_dec t 0) as [-> | N]; [rewrite Ropp_0; lra|]. left. apply exp_increasing. lra. }
  lra.
Qed.

(** one integration step: an inequality for the derivative, polynomials on one
    side *)
Ltac step f df g dg H a :=
  let t := fresh "t" in let Ht := fresh "Ht" in
  apply (integrate_le f g df dg a);
  [ unfold sinh, cosh; rewrite ?Ropp_0, ?exp_0; field
  | intros t Ht; first [apply d_sinh | apply d_cosh | auto_derive; [easy|]; field]
  | intros t Ht; first [apply d_sinh | apply d_cosh | auto_derive; [easy|]; field]
  | intros t Ht; exact (H t Ht) ].

Section Upper.
Let a := 1 / 10.
Lemma su1 : forall x, 0 <= x <= a -> sinh x <= 6 / 5 * x.
Proof. step sinh cosh (fun x => 6 / 5 * x) (fun x : R => 6 / 5) cosh_small a. Qed.
Lemma cu1 : forall x, 0 <= x <= a -> cosh x <= 1 + 3 / 5 * x ^ 2.
Proof. step cosh sinh (fun x => 1 + 3 / 5 * x ^ 2) (fun x => 6 / 5 * x) su1 a. Qed.
Lemma su2 : forall x, 0 <= x <= a -> sinh x <= x + x ^ 3 / 5.
Proof. step sinh cosh (fun x => x + x ^ 3 / 5) (fun x => 1 + 3 / 5 * x ^ 2) cu1 a. Qed.
Lemma cu2 : forall x, 0 <= x <= a -> cosh x <= 1 + x ^ 2 / 2 + x ^ 4 / 20.
Proof. step cosh sinh (fun x => 1 + x ^ 2 / 2 + x ^ 4 / 20) (fun x => x + x ^ 3 / 5) su2 a. Qed.
Lemma su3 : forall x, 0 <= x <= a -> sinh x <= x + x ^ 3 / 6 + x ^ 5 / 100.
Proof. step sinh cosh (fun x => x + x ^ 3 / 6 + x ^ 5 / 100) (fun x => 1 + x ^ 2 / 2 + x ^ 4 / 20) cu2 a. Qed.
Lemma cu3 : forall x, 0 <= x <= a -> cosh x <= 1 + x ^ 2 / 2 + x ^ 4 / 24 + x ^ 6 / 600.
Proof. step cosh sinh (fun x => 1 + x ^ 2 / 2 + x ^ 4 / 24 + x ^ 6 / 600) (fun x => x + x ^ 3 / 6 + x ^ 5 / 100) su3 a. Qed.
Lemma su4 : forall x, 0 <= x <= a -> sinh x <= x + x ^ 3 / 6 + x ^ 5 / 120 + x ^ 7 / 4200.
Proof. step sinh cosh (fun x => x + x ^ 3 / 6 + x ^ 5 / 120 + x ^ 7 / 4200) (fun x => 1 + x ^ 2 / 2 + x ^ 4 / 24 + x ^ 6 / 600) cu3 a. Qed.
Lemma cu4 : forall x, 0 <= x <= a -> cosh x <= 1 + x ^ 2 / 2 + x ^ 4 / 24 + x ^ 6 / 720 + x ^ 8 / 33600.
Proof. step cosh sinh (fun x => 1 + x ^ 2 / 2 + x ^ 4 / 24 + x ^ 6 / 720 + x ^ 8 / 33600) (fun x => x + x ^ 3 / 6 + x ^ 5 / 120 + x ^ 7 / 4200) su4 a. Qed.
Lemma su5 : forall x, 0 <= x <= a -> sinh x <= x + x ^ 3 / 6 + x ^ 5 / 120 + x ^ 7 / 5040 + x ^ 9 / 302400.
Proof. step sinh cosh (fun x => x + x ^ 3 / 6 + x ^ 5 / 120 + x ^ 7 / 5040 + x ^ 9 / 302400) (fun x => 1 + x ^ 2 / 2 + x ^ 4 / 24 + x ^ 6 / 720 + x ^ 8 / 33600) cu4 a. Qed.

Lemma cl0 : forall x, 0 <= x <= a -> 1 <= cosh x.
Proof.
  intros x _. unfold cosh. assert (P := exp_pos x). rewrite exp_Ropp.
  assert (0 <= (exp x - 1) ^ 2 / exp x) by (apply Rmult_le_pos; [apply pow2_ge_0 | left; now apply Rinv_0_lt_compat]).
  replace ((exp x - 1) ^ 2 / exp x) with (exp x + / exp x - 2) in H by (field; lra). lra.
Qed.
Lemma sl1 : forall x, 0 <= x <= a -> x <= sinh x.
Proof. step (fun x : R => x) (fun x : R => 1) sinh cosh cl0 a. Qed.
Lemma cl1 : forall x, 0 <= x <= a -> 1 + x ^ 2 / 2 <= cosh x.
Proof. step (fun x => 1 + x ^ 2 / 2) (fun x : R => x) cosh sinh sl1 a. Qed.
Lemma sl2 : forall x, 0 <= x <= a -> x + x ^ 3 / 6 <= sinh x.
Proof. step (fun x => x + x ^ 3 / 6) (fun x => 1 + x ^ 2 / 2) sinh cosh cl1 a. Qed.
Lemma cl2 : forall x, 0 <= x <= a -> 1 + x ^ 2 / 2 + x ^ 4 / 24 <= cosh x.
Proof. step (fun x => 1 + x ^ 2 / 2 + x ^ 4 / 24) (fun x => x + x ^ 3 / 6) cosh sinh sl2 a. Qed.
Lemma sl3 : forall x, 0 <= x <= a -> x + x ^ 3 / 6 + x ^ 5 / 120 <= sinh x.
Proof. step (fun x => x + x ^ 3 / 6 + x ^ 5 / 120) (fun x => 1 + x ^ 2 / 2 + x ^ 4 / 24) sinh cosh cl2 a. Qed.
Lemma cl3 : forall x, 0 <= x <= a -> 1 + x ^ 2 / 2 + x ^ 4 / 24 + x ^ 6 / 720 <= cosh x.
Proof. step (fun x => 1 + x ^ 2 / 2 + x ^ 4 / 24 + x ^ 6 / 720) (fun x => x + x ^ 3 / 6 + x ^ 5 / 120) cosh sinh sl3 a. Qed.
Lemma sl4 : forall x, 0 <= x <= a -> x + x ^ 3 / 6 + x ^ 5 / 120 + x ^ 7 / 5040 <= sinh x.
Proof. step (fun x => x + x ^ 3 / 6 + x ^ 5 / 120 + x ^ 7 / 5040) (fun x => 1 + x ^ 2 / 2 + x ^ 4 / 24 + x ^ 6 / 720) sinh cosh cl3 a. Qed.
End Upper.

(** Wherever it is used, the series differs from sinh x / x by less than the
    first term left out. *)
Theorem sinch_accurate x : x <> 0 -> 0 <= sinh x / x - sinch x <= x ^ 8 / 302400.
Proof.
  assert (P : forall x, 0 < x -> 0 <= sinh x / x - sinch x <= x ^ 8 / 302400).
  { clear x. intros x X. unfold sinch. destruct (Rlt_dec (Rabs (x * x)) (/ 10 ^ 12)) as [S|S].
    - assert (B : 0 <= x <= 1 / 10).
      { split; [lra|]. rewrite Rabs_right in S by nra. apply Rnot_lt_le. intros C.
        assert (/ 10 ^ 12 < / 100) by (apply Rinv_lt_contravar; lra). nra. }
      assert (U := su5 x B). assert (L := sl4 x B).
      assert (I : 0 < / x) by now apply Rinv_0_lt_compat.
      assert (Q : sinh x / x - (1 + x * x / 6 * (1 + x * x / 20 * (1 + x * x / 42))) =
                  (sinh x - (x + x ^ 3 / 6 + x ^ 5 / 120 + x ^ 7 / 5040)) * / x) by (field; lra).
      rewrite Q. split; [apply Rmult_le_pos; lra|].
      replace (x ^ 8 / 302400) with (x ^ 9 / 302400 * / x) by (field; lra).
      apply Rmult_le_compat_r; lra.
    - rewrite Rminus_eq_0. split; [lra|]. apply Rmult_le_pos; [|lra]. left. apply pow_lt. lra. }
  intros N. destruct (Rlt_dec 0 x) as [X|X]; [now apply P|].
  assert (X' : 0 < - x) by lra. apply P in X'. rewrite sinch_even in X'.
  assert (S : sinh (- x) / - x = sinh x / x). { unfold sinh. rewrite Ropp_involutive. field. lra. }
  rewrite S in X'. replace ((- x) ^ 8) with (x ^ 8) in X' by ring. exact X'.
Qed.

(** ** Divided differences of the exponential *)
Lemma exp_low t : 1 + t <= exp t.
Proof. apply exp_ineq1_le. Qed.
Lemma exp_high t : Rabs t <= 1 / 4 -> exp t <= 1 + t + 4 / 3 * t ^ 2.
Proof.
  intros H. apply Rabs_le_between in H. assert (A := exp_ineq1_le (- t)). rewrite exp_Ropp in A.
  assert (P := exp_pos t). assert (E : exp t * (1 - t) <= 1).
  { replace 1 with (exp t * / exp t) at 2 by (field; lra). apply Rmult_le_compat_l; lra. }
  apply Rmult_le_reg_r with (1 - t); [lra|]. apply Rle_trans with 1; [exact E|].
  replace ((1 + t + 4 / 3 * t ^ 2) * (1 - t)) with (1 + t ^ 2 * (1 / 3 - 4 / 3 * t)) by field.
  assert (0 <= t ^ 2 * (1 / 3 - 4 / 3 * t)) by (apply Rmult_le_pos; nra). lra.
Qed.

(** The branch for close diagonal elements is accurate to first order only: the
    code multiplies by exp x where the series belongs to exp y. *)
Theorem dd_series_first_order x y : far x y = false -> x <> y -> Rabs (x - y) <= 1 / 4 ->
  Rabs (x - y) / 3 <= Rabs (dd x y (exp x) (exp y) - (exp x - exp y) / (x - y)) / exp x <= 2 * Rabs (x - y).
Proof.
  intros F N B. unfold dd. rewrite F. set (d := x - y) in *. assert (D : d <> 0) by (unfold d; lra).
  assert (EY : exp y = exp x * exp (- d)) by (rewrite <- exp_plus; f_equal; unfold d; ring).
  assert (P := exp_pos x). rewrite EY.
  replace (exp x * (1 + d * (1 / 2 + d / 6)) - (exp x - exp x * exp (- d)) / d)
    with (exp x * (1 + d / 2 + d ^ 2 / 6 - (1 - exp (- d)) / d)) by (field; exact D).
  rewrite Rabs_mult, (Rabs_right (exp x)) by lra.
  replace (exp x * Rabs (1 + d / 2 + d ^ 2 / 6 - (1 - exp (- d)) / d) / exp x)
    with (Rabs (1 + d / 2 + d ^ 2 / 6 - (1 - exp (- d)) / d)) by (field; lra).
  assert (L := exp_low (- d)). assert (H := exp_high (- d) ltac:(now rewrite Rabs_Ropp)).
  set (e := exp (- d)) in *. clearbody e. clear EY P F.
  destruct (Rlt_dec 0 d) as [G|G].
  - rewrite (Rabs_right d) in * by lra.
    assert (I : 0 < / d) by now apply Rinv_0_lt_compat.
    assert (Q1 : (1 - e) / d <= 1). { apply Rmult_le_reg_r with d; [lra|]. replace ((1 - e) / d * d) with (1 - e) by (field; lra). lra. }
    assert (Q2 : 1 - 4 / 3 * d <= (1 - e) / d). { apply Rmult_le_reg_r with d; [lra|]. replace ((1 - e) / d * d) with (1 - e) by (field; lra). nra. }
    rewrite Rabs_right by nra. split; nra.
  - assert (G' : d < 0) by lra. rewrite (Rabs_left d) in * by lra.
    assert (Q1 : 1 <= (1 - e) / d). { apply Rmult_le_reg_r with (- d); [lra|]. replace ((1 - e) / d * - d) with (e - 1) by (field; lra). lra. }
    assert (Q2 : (1 - e) / d <= 1 - 4 / 3 * d). { apply Rmult_le_reg_r with (- d); [lra|]. replace ((1 - e) / d * - d) with (e - 1) by (field; lra). nra. }
    rewrite Rabs_left by nra. split; nra.
Qed.

(** such points exist *)
Example dd_close : far 1 (1 - / 10 ^ 9) = false /\ 1 <> 1 - / 10 ^ 9 /\ Rabs (1 - (1 - / 10 ^ 9)) <= 1 / 4.
Proof.
  assert (Z : 0 < / 10 ^ 9 < 1 / 4). { split; [apply Rinv_0_lt_compat; lra|]. replace (1 / 4) with (/ 4) by field. apply Rinv_lt_contravar; lra. }
  split; [|split; [lra|rewrite Rabs_right; lra]]. unfold far, minseries. destruct Rlt_dec as [L|]; [exfalso|easy].
  replace ((1 - (1 - / 10 ^ 9)) / 1) with (/ 10 ^ 9) in L by field. rewrite Rabs_right in L by lra.
  assert (/ 10 ^ 9 < / 10 ^ 8) by (apply Rinv_lt_contravar; lra). lra.
Qed.
Print Assumptions sinch_accurate.
Print Assumptions dd_series_first_order.
