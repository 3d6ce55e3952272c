(** * Sums of cosines over equally spaced angles *)
From Coq Require Import Reals ZArith Lra Lia Arith.
From Verif Require Import RSum.
Open Scope R_scope.

Lemma cos_Z_2PI x (k : Z) : cos (x + IZR k * (2 * PI)) = cos x.
Proof.
  destruct (Z.le_gt_cases 0 k) as [H|H].
  - rewrite <- (Z2Nat.id k H), <- INR_IZR_INZ.
    replace (x + INR (Z.to_nat k) * (2 * PI)) with (x + 2 * INR (Z.to_nat k) * PI) by ring. apply cos_period.
  - assert (E : k = (- (- k))%Z) by lia. rewrite E. assert (H' : (0 <= - k)%Z) by lia.
    set (m := Z.to_nat (- k)). assert (Em : (- k)%Z = Z.of_nat m) by (unfold m; lia). rewrite Em, opp_IZR, <- INR_IZR_INZ.
    rewrite <- (cos_period (x + - INR m * (2 * PI)) m). f_equal. ring.
Qed.
Lemma sin_Z_2PI x (k : Z) : sin (x + IZR k * (2 * PI)) = sin x.
Proof.
  rewrite <- !cos_shift. replace (PI / 2 - (x + IZR k * (2 * PI))) with (PI / 2 - x + IZR (- k) * (2 * PI)) by (rewrite opp_IZR; ring).
  apply cos_Z_2PI.
Qed.
Lemma sin_Z_PI (k : Z) : sin (IZR k * PI) = 0.
Proof. apply sin_eq_0_1. now exists k. Qed.

(** [2 sin(t/2) cos(jt + p)] telescopes. *)
Lemma telescope t p n :
  2 * sin (t / 2) * Rsum n (fun j => cos (INR j * t + p)) = sin (INR n * t - t / 2 + p) - sin (p - t / 2).
Proof.
  induction n as [|n IH].
  - cbn. replace (0 * t - t / 2 + p) with (p - t / 2) by ring. ring.
  - cbn [Rsum]. rewrite Rmult_plus_distr_l, IH. rewrite S_INR.
    replace ((INR n + 1) * t - t / 2 + p) with ((INR n * t + p) + t / 2) by field.
    replace (INR n * t - t / 2 + p) with ((INR n * t + p) - t / 2) by ring.
    rewrite sin_plus, sin_minus. ring.
Qed.

Lemma sin_frac_neq0 (m : Z) (n : nat) : (0 < n)%nat -> (m mod Z.of_nat n <> 0)%Z -> sin (IZR m * PI / INR n) <> 0.
Proof.
  intros Hn Hm Hs. apply sin_eq_0_0 in Hs as [k Hk]. apply Hm.
  assert (Hn' : INR n <> 0) by (apply not_0_INR; lia). pose proof PI_neq0 as Hpi.
  assert (E : IZR m = IZR (k * Z.of_nat n)).
  { rewrite mult_IZR, <- INR_IZR_INZ. apply Rmult_eq_reg_r with (PI / INR n); [|apply Rmult_integral_contrapositive; split; [easy|now apply Rinv_neq_0_compat]].
    transitivity (IZR m * PI / INR n); [unfold Rdiv; ring|]. rewrite Hk. field. easy. }
  apply eq_IZR in E. subst m. apply Z.mod_mul. lia.
Qed.

(** Over a full period. *)
Lemma cos_sum_zero (m : Z) (n : nat) p : (0 < n)%nat -> (m mod Z.of_nat n <> 0)%Z ->
  Rsum n (fun j => cos (INR j * (2 * PI * IZR m / INR n) + p)) = 0.
Proof.
  intros Hn Hm. assert (Hn' : INR n <> 0) by (apply not_0_INR; lia).
  set (t := 2 * PI * IZR m / INR n).
  assert (Hs : sin (t / 2) <> 0).
  { replace (t / 2) with (IZR m * PI / INR n) by (unfold t; field; easy). now apply sin_frac_neq0. }
  pose proof (telescope t p n) as H.
  replace (INR n * t - t / 2 + p) with ((p - t / 2) + IZR m * (2 * PI)) in H by (unfold t; field; easy).
  rewrite sin_Z_2PI, Rminus_eq_0 in H. apply Rmult_integral in H as [H|H]; [|easy].
  exfalso. apply Hs. lra.
Qed.
Lemma cos_sum_full (m : Z) (n : nat) p : (0 < n)%nat -> (m mod Z.of_nat n = 0)%Z ->
  Rsum n (fun j => cos (INR j * (2 * PI * IZR m / INR n) + p)) = INR n * cos p.
Proof.
  intros Hn Hm. assert (Hn' : INR n <> 0) by (apply not_0_INR; lia).
  apply Z.div_exact in Hm; [|lia]. set (k := (m / Z.of_nat n)%Z) in *.
  rewrite (Rsum_ext n _ (fun _ => cos p)); [now rewrite Rsum_const|].
  intros j _. rewrite Hm, mult_IZR, <- INR_IZR_INZ.
  replace (INR j * (2 * PI * (INR n * IZR k) / INR n) + p) with (p + IZR (Z.of_nat j * k) * (2 * PI)).
  - apply cos_Z_2PI.
  - rewrite mult_IZR, <- INR_IZR_INZ. field. easy.
Qed.
(** The half-shifted sums of the open path. *)
Lemma cos_half_sum (m : Z) (n : nat) : (0 < n)%nat -> (m mod Z.of_nat (2 * n) <> 0)%Z ->
  Rsum n (fun j => cos (PI * (INR j + / 2) * IZR m / INR n)) = 0.
Proof.
  intros Hn Hm. assert (Hn' : INR n <> 0) by (apply not_0_INR; lia).
  set (t := PI * IZR m / INR n).
  assert (Hs : sin (t / 2) <> 0).
  { replace (t / 2) with (IZR m * PI / INR (2 * n)) by (rewrite mult_INR; unfold t; cbn [INR]; field; easy). apply sin_frac_neq0; [lia|easy]. }
  pose proof (telescope t (t / 2) n) as H.
  replace (INR n * t - t / 2 + t / 2) with (IZR m * PI) in H by (unfold t; field; easy).
  replace (t / 2 - t / 2) with 0 in H by ring. rewrite sin_Z_PI, sin_0, Rminus_0_r in H.
  apply Rmult_integral in H as [H|H]; [exfalso; apply Hs; lra|].
  rewrite <- H. apply Rsum_ext. intros j _. f_equal. unfold t. field. easy.
Qed.

Lemma cos_cos a b : cos a * cos b = / 2 * (cos (a - b) + cos (a + b)).
Proof. rewrite cos_minus, cos_plus. field. Qed.
Lemma sin_as_cos x : sin x = cos (x + - (PI / 2)).
Proof. rewrite cos_plus, cos_neg, sin_neg, cos_PI2, sin_PI2. ring. Qed.
Lemma cos_INR_PI n : cos (INR n * PI) = (-1) ^ n.
Proof. induction n as [|n IH]; [cbn; now rewrite Rmult_0_l, cos_0|]. rewrite S_INR, Rmult_plus_distr_r, Rmult_1_l, neg_cos, IH. cbn. ring. Qed.
