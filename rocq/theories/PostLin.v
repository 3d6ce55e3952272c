(** * Products over the roots of unity *)
From Coq Require Import List Reals Lra Lia Arith.
From Coquelicot Require Import Complex.
From Verif Require Import RSum.
Import ListNotations.
Open Scope R_scope.

Fixpoint Rprod (n : nat) (f : nat -> R) : R := match n with O => 1 | S n' => Rprod n' f * f n' end.
Lemma Rprod_ext n f g : (forall i, (i < n)%nat -> f i = g i) -> Rprod n f = Rprod n g.
Proof. induction n as [|n IH]; intros H; cbn; [easy|]. rewrite IH, (H n); auto. Qed.
Lemma Rprod_mult n f g : Rprod n (fun i => f i * g i) = Rprod n f * Rprod n g.
Proof. induction n as [|n IH]; cbn; [ring|]. rewrite IH. ring. Qed.
Lemma Rprod_const n c : Rprod n (fun _ => c) = c ^ n.
Proof. induction n as [|n IH]; cbn; [easy|]. rewrite IH. ring. Qed.
Lemma Rprod_pos n f : (forall i, (i < n)%nat -> 0 < f i) -> 0 < Rprod n f.
Proof. induction n as [|n IH]; intros H; cbn; [lra|]. apply Rmult_lt_0_compat; [apply IH; auto|apply H; auto]. Qed.
Lemma Rprod_nonneg n f : (forall i, (i < n)%nat -> 0 <= f i) -> 0 <= Rprod n f.
Proof. induction n as [|n IH]; intros H; cbn; [lra|]. apply Rmult_le_pos; [apply IH; auto|apply H; auto]. Qed.
Lemma Rprod_first n f : Rprod (S n) f = f 0%nat * Rprod n (fun i => f (S i)).
Proof. induction n as [|n IH]; [cbn; ring|]. change (Rprod (S (S n)) f) with (Rprod (S n) f * f (S n)). rewrite IH. cbn. ring. Qed.
Lemma Rprod_split n m f : Rprod (n + m) f = Rprod n f * Rprod m (fun i => f (n + i)%nat).
Proof. induction m as [|m IH]; [rewrite Nat.add_0_r; cbn; ring|]. rewrite Nat.add_succ_r. cbn. rewrite IH. ring. Qed.
Lemma Rprod_rev n f : Rprod n (fun i => f (n - 1 - i)%nat) = Rprod n f.
Proof.
  induction n as [|n IH]; [easy|]. rewrite Rprod_first. replace (S n - 1 - 0)%nat with n by lia. cbn [Rprod]. rewrite <- IH, Rmult_comm. f_equal.
  apply Rprod_ext. intros i Hi. f_equal. lia.
Qed.
Lemma ln_Rprod n f : (forall i, (i < n)%nat -> 0 < f i) -> ln (Rprod n f) = Rsum n (fun i => ln (f i)).
Proof.
  induction n as [|n IH]; intros H; cbn; [apply ln_1|]. rewrite ln_mult; [|apply Rprod_pos; auto|apply H; auto]. rewrite IH by auto. easy.
Qed.

(** ** Polynomials *)
Open Scope C_scope.
Fixpoint Cprod (n : nat) (f : nat -> C) : C := match n with O => 1 | S n' => Cprod n' f * f n' end.
Fixpoint Cpw (z : C) (n : nat) : C := match n with O => 1 | S n' => z * Cpw z n' end.
Fixpoint peval (l : list C) (z : C) : C := match l with [] => 0 | a :: l' => a + z * peval l' z end.
Fixpoint padd (a b : list C) : list C :=
  match a, b with [], _ => b | _, [] => a | x :: a', y :: b' => (x + y) :: padd a' b' end.
Definition pscal (c : C) (l : list C) : list C := map (fun x => c * x) l.
Fixpoint pquot (l : list C) (a : C) : list C := match l with [] => [] | _ :: l' => padd l' (pscal a (pquot l' a)) end.

Lemma peval_padd a : forall b z, peval (padd a b) z = peval a z + peval b z.
Proof. induction a as [|x a IH]; intros [|y b] z; cbn; try ring. rewrite IH. ring. Qed.
Lemma peval_pscal c l z : peval (pscal c l) z = c * peval l z.
Proof. induction l as [|x l IH]; cbn; [ring|]. unfold pscal in IH. rewrite IH. ring. Qed.
Lemma length_padd a : forall b, length (padd a b) = Nat.max (length a) (length b).
Proof. induction a as [|x a IH]; intros [|y b]; cbn; try lia. rewrite IH. lia. Qed.
Lemma length_pscal c l : length (pscal c l) = length l.
Proof. apply map_length. Qed.
Lemma length_pquot l a : (length (pquot l a) <= length l - 1)%nat.
Proof. induction l as [|x l IH]; cbn; [lia|]. rewrite length_padd, length_pscal. lia. Qed.
Lemma peval_pquot l a z : peval l z - peval l a = (z - a) * peval (pquot l a) z.
Proof.
  induction l as [|x l IH]; cbn; [ring|]. rewrite peval_padd, peval_pscal.
  transitivity ((z - a) * peval l z + a * (peval l z - peval l a)); [ring|]. rewrite IH. ring.
Qed.
Lemma Cmult_zero (x y : C) : x * y = 0 -> x <> 0 -> y = 0.
Proof. intros H N. replace y with (/ x * (x * y)) by (field; exact N). rewrite H. ring. Qed.
Lemma Cminus_zero (x y : C) : x - y = 0 -> x = y.
Proof. intros H. replace x with (x - y + y) by ring. rewrite H. ring. Qed.
(** A polynomial with more roots than its degree is zero. *)
Lemma few_roots n : forall l (r : nat -> C), (length l <= n)%nat -> (forall i, (i < n)%nat -> peval l (r i) = 0) ->
  (forall i j, (i < j)%nat -> (j < n)%nat -> r i <> r j) -> forall z, peval l z = 0.
Proof.
  induction n as [|n IH]; intros l r L H D z.
  - destruct l; [easy|cbn in L; lia].
  - assert (E : forall y, peval l y = (y - r n) * peval (pquot l (r n)) y).
    { intros y. rewrite <- peval_pquot, (H n) by lia. ring. }
    rewrite E, (IH (pquot l (r n)) r).
    + ring.
    + pose proof (length_pquot l (r n)). lia.
    + intros i Hi. apply (Cmult_zero (r i - r n)).
      * rewrite <- E. apply H. lia.
      * intros Z. apply Cminus_zero in Z. revert Z. apply D; lia.
    + intros i j Hij Hj. apply D; lia.
Qed.
Lemma peval_snoc l c z : peval (l ++ [c]) z = peval l z + Cpw z (length l) * c.
Proof. induction l as [|x l IH]; cbn; [ring|]. rewrite IH. ring. Qed.
Lemma monic n (r : nat -> C) : exists l, length l = n /\ forall z, Cprod n (fun i => z - r i) = Cpw z n + peval l z.
Proof.
  induction n as [|n [l [L H]]].
  - exists []. split; [easy|]. intros z. cbn. ring.
  - exists (padd (RtoC 0 :: l) (pscal (- r n) (l ++ [RtoC 1]))). split.
    + rewrite length_padd, length_pscal, app_length. cbn [length]. lia.
    + intros z. cbn [Cprod Cpw]. rewrite H, peval_padd, peval_pscal, peval_snoc, L. cbn [peval]. ring.
Qed.

(** ** Roots of unity *)
Definition unit_root (P k : nat) : C := (cos (2 * PI * INR k / INR P), sin (2 * PI * INR k / INR P))%R.
Lemma de_moivre t n : Cpw (cos t, sin t) n = (cos (INR n * t), sin (INR n * t)).
Proof.
  induction n as [|n IH].
  - cbn. rewrite Rmult_0_l, cos_0, sin_0. reflexivity.
  - cbn [Cpw]. rewrite IH. rewrite S_INR. replace ((INR n + 1) * t)%R with (t + INR n * t)%R by ring. rewrite cos_plus, sin_plus.
    unfold Cmult. cbn. f_equal; ring.
Qed.
Lemma unit_root_pow P k : (0 < P)%nat -> Cpw (unit_root P k) P = 1.
Proof.
  intros H. unfold unit_root. rewrite de_moivre. pose proof (lt_0_INR P H) as HP.
  replace (INR P * (2 * PI * INR k / INR P))%R with (0 + 2 * INR k * PI)%R by (field; lra).
  rewrite cos_period, sin_period, cos_0, sin_0. reflexivity.
Qed.
Lemma cos_lt_1 x : (0 < x < 2 * PI)%R -> cos x <> 1%R.
Proof.
  intros H E. replace x with (2 * (x / 2))%R in E by field. rewrite cos_2a_sin in E.
  assert (S : (0 < sin (x / 2))%R) by (apply sin_gt_0; lra). assert (0 < sin (x / 2) * sin (x / 2))%R by now apply Rmult_lt_0_compat. lra.
Qed.
Lemma unit_root_distinct P i j : (i < j)%nat -> (j < P)%nat -> unit_root P i <> unit_root P j.
Proof.
  intros Hij Hj E. unfold unit_root in E. injection E as C S. assert (HP : (0 < INR P)%R) by (apply lt_0_INR; lia).
  set (a := (2 * PI * INR i / INR P)%R) in *. set (b := (2 * PI * INR j / INR P)%R) in *.
  assert (X : cos (b - a) = 1%R). { rewrite cos_minus, <- C, <- S. pose proof (sin2_cos2 a). unfold Rsqr in H. lra. }
  revert X. apply cos_lt_1. unfold a, b. replace (2 * PI * INR j / INR P - 2 * PI * INR i / INR P)%R with (2 * PI * ((INR j - INR i) / INR P))%R by (field; lra).
  pose proof PI_RGT_0. apply lt_INR in Hij, Hj. assert (0 <= INR i)%R by apply pos_INR.
  assert (0 < (INR j - INR i) / INR P)%R by (apply Rdiv_lt_0_compat; lra).
  assert ((INR j - INR i) / INR P < 1)%R. { apply Rmult_lt_reg_r with (INR P); [lra|]. unfold Rdiv. rewrite Rmult_assoc, Rinv_l by lra. lra. }
  split.
  - apply Rmult_lt_0_compat; lra.
  - rewrite <- (Rmult_1_r (2 * PI)) at 2. apply Rmult_lt_compat_l; lra.
Qed.
Lemma Cprod_zero n (f : nat -> C) i : (i < n)%nat -> f i = 0 -> Cprod n f = 0.
Proof.
  induction n as [|n IH]; intros Hi E; [lia|]. cbn [Cprod]. destruct (Nat.eq_dec i n) as [->|N]; [rewrite E; ring|]. rewrite IH by (easy || lia). ring.
Qed.
Lemma roots_product P z : (0 < P)%nat -> Cprod P (fun k => z - unit_root P k) = Cpw z P - 1.
Proof.
  intros H. destruct (monic P (unit_root P)) as [l [L M]]. rewrite M.
  assert (E : forall y, peval (padd l [RtoC 1]) y = 0).
  { apply (few_roots P _ (unit_root P)).
    - rewrite length_padd, L. cbn. lia.
    - intros i Hi. rewrite peval_padd. cbn [peval]. rewrite Cmult_0_r, Cplus_0_r.
      assert (Z : Cprod P (fun k => unit_root P i - unit_root P k) = 0).
      { apply (Cprod_zero P (fun k => unit_root P i - unit_root P k) i Hi). ring. }
      rewrite M, unit_root_pow in Z by easy. rewrite Cplus_comm. exact Z.
    - intros i j Hij Hj. now apply unit_root_distinct. }
  specialize (E z). rewrite peval_padd in E. cbn [peval] in E. replace (peval l z) with (peval l z + (1 + z * 0) - 1) by ring. rewrite E. ring.
Qed.
Fixpoint Csumn (n : nat) (f : nat -> C) : C := match n with O => 0 | S n' => Csumn n' f + f n' end.
Lemma geometric z n : (z - 1) * Csumn n (fun j => Cpw z j) = Cpw z n - 1.
Proof.
  induction n as [|n IH]; [cbn; ring|]. cbn [Csumn Cpw]. transitivity ((z - 1) * Csumn n (fun j => Cpw z j) + (z - 1) * Cpw z n); [ring|].
  rewrite IH. ring.
Qed.
Lemma unit_root_0 P : unit_root P 0 = 1.
Proof. unfold unit_root. cbn [INR]. replace (2 * PI * 0 / INR P)%R with 0%R by (unfold Rdiv; ring). now rewrite cos_0, sin_0. Qed.
Lemma Cprod_first n f : Cprod (S n) f = f 0%nat * Cprod n (fun i => f (S i)).
Proof. induction n as [|n IH]; [cbn; ring|]. change (Cprod (S (S n)) f) with (Cprod (S n) f * f (S n)). rewrite IH. cbn. ring. Qed.
Lemma geometric_poly n z : Csumn n (fun j => Cpw z j) = peval (map (fun _ => RtoC 1) (seq 0 n)) z.
Proof.
  induction n as [|n IH]; [reflexivity|]. rewrite seq_S, map_app. cbn [Csumn map]. rewrite peval_snoc, map_length, seq_length, IH. ring.
Qed.
(** Without the root one, also at one. *)
Lemma roots_product_rest p z : Cprod p (fun k => z - unit_root (S p) (S k)) = Csumn (S p) (fun j => Cpw z j).
Proof.
  destruct (monic p (fun k => unit_root (S p) (S k))) as [l [L M]].
  assert (M' : forall y, Cprod p (fun k => y - unit_root (S p) (S k)) = peval (l ++ [RtoC 1]) y).
  { intros y. rewrite M, peval_snoc, L. ring. }
  set (g := map (fun _ => RtoC 1) (seq 0 (S p))).
  assert (E : forall y, peval (padd (l ++ [RtoC 1]) (pscal (- (1)) g)) y = 0).
  { apply (few_roots (S p) _ (fun i => RtoC (INR (S (S i))))).
    - rewrite length_padd, length_pscal, app_length. unfold g. rewrite map_length, seq_length, L. cbn. lia.
    - intros i Hi. set (y := RtoC (INR (S (S i)))). rewrite peval_padd, peval_pscal, <- M'. unfold g. rewrite <- geometric_poly.
      assert (N : y - 1 <> 0).
      { intros Z. apply Cminus_zero in Z. unfold y in Z. apply RtoC_inj in Z. apply (INR_eq _ 1) in Z. lia. }
      apply (Cmult_zero (y - 1)); [|exact N].
      pose proof (roots_product (S p) y ltac:(lia)) as Rp. rewrite Cprod_first, unit_root_0 in Rp. pose proof (geometric y (S p)) as G.
      transitivity ((y - 1) * Cprod p (fun k => y - unit_root (S p) (S k)) - (y - 1) * Csumn (S p) (fun j => Cpw y j)); [ring|].
      rewrite Rp, G. ring.
    - intros i j Hij _ Z. apply RtoC_inj in Z. apply INR_eq in Z. lia. }
  specialize (E z). rewrite peval_padd, peval_pscal, <- M' in E. unfold g in E. rewrite <- geometric_poly in E.
  apply Cminus_zero. rewrite <- E. ring.
Qed.
Close Scope C_scope.

(** ** Real products *)
Definition N2 (z : C) : R := fst z ^ 2 + snd z ^ 2.
Lemma N2_mult x y : N2 (x * y)%C = N2 x * N2 y.
Proof. unfold N2, Cmult. cbn [fst snd]. ring. Qed.
Lemma N2_Cprod n f : N2 (Cprod n f) = Rprod n (fun i => N2 (f i)).
Proof. induction n as [|n IH]; cbn [Cprod Rprod]; [unfold N2; cbn; ring|]. now rewrite N2_mult, IH. Qed.
Lemma Cpw_R x n : Cpw (RtoC x) n = RtoC (x ^ n).
Proof. induction n as [|n IH]; cbn; [easy|]. rewrite IH. now rewrite RtoC_mult. Qed.
Lemma N2_R x : N2 (RtoC x) = x ^ 2.
Proof. unfold N2. cbn. ring. Qed.
Lemma N2_root P k z : N2 (RtoC z - unit_root P k)%C = z ^ 2 - 2 * z * cos (2 * PI * INR k / INR P) + 1.
Proof.
  unfold N2, unit_root, Cminus, Cplus, Copp, RtoC. cbn [fst snd]. set (t := 2 * PI * INR k / INR P).
  pose proof (sin2_cos2 t) as H. unfold Rsqr in H. replace (z ^ 2 - 2 * z * cos t + 1) with (z ^ 2 - 2 * z * cos t + (sin t * sin t + cos t * cos t)) by (rewrite H; ring). ring.
Qed.
Lemma Csumn_R n x : Csumn n (fun j => Cpw (RtoC x) j) = RtoC (Rsum n (fun j => x ^ j)).
Proof. induction n as [|n IH]; cbn [Csumn Rsum]; [easy|]. rewrite IH, Cpw_R. now rewrite RtoC_plus. Qed.
Lemma ring_product P z : (0 < P)%nat -> Rprod P (fun k => z ^ 2 - 2 * z * cos (2 * PI * INR k / INR P) + 1) = (z ^ P - 1) ^ 2.
Proof.
  intros H. rewrite (Rprod_ext P _ (fun k => N2 (RtoC z - unit_root P k)%C)) by (intros; now rewrite N2_root).
  rewrite <- (N2_Cprod P (fun k => (RtoC z - unit_root P k)%C)), roots_product by easy. rewrite Cpw_R, <- RtoC_minus. apply N2_R.
Qed.
Lemma ring_product_rest p z : Rprod p (fun k => z ^ 2 - 2 * z * cos (2 * PI * INR (S k) / INR (S p)) + 1) = Rsum (S p) (fun j => z ^ j) ^ 2.
Proof.
  rewrite (Rprod_ext p _ (fun k => N2 (RtoC z - unit_root (S p) (S k))%C)) by (intros; now rewrite N2_root).
  rewrite <- (N2_Cprod p (fun k => (RtoC z - unit_root (S p) (S k))%C)), roots_product_rest. rewrite Csumn_R. apply N2_R.
Qed.
(** Fixed ends: half of the roots of degree 2 n. *)
Lemma even_sum n z : Rsum (2 * n) (fun j => z ^ j) = (z + 1) * Rsum n (fun j => z ^ (2 * j)).
Proof.
  induction n as [|n IH]; [cbn; ring|]. replace (2 * S n)%nat with (S (S (2 * n))) by lia. cbn [Rsum]. rewrite IH.
  change (z ^ S (2 * n)) with (z * z ^ (2 * n)). ring.
Qed.
Lemma quad_pos z t : 1 <= z -> cos t <> 1 -> 0 < z ^ 2 - 2 * z * cos t + 1.
Proof.
  intros H C. assert (cos t < 1) by (pose proof (COS_bound t); lra). pose proof (pow2_ge_0 (z - 1)).
  assert (0 < z * (1 - cos t)) by (apply Rmult_lt_0_compat; lra).
  replace (z ^ 2 - 2 * z * cos t + 1) with ((z - 1) ^ 2 + 2 * (z * (1 - cos t))) by ring. lra.
Qed.
Lemma open_product n z : 1 <= z -> Rprod n (fun k => z ^ 2 - 2 * z * cos (PI * INR (S k) / INR (S n)) + 1) = Rsum (S n) (fun j => z ^ (2 * j)).
Proof.
  intros Hz. set (F := fun k => z ^ 2 - 2 * z * cos (PI * INR (S k) / INR (S n)) + 1).
  assert (Hn : 0 < INR (S n)) by (apply lt_0_INR; lia). pose proof PI_RGT_0 as HPI.
  pose proof (ring_product_rest (n + S n) z) as A.
  assert (E2 : INR (S (n + S n)) = 2 * INR (S n)) by (replace (S (n + S n)) with (2 * S n)%nat by lia; rewrite mult_INR; reflexivity).
  rewrite (Rprod_ext _ _ F) in A.
  2:{ intros k _. unfold F. rewrite E2. do 3 f_equal. f_equal. field. lra. }
  rewrite Rprod_split, Rprod_first, Nat.add_0_r in A.
  assert (M : F n = (z + 1) ^ 2). { unfold F. replace (PI * INR (S n) / INR (S n)) with PI by (field; lra). rewrite cos_PI. ring. }
  assert (B : Rprod n (fun i => F (n + S i)%nat) = Rprod n F).
  { rewrite <- (Rprod_rev n F). apply Rprod_ext. intros i Hi. unfold F. do 3 f_equal.
    rewrite <- cos_neg, <- (cos_period (- (PI * INR (S (n + S i)) / INR (S n))) 1). f_equal.
    replace (S (n - 1 - i)) with (n - i)%nat by lia. rewrite minus_INR by lia.
    replace (S (n + S i)) with (S n + S i)%nat by lia. rewrite plus_INR, !S_INR. cbn [INR]. rewrite S_INR in Hn. field. lra. }
  rewrite M, B in A. replace (S (n + S n)) with (2 * S n)%nat in A by lia. rewrite even_sum in A.
  assert (P1 : 0 < Rprod n F).
  { apply Rprod_pos. intros k Hk. apply quad_pos; [easy|]. apply cos_lt_1. split.
    - apply Rdiv_lt_0_compat; [|lra]. apply Rmult_lt_0_compat; [lra|apply lt_0_INR; lia].
    - apply Rlt_trans with PI; [|lra]. apply Rmult_lt_reg_r with (INR (S n)); [lra|]. unfold Rdiv. rewrite Rmult_assoc, Rinv_l by lra.
      rewrite Rmult_1_r. apply Rmult_lt_compat_l; [lra|]. apply lt_INR. lia. }
  assert (P2 : 0 <= Rsum (S n) (fun j => z ^ (2 * j))) by (apply Rsum_nonneg; intros; apply pow_le; lra).
  assert (Q : Rprod n F ^ 2 = Rsum (S n) (fun j => z ^ (2 * j)) ^ 2).
  { apply Rmult_eq_reg_l with ((z + 1) ^ 2); [|apply pow_nonzero; lra].
    transitivity (Rprod n F * ((z + 1) ^ 2 * Rprod n F)); [ring|]. rewrite A. ring. }
  apply Rsqr_inj; [lra|easy|]. unfold Rsqr. lra.
Qed.
