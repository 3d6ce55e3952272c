(** * The instanton post-processing tools: theorems *)
From Coq Require Import List Arith Lia Reals Lra Bool String Permutation.
From Verif Require Import RSum Ortho NMModel NMProofs RPCProofs SpringModel SpringProofs InstFix InstModel InstHess PostLin PostModel.
Import ListNotations.
Open Scope list_scope.
Open Scope R_scope.

(** ** The frequencies of the ring polymer *)
Lemma betaP_pos n T : (0 < n)%nat -> 0 < T -> 0 < betaP n T.
Proof. intros Hn HT. unfold betaP, kb. apply lt_0_INR in Hn. apply Rdiv_lt_0_compat; [lra|]. rewrite Rmult_1_l. now apply Rmult_lt_0_compat. Qed.
(** One mode, with [z = exp (2 u)]. *)
Lemma mode_factor u a : exp (2 * u) * (4 * sin a ^ 2 + (2 * sinh u) ^ 2) = exp (2 * u) ^ 2 - 2 * exp (2 * u) * cos (2 * a) + 1.
Proof.
  rewrite cos_2a_sin. unfold sinh. replace (2 * u) with (u + u) by ring. rewrite exp_plus. assert (E : exp u * exp (- u) = 1) by (rewrite <- exp_plus; replace (u + - u) with 0 by ring; apply exp_0).
  set (e := exp u) in *. set (g := exp (- u)) in *.
  replace (e * e * (4 * sin a ^ 2 + (2 * ((e - g) / 2)) ^ 2)) with (e * e * (4 * sin a ^ 2) + (e * e - e * g) ^ 2) by field. rewrite E. ring.
Qed.
Lemma exp_pow x n : exp x ^ n = exp (INR n * x).
Proof. induction n as [|n IH]; [cbn; now rewrite Rmult_0_l, exp_0|]. rewrite S_INR. cbn [pow]. rewrite IH, <- exp_plus. f_equal. ring. Qed.
Lemma arcsinh_pos x : 0 < x -> 0 < arcsinh x.
Proof. intros H. rewrite <- arcsinh_0. now apply arcsinh_lt. Qed.
Lemma sinh_pos x : 0 < x -> 0 < sinh x.
Proof. intros H. rewrite <- sinh_0. now apply sinh_lt. Qed.
(** The product over a ring. *)
Lemma ring_sinh n u : (0 < n)%nat -> Rprod n (fun k => 4 * sin (INR k * PI / INR n) ^ 2 + (2 * sinh u) ^ 2) = (2 * sinh (INR n * u)) ^ 2.
Proof.
  intros Hn. pose proof (ring_product n (exp (2 * u)) Hn) as H. assert (N : 0 < INR n) by now apply lt_0_INR.
  rewrite (Rprod_ext n _ (fun k => exp (2 * u) * (4 * sin (INR k * PI / INR n) ^ 2 + (2 * sinh u) ^ 2))) in H.
  2:{ intros k _. rewrite mode_factor. do 3 f_equal. f_equal. field. lra. }
  rewrite Rprod_mult, Rprod_const in H. assert (Z : 0 < exp (2 * u) ^ n) by (apply pow_lt, exp_pos).
  apply Rmult_eq_reg_l with (exp (2 * u) ^ n); [|lra]. rewrite H. rewrite exp_pow. unfold sinh. replace (INR n * (2 * u)) with (INR n * u + INR n * u) by ring.
  rewrite exp_plus. assert (E : exp (INR n * u) * exp (- (INR n * u)) = 1) by (rewrite <- exp_plus; replace (INR n * u + - (INR n * u)) with 0 by ring; apply exp_0).
  set (e := exp (INR n * u)) in *. set (g := exp (- (INR n * u))) in *. replace (e * e * (2 * ((e - g) / 2)) ^ 2) with ((e * e - e * g) ^ 2) by field. now rewrite E.
Qed.
Lemma ring_free p : Rprod p (fun k => 4 * sin (INR (S k) * PI / INR (S p)) ^ 2) = INR (S p) ^ 2.
Proof.
  pose proof (ring_product_rest p 1) as H. assert (N : 0 < INR (S p)) by (apply lt_0_INR; lia).
  rewrite (Rprod_ext p _ (fun k => 4 * sin (INR (S k) * PI / INR (S p)) ^ 2)) in H.
  2:{ intros k _. replace (2 * PI * INR (S k) / INR (S p)) with (2 * (INR (S k) * PI / INR (S p))) by (field; lra). rewrite cos_2a_sin. ring. }
  rewrite H, (Rsum_ext _ _ (fun _ => 1)) by (intros; apply pow1). rewrite Rsum_const. f_equal. ring.
Qed.
(** The product over a chain with fixed ends. *)
Lemma chain_sinh n u : 0 < u -> Rprod n (fun k => 4 * sin (INR (k + 1) * PI / (2 * INR n + 2)) ^ 2 + (2 * sinh u) ^ 2) = sinh (2 * (INR n + 1) * u) / sinh (2 * u).
Proof.
  intros Hu. assert (Hz : 1 <= exp (2 * u)) by (rewrite <- exp_0; left; apply exp_increasing; lra).
  pose proof (open_product n (exp (2 * u)) Hz) as H. assert (N : 0 <= INR n) by apply pos_INR.
  rewrite (Rprod_ext n _ (fun k => exp (2 * u) * (4 * sin (INR (k + 1) * PI / (2 * INR n + 2)) ^ 2 + (2 * sinh u) ^ 2))) in H.
  2:{ intros k _. rewrite mode_factor. do 3 f_equal. f_equal. rewrite plus_INR, !S_INR. cbn [INR]. field. lra. }
  rewrite Rprod_mult, Rprod_const in H. assert (Z : 0 < exp (2 * u) ^ n) by (apply pow_lt, exp_pos).
  apply Rmult_eq_reg_l with (exp (2 * u) ^ n); [|lra]. rewrite H. rewrite exp_pow.
  rewrite (Rsum_ext _ _ (fun j => exp (4 * u) ^ j)).
  2:{ intros j _. rewrite !exp_pow. f_equal. rewrite mult_INR. cbn [INR]. ring. }
  assert (G : forall k, Rsum k (fun j => exp (4 * u) ^ j) * (exp (4 * u) - 1) = exp (4 * u) ^ k - 1).
  { induction k as [|k IH]; [cbn; ring|]. cbn [Rsum pow]. rewrite Rmult_plus_distr_r, IH. ring. }
  assert (S0 : 0 < sinh (2 * u)) by (apply sinh_pos; lra). assert (E4 : 1 < exp (4 * u)) by (rewrite <- exp_0; apply exp_increasing; lra).
  apply Rmult_eq_reg_r with (exp (4 * u) - 1); [|lra]. rewrite G, exp_pow.
  apply Rmult_eq_reg_r with (sinh (2 * u)); [|lra].
  transitivity (exp (INR n * (2 * u)) * sinh (2 * (INR n + 1) * u) * (exp (4 * u) - 1)); [|field; lra].
  unfold sinh. rewrite S_INR.
  assert (P : forall a b, exp a * exp b = exp (a + b)) by (intros; now rewrite exp_plus).
  replace ((exp ((INR n + 1) * (4 * u)) - 1) * ((exp (2 * u) - exp (- (2 * u))) / 2))
    with ((exp ((INR n + 1) * (4 * u)) * exp (2 * u) - exp ((INR n + 1) * (4 * u)) * exp (- (2 * u)) - exp (2 * u) + exp (- (2 * u))) / 2) by field.
  replace (exp (INR n * (2 * u)) * ((exp (2 * (INR n + 1) * u) - exp (- (2 * (INR n + 1) * u))) / 2) * (exp (4 * u) - 1))
    with ((exp (INR n * (2 * u)) * exp (2 * (INR n + 1) * u) * exp (4 * u) - exp (INR n * (2 * u)) * exp (2 * (INR n + 1) * u)
           - exp (INR n * (2 * u)) * exp (- (2 * (INR n + 1) * u)) * exp (4 * u) + exp (INR n * (2 * u)) * exp (- (2 * (INR n + 1) * u))) / 2) by field.
  rewrite !P. f_equal.
  replace ((INR n + 1) * (4 * u) + 2 * u) with (INR n * (2 * u) + 2 * (INR n + 1) * u + 4 * u) by ring.
  replace ((INR n + 1) * (4 * u) + - (2 * u)) with (INR n * (2 * u) + 2 * (INR n + 1) * u) by ring.
  replace (INR n * (2 * u) + - (2 * (INR n + 1) * u) + 4 * u) with (2 * u) by ring.
  replace (INR n * (2 * u) + - (2 * (INR n + 1) * u)) with (- (2 * u)) by ring. ring.
Qed.
Lemma chain_free n : Rprod n (fun k => 4 * sin (INR (k + 1) * PI / (2 * INR n + 2)) ^ 2) = INR n + 1.
Proof.
  pose proof (open_product n 1 ltac:(lra)) as H. assert (N : 0 <= INR n) by apply pos_INR.
  rewrite (Rprod_ext n _ (fun k => 4 * sin (INR (k + 1) * PI / (2 * INR n + 2)) ^ 2)) in H.
  2:{ intros k _. replace (PI * INR (S k) / INR (S n)) with (2 * (INR (k + 1) * PI / (2 * INR n + 2))) by (rewrite plus_INR, !S_INR; cbn [INR]; field; lra). rewrite cos_2a_sin. ring. }
  rewrite H, (Rsum_ext _ _ (fun _ => 1)) by (intros; apply pow1). rewrite Rsum_const, S_INR. ring.
Qed.

Lemma half_ln x : 0 < x -> ln (sqrt x) = / 2 * ln x.
Proof. intros H. rewrite <- (sqrt_sqrt x) at 2 by lra. rewrite ln_mult by now apply sqrt_lt_R0. field. Qed.
(** Scaled frequency of a mode: [2 sinh u = betaP hbar omega]. *)
Definition u_of (n : nat) (T w0 : R) : R := arcsinh (betaP n T * hbar * sqrt w0 / 2).
Lemma u_spec n T w0 : 0 <= w0 -> (2 * sinh (u_of n T w0)) ^ 2 = (betaP n T * hbar) ^ 2 * w0.
Proof.
  intros H. unfold u_of. rewrite sinh_arcsinh. replace (2 * (betaP n T * hbar * sqrt w0 / 2)) with (betaP n T * hbar * sqrt w0) by field.
  rewrite Rpow_mult_distr. f_equal. cbn [pow]. rewrite Rmult_1_r. now apply sqrt_sqrt.
Qed.
Lemma u_pos n T w0 : (0 < n)%nat -> 0 < T -> 0 < w0 -> 0 < u_of n T w0.
Proof.
  intros Hn HT H. apply arcsinh_pos. pose proof (betaP_pos n T Hn HT). unfold hbar. rewrite Rmult_1_r. apply Rdiv_lt_0_compat; [|lra].
  apply Rmult_lt_0_compat; [easy|now apply sqrt_lt_R0].
Qed.
Lemma rate_arg_sqrt n T w0 k : (0 < n)%nat -> 0 < T -> 0 <= w0 -> rate_arg n T w0 k = sqrt (4 * sin (INR k * PI / INR n) ^ 2 + (2 * sinh (u_of n T w0)) ^ 2).
Proof.
  intros Hn HT H. pose proof (betaP_pos n T Hn HT) as B. unfold rate_arg. rewrite u_spec by easy. unfold hbar. rewrite !Rmult_1_r.
  rewrite <- (sqrt_pow2 (betaP n T)) at 1 by lra. rewrite <- sqrt_mult.
  - f_equal. field. lra.
  - apply pow2_ge_0.
  - apply Rplus_le_le_0_compat; [|easy]. apply Rmult_le_pos; [|apply pow2_ge_0]. apply Rlt_le, Rdiv_lt_0_compat; [lra|apply pow_lt; lra].
Qed.
Lemma sin_k n k : (0 < k < n)%nat -> 0 < sin (INR k * PI / INR n).
Proof.
  intros [H1 H2]. pose proof PI_RGT_0. apply lt_INR in H2. apply lt_0_INR in H1. apply sin_gt_0.
  - apply Rdiv_lt_0_compat; [apply Rmult_lt_0_compat|]; lra.
  - apply Rmult_lt_reg_r with (INR n); [lra|]. unfold Rdiv. rewrite Rmult_assoc, Rinv_l by lra. rewrite Rmult_1_r, Rmult_comm. apply Rmult_lt_compat_l; lra.
Qed.
(** The sum over the modes of a ring is the logarithm of the harmonic partition function of the ring
    polymer; a free mode gives the number of beads. *)
Theorem rate_mode_value n T w0 : (0 < n)%nat -> 0 < T -> 0 <= w0 ->
  rate_mode n T w0 = if is_zero w0 then ln (INR n) else ln (2 * sinh (INR n * arcsinh (betaP n T * hbar * sqrt w0 / 2))).
Proof.
  intros Hn HT H. unfold rate_mode. unfold is_zero. destruct (Req_EM_T w0 0) as [->|N]; cbn [andb].
  - destruct n as [|p]; [lia|]. rewrite Rsum_first. cbn [Nat.eqb]. rewrite Rplus_0_l.
    rewrite (Rsum_ext p _ (fun k => / 2 * ln (4 * sin (INR (S k) * PI / INR (S p)) ^ 2))).
    + rewrite Rsum_scal, <- ln_Rprod.
      * rewrite ring_free. cbn [pow]. rewrite Rmult_1_r. assert (0 < INR (S p)) by (apply lt_0_INR; lia). rewrite ln_mult by easy. field.
      * intros k Hk. apply Rmult_lt_0_compat; [lra|]. apply pow_lt. apply sin_k. lia.
    + intros k Hk. rewrite rate_arg_sqrt by (easy || lra). rewrite u_spec by lra. rewrite Rmult_0_r, Rplus_0_r. apply half_ln.
      apply Rmult_lt_0_compat; [lra|]. apply pow_lt. apply sin_k. lia.
  - assert (W : 0 < w0) by lra. pose proof (u_pos n T w0 Hn HT W) as U. fold (u_of n T w0).
    assert (P : forall k, 0 < 4 * sin (INR k * PI / INR n) ^ 2 + (2 * sinh (u_of n T w0)) ^ 2).
    { intros k. pose proof (pow2_ge_0 (sin (INR k * PI / INR n))). assert (0 < (2 * sinh (u_of n T w0)) ^ 2) by (apply pow_lt; pose proof (sinh_pos _ U); lra). lra. }
    rewrite (Rsum_ext n _ (fun k => / 2 * ln (4 * sin (INR k * PI / INR n) ^ 2 + (2 * sinh (u_of n T w0)) ^ 2))).
    + rewrite Rsum_scal, <- ln_Rprod by (intros; apply P). rewrite ring_sinh by easy.
      assert (0 < 2 * sinh (INR n * u_of n T w0)). { apply Rmult_lt_0_compat; [lra|]. apply sinh_pos, Rmult_lt_0_compat; [now apply lt_0_INR|easy]. }
      cbn [pow]. rewrite Rmult_1_r, ln_mult by easy. field.
    + intros k Hk. rewrite rate_arg_sqrt by easy. apply half_ln, P.
Qed.
Theorem splitting_mode_value n T w0 : (0 < n)%nat -> 0 < T -> 0 <= w0 ->
  Rsum n (fun k => ln (split_freq n T w0 k))
  = / 2 * ln (if is_zero w0 then INR n + 1
              else sinh (2 * (INR n + 1) * arcsinh (betaP n T * hbar * sqrt w0 / 2)) / sinh (2 * arcsinh (betaP n T * hbar * sqrt w0 / 2)))
    - INR n * ln (betaP n T * hbar).
Proof.
  intros Hn HT H. pose proof (betaP_pos n T Hn HT) as B. fold (u_of n T w0).
  set (F := fun k => 4 * sin (INR (k + 1) * PI / (2 * INR n + 2)) ^ 2 + (2 * sinh (u_of n T w0)) ^ 2).
  assert (P : forall k, (k < n)%nat -> 0 < F k).
  { intros k Hk. unfold F. pose proof (pow2_ge_0 (2 * sinh (u_of n T w0))). assert (0 < sin (INR (k + 1) * PI / (2 * INR n + 2))).
    - replace (2 * INR n + 2) with (INR (2 * (n + 1))) by (rewrite mult_INR, plus_INR; cbn [INR]; ring). apply sin_k. lia.
    - assert (0 < sin (INR (k + 1) * PI / (2 * INR n + 2)) ^ 2) by now apply pow_lt. lra. }
  rewrite (Rsum_ext n _ (fun k => / 2 * ln (F k) - ln (betaP n T * hbar))).
  - rewrite Rsum_minus, Rsum_const, Rsum_scal, <- ln_Rprod by exact P. f_equal. f_equal. f_equal. unfold F, is_zero.
    destruct (Req_EM_T w0 0) as [->|N].
    + rewrite <- chain_free. apply Rprod_ext. intros k _. rewrite u_spec by lra. ring.
    + apply chain_sinh. apply u_pos; try easy. lra.
  - intros k Hk. unfold split_freq, hbar. rewrite !Rmult_1_r. rewrite <- half_ln by now apply P.
    assert (S0 : 0 < sqrt (F k)) by now apply sqrt_lt_R0, P.
    replace (sqrt (4 / betaP n T ^ 2 * sin (INR (k + 1) * PI / (2 * INR n + 2)) ^ 2 + w0)) with (sqrt (F k) * / betaP n T).
    + rewrite ln_mult; [rewrite ln_Rinv by easy; ring|easy|now apply Rinv_0_lt_compat].
    + rewrite <- (sqrt_pow2 (/ betaP n T)) by (left; now apply Rinv_0_lt_compat). rewrite <- sqrt_mult.
      * f_equal. unfold F. rewrite u_spec by easy. unfold hbar. field. lra.
      * left. now apply P.
      * apply pow2_ge_0.
Qed.
Lemma no_negative w : Forall (fun x => 0 <= x) w <-> any_negative w = false.
Proof.
  unfold any_negative. split.
  - induction 1 as [|x l H _ IH]; cbn; [easy|]. destruct (Rlt_dec x 0); [lra|easy].
  - induction w as [|x l IH]; cbn; [constructor|]. destruct (Rlt_dec x 0); [easy|]. intros H. constructor; [lra|auto].
Qed.
(** The whole function: what it gives for eigenvalues that are not negative, and when it stops. *)
Theorem reactant_partition d n T : (0 < n)%nat -> 0 < T -> d <> [] -> Forall (fun x => 0 < x) d ->
  exists Q, reactant_logQvib d n T = Val Q /\
    exp Q = fold_right Rmult 1 (map (fun w2 => / (2 * sinh (INR n * arcsinh (betaP n T * hbar * sqrt w2 / 2)))) d).
Proof.
  intros Hn HT Hd H. unfold reactant_logQvib, rp_freq_rate.
  assert (A : any_negative d = false) by (apply no_negative; revert H; apply Forall_impl; intros; lra).
  rewrite A. destruct d as [|x0 d0]; [easy|]. cbn [List.length Nat.eqb bind]. eexists. split; [reflexivity|]. set (l := x0 :: d0) in *. clearbody l. clear A Hd.
  induction H as [|x l Hx _ IH]; cbn [map Rsuml fold_right]; [now rewrite Ropp_0, exp_0|].
  rewrite Ropp_plus_distr, exp_plus, IH. f_equal. rewrite rate_mode_value by (easy || lra). unfold is_zero. destruct (Req_EM_T x 0); [lra|].
  rewrite exp_Ropp, exp_ln; [easy|]. apply Rmult_lt_0_compat; [lra|]. apply sinh_pos, Rmult_lt_0_compat; [now apply lt_0_INR|]. fold (u_of n T x). now apply u_pos.
Qed.
Theorem reactant_stops d n T : d <> [] -> (reactant_logQvib d n T = Stop <-> Exists (fun x => x < 0) d).
Proof.
  intros Hd. unfold reactant_logQvib, rp_freq_rate. destruct d as [|x0 d0]; [easy|]. cbn [List.length Nat.eqb]. set (l := x0 :: d0). clearbody l. unfold any_negative.
  destruct (existsb _ l) eqn:E; cbn [bind]; split; intros H; try easy.
  - apply existsb_exists in E. destruct E as [x [I X]]. apply Exists_exists. exists x. split; [easy|]. now destruct (Rlt_dec x 0).
  - exfalso. apply Exists_exists in H. destruct H as [x [I X]]. assert (C : existsb (fun x => if Rlt_dec x 0 then true else false) l = true).
    { apply existsb_exists. exists x. split; [easy|]. now destruct (Rlt_dec x 0). }
    congruence.
Qed.
(** The limit of many beads is the formula that is used for the transition state. *)
Lemma arcsinh_slope c : 0 < c -> Un_cv (fun p => INR (S p) * arcsinh (c / INR (S p))) c.
Proof.
  intros Hc eps He. pose proof (derivable_pt_lim_arcsinh 0) as D. replace (/ sqrt (0 ^ 2 + 1)) with 1 in D.
  2:{ replace (0 ^ 2 + 1) with 1 by ring. rewrite sqrt_1. field. }
  destruct (D (eps / c) ltac:(apply Rdiv_lt_0_compat; lra)) as [delta Hd].
  destruct (archimed_cor1 (delta / c)) as [N [HN HN0]]; [apply Rdiv_lt_0_compat; [apply cond_pos|lra]|].
  exists N. intros p Hp. unfold R_dist. assert (Sp : 0 < INR (S p)) by (apply lt_0_INR; lia). assert (NR : 0 < INR N) by now apply lt_0_INR.
  set (h := c / INR (S p)). assert (Hh : 0 < h) by now apply Rdiv_lt_0_compat.
  assert (L : h < delta).
  { unfold h. apply Rle_lt_trans with (c / INR N).
    - apply Rmult_le_compat_l; [lra|]. apply Rinv_le_contravar; [easy|]. apply le_INR. lia.
    - apply Rmult_lt_reg_l with (/ c); [now apply Rinv_0_lt_compat|]. replace (/ c * (c / INR N)) with (/ INR N) by (field; lra).
      replace (/ c * delta) with (delta / c) by (unfold Rdiv; ring). exact HN. }
  specialize (Hd h ltac:(lra)). rewrite Rabs_pos_eq in Hd by lra. specialize (Hd L). rewrite Rplus_0_l, arcsinh_0, Rminus_0_r in Hd.
  replace (INR (S p) * arcsinh h - c) with (c * (arcsinh h / h - 1)) by (unfold h; field; lra).
  rewrite Rabs_mult, (Rabs_pos_eq c) by lra. apply Rmult_lt_compat_l with (r := c) in Hd; [|easy].
  replace (c * (eps / c)) with eps in Hd by (field; lra). exact Hd.
Qed.
Theorem many_beads T w0 : 0 < T -> 0 < w0 -> Un_cv (fun p => rate_mode (S p) T w0) (ln (2 * sinh (beta T * hbar * sqrt w0 / 2))).
Proof.
  intros HT HW. assert (S0 : 0 < sqrt w0) by now apply sqrt_lt_R0. set (c := beta T * hbar * sqrt w0 / 2).
  assert (B : 0 < beta T) by (unfold beta, kb; apply Rdiv_lt_0_compat; lra).
  assert (Hc : 0 < c). { unfold c, hbar. rewrite Rmult_1_r. apply Rdiv_lt_0_compat; [|lra]. now apply Rmult_lt_0_compat. }
  assert (E : forall p, rate_mode (S p) T w0 = (fun y => ln (2 * sinh y)) (INR (S p) * arcsinh (c / INR (S p)))).
  { intros p. rewrite rate_mode_value by (lia || lra). unfold is_zero. destruct (Req_EM_T w0 0); [lra|]. do 4 f_equal.
    unfold c, betaP, beta, kb. f_equal. assert (0 < INR (S p)) by (apply lt_0_INR; lia). field. lra. }
  assert (C : continuity_pt (fun y => ln (2 * sinh y)) c).
  { assert (Hs : 0 < sinh c) by now apply sinh_pos. apply (continuity_pt_comp (fun y => 2 * sinh y) ln).
    - apply (continuity_pt_mult (fun _ => 2) sinh); [apply continuity_pt_const; now intros ? ?|]. apply derivable_continuous_pt. exists (cosh c). apply derivable_pt_lim_sinh.
    - apply derivable_continuous_pt. exists (/ (2 * sinh c)). apply derivable_pt_lim_ln. lra. }
  pose proof (continuity_seq _ _ _ C (arcsinh_slope c Hc)) as L. intros eps He. destruct (L eps He) as [N HN]. exists N. intros p Hp. rewrite E. now apply HN.
Qed.
(** So the logarithm of the partition function of the reactant tends to the sum over all modes of the
    expression of the transition state, which leaves its first mode out. *)
Theorem reactant_limit d T x : 0 < T -> d <> [] -> Forall (fun w => 0 < w) d ->
  exists Q, (forall p, reactant_logQvib d (S p) T = Val (Q p)) /\ Un_cv Q (ts_logQvib (x :: d) T).
Proof.
  intros HT Hd H. exists (fun p => - Rsuml (map (rate_mode (S p) T) d)). split.
  - intros p. unfold reactant_logQvib, rp_freq_rate. assert (A : any_negative d = false) by (apply no_negative; revert H; apply Forall_impl; intros; lra).
    rewrite A. destruct d; [easy|]. reflexivity.
  - unfold ts_logQvib. cbn [skipn]. apply (CV_opp (fun p => Rsuml (map (rate_mode (S p) T) d))). clear Hd. induction H as [|w l Hw _ IH]; cbn [map Rsuml].
    + intros eps He. exists O. intros. unfold R_dist. rewrite Rminus_0_r, Rabs_R0. lra.
    + apply CV_plus; [now apply many_beads|exact IH].
Qed.

(** ** The instanton partition function *)
(** Eigenvalues of a ring polymer at a point with eigenvalue [w]. *)
Definition ring_eig (n : nat) (T w : R) (k : nat) : R := 4 / (betaP n T * hbar) ^ 2 * sin (INR k * PI / INR n) ^ 2 + w.
Lemma Rsuml_perm l l' : Permutation l l' -> Rsuml l = Rsuml l'.
Proof. induction 1; cbn; lra. Qed.
Lemma Rsuml_flat {A} (f : A -> list R) l : Rsuml (flat_map f l) = Rsuml (map (fun a => Rsuml (f a)) l).
Proof. induction l as [|a l IH]; [easy|]. cbn. now rewrite Rsuml_app, IH. Qed.
Lemma ring_eig_nonneg n T w k : (0 < n)%nat -> 0 < T -> 0 <= w -> 0 <= ring_eig n T w k.
Proof.
  intros Hn HT H. pose proof (betaP_pos n T Hn HT). apply Rplus_le_le_0_compat; [|easy]. apply Rmult_le_pos; [|apply pow2_ge_0].
  unfold hbar. rewrite Rmult_1_r. apply Rlt_le, Rdiv_lt_0_compat; [lra|apply pow_lt; lra].
Qed.
Definition log_mode (n : nat) (T x : R) : R := ln (betaP n T * hbar * sqrt (Rabs x)).
Lemma log_mode_ring n T w k : (0 < n)%nat -> 0 < T -> 0 <= w -> log_mode n T (ring_eig n T w k) = ln (rate_arg n T w k).
Proof. intros Hn HT H. unfold log_mode. rewrite Rabs_pos_eq by now apply ring_eig_nonneg. reflexivity. Qed.
(** With the modes of the translations and rotations (all but the centroid) and all modes of the
    vibrations, the deleted zeros are made up for: what is left is the partition function that the
    reactant case computes with the same number of beads, the unstable mode and the number of beads. *)
Theorem inst_consistent asr n T d0 d1 rest ws : (0 < n)%nat -> 0 < T -> ws <> [] -> Forall (fun w => 0 < w) ws ->
  Permutation rest (flat_map (fun _ => map (ring_eig n T 0) (seq 1 (n - 1))) (seq 0 (nzeros asr)) ++ flat_map (fun w => map (ring_eig n T w) (seq 0 n)) ws) ->
  exists Q, reactant_logQvib ws n T = Val Q /\ inst_logQvib asr (d0 :: d1 :: rest) n T = Q - ln (betaP n T * hbar * sqrt (Rabs d0)) + ln (INR n).
Proof.
  intros Hn HT Hws H P. exists (- Rsuml (map (rate_mode n T) ws)). split.
  { unfold reactant_logQvib, rp_freq_rate. assert (A : any_negative ws = false) by (apply no_negative; revert H; apply Forall_impl; intros; lra).
    rewrite A. destruct ws; [easy|]. reflexivity. }
  unfold inst_logQvib, delete1. cbn [firstn skipn List.app map Rsuml]. change (fun x => ln (betaP n T * hbar * sqrt (Rabs x))) with (log_mode n T).
  apply (Permutation_map (log_mode n T)) in P. apply Rsuml_perm in P. rewrite P, map_app, Rsuml_app.
  assert (F : forall {A} (g : A -> list R) l, Rsuml (map (log_mode n T) (flat_map g l)) = Rsuml (map (fun a => Rsuml (map (log_mode n T) (g a))) l)).
  { intros A g l. induction l as [|a l IH]; [easy|]. cbn. now rewrite map_app, Rsuml_app, IH. }
  rewrite !F.
  assert (Z : Rsuml (map (log_mode n T) (map (ring_eig n T 0) (seq 1 (n - 1)))) = ln (INR n)).
  { transitivity (rate_mode n T 0).
    - unfold rate_mode. destruct n as [|p]; [lia|]. rewrite Rsum_first. unfold is_zero. destruct (Req_EM_T 0 0); [|easy]. cbn [andb Nat.eqb]. rewrite Rplus_0_l.
      rewrite map_map, Rsuml_seq. replace (S p - 1)%nat with p by lia. apply Rsum_ext. intros i _. apply log_mode_ring; [easy|easy|lra].
    - rewrite rate_mode_value by (easy || lra). unfold is_zero. now destruct (Req_EM_T 0 0). }
  rewrite Z, Rsuml_map_const, seq_length.
  rewrite (Rsuml_map_ext (fun a => Rsuml (map (log_mode n T) (map (ring_eig n T a) (seq 0 n)))) (rate_mode n T)).
  - unfold log_mode. ring.
  - intros w Hw. rewrite Forall_forall in H. specialize (H w Hw). rewrite map_map, Rsuml_seq. unfold rate_mode, is_zero. destruct (Req_EM_T w 0); [lra|].
    apply Rsum_ext. intros i _. apply log_mode_ring; [easy|easy|lra].
Qed.
(** The moment of inertia of a ring whose beads coincide, and the rotational partition function. *)
Definition copies (natoms : nat) (r : mat) : mat := fun k c => r (k mod natoms)%nat c.
Lemma Rsum_copies natoms n f : (0 < natoms)%nat -> Rsum (natoms * n) (fun k => f (k mod natoms)%nat) = INR n * Rsum natoms f.
Proof.
  intros H. induction n as [|n IH].
  - rewrite Nat.mul_0_r. cbn. ring.
  - rewrite Nat.mul_succ_r, Rsum_split, IH, S_INR. replace (Rsum natoms (fun i => f ((natoms * n + i) mod natoms)%nat)) with (Rsum natoms f); [ring|].
    apply Rsum_ext. intros i Hi. f_equal. symmetry. rewrite Nat.add_comm, Nat.mul_comm, Nat.mod_add by lia. now apply Nat.mod_small.
Qed.
Lemma moi_copies natoms n m r a b : (0 < natoms)%nat -> (0 < n)%nat -> Rsum natoms m <> 0 ->
  moi (natoms * n) (fun k => m (k mod natoms)%nat) (copies natoms r) a b = INR n * moi natoms m r a b.
Proof.
  intros Ha Hn Hm. apply lt_0_INR in Hn.
  assert (C : forall c, com (natoms * n) (fun k => m (k mod natoms)%nat) (copies natoms r) c = com natoms m r c).
  { intros c. unfold com, copies. rewrite (Rsum_copies natoms n (fun k => r k c * m k)) by easy. rewrite (Rsum_copies natoms n m) by easy. field. split; lra. }
  unfold moi. cbv zeta. rewrite <- (Rsum_copies natoms n) by easy. apply Rsum_ext. intros k _. rewrite !C. reflexivity.
Qed.
Theorem rotations_consistent natoms n T m r : (0 < natoms)%nat -> (0 < n)%nat -> 0 < T -> Rsum natoms m <> 0 -> 0 <= det3 (moi natoms m r) ->
  Qrot_inst "poly" false (det3 (moi (natoms * n) (fun k => m (k mod natoms)%nat) (copies natoms r))) n T = Qrot "poly" (det3 (moi natoms m r)) T.
Proof.
  intros Ha Hn HT Hm Hd. unfold Qrot_inst, Qrot. cbn [String.eqb Ascii.eqb Bool.eqb negb andb].
  replace (det3 (moi (natoms * n) (fun k => m (k mod natoms)%nat) (copies natoms r))) with (INR n ^ 3 * det3 (moi natoms m r)).
  2:{ unfold det3. rewrite !moi_copies by easy. ring. }
  pose proof (lt_0_INR n Hn) as N. assert (B : 0 < beta T) by (unfold beta, kb; apply Rdiv_lt_0_compat; lra).
  replace (8 * PI * (INR n ^ 3 * det3 (moi natoms m r)) / (hbar ^ 6 * betaP n T ^ 3)) with ((INR n ^ 3) ^ 2 * (8 * PI * det3 (moi natoms m r) / (hbar ^ 6 * beta T ^ 3))).
  2:{ unfold betaP, beta, hbar, kb. field. lra. }
  rewrite sqrt_mult.
  - rewrite sqrt_pow2 by (apply pow_le; lra). field. lra.
  - apply pow2_ge_0.
  - unfold hbar. rewrite pow1, Rmult_1_l. apply Rmult_le_pos; [|left; apply Rinv_0_lt_compat, pow_lt, B]. pose proof PI_RGT_0. apply Rmult_le_pos; [lra|easy].
Qed.

(** ** The full ring *)
Definition mirror (n0 b : nat) : nat := if (b <? n0)%nat then b else (2 * n0 - 1 - b)%nat.
Lemma double_mirror n0 q b c : (b < 2 * n0)%nat -> double_q n0 q b c = q (mirror n0 b) c.
Proof. intros H. unfold double_q, mirror. destruct (Nat.ltb_spec b n0); [easy|]. f_equal. lia. Qed.
Lemma mirror_lt n0 b : (b < 2 * n0)%nat -> (mirror n0 b < n0)%nat.
Proof. unfold mirror. destruct (Nat.ltb_spec b n0); lia. Qed.
(** The ring is closed and runs over each bond of the half path twice. *)
Definition ring_bonds (dof n : nat) (m3 : vec) (q : mat) : R := Rsum n (fun b => Rsum dof (fun c => m3 c * (q ((b + 1) mod n)%nat c - q b c) ^ 2)).
Lemma mirrored_sum n0 (g : nat -> nat -> R) : (0 < n0)%nat -> (forall a b, g a b = g b a) -> (forall a, g a a = 0) ->
  Rsum (2 * n0 - 1) (fun i => g (mirror n0 (i + 1)) (mirror n0 i)) = 2 * Rsum (n0 - 1) (fun i => g (i + 1)%nat i).
Proof.
  intros H G Z. replace (2 * n0 - 1)%nat with ((n0 - 1) + S (n0 - 1))%nat by lia. rewrite Rsum_split, Rsum_first.
  replace (mirror n0 (n0 - 1 + 0 + 1)) with (mirror n0 (n0 - 1 + 0)).
  2:{ unfold mirror. destruct (Nat.ltb_spec (n0 - 1 + 0) n0), (Nat.ltb_spec (n0 - 1 + 0 + 1) n0); lia. }
  rewrite Z.
  rewrite (Rsum_ext (n0 - 1) (fun i => g (mirror n0 (i + 1)) (mirror n0 i)) (fun i => g (i + 1)%nat i)).
  2:{ intros i Hi. unfold mirror. now rewrite (proj2 (Nat.ltb_lt (i + 1) n0)), (proj2 (Nat.ltb_lt i n0)) by lia. }
  rewrite (Rsum_ext (n0 - 1) (fun i => g (mirror n0 (n0 - 1 + S i + 1)) (mirror n0 (n0 - 1 + S i))) (fun i => (fun j => g (j + 1)%nat j) (n0 - 1 - 1 - i)%nat)).
  2:{ intros i Hi. unfold mirror. rewrite (proj2 (Nat.ltb_ge (n0 - 1 + S i + 1) n0)), (proj2 (Nat.ltb_ge (n0 - 1 + S i) n0)) by lia. rewrite G. f_equal; lia. }
  rewrite (Rsum_rev (n0 - 1) (fun j => g (j + 1)%nat j)). ring.
Qed.
Definition bond (dof : nat) (m3 : vec) (q : mat) (a b : nat) : R := Rsum dof (fun c => m3 c * (q a c - q b c) ^ 2).
Lemma bond_sym dof m3 q a b : bond dof m3 q a b = bond dof m3 q b a.
Proof. apply Rsum_ext. intros. ring. Qed.
Lemma bond_refl dof m3 q a : bond dof m3 q a a = 0.
Proof. apply Rsum_0. intros. ring. Qed.
Lemma ring_twice dof n0 m3 q : (0 < n0)%nat -> ring_bonds dof (2 * n0) m3 (double_q n0 q) = 2 * bonds dof n0 m3 q.
Proof.
  intros H. unfold ring_bonds.
  rewrite (Rsum_ext (2 * n0) _ (fun b => bond dof m3 q (mirror n0 ((b + 1) mod (2 * n0))) (mirror n0 b))).
  2:{ intros b Hb. apply Rsum_ext. intros c _. rewrite !double_mirror; [easy|lia|apply Nat.mod_upper_bound; lia]. }
  replace (2 * n0)%nat with (S (2 * n0 - 1)) at 1 by lia. cbn [Rsum]. replace (2 * n0 - 1 + 1)%nat with (2 * n0)%nat by lia. rewrite Nat.mod_same by lia.
  replace (mirror n0 (2 * n0 - 1)) with (mirror n0 0).
  2:{ unfold mirror. rewrite (proj2 (Nat.ltb_lt 0 n0)), (proj2 (Nat.ltb_ge (2 * n0 - 1) n0)) by lia. lia. }
  rewrite bond_refl, Rplus_0_r.
  rewrite (Rsum_ext (2 * n0 - 1) _ (fun b => bond dof m3 q (mirror n0 (b + 1)) (mirror n0 b))).
  2:{ intros b Hb. rewrite Nat.mod_small by lia. reflexivity. }
  rewrite (mirrored_sum n0 (bond dof m3 q)); [reflexivity|easy|apply bond_sym|apply bond_refl].
Qed.
Lemma spring_pot_bonds dof n q w m3 : spring_pot dof n q w m3 = w * / 2 * bonds dof n m3 q.
Proof.
  unfold spring_pot, bonds. rewrite <- Rsum_scal. apply Rsum_ext. intros i _. rewrite <- !Rsum_scal. apply Rsum_ext. intros c _. ring.
Qed.
Lemma double_bonds dof n0 m3 q : (0 < n0)%nat -> bonds dof (2 * n0) m3 (double_q n0 q) = 2 * bonds dof n0 m3 q.
Proof.
  intros H. unfold bonds. rewrite (Rsum_ext (2 * n0 - 1) _ (fun b => bond dof m3 q (mirror n0 (b + 1)) (mirror n0 b))).
  2:{ intros b Hb. apply Rsum_ext. intros c _. rewrite !double_mirror by lia. easy. }
  apply (mirrored_sum n0 (bond dof m3 q)); [easy|apply bond_sym|apply bond_refl].
Qed.
(** The action of the rate is [betaP] times the energy of the closed ring polymer, springs included;
    the printed [BN] gives the spring part. *)
Theorem rate_action dof n0 T V0 m3 q V : (0 < n0)%nat -> 0 < T ->
  let n := (2 * n0)%nat in
  let wn := / (betaP n T * hbar) in
  rate_action1 n0 T V0 (fun b => V (q b)) + rate_action2 dof n0 T m3 q
  = betaP n T * (Rsum n (fun b => V (double_q n0 q b) - V0) + / 2 * wn ^ 2 * ring_bonds dof n m3 (double_q n0 q)) /\
  rate_action2 dof n0 T m3 q = rate_BN dof n0 m3 q / (2 * betaP n T * hbar ^ 2).
Proof.
  intros Hn HT n wn. assert (N : 0 < INR n) by (apply lt_0_INR; unfold n; lia).
  assert (VS : Rsum n (fun b => V (double_q n0 q b) - V0) = 2 * Rsum n0 (fun b => V (q b)) - INR n * V0).
  { rewrite Rsum_minus, Rsum_const. f_equal. unfold n. replace (2 * n0)%nat with (n0 + n0)%nat by lia. rewrite Rsum_split.
    rewrite (Rsum_ext n0 (fun b => V (double_q n0 q b)) (fun b => V (q b))).
    2:{ intros b Hb. unfold double_q. now rewrite (proj2 (Nat.ltb_lt b n0)) by easy. }
    rewrite (Rsum_ext n0 (fun i => V (double_q n0 q (n0 + i)%nat)) (fun i => (fun b => V (q b)) (n0 - 1 - i)%nat)).
    2:{ intros b Hb. unfold double_q. rewrite (proj2 (Nat.ltb_ge (n0 + b) n0)) by lia. replace (n0 - 1 - (n0 + b - n0))%nat with (n0 - 1 - b)%nat by lia. reflexivity. }
    rewrite (Rsum_rev n0 (fun b => V (q b))). ring. }
  pose proof (ring_twice dof n0 m3 q Hn) as RT. pose proof (double_bonds dof n0 m3 q Hn) as DB. fold n in RT, DB.
  unfold rate_action1, rate_action2, rate_BN. fold n. cbv zeta. rewrite VS, RT, spring_pot_bonds, DB. clearbody n. clear RT DB VS.
  unfold wn, omega2, betaP, hbar, kb. split; field; lra.
Qed.
Theorem splitting_action dof n T V0 m3 q V : (0 < n)%nat -> 0 < T ->
  split_action1 n T V0 (fun b => V (q b)) + split_action2 dof n T m3 q
  = betaP n T * (Rsum n (fun b => V (q b) - V0) + / 2 * (/ (betaP n T * hbar)) ^ 2 * bonds dof n m3 q) /\
  (split_BN dof n T m3 q = split_action1 n T V0 (fun b => V (q b)) + split_action2 dof n T m3 q
   <-> split_action1 n T V0 (fun b => V (q b)) = split_action2 dof n T m3 q).
Proof.
  intros Hn HT. apply lt_0_INR in Hn. assert (E : split_BN dof n T m3 q = 2 * split_action2 dof n T m3 q).
  { unfold split_BN, split_action2. rewrite spring_pot_bonds. unfold omega2, betaP, hbar, kb. field. lra. }
  split.
  - unfold split_action1, split_action2. rewrite spring_pot_bonds, Rsum_minus, Rsum_const. unfold omega2, betaP, hbar, kb. field. lra.
  - rewrite E. split; intros H; lra.
Qed.

(** The Hessian that is diagonalised for the rate: its product with a displacement of the full ring
    is the product of the Hessian of each bead (that of its mirror image) plus the springs of the
    closed ring. *)
Lemma cf_ones k i : (i < k)%nat -> cf (repeat 1 k) i = 1.
Proof. revert i. induction k as [|k IH]; intros i H; [lia|]. destruct i; [easy|]. cbn. apply IH. lia. Qed.
Definition ringm (n b b' : nat) : R :=
  (if (b' =? b)%nat then 2 else 0) - (if (b' =? b + 1)%nat then 1 else 0) - (if (b =? b' + 1)%nat then 1 else 0)
  - (if ((b =? 0) && (b' =? n - 1))%nat then 1 else 0) - (if ((b =? n - 1) && (b' =? 0))%nat then 1 else 0).
Lemma spring_full dof n m w2 : (1 < n)%nat ->
  exists h, spring_hessian dof n m w2 "full" (repeat 1 (n + 1)) = Val h /\
    forall b c b' c', (b < n)%nat -> (b' < n)%nat -> (c < dof)%nat -> (c' < dof)%nat ->
      h (b * dof + c)%nat (b' * dof + c')%nat = (if (c =? c')%nat then m c * w2 * ringm n b b' else 0).
Proof.
  intros Hn. unfold spring_hessian. rewrite repeat_length, Nat.eqb_refl. cbn [negb]. rewrite (proj2 (Nat.eqb_neq n 1)) by lia.
  cbn [String.eqb Ascii.eqb Bool.eqb bind orb]. eexists. split; [reflexivity|]. intros b c b' c' Hb Hb' Hc Hc'. set (coef := repeat 1 (n + 1)).
  unfold add_block at 1 2. rewrite !flat_div, !flat_mod by easy.
  rewrite (fold_blocks (fun i h => add_block dof (i + 1) i (scale_mat (1 / cf coef (i + 1)) (diag (fun c => - (m c * w2))))
                                     (add_block dof i (i + 1) (scale_mat (1 / cf coef (i + 1)) (diag (fun c => - (m c * w2)))) h))
    (fun i r s => (if ((r / dof =? i) && (s / dof =? i + 1))%nat then diag (fun c => - (m c * w2)) (r mod dof)%nat (s mod dof)%nat * (1 / cf coef (i + 1)) else 0)
                + (if ((r / dof =? i + 1) && (s / dof =? i))%nat then diag (fun c => - (m c * w2)) (r mod dof)%nat (s mod dof)%nat * (1 / cf coef (i + 1)) else 0)))
    by (intros; unfold add_block, scale_mat; ring).
  rewrite (fold_blocks (fun i h => add_block dof i i (scale_mat (1 / cf coef i + 1 / cf coef (i + 1)) (diag (fun c => m c * w2))) h)
    (fun i r s => if ((r / dof =? i) && (s / dof =? i))%nat then diag (fun c => m c * w2) (r mod dof)%nat (s mod dof)%nat * (1 / cf coef i + 1 / cf coef (i + 1)) else 0)) by easy.
  unfold scale_mat. rewrite !flat_div, !flat_mod by easy. unfold diag.
  rewrite (Rsuml_map_ext _ (fun i => if (b =? i)%nat then (if (b' =? b)%nat then (if (c =? c')%nat then m c * w2 else 0) * 2 else 0) else 0)).
  2:{ intros i Hi. apply in_seq in Hi. unfold coef. rewrite !cf_ones by lia. destruct (Nat.eqb_spec b i) as [->|]; cbn [andb]; [|easy]. destruct (b' =? i)%nat; [field|easy]. }
  rewrite seq_pick.
  rewrite (Rsuml_map_plus (fun i => if ((b =? i) && (b' =? i + 1))%nat then (if (c =? c')%nat then - (m c * w2) else 0) * (1 / cf coef (i + 1)) else 0)
            (fun i => if ((b =? i + 1) && (b' =? i))%nat then (if (c =? c')%nat then - (m c * w2) else 0) * (1 / cf coef (i + 1)) else 0)).
  rewrite (Rsuml_map_ext _ (fun i => if (b =? i)%nat then (if (b' =? i + 1)%nat then (if (c =? c')%nat then - (m c * w2) else 0) else 0) else 0)).
  2:{ intros i Hi. apply in_seq in Hi. unfold coef. rewrite !cf_ones by lia. destruct (b =? i)%nat, (b' =? i + 1)%nat; cbn [andb]; try easy. field. }
  rewrite seq_pick.
  rewrite (Rsuml_map_ext _ (fun i => if (b' =? i)%nat then (if (b =? i + 1)%nat then (if (c =? c')%nat then - (m c * w2) else 0) else 0) else 0)).
  2:{ intros i Hi. apply in_seq in Hi. unfold coef. rewrite !cf_ones by lia. destruct (b =? i + 1)%nat, (b' =? i)%nat; cbn [andb]; try easy. field. }
  rewrite seq_pick. unfold coef. rewrite !cf_ones by lia. rewrite Rinv_1. cbn [Nat.leb andb plus].
  unfold ringm. rewrite (proj2 (Nat.ltb_lt b n)) by easy.
  destruct (Nat.eqb_spec c c') as [->|Hcc].
  2:{ destruct (b' =? b)%nat, (b <? n - 1)%nat, (b' <? n - 1)%nat, (b' =? b + 1)%nat, (b =? b' + 1)%nat, ((b =? 0) && (b' =? n - 1))%nat, ((b =? n - 1) && (b' =? 0))%nat; ring. }
  assert (E1 : (if (b <? n - 1)%nat then if (b' =? b + 1)%nat then - (m c' * w2) else 0 else 0) = if (b' =? b + 1)%nat then - (m c' * w2) else 0).
  { destruct (Nat.ltb_spec b (n - 1)); [easy|]. now rewrite (proj2 (Nat.eqb_neq b' (b + 1))) by lia. }
  assert (E2 : (if (b' <? n - 1)%nat then if (b =? b' + 1)%nat then - (m c' * w2) else 0 else 0) = if (b =? b' + 1)%nat then - (m c' * w2) else 0).
  { destruct (Nat.ltb_spec b' (n - 1)); [easy|]. now rewrite (proj2 (Nat.eqb_neq b (b' + 1))) by lia. }
  rewrite E1, E2. destruct (b' =? b)%nat, (b' =? b + 1)%nat, (b =? b' + 1)%nat, ((b =? 0) && (b' =? n - 1))%nat, ((b =? n - 1) && (b' =? 0))%nat; ring.
Qed.
Lemma pick_sum n k (P : bool) (y : nat -> R) : (P = true -> (k < n)%nat) -> Rsum n (fun i => (if (P && (i =? k)%nat)%bool then 1 else 0) * y i) = if P then y k else 0.
Proof.
  intros H. destruct P; cbn [andb].
  - rewrite (Rsum_delta n k); [now rewrite Nat.eqb_refl, Rmult_1_l|now apply H|]. intros i _ Hi. rewrite (proj2 (Nat.eqb_neq i k)) by easy. ring.
  - apply Rsum_0. intros. ring.
Qed.
Lemma ringm_row n b y : (1 < n)%nat -> (b < n)%nat ->
  Rsum n (fun b' => ringm n b b' * y b') = 2 * y b - y ((b + 1) mod n)%nat - y ((b + (n - 1)) mod n)%nat.
Proof.
  intros Hn Hb. unfold ringm.
  rewrite (Rsum_ext n _ (fun i => 2 * ((if (true && (i =? b))%nat%bool then 1 else 0) * y i)
     - ((if ((b <? n - 1) && (i =? b + 1))%nat%bool then 1 else 0) * y i) - ((if ((0 <? b) && (i =? b - 1))%nat%bool then 1 else 0) * y i)
     - ((if ((b =? 0) && (i =? n - 1))%nat%bool then 1 else 0) * y i) - ((if ((b =? n - 1) && (i =? 0))%nat%bool then 1 else 0) * y i))).
  - rewrite !Rsum_minus, Rsum_scal, !pick_sum; [| destruct (Nat.eqb_spec b (n - 1)); [lia|easy] | destruct (Nat.eqb_spec b 0); [lia|easy] | destruct (Nat.ltb_spec 0 b); [lia|easy] | destruct (Nat.ltb_spec b (n - 1)); [lia|easy] | lia].
    destruct (Nat.eqb_spec b (n - 1)) as [E|E].
    + rewrite (proj2 (Nat.ltb_ge b (n - 1))), (proj2 (Nat.ltb_lt 0 b)), (proj2 (Nat.eqb_neq b 0)) by lia. replace (b + 1)%nat with n by lia. rewrite Nat.mod_same by lia.
      replace (b + (n - 1))%nat with ((b - 1) + 1 * n)%nat by lia. rewrite Nat.mod_add, Nat.mod_small by lia. ring.
    + rewrite (proj2 (Nat.ltb_lt b (n - 1))) by lia. rewrite (Nat.mod_small (b + 1)) by lia. destruct (Nat.eqb_spec b 0) as [->|E0].
      * cbn [Nat.ltb Nat.leb]. rewrite Nat.add_0_l, (Nat.mod_small (n - 1)) by lia. ring.
      * rewrite (proj2 (Nat.ltb_lt 0 b)) by lia. replace (b + (n - 1))%nat with ((b - 1) + 1 * n)%nat by lia. rewrite Nat.mod_add, Nat.mod_small by lia. ring.
  - intros i Hi. cbn [andb].
    assert (A1 : ((b <? n - 1) && (i =? b + 1))%nat%bool = (i =? b + 1)%nat) by (destruct (Nat.ltb_spec b (n - 1)), (Nat.eqb_spec i (b + 1)); (easy || lia)).
    assert (A2 : ((0 <? b) && (i =? b - 1))%nat%bool = (b =? i + 1)%nat) by (destruct (Nat.ltb_spec 0 b), (Nat.eqb_spec i (b - 1)), (Nat.eqb_spec b (i + 1)); (easy || lia)).
    rewrite A1, A2. destruct (i =? b)%nat, (i =? b + 1)%nat, (b =? i + 1)%nat, ((b =? 0) && (i =? n - 1))%nat, ((b =? n - 1) && (i =? 0))%nat; ring.
Qed.
Lemma double_h_entries dof n0 h0 b c b' c' : (b < 2 * n0)%nat -> (b' < 2 * n0)%nat -> (c < dof)%nat -> (c' < dof)%nat ->
  (forall b b' c c', (b < n0)%nat -> (b' < n0)%nat -> (c < dof)%nat -> (c' < dof)%nat -> b <> b' -> h0 (b * dof + c)%nat (b' * dof + c')%nat = 0) ->
  double_h dof n0 h0 (b * dof + c)%nat (b' * dof + c')%nat = if (b =? b')%nat then h0 (mirror n0 b * dof + c)%nat (mirror n0 b' * dof + c')%nat else 0.
Proof.
  intros Hb Hb' Hc Hc' Z. unfold double_h.
  assert (F : forall k h, fold_left (fun h i => set_block dof (i + n0) (i + n0) (fun c c' => h0 ((n0 - 1 - i) * dof + c)%nat ((n0 - 1 - i) * dof + c')%nat) h) (seq 0 k) h (b * dof + c)%nat (b' * dof + c')%nat
     = if ((b =? b') && (n0 <=? b) && (b <? n0 + k))%nat then h0 ((2 * n0 - 1 - b) * dof + c)%nat ((2 * n0 - 1 - b) * dof + c')%nat else h (b * dof + c)%nat (b' * dof + c')%nat).
  { induction k as [|k IH]; intros h.
    - cbn [seq fold_left]. destruct (Nat.leb_spec n0 b), (Nat.ltb_spec b (n0 + 0)); rewrite ?andb_false_r, ?andb_true_r; (easy || lia).
    - rewrite seq_S, fold_left_app. cbn [fold_left]. unfold set_block at 1. rewrite !flat_div, !flat_mod by easy. rewrite IH. cbn [plus].
      destruct (Nat.eqb_spec b b') as [<-|N]; cbn [andb].
      + destruct (Nat.eqb_spec b (k + n0)) as [->|N'].
        * rewrite (proj2 (Nat.leb_le n0 (k + n0))), (proj2 (Nat.ltb_lt (k + n0) (n0 + S k))) by lia. cbn [andb]. replace (2 * n0 - 1 - (k + n0))%nat with (n0 - 1 - k)%nat by lia. reflexivity.
        * destruct (Nat.leb_spec n0 b), (Nat.ltb_spec b (n0 + k)), (Nat.ltb_spec b (n0 + S k)); cbn [andb]; (easy || lia).
      + destruct (Nat.eqb_spec b (k + n0)), (Nat.eqb_spec b' (k + n0)); cbn [andb]; (easy || lia). }
  rewrite F. unfold mirror. destruct (Nat.eqb_spec b b') as [<-|N]; cbn [andb].
  - destruct (Nat.ltb_spec b n0).
    + rewrite (proj2 (Nat.leb_gt n0 b)) by lia. cbn [andb]. rewrite !(proj2 (Nat.ltb_lt (b * dof + _) (dof * n0))) by nia. reflexivity.
    + rewrite (proj2 (Nat.leb_le n0 b)), (proj2 (Nat.ltb_lt b (n0 + n0))) by lia. reflexivity.
  - destruct (Nat.ltb_spec (b * dof + c) (dof * n0)), (Nat.ltb_spec (b' * dof + c') (dof * n0)); cbn [andb]; try easy. apply Z; try easy; nia.
Qed.
Theorem rate_hessian_ring dof n0 T m3 h x b c : (0 < n0)%nat -> (b < 2 * n0)%nat -> (c < dof)%nat ->
  let n := (2 * n0)%nat in
  exists H, rate_hessian dof n0 T m3 h = Val H /\
    Rsum (dof * n) (fun s => H (b * dof + c)%nat s * vec_of dof x s)
    = Rsum dof (fun c' => h c (mirror n0 b * dof + c')%nat * x b c')
      + m3 c * omega2 n T * (2 * x b c - x ((b + 1) mod n)%nat c - x ((b + (n - 1)) mod n)%nat c).
Proof.
  intros Hn Hb Hc n. unfold rate_hessian. fold n. destruct (spring_full dof n m3 (omega2 n T) ltac:(unfold n; lia)) as (hs & E & V). rewrite E. cbn [bind]. eexists. split; [reflexivity|].
  rewrite (Rsum_ext (dof * n) _ (fun s => double_h dof n0 (red2comp dof n0 (repeat 1 (n0 + 1)) h) (b * dof + c)%nat s * vec_of dof x s + hs (b * dof + c)%nat s * vec_of dof x s)) by (intros; ring).
  rewrite Rsum_plus. f_equal.
  - rewrite flat_sum. rewrite (Rsum_delta n b); [|easy|].
    + apply Rsum_ext. intros c' Hc'. unfold vec_of. rewrite flat_div, flat_mod by easy. f_equal. rewrite double_h_entries; try easy.
      * rewrite Nat.eqb_refl. pose proof (mirror_lt n0 b Hb). rewrite red2comp_entries by easy. rewrite Nat.eqb_refl. unfold weight. rewrite !cf_ones by lia. field.
      * intros p p' d d' Hp Hp' Hd Hd' N. rewrite red2comp_entries by easy. now rewrite (proj2 (Nat.eqb_neq p p')).
    + intros b' Hb' N. apply Rsum_0. intros c' Hc'. rewrite double_h_entries; try easy.
      * rewrite (proj2 (Nat.eqb_neq b b')) by auto. ring.
      * intros p p' d d' Hp Hp' Hd Hd' N'. rewrite red2comp_entries by easy. now rewrite (proj2 (Nat.eqb_neq p p')).
  - rewrite (row_sum dof n hs x b c (fun b' => m3 c * omega2 n T * ringm n b b')) by (easy || (intros; now apply V)).
    rewrite (Rsum_ext n _ (fun b' => m3 c * omega2 n T * (ringm n b b' * x b' c))) by (intros; ring). rewrite Rsum_scal. f_equal.
    apply (ringm_row n b (fun b' => x b' c)); unfold n; lia.
Qed.
(** With a normal mode of every bead, the waves along the ring are modes of the full Hessian and their
    eigenvalues those whose logarithms [get_rp_freq] sums. *)
Lemma cos_mod n b k : (0 < n)%nat -> cos (2 * PI * INR k * INR (b mod n) / INR n) = cos (2 * PI * INR k * INR b / INR n) /\ sin (2 * PI * INR k * INR (b mod n) / INR n) = sin (2 * PI * INR k * INR b / INR n).
Proof.
  intros H. assert (N : 0 < INR n) by now apply lt_0_INR. rewrite (Nat.div_mod b n) at 2 4 by lia. rewrite plus_INR, mult_INR.
  replace (2 * PI * INR k * (INR n * INR (b / n) + INR (b mod n)) / INR n) with (2 * PI * INR k * INR (b mod n) / INR n + 2 * INR (k * (b / n)) * PI) by (rewrite mult_INR; field; lra).
  now rewrite cos_period, sin_period.
Qed.
Theorem ring_modes dof n0 T m3 h w v k (sine : bool) b c : (0 < n0)%nat -> 0 < T -> (b < 2 * n0)%nat -> (c < dof)%nat ->
  (forall a i, (a < n0)%nat -> (i < dof)%nat -> Rsum dof (fun c' => h i (a * dof + c')%nat * v c') = m3 i * w * v i) ->
  let n := (2 * n0)%nat in
  let x := fun b c => (if sine then sin else cos) (2 * PI * INR k * INR b / INR n) * v c in
  exists H, rate_hessian dof n0 T m3 h = Val H /\
    Rsum (dof * n) (fun s => H (b * dof + c)%nat s * vec_of dof x s) = m3 c * ring_eig n T w k * x b c.
Proof.
  intros Hn HT Hb Hc M n x. destruct (rate_hessian_ring dof n0 T m3 h x b c Hn Hb Hc) as (H & E & V). exists H. split; [easy|]. fold n in V. rewrite V. clear V E.
  assert (N : 0 < INR n) by (apply lt_0_INR; unfold n; lia). set (f := if sine then sin else cos) in *.
  assert (A : Rsum dof (fun c' => h c (mirror n0 b * dof + c')%nat * x b c') = f (2 * PI * INR k * INR b / INR n) * (m3 c * w * v c)).
  { rewrite <- M with (a := mirror n0 b) by (easy || now apply mirror_lt). rewrite <- Rsum_scal. apply Rsum_ext. intros; unfold x; ring. }
  rewrite A. set (t := 2 * PI * INR k / INR n). set (y := 2 * PI * INR k * INR b / INR n).
  assert (B1 : x ((b + 1) mod n)%nat c = f (y + t) * v c).
  { unfold x. f_equal. unfold f, y, t. destruct (cos_mod n (b + 1) k ltac:(unfold n; lia)) as [C S]. destruct sine; [rewrite S|rewrite C]; rewrite plus_INR; cbn [INR]; f_equal; field; lra. }
  assert (B2 : x ((b + (n - 1)) mod n)%nat c = f (y - t) * v c).
  { unfold x. f_equal. unfold f, y, t. destruct (cos_mod n (b + (n - 1)) k ltac:(unfold n; lia)) as [C S].
    assert (L : 2 * PI * INR k * INR (b + (n - 1)) / INR n = 2 * PI * INR k * INR b / INR n - 2 * PI * INR k / INR n + 2 * INR k * PI).
    { rewrite plus_INR, minus_INR by (unfold n; lia). cbn [INR]. field. lra. }
    destruct sine; [rewrite S|rewrite C]; rewrite L; [apply sin_period|apply cos_period]. }
  rewrite B1, B2. change (x b c) with (f y * v c).
  assert (D : 2 * f y - f (y + t) - f (y - t) = 4 * sin (t / 2) ^ 2 * f y).
  { replace t with (2 * (t / 2)) at 1 2 by field. unfold f. set (g := t / 2). destruct sine.
    - rewrite sin_plus, sin_minus, cos_2a_sin. ring.
    - rewrite cos_plus, cos_minus, cos_2a_sin. ring. }
  replace (2 * (f y * v c) - f (y + t) * v c - f (y - t) * v c) with ((2 * f y - f (y + t) - f (y - t)) * v c) by ring. rewrite D.
  unfold ring_eig, omega2, betaP, hbar, kb. replace (INR k * PI / INR n) with (t / 2) by (unfold t; field; lra). field. lra.
Qed.

(** ** Splitting *)
(** With a line of frequencies the denominator is the product of the frequencies of chains between
    fixed ends. *)
Definition chain_log (n : nat) (T w0 : R) : R := Rsum n (fun k => ln (split_freq n T w0 k)).
Lemma read_all l : read_numbers (List.length l) (map Some l) = Some l.
Proof. induction l as [|x l IH]; [easy|]. cbn. now rewrite IH. Qed.
Theorem react_value ws n T : ws <> [] -> Forall (fun x => 0 <= x) ws ->
  react (List.length ws) (map Some ws) n T = Val (Rsuml (map (fun om => chain_log n T (om ^ 2)) ws)).
Proof.
  intros Hw H. unfold react. rewrite read_all.
  assert (E : map (fun d => sign d * d ^ 2) ws = map (fun d => d ^ 2) ws).
  { apply map_ext_in. intros d Hd. rewrite Forall_forall in H. specialize (H d Hd). unfold sign. destruct (Rlt_dec d 0); [lra|]. destruct (Rlt_dec 0 d); [ring|]. replace d with 0 by lra. ring. }
  rewrite E. unfold rp_freq_splitting. rewrite map_length. rewrite (proj2 (Nat.eqb_neq (List.length ws) 0)) by (destruct ws; easy).
  rewrite (proj1 (no_negative (map (fun d => d ^ 2) ws))).
  2:{ apply Forall_forall. intros y Hy. apply in_map_iff in Hy. destruct Hy as [d [<- _]]. apply pow2_ge_0. }
  cbn [bind]. f_equal. clear. induction ws as [|a l IH]; [easy|]. cbn [map flat_map Rsuml]. rewrite map_app, Rsuml_app, IH. f_equal. rewrite map_map, Rsuml_seq. reflexivity.
Qed.
(** The file that the reactant case writes for this holds eigenvalues, and the other one starts with a
    header. *)
Theorem react_refuted : exists d n T, Forall (fun x => 0 < x) d /\ 0 < T /\ (0 < n)%nat /\
  (exists y, react (List.length d) (map Some (eigenvalues_file "none" d)) n T = Val y /\ y <> Rsuml (map (chain_log n T) d)) /\
  react (List.length d) [None; None; None] n T = ValueError.
Proof.
  exists [4; 4; 4], 1%nat, 1. repeat split; try lra; try lia.
  - repeat constructor; lra.
  - exists (Rsuml (map (fun om => chain_log 1 1 (om ^ 2)) [4; 4; 4])). split.
    + unfold eigenvalues_file. cbn [nzeros String.eqb Ascii.eqb Bool.eqb repeat List.app]. apply react_value; [easy|]. repeat constructor; lra.
    + cbn [map Rsuml]. unfold chain_log. cbn [Rsum]. unfold split_freq, betaP, hbar, kb. cbn [INR plus].
      replace (1 * PI / (2 * 1 + 2)) with (PI / 4) by field. rewrite sin_PI4.
      replace ((1 / sqrt 2) ^ 2) with (/ 2) by (pose proof (sqrt_lt_R0 2 ltac:(lra)); pose proof (sqrt_sqrt 2 ltac:(lra)) as Q; replace ((1 / sqrt 2) ^ 2) with (/ (sqrt 2 * sqrt 2)) by (field; lra); now rewrite Q).
      assert (L : ln (sqrt (4 / (1 / (1 * 1 * 1) * 1) ^ 2 * / 2 + 4)) < ln (sqrt (4 / (1 / (1 * 1 * 1) * 1) ^ 2 * / 2 + 4 ^ 2))).
      { apply ln_increasing; [apply sqrt_lt_R0; lra|]. apply sqrt_lt_1; lra. }
      lra.
Qed.
(** The matrix element. *)
Lemma exp_sum_ln l : Forall (fun x => 0 < x) l -> exp (Rsuml (map ln l)) = fold_right Rmult 1 l.
Proof. induction 1 as [|x l H _ IH]; cbn; [apply exp_0|]. now rewrite exp_plus, IH, exp_ln. Qed.
Theorem splitting_element d0 d1 rest n T action re : (0 < n)%nat -> 0 < T -> d0 <> 0 -> Forall (fun x => x <> 0) rest ->
  split_element n T action (split_phi (d0 :: d1 :: rest) re)
  = - hbar * sqrt (action / (2 * PI * hbar)) * exp (- action / hbar) * exp re / fold_right Rmult 1 (map (fun x => sqrt (Rabs x)) (d0 :: rest)).
Proof.
  intros Hn HT H0 H. unfold split_element, split_phi, delete1. cbn [firstn skipn List.app]. rewrite <- (map_map (fun x => sqrt (Rabs x)) ln).
  assert (P : Forall (fun x => 0 < x) (map (fun x => sqrt (Rabs x)) (d0 :: rest))).
  { apply Forall_forall. intros y Hy. apply in_map_iff in Hy. destruct Hy as [x [<- Hx]]. apply sqrt_lt_R0, Rabs_pos_lt. destruct Hx as [<-|Hx]; [easy|]. rewrite Forall_forall in H. now apply H. }
  unfold Rminus. rewrite exp_plus, exp_Ropp, exp_sum_ln by exact P. set (p := fold_right Rmult 1 _).
  assert (PP : 0 < p). { unfold p. clear - P. induction P as [|x l Hx _ IH]; cbn; [lra|now apply Rmult_lt_0_compat]. }
  pose proof (betaP_pos n T Hn HT). pose proof (exp_pos re). replace (2 * hbar * PI) with (2 * PI * hbar) by ring. field. repeat split; lra.
Qed.
(** Sum rules are left out for splittings, but the file of frequencies still starts with their zeros. *)
Theorem saved_modes cm asr d : List.length (save_frequencies cm asr d) = (nzeros asr + List.length d)%nat.
Proof. unfold save_frequencies. rewrite app_length, repeat_length, map_length. reflexivity. Qed.
Theorem saved_modes_refuted : exists asr d cm, asr = "poly"%string /\ nzeros (used_asr "instanton" "splitting" asr) = 0%nat /\ List.length (save_frequencies cm asr d) <> List.length d.
Proof. exists "poly"%string, [1], 1. repeat split. now rewrite saved_modes. Qed.
Theorem translations m T : 0 < T -> 0 <= Rsuml m -> 0 <= Qtras m T /\ Qtras m T ^ 2 = (Rsuml m * kb * T / (2 * PI * hbar ^ 2)) ^ 3.
Proof.
  intros HT Hm. pose proof PI_RGT_0. unfold Qtras, pow32.
  replace (Rsuml m / (2 * PI * beta T * hbar ^ 2)) with (Rsuml m * kb * T / (2 * PI * hbar ^ 2)) by (unfold beta, kb, hbar; field; lra).
  set (x := Rsuml m * kb * T / (2 * PI * hbar ^ 2)).
  assert (X : 0 <= x). { unfold x, kb, hbar. apply Rmult_le_pos; [|left; apply Rinv_0_lt_compat; lra]. rewrite Rmult_1_r. apply Rmult_le_pos; lra. }
  split; [apply Rmult_le_pos; [easy|apply sqrt_pos]|]. rewrite Rpow_mult_distr, pow2_sqrt by easy. ring.
Qed.

(** ** Arguments *)
Theorem checks_fine case asr mode T temp2 K nbeads nbeadsR freq :
  checks case asr mode T temp2 K nbeads nbeadsR freq = Fine <->
  T <> 0 /\ (asr = "poly" \/ asr = "crystal" \/ asr = "none")%string /\
  ((case = "reactant"%string /\ nbeadsR <> 0%nat /\ (nbeads <= 1)%nat) \/ (case = "TS"%string /\ (nbeads <= 1)%nat) \/
   (case = "instanton"%string /\ Rabs (T - temp2) / K <= 2 /\ (mode = "rate"%string \/ (mode = "splitting"%string /\ freq = true)))).
Proof.
  unfold checks, is_zero.
  destruct (String.eqb_spec case "reactant") as [->|C1]; [|destruct (String.eqb_spec case "TS") as [->|C2]; [|destruct (String.eqb_spec case "instanton") as [->|C3]]]; cbn [orb negb].
  4:{ split; [easy|]. intros (_ & _ & [[? _]|[[? _]|[? _]]]); congruence. }
  all: destruct (String.eqb_spec asr "poly") as [->|A1]; [|destruct (String.eqb_spec asr "linear") as [->|A2]; [|destruct (String.eqb_spec asr "crystal") as [->|A3]; [|destruct (String.eqb_spec asr "none") as [->|A4]]]]; cbn [orb negb].
  all: try (split; [easy|]; intros (_ & [?|[?|?]] & _); congruence).
  all: cbn [String.eqb Ascii.eqb Bool.eqb]; destruct (Req_EM_T T 0); [split; [easy|intros (? & _); congruence]|]; cbn [andb negb].
  all: try (destruct (Nat.eqb_spec nbeadsR 0); [split; [easy|intros (_ & _ & [(_ & ? & _)|[(? & _)|(? & _)]]); congruence]|]).
  all: try (destruct (Nat.ltb_spec 1 nbeads); [split; [easy|intros (_ & _ & [(? & _ & ?)|[(? & ?)|(? & _)]]); (congruence || lia)]|split; [intros _; split; [easy|]; split; [now auto|]; (left; repeat split; (easy || lia)) || (right; left; repeat split; (easy || lia))|easy]]).
  all: destruct (Rlt_dec 2 (Rabs (T - temp2) / K)); [split; [easy|intros (_ & _ & [(? & _)|[(? & _)|(_ & ? & _)]]); (congruence || lra)]|].
  all: destruct (String.eqb_spec mode "rate") as [->|]; [split; [intros _; split; [easy|]; split; [now auto|]; right; right; split; [easy|]; split; [lra|now left]|easy]|].
  all: destruct (String.eqb_spec mode "splitting") as [->|]; [destruct freq|].
  all: split; intros X; try discriminate; try reflexivity.
  all: try (split; [easy|]; split; [now auto|]; right; right; split; [easy|]; split; [lra|now right]).
  all: destruct X as (_ & _ & [(? & _)|[(? & _)|(_ & _ & [?|[? ?]])]]); congruence.
Qed.
(** Deleting atoms. *)
Lemma delete_length {A} (l : list A) filt : List.length (delete l filt) = List.length (filter (fun i => negb (existsb (Nat.eqb i) filt)) (seq 0 (List.length l))).
Proof.
  unfold delete. rewrite map_length. generalize 0%nat. induction l as [|x l IH]; intros s; [easy|]. cbn [List.length seq combine filter fst].
  destruct (negb (existsb (Nat.eqb s) filt)); cbn [List.length]; now rewrite IH.
Qed.
Theorem filter_ok {A} (m : list A) filt : NoDup filt -> (forall i, In i filt -> (i < List.length m)%nat) ->
  List.length (fst (filter_atoms m (List.length m) filt)) = snd (filter_atoms m (List.length m) filt).
Proof.
  intros D B. cbn [filter_atoms fst snd]. rewrite delete_length. set (g := fun i => negb (existsb (Nat.eqb i) filt)).
  assert (P : Permutation (seq 0 (List.length m)) (filt ++ filter g (seq 0 (List.length m)))).
  { apply NoDup_Permutation.
    - apply seq_NoDup.
    - assert (X : forall l', NoDup l' -> (forall i, In i l' -> ~ In i filt) -> NoDup (filt ++ l')).
      { clear - D. induction filt as [|a f IH]; intros l' D' N; [easy|]. inversion D; subst. cbn. constructor.
        - rewrite in_app_iff. intros [I|I]; [easy|]. now apply (N a I); left.
        - apply IH; [easy|easy|]. intros i I J. apply (N i I). now right. }
      apply X; [apply NoDup_filter, seq_NoDup|]. intros i I J. apply filter_In in I. destruct I as [_ I]. unfold g in I. apply negb_true_iff in I.
      assert (C : existsb (Nat.eqb i) filt = true) by (apply existsb_exists; exists i; split; [easy|apply Nat.eqb_refl]). congruence.
    - intros i. rewrite in_app_iff, filter_In. split; [|intros [I|[I _]]; [apply in_seq; specialize (B i I); lia|easy]]. intros I. destruct (existsb (Nat.eqb i) filt) eqn:E.
      + left. apply existsb_exists in E. destruct E as [j [J1 J2]]. apply Nat.eqb_eq in J2. now subst.
      + right. split; [easy|]. unfold g. now rewrite E. }
  apply Permutation_length in P. rewrite app_length, seq_length in P. lia.
Qed.
Theorem filter_refuted : exists (m : list R) filt, (forall i, In i filt -> (i < List.length m)%nat) /\ List.length (fst (filter_atoms m (List.length m) filt)) <> snd (filter_atoms m (List.length m) filt).
Proof. exists [1; 2; 3], [0%nat; 0%nat]. split; [intros i [<-|[<-|[]]]; cbn; lia|]. cbn. easy. Qed.

(** ** Interpolation *)
Lemma rescale_app n1 n2 q b c : (0 < n1)%nat -> (b < n2)%nat -> rescale_b1tob2 n1 n2 [] true q b c = app n1 (b1tob2_m false n1 n2) (fun j => q j c) b.
Proof.
  intros H Hb. unfold rescale_b1tob2. destruct (Nat.eqb_spec n1 n2) as [->|N]; [|reflexivity]. unfold b1tob2_m, mk_rs_matrix, mk_rs, app. rewrite Nat.eqb_refl.
  rewrite (Rsum_ext n2 _ (fun j => q j c * delta b j)) by (intros; ring). now rewrite Rsum_delta_l.
Qed.
Lemma row_const n1 n2 b v : (0 < n1)%nat -> (0 < n2)%nat -> (b < n2)%nat -> app n1 (b1tob2_m false n1 n2) (fun _ => v) b = v.
Proof.
  intros H1 H2 Hb. pose proof (INR_pos n1 H1) as P1. pose proof (INR_pos n2 H2) as P2. unfold app. rewrite Rsum_scal_r.
  assert (E : Rsum n1 (fun j => b1tob2_m false n1 n2 b j) = 1); [|transitivity (1 * v); [f_equal; exact E|ring]].
  unfold b1tob2_m, mk_rs_matrix, mk_rs. destruct (Nat.eqb_spec n1 n2) as [->|N].
  - rewrite (Rsum_ext n2 _ (fun j => 1 * delta b j)) by (intros; ring). apply (Rsum_delta_l n2 b (fun _ => 1) Hb).
  - destruct (Nat.ltb_spec n2 n1).
    + apply rs_row_sum; [apply good_nm|easy|easy|easy].
    + rewrite Rsum_scal_r.
      assert (C : Rsum n1 (fun j => rs mk_nm_matrix n2 n1 j b) = INR n1 / INR n2).
      { pose proof (rs_sum mk_nm_matrix good_nm n2 n1 H1 ltac:(lia) (fun j => delta b j)) as S. unfold app in S.
        rewrite (Rsum_ext n1 _ (fun j => rs mk_nm_matrix n2 n1 j b)) in S by (intros; now apply Rsum_delta_l). rewrite S.
        rewrite (Rsum_ext n2 _ (fun j => 1 * delta b j)) by (intros; ring). rewrite (Rsum_delta_l n2 b (fun _ => 1) Hb). ring. }
      rewrite C. field. lra.
Qed.
(** The same number of beads gives the same path; paths at rest stay there; the centroid of the ring is
    kept; the old beads can be recovered from a longer ring. *)
Theorem interpolation n n' q : (0 < n)%nat -> (0 < n')%nat ->
  (forall b c, (b < n)%nat -> new_path n n q b c = q b c) /\
  (forall v b c, (b < n')%nat -> (forall a, (a < n)%nat -> q a c = v) -> new_path n n' q b c = v) /\
  (forall c, Rsum (2 * n') (fun b => interpolated_ring n n' q b c) / INR (2 * n') = Rsum n (fun b => q b c) / INR n) /\
  (forall b c, (n <= n')%nat -> (b < n)%nat -> rescale_b1tob2 (2 * n') (2 * n) [] true (interpolated_ring n n' q) b c = q b c).
Proof.
  intros Hn Hn'. pose proof (INR_pos n Hn) as P. pose proof (INR_pos n' Hn') as P'.
  assert (D : forall c, Rsum (2 * n) (fun b => double_q n q b c) = 2 * Rsum n (fun b => q b c)).
  { intros c. replace (2 * n)%nat with (n + n)%nat by lia. rewrite Rsum_split.
    rewrite (Rsum_ext n (fun b => double_q n q b c) (fun b => q b c)) by (intros b Hb; unfold double_q; now rewrite (proj2 (Nat.ltb_lt b n) Hb)).
    rewrite (Rsum_ext n (fun i => double_q n q (n + i)%nat c) (fun i => (fun b => q b c) (n - 1 - i)%nat)).
    2:{ intros i Hi. unfold double_q. rewrite (proj2 (Nat.ltb_ge (n + i) n)) by lia. f_equal. lia. }
    rewrite (Rsum_rev n (fun b => q b c)). ring. }
  repeat split.
  - intros b c Hb. unfold new_path, interpolated_ring, rescale_b1tob2. rewrite Nat.eqb_refl. unfold double_q. now rewrite (proj2 (Nat.ltb_lt b n) Hb).
  - intros v b c Hb H. unfold new_path, interpolated_ring. rewrite rescale_app by lia.
    rewrite <- (row_const (2 * n) (2 * n') b v) by lia. unfold app. apply Rsum_ext. intros j Hj. f_equal. rewrite double_mirror by easy. apply H. now apply mirror_lt.
  - intros c. unfold interpolated_ring. rewrite (Rsum_ext (2 * n') _ (app (2 * n) (b1tob2_m false (2 * n) (2 * n')) (fun j => double_q n q j c))) by (intros; apply rescale_app; lia).
    rewrite b1tob2_sum, D by lia. rewrite !mult_INR. cbn [INR]. field. lra.
  - intros b c Hnn Hb. rewrite rescale_app by lia. unfold interpolated_ring.
    transitivity (app (2 * n') (b1tob2_m false (2 * n') (2 * n)) (app (2 * n) (b2tob1_m false (2 * n') (2 * n)) (fun j => double_q n q j c)) b).
    + unfold app at 1 2. apply Rsum_ext. intros j Hj. f_equal. rewrite rescale_app by lia. unfold app. apply Rsum_ext. intros k _. now rewrite b2tob1_m_swap by lia.
    + rewrite contract_expand by lia. unfold double_q. now rewrite (proj2 (Nat.ltb_lt b n) Hb).
Qed.
(** The Hessian: symmetric blocks stay symmetric, equal blocks stay equal. *)
Theorem interpolated_hessian dof n n' h : (0 < n)%nat -> (0 < n')%nat -> (0 < dof)%nat ->
  (forall b i j, (i < dof)%nat -> (j < dof)%nat -> (forall a, (a < n)%nat -> h i (j + dof * a)%nat = h j (i + dof * a)%nat) ->
     new_hessian dof n n' h i (j + dof * b)%nat = new_hessian dof n n' h j (i + dof * b)%nat) /\
  (forall b i j v, (b < n')%nat -> (j < dof)%nat -> (forall a, (a < n)%nat -> h i (j + dof * a)%nat = v) -> new_hessian dof n n' h i (j + dof * b)%nat = v) /\
  (forall b i j, (b < n)%nat -> (j < dof)%nat -> new_hessian dof n n h i (j + dof * b)%nat = h i (j + dof * b)%nat).
Proof.
  intros Hn Hn' Hd.
  assert (DM : forall j b, (j < dof)%nat -> ((j + dof * b) mod dof = j /\ (j + dof * b) / dof = b)%nat).
  { intros j b Hj. split; [symmetry; apply (Nat.mod_unique _ dof b j)|symmetry; apply (Nat.div_unique _ dof b j)]; lia. }
  assert (RF : forall q b, (b < 2 * n')%nat -> rescale_b1tob2 (2 * n) (2 * n') [] false q b 0%nat = app (2 * n) (b1tob2_m false (2 * n) (2 * n')) (fun j => q j 0%nat) b).
  { intros q b Hb. rewrite <- (rescale_app (2 * n) (2 * n') q b 0) by lia. reflexivity. }
  repeat split.
  - intros b i j Hi Hj H. unfold new_hessian. destruct (DM j b Hj) as [-> ->]. destruct (DM i b Hi) as [-> ->]. unfold rescale_b1tob2.
    assert (E : forall a, (a < 2 * n)%nat -> double_q n (fun b _ => h i (j + dof * b)%nat) a 0%nat = double_q n (fun b _ => h j (i + dof * b)%nat) a 0%nat).
    { intros a Ha. rewrite !double_mirror by easy. apply H. now apply mirror_lt. }
    destruct (Nat.eqb_spec (2 * n) (2 * n')) as [E'|_].
    + destruct (Nat.ltb_spec b (2 * n)); [now apply E|]. unfold double_q. rewrite (proj2 (Nat.ltb_ge b n)) by lia. apply H. lia.
    + unfold app. apply Rsum_ext. intros a Ha. now rewrite E.
  - intros b i j v Hb Hj H. unfold new_hessian. destruct (DM j b Hj) as [-> ->]. rewrite RF by lia. rewrite <- (row_const (2 * n) (2 * n') b v) by lia.
    unfold app. apply Rsum_ext. intros a Ha. f_equal. rewrite double_mirror by easy. apply H. now apply mirror_lt.
  - intros b i j Hb Hj. unfold new_hessian. destruct (DM j b Hj) as [-> ->]. unfold rescale_b1tob2. rewrite Nat.eqb_refl. unfold double_q. now rewrite (proj2 (Nat.ltb_lt b n) Hb).
Qed.
(** But the longer ring is not the mirrored half path: its mirror axes lie elsewhere, and the part that
    is kept is not half of it. *)
Theorem interpolation_refuted : exists n n' q, (0 < n)%nat /\ (n < n')%nat /\
  exists b, (b < 2 * n')%nat /\ double_q n' (new_path n n' q) b 0%nat <> interpolated_ring n n' q b 0%nat.
Proof.
  set (q := fun (b c : nat) => match b with O => 1 | _ => 0 end). exists 2%nat, 4%nat, q. split; [lia|]. split; [lia|]. exists 4%nat. split; [lia|].
  assert (S2 : sqrt 2 * sqrt 2 = 2) by (apply sqrt_sqrt; lra). assert (P2 : 0 < sqrt 2) by (apply sqrt_lt_R0; lra).
  assert (X : forall i, (i < 8)%nat -> interpolated_ring 2 4 q i 0%nat = / 2 * (1 + cos (2 * PI * INR i * INR 1 / INR 8) + sin (2 * PI * INR i * INR 7 / INR 8))).
  { intros i Hi. unfold interpolated_ring. rewrite rescale_app by lia. change (2 * 2)%nat with 4%nat. change (2 * 4)%nat with 8%nat.
    unfold app, b1tob2_m, mk_rs_matrix, mk_rs. change (4 =? 8)%nat with false. change (8 <? 4)%nat with false. cbv iota.
    rewrite (Rsum_ext 4 _ (fun j => INR 8 / INR 4 * sqrt (INR 4 / INR 8) * Rsum 4 (fun a => mk_nm_matrix 8 (sigma 8 4 a) i * (mk_nm_matrix 4 a j * double_q 2 q j 0%nat)))).
    2:{ intros j Hj. rewrite rs_entry by lia. rewrite (Rsum_ext 4 (fun a => mk_nm_matrix 8 (sigma 8 4 a) i * _) (fun a => double_q 2 q j 0%nat * (mk_nm_matrix 4 a j * mk_nm_matrix 8 (sigma 8 4 a) i))) by (intros; ring).
        rewrite Rsum_scal. ring. }
    rewrite Rsum_scal, Rsum_swap. rewrite (Rsum_ext 4 _ (fun a => mk_nm_matrix 8 (sigma 8 4 a) i * (mk_nm_matrix 4 a 0%nat + mk_nm_matrix 4 a 3%nat))).
    2:{ intros a Ha. rewrite Rsum_scal. f_equal. unfold double_q, q. cbn. ring. }
    cbn [Rsum]. change (sigma 8 4 0) with 0%nat. change (sigma 8 4 1) with 1%nat. change (sigma 8 4 2) with 2%nat. change (sigma 8 4 3) with 7%nat.
    unfold mk_nm_matrix.
    assert (E8 : forall k, k <> 4%nat -> nm_entry 8 k i = if (k =? 0)%nat then 1 else if (k <=? 4)%nat then sqrt 2 * cos (2 * PI * INR i * INR k / INR 8) else sqrt 2 * sin (2 * PI * INR i * INR k / INR 8)).
    { intros k Hk. unfold nm_entry. change (8 / 2)%nat with 4%nat. change (8 mod 2 =? 0)%nat with true. rewrite (proj2 (Nat.eqb_neq k 4)) by easy. cbn [andb]. now rewrite sqrt_1. }
    assert (A0 : nm_entry 4 0 0 = 1 /\ nm_entry 4 0 3 = 1) by (unfold nm_entry; cbn; now rewrite sqrt_1).
    assert (A1 : nm_entry 4 1 0 = sqrt 2 /\ nm_entry 4 1 3 = 0).
    { unfold nm_entry. cbn [Nat.modulo Nat.divmod Nat.eqb Nat.div andb Nat.leb fst snd Nat.sub]. cbn [INR]. split.
      - replace (2 * PI * 0 * 1 / (1 + 1 + 1 + 1)) with 0 by field. rewrite cos_0. ring.
      - replace (2 * PI * (1 + 1 + 1) * 1 / (1 + 1 + 1 + 1)) with (3 * (PI / 2)) by field. rewrite cos_3PI2. ring. }
    assert (A2 : nm_entry 4 2 0 = 1 /\ nm_entry 4 2 3 = - 1) by (unfold nm_entry; cbn; split; lra).
    assert (A3 : nm_entry 4 3 0 = 0 /\ nm_entry 4 3 3 = sqrt 2).
    { unfold nm_entry. cbn [Nat.modulo Nat.divmod Nat.eqb Nat.div andb Nat.leb fst snd Nat.sub]. cbn [INR]. split.
      - replace (2 * PI * 0 * (1 + 1 + 1) / (1 + 1 + 1 + 1)) with 0 by field. rewrite sin_0. ring.
      - replace (2 * PI * (1 + 1 + 1) * (1 + 1 + 1) / (1 + 1 + 1 + 1)) with (PI / 2 + 2 * INR 2 * PI) by (cbn [INR]; field). rewrite sin_period, sin_PI2. ring. }
    destruct A0 as [-> ->], A1 as [-> ->], A2 as [-> ->], A3 as [-> ->]. rewrite !E8 by lia. cbn [Nat.eqb Nat.leb].
    set (C1 := cos (2 * PI * INR i * INR 1 / INR 8)). set (C2 := cos (2 * PI * INR i * INR 2 / INR 8)). set (S7 := sin (2 * PI * INR i * INR 7 / INR 8)).
    replace (INR 8) with 8 by (cbn; ring). replace (INR 4) with 4 by (cbn; ring).
    assert (Q4 : sqrt 4 = 2) by (replace 4 with (2 * 2) by ring; apply sqrt_square; lra).
    assert (Q8 : sqrt 8 = 2 * sqrt 2) by (replace 8 with (2 * 2 * 2) by ring; rewrite sqrt_mult by lra; f_equal; apply sqrt_square; lra).
    assert (Qh : sqrt (4 / 8) = / sqrt 2) by (replace (4 / 8) with (/ 2) by field; apply sqrt_inv).
    rewrite Q4, Q8, Qh. replace (8 / 4 * / sqrt 2 * (0 + 1 / (2 * sqrt 2) * (1 / 2 + 1 / 2) + sqrt 2 * C1 / (2 * sqrt 2) * (sqrt 2 / 2 + 0 / 2) + sqrt 2 * C2 / (2 * sqrt 2) * (1 / 2 + - 1 / 2) + sqrt 2 * S7 / (2 * sqrt 2) * (0 / 2 + sqrt 2 / 2)))
      with (/ (sqrt 2 * sqrt 2) + / 2 * (C1 + S7)) by (field; lra). rewrite S2. field. }
  unfold double_q. change (4 <? 4)%nat with false. cbv iota. unfold new_path. change (4 - 1 - (4 - 4))%nat with 3%nat. rewrite !X by lia. cbn [INR].
  replace (2 * PI * (1 + 1 + 1) * 1 / (1 + 1 + 1 + 1 + 1 + 1 + 1 + 1)) with (3 * (PI / 4)) by field.
  replace (2 * PI * (1 + 1 + 1) * (1 + 1 + 1 + 1 + 1 + 1 + 1) / (1 + 1 + 1 + 1 + 1 + 1 + 1 + 1)) with (5 * (PI / 4) + 2 * INR 2 * PI) by (cbn [INR]; field).
  replace (2 * PI * (1 + 1 + 1 + 1) * 1 / (1 + 1 + 1 + 1 + 1 + 1 + 1 + 1)) with PI by field.
  replace (2 * PI * (1 + 1 + 1 + 1) * (1 + 1 + 1 + 1 + 1 + 1 + 1) / (1 + 1 + 1 + 1 + 1 + 1 + 1 + 1)) with (PI + 2 * INR 3 * PI) by (cbn [INR]; field).
  rewrite !sin_period, sin_PI, cos_PI, cos_3PI4. replace (5 * (PI / 4)) with (PI / 4 + PI) by field. rewrite neg_sin, sin_PI4.
  assert (D1 : 1 / sqrt 2 <> / 2).
  { intros E. assert (sqrt 2 = 2) by (replace (sqrt 2) with (/ (1 / sqrt 2)) by (field; lra); rewrite E; field). nra. }
  intros E. apply D1. lra.
Qed.

(** ** Cases *)
Example rate_mode_case : rate_mode 2 1 0 = ln 2 /\ exists Q, reactant_logQvib [4; 9] 3 1 = Val Q.
Proof.
  split.
  - rewrite rate_mode_value by (lia || lra). unfold is_zero. destruct (Req_EM_T 0 0); [|easy]. f_equal.
  - destruct (reactant_partition [4; 9] 3 1) as [Q [E _]]; [lia|lra|easy|repeat constructor; lra|]. now exists Q.
Qed.
Example stops_case : reactant_logQvib [4; - 1] 3 1 = Stop.
Proof. apply reactant_stops; [easy|]. right. left. lra. Qed.
Example inst_case : exists Q, reactant_logQvib [4] 2 1 = Val Q /\
  inst_logQvib "none" (- 3 :: 0 :: [ring_eig 2 1 4 0; ring_eig 2 1 4 1]) 2 1 = Q - ln (betaP 2 1 * hbar * sqrt (Rabs (- 3))) + ln (INR 2).
Proof. apply (inst_consistent "none" 2 1 (- 3) 0 _ [4]); [lia|lra|easy|repeat constructor; lra|]. cbn. apply Permutation_refl. Qed.
Example rot_case : 0 < det3 (moi 3 (fun _ => 1) (fun k c => if (k =? c)%nat then 1 else 0)).
Proof. unfold det3, moi, com. cbn. lra. Qed.
Example action_case : rate_action1 2 1 0 (fun b => (fun x : vec => x 0%nat) (fun c => INR b)) = / 2 /\ rate_BN 1 2 (fun _ => 1) (fun b c => INR b) = 2.
Proof. unfold rate_action1, rate_BN, bonds, kb. cbn. split; field. Qed.
Example ring_modes_case : forall a i : nat, (a < 1)%nat -> (i < 3)%nat -> Rsum 3 (fun c' => (fun i col => if (i =? col mod 3)%nat then 2 * 5 else 0) i (a * 3 + c')%nat * 1) = 2 * 5 * 1.
Proof. intros a i Ha Hi. replace a with 0%nat by lia. destruct i as [|[|[|i]]]; [| | |lia]; cbn; ring. Qed.
Example element_case : split_phi [1; 0; 1] 0 = 1.
Proof. unfold split_phi, delete1. cbn. rewrite Rabs_R1, sqrt_1, ln_1. replace (0 + (0 + 0) - 0) with 0 by ring. apply exp_0. Qed.
Example checks_case : checks "instanton" "poly" "splitting" 1 1 1 20 0 true = Fine /\ checks "TS" "linear" "rate" 1 1 1 1 0 false = Not_implemented.
Proof.
  split; [|reflexivity]. apply checks_fine. split; [lra|]. split; [now left|]. right. right. split; [easy|]. split; [|now right].
  replace (1 - 1) with 0 by ring. rewrite Rabs_R0. lra.
Qed.
Example filter_case : filter_atoms [1; 2; 3] 3 [1%nat] = ([1; 3], 2%nat).
Proof. reflexivity. Qed.

Print Assumptions rate_mode_value.
Print Assumptions splitting_mode_value.
Print Assumptions reactant_partition.
Print Assumptions reactant_stops.
Print Assumptions reactant_limit.
Print Assumptions inst_consistent.
Print Assumptions rotations_consistent.
Print Assumptions translations.
Print Assumptions rate_action.
Print Assumptions splitting_action.
Print Assumptions rate_hessian_ring.
Print Assumptions ring_modes.
Print Assumptions react_value.
Print Assumptions react_refuted.
Print Assumptions splitting_element.
Print Assumptions saved_modes_refuted.
Print Assumptions checks_fine.
Print Assumptions filter_ok.
Print Assumptions filter_refuted.
Print Assumptions interpolation.
Print Assumptions interpolated_hessian.
Print Assumptions interpolation_refuted.
