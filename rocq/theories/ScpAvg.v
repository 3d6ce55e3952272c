(** * Theorems of record: self-consistent phonons, weights and averages *)
From Coq Require Import List Arith Lia Bool Reals Lra.
From Verif Require Import RSum MinModel PhonModel ScpModel ScpProps.
Import ListNotations.
Open Scope R_scope.

(** ** Weights (C216) *)
Lemma quad_flip n A u v : quad n A (vsub u v) = quad n A (vsub v u).
Proof.
  unfold quad, dot, mv, vsub. apply Rsum_ext. intros i _.
  replace (Rsum n (fun j => A i j * (u j - v j))) with (- Rsum n (fun j => A i j * (v j - u j))); [ring|].
  rewrite <- Rsum_opp. apply Rsum_ext. intros; ring.
Qed.
(** A configuration drawn from the present distribution has weight one. *)
Theorem weight_same n iD q x : rweight n iD q iD q x = 1.
Proof. unfold rweight, expo. rewrite (quad_flip n iD x q). replace (_ + _) with 0 by ring. apply exp_0. Qed.
Print Assumptions weight_same.
(** The weight takes one distribution to the other: it is the ratio of two Gaussian functions. *)
Definition gauss (n : nat) (iD : mat) (q x : vec) : R := exp (- (1 / 2 * quad n iD (vsub x q))).
Theorem weight_ratio n iDp qp iD0 q0 x : rweight n iDp qp iD0 q0 x * gauss n iD0 q0 x = gauss n iDp qp x.
Proof. unfold rweight, gauss, expo. rewrite <- exp_plus. f_equal. rewrite (quad_flip n iDp qp x). ring. Qed.
Print Assumptions weight_ratio.
Lemma Rsum_pos n f : (0 < n)%nat -> (forall i, (i < n)%nat -> 0 < f i) -> 0 < Rsum n f.
Proof.
  intros N H. destruct n as [|n]; [lia|]. cbn [Rsum]. pose proof (H n ltac:(lia)).
  pose proof (Rsum_nonneg n f (fun i I => Rlt_le _ _ (H i ltac:(lia)))). lra.
Qed.
Lemma tiny_pos : 0 < tiny.
Proof. unfold tiny. apply Rinv_0_lt_compat, pow_lt. lra. Qed.
Lemma tiny_small : tiny < 1.
Proof. unfold tiny. rewrite <- Rinv_1. apply Rinv_lt_contravar; [rewrite Rmult_1_l; apply pow_lt; lra|]. apply Rlt_pow_R1; [lra|lia]. Qed.
Section W.
Variables (ms e : nat) (rw : nat -> R).
Hypothesis N : (0 < ms)%nat.
Hypothesis P : forall k, (k < ms)%nat -> 0 < rw k.
Lemma sum_pos : 0 < Rsum ms rw.
Proof. now apply Rsum_pos. Qed.
Lemma ms_pos : 0 < INR ms.
Proof. now apply lt_0_INR. Qed.
(** The normalised weights add up to one, unless all are negligible. *)
Theorem nweight_sum : tiny <= Rsum ms rw -> Rsum ms (nweight ms rw) = 1 /\ forall k, (k < ms)%nat -> 0 < nweight ms rw k.
Proof.
  intros T. unfold nweight. destruct (Rlt_dec (Rsum ms rw) tiny) as [L|L]; [lra|]. pose proof sum_pos. split.
  - rewrite Rsum_div. field. lra.
  - intros k K. apply Rdiv_lt_0_compat; auto.
Qed.
Lemma var_nonneg g : 0 <= var ms g.
Proof.
  unfold var. pose proof ms_pos. apply Rmult_le_pos; [apply Rsum_nonneg; intros; apply pow2_ge_0|].
  left. now apply Rinv_0_lt_compat.
Qed.
Lemma var_zero g : var ms g = 0 <-> forall k l, (k < ms)%nat -> (l < ms)%nat -> g k = g l.
Proof.
  pose proof ms_pos as Q. unfold var. split.
  - intros E. assert (Z : Rsum ms (fun k => (g k - mean ms g) ^ 2) = 0).
    { apply (Rmult_eq_reg_r (/ INR ms)); [|apply Rinv_neq_0_compat; lra]. unfold Rdiv in E. rewrite E. ring. }
    assert (A : forall k, (k < ms)%nat -> g k = mean ms g).
    { intros k K. pose proof (Rsum_eq0 _ _ (fun i _ => pow2_ge_0 (g i - mean ms g)) Z k K) as F. cbn beta in F.
      rewrite <- Rsqr_pow2 in F. apply Rsqr_0_uniq in F. lra. }
    intros k l K L. now rewrite A, (A l).
  - intros H. rewrite Rsum_0; [field; lra|]. intros k K.
    assert (M : mean ms g = g k).
    { unfold mean. rewrite (Rsum_ext _ _ (fun _ => g k)) by (intros; now apply H). rewrite Rsum_const. field. lra. }
    rewrite M. ring.
Qed.
Lemma ln_nweight k : tiny <= Rsum ms rw -> (k < ms)%nat -> ln (nweight ms rw k) = ln (rw k) - ln (Rsum ms rw).
Proof.
  intros T K. unfold nweight. destruct (Rlt_dec _ _) as [L|L]; [lra|]. pose proof sum_pos.
  unfold Rdiv. rewrite ln_mult; [|auto|now apply Rinv_0_lt_compat]. rewrite ln_Rinv by easy. ring.
Qed.
Lemma var_shift g h c : (forall k, (k < ms)%nat -> h k = g k + c) -> var ms h = var ms g.
Proof.
  intros H. pose proof ms_pos. unfold var. f_equal. assert (M : mean ms h = mean ms g + c).
  { unfold mean. rewrite (Rsum_ext _ h (fun k => g k + c)) by easy. rewrite Rsum_plus, Rsum_const. field. lra. }
  apply Rsum_ext. intros k K. rewrite M, H by easy. ring.
Qed.
(** The weight of a batch: one minus nothing when all its configurations weigh the same, less
    otherwise; it depends on the ratios of the weights only. *)
Lemma bweight_log : tiny <= Rsum ms rw -> bweight ms e rw = exp (- var ms (fun k => ln (rw k))) ^ e.
Proof.
  intros T. unfold bweight. destruct (Rlt_dec _ _) as [L|L]; [lra|]. do 3 f_equal.
  apply (var_shift _ _ (- ln (Rsum ms rw))). intros k K. rewrite ln_nweight by easy. ring.
Qed.
Lemma exp_neg_le v : 0 <= v -> exp (- v) <= 1.
Proof. intros H. rewrite <- exp_0. destruct H as [H|<-]; [left; apply exp_increasing; lra|right; f_equal; ring]. Qed.
Theorem bweight_range : 0 <= bweight ms e rw <= 1.
Proof.
  unfold bweight. destruct (Rlt_dec _ _) as [L|L].
  - destruct e; cbn; [lra|]. rewrite Rmult_0_l. lra.
  - pose proof (var_nonneg (fun k => ln (nweight ms rw k))) as V. apply exp_neg_le in V. pose proof (exp_pos (- var ms (fun k => ln (nweight ms rw k)))).
    split; [apply pow_le; lra|]. rewrite <- (pow1 e). apply pow_incr. lra.
Qed.
Theorem bweight_one : tiny <= Rsum ms rw -> (0 < e)%nat ->
  bweight ms e rw = 1 <-> forall k l, (k < ms)%nat -> (l < ms)%nat -> rw k = rw l.
Proof.
  intros T E. rewrite bweight_log by easy. pose proof (var_nonneg (fun k => ln (rw k))) as V.
  assert (Q : exp (- var ms (fun k => ln (rw k))) ^ e = 1 <-> var ms (fun k => ln (rw k)) = 0).
  { split.
    - intros H. destruct V as [V|V]; [|easy]. exfalso.
      assert (exp (- var ms (fun k => ln (rw k))) < 1) by (rewrite <- exp_0; apply exp_increasing; lra).
      pose proof (exp_pos (- var ms (fun k => ln (rw k)))). destruct e as [|e']; [lia|].
      pose proof (pow_incr (exp (- var ms (fun k => ln (rw k)))) 1 e' ltac:(lra)) as G. rewrite pow1 in G.
      cbn [pow] in H. pose proof (pow_lt (exp (- var ms (fun k => ln (rw k)))) e' ltac:(lra)). nra.
    - intros ->. rewrite Ropp_0, exp_0. apply pow1. }
  rewrite Q, var_zero. split.
  - intros H k l K L. apply ln_inv; auto.
  - intros H k l K L. f_equal. now apply H.
Qed.
End W.
Print Assumptions nweight_sum.
Print Assumptions bweight_range.
Print Assumptions bweight_one.
Theorem bweight_scale ms e rw c : (0 < ms)%nat -> (forall k, (k < ms)%nat -> 0 < rw k) -> 0 < c ->
  tiny <= Rsum ms rw -> tiny <= Rsum ms (fun k => c * rw k) -> bweight ms e (fun k => c * rw k) = bweight ms e rw.
Proof.
  intros N P C T T'. rewrite (bweight_log ms e (fun k => c * rw k)) by (try easy; intros; apply Rmult_lt_0_compat; auto).
  rewrite (bweight_log ms e rw) by easy. do 3 f_equal. apply (var_shift ms N _ _ (ln c)). intros k K. rewrite ln_mult by auto. ring.
Qed.
Print Assumptions bweight_scale.
Example bweight_case : bweight 2 1 (fun k => if Nat.eqb k 0 then exp 1 else exp 3) = exp (-1).
Proof.
  assert (P : forall k, (k < 2)%nat -> 0 < (if Nat.eqb k 0 then exp 1 else exp 3)) by (intros k _; destruct (Nat.eqb k 0); apply exp_pos).
  rewrite bweight_log; [|lia|easy|].
  - rewrite pow_1. f_equal. unfold var, mean. cbn [Rsum Nat.eqb INR]. rewrite !ln_exp. field.
  - cbn. pose proof tiny_small. pose proof (exp_ineq1 1 ltac:(lra)). pose proof (exp_pos 3). lra.
Qed.

(** ** Averages (C217) *)
Section A.
Variables (ms : nat) (rw : nat -> R).
Hypothesis N : (0 < ms)%nat.
Hypothesis P : forall k, (k < ms)%nat -> 0 < rw k.
Lemma V1_pos : 0 < Rsum ms rw.
Proof. now apply Rsum_pos. Qed.
Theorem avg_const g c : (forall k, (k < ms)%nat -> g k = c) -> avg_batch ms rw g = c /\ var_batch ms rw g = 0.
Proof.
  intros H. pose proof V1_pos.
  assert (A : avg_batch ms rw g = c).
  { unfold avg_batch. rewrite (Rsum_ext _ _ (fun k => rw k * c)) by (intros; now rewrite H). rewrite Rsum_scal_r. field. lra. }
  split; [easy|]. unfold var_batch. cbv zeta. rewrite A. rewrite Rsum_0; [unfold Rdiv; ring|]. intros k K. rewrite H by easy. ring.
Qed.
(** The average of a batch lies between the smallest and the largest value. *)
Theorem avg_between g lo hi : (forall k, (k < ms)%nat -> lo <= g k <= hi) -> lo <= avg_batch ms rw g <= hi.
Proof.
  intros H. pose proof V1_pos as V. unfold avg_batch. split.
  - apply (Rmult_le_reg_r (Rsum ms rw)); [easy|]. unfold Rdiv. rewrite Rmult_assoc, Rinv_l, Rmult_1_r by lra.
    rewrite <- Rsum_scal. apply Rsum_le. intros k K. specialize (H k K). specialize (P k K). nra.
  - apply (Rmult_le_reg_r (Rsum ms rw)); [easy|]. unfold Rdiv. rewrite Rmult_assoc, Rinv_l, Rmult_1_r by lra.
    rewrite <- Rsum_scal. apply Rsum_le. intros k K. specialize (H k K). specialize (P k K). nra.
Qed.
(** Only ratios of weights matter: the two Gaussian functions need not be normalised. *)
Theorem avg_scale c g : 0 < c -> avg_batch ms (fun k => c * rw k) g = avg_batch ms rw g /\
  var_batch ms (fun k => c * rw k) g = var_batch ms rw g.
Proof.
  intros C. pose proof V1_pos as V.
  assert (A : avg_batch ms (fun k => c * rw k) g = avg_batch ms rw g).
  { unfold avg_batch. rewrite Rsum_scal, (Rsum_ext _ _ (fun k => c * (rw k * g k))) by (intros; ring). rewrite Rsum_scal. field. lra. }
  split; [easy|]. unfold var_batch. cbv zeta. rewrite A, Rsum_scal.
  rewrite (Rsum_ext ms (fun k => c * rw k * (g k - avg_batch ms rw g) ^ 2) (fun k => c * (rw k * (g k - avg_batch ms rw g) ^ 2))) by (intros; ring).
  rewrite (Rsum_ext ms (fun k => (c * rw k) ^ 2) (fun k => c ^ 2 * rw k ^ 2)) by (intros; ring).
  rewrite !Rsum_scal. replace (c * Rsum ms rw - c ^ 2 * Rsum ms (fun k => rw k ^ 2) / (c * Rsum ms rw)) with
    (c * (Rsum ms rw - Rsum ms (fun k => rw k ^ 2) / Rsum ms rw)) by (field; lra).
  unfold Rdiv. rewrite Rinv_mult. set (i := / (_ - _)). set (S := Rsum ms _). field_simplify_eq; [ring|lra].
Qed.
Lemma sq_sum_lt : (1 < ms)%nat -> Rsum ms (fun k => rw k ^ 2) < Rsum ms rw ^ 2.
Proof.
  clear N. intros M. assert (G : forall m, (m <= ms)%nat -> (1 <= m)%nat ->
     Rsum m (fun k => rw k ^ 2) <= Rsum m rw ^ 2 /\ ((1 < m)%nat -> Rsum m (fun k => rw k ^ 2) < Rsum m rw ^ 2)).
  { induction m as [|m IH]; intros Hm H1; [lia|]. destruct m as [|m].
    - cbn. split; [lra|lia].
    - destruct IH as [IH _]; [lia|lia|]. assert (0 < Rsum (S m) rw) by (apply Rsum_pos; [lia|intros; apply P; lia]).
      pose proof (P (S m) ltac:(lia)). remember (S m) as m' eqn:E. cbn [Rsum]. split; [|intros _]; nra. }
  apply (proj2 (G ms ltac:(lia) ltac:(lia))). easy.
Qed.
(** With two or more configurations the variance is defined and not negative. *)
Theorem var_defined g : (1 < ms)%nat ->
  0 < Rsum ms rw - Rsum ms (fun k => rw k ^ 2) / Rsum ms rw /\ 0 <= var_batch ms rw g.
Proof.
  intros M. pose proof V1_pos as V. pose proof (sq_sum_lt M) as S.
  assert (D : 0 < Rsum ms rw - Rsum ms (fun k => rw k ^ 2) / Rsum ms rw).
  { apply (Rmult_lt_reg_r (Rsum ms rw)); [easy|]. rewrite Rmult_0_l.
    replace ((Rsum ms rw - Rsum ms (fun k => rw k ^ 2) / Rsum ms rw) * Rsum ms rw) with (Rsum ms rw ^ 2 - Rsum ms (fun k => rw k ^ 2)) by (field; lra). lra. }
  split; [easy|]. unfold var_batch. cbv zeta. apply Rmult_le_pos; [|left; now apply Rinv_0_lt_compat].
  apply Rsum_nonneg. intros k K. apply Rmult_le_pos; [left; auto|apply pow2_ge_0].
Qed.
End A.
Print Assumptions avg_const.
Print Assumptions avg_between.
Print Assumptions avg_scale.
Print Assumptions var_defined.
(** With equal weights: the mean, and the usual estimate of the variance with n - 1. *)
Theorem var_equal ms g : (1 < ms)%nat ->
  avg_batch ms (fun _ => 1) g = mean ms g /\
  var_batch ms (fun _ => 1) g = Rsum ms (fun k => (g k - mean ms g) ^ 2) / (INR ms - 1).
Proof.
  intros M. assert (1 < INR ms) by (change 1 with (INR 1); now apply lt_INR).
  assert (A : avg_batch ms (fun _ => 1) g = mean ms g).
  { unfold avg_batch, mean. rewrite (Rsum_ext _ (fun k => 1 * g k) g) by (intros; ring). rewrite Rsum_const. f_equal. ring. }
  split; [easy|]. unfold var_batch. cbv zeta. rewrite A. rewrite (Rsum_ext _ (fun k => 1 * (g k - mean ms g) ^ 2) (fun k => (g k - mean ms g) ^ 2)) by (intros; ring).
  rewrite (Rsum_ext ms (fun _ => 1 ^ 2) (fun _ => 1)) by (intros; ring). rewrite Rsum_const. f_equal. field. lra.
Qed.
Print Assumptions var_equal.
Example var_case : avg_batch 2 (fun k => if Nat.eqb k 0 then 1 else 3) (fun k => INR k) = 3 / 4 /\
  var_batch 2 (fun k => if Nat.eqb k 0 then 1 else 3) (fun k => INR k) = 1 / 2.
Proof. unfold var_batch, avg_batch. cbn. split; field. Qed.

(** ** All batches together (C218) *)
Section B.
Variables (n ms e : nat) (qp : vec) (K iD : mat) (bs : list batch).
Hypothesis N : (0 < ms)%nat.
Let rw b := brw n iD qp b.
Lemma brw_pos b k : 0 < brw n iD qp b k.
Proof. apply exp_pos. Qed.
(** A batch drawn from the present distribution. *)
Definition fresh (b : batch) : Prop := bq b = qp /\ biD b = iD.
Lemma fresh_rw b k : fresh b -> brw n iD qp b k = 1.
Proof. intros [E F]. unfold brw. rewrite E, F. apply weight_same. Qed.
Theorem fresh_weight b : fresh b -> sw n ms e qp iD b = 1.
Proof.
  intros F. unfold sw. rewrite bweight_log; [|easy|intros; apply brw_pos|].
  - replace (var ms (fun k => ln (brw n iD qp b k))) with 0.
    + rewrite Ropp_0, exp_0. apply pow1.
    + symmetry. apply var_zero; [easy|]. intros k l _ _. now rewrite !fresh_rw.
  - rewrite (Rsum_ext _ _ (fun _ => 1)) by (intros; now apply fresh_rw). rewrite Rsum_const, Rmult_1_r. pose proof tiny_small.
    pose proof (le_INR 1 ms ltac:(lia)). cbn in *. lra.
Qed.
Lemma sw_range b : 0 <= sw n ms e qp iD b <= 1.
Proof. apply bweight_range. easy. Qed.
Lemma Rsuml_sw_nonneg l : 0 <= Rsuml (map (sw n ms e qp iD) l).
Proof. induction l as [|b l IH]; cbn; [lra|]. pose proof (sw_range b). lra. Qed.
(** With a batch of the present distribution among them the batches have a positive total weight. *)
Theorem total_pos b : In b bs -> fresh b -> 1 <= total n ms e qp iD bs.
Proof.
  intros I F. unfold total. induction bs as [|c l IH]; [easy|]. cbn. destruct I as [->|I].
  - rewrite fresh_weight by easy. pose proof (Rsuml_sw_nonneg l). lra.
  - specialize (IH I). pose proof (sw_range c). lra.
Qed.
Lemma Rsuml_const (g : batch -> R) c : (forall b, In b bs -> g b = c) ->
  Rsuml (map (fun b => sw n ms e qp iD b * g b) bs) = total n ms e qp iD bs * c.
Proof.
  intros H. unfold total. rewrite (Rsuml_map_ext _ (fun b => c * sw n ms e qp iD b)) by (intros b B; rewrite H by easy; ring).
  rewrite Rsuml_map_scal. ring.
Qed.
(** A force that differs from the trial harmonic force by the same vector at all configurations is
    found exactly, without error. *)
Lemma force_const c : total n ms e qp iD bs <> 0 -> (forall b, In b bs -> forall k j, (k < ms)%nat -> (j < n)%nat -> resid n K qp b j k = c j) ->
  forall j, (j < n)%nat -> force n ms e qp K iD bs j = c j /\ force_err n ms e qp K iD bs j = 0.
Proof.
  intros T H j J. split.
  - unfold force. rewrite (Rsuml_const _ (c j)); [field; easy|]. intros b B.
    apply (avg_const ms (brw n iD qp b) N (fun k _ => brw_pos b k)). intros k Hk. now apply H.
  - unfold force_err. rewrite (Rsuml_map_ext _ (fun _ => 0)).
    + rewrite Rsuml_map_const. rewrite Rmult_0_r. unfold Rdiv. rewrite !Rmult_0_l. apply sqrt_0.
    + intros b B. rewrite (proj2 (avg_const ms (brw n iD qp b) N (fun k _ => brw_pos b k) (resid n K qp b j) (c j) (fun k Hk => H b B k j Hk J))). ring.
Qed.
(** The Hessian is symmetric when the trial one is. *)
Theorem hessian_symmetric : (forall i j, K i j = K j i) -> forall i j, hessian n ms e qp K iD bs i j = hessian n ms e qp K iD bs j i.
Proof.
  intros S i j. unfold hessian. f_equal. apply Rsuml_map_ext. intros b _. unfold K_batch. rewrite (S i j). ring.
Qed.
End B.
Print Assumptions fresh_weight.
Print Assumptions total_pos.
Print Assumptions hessian_symmetric.

(** The force of a harmonic potential with Hessian [H] and minimum [q0]. *)
Definition harmonic (n : nat) (H : mat) (q0 x : vec) : vec := fun j => Rsum n (fun i => H j i * (q0 i - x i)).
Definition sym_on (n : nat) (H : mat) : Prop := forall i j, (i < n)%nat -> (j < n)%nat -> H i j = H j i.
Lemma resid_harmonic n H K qp q0 b j k : sym_on n K -> (j < n)%nat -> bf b k j = harmonic n H q0 (bx b k) j ->
  resid n K qp b j k = harmonic n H q0 qp j - Rsum n (fun l => (H j l - K j l) * (bx b k l - qp l)).
Proof.
  intros S J E. unfold resid. rewrite E. unfold harmonic, fharm. unfold Rminus at 1. rewrite Ropp_involutive, <- Rsum_plus, <- Rsum_minus.
  apply Rsum_ext. intros i I. rewrite (S j i) by easy. ring.
Qed.
(** For the potential the trial matrix belongs to, any batches with any weights give the force at the
    mean position exactly, and error zero. *)
Theorem force_trial n ms e qp K iD bs q0 : (0 < ms)%nat -> sym_on n K -> total n ms e qp iD bs <> 0 ->
  (forall b, In b bs -> forall k j, (k < ms)%nat -> (j < n)%nat -> bf b k j = harmonic n K q0 (bx b k) j) ->
  forall j, (j < n)%nat -> force n ms e qp K iD bs j = harmonic n K q0 qp j /\ force_err n ms e qp K iD bs j = 0.
Proof.
  intros N S T H. apply (force_const n ms e qp K iD bs N); [easy|]. intros b B k j Hk J.
  rewrite (resid_harmonic n K K qp q0) by auto. rewrite Rsum_0; [ring|]. intros; ring.
Qed.
Print Assumptions force_trial.
(** For any harmonic potential, one batch drawn from the present distribution in mirrored pairs gives
    the force at the mean position exactly. *)
Theorem force_mirrored n ms e qp K iD b H q0 : (0 < ms)%nat -> sym_on n K -> fresh qp iD b ->
  (forall c, (c < n)%nat -> Rsum ms (fun k => bx b k c - qp c) = 0) ->
  (forall k j, (k < ms)%nat -> (j < n)%nat -> bf b k j = harmonic n H q0 (bx b k) j) ->
  forall j, (j < n)%nat -> force n ms e qp K iD [b] j = harmonic n H q0 qp j.
Proof.
  intros N S F M E j J. unfold force, total. cbn [map Rsuml]. rewrite (fresh_weight n ms e qp iD N b F).
  replace (1 + 0) with 1 by ring. unfold Rdiv. rewrite Rinv_1, Rmult_1_r, Rplus_0_r, Rmult_1_l.
  unfold avg_batch. rewrite (Rsum_ext ms (brw n iD qp b) (fun _ => 1)) by (intros; now apply fresh_rw).
  rewrite (Rsum_ext ms _ (fun k => harmonic n H q0 qp j - Rsum n (fun l => (H j l - K j l) * (bx b k l - qp l)))).
  2:{ intros k Hk. rewrite fresh_rw, (resid_harmonic n H K qp q0) by auto. ring. }
  rewrite Rsum_minus, Rsum_swap. rewrite (Rsum_0 n).
  - rewrite !Rsum_const. pose proof (lt_0_INR ms N). field. lra.
  - intros l L. rewrite Rsum_scal, M by easy. ring.
Qed.
Print Assumptions force_mirrored.
(** If besides their mean square displacements are those of the distribution ([iD] inverts them), the
    Hessian is found exactly too. *)
Theorem hessian_exact n ms e qp K iD b H q0 : (0 < ms)%nat -> sym_on n K -> sym_on n H -> fresh qp iD b ->
  (forall c, (c < n)%nat -> Rsum ms (fun k => bx b k c - qp c) = 0) ->
  (forall i l, (i < n)%nat -> (l < n)%nat ->
     Rsum n (fun c => iD i c * (Rsum ms (fun k => (bx b k c - qp c) * (bx b k l - qp l)) / INR ms)) = delta i l) ->
  (forall k j, (k < ms)%nat -> (j < n)%nat -> bf b k j = harmonic n H q0 (bx b k) j) ->
  forall i j, (i < n)%nat -> (j < n)%nat -> hessian n ms e qp K iD [b] i j = H i j.
Proof.
  intros N S SH F M C E. assert (Q : 0 < INR ms) by now apply lt_0_INR.
  assert (DK : forall i j, (i < n)%nat -> (j < n)%nat -> dK n ms qp K iD b i j = H j i - K j i).
  { intros i j I J. unfold dK. rewrite (Rsum_ext ms (brw n iD qp b) (fun _ => 1)) by (intros; now apply fresh_rw).
    rewrite Rsum_const, Rmult_1_r.
    assert (G : forall c, (c < n)%nat -> Rsum ms (fun k => resid n K qp b j k * brw n iD qp b k * (bx b k c - qp c)) =
       - Rsum n (fun l => (H j l - K j l) * Rsum ms (fun k => (bx b k c - qp c) * (bx b k l - qp l)))).
    { intros c Hc. rewrite (Rsum_ext ms _ (fun k => harmonic n H q0 qp j * (bx b k c - qp c) - Rsum n (fun l => (H j l - K j l) * ((bx b k c - qp c) * (bx b k l - qp l))))).
      2:{ intros k Hk. rewrite fresh_rw, (resid_harmonic n H K qp q0) by auto. rewrite Rmult_1_r.
          rewrite (Rsum_ext n (fun l => (H j l - K j l) * ((bx b k c - qp c) * (bx b k l - qp l))) (fun l => (bx b k c - qp c) * ((H j l - K j l) * (bx b k l - qp l)))) by (intros; ring).
          rewrite Rsum_scal. ring. }
      rewrite Rsum_minus, Rsum_scal, M by easy. rewrite Rmult_0_r, Rsum_swap.
      rewrite (Rsum_ext n (fun j0 => Rsum ms _) (fun l => (H j l - K j l) * Rsum ms (fun k => (bx b k c - qp c) * (bx b k l - qp l)))) by (intros; now rewrite Rsum_scal).
      ring. }
    transitivity (Rsum n (fun l => (H j l - K j l) * delta i l)).
    2:{ now rewrite Rsum_delta_l. }
    rewrite (Rsum_ext n _ (fun c => - (iD i c * Rsum n (fun l => (H j l - K j l) * Rsum ms (fun k => (bx b k c - qp c) * (bx b k l - qp l)))))) by (intros; rewrite G by easy; ring).
    rewrite Rsum_opp, Ropp_involutive. unfold Rdiv. rewrite <- Rsum_scal_r.
    rewrite (Rsum_ext n _ (fun c => Rsum n (fun l => (H j l - K j l) * (iD i c * (Rsum ms (fun k => (bx b k c - qp c) * (bx b k l - qp l)) / INR ms))))).
    2:{ intros c Hc. rewrite <- Rsum_scal, <- Rsum_scal_r. apply Rsum_ext. intros l _. field. lra. }
    rewrite Rsum_swap. apply Rsum_ext. intros l L. rewrite Rsum_scal, C by easy. ring. }
  intros i j I J. unfold hessian, total. cbn [map Rsuml]. rewrite (fresh_weight n ms e qp iD N b F). unfold K_batch.
  rewrite !DK by easy. rewrite (SH j i), (S j i) by easy. field.
Qed.
Print Assumptions hessian_exact.
(** A case: one coordinate, trial spring 1, true spring 4 about 2, present mean position 1, two mirrored
    configurations at a distance one. *)
Definition case_batch : batch :=
  Batch (fun k _ => if Nat.eqb k 0 then 2 else 0) (fun k _ => if Nat.eqb k 0 then 0 else 8) (fun _ => 1) (fun _ _ => 1).
Example average_case : force 1 2 1 (fun _ => 1) (fun _ _ => 1) (fun _ _ => 1) [case_batch] 0%nat = 4 /\
  hessian 1 2 1 (fun _ => 1) (fun _ _ => 1) (fun _ _ => 1) [case_batch] 0%nat 0%nat = 4.
Proof.
  assert (F : forall k j, (k < 2)%nat -> (j < 1)%nat -> bf case_batch k j = harmonic 1 (fun _ _ => 4) (fun _ => 2) (bx case_batch k) j).
  { intros k j Hk _. unfold harmonic. cbn. destruct k as [|[|k]]; cbn; [ring|ring|lia]. }
  assert (M : forall c, (c < 1)%nat -> Rsum 2 (fun k => bx case_batch k c - 1) = 0) by (intros; cbn; ring).
  assert (FR : fresh (fun _ => 1) (fun _ _ => 1) case_batch) by (split; reflexivity).
  assert (S1 : sym_on 1 (fun _ _ => 1)) by (intros ? ? _ _; reflexivity).
  assert (S4 : sym_on 1 (fun _ _ => 4)) by (intros ? ? _ _; reflexivity). split.
  - rewrite (force_mirrored 1 2 1 _ _ _ case_batch (fun _ _ => 4) (fun _ => 2)); auto. unfold harmonic. cbn. ring.
  - rewrite (hessian_exact 1 2 1 _ _ _ case_batch (fun _ _ => 4) (fun _ => 2)); auto. intros i l I L.
    assert (i = 0%nat) by lia. assert (l = 0%nat) by lia. subst. unfold delta. cbn. field.
Qed.

(** ** The inner loop of rnmik ends (C215): false *)
(** One coordinate, harmonic forces of the trial matrix, the mean position at the minimum, the default
    threshold: no number of passages is enough. *)
Definition rest_batch : batch :=
  Batch (fun k _ => if Nat.eqb k 0 then 1 else -1) (fun k _ => if Nat.eqb k 0 then -1 else 1) (fun _ => 0) (fun _ _ => 1).
Definition rest_look (q : vec) : vec * vec * list R :=
  (force 1 2 1 q (fun _ _ => 1) (fun _ _ => 1) [rest_batch], force_err 1 2 1 q (fun _ _ => 1) (fun _ _ => 1) [rest_batch],
   [sw 1 2 1 q (fun _ _ => 1) rest_batch]).
Lemma look_rest q : q 0%nat = 0 -> let '(f, fe, bw) := rest_look q in f 0%nat = 0 /\ fe 0%nat = 0 /\ bw = [1].
Proof.
  intros Q. unfold rest_look.
  assert (R : forall k, brw 1 (fun _ _ => 1) q rest_batch k = 1).
  { intros k. unfold brw, rweight, expo, quad, dot, mv, vsub. cbn. rewrite Q. replace (_ + _) with 0 by ring. apply exp_0. }
  assert (W : sw 1 2 1 q (fun _ _ => 1) rest_batch = 1).
  { unfold sw. apply bweight_one; try lia.
    - intros k _. rewrite R. lra.
    - cbn. rewrite !R. pose proof tiny_small. lra.
    - intros k l _ _. now rewrite !R. }
  assert (S : sym_on 1 (fun _ _ => 1)) by (intros ? ? _ _; reflexivity).
  assert (T : total 1 2 1 q (fun _ _ => 1) [rest_batch] <> 0) by (unfold total; cbn [map Rsuml]; rewrite W; lra).
  pose proof (force_trial 1 2 1 q (fun _ _ => 1) (fun _ _ => 1) [rest_batch] (fun _ => 0) ltac:(lia) S T) as G.
  destruct (G) with (j := 0%nat) as [-> ->]; [|lia|rewrite W].
  - intros b [<-|[]] k j Hk J. unfold harmonic. cbn. destruct (Nat.eqb k 0); ring.
  - repeat split; [unfold harmonic; cbn; rewrite Q; ring].
Qed.
Theorem inner_ends_refuted : exists n V z iw2 (s : inner), 
  forall fuel, inner_loop n V z iw2 (9 / 10) rest_look fuel s = None.
Proof.
  exists 1%nat, (fun _ _ => 1), (fun _ => false), (fun _ => 1), (Inner (fun _ => 0) 1 1). intros fuel.
  cut (forall s, i_q s 0%nat = 0 -> inner_loop 1 (fun _ _ => 1) (fun _ => false) (fun _ => 1) (9 / 10) rest_look fuel s = None).
  { intros H. now apply H. }
  induction fuel as [|fuel IH]; intros s Q; [reflexivity|]. cbn [inner_loop]. unfold inner_pass.
  pose proof (look_rest (i_q s) Q) as L. destruct (rest_look (i_q s)) as [[f fe] bw]. destruct L as (F & FE & ->).
  rewrite exact_significant; [|lia|intros i I; replace i with 0%nat by lia; exact FE].
  destruct (Rlt_dec (rmax [1]) (9 / 10)) as [X|X].
  { unfold rmax in X. cbn in X. rewrite Rmax_left in X by lra. lra. }
  apply IH. cbn [i_q]. unfold move_nm, nm_disp, fmode. cbn [Rsum]. rewrite Q, F.
  destruct (Rlt_dec _ _); ring.
Qed.
Print Assumptions inner_ends_refuted.
