(** * Theorems of record: anharmonic normal modes, states, maps and mean field *)
From Coq Require Import List Arith ZArith Lia Bool Reals Lra.
From Verif Require Import RSum Ortho MinModel PhonModel ScpModel ScpMat VscfModel VscfProps.
Import ListNotations.
Open Scope R_scope.

(** ** The Hamiltonian (C227) *)
Section H.
Variables (nb ng : nat) (hw T : R) (psi : nat -> nat -> R) (vg : nat -> R).
(** The matrix elements of the potential on the grid, and the harmonic levels on the diagonal. *)
Theorem hmat_is i j : hmat ng hw psi vg i j = Rsum ng (fun g => psi i g * psi j g * vg g) + delta i j * (hw * (INR i + 1 / 2)).
Proof.
  unfold hmat, upper. destruct (lt_eq_lt_dec i j) as [[L|E]|L].
  - rewrite (proj2 (Nat.ltb_ge j i)), (proj2 (Nat.ltb_lt i j)), (proj2 (Nat.eqb_neq i j)), delta_diff by lia. ring.
  - subst j. rewrite Nat.ltb_irrefl, Nat.eqb_refl, delta_same. field.
  - rewrite (proj2 (Nat.ltb_lt j i)), (proj2 (Nat.ltb_ge i j)), (proj2 (Nat.eqb_neq j i)), delta_diff by lia.
    rewrite Rplus_0_l, Rmult_0_l, Rplus_0_r. apply Rsum_ext. intros; ring.
Qed.
Theorem hmat_sym i j : hmat ng hw psi vg i j = hmat ng hw psi vg j i.
Proof. unfold hmat. ring. Qed.
End H.
Print Assumptions hmat_is.
Print Assumptions hmat_sym.
(** Sums over the eigenvalues of a diagonal matrix are sums over its diagonal. *)
Lemma eig_diagonal n d e U (f : R -> R) : orthonormal_cols n U ->
  (forall i j, (i < n)%nat -> (j < n)%nat -> delta i j * d i = spectral n e U i j) ->
  Rsum n (fun k => f (e k)) = Rsum n (fun i => f (d i)).
Proof.
  intros O S.
  assert (EV : forall i k, (i < n)%nat -> (k < n)%nat -> d i * U i k = e k * U i k).
  { intros i k I K. rewrite <- (spectral_col n e U k i O K). unfold mv, column.
    rewrite <- (Rsum_ext n (fun j => d i * U j k * delta i j)) by (intros j J; rewrite <- S by easy; ring). now rewrite Rsum_delta_l. }
  assert (FE : forall i k, (i < n)%nat -> (k < n)%nat -> f (e k) * (U i k * U i k) = f (d i) * (U i k * U i k)).
  { intros i k I K. destruct (Req_dec (U i k) 0) as [Z|N]; [rewrite Z; ring|]. specialize (EV i k I K). apply Rmult_eq_reg_r in EV; [|exact N]. now rewrite EV. }
  transitivity (Rsum n (fun k => Rsum n (fun i => f (e k) * (U i k * U i k)))).
  - apply Rsum_ext. intros k K. rewrite Rsum_scal, (O k k K K), delta_same. ring.
  - rewrite Rsum_swap. apply Rsum_ext. intros i I.
    rewrite (Rsum_ext n _ (fun k => f (d i) * (U i k * U i k))) by (intros k K; now apply FE).
    rewrite Rsum_scal. rewrite (cols_rows n U O i i I I), delta_same. ring.
Qed.
Lemma partition_pos nb T (x : vec) : (0 < nb)%nat -> 0 < partition nb T x.
Proof.
  intros NB. unfold partition. destruct nb as [|m]; [lia|]. rewrite Rsum_first. pose proof (exp_pos (-1 * x 0%nat / T)).
  assert (0 <= Rsum m (fun i => exp (-1 * x (S i) / T))) by (apply Rsum_nonneg; intros; left; apply exp_pos). lra.
Qed.
(** A potential that is constant on the grid, with functions orthonormal there, shifts the harmonic levels: free
    and internal energy are the harmonic ones and the constant. With zero the functions may be any. *)
Section Levels.
Variables (nb ng : nat) (hw T c : R) (psi : nat -> nat -> R) (vg : nat -> R) (e : vec) (U : MinModel.mat).
Hypothesis TP : 0 < T.
Hypothesis NB : (0 < nb)%nat.
Hypothesis EIG : eigh_spec nb (hmat ng hw psi vg) (e, U).
Hypothesis CST : (forall g, (g < ng)%nat -> vg g = c) /\
  (c = 0 \/ forall i j, (i < nb)%nat -> (j < nb)%nat -> Rsum ng (fun g => psi i g * psi j g) = delta i j).
Lemma level_sums f : Rsum nb (fun k => f (e k)) = Rsum nb (fun k => f (har hw k + c)).
Proof.
  destruct EIG as [O S]. cbn [fst snd] in *. destruct CST as [V ORT].
  rewrite (eig_diagonal nb (fun k => har hw k + c) e U f O); [reflexivity|].
  intros i j I J. rewrite <- S by easy. rewrite hmat_is. unfold har.
  rewrite (Rsum_ext ng _ (fun g => psi i g * psi j g * c)) by (intros g G; now rewrite V). rewrite Rsum_scal_r.
  destruct ORT as [->|ORT]; [ring|]. rewrite ORT by easy. ring.
Qed.
Lemma shift_exp x : exp (-1 * (x + c) / T) = exp (- c / T) * exp (-1 * x / T).
Proof. rewrite <- exp_plus. f_equal. field. lra. Qed.
Lemma shift_partition : partition nb T e = exp (- c / T) * partition nb T (har hw).
Proof.
  unfold partition. rewrite (level_sums (fun x => exp (-1 * x / T))). rewrite <- Rsum_scal. apply Rsum_ext. intros k _. apply shift_exp.
Qed.
Theorem levels_free : free nb T e = free nb T (har hw) + c.
Proof.
  unfold free. rewrite shift_partition, ln_mult by (apply exp_pos || now apply partition_pos). rewrite ln_exp. field. lra.
Qed.
Theorem levels_internal : internal nb T e = internal nb T (har hw) + c.
Proof.
  unfold internal. rewrite shift_partition. rewrite (level_sums (fun x => x * exp (-1 * x / T))).
  rewrite (Rsum_ext nb _ (fun k => exp (- c / T) * (har hw k * exp (-1 * har hw k / T)) + exp (- c / T) * c * exp (-1 * har hw k / T)))
    by (intros k _; rewrite shift_exp; ring).
  rewrite Rsum_plus, !Rsum_scal. change (Rsum nb (fun k => exp (-1 * har hw k / T))) with (partition nb T (har hw)).
  pose proof (partition_pos nb T (har hw) NB). pose proof (exp_pos (- c / T)). field. lra.
Qed.
End Levels.
Print Assumptions levels_free.
Print Assumptions levels_internal.
(** So a harmonic mode, of which nothing is left on the grid, gets no correction. *)
Theorem harmonic_correction nb ng hw T psi e U : 0 < T -> (0 < nb)%nat -> eigh_spec nb (hmat ng hw psi (fun _ => 0)) (e, U) ->
  free nb T e = free nb T (har hw) /\ internal nb T e = internal nb T (har hw).
Proof.
  intros P N E. assert (C : (forall g, (g < ng)%nat -> (fun _ : nat => 0) g = 0) /\ (0 = 0 \/ forall i j, (i < nb)%nat -> (j < nb)%nat -> Rsum ng (fun g => psi i g * psi j g) = delta i j)) by auto.
  rewrite (levels_free nb ng hw T 0 psi (fun _ => 0) e U P N E C), (levels_internal nb ng hw T 0 psi (fun _ => 0) e U P N E C). split; ring.
Qed.
Print Assumptions harmonic_correction.
Example levels_case : eigh_spec 2 (hmat 3 1 (fun _ _ => 1) (fun _ => 0)) (eigh_diag (hmat 3 1 (fun _ _ => 1) (fun _ => 0))) /\
  hmat 3 1 (fun _ _ => 1) (fun _ => 2) 0%nat 1%nat = 6.
Proof.
  split; [|rewrite hmat_is; unfold delta; cbn; lra]. apply eigh_diag_spec. intros i j _ _ N. rewrite hmat_is, delta_diff by easy.
  rewrite (Rsum_0 3) by (intros; ring). ring.
Qed.

(** ** Energies of a set of levels (C228) *)
Section Energies.
Variables (nb : nat) (T : R) (e : vec).
Hypothesis TP : 0 < T.
Hypothesis NB : (0 < nb)%nat.
Lemma part_pos : 0 < partition nb T e.
Proof. now apply partition_pos. Qed.
(** The free energy is below every level, and not more than [T ln nb] below the lowest. *)
Theorem free_below k : (k < nb)%nat -> free nb T e <= e k.
Proof.
  intros K. unfold free.
  assert (L : exp (-1 * e k / T) <= partition nb T e).
  { unfold partition. rewrite <- (Rsum_delta_r nb k (fun i => exp (-1 * e i / T)) K).
    apply Rsum_le. intros i _. pose proof (exp_pos (-1 * e i / T)). unfold delta. destruct (Nat.eqb i k); lra. }
  assert (E : -1 * e k / T <= ln (partition nb T e)).
  { rewrite <- (ln_exp (-1 * e k / T)). destruct L as [L|L]; [left; apply ln_increasing; [apply exp_pos|exact L]|right; now rewrite L]. }
  apply (Rmult_le_compat_r T) in E; [|lra]. unfold Rdiv in E. rewrite Rmult_assoc, Rinv_l in E by lra. lra.
Qed.
Theorem free_above m : (forall k, (k < nb)%nat -> m <= e k) -> m - T * ln (INR nb) <= free nb T e.
Proof.
  intros M. unfold free.
  assert (L : partition nb T e <= INR nb * exp (- m / T)).
  { unfold partition. rewrite <- Rsum_const. apply Rsum_le. intros i I. specialize (M i I).
    assert (D : -1 * e i / T <= - m / T) by (unfold Rdiv; apply Rmult_le_compat_r; [left; now apply Rinv_0_lt_compat|lra]).
    destruct D as [D|D]; [left; now apply exp_increasing|right; now rewrite D]. }
  assert (E : ln (partition nb T e) <= ln (INR nb) - m / T).
  { replace (ln (INR nb) - m / T) with (ln (INR nb * exp (- m / T))).
    - destruct L as [L|L]; [left; apply ln_increasing; [apply part_pos|exact L]|right; now rewrite L].
    - rewrite ln_mult; [|now apply lt_0_INR|apply exp_pos]. rewrite ln_exp. field. lra. }
  apply (Rmult_le_compat_r T) in E; [|lra]. replace ((ln (INR nb) - m / T) * T) with (ln (INR nb) * T - m) in E by (field; lra). lra.
Qed.
(** The internal energy lies between the lowest and highest levels and not below the free energy. *)
Theorem internal_between m M : (forall k, (k < nb)%nat -> m <= e k <= M) -> m <= internal nb T e <= M.
Proof.
  intros B. unfold internal. pose proof part_pos as P.
  assert (LO : m * partition nb T e <= Rsum nb (fun k => e k * exp (-1 * e k / T))).
  { unfold partition. rewrite <- Rsum_scal. apply Rsum_le. intros i I. specialize (B i I). pose proof (exp_pos (-1 * e i / T)). nra. }
  assert (HI : Rsum nb (fun k => e k * exp (-1 * e k / T)) <= M * partition nb T e).
  { unfold partition. rewrite <- Rsum_scal. apply Rsum_le. intros i I. specialize (B i I). pose proof (exp_pos (-1 * e i / T)). nra. }
  split; apply (Rmult_le_reg_r (partition nb T e)); try easy; unfold Rdiv; rewrite Rmult_assoc, Rinv_l by lra; lra.
Qed.
Theorem free_internal : free nb T e <= internal nb T e.
Proof.
  pose proof part_pos as P. set (f := free nb T e). set (Z := partition nb T e) in *. unfold internal. fold Z.
  apply (Rmult_le_reg_r Z); [easy|]. unfold Rdiv. rewrite Rmult_assoc, Rinv_l, Rmult_1_r by lra.
  unfold Z at 1. unfold partition. rewrite <- Rsum_scal. apply Rsum_le. intros i I. apply Rmult_le_compat_r; [left; apply exp_pos|].
  apply free_below. exact I.
Qed.
End Energies.
Print Assumptions free_below.
Print Assumptions free_above.
Print Assumptions internal_between.
Print Assumptions free_internal.
(** The harmonic free energy of a basis of [nb] states, in closed form: that of the printed formula and a
    positive remainder. *)
Lemma geometric n x : (1 - x) * Rsum n (fun k => x ^ k) = 1 - x ^ n.
Proof. induction n as [|n IH]; cbn [Rsum pow]; [ring|]. rewrite Rmult_plus_distr_l, IH. ring. Qed.
Lemma har_partition nb w T : 0 < T -> partition nb T (har w) = exp (- w / (2 * T)) * Rsum nb (fun k => exp (- w / T) ^ k).
Proof.
  intros P. unfold partition, har. rewrite <- Rsum_scal. apply Rsum_ext. intros k _.
  replace (exp (- w / T) ^ k) with (exp (INR k * (- w / T))).
  - rewrite <- exp_plus. f_equal. field. lra.
  - induction k as [|k IH]; [cbn; rewrite Rmult_0_l; apply exp_0|]. rewrite S_INR. cbn [pow]. rewrite <- IH, <- exp_plus. f_equal. ring.
Qed.
Theorem har_free nb w T : 0 < T -> 0 < w -> (0 < nb)%nat ->
  free nb T (har w) = har_printed w T - T * ln (1 - exp (- w / T) ^ nb) /\ har_printed w T < free nb T (har w).
Proof.
  intros P W N. set (x := exp (- w / T)).
  assert (X : 0 < x < 1).
  { split; [apply exp_pos|]. unfold x. rewrite <- exp_0. apply exp_increasing. unfold Rdiv. pose proof (Rinv_0_lt_compat T P). nra. }
  assert (XN : 0 < x ^ nb < 1).
  { split; [apply pow_lt; lra|]. destruct nb as [|m]; [lia|]. cbn [pow]. assert (x ^ m <= 1) by (rewrite <- (pow1 m); apply pow_incr; lra).
    pose proof (pow_lt x m (proj1 X)). nra. }
  assert (E : free nb T (har w) = har_printed w T - T * ln (1 - x ^ nb)).
  { unfold free. rewrite har_partition by easy. fold x.
    replace (Rsum nb (fun k => x ^ k)) with ((1 - x ^ nb) * / (1 - x)) by (rewrite <- geometric; field; lra).
    assert (0 < / (1 - x)) by (apply Rinv_0_lt_compat; lra).
    rewrite ln_mult by (apply exp_pos || (apply Rmult_lt_0_compat; lra)). rewrite ln_exp, ln_mult, ln_Rinv by lra.
    unfold har_printed. fold x. field. lra. }
  split; [exact E|]. rewrite E. assert (ln (1 - x ^ nb) < 0) by (rewrite <- ln_1; apply ln_increasing; lra). nra.
Qed.
Print Assumptions har_free.
Example har_case : har_printed 2 1 < free 3 1 (har 2).
Proof. apply har_free; lra || lia. Qed.
