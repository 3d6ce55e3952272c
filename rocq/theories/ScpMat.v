(** * Theorems of record: self-consistent phonons, matrices and displacements *)
From Coq Require Import List Arith Lia Bool Reals Lra.
From Verif Require Import RSum Ortho MinModel PhonModel ScpModel ScpAvg.
Import ListNotations.
Open Scope R_scope.

(** What [eigh] promises. *)
Definition eigh_spec (n : nat) (A : MinModel.mat) (e : vec * MinModel.mat) : Prop :=
  orthonormal_cols n (snd e) /\ forall i j, (i < n)%nat -> (j < n)%nat -> A i j = spectral n (fst e) (snd e) i j.

Lemma spectral_ext n c d U i j : (forall k, (k < n)%nat -> c k = d k) -> spectral n c U i j = spectral n d U i j.
Proof. intros H. apply Rsum_ext. intros k K. now rewrite H. Qed.
Lemma spectral_mul n c d U i j : orthonormal_cols n U ->
  mm n (spectral n c U) (spectral n d U) i j = spectral n (fun k => c k * d k) U i j.
Proof.
  intros O. unfold mm, spectral.
  rewrite (Rsum_ext n _ (fun m => Rsum n (fun k => Rsum n (fun l => c k * d l * U i k * U j l * (U m k * U m l))))).
  2:{ intros m _. rewrite <- Rsum_scal_r. apply Rsum_ext. intros k _. rewrite <- Rsum_scal. apply Rsum_ext. intros l _. ring. }
  rewrite Rsum_swap. apply Rsum_ext. intros k K. rewrite Rsum_swap.
  rewrite (Rsum_ext n _ (fun l => c k * d l * U i k * U j l * delta k l)) by (intros l L; rewrite Rsum_scal, O by easy; ring).
  rewrite Rsum_delta_l by easy. ring.
Qed.
Lemma spectral_col n c U k i : orthonormal_cols n U -> (k < n)%nat -> mv n (spectral n c U) (column U k) i = c k * U i k.
Proof.
  intros O K. unfold mv, spectral, column.
  rewrite (Rsum_ext n _ (fun j => Rsum n (fun l => c l * U i l * (U j l * U j k)))) by (intros j _; rewrite <- Rsum_scal_r; apply Rsum_ext; intros; ring).
  rewrite Rsum_swap. rewrite (Rsum_ext n _ (fun l => c l * U i l * delta l k)) by (intros l L; rewrite Rsum_scal, O by easy; ring).
  now rewrite Rsum_delta_r.
Qed.
Lemma spectral_one n U i j : orthonormal_cols n U -> (i < n)%nat -> (j < n)%nat -> spectral n (fun _ => 1) U i j = delta i j.
Proof.
  intros O I J. pose proof (cols_rows n U O i j I J) as E. rewrite <- E. unfold spectral. apply Rsum_ext. intros; ring.
Qed.
Lemma spectral_quad n c U v : quad n (spectral n c U) v = Rsum n (fun k => c k * (Rsum n (fun i => U i k * v i)) ^ 2).
Proof.
  unfold quad, dot, mv, spectral.
  rewrite (Rsum_ext n _ (fun i => Rsum n (fun k => c k * (U i k * v i) * Rsum n (fun j => U j k * v j)))).
  2:{ intros i _. rewrite <- Rsum_scal_r.
      rewrite (Rsum_ext n _ (fun j => Rsum n (fun k => c k * (U i k * v i) * (U j k * v j)))).
      2:{ intros j _. rewrite <- !Rsum_scal_r. apply Rsum_ext. intros; ring. }
      rewrite Rsum_swap. apply Rsum_ext. intros k _. now rewrite Rsum_scal. }
  rewrite Rsum_swap. apply Rsum_ext. intros k _. rewrite Rsum_scal_r, Rsum_scal. ring.
Qed.

(** ** The frequencies (C219) *)
Section H.
Variables (n : nat) (eigh : MinModel.mat -> vec * MinModel.mat) (atol : R) (w iw2 iw : vec) (A : MinModel.mat).
Hypothesis E0 : eigh_spec n A (eigh A).
Let h := apply_hpf n eigh atol w iw2 iw A.
(** The matrix keeps the eigenvectors and gets the absolute values of the eigenvalues. *)
Theorem hpf_modes k i : (k < n)%nat ->
  mv n (h_dyn h) (column (snd (eigh A)) k) i = Rabs (fst (eigh A) k) * snd (eigh A) i k.
Proof. intros K. apply spectral_col; [apply E0|easy]. Qed.
Theorem hpf_positive v : 0 <= quad n (h_dyn h) v.
Proof.
  unfold h, apply_hpf. cbn [h_dyn]. rewrite spectral_quad. apply Rsum_nonneg. intros k _. apply Rmult_le_pos; [apply Rabs_pos|apply pow2_ge_0].
Qed.
Theorem hpf_square i j : (i < n)%nat -> (j < n)%nat -> mm n (h_dyn h) (h_dyn h) i j = mm n A A i j.
Proof.
  intros I J. unfold h, apply_hpf. cbn [h_dyn]. destruct E0 as [O S]. rewrite spectral_mul by easy.
  transitivity (mm n (spectral n (fst (eigh A)) (snd (eigh A))) (spectral n (fst (eigh A)) (snd (eigh A))) i j).
  - rewrite spectral_mul by easy. apply spectral_ext. intros k _. rewrite <- Rabs_mult. apply Rabs_pos_eq. apply Rle_0_sqr.
  - unfold mm. apply Rsum_ext. intros k K. now rewrite <- !S.
Qed.
(** A matrix without negative eigenvalues is not changed. *)
Theorem hpf_stable i j : (forall k, (k < n)%nat -> 0 <= fst (eigh A) k) -> (i < n)%nat -> (j < n)%nat -> h_dyn h i j = A i j.
Proof.
  intros P I J. unfold h, apply_hpf. cbn [h_dyn]. rewrite (proj2 E0) by easy. apply spectral_ext. intros k K. apply Rabs_pos_eq. auto.
Qed.
(** Modes not taken as zero have positive frequencies, at least the square root of the threshold, and
    the inverse arrays are inverses. *)
Theorem hpf_frequencies k : 0 < atol -> h_z h k = false ->
  atol <= h_w2 h k /\ 0 < h_w h k /\ h_w h k ^ 2 = h_w2 h k /\ h_w h k * h_iw h k = 1 /\ h_w2 h k * h_iw2 h k = 1.
Proof.
  intros P. unfold h, apply_hpf. cbn [h_z h_w2 h_w h_iw h_iw2]. set (x := fst (eigh _) k). cbv zeta.
  destruct (Rlt_dec x atol) as [L|L]; [discriminate|]. intros _.
  assert (X : 0 < x) by lra. pose proof (sqrt_lt_R0 x X) as SX. assert (Q : sqrt x ^ 2 = x) by (rewrite <- Rsqr_pow2; apply Rsqr_sqrt; lra).
  repeat split; [lra|easy|easy| |field; lra].
  rewrite <- sqrt_mult_alt by lra. replace (x * (1 / x)) with 1 by (field; lra). apply sqrt_1.
Qed.
(** Modes below the threshold have frequency zero in w2. *)
Theorem hpf_low k : h_z h k = true <-> fst (eigh (h_dyn h)) k < atol.
Proof. unfold h, apply_hpf. cbn [h_z h_dyn]. destruct (Rlt_dec _ _); split; try easy. Qed.
End H.
Print Assumptions hpf_modes.
Print Assumptions hpf_positive.
Print Assumptions hpf_square.
Print Assumptions hpf_stable.
Print Assumptions hpf_frequencies.
Print Assumptions hpf_low.
(** eigh on diagonal matrices. *)
Definition eigh_diag (A : MinModel.mat) : vec * MinModel.mat := (fun k => A k k, eye).
Lemma eye_cols n : orthonormal_cols n eye.
Proof. intros i k I K. unfold eye. rewrite (Rsum_ext _ _ (fun j => delta j k * delta j i)) by (intros; ring). now rewrite Rsum_delta_r by easy. Qed.
Lemma spectral_eye n c i j : (i < n)%nat -> spectral n c eye i j = c i * delta i j.
Proof.
  intros I. unfold spectral, eye. rewrite (Rsum_ext _ _ (fun k => c k * delta j k * delta i k)) by (intros; ring).
  rewrite Rsum_delta_l by easy. now rewrite delta_sym.
Qed.
Lemma eigh_diag_spec n A : (forall i j, (i < n)%nat -> (j < n)%nat -> i <> j -> A i j = 0) -> eigh_spec n A (eigh_diag A).
Proof.
  intros H. split; [apply eye_cols|]. intros i j I J. cbn [eigh_diag fst snd]. rewrite spectral_eye by easy.
  destruct (Nat.eq_dec i j) as [<-|N]; [rewrite delta_same; ring|]. rewrite delta_diff by easy. rewrite H by easy. ring.
Qed.
(** The documentation says that imaginary frequencies are replaced by zero. They become real. *)
Theorem hpf_imaginary_refuted : exists n A eigh k, eigh_spec n A (eigh A) /\ (k < n)%nat /\ fst (eigh A) k = -4 /\
  let h := apply_hpf n eigh (/ 1000) (fun _ => 0) (fun _ => 0) (fun _ => 0) A in h_z h k = false /\ h_w h k = 2 /\ h_w2 h k = 4.
Proof.
  set (A := fun i j => if Nat.eqb i j then if Nat.eqb i 0 then -4 else 1 else 0).
  exists 2%nat, A, eigh_diag, 0%nat. split; [apply eigh_diag_spec; intros i j _ _ N; unfold A; now rewrite (proj2 (Nat.eqb_neq i j) N)|].
  split; [lia|]. split; [reflexivity|]. cbv zeta. unfold apply_hpf. cbn [h_z h_w h_w2 fst snd eigh_diag].
  rewrite !spectral_eye by lia. rewrite delta_same. unfold A. cbn [Nat.eqb].
  replace (Rabs (-4) * 1) with 4 by (rewrite Rabs_left by lra; ring).
  destruct (Rlt_dec 4 (/ 1000)) as [L|_]; [lra|]. repeat split. replace 4 with (2 * 2) by ring. apply sqrt_square. lra.
Qed.
Print Assumptions hpf_imaginary_refuted.

(** ** Mean square displacements (C220) *)
Lemma tanh_exp x : tanh x = (exp (2 * x) - 1) / (exp (2 * x) + 1).
Proof.
  unfold tanh, sinh, cosh. replace (2 * x) with (x + x) by ring. rewrite exp_plus, exp_Ropp. pose proof (exp_pos x). field.
  repeat split; nra.
Qed.
Lemma tanh_lt1 x : tanh x < 1.
Proof.
  rewrite tanh_exp. pose proof (exp_pos (2 * x)). apply (Rmult_lt_reg_r (exp (2 * x) + 1)); [lra|].
  unfold Rdiv. rewrite Rmult_assoc, Rinv_l by lra. lra.
Qed.
Lemma tanh_lower x : 0 < x -> x / (1 + x) < tanh x.
Proof.
  intros X. rewrite tanh_exp. pose proof (exp_ineq1 (2 * x) ltac:(lra)).
  apply (Rmult_lt_reg_r ((1 + x) * (exp (2 * x) + 1))); [nra|].
  replace (x / (1 + x) * ((1 + x) * (exp (2 * x) + 1))) with (x * (exp (2 * x) + 1)) by (field; lra).
  replace ((exp (2 * x) - 1) / (exp (2 * x) + 1) * ((1 + x) * (exp (2 * x) + 1))) with ((exp (2 * x) - 1) * (1 + x)) by (field; lra).
  nra.
Qed.
Lemma tanh_upper x : 0 < x -> tanh x <= x.
Proof.
  intros X.
  assert (D : forall t, derivable_pt_lim (fun t => t * (exp (2 * t) + 1) - exp (2 * t)) t (1 - exp (2 * t) + 2 * t * exp (2 * t))).
  { intros t. eapply derivable_eq; [|apply derivable_pt_lim_minus;
      [apply (derivable_pt_lim_mult (fun t => t) (fun t => exp (2 * t) + 1)); [apply derivable_pt_lim_id|
         apply derivable_pt_lim_plus; [apply (derivable_pt_lim_comp (fun t => 2 * t) exp); [apply (derivable_pt_lim_scal (fun t => t)); apply derivable_pt_lim_id|apply derivable_pt_lim_exp]|apply derivable_pt_lim_const]]
      |apply (derivable_pt_lim_comp (fun t => 2 * t) exp); [apply (derivable_pt_lim_scal (fun t => t)); apply derivable_pt_lim_id|apply derivable_pt_lim_exp]]].
    cbv beta. ring. }
  set (g := fun t => t * (exp (2 * t) + 1) - exp (2 * t)) in D.
  destruct (MVT_cor2 g (fun t => 1 - exp (2 * t) + 2 * t * exp (2 * t)) 0 x X (fun t _ => D t)) as (c & E & C).
  assert (G0 : g 0 = -1) by (unfold g; rewrite Rmult_0_r, exp_0; ring).
  assert (P : 0 <= 1 - exp (2 * c) + 2 * c * exp (2 * c)).
  { pose proof (exp_pos (2 * c)). pose proof (exp_ineq1_le (- (2 * c))) as Q. rewrite exp_Ropp in Q.
    apply (Rmult_le_compat_r (exp (2 * c))) in Q; [|lra]. rewrite Rinv_l in Q by lra. nra. }
  assert (G : -1 <= g x) by nra. unfold g in G. rewrite tanh_exp. pose proof (exp_pos (2 * x)).
  apply (Rmult_le_reg_r (exp (2 * x) + 1)); [lra|]. unfold Rdiv. rewrite Rmult_assoc, Rinv_l by lra. lra.
Qed.
Section T.
Variables (h : hpf) (k : nat) (T : R).
Hypothesis TP : 0 < T.
Hypothesis NZ : h_z h k = false.
Hypothesis W : 0 < h_w h k.
Hypothesis IW : h_w h k * h_iw h k = 1.
Lemma iw_is : h_iw h k = / h_w h k.
Proof. apply (Rmult_eq_reg_l (h_w h k)); [|lra]. rewrite Rinv_r by lra. exact IW. Qed.
(** The classical value is temperature over squared frequency. *)
Theorem td_classical : td Cl T h k = T / h_w h k ^ 2.
Proof. unfold td. rewrite NZ, iw_is. field. lra. Qed.
(** The quantum one is above both the classical value and that of zero temperature, and below their sum. *)
Theorem td_quantum : T / h_w h k ^ 2 <= td Qn T h k /\ 1 / (2 * h_w h k) < td Qn T h k /\
  td Qn T h k < T / h_w h k ^ 2 + 1 / (2 * h_w h k).
Proof.
  unfold td. rewrite NZ, iw_is. set (x := 1 / 2 * h_w h k / T). set (w := h_w h k) in *.
  assert (X : 0 < x) by (unfold x; apply Rdiv_lt_0_compat; lra).
  pose proof (tanh_lt1 x). pose proof (tanh_lower x X) as L. pose proof (tanh_upper x X) as U.
  assert (0 < x / (1 + x)) by (apply Rdiv_lt_0_compat; lra). assert (P : 0 < tanh x) by lra.
  assert (E : T / w ^ 2 = 1 / 2 * / w / x) by (unfold x; fold w; field; lra).
  assert (I : 0 < 1 / 2 * / w) by (apply Rmult_lt_0_compat; [lra|now apply Rinv_0_lt_compat]).
  replace (1 / (2 * w)) with (1 / 2 * / w * 1) by (field; lra). rewrite E. unfold Rdiv at 2 4 6 8. unfold Rdiv in E.
  assert (I1 : / x <= / tanh x) by (apply Rinv_le_contravar; lra).
  assert (I2 : 1 < / tanh x) by (rewrite <- Rinv_1; apply Rinv_lt_contravar; lra).
  assert (I3 : / tanh x < / x + 1).
  { replace (/ x + 1) with (/ (x / (1 + x))) by (field; lra). apply Rinv_lt_contravar; [apply Rmult_lt_0_compat; lra|easy]. }
  unfold Rdiv. repeat split; nra.
Qed.
Theorem td_pos st : 0 < td st T h k.
Proof.
  assert (0 < T / h_w h k ^ 2) by (apply Rdiv_lt_0_compat; [easy|apply pow_lt; easy]). destruct st; [pose proof td_quantum; lra|rewrite td_classical; easy].
Qed.
End T.
Print Assumptions td_classical.
Print Assumptions td_quantum.
Print Assumptions td_pos.
Example td_case : let h := Hpf eye (fun _ => 4) eye (fun _ => false) (fun _ => 2) (fun _ => / 4) (fun _ => / 2) in
  td Cl 3 h 0 = 3 / 4 /\ 3 / 4 <= td Qn 3 h 0 < 1.
Proof.
  cbv zeta. set (h := Hpf _ _ _ _ _ _ _). split; [unfold td; cbn; field|].
  pose proof (td_quantum h 0%nat 3 ltac:(lra) eq_refl ltac:(cbn; lra) ltac:(cbn; field)) as Q. cbn [h_w h] in Q. lra.
Qed.

(** ** The matrices belong together (C221) *)
Section M.
Variables (n : nat) (eigh : MinModel.mat -> vec * MinModel.mat) (atol : R) (w iw2 iw : vec) (A : MinModel.mat).
Variables (sq isq : vec) (st : stat) (T : R).
Let h := apply_hpf n eigh atol w iw2 iw A.
Hypothesis E1 : eigh_spec n (h_dyn h) (eigh (h_dyn h)).
Hypothesis AP : 0 < atol.
Hypothesis TP : 0 < T.
Hypothesis SQ : forall i, (i < n)%nat -> isq i * sq i = 1.
Lemma U_cols : orthonormal_cols n (h_U h).
Proof. apply E1. Qed.
Lemma over_spectral c i j : over_modes n h c i j = spectral n (fun k => if h_z h k then 0 else c k) (h_U h) i j.
Proof. unfold over_modes, spectral. apply Rsum_ext. intros k _. destruct (h_z h k); ring. Qed.
Lemma over_mul c d i j : mm n (over_modes n h c) (over_modes n h d) i j = over_modes n h (fun k => c k * d k) i j.
Proof.
  transitivity (mm n (spectral n (fun k => if h_z h k then 0 else c k) (h_U h)) (spectral n (fun k => if h_z h k then 0 else d k) (h_U h)) i j).
  - unfold mm. apply Rsum_ext. intros k _. now rewrite !over_spectral.
  - rewrite spectral_mul by apply U_cols. rewrite over_spectral. apply spectral_ext. intros k _. destruct (h_z h k); ring.
Qed.
Lemma over_ext c d i j : (forall k, (k < n)%nat -> h_z h k = false -> c k = d k) -> over_modes n h c i j = over_modes n h d i j.
Proof. intros H. unfold over_modes. apply Rsum_ext. intros k K. destruct (h_z h k) eqn:Z; [easy|]. now rewrite H. Qed.
(** The projector on the modes that are not zero. *)
Definition Pnz : MinModel.mat := over_modes n h (fun _ => 1).
Lemma nz_td k : h_z h k = false -> 0 < td st T h k.
Proof. intros Z. destruct (hpf_frequencies n eigh atol w iw2 iw A k AP Z) as (_ & P & _ & I & _). now apply td_pos. Qed.
Lemma scaled_mul s t B C i j : (forall k, (k < n)%nat -> s k * t k = 1) ->
  mm n (scaled s B) (scaled t C) i j = s i * (mm n B C i j * t j).
Proof.
  intros H. unfold mm, scaled. rewrite <- Rsum_scal_r, <- Rsum_scal. apply Rsum_ext. intros k K. specialize (H k K).
  transitivity (s i * (B i k * (s k * t k) * C k j * t j)); [ring|]. rewrite H. ring.
Qed.
(** The inverse correlation matrix inverts the correlation matrix, zero modes aside. *)
Theorem D_iD i j : mm n (get_D n isq st T h) (get_iD n sq st T h) i j = isq i * (Pnz i j * sq j).
Proof.
  unfold get_D, get_iD. rewrite scaled_mul by easy. rewrite over_mul. do 2 f_equal. apply over_ext. intros k _ Z.
  unfold itd. rewrite Z. pose proof (nz_td k Z). field. lra.
Qed.
(** The inverse force constants invert the force constants, zero modes aside. *)
Theorem K_iK i j : (i < n)%nat -> mm n (get_K sq h) (get_iK n isq h) i j = sq i * (Pnz i j * isq j).
Proof.
  intros I. unfold get_K, get_iK. rewrite scaled_mul by (intros; rewrite Rmult_comm; auto). do 2 f_equal.
  transitivity (mm n (spectral n (fst (eigh (h_dyn h))) (h_U h)) (spectral n (fun k => if h_z h k then 0 else h_iw2 h k) (h_U h)) i j).
  - unfold mm. apply Rsum_ext. intros k K. rewrite over_spectral. f_equal. apply E1; easy.
  - rewrite spectral_mul by apply U_cols. unfold Pnz. rewrite over_spectral. apply spectral_ext. intros k _.
    destruct (h_z h k) eqn:Z; [ring|]. destruct (hpf_frequencies n eigh atol w iw2 iw A k AP Z) as (_ & _ & _ & _ & E).
    fold h in E. rewrite <- E. f_equal. unfold h, apply_hpf in Z |- *. cbn [h_z h_w2 h_dyn] in *. now rewrite Z.
Qed.
(** Without zero modes they are inverses. *)
Theorem inverses i j : (forall k, (k < n)%nat -> h_z h k = false) -> (i < n)%nat -> (j < n)%nat ->
  mm n (get_D n isq st T h) (get_iD n sq st T h) i j = delta i j /\ mm n (get_K sq h) (get_iK n isq h) i j = delta i j.
Proof.
  intros Z I J. rewrite D_iD, K_iK by easy.
  assert (P : Pnz i j = delta i j).
  { unfold Pnz. rewrite over_spectral. rewrite (spectral_ext n _ (fun _ => 1)) by (intros k K; now rewrite Z). now apply spectral_one; [apply U_cols| |]. }
  rewrite P. destruct (Nat.eq_dec i j) as [<-|N]; [rewrite delta_same; pose proof (SQ i I); split; nra|].
  rewrite delta_diff by easy. split; ring.
Qed.
(** Normal random numbers with independent unit variances become displacements with the
    correlations D. *)
Definition unit_vec (k : nat) : vec := fun l => delta l k.
Lemma deviate_unit k i : (k < n)%nat -> deviate n isq st T h (unit_vec k) i = isq i * get_sqtD n st T h i k.
Proof. intros K. unfold deviate, mv, unit_vec. now rewrite Rsum_delta_r. Qed.
Lemma over_sym c i j : over_modes n h c i j = over_modes n h c j i.
Proof. unfold over_modes. apply Rsum_ext. intros k _. destruct (h_z h k); ring. Qed.
Theorem deviates_D i j : Rsum n (fun k => deviate n isq st T h (unit_vec k) i * deviate n isq st T h (unit_vec k) j) = get_D n isq st T h i j.
Proof.
  rewrite (Rsum_ext n _ (fun k => isq i * isq j * (get_sqtD n st T h i k * get_sqtD n st T h k j))).
  2:{ intros k K. rewrite !deviate_unit by easy. unfold get_sqtD. rewrite (over_sym _ k j). ring. }
  rewrite Rsum_scal. change (Rsum n (fun k => get_sqtD n st T h i k * get_sqtD n st T h k j)) with (mm n (get_sqtD n st T h) (get_sqtD n st T h) i j).
  unfold get_sqtD. rewrite over_mul. unfold get_D, scaled.
  rewrite (over_ext _ (td st T h)); [ring|]. intros k _ Z. unfold sqtd. rewrite Z. apply sqrt_sqrt. left. now apply nz_td.
Qed.
(** ** Displacements (C222) *)
(** The coordinate of mode [k] of a displacement. *)
Definition mode_of (v : vec) (k : nat) : R := Rsum n (fun i => h_U h i k * (sq i * v i)).
Lemma V_mode k (d : vec) : (k < n)%nat -> mode_of (fun i => Rsum n (fun l => get_V isq h i l * d l)) k = d k.
Proof.
  intros K. unfold mode_of, get_V.
  rewrite (Rsum_ext n _ (fun i => Rsum n (fun l => d l * (h_U h i k * h_U h i l)))).
  2:{ intros i I. rewrite <- !Rsum_scal. apply Rsum_ext. intros l _. specialize (SQ i I).
      transitivity (d l * (h_U h i k * h_U h i l) * (isq i * sq i)); [ring|]. rewrite SQ. ring. }
  rewrite Rsum_swap. rewrite (Rsum_ext n _ (fun l => d l * delta k l)) by (intros l L; rewrite Rsum_scal, U_cols by easy; ring).
  now rewrite Rsum_delta_l.
Qed.
(** nmik: a mode moves by its force over the squared frequency when the force is not below its error, and
    not at all when it is, or when the mode is zero. *)
Theorem nm_modes c q f fe k : (k < n)%nat ->
  let F := fmode n (get_V isq h) (h_z h) f in let err := fmode_err n (get_V isq h) fe in
  mode_of (vsub (move_nm n (get_V isq h) q (nm_disp c (h_iw2 h) F err (h_z h))) q) k =
    if h_z h k then 0 else if Rlt_dec (Rabs (F k)) (err k) then 0 else c * (F k / h_w2 h k).
Proof.
  intros K F err. transitivity (mode_of (fun i => Rsum n (fun l => get_V isq h i l * nm_disp c (h_iw2 h) F err (h_z h) l)) k).
  - unfold mode_of. apply Rsum_ext. intros i _. unfold vsub, move_nm. do 2 f_equal. ring.
  - rewrite V_mode by easy. unfold nm_disp. destruct (h_z h k) eqn:Z; [easy|]. destruct (Rlt_dec _ _); [easy|].
    destruct (hpf_frequencies n eigh atol w iw2 iw A k AP Z) as (L & _ & _ & _ & E). fold h in E, L.
    replace (h_iw2 h k) with (/ h_w2 h k); [unfold Rdiv; ring|]. apply (Rmult_eq_reg_l (h_w2 h k)); [|lra]. rewrite E. apply Rinv_r. lra.
Qed.
(** When all forces are significant, nmik is ik. *)
Theorem nm_is_ik q f err i : (forall k, (k < n)%nat -> h_z h k = false -> err k <= Rabs (fmode n (get_V isq h) (h_z h) f k)) ->
  move_nm n (get_V isq h) q (nm_disp 1 (h_iw2 h) (fmode n (get_V isq h) (h_z h) f) err (h_z h)) i = move_ik n (get_iK n isq h) q f i.
Proof.
  intros H. unfold move_nm, move_ik, vadd, mv. f_equal. unfold get_iK, scaled, over_modes.
  rewrite (Rsum_ext n (fun k => get_V isq h i k * _ k) (fun k => Rsum n (fun j => isq i * ((if h_z h k then 0 else h_iw2 h k * (h_U h i k * h_U h j k)) * isq j) * f j))).
  - rewrite Rsum_swap. apply Rsum_ext. intros j _. rewrite Rsum_scal_r. f_equal. rewrite Rsum_scal. f_equal. now rewrite Rsum_scal_r.
  - intros k K. unfold nm_disp. destruct (h_z h k) eqn:Z.
    + rewrite Rmult_0_r. symmetry. apply Rsum_0. intros; ring.
    + specialize (H k K Z). destruct (Rlt_dec _ _) as [L|_]; [lra|]. unfold fmode. rewrite Z. unfold get_V.
      rewrite Rmult_1_r. rewrite <- Rmult_assoc, <- Rsum_scal. apply Rsum_ext. intros j _. ring.
Qed.
(** ik on the harmonic potential of the trial matrix: one step reaches the minimum, when no mode is
    zero. *)
Theorem ik_newton q q0 i : (forall k, (k < n)%nat -> h_z h k = false) -> (i < n)%nat ->
  move_ik n (get_iK n isq h) q (harmonic n (get_K sq h) q0 q) i = q0 i.
Proof.
  intros Z I. unfold move_ik, vadd. unfold mv, harmonic.
  rewrite (Rsum_ext n _ (fun j => Rsum n (fun l => get_iK n isq h i j * get_K sq h j l * (q0 l - q l)))) by (intros j _; rewrite <- Rsum_scal; apply Rsum_ext; intros; ring).
  rewrite Rsum_swap.
  rewrite (Rsum_ext n _ (fun l => (q0 l - q l) * delta i l)).
  - rewrite Rsum_delta_l by easy. ring.
  - intros l L. rewrite Rsum_scal_r, Rmult_comm. f_equal. destruct (inverses l i Z L I) as [_ E]. rewrite delta_sym, <- E.
    unfold mm. apply Rsum_ext. intros j J. replace (get_iK n isq h j i) with (get_iK n isq h i j) by (unfold get_iK, scaled; rewrite (over_sym _ j i); ring).
    replace (get_K sq h j l) with (get_K sq h l j); [ring|]. unfold get_K, scaled.
    replace (h_dyn h l j) with (h_dyn h j l); [ring|]. unfold h, apply_hpf. cbn [h_dyn]. unfold spectral. apply Rsum_ext. intros; ring.
Qed.
(** sd: a mode moves by its force times its mean square displacement and the step length. *)
Theorem sd_modes tau q f k : (k < n)%nat ->
  mode_of (vsub (move_sd n (get_D n isq st T h) tau q f) q) k =
    if h_z h k then 0 else tau * (td st T h k * fmode n (get_V isq h) (h_z h) f k).
Proof.
  intros K. set (c := fun l => if h_z h l then 0 else td st T h l).
  transitivity (mode_of (fun i => Rsum n (fun l => get_V isq h i l * (c l * Rsum n (fun j => get_V isq h j l * f j) * tau))) k).
  - unfold mode_of. apply Rsum_ext. intros i _. do 2 f_equal. unfold vsub, move_sd, vadd, mv, get_D, scaled, over_modes.
    transitivity (Rsum n (fun j => isq i * (Rsum n (fun l => if h_z h l then 0 else td st T h l * (h_U h i l * h_U h j l)) * isq j) * f j) * tau); [ring|].
    rewrite <- Rsum_scal_r.
    rewrite (Rsum_ext n _ (fun j => Rsum n (fun l => isq i * h_U h i l * c l * (isq j * h_U h j l * f j) * tau))).
    + rewrite Rsum_swap. apply Rsum_ext. intros l _. unfold get_V. rewrite Rsum_scal_r, Rsum_scal. ring.
    + intros j _. rewrite <- Rsum_scal_r, <- Rsum_scal, <- !Rsum_scal_r. apply Rsum_ext. intros l _. unfold c. destruct (h_z h l); ring.
  - rewrite V_mode by easy. unfold c, fmode. destruct (h_z h k); ring.
Qed.
End M.
Print Assumptions sd_modes.
Print Assumptions D_iD.
Print Assumptions K_iK.
Print Assumptions inverses.
Print Assumptions deviates_D.
Print Assumptions nm_modes.
Print Assumptions nm_is_ik.
Print Assumptions ik_newton.
(** A case: two coordinates of masses 4 and 1, matrix diag (9, 0): the second mode is zero. *)
Definition case_A : MinModel.mat := fun i j => if Nat.eqb i j then if Nat.eqb i 0 then 9 else 0 else 0.
Definition case_h : hpf := apply_hpf 2 eigh_diag (/ 1000) (fun _ => 0) (fun _ => 0) (fun _ => 0) case_A.
Definition case_sq : vec := fun i => if Nat.eqb i 0 then 2 else 1.
Definition case_isq : vec := fun i => if Nat.eqb i 0 then / 2 else 1.
Lemma case_dyn i j : (i < 2)%nat -> h_dyn case_h i j = (if Nat.eqb i 0 then 9 else 0) * delta i j.
Proof.
  intros I. unfold case_h, apply_hpf. cbn [h_dyn eigh_diag fst snd]. rewrite spectral_eye by easy. f_equal. unfold case_A. rewrite Nat.eqb_refl.
  destruct (Nat.eqb i 0); apply Rabs_pos_eq; lra.
Qed.
Lemma case_spec : eigh_spec 2 (h_dyn case_h) (eigh_diag (h_dyn case_h)).
Proof. apply eigh_diag_spec. intros i j I _ N. rewrite case_dyn by easy. rewrite delta_diff by easy. ring. Qed.
Lemma case_z : h_z case_h 0 = false /\ h_z case_h 1 = true.
Proof.
  unfold case_h, apply_hpf. cbn [h_z eigh_diag fst snd]. rewrite !spectral_eye, !delta_same by lia. unfold case_A. cbn [Nat.eqb].
  split; destruct (Rlt_dec _ _) as [L|L]; try reflexivity; rewrite Rabs_pos_eq in L by lra; lra.
Qed.
Example matrices_case : (forall i, (i < 2)%nat -> case_isq i * case_sq i = 1) /\
  mm 2 (get_K case_sq case_h) (get_iK 2 case_isq case_h) 0%nat 0%nat = 1 /\ mm 2 (get_K case_sq case_h) (get_iK 2 case_isq case_h) 1%nat 1%nat = 0.
Proof.
  assert (S : forall i, (i < 2)%nat -> case_isq i * case_sq i = 1).
  { intros i I. unfold case_isq, case_sq. destruct (Nat.eqb i 0); lra. }
  destruct case_z as [Z0 Z1]. split; [exact S|].
  split; (rewrite (K_iK 2 eigh_diag (/ 1000) (fun _ => 0) (fun _ => 0) (fun _ => 0) case_A case_sq case_isq case_spec ltac:(lra) S) by lia;
    fold case_h; unfold Pnz, over_modes; fold case_h; cbn [Rsum]; rewrite Z0, Z1; unfold case_h, apply_hpf; cbn [h_U eigh_diag snd]; unfold eye, delta, case_sq, case_isq; cbn [Nat.eqb]; lra).
Qed.

(** ** The factor of the displacements in the inner loop (C222) *)
(** It grows by a tenth when the weight stays within a ten-thousandth, shrinks by the same ratio when the
    weight changes by more than a twentieth, and is kept otherwise; so it stays positive. *)
Theorem rescale_values c u v : 0 < c ->
  (c < rescale c u v <-> Rabs (u - v) < / 10000) /\ (rescale c u v < c <-> 5 / 100 < Rabs (u - v)) /\
  c * (10 / 11) <= rescale c u v <= c * (11 / 10) /\
  (rescale c u v <> c -> rescale c u v = c * (11 / 10) \/ rescale c u v = c * (10 / 11)).
Proof.
  intros C. unfold rescale. set (x := Rabs (u - v)). clearbody x.
  assert (E : c / (11 / 10) = c * (10 / 11)) by field. rewrite E.
  destruct (Rlt_dec x (/ 10000)) as [L|L]; [|destruct (Rlt_dec (5 / 100) x) as [M|M]];
    (split; [split; intros; lra|]; split; [split; intros; lra|]; split; [lra|]; intros N; lra || auto).
  all: try (left; lra).
Qed.
Print Assumptions rescale_values.
Example rescale_case : rescale 1 (3 / 10) (2 / 10) = 10 / 11 /\ rescale 1 (3 / 10) (3 / 10) = 11 / 10 /\ rescale 2 (21 / 100) (20 / 100) = 2.
Proof.
  unfold rescale. repeat split.
  - replace (3 / 10 - 2 / 10) with (1 / 10) by lra. rewrite Rabs_pos_eq by lra. destruct (Rlt_dec _ _); [lra|]. destruct (Rlt_dec _ _); lra.
  - replace (3 / 10 - 3 / 10) with 0 by lra. rewrite Rabs_R0. destruct (Rlt_dec _ _); lra.
  - replace (21 / 100 - 20 / 100) with (1 / 100) by lra. rewrite Rabs_pos_eq by lra. destruct (Rlt_dec _ _); [lra|]. destruct (Rlt_dec _ _); lra.
Qed.
