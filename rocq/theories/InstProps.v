(** * Properties of the instanton optimisers: weights, friction, reduced path, first geometry *)
From Coq Require Import List Arith Lia Reals Lra Bool String Sorted.
From Verif Require Import RSum Ortho NMModel NMProofs SpringModel SpringProofs MinModel MinProps InstFix InstModel InstHess.
Import ListNotations.
Open Scope list_scope.
Open Scope R_scope.

(** ** Weights of the beads *)
(** The gradient is the derivative of the summed energy, for a potential that acts bead by bead. *)
Theorem weights_consistent coef n (V : InstModel.vec -> R) (f q : mat) b c : (b < n)%nat ->
  derivable_pt_lim (fun t => V (shift_q b c t q b)) (q b c) (- f b c) ->
  derivable_pt_lim (fun t => Rsum n (fst (pes_evaluate coef (fun b' => V (shift_q b c t q b')) f))) (q b c) (snd (pes_evaluate coef (fun b' => V (q b')) f) b c).
Proof.
  intros Hb HV. unfold pes_evaluate. cbn [fst snd].
  apply derivable_eq with (Rsum n (fun b' => (if (b' =? b)%nat then - f b c else 0) * (cf coef (b' + 1) + cf coef b') / 2)).
  - rewrite (Rsum_delta n b); [now rewrite Nat.eqb_refl | easy |]. intros i _ Hi. rewrite (proj2 (Nat.eqb_neq i b) Hi). unfold Rdiv. ring.
  - apply derivable_Rsum. intros b' Hb'. set (w := (cf coef (b' + 1) + cf coef b')).
    apply derivable_ext with (fun t => (w / 2) * V (shift_q b c t q b')); [intros t; unfold Rdiv; ring|].
    apply derivable_eq with ((w / 2) * (if (b' =? b)%nat then - f b c else 0)); [unfold Rdiv; ring|].
    apply (derivable_pt_lim_scal (fun t => V (shift_q b c t q b'))). destruct (Nat.eqb_spec b' b) as [->|Hn]; [easy|].
    apply derivable_ext with (fun _ => V (q b')).
    + intros t. f_equal. unfold shift_q. rewrite (proj2 (Nat.eqb_neq b' b) Hn). easy.
    + apply derivable_pt_lim_const.
Qed.
Theorem weights_uniform coef pot f b c : cf coef b = 1 -> cf coef (b + 1) = 1 ->
  fst (pes_evaluate coef pot f) b = pot b /\ snd (pes_evaluate coef pot f) b c = - f b c.
Proof. intros H1 H2. unfold pes_evaluate. cbn [fst snd]. rewrite H1, H2. split; field. Qed.
(** The weights sum to the coefficients, the two at the ends counted half. *)
Theorem weights_sum coef n : Rsum n (weight coef) = Rsum (n + 1) (cf coef) - (cf coef 0 + cf coef n) / 2.
Proof.
  rewrite Nat.add_1_r. induction n as [|n IH]; [cbn; lra|]. change (Rsum (S n) (weight coef)) with (Rsum n (weight coef) + weight coef n).
  change (Rsum (S (S n)) (cf coef)) with (Rsum (S n) (cf coef) + cf coef (S n)). rewrite IH. unfold weight. rewrite Nat.add_1_r. lra.
Qed.

(** ** Hessian of a quadratic well with weights *)
(** Force of bead [b]: - K b. *)
Definition harmonic (dof : nat) (K : nat -> mat) (x : mat) : mat := fun b c => - Rsum dof (fun c' => K b c c' * x b c').
Lemma harmonic_displace dof K x b c j d : (j < dof)%nat -> harmonic dof K (displace j d x) b c = harmonic dof K x b c - K b c j * d.
Proof.
  intros Hj. unfold harmonic, displace.
  rewrite (Rsum_ext dof _ (fun c' => K b c c' * x b c' + K b c c' * d * RSum.delta c' j)).
  - rewrite Rsum_plus, Rsum_delta_r by easy. ring.
  - intros c' _. unfold RSum.delta. destruct (c' =? j)%nat; ring.
Qed.
(** The blocks that get_hessian finds through the mapper carry the weight of the bead ... *)
Theorem hessian_weighted dof n coef K x0 d b i j : d <> 0 -> (b < n)%nat -> (i < dof)%nat -> (j < dof)%nat ->
  get_hessian dof d (mapper_gradient coef (harmonic dof K)) x0 i (b * dof + j)%nat = weight coef b * K b j i.
Proof.
  intros Hd Hb Hi Hj. unfold get_hessian, mapper_gradient, pes_evaluate. cbn [snd]. rewrite flat_div, flat_mod by easy.
  rewrite !harmonic_displace by easy. unfold weight. field. easy.
Qed.
(** ... and the complete Hessian multiplies by it again: with equal coefficients of one it is the Hessian of the weighted
    energy, otherwise not. *)
Theorem complete_hessian dof n coef K x0 d b i j : d <> 0 -> (b < n)%nat -> (i < dof)%nat -> (j < dof)%nat ->
  red2comp dof n coef (get_hessian dof d (mapper_gradient coef (harmonic dof K)) x0) (b * dof + i)%nat (b * dof + j)%nat = weight coef b ^ 2 * K b j i.
Proof. intros Hd Hb Hi Hj. rewrite red2comp_entries, Nat.eqb_refl, (hessian_weighted dof n) by easy. ring. Qed.
Theorem complete_hessian_uniform dof n coef K x0 d b i j : d <> 0 -> (b < n)%nat -> (i < dof)%nat -> (j < dof)%nat -> weight coef b = 1 ->
  red2comp dof n coef (get_hessian dof d (mapper_gradient coef (harmonic dof K)) x0) (b * dof + i)%nat (b * dof + j)%nat = K b j i.
Proof. intros Hd Hb Hi Hj Hw. rewrite complete_hessian, Hw by easy. ring. Qed.
(** What it should be: the derivative along coordinate [j] of bead [b] of the weighted gradient of coordinate [i]. *)
Theorem complete_hessian_refuted : exists dof n coef K x0 d b i j l, d <> 0 /\ (b < n)%nat /\ (i < dof)%nat /\ (j < dof)%nat /\
  (forall k, (k <= n)%nat -> 0 < cf coef k) /\ List.length coef = (n + 1)%nat /\
  derivable_pt_lim (fun t => mapper_gradient coef (harmonic dof K) (shift_q b j t x0) b i) (x0 b j) l /\
  red2comp dof n coef (get_hessian dof d (mapper_gradient coef (harmonic dof K)) x0) (b * dof + i)%nat (b * dof + j)%nat <> l.
Proof.
  exists 1%nat, 3%nat, [2; 2; 1; 1], (fun _ _ _ => 1), (fun _ _ => 0), 1, 0%nat, 0%nat, 0%nat, 2.
  repeat (split; [solve [lra | lia]|]). split; [intros k Hk; unfold cf; destruct k as [|[|[|[|k]]]]; cbn; try lra; lia|]. split; [easy|]. split.
  - apply derivable_ext with (fun t => 2 * t).
    + intros t. unfold mapper_gradient, pes_evaluate, harmonic, shift_q, cf. cbn. field.
    + apply derivable_eq with (2 * 1); [ring|]. apply (derivable_pt_lim_scal (fun t => t)). apply derivable_pt_lim_id.
  - rewrite complete_hessian by (try lra; lia). unfold weight, cf. cbn. lra.
Qed.

(** ** new_disc *)
(** The mapper's new_disc reaches the springs as the parameter ret: False makes the call fail ... *)
Theorem mapper_disc_refuted : exists n dof m rp wn coef q, mapper_springs n dof m rp wn coef q DFalse = TypeError.
Proof. exists 2%nat, 3%nat, (fun _ => 1), 1, 1, [1; 1; 1], (fun _ _ => 0). reflexivity. Qed.
(** ... an array of several coefficients as well, and "one" does not give coefficients of one. *)
Theorem mapper_disc n dof m rp wn coef q d : (2 <= n)%nat -> List.length coef = (n + 1)%nat ->
  mapper_springs n dof m rp wn coef q d =
  match d with DTrue => Val (spring_call n dof m rp wn coef q) | DFalse => TypeError
  | DStr s => if truth s then Val (spring_call n dof m rp wn coef q) else TypeError
  | DArray [x] => if Req_EM_T x 0 then TypeError else Val (spring_call n dof m rp wn coef q)
  | DArray _ => ValueError end.
Proof.
  intros Hn HL. unfold mapper_springs, sm_call. cbn [chosen_coef truth_disc bind]. destruct d as [| |s|[|x [|y l]]]; cbn [truth_disc bind]; try easy.
  - now destruct (truth s).
  - now destruct (Req_EM_T x 0).
Qed.
Theorem one_refuted coef : chosen_coef coef (DStr "one") = Val coef.
Proof. reflexivity. Qed.
Theorem disc_array_refuted coef l : (2 <= List.length l)%nat -> chosen_coef coef (DArray l) = ValueError.
Proof. destruct l as [|x [|y l]]; cbn; try lia. easy. Qed.

(** ** Friction *)
Lemma mode_sum n k : (k < n)%nat -> k <> 0%nat -> Rsum n (fun b => mk_o_nm_matrix n k b) = 0.
Proof.
  intros Hk H0. assert (Hn : (0 < n)%nat) by lia. pose proof (o_nm_rows n Hn) as R. specialize (R k 0%nat Hk Hn). unfold RSum.delta in R.
  rewrite (proj2 (Nat.eqb_neq k 0) H0) in R.
  assert (P : 0 < sqrt (INR n)) by (apply sqrt_lt_R0, lt_0_INR; easy).
  apply Rmult_eq_reg_r with (/ sqrt (INR n)); [|apply Rgt_not_eq, Rinv_0_lt_compat, P].
  rewrite Rmult_0_l, <- Rsum_scal_r, <- R. apply Rsum_ext. intros b _. f_equal.
  unfold mk_o_nm_matrix, o_nm_entry. cbn [Nat.eqb]. rewrite sqrt_1. unfold Rdiv. ring.
Qed.
(** Constant friction, diagonal: the integral of obtain_g along the path is [s c * (q b c - q 0 c)]. *)
Definition straight (s : InstModel.vec) (q : mat) : mat := fun b c => s c * (q b c - q 0%nat c).
Definition diag_root (s : InstModel.vec) : nat -> mat := fun _ => InstModel.diag s.
Lemma straight_modes n s q k c : (k < n)%nat -> k <> 0%nat ->
  NMModel.app n (mk_o_nm_matrix n) (fun b => straight s q b c) k = s c * NMModel.app n (mk_o_nm_matrix n) (fun b => q b c) k.
Proof.
  intros Hk H0. unfold NMModel.app, straight.
  rewrite (Rsum_ext n _ (fun b => s c * (mk_o_nm_matrix n k b * q b c) - s c * q 0%nat c * mk_o_nm_matrix n k b)) by (intros; ring).
  rewrite Rsum_minus, !Rsum_scal, mode_sum by easy. ring.
Qed.
Lemma friction_energy n dof LT s q : LT 0%nat = 0 ->
  fst (friction_terms n dof LT (diag_root s) (straight s q))
  = / 2 * Rsum dof (fun c => s c ^ 2 * Rsum n (fun k => LT k * NMModel.app n (mk_o_nm_matrix n) (fun b => q b c) k ^ 2)).
Proof.
  intros H0. unfold friction_terms. cbn [fst]. f_equal. rewrite Rsum_swap. apply Rsum_ext. intros c _. rewrite <- Rsum_scal. apply Rsum_ext. intros k Hk.
  destruct (Nat.eq_dec k 0) as [->|Hn]; [rewrite H0; ring|]. rewrite straight_modes by easy. ring.
Qed.
(** The friction gradient is the derivative of the friction energy, taken once. *)
Theorem friction_gradient n dof LT s q b c : (b < n)%nat -> (c < dof)%nat -> LT 0%nat = 0 ->
  derivable_pt_lim (fun t => fst (friction_terms n dof LT (diag_root s) (straight s (shift_q b c t q)))) (q b c)
    (snd (friction_terms n dof LT (diag_root s) (straight s q)) b c).
Proof.
  intros Hb Hc H0. set (C := mk_o_nm_matrix n).
  apply derivable_ext with (fun t => / 2 * Rsum dof (fun c' => s c' ^ 2 * Rsum n (fun k => LT k * NMModel.app n C (fun b' => shift_q b c t q b' c') k ^ 2))).
  { intros t. symmetry. now apply friction_energy. }
  apply derivable_eq with (/ 2 * Rsum dof (fun c' => s c' ^ 2 * Rsum n (fun k => LT k * (if (c' =? c)%nat then 2 * NMModel.app n C (fun b' => q b' c) k * C k b else 0)))).
  - rewrite (Rsum_delta dof c); [|easy|].
    + rewrite Nat.eqb_refl. unfold friction_terms. cbn [snd]. fold C.
      unfold NMModel.app at 2. unfold diag_root. rewrite (Rsum_delta dof c); [|easy|].
      * unfold InstModel.diag. rewrite Nat.eqb_refl. unfold NMModel.app at 2, transpose.
        rewrite <- !Rsum_scal. apply Rsum_ext. intros k Hk. destruct (Nat.eq_dec k 0) as [->|Hn]; [rewrite H0; ring|].
        unfold C. rewrite straight_modes by easy. field.
      * intros i _ Hi. unfold InstModel.diag. rewrite (proj2 (Nat.eqb_neq c i)) by auto. ring.
    + intros i _ Hi. rewrite (proj2 (Nat.eqb_neq i c) Hi). rewrite Rsum_0; [ring|]. intros. ring.
  - apply (derivable_pt_lim_scal (fun t => Rsum dof (fun c' => s c' ^ 2 * Rsum n (fun k => LT k * NMModel.app n C (fun b' => shift_q b c t q b' c') k ^ 2)))).
    apply derivable_Rsum. intros c' _.
    apply (derivable_pt_lim_scal (fun t => Rsum n (fun k => LT k * NMModel.app n C (fun b' => shift_q b c t q b' c') k ^ 2))).
    apply derivable_Rsum. intros k _.
    apply (derivable_pt_lim_scal (fun t => NMModel.app n C (fun b' => shift_q b c t q b' c') k ^ 2)).
    destruct (Nat.eqb_spec c' c) as [->|Hn].
    + set (A := NMModel.app n C (fun b' => q b' c) k). set (t0 := q b c).
      apply derivable_ext with (fun t => (A + C k b * (t - t0)) ^ 2).
      * intros t. f_equal. unfold A, NMModel.app.
        rewrite (Rsum_ext n (fun j => C k j * shift_q b c t q j c) (fun j => C k j * q j c + C k j * (t - t0) * RSum.delta j b)).
        -- rewrite Rsum_plus, Rsum_delta_r by easy. ring.
        -- intros j _. unfold shift_q, RSum.delta, t0. rewrite Nat.eqb_refl, andb_true_r. destruct (Nat.eqb_spec j b) as [->|]; ring.
      * apply derivable_eq with (2 * (A + C k b * (t0 - t0)) * (C k b * (1 - 0))); [ring|].
        apply (derivable_pt_lim_comp (fun t => A + C k b * (t - t0)) (fun y => y ^ 2)).
        -- apply derivable_eq with (0 + C k b * (1 - 0)); [ring|].
           apply (derivable_pt_lim_plus (fun _ => A) (fun t => C k b * (t - t0))); [apply derivable_pt_lim_const|].
           apply (derivable_pt_lim_scal (fun t => t - t0)). apply (derivable_pt_lim_minus (fun t => t) (fun _ => t0)); [apply derivable_pt_lim_id | apply derivable_pt_lim_const].
        -- apply derivable_eq with (INR 2 * (A + C k b * (t0 - t0)) ^ 1); [cbn; ring|]. apply derivable_pt_lim_pow.
    + apply derivable_ext with (fun _ => NMModel.app n C (fun b' => q b' c') k ^ 2); [|apply derivable_pt_lim_const].
      intros t. f_equal. unfold NMModel.app. apply Rsum_ext. intros j _. unfold shift_q. rewrite (proj2 (Nat.eqb_neq c' c) Hn). now rewrite andb_false_r.
Qed.
(** The first frequency is zero: so is the first factor. *)
Theorem friction_first rp wn n spec : fric_LTwk rp wn n spec 0%nat = 0.
Proof. unfold fric_LTwk, sp_omegak, o_omegak, o_nm_eva. replace (INR 0 * PI / (2 * INR n)) with 0 by (cbn; unfold Rdiv; ring). rewrite sin_0. ring. Qed.
(** But the energy is added to each bead: it is counted as many times as there are beads. *)
Theorem friction_counted coef n dof LT dgdq gq pot f : (forall b, (b < n)%nat -> weight coef b = 1) ->
  Rsum n (fst (friction_evaluate coef n dof LT dgdq gq pot f)) = Rsum n pot + INR n * fst (friction_terms n dof LT dgdq gq).
Proof.
  intros Hw. unfold friction_evaluate. destruct (friction_terms n dof LT dgdq gq) as [e g]. cbn [fst].
  rewrite (Rsum_ext n _ (fun b => pot b + e)).
  - rewrite Rsum_plus, Rsum_const. easy.
  - intros b Hb. specialize (Hw b Hb). unfold weight in Hw. replace ((pot b + e) * (cf coef (b + 1) + cf coef b) / 2) with ((pot b + e) * ((cf coef (b + 1) + cf coef b) / 2)) by (unfold Rdiv; ring).
    rewrite Hw. ring.
Qed.
Lemma friction_positive : 0 < fst (friction_terms 3 1 (fric_LTwk 1 1 3 (fun _ => 1)) (diag_root (fun _ => 1)) (straight (fun _ => 1) (fun b _ => mk_o_nm_matrix 3 1%nat b))).
Proof.
  rewrite friction_energy by apply friction_first. cbn [Rsum]. rewrite friction_first.
  assert (R : forall k, (k < 3)%nat -> NMModel.app 3 (mk_o_nm_matrix 3) (fun b => mk_o_nm_matrix 3 1%nat b) k = if (k =? 1)%nat then 1 else 0).
  { intros k Hk. unfold NMModel.app. assert (Q := o_nm_rows 3 ltac:(lia) k 1%nat Hk ltac:(lia)). unfold RSum.delta in Q. exact Q. }
  rewrite !R by lia. cbn [Nat.eqb]. unfold fric_LTwk, sp_omegak, o_omegak, o_nm_eva.
  assert (P : 0 < sin (INR 1 * PI / (2 * INR 3))).
  { apply sin_gt_0; pose proof PI_RGT_0; cbn [INR]; lra. }
  set (x := sin _) in *. generalize (sin (INR 2 * PI / (2 * INR 3))). intros y. nra.
Qed.
Theorem friction_energy_refuted : exists n dof LT s q coef, (forall b, (b < n)%nat -> weight coef b = 1) /\
  Rsum n (fst (friction_evaluate coef n dof LT (diag_root s) (straight s q) (fun _ => 0) (fun _ _ => 0)))
  <> 0 + fst (friction_terms n dof LT (diag_root s) (straight s q)).
Proof.
  exists 3%nat, 1%nat, (fric_LTwk 1 1 3 (fun _ => 1)), (fun _ => 1), (fun b _ => mk_o_nm_matrix 3 1%nat b), [1; 1; 1; 1]. 
  assert (W : forall b, (b < 3)%nat -> weight [1; 1; 1; 1] b = 1) by (intros [|[|[|b]]] Hb; try lia; unfold weight, cf; cbn; lra).
  split; [exact W|]. rewrite friction_counted by exact W. pose proof friction_positive as P. rewrite Rsum_0 by easy. cbn [INR]. lra.
Qed.
(** The gradient, and not the energy, has it once. *)
Theorem friction_evaluate_gradient coef n dof LT dgdq gq pot f b c : weight coef b = 1 ->
  snd (friction_evaluate coef n dof LT dgdq gq pot f) b c = - f b c + snd (friction_terms n dof LT dgdq gq) b c.
Proof.
  intros Hw. unfold friction_evaluate. destruct (friction_terms n dof LT dgdq gq) as [e g]. cbn [snd]. unfold weight in Hw.
  replace ((- f b c + g b c) * (cf coef (b + 1) + cf coef b) / 2) with ((- f b c + g b c) * ((cf coef (b + 1) + cf coef b) / 2)) by (unfold Rdiv; ring). rewrite Hw. ring.
Qed.
(** One bead's friction must have a root: the last. *)
Theorem check_eta_last n sym pos : (0 < n)%nat -> check_eta n sym pos = Val tt <-> (forall b, (b < n)%nat -> sym b = true) /\ pos (n - 1)%nat = true.
Proof.
  intros Hn. unfold check_eta. assert (FA : forallb sym (seq 0 n) = true <-> forall b, (b < n)%nat -> sym b = true).
  { rewrite forallb_forall. split; intros H b Hb; apply H; [apply in_seq; lia | apply in_seq in Hb; lia]. }
  destruct (forallb sym (seq 0 n)) eqn:E; cbn [negb].
  - destruct n as [|n]; [lia|]. replace (S n - 1)%nat with n by lia. destruct (pos n) eqn:Q; intuition (try easy; congruence).
  - split; [easy|]. intros (H & _). apply FA in H. congruence.
Qed.
Theorem check_eta_refuted : exists n sym pos b, (b < n)%nat /\ pos b = false /\ check_eta n sym pos = Val tt.
Proof. exists 2%nat, (fun _ => true), (fun b => (b =? 1)%nat), 0%nat. now repeat split; auto. Qed.

(** ** The Hessian of the friction *)
Lemma fold_set (l : list nat) (P : nat -> nat -> nat -> bool) (X : nat -> nat -> nat -> R) (f : nat -> mat -> mat) h r s :
  (forall i h r s, f i h r s = if P i r s then X i r s else h r s) ->
  fold_left (fun h i => f i h) l h r s = match find (fun i => P i r s) (rev l) with Some i => X i r s | None => h r s end.
Proof.
  intros H. induction l as [|a l IH] using rev_ind; [easy|]. rewrite fold_left_app, rev_app_distr. cbn [fold_left rev List.app find]. rewrite H, IH. now destruct (P a r s).
Qed.
Lemma find_seq (P : nat -> bool) k n : (k < n)%nat -> (forall i, (i < n)%nat -> P i = (k =? i)%nat) -> find P (rev (seq 0 n)) = Some k.
Proof.
  intros Hk H. induction n as [|n IH]; [lia|]. rewrite seq_S, rev_app_distr. cbn [rev List.app find Nat.add]. rewrite H by lia.
  destruct (Nat.eqb_spec k n) as [->|]; [easy|]. apply IH; [lia|]. intros i Hi. apply H. lia.
Qed.
Lemma find_seq_none (P : nat -> bool) n : (forall i, (i < n)%nat -> P i = false) -> find P (rev (seq 0 n)) = None.
Proof.
  intros H. induction n as [|n IH]; [easy|]. rewrite seq_S, rev_app_distr. cbn [rev List.app find Nat.add]. rewrite H by lia. apply IH. intros i Hi. apply H. lia.
Qed.
(** A double loop of assignments to the block at [R0], [S0]. *)
Lemma for2_block a R0 S0 X h r s :
  for2 a a (fun j k h => set_entry h (R0 + j) (S0 + k) (X j k)) h r s
  = if ((R0 <=? r) && (r <? R0 + a) && (S0 <=? s) && (s <? S0 + a))%nat then X (r - R0)%nat (s - S0)%nat else h r s.
Proof.
  unfold for2.
  assert (I : forall j h r s, fold_left (fun h k => set_entry h (R0 + j) (S0 + k) (X j k)) (seq 0 a) h r s
      = if ((r =? R0 + j) && ((S0 <=? s) && (s <? S0 + a)))%nat then X j (s - S0)%nat else h r s).
  { intros j h' r' s'.
    rewrite (fold_set (seq 0 a) (fun k r s => ((r =? R0 + j) && (s =? S0 + k))%nat) (fun k _ _ => X j k)) by (intros; unfold set_entry; easy).
    destruct (Nat.eqb_spec r' (R0 + j)) as [->|]; cbn [andb].
    - destruct (Nat.leb_spec S0 s') as [H1|H1]; cbn [andb].
      + destruct (Nat.ltb_spec s' (S0 + a)) as [H2|H2].
        * rewrite (find_seq _ (s' - S0)); [easy | lia |]. intros i Hi. rewrite ?Nat.eqb_refl. cbn [andb]. destruct (Nat.eqb_spec s' (S0 + i)), (Nat.eqb_spec (s' - S0) i); try easy; lia.
        * rewrite find_seq_none; [easy|]. intros i Hi. rewrite (proj2 (Nat.eqb_neq s' (S0 + i))) by lia. now rewrite ?andb_false_r.
      + rewrite find_seq_none; [easy|]. intros i Hi. rewrite (proj2 (Nat.eqb_neq s' (S0 + i))) by lia. now rewrite ?andb_false_r.
    - rewrite find_seq_none; easy. }
  rewrite (fold_set (seq 0 a) (fun j r s => ((r =? R0 + j) && ((S0 <=? s) && (s <? S0 + a)))%nat) (fun j r s => X j (s - S0)%nat)) by (intros; apply I).
  destruct ((S0 <=? s) && (s <? S0 + a))%nat eqn:ES.
  - rewrite <- !andb_assoc, ES, andb_true_r.
    destruct (Nat.leb_spec R0 r) as [H1|H1]; cbn [andb].
    + destruct (Nat.ltb_spec r (R0 + a)) as [H2|H2].
      * rewrite (find_seq _ (r - R0)); [easy | lia |]. intros i Hi. rewrite andb_true_r. destruct (Nat.eqb_spec r (R0 + i)), (Nat.eqb_spec (r - R0) i); try easy; lia.
      * rewrite find_seq_none; [easy|]. intros i Hi. rewrite (proj2 (Nat.eqb_neq r (R0 + i))) by lia. now rewrite ?andb_false_r.
    + rewrite find_seq_none; [easy|]. intros i Hi. rewrite (proj2 (Nat.eqb_neq r (R0 + i))) by lia. now rewrite ?andb_false_r.
  - rewrite <- !andb_assoc, ES, !andb_false_r. rewrite find_seq_none; [easy|]. intros i _. now rewrite ?andb_false_r.
Qed.
(** All that is left is the cross terms: whatever the derivative of the friction, whatever SD. *)
Theorem friction_hessian n nphys LT dgdq gq fh SD b j b' k : (b < n)%nat -> (b' < n)%nat -> (j < nphys)%nat -> (k < nphys)%nat ->
  fric_rp_hessian n nphys LT dgdq gq fh SD (nphys * b + j)%nat (nphys * b' + k)%nat = cross_term n nphys LT dgdq b b' j k.
Proof.
  intros Hb Hb' Hj Hk. unfold fric_rp_hessian. cbv zeta. generalize (if SD then fold_left (fun h b => for2 nphys nphys (fun j k h => set_entry h (nphys * b + j) (nphys * b + k) (sd_term n nphys LT dgdq gq fh b j k)) h) (seq 0 n) (fun _ _ => 0) else (fun _ _ => 0)).
  intros h. unfold for2 at 1.
  assert (BK : forall b0 b1 j0, (j0 < nphys)%nat -> ((nphys * b1 <=? nphys * b0 + j0) && (nphys * b0 + j0 <? nphys * b1 + nphys))%nat = (b0 =? b1)%nat).
  { intros b0 b1 j0 H. destruct (Nat.eqb_spec b0 b1) as [->|Hn].
    - rewrite (proj2 (Nat.leb_le _ _)), (proj2 (Nat.ltb_lt _ _)) by lia. easy.
    - apply not_true_iff_false. rewrite andb_true_iff, Nat.leb_le, Nat.ltb_lt. nia. }
  set (PI2 := fun (nl ne r s : nat) => ((nphys * nl <=? r) && (r <? nphys * nl + nphys) && (nphys * ne <=? s) && (s <? nphys * ne + nphys))%nat).
  rewrite (fold_set (seq 0 n) (fun nl r s => match find (fun ne => PI2 nl ne r s) (rev (seq 0 n)) with Some _ => true | None => false end)
     (fun nl r s => match find (fun ne => PI2 nl ne r s) (rev (seq 0 n)) with Some ne => cross_term n nphys LT dgdq nl ne (r - nphys * nl) (s - nphys * ne) | None => 0 end)).
  2:{ intros nl h' r s. rewrite (fold_set (seq 0 n) (fun ne r s => PI2 nl ne r s) (fun ne r s => cross_term n nphys LT dgdq nl ne (r - nphys * nl) (s - nphys * ne))).
      - now destruct (find _ _).
      - intros ne h'' r' s'. apply for2_block. }
  assert (E : forall nl, PI2 nl b' (nphys * b + j)%nat (nphys * b' + k)%nat = (b =? nl)%nat).
  { intros nl. unfold PI2. rewrite <- andb_assoc, BK, BK, Nat.eqb_refl by easy. apply andb_true_r. }
  assert (F : forall nl ne, PI2 nl ne (nphys * b + j)%nat (nphys * b' + k)%nat = ((b =? nl) && (b' =? ne))%nat).
  { intros nl ne. unfold PI2. rewrite <- andb_assoc, BK, BK by easy. easy. }
  assert (FB : find (fun ne => PI2 b ne (nphys * b + j)%nat (nphys * b' + k)%nat) (rev (seq 0 n)) = Some b').
  { apply find_seq; [easy|]. intros i Hi. rewrite F, Nat.eqb_refl. easy. }
  rewrite (find_seq _ b); [|easy|].
  - rewrite FB. f_equal; lia.
  - intros i Hi. destruct (Nat.eqb_spec b i) as [<-|Hn]; [now rewrite FB|].
    rewrite find_seq_none; [easy|]. intros ne _. rewrite F, (proj2 (Nat.eqb_neq b i) Hn). easy.
Qed.
Theorem friction_hessian_refuted : exists n nphys LT dgdq gq fh, sd_term n nphys LT dgdq gq fh 1 0 0 <> 0 /\
  forall r s, (r < nphys * n)%nat -> (s < nphys * n)%nat -> fric_rp_hessian n nphys LT dgdq gq fh true r s = fric_rp_hessian n nphys LT dgdq gq fh false r s.
Proof.
  exists 1%nat, 1%nat, (fun _ => 1), (fun _ _ _ => 1), (fun _ _ => 1), (fun _ _ _ _ => 1). split.
  - unfold sd_term. cbn [Rsum]. destruct (Req_EM_T 1 0) as [Q|_]; [lra|]. unfold NMModel.app, transpose. cbn [Rsum].
    assert (C0 : forall b, mk_o_nm_matrix 1 0%nat b = 1) by (intros b; unfold mk_o_nm_matrix, o_nm_entry; cbn [Nat.eqb INR]; rewrite !sqrt_1; field).
    rewrite !C0. lra.
  - intros r s Hr Hs. replace r with (1 * 0 + 0)%nat by lia. replace s with (1 * 0 + 0)%nat by lia. rewrite !friction_hessian by lia. easy.
Qed.

(** ** Concrete cases *)
Example ex_weights : weight [2; 2; 1; 1] 0 = 2 /\ weight [2; 2; 1; 1] 1 = 3 / 2 /\ Rsum 3 (weight [2; 2; 1; 1]) = 9 / 2.
Proof. unfold weight, cf. cbn. repeat split; field. Qed.
(** A well of curvature 3 and 5 at two beads: blocks 2 . 3 and 3/2 . 5, complete Hessian 4 . 3 and 9/4 . 5. *)
Example ex_blocks : let K := fun (b _ _ : nat) => match b with 0%nat => 3 | _ => 5 end in
  let h := get_hessian 1 (/ 100) (mapper_gradient [2; 2; 1; 1] (harmonic 1 K)) (fun _ _ => 1) in
  h 0%nat 0%nat = 6 /\ h 0%nat 1%nat = 15 / 2 /\ red2comp 1 3 [2; 2; 1; 1] h 0%nat 0%nat = 12 /\ red2comp 1 3 [2; 2; 1; 1] h 1%nat 1%nat = 45 / 4.
Proof.
  intros K h. assert (D : / 100 <> 0) by lra.
  pose proof (hessian_weighted 1 3 [2; 2; 1; 1] K (fun _ _ => 1) (/ 100) 0 0 0 D ltac:(lia) ltac:(lia) ltac:(lia)) as H0.
  pose proof (hessian_weighted 1 3 [2; 2; 1; 1] K (fun _ _ => 1) (/ 100) 1 0 0 D ltac:(lia) ltac:(lia) ltac:(lia)) as H1.
  cbn [Nat.mul Nat.add] in H0, H1. fold h in H0, H1. rewrite H0, H1. unfold red2comp. cbn [Nat.div Nat.modulo Nat.divmod fst snd Nat.eqb Nat.ltb Nat.leb andb Nat.sub Nat.add].
  rewrite H0, H1. unfold weight, cf, K. cbn. repeat split; field.
Qed.
Example ex_weighted_gradient : derivable_pt_lim (fun t => Rsum 3 (fst (pes_evaluate [2; 2; 1; 1] (fun b' => (fun x : InstModel.vec => x 0%nat ^ 2) (shift_q 1 0 t (fun _ _ => 4) b')) (fun _ _ => -8)))) 4
  (snd (pes_evaluate [2; 2; 1; 1] (fun b' => (fun x : InstModel.vec => x 0%nat ^ 2) ((fun _ _ => 4) b')) (fun _ _ => -8)) 1%nat 0%nat).
Proof.
  apply (weights_consistent [2; 2; 1; 1] 3 (fun x => x 0%nat ^ 2) (fun _ _ => -8) (fun _ _ => 4) 1 0); [lia|].
  apply derivable_ext with (fun t => t ^ 2); [intros t; easy|]. apply derivable_eq with (INR 2 * 4 ^ 1); [cbn; lra|]. apply derivable_pt_lim_pow.
Qed.
Example ex_disc : exists e g, mapper_springs 2 3 (fun _ => 1) 1 1 [1; 1; 1] (fun _ _ => 0) (DStr "one") = Val (e, g) /\ mapper_springs 2 3 (fun _ => 1) 1 1 [1; 1; 1] (fun _ _ => 0) (DArray [1; 1; 1]) = ValueError.
Proof. eexists. eexists. split; reflexivity. Qed.
Example ex_friction : let s := fun _ : nat => 1 in let q := fun b (_ : nat) => mk_o_nm_matrix 3 1%nat b in let LT := fric_LTwk 1 1 3 (fun _ => 1) in
  LT 0%nat = 0 /\ 0 < fst (friction_terms 3 1 LT (diag_root s) (straight s q)) /\
  Rsum 3 (fst (friction_evaluate [1; 1; 1; 1] 3 1 LT (diag_root s) (straight s q) (fun _ => 2) (fun _ _ => 0))) = 6 + 3 * fst (friction_terms 3 1 LT (diag_root s) (straight s q)).
Proof.
  cbv zeta. split; [apply friction_first|]. split; [apply friction_positive|]. rewrite friction_counted.
  - rewrite Rsum_const. cbn [INR]. ring.
  - intros [|[|[|b]]] Hb; try lia; unfold weight, cf; cbn; lra.
Qed.
Example ex_eta : check_eta 3 (fun _ => true) (fun b => negb (b =? 0)%nat) = Val tt /\ check_eta 3 (fun _ => true) (fun b => negb (b =? 2)%nat) = ValueError.
Proof. split; reflexivity. Qed.
Print Assumptions weights_consistent.
Print Assumptions weights_uniform.
Print Assumptions weights_sum.
Print Assumptions hessian_weighted.
Print Assumptions complete_hessian.
Print Assumptions complete_hessian_uniform.
Print Assumptions complete_hessian_refuted.
Print Assumptions mapper_disc_refuted.
Print Assumptions mapper_disc.
Print Assumptions one_refuted.
Print Assumptions disc_array_refuted.
Print Assumptions friction_gradient.
Print Assumptions friction_first.
Print Assumptions friction_counted.
Print Assumptions friction_energy_refuted.
Print Assumptions friction_evaluate_gradient.
Print Assumptions check_eta_last.
Print Assumptions check_eta_refuted.
Print Assumptions friction_hessian.
Print Assumptions friction_hessian_refuted.
