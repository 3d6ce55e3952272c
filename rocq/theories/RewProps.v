(** * Theorems about the reweighting tools *)
From Coq Require Import List Reals Lra Lia Arith String.
From Verif Require Import RSum CellModel RewModel.
Import ListNotations.
Open Scope R_scope.

Lemma INR_pos n : (0 < n)%nat -> 0 < INR n.
Proof. intros H. now apply lt_0_INR. Qed.
Lemma Rsum_pos n f : (0 < n)%nat -> (forall i, (i < n)%nat -> 0 < f i) -> 0 < Rsum n f.
Proof.
  intros H P. destruct n; [lia|]. cbn [Rsum]. pose proof (P n ltac:(lia)).
  pose proof (Rsum_nonneg n f ltac:(intros i Hi; left; apply P; lia)). lra.
Qed.

(** ** C253 direct reweighting *)
Section Direct.
Variables (nf nm : nat) (beta : R) (pot : nat -> nat -> R).
Hypothesis Hf : (0 < nf)%nat.
Lemma norm_pos i : 0 < Rsum nf (fun g => raw_weight nm beta pot g i).
Proof. apply Rsum_pos; [exact Hf|]. intros f _. apply exp_pos. Qed.
Lemma weight_pos f i : 0 < weight nf nm beta pot f i.
Proof. unfold weight. apply Rdiv_lt_0_compat; [apply exp_pos|apply norm_pos]. Qed.
Lemma weight_sum i : Rsum nf (fun f => weight nf nm beta pot f i) = 1.
Proof. unfold weight. rewrite Rsum_div. pose proof (norm_pos i). field. lra. Qed.
End Direct.

(** The weights of a model over the frames are positive and add up to one. *)
Theorem direct_weights nf nm beta pot i : (0 < nf)%nat ->
  (forall f, 0 < weight nf nm beta pot f i) /\ Rsum nf (fun f => weight nf nm beta pot f i) = 1.
Proof. intros H. split; [intros f; now apply weight_pos|now apply weight_sum]. Qed.

(** A reweighted average lies between the bounds of the observable. *)
Theorem direct_bounds nf nm kbT pot obs j i lo hi : (0 < nf)%nat ->
  (forall f, (f < nf)%nat -> lo <= obs f j <= hi) -> lo <= direct_reweight nf nm kbT pot obs j i <= hi.
Proof.
  intros H B. unfold direct_reweight, direct_b. set (b := 1 / kbT).
  replace lo with (Rsum nf (fun f => lo * weight nf nm b pot f i)) at 1 by (rewrite Rsum_scal, weight_sum by easy; ring).
  replace hi with (Rsum nf (fun f => hi * weight nf nm b pot f i)) by (rewrite Rsum_scal, weight_sum by easy; ring).
  split; apply Rsum_le; intros f Hfl; pose proof (weight_pos nf nm b pot H f i); apply Rmult_le_compat_r; try lra; now apply B.
Qed.

(** Only differences between models matter within a frame, and constants added to a model do not count: the zero of energy of
    every frame and of every model is free. *)
Theorem direct_shift nf nm kbT pot obs j i (common constant : nat -> R) : (0 < nf)%nat -> (0 < nm)%nat ->
  direct_reweight nf nm kbT (fun f k => pot f k + common f + constant k) obs j i = direct_reweight nf nm kbT pot obs j i.
Proof.
  intros Hf Hm. unfold direct_reweight, direct_b. set (b := 1 / kbT). apply Rsum_ext. intros f _. f_equal.
  set (c := exp (- b * (constant i - Rsum nm constant / INR nm))).
  assert (E : forall g, raw_weight nm b (fun f k => pot f k + common f + constant k) g i = c * raw_weight nm b pot g i).
  { intros g. unfold raw_weight, c. rewrite <- exp_plus. f_equal. unfold frame_mean. rewrite 2!Rsum_plus, Rsum_const.
    pose proof (INR_pos nm Hm). field. lra. }
  unfold weight. rewrite (Rsum_ext nf _ (fun g => c * raw_weight nm b pot g i)) by (intros; apply E).
  rewrite Rsum_scal, E. pose proof (norm_pos nf nm b pot Hf i). assert (0 < c) by apply exp_pos. field. split; lra.
Qed.

(** Potentials that agree give the plain average over the frames. *)
Theorem direct_agree nf nm kbT pot obs j i : (0 < nf)%nat -> (0 < nm)%nat -> (i < nm)%nat ->
  (forall f k, (k < nm)%nat -> pot f k = pot f i) -> direct_reweight nf nm kbT pot obs j i = time_mean nf obs j.
Proof.
  intros Hf Hm Hi A. unfold direct_reweight, direct_b, time_mean, weight.
  assert (E : forall g, raw_weight nm (1 / kbT) pot g i = 1).
  { intros g. unfold raw_weight, frame_mean. rewrite (Rsum_ext nm _ (fun _ => pot g i)) by (intros k Hk; now apply A).
    rewrite Rsum_const. pose proof (INR_pos nm Hm). replace (- (1 / kbT) * (pot g i - INR nm * pot g i / INR nm)) with 0.
    - apply exp_0.
    - replace (INR nm * pot g i / INR nm) with (pot g i) by (field; lra). ring. }
  rewrite (Rsum_ext nf (fun g => raw_weight _ _ _ _ _) (fun _ => 1)) by (intros; apply E). rewrite Rsum_const.
  rewrite (Rsum_ext nf _ (fun f => obs f j / INR nf)). 2:{ intros f _. rewrite E. pose proof (INR_pos nf Hf). field. lra. }
  now rewrite Rsum_div.
Qed.

Example direct_case : direct_reweight 2 3 1 (fun f _ => INR f) (fun f _ => INR f) 0 2 = 1 / 2.
Proof. rewrite direct_agree; [unfold time_mean; cbn; lra|lia|lia|lia|reflexivity]. Qed.

(** ** C254 cumulant expansion *)
(** the spec: average minus beta times the covariance of the observable with the potential relative to the committee mean *)
Definition cov (nf : nat) (x y : nat -> R) : R :=
  let mx := Rsum nf x / INR nf in let my := Rsum nf y / INR nf in Rsum nf (fun f => (x f - mx) * (y f - my)) / INR nf.
Lemma cov_alt nf x y : (0 < nf)%nat -> cov nf x y = Rsum nf (fun f => x f * y f) / INR nf - Rsum nf x / INR nf * (Rsum nf y / INR nf).
Proof.
  intros H. unfold cov. set (mx := Rsum nf x / INR nf). set (my := Rsum nf y / INR nf). pose proof (INR_pos nf H).
  rewrite (Rsum_ext nf _ (fun f => x f * y f + (- my * x f + (- mx * y f + mx * my)))) by (intros; ring).
  rewrite !Rsum_plus, !Rsum_scal, Rsum_const. unfold mx, my. field. lra.
Qed.
Theorem cea_covariance nf nm kbT pot obs j i : (0 < nf)%nat ->
  CEA nf nm kbT pot obs j i = time_mean nf obs j - 1 / kbT * cov nf (fun f => obs f j) (fun f => pot f i - frame_mean nm pot f).
Proof.
  intros H. rewrite cov_alt by easy. unfold CEA, time_mean, h_matrix. pose proof (INR_pos nf H).
  rewrite (Rsum_ext nf (fun f => obs f j * _) (fun f => 1 / kbT * (obs f j * (pot f i - frame_mean nm pot f)))) by (intros; ring).
  rewrite !Rsum_scal. unfold Rdiv. ring.
Qed.
(** The averages of the models scatter around the plain average: their mean is the average of the observable. *)
Theorem cea_mean nf nm kbT pot obs j : (0 < nf)%nat -> (0 < nm)%nat ->
  mean nm (CEA nf nm kbT pot obs j) = time_mean nf obs j.
Proof.
  intros Hf Hm. unfold mean. pose proof (INR_pos nm Hm). pose proof (INR_pos nf Hf).
  assert (Z : forall f, Rsum nm (fun i => h_matrix nm (1 / kbT) pot f i) = 0).
  { intros f. unfold h_matrix. rewrite Rsum_scal, Rsum_minus, Rsum_const. unfold frame_mean.
    replace (Rsum nm (fun i => pot f i)) with (Rsum nm (pot f)) by (apply Rsum_ext; easy).
    replace (Rsum nm (pot f) - INR nm * (Rsum nm (pot f) / INR nm)) with 0 by (field; lra). ring. }
  unfold CEA. rewrite Rsum_plus, Rsum_minus, Rsum_const, Rsum_div, Rsum_scal. unfold time_mean at 3. rewrite Rsum_div.
  rewrite (Rsum_swap nm nf). rewrite (Rsum_0 nf). 2:{ intros f _. now rewrite Rsum_scal, Z, Rmult_0_r. }
  rewrite (Rsum_swap nm nf). rewrite (Rsum_0 nf _ (fun f _ => Z f)). unfold Rdiv. field. lra.
Qed.
(** It is the expansion of the direct reweighting to first order in the inverse temperature: value and slope at beta = 0. *)
Theorem cea_first_order nf nm kbT pot obs j i : (0 < nf)%nat -> exists slope,
  derivable_pt_lim (fun b => direct_b nf nm b pot obs j i) 0 slope /\
  CEA nf nm kbT pot obs j i = direct_b nf nm 0 pot obs j i + 1 / kbT * slope.
Proof.
  intros H. pose proof (INR_pos nf H) as HN. set (d := fun f => pot f i - frame_mean nm pot f). set (o := fun f => obs f j).
  set (N := fun b => Rsum nf (fun f => o f * exp (- b * d f))). set (D := fun b => Rsum nf (fun f => exp (- b * d f))).
  assert (HD : forall b, 0 < D b) by (intros b; apply Rsum_pos; [easy|intros; apply exp_pos]).
  assert (E : forall b, N b / D b = direct_b nf nm b pot obs j i).
  { intros b. unfold direct_b, weight, N. rewrite <- Rsum_div. apply Rsum_ext. intros f _. unfold D, raw_weight, d, o, Rdiv.
    rewrite Rmult_assoc. reflexivity. }
  assert (DE : forall f, derivable_pt_lim (fun b => exp (- b * d f)) 0 (- d f)).
  { intros f. apply derivable_eq with (exp (- 0 * d f) * (- d f)); [rewrite Ropp_0, Rmult_0_l, exp_0; ring|].
    apply (derivable_pt_lim_comp (fun b => - b * d f) exp 0 (- d f) (exp (- 0 * d f))).
    - apply derivable_ext with (fun b => (- d f) * b); [intros; ring|]. apply derivable_eq with (- d f * 1); [ring|].
      apply (derivable_pt_lim_scal id (- d f) 0 1), derivable_pt_lim_id.
    - apply derivable_pt_lim_exp. }
  assert (DD : derivable_pt_lim D 0 (Rsum nf (fun f => - d f))).
  { apply (derivable_Rsum nf (fun f b => exp (- b * d f))). intros f _. apply DE. }
  assert (DN : derivable_pt_lim N 0 (Rsum nf (fun f => o f * - d f))).
  { apply (derivable_Rsum nf (fun f b => o f * exp (- b * d f))). intros f _.
    apply (derivable_pt_lim_scal (fun b => exp (- b * d f)) (o f) 0 (- d f)), DE. }
  assert (D0 : D 0 = INR nf). { unfold D. rewrite (Rsum_ext nf _ (fun _ => 1)); [rewrite Rsum_const; ring|]. intros; now rewrite Ropp_0, Rmult_0_l, exp_0. }
  assert (N0 : N 0 = Rsum nf o). { unfold N. apply Rsum_ext. intros. rewrite Ropp_0, Rmult_0_l, exp_0. ring. }
  exists ((Rsum nf (fun f => o f * - d f) * D 0 - Rsum nf (fun f => - d f) * N 0) / (Rsqr (D 0))). split.
  - apply derivable_ext with (fun b => N b / D b); [exact E|]. apply (derivable_pt_lim_div N D 0 _ _ DN DD). pose proof (HD 0); lra.
  - rewrite <- E, D0, N0, cea_covariance, cov_alt by easy. fold d. fold o. unfold time_mean. fold o.
    rewrite (Rsum_ext nf (fun f => o f * - d f) (fun f => -1 * (o f * d f))) by (intros; ring).
    rewrite (Rsum_ext nf (fun f => - d f) (fun f => -1 * d f)) by (intros; ring). rewrite !Rsum_scal.
    replace (Rsum nf (fun f => obs f j)) with (Rsum nf o) by easy. generalize (1 / kbT); intros b.
    replace (Rsum nf (fun f => d f)) with (Rsum nf d) by easy. unfold Rsqr. 
    change (Rsum nf (fun f : nat => obs f j * (pot f i - frame_mean nm pot f))) with (Rsum nf (fun i : nat => o i * d i)). field. lra.
Qed.

(** ** C255 several models of the observable *)
(** variance, with divisor n - 1, of a whole table of [a] rows and [b] columns *)
Definition table_var (a b : nat) (x : nat -> nat -> R) : R :=
  let m := Rsum a (fun j => Rsum b (x j)) / (INR a * INR b) in
  Rsum a (fun j => Rsum b (fun i => (x j i - m) * (x j i - m))) / (INR a * INR b - 1).
(** the calculation with the arguments of CEA in their order *)
Definition uncertainty_swapped_back (nf nm no : nat) (kbT : R) (pot obs : nat -> nat -> R) : R :=
  let fac_a := INR nm * (INR no - 1) / (INR nm * INR no - 1) in
  let fac_aV := (INR nm - 1) * INR no / (INR nm * INR no - 1) in
  fac_a * var1 no (time_mean nf obs) + fac_aV * mean no (fun j => var1 nm (CEA nf nm kbT pot obs j)).
Lemma sum_sq n (x : nat -> R) m : (0 < n)%nat -> Rsum n (fun i => (x i - m) * (x i - m)) =
  Rsum n (fun i => (x i - Rsum n x / INR n) * (x i - Rsum n x / INR n)) + INR n * ((Rsum n x / INR n - m) * (Rsum n x / INR n - m)).
Proof.
  intros H. pose proof (INR_pos n H). set (a := Rsum n x / INR n).
  rewrite (Rsum_ext n _ (fun i => (x i - a) * (x i - a) + (2 * (a - m) * x i + (a - m) * (- a - m)))) by (intros; ring).
  rewrite !Rsum_plus, Rsum_scal, Rsum_const. replace (Rsum n x) with (INR n * a) by (unfold a; field; lra). ring.
Qed.
(** With the arguments in their order the total would be the variance of all the averages, one for each model of the observable
    and each potential. *)
Theorem uncertainty_total nf nm no kbT pot obs : (0 < nf)%nat -> (1 < nm)%nat -> (1 < no)%nat ->
  uncertainty_swapped_back nf nm no kbT pot obs = table_var no nm (CEA nf nm kbT pot obs).
Proof.
  intros Hf Hm Ho. unfold uncertainty_swapped_back, table_var.
  assert (1 < INR nm) by (apply (lt_INR 1); lia). assert (1 < INR no) by (apply (lt_INR 1); lia).
  set (T := CEA nf nm kbT pot obs). set (A := time_mean nf obs).
  assert (R : forall j, Rsum nm (T j) / INR nm = A j) by (intros j; apply (cea_mean nf nm kbT pot obs j); lia).
  set (m := Rsum no (fun j => Rsum nm (T j)) / (INR no * INR nm)).
  assert (M : Rsum no A / INR no = m).
  { unfold m. rewrite (Rsum_ext no (fun j => Rsum nm (T j)) (fun j => INR nm * A j)).
    - rewrite Rsum_scal. replace (Rsum no (fun j => A j)) with (Rsum no A) by easy. field. lra.
    - intros j _. rewrite <- R. field. lra. }
  rewrite (Rsum_ext no (fun j => Rsum nm (fun i => (T j i - m) * (T j i - m))) (fun j => (INR nm - 1) * var1 nm (T j) + INR nm * ((A j - m) * (A j - m)))).
  2:{ intros j _. rewrite sum_sq by lia. rewrite R. f_equal. unfold var1. rewrite R. field. lra. }
  rewrite Rsum_plus, !Rsum_scal. unfold mean. unfold var1 at 1. rewrite M. cbv zeta.
  replace (Rsum no (fun i => var1 nm (T i))) with (Rsum no (fun j => var1 nm (T j))) by easy.
  assert (INR nm * INR no - 1 <> 0). { assert (1 * 1 < INR nm * INR no) by (apply Rmult_le_0_lt_compat; lra). lra. }
  field. repeat split; lra.
Qed.
(** The code gives the arguments the other way round: when the models of the observable agree it reports no uncertainty at all,
    whatever the potentials. *)
Theorem uncertainty_agree nf nm no kbT pot obs : (0 < nf)%nat -> (0 < nm)%nat -> (1 < no)%nat ->
  (forall f j, obs f j = obs f 0%nat) -> uncertainty nf nm no kbT pot obs = (time_mean nf obs 0, 0, 0, 0).
Proof.
  intros Hf Hm Ho A. assert (1 < INR no) by (apply (lt_INR 1); lia). pose proof (INR_pos nm Hm).
  assert (V : forall x, (forall i, x i = x 0%nat) -> mean no x = x 0%nat /\ var1 no x = 0).
  { intros x C. assert (E : Rsum no x / INR no = x 0%nat).
    { rewrite (Rsum_ext no x (fun _ => x 0%nat)) by (intros; apply C). rewrite Rsum_const. field. lra. }
    split; [exact E|]. unfold var1. rewrite E. rewrite (Rsum_0 no) by (intros i _; rewrite C; ring). unfold Rdiv. ring. }
  assert (TM : forall j, time_mean nf obs j = time_mean nf obs 0).
  { intros j. unfold time_mean. f_equal. apply Rsum_ext. intros f _. apply A. }
  assert (TB : forall r, var1 no (CEA nf no kbT obs pot r) = 0).
  { intros r. apply V. intros i. unfold CEA, h_matrix, time_mean. f_equal; [f_equal|f_equal]; f_equal; apply Rsum_ext; intros f _; now rewrite (A f i). }
  destruct (V (time_mean nf obs) TM) as [V1 V2]. unfold uncertainty. cbv zeta. rewrite V1, V2.
  assert (Z : mean nm (fun r => var1 no (CEA nf no kbT obs pot r)) = 0).
  { unfold mean. rewrite (Rsum_0 nm) by (intros; apply TB). unfold Rdiv. ring. }
  rewrite Z. repeat f_equal. ring.
Qed.
(** Two frames, two potentials, two equal observables: the total should be 1/12, and is reported as 0. *)
Definition case_pot (f i : nat) : R := match f, i with 1%nat, 0%nat => 1 | 1%nat, 1%nat => -1 | _, _ => 0 end.
Definition case_obs (f j : nat) : R := match f with 1%nat => 1 | _ => 0 end.
Theorem uncertainty_refuted : exists nf nm no kbT pot obs, (0 < nf)%nat /\ (1 < nm)%nat /\ (1 < no)%nat /\ 0 < kbT /\
  snd (uncertainty nf nm no kbT pot obs) = 0 /\ table_var no nm (CEA nf nm kbT pot obs) = 1 / 12.
Proof.
  exists 2%nat, 2%nat, 2%nat, 1, case_pot, case_obs. repeat (split; [lia||lra|]). split.
  - rewrite uncertainty_agree; [reflexivity|lia|lia|lia|intros [|[|]] j; reflexivity].
  - unfold table_var, CEA, time_mean, h_matrix, frame_mean. cbn [Rsum case_pot case_obs]. cbn [INR]. field.
Qed.
(** Potentials that agree still give it an uncertainty of the potentials. *)
Theorem uncertainty_spurious : exists nf nm no kbT pot obs, (forall f i, pot f i = pot f 0%nat) /\
  0 < snd (fst (uncertainty nf nm no kbT pot obs)) /\ mean no (fun j => var1 nm (CEA nf nm kbT pot obs j)) = 0.
Proof.
  exists 2%nat, 2%nat, 2%nat, 1, case_obs, case_pot. split; [intros [|[|]] j; reflexivity|].
  unfold uncertainty, mean, var1, CEA, time_mean, h_matrix, frame_mean. cbn [Rsum case_pot case_obs fst snd]. cbn [INR]. split; [|field]. lra.
Qed.

(** l[::s] takes the lines 0, s, 2s, ... *)
Lemma every_from_nth {A} s (l : list A) : (0 < s)%nat -> forall k n, nth_error (every_from k s l) n = nth_error l (k + n * s).
Proof.
  intros H. induction l as [|x l IH]; intros k n; [destruct n, (k + _)%nat; now destruct (k + 0 * s)%nat || reflexivity|].
  cbn [every_from]. destruct k as [|k].
  - destruct n as [|n]; [reflexivity|]. cbn [nth_error]. rewrite IH. replace (0 + S n * s)%nat with (S (pred s + n * s)) by lia. reflexivity.
  - rewrite IH. reflexivity.
Qed.
(** A positive stride takes every [s]-th line of the potentials, and all of the observables. *)
Theorem tables_positive {A B} s (pot : list A) (obs : list B) : (0 < s)%nat -> exists p,
  tables (Pos s) pot obs = Some (p, obs) /\ forall n, nth_error p n = nth_error pot (n * s).
Proof. intros H. exists (every s pot). split; [reflexivity|]. intros n. apply (every_from_nth s pot H 0 n). Qed.
(** A negative stride, documented for observables printed more often, is never carried out. *)
Theorem tables_negative_refuted {A B} s (pot : list A) (obs : list B) : tables (Neg s) pot obs = None.
Proof. reflexivity. Qed.

(** ** C256 weights of the frames of a parallel tempering run *)
Lemma logsumlog_ln a b : fst (logsumlog (a, 1) (b, 1)) = ln (exp a + exp b).
Proof.
  unfold logsumlog. destruct (Rlt_dec b a); cbn [fst].
  - replace (exp a + exp b) with (exp a * (1 + 1 * exp (b - a))).
    + pose proof (exp_pos (b - a)). rewrite ln_mult, ln_exp; [reflexivity|apply exp_pos|lra].
    + rewrite Rmult_plus_distr_l, Rmult_1_l, Rmult_1_r, <- exp_plus. do 2 f_equal. ring.
  - replace (exp a + exp b) with (exp b * (1 + 1 * exp (a - b))).
    + pose proof (exp_pos (a - b)). rewrite ln_mult, ln_exp; [reflexivity|apply exp_pos|lra].
    + rewrite Rmult_plus_distr_l, Rmult_1_l, Rmult_1_r, <- exp_plus, Rplus_comm. do 2 f_equal. ring.
Qed.
Section Para.
Variables (temp ttemp : R) (skip : nat).
Let c := 1 / temp - 1 / ttemp.
(** potentials of the frames counted *)
Definition counted (l : list (nat * R)) : list R := map snd (filter (fun x => Nat.ltb skip (fst x)) l).
(** relative weight of a potential [v] when [v0] has weight 1 *)
Definition rel (v0 v : R) : R := exp ((v - v0) * c).
Definition good (v0 : R) (done : list R) (s : pw) : Prop :=
  ref s = v0 /\ nw s = List.length done /\ exp (tw s) = Rsuml (map (rel v0) done) /\
  exp (tw2 s) = Rsuml (map (fun v => rel v0 v * rel v0 v) done).
Lemma para_good l : forall v0 done s, done <> [] -> good v0 done s -> good v0 (done ++ counted l) (fst (para_run temp ttemp skip s l)).
Proof.
  induction l as [|[step v] l IH]; intros v0 done s N G.
  - now rewrite app_nil_r.
  - cbn [para_run]. unfold para_line. destruct G as (G1 & G2 & G3 & G4).
    assert (Z : Nat.eqb (nw s) 0 = false) by (rewrite G2; destruct done; [easy|reflexivity]). rewrite Z.
    rewrite Z. rewrite G1. fold c. unfold counted. cbn [filter fst]. destruct (Nat.ltb skip step) eqn:K.
    + cbn [map snd]. match goal with |- context[para_run _ _ _ ?s' l] => set (s1 := s') end.
      assert (G : good v0 (done ++ [v]) s1).
      { unfold s1. split; [reflexivity|]. cbn [nw tw tw2]. rewrite app_length, G2, !map_app, !Rsuml_app. cbn [List.length map Rsuml].
        split; [lia|]. rewrite !logsumlog_ln. pose proof (exp_pos (tw s)). pose proof (exp_pos (tw2 s)).
        rewrite !exp_ln by (apply Rplus_lt_0_compat; apply exp_pos). rewrite G3, G4. unfold rel. split; [ring|].
        rewrite <- exp_plus. rewrite Rplus_0_r. do 2 f_equal. ring. }
      specialize (IH v0 (done ++ [v]) s1 ltac:(now destruct done) G). rewrite <- app_assoc in IH. cbn [app] in IH.
      destruct (para_run temp ttemp skip s1 l). exact IH.
    + match goal with |- context[para_run _ _ _ ?s' l] => set (s1 := s') end.
      specialize (IH v0 done s1 N ltac:(unfold s1; repeat split; easy)). destruct (para_run temp ttemp skip s1 l). exact IH.
Qed.
Lemma para_start l : forall r v0 vs, counted l = v0 :: vs -> good v0 (v0 :: vs) (fst (para_run temp ttemp skip (mkpw r 0 0 0) l)).
Proof.
  induction l as [|[step v] l IH]; intros r v0 vs E; [discriminate|]. cbn [para_run]. unfold para_line. cbn [nw Nat.eqb ref tw tw2].
  unfold counted in E. cbn [filter fst] in E. destruct (Nat.ltb skip step) eqn:K.
  - cbn [map snd] in E. injection E as E1 E2. subst v0 vs. replace ((v - v) * (1 / temp - 1 / ttemp)) with 0 by ring.
    match goal with |- context[para_run _ _ _ ?s' l] => set (s1 := s') end.
    assert (G : good v [v] s1).
    { unfold s1. repeat split; cbn [tw tw2 map Rsuml]; unfold rel; rewrite exp_0; replace ((v - v) * c) with 0 by ring; rewrite exp_0; ring. }
    pose proof (para_good l v [v] s1 ltac:(easy) G) as P. destruct (para_run temp ttemp skip s1 l). exact P.
  - specialize (IH v v0 vs E). destruct (para_run temp ttemp skip (mkpw v 0 0 0) l). exact IH.
Qed.
End Para.
Lemma Rsuml_pos_map {A} (f : A -> R) l : (forall x, 0 < f x) -> l <> [] -> 0 < Rsuml (map f l).
Proof.
  intros P. destruct l as [|a l]; [easy|]. intros _. cbn [map Rsuml]. pose proof (P a).
  assert (0 <= Rsuml (map f l)). { induction l as [|b l IH]; cbn; [lra|]. pose proof (P b). lra. } lra.
Qed.
(** Effective fraction of independent frames: the square of the sum of the weights over the number of frames times the sum of the
    squares. *)
Definition fraction (w : list R) : R :=
  (Rsuml w * Rsuml w) / (INR (List.length w) * Rsuml (map (fun x => x * x) w)).
(** The factor written for a replica is this fraction, for the weights exp(V (1/T - 1/T0)) of the frames after the ones skipped. *)
Theorem para_weight temp ttemp skip l : counted skip l <> [] ->
  global_weight (fst (para_run temp ttemp skip pw0 l)) = fraction (map (fun v => exp (v * (1 / temp - 1 / ttemp))) (counted skip l)).
Proof.
  intros N. destruct (counted skip l) as [|v0 vs] eqn:E; [easy|]. clear N. set (k := 1 / temp - 1 / ttemp).
  destruct (para_start temp ttemp skip l 0 v0 vs E) as (_ & G2 & G3 & G4). unfold pw0, global_weight.
  set (s := fst _) in *. clearbody s. set (l0 := v0 :: vs) in *.
  replace (exp (tw2 s - 2 * tw s)) with (exp (tw2 s) / (exp (tw s) * exp (tw s))).
  2:{ unfold Rdiv. rewrite <- exp_plus, <- exp_Ropp, <- exp_plus. f_equal. ring. }
  rewrite G2, G3, G4. unfold fraction. rewrite map_length, map_map. set (e := exp (v0 * k)).
  assert (R1 : forall v, exp (v * k) = e * rel temp ttemp v0 v). { intros v. unfold rel, e. rewrite <- exp_plus. fold k. f_equal. ring. }
  rewrite (Rsuml_map_ext (fun v => exp (v * k)) (fun v => e * rel temp ttemp v0 v)) by (intros; apply R1).
  rewrite (Rsuml_map_ext (fun x => exp (x * k) * exp (x * k)) (fun v => (e * e) * (rel temp ttemp v0 v * rel temp ttemp v0 v))).
  2:{ intros v _. rewrite R1. ring. }
  rewrite !Rsuml_map_scal. assert (0 < e) by apply exp_pos.
  assert (0 < Rsuml (map (rel temp ttemp v0) l0)) by (apply Rsuml_pos_map; [intros; apply exp_pos|easy]).
  assert (0 < Rsuml (map (fun v => rel temp ttemp v0 v * rel temp ttemp v0 v) l0)).
  { apply Rsuml_pos_map; [|easy]. intros. apply Rmult_lt_0_compat; apply exp_pos. }
  assert (0 < INR (List.length l0)) by (apply INR_pos; cbn; lia).
  replace (Rsuml (map (fun x => rel temp ttemp v0 x) l0)) with (Rsuml (map (rel temp ttemp v0) l0)) by easy. field. repeat split; lra.
Qed.
(** sums of squares: Cauchy and Schwarz *)
Lemma cauchy_ones l : Rsuml l * Rsuml l <= INR (List.length l) * Rsuml (map (fun x => x * x) l).
Proof.
  induction l as [|a l IH]; [cbn; lra|]. cbn [Rsuml map List.length]. rewrite S_INR.
  assert (K : 2 * a * Rsuml l <= INR (List.length l) * (a * a) + Rsuml (map (fun x => x * x) l)).
  { clear IH. induction l as [|b l IH]; [cbn; lra|]. cbn [Rsuml map List.length]. rewrite S_INR. assert (0 <= (a - b) * (a - b)) by (apply Rle_0_sqr). lra. }
  lra.
Qed.
(** It lies between zero and one, and is one at the temperature of the replica. *)
Theorem para_weight_bounds temp ttemp skip l : counted skip l <> [] ->
  0 < global_weight (fst (para_run temp ttemp skip pw0 l)) <= 1 /\
  (temp = ttemp -> global_weight (fst (para_run temp ttemp skip pw0 l)) = 1).
Proof.
  intros N. rewrite para_weight by easy. set (w := map _ _).
  assert (W : 0 < Rsuml w) by (apply Rsuml_pos_map; [intros; apply exp_pos|easy]).
  assert (L : 0 < INR (List.length w)). { apply INR_pos. unfold w. rewrite map_length. destruct (counted skip l); [easy|cbn; lia]. }
  assert (Q : 0 < Rsuml (map (fun x => x * x) w)).
  { unfold w. rewrite map_map. apply Rsuml_pos_map; [|easy]. intros. apply Rmult_lt_0_compat; apply exp_pos. }
  assert (LQ : 0 < INR (List.length w) * Rsuml (map (fun x => x * x) w)) by now apply Rmult_lt_0_compat.
  split; [split|].
  - unfold fraction. apply Rdiv_lt_0_compat; [now apply Rmult_lt_0_compat|easy].
  - unfold fraction. apply Rmult_le_reg_r with (1 := LQ). unfold Rdiv. rewrite Rmult_assoc, Rinv_l, Rmult_1_r, Rmult_1_l by lra. apply cauchy_ones.
  - intros ->. unfold fraction. assert (U : w = map (fun _ => 1) (counted skip l)).
    { unfold w. apply map_ext. intros v. replace (v * (1 / ttemp - 1 / ttemp)) with 0 by ring. apply exp_0. }
    rewrite U in *. rewrite map_map, !Rsuml_map_const, map_length in *. field. lra.
Qed.
(** The log-weights written for two frames after the first one counted differ by the difference of potential times 1/T - 1/T0. *)
Lemma para_lines_after temp ttemp skip l : forall s, nw s <> 0%nat ->
  snd (para_run temp ttemp skip s l) = map (fun x => (snd x - ref s) * (1 / temp - 1 / ttemp)) l.
Proof.
  induction l as [|[step v] l IH]; intros s N; [reflexivity|]. cbn [para_run]. unfold para_line.
  destruct (Nat.eqb_spec (nw s) 0) as [|_]; [easy|]. destruct (Nat.eqb_spec (nw s) 0) as [|_]; [easy|].
  match goal with |- context[para_run _ _ _ ?s' l] => set (s1 := s') end.
  assert (H : nw s1 <> 0%nat /\ ref s1 = ref s) by (unfold s1; destruct (Nat.ltb skip step); split; easy).
  specialize (IH s1 (proj1 H)). destruct (para_run temp ttemp skip s1 l) as [s2 o]. cbn [snd] in *. rewrite IH, (proj2 H). reflexivity.
Qed.
Theorem para_lines temp ttemp skip step v l : (skip < step)%nat ->
  snd (para_run temp ttemp skip pw0 ((step, v) :: l)) = map (fun x => (snd x - v) * (1 / temp - 1 / ttemp)) ((step, v) :: l).
Proof.
  intros H. cbn [para_run]. unfold para_line, pw0. cbn [nw Nat.eqb ref]. apply Nat.ltb_lt in H. rewrite H.
  match goal with |- context[para_run _ _ _ ?s' l] => set (s1 := s') end.
  pose proof (para_lines_after temp ttemp skip l s1 ltac:(easy)) as P. destruct (para_run temp ttemp skip s1 l). cbn [snd] in *. now rewrite P.
Qed.
(** Until the first frame is counted every line is given log-weight 0, whatever its potential. *)
Theorem para_skipped temp ttemp skip l : (forall x, In x l -> (fst x <= skip)%nat) ->
  snd (para_run temp ttemp skip pw0 l) = map (fun _ => 0) l.
Proof.
  unfold pw0. generalize 0 at 1 as r. induction l as [|[step v] l IH]; intros r H; [reflexivity|]. cbn [para_run]. unfold para_line. cbn [nw Nat.eqb ref tw tw2].
  assert (K : Nat.ltb skip step = false) by (apply Nat.ltb_ge; exact (H (step, v) (or_introl eq_refl))). rewrite K.
  specialize (IH v (fun x I => H x (or_intror I))). destruct (para_run temp ttemp skip (mkpw v 0 0 0) l). cbn [snd map] in *. rewrite IH. f_equal. ring.
Qed.
Theorem para_lines_refuted : exists temp ttemp skip l i j v w, 0 < temp /\ 0 < ttemp /\
  nth_error l i = Some v /\ nth_error l j = Some w /\
  nth i (snd (para_run temp ttemp skip pw0 l)) 0 - nth j (snd (para_run temp ttemp skip pw0 l)) 0 <> (snd v - snd w) * (1 / temp - 1 / ttemp).
Proof.
  exists 1, 2, 2000%nat, [(0%nat, 1); (1%nat, 5)], 1%nat, 0%nat, (1%nat, 5), (0%nat, 1).
  split; [lra|]. split; [lra|]. split; [reflexivity|]. split; [reflexivity|].
  rewrite para_skipped. - cbn [map nth snd]. lra.
  - intros x [<-|[<-|[]]]; cbn [fst]; lia.
Qed.
Example para_case : counted 10 [(0%nat, 7); (11%nat, 1); (12%nat, 2)] = [1; 2].
Proof. reflexivity. Qed.

(** The sums of a file are the ones used when every file with a potential is written at that step; *)
Theorem slots_aligned step files : (forall s, In s files -> step mod s = 0%nat) ->
  slots step files = map (fun k => (k, k)) (seq 0 (List.length files)).
Proof.
  unfold slots. intros H.
  assert (G : forall k, slots_from step k k files = map (fun k => (k, k)) (seq k (List.length files))); [|apply G].
  induction files as [|s files IH]; intros k; [reflexivity|].
  cbn [slots_from List.length seq map]. rewrite (H s (or_introl eq_refl)). cbn [Nat.eqb]. f_equal. apply IH. intros s' I. apply H. now right.
Qed.
(** with different strides the frames of a file are added to the sums of another. *)
Theorem slots_refuted : exists step files k wk, In (k, wk) (slots step files) /\ k <> wk.
Proof. exists 1%nat, [2%nat; 1%nat], 1%nat, 0%nat. split; [left; reflexivity|lia]. Qed.
(** No simulation that can be read from an input file is accepted. *)
Theorem para_accepts_refuted : forall mode, In mode modes -> para_accepts mode = false.
Proof. intros m [<-|[<-|[]]]; reflexivity. Qed.

Print Assumptions direct_weights.
Print Assumptions direct_bounds.
Print Assumptions direct_shift.
Print Assumptions direct_agree.
Print Assumptions cea_covariance.
Print Assumptions cea_mean.
Print Assumptions cea_first_order.
Print Assumptions uncertainty_total.
Print Assumptions uncertainty_agree.
Print Assumptions uncertainty_refuted.
Print Assumptions uncertainty_spurious.
Print Assumptions tables_positive.
Print Assumptions tables_negative_refuted.
Print Assumptions para_weight.
Print Assumptions para_weight_bounds.
Print Assumptions para_lines.
Print Assumptions para_skipped.
Print Assumptions para_lines_refuted.
Print Assumptions slots_aligned.
Print Assumptions slots_refuted.
Print Assumptions para_accepts_refuted.
