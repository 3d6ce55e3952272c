(** Lemmas on the exchange potential: relabelled bosons and the estimators. *)
Require Import Reals List Arith Lia Lra Permutation.
From Verif Require Import RSum ExchModel ExchProofs ExchPerm.
Import ListNotations.
Local Open Scope R_scope.

Definition with_n (x : expot) (n : nat) : expot := mkexpot n (nbeads x) (boson_m x) (omegan2 x) (betaP x).
(** Boson [l] of the new configuration is boson [nth l w] of the old one. *)
Definition relabel (q : config) (w : list nat) : config := fun j l k => q j (nth l w 0%nat) k.
Definition chain (G : nat -> R) (H : nat -> nat -> R) (u v : nat) : R :=
  Rsum (S (v - u)) (fun i => G (u + i)%nat) + Rsum (v - u) (fun i => H (S (u + i)) (u + i)%nat) + H u v.
Lemma in_cycle_chain x G H v k : (k <= v)%nat -> (v < nbosons x)%nat -> in_cycle x G H (v - k) v = chain G H (v - k) v.
Proof.
  induction k as [|k IH]; intros Hk Hv.
  - rewrite Nat.sub_0_r, in_cycle_single by easy. unfold chain. rewrite Nat.sub_diag. cbn. rewrite Nat.add_0_r. ring.
  - rewrite in_cycle_step by lia. replace (v - S k + 1)%nat with (v - k)%nat by lia. rewrite IH by lia. unfold chain.
    replace (v - (v - S k))%nat with (S k) by lia. replace (v - (v - k))%nat with k by lia.
    rewrite (Rsum_first (S k)), (Rsum_first k (fun i => H (S (v - S k + i)) (v - S k + i)%nat)). rewrite Nat.add_0_r.
    replace (S (v - S k)) with (v - k)%nat by lia.
    rewrite (Rsum_ext (S k) (fun i => G (v - S k + S i)%nat) (fun i => G (v - k + i)%nat)) by (intros i Hi; f_equal; lia).
    rewrite (Rsum_ext k (fun i => H (S (v - S k + S i)) (v - S k + S i)%nat) (fun i => H (S (v - k + i)) (v - k + i)%nat)) by (intros i Hi; f_equal; lia).
    ring.
Qed.
Lemma cycle_chain x q u v : (u <= v)%nat -> (v < nbosons x)%nat ->
  get_cycle_energies x q u v = spring_pre x * chain (intra_energy x q) (inter_energy x q) u v.
Proof.
  intros Hu Hv. rewrite cycle_form, (proj2 (Nat.leb_le u v) Hu) by easy. unfold cyc_spec. f_equal.
  replace u with (v - (v - u))%nat by lia. apply in_cycle_chain; lia.
Qed.
Lemma chain_ext G G' H H' u v : (u <= v)%nat -> (forall i, (i <= v)%nat -> G i = G' i) -> (forall i j, (i <= v)%nat -> (j <= v)%nat -> H i j = H' i j) ->
  chain G H u v = chain G' H' u v.
Proof.
  intros Huv HG HH. unfold chain. f_equal; [f_equal |].
  - apply Rsum_ext. intros i Hi. apply HG. lia.
  - apply Rsum_ext. intros i Hi. apply HH; lia.
  - apply HH; lia.
Qed.

(** Positions of the first bosons determine the first potentials. *)
Lemma Aw_local x q q' n n' : 0 < betaP x -> forall u, (u <= n)%nat -> (u <= n')%nat -> (forall j l k, (l < u)%nat -> q j l k = q' j l k) ->
  Aw (with_n x n) (get_cycle_energies (with_n x n) q) u = Aw (with_n x n') (get_cycle_energies (with_n x n') q') u.
Proof.
  intros Hb. induction u as [u IH] using lt_wf_ind. intros Hn Hn' Hq. destruct u as [|u]; [now rewrite !Aw_0|].
  unfold Aw. rewrite !prefix_weight by (try (cbn; lra); cbn; lia). f_equal. apply Rsum_ext. intros v Hv.
  replace (S u - 1)%nat with u by lia. f_equal.
  - specialize (IH v Hv ltac:(lia) ltac:(lia)). unfold Aw in IH. apply IH. intros. apply Hq. lia.
  - cbn [betaP with_n]. f_equal. f_equal. rewrite !cycle_chain by (cbn; lia). f_equal. apply chain_ext; [lia| |].
    + intros i Hi. unfold intra_energy. cbn [nbeads with_n]. apply Rsum_ext. intros j Hj. apply Rsum_ext. intros k Hk. unfold intra. now rewrite !Hq by lia.
    + intros i j Hi Hj. unfold inter_energy, inter. cbn [nbeads with_n]. apply Rsum_ext. intros k Hk. now rewrite !Hq by lia.
Qed.

Section Words.
Variable x : expot.
Variable q : config.
Hypothesis Hb : 0 < betaP x.
Definition link (l m : nat) : R := exp (- betaP x * (spring_pre x * (intra_energy x q l + inter_energy x q l m))).
Fixpoint psum (y : nat) (s : list nat) (z : nat) : R :=
  match s with
  | [] => intra_energy x q y + inter_energy x q y z
  | c :: s' => intra_energy x q y + inter_energy x q y c + psum c s' z
  end.
Lemma pathw_psum s : forall y z, pathw link y s z = exp (- betaP x * (spring_pre x * psum y s z)).
Proof.
  induction s as [|c s IH]; intros y z; cbn [pathw psum]; [easy|]. rewrite IH. unfold link. rewrite <- exp_plus. f_equal. ring.
Qed.
Lemma psum_nth k : forall y s z, (k <= length s)%nat ->
  psum y (firstn k s) z = Rsum (S k) (fun i => intra_energy x q (nth i (y :: s) 0%nat))
     + Rsum k (fun i => inter_energy x q (nth i (y :: s) 0%nat) (nth (S i) (y :: s) 0%nat)) + inter_energy x q (nth k (y :: s) 0%nat) z.
Proof.
  induction k as [|k IH]; intros y s z Hk.
  - cbn. ring.
  - destruct s as [|c s]; [cbn in Hk; lia|]. cbn [firstn psum]. rewrite IH by (cbn in Hk; lia).
    rewrite (Rsum_first (S k) (fun i => intra_energy x q _)), (Rsum_first k (fun i => inter_energy x q _ _)). cbn [nth]. ring.
Qed.
Definition wordw (w : list nat) : R := exp (- betaP x * get_vspring (with_n x (length w)) (relabel q w)).
Lemma wordw_Aw w : wordw w = Aw (with_n x (length w)) (get_cycle_energies (with_n x (length w)) (relabel q w)) (length w).
Proof. easy. Qed.
Lemma wordw_nil : wordw (rev []) = 1.
Proof. rewrite wordw_Aw. apply Aw_0. Qed.
Lemma wordw_prefix w u : (u <= length w)%nat ->
  Aw (with_n x (length w)) (get_cycle_energies (with_n x (length w)) (relabel q w)) u = wordw (firstn u w).
Proof.
  intros Hu. rewrite wordw_Aw. rewrite firstn_length_le by easy. apply Aw_local; [easy | easy | lia |].
  intros j l k Hl. unfold relabel. f_equal. rewrite <- (firstn_skipn u w) at 1. apply app_nth1. rewrite firstn_length_le; easy.
Qed.
Lemma wordw_cons c w : wordw (rev (c :: w)) =
  Rsum (S (length w)) (fun k => pathw link c (firstn k w) c * wordw (rev (skipn k w))) / INR (S (length w)).
Proof.
  set (L := c :: w). set (m := length L). assert (Hm : m = S (length w)) by easy.
  assert (HL : length (rev L) = m) by (rewrite rev_length; easy).
  rewrite wordw_Aw, HL. unfold Aw. rewrite prefix_weight by (try (cbn; lra); cbn; lia). rewrite <- Hm. f_equal.
  rewrite <- (Rsum_rev m). apply Rsum_ext. intros k Hk.
  replace (exp (- betaP (with_n x m) * prefix_V (with_n x m) (get_cycle_energies (with_n x m) (relabel q (rev L))) (m - 1 - k)))
     with (wordw (rev (skipn k w))).
  - rewrite Rmult_comm. f_equal. rewrite pathw_psum. cbn [betaP with_n]. f_equal. f_equal.
    rewrite cycle_chain by (cbn [nbosons with_n]; lia). change (spring_pre (with_n x m)) with (spring_pre x). f_equal. unfold chain. replace (m - 1 - (m - 1 - k))%nat with k by lia.
    rewrite psum_nth by lia.
    assert (Hnth : forall i, (i <= k)%nat -> nth (m - 1 - k + i) (rev L) 0%nat = nth (k - i) L 0%nat).
    { intros i Hi. rewrite rev_nth by (fold m; lia). f_equal. fold m. lia. }
    change (c :: w) with L. f_equal; [f_equal |].
    + rewrite <- (Rsum_rev (S k) (fun i => intra_energy x q (nth i L 0%nat))). apply Rsum_ext. intros i Hi. replace (S k - 1 - i)%nat with (k - i)%nat by lia.
      unfold intra_energy, intra, relabel. cbn [nbeads with_n]. rewrite Hnth by lia. easy.
    + rewrite <- (Rsum_rev k (fun i => inter_energy x q (nth i L 0%nat) (nth (S i) L 0%nat))). apply Rsum_ext. intros i Hi.
      unfold inter_energy, inter, relabel. cbn [nbeads with_n]. rewrite <- (Nat.add_succ_r (m - 1 - k) i).
      rewrite !Hnth by lia. replace (k - 1 - i)%nat with (k - S i)%nat by lia. replace (S (k - S i)) with (k - i)%nat by lia. easy.
    + unfold inter_energy, inter, relabel. cbn [nbeads with_n]. pose proof (Hnth 0%nat ltac:(lia)) as H0. rewrite Nat.add_0_r, Nat.sub_0_r in H0. rewrite H0.
      rewrite rev_nth by (fold m; lia). fold m. replace (m - S (m - 1))%nat with 0%nat by lia. easy.
  - pose proof (wordw_prefix (rev L) (m - 1 - k) ltac:(rewrite HL; lia)) as Q. rewrite HL in Q. unfold Aw in Q. rewrite Q. f_equal.
    rewrite firstn_rev. f_equal. fold m. replace (m - (m - 1 - k))%nat with (S k) by lia. easy.
Qed.
Lemma words_total A : NoDup A -> Rsuml (map wordw (arrangements A)) = per link A A.
Proof.
  intros H. rewrite <- (Rsuml_Permutation (map wordw (map (@rev nat) (arrangements A)))) by (apply Permutation_map; now apply arrangements_rev).
  rewrite map_map. destruct (totals link (fun w => wordw (rev w)) wordw_nil (fun c w _ => wordw_cons c w) (length A) A H eq_refl) as [T _]. exact T.
Qed.
End Words.

(** ** Estimators *)
Lemma fermi_rec x E m : (1 <= m <= nbosons x)%nat ->
  fermi_W x E m = 1 / INR m * Rsum m (fun u => (-1) ^ (m - u - 1) * fermi_W x E u * exp (- betaP x * E u (m - 1)%nat)).
Proof.
  intros Hm. unfold fermi_W.
  apply (runf_up (fun W m => 1 / INR m * Rsum m (fun u => (-1) ^ (m - u - 1) * W u * exp (- betaP x * E u (m - 1)%nat)))); [|easy].
  intros V V' m' Hm' H. f_equal. apply Rsum_ext. intros u Hu. now rewrite H.
Qed.
Lemma fermi_0 x E : fermi_W x E 0%nat = 1.
Proof.
  unfold fermi_W. pose proof (runf_out (fun W m => 1 / INR m * Rsum m (fun u => (-1) ^ (m - u - 1) * W u * exp (- betaP x * E u (m - 1)%nat))) (seq 1 (nbosons x)) (set1 (fun _ => 0) 0 1) 0%nat) as Q.
  unfold runf in Q. unfold fermi_step. rewrite Q by (rewrite in_seq; lia). apply set1_same.
Qed.
Lemma Rsum_abs n f : Rabs (Rsum n f) <= Rsum n (fun i => Rabs (f i)).
Proof. induction n as [|n IH]; cbn; [rewrite Rabs_R0; lra|]. eapply Rle_trans; [apply Rabs_triang|]. lra. Qed.
Lemma fermi_bound x E : 0 < betaP x -> forall m, (m <= nbosons x)%nat -> Rabs (fermi_W x E m) <= Aw x E m.
Proof.
  intros Hb m. induction m as [m IH] using lt_wf_ind. intros Hm. destruct m as [|m]; [rewrite fermi_0, Aw_0, Rabs_R1; lra|].
  rewrite fermi_rec by lia. unfold Aw. rewrite prefix_weight by (try easy; lia). assert (0 < INR (S m)) by (apply lt_0_INR; lia).
  rewrite Rabs_mult, (Rabs_pos_eq (1 / INR (S m))) by (apply Rlt_le, Rdiv_lt_0_compat; lra).
  unfold Rdiv. rewrite Rmult_1_l, Rmult_comm. apply Rmult_le_compat_r; [apply Rlt_le; now apply Rinv_0_lt_compat |].
  eapply Rle_trans; [apply Rsum_abs|]. apply Rsum_le. intros u Hu. rewrite !Rabs_mult, (Rabs_pos_eq (exp _)) by (left; apply exp_pos).
  apply Rmult_le_compat_r; [left; apply exp_pos |]. assert (Rabs (-1) = 1) as H1 by (rewrite Rabs_left; lra). rewrite <- RPow_abs, H1, pow1, Rmult_1_l. apply (IH u); lia.
Qed.
Definition with_beta (x : expot) (b : R) : expot := mkexpot (nbosons x) (nbeads x) (boson_m x) (omegan2 x) b.
Definition kin_g (mf : R) (x : expot) (E : nat -> nat -> R) (est : nat -> R) (m : nat) : R :=
  let V := prefix_V x E in
  let et := etilde mf m (fun u => E u (m - 1)%nat + V u) in
  let sig := fold_left (fun sig k => sig + (est (m - k)%nat - E (m - k)%nat (m - 1)%nat)
                 * exp (- betaP x * (E (m - k)%nat (m - 1)%nat + V (m - k)%nat - et))) (rev (seq 1 m)) 0 in
  sig / (INR m * exp (- betaP x * (V m - et))).
Lemma fold_sum_down (f : nat -> R) m : fold_left (fun s k => s + f (m - k)%nat) (rev (seq 1 m)) 0 = Rsum m f.
Proof.
  assert (G : forall n a, fold_left (fun s k => s + f (m - k)%nat) (rev (seq 1 n)) a = a + Rsum n (fun i => f (m - (n - i))%nat)).
  { induction n as [|n IH]; intros a; [cbn; ring|]. rewrite seq_S, rev_app_distr. cbn [rev app fold_left]. rewrite IH, Rsum_first.
    replace (1 + n)%nat with (S n) by lia. replace (S n - 0)%nat with (S n) by lia. cbn [Nat.sub]. ring. }
  rewrite G, Rplus_0_l. apply Rsum_ext. intros i Hi. f_equal. lia.
Qed.
Lemma kin_g_form mf x E est m : kin_g mf x E est m =
  Rsum m (fun u => (est u - E u (m - 1)%nat) * (exp (- betaP x * E u (m - 1)%nat) * Aw x E u)) / (INR m * Aw x E m).
Proof.
  unfold kin_g. cbv zeta. set (et := etilde _ _ _). 
  pose proof (fold_sum_down (fun u => (est u - E u (m - 1)%nat) * exp (- betaP x * (E u (m - 1)%nat + prefix_V x E u - et))) m) as Q. cbv beta in Q. rewrite Q.
  destruct (Nat.eq_dec m 0) as [->|Hm]; [cbn [Rsum INR]; unfold Rdiv; ring|].
  assert (Hs : forall e, exp (- betaP x * (e - et)) = exp (- betaP x * e) * exp (betaP x * et)) by (intros; rewrite <- exp_plus; f_equal; ring).
  rewrite Hs. unfold Aw.
  rewrite (Rsum_ext m _ (fun u => (est u - E u (m - 1)%nat) * (exp (- betaP x * E u (m - 1)%nat) * exp (- betaP x * prefix_V x E u)) * exp (betaP x * et))).
  2:{ intros u Hu. rewrite Hs, Rmult_plus_distr_l, exp_plus. ring. }
  rewrite Rsum_scal_r. field. repeat split; first [apply Rgt_not_eq, exp_pos | now apply not_0_INR].
Qed.
Lemma kin_est_rec mf x E m : (1 <= m <= nbosons x)%nat -> kin_est mf x E m = kin_g mf x E (kin_est mf x E) m.
Proof.
  intros Hm. unfold kin_est. apply (runf_up (kin_g mf x E)); [|easy]. intros V V' m' Hm' H. rewrite !kin_g_form. f_equal. apply Rsum_ext. intros u Hu. now rewrite H.
Qed.
Lemma kin_est_0 mf x E : kin_est mf x E 0%nat = 0.
Proof. unfold kin_est. apply (runf_out (kin_g mf x E)). rewrite in_seq. lia. Qed.
Lemma derivable_ext_pos f g t l : 0 < t -> (forall s, 0 < s -> f s = g s) -> derivable_pt_lim f t l -> derivable_pt_lim g t l.
Proof.
  intros Ht He H eps Hp. destruct (H eps Hp) as [d Hd]. assert (Hm : 0 < Rmin d t) by (apply Rmin_pos; [apply cond_pos | easy]).
  exists (mkposreal _ Hm). intros h Hh Hl. cbn in Hl. pose proof (Rmin_l d t). pose proof (Rmin_r d t).
  rewrite <- !He; [apply Hd; [easy | lra] | easy |]. assert (Rabs h < t) by lra. apply Rabs_def2 in H2. lra.
Qed.
Lemma kin_deriv mf x E : 0 < betaP x -> forall m, (m <= nbosons x)%nat ->
  derivable_pt_lim (fun b => Aw (with_beta x b) E m) (betaP x) (kin_est mf x E m * Aw x E m).
Proof.
  intros Hb m. induction m as [m IH] using lt_wf_ind. intros Hm. destruct m as [|m].
  - apply (derivable_ext (fun _ => 1)); [intros; symmetry; apply Aw_0 |]. rewrite kin_est_0, Rmult_0_l. apply derivable_pt_lim_const.
  - apply (derivable_ext_pos (fun b => Rsum (S m) (fun u => Aw (with_beta x b) E u * exp (- b * E u m)) * / INR (S m))); [easy | |].
    + intros b Hpb. unfold Aw at 2. rewrite prefix_weight by (try (cbn; lra); cbn; lia). replace (S m - 1)%nat with m by lia. easy.
    + rewrite kin_est_rec, kin_g_form by lia. replace (S m - 1)%nat with m by lia.
      apply (derivable_eq _ _ (Rsum (S m) (fun u => kin_est mf x E u * Aw x E u * exp (- betaP x * E u m) + Aw x E u * (exp (- betaP x * E u m) * - E u m)) * / INR (S m))).
      { unfold Rdiv. rewrite (Rsum_ext (S m) _ (fun u => (kin_est mf x E u - E u m) * (exp (- betaP x * E u m) * Aw x E u))) by (intros; ring).
        field. repeat split; first [apply Rgt_not_eq, exp_pos | apply not_0_INR; lia]. }
      apply (derivable_ext (fun b => / INR (S m) * Rsum (S m) (fun u => Aw (with_beta x b) E u * exp (- b * E u m)))); [intros; ring|].
      rewrite Rmult_comm. apply deriv_scal. apply (derivable_Rsum (S m) (fun u b => Aw (with_beta x b) E u * exp (- b * E u m))). intros u Hu.
      apply (derivable_pt_lim_mult (fun b => Aw (with_beta x b) E u) (fun b => exp (- b * E u m))); [apply IH; lia |].
      apply (derivable_pt_lim_comp (fun b => - b * E u m) exp); [| apply derivable_pt_lim_exp].
      apply (derivable_ext (fun b => - E u m * b)); [intros; ring|]. apply (derivable_eq _ _ (- E u m * 1)); [ring|]. apply deriv_scal, derivable_pt_lim_id.
Qed.
