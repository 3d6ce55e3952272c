(** * Theorems of record: the exchange potential of identical bosons *)
Require Import Reals List Arith Lia Lra Permutation.
From Verif Require Import RSum ExchModel ExchProofs ExchPerm ExchSym.
Import ListNotations.
Local Open Scope R_scope.

(** ** Specification *)
(** In an exchanged ring polymer the bead before bead [j] of boson [l] is its own
    bead [j - 1], and before the first bead the last bead of boson [pred l]. *)
Definition bead_before (P : nat) (q : config) (pred : nat -> nat) : config := fun j l k =>
  match j with O => q (P - 1)%nat (pred l) k | S j' => q j' l k end.
(** Spring energy of the beads of boson [l]. *)
Definition boson_springs (x : expot) (q : config) (pred : nat -> nat) (l : nat) : R :=
  1 / 2 * boson_m x * omegan2 x * Rsum (nbeads x) (fun j => Rsum 3 (fun k => (q j l k - bead_before (nbeads x) q pred j l k) ^ 2)).
(** Energy of the ring through u, u + 1, ..., v and back to u. *)
Definition ring_energy (x : expot) (q : config) (u v : nat) : R :=
  Rsum (S (v - u)) (fun i => boson_springs x q (fun l => if Nat.eqb l u then v else (l - 1)%nat) (u + i)%nat).
(** Energy of all rings when every boson [l] follows boson [nth l s]. *)
Definition permutation_energy (x : expot) (q : config) (s : list nat) : R :=
  Rsum (nbosons x) (boson_springs x q (fun l => nth l s 0%nat)).
(** Inputs the code expects. *)
Definition sound (x : expot) : Prop := (1 <= nbosons x)%nat /\ (2 <= nbeads x)%nat /\ 0 < betaP x /\ 0 < boson_m x /\ 0 < omegan2 x.

Lemma springs_form x q pred l : (1 <= nbeads x)%nat ->
  boson_springs x q pred l = spring_pre x * (intra_energy x q l + inter_energy x q l (pred l)).
Proof.
  intros HP. unfold boson_springs, spring_pre. f_equal. replace (nbeads x) with (S (nbeads x - 1)) at 1 by lia.
  rewrite Rsum_first, Rplus_comm. easy.
Qed.

(** ** C43: cycle energies and potentials *)
Theorem cycle_energy_is_ring x q u v : (1 <= nbeads x)%nat -> (v < nbosons x)%nat ->
  get_cycle_energies x q u v = if Nat.leb u v then ring_energy x q u v else 0.
Proof.
  intros HP Hv. destruct (Nat.leb_spec u v) as [Hu|Hu].
  - rewrite cycle_chain by easy. unfold ring_energy. rewrite (Rsum_ext _ _ (fun i => spring_pre x * (intra_energy x q (u + i)%nat + inter_energy x q (u + i)%nat (if Nat.eqb (u + i) u then v else (u + i - 1)%nat)))).
    2:{ intros i Hi. now rewrite springs_form by easy. }
    rewrite Rsum_scal, Rsum_plus. f_equal. unfold chain. rewrite Rplus_assoc. f_equal.
    rewrite (Rsum_first (v - u)). rewrite Nat.add_0_r, Nat.eqb_refl, Rplus_comm. f_equal. apply Rsum_ext. intros i Hi.
    rewrite (proj2 (Nat.eqb_neq (u + S i) u)) by lia. f_equal; lia.
  - rewrite cycle_form by easy. now rewrite (proj2 (Nat.leb_gt u v) Hu).
Qed.
(** No assertion of the two recursions ever fails. *)
Theorem assertions_hold x E : 0 < betaP x -> snd (prefix_run x E) = true /\ snd (suffix_run x E) = true.
Proof. intros H. split; [now apply prefix_assertions | now apply suffix_assertions]. Qed.
(** The exponentials that are summed are at most one and one of them is one,
    whatever the energies are. *)
Theorem shifted_sum_in_range x (sub : nat -> R) m : 0 < betaP x -> (1 <= m)%nat ->
  (forall u, (u < m)%nat -> exp (- betaP x * (sub u - npmin m sub)) <= 1) /\
  1 <= Rsum m (fun u => exp (- betaP x * (sub u - npmin m sub))) <= INR m.
Proof.
  intros Hb Hm. split; [| now apply shifted_sum_bounds].
  intros u Hu. rewrite <- exp_0. pose proof (npmin_le m sub u Hu) as Hle. destruct (Req_dec (sub u) (npmin m sub)) as [e|n].
  - rewrite e. right. f_equal. ring.
  - left. apply exp_increasing. assert (0 < sub u - npmin m sub) by lra. pose proof (Rmult_lt_0_compat _ _ Hb H). lra.
Qed.
Theorem prefix_recursion x E : 0 < betaP x ->
  prefix_V x E 0%nat = 0 /\
  forall m, (1 <= m <= nbosons x)%nat ->
    exp (- betaP x * prefix_V x E m) = Rsum m (fun u => exp (- betaP x * (prefix_V x E u + E u (m - 1)%nat))) / INR m.
Proof.
  intros Hb. split; [apply prefix_0|]. intros m Hm. rewrite prefix_weight by easy. f_equal. apply Rsum_ext. intros u Hu.
  rewrite <- exp_plus. f_equal. ring.
Qed.
(** The suffix recursion, also at 0 where the code copies the prefix potential. *)
Theorem suffix_recursion x E l : 0 < betaP x -> (l < nbosons x)%nat ->
  exp (- betaP x * suffix_V x E l) = Rsum (nbosons x - l) (fun i => exp (- betaP x * (E l (l + i)%nat + suffix_V x E (S (l + i)))) / INR (S (l + i))).
Proof.
  intros Hb Hl. pose proof (Bw_rec x E Hb ltac:(lia) l Hl) as Q. unfold Bw at 1 in Q. rewrite Q.
  rewrite (Rsum_tail (nbosons x) l (fun p => exp (- betaP x * (E l p + suffix_V x E (S p))) / INR (S p))) by lia.
  apply Rsum_ext. intros p Hp. unfold Kw, Bw. destruct (Nat.leb l p); [| ring]. rewrite Rmult_plus_distr_l, exp_plus. unfold Rdiv. ring.
Qed.
Theorem connection_doubly_stochastic x E : (1 <= nbosons x)%nat -> 0 < betaP x ->
  (forall l u, 0 <= connection_probs x E l u <= 1) /\
  (forall l, (l < nbosons x)%nat -> Rsum (nbosons x) (connection_probs x E l) = 1) /\
  (forall u, (u < nbosons x)%nat -> Rsum (nbosons x) (fun l => connection_probs x E l u) = 1) /\
  (forall l u, (l + 1 < u)%nat -> connection_probs x E l u = 0).
Proof.
  intros HN Hb. split; [| split; [| split]].
  - intros l u. split; [now apply conn_nonneg|].
    destruct (Nat.ltb_spec l (nbosons x)) as [Hl|Hl], (Nat.ltb_spec u (nbosons x)) as [Hu|Hu].
    + rewrite <- (conn_row x E Hb HN l Hl). apply Rsum_ge_term; [easy | intros; now apply conn_nonneg].
    + unfold connection_probs. rewrite (proj2 (Nat.ltb_ge u _) Hu), Bool.andb_false_r. lra.
    + unfold connection_probs. rewrite (proj2 (Nat.ltb_ge l _) Hl). cbn. lra.
    + unfold connection_probs. rewrite (proj2 (Nat.ltb_ge l _) Hl). cbn. lra.
  - intros l. now apply conn_row.
  - intros u. now apply conn_col.
  - intros l u. now apply conn_far.
Qed.

(** ** C89: the forces are minus the gradient of the potential *)
Theorem force_is_gradient x (q : R -> config) (d : config) t : sound x ->
  (forall j l k, derivable_pt_lim (fun s => q s j l k) t (d j l k)) ->
  derivable_pt_lim (fun s => get_vspring x (q s)) t
    (- Rsum (nbeads x) (fun j => Rsum (nbosons x) (fun l => Rsum 3 (fun k => get_fspring x (q t) j l k * d j l k)))).
Proof.
  intros (HN & HP & Hb & _ & _) Hq. eapply derivable_eq; [| now apply (deriv_vspring x q d t Hb HN Hq)].
  rewrite force_work by easy. rewrite Ropp_involutive. easy.
Qed.
(** In particular the force on one coordinate is minus the partial derivative. *)
Definition moved (q : config) (j l k : nat) (t : R) : config := fun j' l' k' =>
  if (Nat.eqb j' j && Nat.eqb l' l && Nat.eqb k' k)%bool then q j' l' k' + t else q j' l' k'.
Theorem force_is_partial_derivative x q j l k : sound x -> (j < nbeads x)%nat -> (l < nbosons x)%nat -> (k < 3)%nat ->
  derivable_pt_lim (fun t => get_vspring x (moved q j l k t)) 0 (- get_fspring x q j l k).
Proof.
  intros Hs Hj Hl Hk. set (d := fun j' l' k' => if (Nat.eqb j' j && Nat.eqb l' l && Nat.eqb k' k)%bool then 1 else 0).
  assert (Hd : forall j' l' k', derivable_pt_lim (fun s => moved q j l k s j' l' k') 0 (d j' l' k')).
  { intros j' l' k'. unfold moved, d. destruct (_ && _)%bool; [| apply derivable_pt_lim_const].
    apply (derivable_eq _ _ (0 + 1)); [ring|]. apply (derivable_pt_lim_plus (fun _ => q j' l' k') (fun s => s)); [apply derivable_pt_lim_const | apply derivable_pt_lim_id]. }
  eapply derivable_eq; [| apply (force_is_gradient x (moved q j l k) d 0 Hs Hd)]. f_equal.
  assert (Hdd : forall j' l' k', d j' l' k' = delta j' j * (delta l' l * delta k' k)).
  { intros. unfold d, delta. destruct (Nat.eqb j' j), (Nat.eqb l' l), (Nat.eqb k' k); cbn; ring. }
  assert (Hm : forall j' l' k', moved q j l k 0 j' l' k' = q j' l' k') by (intros; unfold moved; destruct (_ && _)%bool; ring).
  rewrite (Rsum_delta (nbeads x) j) by (first [easy | intros i Hi Hn; apply Rsum_0; intros; apply Rsum_0; intros; rewrite Hdd, (delta_diff i j) by easy; ring]).
  rewrite (Rsum_delta (nbosons x) l) by (first [easy | intros i Hi Hn; apply Rsum_0; intros; rewrite Hdd, (delta_diff i l) by easy; ring]).
  rewrite (Rsum_delta 3 k) by (first [easy | intros i Hi Hn; rewrite Hdd, (delta_diff i k) by easy; ring]).
  rewrite Hdd, !delta_same. rewrite !Rmult_1_r.
  replace (moved q j l k 0) with q; [easy|]. symmetry.
  repeat (apply FunctionalExtensionality.functional_extensionality; intro). apply Hm.
Qed.
(** The bosons exert no net force on themselves. *)
Theorem no_net_force x q k : sound x -> (k < 3)%nat ->
  Rsum (nbeads x) (fun j => Rsum (nbosons x) (fun l => get_fspring x q j l k)) = 0.
Proof.
  intros (HN & HP & Hb & _ & _) Hk. pose proof (force_work x q (fun _ _ k' => delta k' k) HP HN Hb) as Q.
  rewrite (Rsum_ext _ _ (fun j => Rsum (nbosons x) (fun l => Rsum 3 (fun k' => get_fspring x q j l k' * delta k' k)))).
  - rewrite Q. rewrite Rsum_0, Rsum_0; [ring | |].
    + intros l Hl. apply Rsum_0. intros u Hu. rewrite Rsum_0; [ring|]. intros k' Hk'. unfold inter. ring.
    + intros l Hl. apply Rsum_0. intros j Hj. apply Rsum_0. intros k' Hk'. unfold intra. ring.
  - intros j Hj. apply Rsum_ext. intros l Hl. symmetry. apply (Rsum_delta_r 3 k (fun k' => get_fspring x q j l k')). easy.
Qed.

(** ** C90: the recursion stands for the sum over all permutations *)
(** Averaged over the names of the bosons, the Boltzmann weight of the potential
    of the code is that of all N! ways to connect the ring polymers. *)
Theorem symmetrised_weight x q : sound x ->
  let all := arrangements (seq 0 (nbosons x)) in
  Rsuml (map (fun w => exp (- betaP x * get_vspring x (relabel q w))) all)
  = Rsuml (map (fun s => exp (- betaP x * permutation_energy x q s)) all).
Proof.
  intros (HN & HP & Hb & _ & _) all.
  assert (HW : Rsuml (map (fun w => exp (- betaP x * get_vspring x (relabel q w))) all) = Rsuml (map (wordw x q) all)).
  { apply Rsuml_map_ext. intros w Hw. destruct (in_perms_props _ w (seq_NoDup _ _) Hw) as (_ & Hl & _). rewrite seq_length in Hl.
    unfold wordw. rewrite Hl. unfold with_n. destruct x. easy. }
  rewrite HW. unfold all. rewrite words_total by (try easy; apply seq_NoDup).
  rewrite per_arrangements by (try easy; apply seq_NoDup). apply Rsuml_map_ext. intros s Hs.
  destruct (in_perms_props _ s (seq_NoDup _ _) Hs) as (_ & Hl & _). rewrite seq_length in Hl. unfold permutation_energy.
  assert (G : forall n a s, length s = n -> prod_along (link x q) (seq a n) s = exp (- betaP x * Rsum n (fun i => spring_pre x * (intra_energy x q (a + i)%nat + inter_energy x q (a + i)%nat (nth i s 0%nat))))).
  { clear -Hb. induction n as [|n IH]; intros a s Hs; [cbn; rewrite Rmult_0_r; symmetry; apply exp_0|].
    destruct s as [|c s]; [easy|]. cbn [seq prod_along]. rewrite (IH (S a) s) by (cbn in Hs; lia). rewrite Rsum_first. unfold link. rewrite <- exp_plus. f_equal.
    rewrite Nat.add_0_r. cbn [nth]. rewrite (Rsum_ext n (fun i => spring_pre x * (intra_energy x q (S a + i)%nat + inter_energy x q (S a + i)%nat (nth i s 0%nat)))
       (fun i => spring_pre x * (intra_energy x q (a + S i)%nat + inter_energy x q (a + S i)%nat (nth i s 0%nat)))) by (intros i Hi; rewrite Nat.add_succ_r; easy). ring. }
  rewrite G by easy. f_equal. f_equal. apply Rsum_ext. intros l Hl'. rewrite springs_form by lia. easy.
Qed.
(** The sum is over every permutation, each once. *)
Theorem all_permutations n s : NoDup (arrangements (seq 0 n)) /\ (In s (arrangements (seq 0 n)) <-> Permutation (seq 0 n) s).
Proof. split; [apply arrangements_NoDup, seq_NoDup | apply arrangements_spec, seq_NoDup]. Qed.

(** ** C91: estimators *)
Lemma Aw_ge_single x E m : 0 < betaP x -> (m <= nbosons x)%nat -> exp (- betaP x * Rsum m (fun i => E i i)) / INR (fact m) <= Aw x E m.
Proof.
  intros Hb. induction m as [|m IH]; intros Hm.
  - cbn [Rsum fact INR]. rewrite Rmult_0_r, exp_0, Aw_0. lra.
  - rewrite (Aw_rec x E Hb ltac:(lia) m) by lia.
    apply (Rle_trans _ (Kw x E m m * Aw x E m)).
    2:{ apply (Rsum_ge_term (nbosons x) (fun u => Kw x E m u * Aw x E u) m); [lia | intros; apply Rmult_le_pos; [apply Kw_nonneg; lia | left; apply Aw_pos]]. }
    specialize (IH ltac:(lia)). cbn [Rsum]. unfold Kw. rewrite Nat.leb_refl. rewrite Rmult_plus_distr_l, exp_plus.
    change (fact (S m)) with (S m * fact m)%nat. rewrite mult_INR.
    assert (0 < INR (S m)) by (apply lt_0_INR; lia). assert (0 < INR (fact m)) by (apply INR_fact_lt_0).
    replace (exp (- betaP x * Rsum m (fun i => E i i)) * exp (- betaP x * E m m) / (INR (S m) * INR (fact m)))
      with (exp (- betaP x * E m m) / INR (S m) * (exp (- betaP x * Rsum m (fun i => E i i)) / INR (fact m))) by (field; lra).
    apply Rmult_le_compat_l; [| easy]. apply Rlt_le, Rdiv_lt_0_compat; [apply exp_pos | easy].
Qed.
Lemma distinct_form x E : distinct_probability x E = exp (- betaP x * Rsum (nbosons x) (fun i => E i i)) / INR (fact (nbosons x)) / Aw x E (nbosons x).
Proof.
  unfold distinct_probability. unfold Rminus at 1. rewrite exp_plus. rewrite exp_Ropp, exp_ln by apply INR_fact_lt_0.
  unfold Aw. replace (- betaP x * (Rsum (nbosons x) (fun i => E i i) - prefix_V x E (nbosons x))) with (- betaP x * Rsum (nbosons x) (fun i => E i i) + - (- betaP x * prefix_V x E (nbosons x))) by ring.
  rewrite exp_plus, exp_Ropp. field. split; apply Rgt_not_eq; first [apply INR_fact_lt_0 | apply exp_pos].
Qed.
Lemma longest_form x E : longest_probability x E = exp (- betaP x * E 0%nat (nbosons x - 1)%nat) / Aw x E (nbosons x).
Proof.
  unfold longest_probability, Aw, Rdiv. rewrite <- exp_Ropp, <- exp_plus. f_equal. ring.
Qed.
(** As documented: between 0 and 1, and between 0 and N. *)
Theorem exchange_probabilities x E : (1 <= nbosons x)%nat -> 0 < betaP x ->
  0 < distinct_probability x E <= 1 /\ 0 < longest_probability x E <= INR (nbosons x) /\
  ((2 <= nbosons x)%nat -> distinct_probability x E + longest_probability x E / INR (nbosons x) <= 1).
Proof.
  intros HN Hb. pose proof (Aw_pos x E (nbosons x)) as HA. assert (Hn : 0 < INR (nbosons x)) by (apply lt_0_INR; lia).
  assert (Hl : exp (- betaP x * E 0%nat (nbosons x - 1)%nat) / INR (nbosons x) = Kw x E (nbosons x - 1) 0%nat * Aw x E 0%nat).
  { unfold Kw. rewrite Aw_0. cbn [Nat.leb]. replace (S (nbosons x - 1)) with (nbosons x) by lia. ring. }
  assert (Hk : forall u, 0 <= Kw x E (nbosons x - 1) u * Aw x E u) by (intros; apply Rmult_le_pos; [apply Kw_nonneg; lia | left; apply Aw_pos]).
  assert (Hrec : Aw x E (nbosons x) = Rsum (nbosons x) (fun u => Kw x E (nbosons x - 1) u * Aw x E u)).
  { replace (nbosons x) with (S (nbosons x - 1)) at 1 by lia. apply Aw_rec; first [easy | lia]. }
  rewrite distinct_form, longest_form. split; [split|split; [split|]].
  - repeat apply Rdiv_lt_0_compat; [apply exp_pos | apply INR_fact_lt_0 | easy].
  - apply (Rmult_le_reg_r (Aw x E (nbosons x))); [easy|]. unfold Rdiv at 1. rewrite Rmult_assoc, Rinv_l, Rmult_1_r, Rmult_1_l by lra. now apply Aw_ge_single.
  - apply Rdiv_lt_0_compat; [apply exp_pos | easy].
  - apply (Rmult_le_reg_r (Aw x E (nbosons x))); [easy|]. unfold Rdiv. rewrite Rmult_assoc, Rinv_l, Rmult_1_r by lra.
    apply (Rmult_le_reg_r (/ INR (nbosons x))); [now apply Rinv_0_lt_compat|]. replace (INR (nbosons x) * Aw x E (nbosons x) * / INR (nbosons x)) with (Aw x E (nbosons x)) by (field; lra).
    fold (exp (- betaP x * E 0%nat (nbosons x - 1)%nat) / INR (nbosons x)). rewrite Hl, Hrec.
    apply (Rsum_ge_term (nbosons x) (fun u => Kw x E (nbosons x - 1) u * Aw x E u)); [lia | intros; apply Hk].
  - intros H2. apply (Rmult_le_reg_r (Aw x E (nbosons x))); [easy|].
    replace ((exp (- betaP x * Rsum (nbosons x) (fun i => E i i)) / INR (fact (nbosons x)) / Aw x E (nbosons x) + exp (- betaP x * E 0%nat (nbosons x - 1)%nat) / Aw x E (nbosons x) / INR (nbosons x)) * Aw x E (nbosons x))
      with (exp (- betaP x * Rsum (nbosons x) (fun i => E i i)) / INR (fact (nbosons x)) + exp (- betaP x * E 0%nat (nbosons x - 1)%nat) / INR (nbosons x))
      by (field; repeat split; try lra; apply Rgt_not_eq, INR_fact_lt_0).
    rewrite Hl, Rmult_1_l, Hrec. destruct (nbosons x) as [|[|n]] eqn:En; [lia|lia|].
    replace (S (S n) - 1)%nat with (S n) in * by lia. rewrite (Rsum_first (S n) (fun u => Kw x E (S n) u * Aw x E u)). cbn [Rsum].
    assert (Hs : exp (- betaP x * (Rsum (S n) (fun i => E i i) + E (S n) (S n))) / INR (fact (S (S n))) <= Kw x E (S n) (S n) * Aw x E (S n)).
    { pose proof (Aw_ge_single x E (S n) Hb ltac:(lia)) as Q. unfold Kw at 1. rewrite Nat.leb_refl. rewrite Rmult_plus_distr_l, exp_plus.
      change (fact (S (S n))) with (S (S n) * fact (S n))%nat. rewrite mult_INR. assert (0 < INR (fact (S n))) by apply INR_fact_lt_0.
      replace (exp (- betaP x * Rsum (S n) (fun i => E i i)) * exp (- betaP x * E (S n) (S n)) / (INR (S (S n)) * INR (fact (S n))))
        with (exp (- betaP x * E (S n) (S n)) / INR (S (S n)) * (exp (- betaP x * Rsum (S n) (fun i => E i i)) / INR (fact (S n)))) by (field; lra).
      apply Rmult_le_compat_l; [apply Rlt_le, Rdiv_lt_0_compat; [apply exp_pos | easy] | easy]. }
    cbn [Rsum] in Hs. assert (0 <= Rsum n (fun i => Kw x E (S n) (S i) * Aw x E (S i))) by (apply Rsum_nonneg; intros; apply Hk). lra.
Qed.
(** The fermionic sign obeys its recursion and is between -1 and 1. *)
Theorem fermionic_sign_range x E : 0 < betaP x -> -1 <= fermionic_sign x E <= 1.
Proof.
  intros Hb. pose proof (fermi_bound x E Hb (nbosons x) (le_n _)) as H. unfold fermionic_sign. fold (Aw x E (nbosons x)).
  pose proof (Aw_pos x E (nbosons x)) as HA. apply Rabs_le_between in H || (assert (Hx := Rabs_def2 _ _) || idtac).
  unfold Rdiv. split; apply (Rmult_le_reg_r (Aw x E (nbosons x))); try easy; rewrite Rmult_assoc, Rinv_l, Rmult_1_r by lra;
    unfold Rabs in H; destruct (Rcase_abs _) in H; lra.
Qed.
Theorem fermionic_recursion x E : fermi_W x E 0%nat = 1 /\ forall m, (1 <= m <= nbosons x)%nat ->
  fermi_W x E m = Rsum m (fun u => (-1) ^ (m - 1 - u) * fermi_W x E u * exp (- betaP x * E u (m - 1)%nat)) / INR m.
Proof.
  split; [apply fermi_0|]. intros m Hm. rewrite fermi_rec by easy. unfold Rdiv. rewrite Rmult_1_l, Rmult_comm. f_equal. apply Rsum_ext. intros u Hu.
  replace (m - u - 1)%nat with (m - 1 - u)%nat by lia. easy.
Qed.
(** The primitive kinetic energy: the derivative of the logarithm of the weight
    with respect to the inverse temperature at fixed springs. *)
Theorem kinetic_is_derivative mf x E : (1 <= nbosons x)%nat -> 0 < betaP x -> exists D,
  derivable_pt_lim (fun b => ln (exp (- b * prefix_V (with_beta x b) E (nbosons x)))) (betaP x) D /\
  kinetic_td mf x E = 3 / 2 * INR (nbosons x) / betaP x + D / INR (nbeads x).
Proof.
  intros HN Hb. exists (kin_est mf x E (nbosons x)). split; [| easy].
  pose proof (kin_deriv mf x E Hb (nbosons x) (le_n _)) as Hd.
  apply (derivable_eq _ _ (/ Aw x E (nbosons x) * (kin_est mf x E (nbosons x) * Aw x E (nbosons x)))); [field; apply Rgt_not_eq, Aw_pos|].
  apply (derivable_pt_lim_comp (fun b => Aw (with_beta x b) E (nbosons x)) ln); [exact Hd|].
  replace (Aw (with_beta x (betaP x)) E (nbosons x)) with (Aw x E (nbosons x)) by (unfold with_beta; destruct x; easy).
  apply derivable_pt_lim_ln, Aw_pos.
Qed.
(** With spring energies it never exceeds the classical value for N P particles. *)
Theorem kinetic_below_free mf x q : sound x ->
  kinetic_td mf x (get_cycle_energies x q) <= 3 / 2 * INR (nbosons x) / betaP x.
Proof.
  intros (HN & HP & Hb & Hm & Hw). unfold kinetic_td. set (E := get_cycle_energies x q).
  enough (H : kin_est mf x E (nbosons x) <= 0).
  { assert (0 < / INR (nbeads x)) by (apply Rinv_0_lt_compat, lt_0_INR; lia). unfold Rdiv at 3.
    pose proof (Rmult_le_compat_r (/ INR (nbeads x)) _ _ (Rlt_le _ _ H0) H). lra. }
  assert (HE : forall u v, (v < nbosons x)%nat -> 0 <= E u v).
  { intros u v Hv. unfold E. rewrite cycle_energy_is_ring by lia. destruct (Nat.leb u v); [|lra]. unfold ring_energy. apply Rsum_nonneg. intros i Hi.
    unfold boson_springs. apply Rmult_le_pos; [| apply Rsum_nonneg; intros; apply Rsum_nonneg; intros; apply pow2_ge_0].
    assert (0 < boson_m x * omegan2 x) by now apply Rmult_lt_0_compat. lra. }
  assert (G : forall m, (m <= nbosons x)%nat -> kin_est mf x E m <= 0); [| now apply G].
  induction m as [m IH] using lt_wf_ind. intros Hm'. destruct m as [|m]; [rewrite kin_est_0; lra|].
  rewrite kin_est_rec, kin_g_form by lia. assert (HI : 0 < INR (S m)) by (apply lt_0_INR; lia). pose proof (Aw_pos x E (S m)).
  assert (Hneg : Rsum (S m) (fun u => (kin_est mf x E u - E u (S m - 1)%nat) * (exp (- betaP x * E u (S m - 1)%nat) * Aw x E u)) <= 0).
  { replace 0 with (Rsum (S m) (fun _ => 0)) by (apply Rsum_0; easy). apply Rsum_le. intros u Hu.
    assert (0 < exp (- betaP x * E u (S m - 1)%nat) * Aw x E u) by (apply Rmult_lt_0_compat; apply exp_pos).
    specialize (IH u Hu ltac:(lia)). specialize (HE u (S m - 1)%nat ltac:(lia)).
    replace 0 with (0 * (exp (- betaP x * E u (S m - 1)%nat) * Aw x E u)) by ring. apply Rmult_le_compat_r; lra. }
  unfold Rdiv. replace 0 with (0 * / (INR (S m) * Aw x E (S m))) by ring. apply Rmult_le_compat_r; [| easy].
  apply Rlt_le, Rinv_0_lt_compat. now apply Rmult_lt_0_compat.
Qed.
(** One boson is a distinguishable particle. *)
Theorem single_boson mf x q : nbosons x = 1%nat -> (2 <= nbeads x)%nat -> 0 < betaP x ->
  get_vspring x q = ring_energy x q 0 0 /\
  kinetic_td mf x (get_cycle_energies x q) = 3 / 2 / betaP x - ring_energy x q 0 0 / INR (nbeads x) /\
  fermionic_sign x (get_cycle_energies x q) = 1.
Proof.
  intros HN HP Hb. set (E := get_cycle_energies x q).
  assert (HE : E 0%nat 0%nat = ring_energy x q 0 0) by (unfold E; rewrite cycle_energy_is_ring by lia; easy).
  assert (HV : exp (- betaP x * prefix_V x E 1) = exp (- betaP x * E 0%nat 0%nat)).
  { rewrite prefix_weight by (try easy; lia). cbn [Rsum INR Nat.sub]. rewrite prefix_0, Rmult_0_r, exp_0. field. }
  split; [| split].
  - unfold get_vspring. rewrite HN. fold E. apply (f_equal ln) in HV. rewrite !ln_exp in HV. rewrite <- HE.
    apply (Rmult_eq_reg_l (- betaP x)); [easy | lra].
  - unfold kinetic_td. rewrite HN. rewrite kin_est_rec, kin_g_form by lia. cbn [Rsum INR Nat.sub]. rewrite kin_est_0, Aw_0. unfold Aw. rewrite HV, <- HE.
    assert (0 < INR (nbeads x)) by (apply lt_0_INR; lia). field. repeat split; try lra. apply Rgt_not_eq, exp_pos.
  - unfold fermionic_sign. rewrite HN, HV. rewrite fermi_rec by lia. cbn [Rsum INR Nat.sub pow]. rewrite fermi_0. field. apply Rgt_not_eq, exp_pos.
Qed.
(** The masses must agree. *)
Theorem boson_mass_common masses bosons m : get_boson_mass masses bosons = Some m <->
  bosons <> [] /\ forall b, In b bosons -> masses b = m.
Proof.
  destruct bosons as [|b bs]; cbn [get_boson_mass]; [split; [easy | intros [H _]; easy]|].
  destruct (forallb _ bs) eqn:F.
  - rewrite forallb_forall in F. split.
    + intros [= <-]. split; [easy|]. intros c [<-|Hc]; [easy|]. specialize (F c Hc). now destruct (Req_EM_T _ _) in F.
    + intros [_ H]. now rewrite (H b (or_introl eq_refl)).
  - split; [easy|]. intros [_ H]. exfalso. assert (forallb (fun i => if Req_EM_T (masses i) (masses b) then true else false) bs = true); [|congruence].
    rewrite forallb_forall. intros c Hc. destruct (Req_EM_T _ _) as [|n]; [easy|]. exfalso. apply n. rewrite !H; [easy | now left | now right].
Qed.

(** ** The potential depends on the names of the bosons *)
(** Only the average over the names does not.  Bosons 1 and 2 are at the same
    place and boson 0 is at distance one: as named the close pair can exchange
    with weight 1/3, after renaming it as 0 and 1 with weight 1/6. *)
Definition x3 : expot := mkexpot 3 2 1 2 1.
Definition q3 : config := fun _ l k => if (Nat.eqb l 0 && Nat.eqb k 0)%bool then 1 else 0.
Lemma weight3 E : exp (- betaP x3 * prefix_V x3 E 3) =
  (exp (- E 0%nat 2%nat) + exp (- E 0%nat 0%nat) * exp (- E 1%nat 2%nat)
   + (exp (- E 0%nat 1%nat) + exp (- E 0%nat 0%nat) * exp (- E 1%nat 1%nat)) / 2 * exp (- E 2%nat 2%nat)) / 3.
Proof.
  assert (B : betaP x3 = 1) by easy. assert (Hb : 0 < betaP x3) by (rewrite B; lra).
  assert (N1 : forall e, - (1) * e = - e) by (intros; ring).
  rewrite (prefix_weight x3 E Hb 3) by (cbn; lia). cbn [Rsum Nat.sub]. rewrite (prefix_weight x3 E Hb 2) by (cbn; lia). cbn [Rsum Nat.sub].
  rewrite (prefix_weight x3 E Hb 1) by (cbn; lia). cbn [Rsum Nat.sub]. rewrite prefix_0, Rmult_0_r, exp_0. cbn [INR]. rewrite B, !N1. field.
Qed.
Theorem names_matter_refuted : exists x q w, sound x /\ Permutation (seq 0 (nbosons x)) w /\ get_vspring x (relabel q w) <> get_vspring x q.
Proof.
  exists x3, q3, [2; 1; 0]%nat. split; [repeat split; cbn; try lia; lra|]. split.
  { cbn. apply Permutation_sym. change [0; 1; 2]%nat with (rev [2; 1; 0]%nat). apply Permutation_rev. }
  intros H. unfold get_vspring in H. change (nbosons x3) with 3%nat in H.
  apply (f_equal (fun v => exp (- betaP x3 * v))) in H. rewrite !weight3 in H.
  assert (Ed : forall q u v, (u <= v)%nat -> (v < 3)%nat -> get_cycle_energies x3 q u v = spring_pre x3 * chain (intra_energy x3 q) (inter_energy x3 q) u v)
    by (intros; now apply cycle_chain).
  rewrite !Ed in H by lia. unfold chain, spring_pre, intra_energy, inter_energy, intra, inter, relabel, q3 in H. cbn in H.
  repeat match type of H with context [exp ?a] => lazymatch a with -0 => fail | _ => idtac end; first
    [ (progress replace a with 0 in H by field) | (progress replace a with (-2) in H by field) ] end.
  rewrite ?exp_0 in H. pose proof (exp_pos (-2)). assert (exp (-2) < 1) by (rewrite <- exp_0; apply exp_increasing; lra). lra.
Qed.

(** ** The reference energy of the kinetic estimator *)
(** With the smallest energy as reference no exponential is larger than one and
    the denominator lies between one and m: neither overflows nor vanishes. *)
Lemma etilde_spec mf m f : (1 <= m)%nat -> (forall u, (u < m)%nat -> f u <= mf) ->
  (forall u, (u < m)%nat -> etilde mf m f <= f u) /\ exists u, (u < m)%nat /\ etilde mf m f = f u.
Proof.
  intros Hm B. unfold etilde.
  assert (G : forall l e, (forall k, In k l -> (1 <= k <= m)%nat) -> let r := fold_left (fun e k => Rmin e (f (m - k)%nat)) l e in
     r <= e /\ (forall k, In k l -> r <= f (m - k)%nat) /\ (r = e \/ exists k, In k l /\ r = f (m - k)%nat)).
  { induction l as [|a l IH]; intros e H; cbn [fold_left]; [split; [lra|split; [easy|now left]]|].
    destruct (IH (Rmin e (f (m - a)%nat))) as (A & C & D); [intros k Hk; apply H; now right|]. cbv zeta in *.
    pose proof (Rmin_l e (f (m - a)%nat)). pose proof (Rmin_r e (f (m - a)%nat)). split; [lra|]. split.
    - intros k [<-|Hk]; [lra|now apply C].
    - destruct D as [D|(k & Hk & D)]; [|right; exists k; split; [now right|easy]].
      rewrite D. unfold Rmin. destruct Rle_dec; [now left|right; exists a; split; [now left|easy]]. }
  destruct (G (rev (seq 1 m)) mf) as (A & C & D). { intros k Hk. apply in_rev, in_seq in Hk. lia. } cbv zeta in *.
  assert (C' : forall u, (u < m)%nat -> fold_left (fun e k => Rmin e (f (m - k)%nat)) (rev (seq 1 m)) mf <= f u).
  { intros u Hu. assert (K := C (m - u)%nat). replace (m - (m - u))%nat with u in K by lia. apply K. rewrite <- in_rev. apply in_seq. lia. }
  split; [exact C'|]. destruct D as [D|(k & Hk & D)].
  - exists 0%nat. split; [lia|]. apply Rle_antisym; [apply C'; lia|]. rewrite D. apply B. lia.
  - apply in_rev, in_seq in Hk. exists (m - k)%nat. split; [lia|easy].
Qed.
Theorem kinetic_no_overflow mf x E m : 0 < betaP x -> (1 <= m <= nbosons x)%nat ->
  let e u := E u (m - 1)%nat + prefix_V x E u in
  (forall u, (u < m)%nat -> e u <= mf) ->
  let et := etilde mf m e in
  (forall u, (u < m)%nat -> 0 < exp (- betaP x * (e u - et)) <= 1) /\
  1 <= INR m * exp (- betaP x * (prefix_V x E m - et)) <= INR m.
Proof.
  intros Hb Hm e B et. destruct (etilde_spec mf m e ltac:(lia) B) as (L & v & Hv & Ev). fold et in L, Ev.
  assert (T : forall u, (u < m)%nat -> 0 < exp (- betaP x * (e u - et)) <= 1).
  { intros u Hu. split; [apply exp_pos|]. rewrite <- exp_0. specialize (L u Hu).
    destruct (Req_dec (e u) et) as [Q|Q]; [rewrite Q; replace (- betaP x * (et - et)) with 0 by ring; lra|].
    left. apply exp_increasing. assert (0 < betaP x * (e u - et)) by (apply Rmult_lt_0_compat; lra). lra. }
  split; [exact T|].
  assert (M : 0 < INR m) by (apply lt_0_INR; lia).
  assert (Q : INR m * exp (- betaP x * (prefix_V x E m - et)) = Rsum m (fun u => exp (- betaP x * (e u - et)))).
  { replace (- betaP x * (prefix_V x E m - et)) with (- betaP x * prefix_V x E m + betaP x * et) by ring.
    rewrite exp_plus, prefix_weight by (try easy; lra). unfold Rdiv.
    rewrite (Rsum_ext m (fun u => exp (- betaP x * (e u - et))) (fun u => exp (- betaP x * prefix_V x E u) * exp (- betaP x * E u (m - 1)%nat) * exp (betaP x * et))).
    2:{ intros u Hu. rewrite <- !exp_plus. f_equal. unfold e. ring. }
    rewrite Rsum_scal_r. field. lra. }
  rewrite Q. split.
  - assert (One : 1 = Rsum m (fun u => delta u v)).
    { rewrite (Rsum_delta m v) by (try easy; intros i Hi N; unfold delta; destruct (Nat.eqb_spec i v); easy).
      unfold delta. now rewrite Nat.eqb_refl. }
    rewrite One. apply Rsum_le. intros u Hu. unfold delta. destruct (Nat.eqb_spec u v) as [->|_].
    + rewrite <- Ev. replace (- betaP x * (et - et)) with 0 by ring. rewrite exp_0. lra.
    + left. apply exp_pos.
  - replace (INR m) with (INR m * 1) by ring. rewrite <- Rsum_const. apply Rsum_le. intros u Hu. now apply T.
Qed.
Example ex_overflow : 0 < betaP (mkexpot 2 2 1 2 1) /\ (1 <= 2 <= nbosons (mkexpot 2 2 1 2 1))%nat.
Proof. cbn. split; [lra|lia]. Qed.

(** ** Examples *)
Definition x2 : expot := mkexpot 2 2 1 2 1.
Example ex_x2_sound : sound x2.
Proof. repeat split; cbn; try lia; lra. Qed.
Definition q2 : config := fun j l k => if (Nat.eqb j 1 && Nat.eqb k 0)%bool then (if Nat.eqb l 0 then 0 else 1) else if (Nat.eqb l 1 && Nat.eqb k 0)%bool then 1 else 0.
(** Two bosons at distance one: alone they cost nothing, exchanged two links. *)
Example ex_cycle : get_cycle_energies x2 q2 0%nat 0%nat = 0 /\ get_cycle_energies x2 q2 0%nat 1%nat = 2.
Proof. split; rewrite cycle_chain by (cbn; lia); unfold chain, spring_pre, intra_energy, inter_energy, intra, inter, q2; cbn; field. Qed.
Example ex_arrangements : arrangements [0; 1; 2]%nat = [[0; 1; 2]; [0; 2; 1]; [1; 0; 2]; [1; 2; 0]; [2; 0; 1]; [2; 1; 0]]%nat.
Proof. reflexivity. Qed.

Print Assumptions cycle_energy_is_ring.
Print Assumptions assertions_hold.
Print Assumptions prefix_recursion.
Print Assumptions suffix_recursion.
Print Assumptions connection_doubly_stochastic.
Print Assumptions force_is_gradient.
Print Assumptions force_is_partial_derivative.
Print Assumptions no_net_force.
Print Assumptions symmetrised_weight.
Print Assumptions exchange_probabilities.
Print Assumptions kinetic_is_derivative.
Print Assumptions kinetic_below_free.
Print Assumptions names_matter_refuted.
Print Assumptions kinetic_no_overflow.
