(** * Theorems of record: normal modes and ring-polymer contraction *)
From Coq Require Import List Reals ZArith Lra Lia Arith Bool.
From Verif Require Import RSum TrigSum Ortho NMModel NMProofs RPCProofs.
Import ListNotations.
Open Scope R_scope.

(** ** C28: the normal-mode transformation is orthogonal *)
Theorem nm_roundtrip n open q j c : (0 < n)%nat -> (j < n)%nat ->
  nm_trans_nm2b n open (nm_trans_b2nm n open q) j c = q j c.
Proof.
  intros Hn Hj. unfold nm_trans_nm2b, nm_trans_b2nm, app, transpose.
  destruct (is_open open c); apply (ortho_roundtrip n _ (fun j => q j c) j); try easy; [now apply o_nm_cols | now apply nm_cols].
Qed.
Theorem nm_roundtrip_modes n open y i c : (0 < n)%nat -> (i < n)%nat ->
  nm_trans_b2nm n open (nm_trans_nm2b n open y) i c = y i c.
Proof.
  intros Hn Hi. unfold nm_trans_nm2b, nm_trans_b2nm, app, transpose.
  destruct (is_open open c); apply (ortho_roundtrip' n _ (fun j => y j c) i); try easy; [now apply o_nm_rows | now apply nm_rows].
Qed.
(** The transformation preserves the sum of squares of every column (so the kinetic energy
    of equal-mass beads). *)
Theorem nm_norm n open q c : (0 < n)%nat ->
  Rsum n (fun i => nm_trans_b2nm n open q i c * nm_trans_b2nm n open q i c) = Rsum n (fun j => q j c * q j c).
Proof.
  intros Hn. unfold nm_trans_b2nm, app.
  destruct (is_open open c); apply (ortho_norm n _ (fun j => q j c)); [now apply o_nm_cols | now apply nm_cols].
Qed.
(** Mode zero is sqrt(n) times the centroid. *)
Theorem nm_centroid n open q c : (0 < n)%nat ->
  nm_trans_b2nm n open q 0%nat c = sqrt (INR n) * (Rsum n (fun j => q j c) / INR n).
Proof.
  intros Hn. pose proof (INR_pos n Hn) as Hp. assert (Hs : 0 < sqrt (INR n)) by now apply sqrt_lt_R0.
  unfold nm_trans_b2nm. transitivity (Rsum n (fun j => q j c) / sqrt (INR n)).
  - destruct (is_open open c); [apply (row0_sum _ good_o_nm) | apply (row0_sum _ good_nm)]; easy.
  - rewrite <- (sqrt_sqrt (INR n)) at 3 by lra. field. lra.
Qed.
(** The fast transform computes the same numbers as the matrices. *)
Theorem fft_is_matrix n open q i c : (0 < n)%nat -> (i < n)%nat ->
  ((n <= 2)%nat -> open = []) ->
  nm_fft_b2nm n open q i c = nm_trans_b2nm n open q i c /\ nm_fft_nm2b n open q i c = nm_trans_nm2b n open q i c.
Proof.
  intros Hn Hi Ho. unfold nm_fft_b2nm, nm_fft_nm2b, nm_trans_b2nm, nm_trans_nm2b.
  destruct (Nat.leb_spec n 2) as [H|H].
  - rewrite (Ho H). cbn [is_open existsb]. split; [now apply fft_b2nm_matrix | now apply fft_nm2b_matrix].
  - destruct (is_open open c); [easy|]. split; [now apply fft_b2nm_matrix | now apply fft_nm2b_matrix].
Qed.
(** With one or two beads the two matrices coincide, so that the early return of the fast
    transform is right for open paths too. *)
Lemma two_bead_matrices n i j : (0 < n <= 2)%nat -> (i < n)%nat -> (j < n)%nat -> mk_o_nm_matrix n i j = mk_nm_matrix n i j.
Proof.
  intros Hn Hi Hj. destruct i as [|i]; [rewrite o_nm_row0, nm_row0 by lia; easy|].
  assert (n = 2%nat) as -> by lia. assert (i = 0%nat) as -> by lia.
  pose proof (nm_mid_row 2 j ltac:(lia) eq_refl) as Hm. cbn [Nat.div Nat.divmod fst] in Hm. rewrite Hm.
  unfold mk_o_nm_matrix, o_nm_entry. cbn [Nat.eqb]. f_equal.
  assert (S2 : 0 < sqrt 2) by (apply sqrt_lt_R0; lra).
  destruct j as [|[|j]]; [| |lia].
  - cbn [INR]. replace (PI * (0 + / 2) * 1 / (1 + 1)) with (PI / 4) by field. rewrite cos_PI4, Rmult_0_r, cos_0. field. lra.
  - cbn [INR]. replace (PI * (1 + / 2) * 1 / (1 + 1)) with (PI - PI / 4) by field. rewrite Rtrigo_facts.cos_pi_minus, cos_PI4, Rmult_1_r, cos_PI. field. lra.
Qed.
Theorem fft_is_matrix_open n open q i c : (0 < n)%nat -> (i < n)%nat ->
  nm_fft_b2nm n open q i c = nm_trans_b2nm n open q i c /\ nm_fft_nm2b n open q i c = nm_trans_nm2b n open q i c.
Proof.
  intros Hn Hi. destruct (Nat.le_gt_cases n 2) as [H|H]; [|apply fft_is_matrix; try easy; lia].
  unfold nm_fft_b2nm, nm_fft_nm2b, nm_trans_b2nm, nm_trans_nm2b. rewrite (proj2 (Nat.leb_le n 2) H).
  rewrite fft_b2nm_matrix, fft_nm2b_matrix by easy. destruct (is_open open c); [|easy].
  split; apply Rsum_ext; intros j Hj; unfold transpose; rewrite two_bead_matrices; easy.
Qed.

(** ** C26: ring-polymer contraction *)
Definition mean (n : nat) (x : nat -> R) : R := Rsum n x / INR n.

(** The centroid (mean over beads) of every column is preserved by contraction and by
    expansion, with or without open paths, for arrays of any shape. *)
Theorem contraction_centroid n1 n2 open two_d q c : (0 < n1)%nat -> (0 < n2)%nat ->
  mean n2 (fun i => rescale_b1tob2 n1 n2 open two_d q i c) = mean n1 (fun j => q j c) /\
  mean n1 (fun i => rescale_b2tob1 n1 n2 open two_d q i c) = mean n2 (fun j => q j c).
Proof.
  intros H1 H2. pose proof (INR_pos n1 H1) as P1. pose proof (INR_pos n2 H2) as P2.
  unfold mean, rescale_b1tob2, rescale_b2tob1. destruct (Nat.eqb_spec n1 n2) as [->|Hne]; [easy|]. cbv zeta. split.
  - rewrite (Rsum_ext n2 _ (app n1 (b1tob2_m (if nonempty open then if two_d then is_open open c else true else false) n1 n2) (fun j => q j c))) by easy.
    rewrite b1tob2_sum by easy. field. lra.
  - rewrite (Rsum_ext n1 _ (app n2 (b2tob1_m (if nonempty open then two_d else false) n1 n2) (fun j => q j c))) by easy.
    rewrite b2tob1_sum by easy. field. lra.
Qed.

(** The column is treated the same way in both directions: no open paths at all, or the
    column of an open atom in a beads-by-coordinates array. *)
Definition consistent (open : list nat) (two_d : bool) (c : nat) : Prop :=
  open = [] \/ two_d = true /\ is_open open c = true.
Lemma is_open_nonempty open c : is_open open c = true -> nonempty open = true.
Proof. now destruct open. Qed.

Theorem contraction_roundtrip n1 n2 open two_d y i c : (0 < n2)%nat -> (n2 <= n1)%nat -> (i < n2)%nat ->
  consistent open two_d c ->
  rescale_b1tob2 n1 n2 open two_d (rescale_b2tob1 n1 n2 open two_d y) i c = y i c.
Proof.
  intros H2 H21 Hi Hc. unfold rescale_b1tob2, rescale_b2tob1. destruct (Nat.eqb_spec n1 n2) as [->|Hne]; [easy|]. cbv zeta.
  destruct Hc as [->|[-> Ho]].
  - cbn [nonempty]. now apply (contract_expand false n1 n2 (fun j => y j c)).
  - rewrite (is_open_nonempty _ _ Ho), Ho. now apply (contract_expand true n1 n2 (fun j => y j c)).
Qed.

(** The two transformations are adjoint up to the factor n1/n2. *)
Theorem contraction_adjoint n1 n2 open two_d q y c : (0 < n1)%nat -> (0 < n2)%nat -> consistent open two_d c ->
  Rsum n1 (fun b => rescale_b2tob1 n1 n2 open two_d y b c * q b c)
  = INR n1 / INR n2 * Rsum n2 (fun b' => y b' c * rescale_b1tob2 n1 n2 open two_d q b' c).
Proof.
  intros H1 H2 Hc. pose proof (INR_pos n1 H1) as P1. pose proof (INR_pos n2 H2) as P2.
  unfold rescale_b1tob2, rescale_b2tob1. destruct (Nat.eqb_spec n1 n2) as [->|Hne].
  { replace (INR n2 / INR n2) with 1 by (field; lra). rewrite Rmult_1_l. easy. }
  cbv zeta.
  assert (E : exists o, (if nonempty open then two_d else false) = o /\ (if nonempty open then if two_d then is_open open c else true else false) = o).
  { destruct Hc as [->|[-> Ho]]; [now exists false|]. exists true. now rewrite (is_open_nonempty _ _ Ho), Ho. }
  destruct E as (o & -> & ->). unfold app, b2tob1_m. rewrite <- Rsum_scal.
  transitivity (Rsum n1 (fun b => Rsum n2 (fun b' => INR n1 / INR n2 * (y b' c * (b1tob2_m o n1 n2 b' b * q b c))))).
  - apply Rsum_ext. intros b _. rewrite <- Rsum_scal_r. apply Rsum_ext. intros; ring.
  - rewrite Rsum_swap. apply Rsum_ext. intros b' _. now rewrite !Rsum_scal.
Qed.

(** Contraction is linear, so a straight line of paths goes to a straight line. *)
Lemma contraction_line n1 n2 open two_d q d t b c :
  rescale_b1tob2 n1 n2 open two_d (fun j k => q j k + t * d j k) b c
  = rescale_b1tob2 n1 n2 open two_d q b c + t * rescale_b1tob2 n1 n2 open two_d d b c.
Proof.
  unfold rescale_b1tob2. destruct (n1 =? n2)%nat; [easy|]. cbv zeta. unfold app.
  rewrite <- Rsum_scal, <- Rsum_plus. apply Rsum_ext. intros; ring.
Qed.

(** Contracted forces are the gradient of the contracted potential. [V] is the potential of
    one contracted bead, [f] its force, exact at the contracted positions. The energy is
    the sum over the full ring of the expanded bead potentials (as reported by Forces.pot), the
    force is the expansion of the bead forces (as reported by Forces.f). *)
Theorem contracted_force_is_gradient n1 n2 ncol open (V : (nat -> R) -> R) (f q d : mat) :
  (0 < n1)%nat -> (0 < n2)%nat ->
  (forall c, (c < ncol)%nat -> consistent open true c) ->
  (forall b' dir, (b' < n2)%nat ->
     derivable_pt_lim (fun t => V (fun c => rescale_b1tob2 n1 n2 open true q b' c + t * dir c)) 0
       (- Rsum ncol (fun c => f b' c * dir c))) ->
  (forall x y, (forall c, x c = y c) -> V x = V y) ->
  derivable_pt_lim
    (fun t => Rsum n1 (fun b => rescale_b2tob1 n1 n2 open false
        (fun b' _ => V (fun c => rescale_b1tob2 n1 n2 open true (fun j k => q j k + t * d j k) b' c)) b 0%nat)) 0
    (- Rsum n1 (fun b => Rsum ncol (fun c => rescale_b2tob1 n1 n2 open true f b c * d b c))).
Proof.
  intros H1 H2 Hc HV Hext. pose proof (INR_pos n1 H1) as P1. pose proof (INR_pos n2 H2) as P2.
  apply (derivable_ext (fun t => mult_real_fct (INR n1 / INR n2) (fun t => Rsum n2 (fun b' =>
     V (fun c => rescale_b1tob2 n1 n2 open true q b' c + t * rescale_b1tob2 n1 n2 open true d b' c))) t)).
  { intros t. unfold mult_real_fct.
    pose proof (proj2 (contraction_centroid n1 n2 open false (fun b' _ => V (fun c => rescale_b1tob2 n1 n2 open true (fun j k => q j k + t * d j k) b' c)) 0%nat H1 H2)) as M.
    unfold mean in M. cbv beta in M.
    transitivity (INR n1 * (Rsum n2 (fun j => V (fun c => rescale_b1tob2 n1 n2 open true (fun j0 k => q j0 k + t * d j0 k) j c)) / INR n2)).
    - assert (E : Rsum n2 (fun j => V (fun c => rescale_b1tob2 n1 n2 open true (fun j0 k => q j0 k + t * d j0 k) j c))
         = Rsum n2 (fun b' => V (fun c => rescale_b1tob2 n1 n2 open true q b' c + t * rescale_b1tob2 n1 n2 open true d b' c))).
      { apply Rsum_ext. intros b' _. apply Hext. intros c. apply contraction_line. }
      rewrite E. field. lra.
    - rewrite <- M. field. lra. }
  eapply derivable_eq; [|apply derivable_pt_lim_scal, (derivable_Rsum n2 (fun b' t => V (fun c => rescale_b1tob2 n1 n2 open true q b' c + t * rescale_b1tob2 n1 n2 open true d b' c))
      (fun b' => - Rsum ncol (fun c => f b' c * rescale_b1tob2 n1 n2 open true d b' c)))].
  - rewrite Rsum_opp, Ropp_mult_distr_r_reverse. f_equal. rewrite Rsum_swap, (Rsum_swap n1 ncol), <- Rsum_scal.
    apply Rsum_ext. intros c Hcc. symmetry. now apply contraction_adjoint; [| |apply Hc].
  - intros b' Hb'. now apply HV.
Qed.

(** What contraction does to the modes: for closed paths mode [k] of the short path is mode
    [k] (counted from the nearest end of the list) of the long one. *)
Theorem contraction_modes n1 n2 q k c : (0 < n2)%nat -> (n2 < n1)%nat -> (k < n2)%nat ->
  nm_trans_b2nm n2 [] (rescale_b1tob2 n1 n2 [] true q) k c
  = sqrt (INR n2 / INR n1) * nm_trans_b2nm n1 [] q (if (k <=? n2 / 2)%nat then k else n1 - (n2 - k))%nat c.
Proof.
  intros H2 H21 Hk. unfold nm_trans_b2nm, rescale_b1tob2. cbn [is_open existsb nonempty].
  replace (n1 =? n2)%nat with false by (symmetry; apply Nat.eqb_neq; lia). cbv zeta.
  pose proof (rs_modes mk_nm_matrix good_nm n1 n2 H2 H21 (fun j => q j c) k Hk) as H. unfold sigma in H. rewrite <- H.
  unfold app. apply Rsum_ext. intros i _. f_equal. apply Rsum_ext. intros j _. f_equal.
  unfold b1tob2_m, mk_rs_matrix, mk_rs. replace (n1 =? n2)%nat with false by (symmetry; apply Nat.eqb_neq; lia).
  replace (n2 <? n1)%nat with true by (symmetry; apply Nat.ltb_lt; lia). easy.
Qed.

(** Expanding then contracting is not the identity for a closed atom when another atom is
    open: the expansion of a beads-by-coordinates array always ends with the open-path
    matrix for all columns. Two atoms, atom 1 open, three beads contracted to two. *)
Lemma cos_2PI3' : cos (2 * PI / 3) = - (1 / 2).
Proof. replace (2 * PI / 3) with (PI - PI / 3) by field. rewrite Rtrigo_facts.cos_pi_minus, cos_PI3. lra. Qed.
Lemma cos_4PI3' : cos (4 * PI / 3) = - (1 / 2).
Proof. replace (4 * PI / 3) with (PI / 3 + PI) by field. rewrite neg_cos, cos_PI3. lra. Qed.
Lemma sq_sqrt x : 0 <= x -> sqrt x * sqrt x = x.
Proof. apply sqrt_sqrt. Qed.

Lemma rs32 mk i j : rs mk 3 2 i j = sqrt (2 / 3) * (mk 2%nat 0%nat i * mk 3%nat 0%nat j + mk 2%nat 1%nat i * mk 3%nat 1%nat j).
Proof. rewrite rs_entry by lia. cbn [Rsum sigma Nat.leb Nat.div Nat.divmod fst INR]. unfold sigma. cbn [Nat.leb Nat.div Nat.divmod fst].
  replace (1 + 1 + 1) with 3 by ring. replace (1 + 1) with 2 by ring. ring. Qed.

Theorem open_path_expansion_refuted : exists n1 n2 open y i c,
  (0 < n2)%nat /\ (n2 <= n1)%nat /\ (i < n2)%nat /\
  rescale_b1tob2 n1 n2 open true (rescale_b2tob1 n1 n2 open true y) i c <> y i c.
Proof.
  exists 3%nat, 2%nat, (1%nat :: nil), (fun b _ => match b with 0%nat => 1 | _ => -1 end), 0%nat, 0%nat.
  repeat (split; [lia|]).
  unfold rescale_b1tob2, rescale_b2tob1. cbn [Nat.eqb nonempty is_open existsb Nat.div Nat.divmod fst orb]. cbv zeta.
  unfold app, b2tob1_m, b1tob2_m, mk_rs_matrix, mk_o_rs_matrix, mk_rs. cbn [Nat.eqb Nat.ltb Nat.leb Rsum].
  rewrite !rs32.
  assert (O1 : forall j, mk_o_nm_matrix 2 0%nat j = / sqrt (INR 2)) by (intros; apply o_nm_row0; lia).
  assert (O2 : forall j, mk_o_nm_matrix 3 0%nat j = / sqrt (INR 3)) by (intros; apply o_nm_row0; lia).
  assert (N1 : forall j, mk_nm_matrix 2 0%nat j = / sqrt (INR 2)) by (intros; apply nm_row0; lia).
  assert (N2 : forall j, mk_nm_matrix 3 0%nat j = / sqrt (INR 3)) by (intros; apply nm_row0; lia).
  rewrite !O1, !O2, !N1, !N2, !(two_bead_matrices 2) by lia.
  pose proof (nm_mid_row 2 0 ltac:(lia) eq_refl) as M0. pose proof (nm_mid_row 2 1 ltac:(lia) eq_refl) as M1.
  cbn [Nat.div Nat.divmod fst] in M0, M1. rewrite M0, M1. clear M0 M1.
  unfold mk_nm_matrix, mk_o_nm_matrix, nm_entry, o_nm_entry. cbn [Nat.modulo Nat.divmod snd Nat.sub Nat.eqb Nat.div fst andb Nat.leb INR].
  replace (2 * PI * 0 * 1 / (1 + 1 + 1)) with 0 by field. replace (2 * PI * 1 * 1 / (1 + 1 + 1)) with (2 * PI / 3) by field.
  replace (2 * PI * (1 + 1) * 1 / (1 + 1 + 1)) with (4 * PI / 3) by field.
  replace (PI * (0 + / 2) * 1 / (1 + 1 + 1)) with (PI / 6) by field. replace (PI * (1 + / 2) * 1 / (1 + 1 + 1)) with (PI / 2) by field.
  replace (PI * (1 + 1 + / 2) * 1 / (1 + 1 + 1)) with (PI - PI / 6) by field.
  replace (PI * 0) with 0 by ring. rewrite Rmult_1_r with (r := PI).
  rewrite Rtrigo_facts.cos_pi_minus, cos_2PI3', cos_4PI3', cos_PI6, cos_PI2, cos_0, cos_PI.
  replace (1 + 1 + 1) with 3 by ring. replace (1 + 1) with 2 by ring.
  assert (S2 := sq_sqrt 2 ltac:(lra)). assert (S3 := sq_sqrt 3 ltac:(lra)). assert (S23 := sq_sqrt (2 / 3) ltac:(lra)).
  assert (P2 : 0 < sqrt 2) by (apply sqrt_lt_R0; lra). assert (P3 : 0 < sqrt 3) by (apply sqrt_lt_R0; lra).
  set (a := sqrt 2) in *. set (b := sqrt 3) in *. set (s := sqrt (2 / 3)) in *.
  intros F. match type of F with ?l = _ => assert (V : l = 9 / 4 * (s * s) / b) by (field; lra) end.
  rewrite V, S23 in F. assert (E : b = 3 / 2).
  { apply Rmult_eq_reg_r with (/ b); [|apply Rinv_neq_0_compat; lra]. rewrite Rinv_r by lra. lra. }
  rewrite E in S3. lra.
Qed.

(** For the same reason the expanded force on a closed atom is not the adjoint of the
    contraction, that is, not the gradient of the contracted energy. *)
Theorem open_path_force_refuted : exists n1 n2 open y q c,
  (0 < n2)%nat /\ (n2 <= n1)%nat /\
  Rsum n1 (fun b => rescale_b2tob1 n1 n2 open true y b c * q b c)
  <> INR n1 / INR n2 * Rsum n2 (fun b' => y b' c * rescale_b1tob2 n1 n2 open true q b' c).
Proof.
  exists 3%nat, 2%nat, (1%nat :: nil), (fun b _ => match b with 0%nat => 1 | _ => -1 end), (fun b _ => match b with 1%nat => 1 | _ => 0 end), 0%nat.
  repeat (split; [lia|]).
  unfold rescale_b1tob2, rescale_b2tob1. cbn [Nat.eqb nonempty is_open existsb Nat.div Nat.divmod fst orb]. cbv zeta.
  unfold app, b2tob1_m, b1tob2_m, mk_rs_matrix, mk_o_rs_matrix, mk_rs. cbn [Nat.eqb Nat.ltb Nat.leb Rsum].
  rewrite !rs32.
  assert (O1 : forall j, mk_o_nm_matrix 2 0%nat j = / sqrt (INR 2)) by (intros; apply o_nm_row0; lia).
  assert (O2 : forall j, mk_o_nm_matrix 3 0%nat j = / sqrt (INR 3)) by (intros; apply o_nm_row0; lia).
  assert (N1 : forall j, mk_nm_matrix 2 0%nat j = / sqrt (INR 2)) by (intros; apply nm_row0; lia).
  assert (N2 : forall j, mk_nm_matrix 3 0%nat j = / sqrt (INR 3)) by (intros; apply nm_row0; lia).
  rewrite !O1, !O2, !N1, !N2, !(two_bead_matrices 2) by lia.
  pose proof (nm_mid_row 2 0 ltac:(lia) eq_refl) as M0. pose proof (nm_mid_row 2 1 ltac:(lia) eq_refl) as M1.
  cbn [Nat.div Nat.divmod fst] in M0, M1. rewrite M0, M1. clear M0 M1.
  unfold mk_nm_matrix, mk_o_nm_matrix, nm_entry, o_nm_entry. cbn [Nat.modulo Nat.divmod snd Nat.sub Nat.eqb Nat.div fst andb Nat.leb INR].
  replace (2 * PI * 0 * 1 / (1 + 1 + 1)) with 0 by field. replace (2 * PI * 1 * 1 / (1 + 1 + 1)) with (2 * PI / 3) by field.
  replace (2 * PI * (1 + 1) * 1 / (1 + 1 + 1)) with (4 * PI / 3) by field.
  replace (PI * (0 + / 2) * 1 / (1 + 1 + 1)) with (PI / 6) by field. replace (PI * (1 + / 2) * 1 / (1 + 1 + 1)) with (PI / 2) by field.
  replace (PI * (1 + 1 + / 2) * 1 / (1 + 1 + 1)) with (PI - PI / 6) by field.
  replace (PI * 0) with 0 by ring. rewrite Rmult_1_r with (r := PI).
  rewrite Rtrigo_facts.cos_pi_minus, cos_2PI3', cos_4PI3', cos_PI6, cos_PI2, cos_0, cos_PI.
  replace (1 + 1 + 1) with 3 by ring. replace (1 + 1) with 2 by ring.
  assert (P2 : 0 < sqrt 2) by (apply sqrt_lt_R0; lra). assert (P3 : 0 < sqrt 3) by (apply sqrt_lt_R0; lra).
  assert (Ps : 0 < sqrt (2 / 3)) by (apply sqrt_lt_R0; lra).
  set (a := sqrt 2) in *. set (b := sqrt 3) in *. set (s := sqrt (2 / 3)) in *.
  intros F. match type of F with ?l = ?r => assert (V : l - r = 3 / 2 * s * / b) by (field; lra); rewrite F, Rminus_eq_0 in V end.
  assert (0 < / b) by (now apply Rinv_0_lt_compat). assert (0 < s * / b) by (now apply Rmult_lt_0_compat). lra.
Qed.

(** ** C70: contraction of an open path *)
(** The modes of an open path are ordered by frequency (o_nm_eva); contraction should keep the
    slowest. The code picks modes as for a ring: mode [k] of the short path is mode [k] of
    the long one only for k up to n2/2; the others come from the fast end. *)
Theorem open_contraction_modes n1 n2 q k c : (0 < n2)%nat -> (n2 < n1)%nat -> (k < n2)%nat ->
  app n2 (mk_o_nm_matrix n2) (fun b => rescale_b1tob2 n1 n2 [(c / 3)%nat] true q b c) k
  = sqrt (INR n2 / INR n1) * app n1 (mk_o_nm_matrix n1) (fun j => q j c) (if (k <=? n2 / 2)%nat then k else n1 - (n2 - k))%nat.
Proof.
  intros H2 H21 Hk. unfold rescale_b1tob2.
  replace (n1 =? n2)%nat with false by (symmetry; apply Nat.eqb_neq; lia). cbv zeta. cbn [nonempty is_open existsb].
  rewrite Nat.eqb_refl. cbn [orb].
  pose proof (rs_modes mk_o_nm_matrix good_o_nm n1 n2 H2 H21 (fun j => q j c) k Hk) as H. unfold sigma in H. rewrite <- H.
  unfold app. apply Rsum_ext. intros i _. f_equal. apply Rsum_ext. intros j _. f_equal.
  unfold b1tob2_m, mk_o_rs_matrix, mk_rs. replace (n1 =? n2)%nat with false by (symmetry; apply Nat.eqb_neq; lia).
  replace (n2 <? n1)%nat with true by (symmetry; apply Nat.ltb_lt; lia). easy.
Qed.
Theorem open_contraction_slow_modes_refuted : exists n1 n2 q k c,
  (0 < n2)%nat /\ (n2 < n1)%nat /\ (k < n2)%nat /\
  app n2 (mk_o_nm_matrix n2) (fun b => rescale_b1tob2 n1 n2 [(c / 3)%nat] true q b c) k
  <> sqrt (INR n2 / INR n1) * app n1 (mk_o_nm_matrix n1) (fun j => q j c) k.
Proof.
  exists 4%nat, 3%nat, (fun j _ => mk_o_nm_matrix 4 2%nat j), 2%nat, 0%nat. repeat (split; [lia|]).
  rewrite open_contraction_modes by lia. cbn [Nat.leb Nat.div Nat.divmod fst Nat.sub].
  assert (R2 : app 4 (mk_o_nm_matrix 4) (fun j => mk_o_nm_matrix 4 2%nat j) 2%nat = 1).
  { unfold app. rewrite (o_nm_rows 4 ltac:(lia) 2%nat 2%nat) by lia. apply delta_same. }
  assert (R3 : app 4 (mk_o_nm_matrix 4) (fun j => mk_o_nm_matrix 4 2%nat j) 3%nat = 0).
  { unfold app. rewrite (o_nm_rows 4 ltac:(lia) 3%nat 2%nat) by lia. now apply delta_diff. }
  rewrite R2, R3. cbn [INR]. intros F.
  assert (0 < sqrt ((1 + 1 + 1) / (1 + 1 + 1 + 1))) by (apply sqrt_lt_R0; lra). lra.
Qed.

(** ** Concrete cases *)
Example consistent_cases : consistent [] true 7 /\ consistent [0%nat; 2%nat] true 7 /\ ~ consistent [0%nat; 1%nat] true 7.
Proof. split; [now left|]. split; [right; split; reflexivity|]. intros [H|[_ H]]; discriminate. Qed.
(** Four beads at 1, 2, 3, 6 contracted to two beads keep their centroid 3. *)
Example centroid_case : mean 2 (fun i => rescale_b1tob2 4 2 [] true (fun j _ => match j with 0%nat => 1 | 1%nat => 2 | 2%nat => 3 | _ => 6 end) i 0%nat) = 3.
Proof. rewrite (proj1 (contraction_centroid 4 2 [] true _ 0%nat ltac:(lia) ltac:(lia))). unfold mean. cbn. field. Qed.
(** A harmonic bead potential meets the hypotheses of [contracted_force_is_gradient]. *)
Example contracted_harmonic q : forall b' dir, (b' < 2)%nat ->
  derivable_pt_lim (fun t => (fun x => / 2 * Rsum 6 (fun c => x c * x c)) (fun c => rescale_b1tob2 4 2 [] true q b' c + t * dir c)) 0
    (- Rsum 6 (fun c => - rescale_b1tob2 4 2 [] true q b' c * dir c)).
Proof.
  intros b' dir _. set (y := fun c => rescale_b1tob2 4 2 [] true q b' c).
  apply (derivable_ext (mult_real_fct (/ 2) (fun t => Rsum 6 (fun c => (y c + t * dir c) * (y c + t * dir c))))); [easy|].
  eapply derivable_eq; [|apply derivable_pt_lim_scal, (derivable_Rsum 6 (fun c t => (y c + t * dir c) * (y c + t * dir c)) (fun c => 2 * y c * dir c))].
  - rewrite <- Rsum_opp, <- Rsum_scal. apply Rsum_ext. intros c _. unfold y. field.
  - intros c _. assert (L : derivable_pt_lim (fun t => y c + t * dir c) 0 (dir c)).
    { eapply derivable_eq; [|apply (derivable_pt_lim_plus (fun _ => y c) (fun t => t * dir c));
        [apply derivable_pt_lim_const | apply (derivable_pt_lim_mult id (fun _ => dir c)); [apply derivable_pt_lim_id | apply derivable_pt_lim_const]]].
      unfold id. ring. }
    eapply derivable_eq; [|apply (derivable_pt_lim_mult _ _ 0 _ _ L L)]. ring.
Qed.

Print Assumptions nm_roundtrip.
Print Assumptions nm_roundtrip_modes.
Print Assumptions nm_norm.
Print Assumptions nm_centroid.
Print Assumptions fft_is_matrix_open.
Print Assumptions contraction_centroid.
Print Assumptions contraction_roundtrip.
Print Assumptions contraction_adjoint.
Print Assumptions contracted_force_is_gradient.
Print Assumptions contraction_modes.
Print Assumptions open_path_expansion_refuted.
Print Assumptions open_path_force_refuted.
Print Assumptions open_contraction_modes.
Print Assumptions open_contraction_slow_modes_refuted.
