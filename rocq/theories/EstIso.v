(** * Isotopes, displaced paths and fourth-order weights *)
From Coq Require Import String Ascii List Reals Lra Lia Arith Bool ZArith.
From Verif Require Import RSum NMModel SCModel TextLib ValModel ValProps CellModel CellProps EstModel EstLib EstKin EstDisp EstThermo.
Import ListNotations.
Open Scope R_scope.

(** ** The selection of one atom *)
Definition named (s : sys) : Prop := forall i, (i < na s)%nat -> lab s i <> [].
Lemma filter_seq_one p i n k : (k <= i < k + n)%nat -> p i = true -> (forall j, (k <= j < k + n)%nat -> j <> i -> p j = false) -> filter p (seq k n) = [i].
Proof.
  revert k. induction n as [|n IH]; intros k Hi Pi Pj; [lia|]. cbn [seq filter].
  destruct (Nat.eq_dec k i) as [->|N].
  - rewrite Pi. f_equal. clear IH. assert (H : forall l, (forall j, In j l -> p j = false) -> filter p l = []).
    { induction l as [|x l IHl]; intros H; [easy|]. cbn. rewrite H by now left. apply IHl. intros; apply H; now right. }
    apply H. intros j Hj. apply in_seq in Hj. apply Pj; lia.
  - rewrite Pj by lia. apply IH; [lia|easy|]. intros; apply Pj; lia.
Qed.
Lemma selected_one s i : named s -> (i < na s)%nat -> selected s (show_z (Z.of_nat i)) (Z.of_nat i, []) = [i].
Proof.
  intros Hl Hi. unfold selected. apply filter_seq_one; [lia| |].
  - rewrite skip_index by now apply Hl. rewrite Z.eqb_refl. easy.
  - intros j Hj N. rewrite skip_index by (apply Hl; lia). destruct (Z.eqb_spec (Z.of_nat i) (Z.of_nat j)); [lia|easy].
Qed.
Lemma selected_all s : selected s [] ((-1)%Z, []) = seq 0 (na s).
Proof.
  unfold selected. assert (H : forall l, filter (fun i => negb (skip s [] ((-1)%Z, []) i)) l = l).
  { induction l as [|x l IH]; [easy|]. cbn [filter]. rewrite skip_all. cbn [negb]. now rewrite IH. }
  apply H.
Qed.
Lemma mean_one x i : mean x [i] = x i.
Proof. unfold mean. cbn. unfold Rdiv. rewrite Rinv_1. ring. Qed.
Lemma mean_scal c x l : mean (fun i => c * x i) l = c * mean x l.
Proof. unfold mean. unfold Rdiv. rewrite <- Rmult_assoc. f_equal. induction l as [|a l IH]; cbn; [ring|rewrite IH; ring]. Qed.
Lemma mean_ext x y l : (forall i, In i l -> x i = y i) -> mean x l = mean y l.
Proof. intros H. unfold mean. f_equal. f_equal. now apply map_ext_in. Qed.
Lemma mean_const c l : l <> [] -> mean (fun _ => c) l = c.
Proof.
  intros H. unfold mean. assert (E : Rsuml (map (fun _ => c) l) = INR (length l) * c).
  { clear H. induction l as [|a l IH]; cbn [map Rsuml length]; [cbn; ring|rewrite IH, S_INR; ring]. }
  rewrite E. field. apply not_0_INR. now destruct l.
Qed.

(** ** Weights *)
Definition isotope (s : sys) (i : nat) (alpha : R) : nat -> R := upd (ms s) i (alpha * ms s i).
Lemma Rsum_upd n i (f : R -> nat -> R) m x : (i < n)%nat ->
  Rsum n (fun j => f (upd m i x j) j) - Rsum n (fun j => f (m j) j) = f x i - f (m i) i.
Proof.
  intros Hi. rewrite <- Rsum_minus.
  rewrite (Rsum_ext n _ (fun j => if (j =? i)%nat then f x i - f (m i) i else 0)).
  - revert Hi. induction n as [|n IH]; [lia|]. intros Hi. cbn [Rsum]. destruct (Nat.eqb_spec n i) as [->|N].
    + rewrite (Rsum_ext i _ (fun _ => 0)), Rsum_const; [ring|]. intros j Hj. destruct (Nat.eqb_spec j i); [lia|easy].
    + rewrite IH by lia. ring.
  - intros j _. unfold upd. destruct (Nat.eqb_spec j i) as [->|]; [easy|ring].
Qed.
Lemma Rpower_split a x y z : 0 < a -> exp (- z + x * ln a) * Rpower a y = exp (- z) * Rpower a (x + y).
Proof. intros _. unfold Rpower. rewrite exp_plus, Rmult_assoc, <- exp_plus. do 2 f_equal. ring. Qed.
Lemma betaP_kT s : 0 < kT s -> (0 < nb s)%nat -> betaP' s = / kT s / INR (nb s) /\ betaP s = / kT s / INR (nb s).
Proof.
  intros K N. apply lt_0_INR in N. destruct (kT_nz _ K). unfold betaP', betaP, kT. split; field; lra.
Qed.

Lemma action_isotope s hbar i alpha : at_beta s hbar -> (i < na s)%nat -> 0 < alpha ->
  action s hbar (isotope s i alpha) (/ kT s) - action s hbar (ms s) (/ kT s) = betaP' s * spr s alpha i - 3 / 2 * INR (nb s) * ln alpha.
Proof.
  intros T Hi Ha. destruct (betaP_kT s (t_kT _ _ T) (t_nb _ _ T)) as [-> _]. unfold action, isotope. rewrite <- (t_om _ _ T).
  pose proof (Rsum_upd (na s) i (fun m j => 1 / 2 * m * om2 s * ring2 s j) (ms s) (alpha * ms s i) Hi) as A.
  pose proof (Rsum_upd (na s) i (fun m _ => ln m) (ms s) (alpha * ms s i) Hi) as B. cbv beta in A, B.
  rewrite ln_mult in B by (easy || apply (t_m _ _ T); easy).
  set (A1 := Rsum (na s) (fun j => 1 / 2 * upd _ _ _ j * om2 s * ring2 s j)) in *. set (B1 := Rsum (na s) (fun j => ln (upd _ _ _ j))) in *.
  replace A1 with (Rsum (na s) (fun j => 1 / 2 * ms s j * om2 s * ring2 s j) + (1 / 2 * (alpha * ms s i) * om2 s * ring2 s i - 1 / 2 * ms s i * om2 s * ring2 s i)) by lra.
  replace B1 with (Rsum (na s) (fun j => ln (ms s j)) + ln alpha) by lra.
  unfold spr, Rdiv. ring.
Qed.
(** The thermodynamic isotope estimator: the weight of the path with the other mass, against that with the
    mass of the simulation, with the factor alpha^(3/2) of the centroid taken out. *)
Theorem zetatd_weight s hbar i alpha : at_beta s hbar -> named s -> (i < na s)%nat -> 0 < alpha ->
  exists a b z, get_isotope_zetatd s alpha (show_z (Z.of_nat i)) = Some [a; b; z] /\
  z = exp (- (action s hbar (isotope s i alpha) (/ kT s) - action s hbar (ms s) (/ kT s))) * Rpower alpha (- (3 / 2)).
Proof.
  intros T Hl Hi Ha. do 3 eexists. unfold get_isotope_zetatd. rewrite resolve_index, selected_one by easy. split; [reflexivity|].
  rewrite mean_one, action_isotope by easy. unfold free_factor.
  replace (- (betaP' s * spr s alpha i - 3 / 2 * INR (nb s) * ln alpha)) with (- (betaP' s * spr s alpha i) + 3 / 2 * INR (nb s) * ln alpha) by ring.
  rewrite Rpower_split by easy. f_equal; f_equal; ring.
Qed.

Lemma even_2 k : even_b (2 * k) = true.
Proof. unfold even_b. rewrite Nat.mul_comm, Nat.mod_mul by lia. easy. Qed.
Lemma odd_2 k : even_b (2 * k + 1) = false.
Proof. unfold even_b. rewrite Nat.add_comm, Nat.mul_comm, Nat.mod_add by lia. easy. Qed.
Lemma Rsum_div n x c : Rsum n x / c = Rsum n (fun k => x k / c).
Proof. unfold Rdiv. now rewrite Rsum_scal_r. Qed.
(** Fourth order. *)
Lemma Rsum_odd n x : Rsum n (fun b => if even_b b then 0 else x b) = Rsum (n / 2) (fun k => x (2 * k + 1)%nat).
Proof.
  assert (E : forall m, Rsum (2 * m) (fun b => if even_b b then 0 else x b) = Rsum m (fun k => x (2 * k + 1)%nat)).
  { induction m as [|m IH]; [easy|]. replace (2 * S m)%nat with (S (S (2 * m))) by lia. cbn [Rsum].
    rewrite IH, even_2. replace (S (2 * m)) with (2 * m + 1)%nat by lia. rewrite odd_2. ring. }
  destruct (Nat.Even_or_Odd n) as [[m ->]|[m ->]].
  - rewrite (Nat.mul_comm 2 m), Nat.div_mul, (Nat.mul_comm m 2) by lia. apply E.
  - replace ((2 * m + 1) / 2)%nat with m by (rewrite Nat.add_comm, Nat.mul_comm, Nat.div_add by lia; easy).
    replace (2 * m + 1)%nat with (S (2 * m)) by lia. cbn [Rsum]. rewrite E, even_2. ring.
Qed.
(** the Takahashi-Imada action *)
Definition ti_action (s : sys) (hbar : R) (m : nat -> R) (beta : R) : R :=
  action s hbar m beta + beta / INR (nb s) * Rsum (nb s) (fun b => Rsum (na s) (fun i => sum3 i (fun c => ff s b c ^ 2) / m i) / (24 * omega2 (nb s) hbar beta)).
Lemma om2_pos s hbar : at_beta s hbar -> 0 < om2 s.
Proof.
  intros T. rewrite (t_om _ _ T). unfold omega2. apply pow_lt. apply Rdiv_lt_0_compat; [apply lt_0_INR, T|].
  apply Rmult_lt_0_compat; [apply Rinv_0_lt_compat, T|apply T].
Qed.
Lemma f2_isotope s hbar i alpha b : at_beta s hbar -> (i < na s)%nat -> 0 < alpha ->
  Rsum (na s) (fun j => sum3 j (fun c => ff s b c ^ 2) / isotope s i alpha j) =
  Rsum (na s) (fun j => sum3 j (fun c => ff s b c ^ 2) / ms s j) + (1 / alpha - 1) / ms s i * sum3 i (fun c => ff s b c ^ 2).
Proof.
  intros T Hi Ha. pose proof (Rsum_upd (na s) i (fun m j => sum3 j (fun c => ff s b c ^ 2) / m) (ms s) (alpha * ms s i) Hi) as A. cbv beta in A.
  unfold isotope. pose proof (t_m _ _ T i Hi) as M.
  replace ((1 / alpha - 1) / ms s i * sum3 i (fun c => ff s b c ^ 2)) with
    (sum3 i (fun c => ff s b c ^ 2) / (alpha * ms s i) - sum3 i (fun c => ff s b c ^ 2) / ms s i) by (field; lra). lra.
Qed.
Lemma sc_action_isotope s hbar i alpha : at_beta s hbar -> (i < na s)%nat -> 0 < alpha ->
  sc_action s 0 hbar (isotope s i alpha) (/ kT s) - sc_action s 0 hbar (ms s) (/ kT s) =
  betaP' s * (spr s alpha i + odd_f2 s (ff s) i * ((1 / alpha - 1) * 1 / ms s i * (4 / 3) * (1 / 12) / om2 s)) - 3 / 2 * INR (nb s) * ln alpha.
Proof.
  intros T Hi Ha. pose proof (om2_pos _ _ T) as O. pose proof (t_m _ _ T i Hi) as M.
  pose proof (action_isotope s hbar i alpha T Hi Ha) as A. unfold action in A. unfold sc_action.
  destruct (betaP_kT s (t_kT _ _ T) (t_nb _ _ T)) as [Eb _]. rewrite Eb in *.
  assert (F : Rsum (nb s) (fun b => (if even_b b then 2 / 3 else 4 / 3) * pot1 s b + sc_f2 0 s (isotope s i alpha) hbar (/ kT s) b)
    = Rsum (nb s) (fun b => (if even_b b then 2 / 3 else 4 / 3) * pot1 s b + sc_f2 0 s (ms s) hbar (/ kT s) b)
      + odd_f2 s (ff s) i * ((1 / alpha - 1) * 1 / ms s i * (4 / 3) * (1 / 12) / om2 s)).
  { unfold odd_f2. rewrite <- (Rsum_odd (nb s) (fun b => sum3 i (fun c => ff s b c ^ 2))), <- Rsum_scal_r, <- Rsum_plus. apply Rsum_ext. intros b _.
    unfold sc_f2. rewrite <- (t_om _ _ T), (f2_isotope s hbar) by easy. destruct (even_b b); field; repeat split; lra. }
  rewrite F. lra.
Qed.
Lemma ti_action_isotope s hbar i alpha : at_beta s hbar -> (i < na s)%nat -> 0 < alpha ->
  ti_action s hbar (isotope s i alpha) (/ kT s) - ti_action s hbar (ms s) (/ kT s) =
  betaP' s * (spr s alpha i + all_f2 s (ff s) i * ((1 / alpha - 1) * 1 / ms s i * (1 / 24) / om2 s)) - 3 / 2 * INR (nb s) * ln alpha.
Proof.
  intros T Hi Ha. pose proof (om2_pos _ _ T) as O. pose proof (t_m _ _ T i Hi) as M.
  pose proof (action_isotope s hbar i alpha T Hi Ha) as A. unfold ti_action.
  destruct (betaP_kT s (t_kT _ _ T) (t_nb _ _ T)) as [Eb _]. rewrite Eb in *.
  assert (F : Rsum (nb s) (fun b => Rsum (na s) (fun j => sum3 j (fun c => ff s b c ^ 2) / isotope s i alpha j) / (24 * omega2 (nb s) hbar (/ kT s)))
    = Rsum (nb s) (fun b => Rsum (na s) (fun j => sum3 j (fun c => ff s b c ^ 2) / ms s j) / (24 * omega2 (nb s) hbar (/ kT s)))
      + all_f2 s (ff s) i * ((1 / alpha - 1) * 1 / ms s i * (1 / 24) / om2 s)).
  { unfold all_f2. rewrite <- Rsum_scal_r, <- Rsum_plus. apply Rsum_ext. intros b _.
    rewrite <- (t_om _ _ T), (f2_isotope s hbar) by easy. field; repeat split; lra. }
  rewrite F. lra.
Qed.
(** Output: spring, its square, second order, Takahashi-Imada, Suzuki-Chin (in this order). *)
Theorem zetatd_4th_weight s hbar i alpha : at_beta s hbar -> named s -> (i < na s)%nat -> 0 < alpha ->
  let ratio A := exp (- (A (isotope s i alpha) (/ kT s) - A (ms s) (/ kT s))) * Rpower alpha (- (3 / 2)) in
  exists a b, get_isotope_zetatd_4th s alpha (show_z (Z.of_nat i)) =
    Some [a; b; ratio (action s hbar); ratio (ti_action s hbar); ratio (sc_action s 0 hbar)].
Proof.
  intros T Hl Hi Ha ratio. do 2 eexists. unfold get_isotope_zetatd_4th. rewrite resolve_index, selected_one, !mean_one by easy. f_equal. do 2 f_equal.
  unfold ratio. rewrite action_isotope, ti_action_isotope, sc_action_isotope by easy.
  destruct (betaP_kT s (t_kT _ _ T) (t_nb _ _ T)) as [Eb Eb']. rewrite Eb, Eb'. unfold free_factor.
  repeat match goal with |- context [exp (- (?z - ?x * ln alpha))] => replace (- (z - x * ln alpha)) with (- z + x * ln alpha) by ring end.
  rewrite !Rpower_split by easy. replace (3 / 2 * INR (nb s) + - (3 / 2)) with (3 / 2 * (INR (nb s) - 1)) by ring.
  rewrite !Ropp_mult_distr_l. easy.
Qed.

(** ** Scaled coordinates *)
Section IsoSC.
Variables (Cell : Type) (V : mat -> Cell -> R) (pots : mat -> Cell -> nat -> R) (F : mat -> Cell -> mat).
Notation aux := (aux Cell).
(** The system with all beads moved to [q]. *)
Definition moved (s : sys) (q : mat) (h : Cell) : sys :=
  mkSys (nb s) (na s) (lab s) (ms s) q (F q h) (pots q h) (kb s) (temp s) (om2 s) (bosons s) (exkin s).
Definition force_field (s : sys) (h : Cell) : Prop :=
  (forall q, V q h = Rsum (nb s) (pots q h)) /\ pot1 s = pots (qq s) h /\ ff s = F (qq s) h.

Lemma scale_atom_bond s x i j b b' : scale_atom s x i b j - scale_atom s x i b' j = (if (j / 3 =? i)%nat then x else 1) * (qq s b j - qq s b' j).
Proof. unfold scale_atom. destruct (j / 3 =? i)%nat; ring. Qed.
(** The scaled positions keep the centroids, and the deviations from them are scaled. *)
Theorem scale_keeps_centroid s h x i c : (0 < nb s)%nat -> qc (moved s (scale_atom s x i) h) c = qc s c /\ forall b, dev (moved s (scale_atom s x i) h) b c = (if (c / 3 =? i)%nat then x else 1) * dev s b c.
Proof.
  intros H. apply lt_0_INR in H. assert (Q : qc (moved s (scale_atom s x i) h) c = qc s c).
  { unfold qc at 1. cbn [moved nb qq]. unfold scale_atom. destruct (c / 3 =? i)%nat; [|reflexivity].
    rewrite Rsum_plus, Rsum_const, Rsum_scal. unfold qc. field. lra. }
  split; [exact Q|]. intros b. unfold dev. rewrite Q. cbn [moved qq]. unfold scale_atom. destruct (c / 3 =? i)%nat; ring.
Qed.
Lemma sum3_bond (j : nat) (x : R) (i : nat) (g : nat -> R) : sum3 j (fun c => ((if (c / 3 =? i)%nat then x else 1) * g c) ^ 2) =
  (if (j =? i)%nat then x ^ 2 else 1) * sum3 j (fun c => g c ^ 2).
Proof.
  rewrite <- sum3_scal. apply sum3_ext. intros c Hc. replace (c / 3)%nat with j.
  - destruct (j =? i)%nat; ring.
  - symmetry. replace c with (3 * j + (c - 3 * j))%nat by lia. apply div3. lia.
Qed.
Lemma ring2_scale s h x i j : ring2 (moved s (scale_atom s x i) h) j = (if (j =? i)%nat then x ^ 2 else 1) * ring2 s j.
Proof.
  unfold ring2. cbn [moved nb qq]. rewrite Rmult_plus_distr_l, <- Rsum_scal. f_equal.
  - apply Rsum_ext. intros b _. rewrite <- sum3_bond. apply sum3_ext. intros c _. f_equal. apply scale_atom_bond.
  - rewrite <- sum3_bond. apply sum3_ext. intros c _. f_equal. apply scale_atom_bond.
Qed.
(** The springs of the isotope at the scaled positions have the energy of the springs of the simulation. *)
Lemma springs_isotope s h i alpha : (i < na s)%nat -> 0 < alpha ->
  Rsum (na s) (fun j => 1 / 2 * isotope s i alpha j * om2 s * ring2 (moved s (scale_atom s (1 / sqrt alpha) i) h) j) =
  Rsum (na s) (fun j => 1 / 2 * ms s j * om2 s * ring2 s j).
Proof.
  intros Hi Ha. apply Rsum_ext. intros j _. rewrite ring2_scale. unfold isotope, upd. destruct (Nat.eqb_spec j i) as [->|]; [|ring].
  assert (S : 0 < sqrt alpha) by now apply sqrt_lt_R0. replace ((1 / sqrt alpha) ^ 2) with (/ alpha).
  - field. lra.
  - unfold Rdiv. rewrite Rmult_1_l, <- (sqrt_sqrt alpha) at 1 by lra. field. lra.
Qed.
Definition sc_ratio (s : sys) (h : Cell) (i : nat) (alpha : R) (A : sys -> (nat -> R) -> R -> R) : R :=
  exp (- (A (moved s (scale_atom s (1 / sqrt alpha) i) h) (isotope s i alpha) (/ kT s) - A s (ms s) (/ kT s))) * Rpower alpha (- (3 / 2) * INR (nb s)).
Lemma ln_isotope s hbar i alpha : at_beta s hbar -> (i < na s)%nat -> 0 < alpha ->
  Rsum (na s) (fun j => ln (isotope s i alpha j)) = Rsum (na s) (fun j => ln (ms s j)) + ln alpha.
Proof.
  intros T Hi Ha. pose proof (Rsum_upd (na s) i (fun m _ => ln m) (ms s) (alpha * ms s i) Hi) as B. cbv beta in B.
  rewrite ln_mult in B by (easy || apply (t_m _ _ T); easy). unfold isotope. lra.
Qed.
Lemma action_scaled s hbar h i alpha : at_beta s hbar -> force_field s h -> (i < na s)%nat -> 0 < alpha ->
  action (moved s (scale_atom s (1 / sqrt alpha) i) h) hbar (isotope s i alpha) (/ kT s) - action s hbar (ms s) (/ kT s) =
  betaP' s * scdiff Cell V s h h alpha i - 3 / 2 * INR (nb s) * ln alpha.
Proof.
  intros T (Hv & Hp & _) Hi Ha. destruct (betaP_kT s (t_kT _ _ T) (t_nb _ _ T)) as [-> _]. unfold action. cbn [moved nb na]. rewrite <- (t_om _ _ T).
  pose proof (springs_isotope s h i alpha Hi Ha) as Sp. cbn [moved nb na] in Sp. rewrite Sp. rewrite (ln_isotope s hbar) by easy.
  unfold scdiff. rewrite !Hv, Hp. unfold Rdiv. cbn [pot1 moved]. ring.
Qed.
Theorem zetasc_weight s hbar h a i alpha : at_beta s hbar -> named s -> (i < na s)%nat -> 0 < alpha -> force_field s h -> dh Cell a = h ->
  exists u v z, get_isotope_zetasc Cell V s h a alpha (show_z (Z.of_nat i)) = Some [u; v; z] /\
  z = sc_ratio s h i alpha (fun s => action s hbar).
Proof.
  intros T Hl Hi Ha HF Hh. do 3 eexists. unfold get_isotope_zetasc. rewrite resolve_index, selected_one by easy. split; [reflexivity|].
  cbv zeta. rewrite mean_one, Hh. unfold sc_ratio. rewrite action_scaled by easy.
  replace (- (betaP' s * scdiff Cell V s h h alpha i - 3 / 2 * INR (nb s) * ln alpha)) with (- (betaP' s * scdiff Cell V s h h alpha i) + 3 / 2 * INR (nb s) * ln alpha) by ring.
  rewrite Rpower_split by easy. replace (3 / 2 * INR (nb s) + - (3 / 2) * INR (nb s)) with 0 by ring.
  rewrite Rpower_O by easy. rewrite Rmult_1_r. f_equal. ring.
Qed.

(** Fourth order: the |f|^2 of the selected atom is followed, that of the other atoms is not. *)
Definition others_f2 (s : sys) (h : Cell) (i : nat) (alpha : R) (b : nat) : R :=
  Rsum (na s) (fun j => if (j =? i)%nat then 0 else
    sum3 j (fun c => F (scale_atom s (1 / sqrt alpha) i) h b c ^ 2 - F (qq s) h b c ^ 2) / ms s j).
Lemma f2_scaled s h hbar i alpha b : at_beta s hbar -> force_field s h -> (i < na s)%nat -> 0 < alpha ->
  Rsum (na s) (fun j => sum3 j (fun c => F (scale_atom s (1 / sqrt alpha) i) h b c ^ 2) / isotope s i alpha j) =
  Rsum (na s) (fun j => sum3 j (fun c => ff s b c ^ 2) / ms s j)
  + sum3 i (fun c => F (scale_atom s (1 / sqrt alpha) i) h b c ^ 2 / alpha - F (qq s) h b c ^ 2) / ms s i + others_f2 s h i alpha b.
Proof.
  intros T (_ & _ & Hf) Hi Ha. rewrite Hf. unfold others_f2. set (f' := F (scale_atom s (1 / sqrt alpha) i) h b). set (f := F (qq s) h b).
  pose proof (t_m _ _ T i Hi) as M.
  assert (E : sum3 i (fun c => f' c ^ 2 / alpha - f c ^ 2) / ms s i = Rsum (na s) (fun j => if (j =? i)%nat then sum3 i (fun c => f' c ^ 2 / alpha - f c ^ 2) / ms s i else 0)).
  { clear - Hi. set (x := _ / _). revert Hi. generalize (na s). induction n as [|n IH]; [lia|]. intros Hi. cbn [Rsum]. destruct (Nat.eqb_spec n i) as [->|N].
    - rewrite (Rsum_ext i _ (fun _ => 0)), Rsum_const; [ring|]. intros j Hj. destruct (Nat.eqb_spec j i); [lia|easy].
    - rewrite <- IH by lia. ring. }
  rewrite E, <- !Rsum_plus. apply Rsum_ext. intros j _. unfold isotope, upd. destruct (Nat.eqb_spec j i) as [->|].
  - unfold sum3. field. lra.
  - unfold sum3, Rdiv. ring.
Qed.
Lemma Rsum_pairs m x y : Rsum (2 * m) (fun b => if even_b b then x b else y b) = Rsum m (fun k => x (2 * k)%nat + y (2 * k + 1)%nat).
Proof.
  induction m as [|m IH]; [easy|]. replace (2 * S m)%nat with (S (S (2 * m))) by lia. cbn [Rsum]. rewrite IH.
  rewrite even_2. replace (S (2 * m)) with (2 * m + 1)%nat by lia. rewrite odd_2. ring.
Qed.
Lemma even_double n : even_b n = true -> n = (2 * (n / 2))%nat.
Proof.
  intros H. destruct (Nat.Even_or_Odd n) as [[m ->]|[m ->]].
  - rewrite (Nat.mul_comm 2 m), Nat.div_mul by lia. lia.
  - exfalso. now rewrite odd_2 in H.
Qed.
Lemma sc_action_scaled s hbar h i alpha : at_beta s hbar -> force_field s h -> (i < na s)%nat -> 0 < alpha -> even_b (nb s) = true ->
  let q := scale_atom s (1 / sqrt alpha) i in
  sc_action (moved s q h) 0 hbar (isotope s i alpha) (/ kT s) - sc_action s 0 hbar (ms s) (/ kT s) =
  betaP' s * (scdiff Cell V s h h alpha i
    + (Rsum (nb s / 2) (fun k => sum3 i (fun c => F q h (2 * k + 1)%nat c ^ 2 / alpha - F (qq s) h (2 * k + 1)%nat c ^ 2)) * (1 / ms s i * (4 / 3) * (1 / 12) / om2 s)
       + Rsum (nb s / 2) (fun k => ((- pots q h (2 * k)%nat + pots q h (2 * k + 1)%nat) - (- pots (qq s) h (2 * k)%nat + pots (qq s) h (2 * k + 1)%nat)) / 3))
    + Rsum (nb s / 2) (fun k => others_f2 s h i alpha (2 * k + 1)) / (9 * om2 s))
  - 3 / 2 * INR (nb s) * ln alpha.
Proof.
  intros T HF Hi Ha He q. pose proof (om2_pos _ _ T) as O. pose proof (t_m _ _ T i Hi) as M.
  destruct (betaP_kT s (t_kT _ _ T) (t_nb _ _ T)) as [-> _]. unfold sc_action. cbn [moved nb na pot1]. rewrite <- (t_om _ _ T).
  pose proof (springs_isotope s h i alpha Hi Ha) as Sp. cbn [moved nb na] in Sp. fold q in Sp. rewrite Sp. rewrite (ln_isotope s hbar) by easy.
  assert (E : Rsum (nb s) (fun b => (if even_b b then 2 / 3 else 4 / 3) * pots q h b + sc_f2 0 (moved s q h) (isotope s i alpha) hbar (/ kT s) b)
    - Rsum (nb s) (fun b => (if even_b b then 2 / 3 else 4 / 3) * pot1 s b + sc_f2 0 s (ms s) hbar (/ kT s) b)
    = scdiff Cell V s h h alpha i
    + (Rsum (nb s / 2) (fun k => sum3 i (fun c => F q h (2 * k + 1)%nat c ^ 2 / alpha - F (qq s) h (2 * k + 1)%nat c ^ 2)) * (1 / ms s i * (4 / 3) * (1 / 12) / om2 s)
       + Rsum (nb s / 2) (fun k => ((- pots q h (2 * k)%nat + pots q h (2 * k + 1)%nat) - (- pots (qq s) h (2 * k)%nat + pots (qq s) h (2 * k + 1)%nat)) / 3))
    + Rsum (nb s / 2) (fun k => others_f2 s h i alpha (2 * k + 1)) / (9 * om2 s)).
  { unfold scdiff. fold q. destruct HF as (Hv & Hp & Hf). rewrite !Hv, Hp. rewrite <- !Rsum_minus. rewrite Rsum_div, <- Rsum_scal_r.
    set (n2 := (nb s / 2)%nat). rewrite (even_double _ He). fold n2.
    assert (W : forall x, Rsum (2 * n2) x = Rsum n2 (fun k => x (2 * k)%nat + x (2 * k + 1)%nat)).
    { intros x. rewrite <- Rsum_pairs. apply Rsum_ext. intros b _. now destruct (even_b b). }
    rewrite !W. rewrite <- !Rsum_plus. apply Rsum_ext. intros k _.
    pose proof (even_2 k) as E1. pose proof (odd_2 k) as E2. unfold sc_f2. cbn [moved nb na ff]. rewrite <- (t_om _ _ T), E1, E2.
    pose proof (f2_scaled s h hbar i alpha (2 * k + 1) T ltac:(now repeat split) Hi Ha) as G. fold q in G. 
    rewrite G, !Hf. field. lra. }
  match type of E with _ = ?y => set (Y := y) in * end. set (X1 := Rsum (nb s) (fun b => _ * pots q h b + _)) in *. set (X2 := Rsum (nb s) (fun b => _ * pot1 s b + _)) in *.
  replace X1 with (X2 + Y) by lra. unfold Rdiv. ring.
Qed.
Lemma ti_action_scaled s hbar h i alpha : at_beta s hbar -> force_field s h -> (i < na s)%nat -> 0 < alpha ->
  let q := scale_atom s (1 / sqrt alpha) i in
  ti_action (moved s q h) hbar (isotope s i alpha) (/ kT s) - ti_action s hbar (ms s) (/ kT s) =
  betaP' s * (scdiff Cell V s h h alpha i
    + Rsum (nb s) (fun b => sum3 i (fun c => F q h b c ^ 2 / alpha - F (qq s) h b c ^ 2)) * (1 / ms s i * (1 / 24) / om2 s)
    + Rsum (nb s) (others_f2 s h i alpha) / (24 * om2 s))
  - 3 / 2 * INR (nb s) * ln alpha.
Proof.
  intros T HF Hi Ha q. pose proof (om2_pos _ _ T) as O. pose proof (t_m _ _ T i Hi) as M.
  pose proof (action_scaled s hbar h i alpha T HF Hi Ha) as A. fold q in A.
  destruct (betaP_kT s (t_kT _ _ T) (t_nb _ _ T)) as [Eb _]. rewrite Eb in *.
  assert (E : Rsum (nb s) (fun b => Rsum (na s) (fun j => sum3 j (fun c => ff (moved s q h) b c ^ 2) / isotope s i alpha j) / (24 * omega2 (nb s) hbar (/ kT s)))
    = Rsum (nb s) (fun b => Rsum (na s) (fun j => sum3 j (fun c => ff s b c ^ 2) / ms s j) / (24 * omega2 (nb s) hbar (/ kT s)))
      + Rsum (nb s) (fun b => sum3 i (fun c => F q h b c ^ 2 / alpha - F (qq s) h b c ^ 2)) * (1 / ms s i * (1 / 24) / om2 s)
      + Rsum (nb s) (others_f2 s h i alpha) / (24 * om2 s)).
  { rewrite (Rsum_div _ (others_f2 s h i alpha)), <- Rsum_scal_r, <- !Rsum_plus. apply Rsum_ext. intros b _. cbn [moved ff].
    pose proof (f2_scaled s h hbar i alpha b T HF Hi Ha) as G. fold q in G. rewrite G, <- (t_om _ _ T). field. lra. }
  unfold ti_action. change (nb (moved s q h)) with (nb s). change (na (moved s q h)) with (na s). rewrite E. lra.
Qed.
(** The fourth-order estimators with the terms that are left out. *)
Theorem zetasc_4th_partial s hbar h a i alpha : at_beta s hbar -> named s -> (i < na s)%nat -> 0 < alpha -> even_b (nb s) = true ->
  force_field s h -> dh Cell a = h ->
  exists u v, get_isotope_zetasc_4th Cell V pots F s h a alpha (show_z (Z.of_nat i)) =
  Some [u; v; sc_ratio s h i alpha (fun s => action s hbar);
        sc_ratio s h i alpha (fun s => ti_action s hbar) * exp (betaP' s * Rsum (nb s) (others_f2 s h i alpha) / (24 * om2 s));
        sc_ratio s h i alpha (fun s => sc_action s 0 hbar) * exp (betaP' s * Rsum (nb s / 2) (fun k => others_f2 s h i alpha (2 * k + 1)) / (9 * om2 s))].
Proof.
  intros T Hl Hi Ha He HF Hh. do 2 eexists. unfold get_isotope_zetasc_4th. rewrite resolve_index, selected_one, He by easy. cbn [negb].
  cbv zeta. rewrite !mean_one, Hh. f_equal. do 2 f_equal. unfold sc_ratio.
  rewrite action_scaled, ti_action_scaled, sc_action_scaled by easy.
  assert (W : forall z y, exp (- betaP' s * z) = exp (- (betaP' s * (z + y) - 3 / 2 * INR (nb s) * ln alpha)) * Rpower alpha (- (3 / 2) * INR (nb s)) * exp (betaP' s * y)).
  { intros z y. replace (- (betaP' s * (z + y) - 3 / 2 * INR (nb s) * ln alpha)) with (- (betaP' s * (z + y)) + 3 / 2 * INR (nb s) * ln alpha) by ring.
    rewrite Rpower_split by easy. replace (3 / 2 * INR (nb s) + - (3 / 2) * INR (nb s)) with 0 by ring.
    rewrite Rpower_O, Rmult_1_r, <- exp_plus by easy. f_equal. ring. }
  unfold Rdiv at 17. f_equal; [|f_equal; [|f_equal]].
  - rewrite (W _ 0), Rmult_0_r, exp_0, Rplus_0_r, Rmult_1_r. easy.
  - rewrite (W _ (Rsum (nb s) (others_f2 s h i alpha) / (24 * om2 s))). unfold Rdiv at 9. rewrite <- Rmult_assoc. easy.
  - rewrite (W _ (Rsum (nb s / 2) (fun k => others_f2 s h i alpha (2 * k + 1)) / (9 * om2 s))).
    f_equal. f_equal. unfold Rdiv. ring.
Qed.
Theorem zetasc_4th_weight s hbar h a i alpha : at_beta s hbar -> named s -> (i < na s)%nat -> 0 < alpha -> even_b (nb s) = true ->
  force_field s h -> dh Cell a = h -> (forall b, others_f2 s h i alpha b = 0) ->
  exists u v, get_isotope_zetasc_4th Cell V pots F s h a alpha (show_z (Z.of_nat i)) =
  Some [u; v; sc_ratio s h i alpha (fun s => action s hbar); sc_ratio s h i alpha (fun s => ti_action s hbar);
        sc_ratio s h i alpha (fun s => sc_action s 0 hbar)].
Proof.
  intros T Hl Hi Ha He HF Hh Ho. destruct (zetasc_4th_partial s hbar h a i alpha T Hl Hi Ha He HF Hh) as (u & v & E). exists u, v. rewrite E.
  rewrite (Rsum_ext (nb s) (others_f2 s h i alpha) (fun _ => 0)), (Rsum_ext (nb s / 2) _ (fun _ => 0)) by (intros; apply Ho).
  rewrite !Rsum_const, !Rmult_0_r. unfold Rdiv. rewrite !Rmult_0_l, exp_0, !Rmult_1_r. easy.
Qed.

(** The same mass: nothing changes. *)
Lemma scale_atom_one s i b c : scale_atom s (1 / sqrt 1) i b c = qq s b c.
Proof. unfold scale_atom. rewrite sqrt_1. destruct (c / 3 =? i)%nat; [field|easy]. Qed.
Theorem zetatd_same_mass s atom r : get_isotope_zetatd s 1 atom = Some r -> r = [0; 0; 1].
Proof.
  unfold get_isotope_zetatd. destruct (resolve _ _); [|easy]. destruct (selected _ _ _) as [|i l] eqn:L; [easy|]. intros [= <-].
  assert (Z : forall j, spr s 1 j = 0) by (intros; unfold spr; ring).
  rewrite (mean_ext _ (fun _ => 0)) by (intros; apply Z). rewrite (mean_ext (fun i => _ * _) (fun _ => 0)) by (intros; rewrite Z; ring).
  rewrite (mean_ext (fun i => exp _) (fun _ => 1)) by (intros; rewrite Z, Rmult_0_r; apply exp_0).
  rewrite !mean_const by easy. unfold free_factor, Rpower. rewrite ln_1, Rmult_0_r, exp_0, Rmult_1_r. easy.
Qed.
Theorem zetasc_same_mass s h a atom r : (forall q q', (forall b c, q b c = q' b c) -> V q h = V q' h) -> dh Cell a = h ->
  get_isotope_zetasc Cell V s h a 1 atom = Some r -> r = [0; 0; 1].
Proof.
  intros HV Hh. unfold get_isotope_zetasc. destruct (resolve _ _); [|easy]. destruct (selected _ _ _) as [|i l] eqn:L; [easy|]. cbv zeta. intros [= <-]. rewrite Hh.
  assert (Z : forall j, scdiff Cell V s h h 1 j = 0) by (intros; unfold scdiff; rewrite (HV _ (qq s)); [ring|apply scale_atom_one]).
  rewrite (mean_ext _ (fun _ => 0)) by (intros; apply Z). rewrite (mean_ext (fun i => _ * _) (fun _ => 0)) by (intros; rewrite Z; ring).
  rewrite (mean_ext (fun i => exp _) (fun _ => 1)) by (intros; rewrite Z, Rmult_0_r; apply exp_0).
  now rewrite !mean_const by easy.
Qed.

(** ** Displaced paths *)
Lemma Rsum_opening s : (0 < nb s)%nat -> Rsum (nb s) (opening s) = 0.
Proof.
  intros H. apply lt_0_INR in H. unfold opening. rewrite Rsum_plus, Rsum_const.
  assert (E : forall n, Rsum n (fun b => INR b) = INR n * (INR n - 1) / 2).
  { clear. induction n as [|n IH]; [cbn; field|]. cbn [Rsum]. rewrite IH, S_INR. field. }
  rewrite (Rsum_ext _ (fun b => INR b / INR (nb s)) (fun b => INR b * / INR (nb s))) by easy. rewrite Rsum_scal_r, E. field. lra.
Qed.
(** The path opened by u: bond lengths of atom i when its end is the image of its beginning shifted by u. *)
Definition open_ring2 (P : nat) (q : mat) (u : nat -> R) (i : nat) : R :=
  Rsum (P - 1) (fun b => Rsum 3 (fun k => (q (S b) (3 * i + k)%nat - q b (3 * i + k)%nat) ^ 2))
  + Rsum 3 (fun k => (q 0%nat (3 * i + k)%nat + u k - q (P - 1)%nat (3 * i + k)%nat) ^ 2).
Lemma telescope n (x : nat -> R) : Rsum n (fun b => x (S b) - x b) = x n - x 0%nat.
Proof. induction n as [|n IH]; cbn [Rsum]; [ring|rewrite IH; ring]. Qed.
Lemma open_bonds s u i : (0 < nb s)%nat ->
  open_ring2 (nb s) (open_q s u i) u i = ring2 s i + Rsum 3 (fun k => u k * u k) / INR (nb s).
Proof.
  intros Hn. assert (P : 0 < INR (nb s)) by now apply lt_0_INR. unfold open_ring2, ring2.
  assert (Q : forall b k, (k < 3)%nat -> open_q s u i b (3 * i + k)%nat = qq s b (3 * i + k)%nat + opening s b * u k).
  { intros b k Hk. unfold open_q. rewrite div3, Nat.eqb_refl by easy. replace ((3 * i + k) mod 3)%nat with k; [easy|].
    rewrite Nat.add_comm, Nat.mul_comm, Nat.mod_add by lia. now rewrite Nat.mod_small. }
  set (p := INR (nb s)) in *.
  assert (B : forall b, (b < nb s - 1)%nat -> Rsum 3 (fun k => (open_q s u i (S b) (3 * i + k)%nat - open_q s u i b (3 * i + k)%nat) ^ 2) =
    sum3 i (fun j => (qq s (S b) j - qq s b j) ^ 2) + 2 / p * Rsum 3 (fun k => u k * (qq s (S b) (3 * i + k)%nat - qq s b (3 * i + k)%nat)) + Rsum 3 (fun k => u k * u k) / p ^ 2).
  { intros b _. unfold sum3. cbn [Rsum]. rewrite !Q by lia. unfold opening. rewrite S_INR. fold p. rewrite !Nat.add_0_r. field. lra. }
  rewrite (Rsum_ext _ _ _ B). rewrite !Rsum_plus, Rsum_const, Rsum_scal, Rsum_swap.
  assert (C : Rsum 3 (fun k => (open_q s u i 0%nat (3 * i + k)%nat + u k - open_q s u i (nb s - 1)%nat (3 * i + k)%nat) ^ 2) =
    sum3 i (fun j => (qq s (nb s - 1)%nat j - qq s 0%nat j) ^ 2) - 2 / p * Rsum 3 (fun k => u k * (qq s (nb s - 1)%nat (3 * i + k)%nat - qq s 0%nat (3 * i + k)%nat))
    + Rsum 3 (fun k => u k * u k) / p ^ 2).
  { unfold sum3. cbn [Rsum]. rewrite !Q by lia. unfold opening. rewrite minus_INR by lia. fold p. cbn [INR]. rewrite !Nat.add_0_r. field. lra. }
  rewrite C.
  assert (Te : Rsum 3 (fun k => Rsum (nb s - 1) (fun b => u k * (qq s (S b) (3 * i + k)%nat - qq s b (3 * i + k)%nat))) =
    Rsum 3 (fun k => u k * (qq s (nb s - 1)%nat (3 * i + k)%nat - qq s 0%nat (3 * i + k)%nat))).
  { apply Rsum_ext. intros k _. rewrite Rsum_scal. f_equal. apply (telescope (nb s - 1) (fun b => qq s b (3 * i + k)%nat)). }
  rewrite Te, minus_INR by lia. fold p. cbn [INR]. field. lra.
Qed.
Theorem linlin_weight s hbar h a u i : at_beta s hbar -> named s -> (i < na s)%nat -> dh Cell a = h ->
  get_linlin Cell V s hbar h a u (show_z (Z.of_nat i)) =
  Some (exp (- (/ kT s / INR (nb s)) * (1 / 2 * ms s i * om2 s * (open_ring2 (nb s) (open_q s u i) u i - ring2 s i) + (V (open_q s u i) h - V (qq s) h)))).
Proof.
  intros T Hl Hi Hh. unfold get_linlin. rewrite resolve_index, selected_one by easy. rewrite mean_one, Hh, <- exp_plus. f_equal. f_equal.
  rewrite open_bonds by apply T. rewrite (t_om _ _ T). unfold omega2. assert (P : 0 < INR (nb s)) by apply lt_0_INR, T.
  pose proof (t_kT _ _ T) as K. pose proof (t_h _ _ T) as H. destruct (kT_nz _ K). unfold kT. field. repeat split; lra.
Qed.
(** The centroid does not move. *)
Theorem linlin_centroid s u i c : (0 < nb s)%nat -> Rsum (nb s) (fun b => open_q s u i b c) / INR (nb s) = qc s c.
Proof.
  intros H. unfold qc. f_equal. unfold open_q. destruct (c / 3 =? i)%nat; [|easy].
  rewrite Rsum_plus, Rsum_scal_r, Rsum_opening by easy. ring.
Qed.
Theorem linlin_zero s hbar h a atom r : (forall q q', (forall b c, q b c = q' b c) -> V q h = V q' h) -> dh Cell a = h ->
  get_linlin Cell V s hbar h a (fun _ => 0) atom = Some r -> r = 1.
Proof.
  intros HV Hh. unfold get_linlin. destruct (resolve _ _); [|easy]. destruct (selected _ _ _) as [|i l] eqn:L; [easy|]. intros [= <-].
  rewrite (mean_ext _ (fun _ => 1)); [now apply mean_const|]. intros j _. rewrite Hh, (HV _ (qq s)).
  - rewrite <- exp_plus, <- exp_0. f_equal. cbn [Rsum]. unfold Rdiv. ring.
  - intros b c. unfold open_q. destruct (c / 3 =? j)%nat; [ring|easy].
Qed.
End IsoSC.

(** ** Logarithmic averages *)
Theorem log_weights_sum logr l : l <> [] -> exp (log_weights logr l) = Rsuml (map (fun i => exp (- logr i)) l).
Proof.
  destruct l as [|i l]; [easy|]. intros _. cbn [log_weights map Rsuml].
  assert (A : forall la lb, exp (fst (logsumlog (la, 1) (lb, 1))) = exp la + exp lb).
  { intros la lb. unfold logsumlog. destruct (Rlt_dec lb la); cbn [fst]; rewrite Rmult_1_l.
    - pose proof (exp_pos (lb - la)). rewrite exp_plus, exp_ln by lra. unfold Rminus. rewrite exp_plus, exp_Ropp. pose proof (exp_pos la). field. lra.
    - pose proof (exp_pos (la - lb)). rewrite exp_plus, exp_ln by lra. unfold Rminus. rewrite exp_plus, exp_Ropp. pose proof (exp_pos lb). field. lra. }
  generalize (- logr i) as x. induction l as [|j l IH]; intros x; [cbn; ring|]. cbn [fold_left map Rsuml]. rewrite IH, A. ring.
Qed.
Theorem log_ke_sum logr tcv l : l <> [] -> (forall i, In i l -> 0 < tcv i) ->
  snd (log_ke logr tcv l) = 1 /\ exp (fst (log_ke logr tcv l)) = Rsuml (map (fun i => exp (- logr i) * tcv i) l).
Proof.
  destruct l as [|i l]; [easy|]. intros _ H. cbn [log_ke map Rsuml].
  assert (A : forall la lb, snd (logsumlog (la, 1) (lb, 1)) = 1 /\ exp (fst (logsumlog (la, 1) (lb, 1))) = exp la + exp lb).
  { intros la lb. unfold logsumlog. destruct (Rlt_dec lb la); cbn [fst snd]; rewrite Rmult_1_l; (split; [easy|]).
    - pose proof (exp_pos (lb - la)). rewrite exp_plus, exp_ln by lra. unfold Rminus. rewrite exp_plus, exp_Ropp. pose proof (exp_pos la). field. lra.
    - pose proof (exp_pos (la - lb)). rewrite exp_plus, exp_ln by lra. unfold Rminus. rewrite exp_plus, exp_Ropp. pose proof (exp_pos lb). field. lra. }
  assert (B : forall j, 0 < tcv j -> sgn (tcv j) = 1 /\ exp (- logr j + ln (Rabs (tcv j))) = exp (- logr j) * tcv j).
  { intros j Hj. split; [unfold sgn; destruct (Rlt_dec 0 (tcv j)); [easy|lra]|]. rewrite Rabs_right, exp_plus, exp_ln by lra. easy. }
  destruct (B i ltac:(apply H; now left)) as [-> <-]. generalize (- logr i + ln (Rabs (tcv i))) as x.
  assert (Hl : forall j, In j l -> 0 < tcv j) by (intros; apply H; now right). clear H.
  induction l as [|j l IH]; intros x; [cbn; split; [easy|ring]|]. cbn [fold_left map Rsuml].
  destruct (B j ltac:(apply Hl; now left)) as [-> <-]. specialize (IH ltac:(intros; apply Hl; now right)).
  destruct (logsumlog (x, 1) (- logr j + ln (Rabs (tcv j)), 1)) as [y sg] eqn:E.
  destruct (A x (- logr j + ln (Rabs (tcv j)))) as [A1 A2]. rewrite E in A1, A2. cbn [fst snd] in A1, A2. subst sg.
  destruct (IH y) as [-> ->]. split; [easy|]. rewrite A2. ring.
Qed.

(** ** Fourth-order weights of the second-order path *)
Theorem chin_correction_weight s : even_b (nb s) = true ->
  get_chin_correction s = Some (- betaP s * Rsum (nb s) (potssc s 0), (- betaP s * Rsum (nb s) (potssc s 0)) ^ 2, exp (- betaP s * Rsum (nb s) (potssc s 0))).
Proof.
  intros He. unfold get_chin_correction. rewrite He. cbn [negb].
  set (x := _ * - betaP s). assert (E : x = - betaP s * Rsum (nb s) (potssc s 0)); [|now rewrite E].
  unfold x. clear x. rewrite (Rmult_comm _ (- betaP s)). f_equal.
  rewrite Rsum_swap. set (n2 := (nb s / 2)%nat). rewrite (even_double _ He). fold n2.
  assert (W : forall x, Rsum (2 * n2) x = Rsum n2 (fun k => x (2 * k)%nat + x (2 * k + 1)%nat)).
  { intros x. rewrite <- Rsum_pairs. apply Rsum_ext. intros b _. now destruct (even_b b). }
  rewrite W, <- Rsum_scal_r, <- Rsum_plus. apply Rsum_ext. intros k _.
  pose proof (even_2 k) as E1. pose proof (odd_2 k) as E2. unfold potssc, coeffsc_part_1, coeffsc_part_2. rewrite E1, E2. unfold f2m.
  rewrite (Rsum_ext (3 * na s) (fun c => ff s (2 * k + 1)%nat c ^ 2 / ms s (c / 3)) (fun c => ff s (2 * k + 1)%nat c / ms s (c / 3) * ff s (2 * k + 1)%nat c)) by (intros; unfold Rdiv; ring).
  unfold Rdiv. rewrite Rmult_0_l, Rmult_0_l, Rmult_0_l. generalize (/ om2 s) as y. intros y. set (X := Rsum (3 * na s) _). field.
Qed.
Theorem chin_correction_odd s : even_b (nb s) = false -> get_chin_correction s = None.
Proof. intros H. unfold get_chin_correction. now rewrite H. Qed.
(** The Takahashi-Imada weight and the Takahashi-Imada term are the same quantity. *)
Theorem ti_correction_term s : 0 < kT s -> (0 < nb s)%nat ->
  exists t, get_ti_term s [] = Some t /\ fst (fst (get_ti_correction s)) = - t / kT s /\ snd (get_ti_correction s) = exp (- t / kT s).
Proof.
  intros K N. apply lt_0_INR in N. eexists. unfold get_ti_term. rewrite resolve_nil, sum_over_all. split; [reflexivity|].
  assert (E : fst (fst (get_ti_correction s)) = - (Rsum (na s) (fun i => sum3 i (fun c => Rsum (nb s) (fun b => ff s b c ^ 2 / ms s i))) * (1 / 24 / om2 s / INR (nb s))) / kT s).
  { unfold get_ti_correction. cbn [fst]. rewrite Rsum_3.
    rewrite (Rsum_ext (na s) (fun i => sum3 i (fun c => Rsum (nb s) (fun b => ff s b c ^ 2 / ms s (c / 3)))) (fun i => sum3 i (fun c => Rsum (nb s) (fun b => ff s b c ^ 2 / ms s i)))).
    - destruct (kT_nz _ K). unfold betaP, kT, Rdiv. set (Y := Rsum (na s) _). generalize (/ om2 s) as y. intros y. field. lra.
    - intros i _. apply sum3_ext. intros c Hc. apply Rsum_ext. intros b _. replace (c / 3)%nat with i; [easy|].
      symmetry. replace c with (3 * i + (c - 3 * i))%nat by lia. apply div3. lia. }
  split; [exact E|]. rewrite <- E. unfold get_ti_correction. easy.
Qed.
