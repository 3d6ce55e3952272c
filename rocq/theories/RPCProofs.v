(** * Ring-polymer contraction: lemmas *)
From Coq Require Import List Reals ZArith Lra Lia Arith Bool.
From Verif Require Import RSum TrigSum Ortho NMModel NMProofs.
Import ListNotations.
Open Scope R_scope.

(** The mode of the long path that becomes mode [a] of the short one. *)
Definition sigma (nb1 nb2 a : nat) : nat := if (a <=? nb2 / 2)%nat then a else (nb1 - (nb2 - a))%nat.

Ltac bool_cases := repeat match goal with
  | |- context [Nat.eqb ?a ?b] => destruct (Nat.eqb_spec a b)
  | |- context [Nat.leb ?a ?b] => destruct (Nat.leb_spec a b)
  | |- context [Nat.ltb ?a ?b] => destruct (Nat.ltb_spec a b) end.

Lemma reduction_fold nb1 nb2 k a b : (nb2 < nb1)%nat -> (k <= nb2 / 2)%nat -> (a < nb2)%nat ->
  fold_left (fun m i => upd (upd m i i 1) (nb2 - i) (nb1 - i) 1) (seq 1 k) (upd (fun _ _ => 0) 0 0 1) a b
  = if (b =? a)%nat && (a <=? k)%nat || (nb2 - k <=? a)%nat && (b =? nb1 - (nb2 - a))%nat then 1 else 0.
Proof.
  intros Hn Hk Ha. assert (Hdm := Nat.div_mod nb2 2 ltac:(lia)).
  induction k as [|k IH].
  - cbn [seq fold_left]. unfold upd. bool_cases; cbn; try easy; lia.
  - rewrite seq_S, fold_left_app. cbn [fold_left]. set (m := fold_left _ _ _) in *.
    specialize (IH ltac:(lia)). unfold upd. rewrite IH. change (1 + k)%nat with (S k). clear IH m.
    bool_cases; cbn; try easy; lia.
Qed.
Lemma reduction_sigma nb1 nb2 a b : (nb2 < nb1)%nat -> (a < nb2)%nat ->
  reduction nb1 nb2 a b = delta (sigma nb1 nb2 a) b.
Proof.
  intros Hn Ha. assert (Hdm := Nat.div_mod nb2 2 ltac:(lia)). assert (Hmb := Nat.mod_upper_bound nb2 2 ltac:(lia)).
  unfold reduction, delta, sigma. destruct (Nat.eqb_spec (nb2 mod 2) 0) as [E|E].
  - unfold upd at 1. rewrite reduction_fold by lia. destruct (Nat.leb_spec a (nb2 / 2)); bool_cases; cbn; try easy; lia.
  - rewrite reduction_fold by lia. destruct (Nat.leb_spec a (nb2 / 2)); bool_cases; cbn; try easy; lia.
Qed.
Lemma sigma_lt nb1 nb2 a : (nb2 < nb1)%nat -> (a < nb2)%nat -> (sigma nb1 nb2 a < nb1)%nat.
Proof. unfold sigma. intros. bool_cases; lia. Qed.
Lemma sigma_inj nb1 nb2 a a' : (nb2 < nb1)%nat -> (a < nb2)%nat -> (a' < nb2)%nat ->
  delta (sigma nb1 nb2 a) (sigma nb1 nb2 a') = delta a a'.
Proof.
  intros. assert (Hdm := Nat.div_mod nb2 2 ltac:(lia)). unfold sigma, delta.
  destruct (Nat.leb_spec a (nb2 / 2)); destruct (Nat.leb_spec a' (nb2 / 2)); bool_cases; try easy; lia.
Qed.

(** A family of orthogonal matrices whose first row is constant. *)
Definition good (mk : nat -> NMModel.mat) : Prop :=
  (forall n, (0 < n)%nat -> orthonormal_rows n (mk n)) /\ (forall n j, (0 < n)%nat -> mk n 0%nat j = / sqrt (INR n)).
Lemma good_nm : good mk_nm_matrix.
Proof. split; [apply nm_rows | intros; now apply nm_row0]. Qed.
Lemma good_o_nm : good mk_o_nm_matrix.
Proof. split; [apply o_nm_rows | intros; now apply o_nm_row0]. Qed.

Lemma rs_entry mk nb1 nb2 i j : (nb2 < nb1)%nat ->
  rs mk nb1 nb2 i j = sqrt (INR nb2 / INR nb1) * Rsum nb2 (fun a => mk nb2 a i * mk nb1 (sigma nb1 nb2 a) j).
Proof.
  intros Hn. unfold rs. rewrite Rmult_comm. f_equal. apply Rsum_ext. intros a Ha. f_equal.
  rewrite <- (Rsum_delta_l nb1 (sigma nb1 nb2 a) (fun b => mk nb1 b j)) by now apply sigma_lt.
  apply Rsum_ext. intros b _. rewrite reduction_sigma by easy. ring.
Qed.

Section With_mk.
Context (mk : nat -> NMModel.mat) (Hmk : good mk) (n1 n2 : nat) (H2 : (0 < n2)%nat) (H21 : (n2 < n1)%nat).
Let H1 : (0 < n1)%nat. Proof. lia. Qed.
Let P1 : 0 < INR n1. Proof. now apply INR_pos. Qed.
Let P2 : 0 < INR n2. Proof. now apply INR_pos. Qed.
Let Q : 0 < INR n2 / INR n1. Proof. apply Rmult_lt_0_compat; [easy|now apply Rinv_0_lt_compat]. Qed.

Lemma rs_modes x k : (k < n2)%nat ->
  app n2 (mk n2) (app n1 (rs mk n1 n2) x) k = sqrt (INR n2 / INR n1) * app n1 (mk n1) x (sigma n1 n2 k).
Proof.
  intros Hk. set (s := sqrt (INR n2 / INR n1)). unfold app at 1 2.
  transitivity (s * Rsum n2 (fun i => mk n2 k i * Rsum n2 (fun a => mk n2 a i * app n1 (mk n1) x (sigma n1 n2 a)))).
  - rewrite <- Rsum_scal. apply Rsum_ext. intros i Hi.
    rewrite (Rsum_ext n1 (fun j => rs mk n1 n2 i j * x j) (fun j => s * Rsum n2 (fun a => mk n2 a i * (mk n1 (sigma n1 n2 a) j * x j)))).
    2:{ intros j Hj. rewrite rs_entry by easy. fold s. rewrite Rmult_assoc. f_equal. rewrite <- Rsum_scal_r. apply Rsum_ext. intros; ring. }
    rewrite Rsum_scal, Rsum_swap.
    rewrite (Rsum_ext n2 (fun a => Rsum n1 _) (fun a => mk n2 a i * app n1 (mk n1) x (sigma n1 n2 a))).
    2:{ intros a _. now rewrite Rsum_scal. }
    ring.
  - f_equal. apply (ortho_roundtrip' n2 (mk n2) (fun a => app n1 (mk n1) x (sigma n1 n2 a))); [now apply (proj1 Hmk)|easy].
Qed.

Lemma rs_rows i i' : (i < n2)%nat -> (i' < n2)%nat ->
  Rsum n1 (fun j => rs mk n1 n2 i j * rs mk n1 n2 i' j) = INR n2 / INR n1 * delta i i'.
Proof.
  intros Hi Hi'. set (s := sqrt (INR n2 / INR n1)).
  assert (Hs : s * s = INR n2 / INR n1) by (apply sqrt_sqrt; lra).
  transitivity (s * s * Rsum n2 (fun a => mk n2 a i * Rsum n2 (fun a' => mk n2 a' i' * Rsum n1 (fun j => mk n1 (sigma n1 n2 a) j * mk n1 (sigma n1 n2 a') j)))).
  - rewrite (Rsum_ext n1 _ (fun j => s * s * Rsum n2 (fun a => Rsum n2 (fun a' => mk n2 a i * (mk n2 a' i' * (mk n1 (sigma n1 n2 a) j * mk n1 (sigma n1 n2 a') j)))))).
    2:{ intros j Hj. rewrite !rs_entry by easy. fold s.
        replace (s * Rsum n2 (fun a => mk n2 a i * mk n1 (sigma n1 n2 a) j) * (s * Rsum n2 (fun a => mk n2 a i' * mk n1 (sigma n1 n2 a) j)))
          with (s * s * (Rsum n2 (fun a => mk n2 a i * mk n1 (sigma n1 n2 a) j) * Rsum n2 (fun a => mk n2 a i' * mk n1 (sigma n1 n2 a) j))) by ring.
        f_equal. rewrite <- Rsum_scal_r. apply Rsum_ext. intros a _. rewrite <- Rsum_scal. apply Rsum_ext. intros; ring. }
    rewrite Rsum_scal. f_equal. rewrite Rsum_swap. apply Rsum_ext. intros a _. rewrite Rsum_swap, <- Rsum_scal. apply Rsum_ext. intros a' _.
    rewrite <- !Rsum_scal. apply Rsum_ext. intros; ring.
  - rewrite Hs. f_equal. rewrite <- (rows_cols n2 (mk n2) (proj1 Hmk n2 H2) i i' Hi Hi'). apply Rsum_ext. intros a Ha. f_equal.
    rewrite <- (Rsum_delta_l n2 a (fun a' => mk n2 a' i') Ha). apply Rsum_ext. intros a' Ha'. f_equal.
    rewrite (proj1 Hmk n1 H1) by (apply sigma_lt; easy). now apply sigma_inj.
Qed.

Lemma row0_sum n x : (0 < n)%nat -> app n (mk n) x 0%nat = Rsum n x / sqrt (INR n).
Proof.
  intros Hn. unfold app. rewrite (Rsum_ext n _ (fun j => x j / sqrt (INR n))); [apply Rsum_div|].
  intros j _. rewrite (proj2 Hmk) by easy. unfold Rdiv. ring.
Qed.
Lemma rs_sum x : Rsum n2 (app n1 (rs mk n1 n2) x) = INR n2 / INR n1 * Rsum n1 x.
Proof.
  pose proof (rs_modes x 0 H2) as H. unfold sigma in H. cbn [Nat.leb] in H. rewrite !row0_sum in H by easy.
  assert (S1 : 0 < sqrt (INR n1)) by now apply sqrt_lt_R0. assert (S2 : 0 < sqrt (INR n2)) by now apply sqrt_lt_R0.
  apply Rmult_eq_reg_r with (/ sqrt (INR n2)); [|apply Rinv_neq_0_compat; lra].
  unfold Rdiv in H at 1. rewrite H. rewrite sqrt_div by lra.
  assert (E1 : INR n1 = sqrt (INR n1) * sqrt (INR n1)) by (symmetry; apply sqrt_sqrt; lra).
  assert (E2 : INR n2 = sqrt (INR n2) * sqrt (INR n2)) by (symmetry; apply sqrt_sqrt; lra).
  set (a := sqrt (INR n1)) in *. set (b := sqrt (INR n2)) in *. rewrite E1, E2. field. lra.
Qed.
(** Row sums are one: constant paths stay constant. *)
Lemma rs_row_sum i : (i < n2)%nat -> Rsum n1 (fun j => rs mk n1 n2 i j) = 1.
Proof.
  intros Hi. assert (S1 : 0 < sqrt (INR n1)) by now apply sqrt_lt_R0. assert (S2 : 0 < sqrt (INR n2)) by now apply sqrt_lt_R0.
  assert (E1 : INR n1 = sqrt (INR n1) * sqrt (INR n1)) by (symmetry; apply sqrt_sqrt; lra).
  assert (Hc : forall b, (b < n1)%nat -> Rsum n1 (fun j => mk n1 b j) = sqrt (INR n1) * delta 0 b).
  { intros b Hb. rewrite <- (proj1 Hmk n1 H1 0%nat b H1 Hb), <- Rsum_scal. apply Rsum_ext. intros j _.
    rewrite (proj2 Hmk) by easy. field. lra. }
  rewrite (Rsum_ext n1 _ (fun j => sqrt (INR n2 / INR n1) * Rsum n2 (fun a => mk n2 a i * mk n1 (sigma n1 n2 a) j))) by (intros; now apply rs_entry).
  rewrite Rsum_scal, Rsum_swap.
  rewrite (Rsum_ext n2 _ (fun a => mk n2 a i * sqrt (INR n1) * delta 0 a)).
  2:{ intros a Ha. rewrite Rsum_scal, Hc by now apply sigma_lt.
      pose proof (sigma_inj n1 n2 0 a H21 H2 Ha) as E. unfold sigma in E at 1. cbn [Nat.leb] in E. rewrite E. ring. }
  rewrite (Rsum_delta_l n2 0 (fun a => mk n2 a i * sqrt (INR n1)) H2), (proj2 Hmk) by easy.
  rewrite sqrt_div by lra. field. lra.
Qed.
End With_mk.

(** All cases of the two matrices of [nm_rescale]. *)
Definition pick (o : bool) := if o then mk_o_nm_matrix else mk_nm_matrix.
Lemma pick_good o : good (pick o).
Proof. destruct o; [apply good_o_nm | apply good_nm]. Qed.
Lemma b1tob2_m_pick o n1 n2 : b1tob2_m o n1 n2 = mk_rs (pick o) n1 n2.
Proof. now destruct o. Qed.

Lemma b1tob2_sum o n1 n2 x : (0 < n1)%nat -> (0 < n2)%nat ->
  Rsum n2 (app n1 (b1tob2_m o n1 n2) x) = INR n2 / INR n1 * Rsum n1 x.
Proof.
  intros H1 H2. pose proof (INR_pos n1 H1) as P1. pose proof (INR_pos n2 H2) as P2.
  rewrite b1tob2_m_pick. unfold mk_rs. destruct (Nat.eqb_spec n1 n2) as [->|Hne].
  - replace (INR n2 / INR n2) with 1 by (field; lra). rewrite Rmult_1_l. apply Rsum_ext. intros i Hi. unfold app.
    rewrite <- (Rsum_delta_l n2 i x Hi). apply Rsum_ext. intros; ring.
  - destruct (Nat.ltb_spec n2 n1).
    + apply rs_sum; [apply pick_good|easy|easy].
    + unfold app. rewrite Rsum_swap. rewrite <- Rsum_scal. apply Rsum_ext. intros j Hj.
      rewrite (Rsum_ext n2 _ (fun i => INR n2 / INR n1 * x j * rs (pick o) n2 n1 j i)) by (intros; ring).
      rewrite Rsum_scal, rs_row_sum by (try apply pick_good; lia). ring.
Qed.
Lemma b2tob1_m_swap o n1 n2 i j : (0 < n1)%nat -> (0 < n2)%nat -> b2tob1_m o n1 n2 i j = b1tob2_m o n2 n1 i j.
Proof.
  intros H1 H2. pose proof (INR_pos n1 H1) as P1. pose proof (INR_pos n2 H2) as P2.
  unfold b2tob1_m. rewrite !b1tob2_m_pick. unfold mk_rs. rewrite (Nat.eqb_sym n2 n1).
  destruct (Nat.eqb_spec n1 n2) as [->|Hne]; [rewrite (delta_sym j i); field; lra|].
  destruct (Nat.ltb_spec n2 n1); destruct (Nat.ltb_spec n1 n2); try lia; [easy|]. field. lra.
Qed.
Lemma b2tob1_sum o n1 n2 x : (0 < n1)%nat -> (0 < n2)%nat ->
  Rsum n1 (app n2 (b2tob1_m o n1 n2) x) = INR n1 / INR n2 * Rsum n2 x.
Proof.
  intros H1 H2. rewrite <- (b1tob2_sum o n2 n1 x H2 H1). apply Rsum_ext. intros i _. unfold app. apply Rsum_ext. intros j _.
  now rewrite b2tob1_m_swap.
Qed.
Lemma contract_expand o n1 n2 y i : (0 < n2)%nat -> (n2 <= n1)%nat -> (i < n2)%nat ->
  app n1 (b1tob2_m o n1 n2) (app n2 (b2tob1_m o n1 n2) y) i = y i.
Proof.
  intros H2 H21 Hi. pose proof (INR_pos n1 ltac:(lia)) as P1. pose proof (INR_pos n2 H2) as P2.
  assert (E : app n1 (b1tob2_m o n1 n2) (app n2 (b2tob1_m o n1 n2) y) i
     = INR n1 / INR n2 * Rsum n2 (fun k => y k * Rsum n1 (fun j => b1tob2_m o n1 n2 i j * b1tob2_m o n1 n2 k j))).
  { unfold app, b2tob1_m. rewrite <- Rsum_scal.
    transitivity (Rsum n1 (fun j => Rsum n2 (fun k => INR n1 / INR n2 * (y k * (b1tob2_m o n1 n2 i j * b1tob2_m o n1 n2 k j))))).
    - apply Rsum_ext. intros j _. rewrite <- Rsum_scal. apply Rsum_ext. intros; ring.
    - rewrite Rsum_swap. apply Rsum_ext. intros k _. now rewrite !Rsum_scal. }
  rewrite E, b1tob2_m_pick. unfold mk_rs. destruct (Nat.eqb_spec n1 n2) as [->|Hne].
  - rewrite (Rsum_ext n2 _ (fun k => y k * delta i k)).
    2:{ intros k Hk. f_equal. apply (Rsum_delta_l n2 k (fun j => delta i j) Hk). }
    rewrite Rsum_delta_l by easy. field. lra.
  - replace (n2 <? n1)%nat with true by (symmetry; apply Nat.ltb_lt; lia).
    rewrite (Rsum_ext n2 _ (fun k => INR n2 / INR n1 * (y k * delta i k))).
    2:{ intros k Hk. rewrite rs_rows by (try apply pick_good; lia). ring. }
    rewrite Rsum_scal, Rsum_delta_l by easy. field. lra.
Qed.
