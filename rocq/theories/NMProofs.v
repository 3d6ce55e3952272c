(** * Orthogonality of the normal-mode matrices *)
From Coq Require Import List Reals ZArith Lra Lia Arith Bool.
From Verif Require Import RSum TrigSum Ortho NMModel.
Import ListNotations.
Open Scope R_scope.

Lemma sqrt2_sq : sqrt 2 * sqrt 2 = 2.
Proof. apply sqrt_sqrt. lra. Qed.
Lemma INR_pos n : (0 < n)%nat -> 0 < INR n.
Proof. apply lt_0_INR. Qed.

(** Uniform form of the entries. *)
Definition amp (n i : nat) : R := if (i =? 0)%nat || (2 * i =? n)%nat then 1 else sqrt 2.
Definition phase (n i : nat) : R := if (i <=? n / 2)%nat then 0 else - (PI / 2).
Lemma amp_sq n i : amp n i * amp n i = if (i =? 0)%nat || (2 * i =? n)%nat then 1 else 2.
Proof. unfold amp. destruct (_ || _); [ring|apply sqrt2_sq]. Qed.

Lemma half_even n i : (n mod 2 =? 0)%nat && (i =? n / 2)%nat = (2 * i =? n)%nat.
Proof.
  pose proof (Nat.div_mod n 2 ltac:(lia)) as H. pose proof (Nat.mod_upper_bound n 2 ltac:(lia)) as Hb.
  destruct (Nat.eqb_spec (n mod 2) 0); destruct (Nat.eqb_spec i (n / 2)); destruct (Nat.eqb_spec (2 * i) n); cbn; lia.
Qed.
Lemma sign_even j : (if (j mod 2 =? 0)%nat then 1 else -1) = cos (INR j * PI).
Proof.
  rewrite cos_INR_PI. pose proof (Nat.div_mod j 2 ltac:(lia)) as H. pose proof (Nat.mod_upper_bound j 2 ltac:(lia)) as Hb.
  destruct (Nat.eqb_spec (j mod 2) 0) as [E|E].
  - rewrite H, E, Nat.add_0_r, pow_mult. replace ((-1) ^ 2) with 1 by ring. now rewrite pow1.
  - replace (j mod 2)%nat with 1%nat in H by lia. rewrite H, pow_add, pow_mult. replace ((-1) ^ 2) with 1 by ring. rewrite pow1. ring.
Qed.
Lemma nm_entry_cos n i j : (0 < n)%nat ->
  nm_entry n i j = amp n i * cos (INR j * (2 * PI * INR i / INR n) + phase n i).
Proof.
  intros Hn. pose proof (INR_pos n Hn) as Hp. unfold nm_entry. rewrite half_even. unfold amp, phase.
  pose proof (Nat.div_mod n 2 ltac:(lia)) as H. pose proof (Nat.mod_upper_bound n 2 ltac:(lia)) as Hb.
  destruct (Nat.eqb_spec (2 * i) n) as [E|E].
  - rewrite orb_true_r. replace (i <=? n / 2)%nat with true by (symmetry; apply Nat.leb_le; lia).
    rewrite sign_even, Rmult_1_l. f_equal. rewrite <- E, mult_INR. cbn [INR]. field. rewrite <- E, mult_INR in Hp. cbn [INR] in Hp. lra.
  - rewrite orb_false_r. destruct (Nat.eqb_spec i 0) as [->|Ei].
    + cbn [INR]. replace (0 <=? n / 2)%nat with true by (symmetry; apply Nat.leb_le; lia).
      replace (INR j * (2 * PI * 0 / INR n) + 0) with 0 by (field; lra). rewrite cos_0, sqrt_1. ring.
    + destruct (Nat.leb_spec i (n / 2)).
      * f_equal. f_equal. field. lra.
      * rewrite sin_as_cos. f_equal. f_equal. field. lra.
Qed.

Lemma Zdiff_mod (n i k : nat) : (i < n)%nat -> (k < n)%nat -> i <> k -> ((Z.of_nat i - Z.of_nat k) mod Z.of_nat n <> 0)%Z.
Proof.
  intros Hi Hk Hne H. apply Z.mod_divide in H; [|lia]. destruct H as [c Hc].
  assert (-1 < c)%Z by nia. assert (c < 1)%Z by nia. assert (c = 0)%Z as -> by lia. lia.
Qed.
Lemma Zsum_mod (n i k : nat) : (i < n)%nat -> (k < n)%nat -> ((Z.of_nat i + Z.of_nat k) mod Z.of_nat n = 0)%Z ->
  (i = 0 /\ k = 0)%nat \/ (i + k = n)%nat.
Proof.
  intros Hi Hk H. apply Z.mod_divide in H; [|lia]. destruct H as [c Hc].
  assert (0 <= c)%Z by nia. assert (c < 2)%Z by nia. assert (c = 0 \/ c = 1)%Z as [-> | ->] by lia; lia.
Qed.

Lemma nm_rows n : (0 < n)%nat -> orthonormal_rows n (mk_nm_matrix n).
Proof.
  intros Hn i k Hi Hk. pose proof (INR_pos n Hn) as Hp.
  assert (Hs : sqrt (INR n) * sqrt (INR n) = INR n) by (apply sqrt_sqrt; lra).
  assert (Hs0 : sqrt (INR n) <> 0) by (apply Rgt_not_eq, sqrt_lt_R0; lra).
  unfold mk_nm_matrix.
  set (d := (Z.of_nat i - Z.of_nat k)%Z). set (s := (Z.of_nat i + Z.of_nat k)%Z).
  rewrite (Rsum_ext n _ (fun j => amp n i * amp n k / (2 * INR n) *
    (cos (INR j * (2 * PI * IZR d / INR n) + (phase n i - phase n k)) + cos (INR j * (2 * PI * IZR s / INR n) + (phase n i + phase n k))))).
  2:{ intros j _. rewrite !nm_entry_cos by easy.
      transitivity (amp n i * amp n k / INR n * (cos (INR j * (2 * PI * INR i / INR n) + phase n i) * cos (INR j * (2 * PI * INR k / INR n) + phase n k))).
      - rewrite <- Hs at 5. field. easy.
      - rewrite cos_cos. unfold d, s. rewrite minus_IZR, plus_IZR, <- !INR_IZR_INZ.
        replace (INR j * (2 * PI * INR i / INR n) + phase n i - (INR j * (2 * PI * INR k / INR n) + phase n k))
          with (INR j * (2 * PI * (INR i - INR k) / INR n) + (phase n i - phase n k)) by (field; lra).
        replace (INR j * (2 * PI * INR i / INR n) + phase n i + (INR j * (2 * PI * INR k / INR n) + phase n k))
          with (INR j * (2 * PI * (INR i + INR k) / INR n) + (phase n i + phase n k)) by (field; lra).
        field. lra. }
  rewrite Rsum_scal, Rsum_plus.
  destruct (Nat.eq_dec i k) as [->|Hne].
  - rewrite delta_same. rewrite cos_sum_full by (try easy; unfold d; rewrite Z.sub_diag; apply Z.mod_0_l; lia).
    rewrite Rminus_eq_0, cos_0, amp_sq.
    destruct (Z.eq_dec (s mod Z.of_nat n) 0) as [E|E].
    + rewrite cos_sum_full by easy. unfold s in E. apply Zsum_mod in E; [|easy|easy].
      replace ((k =? 0)%nat || (2 * k =? n)%nat) with true.
      2:{ symmetry. apply orb_true_iff. rewrite !Nat.eqb_eq. lia. }
      assert (Hph : phase n k = 0).
      { unfold phase. replace (k <=? n / 2)%nat with true; [easy|]. symmetry. apply Nat.leb_le.
        pose proof (Nat.div_mod n 2 ltac:(lia)). pose proof (Nat.mod_upper_bound n 2 ltac:(lia)). lia. }
      rewrite Hph, Rplus_0_l, cos_0. field. lra.
    + rewrite cos_sum_zero by easy.
      replace ((k =? 0)%nat || (2 * k =? n)%nat) with false; [field; lra|]. symmetry. apply orb_false_iff. rewrite !Nat.eqb_neq.
      split; intros F; apply E; unfold s.
      * subst k. apply Z.mod_0_l. lia.
      * replace (Z.of_nat k + Z.of_nat k)%Z with (Z.of_nat n) by lia. apply Z.mod_same. lia.
  - rewrite delta_diff by easy. rewrite cos_sum_zero by (try easy; now apply Zdiff_mod).
    destruct (Z.eq_dec (s mod Z.of_nat n) 0) as [E|E]; [|rewrite cos_sum_zero by easy; ring].
    rewrite cos_sum_full by easy. unfold s in E. apply Zsum_mod in E; [|easy|easy]. destruct E as [E|E]; [lia|].
    assert (Hph : phase n i + phase n k = - (PI / 2)).
    { unfold phase. pose proof (Nat.div_mod n 2 ltac:(lia)). pose proof (Nat.mod_upper_bound n 2 ltac:(lia)).
      destruct (Nat.leb_spec i (n / 2)); destruct (Nat.leb_spec k (n / 2)); try lia; lra. }
    rewrite Hph, cos_neg, cos_PI2. ring.
Qed.

Lemma o_nm_rows n : (0 < n)%nat -> orthonormal_rows n (mk_o_nm_matrix n).
Proof.
  intros Hn i k Hi Hk. pose proof (INR_pos n Hn) as Hp.
  assert (Hs : sqrt (INR n) * sqrt (INR n) = INR n) by (apply sqrt_sqrt; lra).
  assert (Hs0 : sqrt (INR n) <> 0) by (apply Rgt_not_eq, sqrt_lt_R0; lra).
  set (a := fun i : nat => if (i =? 0)%nat then 1 else sqrt 2).
  assert (He : forall i j, o_nm_entry n i j = a i * cos (PI * (INR j + / 2) * INR i / INR n)).
  { intros i0 j. unfold o_nm_entry, a. destruct (Nat.eqb_spec i0 0) as [->|]; [|easy]. cbn [INR].
    replace (PI * (INR j + / 2) * 0 / INR n) with 0 by (field; lra). rewrite cos_0, sqrt_1. ring. }
  set (d := (Z.of_nat i - Z.of_nat k)%Z). set (s := (Z.of_nat i + Z.of_nat k)%Z).
  unfold mk_o_nm_matrix.
  rewrite (Rsum_ext n _ (fun j => a i * a k / (2 * INR n) *
    (cos (PI * (INR j + / 2) * IZR d / INR n) + cos (PI * (INR j + / 2) * IZR s / INR n)))).
  2:{ intros j _. rewrite !He.
      transitivity (a i * a k / INR n * (cos (PI * (INR j + / 2) * INR i / INR n) * cos (PI * (INR j + / 2) * INR k / INR n))).
      - rewrite <- Hs at 5. field. easy.
      - rewrite cos_cos. unfold d, s. rewrite minus_IZR, plus_IZR, <- !INR_IZR_INZ.
        replace (PI * (INR j + / 2) * INR i / INR n - PI * (INR j + / 2) * INR k / INR n)
          with (PI * (INR j + / 2) * (INR i - INR k) / INR n) by (field; lra).
        replace (PI * (INR j + / 2) * INR i / INR n + PI * (INR j + / 2) * INR k / INR n)
          with (PI * (INR j + / 2) * (INR i + INR k) / INR n) by (field; lra).
        field. lra. }
  rewrite Rsum_scal, Rsum_plus.
  assert (Hzero : Rsum n (fun j => cos (PI * (INR j + / 2) * 0 / INR n)) = INR n).
  { rewrite (Rsum_ext n _ (fun _ => 1)); [rewrite Rsum_const; ring|]. intros j _.
    replace (PI * (INR j + / 2) * 0 / INR n) with 0 by (field; lra). apply cos_0. }
  assert (Hnz : forall z, (0 < Z.abs z < 2 * Z.of_nat n)%Z -> Rsum n (fun j => cos (PI * (INR j + / 2) * IZR z / INR n)) = 0).
  { intros z Hz. apply cos_half_sum; [easy|]. intros F. apply Z.mod_divide in F; [|lia]. destruct F as [c Hc]. assert (-1 < c)%Z by nia. assert (c < 1)%Z by nia. assert (c = 0)%Z as -> by lia. lia. }
  destruct (Nat.eq_dec i k) as [->|Hne].
  - rewrite delta_same. unfold d. rewrite Z.sub_diag, Hzero.
    destruct (Nat.eq_dec k 0) as [->|H0].
    + unfold s. cbn [Z.of_nat Z.add]. rewrite Hzero. unfold a. cbn [Nat.eqb]. field. lra.
    + rewrite Hnz by (unfold s; lia). unfold a. rewrite (proj2 (Nat.eqb_neq k 0) H0), sqrt2_sq. field. lra.
  - rewrite delta_diff, !Hnz by (unfold d, s; lia). ring.
Qed.

Lemma nm_cols n : (0 < n)%nat -> orthonormal_cols n (mk_nm_matrix n).
Proof. intros H. now apply rows_cols, nm_rows. Qed.
Lemma o_nm_cols n : (0 < n)%nat -> orthonormal_cols n (mk_o_nm_matrix n).
Proof. intros H. now apply rows_cols, o_nm_rows. Qed.

(** Mode zero. *)
Lemma nm_row0 n j : (0 < n)%nat -> mk_nm_matrix n 0%nat j = / sqrt (INR n).
Proof.
  intros Hn. unfold mk_nm_matrix. rewrite nm_entry_cos by easy. unfold amp, phase. cbn [Nat.eqb orb INR Nat.leb].
  pose proof (INR_pos n Hn) as Hp. replace (INR j * (2 * PI * 0 / INR n) + 0) with 0 by (field; lra). rewrite cos_0.
  field. apply Rgt_not_eq, sqrt_lt_R0. lra.
Qed.
Lemma o_nm_row0 n j : (0 < n)%nat -> mk_o_nm_matrix n 0%nat j = / sqrt (INR n).
Proof.
  intros Hn. unfold mk_o_nm_matrix, o_nm_entry. cbn [Nat.eqb]. rewrite sqrt_1. pose proof (INR_pos n Hn). field.
  apply Rgt_not_eq, sqrt_lt_R0. lra.
Qed.

(** ** The fast transform *)
Lemma sin_reflect n i j : (i <= n)%nat -> (0 < n)%nat ->
  sin (2 * PI * INR j * INR (n - i) / INR n) = - sin (2 * PI * INR j * INR i / INR n).
Proof.
  intros Hi Hn. pose proof (INR_pos n Hn) as Hp. rewrite minus_INR by easy.
  replace (2 * PI * INR j * (INR n - INR i) / INR n) with (- (2 * PI * INR j * INR i / INR n) + IZR (Z.of_nat j) * (2 * PI))
    by (rewrite <- INR_IZR_INZ; field; lra).
  rewrite sin_Z_2PI. apply sin_neg.
Qed.

Lemma fft_b2nm_matrix n x i : (0 < n)%nat -> (i < n)%nat -> fft_b2nm_col n x i = app n (mk_nm_matrix n) x i.
Proof.
  intros Hn Hi. pose proof (INR_pos n Hn) as Hp.
  assert (Hs0 : sqrt (INR n) <> 0) by (apply Rgt_not_eq, sqrt_lt_R0; lra).
  assert (Hdm := Nat.div_mod n 2 ltac:(lia)). assert (Hmb := Nat.mod_upper_bound n 2 ltac:(lia)).
  unfold fft_b2nm_col, app.
  destruct (Nat.eqb_spec n 1) as [->|H1].
  { assert (i = 0%nat) as -> by lia. cbn [Rsum]. rewrite nm_row0 by lia. cbn [INR]. rewrite sqrt_1. field. }
  assert (Hre : forall k, rfft_re n x k / sqrt (INR n) = Rsum n (fun j => cos (2 * PI * INR j * INR k / INR n) / sqrt (INR n) * x j)).
  { intros k. unfold rfft_re. rewrite <- Rsum_div. apply Rsum_ext. intros; field; easy. }
  assert (Him : forall k, (k <= n)%nat -> rfft_im n x (n - k) / sqrt (INR n) = Rsum n (fun j => sin (2 * PI * INR j * INR k / INR n) / sqrt (INR n) * x j)).
  { intros k Hk. unfold rfft_im. rewrite <- Rsum_opp, <- Rsum_div. apply Rsum_ext. intros j _. rewrite sin_reflect by easy. field. easy. }
  assert (Hcos1 : forall j, amp n i = 1 -> (i <= n / 2)%nat -> mk_nm_matrix n i j = cos (2 * PI * INR j * INR i / INR n) / sqrt (INR n)).
  { intros j Ha Hi2. unfold mk_nm_matrix. rewrite nm_entry_cos, Ha by easy. unfold phase. rewrite (proj2 (Nat.leb_le _ _) Hi2).
    replace (INR j * (2 * PI * INR i / INR n) + 0) with (2 * PI * INR j * INR i / INR n) by (field; lra). field. easy. }
  assert (Hcos2 : forall j, amp n i = sqrt 2 -> (i <= n / 2)%nat -> mk_nm_matrix n i j = sqrt 2 * (cos (2 * PI * INR j * INR i / INR n) / sqrt (INR n))).
  { intros j Ha Hi2. unfold mk_nm_matrix. rewrite nm_entry_cos, Ha by easy. unfold phase. rewrite (proj2 (Nat.leb_le _ _) Hi2).
    replace (INR j * (2 * PI * INR i / INR n) + 0) with (2 * PI * INR j * INR i / INR n) by (field; lra). field. easy. }
  assert (Hsin : forall j, (n / 2 < i)%nat -> mk_nm_matrix n i j = sqrt 2 * (sin (2 * PI * INR j * INR i / INR n) / sqrt (INR n))).
  { intros j Hi2. unfold mk_nm_matrix. rewrite nm_entry_cos by easy. unfold phase, amp. rewrite (proj2 (Nat.leb_gt _ _) Hi2).
    replace ((i =? 0)%nat || (2 * i =? n)%nat) with false by (symmetry; apply orb_false_iff; rewrite !Nat.eqb_neq; lia).
    rewrite sin_as_cos. replace (INR j * (2 * PI * INR i / INR n)) with (2 * PI * INR j * INR i / INR n) by (field; lra). field. easy. }
  assert (A0 : i = 0%nat -> amp n i = 1) by (intros ->; easy).
  assert (A1 : (2 * i = n)%nat -> amp n i = 1) by (intros E; unfold amp; now rewrite (proj2 (Nat.eqb_eq _ _) E), orb_true_r).
  assert (A2 : i <> 0%nat -> (2 * i <> n)%nat -> amp n i = sqrt 2).
  { intros E F. unfold amp. now rewrite (proj2 (Nat.eqb_neq _ _) E), (proj2 (Nat.eqb_neq _ _) F). }
  destruct (Nat.eqb_spec n 2) as [H2|H2].
  { rewrite Hre. apply Rsum_ext. intros j _. f_equal. symmetry. apply Hcos1; [|subst n; cbn; lia].
    destruct i as [|[|i]]; [now apply A0|apply A1; lia|lia]. }
  assert (Hscal : forall f g, (forall j, (j < n)%nat -> g j = sqrt 2 * f j) -> Rsum n (fun j => f j * x j) * sqrt 2 = Rsum n (fun j => g j * x j)).
  { intros f g H. rewrite <- Rsum_scal_r. apply Rsum_ext. intros j Hj. rewrite H by easy. ring. }
  destruct (Nat.eqb_spec (n mod 2) 0) as [He|He]; destruct (Nat.eqb_spec i 0) as [E0|E0].
  1,3: replace 0%nat with i by easy; rewrite Hre; apply Rsum_ext; intros j _; f_equal; symmetry; apply Hcos1; [now apply A0|lia].
  - destruct (Nat.eqb_spec i (n / 2)) as [Eh|Eh].
    + rewrite <- Eh, Hre. apply Rsum_ext. intros j _. f_equal. symmetry. apply Hcos1; [apply A1|]; lia.
    + destruct (Nat.ltb_spec i (n / 2)).
      * rewrite Hre. apply Hscal. intros j _. apply Hcos2; [apply A2|]; lia.
      * rewrite Him by lia. apply Hscal. intros j _. apply Hsin. lia.
  - destruct (Nat.leb_spec i (n / 2)).
    + rewrite Hre. apply Hscal. intros j _. apply Hcos2; [apply A2|]; lia.
    + rewrite Him by lia. apply Hscal. intros j _. apply Hsin. lia.
Qed.

(** Sum over modes: mode 0, the cosine modes, mode n/2 for even n, the sine modes. *)
Lemma Rsum_modes n f : (0 < n)%nat ->
  Rsum n f = f 0%nat + Rsum ((n - 1) / 2) (fun k => f (S k)) + (if (n mod 2 =? 0)%nat then f (n / 2)%nat else 0)
             + Rsum ((n - 1) / 2) (fun k => f (n - S k)%nat).
Proof.
  intros Hn. set (m := ((n - 1) / 2)%nat).
  assert (Hdm := Nat.div_mod n 2 ltac:(lia)). assert (Hmb := Nat.mod_upper_bound n 2 ltac:(lia)).
  assert (Hm1 := Nat.div_mod (n - 1) 2 ltac:(lia)). assert (Hm2 := Nat.mod_upper_bound (n - 1) 2 ltac:(lia)). fold m in Hm1.
  destruct (Nat.eqb_spec (n mod 2) 0) as [E|E].
  - assert (Hm : n = S (m + S m)) by lia.
    rewrite <- (Rsum_rev m (fun k => f (n - S k)%nat)). rewrite Hm at 1. rewrite Rsum_first, Rsum_split, Rsum_first.
    replace (S (m + 0)) with (n / 2)%nat by lia.
    rewrite (Rsum_ext m (fun i => f (S (m + S i))) (fun i => f (n - S (m - 1 - i))%nat)) by (intros i Hi; f_equal; lia). ring.
  - assert (Hm : n = S (m + m)) by lia.
    rewrite <- (Rsum_rev m (fun k => f (n - S k)%nat)). rewrite Hm at 1. rewrite Rsum_first, Rsum_split.
    rewrite (Rsum_ext m (fun i => f (S (m + i))) (fun i => f (n - S (m - 1 - i))%nat)) by (intros i Hi; f_equal; lia). ring.
Qed.

Lemma nm_cos_row n k j : (0 < n)%nat -> (S k <= (n - 1) / 2)%nat ->
  mk_nm_matrix n (S k) j = sqrt 2 * cos (2 * PI * INR j * INR (S k) / INR n) / sqrt (INR n).
Proof.
  intros Hn Hk. pose proof (INR_pos n Hn) as Hp.
  assert (Hm1 := Nat.div_mod (n - 1) 2 ltac:(lia)). assert (Hdm := Nat.div_mod n 2 ltac:(lia)). assert (Hmb := Nat.mod_upper_bound n 2 ltac:(lia)).
  unfold mk_nm_matrix. rewrite nm_entry_cos by easy. unfold phase, amp.
  replace ((S k =? 0)%nat || (2 * S k =? n)%nat) with false by (symmetry; apply orb_false_iff; rewrite !Nat.eqb_neq; lia).
  replace (S k <=? n / 2)%nat with true by (symmetry; apply Nat.leb_le; lia).
  replace (INR j * (2 * PI * INR (S k) / INR n) + 0) with (2 * PI * INR j * INR (S k) / INR n) by (field; lra). easy.
Qed.
Lemma nm_sin_row n k j : (0 < n)%nat -> (S k <= (n - 1) / 2)%nat ->
  mk_nm_matrix n (n - S k)%nat j = - (sqrt 2 * sin (2 * PI * INR j * INR (S k) / INR n) / sqrt (INR n)).
Proof.
  intros Hn Hk. pose proof (INR_pos n Hn) as Hp.
  assert (Hs0 : sqrt (INR n) <> 0) by (apply Rgt_not_eq, sqrt_lt_R0; lra).
  assert (Hm1 := Nat.div_mod (n - 1) 2 ltac:(lia)). assert (Hdm := Nat.div_mod n 2 ltac:(lia)). assert (Hmb := Nat.mod_upper_bound n 2 ltac:(lia)).
  unfold mk_nm_matrix. rewrite nm_entry_cos by easy. unfold phase, amp.
  replace ((n - S k =? 0)%nat || (2 * (n - S k) =? n)%nat) with false by (symmetry; apply orb_false_iff; rewrite !Nat.eqb_neq; lia).
  replace (n - S k <=? n / 2)%nat with false by (symmetry; apply Nat.leb_gt; lia).
  rewrite <- sin_as_cos. replace (INR j * (2 * PI * INR (n - S k) / INR n)) with (2 * PI * INR j * INR (n - S k) / INR n) by (field; lra).
  rewrite sin_reflect by lia. field. easy.
Qed.
Lemma nm_mid_row n j : (0 < n)%nat -> (n mod 2 = 0)%nat -> mk_nm_matrix n (n / 2)%nat j = cos (PI * INR j) / sqrt (INR n).
Proof.
  intros Hn He. unfold mk_nm_matrix, nm_entry. rewrite He, !Nat.eqb_refl. cbn [andb]. rewrite sign_even, (Rmult_comm PI). easy.
Qed.

Lemma fft_nm2b_matrix n y j : (0 < n)%nat -> (j < n)%nat -> fft_nm2b_col n y j = app n (transpose (mk_nm_matrix n)) y j.
Proof.
  intros Hn Hj. pose proof (INR_pos n Hn) as Hp.
  assert (Hs : sqrt (INR n) * sqrt (INR n) = INR n) by (apply sqrt_sqrt; lra).
  assert (Hs0 : sqrt (INR n) <> 0) by (apply Rgt_not_eq, sqrt_lt_R0; lra).
  assert (Hm1 := Nat.div_mod (n - 1) 2 ltac:(lia)). assert (Hdm := Nat.div_mod n 2 ltac:(lia)). assert (Hmb := Nat.mod_upper_bound n 2 ltac:(lia)).
  assert (Hi2 : 2 * sqrt (1 / 2) = sqrt 2).
  { unfold Rdiv. rewrite Rmult_1_l, sqrt_inv. rewrite <- sqrt2_sq at 1. field. apply Rgt_not_eq, sqrt_lt_R0. lra. }
  unfold fft_nm2b_col, app, transpose.
  destruct (Nat.eqb_spec n 1) as [->|H1].
  { assert (j = 0%nat) as -> by lia. cbn [Rsum]. rewrite nm_row0 by lia. cbn [INR]. rewrite sqrt_1. field. }
  rewrite Rsum_modes by easy. rewrite nm_row0 by easy.
  assert (Hd : forall z, z / INR n * sqrt (INR n) = z / sqrt (INR n)).
  { intros z. rewrite <- Hs at 1. field. easy. }
  destruct (Nat.eqb_spec n 2) as [H2|H2].
  { unfold irfft. rewrite Hd. subst n. cbn [Nat.sub Nat.div Nat.divmod fst Rsum Nat.modulo Nat.eqb snd].
    pose proof (nm_mid_row 2 j ltac:(lia) eq_refl) as Hm. cbn [Nat.div Nat.divmod fst] in Hm. rewrite Hm. field. easy. }
  unfold irfft. rewrite Hd. unfold Rdiv. rewrite !Rmult_plus_distr_r. rewrite !Rplus_assoc. f_equal; [cbn [Nat.eqb]; ring|].
  match goal with |- ?a + ?b = ?c + (?d + ?e) => cut (b = d /\ a = c + e); [intros [-> ->]; ring|split] end.
  - destruct (Nat.eqb_spec (n mod 2) 0) as [E|E]; [|ring]. rewrite nm_mid_row by easy.
    replace (n / 2 =? 0)%nat with false by (symmetry; apply Nat.eqb_neq; lia). rewrite Nat.eqb_refl. cbn [andb]. field. easy.
  - rewrite <- Rsum_plus. rewrite <- Rsum_scal, <- Rsum_scal_r. apply Rsum_ext. intros k Hk.
    rewrite nm_cos_row, nm_sin_row by lia.
    replace ((n mod 2 =? 0)%nat && (S k =? n / 2)%nat) with false.
    2:{ symmetry. apply andb_false_iff. rewrite !Nat.eqb_neq. lia. }
    change (S k =? 0)%nat with false. unfold Rdiv in *. rewrite <- Hi2. ring.
Qed.
