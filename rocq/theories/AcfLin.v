(** * Lemmas on the discrete transforms of AcfModel *)
From Coq Require Import List Reals Arith Bool ZArith Lia Lra.
From Verif Require Import RSum TrigSum AcfModel.
Import ListNotations.
Open Scope R_scope.

(** The periodic autocorrelation of [n] numbers *)
Definition circ (n : nat) (x : nat -> R) (k : nat) : R := Rsum n (fun t => x t * x ((t + k) mod n)%nat).

Definition ind (n : nat) (m : Z) : R := if (m mod Z.of_nat n =? 0)%Z then 1 else 0.
Lemma cos_sum n (m : Z) : (0 < n)%nat -> Rsum n (fun j => cos (2 * PI * INR j * IZR m / INR n)) = INR n * ind n m.
Proof.
  intros H. assert (Hn : INR n <> 0) by (apply not_0_INR; lia).
  rewrite (Rsum_ext n _ (fun j => cos (INR j * (2 * PI * IZR m / INR n) + 0))).
  2:{ intros j _. f_equal. field. easy. }
  unfold ind. destruct (Z.eqb_spec (m mod Z.of_nat n) 0) as [E|E].
  - rewrite (cos_sum_full m n 0 H E), cos_0. ring.
  - rewrite (cos_sum_zero m n 0 H E). ring.
Qed.
Lemma cos_cos_sum n (p q : Z) : (0 < n)%nat ->
  Rsum n (fun j => cos (2 * PI * INR j * IZR p / INR n) * cos (2 * PI * INR j * IZR q / INR n)) = INR n / 2 * (ind n (p - q) + ind n (p + q)).
Proof.
  intros H. assert (Hn : INR n <> 0) by (apply not_0_INR; lia).
  rewrite (Rsum_ext n _ (fun j => / 2 * (cos (2 * PI * INR j * IZR (p - q) / INR n) + cos (2 * PI * INR j * IZR (p + q) / INR n)))).
  2:{ intros j _. rewrite cos_cos, minus_IZR, plus_IZR. f_equal. f_equal; f_equal; field; easy. }
  rewrite Rsum_scal, Rsum_plus, !cos_sum by easy. field.
Qed.
Lemma ind_sym n m : ind n (- m) = ind n m.
Proof.
  unfold ind. destruct (Z.eq_dec (Z.of_nat n) 0) as [E|E].
  - rewrite E, !Zmod_0_r. destruct (Z.eqb_spec (- m) 0), (Z.eqb_spec m 0); try easy; lia.
  - destruct (Z.eqb_spec (m mod Z.of_nat n) 0) as [A|A].
    + now rewrite (Z.mod_opp_l_z m _ E A).
    + destruct (Z.eqb_spec ((- m) mod Z.of_nat n) 0) as [B|B]; [|easy].
      apply (Z.mod_opp_l_z (- m) _ E) in B. rewrite Z.opp_involutive in B. easy.
Qed.
Lemma sum_ind n x (p : nat) : (0 < n)%nat -> Rsum n (fun s => x s * ind n (Z.of_nat s - Z.of_nat p)) = x (p mod n)%nat.
Proof.
  intros H. rewrite (Rsum_delta n (p mod n)%nat).
  - assert (E : ind n (Z.of_nat (p mod n) - Z.of_nat p) = 1).
    { unfold ind. rewrite Nat2Z.inj_mod. 
      replace (Z.of_nat p mod Z.of_nat n - Z.of_nat p)%Z with ((- (Z.of_nat p / Z.of_nat n)) * Z.of_nat n)%Z.
      - rewrite Z.mod_mul by lia. easy.
      - pose proof (Z.div_mod (Z.of_nat p) (Z.of_nat n)). lia. }
    rewrite E. ring.
  - apply Nat.mod_upper_bound. lia.
  - intros s Hs N. unfold ind. destruct (Z.eqb_spec ((Z.of_nat s - Z.of_nat p) mod Z.of_nat n) 0) as [E|E]; [|ring].
    exfalso. apply N. apply Z.mod_divide in E; [|lia]. destruct E as (c & E).
    apply Nat2Z.inj. rewrite Nat2Z.inj_mod. replace (Z.of_nat p) with (Z.of_nat s + (- c) * Z.of_nat n)%Z by lia.
    rewrite Z.mod_add by lia. symmetry. apply Z.mod_small. lia.
Qed.

(** hfft as a sum over the whole even sequence *)
Lemma hfft_full m a j : (2 <= m)%nat ->
  hfft m a j = Rsum (hfft_len m) (fun i => a (Nat.min i (hfft_len m - i)) * cos (2 * PI * INR j * INR i / INR (hfft_len m))).
Proof.
  intros H. unfold hfft. set (n := hfft_len m). assert (En : n = S ((m - 2) + S (m - 2))) by (unfold n, hfft_len; lia).
  assert (Hn : INR n <> 0) by (apply not_0_INR; lia).
  match goal with |- _ = Rsum n ?f => replace (Rsum n f) with (Rsum (S ((m - 2) + S (m - 2))) f) by (now rewrite <- En) end.
  rewrite Rsum_first, Rsum_split, Rsum_first.
  assert (E0 : a (Nat.min 0 (n - 0)) * cos (2 * PI * INR j * INR 0 / INR n) = a 0%nat).
  { cbn [Nat.min INR]. replace (2 * PI * INR j * 0 / INR n) with 0 by (field; easy). rewrite cos_0. ring. }
  assert (E1 : Rsum (m - 2) (fun i => a (Nat.min (S i) (n - S i)) * cos (2 * PI * INR j * INR (S i) / INR n)) =
    Rsum (m - 2) (fun i => a (S i) * cos (2 * PI * INR j * INR (S i) / INR n))).
  { apply Rsum_ext. intros i Hi. replace (Nat.min (S i) (n - S i)) with (S i) by lia. easy. }
  assert (E2 : a (Nat.min (S (m - 2 + 0)) (n - S (m - 2 + 0))) * cos (2 * PI * INR j * INR (S (m - 2 + 0)) / INR n) = a (m - 1)%nat * cos (PI * INR j)).
  { replace (S (m - 2 + 0)) with (m - 1)%nat by lia. replace (n - (m - 1))%nat with (m - 1)%nat by (unfold n, hfft_len; lia). rewrite Nat.min_id. f_equal. f_equal.
    replace (INR n) with (2 * INR (m - 1)) by (unfold n, hfft_len; rewrite mult_INR; reflexivity). field. apply not_0_INR. lia. }
  assert (E3 : Rsum (m - 2) (fun i => a (Nat.min (S (m - 2 + S i)) (n - S (m - 2 + S i))) * cos (2 * PI * INR j * INR (S (m - 2 + S i)) / INR n)) =
    Rsum (m - 2) (fun i => a (S i) * cos (2 * PI * INR j * INR (S i) / INR n))).
  { rewrite <- Rsum_rev. apply Rsum_ext. intros i Hi.
    replace (S (m - 2 + S (m - 2 - 1 - i))) with (n - S i)%nat by lia. replace (Nat.min (n - S i) (n - (n - S i))) with (S i) by lia. f_equal.
    rewrite minus_INR by lia. replace (2 * PI * INR j * (INR n - INR (S i)) / INR n) with (- (2 * PI * INR j * INR (S i) / INR n) + IZR (Z.of_nat j) * (2 * PI)).
    - rewrite cos_Z_2PI. apply cos_neg.
    - rewrite <- INR_IZR_INZ. field. easy. }
  rewrite E0, E1, E2, E3. ring.
Qed.

(** ** The power spectrum *)
Lemma power_double n x j : power n x j =
  Rsum n (fun t => Rsum n (fun s => x t * x s * cos (2 * PI * INR j * IZR (Z.of_nat t - Z.of_nat s) / INR n))).
Proof.
  unfold power, rfft_re, rfft_im.
  assert (Sq : forall f, Rsum n f ^ 2 = Rsum n (fun t => Rsum n (fun s => f t * f s))).
  { intros f. rewrite (Rsum_ext n (fun t => Rsum n (fun s => f t * f s)) (fun t => f t * Rsum n f)) by (intros; apply Rsum_scal).
    rewrite Rsum_scal_r. ring. }
  replace ((- Rsum n (fun t => x t * sin (2 * PI * INR j * INR t / INR n))) ^ 2) with (Rsum n (fun t => x t * sin (2 * PI * INR j * INR t / INR n)) ^ 2) by ring.
  rewrite !Sq, <- Rsum_plus. apply Rsum_ext. intros t _. rewrite <- Rsum_plus. apply Rsum_ext. intros s _.
  rewrite minus_IZR, <- !INR_IZR_INZ.
  replace (2 * PI * INR j * (INR t - INR s) / INR n) with (2 * PI * INR j * INR t / INR n - 2 * PI * INR j * INR s / INR n) by (unfold Rdiv; ring).
  rewrite cos_minus. ring.
Qed.
Lemma power_mirror n x j : (j <= n)%nat -> (0 < n)%nat -> power n x (n - j) = power n x j.
Proof.
  intros Hj H. assert (Hn : INR n <> 0) by (apply not_0_INR; lia). rewrite !power_double. apply Rsum_ext. intros t _. apply Rsum_ext. intros s _. f_equal.
  rewrite minus_INR by easy. set (d := (Z.of_nat t - Z.of_nat s)%Z).
  replace (2 * PI * (INR n - INR j) * IZR d / INR n) with (- (2 * PI * INR j * IZR d / INR n) + IZR d * (2 * PI)) by (field; easy).
  rewrite cos_Z_2PI. apply cos_neg.
Qed.

(** Wiener and Khinchin: for an even number of points *)
Lemma wiener h x k : (0 < h)%nat -> irfft (rfft_len (2 * h)) (power (2 * h) x) k = circ (2 * h) x k.
Proof.
  intros H. unfold irfft, rfft_len. replace (2 * h / 2 + 1)%nat with (h + 1)%nat by (rewrite Nat.mul_comm, Nat.div_mul; lia).
  rewrite hfft_full by lia. replace (hfft_len (h + 1)) with (2 * h)%nat by (unfold hfft_len; lia).
  set (n := (2 * h)%nat). assert (P : (0 < n)%nat) by (unfold n; lia). assert (Hn : INR n <> 0) by (apply not_0_INR; lia).
  assert (E : Rsum n (fun i => power n x (Nat.min i (n - i)) * cos (2 * PI * INR k * INR i / INR n)) =
    Rsum n (fun t => Rsum n (fun s => x t * x s * (INR n / 2 * (ind n (Z.of_nat t - Z.of_nat s - Z.of_nat k) + ind n (Z.of_nat t - Z.of_nat s + Z.of_nat k)))))).
  { rewrite (Rsum_ext n _ (fun i => Rsum n (fun t => Rsum n (fun s => x t * x s * (cos (2 * PI * INR i * IZR (Z.of_nat t - Z.of_nat s) / INR n) * cos (2 * PI * INR i * IZR (Z.of_nat k) / INR n)))))).
    2:{ intros i Hi. replace (power n x (Nat.min i (n - i))) with (power n x i).
        2:{ destruct (Nat.min_spec i (n - i)) as [(_ & ->)|(_ & ->)]; [easy|]. symmetry. apply power_mirror; lia. }
        rewrite power_double, <- Rsum_scal_r. apply Rsum_ext. intros t _. rewrite <- Rsum_scal_r. apply Rsum_ext. intros s _.
        rewrite <- (INR_IZR_INZ k). replace (2 * PI * INR k * INR i / INR n) with (2 * PI * INR i * INR k / INR n) by (unfold Rdiv; ring). ring. }
    rewrite Rsum_swap. apply Rsum_ext. intros t _. rewrite Rsum_swap. apply Rsum_ext. intros s _. rewrite Rsum_scal. f_equal. now apply cos_cos_sum. }
  rewrite E. clear E. unfold circ.
  assert (A : Rsum n (fun t => Rsum n (fun s => x t * x s * ind n (Z.of_nat t - Z.of_nat s + Z.of_nat k))) = Rsum n (fun t => x t * x ((t + k) mod n)%nat)).
  { apply Rsum_ext. intros t _. rewrite <- (sum_ind n x (t + k) P), <- Rsum_scal. apply Rsum_ext. intros s _.
    rewrite <- ind_sym. replace (- (Z.of_nat t - Z.of_nat s + Z.of_nat k))%Z with (Z.of_nat s - Z.of_nat (t + k))%Z by lia. ring. }
  assert (B : Rsum n (fun t => Rsum n (fun s => x t * x s * ind n (Z.of_nat t - Z.of_nat s - Z.of_nat k))) = Rsum n (fun t => x t * x ((t + k) mod n)%nat)).
  { rewrite <- A, Rsum_swap. apply Rsum_ext. intros t _. apply Rsum_ext. intros s _. rewrite <- ind_sym.
    replace (- (Z.of_nat s - Z.of_nat t - Z.of_nat k))%Z with (Z.of_nat t - Z.of_nat s + Z.of_nat k)%Z by lia. ring. }
  rewrite (Rsum_ext n _ (fun t => INR n / 2 * (Rsum n (fun s => x t * x s * ind n (Z.of_nat t - Z.of_nat s - Z.of_nat k)) + Rsum n (fun s => x t * x s * ind n (Z.of_nat t - Z.of_nat s + Z.of_nat k))))).
  2:{ intros t _. rewrite <- Rsum_plus, <- Rsum_scal. apply Rsum_ext. intros s _. ring. }
  rewrite Rsum_scal, Rsum_plus, A, B. field. easy.
Qed.

(** The transform of an even sequence is inverted by itself *)
Lemma hfft_inverse m a k : (2 <= m)%nat -> (k < m)%nat ->
  Rsum (hfft_len m) (fun j => hfft m a j * cos (2 * PI * INR j * INR k / INR (hfft_len m))) / INR (hfft_len m) = a k.
Proof.
  intros H Hk. set (n := hfft_len m). assert (P : (0 < n)%nat) by (unfold n, hfft_len; lia). assert (Hn : INR n <> 0) by (apply not_0_INR; lia).
  set (b := fun i => a (Nat.min i (n - i))).
  rewrite (Rsum_ext n _ (fun j => Rsum n (fun i => b i * (cos (2 * PI * INR j * IZR (Z.of_nat i) / INR n) * cos (2 * PI * INR j * IZR (Z.of_nat k) / INR n))))).
  2:{ intros j _. rewrite hfft_full by easy. fold n. rewrite <- Rsum_scal_r. apply Rsum_ext. intros i _. rewrite <- !INR_IZR_INZ. unfold b. ring. }
  rewrite Rsum_swap. rewrite (Rsum_ext n _ (fun i => INR n / 2 * (b i * ind n (Z.of_nat i - Z.of_nat k) + b i * ind n (Z.of_nat i - Z.of_nat (n - k))))).
  2:{ intros i _. rewrite Rsum_scal, cos_cos_sum by easy.
      replace (ind n (Z.of_nat i - Z.of_nat (n - k))) with (ind n (Z.of_nat i + Z.of_nat k)); [ring|]. unfold ind.
      replace (Z.of_nat i + Z.of_nat k)%Z with (Z.of_nat i - Z.of_nat (n - k) + 1 * Z.of_nat n)%Z by (unfold n, hfft_len in *; lia). now rewrite Z.mod_add by lia. }
  rewrite Rsum_scal, Rsum_plus, !sum_ind by easy.
  assert (B1 : b (k mod n)%nat = a k). { rewrite Nat.mod_small by (unfold n, hfft_len; lia). unfold b. f_equal. unfold n, hfft_len. lia. }
  assert (B2 : b ((n - k) mod n)%nat = a k).
  { destruct k as [|k]; [rewrite Nat.sub_0_r, Nat.mod_same by lia; unfold b; f_equal; lia|]. rewrite Nat.mod_small by (unfold n, hfft_len; lia). unfold b. f_equal. unfold n, hfft_len. lia. }
  rewrite B1, B2. field. easy.
Qed.
Lemma hfft_mirror m a j : (2 <= m)%nat -> (j <= hfft_len m)%nat -> hfft m a (hfft_len m - j) = hfft m a j.
Proof.
  intros H Hj. rewrite !hfft_full by easy. assert (Hn : INR (hfft_len m) <> 0) by (apply not_0_INR; unfold hfft_len; lia). apply Rsum_ext. intros i _. f_equal. rewrite minus_INR by easy.
  replace (2 * PI * (INR (hfft_len m) - INR j) * INR i / INR (hfft_len m)) with (- (2 * PI * INR j * INR i / INR (hfft_len m)) + IZR (Z.of_nat i) * (2 * PI)).
  - rewrite cos_Z_2PI. apply cos_neg.
  - rewrite <- INR_IZR_INZ. field. easy.
Qed.
Lemma hfft_linear m a b c j : hfft m (fun k => a k + c * b k) j = hfft m a j + c * hfft m b j.
Proof.
  unfold hfft. rewrite (Rsum_ext (m - 2) _ (fun i => a (S i) * cos (2 * PI * INR j * INR (S i) / INR (hfft_len m)) + c * (b (S i) * cos (2 * PI * INR j * INR (S i) / INR (hfft_len m))))) by (intros; ring).
  rewrite Rsum_plus, Rsum_scal. ring.
Qed.
Lemma hfft_ext m a b j : (2 <= m)%nat -> (forall i, (i < m)%nat -> a i = b i) -> hfft m a j = hfft m b j.
Proof.
  intros H E. unfold hfft. rewrite (Rsum_ext (m - 2) _ (fun i => b (S i) * cos (2 * PI * INR j * INR (S i) / INR (hfft_len m)))).
  - rewrite !E by lia. easy.
  - intros i Hi. now rewrite E by lia.
Qed.
