(** * Theorems on autocorrelation functions (C264-C268) *)
From Coq Require Import String List Reals Arith Bool ZArith Lia Lra.
From Verif Require Import RSum TrigSum AcfModel AcfLin.
Import ListNotations.
Open Scope R_scope.

(** ** Specification *)
(** dt / 2 pi times the product of the vectors of frames [k] apart, taken periodically in the block of [n] frames, as the average over frames and
    chosen atoms *)
Definition periodic_acf (dt : R) (n : nat) (sel : list nat) (data : nat -> nat -> nat -> R) (k : nat) : R :=
  dt / (2 * PI) * (Rsuml (map (fun a => Rsum n (fun t => Rsum 3 (fun c => data t a c * data ((t + k) mod n)%nat a c)) / INR n) sel) / INR (length sel)).
Definition average (l : list R) : R := Rsuml l / INR (length l).

(** ** C264: the autocorrelation function *)
Lemma rfft_len_even h : rfft_len (2 * h) = (h + 1)%nat.
Proof. unfold rfft_len. rewrite Nat.mul_comm, Nat.div_mul; lia. Qed.
Lemma rfft_len_odd h : rfft_len (2 * h + 1) = (h + 1)%nat.
Proof. unfold rfft_len. rewrite Nat.mul_comm. rewrite Nat.div_add_l by lia. cbn. lia. Qed.
Lemma hfft_0 m j : hfft m (fun _ => 0) j = 0.
Proof. unfold hfft. rewrite Rsum_0; [ring|]. intros; ring. Qed.
Lemma hfft_scal m c a j : hfft m (fun k => c * a k) j = c * hfft m a j.
Proof.
  pose proof (hfft_linear m (fun _ => 0) a c j) as H. rewrite hfft_0 in H. rewrite <- (Rplus_0_l (c * hfft m a j)), <- H. unfold hfft.
  rewrite (Rsum_ext (m - 2) (fun i => (0 + c * a (S i)) * _) (fun i => c * a (S i) * cos (2 * PI * INR j * INR (S i) / INR (hfft_len m)))) by (intros; ring). ring.
Qed.
Lemma hfft_plus m a b j : hfft m (fun k => a k + b k) j = hfft m a j + hfft m b j.
Proof.
  pose proof (hfft_linear m a b 1 j) as H. rewrite Rmult_1_l in H. rewrite <- H. unfold hfft.
  rewrite (Rsum_ext (m - 2) (fun i => (a (S i) + 1 * b (S i)) * _) (fun i => (a (S i) + b (S i)) * cos (2 * PI * INR j * INR (S i) / INR (hfft_len m)))) by (intros; ring). ring.
Qed.
Lemma hfft_Rsum m n (f : nat -> nat -> R) j : hfft m (fun k => Rsum n (fun c => f c k)) j = Rsum n (fun c => hfft m (f c) j).
Proof.
  induction n as [|n IH]; [cbn; apply hfft_0|]. cbn [Rsum]. rewrite <- IH.
  change (hfft m (fun k => (fun k => Rsum n (fun c => f c k)) k + f n k) j = hfft m (fun k => Rsum n (fun c => f c k)) j + hfft m (f n) j). apply hfft_plus.
Qed.
Lemma hfft_Rsuml {A} m (f : A -> nat -> R) l j : hfft m (fun k => Rsuml (map (fun a => f a k) l)) j = Rsuml (map (fun a => hfft m (f a) j) l).
Proof.
  induction l as [|a l IH]; [apply hfft_0|].
  change (hfft m (fun k => f a k + (fun k => Rsuml (map (fun a => f a k) l)) k) j = hfft m (f a) j + Rsuml (map (fun a => hfft m (f a) j) l)). now rewrite hfft_plus, IH.
Qed.
(** The transform back, as a combination over atoms and directions *)
Lemma mvvacf_parts dt n sel data k :
  mvvacf dt n sel data k = 3 / (INR (length sel) * 3) * dt / (2 * PI) / INR n *
    Rsuml (map (fun a => Rsum 3 (fun c => irfft (rfft_len n) (power n (fun t => data t a c)) k)) sel).
Proof.
  unfold mvvacf, irfft.
  set (K := 3 / (INR (length sel) * 3) * dt / (2 * PI) / INR n).
  assert (E : hfft (rfft_len n) (mfvvacf dt n sel data) k = K * Rsuml (map (fun a => Rsum 3 (fun c => hfft (rfft_len n) (power n (fun t => data t a c)) k)) sel)).
  { rewrite <- (Rsuml_map_ext (fun a => hfft (rfft_len n) (fun j => Rsum 3 (fun c => power n (fun t => data t a c) j)) k)).
    2:{ intros a _. apply (hfft_Rsum (rfft_len n) 3 (fun c j => power n (fun t => data t a c) j)). }
    rewrite <- (hfft_Rsuml (rfft_len n) (fun a j => Rsum 3 (fun c => power n (fun t => data t a c) j))), <- hfft_scal.
    assert (F : forall i, mfvvacf dt n sel data i = K * Rsuml (map (fun a => Rsum 3 (fun c => power n (fun t => data t a c) i)) sel)) by (intros i; unfold mfvvacf, K, Rdiv; ring).
    unfold hfft. rewrite !F. f_equal. f_equal. f_equal. apply Rsum_ext. intros i _. now rewrite F. }
  rewrite E. unfold Rdiv at 1. rewrite Rmult_assoc. f_equal.
  rewrite Rmult_comm, <- Rsuml_map_scal. apply Rsuml_map_ext. intros a _. rewrite <- Rsum_scal. apply Rsum_ext. intros c _. unfold Rdiv. ring.
Qed.
Lemma periodic_parts dt n sel data k : (0 < n)%nat -> (0 < length sel)%nat ->
  periodic_acf dt n sel data k = 3 / (INR (length sel) * 3) * dt / (2 * PI) / INR n *
    Rsuml (map (fun a => Rsum 3 (fun c => circ n (fun t => data t a c) k)) sel).
Proof.
  intros H L. unfold periodic_acf.
  rewrite (Rsuml_map_ext _ (fun a => / INR n * Rsum 3 (fun c => circ n (fun t => data t a c) k))).
  - rewrite Rsuml_map_scal. field. repeat split; try (apply not_0_INR; lia). apply PI_neq0.
  - intros a _. rewrite Rsum_swap. unfold circ, Rdiv. ring.
Qed.
Lemma bmean_ext {A} (f g : A -> R) l : (forall x, In x l -> f x = g x) -> bmean (map f l) = average (map g l).
Proof. intros H. unfold bmean, average. rewrite !map_length. f_equal. now apply Rsuml_map_ext. Qed.

(** What a run returns *)
Lemma compute_result ml bl np ftbox labels names dt fskip der fr time acf err om facf ferr lags freqs mlag bsize npad :
  compute_acf ml bl np ftbox labels names dt fskip der fr = Result time acf err om facf ferr lags freqs -> checked ml bl np = Some (mlag, bsize, npad) ->
  exists bks win, bks = blocks (length fr) bsize (skipn fskip fr) /\ (0 < length bks)%nat /\ (0 < length (chosen_atoms labels names))%nat /\ (fskip <= length fr)%nat /\
    (forall n, window ftbox mlag n = Some (win n)) /\
    let sel := chosen_atoms labels names in let f b := mvvacf dt bsize sel (block_data der dt bsize b) in
    time = times dt /\ acf = (fun k => bmean (map (fun b => f b k) bks)) /\ err = (fun k => berr (map (fun b => f b k) bks)) /\
    om = omega mlag npad dt /\ facf = (fun j => bmean (map (fun b => mfpvvacf mlag npad win (f b) j) bks)) /\
    ferr = (fun j => berr (map (fun b => mfpvvacf mlag npad win (f b) j) bks)) /\ lags = (mlag + 1)%nat /\ freqs = (2 * (mlag + npad))%nat.
Proof.
  intros H C. unfold compute_acf in H. rewrite C in H. destruct (length fr =? 0)%nat; [discriminate|]. destruct (Nat.ltb_spec (length fr) fskip) as [|F]; [discriminate|].
  destruct (window ftbox mlag 0) eqn:W; [|destruct (length _ =? 0)%nat; discriminate].
  destruct (Nat.eqb_spec (length (blocks (length fr) bsize (skipn fskip fr))) 0) as [|B]; [discriminate|].
  destruct (Nat.eqb_spec (length (chosen_atoms labels names)) 0) as [|S0]; [discriminate|]. cbn [orb] in H.
  exists (blocks (length fr) bsize (skipn fskip fr)), (fun n => match window ftbox mlag n with Some w => w | None => 0 end).
  injection H as <- <- <- <- <- <- <- <-. repeat split; try lia.
  intros n. unfold window in *. repeat (destruct (String.eqb ftbox _); [easy|]). discriminate.
Qed.
Lemma checked_pos ml bl np mlag bsize npad : checked ml bl np = Some (mlag, bsize, npad) -> (0 < mlag /\ 2 * mlag <= bsize)%nat.
Proof.
  unfold checked. generalize (or_default ml 100) as m. intros m. generalize (or_default bl (2 * m + 1)) as b. intros b.
  remember (2 * m)%Z as m2 eqn:E2. destruct (Z.leb_spec m 0); [discriminate|]. destruct (np <? 0)%Z; [discriminate|]. destruct (Z.ltb_spec b m2).
  - destruct (b =? -1)%Z; [|discriminate]. injection 1 as <- <- <-. lia.
  - injection 1 as <- <- <-. lia.
Qed.

Theorem acf_even ml bl np ftbox labels names dt fskip der fr time acf err om facf ferr lags freqs mlag bsize npad k :
  compute_acf ml bl np ftbox labels names dt fskip der fr = Result time acf err om facf ferr lags freqs -> checked ml bl np = Some (mlag, bsize, npad) ->
  Nat.Even bsize ->
  acf k = average (map (fun b => periodic_acf dt bsize (chosen_atoms labels names) (block_data der dt bsize b) k) (blocks (length fr) bsize (skipn fskip fr))).
Proof.
  intros H C (h & Eh). destruct (compute_result _ _ _ _ _ _ _ _ _ _ _ _ _ _ _ _ _ _ _ _ _ H C) as (bks & win & Eb & _ & L & _ & _ & _ & -> & _). rewrite <- Eb.
  destruct (checked_pos _ _ _ _ _ _ C). apply bmean_ext. intros b _. rewrite mvvacf_parts, periodic_parts by lia. f_equal.
  apply Rsuml_map_ext. intros a _. apply Rsum_ext. intros c _. subst bsize. apply wiener. lia.
Qed.

(** For an odd number of frames the transform back has one point less than the block, and for vectors that do not change it is too large. *)
Lemma power_constant n v j : (0 < n)%nat -> (j < n)%nat -> power n (fun _ => v) j = if (j =? 0)%nat then INR n ^ 2 * v ^ 2 else 0.
Proof.
  intros H Hj. assert (Hn : INR n <> 0) by (apply not_0_INR; lia). unfold power, rfft_re, rfft_im.
  rewrite (Rsum_ext n _ (fun t => v * cos (2 * PI * INR t * IZR (Z.of_nat j) / INR n))).
  2:{ intros t _. rewrite <- INR_IZR_INZ. f_equal. f_equal. unfold Rdiv. ring. }
  rewrite Rsum_scal, cos_sum by easy. rewrite (Rsum_ext n (fun t => v * sin _) (fun t => v * cos (INR t * (2 * PI * IZR (Z.of_nat j) / INR n) + - (PI / 2)))).
  2:{ intros t _. rewrite sin_as_cos, <- INR_IZR_INZ. f_equal. f_equal. field. easy. }
  rewrite Rsum_scal. unfold ind. destruct (Nat.eqb_spec j 0) as [->|N].
  - rewrite cos_sum_full by easy. rewrite cos_neg, cos_PI2. cbn [Z.of_nat]. rewrite Zmod_0_l. cbn. ring.
  - assert (M : (Z.of_nat j mod Z.of_nat n)%Z <> 0%Z) by (rewrite Z.mod_small; lia). rewrite cos_sum_zero by easy. apply Z.eqb_neq in M. rewrite M. ring.
Qed.
Lemma irfft_first m a k : (2 <= m)%nat -> (forall j, (0 < j < m)%nat -> a j = 0) -> irfft m a k = a 0%nat / INR (hfft_len m).
Proof.
  intros H A. unfold irfft, hfft. f_equal. rewrite (A (m - 1)%nat) by lia. rewrite Rsum_0; [ring|]. intros i Hi. rewrite A by lia. ring.
Qed.
Theorem acf_odd_constant dt h sel v k : (0 < h)%nat -> (0 < length sel)%nat ->
  mvvacf dt (2 * h + 1) sel (fun _ a c => v a c) k = INR (2 * h + 1) / INR (2 * h) * periodic_acf dt (2 * h + 1) sel (fun _ a c => v a c) k.
Proof.
  intros H L. set (n := (2 * h + 1)%nat). rewrite mvvacf_parts, periodic_parts by (unfold n; lia).
  assert (Hh : INR (2 * h) <> 0) by (apply not_0_INR; lia). assert (Hn : INR n <> 0) by (apply not_0_INR; unfold n; lia).
  set (K := 3 / (INR (length sel) * 3) * dt / (2 * PI) / INR n).
  assert (E : Rsuml (map (fun a => Rsum 3 (fun c => irfft (rfft_len n) (power n (fun t => v a c)) k)) sel) =
    INR n / INR (2 * h) * Rsuml (map (fun a => Rsum 3 (fun c => circ n (fun t => v a c) k)) sel)); [|rewrite E; ring].
  rewrite <- Rsuml_map_scal. apply Rsuml_map_ext. intros a _. rewrite <- Rsum_scal. apply Rsum_ext. intros c _.
  unfold n. rewrite rfft_len_odd. fold n. rewrite irfft_first; [|lia|].
  - rewrite power_constant by (unfold n; lia). cbn [Nat.eqb]. replace (hfft_len (h + 1)) with (2 * h)%nat by (unfold hfft_len; lia).
    unfold circ. rewrite Rsum_const. field. easy.
  - intros j Hj. rewrite power_constant by (unfold n; lia). destruct (Nat.eqb_spec j 0); [lia|easy].
Qed.

(** The default of compute_acf_xyz, a block of 2 mlag + 1 frames, is such a case: three frames that do not change. *)
Definition still : frame := fun _ c => if (c =? 0)%nat then 1 else 0.
Theorem acf_default_refuted : exists ml labels names dt fr time acf err om facf ferr lags freqs mlag bsize,
  compute_acf ml None 0 "none" labels names dt 0 false fr = Result time acf err om facf ferr lags freqs /\
  checked ml None 0 = Some (mlag, bsize, 0%nat) /\ 0 < dt /\
  acf 0%nat <> average (map (fun b => periodic_acf dt bsize (chosen_atoms labels names) (block_data false dt bsize b) 0) (blocks (length fr) bsize fr)).
Proof.
  exists (Some 1%Z), ["*"%string], ["H"%string], 1, [still; still; still]. do 8 eexists. exists 1%nat, 3%nat.
  split; [reflexivity|]. split; [reflexivity|]. split; [lra|].
  change (bmean (map (fun b => mvvacf 1 3 [0%nat] (block_data false 1 3 b) 0) [[still; still; still]]) <> average (map (fun b => periodic_acf 1 3 [0%nat] (block_data false 1 3 b) 0) [[still; still; still]])).
  unfold bmean, average. cbn [length map Rsuml INR].
  assert (E : mvvacf 1 3 [0%nat] (block_data false 1 3 [still; still; still]) 0 = INR 3 / INR 2 * periodic_acf 1 3 [0%nat] (block_data false 1 3 [still; still; still]) 0).
  { pose proof (acf_odd_constant 1 1 [0%nat] still 0) as H. change (2 * 1 + 1)%nat with 3%nat in H. change (2 * 1)%nat with 2%nat in H.
    assert (B : forall t a c, (t < 3)%nat -> block_data false 1 3 [still; still; still] t a c = still a c).
    { intros t a c Ht. destruct t as [|[|[|t]]]; [reflexivity..|lia]. }
    rewrite mvvacf_parts in *. rewrite periodic_parts in * by (cbn; lia).
    assert (H1 : Rsuml (map (fun a => Rsum 3 (fun c => irfft (rfft_len 3) (power 3 (fun t => block_data false 1 3 [still; still; still] t a c)) 0)) [0%nat]) =
      Rsuml (map (fun a => Rsum 3 (fun c => irfft (rfft_len 3) (power 3 (fun t => still a c)) 0)) [0%nat])).
    { apply Rsuml_map_ext. intros a _. apply Rsum_ext. intros c _. unfold irfft. apply (f_equal (fun z => z / INR (hfft_len (rfft_len 3)))). apply hfft_ext; [cbn; lia|].
      intros i _. unfold power, rfft_re, rfft_im.
      rewrite (Rsum_ext 3 (fun t => block_data false 1 3 [still; still; still] t a c * cos _) (fun t => still a c * cos (2 * PI * INR i * INR t / INR 3))) by (intros t Ht; now rewrite B).
      rewrite (Rsum_ext 3 (fun t => block_data false 1 3 [still; still; still] t a c * sin _) (fun t => still a c * sin (2 * PI * INR i * INR t / INR 3))) by (intros t Ht; now rewrite B). reflexivity. }
    assert (H2 : Rsuml (map (fun a => Rsum 3 (fun c => circ 3 (fun t => block_data false 1 3 [still; still; still] t a c) 0)) [0%nat]) =
      Rsuml (map (fun a => Rsum 3 (fun c => circ 3 (fun t => still a c) 0)) [0%nat])).
    { apply Rsuml_map_ext. intros a _. apply Rsum_ext. intros c _. apply Rsum_ext. intros t Ht. rewrite !B by (easy || (apply Nat.mod_upper_bound; lia)). reflexivity. }
    rewrite H1, H2.
    apply H; cbn; lia. }
  rewrite E. assert (P : periodic_acf 1 3 [0%nat] (block_data false 1 3 [still; still; still]) 0 = / (2 * PI)).
  { unfold periodic_acf, block_data, still. cbn. field. apply PI_neq0. }
  rewrite P. cbn [INR]. assert (0 < / (2 * PI)) by (apply Rinv_0_lt_compat; pose proof PI_RGT_0; lra). intros Q. lra.
Qed.
(** The products go around the end of the block: for an even block too this is not the sum over frames that are [k] apart. *)
Theorem acf_wrap_refuted : exists x, circ 4 x 1 <> Rsum (4 - 1) (fun t => x t * x (t + 1)%nat).
Proof. exists (fun _ => 1). unfold circ. cbn. lra. Qed.

(** ** C265: the spectrum *)
Theorem window_shape ftbox mlag : (0 < mlag)%nat -> forall w, (forall n, window ftbox mlag n = Some (w n)) ->
  w mlag = 1 /\ (forall n, (n <= 2 * mlag)%nat -> 0 <= w n <= 1) /\ (forall k, (k <= mlag)%nat -> w (mlag + k)%nat = w (mlag - k)%nat).
Proof.
  intros H w W. assert (Hm : INR mlag <> 0) by (apply not_0_INR; lia). assert (E2 : INR (2 * mlag) = 2 * INR mlag) by (rewrite mult_INR; reflexivity).
  assert (A0 : angle mlag mlag = PI) by (unfold angle; rewrite E2; field; easy).
  assert (As : forall k, (k <= mlag)%nat -> cos (angle mlag (mlag + k)) = cos (angle mlag (mlag - k)) /\ cos (2 * angle mlag (mlag + k)) = cos (2 * angle mlag (mlag - k))).
  { intros k Hk. replace (angle mlag (mlag + k)) with (- angle mlag (mlag - k) + 1 * (2 * PI)).
    - split; [rewrite (cos_Z_2PI (- angle mlag (mlag - k)) 1); apply cos_neg|].
      replace (2 * (- angle mlag (mlag - k) + 1 * (2 * PI))) with (- (2 * angle mlag (mlag - k)) + 2 * (2 * PI)) by ring. rewrite (cos_Z_2PI _ 2). apply cos_neg.
    - unfold angle. rewrite E2, plus_INR, minus_INR by easy. field. easy. }
  assert (Cb : forall x, -1 <= cos x <= 1) by apply COS_bound.
  destruct (String.eqb ftbox "none") eqn:E;
    [|destruct (String.eqb ftbox "cosine-hanning") eqn:E';
      [|destruct (String.eqb ftbox "cosine-hamming") eqn:E'';
        [|destruct (String.eqb ftbox "cosine-blackman") eqn:E3;
          [|destruct (String.eqb ftbox "triangle-bartlett") eqn:E4]]]].
  - assert (F : forall n, w n = 1) by (intros n; specialize (W n); unfold window in W; rewrite E in W; now injection W).
    split; [apply F|]. split; [intros n _; rewrite F; lra|]. intros k _. now rewrite !F.
  - assert (F : forall n, w n = hanning mlag n) by (intros n; specialize (W n); unfold window in W; rewrite E, E' in W; now injection W).
    split; [rewrite F; unfold hanning; rewrite A0, cos_PI; lra|]. split.
    + intros n _. rewrite F. unfold hanning. specialize (Cb (angle mlag n)). lra.
    + intros k Hk. rewrite !F. unfold hanning. now rewrite (proj1 (As k Hk)).
  - assert (F : forall n, w n = hamming mlag n) by (intros n; specialize (W n); unfold window in W; rewrite E, E', E'' in W; now injection W).
    split; [rewrite F; unfold hamming; rewrite A0, cos_PI; lra|]. split.
    + intros n _. rewrite F. unfold hamming. specialize (Cb (angle mlag n)). lra.
    + intros k Hk. rewrite !F. unfold hamming. now rewrite (proj1 (As k Hk)).
  - assert (F : forall n, w n = blackman mlag n) by (intros n; specialize (W n); unfold window in W; rewrite E, E', E'', E3 in W; now injection W).
    split; [rewrite F; unfold blackman; rewrite A0, cos_PI, cos_2PI; lra|]. split.
    + intros n _. rewrite F. unfold blackman. rewrite cos_2a_cos. specialize (Cb (angle mlag n)). nra.
    + intros k Hk. rewrite !F. unfold blackman. destruct (As k Hk) as (-> & ->). easy.
  - assert (F : forall n, w n = bartlett mlag n) by (intros n; specialize (W n); unfold window in W; rewrite E, E', E'', E3, E4 in W; now injection W).
    assert (B : forall n, bartlett mlag n = 1 - Rabs (INR n - INR mlag) / INR mlag).
    { intros n. unfold bartlett. rewrite E2. replace (2 * INR mlag / 2) with (INR mlag) by field. field. easy. }
    split; [rewrite F, B, Rminus_eq_0, Rabs_R0; unfold Rdiv; ring|]. split.
    + intros n Hn. rewrite F, B. assert (0 < INR mlag) by (apply lt_0_INR; lia). assert (A : Rabs (INR n - INR mlag) <= INR mlag).
      { apply Rabs_le. apply le_INR in Hn. rewrite E2 in Hn. pose proof (pos_INR n). lra. }
      pose proof (Rabs_pos (INR n - INR mlag)). split.
      * apply Rmult_le_reg_r with (INR mlag); [easy|]. field_simplify; [lra|easy].
      * assert (0 <= Rabs (INR n - INR mlag) / INR mlag) by (apply Rmult_le_pos; [easy|left; now apply Rinv_0_lt_compat]). lra.
    + intros k Hk. rewrite !F, !B, plus_INR, minus_INR by easy. replace (INR mlag + INR k - INR mlag) with (INR k) by ring.
      replace (INR mlag - INR k - INR mlag) with (- INR k) by ring. now rewrite Rabs_Ropp.
  - specialize (W 0%nat). unfold window in W. rewrite E, E', E'', E3, E4 in W. discriminate.
Qed.
(** The frequencies are those of 2 (mlag + npad) points; transforming back gives the autocorrelation function times the window and then zeros. *)
Theorem spectrum_inverse ml bl np ftbox labels names dt fskip der fr time acf err om facf ferr lags freqs mlag bsize npad win k :
  compute_acf ml bl np ftbox labels names dt fskip der fr = Result time acf err om facf ferr lags freqs -> checked ml bl np = Some (mlag, bsize, npad) ->
  (forall n, window ftbox mlag n = Some (win n)) -> (k <= mlag + npad)%nat -> dt <> 0 ->
  freqs = (2 * (mlag + npad))%nat /\
  Rsum freqs (fun j => facf j * cos (om j * times dt k)) / INR freqs = if (k <=? mlag)%nat then acf k * win (mlag + k)%nat else 0.
Proof.
  intros H C W Hk Hdt. destruct (compute_result _ _ _ _ _ _ _ _ _ _ _ _ _ _ _ _ _ _ _ _ _ H C) as (bks & win' & Eb & L & _ & _ & W' & _ & -> & _ & -> & -> & _ & _ & ->).
  split; [easy|]. destruct (checked_pos _ _ _ _ _ _ C) as (Hm & _).
  assert (EW : forall n, win' n = win n) by (intros n; specialize (W n); rewrite W' in W; now injection W).
  set (m := (mlag + 1 + npad)%nat). assert (En : (2 * (mlag + npad))%nat = hfft_len m) by (unfold hfft_len, m; lia). rewrite En.
  assert (Hn : INR (hfft_len m) <> 0) by (apply not_0_INR; unfold hfft_len, m; lia).
  unfold bmean. rewrite map_length. set (f := fun b => mvvacf dt bsize (chosen_atoms labels names) (block_data der dt bsize b)).
  rewrite (Rsum_ext _ _ (fun j => / INR (length bks) * Rsuml (map (fun b => hfft m (padded mlag win' (f b)) j * cos (2 * PI * INR j * INR k / INR (hfft_len m))) bks))).
  2:{ intros j _. rewrite map_length. unfold omega, times. rewrite En.
      replace (INR j / INR (hfft_len m) * (2 * PI / dt) * (INR k * dt)) with (2 * PI * INR j * INR k / INR (hfft_len m)) by (field; easy).
      rewrite (Rsuml_map_ext (fun b => hfft _ _ _ * _) (fun b => cos (2 * PI * INR j * INR k / INR (hfft_len m)) * mfpvvacf mlag npad win' (f b) j)) by (intros; unfold mfpvvacf; fold m; ring).
      rewrite Rsuml_map_scal. unfold Rdiv, f. ring. }
  rewrite Rsum_scal, <- (Rsuml_map_Rsum (hfft_len m) (fun b j => hfft m (padded mlag win' (f b)) j * cos (2 * PI * INR j * INR k / INR (hfft_len m)))).
  rewrite (Rsuml_map_ext _ (fun b => INR (hfft_len m) * padded mlag win' (f b) k)).
  2:{ intros b _. rewrite <- (hfft_inverse m (padded mlag win' (f b)) k) by (unfold m; lia). field. easy. }
  rewrite Rsuml_map_scal. unfold padded. destruct (Nat.leb_spec k mlag) as [Lk|Lk].
  - rewrite (Rsuml_map_ext _ (fun b => win (mlag + k)%nat * f b k)) by (intros; rewrite EW; ring). rewrite Rsuml_map_scal. unfold f. field. split; [|easy]. apply not_0_INR. lia.
  - rewrite Rsuml_map_const. field. split; [|easy]. apply not_0_INR. lia.
Qed.
(** At lag zero: the spectrum adds up to the mean square, whatever the window. *)
Theorem spectrum_sum ml bl np ftbox labels names dt fskip der fr time acf err om facf ferr lags freqs mlag bsize npad :
  compute_acf ml bl np ftbox labels names dt fskip der fr = Result time acf err om facf ferr lags freqs -> checked ml bl np = Some (mlag, bsize, npad) ->
  dt <> 0 -> Rsum freqs facf / INR freqs = acf 0%nat.
Proof.
  intros H C Hdt. destruct (compute_result _ _ _ _ _ _ _ _ _ _ _ _ _ _ _ _ _ _ _ _ _ H C) as (bks & win & Eb & L & _ & _ & W & _).
  destruct (checked_pos _ _ _ _ _ _ C) as (Hm & _). destruct (window_shape ftbox mlag Hm win W) as (W1 & _).
  destruct (spectrum_inverse _ _ _ _ _ _ _ _ _ _ _ _ _ _ _ _ _ _ _ _ _ _ 0 H C W) as (_ & S0); [lia|easy|].
  cbn [Nat.leb] in S0. rewrite Nat.add_0_r, W1, Rmult_1_r in S0. rewrite <- S0. f_equal. apply Rsum_ext. intros j _. unfold times. cbn [INR]. rewrite Rmult_0_l, Rmult_0_r, cos_0. ring.
Qed.
Theorem spectrum_mirror ml bl np ftbox labels names dt fskip der fr time acf err om facf ferr lags freqs j :
  compute_acf ml bl np ftbox labels names dt fskip der fr = Result time acf err om facf ferr lags freqs -> (j <= freqs)%nat ->
  facf (freqs - j)%nat = facf j.
Proof.
  intros H Hj. destruct (checked ml bl np) as [((mlag, bsize), npad)|] eqn:C; [|unfold compute_acf in H; rewrite C in H; discriminate].
  destruct (compute_result _ _ _ _ _ _ _ _ _ _ _ _ _ _ _ _ _ _ _ _ _ H C) as (bks & win & Eb & L & _ & _ & W & _ & _ & _ & _ & -> & _ & _ & ->).
  destruct (checked_pos _ _ _ _ _ _ C) as (Hm & _). unfold bmean. rewrite !map_length. f_equal. apply Rsuml_map_ext. intros b _. unfold mfpvvacf.
  replace (2 * (mlag + npad))%nat with (hfft_len (mlag + 1 + npad)) in * by (unfold hfft_len; lia). apply hfft_mirror; [lia|easy].
Qed.

(** ** C266: blocks and errors *)
Lemma blocks_spec fuel bsize fr : (0 < bsize)%nat -> (length fr <= fuel)%nat ->
  length (blocks fuel bsize fr) = (length fr / bsize)%nat /\
  forall i, (i < length fr / bsize)%nat -> nth i (blocks fuel bsize fr) [] = firstn bsize (skipn (i * bsize) fr).
Proof.
  intros H. revert fr. induction fuel as [|fuel IH]; intros fr L.
  - destruct fr; [|cbn in L; lia]. cbn [length]. rewrite Nat.div_0_l by lia. split; [easy|lia].
  - cbn [blocks]. destruct (Nat.ltb_spec (length fr) bsize) as [S0|S0].
    + rewrite Nat.div_small by easy. split; [easy|lia].
    + destruct (IH (skipn bsize fr)) as (I1 & I2). { rewrite skipn_length. lia. }
      rewrite skipn_length in I1, I2.
      assert (D : (length fr / bsize = S ((length fr - bsize) / bsize))%nat).
      { replace (length fr) with (1 * bsize + (length fr - bsize))%nat at 1 by lia. rewrite Nat.div_add_l by lia. lia. }
      split; [cbn [length]; lia|]. intros [|i] Hi; [easy|]. cbn [nth]. rewrite I2 by lia. f_equal. clear - H.
      cbn [Nat.mul]. generalize (i * bsize)%nat as p. intros p. revert fr. induction bsize as [|b IHb]; intros fr; [lia|].
      destruct b as [|b]; [destruct fr as [|a fr]; cbn; [now rewrite skipn_nil|easy]|]. destruct fr as [|a fr]; [now rewrite !skipn_nil|]. cbn [skipn Nat.add]. apply IHb. lia.
Qed.
(** Every block is a different stretch of the frames after the ones skipped, and what is left at the end is not used. *)
Theorem acf_blocks fskip bsize fr : (0 < bsize)%nat -> (fskip <= length fr)%nat ->
  let bks := blocks (length fr) bsize (skipn fskip fr) in
  length bks = ((length fr - fskip) / bsize)%nat /\ (forall i t, (i < length bks)%nat -> (t < bsize)%nat -> nth t (nth i bks []) (fun _ _ => 0) = nth (fskip + i * bsize + t) fr (fun _ _ => 0)).
Proof.
  intros H F bks. destruct (blocks_spec (length fr) bsize (skipn fskip fr) H) as (L & N). { rewrite skipn_length. lia. }
  fold bks in L, N. rewrite skipn_length in L, N. split; [easy|]. intros i t Hi Ht. rewrite L in Hi. rewrite (N i Hi).
  rewrite <- (firstn_skipn (fskip + i * bsize) fr) at 2.
  assert (B : (i * bsize + bsize <= length fr - fskip)%nat). { pose proof (Nat.mul_div_le (length fr - fskip) bsize). nia. }
  rewrite app_nth2; rewrite firstn_length_le by lia; [|lia].
  replace (fskip + i * bsize + t - (fskip + i * bsize))%nat with t by lia.
  assert (G : skipn (i * bsize) (skipn fskip fr) = skipn (fskip + i * bsize) fr).
  { clear. generalize (i * bsize)%nat as p. intros p. revert fr. induction fskip as [|f IH]; intros fr; [easy|]. destruct fr; [now rewrite !skipn_nil|]. cbn. apply IH. }
  rewrite G. set (l := skipn (fskip + i * bsize) fr). rewrite <- (firstn_skipn bsize l) at 2. rewrite app_nth1; [easy|].
  rewrite firstn_length_le; [easy|]. unfold l. rewrite skipn_length. lia.
Qed.
(** The error squared is the mean square deviation of the blocks, so no root of a negative number is taken. *)
Theorem block_error l : (0 < length l)%nat ->
  berr2 l = average (map (fun v => (v - average l) ^ 2) l) /\ 0 <= berr2 l /\ berr l ^ 2 = berr2 l.
Proof.
  intros L. assert (Hl : INR (length l) <> 0) by (apply not_0_INR; lia).
  assert (E : berr2 l = average (map (fun v => (v - average l) ^ 2) l)).
  { unfold berr2, bmean. fold (average l). set (mu := average l). unfold average. rewrite map_length.
    rewrite (Rsuml_map_ext (fun v => (v - mu) ^ 2) (fun v => (v ^ 2 + mu ^ 2) - 2 * mu * v)) by (intros; ring).
    rewrite Rsuml_map_minus, Rsuml_map_plus, Rsuml_map_const, Rsuml_map_scal, map_id.
    replace (Rsuml l) with (INR (length l) * mu) by (unfold mu, average; field; easy). field. easy. }
  assert (P : 0 <= berr2 l).
  { rewrite E. generalize (average l) as mu. intros mu. unfold average. rewrite map_length. apply Rmult_le_pos; [|left; apply Rinv_0_lt_compat, lt_0_INR; lia].
    clear. induction l as [|v l IH]; cbn [map Rsuml]; [lra|]. pose proof (pow2_ge_0 (v - mu)). cbn beta. lra. }
  split; [easy|]. split; [easy|]. unfold berr. now apply pow2_sqrt.
Qed.
(** When there is a result *)
Theorem acf_outcome ml bl np ftbox labels names dt fskip der fr mlag bsize npad : checked ml bl np = Some (mlag, bsize, npad) ->
  (exists time acf err om facf ferr lags freqs, compute_acf ml bl np ftbox labels names dt fskip der fr = Result time acf err om facf ferr lags freqs) <->
  (fskip + bsize <= length fr)%nat /\ chosen_atoms labels names <> [] /\ In ftbox ["none"; "cosine-hanning"; "cosine-hamming"; "cosine-blackman"; "triangle-bartlett"]%string.
Proof.
  intros C. destruct (checked_pos _ _ _ _ _ _ C) as (Hm & Hb). split.
  - intros (time & acf & err & om & facf & ferr & lags & freqs & H). destruct (compute_result _ _ _ _ _ _ _ _ _ _ _ _ _ _ _ _ _ _ _ _ _ H C) as (bks & win & Eb & L & L' & F & W & _).
    destruct (acf_blocks fskip bsize fr) as (N & _); [lia|easy|]. rewrite <- Eb in N. split; [|split].
    + destruct (Nat.le_gt_cases bsize (length fr - fskip)) as [|G]; [lia|]. rewrite Nat.div_small in N by easy. lia.
    + intros E. rewrite E in L'. cbn in L'. lia.
    + specialize (W 0%nat). unfold window in W.
      destruct (String.eqb_spec ftbox "none"); [subst; now left|]. destruct (String.eqb_spec ftbox "cosine-hanning"); [subst; right; now left|].
      destruct (String.eqb_spec ftbox "cosine-hamming"); [subst; do 2 right; now left|]. destruct (String.eqb_spec ftbox "cosine-blackman"); [subst; do 3 right; now left|].
      destruct (String.eqb_spec ftbox "triangle-bartlett"); [subst; do 4 right; now left|]. discriminate.
  - intros (L & S0 & W). unfold compute_acf. rewrite C. destruct (Nat.eqb_spec (length fr) 0); [lia|]. destruct (Nat.ltb_spec (length fr) fskip); [lia|].
    assert (N : (length (blocks (length fr) bsize (skipn fskip fr)) =? 0)%nat = false).
    { apply Nat.eqb_neq. rewrite (proj1 (acf_blocks fskip bsize fr ltac:(lia) ltac:(lia))).
      assert (1 <= (length fr - fskip) / bsize)%nat; [|lia]. apply Nat.div_le_lower_bound; lia. }
    rewrite N. assert (S1 : (length (chosen_atoms labels names) =? 0)%nat = false). { apply Nat.eqb_neq. destruct (chosen_atoms labels names); cbn; [easy|lia]. }
    rewrite S1. cbn [orb]. cbn in W. repeat destruct W as [<-|W]; [..|easy]; cbn; do 8 eexists; reflexivity.
Qed.

(** ** C267: atoms, derivatives *)
Theorem chosen_spec labels names a : In a (chosen_atoms labels names) <-> (a < length names)%nat /\ (In "*"%string labels \/ In (nth a names ""%string) labels).
Proof.
  unfold chosen_atoms. rewrite filter_In, in_seq, orb_true_iff, !existsb_exists. split.
  - intros (A & [(x & X & E)|(x & X & E)]); apply String.eqb_eq in E; subst x; split; try lia; auto.
  - intros (A & [X|X]); (split; [lia|]); [left|right]; eexists; (split; [exact X|apply String.eqb_refl]).
Qed.
(** The derivative of a trajectory that changes linearly in time is exact in all frames; with an acceleration it is in all but the first and the last, which are off
    by half a step. *)
Theorem derivative_quadratic dt n (x v g : R) t : (2 <= n)%nat -> dt <> 0 -> (t < n)%nat ->
  gradient n (fun t => x + v * (INR t * dt) + g * (INR t * dt) ^ 2) t / dt =
  v + 2 * g * (INR t * dt) + (if (t =? 0)%nat then g * dt else if (t =? n - 1)%nat then - g * dt else 0).
Proof.
  intros H Hdt Ht. unfold gradient. destruct (Nat.eqb_spec t 0) as [->|N]; [cbn [INR]; field; easy|]. destruct (Nat.eqb_spec t (n - 1)) as [->|M].
  - replace (n - 1)%nat with (S (n - 2)) by lia. rewrite !S_INR. field. easy.
  - rewrite plus_INR, minus_INR by lia. cbn [INR]. field. easy.
Qed.

(** ** C268: getacf.py *)
(** The last lag is left out without padding, and so is the upper half of the frequencies. *)
Theorem getacf_rows mlag bsize npad ftbox labels names dt fskip der fr acf facf : (0 < mlag)%Z -> (0 <= npad)%Z ->
  getacf mlag bsize npad ftbox labels names dt fskip der fr = Some (acf, facf) ->
  length acf = Nat.min (Z.to_nat (mlag + npad)) (Z.to_nat mlag + 1) /\ length facf = Z.to_nat (mlag + npad) /\
  (forall j, (j < length facf)%nat -> fst (fst (nth j facf (0, 0, 0))) = INR j / INR (2 * Z.to_nat (mlag + npad)) * (2 * PI / dt)) /\
  (forall k, (k < length acf)%nat -> fst (fst (nth k acf (0, 0, 0))) = INR k * dt).
Proof.
  intros Hm Hp H. unfold getacf in H. destruct (compute_acf _ _ _ _ _ _ _ _ _ _) as [| | | |time ac err om fac ferr lags freqs] eqn:C; try discriminate.
  destruct (checked (Some mlag) (Some bsize) npad) as [((ml, bs), np)|] eqn:K; [|unfold compute_acf in C; rewrite K in C; discriminate].
  destruct (compute_result _ _ _ _ _ _ _ _ _ _ _ _ _ _ _ _ _ _ _ _ _ C K) as (bks & win & _ & _ & _ & _ & _ & -> & _ & _ & -> & _ & _ & -> & ->).
  assert (ml = Z.to_nat mlag /\ np = Z.to_nat npad) as (-> & ->).
  { revert K. unfold checked. cbn [or_default]. destruct (Z.eqb_spec mlag 0); [lia|]. generalize (if (bsize =? 0)%Z then (2 * mlag + 1)%Z else bsize) as b. intros b. remember (2 * mlag)%Z as m2.
    destruct (mlag <=? 0)%Z; [discriminate|]. destruct (npad <? 0)%Z; [discriminate|]. destruct (b <? m2)%Z; [destruct (b =? -1)%Z; [|discriminate]|]; injection 1; intros; subst; easy. }
  injection H as <- <-. assert (Ez : Z.to_nat (mlag + npad) = (Z.to_nat mlag + Z.to_nat npad)%nat) by lia. rewrite Ez. set (rows := (Z.to_nat mlag + Z.to_nat npad)%nat).
  assert (G : forall len (f : nat -> R * R * R) i, (i < length (map f (firstn rows (seq 0 len))))%nat -> nth i (map f (firstn rows (seq 0 len))) (0, 0, 0) = f i).
  { intros len f i Hi. rewrite (nth_indep _ (0, 0, 0) (f 0%nat)) by easy. rewrite map_nth. f_equal. rewrite map_length, firstn_length, seq_length in Hi.
    replace (nth i (firstn rows (seq 0 len)) 0%nat) with (nth i (seq 0 len) 0%nat); [rewrite seq_nth; lia|].
    rewrite <- (firstn_skipn rows (seq 0 len)) at 1. rewrite app_nth1; [easy|]. rewrite firstn_length, seq_length. lia. }
  split; [|split; [|split]].
  - rewrite map_length, firstn_length, seq_length. easy.
  - rewrite map_length, firstn_length, seq_length. lia.
  - intros j Hj. rewrite G by easy. easy.
  - intros k Hk. rewrite G by easy. easy.
Qed.
(** With -mlag 0 the lag becomes 100 and nothing at all is written, without a message. *)
Theorem getacf_zero_refuted : exists fr,
  (exists time acf err om facf ferr, compute_acf (Some 0%Z) (Some (-1)%Z) 0 "none" ["*"%string] ["H"%string] 1 0 false fr = Result time acf err om facf ferr 101 200) /\
  getacf 0 (-1) 0 "none" ["*"%string] ["H"%string] 1 0 false fr = Some ([], []).
Proof.
  exists (repeat still 200). 
  assert (H : exists time acf err om facf ferr, compute_acf (Some 0%Z) (Some (-1)%Z) 0 "none" ["*"%string] ["H"%string] 1 0 false (repeat still 200) = Result time acf err om facf ferr 101 200).
  { destruct (proj2 (acf_outcome (Some 0%Z) (Some (-1)%Z) 0 "none" ["*"%string] ["H"%string] 1 0 false (repeat still 200) 100 200 0 eq_refl)) as (time & acf & err & om & facf & ferr & lags & freqs & H).
    - split; [rewrite repeat_length; lia|]. split; [vm_compute; discriminate|]. now left.
    - exists time, acf, err, om, facf, ferr. rewrite H. destruct (compute_result _ _ _ _ _ _ _ _ _ _ _ _ _ _ _ _ _ _ 100 200 0 H eq_refl) as (bks & win & _ & _ & _ & _ & _ & _ & _ & _ & _ & _ & _ & -> & ->). reflexivity. }
  split; [exact H|]. destruct H as (time & acf & err & om & facf & ferr & H). unfold getacf. rewrite H. reflexivity.
Qed.

(** A case: two blocks of four frames after one that is skipped, lag 2, three more zeros *)
Definition walk (n : nat) : frame := fun _ c => if (c =? 0)%nat then INR n else 0.
Example acf_case : checked (Some 2%Z) (Some (-1)%Z) 3 = Some (2, 4, 3)%nat /\ Nat.Even 4 /\
  (exists time acf err om facf ferr lags freqs, compute_acf (Some 2%Z) (Some (-1)%Z) 3 "cosine-hanning" ["O"; "H"]%string ["H"; "C"]%string 1 1 false (map walk (seq 0 10)) = Result time acf err om facf ferr lags freqs) /\
  chosen_atoms ["O"; "H"]%string ["H"; "C"]%string = [0%nat] /\ length (blocks 10 4 (skipn 1 (map walk (seq 0 10)))) = 2%nat.
Proof.
  split; [reflexivity|]. split; [now exists 2%nat|]. split; [|split; reflexivity].
  apply (acf_outcome _ _ _ _ _ _ _ _ _ _ 2 4 3); [reflexivity|]. split; [cbn; lia|]. split; [vm_compute; discriminate|]. right. now left.
Qed.

Print Assumptions acf_even.
Print Assumptions acf_odd_constant.
Print Assumptions acf_default_refuted.
Print Assumptions acf_wrap_refuted.
Print Assumptions window_shape.
Print Assumptions spectrum_inverse.
Print Assumptions spectrum_sum.
Print Assumptions spectrum_mirror.
Print Assumptions acf_blocks.
Print Assumptions block_error.
Print Assumptions acf_outcome.
Print Assumptions chosen_spec.
Print Assumptions derivative_quadratic.
Print Assumptions getacf_rows.
Print Assumptions getacf_zero_refuted.
