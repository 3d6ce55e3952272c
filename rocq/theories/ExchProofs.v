(** Lemmas on the exchange potential: runs of assignments, the recursion of the
    weights and its dual, derivatives. *)
Require Import Reals List Arith Lia Lra.
From Verif Require Import RSum ExchModel.
Import ListNotations.
Local Open Scope R_scope.

(** ** Runs of assignments *)
Definition runf (g : (nat -> R) -> nat -> R) (ms : list nat) (V : nat -> R) : nat -> R :=
  fold_left (fun V m => set1 V m (g V m)) ms V.
Lemma set1_same V i x : set1 V i x i = x.
Proof. unfold set1. now rewrite Nat.eqb_refl. Qed.
Lemma set1_other V i x j : j <> i -> set1 V i x j = V j.
Proof. intros H. unfold set1. now rewrite (proj2 (Nat.eqb_neq j i) H). Qed.
Lemma runf_app g a b V : runf g (a ++ b) V = runf g b (runf g a V).
Proof. apply fold_left_app. Qed.
Lemma runf_out g ms : forall V j, ~ In j ms -> runf g ms V j = V j.
Proof.
  induction ms as [|m ms IH]; intros V j H; [easy|]. cbn.
  change (runf g ms (set1 V m (g V m)) j = V j). rewrite IH by (intros Hj; apply H; now right).
  apply set1_other. intros ->. apply H. now left.
Qed.
Lemma runf_in g ms m ms' V : ~ In m ms' -> runf g (ms ++ m :: ms') V m = g (runf g ms V) m.
Proof.
  intros H. rewrite runf_app. cbn. change (runf g ms' (set1 (runf g ms V) m (g (runf g ms V) m)) m = g (runf g ms V) m).
  rewrite runf_out by easy. apply set1_same.
Qed.
Lemma runf_up g n V0 m : (forall V V' m, (1 <= m)%nat -> (forall u, (u < m)%nat -> V u = V' u) -> g V m = g V' m) ->
  (1 <= m <= n)%nat -> runf g (seq 1 n) V0 m = g (runf g (seq 1 n) V0) m.
Proof.
  intros Hg Hm.
  assert (E : seq 1 n = seq 1 (m - 1) ++ m :: seq (S m) (n - m)).
  { replace n with ((m - 1) + S (n - m))%nat at 1 by lia. rewrite seq_app. cbn [seq]. f_equal. replace (1 + (m - 1))%nat with m by lia. easy. }
  rewrite E at 1. rewrite runf_in by (rewrite in_seq; lia). apply Hg; [lia|]. intros u Hu.
  rewrite E. rewrite runf_app. cbn.
  change (runf g (seq 1 (m - 1)) V0 u = runf g (seq (S m) (n - m)) (set1 (runf g (seq 1 (m - 1)) V0) m (g (runf g (seq 1 (m - 1)) V0) m)) u).
  rewrite (runf_out g (seq (S m) (n - m))) by (rewrite in_seq; lia). now rewrite set1_other by lia.
Qed.
Lemma runf_down g n V0 m : (forall V V' m, (1 <= m <= n)%nat -> (forall u, (m < u)%nat -> V u = V' u) -> g V m = g V' m) ->
  (1 <= m <= n)%nat -> runf g (rev (seq 1 n)) V0 m = g (runf g (rev (seq 1 n)) V0) m.
Proof.
  intros Hg Hm.
  assert (E : rev (seq 1 n) = rev (seq (S m) (n - m)) ++ m :: rev (seq 1 (m - 1))).
  { replace n with ((m - 1) + S (n - m))%nat at 1 by lia. rewrite seq_app, rev_app_distr.
    replace (1 + (m - 1))%nat with m by lia. cbn [seq rev]. now rewrite <- app_assoc. }
  rewrite E at 1. rewrite runf_in by (rewrite <- in_rev, in_seq; lia). apply Hg; [lia|]. intros u Hu.
  rewrite E, runf_app. cbn.
  change (runf g (rev (seq (S m) (n - m))) V0 u = runf g (rev (seq 1 (m - 1))) (set1 (runf g (rev (seq (S m) (n - m))) V0) m (g (runf g (rev (seq (S m) (n - m))) V0) m)) u).
  rewrite (runf_out g (rev (seq 1 (m - 1)))) by (rewrite <- in_rev, in_seq; lia). now rewrite set1_other by lia.
Qed.

(** ** Minima *)
Lemma fold_min_le (f : nat -> R) l : forall a, fold_left (fun m i => Rmin m (f i)) l a <= a /\ forall i, In i l -> fold_left (fun m i => Rmin m (f i)) l a <= f i.
Proof.
  induction l as [|x l IH]; intros a; cbn; [split; [lra | easy]|].
  destruct (IH (Rmin a (f x))) as [H1 H2]. split.
  - eapply Rle_trans; [exact H1 | apply Rmin_l].
  - intros i [-> | Hi]; [eapply Rle_trans; [exact H1 | apply Rmin_r] | now apply H2].
Qed.
Lemma fold_min_attained (f : nat -> R) l : forall a, fold_left (fun m i => Rmin m (f i)) l a = a \/ exists i, In i l /\ fold_left (fun m i => Rmin m (f i)) l a = f i.
Proof.
  induction l as [|x l IH]; intros a; cbn; [now left|].
  destruct (IH (Rmin a (f x))) as [-> | (i & Hi & ->)]; [| right; exists i; split; [now right | easy]].
  unfold Rmin. destruct (Rle_dec a (f x)); [now left | right; exists x; split; [now left | easy]].
Qed.
Lemma npmin_le n f i : (i < n)%nat -> npmin n f <= f i.
Proof.
  intros H. unfold npmin. destruct (fold_min_le f (seq 1 (n - 1)) (f 0%nat)) as [H1 H2].
  destruct i; [exact H1 | apply H2; rewrite in_seq; lia].
Qed.
Lemma npmin_attained n f : (0 < n)%nat -> exists i, (i < n)%nat /\ npmin n f = f i.
Proof.
  intros H. unfold npmin. destruct (fold_min_attained f (seq 1 (n - 1)) (f 0%nat)) as [-> | (i & Hi & ->)].
  - now exists 0%nat.
  - rewrite in_seq in Hi. exists i. split; [lia | easy].
Qed.
Lemma npmin_ext n f g : (0 < n)%nat -> (forall i, (i < n)%nat -> f i = g i) -> npmin n f = npmin n g.
Proof.
  intros Hn H. unfold npmin. rewrite (H 0%nat) by easy.
  assert (G : forall l a, (forall i, In i l -> f i = g i) -> fold_left (fun m i => Rmin m (f i)) l a = fold_left (fun m i => Rmin m (g i)) l a).
  { induction l as [|x l IH]; intros a Hl; [easy|]. cbn. rewrite (Hl x) by now left. apply IH. intros i Hi. apply Hl. now right. }
  apply G. intros i Hi. rewrite in_seq in Hi. apply H. lia.
Qed.
Lemma Rsum_pos n f : (0 < n)%nat -> (forall i, (i < n)%nat -> 0 < f i) -> 0 < Rsum n f.
Proof.
  intros Hn H. destruct n as [|n]; [lia|]. cbn. assert (0 <= Rsum n f) by (apply Rsum_nonneg; intros i Hi; left; apply H; lia).
  specialize (H n ltac:(lia)). lra.
Qed.
Lemma Rsum_ge_term n f i : (i < n)%nat -> (forall j, (j < n)%nat -> 0 <= f j) -> f i <= Rsum n f.
Proof.
  intros Hi H. induction n as [|n IH]; [lia|]. cbn. assert (0 <= Rsum n f) by (apply Rsum_nonneg; intros; apply H; lia).
  pose proof (H n ltac:(lia)). destruct (Nat.eq_dec i n) as [->|]; [lra|]. assert (f i <= Rsum n f) by (apply IH; [lia | intros; apply H; lia]). lra.
Qed.
(** The shifted sum is between one and the number of terms: it never vanishes
    and never overflows. *)
Lemma shifted_sum_bounds beta n f : (0 < n)%nat -> 0 < beta ->
  1 <= Rsum n (fun u => exp (- beta * (f u - npmin n f))) <= INR n.
Proof.
  intros Hn Hb. split.
  - destruct (npmin_attained n f Hn) as (i & Hi & Hmin).
    eapply Rle_trans; [| apply (Rsum_ge_term n (fun u => exp (- beta * (f u - npmin n f))) i Hi); intros; left; apply exp_pos].
    cbv beta. rewrite Hmin. replace (- beta * (f i - f i)) with 0 by ring. rewrite exp_0. lra.
  - replace (INR n) with (Rsum n (fun _ => 1)) by (rewrite Rsum_const; ring). apply Rsum_le. intros i Hi. rewrite <- exp_0.
    pose proof (npmin_le n f i Hi). destruct (Req_dec (f i) (npmin n f)) as [-> | Hne]; [right; f_equal; ring|].
    left. apply exp_increasing. assert (0 < f i - npmin n f) by lra. pose proof (Rmult_lt_0_compat _ _ Hb H0). lra.
Qed.

(** ** The weights of the prefix potentials *)
Section Prefix.
Variable x : expot.
Variable E : nat -> nat -> R.
Hypothesis Hb : 0 < betaP x.
Definition gpre (V : nat -> R) (m : nat) : R :=
  let sub := fun u => V u + E u (m - 1)%nat in
  let Elong := npmin m sub in
  Elong - ln (Rsum m (fun u => exp (- betaP x * (sub u - Elong))) / INR m) / betaP x.
Lemma prefix_run_form : prefix_V x E = runf gpre (seq 1 (nbosons x)) (fun _ => 0).
Proof.
  unfold prefix_V, prefix_run, runf.
  assert (G : forall l V ok, fst (fold_left (prefix_step x E) l (V, ok)) = fold_left (fun V m => set1 V m (gpre V m)) l V).
  { induction l as [|m l IH]; intros V ok; [easy|]. cbn [fold_left]. unfold prefix_step at 2. apply IH. }
  apply G.
Qed.
Lemma prefix_assertions : snd (prefix_run x E) = true.
Proof.
  unfold prefix_run.
  assert (G : forall l V, (forall m, In m l -> (0 < m)%nat) -> snd (fold_left (prefix_step x E) l (V, true)) = true).
  { induction l as [|m l IH]; intros V Hl; [easy|]. cbn [fold_left]. unfold prefix_step at 2. cbv zeta.
    destruct (Req_EM_T _ 0) as [e|n].
    - exfalso. pose proof (shifted_sum_bounds (betaP x) m (fun u => V u + E u (m - 1)%nat) (Hl m (or_introl eq_refl)) Hb) as [H1 _].
      cbv beta in H1. rewrite e in H1. lra.
    - apply IH. intros m' Hm'. apply Hl. now right. }
  apply G. intros m Hm. rewrite in_seq in Hm. lia.
Qed.
Lemma gpre_dep V V' m : (1 <= m)%nat -> (forall u, (u < m)%nat -> V u = V' u) -> gpre V m = gpre V' m.
Proof.
  intros Hm H. unfold gpre. cbv zeta.
  rewrite (npmin_ext m _ (fun u => V' u + E u (m - 1)%nat)) by (try lia; intros i Hi; now rewrite H).
  f_equal. f_equal. f_equal. f_equal. apply Rsum_ext. intros i Hi. now rewrite H.
Qed.
Lemma prefix_0 : prefix_V x E 0%nat = 0.
Proof. rewrite prefix_run_form. apply runf_out. rewrite in_seq. lia. Qed.
Lemma prefix_eq m : (1 <= m <= nbosons x)%nat -> prefix_V x E m = gpre (prefix_V x E) m.
Proof. intros Hm. rewrite prefix_run_form. apply runf_up; [apply gpre_dep | easy]. Qed.
(** The shift by the minimum drops out. *)
Lemma shift_out n (w f : nat -> R) c : 0 < Rsum n (fun u => w u * exp (- betaP x * (f u - c))) ->
  exp (- betaP x * (c - ln (Rsum n (fun u => w u * exp (- betaP x * (f u - c)))) / betaP x)) = Rsum n (fun u => w u * exp (- betaP x * f u)).
Proof.
  intros H. set (S := Rsum n _) in *.
  replace (- betaP x * (c - ln S / betaP x)) with (- betaP x * c + ln S) by (field; lra).
  rewrite exp_plus, exp_ln by easy. unfold S. rewrite <- Rsum_scal. apply Rsum_ext. intros i Hi.
  replace (- betaP x * f i) with (- betaP x * c + - betaP x * (f i - c)) by ring. rewrite exp_plus. ring.
Qed.
Lemma prefix_weight m : (1 <= m <= nbosons x)%nat ->
  exp (- betaP x * prefix_V x E m) = Rsum m (fun u => exp (- betaP x * prefix_V x E u) * exp (- betaP x * E u (m - 1)%nat)) / INR m.
Proof.
  intros Hm. rewrite prefix_eq by easy. unfold gpre. cbv zeta. set (V := prefix_V x E).
  set (c := npmin m _). assert (0 < INR m) by (apply lt_0_INR; lia).
  pose proof (shift_out m (fun _ => / INR m) (fun u => V u + E u (m - 1)%nat) c) as Q. cbv beta in Q.
  assert (HS : Rsum m (fun u => / INR m * exp (- betaP x * (V u + E u (m - 1)%nat - c))) = Rsum m (fun u => exp (- betaP x * (V u + E u (m - 1)%nat - c))) / INR m).
  { rewrite Rsum_scal. unfold Rdiv. ring. }
  rewrite HS in Q. rewrite Q.
  - rewrite Rsum_scal. unfold Rdiv. rewrite Rmult_comm. f_equal. apply Rsum_ext. intros u Hu. rewrite <- exp_plus. f_equal. ring.
  - apply Rdiv_lt_0_compat; [| easy]. apply Rsum_pos; [lia | intros; apply exp_pos].
Qed.
End Prefix.

(** ** The weights of the suffix potentials *)
Section Suffix.
Variable x : expot.
Variable E : nat -> nat -> R.
Hypothesis Hb : 0 < betaP x.
Let N := nbosons x.
Definition gsuf (RV : nat -> R) (l : nat) : R :=
  let sub := fun i => E l (l + i)%nat + RV (l + 1 + i)%nat in
  let Elong := npmin (nbosons x - l) sub in
  Elong - ln (Rsum (nbosons x - l) (fun i => 1 / (INR l + 1 + INR i) * exp (- betaP x * (sub i - Elong)))) / betaP x.
Lemma suffix_run_form : fst (suffix_run x E) = runf gsuf (rev (seq 1 (nbosons x - 1))) (fun _ => 0).
Proof.
  unfold suffix_run, runf.
  assert (G : forall l V ok, fst (fold_left (suffix_step x E) l (V, ok)) = fold_left (fun V m => set1 V m (gsuf V m)) l V).
  { induction l as [|m l IH]; intros V ok; [easy|]. cbn [fold_left]. unfold suffix_step at 2. apply IH. }
  apply G.
Qed.
Lemma rec_pos l i : 0 < 1 / (INR l + 1 + INR i).
Proof. apply Rdiv_lt_0_compat; [lra|]. pose proof (pos_INR l). pose proof (pos_INR i). lra. Qed.
Lemma suffix_sig_pos RV l c : (l < nbosons x)%nat -> 0 < Rsum (nbosons x - l) (fun i => 1 / (INR l + 1 + INR i) * exp (- betaP x * (E l (l + i)%nat + RV (l + 1 + i)%nat - c))).
Proof. intros Hl. apply Rsum_pos; [lia|]. intros i Hi. apply Rmult_lt_0_compat; [apply rec_pos | apply exp_pos]. Qed.
Lemma suffix_assertions : snd (suffix_run x E) = true.
Proof.
  unfold suffix_run.
  assert (G : forall l V, (forall m, In m l -> (m < nbosons x)%nat) -> snd (fold_left (suffix_step x E) l (V, true)) = true).
  { induction l as [|m l IH]; intros V Hl; [easy|]. cbn [fold_left]. unfold suffix_step at 2. cbv zeta.
    destruct (Req_EM_T _ 0) as [e|n].
    - exfalso. pose proof (suffix_sig_pos V m (npmin (nbosons x - m) (fun i => E m (m + i)%nat + V (m + 1 + i)%nat)) (Hl m (or_introl eq_refl))) as H1.
      cbv beta in H1. rewrite e in H1. lra.
    - apply IH. intros m' Hm'. apply Hl. now right. }
  apply G. intros m Hm. rewrite <- in_rev, in_seq in Hm. lia.
Qed.
Lemma gsuf_dep V V' l : (1 <= l <= nbosons x - 1)%nat -> (forall u, (l < u)%nat -> V u = V' u) -> gsuf V l = gsuf V' l.
Proof.
  intros Hl H. unfold gsuf. cbv zeta.
  rewrite (npmin_ext (nbosons x - l) _ (fun i => E l (l + i)%nat + V' (l + 1 + i)%nat)) by (try lia; intros i Hi; rewrite H by lia; easy).
  f_equal. f_equal. f_equal. apply Rsum_ext. intros i Hi. now rewrite H by lia.
Qed.
Lemma suffix_last : suffix_V x E (nbosons x) = if Nat.eqb (nbosons x) 0 then prefix_V x E 0 else 0.
Proof.
  unfold suffix_V. destruct (Nat.eqb_spec (nbosons x) 0) as [e|n].
  - rewrite e. apply set1_same.
  - rewrite set1_other by easy. rewrite suffix_run_form. apply runf_out. rewrite <- in_rev, in_seq. lia.
Qed.
Lemma suffix_eq l : (1 <= l < nbosons x)%nat -> suffix_V x E l = gsuf (suffix_V x E) l.
Proof.
  intros Hl. unfold suffix_V at 1. rewrite set1_other by lia. rewrite suffix_run_form.
  rewrite runf_down by (try lia; apply gsuf_dep). apply gsuf_dep; [lia|]. intros u Hu.
  unfold suffix_V. rewrite set1_other by lia. now rewrite suffix_run_form.
Qed.
Lemma suffix_weight l : (1 <= l < nbosons x)%nat ->
  exp (- betaP x * suffix_V x E l) = Rsum (nbosons x - l) (fun i => exp (- betaP x * E l (l + i)%nat) / INR (l + i + 1) * exp (- betaP x * suffix_V x E (l + i + 1))).
Proof.
  intros Hl. rewrite suffix_eq by easy. unfold gsuf. cbv zeta. set (V := suffix_V x E).
  set (c := npmin _ _).
  rewrite (shift_out x Hb (nbosons x - l) (fun i => 1 / (INR l + 1 + INR i)) (fun i => E l (l + i)%nat + V (l + 1 + i)%nat) c)
    by (apply suffix_sig_pos; lia).
  apply Rsum_ext. intros i Hi. rewrite Rmult_plus_distr_l, exp_plus. rewrite !plus_INR. cbn [INR].
  replace (l + 1 + i)%nat with (l + i + 1)%nat by lia.
  replace (INR l + 1 + INR i) with (INR l + INR i + 1) by ring. unfold Rdiv. ring.
Qed.
End Suffix.

(** ** Duality of the two recursions *)
Lemma Rsum_telescope n f : Rsum n (fun l => f (S l) - f l) = f n - f 0%nat.
Proof. induction n as [|n IH]; cbn; [ring|]. rewrite IH. ring. Qed.
Lemma dual N (K : nat -> nat -> R) (B D : nat -> R) :
  (forall u, (u < N)%nat -> B u = Rsum N (fun l => K l u * B (S l))) ->
  Rsum N (fun l => (D (S l) - Rsum N (fun u => K l u * D u)) * B (S l)) = D N * B N - D 0%nat * B 0%nat.
Proof.
  intros HB.
  rewrite (Rsum_ext N _ (fun l => D (S l) * B (S l) - Rsum N (fun u => K l u * D u * B (S l)))).
  2:{ intros l Hl. rewrite Rsum_scal_r. ring. }
  rewrite Rsum_minus, Rsum_swap.
  rewrite (Rsum_ext N (fun u => Rsum N (fun l => K l u * D u * B (S l))) (fun u => D u * B u)).
  2:{ intros u Hu. rewrite (HB u Hu), <- Rsum_scal. apply Rsum_ext. intros. ring. }
  rewrite <- Rsum_minus. apply (Rsum_telescope N (fun l => D l * B l)).
Qed.
Lemma Rsum_tail N l f : (l <= N)%nat -> Rsum (N - l) (fun i => f (l + i)%nat) = Rsum N (fun p => if Nat.leb l p then f p else 0).
Proof.
  intros H. replace N with (l + (N - l))%nat at 2 by lia. rewrite Rsum_split.
  rewrite (Rsum_0 l) by (intros i Hi; destruct (Nat.leb_spec l i); [lia | easy]). rewrite Rplus_0_l.
  apply Rsum_ext. intros i Hi. destruct (Nat.leb_spec l (l + i)); [easy | lia].
Qed.
Lemma Rsum_head N l f : (l <= N)%nat -> Rsum l f = Rsum N (fun p => if Nat.ltb p l then f p else 0).
Proof.
  intros H. replace N with (l + (N - l))%nat at 1 by lia. rewrite Rsum_split.
  rewrite (Rsum_0 (N - l)) by (intros i Hi; destruct (Nat.ltb_spec (l + i) l); [lia | easy]). rewrite Rplus_0_r.
  apply Rsum_ext. intros i Hi. destruct (Nat.ltb_spec i l); [easy | lia].
Qed.

(** The expected number of blocks that contain a given element is one. *)
Definition b2R (b : bool) : R := if b then 1 else 0.
Lemma cover N (K : nat -> nat -> R) (A B : nat -> R) i :
  (forall u, (u < N)%nat -> B u = Rsum N (fun l => K l u * B (S l))) ->
  (forall l, (l < N)%nat -> A (S l) = Rsum N (fun u => K l u * A u)) ->
  (forall l u, (l < u)%nat -> K l u = 0) ->
  (i < N)%nat -> A 0%nat = 1 ->
  Rsum N (fun l => Rsum N (fun u => b2R (Nat.leb u i && Nat.leb i l) * (K l u * A u * B (S l)))) = B 0%nat.
Proof.
  intros HB HA HK Hi HA0. set (D := fun u => b2R (Nat.leb u i) * A u).
  pose proof (dual N K B D HB) as Q. assert (HDN : D N = 0) by (unfold D, b2R; destruct (Nat.leb_spec N i); [lia | ring]).
  assert (HD0 : D 0%nat = 1) by (unfold D, b2R; cbn; rewrite HA0; ring). rewrite HDN, HD0 in Q.
  replace (B 0%nat) with (- (0 * B N - 1 * B 0%nat)) by ring. rewrite <- Q, <- Rsum_opp. apply Rsum_ext. intros l Hl.
  rewrite (Rsum_scal_r N (B (S l)) (fun u => b2R (Nat.leb u i && Nat.leb i l) * (K l u * A u))) || idtac.
  rewrite (Rsum_ext N _ (fun u => b2R (Nat.leb i l) * (K l u * D u) * B (S l))).
  2:{ intros u Hu. unfold D, b2R. destruct (Nat.leb u i), (Nat.leb i l); cbn; ring. }
  rewrite Rsum_scal_r, Rsum_scal.
  destruct (Nat.leb_spec i l) as [H|H].
  - assert (D (S l) = 0) as -> by (unfold D, b2R; destruct (Nat.leb_spec (S l) i); [lia | ring]). cbn [b2R]. ring.
  - cbn [b2R]. rewrite (Rsum_ext N (fun u => K l u * D u) (fun u => K l u * A u)).
    + rewrite <- HA by easy. unfold D, b2R. destruct (Nat.leb_spec (S l) i); [ring | lia].
    + intros u Hu. unfold D, b2R. destruct (Nat.leb_spec u i); [ring|]. rewrite (HK l u) by lia. ring.
Qed.

(** ** The weights *)
Section Weights.
Variable x : expot.
Variable E : nat -> nat -> R.
Hypothesis Hb : 0 < betaP x.
Hypothesis HN : (1 <= nbosons x)%nat.
Definition Aw (u : nat) : R := exp (- betaP x * prefix_V x E u).
Definition Bw (l : nat) : R := exp (- betaP x * suffix_V x E l).
Definition Kw (l u : nat) : R := if Nat.leb u l then exp (- betaP x * E u l) / INR (S l) else 0.
Lemma Kw_up l u : (l < u)%nat -> Kw l u = 0.
Proof. intros H. unfold Kw. destruct (Nat.leb_spec u l); [lia | easy]. Qed.
Lemma Kw_nonneg l u : 0 <= Kw l u.
Proof. unfold Kw. destruct (Nat.leb u l); [|lra]. apply Rlt_le, Rdiv_lt_0_compat; [apply exp_pos | apply lt_0_INR; lia]. Qed.
Lemma Aw_pos u : 0 < Aw u. Proof. apply exp_pos. Qed.
Lemma Bw_pos u : 0 < Bw u. Proof. apply exp_pos. Qed.
Lemma Aw_0 : Aw 0%nat = 1.
Proof. unfold Aw. rewrite prefix_0, Rmult_0_r. apply exp_0. Qed.
Lemma Aw_rec l : (l < nbosons x)%nat -> Aw (S l) = Rsum (nbosons x) (fun u => Kw l u * Aw u).
Proof.
  intros Hl. unfold Aw at 1. rewrite prefix_weight by (try easy; lia). replace (S l - 1)%nat with l by lia.
  unfold Rdiv. rewrite <- Rsum_scal_r. rewrite (Rsum_head (nbosons x) (S l)) by lia. apply Rsum_ext. intros u Hu.
  unfold Kw. change (Nat.ltb u (S l)) with (Nat.leb u l). destruct (Nat.leb u l); [| ring]. unfold Aw, Rdiv. ring.
Qed.
Lemma Bw_N : Bw (nbosons x) = 1.
Proof. unfold Bw. rewrite suffix_last. destruct (Nat.eqb_spec (nbosons x) 0); [lia|]. rewrite Rmult_0_r. apply exp_0. Qed.
Lemma Bw_rec_pos u : (1 <= u < nbosons x)%nat -> Bw u = Rsum (nbosons x) (fun l => Kw l u * Bw (S l)).
Proof.
  intros Hu. unfold Bw at 1. rewrite suffix_weight by (try easy; lia).
  rewrite (Rsum_tail (nbosons x) u (fun p => exp (- betaP x * E u p) / INR (p + 1) * exp (- betaP x * suffix_V x E (p + 1)))) by lia.
  apply Rsum_ext. intros l Hl. unfold Kw, Bw. rewrite Nat.add_1_r. destruct (Nat.leb u l); ring.
Qed.
Lemma Bw_0 : Bw 0%nat = Aw (nbosons x).
Proof. unfold Bw, suffix_V. now rewrite set1_same. Qed.
Lemma Bw_rec u : (u < nbosons x)%nat -> Bw u = Rsum (nbosons x) (fun l => Kw l u * Bw (S l)).
Proof.
  intros Hu. destruct u as [|u]; [| apply Bw_rec_pos; lia].
  set (B' := set1 Bw 0 (Rsum (nbosons x) (fun l => Kw l 0%nat * Bw (S l)))).
  assert (HS : forall l, B' (S l) = Bw (S l)) by (intros; unfold B'; now apply set1_other).
  assert (HB : forall u, (u < nbosons x)%nat -> B' u = Rsum (nbosons x) (fun l => Kw l u * B' (S l))).
  { intros u Hu'. rewrite (Rsum_ext _ _ (fun l => Kw l u * Bw (S l))) by (intros; now rewrite HS).
    destruct u as [|u]; [unfold B'; apply set1_same |]. rewrite HS. apply Bw_rec_pos. lia. }
  pose proof (dual _ _ _ Aw HB) as Q.
  rewrite Rsum_0 in Q by (intros l Hl; rewrite <- Aw_rec by easy; ring).
  assert (B' (nbosons x) = 1) as HBN by (unfold B'; rewrite set1_other by lia; apply Bw_N). rewrite HBN, Aw_0 in Q.
  rewrite Bw_0. unfold B' in Q. rewrite set1_same in Q. lra.
Qed.
(** Probability that the bosons u, ..., l form a cycle. *)
Definition Pw (l u : nat) : R := Aw u * Kw l u * Bw (S l) / Aw (nbosons x).
Lemma Pw_nonneg l u : 0 <= Pw l u.
Proof.
  unfold Pw. apply Rmult_le_pos; [apply Rmult_le_pos; [apply Rmult_le_pos; [left; apply Aw_pos | apply Kw_nonneg] | left; apply Bw_pos] |].
  left. apply Rinv_0_lt_compat, Aw_pos.
Qed.
Lemma Pw_row l : (l < nbosons x)%nat -> Rsum (nbosons x) (Pw l) = Aw (S l) * Bw (S l) / Aw (nbosons x).
Proof.
  intros Hl. rewrite Aw_rec by easy. unfold Rdiv. rewrite Rmult_assoc, <- Rsum_scal_r. apply Rsum_ext. intros u Hu. unfold Pw, Rdiv. ring.
Qed.
Lemma Pw_col u : (u < nbosons x)%nat -> Rsum (nbosons x) (fun l => Pw l u) = Aw u * Bw u / Aw (nbosons x).
Proof.
  intros Hu. rewrite (Bw_rec u Hu). unfold Rdiv. rewrite Rmult_assoc, <- Rsum_scal_r, <- Rsum_scal. apply Rsum_ext. intros l Hl. unfold Pw, Rdiv. ring.
Qed.
Lemma Pw_cover i : (i < nbosons x)%nat -> Rsum (nbosons x) (fun l => Rsum (nbosons x) (fun u => b2R (Nat.leb u i && Nat.leb i l) * Pw l u)) = 1.
Proof.
  intros Hi. pose proof (cover (nbosons x) Kw Aw Bw i Bw_rec Aw_rec Kw_up Hi Aw_0) as Q. rewrite Bw_0 in Q.
  replace 1 with (Aw (nbosons x) / Aw (nbosons x)) by (field; apply Rgt_not_eq, Aw_pos). rewrite <- Q at 1.
  unfold Rdiv. rewrite <- Rsum_scal_r. apply Rsum_ext. intros l Hl. rewrite <- Rsum_scal_r. apply Rsum_ext. intros u Hu. unfold Pw, Rdiv. ring.
Qed.
Lemma Pw_row_le1 l : (l < nbosons x)%nat -> Aw (S l) * Bw (S l) / Aw (nbosons x) <= 1.
Proof.
  intros Hl. rewrite <- Pw_row by easy. rewrite <- (Pw_cover l Hl).
  eapply Rle_trans; [| apply (Rsum_ge_term _ (fun l0 => Rsum (nbosons x) (fun u => b2R (Nat.leb u l && Nat.leb l l0) * Pw l0 u)) l Hl)].
  - cbv beta. apply Rsum_le. intros u Hu. rewrite Nat.leb_refl, Bool.andb_true_r. unfold b2R.
    destruct (Nat.leb_spec u l); [lra |]. unfold Pw. rewrite Kw_up by easy. right. unfold Rdiv. ring.
  - intros j Hj. apply Rsum_nonneg. intros u Hu. apply Rmult_le_pos; [unfold b2R; destruct (_ && _)%bool; lra | apply Pw_nonneg].
Qed.
(** The connection probabilities of the code. *)
Lemma conn_low l u : (l < nbosons x)%nat -> (u <= l)%nat -> connection_probs x E l u = Pw l u.
Proof.
  intros Hl Hu. unfold connection_probs, Pw, Kw.
  rewrite (proj2 (Nat.ltb_lt l _) Hl), (proj2 (Nat.ltb_lt u _)) by lia. cbn [andb].
  rewrite (proj2 (Nat.eqb_neq u (l + 1))) by lia. rewrite (proj2 (Nat.leb_le u l) Hu). rewrite Nat.add_1_r.
  unfold Aw, Bw. replace (- betaP x * (prefix_V x E u + E u l + suffix_V x E (S l) - prefix_V x E (nbosons x)))
    with (- betaP x * prefix_V x E u + (- betaP x * E u l + (- betaP x * suffix_V x E (S l) + - (- betaP x * prefix_V x E (nbosons x))))) by ring.
  rewrite !exp_plus, exp_Ropp. field. split; [apply not_0_INR; lia | apply Rgt_not_eq, exp_pos].
Qed.
Lemma conn_next l : (S l < nbosons x)%nat -> connection_probs x E l (S l) = 1 - Aw (S l) * Bw (S l) / Aw (nbosons x).
Proof.
  intros Hl. unfold connection_probs. rewrite (proj2 (Nat.ltb_lt l _)), (proj2 (Nat.ltb_lt (S l) _)) by lia. cbn [andb].
  rewrite Nat.add_1_r, Nat.eqb_refl. unfold Aw, Bw. f_equal.
  replace (- betaP x * (prefix_V x E (S l) + suffix_V x E (S l) - prefix_V x E (nbosons x)))
    with (- betaP x * prefix_V x E (S l) + (- betaP x * suffix_V x E (S l) + - (- betaP x * prefix_V x E (nbosons x)))) by ring.
  rewrite !exp_plus, exp_Ropp. field. apply Rgt_not_eq, exp_pos.
Qed.
Lemma conn_far l u : (l + 1 < u)%nat -> connection_probs x E l u = 0.
Proof.
  intros H. unfold connection_probs. destruct (_ && _)%bool; [|easy].
  rewrite (proj2 (Nat.eqb_neq u (l + 1))) by lia. destruct (Nat.leb_spec u l); [lia | easy].
Qed.
Lemma conn_form l u : (l < nbosons x)%nat -> (u < nbosons x)%nat ->
  connection_probs x E l u = Pw l u + (if Nat.eqb u (S l) then 1 - Aw (S l) * Bw (S l) / Aw (nbosons x) else 0).
Proof.
  intros Hl Hu. destruct (Nat.eqb_spec u (S l)) as [->|n].
  - rewrite conn_next by easy. unfold Pw. rewrite Kw_up by lia. unfold Rdiv. ring.
  - destruct (Nat.leb_spec u l) as [H|H]; [rewrite conn_low by easy; ring |].
    rewrite conn_far by lia. unfold Pw. rewrite Kw_up by lia. unfold Rdiv. ring.
Qed.
Lemma conn_nonneg l u : 0 <= connection_probs x E l u.
Proof.
  destruct (Nat.ltb_spec l (nbosons x)) as [Hl|Hl], (Nat.ltb_spec u (nbosons x)) as [Hu|Hu].
  - rewrite conn_form by easy. pose proof (Pw_nonneg l u). pose proof (Pw_row_le1 l Hl). destruct (Nat.eqb u (S l)); lra.
  - unfold connection_probs. rewrite (proj2 (Nat.ltb_ge u _) Hu), Bool.andb_false_r. lra.
  - unfold connection_probs. rewrite (proj2 (Nat.ltb_ge l _) Hl). cbn. lra.
  - unfold connection_probs. rewrite (proj2 (Nat.ltb_ge l _) Hl). cbn. lra.
Qed.
Lemma conn_row l : (l < nbosons x)%nat -> Rsum (nbosons x) (connection_probs x E l) = 1.
Proof.
  intros Hl. rewrite (Rsum_ext _ _ (fun u => Pw l u + (if Nat.eqb u (S l) then 1 - Aw (S l) * Bw (S l) / Aw (nbosons x) else 0))) by (intros; now apply conn_form).
  rewrite Rsum_plus, Pw_row by easy. destruct (Nat.eq_dec (S l) (nbosons x)) as [e|n].
  - rewrite Rsum_0 by (intros i Hi; destruct (Nat.eqb_spec i (S l)); [lia | easy]). rewrite e, Bw_N. field. apply Rgt_not_eq, Aw_pos.
  - rewrite (Rsum_delta _ (S l)) by (first [lia | intros i Hi Hn; destruct (Nat.eqb_spec i (S l)); [lia | easy]]). rewrite Nat.eqb_refl. ring.
Qed.
Lemma conn_col u : (u < nbosons x)%nat -> Rsum (nbosons x) (fun l => connection_probs x E l u) = 1.
Proof.
  intros Hu. rewrite (Rsum_ext _ _ (fun l => Pw l u + (if Nat.eqb u (S l) then 1 - Aw (S l) * Bw (S l) / Aw (nbosons x) else 0))) by (intros; now apply conn_form).
  rewrite Rsum_plus, Pw_col by easy. destruct u as [|u].
  - rewrite Rsum_0 by easy. rewrite Aw_0, Bw_0. field. apply Rgt_not_eq, Aw_pos.
  - rewrite (Rsum_delta _ u) by (first [lia | intros i Hi Hn; destruct (Nat.eqb_spec (S u) (S i)); [lia | easy]]). rewrite Nat.eqb_refl. ring.
Qed.
(** Sums of cycle quantities: what belongs to every boson counts once, what
    belongs to a link counts with its probability. *)
Definition in_cycle (G : nat -> R) (H : nat -> nat -> R) (u v : nat) : R :=
  Rsum (nbosons x) (fun i => b2R (Nat.leb u i && Nat.leb i v) * G i)
  + Rsum (nbosons x) (fun i => b2R (Nat.leb u i && Nat.ltb i v) * H (S i) i) + H u v.
Lemma strict_cover i : (i < nbosons x)%nat -> Rsum (nbosons x) (fun l => Rsum (nbosons x) (fun u => b2R (Nat.leb u i && Nat.ltb i l) * Pw l u)) = 1 - Aw (S i) * Bw (S i) / Aw (nbosons x).
Proof.
  intros Hi. rewrite <- (Pw_cover i Hi), <- (Pw_row i Hi).
  rewrite (Rsum_ext _ (fun l => Rsum _ (fun u => b2R (Nat.leb u i && Nat.leb i l) * Pw l u))
     (fun l => Rsum (nbosons x) (fun u => b2R (Nat.leb u i && Nat.ltb i l) * Pw l u) + (if Nat.eqb l i then Rsum (nbosons x) (Pw i) else 0))).
  - rewrite Rsum_plus. rewrite (Rsum_delta _ i (fun l => if Nat.eqb l i then _ else _)) by (first [easy | intros j Hj Hn; destruct (Nat.eqb_spec j i); [lia | easy]]).
    rewrite Nat.eqb_refl. ring.
  - intros l Hl. destruct (Nat.eqb_spec l i) as [->|n].
    + rewrite <- Rsum_plus. apply Rsum_ext. intros u Hu. rewrite Nat.leb_refl, Nat.ltb_irrefl, Bool.andb_true_r, Bool.andb_false_r. unfold b2R.
      destruct (Nat.leb_spec u i); [ring|]. unfold Pw. rewrite Kw_up by easy. unfold Rdiv. ring.
    + rewrite Rplus_0_r. apply Rsum_ext. intros u Hu. f_equal. f_equal. f_equal.
      destruct (Nat.leb_spec i l), (Nat.ltb_spec i l); try easy; lia.
Qed.
Lemma expected_cycles G H :
  Rsum (nbosons x) (fun l => Rsum (nbosons x) (fun u => Pw l u * in_cycle G H u l))
  = Rsum (nbosons x) G + Rsum (nbosons x) (fun l => Rsum (nbosons x) (fun u => connection_probs x E l u * H u l)).
Proof.
  set (N := nbosons x).
  assert (Sw : forall (w : nat -> nat -> nat -> R) (F : nat -> R),
     Rsum N (fun l => Rsum N (fun u => Pw l u * Rsum N (fun i => w i u l * F i)))
     = Rsum N (fun i => F i * Rsum N (fun l => Rsum N (fun u => w i u l * Pw l u)))).
  { intros w F. rewrite (Rsum_ext N _ (fun l => Rsum N (fun i => Rsum N (fun u => F i * (w i u l * Pw l u))))).
    - rewrite Rsum_swap. apply Rsum_ext. intros i Hi. rewrite <- Rsum_scal. apply Rsum_ext. intros l Hl. now rewrite Rsum_scal.
    - intros l Hl. rewrite Rsum_swap. apply Rsum_ext. intros u Hu. rewrite <- Rsum_scal. apply Rsum_ext. intros. ring. }
  rewrite (Rsum_ext N _ (fun l =>
      Rsum N (fun u => Pw l u * Rsum N (fun i => b2R (Nat.leb u i && Nat.leb i l) * G i))
    + Rsum N (fun u => Pw l u * Rsum N (fun i => b2R (Nat.leb u i && Nat.ltb i l) * H (S i) i))
    + Rsum N (fun u => Pw l u * H u l))).
  2:{ intros l Hl. rewrite <- !Rsum_plus. apply Rsum_ext. intros u Hu. unfold in_cycle. fold N. ring. }
  rewrite !Rsum_plus.
  rewrite (Sw (fun i u l => b2R (Nat.leb u i && Nat.leb i l)) G).
  rewrite (Sw (fun i u l => b2R (Nat.leb u i && Nat.ltb i l)) (fun i => H (S i) i)).
  rewrite (Rsum_ext N (fun i => G i * _) G) by (intros i Hi; rewrite Pw_cover by easy; ring).
  rewrite Rplus_assoc. f_equal.
  rewrite (Rsum_ext N (fun l => Rsum N (fun u => connection_probs x E l u * H u l))
    (fun l => H (S l) l * (1 - Aw (S l) * Bw (S l) / Aw (nbosons x)) + Rsum N (fun u => Pw l u * H u l))).
  - rewrite Rsum_plus. f_equal. apply Rsum_ext. intros i Hi. f_equal. now apply strict_cover.
  - intros l Hl. rewrite (Rsum_ext N _ (fun u => Pw l u * H u l + (if Nat.eqb u (S l) then (1 - Aw (S l) * Bw (S l) / Aw (nbosons x)) * H (S l) l else 0))).
    2:{ intros u Hu. rewrite conn_form by easy. destruct (Nat.eqb_spec u (S l)) as [->|]; ring. }
    rewrite Rsum_plus, Rplus_comm. f_equal. destruct (Nat.eq_dec (S l) N) as [e|n].
    + rewrite Rsum_0 by (intros i Hi; destruct (Nat.eqb_spec i (S l)); [lia | easy]). fold N. rewrite e.
      unfold N. rewrite Bw_N. field. apply Rgt_not_eq, Aw_pos.
    + rewrite (Rsum_delta _ (S l)) by (first [lia | intros i Hi Hn; destruct (Nat.eqb_spec i (S l)); [lia | easy]]). rewrite Nat.eqb_refl. ring.
Qed.
End Weights.

(** ** Cycle energies *)
Definition cyc_spec (x : expot) (q : config) (u v : nat) : R :=
  spring_pre x * in_cycle x (intra_energy x q) (inter_energy x q) u v.
Lemma Rsum_range_first N u (b : nat -> bool) F : (u < N)%nat -> b u = true ->
  Rsum N (fun i => b2R (Nat.leb u i && b i) * F i) = F u + Rsum N (fun i => b2R (Nat.leb (u + 1) i && b i) * F i).
Proof.
  intros Hu Hbu. replace (F u) with (Rsum N (fun i => if Nat.eqb i u then F u else 0)).
  - rewrite <- Rsum_plus. apply Rsum_ext. intros i Hi. destruct (Nat.eqb_spec i u) as [->|n].
    + rewrite Hbu, Nat.leb_refl. destruct (Nat.leb_spec (u + 1) u); [lia|]. unfold b2R. cbn. ring.
    + assert (Nat.leb u i = Nat.leb (u + 1) i) as -> by (destruct (Nat.leb_spec u i), (Nat.leb_spec (u + 1) i); try easy; lia). ring.
  - rewrite (Rsum_delta N u) by (first [easy | intros j Hj Hn; destruct (Nat.eqb_spec j u); [lia | easy]]). now rewrite Nat.eqb_refl.
Qed.
Lemma in_cycle_step x G H u v : (u < v)%nat -> (v < nbosons x)%nat ->
  in_cycle x G H u v = in_cycle x G H (u + 1) v + (- H (u + 1)%nat v + G u + H (u + 1)%nat u + H u v).
Proof.
  intros Hu Hv. unfold in_cycle.
  rewrite (Rsum_range_first (nbosons x) u (fun i => Nat.leb i v) G) by (try lia; apply Nat.leb_le; lia).
  rewrite (Rsum_range_first (nbosons x) u (fun i => Nat.ltb i v) (fun i => H (S i) i)) by (try lia; apply Nat.ltb_lt; lia).
  rewrite (Nat.add_1_r u). ring.
Qed.
Lemma in_cycle_single x G H u : (u < nbosons x)%nat -> in_cycle x G H u u = G u + H u u.
Proof.
  intros Hu. unfold in_cycle. rewrite (Rsum_delta (nbosons x) u).
  - rewrite Nat.leb_refl. rewrite Rsum_0; [cbn; ring|]. intros i Hi. destruct (Nat.leb_spec u i), (Nat.ltb_spec i u); cbn; try ring; lia.
  - easy.
  - intros i Hi Hn. destruct (Nat.leb_spec u i), (Nat.leb_spec i u); cbn; try ring; lia.
Qed.
Lemma cycle_rows x q k : (k <= nbosons x - 1)%nat -> forall u v, (v < nbosons x)%nat ->
  fold_left (cycle_row x q) (rev (seq (nbosons x - 1 - k) k)) (cycle_diag x q) u v
  = if (Nat.leb (nbosons x - 1 - k) u && Nat.leb u v)%bool then cyc_spec x q u v else cycle_diag x q u v.
Proof.
  induction k as [|k IH]; intros Hk u v Hv.
  - cbn [seq rev fold_left]. destruct (Nat.leb_spec (nbosons x - 1 - 0) u), (Nat.leb_spec u v); cbn [andb]; try easy.
    assert (u = v) as -> by lia. unfold cycle_diag, cyc_spec. rewrite Nat.eqb_refl, (proj2 (Nat.ltb_lt v _) Hv), in_cycle_single by easy. cbn. ring.
  - replace (seq (nbosons x - 1 - S k) (S k)) with ((nbosons x - 1 - S k)%nat :: seq (nbosons x - 1 - k) k).
    2:{ cbn [seq]. f_equal. f_equal. lia. }
    cbn [rev]. rewrite fold_left_app. cbn [fold_left]. unfold cycle_row at 1. set (s := (nbosons x - 1 - S k)%nat).
    specialize (IH ltac:(lia)).
    destruct (Nat.eqb_spec u s) as [->|n].
    + destruct (Nat.leb_spec (s + 1) v) as [H|H]; cbn [andb].
      * rewrite (proj2 (Nat.ltb_lt v _) Hv). rewrite IH by easy. rewrite Nat.leb_refl, (proj2 (Nat.leb_le s v)) by lia. cbn [andb].
        replace (Nat.leb (nbosons x - 1 - k) (s + 1)) with true by (symmetry; apply Nat.leb_le; lia).
        rewrite (proj2 (Nat.leb_le (s + 1) v)) by lia. cbn [andb]. unfold cyc_spec. rewrite (in_cycle_step x _ _ s v) by lia. ring.
      * rewrite IH by easy. replace (Nat.leb (nbosons x - 1 - k) s) with false by (symmetry; apply Nat.leb_gt; lia). cbn [andb].
        rewrite Nat.leb_refl. destruct (Nat.leb_spec s v); cbn [andb]; [|easy]. assert (v = s) as -> by lia.
        unfold cycle_diag, cyc_spec. rewrite Nat.eqb_refl, (proj2 (Nat.ltb_lt s _) Hv), in_cycle_single by easy. cbn. ring.
    + cbn [andb]. rewrite IH by easy. replace (Nat.leb (nbosons x - 1 - k) u) with (Nat.leb s u); [easy|].
      destruct (Nat.leb_spec s u), (Nat.leb_spec (nbosons x - 1 - k) u); try easy; lia.
Qed.
Lemma cycle_form x q u v : (v < nbosons x)%nat ->
  get_cycle_energies x q u v = if Nat.leb u v then cyc_spec x q u v else 0.
Proof.
  intros Hv. unfold get_cycle_energies. pose proof (cycle_rows x q (nbosons x - 1) (le_n _) u v Hv) as Q.
  replace (nbosons x - 1 - (nbosons x - 1))%nat with 0%nat in Q by lia. rewrite Q. cbn [Nat.leb andb].
  destruct (Nat.leb_spec u v); [easy|]. unfold cycle_diag. destruct (Nat.eqb_spec u v); [lia | easy].
Qed.

(** ** Derivatives *)
Section Gradient.
Variable x : expot.
Variable q : R -> config.
Variable d : config.
Variable t0 : R.
Hypothesis Hb : 0 < betaP x.
Hypothesis HN : (1 <= nbosons x)%nat.
Hypothesis Hq : forall j l k, derivable_pt_lim (fun t => q t j l k) t0 (d j l k).
Let E t := get_cycle_energies x (q t).
Definition dG (l : nat) : R := Rsum (nbeads x - 1) (fun j => Rsum 3 (fun k => 2 * intra (q t0) j l k * intra d j l k)).
Definition dH (l m : nat) : R := Rsum 3 (fun k => 2 * inter x (q t0) l m k * inter x d l m k).
Lemma deriv_sq f l : derivable_pt_lim f t0 l -> derivable_pt_lim (fun t => f t ^ 2) t0 (2 * f t0 * l).
Proof.
  intros H. apply (derivable_ext (fun t => f t * f t)); [intros; ring|].
  apply (derivable_eq _ _ (l * f t0 + f t0 * l)); [ring|]. now apply (derivable_pt_lim_mult f f).
Qed.
Lemma deriv_minus f g lf lg : derivable_pt_lim f t0 lf -> derivable_pt_lim g t0 lg -> derivable_pt_lim (fun t => f t - g t) t0 (lf - lg).
Proof. intros Hf Hg. now apply (derivable_pt_lim_minus f g). Qed.
Lemma deriv_plus f g lf lg : derivable_pt_lim f t0 lf -> derivable_pt_lim g t0 lg -> derivable_pt_lim (fun t => f t + g t) t0 (lf + lg).
Proof. intros Hf Hg. now apply (derivable_pt_lim_plus f g). Qed.
Lemma deriv_scal c f lf : derivable_pt_lim f t0 lf -> derivable_pt_lim (fun t => c * f t) t0 (c * lf).
Proof. intros Hf. now apply (derivable_pt_lim_scal f). Qed.
Lemma deriv_intra l : derivable_pt_lim (fun t => intra_energy x (q t) l) t0 (dG l).
Proof.
  unfold intra_energy, dG. apply (derivable_Rsum _ (fun j t => Rsum 3 (fun k => intra (q t) j l k ^ 2))). intros j Hj.
  apply (derivable_Rsum 3 (fun k t => intra (q t) j l k ^ 2)). intros k Hk.
  apply (deriv_sq (fun t => intra (q t) j l k)). unfold intra. now apply deriv_minus.
Qed.
Lemma deriv_inter l m : derivable_pt_lim (fun t => inter_energy x (q t) l m) t0 (dH l m).
Proof.
  unfold inter_energy, dH. apply (derivable_Rsum 3 (fun k t => inter x (q t) l m k ^ 2)). intros k Hk.
  apply (deriv_sq (fun t => inter x (q t) l m k)). unfold inter. now apply deriv_minus.
Qed.
Lemma deriv_cycle u v : (v < nbosons x)%nat -> (u <= v)%nat -> derivable_pt_lim (fun t => E t u v) t0 (spring_pre x * in_cycle x dG dH u v).
Proof.
  intros Hv Hu. apply (derivable_ext (fun t => cyc_spec x (q t) u v)).
  - intros t. unfold E. rewrite cycle_form by easy. now rewrite (proj2 (Nat.leb_le u v) Hu).
  - unfold cyc_spec. apply deriv_scal. unfold in_cycle. apply deriv_plus; [apply deriv_plus |].
    + apply (derivable_Rsum _ (fun i t => b2R (Nat.leb u i && Nat.leb i v) * intra_energy x (q t) i)). intros i Hi. apply deriv_scal, deriv_intra.
    + apply (derivable_Rsum _ (fun i t => b2R (Nat.leb u i && Nat.ltb i v) * inter_energy x (q t) (S i) i)). intros i Hi. apply deriv_scal, deriv_inter.
    + apply deriv_inter.
Qed.
Definition dK (l u : nat) : R := Kw x (E t0) l u * (- betaP x * (spring_pre x * in_cycle x dG dH u l)).
Lemma deriv_Kw l u : (l < nbosons x)%nat -> derivable_pt_lim (fun t => Kw x (E t) l u) t0 (dK l u).
Proof.
  intros Hl. unfold dK, Kw. destruct (Nat.leb_spec u l) as [Hu|Hu].
  - apply (derivable_ext (fun t => / INR (S l) * exp (- betaP x * E t u l))); [intros; unfold Rdiv; ring|].
    eapply derivable_eq; [| apply (deriv_scal (/ INR (S l))); apply (derivable_pt_lim_comp (fun t => - betaP x * E t u l) exp);
       [apply deriv_scal, (deriv_cycle u l Hl Hu) | apply derivable_pt_lim_exp]].
    unfold Rdiv. ring.
  - apply (derivable_eq _ _ 0); [ring|]. apply derivable_pt_lim_const.
Qed.
Lemma deriv_Aw n : (n <= nbosons x)%nat -> exists D : nat -> R,
  (forall m, (m <= n)%nat -> derivable_pt_lim (fun t => Aw x (E t) m) t0 (D m)) /\ D 0%nat = 0 /\
  forall l, (l < n)%nat -> D (S l) = Rsum (nbosons x) (fun u => dK l u * Aw x (E t0) u + Kw x (E t0) l u * D u).
Proof.
  induction n as [|n IH]; intros Hn.
  - exists (fun _ => 0). split; [|split; [easy | intros; lia]]. intros m Hm. assert (m = 0)%nat as -> by lia.
    apply (derivable_ext (fun _ => 1)); [intros; symmetry; apply Aw_0 |]. apply derivable_pt_lim_const.
  - destruct IH as (D & HD & H0 & Hrec); [lia|].
    set (new := Rsum (nbosons x) (fun u => dK n u * Aw x (E t0) u + Kw x (E t0) n u * D u)).
    assert (Hsame : forall l, (l <= n)%nat -> Rsum (nbosons x) (fun u => dK l u * Aw x (E t0) u + Kw x (E t0) l u * set1 D (S n) new u)
       = Rsum (nbosons x) (fun u => dK l u * Aw x (E t0) u + Kw x (E t0) l u * D u)).
    { intros l Hl. apply Rsum_ext. intros u Hu. destruct (Nat.eq_dec u (S n)) as [->|Hne]; [rewrite Kw_up by lia; ring | now rewrite set1_other]. }
    exists (set1 D (S n) new). split; [|split].
    + intros m Hm. destruct (Nat.eq_dec m (S n)) as [->|Hne]; [| rewrite set1_other by easy; apply HD; lia].
      rewrite set1_same. apply (derivable_ext (fun t => Rsum (nbosons x) (fun u => Kw x (E t) n u * Aw x (E t) u))).
      * intros t. symmetry. apply Aw_rec; easy.
      * unfold new. apply (derivable_Rsum _ (fun u t => Kw x (E t) n u * Aw x (E t) u)). intros u Hu.
        destruct (Nat.leb_spec u n) as [Hun|Hun].
        -- apply (derivable_pt_lim_mult (fun t => Kw x (E t) n u) (fun t => Aw x (E t) u)); [apply deriv_Kw; lia | apply HD; lia].
        -- apply (derivable_ext (fun _ => 0)); [intros t; rewrite Kw_up by easy; ring|].
           apply (derivable_eq _ _ 0); [unfold dK; rewrite Kw_up by easy; ring | apply derivable_pt_lim_const].
    + rewrite set1_other by lia. easy.
    + intros l Hl. rewrite Hsame by lia. destruct (Nat.eq_dec l n) as [->|Hne]; [apply set1_same |].
      rewrite set1_other by lia. apply Hrec. lia.
Qed.
Definition dV : R := spring_pre x * (Rsum (nbosons x) dG
   + Rsum (nbosons x) (fun l => Rsum (nbosons x) (fun u => connection_probs x (E t0) l u * dH u l))).
Lemma deriv_vspring : derivable_pt_lim (fun t => get_vspring x (q t)) t0 dV.
Proof.
  destruct (deriv_Aw (nbosons x) (le_n _)) as (D & HD & H0 & Hrec).
  pose proof (dual (nbosons x) (Kw x (E t0)) (Bw x (E t0)) D (Bw_rec x (E t0) Hb HN)) as Q.
  rewrite Bw_N, H0 in Q by easy.
  assert (HDN : D (nbosons x) = - betaP x * Aw x (E t0) (nbosons x) * dV).
  { replace (D (nbosons x)) with (D (nbosons x) * 1 - 0 * Bw x (E t0) 0) by ring. rewrite <- Q. unfold dV.
    rewrite <- (expected_cycles x (E t0) Hb HN dG dH). rewrite <- !Rsum_scal. apply Rsum_ext. intros l Hl.
    rewrite (Hrec l Hl), Rsum_plus. rewrite <- !Rsum_scal.
    match goal with |- (?a + ?b - ?b) * ?c = _ => replace ((a + b - b) * c) with (a * c) by ring end.
    rewrite <- Rsum_scal_r. apply Rsum_ext. intros u Hu. unfold dK, Pw. field. apply Rgt_not_eq, Aw_pos. }
  apply (derivable_ext (fun t => - / betaP x * ln (Aw x (E t) (nbosons x)))).
  - intros t. unfold Aw, get_vspring, E. rewrite ln_exp. field. lra.
  - apply (derivable_eq _ _ (- / betaP x * (/ Aw x (E t0) (nbosons x) * D (nbosons x)))).
    + rewrite HDN. field. split; first [apply Rgt_not_eq, Aw_pos | lra].
    + apply deriv_scal. apply (derivable_pt_lim_comp (fun t => Aw x (E t) (nbosons x)) ln); [now apply HD | apply derivable_pt_lim_ln, Aw_pos].
Qed.
End Gradient.

(** ** Forces *)
Lemma Rsum_parts p (a d : nat -> R) :
  Rsum (S p) (fun j => (if Nat.leb 1 j then a (j - 1)%nat else 0) * d j) - Rsum (S p) (fun j => (if Nat.ltb j p then a j else 0) * d j)
  = Rsum p (fun j => a j * (d (S j) - d j)).
Proof.
  rewrite Rsum_first.
  rewrite (Rsum_ext p (fun i => (if Nat.leb 1 (S i) then a (S i - 1)%nat else 0) * d (S i)) (fun i => a i * d (S i))).
  2:{ intros i Hi. cbn. rewrite Nat.sub_0_r. easy. }
  cbn [Rsum Nat.leb]. rewrite Nat.ltb_irrefl.
  rewrite (Rsum_ext p (fun j => (if Nat.ltb j p then a j else 0) * d j) (fun j => a j * d j)).
  2:{ intros i Hi. now rewrite (proj2 (Nat.ltb_lt i p) Hi). }
  rewrite (Rsum_ext p (fun j => a j * (d (S j) - d j)) (fun j => a j * d (S j) - a j * d j)) by (intros; ring).
  rewrite Rsum_minus. ring.
Qed.
Lemma fspring_row x q j l k : (2 <= nbeads x)%nat -> (j < nbeads x)%nat -> (1 <= nbosons x)%nat -> 0 < betaP x -> (l < nbosons x)%nat ->
  get_fspring x q j l k = force_pre x *
   ((if Nat.leb 1 j then intra q (j - 1)%nat l k else 0) - (if Nat.ltb j (nbeads x - 1) then intra q j l k else 0)
    + (if Nat.eqb j 0 then Rsum (nbosons x) (fun m => inter x q l m k * connection_probs x (get_cycle_energies x q) m l) else 0)
    - (if Nat.eqb j (nbeads x - 1) then Rsum (nbosons x) (fun m => inter x q m l k * connection_probs x (get_cycle_energies x q) l m) else 0)).
Proof.
  intros HP Hj HN Hb Hl. unfold get_fspring, row_set. set (E := get_cycle_energies x q).
  destruct (Nat.eqb_spec j 0) as [->|n0].
  - rewrite (proj2 (Nat.ltb_lt 0 (nbeads x - 1))) by lia. destruct (Nat.eqb_spec 0 (nbeads x - 1)); [lia|]. cbn [Nat.leb].
    rewrite (Rsum_ext _ _ (fun m => force_pre x * (inter x q l m k * connection_probs x E m l) - force_pre x * intra q 0%nat l k * connection_probs x E m l)) by (intros; ring).
    rewrite Rsum_minus, Rsum_scal, Rsum_scal, (conn_col x E) by easy. ring.
  - destruct (Nat.eqb_spec j (nbeads x - 1)) as [->|n1].
    + rewrite (proj2 (Nat.leb_le 1 (nbeads x - 1))), Nat.ltb_irrefl by lia. replace (nbeads x - 1 - 1)%nat with (nbeads x - 2)%nat by lia.
      rewrite (Rsum_ext _ _ (fun m => force_pre x * intra q (nbeads x - 2)%nat l k * connection_probs x E l m - force_pre x * (inter x q m l k * connection_probs x E l m))) by (intros; ring).
      rewrite Rsum_minus, Rsum_scal, Rsum_scal. change (fun i => connection_probs x E l i) with (connection_probs x E l). rewrite (conn_row x E) by easy. ring.
    + rewrite (proj2 (Nat.leb_le 1 j)), (proj2 (Nat.ltb_lt j (nbeads x - 1))) by lia. cbn [andb]. unfold roll.
      replace ((j + (nbeads x - 1 - 1)) mod (nbeads x - 1))%nat with (j - 1)%nat; [ring|].
      replace (j + (nbeads x - 1 - 1))%nat with ((j - 1) + 1 * (nbeads x - 1))%nat by lia. rewrite Nat.mod_add by lia. symmetry. apply Nat.mod_small. lia.
Qed.
(** The work of the forces along any displacement. *)
Lemma force_work x q d : (2 <= nbeads x)%nat -> (1 <= nbosons x)%nat -> 0 < betaP x ->
  Rsum (nbeads x) (fun j => Rsum (nbosons x) (fun l => Rsum 3 (fun k => get_fspring x q j l k * d j l k)))
  = - (spring_pre x * (Rsum (nbosons x) (fun l => Rsum (nbeads x - 1) (fun j => Rsum 3 (fun k => 2 * intra q j l k * intra d j l k)))
     + Rsum (nbosons x) (fun l => Rsum (nbosons x) (fun u => connection_probs x (get_cycle_energies x q) l u * Rsum 3 (fun k => 2 * inter x q u l k * inter x d u l k))))).
Proof.
  intros HP HN Hb. set (c := connection_probs x (get_cycle_energies x q)). set (N := nbosons x). set (P := nbeads x).
  assert (One : forall l k, (l < N)%nat -> Rsum P (fun j => get_fspring x q j l k * d j l k)
    = force_pre x * (Rsum (P - 1) (fun j => intra q j l k * intra d j l k)
       + Rsum N (fun m => inter x q l m k * c m l) * d 0%nat l k - Rsum N (fun m => inter x q m l k * c l m) * d (P - 1)%nat l k)).
  { intros l k Hl. rewrite (Rsum_ext P _ (fun j => force_pre x * (
        ((if Nat.leb 1 j then intra q (j - 1)%nat l k else 0) * d j l k - (if Nat.ltb j (P - 1) then intra q j l k else 0) * d j l k)
        + ((if Nat.eqb j 0 then Rsum N (fun m => inter x q l m k * c m l) else 0) * d j l k
        - (if Nat.eqb j (P - 1) then Rsum N (fun m => inter x q m l k * c l m) else 0) * d j l k)))).
    2:{ intros j Hj. rewrite fspring_row by easy. fold c N P. ring. }
    rewrite Rsum_scal. f_equal. rewrite Rsum_plus, !Rsum_minus.
    pose proof (Rsum_parts (P - 1) (fun j => intra q j l k) (fun j => d j l k)) as Q. cbv beta in Q.
    replace (S (P - 1)) with P in Q by (unfold P; lia). rewrite Q.
    rewrite (Rsum_delta P 0 (fun i => (if Nat.eqb i 0 then _ else 0) * _)).
    2:{ unfold P; lia. }
    2:{ intros i Hi Hn. destruct (Nat.eqb_spec i 0); [lia | ring]. }
    rewrite (Rsum_delta P (P - 1) (fun i => (if Nat.eqb i (P - 1) then _ else 0) * _)).
    2:{ unfold P; lia. }
    2:{ intros i Hi Hn. destruct (Nat.eqb_spec i (P - 1)); [lia | ring]. }
    rewrite !Nat.eqb_refl. unfold intra at 3. ring. }
  assert (S1 : Rsum P (fun j => Rsum N (fun l => Rsum 3 (fun k => get_fspring x q j l k * d j l k)))
    = Rsum N (fun l => Rsum 3 (fun k => Rsum P (fun j => get_fspring x q j l k * d j l k)))).
  { rewrite Rsum_swap. apply Rsum_ext. intros l Hl. rewrite Rsum_swap. easy. }
  rewrite S1. clear S1.
  rewrite (Rsum_ext N _ (fun l => Rsum 3 (fun k => force_pre x * Rsum (P - 1) (fun j => intra q j l k * intra d j l k))
     + (Rsum 3 (fun k => force_pre x * (Rsum N (fun m => inter x q l m k * c m l) * d 0%nat l k))
     - Rsum 3 (fun k => force_pre x * (Rsum N (fun m => inter x q m l k * c l m) * d (P - 1)%nat l k))))).
  2:{ intros l Hl. rewrite <- Rsum_minus, <- Rsum_plus. apply Rsum_ext. intros k Hk. rewrite One by easy. ring. }
  rewrite Rsum_plus, Rsum_minus.
  assert (Hf : force_pre x = - (spring_pre x * 2)) by (unfold force_pre, spring_pre; field).
  rewrite Rmult_plus_distr_l, Ropp_plus_distr. f_equal.
  - rewrite <- Rsum_scal, <- Rsum_opp. apply Rsum_ext. intros l Hl.
    rewrite (Rsum_swap (P - 1) 3). rewrite <- Rsum_scal, <- Rsum_opp. apply Rsum_ext. intros k Hk. rewrite Hf, <- !Rsum_scal, <- Rsum_opp. apply Rsum_ext. intros. ring.
  - rewrite (Rsum_ext N (fun i => Rsum 3 (fun k => force_pre x * (Rsum N (fun m => inter x q i m k * c m i) * d 0%nat i k)))
       (fun u => Rsum N (fun l => Rsum 3 (fun k => force_pre x * (inter x q u l k * c l u) * d 0%nat u k)))).
    2:{ intros u Hu. rewrite (Rsum_swap N 3). apply Rsum_ext. intros k Hk. rewrite <- Rsum_scal_r, <- Rsum_scal. apply Rsum_ext. intros. ring. }
    rewrite (Rsum_swap N N).
    rewrite <- Rsum_minus, <- Rsum_scal, <- Rsum_opp. apply Rsum_ext. intros l Hl.
    rewrite (Rsum_ext 3 (fun k => force_pre x * (Rsum N (fun m => inter x q m l k * c l m) * d (P - 1)%nat l k))
      (fun k => Rsum N (fun u => force_pre x * (inter x q u l k * c l u) * d (P - 1)%nat l k))).
    2:{ intros k Hk. rewrite <- Rsum_scal_r, <- Rsum_scal. apply Rsum_ext. intros. ring. }
    rewrite (Rsum_swap 3 N), <- Rsum_minus, <- Rsum_scal, <- Rsum_opp. apply Rsum_ext. intros u Hu.
    rewrite <- Rsum_minus, <- !Rsum_scal, <- Rsum_opp. apply Rsum_ext. intros k Hk. rewrite Hf. unfold inter at 4. fold P. ring.
Qed.
