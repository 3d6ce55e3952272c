(** * Pair sums, energies and gradients *)
From Coq Require Import Bool List Reals ZArith Lra Lia Arith.
From Flocq Require Import Core.
From Verif Require Import RSum PairModel.
Import ListNotations.
Open Scope R_scope.

Lemma Rsum_mask n i f : (i <= n)%nat -> Rsum n (fun a => if (a <? i)%nat then f a else 0) = Rsum i f.
Proof.
  intros H. replace n with (i + (n - i))%nat by lia. rewrite Rsum_split.
  rewrite (Rsum_ext i _ f) by (intros a Ha; now rewrite (proj2 (Nat.ltb_lt a i) Ha)).
  rewrite (Rsum_0 (n - i)); [lra|]. intros a Ha. now rewrite (proj2 (Nat.ltb_ge _ _)) by lia.
Qed.

Lemma pair_loop_fst e g n : fst (pair_loop e g n) = Rsum (S n) (fun i => Rsum i (e i)).
Proof.
  induction n as [|n IH]; [cbn; lra|]. change (Rsum (S (S n)) (fun i => Rsum i (e i))) with (Rsum (S n) (fun i => Rsum i (e i)) + Rsum (S n) (e (S n))).
  rewrite <- IH. cbn [pair_loop]. now destruct (pair_loop e g n).
Qed.
Lemma pair_loop_snd e g n a k :
  snd (pair_loop e g n) a k =
  if (a <=? n)%nat then Rsum a (fun j => g a j k) - Rsum (S n) (fun i => if (a <? i)%nat then g i a k else 0) else 0.
Proof.
  induction n as [|n IH].
  - cbn. destruct a; cbn; [lra|easy].
  - cbn [pair_loop]. destruct (pair_loop e g n) as [v f] eqn:E. cbn [snd] in *. unfold row_update. rewrite IH.
    change (Rsum (S (S n)) (fun i => if (a <? i)%nat then g i a k else 0)) with
      (Rsum (S n) (fun i => if (a <? i)%nat then g i a k else 0) + (if (a <? S n)%nat then g (S n) a k else 0)).
    destruct (Nat.eqb_spec a (S n)) as [->|Hn].
    + rewrite (proj2 (Nat.leb_gt (S n) n)) by lia. rewrite Nat.leb_refl, Nat.ltb_irrefl.
      rewrite (Rsum_0 (S n) (fun i => if (S n <? i)%nat then g i (S n) k else 0)); [lra|].
      intros i Hi. now rewrite (proj2 (Nat.ltb_ge (S n) i)) by lia.
    + destruct (Nat.ltb_spec a (S n)) as [Hl|Hl].
      * rewrite (proj2 (Nat.leb_le a n)), (proj2 (Nat.leb_le a (S n))) by lia. lra.
      * rewrite (proj2 (Nat.leb_gt a n)), (proj2 (Nat.leb_gt a (S n))) by lia. lra.
Qed.

(** Work of the forces in a displacement. *)
Lemma pair_work e g n (d : coords) :
  Rsum (S n) (fun a => Rsum 3 (fun k => snd (pair_loop e g n) a k * d a k))
  = Rsum (S n) (fun i => Rsum i (fun j => Rsum 3 (fun k => g i j k * (d i k - d j k)))).
Proof.
  rewrite (Rsum_ext (S n) _ (fun a => Rsum a (fun j => Rsum 3 (fun k => g a j k * d a k))
     - Rsum (S n) (fun i => if (a <? i)%nat then Rsum 3 (fun k => g i a k * d a k) else 0))).
  2:{ intros a Ha. rewrite (Rsum_ext 3 _ (fun k => Rsum a (fun j => g a j k * d a k)
        - Rsum (S n) (fun i => (if (a <? i)%nat then g i a k * d a k else 0)))).
      - rewrite Rsum_minus. f_equal; [apply Rsum_swap|]. rewrite Rsum_swap. apply Rsum_ext. intros i _.
        destruct (a <? i)%nat; [easy|]. now apply Rsum_0.
      - intros k _. rewrite pair_loop_snd, (proj2 (Nat.leb_le a n)) by lia.
        rewrite Rmult_minus_distr_r, <- !Rsum_scal_r. f_equal. apply Rsum_ext. intros i _. destruct (a <? i)%nat; ring. }
  rewrite Rsum_minus, (Rsum_swap (S n) (S n)).
  rewrite (Rsum_ext (S n) (fun j => Rsum (S n) _) (fun i => Rsum i (fun j => Rsum 3 (fun k => g i j k * d j k)))).
  2:{ intros i Hi. apply Rsum_mask. lia. }
  rewrite <- Rsum_minus. apply Rsum_ext. intros i _. rewrite <- Rsum_minus. apply Rsum_ext. intros j _.
  rewrite <- Rsum_minus. apply Rsum_ext. intros; ring.
Qed.

Lemma pair_total_zero e g n k : (k < 3)%nat -> Rsum (S n) (fun a => snd (pair_loop e g n) a k) = 0.
Proof.
  intros Hk. pose proof (pair_work e g n (fun _ c => delta c k)) as H.
  rewrite (Rsum_ext (S n) _ (fun a => snd (pair_loop e g n) a k)) in H by (intros a _; now apply Rsum_delta_r).
  rewrite H. apply Rsum_0. intros i _. apply Rsum_0. intros j _. apply Rsum_0. intros c _. ring.
Qed.

(** With an antisymmetric pair force the loop is the sum over all other atoms. *)
Lemma pair_sum_others e g n a k :
  (forall i j c, g i j c = - g j i c) -> (a <= n)%nat ->
  snd (pair_loop e g n) a k = Rsum (S n) (fun b => if (b =? a)%nat then 0 else g a b k).
Proof.
  intros Hg Ha. rewrite pair_loop_snd, (proj2 (Nat.leb_le a n)) by easy.
  rewrite <- (Rsum_mask (S n) a (fun j => g a j k)) by lia. rewrite <- Rsum_minus. apply Rsum_ext. intros b _.
  destruct (Nat.eqb_spec b a) as [->|Hb]; [rewrite Nat.ltb_irrefl; lra|].
  destruct (Nat.ltb_spec b a); destruct (Nat.ltb_spec a b); try lia; [lra|]. rewrite (Hg a b). lra.
Qed.

(** ** Lennard-Jones *)
Lemma norm2_opp d : norm2 (fun k => - d k) = norm2 d.
Proof. unfold norm2. apply Rsum_ext. intros; ring. Qed.
Lemma lj_g_odd s e d k : lj_g s e (fun k => - d k) k = - lj_g s e d k.
Proof. unfold lj_g. rewrite norm2_opp. ring. Qed.

Lemma derivable_inv_pow (f : R -> R) x l n : f x <> 0 -> derivable_pt_lim f x l ->
  derivable_pt_lim (fun t => (/ f t) ^ n) x (- INR n * (/ f x) ^ (S n) * l).
Proof.
  intros Hx Hf.
  assert (Hi : derivable_pt_lim (fun t => / f t) x (- l / (f x * f x))).
  { apply (derivable_ext (fun t => 1 / f t)); [intros t; unfold Rdiv; ring|].
    eapply derivable_eq; [|apply (derivable_pt_lim_div (fun _ => 1) f x 0 l); [apply derivable_pt_lim_const|exact Hf|exact Hx]].
    unfold Rsqr. field. exact Hx. }
  apply (derivable_ext (comp (fun y => y ^ n) (fun t => / f t))); [easy|].
  eapply derivable_eq; [|apply derivable_pt_lim_comp; [exact Hi | apply derivable_pt_lim_pow]].
  unfold Rdiv. rewrite Rinv_mult. destruct n as [|n]; [cbn; ring|]. cbn [Init.Nat.pred pow]. ring.
Qed.

Lemma derivable_norm2 (d d' : vec) x :
  derivable_pt_lim (fun t => norm2 (fun k => d k + t * d' k)) x (2 * Rsum 3 (fun k => (d k + x * d' k) * d' k)).
Proof.
  unfold norm2. rewrite <- Rsum_scal. apply (derivable_Rsum 3 (fun k t => (d k + t * d' k) * (d k + t * d' k))).
  intros k _. assert (H : derivable_pt_lim (fun t => d k + t * d' k) x (d' k)).
  { eapply derivable_eq; [|apply (derivable_pt_lim_plus (fun _ => d k) (fun t => t * d' k));
      [apply derivable_pt_lim_const | apply (derivable_pt_lim_mult id (fun _ => d' k)); [apply derivable_pt_lim_id | apply derivable_pt_lim_const]]].
    unfold id. ring. }
  eapply derivable_eq; [|apply (derivable_pt_lim_mult _ _ x _ _ H H)]. ring.
Qed.

Lemma lj_pair_gradient eps s2 (d d' : vec) :
  norm2 d <> 0 ->
  derivable_pt_lim (fun t => lj_e s2 (fun k => d k + t * d' k) * (eps * 4)) 0
    (- Rsum 3 (fun k => lj_g (6 * (eps * 4)) s2 d k * d' k)).
Proof.
  intros Hn. set (r := fun t => norm2 (fun k => d k + t * d' k)).
  assert (Hr0 : r 0 = norm2 d) by (unfold r, norm2; apply Rsum_ext; intros; ring).
  assert (Hr : derivable_pt_lim r 0 (2 * Rsum 3 (fun k => d k * d' k))).
  { eapply derivable_eq; [|apply derivable_norm2]. f_equal. apply Rsum_ext. intros; ring. }
  assert (Hz : r 0 <> 0) by now rewrite Hr0.
  pose proof (derivable_inv_pow r 0 _ 6 Hz Hr) as H6. pose proof (derivable_inv_pow r 0 _ 3 Hz Hr) as H3.
  apply (derivable_ext (fun t => mult_real_fct (eps * 4 * s2 ^ 6) (fun t => (/ r t) ^ 6) t
                               - mult_real_fct (eps * 4 * s2 ^ 3) (fun t => (/ r t) ^ 3) t)).
  { intros t. unfold mult_real_fct, lj_e, lj_x6. fold (r t). unfold Rdiv. ring. }
  eapply derivable_eq; [|apply (derivable_pt_lim_minus (mult_real_fct (eps * 4 * s2 ^ 6) (fun t => (/ r t) ^ 6))
       (mult_real_fct (eps * 4 * s2 ^ 3) (fun t => (/ r t) ^ 3))); apply derivable_pt_lim_scal; [exact H6 | exact H3]].
  rewrite Hr0. unfold lj_g, lj_x6.
  rewrite (Rsum_ext 3 (fun k => d k * _ * d' k) (fun k => (6 * (eps * 4) * (2 * ((s2 / norm2 d) ^ 3) ^ 2 - (s2 / norm2 d) ^ 3) / norm2 d) * (d k * d' k))) by (intros; ring).
  rewrite Rsum_scal. set (S := Rsum 3 (fun k => d k * d' k)). cbn [INR]. field. exact Hn.
Qed.

Lemma gradient_sum e g n (q0 : coords) (E : nat -> nat -> R -> R) (d : coords) :
  (forall i j, (j < i <= n)%nat -> derivable_pt_lim (E i j) 0 (- Rsum 3 (fun k => g i j k * (d i k - d j k)))) ->
  derivable_pt_lim (fun t => Rsum (S n) (fun i => Rsum i (fun j => E i j t))) 0
    (- Rsum (S n) (fun a => Rsum 3 (fun k => snd (pair_loop e g n) a k * d a k))).
Proof.
  intros H. rewrite pair_work, <- Rsum_opp.
  apply (derivable_Rsum (S n) (fun i t => Rsum i (fun j => E i j t))). intros i Hi. rewrite <- Rsum_opp.
  apply (derivable_Rsum i (fun j t => E i j t)). intros j Hj. apply H. lia.
Qed.

(** ** Minimum image *)
Lemma rint_opp x : rint (- x) = - rint x.
Proof.
  unfold rint. rewrite <- opp_IZR. f_equal. rewrite Znearest_opp. f_equal.
  unfold Znearest. destruct (Rcompare (x - IZR (Zfloor x)) (/ 2)); try easy.
  rewrite negb_involutive. replace (- (Zfloor x + 1))%Z with (- (Z.succ (Zfloor x)))%Z by lia.
  rewrite Z.even_opp, Z.even_succ, <- Z.negb_even. easy.
Qed.
Lemma rint_ext x y : x = y -> rint x = rint y.
Proof. now intros ->. Qed.
Lemma rint_near x n : Rabs (x - IZR n) < / 2 -> rint x = IZR n.
Proof. intros H. unfold rint. f_equal. now apply Znearest_imp. Qed.
Lemma rint_half x : Rabs (x - rint x) <= / 2.
Proof. unfold rint. apply Znearest_half. Qed.

Lemma mvec_opp m v i : mvec m (fun k => - v k) i = - mvec m v i.
Proof. unfold mvec. rewrite <- Rsum_opp. apply Rsum_ext. intros; ring. Qed.
Lemma mvec_ext m v w i : (forall k, (k < 3)%nat -> v k = w k) -> mvec m v i = mvec m w i.
Proof. intros H. unfold mvec. apply Rsum_ext. intros k Hk. now rewrite H. Qed.
Lemma mvec_minus m v w i : mvec m (fun k => v k - w k) i = mvec m v i - mvec m w i.
Proof. unfold mvec. rewrite <- Rsum_minus. apply Rsum_ext. intros; ring. Qed.

Lemma separation_odd h ih qi qj i :
  vector_separation h ih qj qi i = - vector_separation h ih qi qj i.
Proof.
  unfold vector_separation. rewrite <- mvec_opp. apply mvec_ext. intros k _.
  assert (E : mvec ih (fun c => qj c - qi c) k = - mvec ih (fun c => qi c - qj c) k)
    by (rewrite <- mvec_opp; apply mvec_ext; intros; ring).
  rewrite E, rint_opp. ring.
Qed.

(** [h] and [ih] are inverse to each other. *)
Definition inverse3 (h ih : nat -> nat -> R) : Prop :=
  forall i j, (i < 3)%nat -> (j < 3)%nat -> Rsum 3 (fun k => h i k * ih k j) = delta i j.
Lemma mvec_inverse h ih v i : inverse3 h ih -> (i < 3)%nat -> mvec h (mvec ih v) i = v i.
Proof.
  intros H Hi. unfold mvec. rewrite (Rsum_ext 3 _ (fun k => Rsum 3 (fun c => v c * (h i k * ih k c)))).
  2:{ intros k _. rewrite <- Rsum_scal. apply Rsum_ext. intros; ring. }
  rewrite Rsum_swap. rewrite <- (Rsum_delta_l 3 i (fun c => v c) Hi). apply Rsum_ext. intros c Hc.
  rewrite Rsum_scal, H by easy. easy.
Qed.

(** No fractional coordinate is half-way between two images. *)
Definition inside (h ih : nat -> nat -> R) (qi qj : vec) : Prop :=
  forall k, (k < 3)%nat -> let s := mvec ih (fun c => qi c - qj c) k in Rabs (s - rint s) < / 2.

Lemma separation_moves h ih qi qj di dj : inverse3 h ih -> inside h ih qi qj ->
  exists eps, 0 < eps /\ forall t, Rabs t < eps -> forall i, (i < 3)%nat ->
    vector_separation h ih (fun c => qi c + t * di c) (fun c => qj c + t * dj c) i
    = vector_separation h ih qi qj i + t * (di i - dj i).
Proof.
  intros Hh Hin.
  set (s := fun k => mvec ih (fun c => qi c - qj c) k). set (s' := fun k => mvec ih (fun c => di c - dj c) k).
  assert (H1 : forall k, (k < 3)%nat -> exists eps, 0 < eps /\ forall t, Rabs t < eps -> rint (s k + t * s' k) = rint (s k)).
  { intros k Hk. specialize (Hin k Hk). cbv zeta in Hin. fold (s k) in Hin.
    set (m := / 2 - Rabs (s k - rint (s k))) in *. assert (Hm : 0 < m) by (unfold m; lra).
    exists (m / (Rabs (s' k) + 1)). pose proof (Rabs_pos (s' k)) as Hp.
    split; [apply Rmult_lt_0_compat; [easy|apply Rinv_0_lt_compat; lra]|].
    intros t Ht. unfold rint at 2. apply rint_near. fold (rint (s k)).
    replace (s k + t * s' k - rint (s k)) with ((s k - rint (s k)) + t * s' k) by ring.
    eapply Rle_lt_trans; [apply Rabs_triang|]. rewrite Rabs_mult.
    assert (Rabs t * Rabs (s' k) < m).
    { apply Rle_lt_trans with (Rabs t * (Rabs (s' k) + 1)); [apply Rmult_le_compat_l; [apply Rabs_pos|lra]|].
      apply Rmult_lt_reg_r with (/ (Rabs (s' k) + 1)); [apply Rinv_0_lt_compat; lra|].
      rewrite Rmult_assoc, Rinv_r, Rmult_1_r by lra. exact Ht. }
    unfold m in *. lra. }
  destruct (H1 0%nat ltac:(lia)) as (e0 & He0 & H0). destruct (H1 1%nat ltac:(lia)) as (e1 & He1 & H1').
  destruct (H1 2%nat ltac:(lia)) as (e2 & He2 & H2).
  exists (Rmin e0 (Rmin e1 e2)). split; [repeat apply Rmin_glb_lt; easy|].
  intros t Ht i Hi. apply Rmin_Rgt in Ht as [Ht0 Ht]. apply Rmin_Rgt in Ht as [Ht1 Ht2].
  unfold vector_separation.
  rewrite (mvec_ext h _ (fun k => (s k + t * s' k) - rint (s k))).
  2:{ intros k Hk. assert (E : mvec ih (fun c => qi c + t * di c - (qj c + t * dj c)) k = s k + t * s' k).
      { unfold s, s', mvec. rewrite <- Rsum_scal, <- Rsum_plus. apply Rsum_ext. intros; ring. }
      rewrite E. f_equal. destruct k as [|[|[|k]]]; [apply H0; easy|apply H1'; easy|apply H2; easy|lia]. }
  fold (s). rewrite (mvec_ext h (fun k => s k + t * s' k - rint (s k)) (fun k => (s k - rint (s k)) - ((- t) * s' k))) by (intros; ring).
  rewrite mvec_minus. fold s.
  assert (E : mvec h (fun k => - t * s' k) i = - t * (di i - dj i)).
  { unfold mvec at 1. rewrite (Rsum_ext 3 _ (fun k => - t * (h i k * s' k))) by (intros; ring). rewrite Rsum_scal. f_equal.
    apply (mvec_inverse h ih (fun c => di c - dj c)); easy. }
  rewrite E. unfold s. ring.
Qed.

Lemma derivable_local f g x l eps : 0 < eps -> (forall t, Rabs (t - x) < eps -> f t = g t) ->
  derivable_pt_lim f x l -> derivable_pt_lim g x l.
Proof.
  intros He H Hf e Hpe. destruct (Hf e Hpe) as [d Hd].
  assert (Hm : 0 < Rmin d eps) by (apply Rmin_glb_lt; [apply cond_pos|easy]).
  exists (mkposreal _ Hm). intros h Hh Hl. cbn in Hl.
  assert (Rabs h < d /\ Rabs h < eps) as [H1 H2] by (split; eapply Rlt_le_trans; try exact Hl; [apply Rmin_l|apply Rmin_r]).
  rewrite <- !H; [now apply Hd| |].
  - replace (x - x) with 0 by ring. rewrite Rabs_R0. easy.
  - now replace (x + h - x) with h by ring.
Qed.

Lemma derivable_sqrt_comp f x l : 0 < f x -> derivable_pt_lim f x l ->
  derivable_pt_lim (fun t => sqrt (f t)) x (l / (2 * sqrt (f x))).
Proof.
  intros Hp Hf. apply (derivable_ext (comp sqrt f)); [easy|].
  eapply derivable_eq; [|apply derivable_pt_lim_comp; [exact Hf | now apply derivable_pt_lim_sqrt]].
  unfold Rdiv. ring.
Qed.

Lemma norm2_nonneg d : 0 <= norm2 d.
Proof. unfold norm2. apply Rsum_nonneg. intros k _. apply Rle_0_sqr. Qed.

Lemma dmd_pair_gradient c p h ih qi qj di dj :
  inverse3 h ih -> inside h ih qi qj -> norm2 (vector_separation h ih qi qj) <> 0 ->
  derivable_pt_lim (fun t => c * sqrt (norm2 (vector_separation h ih (fun k => qi k + t * di k) (fun k => qj k + t * dj k))) * p) 0
   (- Rsum 3 (fun k => vector_separation h ih qi qj k * - (c / sqrt (norm2 (vector_separation h ih qi qj))) * p * (di k - dj k))).
Proof.
  intros Hh Hin Hn. set (d := vector_separation h ih qi qj) in *.
  destruct (separation_moves h ih qi qj di dj Hh Hin) as (eps & He & Hm). fold d in Hm.
  assert (Hpos : 0 < norm2 d) by (pose proof (norm2_nonneg d); lra).
  assert (Hs : 0 < sqrt (norm2 d)) by now apply sqrt_lt_R0.
  set (r := fun t => norm2 (fun k => d k + t * (di k - dj k))).
  assert (Hr0 : r 0 = norm2 d) by (unfold r, norm2; apply Rsum_ext; intros; ring).
  assert (Hr : derivable_pt_lim r 0 (2 * Rsum 3 (fun k => d k * (di k - dj k)))).
  { eapply derivable_eq; [|apply derivable_norm2]. f_equal. apply Rsum_ext. intros; ring. }
  apply (derivable_local (fun t => mult_real_fct (c * p) (fun t => sqrt (r t)) t) _ 0 _ eps He).
  { intros t Ht. rewrite Rminus_0_r in Ht. unfold mult_real_fct, r.
    replace (norm2 (vector_separation h ih (fun k => qi k + t * di k) (fun k => qj k + t * dj k)))
      with (norm2 (fun k => d k + t * (di k - dj k))); [ring|].
    unfold norm2. apply Rsum_ext. intros k Hk. now rewrite !Hm. }
  eapply derivable_eq; [|apply derivable_pt_lim_scal, derivable_sqrt_comp; [now rewrite Hr0|exact Hr]].
  rewrite Hr0.
  rewrite (Rsum_ext 3 (fun k => d k * - (c / sqrt (norm2 d)) * p * (di k - dj k)) (fun k => - (c / sqrt (norm2 d) * p) * (d k * (di k - dj k)))) by (intros; ring).
  rewrite Rsum_scal. field. lra.
Qed.
