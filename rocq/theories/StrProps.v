(** * The string method: theorems of record *)
From Coq Require Import List Arith Lia Reals Lra Psatz Bool String.
From Coquelicot Require Import Coquelicot.
From Verif Require Import RSum StrModel.
Import ListNotations.
Open Scope list_scope.
Open Scope R_scope.

(** ** The natural spline *)
Lemma shoot_next h r a k : fst (shoot h r a (S k)) = snd (shoot h r a k).
Proof. cbn [shoot]. now destruct (shoot h r a k). Qed.
Lemma shoot_eq h r a k : h (S k) <> 0 ->
  h k * fst (shoot h r a k) + 2 * (h k + h (S k)) * fst (shoot h r a (S k)) + h (S k) * fst (shoot h r a (S (S k))) = r (S k).
Proof.
  intros H. rewrite (shoot_next h r a (S k)), shoot_next. cbn [shoot]. destruct (shoot h r a k) as [x y]. cbn [fst snd]. field. exact H.
Qed.
Lemma homogeneous h N : (forall i, (i < N)%nat -> 0 < h i) -> forall k, (k < N)%nat ->
  let u := fun k => fst (shoot h (fun _ => 0) 1 k) in 0 < Rabs (u (S k)) /\ Rabs (u k) <= Rabs (u (S k)).
Proof.
  intros Hh k. induction k as [|k IH]; intros Hk; cbv zeta beta.
  - rewrite shoot_next. cbn [shoot fst snd]. rewrite Rabs_R0, Rabs_R1. lra.
  - cbv zeta beta in IH. destruct (IH ltac:(lia)) as [P L]. pose proof (Hh k ltac:(lia)) as H0. pose proof (Hh (S k) Hk) as H1.
    pose proof (shoot_eq h (fun _ => 0) 1 k ltac:(lra)) as E. cbn beta in E.
    set (x := fst (shoot h (fun _ => 0) 1 k)) in *. set (y := fst (shoot h (fun _ => 0) 1 (S k))) in *. set (z := fst (shoot h (fun _ => 0) 1 (S (S k)))) in *.
    assert (A : h (S k) * Rabs z >= 2 * (h k + h (S k)) * Rabs y - h k * Rabs x).
    { rewrite <- (Rabs_pos_eq (h (S k))) at 1 by lra. rewrite <- Rabs_mult. replace (h (S k) * z) with (- (2 * (h k + h (S k)) * y) - h k * x) by lra.
      replace (2 * (h k + h (S k)) * Rabs y) with (Rabs (- (2 * (h k + h (S k)) * y))).
      2:{ rewrite Rabs_Ropp, Rabs_mult. f_equal. apply Rabs_pos_eq. lra. }
      replace (h k * Rabs x) with (Rabs (h k * x)) by (rewrite Rabs_mult; f_equal; apply Rabs_pos_eq; lra).
      pose proof (Rabs_triang_inv (- (2 * (h k + h (S k)) * y)) (h k * x)). lra. }
    pose proof (Rabs_pos x). split; [|]; nra.
Qed.
(** The equations of the second derivatives. *)
Definition solves (N : nat) (h y X : vec) : Prop := X 0%nat = 0 /\ X N = 0 /\
  forall k, (S k < N)%nat -> h k * X k + 2 * (h k + h (S k)) * X (S k) + h (S k) * X (S (S k)) = 6 * ((y (S (S k)) - y (S k)) / h (S k) - (y (S k) - y k) / h k).
Lemma u_nonzero h N : (0 < N)%nat -> (forall i, (i < N)%nat -> 0 < h i) -> fst (shoot h (fun _ => 0) 1 N) <> 0.
Proof.
  intros HN Hh E. destruct N as [|k]; [lia|]. destruct (homogeneous h (S k) Hh k ltac:(lia)) as [P _]. cbv zeta beta in P. rewrite E, Rabs_R0 in P. lra.
Qed.
Lemma moments_solve h y N : (0 < N)%nat -> (forall i, (i < N)%nat -> 0 < h i) -> solves N h y (moments N h y).
Proof.
  intros HN Hh. pose proof (u_nonzero h N HN Hh) as U. unfold solves, moments. repeat split.
  - cbn [shoot fst]. ring.
  - field. exact U.
  - intros k Hk. pose proof (Hh (S k) Hk) as H1. pose proof (Hh k ltac:(lia)) as H0.
    pose proof (shoot_eq h (fun _ => 0) 1 k ltac:(lra)) as E. pose proof (shoot_eq h (rhs h y) 0 k ltac:(lra)) as E'. cbn beta in E.
    unfold rhs at 4 in E'. replace (S k - 1)%nat with k in E' by lia. rewrite <- E'.
    set (c := fst (shoot h (rhs h y) 0 N) / fst (shoot h (fun _ => 0) 1 N)).
    set (x := fst (shoot h (fun _ => 0) 1 k)) in *. set (z := fst (shoot h (fun _ => 0) 1 (S k))) in *. set (w := fst (shoot h (fun _ => 0) 1 (S (S k)))) in *.
    set (x' := fst (shoot h (rhs h y) 0 k)) in *. set (z' := fst (shoot h (rhs h y) 0 (S k))) in *. set (w' := fst (shoot h (rhs h y) 0 (S (S k)))) in *.
    transitivity (h k * x' + 2 * (h k + h (S k)) * z' + h (S k) * w' - c * (h k * x + 2 * (h k + h (S k)) * z + h (S k) * w)); [ring|].
    rewrite E. ring.
Qed.
Lemma moments_unique h y N X : (0 < N)%nat -> (forall i, (i < N)%nat -> 0 < h i) -> solves N h y X -> forall i, (i <= N)%nat -> moments N h y i = X i.
Proof.
  intros HN Hh [X0 [XN XE]]. destruct (moments_solve h y N HN Hh) as [M0 [MN ME]]. set (M := moments N h y) in *.
  set (u := fun k => fst (shoot h (fun _ => 0) 1 k)). set (D := fun k => M k - X k).
  assert (A : forall k, (k < N)%nat -> D k = D 1%nat * u k /\ D (S k) = D 1%nat * u (S k)).
  { induction k as [|k IH]; intros Hk.
    - unfold u. rewrite shoot_next. cbn [shoot fst snd]. split; [unfold D; rewrite M0, X0; ring|ring].
    - destruct (IH ltac:(lia)) as [A B]. split; [exact B|]. pose proof (Hh (S k) Hk) as H1.
      pose proof (shoot_eq h (fun _ => 0) 1 k ltac:(lra)) as E. cbn beta in E. fold (u k) (u (S k)) (u (S (S k))) in E.
      pose proof (ME k Hk) as E1. pose proof (XE k Hk) as E2.
      assert (E3 : h k * D k + 2 * (h k + h (S k)) * D (S k) + h (S k) * D (S (S k)) = 0) by (unfold D; lra).
      rewrite A, B in E3. apply (Rmult_eq_reg_l (h (S k))); [|lra].
      transitivity (- (D 1%nat * (h k * u k + 2 * (h k + h (S k)) * u (S k)))); [lra|].
      replace (h k * u k + 2 * (h k + h (S k)) * u (S k)) with (- (h (S k) * u (S (S k)))) by lra. ring. }
  assert (Z : D 1%nat = 0).
  { destruct N as [|k]; [lia|]. destruct (A k ltac:(lia)) as [_ B]. unfold D at 1 in B. rewrite MN, XN in B.
    pose proof (u_nonzero h (S k) HN Hh) as U. fold (u (S k)) in U. symmetry in B. replace (0 - 0) with 0 in B by ring.
    apply Rmult_integral in B. now destruct B. }
  intros i Hi. destruct i as [|i]; [rewrite M0, X0; reflexivity|]. destruct (A i ltac:(lia)) as [_ B]. rewrite Z in B. unfold D in B. lra.
Qed.

Definition increasing (N : nat) (t : vec) : Prop := forall i, (i < N)%nat -> t i < t (S i).
Lemma increasing_lt N t : increasing N t -> forall i j, (i < j)%nat -> (j <= N)%nat -> t i < t j.
Proof. intros H i j L. induction L as [|j L IH]; intros Hj; [apply H; lia|]. eapply Rlt_trans; [apply IH; lia|apply H; lia]. Qed.
Lemma locate_at N t s i : increasing N t -> (i < N)%nat -> t i <= s -> (s < t (S i) \/ S i = N) -> locate t s N = i.
Proof.
  intros H. assert (G : forall K, (K <= N)%nat -> (i < K)%nat -> t i <= s -> (s < t (S i) \/ S i = K) -> locate t s K = i).
  { induction K as [|K IH]; intros HK Hi L U; [lia|]. cbn [locate]. destruct (Rle_dec (t K) s) as [A|A].
    - destruct (Nat.eq_dec i K) as [->|D]; [reflexivity|]. exfalso. destruct U as [U|U]; [|lia].
      assert (t (S i) <= t K). { destruct (Nat.eq_dec (S i) K) as [->|D2]; [lra|]. left. apply (increasing_lt N t H); lia. } lra.
    - assert (i <> K) by (intros ->; contradiction). apply IH; try lia; [exact L|]. destruct U as [U|U]; [now left|lia]. }
  intros Hi L U. apply G; auto.
Qed.
Lemma piece_left t y M i : steps t i <> 0 -> piece t y M i (t i) = y i.
Proof. unfold piece, steps. intros H. field. exact H. Qed.
Lemma piece_right t y M i : steps t i <> 0 -> piece t y M i (t (S i)) = y (S i).
Proof. unfold piece, steps. intros H. field. exact H. Qed.
(** The model of scipy's spline is the natural cubic spline: cubic polynomials through the points, with
    continuous first and second derivatives, and no curvature at the ends; nothing else is. *)
Theorem spline_natural N t y : (0 < N)%nat -> increasing N t ->
  let M := moments N (steps t) y in
  (forall i, (i <= N)%nat -> spline N t y (t i) = y i) /\
  (forall i s, (i < N)%nat -> t i <= s <= t (S i) -> spline N t y s = piece t y M i s) /\
  (forall i s, (i < N)%nat -> is_derive (piece t y M i) s (dpiece t y M i s) /\
     is_derive (dpiece t y M i) s ((M i * (t (S i) - s) + M (S i) * (s - t i)) / (t (S i) - t i))) /\
  (forall i, (S i < N)%nat -> dpiece t y M i (t (S i)) = dpiece t y M (S i) (t (S i))) /\
  M 0%nat = 0 /\ M N = 0 /\ (forall X, solves N (steps t) y X -> forall i, (i <= N)%nat -> X i = M i).
Proof.
  intros HN H M. assert (Hh : forall i, (i < N)%nat -> 0 < steps t i) by (intros i Hi; unfold steps; specialize (H i Hi); lra).
  destruct (moments_solve (steps t) y N HN Hh) as [M0 [MN ME]]. fold M in M0, MN, ME.
  assert (P : forall i s, (i < N)%nat -> t i <= s <= t (S i) -> spline N t y s = piece t y M i s).
  { intros i s Hi [A B]. unfold spline. fold M. destruct (Req_dec s (t (S i))) as [->|D].
    - destruct (Nat.eq_dec (S i) N) as [E|E].
      + now rewrite (locate_at N t _ i H Hi A (or_intror E)).
      + rewrite (locate_at N t (t (S i)) (S i) H ltac:(lia) ltac:(lra)) by (left; apply H; lia).
        rewrite piece_left, piece_right; [reflexivity| |]; apply Rgt_not_eq, Hh; lia.
    - rewrite (locate_at N t s i H Hi A); [reflexivity|]. left. lra. }
  repeat apply conj.
  - intros i Hi. destruct i as [|i].
    + rewrite (P 0%nat) by (try lia; specialize (H 0%nat HN); lra). apply piece_left. apply Rgt_not_eq, Hh. lia.
    + rewrite (P i) by (try lia; specialize (H i ltac:(lia)); lra). apply piece_right. apply Rgt_not_eq, Hh. lia.
  - exact P.
  - intros i s Hi. pose proof (Hh i Hi) as G. unfold steps in G. unfold piece, dpiece, steps. split; auto_derive; trivial; field; lra.
  - intros i Hi. specialize (ME i Hi). pose proof (Hh i ltac:(lia)) as G. pose proof (Hh (S i) Hi) as G'. unfold dpiece.
    fold (steps t i). fold (steps t (S i)). set (h := steps t i) in *. set (h' := steps t (S i)) in *.
    replace (t (S i) - t (S i)) with 0 by ring. fold (steps t i). fold (steps t (S i)).
    change (t (S (S i)) - t (S i)) with (steps t (S i)). change (t (S i) - t i) with (steps t i). fold h h'.
    apply (Rmult_eq_reg_l 6); [|lra].
    replace ((y (S (S i)) - y (S i)) / h') with ((h * M i + 2 * (h + h') * M (S i) + h' * M (S (S i))) / 6 + (y (S i) - y i) / h) by lra.
    field. lra.
  - exact M0.
  - exact MN.
  - intros X HX i Hi. symmetry. apply (moments_unique (steps t) y N X HN Hh HX i Hi).
Qed.
Print Assumptions spline_natural.

(** ** Resampling *)
Lemma dot_nonneg dof a : 0 <= dot dof a a.
Proof. apply Rsum_nonneg. intros i _. nra. Qed.
Lemma dist_nonneg dof q i : 0 <= dist dof q i.
Proof. apply sqrt_pos. Qed.
Lemma apart_pos dof n q : apart dof n q = true <-> forall i, (i < n - 1)%nat -> 0 < dist dof q i.
Proof.
  unfold apart. rewrite forallb_forall. split.
  - intros H i Hi. specialize (H i (proj2 (in_seq (n - 1) 0 i) ltac:(lia))). pose proof (dist_nonneg dof q i). destruct (Req_EM_T (dist dof q i) 0); [discriminate|lra].
  - intros H i Hi. apply in_seq in Hi. specialize (H i ltac:(lia)). destruct (Req_EM_T (dist dof q i) 0); [lra|reflexivity].
Qed.
Lemma total_pos dof n q : (2 <= n)%nat -> apart dof n q = true -> 0 < Rsum (n - 1) (dist dof q).
Proof.
  intros Hn H. rewrite apart_pos in H. replace (n - 1)%nat with (S (n - 2)) in * by lia. cbn [Rsum].
  pose proof (H (n - 2)%nat ltac:(lia)). pose proof (Rsum_nonneg (n - 2) (dist dof q) ltac:(intros; apply dist_nonneg)). lra.
Qed.
Lemma param_increasing dof n q : (2 <= n)%nat -> apart dof n q = true -> increasing (n - 1) (param dof n q).
Proof.
  intros Hn H i Hi. pose proof (total_pos dof n q Hn H) as T. unfold param. apply Rmult_lt_compat_r; [now apply Rinv_0_lt_compat|].
  cbn [Rsum]. pose proof (proj1 (apart_pos dof n q) H i Hi). lra.
Qed.
Lemma param_ends dof n q : (2 <= n)%nat -> apart dof n q = true -> param dof n q 0%nat = 0 /\ param dof n q (n - 1)%nat = 1.
Proof. intros Hn H. pose proof (total_pos dof n q Hn H). unfold param. cbn [Rsum]. split; field; lra. Qed.
Lemma resample_some dof n q q' : spline_resample dof n q = Some q' -> (3 <= n)%nat /\ apart dof n q = true /\
  q' = fun b c => spline (n - 1) (param dof n q) (fun i => q i c) (INR b / INR (n - 1)).
Proof.
  unfold spline_resample. destruct (n <=? 2)%nat eqn:E; [discriminate|]. apply Nat.leb_gt in E. destruct (apart dof n q); [|discriminate].
  cbn [negb]. intros [= <-]. repeat split. lia.
Qed.
Lemma dist_pos dof q i : 0 < dist dof q i <-> exists c, (c < dof)%nat /\ q (S i) c <> q i c.
Proof.
  unfold dist, npnorm. set (v := fun c => q (S i) c - q i c). split.
  - intros H. assert (P : 0 < dot dof v v). { destruct (dot_nonneg dof v) as [L|L]; [exact L|]. rewrite <- L, sqrt_0 in H. lra. }
    clear H. unfold dot in P. induction dof as [|k IH]; [cbn in P; lra|]. cbn [Rsum] in P. destruct (Req_EM_T (v k) 0) as [E|E].
    + rewrite E in P. destruct IH as [c [Hc D]]; [lra|]. exists c. split; [lia|exact D].
    + exists k. split; [lia|]. unfold v in E. lra.
  - intros [c [Hc D]]. apply sqrt_lt_R0. destruct (dot_nonneg dof v) as [L|L]; [exact L|]. exfalso.
    pose proof (Rsum_eq0 dof (fun c => v c * v c) ltac:(intros j _; cbn beta; nra) (eq_sym L) c Hc) as Z. cbn beta in Z. unfold v in Z. apply D. nra.
Qed.
(** The tool goes on exactly with three beads or more of which no two neighbours coincide; the end
    points do not move. *)
Theorem resample_ends dof n q :
  (spline_resample dof n q <> None <-> (3 <= n)%nat /\ forall i, (i < n - 1)%nat -> exists c, (c < dof)%nat /\ q (S i) c <> q i c) /\
  forall q', spline_resample dof n q = Some q' -> forall c, q' 0%nat c = q 0%nat c /\ q' (n - 1)%nat c = q (n - 1)%nat c.
Proof.
  split.
  - split.
    + intros H. destruct (spline_resample dof n q) as [q'|] eqn:E; [|now destruct H]. apply resample_some in E. destruct E as [Hn [A _]].
      split; [exact Hn|]. intros i Hi. apply dist_pos. now apply (proj1 (apart_pos dof n q) A).
    + intros [Hn H]. unfold spline_resample. rewrite (proj2 (Nat.leb_gt n 2)) by lia.
      rewrite (proj2 (apart_pos dof n q)); [discriminate|]. intros i Hi. apply dist_pos. now apply H.
  - intros q' H c. apply resample_some in H. destruct H as [Hn [A ->]]. destruct (param_ends dof n q ltac:(lia) A) as [E0 E1].
    pose proof (param_increasing dof n q ltac:(lia) A) as I. destruct (spline_natural (n - 1) (param dof n q) (fun i => q i c) ltac:(lia) I) as [K _].
    pose proof (K 0%nat ltac:(lia)) as K0. pose proof (K (n - 1)%nat ltac:(lia)) as K1. rewrite E0 in K0. rewrite E1 in K1.
    cbn [INR]. replace (0 / INR (n - 1)) with 0 by (unfold Rdiv; ring).
    replace (INR (n - 1) / INR (n - 1)) with 1 by (field; apply not_0_INR; lia). now split.
Qed.
(** A straight path becomes equidistant, and its tangents are its direction. *)
Definition straight (n : nat) (q : mat) (a d lam : vec) : Prop :=
  lam 0%nat = 0 /\ lam (n - 1)%nat = 1 /\ increasing (n - 1) lam /\ forall i c, (i < n)%nat -> q i c = a c + lam i * d c.
Lemma npnorm_scal dof k v : npnorm dof (fun c => k * v c) = Rabs k * npnorm dof v.
Proof.
  unfold npnorm, dot. rewrite (Rsum_ext dof _ (fun c => k ^ 2 * (v c * v c))) by (intros; ring). rewrite Rsum_scal.
  rewrite sqrt_mult_alt by nra. f_equal. rewrite <- (pow2_abs k). apply sqrt_pow2. apply Rabs_pos.
Qed.
Lemma npnorm_ext dof v w : (forall c, (c < dof)%nat -> v c = w c) -> npnorm dof v = npnorm dof w.
Proof. intros H. unfold npnorm, dot. f_equal. apply Rsum_ext. intros c Hc. now rewrite H. Qed.
Lemma straight_dist dof n q a d lam i : straight n q a d lam -> (i < n - 1)%nat -> dist dof q i = (lam (S i) - lam i) * npnorm dof d.
Proof.
  intros [_ [_ [I E]]] Hi. unfold dist. rewrite (npnorm_ext dof _ (fun c => (lam (S i) - lam i) * d c)) by (intros c _; rewrite !E by lia; ring).
  rewrite npnorm_scal, Rabs_pos_eq; [reflexivity|]. specialize (I i Hi). lra.
Qed.
Lemma straight_param dof n q a d lam i : (2 <= n)%nat -> straight n q a d lam -> 0 < npnorm dof d -> (i < n)%nat -> param dof n q i = lam i.
Proof.
  intros Hn St P Hi. assert (G : forall k, (k < n)%nat -> Rsum k (dist dof q) = lam k * npnorm dof d).
  { induction k as [|k IH]; intros Hk; cbn [Rsum]; [destruct St as [-> _]; ring|]. rewrite IH by lia. rewrite (straight_dist dof n q a d lam k St) by lia. ring. }
  unfold param. rewrite !G by lia. destruct St as [_ [-> _]]. field. lra.
Qed.
Lemma straight_apart dof n q a d lam : straight n q a d lam -> 0 < npnorm dof d -> apart dof n q = true.
Proof.
  intros St P. apply apart_pos. intros i Hi. rewrite (straight_dist dof n q a d lam i St Hi). apply Rmult_lt_0_compat; [|exact P].
  destruct St as [_ [_ [I _]]]. specialize (I i Hi). lra.
Qed.
Lemma spline_linear N t y A B s : (0 < N)%nat -> increasing N t -> (forall i, (i <= N)%nat -> y i = A + t i * B) ->
  spline N t y s = A + s * B /\ dspline N t y s = B.
Proof.
  intros HN I E. assert (Hh : forall i, (i < N)%nat -> 0 < steps t i) by (intros i Hi; unfold steps; specialize (I i Hi); lra).
  assert (Z : forall i, (i <= N)%nat -> moments N (steps t) y i = 0).
  { intros i Hi. rewrite (moments_unique (steps t) y N (fun _ => 0) HN Hh); [reflexivity| |exact Hi]. repeat split.
    intros k Hk. pose proof (Hh k ltac:(lia)) as H0. pose proof (Hh (S k) Hk) as H1. rewrite !E by lia. unfold steps in *. field. lra. }
  assert (L : (locate t s N < N)%nat).
  { assert (G : forall K, (0 < K)%nat -> (locate t s K < K)%nat). { induction K as [|K IH]; intros HK; [lia|]. cbn [locate]. destruct (Rle_dec (t K) s); [lia|]. destruct K; [cbn; lia|]. specialize (IH ltac:(lia)). lia. } now apply G. }
  unfold spline, dspline, piece, dpiece. set (i := locate t s N) in *. rewrite !Z by lia. pose proof (Hh i L) as G. rewrite !E by lia.
  unfold steps in *. split; field; lra.
Qed.
Theorem resample_straight dof n q a d lam : (3 <= n)%nat -> straight n q a d lam -> 0 < npnorm dof d ->
  exists q' tg, spline_resample dof n q = Some q' /\ spline_derv dof n q = Some tg /\
    (forall b c, q' b c = a c + INR b / INR (n - 1) * d c) /\ (forall b c, tg b c = d c / npnorm dof d).
Proof.
  intros Hn St P. pose proof (straight_apart dof n q a d lam St P) as A.
  unfold spline_resample, spline_derv. rewrite (proj2 (Nat.leb_gt n 2)) by lia. rewrite A. cbn [negb].
  pose proof (param_increasing dof n q ltac:(lia) A) as I.
  assert (E : forall c s, spline (n - 1) (param dof n q) (fun i => q i c) s = a c + s * d c /\ dspline (n - 1) (param dof n q) (fun i => q i c) s = d c).
  { intros c s. apply spline_linear; [lia|exact I|]. intros i Hi. rewrite (straight_param dof n q a d lam i) by (auto; lia). destruct St as [_ [_ [_ E]]]. now rewrite E by lia. }
  eexists _, _. split; [reflexivity|]. split; [reflexivity|]. split.
  - intros b c. apply E.
  - intros b c. cbv zeta. rewrite (proj2 (E c _)). f_equal. apply npnorm_ext. intros c' _. apply E.
Qed.
Print Assumptions resample_ends.
Print Assumptions resample_straight.
Example straight_case : straight 3 (fun i c => match i with 0%nat => 0 | 1%nat => 1 | _ => 4 end) (fun _ => 0) (fun _ => 4) (fun i => match i with 0%nat => 0 | 1%nat => / 4 | _ => 1 end) /\ 0 < npnorm 2 (fun _ => 4).
Proof.
  split.
  - repeat split.
    + intros i Hi. destruct i as [|[|i]]; cbn; lra || (cbn in Hi; lia).
    + intros i c Hi. destruct i as [|[|i]]; lra.
  - unfold npnorm, dot. cbn [Rsum]. apply sqrt_lt_R0. lra.
Qed.

(** ** Images that are equally far apart: false *)
(** Three images along a line that turns back. *)
Definition turn (i c : nat) : R := match c with O => match i with O => 0 | 1%nat => 1 | _ => 3 / 4 end | _ => 0 end.
Lemma turn_dist : dist 1 turn 0 = 1 /\ dist 1 turn 1 = / 4.
Proof.
  unfold dist, npnorm, dot, turn. cbn [Rsum]. split.
  - replace (0 + (1 - 0) * (1 - 0)) with 1 by ring. apply sqrt_1.
  - replace (0 + (3 / 4 - 1) * (3 / 4 - 1)) with ((/ 4) ^ 2) by field. apply sqrt_pow2. lra.
Qed.
Lemma turn_param : param 1 3 turn 0%nat = 0 /\ param 1 3 turn 1%nat = 4 / 5 /\ param 1 3 turn 2%nat = 1.
Proof. destruct turn_dist as [D0 D1]. unfold param. cbn [Rsum Nat.sub]. rewrite D0, D1. repeat split; field. Qed.
Lemma turn_apart : apart 1 3 turn = true.
Proof. apply apart_pos. intros i Hi. destruct turn_dist as [D0 D1]. destruct i as [|[|i]]; [rewrite D0|rewrite D1|cbn in Hi; lia]; lra. Qed.
Definition turn_at (s : R) : R := spline 2 (param 1 3 turn) (fun i => turn i 0%nat) s.
Lemma turn_moment : moments 2 (steps (param 1 3 turn)) (fun i => turn i 0%nat) 0%nat = 0 /\
  moments 2 (steps (param 1 3 turn)) (fun i => turn i 0%nat) 1%nat = - (15 / 2) /\ moments 2 (steps (param 1 3 turn)) (fun i => turn i 0%nat) 2%nat = 0.
Proof.
  destruct turn_param as [P0 [P1 P2]].
  assert (Hh : forall i, (i < 2)%nat -> 0 < steps (param 1 3 turn) i) by (intros i Hi; unfold steps; destruct i as [|[|i]]; rewrite ?P0, ?P1, ?P2; lra || lia).
  pose proof (moments_unique (steps (param 1 3 turn)) (fun i => turn i 0%nat) 2 (fun i => match i with 1%nat => - (15 / 2) | _ => 0 end) ltac:(lia) Hh) as U.
  assert (V : solves 2 (steps (param 1 3 turn)) (fun i => turn i 0%nat) (fun i => match i with 1%nat => - (15 / 2) | _ => 0 end)).
  { repeat split. intros k Hk. assert (k = 0%nat) by lia. subst k. unfold steps. rewrite P0, P1, P2. cbn [turn]. field. }
  specialize (U V). repeat split; rewrite U by lia; reflexivity.
Qed.
Lemma turn_first s : 0 <= s <= 4 / 5 -> turn_at s = 9 / 4 * s - 25 / 16 * s ^ 3.
Proof.
  intros H. destruct turn_param as [P0 [P1 P2]]. destruct turn_moment as [M0 [M1 M2]].
  destruct (spline_natural 2 (param 1 3 turn) (fun i => turn i 0%nat) ltac:(lia) (param_increasing 1 3 turn ltac:(lia) turn_apart)) as [_ [P _]].
  unfold turn_at. rewrite (P 0%nat s) by (try lia; rewrite P0, P1; exact H). unfold piece. rewrite M0, M1. unfold steps. rewrite P0, P1. cbn [turn]. field.
Qed.
Lemma turn_second s : 4 / 5 <= s <= 1 -> turn_at s = 3 / 4 + 3 / 2 * (1 - s) - 25 / 4 * (1 - s) ^ 3.
Proof.
  intros H. destruct turn_param as [P0 [P1 P2]]. destruct turn_moment as [M0 [M1 M2]].
  destruct (spline_natural 2 (param 1 3 turn) (fun i => turn i 0%nat) ltac:(lia) (param_increasing 1 3 turn ltac:(lia) turn_apart)) as [_ [P _]].
  unfold turn_at. rewrite (P 1%nat s) by (try lia; rewrite P1, P2; exact H). unfold piece. rewrite M1, M2. unfold steps. rewrite P1, P2. cbn [turn]. field.
Qed.
Lemma turn_lipschitz a b : / 2 <= a -> a <= b -> b <= 1 -> Rabs (turn_at b - turn_at a) <= 3 / 2 * (b - a).
Proof.
  assert (A : forall a b, / 2 <= a -> a <= b -> b <= 4 / 5 -> Rabs (turn_at b - turn_at a) <= 3 / 2 * (b - a)).
  { intros x y Hx Hxy Hy. rewrite !turn_first by lra.
    replace (9 / 4 * y - 25 / 16 * y ^ 3 - (9 / 4 * x - 25 / 16 * x ^ 3)) with ((y - x) * (9 / 4 - 25 / 16 * (x * x + x * y + y * y))) by field.
    rewrite Rabs_mult, (Rabs_pos_eq (y - x)) by lra. rewrite Rmult_comm. apply Rmult_le_compat_r; [lra|]. apply Rabs_le. split; nra. }
  assert (B : forall a b, 4 / 5 <= a -> a <= b -> b <= 1 -> Rabs (turn_at b - turn_at a) <= 3 / 2 * (b - a)).
  { intros x y Hx Hxy Hy. rewrite !turn_second by lra. set (u := 1 - x). set (v := 1 - y).
    replace (3 / 4 + 3 / 2 * v - 25 / 4 * v ^ 3 - (3 / 4 + 3 / 2 * u - 25 / 4 * u ^ 3)) with (- ((u - v) * (3 / 2 - 25 / 4 * (u * u + u * v + v * v)))) by field.
    replace (y - x) with (u - v) by (unfold u, v; ring). assert (0 <= v <= u /\ u <= / 5) by (unfold u, v; lra).
    rewrite Rabs_Ropp, Rabs_mult, (Rabs_pos_eq (u - v)) by lra. rewrite Rmult_comm. apply Rmult_le_compat_r; [lra|]. apply Rabs_le. split; nra. }
  intros Ha Hab Hb. destruct (Rle_dec b (4 / 5)) as [L|L]; [apply A; lra|]. destruct (Rle_dec (4 / 5) a) as [G|G]; [apply B; lra|].
  replace (turn_at b - turn_at a) with ((turn_at b - turn_at (4 / 5)) + (turn_at (4 / 5) - turn_at a)) by ring.
  eapply Rle_trans; [apply Rabs_triang|]. pose proof (A a (4 / 5) ltac:(lra) ltac:(lra) ltac:(lra)). pose proof (B (4 / 5) b ltac:(lra) ltac:(lra) ltac:(lra)). lra.
Qed.
Lemma turn_resample : spline_resample 1 3 turn = Some (fun b c => spline 2 (param 1 3 turn) (fun i => turn i c) (INR b / INR 2)).
Proof. unfold spline_resample. cbn [Nat.leb]. now rewrite turn_apart. Qed.
(** The images are equidistant neither in space nor, as the code says, along the spline: the curve
    moves at most by 3/2 (b - a) between the parameters a and b of its second half, whose length is
    so at most 3/4, while the end points of the first half are farther apart. *)
Theorem equidistant_refuted : exists dof n q q', spline_resample dof n q = Some q' /\ dist dof q' 0 <> dist dof q' 1 /\
  exists S c, (forall b, (b < n)%nat -> q' b 0%nat = S (INR b / 2)) /\ (forall s, S s = spline (n - 1) (param dof n q) (fun i => q i 0%nat) s) /\
    (forall a b, / 2 <= a -> a <= b -> b <= 1 -> Rabs (S b - S a) <= c * (b - a)) /\ c * / 2 < Rabs (S (/ 2) - S 0).
Proof.
  exists 1%nat, 3%nat, turn. eexists. split; [exact turn_resample|]. 
  assert (H0 : turn_at 0 = 0) by (rewrite turn_first by lra; ring). assert (H1 : turn_at (/ 2) = 119 / 128) by (rewrite turn_first by lra; field).
  assert (H2 : turn_at 1 = 3 / 4) by (rewrite turn_second by lra; ring). split.
  - unfold dist, npnorm, dot. cbn [Rsum].
    change (fun i => turn i 0%nat) with (fun i => turn i 0%nat). fold (turn_at (INR 1 / INR 2)). fold (turn_at (INR 0 / INR 2)). fold (turn_at (INR 2 / INR 2)).
    replace (INR 1 / INR 2) with (/ 2) by (cbn; field). replace (INR 0 / INR 2) with 0 by (cbn; field). replace (INR 2 / INR 2) with 1 by (cbn; field).
    rewrite H0, H1, H2. intros E. apply sqrt_inj in E; lra.
  - exists turn_at, (3 / 2). repeat split.
    + exact turn_lipschitz.
    + rewrite H0, H1. rewrite Rabs_pos_eq by lra. lra.
Qed.
Print Assumptions equidistant_refuted.

(** ** Forces *)
Lemma dot_comm dof a b : dot dof a b = dot dof b a.
Proof. unfold dot. apply Rsum_ext. intros. ring. Qed.
(** Tangents are unit vectors, unless the derivative vanishes. *)
Theorem tangent_unit dof n q tg b c : spline_derv dof n q = Some tg -> (c < dof)%nat -> tg b c <> 0 -> dot dof (tg b) (tg b) = 1.
Proof.
  unfold spline_derv. destruct (n <=? 2)%nat; [discriminate|]. destruct (negb (apart dof n q)); [discriminate|]. cbv zeta. intros [= <-] Hc Hn.
  set (d := fun c0 => dspline (n - 1) (param dof n q) (fun i => q i c0) (param dof n q b)) in *.
  assert (P : 0 < dot dof d d).
  { destruct (dot_nonneg dof d) as [L|L]; [exact L|]. exfalso. apply Hn.
    pose proof (Rsum_eq0 dof (fun c => d c * d c) ltac:(intros j _; cbn beta; nra) (eq_sym L) c Hc) as Z. cbn beta in Z.
    assert (E : d c = 0) by nra. fold (d c). rewrite E. unfold Rdiv. ring. }
  unfold dot. rewrite (Rsum_ext dof _ (fun c => / (npnorm dof d * npnorm dof d) * (d c * d c))).
  - rewrite Rsum_scal. fold (dot dof d d). unfold npnorm. rewrite sqrt_sqrt by lra. field. lra.
  - intros j _. fold (d j). field. unfold npnorm. pose proof (sqrt_lt_R0 _ P). lra.
Qed.
(** The gradient has no part along the string, and vanishes exactly where the force lies along it. *)
Theorem string_gradient dof tg f b : dot dof (tg b) (tg b) = 1 ->
  dot dof (string_grad dof tg f b) (tg b) = 0 /\
  (forall w, dot dof w (tg b) = 0 -> dot dof (string_grad dof tg f b) w = - dot dof (f b) w) /\
  ((forall c, (c < dof)%nat -> string_grad dof tg f b c = 0) <-> exists k, forall c, (c < dof)%nat -> f b c = k * tg b c).
Proof.
  intros U. unfold string_grad.
  assert (G : forall w, dot dof (fun c => - (f b c - tg b c * dot dof (f b) (tg b))) w = - dot dof (f b) w + dot dof (f b) (tg b) * dot dof (tg b) w).
  { intros w. set (k := dot dof (f b) (tg b)). unfold dot. rewrite <- Rsum_opp, <- Rsum_scal, <- Rsum_plus. apply Rsum_ext. intros. ring. }
  repeat split.
  - rewrite G, U. ring.
  - intros w W. rewrite G, (dot_comm dof (tg b) w), W. ring.
  - intros H. exists (dot dof (f b) (tg b)). intros c Hc. specialize (H c Hc). lra.
  - intros [k Hk] c Hc. assert (E : dot dof (f b) (tg b) = k).
    { unfold dot. rewrite (Rsum_ext dof _ (fun c => k * (tg b c * tg b c))) by (intros j Hj; rewrite Hk by exact Hj; ring). rewrite Rsum_scal. fold (dot dof (tg b) (tg b)). rewrite U. ring. }
    rewrite E, Hk by exact Hc. ring.
Qed.
(** The climbing image feels the force mirrored along the path. *)
Theorem string_climb dof tau f : dot dof tau tau = 1 ->
  dot dof (climb_grad dof tau f) tau = dot dof f tau /\
  (forall w, dot dof w tau = 0 -> dot dof (climb_grad dof tau f) w = - dot dof f w) /\
  dot dof (climb_grad dof tau f) (climb_grad dof tau f) = dot dof f f.
Proof.
  intros U. unfold climb_grad.
  assert (G : forall w, dot dof (fun c => - (f c - 2 * dot dof f tau * tau c)) w = - dot dof f w + 2 * dot dof f tau * dot dof tau w).
  { intros w. set (k := dot dof f tau). unfold dot. rewrite <- Rsum_opp, <- Rsum_scal, <- Rsum_plus. apply Rsum_ext. intros. ring. }
  repeat split.
  - rewrite G, U. ring.
  - intros w W. rewrite G, (dot_comm dof tau w), W. ring.
  - rewrite G. rewrite (dot_comm dof f), (dot_comm dof tau), !G, U, (dot_comm dof tau f). ring.
Qed.
Print Assumptions tangent_unit.
Print Assumptions string_gradient.
Print Assumptions string_climb.
Example gradient_case : let tg := fun (b c : nat) => match c with O => 3 / 5 | _ => 4 / 5 end in
  dot 2 (tg 1%nat) (tg 1%nat) = 1 /\ string_grad 2 tg (fun _ c => match c with O => 1 | _ => 0 end) 1%nat 0%nat = - (16 / 25) /\
  climb_grad 2 (tg 1%nat) (fun c => match c with O => 1 | _ => 0 end) 0%nat = - (7 / 25).
Proof. cbv zeta. unfold string_grad, climb_grad, dot. cbn [Rsum]. repeat split; field. Qed.
(** The direction at the climbing image is a unit vector whenever the three images differ and the path
    does not turn back on itself. *)
Theorem climb_direction dof p x s c : (c < dof)%nat -> climb_tau dof p x s c <> 0 -> dot dof (climb_tau dof p x s) (climb_tau dof p x s) = 1.
Proof.
  unfold climb_tau. cbv zeta. set (v := fun c => (x c - p c) / npnorm dof (fun c => x c - p c) + (s c - x c) / npnorm dof (fun c => s c - x c)).
  change ((c < dof)%nat -> v c / npnorm dof v <> 0 -> dot dof (fun c => v c / npnorm dof v) (fun c => v c / npnorm dof v) = 1). intros Hc Hn.
  assert (P : 0 < dot dof v v).
  { destruct (dot_nonneg dof v) as [L|L]; [exact L|]. exfalso. apply Hn.
    pose proof (Rsum_eq0 dof (fun c => v c * v c) ltac:(intros j _; cbn beta; nra) (eq_sym L) c Hc) as Z. cbn beta in Z.
    assert (E : v c = 0) by nra. rewrite E. unfold Rdiv. ring. }
  unfold dot. rewrite (Rsum_ext dof _ (fun c => / (npnorm dof v * npnorm dof v) * (v c * v c))).
  - rewrite Rsum_scal. fold (dot dof v v). unfold npnorm. rewrite sqrt_sqrt by lra. field. lra.
  - intros j _. field. unfold npnorm. pose proof (sqrt_lt_R0 _ P). lra.
Qed.

(** The energy that the optimisers see is that of the beads that move. *)
Theorem string_energy n pots : (2 <= n)%nat -> string_pot n pots = Rsum n pots - pots 0%nat - pots (n - 1)%nat.
Proof.
  intros Hn. destruct n as [|[|k]]; try lia. unfold string_pot. replace (S (S k) - 2)%nat with k by lia. replace (S (S k) - 1)%nat with (S k) by lia.
  rewrite (Rsum_first (S k) pots). cbn [Rsum]. ring.
Qed.
Example tangent_case : exists tg, spline_derv 1 3 (fun i _ => INR i) = Some tg /\ tg 1%nat 0%nat <> 0.
Proof.
  destruct (resample_straight 1 3 (fun i _ => INR i) (fun _ => 0) (fun _ => 2) (fun i => INR i / 2)) as [q' [tg [_ [E [_ T]]]]]; [lia| | |].
  - repeat split.
    + cbn. field.
    + cbn. field.
    + intros i Hi. rewrite S_INR. lra.
    + intros i c Hi. field.
  - unfold npnorm, dot. cbn [Rsum]. apply sqrt_lt_R0. lra.
  - exists tg. split; [exact E|]. rewrite T. assert (0 < npnorm 1 (fun _ => 2)) by (unfold npnorm, dot; cbn [Rsum]; apply sqrt_lt_R0; lra).
    apply Rgt_not_eq. apply Rdiv_lt_0_compat; lra.
Qed.

(** ** The first step *)
(** With a straight equidistant path the stored forces are those of the path that is stored; in general
    they are those of the path before it was resampled. *)
Theorem step0_forces dof n F q a d : (3 <= n)%nat -> straight n q a d (fun i => INR i / INR (n - 1)) -> 0 < npnorm dof d ->
  (forall x y, (forall b c, (b < n)%nat -> x b c = y b c) -> forall b c, (b < n)%nat -> F x b c = F y b c) ->
  exists q' f g, step0 dof n F q = Some (q', f, g) /\ (forall b c, (b < n)%nat -> q' b c = q b c) /\
    (forall b c, (b < n)%nat -> f b c = F q' b c) /\
    forall b c, (b < n)%nat -> g b c = - (F q' b c - d c / npnorm dof d * dot dof (F q' b) (fun c => d c / npnorm dof d)).
Proof.
  intros Hn St P L. destruct (resample_straight dof n q a d _ Hn St P) as [q' [tg [E1 [_ [E3 _]]]]].
  assert (Q : forall b c, (b < n)%nat -> q' b c = q b c) by (intros b c Hb; rewrite E3; destruct St as [_ [_ [_ ->]]]; [reflexivity|exact Hb]).
  assert (St' : straight n q' a d (fun i => INR i / INR (n - 1))).
  { destruct St as [A [B [C D]]]. repeat split; try assumption. intros i c Hi. rewrite Q by exact Hi. now apply D. }
  destruct (resample_straight dof n q' a d _ Hn St' P) as [q'' [tg' [_ [E2 [_ E4]]]]].
  unfold step0. rewrite E1, E2. eexists _, _, _. split; [reflexivity|]. split; [exact Q|].
  assert (FF : forall b c, (b < n)%nat -> F q b c = F q' b c) by (intros b c Hb; apply L; [|exact Hb]; intros; symmetry; now apply Q).
  split; [exact FF|]. intros b c Hb. unfold string_grad. rewrite FF by exact Hb. rewrite E4. f_equal. f_equal. f_equal.
  unfold dot. apply Rsum_ext. intros j _. now rewrite FF, E4 by exact Hb.
Qed.
Theorem step0_refuted : exists dof n F q q' f g, step0 dof n F q = Some (q', f, g) /\ f 1%nat 0%nat <> F q' 1%nat 0%nat /\
  (forall x b c, F x b c = - x b c) .
Proof.
  exists 1%nat, 3%nat, (fun x b c => - x b c), turn. unfold step0. rewrite turn_resample. set (q' := fun b c => spline 2 (param 1 3 turn) (fun i => turn i c) (INR b / INR 2)).
  assert (H0 : q' 0%nat 0%nat = 0). { unfold q'. fold (turn_at (INR 0 / INR 2)). replace (INR 0 / INR 2) with 0 by (cbn; field). rewrite turn_first by lra. ring. }
  assert (H1 : q' 1%nat 0%nat = 119 / 128). { unfold q'. fold (turn_at (INR 1 / INR 2)). replace (INR 1 / INR 2) with (/ 2) by (cbn; field). rewrite turn_first by lra. field. }
  assert (H2 : q' 2%nat 0%nat = 3 / 4). { unfold q'. fold (turn_at (INR 2 / INR 2)). replace (INR 2 / INR 2) with 1 by (cbn; field). rewrite turn_second by lra. ring. }
  assert (A : apart 1 3 q' = true).
  { apply apart_pos. intros i Hi. apply dist_pos. exists 0%nat. split; [lia|]. destruct i as [|[|i]]; [rewrite H0, H1; lra|rewrite H1, H2; lra|cbn in Hi; lia]. }
  unfold spline_derv. cbn [Nat.leb]. rewrite A. cbn [negb]. eexists _, _, _. split; [reflexivity|]. split; [|reflexivity].
  rewrite H1. cbn [turn]. lra.
Qed.
Print Assumptions climb_direction.
Print Assumptions step0_forces.
Print Assumptions step0_refuted.

(** ** Euler steps, the end of a step, stages *)
Lemma amax_ge m v i : (i < m)%nat -> Rabs (v i) <= amax m v.
Proof.
  induction m as [|m IH]; intros Hi; [lia|]. cbn [amax]. destruct (Nat.eq_dec i m) as [->|D]; [apply Rmax_r|].
  eapply Rle_trans; [apply IH; lia|apply Rmax_l].
Qed.
Lemma amax_reached m v : amax m v = 0 \/ exists i, (i < m)%nat /\ Rabs (v i) = amax m v.
Proof.
  induction m as [|m IH]; [now left|]. cbn [amax]. unfold Rmax. destruct (Rle_dec (amax m v) (Rabs (v m))).
  - right. exists m. split; [lia|reflexivity].
  - destruct IH as [E|[i [Hi E]]]; [now left|]. right. exists i. split; [lia|exact E].
Qed.
(** Downhill, by a thousandth of the gradient or until the largest coordinate moves by biggest_step. *)
Theorem euler_step m big grad : 0 < big -> exists k, 0 < k <= / 1000 /\ (forall i, euler m big grad i = - k * grad i) /\
  (forall i, (i < m)%nat -> Rabs (euler m big grad i) <= big) /\
  ((forall i, (i < m)%nat -> Rabs (grad i) <= 1000 * big) -> k = / 1000) /\
  ((exists i, (i < m)%nat /\ 1000 * big < Rabs (grad i)) -> exists i, (i < m)%nat /\ Rabs (euler m big grad i) = big).
Proof.
  intros B. unfold euler. cbv zeta. set (dq := fun i => - grad i * / 1000).
  assert (D : forall i, Rabs (dq i) = Rabs (grad i) / 1000) by (intros i; unfold dq; rewrite Rabs_mult, Rabs_Ropp, (Rabs_pos_eq (/ 1000)) by lra; reflexivity).
  destruct (Rlt_dec big (amax m dq)) as [L|L].
  - assert (Q : 0 < big / amax m dq <= 1).
    { split; [apply Rdiv_lt_0_compat; lra|]. apply (Rmult_le_reg_r (amax m dq)); [lra|]. unfold Rdiv. rewrite Rmult_assoc, Rinv_l by lra. lra. }
    exists (big / amax m dq * / 1000). split; [nra|]. split; [intros i; unfold dq; ring|].
    assert (G : forall i, Rabs (dq i * (big / amax m dq)) = Rabs (dq i) * (big / amax m dq)) by (intros i; rewrite Rabs_mult; f_equal; apply Rabs_pos_eq; lra).
    destruct (amax_reached m dq) as [E|[j [Hj E]]]; [lra|]. split; [|split].
    + intros i Hi. cbv beta. fold (dq i). rewrite G. pose proof (amax_ge m dq i Hi). apply Rle_trans with (amax m dq * (big / amax m dq)); [apply Rmult_le_compat_r; lra|right; field; lra].
    + intros H. exfalso. specialize (H j Hj). rewrite D in E. lra.
    + intros _. exists j. split; [exact Hj|]. cbv beta. fold (dq j). rewrite G, E. field. lra.
  - exists (/ 1000). split; [lra|]. split; [intros i; unfold dq; ring|]. split; [|split].
    + intros i Hi. pose proof (amax_ge m dq i Hi). lra.
    + reflexivity.
    + intros [i [Hi H]]. exfalso. pose proof (amax_ge m dq i Hi) as G. rewrite D in G. lra.
Qed.
(** The string is done exactly when energy, positions and perpendicular forces have all converged. *)
Theorem path_converges use_climb de dx fmax te tx tf :
  (path_end use_climb de dx fmax te tx tf = Finish Success <-> use_climb = false /\ de <= te /\ dx <= tx /\ fmax <= tf) /\
  (path_end use_climb de dx fmax te tx tf = Moved Climb <-> use_climb = true /\ de <= te /\ dx <= tx /\ fmax <= tf).
Proof.
  unfold path_end, le_b. destruct (Rle_dec de te), (Rle_dec dx tx), (Rle_dec fmax tf), use_climb; cbn [andb]; split; split; intros H; try discriminate; try (now repeat split); destruct H as [? [? [? ?]]]; try discriminate; try contradiction; reflexivity.
Qed.
(** What one step does in each stage. *)
Theorem stages mode zero edge path : member mode path_modes = true ->
  step Converged false mode zero edge path = Finish Success /\ step String_ false mode zero edge path = path /\
  step Endpoints true mode zero edge path = NotImplemented /\ (forall m, member m path_modes = false -> step String_ false m zero edge path = NotImplemented).
Proof. intros H. unfold step. rewrite H. repeat split. intros m ->. reflexivity. Qed.
(** A climbing image never moves, in any mode, and the stage of the end points without their
    optimisation is never left. *)
Theorem stages_refuted : (forall opt mode zero edge path, step Climb opt mode zero edge path = Finish Bad \/ step Climb opt mode zero edge path = AttributeErr) /\
  (exists mode zero edge path, member mode climb_modes = true /\ step Climb false mode zero edge path = AttributeErr) /\
  (exists mode zero edge path, step Endpoints false mode zero edge path = Nothing).
Proof.
  repeat split.
  - intros opt mode zero edge path. unfold step. destruct (zero && edge)%bool; [now left|]. unfold climb_step. destruct (member mode climb_modes); [now right|now left].
  - exists "fire"%string, false, false, Nothing. split; reflexivity.
  - now exists "fire"%string, false, false, Nothing.
Qed.
Print Assumptions euler_step.
Print Assumptions path_converges.
Print Assumptions stages.
Print Assumptions stages_refuted.

(** ** Setting up *)
(** With the attributes that are read, a string stage is set up for Hessians of the moving
    coordinates of the inner beads, of all coordinates of all beads, or none, and not for others. *)
Theorem bind_string string0 climb0 mover mode hsize natoms nbeads nfix : (2 < nbeads)%nat -> (nfix < 3 * natoms)%nat ->
  member "fixatoms_mask" string0 = true -> member "ffixatoms_mask" climb0 = true -> member "fixatoms" mover = true -> member mode ["damped_bfgs"; "bfgstrm"]%string = true ->
  let side := ((nbeads - 2) * (3 * natoms - nfix))%nat in
  (forall k, bind string0 climb0 mover mode String_ hsize natoms nbeads nfix = Bound k <-> k = side /\ (hsize = side ^ 2 \/ hsize = (nbeads * (3 * natoms)) ^ 2 \/ hsize = 0)%nat) /\
  (bind string0 climb0 mover mode String_ hsize natoms nbeads nfix = ValueErr <-> ~ (hsize = side ^ 2 \/ hsize = (nbeads * (3 * natoms)) ^ 2 \/ hsize = 0)%nat).
Proof.
  intros Hb Hf S0 C0 M0 Md side. unfold bind, hessian_side. rewrite Md, S0. cbv zeta.
  replace ((3 * natoms - nfix) * (nbeads - 2))%nat with side by (unfold side; lia).
  assert (N : (nfix =? 3 * natoms)%nat = false) by (apply Nat.eqb_neq; lia).
  assert (CB : forall k, climb_bind (["fixatoms_dof"; "fixatoms_mask"]%string ++ climb0) mover nfix k = Bound k).
  { intros k. unfold climb_bind. rewrite M0. replace (member "ffixatoms_mask" (["fixatoms_dof"; "fixatoms_mask"]%string ++ climb0)) with true. now rewrite andb_false_r. }
  fold side.
  destruct (Nat.eqb_spec hsize (side ^ 2)) as [E1|E1]; [|destruct (Nat.eqb_spec hsize ((nbeads * (3 * natoms)) ^ 2)) as [E2|E2]; [|destruct (Nat.eqb_spec hsize 0) as [E3|E3]]];
    rewrite ?N, ?CB; (split; [intros k; split; intros H|split; intros H]);
    first [discriminate H | injection H as <-; tauto | destruct H as [-> H]; first [reflexivity | exfalso; tauto] | reflexivity | exfalso; tauto | tauto].
Qed.
(** The mover has no attribute fixatoms: with any Hessian, stage and mode, setting up fails.  Even with
    all attributes a stored Hessian of the climbing image is refused. *)
Theorem bind_refuted : (forall mode stg hsize natoms nbeads nfix k, bind string_attrs0 climb_attrs0 mover_attrs mode stg hsize natoms nbeads nfix <> Bound k) /\
  (exists mode natoms nbeads nfix, bind string_attrs0 climb_attrs0 mover_attrs mode String_ 0 natoms nbeads nfix = AttributeErr /\ (2 < nbeads)%nat /\ (nfix < 3 * natoms)%nat /\ member mode path_modes = true) /\
  (exists string0 climb0 mover mode natoms, member "fixatoms_mask" string0 = true /\ member "fixatoms_mask" climb0 = true /\ member "ffixatoms_mask" climb0 = true /\ member "fixatoms" mover = true /\
     bind string0 climb0 mover mode Climb ((3 * natoms) ^ 2) natoms 5 0 = ValueErr).
Proof.
  repeat split.
  - intros mode stg hsize natoms nbeads nfix k. unfold bind. destruct (hessian_side _ _ _ _ _ _ _ _); try discriminate.
    destruct (nfix =? 3 * natoms)%nat; [discriminate|]. unfold climb_bind. change (member "fixatoms" mover_attrs) with false.
    destruct ((0 <? nfix)%nat && _)%bool; discriminate.
  - exists "bfgstrm"%string, 2%nat, 5%nat, 0%nat. repeat split; try lia.
  - exists ["fixatoms_mask"]%string, ["fixatoms_mask"; "ffixatoms_mask"]%string, ["fixatoms"]%string, "bfgstrm"%string, 1%nat. repeat split.
Qed.
Print Assumptions bind_string.
Print Assumptions bind_refuted.
Example bind_case : bind ["fixatoms_mask"]%string ["ffixatoms_mask"]%string ["fixatoms"]%string "bfgstrm" String_ 324 2 5 0 = Bound 18 /\
  bind ["fixatoms_mask"]%string ["ffixatoms_mask"]%string ["fixatoms"]%string "bfgstrm" String_ 7 2 5 0 = ValueErr.
Proof. split; reflexivity. Qed.
