(** * Linear algebra for the minimisers: symmetric positive definite matrices *)
From Coq Require Import List Arith Lia Reals Lra.
From Verif Require Import RSum MinModel.
Import ListNotations.
Open Scope R_scope.

(** ** Specification *)
Definition symmetric (n : nat) (A : mat) : Prop := forall i j, (i < n)%nat -> (j < n)%nat -> A i j = A j i.
Definition nonzero (n : nat) (v : vec) : Prop := exists i, (i < n)%nat /\ v i <> 0.
Definition posdef (n : nat) (A : mat) : Prop := forall v, nonzero n v -> 0 < dot n v (mv n A v).
Definition spd (n : nat) (A : mat) : Prop := symmetric n A /\ posdef n A.
Definition veq (n : nat) (u v : vec) : Prop := forall i, (i < n)%nat -> u i = v i.

(** ** Lemmas *)
Lemma dot_ext n u u' v v' : veq n u u' -> veq n v v' -> dot n u v = dot n u' v'.
Proof. intros A B. apply Rsum_ext. intros i Hi. now rewrite A, B. Qed.
Lemma dot_comm n u v : dot n u v = dot n v u.
Proof. apply Rsum_ext. intros. ring. Qed.
Lemma dot_add_r n u v w : dot n u (fun i => v i + w i) = dot n u v + dot n u w.
Proof. unfold dot. rewrite <- Rsum_plus. apply Rsum_ext. intros. ring. Qed.
Lemma dot_add_l n u v w : dot n (fun i => u i + v i) w = dot n u w + dot n v w.
Proof. unfold dot. rewrite <- Rsum_plus. apply Rsum_ext. intros. ring. Qed.
Lemma dot_sub_r n u v w : dot n u (fun i => v i - w i) = dot n u v - dot n u w.
Proof. unfold dot. rewrite <- Rsum_minus. apply Rsum_ext. intros. ring. Qed.
Lemma dot_sub_l n u v w : dot n (fun i => u i - v i) w = dot n u w - dot n v w.
Proof. unfold dot. rewrite <- Rsum_minus. apply Rsum_ext. intros. ring. Qed.
Lemma dot_scal_r n c u v : dot n u (fun i => c * v i) = c * dot n u v.
Proof. unfold dot. rewrite <- Rsum_scal. apply Rsum_ext. intros. ring. Qed.
Lemma dot_scal_l n c u v : dot n (fun i => c * u i) v = c * dot n u v.
Proof. unfold dot. rewrite <- Rsum_scal. apply Rsum_ext. intros. ring. Qed.
Lemma dot_opp_r n u v : dot n u (fun i => - v i) = - dot n u v.
Proof. unfold dot. rewrite <- Rsum_opp. apply Rsum_ext. intros. ring. Qed.
Lemma dot_opp_l n u v : dot n (fun i => - u i) v = - dot n u v.
Proof. unfold dot. rewrite <- Rsum_opp. apply Rsum_ext. intros. ring. Qed.
Lemma dot_self_nonneg n v : 0 <= dot n v v.
Proof. apply Rsum_nonneg. intros i _. nra. Qed.
Lemma dot_self_zero n v : dot n v v = 0 -> veq n v (fun _ => 0).
Proof.
  intros H i Hi. assert (E : v i * v i = 0). { apply (Rsum_eq0 n (fun i => v i * v i)); auto. intros k _. nra. } nra.
Qed.
Lemma dot_self_pos n v : nonzero n v -> 0 < dot n v v.
Proof.
  intros (i & Hi & E). destruct (Rle_lt_or_eq_dec 0 (dot n v v) (dot_self_nonneg n v)) as [|Z]; [easy|].
  now specialize (dot_self_zero n v (eq_sym Z) i Hi).
Qed.
Lemma nonzero_dec n v : nonzero n v \/ veq n v (fun _ => 0).
Proof.
  induction n as [|n [(i & Hi & E)|IH]].
  - right. intros i Hi. lia.
  - left. exists i. split; [lia|easy].
  - destruct (Req_EM_T (v n) 0) as [Z|Z].
    + right. intros i Hi. destruct (Nat.eq_dec i n) as [->|]; [easy|]. apply IH. lia.
    + left. exists n. split; [lia|easy].
Qed.
Lemma dot_zero_r n u v : veq n v (fun _ => 0) -> dot n u v = 0.
Proof. intros H. apply Rsum_0. intros i Hi. rewrite H by easy. ring. Qed.
Lemma mv_ext n A u v i : veq n u v -> mv n A u i = mv n A v i.
Proof. intros H. apply Rsum_ext. intros j Hj. now rewrite H. Qed.
Lemma mv_add n A u v i : mv n A (fun k => u k + v k) i = mv n A u i + mv n A v i.
Proof. unfold mv. rewrite <- Rsum_plus. apply Rsum_ext. intros. ring. Qed.
Lemma mv_scal n A c v i : mv n A (fun k => c * v k) i = c * mv n A v i.
Proof. unfold mv. rewrite <- Rsum_scal. apply Rsum_ext. intros. ring. Qed.
Lemma mv_opp n A v i : mv n A (fun k => - v k) i = - mv n A v i.
Proof. unfold mv. rewrite <- Rsum_opp. apply Rsum_ext. intros. ring. Qed.
Lemma mv_eye n v i : (i < n)%nat -> mv n eye v i = v i.
Proof. intros H. unfold mv, eye. rewrite <- (Rsum_delta_l n i v H). apply Rsum_ext. intros. ring. Qed.
Lemma mv_plus n A B v i : mv n (fun a b => A a b + B a b) v i = mv n A v i + mv n B v i.
Proof. unfold mv. rewrite <- Rsum_plus. apply Rsum_ext. intros. ring. Qed.
Lemma mv_outer n u w c v i : mv n (fun a b => c * outer u w a b) v i = c * u i * dot n w v.
Proof. unfold mv, dot, outer. rewrite <- Rsum_scal. apply Rsum_ext. intros. ring. Qed.
Lemma sym_dot n A u v : symmetric n A -> dot n u (mv n A v) = dot n (mv n A u) v.
Proof.
  intros H. unfold dot, mv.
  rewrite (Rsum_ext n (fun i => u i * Rsum n (fun j => A i j * v j)) (fun i => Rsum n (fun j => u i * A i j * v j)))
    by (intros i _; rewrite <- Rsum_scal; apply Rsum_ext; intros; ring).
  rewrite Rsum_swap. apply Rsum_ext. intros j Hj. rewrite <- Rsum_scal_r. apply Rsum_ext. intros i Hi. rewrite (H i j) by easy. ring.
Qed.
Lemma posdef_nonneg n A v : posdef n A -> 0 <= dot n v (mv n A v).
Proof.
  intros H. destruct (nonzero_dec n v) as [N|N]; [left; now apply H|].
  rewrite dot_comm, dot_zero_r by exact N. lra.
Qed.
Lemma eye_spd n : spd n eye.
Proof.
  split.
  - intros i j _ _. apply delta_sym.
  - intros v Hv. rewrite (dot_ext n v v (mv n eye v) v); [now apply dot_self_pos|easy|intros i Hi; now apply mv_eye].
Qed.
(** Quadratic form of a matrix with three rank one corrections. *)
Lemma quad_sym n A u v : symmetric n A ->
  dot n (fun i => u i + v i) (mv n A (fun i => u i + v i)) =
  dot n u (mv n A u) + 2 * dot n u (mv n A v) + dot n v (mv n A v).
Proof.
  intros H. rewrite (dot_ext n _ (fun i => u i + v i) _ (fun i => mv n A u i + mv n A v i)) by (try easy; intros i _; apply mv_add).
  rewrite dot_add_l, !dot_add_r, (sym_dot n A v u H), (dot_comm n (mv n A v) u). ring.
Qed.
Lemma dot_veq0_l n u v : veq n u (fun _ => 0) -> dot n u v = 0.
Proof. intros H. rewrite dot_comm. now apply dot_zero_r. Qed.

(** The direct BFGS update keeps a matrix symmetric and positive definite when the curvature
    along the step is positive, and obeys the secant equation. *)
Definition direct (n : nat) (B : mat) (s y : vec) : mat :=
  fun i j => B i j + (y i * y j / dot n s y - mv n B s i * mv n B s j / dot n s (mv n B s)).
Lemma direct_mv n B s y v i :
  mv n (direct n B s y) v i = mv n B v i + (y i * dot n y v / dot n s y - mv n B s i * dot n (mv n B s) v / dot n s (mv n B s)).
Proof.
  unfold direct, mv at 1.
  rewrite (Rsum_ext n _ (fun j => B i j * v j + (y i / dot n s y * (y j * v j) - mv n B s i / dot n s (mv n B s) * (mv n B s j * v j))))
    by (intros j _; unfold Rdiv; ring).
  rewrite Rsum_plus, Rsum_minus, !Rsum_scal. fold (dot n y v) (dot n (mv n B s) v). unfold Rdiv, mv. ring.
Qed.
Lemma direct_quad n B s y v :
  dot n v (mv n (direct n B s y) v) =
  dot n v (mv n B v) + (dot n y v ^ 2 / dot n s y - dot n (mv n B s) v ^ 2 / dot n s (mv n B s)).
Proof.
  rewrite (dot_ext n v v _ (fun i => mv n B v i + (dot n y v / dot n s y * y i - dot n (mv n B s) v / dot n s (mv n B s) * mv n B s i)))
    by (try easy; intros i _; rewrite direct_mv; unfold Rdiv; ring).
  rewrite dot_add_r, dot_sub_r, !dot_scal_r, (dot_comm n v y), (dot_comm n v (mv n B s)). unfold Rdiv. ring.
Qed.
Lemma direct_secant n B s y i : spd n B -> nonzero n s -> dot n s y <> 0 -> mv n (direct n B s y) s i = y i.
Proof.
  intros [Hs Hp] N C. specialize (Hp s N). rewrite direct_mv, (dot_comm n y s), (dot_comm n (mv n B s) s). field. lra.
Qed.
Lemma direct_symmetric n B s y : symmetric n B -> symmetric n (direct n B s y).
Proof. intros H i j Hi Hj. unfold direct. rewrite (H i j) by easy. unfold Rdiv. ring. Qed.
Lemma direct_spd n B s y : spd n B -> nonzero n s -> 0 < dot n s y -> spd n (direct n B s y).
Proof.
  intros [Hs Hp] Ns C. split; [now apply direct_symmetric|]. intros v Nv. rewrite direct_quad.
  set (c := dot n s (mv n B s)). assert (Hc : 0 < c) by now apply Hp.
  set (t := dot n (mv n B s) v / c).
  assert (E : dot n (fun i => v i + - t * s i) (mv n B (fun i => v i + - t * s i)) = dot n v (mv n B v) - dot n (mv n B s) v ^ 2 / c).
  { rewrite (quad_sym n B v (fun i => - t * s i) Hs).
    rewrite (dot_ext n v v (mv n B (fun i => - t * s i)) (fun i => - t * mv n B s i)) by (try easy; intros i _; apply mv_scal).
    rewrite (dot_ext n (fun i => - t * s i) (fun i => - t * s i) (mv n B (fun i => - t * s i)) (fun i => - t * mv n B s i)) by (try easy; intros i _; apply mv_scal).
    rewrite dot_scal_l, !dot_scal_r. fold c. rewrite (dot_comm n v (mv n B s)). unfold t. field. lra. }
  assert (Q : 0 <= dot n y v ^ 2 / dot n s y). { apply Rmult_le_pos; [nra|]. left. now apply Rinv_0_lt_compat. }
  destruct (nonzero_dec n (fun i => v i + - t * s i)) as [Nw|Zw].
  - specialize (Hp _ Nw). rewrite E in Hp. lra.
  - assert (Ev : veq n v (fun i => t * s i)) by (intros i Hi; specialize (Zw i Hi); cbn in Zw; lra).
    assert (Nt : t <> 0). { destruct Nv as (i & Hi & Nv). intros Z. apply Nv. rewrite (Ev i Hi), Z. ring. }
    assert (Ey : dot n y v = t * dot n s y). { rewrite (dot_ext n y y v _ ltac:(easy) Ev), dot_scal_r, dot_comm. ring. }
    assert (E0 : dot n v (mv n B v) - dot n (mv n B s) v ^ 2 / c = 0). { rewrite <- E. now apply dot_veq0_l. }
    assert (0 < dot n y v ^ 2 / dot n s y).
    { rewrite Ey. replace ((t * dot n s y) ^ 2 / dot n s y) with (t ^ 2 * dot n s y) by (field; lra).
      apply Rmult_lt_0_compat; [|easy]. replace (t ^ 2) with (t * t) by ring. destruct (Rdichotomy _ _ Nt); nra. }
    lra.
Qed.

(** The inverse BFGS update. *)
Definition inverse (n : nat) (H : mat) (s y : vec) : mat :=
  let hy := mv n H y in let a := dot n y s in let b := dot n y hy in
  let u := fun i => 1 / a * s i - 1 / b * hy i in
  fun i j => H i j + (outer s s i j * (1 / a) - outer hy hy i j * (1 / b) + outer u u i j * b).
Lemma inverse_mv n H s y v i :
  let hy := mv n H y in let a := dot n y s in let b := dot n y hy in
  mv n (inverse n H s y) v i =
  mv n H v i + (s i * dot n s v / a - hy i * dot n hy v / b + b * (s i / a - hy i / b) * (dot n s v / a - dot n hy v / b)).
Proof.
  cbv zeta. unfold inverse. set (hy := mv n H y). set (a := dot n y s). set (b := dot n y hy).
  transitivity (Rsum n (fun j => H i j * v j + (s i / a * (s j * v j) - hy i / b * (hy j * v j)
                   + (b * (s i / a - hy i / b) / a * (s j * v j) - b * (s i / a - hy i / b) / b * (hy j * v j))))).
  - apply Rsum_ext. intros j _. unfold outer, Rdiv. ring.
  - rewrite Rsum_plus, Rsum_plus, !Rsum_minus, !Rsum_scal. fold (dot n s v) (dot n hy v). change (Rsum n (fun i0 => H i i0 * v i0)) with (mv n H v i).
    unfold Rdiv. ring.
Qed.
Lemma inverse_quad n H s y v :
  let hy := mv n H y in let a := dot n y s in let b := dot n y hy in
  dot n v (mv n (inverse n H s y) v) =
  dot n v (mv n H v) + (dot n s v ^ 2 / a - dot n hy v ^ 2 / b + b * (dot n s v / a - dot n hy v / b) ^ 2).
Proof.
  cbv zeta. set (hy := mv n H y). set (a := dot n y s). set (b := dot n y hy).
  rewrite (dot_ext n v v _ (fun i => mv n H v i + ((dot n s v / a * s i - dot n hy v / b * hy i)
     + (b * (dot n s v / a - dot n hy v / b) / a * s i - b * (dot n s v / a - dot n hy v / b) / b * hy i))))
    by (try easy; intros i _; rewrite inverse_mv; fold hy a b; unfold Rdiv; ring).
  rewrite dot_add_r, dot_add_r, !dot_sub_r, !dot_scal_r, (dot_comm n v s), (dot_comm n v hy). unfold Rdiv. ring.
Qed.
Lemma inverse_secant n H s y i : dot n y s <> 0 -> dot n y (mv n H y) <> 0 -> mv n (inverse n H s y) y i = s i.
Proof.
  intros A B. rewrite inverse_mv, (dot_comm n s y), (dot_comm n (mv n H y) y). field. now split.
Qed.
Lemma inverse_symmetric n H s y : symmetric n H -> symmetric n (inverse n H s y).
Proof. intros Hs i j Hi Hj. unfold inverse, outer. rewrite (Hs i j) by easy. ring. Qed.
Lemma dot_pos_nonzero n u v : dot n u v <> 0 -> nonzero n u.
Proof.
  intros H. destruct (nonzero_dec n u) as [|Z]; [easy|]. exfalso. apply H. now apply dot_veq0_l.
Qed.
Lemma inverse_spd n H s y : spd n H -> 0 < dot n y s -> spd n (inverse n H s y).
Proof.
  intros [Hs Hp] A. split; [now apply inverse_symmetric|]. intros v Nv. rewrite inverse_quad.
  set (hy := mv n H y). set (a := dot n y s) in *. set (b := dot n y hy).
  assert (Ny : nonzero n y) by (apply (dot_pos_nonzero n y s); fold a; lra).
  assert (Hb : 0 < b) by now apply Hp.
  set (q := dot n hy v). set (p := dot n s v). set (t := q / b).
  assert (E : dot n (fun i => v i + - t * y i) (mv n H (fun i => v i + - t * y i)) = dot n v (mv n H v) - q ^ 2 / b).
  { rewrite (quad_sym n H v (fun i => - t * y i) Hs).
    rewrite (dot_ext n v v (mv n H (fun i => - t * y i)) (fun i => - t * hy i)) by (try easy; intros i _; apply mv_scal).
    rewrite (dot_ext n (fun i => - t * y i) (fun i => - t * y i) (mv n H (fun i => - t * y i)) (fun i => - t * hy i)) by (try easy; intros i _; apply mv_scal).
    rewrite dot_scal_l, !dot_scal_r. fold b. rewrite (dot_comm n v hy). fold q. unfold t. field. lra. }
  pose proof (posdef_nonneg n H (fun i => v i + - t * y i) Hp) as P0. rewrite E in P0.
  assert (P1 : 0 <= p ^ 2 / a). { apply Rmult_le_pos; [apply pow2_ge_0|]. left. now apply Rinv_0_lt_compat. }
  assert (P2 : 0 <= b * (p / a - q / b) ^ 2) by (apply Rmult_le_pos; [lra|apply pow2_ge_0]). change (q / b) with t in P2.
  destruct (Req_EM_T p 0) as [Zp|Np].
  - destruct (Req_EM_T q 0) as [Zq|Nq].
    + specialize (Hp v Nv). assert (Z : q ^ 2 / b = 0) by (rewrite Zq; unfold Rdiv; ring). lra.
    + assert (0 < b * (p / a - t) ^ 2).
      { apply Rmult_lt_0_compat; [easy|]. rewrite Zp. unfold t. replace (0 / a - q / b) with (- (q / b)) by (unfold Rdiv; ring).
        assert (q / b <> 0). { intros Z. apply Nq. apply (Rmult_eq_reg_r (/ b)); [|apply Rinv_neq_0_compat; lra]. unfold Rdiv in Z. lra. }
        replace ((- (q / b)) ^ 2) with ((q / b) * (q / b)) by ring. destruct (Rdichotomy _ _ H0); nra. }
      lra.
  - assert (0 < p ^ 2 / a). { apply Rmult_lt_0_compat; [|now apply Rinv_0_lt_compat]. destruct (Rdichotomy _ _ Np); nra. } lra.
Qed.
Lemma norm_nonneg n v : 0 <= norm n v.
Proof. apply sqrt_pos. Qed.
Lemma norm_sq n v : norm n v * norm n v = dot n v v.
Proof. apply sqrt_sqrt, dot_self_nonneg. Qed.
Lemma norm_scal n c v : norm n (fun i => c * v i) = Rabs c * norm n v.
Proof.
  unfold norm. rewrite dot_scal_l, dot_scal_r, <- Rmult_assoc, sqrt_mult_alt by nra.
  replace (c * c) with (Rsqr c) by reflexivity. now rewrite sqrt_Rsqr_abs.
Qed.
Lemma norm_pos n v : nonzero n v -> 0 < norm n v.
Proof. intros H. apply sqrt_lt_R0. now apply dot_self_pos. Qed.
