(** * Properties of the trust radius method, of L-BFGS, damped BFGS, FIRE and mode following
      (model in MinModel.v; line search and BFGS in MinSearch.v) *)
From Coq Require Import List Arith Lia Reals Lra Psatz.
From Verif Require Import RSum Ortho MinModel MinLin MinSearch.
Import ListNotations.
Open Scope R_scope.
Local Notation mat := MinModel.mat.

(** ** C104: the other Hessian updates *)
(** The update of the trust radius method: symmetric, and it maps the step to the change of
    the gradient; positive definite as long as the curvature along the step is positive. *)
Lemma trm_update_direct n dx df h i j : symmetric n h -> (j < n)%nat ->
  trm_update n dx df h i j = direct n h dx (fun k => - df k) i j.
Proof.
  intros Hs Hj. unfold trm_update, direct. f_equal. f_equal.
  - rewrite (dot_comm n (fun k => - df k) dx). reflexivity.
  - f_equal. f_equal. unfold mv. apply Rsum_ext. intros k Hk. rewrite (Hs j k) by easy. ring.
Qed.
Lemma spd_ext n A B : (forall i j, (i < n)%nat -> (j < n)%nat -> A i j = B i j) -> spd n A -> spd n B.
Proof.
  intros E [S P]. split.
  - intros i j Hi Hj. rewrite <- !E by easy. now apply S.
  - intros v N. rewrite (dot_ext n v v (mv n B v) (mv n A v)); [now apply P|easy|].
    intros i Hi. apply Rsum_ext. intros j Hj. now rewrite E.
Qed.
Theorem trm_update_ok n dx df h : spd n h -> nonzero n dx -> dot n dx df <> 0 ->
  symmetric n (trm_update n dx df h) /\
  (forall i, (i < n)%nat -> mv n (trm_update n dx df h) dx i = - df i) /\
  (dot n dx df < 0 -> spd n (trm_update n dx df h)).
Proof.
  intros S N C. split; [|split].
  - intros i j Hi Hj. rewrite !trm_update_direct by (try easy; apply S). now apply direct_symmetric; [apply S| |].
  - intros i Hi. transitivity (mv n (direct n h dx (fun k => - df k)) dx i).
    + apply Rsum_ext. intros j Hj. now rewrite trm_update_direct by (try easy; apply S).
    + rewrite direct_secant; [reflexivity|exact S|exact N|]. rewrite dot_opp_r. lra.
  - intros P. apply (spd_ext n (direct n h dx (fun k => - df k))).
    + intros i j Hi Hj. symmetry. apply trm_update_direct; [apply S|easy].
    + apply direct_spd; [exact S|exact N|]. rewrite dot_opp_r. lra.
Qed.
Print Assumptions trm_update_ok.
(** Powell's update (instanton and phonon codes): symmetric, and maps the step to the change
    of the gradient. *)
Theorem powell_ok n d Dg H : symmetric n H -> nonzero n d ->
  symmetric n (powell n d Dg H) /\ forall i, mv n (powell n d Dg H) d i = Dg i.
Proof.
  intros S N. pose proof (dot_self_pos n d N) as P. split.
  - intros i j Hi Hj. unfold powell, outer. rewrite (S i j) by easy. ring.
  - intros i. unfold powell. set (y := fun k => Dg k - mv n H d k).
    transitivity (Rsum n (fun j => H i j * d j + (1 / dot n d d * y i * (d j * d j) + (1 / dot n d d * d i * (y j * d j)
        - 1 / dot n d d * (dot n y d * (1 / dot n d d)) * d i * (d j * d j))))).
    + apply Rsum_ext. intros j _. unfold outer. ring.
    + rewrite Rsum_plus, Rsum_plus, Rsum_minus, !Rsum_scal. fold (dot n d d) (dot n y d).
      change (Rsum n (fun i0 => H i i0 * d i0)) with (mv n H d i). replace (y i) with (Dg i - mv n H d i) by reflexivity. field. lra.
Qed.
Print Assumptions powell_ok.
(** Damped BFGS: the damped change of the gradient always has curvature, so the Hessian stays
    symmetric positive definite for any function, and the step it gives is downhill. *)
Theorem damped_curvature n B sk yk : spd n B -> nonzero n sk ->
  2 / 10 * dot n sk (mv n B sk) <= dot n sk (db_yk n B sk yk).
Proof.
  intros [S P] N. specialize (P sk N). unfold db_yk. destruct (Rlt_dec _ _) as [L|L]; [|lra].
  cbv zeta.
  rewrite dot_add_r, !dot_scal_r. right. field. lra.
Qed.
Theorem damped_spd n B sk yk low : spd n B -> nonzero n sk -> spd n (db_stabilise low (db_update n B sk yk)).
Proof.
  intros S N. assert (U : spd n (db_update n B sk yk)).
  { apply (spd_ext n (direct n B sk (db_yk n B sk yk))).
    - intros i j _ _. unfold direct, db_update, outer. unfold Rdiv. ring.
    - apply direct_spd; [exact S|exact N|]. pose proof (damped_curvature n B sk yk S N). destruct S as [_ P]. specialize (P sk N). lra. }
  unfold db_stabilise. destruct low; [|exact U]. destruct U as [U1 U2]. split.
  - intros i j Hi Hj. rewrite (U1 i j) by easy. unfold eye. now rewrite delta_sym.
  - intros v Nv. rewrite (dot_ext n v v _ (fun i => mv n (db_update n B sk yk) v i + 1 / 100 * v i)).
    + rewrite dot_add_r, dot_scal_r. specialize (U2 v Nv). pose proof (dot_self_nonneg n v). lra.
    + easy.
    + intros i Hi. unfold mv. rewrite <- (Rsum_delta_l n i v Hi), <- Rsum_scal, <- Rsum_plus. apply Rsum_ext. intros j _. unfold eye. ring.
Qed.
Print Assumptions damped_spd.
Theorem damped_step n B sk g0 big : spd n B -> nonzero n g0 -> 0 < big ->
  (forall i, (i < n)%nat -> mv n B sk i = - g0 i) ->
  dot n g0 (db_scaled n big sk) < 0 /\ 0 < db_quality n sk g0 /\ db_maxdispl n (db_scaled n big sk) <= big.
Proof.
  intros [S P] N Hb E.
  assert (Ns : nonzero n sk).
  { destruct (nonzero_dec n sk) as [|Z]; [easy|]. destruct N as (i & Hi & N). exfalso. apply N.
    specialize (E i Hi). rewrite (mv_ext n B sk (fun _ => 0) i Z) in E. unfold mv in E. rewrite Rsum_0 in E by (intros; ring). lra. }
  assert (D : dot n g0 sk < 0).
  { specialize (P sk Ns). rewrite (dot_ext n sk sk (mv n B sk) (fun i => - g0 i)) in P by easy. rewrite dot_opp_r, dot_comm in P. lra. }
  split; [|split].
  - unfold db_scaled. destruct (Rlt_dec _ _) as [L|L]; [|exact D]. unfold vscal. rewrite dot_scal_r.
    assert (0 < big / db_maxdispl n sk) by (apply Rdiv_lt_0_compat; lra). nra.
  - unfold db_quality. pose proof (norm_pos n sk Ns). pose proof (norm_pos n g0 N).
    rewrite (dot_ext n _ (fun i => / norm n sk * sk i) _ (fun i => / norm n g0 * g0 i)) by (intros i _; unfold Rdiv; ring).
    rewrite dot_scal_l, dot_scal_r, (dot_comm n sk g0).
    assert (0 < / norm n sk) by now apply Rinv_0_lt_compat. assert (0 < / norm n g0) by now apply Rinv_0_lt_compat.
    assert (0 < / norm n sk * / norm n g0) by now apply Rmult_lt_0_compat. nra.
  - unfold db_scaled. destruct (Rlt_dec big (db_maxdispl n sk)) as [L|L]; [|lra].
    set (c := big / db_maxdispl n sk). assert (C : 0 < c) by (apply Rdiv_lt_0_compat; lra).
    assert (G : forall m, amax m (fun a => sqrt (vscal c sk (3 * a)%nat ^ 2 + vscal c sk (3 * a + 1)%nat ^ 2 + vscal c sk (3 * a + 2)%nat ^ 2)) <=
       c * amax m (fun a => sqrt (sk (3 * a)%nat ^ 2 + sk (3 * a + 1)%nat ^ 2 + sk (3 * a + 2)%nat ^ 2))).
    { induction m as [|m IH]; [cbn [amax]; lra|]. cbn [amax]. apply Rmax_lub.
      - eapply Rle_trans; [exact IH|]. apply Rmult_le_compat_l; [lra|apply Rmax_l].
      - unfold vscal. replace ((c * sk (3 * m)%nat) ^ 2 + (c * sk (3 * m + 1)%nat) ^ 2 + (c * sk (3 * m + 2)%nat) ^ 2)
          with (Rsqr c * (sk (3 * m)%nat ^ 2 + sk (3 * m + 1)%nat ^ 2 + sk (3 * m + 2)%nat ^ 2)) by (unfold Rsqr; ring).
        rewrite sqrt_mult_alt by apply Rle_0_sqr. rewrite sqrt_Rsqr by lra. apply Rmult_le_compat_l; [lra|apply Rmax_r]. }
    specialize (G (n / 3)%nat). fold (db_maxdispl n sk) in G. unfold db_maxdispl at 1. eapply Rle_trans; [exact G|].
    right. unfold c. field. lra.
Qed.
Print Assumptions damped_step.
Example updates_case : spd 1 eye /\ nonzero 1 (fun _ => 1) /\ dot 1 (fun _ => 1) (fun _ => -2) < 0 /\ (forall i, (i < 1)%nat -> mv 1 eye (fun _ => 1) i = - -1).
Proof.
  split; [apply eye_spd|]. split; [exists O; split; [lia|lra]|]. split; [unfold dot; cbn; lra|]. intros i Hi. rewrite mv_eye by easy. lra.
Qed.

(** ** C105: L-BFGS *)
(** The two loops give what the BFGS formula gives for the stored pairs. *)
Definition pairs_matrix (n : nat) (hk : R) (pairs : list (vec * vec)) : mat :=
  fold_left (fun H p => inverse n H (fst p) (snd p)) pairs (fun i j => hk * eye i j).
Definition curved (n : nat) (pairs : list (vec * vec)) : Prop := Forall (fun p => 0 < dot n (snd p) (fst p)) pairs.
(** One recursion instead of two loops. *)
Fixpoint lb_apply (n : nat) (hk : R) (newest_first : list (vec * vec)) (v : vec) : vec :=
  match newest_first with
  | [] => vscal hk v
  | (s, y) :: l =>
      let a := 1 / dot n y s * dot n s v in
      let r := lb_apply n hk l (fun i => v i - a * y i) in
      fun i => r i + s i * (a - 1 / dot n y s * dot n y r)
  end.
Lemma second_app n l : forall al s y a d, length al = length l ->
  lb_second n (l ++ [(s, y)]) (al ++ [a]) d =
  (fun i => lb_second n l al d i + s i * (a - 1 / dot n y s * dot n y (lb_second n l al d))).
Proof.
  induction l as [|[s0 y0] l IH]; intros [|a0 al] s y a d E; try discriminate; cbn [app lb_second]; [reflexivity|].
  rewrite IH by (now injection E). reflexivity.
Qed.
Lemma first_acc n l : forall q al, lb_first n l q al = (fst (lb_first n l q []), snd (lb_first n l q []) ++ al).
Proof.
  induction l as [|[s y] l IH]; intros q al; cbn [lb_first]; [reflexivity|].
  rewrite IH. rewrite (IH _ [_]). cbn [fst snd]. now rewrite <- app_assoc.
Qed.
Lemma first_length n l : forall q, length (snd (lb_first n l q [])) = length l.
Proof.
  induction l as [|[s y] l IH]; intros q; cbn [lb_first]; [reflexivity|]. rewrite first_acc. cbn [snd]. rewrite app_length, IH. cbn. lia.
Qed.
Lemma two_loop_apply n hk pairs : forall g, lb_two_loop n hk pairs g = lb_apply n hk (rev pairs) g.
Proof.
  induction pairs as [|[s y] pairs IH] using rev_ind; intros g; [reflexivity|].
  unfold lb_two_loop. rewrite rev_unit. cbn [lb_first lb_apply]. rewrite first_acc.
  set (a := 1 / dot n y s * dot n s g). set (v := fun i => g i - a * y i).
  specialize (IH v). unfold lb_two_loop in IH.
  assert (L : length (snd (lb_first n (rev pairs) v [])) = length pairs) by (rewrite first_length; apply rev_length).
  destruct (lb_first n (rev pairs) v []) as [q al] eqn:E. cbn [fst snd] in *.
  rewrite second_app by exact L. now rewrite IH.
Qed.
Lemma scaled_eye_spd n hk : 0 < hk -> spd n (fun i j => hk * eye i j).
Proof.
  intros H. split.
  - intros i j _ _. unfold eye. now rewrite delta_sym.
  - intros v N. rewrite (dot_ext n v v _ (fun i => hk * v i)); [rewrite dot_scal_r|easy|].
    + pose proof (dot_self_pos n v N). nra.
    + intros i Hi. unfold mv. rewrite <- (Rsum_delta_l n i v Hi), <- Rsum_scal. apply Rsum_ext. intros. unfold eye. ring.
Qed.
Lemma pairs_matrix_spd n hk pairs : 0 < hk -> curved n pairs -> spd n (pairs_matrix n hk pairs).
Proof.
  intros H C. unfold pairs_matrix. pose proof (scaled_eye_spd n hk H) as S. revert S. generalize (fun i j => hk * eye i j) as A.
  induction C as [|[s y] l P C IH]; intros A S; cbn [fold_left]; [exact S|]. apply IH. now apply inverse_spd.
Qed.
Theorem two_loops_bfgs n hk pairs g : 0 < hk -> curved n pairs ->
  forall i, (i < n)%nat -> lb_two_loop n hk pairs g i = mv n (pairs_matrix n hk pairs) g i.
Proof.
  intros H C. rewrite two_loop_apply. revert g C. induction pairs as [|[s y] pairs IH] using rev_ind; intros g C i Hi.
  - cbn [rev lb_apply]. unfold pairs_matrix, vscal, mv. cbn [fold_left]. rewrite <- (Rsum_delta_l n i g Hi), <- Rsum_scal.
    apply Rsum_ext. intros. unfold eye. ring.
  - apply Forall_app in C. destruct C as [C1 C2]. inversion C2 as [|? ? P _ ]; subst. cbn [fst snd] in P.
    rewrite rev_unit. cbn [lb_apply]. unfold pairs_matrix. rewrite fold_left_app. cbn [fold_left fst snd].
    fold (pairs_matrix n hk pairs). set (H0 := pairs_matrix n hk pairs) in *.
    assert (S : spd n H0) by now apply pairs_matrix_spd.
    set (a := 1 / dot n y s * dot n s g).
    assert (Er : veq n (lb_apply n hk (rev pairs) (fun i0 => g i0 - a * y i0)) (fun k => mv n H0 g k - a * mv n H0 y k)).
    { intros k Hk. rewrite (IH _ C1 k Hk). unfold mv. rewrite <- Rsum_scal, <- Rsum_minus. apply Rsum_ext. intros. ring. }
    rewrite (Er i Hi), (dot_ext n y y _ _ ltac:(easy) Er), dot_sub_r, dot_scal_r.
    rewrite inverse_mv. rewrite (sym_dot n H0 y g (proj1 S)).
    assert (N : nonzero n y) by (apply (dot_pos_nonzero n y s); lra).
    assert (B : 0 < dot n y (mv n H0 y)) by now apply (proj2 S).
    unfold a. field. lra.
Qed.
Print Assumptions two_loops_bfgs.
(** So, where the curvature along every stored step is positive, the direction is downhill. *)
Lemma hk_pos n scale pairs : curved n pairs -> 0 < lb_hk n scale pairs.
Proof.
  intros C. assert (G : forall p, In p pairs -> 0 < dot n (snd p) (fst p) / dot n (snd p) (snd p)).
  { intros p I. pose proof (proj1 (Forall_forall _ _) C p I) as C0. cbv beta in C0. clear C. rename C0 into C. apply Rdiv_lt_0_compat; [exact C|]. apply dot_self_pos.
    apply (dot_pos_nonzero n (snd p) (fst p)). lra. }
  unfold lb_hk. destruct scale as [|[|sc]]; [lra| |].
  - destruct pairs as [|[s y] l]; [lra|]. apply (G (s, y)). now left.
  - destruct (rev pairs) as [|[s y] l] eqn:E; [lra|]. apply (G (s, y)). apply in_rev. rewrite E. now left.
Qed.
Theorem lbfgs_descent_partial n scale m k ql gl g d_x d_g :
  let pairs := combine (firstn (lb_count m k) ql) (firstn (lb_count m k) gl) in
  curved n pairs -> nonzero n g -> sqrt (1 / 10 ^ 10 * dot n d_g d_g * dot n d_x d_x) < dot n d_g d_x ->
  dot n g (lb_direction n scale m k ql gl g d_x d_g) < 0.
Proof.
  intros pairs C N L. unfold lb_direction. destruct (Rlt_dec _ _) as [_|X]; [|easy]. fold pairs.
  pose proof (hk_pos n scale pairs C) as Hk.
  rewrite (dot_ext n g g _ (fun i => - mv n (pairs_matrix n (lb_hk n scale pairs) pairs) g i)).
  - rewrite dot_opp_r. destruct (pairs_matrix_spd n _ pairs Hk C) as [_ P]. specialize (P g N). lra.
  - easy.
  - intros i Hi. now rewrite two_loops_bfgs.
Qed.
Print Assumptions lbfgs_descent_partial.

(** The lists hold the last [m] steps, oldest first. *)
Fixpoint lb_history (m k : nat) (l : list vec) (vs : list vec) : list vec :=
  match vs with [] => l | v :: vs' => lb_history m (S k) (lb_store m k l v) vs' end.
Lemma store_length m k l v : length l = m -> (0 < m)%nat -> length (lb_store m k l v) = m.
Proof.
  intros L Hm. unfold lb_store. destruct (Nat.ltb_spec k m) as [Hk|Hk].
  - rewrite app_length. cbn [length]. rewrite firstn_length, skipn_length. lia.
  - destruct l as [|a l]; [cbn in L; lia|]. rewrite app_length. cbn [length].
    rewrite firstn_length, skipn_length, app_length. cbn [length] in *. lia.
Qed.
Lemma skipn_app_le {A} k (l l' : list A) : (k <= length l)%nat -> skipn k (l ++ l') = skipn k l ++ l'.
Proof. intros H. rewrite skipn_app. replace (k - length l)%nat with 0%nat by lia. now rewrite skipn_O. Qed.
Lemma skipn_1_skipn {A} k (l : list A) : skipn (S k) l = skipn 1 (skipn k l).
Proof. revert l. induction k as [|k IH]; intros [|x l]; try reflexivity. cbn [skipn] in *. apply IH. Qed.
Lemma history_step m k l v past : (0 < m)%nat -> length l = m -> length past = k ->
  firstn (Nat.min k m) l = skipn (k - m) past ->
  firstn (Nat.min (S k) m) (lb_store m k l v) = skipn (S k - m) (past ++ [v]).
Proof.
  intros Hm L P E. unfold lb_store. destruct (Nat.ltb_spec k m) as [Hk|Hk].
  - rewrite Nat.min_l in E |- * by lia. replace (k - m)%nat with 0%nat in E by lia. replace (S k - m)%nat with 0%nat by lia.
    rewrite skipn_O in E |- *. replace (S k) with (length (firstn k l) + 1)%nat at 1 by (rewrite firstn_length; lia).
    rewrite firstn_app_2. cbn [firstn]. now rewrite E.
  - rewrite Nat.min_r in E |- * by lia. rewrite firstn_all2 in E by lia.
    destruct l as [|a l]; [cbn in L; lia|]. cbn [length] in L.
    replace (firstn (m - 1) (l ++ [a])) with l.
    2:{ replace (m - 1)%nat with (length l + 0)%nat by lia. rewrite firstn_app_2. cbn [firstn]. now rewrite app_nil_r. }
    rewrite skipn_all2 with (l := l ++ [a]) by (rewrite app_length; cbn; lia).
    rewrite firstn_all2 by (rewrite app_length; cbn [length]; lia).
    rewrite skipn_app_le by lia. f_equal.
    replace (S k - m)%nat with (S (k - m)) by lia. rewrite skipn_1_skipn. now rewrite <- E.
Qed.
Lemma history_inv m : (0 < m)%nat -> forall vs k l past, length l = m -> length past = k ->
  firstn (Nat.min k m) l = skipn (k - m) past ->
  firstn (Nat.min (k + length vs) m) (lb_history m k l vs) = skipn (k + length vs - m) (past ++ vs).
Proof.
  intros Hm. induction vs as [|v vs IH]; intros k l past L P E; cbn [lb_history length].
  - rewrite Nat.add_0_r, app_nil_r. exact E.
  - replace (k + S (length vs))%nat with (S k + length vs)%nat by lia.
    replace (past ++ v :: vs) with ((past ++ [v]) ++ vs) by (now rewrite <- app_assoc).
    apply IH; [now apply store_length|rewrite app_length; cbn; lia|]. now apply history_step.
Qed.
Theorem lbfgs_history m l0 vs : (0 < m)%nat -> length l0 = m -> vs <> [] ->
  firstn (lb_count m (length vs - 1)) (lb_history m 0 l0 vs) = skipn (length vs - m) vs.
Proof.
  intros Hm L Nv. pose proof (history_inv m Hm vs 0 l0 [] L eq_refl) as H. cbn [Nat.min firstn Nat.sub skipn app Nat.add] in H.
  rewrite <- H by reflexivity. f_equal. unfold lb_count. destruct vs as [|v vs]; [easy|]. cbn [length].
  destruct (Nat.ltb_spec (S (length vs) - 1) (m - 1)); lia.
Qed.
Print Assumptions lbfgs_history.
Example lbfgs_history_case : let c := fun z (_ : nat) => z in
  lb_history 2 0 [c 0; c 0] [c 1; c 2; c 3] = [c 2; c 3].
Proof. reflexivity. Qed.

(** False of the code: a direction found to be uphill is replaced by the normalised gradient,
    which is uphill too. *)
Theorem lbfgs_reset_uphill n g d : dot n g d > 0 -> dot n g (fst (lb_reset n g d)) = norm n g /\ norm n g > 0.
Proof.
  intros H. unfold lb_reset. destruct (Rlt_dec _ _) as [_|X]; [|easy]. cbn [fst].
  assert (P : 0 < norm n g) by (apply norm_pos; apply (dot_pos_nonzero n g d); lra). split; [|lra].
  fold (norm n g). rewrite (dot_ext n g g _ (fun i => / norm n g * g i)) by (try easy; intros i _; unfold Rdiv; ring).
  rewrite dot_scal_r, <- norm_sq. field. lra.
Qed.
Print Assumptions lbfgs_reset_uphill.
(** ... and where the curvature was not positive, the next direction is the step just taken,
    reversed.  Together: minimising -x^2 / 2 from 1 (downhill to the right), the first step goes
    to 2 and lowers the energy to -2; the second goes back uphill, and ends at 0 with energy 0. *)
Definition hill (x : vec) : R * vec := (- (x O * x O) / 2, fun _ => - x O).
Lemma min_approx_accept n fdf x0 f0 g0 d0 big tol itmax fx gx : (2 <= itmax)%nat -> norm n d0 <= big ->
  0 < ls_test n x0 d0 -> tol <= ls_test n x0 d0 -> fdf (vadd x0 (vscal 1 d0)) = (fx, gx) ->
  fx <= f0 + alf * 1 * dot n g0 d0 ->
  min_approx n fdf x0 (f0, g0) d0 big tol itmax = Some (LsOut (vadd x0 (vscal 1 d0)) fx gx (vadd x0 (vscal 1 d0)) 1).
Proof.
  intros Hi Hn Ht Hl E A. unfold min_approx. unfold ls_dir. destruct (Rlt_dec big (norm n d0)) as [L|_]; [lra|].
  destruct (itmax - 1)%nat as [|k] eqn:Ek; [lia|]. cbn [ls_loop]. rewrite E.
  destruct (Rlt_dec 1 _) as [L|_].
  - exfalso. apply (Rmult_lt_compat_r (ls_test n x0 d0)) in L; [|exact Ht].
    replace (tol / ls_test n x0 d0 * ls_test n x0 d0) with tol in L by (field; lra). lra.
  - destruct (Rle_dec _ _) as [_|L]; [reflexivity|]. now elim L.
Qed.
Lemma dot1 u v : dot 1 u v = u O * v O.
Proof. unfold dot. cbn [Rsum]. ring. Qed.
Lemma test1 x d : ls_test 1 x d = Rabs (d O) / Rmax (Rabs (x O)) 1.
Proof.
  unfold ls_test. cbn [amax]. apply Rmax_right. apply Rmult_le_pos; [apply Rabs_pos|]. left. apply Rinv_0_lt_compat.
  eapply Rlt_le_trans; [apply Rlt_0_1|apply Rmax_r].
Qed.
Lemma norm1 v : norm 1 v = Rabs (v O).
Proof. unfold norm. rewrite dot1. apply (sqrt_Rsqr_abs (v O)). Qed.

Theorem lbfgs_uphill_refuted : exists (fdf : vec -> R * vec) s0 s1 s2,
  (forall x, derivable_pt_lim (fun t => fst (fdf (fun _ => t))) (x O) (snd (fdf x) O)) /\
  (l_f s0, l_g s0) = fdf (l_x s0) /\ dot 1 (l_g s0) (l_d s0) < 0 /\
  lb_step 1 fdf 100 (1 / 10 ^ 11) 3 6 1 0 s0 = Some s1 /\ lb_step 1 fdf 100 (1 / 10 ^ 11) 3 6 1 1 s1 = Some s2 /\
  dot 1 (l_g s1) (l_d s1) > 0 /\ l_f s0 = - (1 / 2) /\ l_f s1 = -2 /\ l_f s2 = 0.
Proof.
  set (z := repeat (fun _ : nat => 0) 6).
  set (s0 := LbS (fun _ => 1) (- (1 / 2)) (fun _ => -1) (fun _ => 1) z z).
  set (x1 := vadd (fun _ : nat => 1) (vscal 1 (fun _ => 1))).
  set (dx := vsub x1 (fun _ => 1)). set (dg := vsub (snd (hill x1)) (fun _ => -1)).
  set (s1 := LbS x1 (-2) (snd (hill x1)) (fun i => - dx i) (lb_store 6 0 z dx) (lb_store 6 0 z dg)).
  assert (X1 : x1 O = 2) by (unfold x1, vadd, vscal; ring).
  set (d2 := fun i => snd (hill x1) i / sqrt (dot 1 (snd (hill x1)) (snd (hill x1)))).
  assert (D2 : d2 O = -1).
  { unfold d2. fold (norm 1 (snd (hill x1))). rewrite norm1. unfold hill. cbn [snd]. rewrite X1, Rabs_left by lra. field. }
  assert (G1 : dot 1 (snd (hill x1)) (fun i => - dx i) = 2).
  { rewrite dot1. unfold hill, dx, vsub. cbn [snd]. rewrite X1. ring. }
  assert (S1 : lb_step 1 hill 100 (1 / 10 ^ 11) 3 6 1 0 s0 = Some s1).
  { unfold lb_step. cbn [l_x l_f l_g l_d l_q l_y s0]. unfold lb_reset. rewrite dot1.
    destruct (Rlt_dec 0 (-1 * 1)) as [L|_]; [lra|].
    rewrite (min_approx_accept 1 hill (fun _ => 1) (- (1 / 2)) (fun _ => -1) (fun _ => 1) _ (1 / 10 ^ 11) 3 (-2) (snd (hill x1))); try lia.
    - unfold s1. f_equal. fold x1 dx. unfold lb_direction. fold dg. destruct (Rlt_dec _ _) as [L|_]; [|reflexivity].
      exfalso. assert (dot 1 dg dx < 0); [|pose proof (sqrt_pos (1 / 10 ^ 10 * dot 1 dg dg * dot 1 dx dx)); cbn [ls_x ls_g] in L; fold x1 dx dg in L; lra].
      rewrite dot1. unfold dg, dx, vsub, hill. cbn [snd]. rewrite X1. lra.
    - rewrite norm1, Rabs_R1. unfold bfgs_big. rewrite dot1, Rmult_1_l, sqrt_1. cbn [INR]. rewrite Rmax_left by lra. lra.
    - rewrite test1, Rabs_R1, Rmax_left by lra. lra.
    - rewrite test1, Rabs_R1, Rmax_left by lra. cbn [pow]. lra.
    - fold x1. unfold hill. cbn [snd]. f_equal. rewrite X1. field.
    - rewrite dot1. unfold alf. lra. }
  assert (S2 : exists s2, lb_step 1 hill 100 (1 / 10 ^ 11) 3 6 1 1 s1 = Some s2 /\ l_f s2 = 0).
  { unfold lb_step. cbn [l_x l_f l_g l_d l_q l_y s1]. unfold lb_reset. rewrite G1.
    destruct (Rlt_dec 0 2) as [_|L]; [|lra]. fold d2. unfold min_approx, ls_dir.
    rewrite norm1, D2, (Rabs_left (-1)) by lra.
    assert (B : 100 <= bfgs_big 1 x1 100).
    { unfold bfgs_big. pose proof (Rmax_r (sqrt (dot 1 x1 x1)) (INR 1)) as M. change (INR 1) with 1 in *. nra. }
    destruct (Rlt_dec _ (- -1)) as [L|_]; [exfalso; lra|].
    assert (SL : dot 1 (snd (hill x1)) d2 = 2) by (rewrite dot1, D2; unfold hill; cbn [snd]; rewrite X1; ring). rewrite SL.
    assert (T : ls_test 1 x1 d2 = 1 / 2).
    { rewrite test1, D2, X1, (Rabs_left (-1)), (Rabs_pos_eq 2), Rmax_left by lra. field. } rewrite T.
    change (3 - 1)%nat with 2%nat. cbn [ls_loop].
    set (xa := vadd x1 (vscal 1 d2)). assert (XA : xa O = 1) by (unfold xa, vadd, vscal; rewrite X1, D2; ring).
    assert (HA : hill xa = (- (1 / 2), snd (hill xa))) by (unfold hill; cbn [snd]; f_equal; rewrite XA; field). rewrite HA.
    destruct (Rlt_dec 1 _) as [L|_]; [exfalso; cbn [pow] in L; lra|].
    destruct (Rle_dec _ _) as [L|_]; [exfalso; unfold alf in L; lra|].
    assert (TL : ls_tmplam (-2) 2 1 (- (1 / 2)) 0 0 = 2) by (unfold ls_tmplam; destruct (Req_EM_T 1 1) as [_|L]; [field|now elim L]).
    rewrite TL, Rmax_left by lra.
    set (xb := vadd x1 (vscal 2 d2)). assert (XB : xb O = 0) by (unfold xb, vadd, vscal; rewrite X1, D2; ring).
    assert (HB : hill xb = (0, snd (hill xb))) by (unfold hill; cbn [snd]; f_equal; rewrite XB; field). rewrite HB.
    destruct (Rlt_dec 2 _) as [L|_]; [exfalso; cbn [pow] in L; lra|].
    destruct (Rle_dec _ _) as [L|_]; [exfalso; unfold alf in L; lra|].
    eexists. split; [reflexivity|]. reflexivity. }
  destruct S2 as (s2 & S2 & E2).
  exists hill, s0, s1, s2. split; [|split; [|split; [|split; [exact S1|split; [exact S2|split; [|split; [reflexivity|split; [reflexivity|exact E2]]]]]]]].
  - intros x. unfold hill. cbn [fst snd].
    apply (derivable_ext (fun t => (- (1 / 2)) * (t * t))); [intros t; field|].
    apply (derivable_eq _ _ (0 * (x O * x O) + - (1 / 2) * (1 * x O + x O * 1))); [field|].
    apply (derivable_pt_lim_mult (fun _ => - (1 / 2)) (fun t => t * t)); [apply derivable_pt_lim_const|].
    apply (derivable_pt_lim_mult (fun t => t) (fun t => t)); apply derivable_pt_lim_id.
  - cbn [l_f l_g l_x s0]. unfold hill. f_equal. field.
  - cbn [l_g l_d s0]. rewrite dot1. lra.
  - cbn [l_g l_d s1]. rewrite G1. lra.
Qed.
(** False of the code: a step that counts as converged is stored like any other, with a zero
    displacement; the next update of the direction divides by its curvature, which is zero. *)
Theorem lbfgs_zero_pair_refuted : exists (fdf : vec -> R * vec) s0 s1 s y,
  (l_f s0, l_g s0) = fdf (l_x s0) /\ dot 1 (l_g s0) (l_d s0) < 0 /\
  lb_step 1 fdf 100 (1 / 10 ^ 11) 100 6 1 0 s0 = Some s1 /\
  nth_error (l_q s1) 0 = Some s /\ nth_error (l_y s1) 0 = Some y /\ (1 < lb_count 6 1)%nat /\
  dot 1 y s = 0 /\ nonzero 1 y.
Proof.
  set (e := 1 / 10 ^ 12). assert (He : 0 < e < 1 / 10 ^ 11) by (unfold e; cbn [pow]; lra).
  set (z := repeat (fun _ : nat => 0) 6).
  set (s0 := LbS (fun _ => 0) (fst (flat_min (fun _ => 0))) (snd (flat_min (fun _ => 0))) (fun _ => - e) z z).
  assert (G0 : snd (flat_min (fun _ => 0)) O = e) by (unfold flat_min, e; cbn [snd]; ring).
  set (x1 := vadd (fun _ : nat => 0) (vscal 1 (fun _ => - e))).
  assert (X1 : x1 O = - e) by (unfold x1, vadd, vscal; ring).
  assert (E : min_approx 1 flat_min (fun _ => 0) (fst (flat_min (fun _ => 0)), snd (flat_min (fun _ => 0))) (fun _ => - e) (bfgs_big 1 (fun _ => 0) 100) (1 / 10 ^ 11) 100
     = Some (LsOut (fun _ => 0) (fst (flat_min x1)) (snd (flat_min x1)) x1 1)).
  { unfold min_approx, ls_dir. rewrite norm1, Rabs_Ropp, Rabs_pos_eq by lra.
    assert (B : 100 <= bfgs_big 1 (fun _ => 0) 100).
    { unfold bfgs_big. pose proof (Rmax_r (sqrt (dot 1 (fun _ => 0) (fun _ => 0))) (INR 1)) as M. change (INR 1) with 1 in *. nra. }
    destruct (Rlt_dec _ e) as [L|_]; [exfalso; cbn [pow] in He; lra|].
    change (100 - 1)%nat with (S 98). generalize 98%nat as k. intros k. cbn [ls_loop]. fold x1.
    destruct (flat_min x1) as [fx gx] eqn:Ef. cbn [fst snd]. rewrite test1, Rabs_Ropp, Rabs_R0, Rmax_right, Rabs_pos_eq by lra.
    destruct (Rlt_dec 1 _) as [_|L]; [reflexivity|]. exfalso. apply L. replace (e / 1) with e by field.
    apply (Rmult_lt_reg_r e); [lra|]. replace (1 / 10 ^ 11 / e * e) with (1 / 10 ^ 11) by (field; lra). lra. }
  assert (DG : dot 1 (snd (flat_min (fun _ => 0))) (fun _ => - e) < 0) by (rewrite dot1, G0; nra).
  exists flat_min, s0. eexists. exists (vsub (fun _ => 0) (fun _ => 0)), (vsub (snd (flat_min x1)) (snd (flat_min (fun _ => 0)))).
  split; [cbn [l_f l_g l_x s0]; now destruct (flat_min (fun _ => 0))|]. split; [exact DG|]. split.
  - unfold lb_step. cbn [l_x l_f l_g l_d l_q l_y s0]. unfold lb_reset. destruct (Rlt_dec 0 _) as [L|_]; [exfalso; lra|]. rewrite E. reflexivity.
  - cbn [l_q l_y ls_x ls_g]. split; [reflexivity|]. split; [reflexivity|]. split; [cbn; lia|]. split; [rewrite dot1; unfold vsub; ring|].
    exists O. split; [lia|]. unfold vsub. rewrite G0. unfold flat_min. cbn [snd]. fold e. rewrite X1. lra.
Qed.

(** ** C106: the trust radius method *)
(** The model of the energy that the step minimises. *)
Definition trm_model (n : nat) (f : vec) (h : mat) (z : vec) : R := - dot n f z + 1 / 2 * dot n z (mv n h z).
(** [h] has eigenvalues [d] and orthonormal eigenvectors in the columns of [w] (numpy.linalg.eigh). *)
Definition eigensystem (n : nat) (h : mat) (d : vec) (w : mat) : Prop :=
  orthonormal_cols n w /\ forall i j, (i < n)%nat -> (j < n)%nat -> h i j = Rsum n (fun k => w i k * d k * w j k).

Lemma amin_le n d i : (i < n)%nat -> amin n d <= d i.
Proof.
  induction n as [|[|n] IH]; intros H; [lia| |].
  - replace i with O by lia. cbn. lra.
  - change (amin (S (S n)) d) with (Rmin (amin (S n) d) (d (S n))). destruct (Nat.eq_dec i (S n)) as [->|]; [apply Rmin_r|].
    eapply Rle_trans; [apply Rmin_l|]. apply IH. lia.
Qed.
(** The shift stays above minus the lowest eigenvalue, and is not negative. *)
Lemma trm_loop_shift n gE d tr : forall left lmin lmax lamb last,
  0 <= lmin -> - amin n d <= lmin -> lmin < lamb < lmax -> left <> O ->
  exists l, 0 <= l /\ - amin n d < l /\ trm_loop n gE d tr left lmin lmax lamb last = trm_step gE d l.
Proof.
  induction left as [|left IH]; intros lmin lmax lamb last H0 Hm Hl N; [easy|]. cbn [trm_loop].
  set (y := Rsum n (fun i => trm_step gE d lamb i ^ 2) - tr ^ 2). set (dy := -2 * _).
  destruct (Rlt_dec (Rabs (y / dy)) _). { exists lamb. repeat split; lra. }
  destruct (Rlt_dec (Rabs y) _). { exists lamb. repeat split; lra. }
  destruct left as [|left']. { cbn [trm_loop]. exists lamb. repeat split; lra. }
  destruct (Rlt_dec y 0) as [L|L].
  - rewrite Rmin_left by lra. apply IH; try lra; try easy.
    destruct (Rle_dec (lamb - y / dy) lmin); [lra|]. destruct (Rle_dec lamb (lamb - y / dy)); lra.
  - rewrite Rmax_left by lra. apply IH; try lra; try easy.
    destruct (Rle_dec (lamb - y / dy) lamb); [lra|]. destruct (Rle_dec lmax (lamb - y / dy)); lra.
Qed.
Lemma trm_dxe_shift n gE d tr : (0 < n)%nat -> (forall i, (i < n)%nat -> 1 / 10 ^ 5 < Rabs (d i)) -> - 10 ^ 30 < amin n d ->
  exists l, 0 <= l /\ (forall i, (i < n)%nat -> 0 < d i + l) /\ forall i, (i < n)%nat -> trm_dxe n gE d tr i = gE i / (d i + l).
Proof.
  intros Hn Hd Hb. unfold trm_dxe.
  assert (It : exists l, 0 <= l /\ - amin n d < l /\
     trm_loop n gE d tr 100 (Rmax 0 (- amin n d)) (10 ^ 30) (Rmin (Rmax 0 (- amin n d) + 1 / 2) (1 / 2 * (Rmax 0 (- amin n d) + 10 ^ 30))) (trm_newton gE d) = trm_step gE d l).
  { assert (M : Rmax 0 (- amin n d) < 10 ^ 30) by (apply Rmax_lub_lt; cbn [pow] in *; lra).
    apply trm_loop_shift; [apply Rmax_l|apply Rmax_r| |easy]. split.
    - apply Rmin_glb_lt; lra.
    - eapply Rle_lt_trans; [apply Rmin_r|]. lra. }
  assert (F : exists l, 0 <= l /\ (forall i, (i < n)%nat -> 0 < d i + l) /\ forall i, (i < n)%nat ->
     trm_loop n gE d tr 100 (Rmax 0 (- amin n d)) (10 ^ 30) (Rmin (Rmax 0 (- amin n d) + 1 / 2) (1 / 2 * (Rmax 0 (- amin n d) + 10 ^ 30))) (trm_newton gE d) i = gE i / (d i + l)).
  { destruct It as (l & A & B & E). exists l. split; [exact A|]. split; [|intros i Hi; now rewrite E].
    intros i Hi. pose proof (amin_le n d i Hi). lra. }
  destruct (Rlt_dec 0 (amin n d)) as [P|P]; [|exact F]. destruct (Rlt_dec (norm n (trm_newton gE d)) tr); [|exact F].
  exists 0. split; [lra|]. split.
  - intros i Hi. pose proof (amin_le n d i Hi). lra.
  - intros i Hi. unfold trm_newton. destruct (Rlt_dec _ _) as [_|L]; [|elim L; now apply Hd]. now rewrite Rplus_0_r.
Qed.
Lemma gE_full n f d w i : (1 / 10 ^ 5 < Rabs (d i)) -> trm_gE n f d w i = Rsum n (fun k => f k * w k i).
Proof.
  intros H. unfold trm_gE. destruct (Rlt_dec (d i) _); [easy|]. destruct (Rlt_dec (d i) _) as [L|]; [|easy].
  exfalso. revert H. unfold Rabs. destruct (Rcase_abs (d i)); cbn [pow] in *; lra.
Qed.
(** The model in the basis of the eigenvectors. *)
Lemma model_eigen n f h d w z : eigensystem n h d w ->
  let zeta := fun k => Rsum n (fun i => z i * w i k) in
  trm_model n f h z = Rsum n (fun k => - (Rsum n (fun i => f i * w i k)) * zeta k + 1 / 2 * (d k * (zeta k * zeta k))) /\
  dot n z z = Rsum n (fun k => zeta k * zeta k).
Proof.
  intros [O H]. cbv zeta. pose proof (cols_rows n w O) as O'.
  assert (D : forall u v, dot n u v = Rsum n (fun k => Rsum n (fun i => u i * w i k) * Rsum n (fun i => v i * w i k))).
  { intros u v. transitivity (Rsum n (fun i => Rsum n (fun j => u i * v j * Rsum n (fun k => w i k * w j k)))).
    - unfold dot. apply Rsum_ext. intros i Hi. transitivity (u i * Rsum n (fun j => v j * delta i j)).
      + now rewrite Rsum_delta_l.
      + rewrite <- Rsum_scal. apply Rsum_ext. intros j Hj. rewrite (O' i j Hi Hj). ring.
    - transitivity (Rsum n (fun k => Rsum n (fun i => Rsum n (fun j => u i * w i k * (v j * w j k))))).
      + symmetry. rewrite Rsum_swap. apply Rsum_ext. intros i Hi. rewrite Rsum_swap. apply Rsum_ext. intros j Hj.
        rewrite <- Rsum_scal. apply Rsum_ext. intros; ring.
      + apply Rsum_ext. intros k Hk. rewrite <- Rsum_scal_r. apply Rsum_ext. intros i Hi. now rewrite Rsum_scal. }
  split; [|apply D]. unfold trm_model. rewrite Rsum_plus, Rsum_scal. f_equal.
  - rewrite D, <- Rsum_opp. apply Rsum_ext. intros; ring.
  - f_equal. unfold dot, mv.
    transitivity (Rsum n (fun i => Rsum n (fun j => Rsum n (fun k => d k * (z i * w i k) * (z j * w j k))))).
    + apply Rsum_ext. intros i Hi. rewrite <- Rsum_scal. apply Rsum_ext. intros j Hj. rewrite (H i j Hi Hj).
      transitivity (Rsum n (fun k => w i k * d k * w j k) * (z i * z j)); [ring|]. rewrite <- Rsum_scal_r. apply Rsum_ext. intros; ring.
    + transitivity (Rsum n (fun k => Rsum n (fun i => Rsum n (fun j => d k * (z i * w i k) * (z j * w j k))))).
      * symmetry. rewrite Rsum_swap. apply Rsum_ext. intros i Hi. now rewrite Rsum_swap.
      * apply Rsum_ext. intros k Hk. rewrite <- (Rsum_scal_r n _ (fun i => z i * w i k)), <- Rsum_scal. apply Rsum_ext. intros i Hi.
        rewrite Rsum_scal. ring.
Qed.
Lemma dx_eigen n w x k : orthonormal_cols n w -> (k < n)%nat -> Rsum n (fun i => mv n w x i * w i k) = x k.
Proof.
  intros O Hk. rewrite <- (ortho_roundtrip n w x k O Hk). apply Rsum_ext. intros i Hi. unfold mv. ring.
Qed.
(** Whatever the trust radius: among all displacements no longer than the one returned, it is
    the one with the lowest modelled energy, and the model predicts a decrease. *)
Theorem trust_step_optimal_partial n f h d w tr : (0 < n)%nat -> eigensystem n h d w ->
  (forall i, (i < n)%nat -> 1 / 10 ^ 5 < Rabs (d i)) -> - 10 ^ 30 < amin n d ->
  let dx := min_trm n f d w tr in
  (forall z, dot n z z <= dot n dx dx -> trm_model n f h dx <= trm_model n f h z) /\
  (nonzero n f -> trm_model n f h dx < 0).
Proof.
  intros Hn Es Hd Hb dx. destruct (trm_dxe_shift n (trm_gE n f d w) d tr Hn Hd Hb) as (l & L0 & Lp & El).
  set (g := fun k => Rsum n (fun i => f i * w i k)).
  assert (Eg : forall k, (k < n)%nat -> trm_dxe n (trm_gE n f d w) d tr k = g k / (d k + l)).
  { intros k Hk. rewrite (El k Hk), gE_full by now apply Hd. reflexivity. } clear Hb Hd El.
  destruct (model_eigen n f h d w dx Es) as [M1 N1]. cbv zeta in M1, N1.
  assert (X : forall k, (k < n)%nat -> Rsum n (fun i => dx i * w i k) = g k / (d k + l)).
  { intros k Hk. unfold dx, min_trm. rewrite dx_eigen; [now apply Eg|apply Es|exact Hk]. }
  set (x := fun k => g k / (d k + l)).
  rewrite (Rsum_ext n _ (fun k => x k * x k)) in N1 by (intros k Hk; now rewrite X).
  rewrite (Rsum_ext n _ (fun k => - g k * x k + 1 / 2 * (d k * (x k * x k)))) in M1 by (intros k Hk; now rewrite X).
  assert (Gx : forall k, (k < n)%nat -> g k = (d k + l) * x k). { intros k Hk. unfold x. specialize (Lp k Hk). field. lra. }
  split.
  - intros z Hz. destruct (model_eigen n f h d w z Es) as [M2 N2]. cbv zeta in M2, N2. rewrite M1, M2.
    set (y := fun k => Rsum n (fun i => z i * w i k)) in *.
    assert (Q : 0 <= Rsum n (fun k => 1 / 2 * ((d k + l) * ((y k - x k) * (y k - x k))))).
    { apply Rsum_nonneg. intros k Hk. specialize (Lp k Hk). apply Rmult_le_pos; [lra|]. apply Rmult_le_pos; [lra|]. apply (Rle_0_sqr (y k - x k)). }
    assert (I : Rsum n (fun k => 1 / 2 * ((d k + l) * ((y k - x k) * (y k - x k)))) =
      Rsum n (fun k => - Rsum n (fun i => f i * w i k) * y k + 1 / 2 * (d k * (y k * y k)))
      - Rsum n (fun k => - g k * x k + 1 / 2 * (d k * (x k * x k)))
      + 1 / 2 * l * (Rsum n (fun k => y k * y k) - Rsum n (fun k => x k * x k))).
    { rewrite <- !Rsum_minus, <- Rsum_scal, <- Rsum_plus. apply Rsum_ext. intros k Hk.
      change (Rsum n (fun i => f i * w i k)) with (g k). rewrite (Gx k Hk). field. }
    change (dot n z z = Rsum n (fun k => y k * y k)) in N2.
    change (Rsum n (fun k => - g k * x k + 1 / 2 * (d k * (x k * x k))) <= Rsum n (fun k => - Rsum n (fun i => f i * w i k) * y k + 1 / 2 * (d k * (y k * y k)))).
    rewrite N1, N2 in Hz. assert (0 <= 1 / 2 * l * (Rsum n (fun k => x k * x k) - Rsum n (fun k => y k * y k))) by (apply Rmult_le_pos; lra). lra.
  - intros Nf. rewrite M1.
    assert (E : Rsum n (fun k => - g k * x k + 1 / 2 * (d k * (x k * x k))) = - Rsum n (fun k => 1 / 2 * (d k + l) * (x k * x k) + 1 / 2 * l * (x k * x k))).
    { rewrite <- Rsum_opp. apply Rsum_ext. intros k Hk. rewrite (Gx k Hk). field. }
    rewrite E. apply Ropp_lt_gt_0_contravar.
    assert (T : forall k, (k < n)%nat -> 0 <= 1 / 2 * (d k + l) * (x k * x k) + 1 / 2 * l * (x k * x k)).
    { intros k Hk. specialize (Lp k Hk). assert (0 <= x k * x k) by nra. assert (0 <= 1 / 2 * (d k + l) * (x k * x k)) by (apply Rmult_le_pos; lra).
      assert (0 <= 1 / 2 * l * (x k * x k)) by (apply Rmult_le_pos; lra). lra. }
    destruct (Rle_lt_or_eq_dec 0 _ (Rsum_nonneg n _ T)) as [|Z]; [assumption|]. exfalso.
    assert (X0 : forall k, (k < n)%nat -> x k = 0).
    { intros k Hk. pose proof (Rsum_eq0 n _ T (eq_sym Z) k Hk) as E0. cbv beta in E0. specialize (Lp k Hk).
      assert (0 <= x k * x k) by nra. assert (0 <= 1 / 2 * l * (x k * x k)) by (apply Rmult_le_pos; lra).
      assert (0 <= 1 / 2 * (d k + l) * (x k * x k)) by (apply Rmult_le_pos; lra).
      assert (E1 : (d k + l) * (x k * x k) = 0) by lra. apply Rmult_integral in E1. destruct E1 as [E1|E1]; [lra|]. apply Rmult_integral in E1. tauto. }
    pose proof (dot_self_pos n f Nf) as Pf. destruct (model_eigen n f h d w f Es) as [_ N3]. cbv zeta in N3. rewrite N3 in Pf.
    rewrite Rsum_0 in Pf; [lra|]. intros k Hk. fold (g k). rewrite (Gx k Hk), (X0 k Hk). ring.
Qed.
Print Assumptions trust_step_optimal_partial.
(** A rejected step halves the radius to half its length; an accepted one never lets the radius
    grow beyond the largest step. *)
Theorem trust_radius n big tr q dx : 0 <= tr <= big -> norm n dx <= 2 * tr ->
  (q <= 1 / 10 -> trm_radius n big tr q dx = 1 / 2 * norm n dx) /\ 0 <= trm_radius n big tr q dx <= big.
Proof.
  intros Ht Hn. pose proof (norm_nonneg n dx). unfold trm_radius. split.
  - intros Hq. destruct (Rlt_dec q (1 / 4)); [easy|lra].
  - destruct (Rlt_dec q (1 / 4)); [lra|]. destruct (Rlt_dec (3 / 4) q); [|lra]. destruct (Rlt_dec _ (norm n dx)); [|lra].
    destruct (Rlt_dec big (2 * tr)); lra.
Qed.
Print Assumptions trust_radius.
(** A step that is accepted after any number of tries lowers the energy by at least a tenth of
    the decrease predicted, when it is longer than 0.05. *)
Theorem trust_accept_partial n fdf step x0 u0 f0 h0 big fuel tr x u f dx tr' :
  trm_try n fdf step x0 u0 f0 h0 big fuel tr = Some (x, u, f, dx, tr') ->
  trm_model n f0 h0 dx < 0 ->
  x = vadd x0 dx /\ u = fst (fdf x) /\ (forall i, f i = - snd (fdf x) i) /\ (exists r, dx = step r) /\
  (5 / 100 < norm n dx -> u < u0 + 1 / 10 * trm_model n f0 h0 dx) /\
  (norm n dx <= 5 / 100 -> 0 < dot n dx (vadd f0 f)).
Proof.
  revert tr. induction fuel as [|fuel IH]; intros tr E M; [discriminate|]. cbn [trm_try] in E.
  destruct (fdf (vadd x0 (step tr))) as [u1 g1] eqn:Ef.
  destruct (Rlt_dec (1 / 10) _) as [Q|Q]; [|now apply IH in E].
  injection E as <- <- <- <- <-. rewrite Ef. cbn [fst snd]. split; [easy|]. split; [easy|]. split; [easy|]. split; [now exists tr|].
  set (dx := step tr) in *. unfold trm_quality in Q. fold (trm_model n f0 h0 dx) in Q. set (m := trm_model n f0 h0 dx) in *.
  assert (G : forall a, 1 / 10 < a / m -> a < 1 / 10 * m).
  { intros a A. replace a with (a / m * m) by (field; lra). nra. }
  destruct (Rlt_dec (5 / 100) (norm n dx)) as [L|L]; split; intros C; try lra.
  - apply G in Q. lra.
  - apply G in Q. lra.
Qed.
Print Assumptions trust_accept_partial.
(** False of the code: for shorter steps only the forces are looked at, and the energy may rise.
    Here -t + 150 t^2 - 2500 t^3 with Hessian 25 at t = 0: the step of 0.04 is accepted at once. *)
Definition ripple (x : vec) : R * vec :=
  (- x O + 150 * x O ^ 2 - 2500 * x O ^ 3, fun _ => -1 + 300 * x O - 7500 * x O ^ 2).
Theorem trust_short_refuted : exists (fdf : vec -> R * vec) x0 d w x u f dx tr',
  (forall x, derivable_pt_lim (fun t => fst (fdf (fun _ => t))) (x O) (snd (fdf x) O)) /\
  let f0 := fun i => - snd (fdf x0) i in
  eigensystem 1 (fun _ _ => 25) d w /\
  trm_try 1 fdf (min_trm 1 f0 d w) x0 (fst (fdf x0)) f0 (fun _ _ => 25) 1 1 (4 / 10) = Some (x, u, f, dx, tr') /\
  fst (fdf x0) < u.
Proof.
  set (x0 := fun _ : nat => 0). set (f0 := fun i => - snd (ripple x0) i). set (d := fun _ : nat => 25). set (w := fun _ _ : nat => 1).
  assert (F0 : f0 O = 1) by (unfold f0, ripple, x0; cbn; ring).
  assert (DX : min_trm 1 f0 d w (4 / 10) O = 1 / 25).
  { unfold min_trm, mv. cbn [Rsum]. unfold w at 1. rewrite Rplus_0_l, Rmult_1_l. unfold trm_dxe. cbn [amin]. unfold d at 1.
    destruct (Rlt_dec 0 25) as [_|L]; [|lra].
    assert (Nt : trm_newton (trm_gE 1 f0 d w) d O = 1 / 25).
    { unfold trm_newton, d. rewrite Rabs_pos_eq by lra. destruct (Rlt_dec _ _) as [_|L]; [|cbn [pow] in L; lra].
      fold d. rewrite gE_full by (unfold d; rewrite Rabs_pos_eq by lra; cbn [pow]; lra). unfold w. cbn [Rsum]. rewrite F0. field. }
    destruct (Rlt_dec _ (4 / 10)) as [_|L]; [exact Nt|]. exfalso. apply L. rewrite norm1, Nt, Rabs_pos_eq by lra. lra. }
  set (dx := min_trm 1 f0 d w (4 / 10)) in *. set (x := vadd x0 dx). assert (X : x O = 1 / 25) by (unfold x, vadd, x0; rewrite DX; ring).
  assert (U0 : fst (ripple x0) = 0) by (unfold ripple, x0; cbn [fst]; ring).
  assert (U : fst (ripple x) = 1 / 25) by (unfold ripple; cbn [fst]; rewrite X; field).
  exists ripple, x0, d, w, x, (fst (ripple x)), (fun i => - snd (ripple x) i), dx,
    (trm_radius 1 1 (4 / 10) (trm_quality 1 (fst (ripple x0)) f0 (fun _ _ => 25) dx (fst (ripple x)) (fun i => - snd (ripple x) i)) dx). split; [|split; [|split]].
  - intros v. unfold ripple. cbn [fst snd].
    apply (derivable_ext (fun t => (- t + 150 * t ^ 2) - 2500 * t ^ 3)); [easy|].
    apply (derivable_eq _ _ ((- (1) + (0 * v O ^ 2 + 150 * (INR 2 * v O ^ 1))) - (0 * v O ^ 3 + 2500 * (INR 3 * v O ^ 2)))); [cbn [INR pow]; ring|].
    apply (derivable_pt_lim_minus (fun t => - t + 150 * t ^ 2) (fun t => 2500 * t ^ 3)).
    + apply (derivable_pt_lim_plus (fun t => - t) (fun t => 150 * t ^ 2)).
      * apply (derivable_pt_lim_opp (fun t => t)), derivable_pt_lim_id.
      * apply (derivable_pt_lim_mult (fun _ => 150) (fun t => t ^ 2)); [apply derivable_pt_lim_const|apply (derivable_pt_lim_pow (v O) 2)].
    + apply (derivable_pt_lim_mult (fun _ => 2500) (fun t => t ^ 3)); [apply derivable_pt_lim_const|apply (derivable_pt_lim_pow (v O) 3)].
  - split.
    + intros i k Hi Hk. replace i with O by lia. replace k with O by lia. unfold w, delta. cbn. ring.
    + intros i j _ _. unfold w, d. cbn. ring.
  - cbn [trm_try]. fold f0. fold dx. fold x. destruct (ripple x) as [u g] eqn:E. cbn [fst snd] in *.
    destruct (Rlt_dec (1 / 10) _) as [_|L]; [reflexivity|]. exfalso. apply L. unfold trm_quality.
    assert (Gx : g O = -1). { assert (Eg : snd (ripple x) O = g O) by now rewrite E. rewrite <- Eg. unfold ripple. cbn [snd]. rewrite X. field. }
    rewrite norm1, DX, Rabs_pos_eq by lra. destruct (Rlt_dec (5 / 100) (1 / 25)) as [C|_]; [lra|].
    rewrite !dot1. unfold vadd, mv. cbn [Rsum]. rewrite DX, F0, Gx. unfold d. match goal with |- _ < ?a => replace a with 2 by field end. lra.
  - rewrite U0, U. lra.
Qed.

(** ** C107: FIRE *)
Definition fire_ok (P : fire_par) (st : fire_state) : Prop :=
  0 < dtmin P /\ dtmin P <= fi_dt st <= dtmax P /\ 0 <= fi_a st <= 1.
Definition par_ok (P : fire_par) : Prop :=
  0 < dtmin P <= dtmax P /\ 1 <= finc P /\ 0 < fdec P <= 1 /\ 0 <= astart P <= 1 /\ 0 <= fa P <= 1 /\ 0 < maxstep P.
(** Along any run the time step stays between its bounds, the mixing factor in [0, 1], and the
    velocity points along the force after every step. *)
Theorem fire_step_ok n P x0 g0 st x st' : par_ok P -> fire_ok P st -> fire n P x0 g0 st = (x, st') ->
  fire_ok P st' /\ (nonzero n g0 -> 0 < dot n (fun i => - g0 i) (fi_v st')).
Proof.
  intros (P1 & P2 & P3 & P4 & P5 & P6) (F0 & F1 & F2) E. unfold fire in E.
  destruct (Rlt_dec 0 _) as [Hp|Hp].
  - set (F := fun i => - g0 i) in *.
    assert (C : exists dt a, (if ndelay P <? S (fi_dn st) then (Rmin (fi_dt st * finc P) (dtmax P), fi_a st * fa P) else (fi_dt st, fi_a st)) = (dt, a)
       /\ dtmin P <= dt <= dtmax P /\ 0 <= a <= 1).
    { destruct (ndelay P <? S (fi_dn st)).
      - exists (Rmin (fi_dt st * finc P) (dtmax P)), (fi_a st * fa P). split; [reflexivity|]. split.
        + split; [apply Rmin_glb; [|lra]; nra|apply Rmin_r].
        + split; [apply Rmult_le_pos; lra|]. nra.
      - exists (fi_dt st), (fi_a st). auto. }
    destruct C as (dt & a & C & C1 & C2). rewrite C in E. apply (f_equal snd) in E; cbn [snd] in E; subst st'. split; [split; [lra|]; cbn [fi_dt fi_a]; auto|].
    intros N. cbn [fi_v].
    assert (NF : nonzero n F). { destruct N as (i & Hi & N). exists i. split; [easy|]. unfold F. lra. }
    pose proof (norm_pos n F NF) as NP. pose proof (dot_self_pos n F NF) as DP.
    set (v1 := fun i => fi_v st i + dt * F i).
    rewrite (dot_ext n F F _ (fun i => (1 - a) * v1 i + (a * norm n v1 * / norm n F) * F i)) by (try easy; intros i _; unfold v1, F, Rdiv; ring).
    rewrite dot_add_r, !dot_scal_r.
    assert (V1 : 0 < dot n F v1). { unfold v1. rewrite dot_add_r, dot_scal_r. assert (0 < dt) by lra. nra. }
    assert (N1 : 0 < norm n v1) by (apply norm_pos; apply (dot_pos_nonzero n v1 F); rewrite dot_comm; lra).
    replace (a * norm n v1 * / norm n F * dot n F F) with (a * (norm n v1 * norm n F)) by (rewrite <- norm_sq; field; lra).
    assert (0 < norm n v1 * norm n F) by now apply Rmult_lt_0_compat.
    destruct (Rle_lt_or_eq_dec 0 a ltac:(lra)) as [A|<-].
    + assert (0 < a * (norm n v1 * norm n F)) by now apply Rmult_lt_0_compat. assert (0 <= (1 - a) * dot n F v1) by (apply Rmult_le_pos; lra). lra.
    + lra.
  - apply (f_equal snd) in E; cbn [snd] in E; subst st'. set (F := fun i => - g0 i) in *. split.
    + split; [lra|]. cbn [fi_dt fi_a]. split; [|lra]. split; [apply Rmax_r|]. apply Rmax_lub; nra.
    + intros N. cbn [fi_v]. set (dt := Rmax _ _). assert (D : 0 < dt) by (eapply Rlt_le_trans; [|apply Rmax_r]; lra).
      rewrite (dot_ext n F F _ (fun i => dt * F i)) by (try easy; intros i _; unfold F; ring). rewrite dot_scal_r.
      apply Rmult_lt_0_compat; [easy|]. apply dot_self_pos. destruct N as (i & Hi & N). exists i. split; [easy|]. unfold F. lra.
Qed.
Print Assumptions fire_step_ok.
(** Going downhill, no step is longer than the largest one. *)
Theorem fire_maxstep_partial n P x0 g0 st : par_ok P -> 0 < dot n (fun i => - g0 i) (fi_v st) ->
  norm n (vsub (fst (fire n P x0 g0 st)) x0) <= maxstep P.
Proof.
  intros (_ & _ & _ & _ & _ & M) Hp. unfold fire. destruct (Rlt_dec 0 _) as [_|L]; [|easy].
  destruct (if ndelay P <? S (fi_dn st) then _ else _) as [dt a]. cbn [fst].
  match goal with |- context [Rlt_dec (maxstep P) (norm n ?D)] => set (dx := D) end. assert (E : forall w, norm n (vsub (vadd x0 w) x0) = norm n w).
  { intros w. unfold norm. f_equal. apply dot_ext; intros i _; unfold vsub, vadd; ring. }
  rewrite E. destruct (Rlt_dec (maxstep P) (norm n dx)) as [L|L]; [|lra].
  assert (E2 : norm n (fun i => maxstep P * dx i / norm n dx) = norm n (fun i => maxstep P / norm n dx * dx i)).
  { unfold norm at 1 3. f_equal. apply dot_ext; intros i _; unfold Rdiv; ring. }
  change (norm n (fun i => maxstep P * dx i / norm n dx) <= maxstep P). rewrite E2, norm_scal, Rabs_pos_eq by (left; apply Rdiv_lt_0_compat; lra). right. field. lra.
Qed.
Print Assumptions fire_maxstep_partial.
(** False of the code: the correction of an uphill motion is not limited. *)
Theorem fire_maxstep_refuted : exists P x0 g0 st, par_ok P /\ fire_ok P st /\
  maxstep P < norm 1 (vsub (fst (fire 1 P x0 g0 st)) x0).
Proof.
  exists (FireP (1 / 2) 1 (1 / 10 ^ 5) 5 (11 / 10) (1 / 2) (1 / 10) (99 / 100)), (fun _ => 0), (fun _ => 1), (FireS (fun _ => 100) (1 / 10) 0 0 (1 / 10)).
  split; [unfold par_ok; cbn; lra|]. split; [unfold fire_ok; cbn; lra|].
  unfold fire. cbn [fi_v fi_dt fi_a fi_dn fi_up maxstep dtmax dtmin ndelay finc fdec astart fa]. rewrite dot1.
  destruct (Rlt_dec 0 _) as [L|_]; [lra|]. cbn [fst]. rewrite (Rmax_left (1 / 10 * (1 / 2))) by (cbn [pow]; lra).
  destruct (Rlt_dec (1 / 2) _) as [L|_]; [exfalso; rewrite norm1, Rabs_left in L; lra|].
  rewrite norm1. unfold vsub, vadd. rewrite Rabs_left; lra.
Qed.

(** ** C107: mode following *)
(** Search of a saddle point: uphill along the lowest mode, downhill along all others. *)
Lemma nichols_par_between d0 d1 : d0 < d1 -> (d1 < 0 -> d1 <> d0 / 2) ->
  let '(alpha, lamb) := nichols_par d0 d1 in 0 < alpha /\ d0 < lamb < d1.
Proof.
  intros L N. unfold nichols_par. destruct (Rlt_dec 0 d0).
  - destruct (Rlt_dec d0 (d1 / 2)); [split; lra|]. split; [apply Rdiv_lt_0_compat; lra|lra].
  - destruct (Rlt_dec d1 0) as [M|M].
    + destruct (Rle_dec (d0 / 2) d1) as [Q|Q].
      * specialize (N M). split; [lra|]. destruct (Rle_lt_or_eq_dec _ _ Q); [lra|]. now elim N.
      * split; [|lra]. replace ((d0 - d1) / d1) with ((d1 - d0) / (- d1)) by (field; lra). apply Rdiv_lt_0_compat; lra.
    + split; lra.
Qed.
Theorem nichols_saddle_partial n gE d : (2 <= n)%nat -> d O < d 1%nat -> (d 1%nat < 0 -> d 1%nat <> d O / 2) ->
  (forall j, (1 <= j < n)%nat -> d 1%nat <= d j) ->
  (gE O <> 0 -> 0 < gE O * nichols_ts gE d O) /\ forall j, (1 <= j < n)%nat -> gE j <> 0 -> gE j * nichols_ts gE d j < 0.
Proof.
  intros Hn L N S. pose proof (nichols_par_between (d O) (d 1%nat) L N) as B. unfold nichols_ts.
  destruct (nichols_par (d O) (d 1%nat)) as [alpha lamb]. destruct B as [A B]. split.
  - intros G. replace (gE O * (alpha * gE O / (lamb - d O))) with (gE O * gE O * (alpha * / (lamb - d O))) by (unfold Rdiv; ring).
    assert (0 < gE O * gE O) by (destruct (Rdichotomy _ _ G); nra). apply Rmult_lt_0_compat; [easy|]. apply Rmult_lt_0_compat; [easy|]. apply Rinv_0_lt_compat. lra.
  - intros j Hj G. specialize (S j Hj). replace (gE j * (alpha * gE j / (lamb - d j))) with (- (gE j * gE j * (alpha * / (d j - lamb)))) by (field; lra).
    apply Ropp_lt_gt_0_contravar. assert (0 < gE j * gE j) by (destruct (Rdichotomy _ _ G); nra). apply Rmult_lt_0_compat; [easy|]. apply Rmult_lt_0_compat; [easy|]. apply Rinv_0_lt_compat. lra.
Qed.
Print Assumptions nichols_saddle_partial.
Example nichols_case : nichols_par (-4) (-1) = (1, -3 / 2) /\ nichols_par 1 3 = (1, 5 / 4).
Proof.
  unfold nichols_par. split.
  - destruct (Rlt_dec 0 (-4)); [lra|]. destruct (Rlt_dec (-1) 0); [|lra]. destruct (Rle_dec (-4 / 2) (-1)); [|lra]. f_equal. field.
  - destruct (Rlt_dec 0 1); [|lra]. destruct (Rlt_dec 1 (3 / 2)); [|lra]. f_equal. field.
Qed.
(** False of the code: when the second eigenvalue is half of a negative first one, the shift is
    the second eigenvalue itself and the step along that mode divides by zero. *)
Theorem nichols_shift_refuted : exists d0 d1, d0 < d1 /\ snd (nichols_par d0 d1) - d1 = 0.
Proof.
  exists (-2), (-1). split; [lra|]. unfold nichols_par. destruct (Rlt_dec 0 (-2)); [lra|]. destruct (Rlt_dec (-1) 0); [|lra].
  destruct (Rle_dec (-2 / 2) (-1)); [|lra]. cbn [snd]. field.
Qed.
(** Minimisation: downhill along every mode (ascending eigenvalues, force along the lowest). *)
Theorem nichols_min_downhill n gE d big : (0 < n)%nat -> 0 < big -> gE O <> 0 ->
  (forall j, (j < n)%nat -> d O <= d j) -> d O <> 0 ->
  forall j, (j < n)%nat -> gE j <> 0 -> gE j * nichols_min n gE d big j < 0.
Proof.
  intros Hn Hb G0 S D0 j Hj G.
  assert (P : forall lamb, lamb < d j -> gE j * (1 * gE j / (lamb - d j)) < 0).
  { intros lamb Hl. replace (gE j * (1 * gE j / (lamb - d j))) with (- (gE j * gE j * / (d j - lamb))) by (field; lra).
    apply Ropp_lt_gt_0_contravar. assert (0 < gE j * gE j) by (destruct (Rdichotomy _ _ G); nra). apply Rmult_lt_0_compat; [easy|]. apply Rinv_0_lt_compat. lra. }
  assert (Q : d O - Rabs (gE O / big) < d j).
  { specialize (S j Hj). assert (0 < Rabs (gE O / big)); [|lra]. apply Rabs_pos_lt. unfold Rdiv. apply Rmult_integral_contrapositive_currified; [easy|]. apply Rinv_neq_0_compat. lra. }
  unfold nichols_min. destruct (Rlt_dec (d O) 0); [now apply P|]. destruct (Rlt_dec (big ^ 2) _); [now apply P|].
  apply P. specialize (S j Hj). destruct (Rle_lt_or_eq_dec 0 (d O)); lra.
Qed.
Print Assumptions nichols_min_downhill.
(** False of the code: the step is not limited to big_step; only its first component is. *)
Theorem nichols_big_step_refuted : exists gE d big, 0 < big /\ d O <= d 1%nat /\ 0 < d O /\ big < norm 2 (nichols_min 2 gE d big).
Proof.
  exists (fun j => match j with O => 3 | _ => 4 end), (fun _ => 1), 1. split; [lra|]. split; [lra|]. split; [lra|].
  unfold nichols_min. destruct (Rlt_dec 1 0); [lra|].
  destruct (Rlt_dec (1 ^ 2) _) as [_|L].
  - unfold norm, dot. cbn [Rsum]. rewrite Rabs_pos_eq by lra. rewrite <- sqrt_1 at 1. apply sqrt_lt_1; lra.
  - exfalso. apply L. unfold dot. cbn [Rsum]. lra.
Qed.
