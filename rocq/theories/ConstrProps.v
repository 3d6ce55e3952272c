(** * Properties of constrained dynamics: C110 (momenta), C111 (positions), C113 (steps) *)
From Coq Require Import List Arith Bool Reals Lra Lia FunctionalExtensionality.
From Verif Require Import RSum MinModel MinLin ConstrModel ConstrLin.
Import ListNotations.
Open Scope R_scope.

(** ** A solver, so that the assumption on the solver can be met: elimination of the last unknown *)
Fixpoint schur (c : nat) (A : mat) (b : vec) : vec :=
  match c with
  | O => fun _ => 0
  | S n =>
      let y := schur n A b in
      let z := schur n A (fun i => A i n) in
      let t := (b n - dot n (fun i => A n i) y) / (A n n - dot n (fun i => A n i) z) in
      fun i => if (i <? n)%nat then y i - t * z i else t
  end.
Lemma spd_sub n A : spd (S n) A -> spd n A.
Proof.
  intros [Sy P]. split; [intros i j Hi Hj; apply Sy; lia|]. intros v (i & Hi & Hv).
  specialize (P (fun j => if (j <? n)%nat then v j else 0)).
  assert (E : dot (S n) (fun j => if (j <? n)%nat then v j else 0) (mv (S n) A (fun j => if (j <? n)%nat then v j else 0)) = dot n v (mv n A v)).
  { unfold dot, mv. cbn [Rsum]. rewrite Nat.ltb_irrefl, Rmult_0_l, Rplus_0_r. apply Rsum_ext. intros k Hk.
    apply Nat.ltb_lt in Hk as Hk'. rewrite Hk'. f_equal. rewrite Rmult_0_r, Rplus_0_r. apply Rsum_ext. intros j Hj.
    apply Nat.ltb_lt in Hj as Hj'. now rewrite Hj'. }
  rewrite <- E. apply P. exists i. split; [lia|]. apply Nat.ltb_lt in Hi. now rewrite Hi.
Qed.
Lemma mv_S n A v i : mv (S n) A v i = mv n A v i + A i n * v n.
Proof. reflexivity. Qed.
Lemma schur_ok : solver_ok schur.
Proof.
  intros c. induction c as [|n IH]; intros A b H i Hi; [lia|]. pose proof (spd_sub n A H) as H'.
  cbn [schur]. set (y := schur n A b). set (z := schur n A (fun i => A i n)).
  set (s := A n n - dot n (fun i => A n i) z). set (t := (b n - dot n (fun i => A n i) y) / s).
  assert (Y : veq n (mv n A y) b) by (apply IH; assumption).
  assert (Z : veq n (mv n A z) (fun i => A i n)) by (apply IH; assumption).
  assert (Sp : 0 < s).
  { destruct H as [Sy P]. specialize (P (fun j => if (j <? n)%nat then - z j else 1)).
    assert (E : dot (S n) (fun j => if (j <? n)%nat then - z j else 1) (mv (S n) A (fun j => if (j <? n)%nat then - z j else 1)) = s).
    { unfold dot. cbn [Rsum]. rewrite Nat.ltb_irrefl. rewrite mv_S, Nat.ltb_irrefl.
      rewrite (Rsum_0 n); [|intros k Hk; rewrite mv_S, Nat.ltb_irrefl;
        rewrite (mv_ext n A _ (fun j => - z j)) by (intros j Hj; cbn beta; apply Nat.ltb_lt in Hj; now rewrite Hj);
        rewrite mv_opp, (Z k Hk); ring].
      rewrite (mv_ext n A _ (fun j => - z j)) by (intros j Hj; cbn beta; apply Nat.ltb_lt in Hj; now rewrite Hj).
      rewrite mv_opp. unfold s, mv, dot. ring. }
    rewrite <- E. apply P. exists n. split; [lia|]. rewrite Nat.ltb_irrefl. lra. }
  rewrite mv_S, Nat.ltb_irrefl.
  rewrite (mv_ext n A _ (fun j => y j + - t * z j)) by (intros j Hj; cbn beta; apply Nat.ltb_lt in Hj; rewrite Hj; ring).
  rewrite mv_add, mv_scal. destruct (Nat.eq_dec i n) as [->|Ne].
  - change (mv n A y n) with (dot n (fun i => A n i) y). change (mv n A z n) with (dot n (fun i => A n i) z).
    unfold t. replace (dot n (fun i => A n i) z) with (A n n - s) by (unfold s; ring). field. lra.
  - rewrite (Y i), (Z i) by lia. ring.
Qed.

(** ** C110 momenta *)
(** After the projection the momenta are along all constraints. *)
Theorem momenta_projected solve m3 N Gs Q p : solver_ok solve -> (forall j, (j < N)%nat -> 0 < m3 j) ->
  all_apart Gs -> (forall G, In G Gs -> proper N G /\ independent G Q) ->
  forall G, In G Gs -> tangent m3 G Q (proj_cotangent solve m3 Gs Q p).
Proof. intros S M A H G I. exact (cot_all solve m3 N S M Q Gs A H p G I). Qed.
(** It never adds kinetic energy, and for one constraint takes away exactly that of the part of the
    momenta that it removes: the projection is orthogonal. *)
Theorem momenta_projection_orthogonal solve m3 N Q p G : solver_ok solve -> (forall j, (j < N)%nat -> 0 < m3 j) ->
  proper N G -> independent G Q -> let p' := proj_cotangent solve m3 [G] Q p in
  kinetic N m3 p = kinetic N m3 p' + kinetic N m3 (fun j => p j - p' j).
Proof. intros S M P I. exact (cot_kinetic solve m3 N S M Q p G P I). Qed.
Lemma kinetic_nonneg N m3 p : (forall j, (j < N)%nat -> 0 < m3 j) -> 0 <= kinetic N m3 p.
Proof.
  intros M. apply Rsum_nonneg. intros j Hj. pose proof (M j Hj). unfold Rdiv. apply Rmult_le_pos; [apply pow2_ge_0|].
  left. apply Rinv_0_lt_compat. lra.
Qed.
Theorem momenta_projection_cools solve m3 N Gs Q : solver_ok solve -> (forall j, (j < N)%nat -> 0 < m3 j) ->
  (forall G, In G Gs -> proper N G /\ independent G Q) ->
  forall p, kinetic N m3 (proj_cotangent solve m3 Gs Q p) <= kinetic N m3 p.
Proof.
  intros S M. induction Gs as [|G Gs IH]; intros H p; [apply Rle_refl|]. cbn.
  eapply Rle_trans; [apply IH; intros; apply H; now right|]. destruct (H G (or_introl eq_refl)) as [P I].
  rewrite (cot_kinetic solve m3 N S M Q p G P I).
  pose proof (kinetic_nonneg N m3 (fun j => p j - cot_one solve m3 Q p G j) M). lra.
Qed.
(** Momenta that are along the constraints already, and those of other atoms, are left alone. *)
Theorem momenta_projection_once solve m3 N Gs Q p : solver_ok solve -> (forall j, (j < N)%nat -> 0 < m3 j) ->
  (forall G, In G Gs -> proper N G /\ independent G Q /\ tangent m3 G Q p) -> proj_cotangent solve m3 Gs Q p = p.
Proof.
  intros S M. induction Gs as [|G Gs IH]; intros H; [reflexivity|]. cbn.
  assert (E : cot_one solve m3 Q p G = p); [|rewrite E; apply IH; intros; apply H; now right].
  destruct (H G (or_introl eq_refl)) as (P & I & T). apply functional_extensionality. intros j.
  rewrite cot_one_eq. unfold sub_at. destruct (index_of j (ic G)) as [i|]; [|reflexivity].
  set (dg := dgfun G (take (ic G) Q)). set (x := mult solve m3 Q p G). pose proof (gram_spd m3 N M G Q P I) as Sp. fold dg in Sp.
  assert (Ex : veq (ncons G) (mv (ncons G) (gram m3 G dg) x) (fun _ => 0)).
  { intros a Ha. unfold x, mult. fold dg. rewrite (S _ _ _ Sp a Ha). exact (T a Ha). }
  assert (X0 : veq (ncons G) x (fun _ => 0)).
  { destruct (nonzero_dec (ncons G) x) as [Nz|Zx]; [|exact Zx]. exfalso. pose proof (proj2 Sp x Nz) as L.
    rewrite (dot_zero_r _ _ _ Ex) in L. lra. }
  replace (push G dg x i) with 0; [ring|]. symmetry. apply Rsum_0. intros a Ha. rewrite (X0 a Ha). ring.
Qed.
Theorem momenta_of_others_kept solve m3 Gs Q j : (forall G, In G Gs -> ~ In j (ic G)) ->
  forall p, proj_cotangent solve m3 Gs Q p j = p j.
Proof.
  induction Gs as [|G Gs IH]; intros H p; [reflexivity|]. cbn.
  transitivity (cot_one solve m3 Q p G j); [apply IH; intros; apply H; now right|]. apply cot_one_out, H. now left.
Qed.

(** ** C111 positions *)
Lemma newton_conv solve nrm m3 tol G dg dt left : forall k i q p q' p' i',
  newton solve nrm m3 tol G dg dt left k i q p = (q', p', i', true) -> nrm (ncons G) (gfun G (take (ic G) q')) < tol.
Proof.
  induction left as [|n IH]; intros k i q p q' p' i'; cbn; [discriminate|].
  destruct (Rlt_dec _ tol) as [L|_]; [intros [= <- <- <-]; exact L|apply IH].
Qed.
Lemma newton_out solve nrm m3 tol G dg dt left j : ~ In j (ic G) -> forall k i q p q' p' i' c,
  newton solve nrm m3 tol G dg dt left k i q p = (q', p', i', c) -> q' j = q j /\ p' j = p j.
Proof.
  intros NI. induction left as [|n IH]; intros k i q p q' p' i' c; cbn; [intros [= <- <- <- <-]; auto|].
  destruct (Rlt_dec _ tol) as [L|_]; [intros [= <- <- <- <-]; auto|]. intros E. apply IH in E.
  rewrite !sub_at_out in E by assumption. exact E.
Qed.
Lemma newton_link solve nrm m3 tol G dg dt left : dt <> 0 -> (forall j, m3 j <> 0) -> forall k i q p q' p' i' c,
  newton solve nrm m3 tol G dg dt left k i q p = (q', p', i', c) -> forall j, p' j - p j = m3 j * (q' j - q j) / dt.
Proof.
  intros D M. induction left as [|n IH]; intros k i q p q' p' i' c; cbn; [intros [= <- <- <- <-] j; field; assumption|].
  destruct (Rlt_dec _ tol) as [L|_]; [intros [= <- <- <- <-] j; field; assumption|]. intros E j. specialize (IH _ _ _ _ _ _ _ _ E j).
  unfold sub_at in IH. destruct (index_of j (ic G)) as [b|] eqn:Ej; [|exact IH]. apply index_of_Some in Ej. destruct Ej as [_ Ej].
  set (d := push G dg _ b) in IH. unfold take in IH. rewrite Ej in IH.
  replace (p' j - p j) with (p' j - (p j - d / dt) - d / dt) by ring. rewrite IH. field. split; [assumption|apply M].
Qed.
Lemma newton_index solve nrm m3 tol G dg dt left : forall k i q p q' p' i' c,
  newton solve nrm m3 tol G dg dt left k i q p = (q', p', i', c) -> i' = i /\ left = O \/ exists a, i' = Some a /\ (k <= a < k + left)%nat.
Proof.
  induction left as [|n IH]; intros k i q p q' p' i' c; cbn; [intros [= <- <- <- <-]; auto|].
  destruct (Rlt_dec _ tol) as [L|_]; [intros [= <- <- <- <-]; right; exists k; split; [reflexivity|lia]|].
  intros E. apply IH in E. destruct E as [[-> ->]|(a & -> & H)]; right; [exists k|exists a]; split; try reflexivity; lia.
Qed.
Section manifold.
Variable solve : nat -> mat -> vec -> vec.
Variable nrm : nat -> vec -> R.
Variable m3 : vec.
Variable tol : R.
Variable maxit : nat.
Definition within (G : group) (q : vec) : Prop := nrm (ncons G) (gfun G (take (ic G) q)) < tol.
(** What is claimed of the function of positions: it only looks at the coordinates of the constraint. *)
Definition local (G : group) : Prop := forall v w, (forall i, (i < dim G)%nat -> v i = w i) -> gfun G v = gfun G w.
Lemma within_ext G q q' : local G -> (forall j, In j (ic G) -> q j = q' j) -> within G q -> within G q'.
Proof.
  intros L E. unfold within. rewrite (L (take (ic G) q') (take (ic G) q)); [auto|]. intros i Hi. symmetry. apply E. now apply nth_In.
Qed.
Lemma man_none Q dt Gs : fold_left (man_one solve nrm m3 tol maxit Q dt) Gs None = None.
Proof. induction Gs; [reflexivity|exact IHGs]. Qed.
Lemma man_one_some Q dt s G o : man_one solve nrm m3 tol maxit Q dt s G = Some o -> exists s0 i c, s = Some s0 /\
  newton solve nrm m3 tol G (dgfun G (take (ic G) Q)) dt maxit 0 (o_i s0) (o_q s0) (o_p s0) = (o_q o, o_p o, i, c) /\
  o_conv o = andb (o_conv s0) c /\ o_i o = i /\ i <> None /\ o_warn o = (if match i with Some k => Nat.eqb k maxit | None => false end then S (o_warn s0) else o_warn s0).
Proof.
  unfold man_one. destruct s as [s0|]; [|discriminate].
  destruct (newton _ _ _ _ _ _ _ _ _ _ _ _) as [[[q p] i] c] eqn:E. destruct i as [k|]; [|discriminate]. intros [= <-].
  exists s0, (Some k), c. cbn. repeat split; try reflexivity; try discriminate. exact E.
Qed.
Lemma man_conv Q dt Gs : all_apart Gs -> (forall G, In G Gs -> local G) -> forall s o,
  fold_left (man_one solve nrm m3 tol maxit Q dt) Gs (Some s) = Some o -> o_conv o = true ->
  o_conv s = true /\ (forall G, In G Gs -> within G (o_q o)) /\ (forall j, (forall G, In G Gs -> ~ In j (ic G)) -> o_q o j = o_q s j).
Proof.
  intros A. induction A as [|G Gs Ha _ IH]; intros L s o; cbn [fold_left].
  - intros [= <-] C. repeat split; [exact C|intros G []].
  - intros E C. destruct (man_one solve nrm m3 tol maxit Q dt (Some s) G) as [s1|] eqn:E1; [|rewrite man_none in E; discriminate].
    destruct (IH (fun G' H => L G' (or_intror H)) s1 o E C) as (C1 & W & O).
    apply man_one_some in E1. destruct E1 as (s0 & i & c & [= <-] & E1 & Cc & _).
    rewrite C1 in Cc. symmetry in Cc. apply andb_true_iff in Cc. destruct Cc as [Cs ->].
    split; [exact Cs|]. split.
    + intros G' [<-|H]; [|now apply W]. apply within_ext with (o_q s1).
      * apply L. now left.
      * intros j Hj. symmetry. apply O. intros G' H'. now apply (proj1 (Forall_forall _ _) Ha G' H').
      * exact (newton_conv _ _ _ _ _ _ _ _ _ _ _ _ _ _ _ E1).
    + intros j Hj. rewrite O by (intros; apply Hj; now right).
      refine (proj1 (newton_out _ _ _ _ _ _ _ _ j _ _ _ _ _ _ _ _ _ E1)). apply Hj. now left.
Qed.
(** C111, partial (if the iterations suffice): afterwards every constraint is within the tolerance,
    and coordinates without constraints are as they were. *)
Theorem positions_projected_partial Gs Q dt q p o : all_apart Gs -> (forall G, In G Gs -> local G) ->
  proj_manifold solve nrm m3 tol maxit Gs Q dt q p = Some o -> o_conv o = true ->
  (forall G, In G Gs -> within G (o_q o)) /\ (forall j, (forall G, In G Gs -> ~ In j (ic G)) -> o_q o j = q j).
Proof. intros A L E C. destruct (man_conv Q dt Gs A L _ o E C) as (_ & W & O). split; assumption. Qed.
(** Positions and momenta move together: the change of the momenta is that of the velocities over the
    time step, converged or not. *)
Theorem positions_momenta_together Gs Q dt : dt <> 0 -> (forall j, m3 j <> 0) -> forall q p o,
  proj_manifold solve nrm m3 tol maxit Gs Q dt q p = Some o -> forall j, o_p o j - p j = m3 j * (o_q o j - q j) / dt.
Proof.
  intros D M q p o. unfold proj_manifold.
  assert (G0 : forall s, fold_left (man_one solve nrm m3 tol maxit Q dt) Gs (Some s) = Some o ->
    forall j, o_p o j - o_p s j = m3 j * (o_q o j - o_q s j) / dt).
  { induction Gs as [|G Gs IH]; intros s; cbn [fold_left]; [intros [= <-] j; field; assumption|].
    destruct (man_one solve nrm m3 tol maxit Q dt (Some s) G) as [s1|] eqn:E1; [|rewrite man_none; discriminate].
    intros E j. specialize (IH s1 E j). apply man_one_some in E1. destruct E1 as (s0 & i & c & [= <-] & E1 & _).
    pose proof (newton_link _ _ _ _ _ _ _ _ D M _ _ _ _ _ _ _ _ E1 j) as E2.
    replace (o_p o j - o_p s j) with ((o_p o j - o_p s1 j) + (o_p s1 j - o_p s j)) by ring. rewrite IH, E2. field. assumption. }
  apply (G0 (PosOut q p None 0 true)).
Qed.
(** A linear constraint is met exactly after one iteration. *)
Definition linear (G : group) : Prop := forall Q q d a, (a < ncons G)%nat ->
  gfun G (fun i => q i - d i) a = gfun G q a - Rsum (dim G) (fun i => dgfun G Q a i * d i).
Theorem linear_constraint_exact N Q dt q p G : solver_ok solve -> (forall j, (j < N)%nat -> 0 < m3 j) ->
  proper N G -> independent G Q -> local G -> linear G -> ~ within G q -> (1 < maxit)%nat ->
  (forall z, (forall a, (a < ncons G)%nat -> z a = 0) -> nrm (ncons G) z < tol) ->
  exists o, proj_manifold solve nrm m3 tol maxit [G] Q dt q p = Some o /\ o_conv o = true /\
    forall a, (a < ncons G)%nat -> gfun G (take (ic G) (o_q o)) a = 0.
Proof.
  intros S M P I L Li W H Z. unfold proj_manifold. cbn [fold_left]. unfold man_one. cbn [o_i o_q o_p o_warn o_conv].
  destruct maxit as [|[|k]]; [lia|lia|]. cbn [newton]. destruct (Rlt_dec _ tol) as [W'|_]; [contradiction|].
  set (dg := dgfun G (take (ic G) Q)). set (x := solve (ncons G) (gram m3 G dg) (gfun G (take (ic G) q))).
  set (q' := sub_at (ic G) q (fun i => push G dg x i / take (ic G) m3 i)).
  assert (E : forall a, (a < ncons G)%nat -> gfun G (take (ic G) q') a = 0).
  { intros a Ha. rewrite (L (take (ic G) q') (fun i => take (ic G) q i - push G dg x i / take (ic G) m3 i)).
    - rewrite (Li (take (ic G) Q)) by assumption. fold dg. rewrite <- gram_mv. unfold x.
      rewrite (S _ _ _ (gram_spd m3 N M G Q P I) a Ha). ring.
    - intros i Hi. apply take_sub_at; [apply P|exact Hi]. }
  destruct (Rlt_dec (nrm (ncons G) (gfun G (take (ic G) q'))) tol) as [_|Bad]; [|exfalso; apply Bad, Z, E].
  eexists. split; [reflexivity|]. split; [reflexivity|]. exact E.
Qed.
(** C111: the loop variable never reaches the number of iterations, so that the warning is never given. *)
Lemma man_warn Q dt Gs : forall s o, fold_left (man_one solve nrm m3 tol maxit Q dt) Gs (Some s) = Some o ->
  (match o_i s with Some k => (k < maxit)%nat | None => True end) -> o_warn o = o_warn s.
Proof.
  induction Gs as [|G Gs IH]; intros s o; cbn [fold_left]; [intros [= <-] _; reflexivity|].
  destruct (man_one solve nrm m3 tol maxit Q dt (Some s) G) as [s1|] eqn:E1; [|rewrite man_none; discriminate].
  intros E Hi. apply man_one_some in E1. destruct E1 as (s0 & i & c & [= <-] & E1 & _ & Ei & Ni & Ew).
  apply newton_index in E1.
  assert (K : match i with Some k => (k < maxit)%nat | None => True end) by (destruct E1 as [[-> ->]|(a & -> & B)]; [destruct (o_i s); auto|lia]).
  rewrite (IH s1 o E) by (rewrite Ei; exact K). rewrite Ew. destruct i as [k|]; [|reflexivity].
  destruct (Nat.eqb_spec k maxit); [lia|reflexivity].
Qed.
Theorem positions_never_warned Gs Q dt q p o : proj_manifold solve nrm m3 tol maxit Gs Q dt q p = Some o -> o_warn o = O.
Proof. intros E. exact (man_warn Q dt Gs _ o E I). Qed.

(** ** C113 steps *)
Variable N : nat.
Variable Gs : list group.
Hypothesis Hsolve : solver_ok solve.
Hypothesis Hm : forall j, (j < N)%nat -> 0 < m3 j.
Hypothesis Hg : all_apart Gs.
Hypothesis Hp : forall G, In G Gs -> proper N G /\ local G.
(** The conditions are independent wherever they are met within the tolerance. *)
Hypothesis Hi : forall G Q, In G Gs -> within G Q -> independent G Q.
Variable force : nat -> vec -> vec.
Variable pdt : nat -> R.
Variable qdt : R.
Variable ngeo : nat.
Notation Ag := (step_Ag solve nrm m3 tol maxit Gs qdt ngeo).
Notation Bc := (step_Bc solve m3 Gs force pdt).
Notation halves := (halves solve nrm m3 tol maxit Gs force pdt qdt ngeo).
(** In step: the positions the constraints know are those of the beads. *)
Definition insync (s : state) : Prop := s_prev s = s_q s.
Definition on_tangent (s : state) : Prop := forall G, In G Gs -> tangent m3 G (s_q s) (s_p s).
Definition on_manifold (s : state) : Prop := forall G, In G Gs -> within G (s_q s).
(** [good]: in step, and as long as all iterations converged, within the tolerance and along the constraints. *)
Definition good (s : state) : Prop := insync s /\ (s_ok s = true -> on_manifold s /\ on_tangent s).
Definition sound_start (s : state) : Prop := insync s /\ (s_ok s = true -> on_manifold s).
Definition keeps (f : state -> option state) : Prop := forall s s', good s -> f s = Some s' -> good s'.
Lemma do_cot_good s : sound_start s -> good (do_cot solve m3 Gs s).
Proof.
  intros [Y W]. split; [exact Y|]. intros C. specialize (W C). split; [exact W|]. intros G H. cbn. unfold insync in Y. rewrite Y.
  apply momenta_projected with N; auto. intros G' H'. split; [now apply Hp|now apply Hi, W].
Qed.
Lemma geo_good s s' : geo solve nrm m3 tol maxit Gs qdt s = Some s' -> s_prev s = s_q s -> good s'.
Proof.
  unfold geo, do_man. intros E Y. destruct (proj_manifold _ _ _ _ _ _ _ _ _ _) as [o|] eqn:Eo; [|discriminate].
  injection E as <-. apply do_cot_good. split; [reflexivity|]. cbn. intros C. apply andb_true_iff in C. destruct C as [_ C]. intros G H.
  refine (proj1 (positions_projected_partial _ _ _ _ _ _ Hg _ Eo C) G H). intros G' H'. now apply Hp.
Qed.
Lemma keeps_then f g : keeps f -> keeps g -> keeps (and_then f g).
Proof. intros F K s s' H. unfold and_then. destruct (f s) as [s1|] eqn:E; [|discriminate]. intros E'. exact (K s1 s' (F s s1 H E) E'). Qed.
Lemma keeps_id : keeps (fun s => Some s).
Proof. intros s s' H [= <-]. exact H. Qed.
Lemma keeps_times n f : keeps f -> keeps (times n f).
Proof. intros F. induction n as [|n IH]; [apply keeps_id|]. now apply keeps_then. Qed.
Lemma geo_keeps : keeps (geo solve nrm m3 tol maxit Gs qdt).
Proof. intros s s' (Y & _) E. exact (geo_good s s' E Y). Qed.
Lemma Ag_sound s s' : sound_start s -> Ag s = Some s' -> good s'.
Proof. intros H E. exact (keeps_times ngeo _ geo_keeps _ _ (do_cot_good s H) E). Qed.
Lemma Bc_sound level s s' : sound_start s -> Bc level s = Some s' -> good s'.
Proof. intros [Y W] [= <-]. apply do_cot_good. split; assumption. Qed.
Lemma good_start s : good s -> sound_start s.
Proof. intros (Y & W). split; [exact Y|]. intros C. apply (W C). Qed.
Lemma Ag_keeps : keeps Ag.
Proof. intros s s' H. apply Ag_sound. now apply good_start. Qed.
Lemma Bc_keeps level : keeps (Bc level).
Proof. intros s s' H. apply Bc_sound. now apply good_start. Qed.
Lemma halves_keep nmts : forall index, keeps (fst (halves index nmts)) /\ keeps (snd (halves index nmts)).
Proof.
  induction nmts as [|n l IH]; intros index; [split; apply keeps_id|]. cbn [ConstrModel.halves].
  specialize (IH (S index)). destruct (halves (S index) l) as [ba ab]. cbn [fst snd] in IH. destruct IH as [Ib Ia].
  assert (K1 : keeps (match l with [] => Ag | _ => ba end)) by (destruct l; [apply Ag_keeps|exact Ib]).
  assert (K2 : keeps (match l with [] => Ag | _ => ab end)) by (destruct l; [apply Ag_keeps|exact Ia]).
  assert (K3 : keeps (match l with [] => and_then Ag Ag | _ => and_then ba ab end)) by (destruct l; apply keeps_then; auto; apply Ag_keeps).
  cbn [fst snd]. split; apply keeps_then.
  - apply keeps_times, keeps_then; [apply Bc_keeps|]. apply keeps_then; [exact K3|apply Bc_keeps].
  - destruct (Nat.odd n); [apply keeps_then; [apply Bc_keeps|exact K1]|apply keeps_id].
  - destruct (Nat.odd n); [apply keeps_then; [exact K2|apply Bc_keeps]|apply keeps_id].
  - apply keeps_times, keeps_then; [apply Bc_keeps|]. apply keeps_then; [exact K3|apply Bc_keeps].
Qed.
(** C113: a step of constant energy dynamics, with any number of levels and substeps, keeps momenta
    along the constraints, positions within the tolerance (while the projections converge), and the
    constraints in step with the beads. *)
Theorem nve_step_good nmts s s' : good s ->
  nve_step solve nrm m3 tol maxit Gs force pdt qdt ngeo nmts s = Some s' -> good s'.
Proof. intros H. apply keeps_then; [apply halves_keep..|exact H]. Qed.
(** The momenta at the start do not matter when there is at least one substep on the outer level. *)
Theorem nve_step_sound n l s s' : (1 <= n)%nat -> sound_start s ->
  nve_step solve nrm m3 tol maxit Gs force pdt qdt ngeo (n :: l) s = Some s' -> good s'.
Proof.
  intros Hn H. unfold nve_step, and_then at 1. destruct (fst (halves 0 (n :: l)) s) as [s1|] eqn:E1; [|discriminate].
  assert (G1 : good s1); [|intros E; exact (proj2 (halves_keep (n :: l) 0) s1 s' G1 E)].
  revert E1. cbn [ConstrModel.halves]. pose proof (halves_keep l 1) as [Ib Ia]. destruct (halves 1 l) as [ba ab]. cbn [fst snd] in *.
  assert (K1 : keeps (match l with [] => Ag | _ => ba end)) by (destruct l; [apply Ag_keeps|exact Ib]).
  assert (K3 : keeps (match l with [] => and_then Ag Ag | _ => and_then ba ab end)) by (destruct l; apply keeps_then; auto; apply Ag_keeps).
  destruct (n / 2)%nat as [|k] eqn:Ek.
  - assert (n = 1)%nat by (pose proof (Nat.div_mod n 2); pose proof (Nat.mod_upper_bound n 2); lia). subst n. cbn [Nat.odd Nat.even negb times].
    unfold and_then at 1. unfold and_then. intros E. destruct (Bc 0 s) as [s0|] eqn:E0; [|discriminate].
    exact (K1 s0 s1 (Bc_sound 0 s s0 H E0) E).
  - cbn [times]. set (tail := if Nat.odd n then _ else _).
    assert (Kt : keeps tail) by (unfold tail; destruct (Nat.odd n); [apply keeps_then; [apply Bc_keeps|exact K1]|apply keeps_id]).
    set (full := and_then (Bc 0) _). assert (Kf : keeps full) by (apply keeps_then; [apply Bc_keeps|apply keeps_then; [exact K3|apply Bc_keeps]]).
    unfold and_then at 1. unfold and_then at 1. destruct (full s) as [s2|] eqn:E2; [|discriminate]. intros E.
    assert (G2 : good s2).
    { unfold full, and_then at 1 in E2. destruct (Bc 0 s) as [s0|] eqn:E0; [|discriminate].
      exact (keeps_then _ _ K3 (Bc_keeps 0) s0 s2 (Bc_sound 0 s s0 H E0) E2). }
    destruct (times k full s2) as [s3|] eqn:E3; [|discriminate]. exact (Kt s3 s1 (keeps_times k full Kf s2 s3 G2 E3) E).
Qed.
(** The thermostat step: kinetic energy and the energy given to the ensemble change together, so that
    only the thermostat changes their sum, and the projection never takes energy from the ensemble. *)
Lemma kin2_kinetic p : kin2 m3 N p = kinetic N m3 p.
Proof. unfold kin2, kinetic. rewrite <- Rsum_scal_r. apply Rsum_ext. intros j Hj. pose proof (Hm j Hj). field. lra. Qed.
Theorem thermostat_step_ledger th n s e : sound_start s -> s_ok s = true ->
  exists s1 e1, step_Oc solve m3 Gs N th (S n) s e = step_Oc solve m3 Gs N th n s1 e1 /\
    s_q s1 = s_q s /\ good s1 /\ s_ok s1 = true /\
    kinetic N m3 (s_p s1) + e1 = kinetic N m3 (th (S n) (s_p s)) + e /\ e <= e1.
Proof.
  intros [Y W] C. cbn [step_Oc]. eexists _, _. split; [reflexivity|]. cbn [s_p s_q s_ok do_cot s_prev].
  split; [reflexivity|]. split; [apply do_cot_good; split; assumption|]. split; [exact C|]. rewrite !kin2_kinetic. split; [ring|].
  pose proof (momenta_projection_cools solve m3 N Gs (s_prev s) Hsolve Hm) as K.
  assert (H : forall G, In G Gs -> proper N G /\ independent G (s_prev s)).
  { intros G H. split; [now apply Hp|]. apply Hi; [exact H|]. rewrite Y. now apply W. }
  specialize (K H (th (S n) (s_p s))). cbn [do_cot s_p s_prev] in *. lra.
Qed.
Lemma Oc_good th n : forall s e s' e', good s -> step_Oc solve m3 Gs N th n s e = (s', e') -> good s'.
Proof.
  induction n as [|n IH]; intros s e s' e' H E; [injection E as <- _; exact H|]. cbn [step_Oc] in E. refine (IH _ _ _ _ _ E).
  apply do_cot_good. apply good_start in H. destruct H as (Y & W). split; assumption.
Qed.
(** C113: the same for constant temperature, in both splittings. *)
Theorem nvt_step_good sp th1 th2 no nmts s e s' e' : good s ->
  nvt_step solve nrm m3 tol maxit Gs force pdt qdt ngeo N sp th1 th2 no nmts s e = Some (s', e') -> good s'.
Proof.
  intros H. unfold nvt_step. destruct sp.
  - destruct (step_Oc solve m3 Gs N th1 no s e) as [s1 e1] eqn:E1. destruct (nve_step _ _ _ _ _ _ _ _ _ _ _ s1) as [s2|] eqn:E2; [|discriminate].
    intros [= E3]. refine (Oc_good _ _ _ _ _ _ _ E3). refine (nve_step_good nmts s1 s2 _ E2). exact (Oc_good _ _ _ _ _ _ H E1).
  - destruct (fst (halves 0 nmts) s) as [s1|] eqn:E1; [|discriminate]. destruct (step_Oc solve m3 Gs N th1 no s1 e) as [s2 e2] eqn:E2.
    destruct (snd (halves 0 nmts) s2) as [s3|] eqn:E3; [|discriminate]. intros [= <- _].
    refine (proj2 (halves_keep nmts 0) s2 s3 _ E3). refine (Oc_good _ _ _ _ _ _ _ E2). exact (proj1 (halves_keep nmts 0) s s1 H E1).
Qed.
End manifold.
