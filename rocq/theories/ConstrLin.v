(** * Constrained dynamics: specification of the projections, and the linear algebra behind them *)
From Coq Require Import List Arith Bool Reals Lra Lia.
From Verif Require Import RSum MinModel MinLin ConstrModel.
Import ListNotations.
Open Scope R_scope.

(** ** Specification *)
(** The momenta do not change the constraints: the velocities are along the manifold. *)
Definition tangent (m3 : vec) (G : group) (Q p : vec) : Prop := forall a, (a < ncons G)%nat ->
  Rsum (dim G) (fun i => dgfun G (take (ic G) Q) a i * (take (ic G) p i / take (ic G) m3 i)) = 0.
(** The conditions of a constraint are independent of each other at these positions. *)
Definition independent (G : group) (Q : vec) : Prop := forall x,
  (forall i, (i < dim G)%nat -> Rsum (ncons G) (fun a => dgfun G (take (ic G) Q) a i * x a) = 0) ->
  forall a, (a < ncons G)%nat -> x a = 0.
(** The coordinates of a constraint exist and are not repeated. *)
Definition proper (N : nat) (G : group) : Prop := NoDup (ic G) /\ forall j, In j (ic G) -> (j < N)%nat.
(** Constraints that share no atom. *)
Definition apart (G G' : group) : Prop := forall j, In j (ic G) -> ~ In j (ic G').
Definition all_apart (Gs : list group) : Prop := ForallOrdPairs apart Gs.
(** The solver solves linear equations with symmetric positive definite matrices. *)
Definition solver_ok (solve : nat -> mat -> vec -> vec) : Prop := forall c A b, spd c A -> veq c (mv c A (solve c A b)) b.
(** Kinetic energy. *)
Definition kinetic (N : nat) (m3 p : vec) : R := Rsum N (fun j => p j ^ 2 / (2 * m3 j)).

(** ** Indices *)
Lemma index_of_nth l : NoDup l -> forall i, (i < length l)%nat -> index_of (nth i l O) l = Some i.
Proof.
  induction l as [|a l IH]; intros N i H; cbn in *; [lia|]. inversion N; subst. destruct i as [|i].
  - now rewrite Nat.eqb_refl.
  - destruct (Nat.eqb_spec (nth i l O) a) as [E|_]; [exfalso; apply H2; rewrite <- E; apply nth_In; lia|]. rewrite IH by (auto; lia). reflexivity.
Qed.
Lemma index_of_None l j : index_of j l = None <-> ~ In j l.
Proof.
  induction l as [|a l IH]; cbn; [tauto|]. destruct (Nat.eqb_spec j a) as [->|N]; [split; [discriminate|tauto]|].
  destruct (index_of j l); split; intros H; try discriminate.
  - exfalso. apply H. right. destruct (in_dec Nat.eq_dec j l); [assumption|]. destruct IH as [_ IH]. discriminate (IH n0).
  - intros [E|E]; [congruence|]. now apply (proj1 IH).
  - reflexivity.
Qed.
Lemma index_of_Some l j i : index_of j l = Some i -> (i < length l)%nat /\ nth i l O = j.
Proof.
  revert i. induction l as [|a l IH]; cbn; [discriminate|]. intros i. destruct (Nat.eqb_spec j a) as [->|N].
  - intros [= <-]. split; [lia|reflexivity].
  - destruct (index_of j l) as [k|]; [|discriminate]. intros [= <-]. destruct (IH k eq_refl). split; [lia|assumption].
Qed.
Lemma index_of_In l j : In j l -> exists i, index_of j l = Some i /\ (i < length l)%nat /\ nth i l O = j.
Proof.
  intros H. destruct (index_of j l) as [i|] eqn:E.
  - exists i. split; [reflexivity|]. now apply index_of_Some.
  - apply index_of_None in E. contradiction.
Qed.
Lemma take_sub_at l v d i : NoDup l -> (i < length l)%nat -> take l (sub_at l v d) i = take l v i - d i.
Proof. intros N H. unfold take, sub_at. rewrite index_of_nth by assumption. reflexivity. Qed.
Lemma sub_at_out l v d j : ~ In j l -> sub_at l v d j = v j.
Proof. intros H. unfold sub_at. apply index_of_None in H. now rewrite H. Qed.

(** ** Sums over some indices *)
Lemma Rsum_support N h l : NoDup l -> (forall j, In j l -> (j < N)%nat) -> (forall j, (j < N)%nat -> ~ In j l -> h j = 0) ->
  Rsum N h = Rsum (length l) (fun i => h (nth i l O)).
Proof.
  revert h. induction l as [|a l IH]; intros h ND B Z.
  - cbn. apply Rsum_0. intros i H. apply Z; auto.
  - inversion ND; subst. cbn [length]. rewrite Rsum_first. cbn [nth].
    set (h' := fun j => if Nat.eqb j a then 0 else h j).
    assert (E : Rsum N h = Rsum N h' + h a).
    { replace (h a) with (Rsum N (fun j => if Nat.eqb j a then h j else 0)).
      - rewrite <- Rsum_plus. apply Rsum_ext. intros i _. unfold h'. destruct (Nat.eqb i a); ring.
      - rewrite (Rsum_delta N a); [now rewrite Nat.eqb_refl|apply B; now left|].
        intros i _ D. apply Nat.eqb_neq in D. now rewrite D. }
    rewrite E, (IH h').
    + rewrite Rplus_comm. f_equal. apply Rsum_ext. intros i Hi. unfold h'.
      destruct (Nat.eqb_spec (nth i l O) a) as [F|_]; [|reflexivity]. exfalso. apply H1. rewrite <- F. now apply nth_In.
    + assumption.
    + intros j Hj. apply B. now right.
    + intros j Hj NI. unfold h'. destruct (Nat.eqb_spec j a) as [|D]; [reflexivity|]. apply Z; [assumption|]. intros [E'|E']; [congruence|contradiction].
Qed.

(** ** The Gram matrix *)
Section projections.
Variable solve : nat -> mat -> vec -> vec.
Variable nrm : nat -> vec -> R.
Variable m3 : vec.
Variable N : nat.
Hypothesis Hsolve : solver_ok solve.
Hypothesis Hm : forall j, (j < N)%nat -> 0 < m3 j.

Lemma take_mass G i : proper N G -> (i < dim G)%nat -> 0 < take (ic G) m3 i.
Proof. intros [_ B] H. unfold take. apply Hm, B, nth_In, H. Qed.
Lemma gram_mv G dg x a : mv (ncons G) (gram m3 G dg) x a =
  Rsum (dim G) (fun i => dg a i * (push G dg x i / take (ic G) m3 i)).
Proof.
  unfold mv, gram, push. rewrite (Rsum_ext _ _ (fun b => Rsum (dim G) (fun i => dg a i * (dg b i / take (ic G) m3 i) * x b)))
    by (intros; now rewrite Rsum_scal_r).
  rewrite Rsum_swap. apply Rsum_ext. intros i _. unfold Rdiv. rewrite <- Rsum_scal_r, <- Rsum_scal. apply Rsum_ext. intros; ring.
Qed.
Lemma gram_quad G dg x : dot (ncons G) x (mv (ncons G) (gram m3 G dg) x) =
  Rsum (dim G) (fun i => push G dg x i * (push G dg x i / take (ic G) m3 i)).
Proof.
  unfold dot. rewrite (Rsum_ext _ _ (fun a => Rsum (dim G) (fun i => x a * (dg a i * (push G dg x i / take (ic G) m3 i)))))
    by (intros; rewrite gram_mv; now rewrite Rsum_scal).
  rewrite Rsum_swap. apply Rsum_ext. intros i _. unfold push at 2. rewrite <- Rsum_scal_r.
  apply Rsum_ext. intros; ring.
Qed.
Lemma gram_spd G Q : proper N G -> independent G Q -> spd (ncons G) (gram m3 G (dgfun G (take (ic G) Q))).
Proof.
  intros P I. split.
  - intros a b _ _. unfold gram. apply Rsum_ext. intros; unfold Rdiv; ring.
  - intros v (a & Ha & Hv). rewrite gram_quad. set (dg := dgfun G (take (ic G) Q)).
    assert (Z : forall i, (i < dim G)%nat -> 0 <= push G dg v i * (push G dg v i / take (ic G) m3 i)).
    { intros i Hi. pose proof (take_mass G i P Hi). unfold Rdiv. rewrite <- Rmult_assoc. apply Rmult_le_pos; [apply Rle_0_sqr|].
      left. now apply Rinv_0_lt_compat. }
    destruct (Rsum_nonneg _ _ Z) as [|E]; [assumption|]. exfalso. apply Hv. refine (I v _ a Ha). intros i Hi.
    pose proof (Rsum_eq0 _ _ Z (eq_sym E) i Hi) as E0. cbn beta in E0. pose proof (take_mass G i P Hi) as Mi.
    fold dg. change (push G dg v i = 0).
    destruct (Req_dec (push G dg v i) 0) as [|D]; [assumption|]. exfalso.
    assert (0 < push G dg v i * push G dg v i * / take (ic G) m3 i).
    { apply Rmult_lt_0_compat; [now apply Rsqr_pos_lt|now apply Rinv_0_lt_compat]. }
    unfold Rdiv in E0. rewrite <- Rmult_assoc in E0. lra.
Qed.

(** ** Momenta *)
Definition mult (Q p : vec) (G : group) : vec :=
  solve (ncons G) (gram m3 G (dgfun G (take (ic G) Q)))
    (fun a => Rsum (dim G) (fun i => dgfun G (take (ic G) Q) a i * (take (ic G) p i / take (ic G) m3 i))).
Lemma cot_one_eq Q p G : cot_one solve m3 Q p G = sub_at (ic G) p (push G (dgfun G (take (ic G) Q)) (mult Q p G)).
Proof. reflexivity. Qed.
Lemma cot_one_out Q p G j : ~ In j (ic G) -> cot_one solve m3 Q p G j = p j.
Proof. intros H. rewrite cot_one_eq. now apply sub_at_out. Qed.
Lemma cot_one_tangent Q p G : proper N G -> independent G Q -> tangent m3 G Q (cot_one solve m3 Q p G).
Proof.
  intros P I a Ha. rewrite cot_one_eq. set (dg := dgfun G (take (ic G) Q)). set (x := mult Q p G).
  rewrite (Rsum_ext _ _ (fun i => dg a i * (take (ic G) p i / take (ic G) m3 i) - dg a i * (push G dg x i / take (ic G) m3 i))).
  - rewrite Rsum_minus, <- gram_mv. pose proof (Hsolve _ _ (fun a => Rsum (dim G) (fun i => dg a i * (take (ic G) p i / take (ic G) m3 i)))
      (gram_spd G Q P I) a Ha) as E. cbn beta in E. fold dg in E. change (solve _ _ _) with x in E. rewrite E. ring.
  - intros i Hi. rewrite take_sub_at by (apply P || assumption). unfold Rdiv; ring.
Qed.
Lemma tangent_ext G Q p p' : (forall j, In j (ic G) -> p j = p' j) -> tangent m3 G Q p -> tangent m3 G Q p'.
Proof.
  intros E T a Ha. rewrite <- (T a Ha). apply Rsum_ext. intros i Hi. unfold take. rewrite E by (now apply nth_In). reflexivity.
Qed.
Lemma cot_apart Q p G G' : apart G' G -> tangent m3 G' Q p -> tangent m3 G' Q (cot_one solve m3 Q p G).
Proof. intros A. apply tangent_ext. intros j Hj. rewrite cot_one_out; auto. Qed.
Lemma cot_rest Q Gs : forall p G, tangent m3 G Q p -> (forall G', In G' Gs -> apart G G') ->
  tangent m3 G Q (fold_left (cot_one solve m3 Q) Gs p).
Proof.
  induction Gs as [|G' Gs IH]; intros p G T A; cbn; [assumption|]. apply IH.
  - apply cot_apart; [apply A; now left|assumption].
  - intros G'' H. apply A. now right.
Qed.
Lemma cot_all Q Gs : all_apart Gs -> (forall G, In G Gs -> proper N G /\ independent G Q) -> forall p G, In G Gs ->
  tangent m3 G Q (fold_left (cot_one solve m3 Q) Gs p).
Proof.
  intros A. induction A as [|G Gs Ha _ IH]; intros H p G0 I; [destruct I|]. cbn. destruct I as [<-|I].
  - destruct (H G (or_introl eq_refl)). apply cot_rest; [now apply cot_one_tangent|]. intros G' HG'. now apply (proj1 (Forall_forall _ _) Ha G').
  - apply IH; [intros; apply H; now right|assumption].
Qed.
(** What is taken away from the kinetic energy is that of the momenta taken away. *)
Lemma cot_kinetic Q p G : proper N G -> independent G Q ->
  kinetic N m3 p = kinetic N m3 (cot_one solve m3 Q p G) + kinetic N m3 (fun j => p j - cot_one solve m3 Q p G j).
Proof.
  intros P I. set (dg := dgfun G (take (ic G) Q)). set (x := mult Q p G). set (d := push G dg x).
  assert (Hp : forall j, In j (ic G) -> exists i, (i < dim G)%nat /\ nth i (ic G) O = j) by (intros j Hj; now apply In_nth).
  unfold kinetic. rewrite <- Rsum_plus. apply Rminus_diag_uniq. rewrite <- Rsum_minus.
  rewrite (Rsum_support N _ (ic G) (proj1 P) (proj2 P)) by
    (intros j Hj NI; rewrite cot_one_out by assumption; pose proof (Hm j Hj); field; lra).
  rewrite (Rsum_ext _ _ (fun i => d i * (take (ic G) p i / take (ic G) m3 i) - d i * (d i / take (ic G) m3 i))).
  - rewrite Rsum_minus. change (length (ic G)) with (dim G). replace (Rsum (dim G) (fun i => d i * (d i / take (ic G) m3 i))) with (dot (ncons G) x (mv (ncons G) (gram m3 G dg) x)) by apply gram_quad.
    assert (E : dot (ncons G) x (mv (ncons G) (gram m3 G dg) x) =
      Rsum (ncons G) (fun a => x a * Rsum (dim G) (fun i => dg a i * (take (ic G) p i / take (ic G) m3 i)))).
    { unfold dot. apply Rsum_ext. intros a Ha. f_equal.
      exact (Hsolve _ _ (fun a => Rsum (dim G) (fun i => dg a i * (take (ic G) p i / take (ic G) m3 i))) (gram_spd G Q P I) a Ha). }
    rewrite E. rewrite (Rsum_ext (ncons G) _ (fun a => Rsum (dim G) (fun i => x a * (dg a i * (take (ic G) p i / take (ic G) m3 i)))))
      by (intros; now rewrite Rsum_scal).
    rewrite Rsum_swap, <- Rsum_minus. apply Rsum_0. intros i _. unfold d, push.
    rewrite <- Rsum_scal_r, <- Rsum_minus. apply Rsum_0. intros; ring.
  - intros i Hi. change (length (ic G)) with (dim G) in Hi. pose proof (take_mass G i P Hi) as M.
    pose proof (take_sub_at (ic G) p d i (proj1 P) Hi) as T. unfold take at 1 in T. rewrite cot_one_eq. fold dg x d.
    rewrite T. unfold take in *. field. lra.
Qed.
End projections.
