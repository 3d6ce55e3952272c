(** * Constrained dynamics: conserved momenta, worked cases, and what goes wrong (C110 to C114) *)
From Coq Require Import List Arith Bool Reals Lra Lia FunctionalExtensionality.
From Verif Require Import RSum MinModel MinLin ConstrModel ConstrLin ConstrProps ConstrJac.
Import ListNotations.
Open Scope R_scope.

(** ** C112: bonds and angles exert no force and no torque on the whole *)
(** Rows, seen as forces on the atoms of the constraint. *)
Definition force_free (G : group) (q : vec) : Prop := forall n a k, dim G = (3 * n)%nat -> (a < ncons G)%nat -> (k < 3)%nat ->
  Rsum n (fun i => dgfun G q a (3 * i + k)%nat) = 0.
Definition torque_free (G : group) (q : vec) : Prop := forall n a k, dim G = (3 * n)%nat -> (a < ncons G)%nat -> (k < 3)%nat ->
  Rsum n (fun i => cross (row q i) (row (dgfun G q a) i) k) = 0.
Definition shift (k : nat) : vec := fun i => if (i mod 3 =? k)%nat then 1 else 0.
Definition axis (k : nat) : nat -> R := fun j => if (j =? k)%nat then 1 else 0.
Definition turn (q : vec) (k : nat) : vec := fun i => cross (axis k) (row q (i / 3)) (i mod 3).
Lemma shift_sum f n k : (k < 3)%nat -> Rsum n (fun i => f (3 * i + k)%nat) = Rsum (3 * n) (fun i => f i * shift k i).
Proof.
  intros K. rewrite Rsum_3. apply Rsum_ext. intros i Hi. cbn [Rsum]. unfold shift. rewrite !mod3 by lia.
  destruct k as [|[|[|k]]]; [..|lia]; cbn [Nat.eqb]; ring.
Qed.
Lemma turn_sum f q n k : (k < 3)%nat -> Rsum n (fun i => cross (row q i) (row f i) k) = Rsum (3 * n) (fun i => f i * turn q k i).
Proof.
  intros K. rewrite Rsum_3. apply Rsum_ext. intros i Hi. cbn [Rsum]. unfold turn. rewrite !mod3, !div3 by lia. unfold row, axis.
  destruct k as [|[|[|k]]]; [..|lia]; cbn [cross Nat.eqb]; ring.
Qed.
Lemma shift_diff k u v j : (j < 3)%nat -> diff3 (shift k) u v j = 0.
Proof. intros J. unfold diff3, shift. rewrite !mod3 by exact J. ring. Qed.
Lemma turn_diff q k u v j : (j < 3)%nat -> diff3 (turn q k) u v j = cross (axis k) (diff3 q u v) j.
Proof. intros J. unfold diff3, turn. rewrite !mod3, !div3 by exact J. unfold row. destruct j as [|[|[|j]]]; [..|lia]; cbn [cross]; ring. Qed.
Theorem bonds_force_free l d q : force_free (bonds l d) q /\ torque_free (bonds l d) q.
Proof.
  split; intros n a k Hn Ha K; cbn [bonds ncons] in Ha; destruct (nth a l (O, O)) as [u v] eqn:E.
  - rewrite (shift_sum (dgfun (bonds l d) q a) n k K). rewrite <- Hn. etransitivity; [exact (bond_row_sum l q a u v (shift k) Ha E)|]. apply Rsum_0. intros j J. rewrite shift_diff by exact J. ring.
  - rewrite (turn_sum (dgfun (bonds l d) q a) q n k K), <- Hn. etransitivity; [exact (bond_row_sum l q a u v (turn q k) Ha E)|].
    cbn [Rsum]. rewrite !turn_diff by lia. cbn [cross]. ring.
Qed.
Theorem angles_force_free l th q : (forall u v w, In (u, v, w) l -> u <> v /\ u <> w /\ v <> w) -> force_free (angles l th) q /\ torque_free (angles l th) q.
Proof.
  intros D. split; intros n a k Hn Ha K; cbn [angles ncons] in Ha; destruct (nth a l (O, O, O)) as [[u v] w] eqn:E;
    (assert (I : In (u, v, w) l) by (rewrite <- E; now apply nth_In)); destruct (D u v w I) as (N1 & N2 & N3).
  - rewrite (shift_sum (dgfun (angles l th) q a) n k K), <- Hn. etransitivity; [exact (angle_row_sum l q a u v w (shift k) Ha E N1 N2 N3)|].
    apply Rsum_0. intros j J. rewrite !shift_diff by exact J. ring.
  - rewrite (turn_sum (dgfun (angles l th) q a) q n k K), <- Hn. etransitivity; [exact (angle_row_sum l q a u v w (turn q k) Ha E N1 N2 N3)|].
    cbn [Rsum]. rewrite !turn_diff by lia. cbn [cross]. set (r := rev_index (trip_atoms l)). set (x := diff3 q (r v) (r u)). set (z := diff3 q (r w) (r u)).
    unfold dv. set (r1 := sqrt (dot3 x x)). set (r2 := sqrt (dot3 z z)). rewrite (dot3_comm (fun k => z k / r2) (fun k => x k / r1)). unfold Rdiv. ring.
Qed.

(** ** C110: momentum and angular momentum of the whole are kept by the projection *)
Definition momentum (natoms : nat) (p : vec) (k : nat) : R := Rsum natoms (fun u => p (3 * u + k)%nat).
Definition angular (natoms : nat) (q p : vec) (k : nat) : R := Rsum natoms (fun u => cross (row q u) (row p u) k).
Lemma index_i3 l i k : NoDup l -> (i < length l)%nat -> (k < 3)%nat -> index_of (3 * nth i l O + k)%nat (i3 l) = Some (3 * i + k)%nat.
Proof.
  intros N H K. rewrite <- i3_nth by assumption. apply index_of_nth; [now apply i3_NoDup|]. rewrite i3_length. lia.
Qed.
Lemma not_i3 l u k : ~ In u l -> (k < 3)%nat -> index_of (3 * u + k)%nat (i3 l) = None.
Proof.
  intros N K. apply index_of_None. intros H. apply i3_In in H. destruct H as (u' & k' & Hu & K' & E). assert (u = u') by lia. subst. contradiction.
Qed.
Section conserve.
Variable solve : nat -> mat -> vec -> vec.
Variable m3 : vec.
Variable natoms : nat.
Variable G : group.
Variable atoms : list nat.
Hypothesis Hic : ic G = i3 (unique atoms).
Hypothesis Hlt : forall u, In u atoms -> (u < natoms)%nat.
Let n := length (unique atoms).
Lemma G_dim : dim G = (3 * n)%nat.
Proof. unfold dim. now rewrite Hic, i3_length. Qed.
Lemma sub_momentum v d k : (k < 3)%nat -> momentum natoms (sub_at (ic G) v d) k = momentum natoms v k - Rsum n (fun i => d (3 * i + k)%nat).
Proof.
  intros K. unfold momentum. apply Rminus_diag_uniq. rewrite Rsum_ext with (g := fun u => v (3 * u + k)%nat - match index_of (3 * u + k)%nat (ic G) with Some i => d i | None => 0 end)
    by (intros u Hu; unfold sub_at; destruct (index_of _ _); ring). rewrite Rsum_minus.
  rewrite (Rsum_support natoms (fun u => match index_of (3 * u + k)%nat (ic G) with Some i => d i | None => 0 end) (unique atoms)).
  - fold n. rewrite (Rsum_ext n (fun i => match index_of (3 * nth i (unique atoms) O + k)%nat (ic G) with Some i0 => d i0 | None => 0 end) (fun i => d (3 * i + k)%nat)); [ring|].
    intros i Hi. rewrite Hic, index_i3; [reflexivity|apply unique_NoDup|assumption|assumption].
  - apply unique_NoDup.
  - intros u Hu. apply Hlt. now apply unique_In.
  - intros u _ N. rewrite Hic, not_i3 by assumption. reflexivity.
Qed.
Lemma sub_angular Q v d k : (k < 3)%nat -> angular natoms Q (sub_at (ic G) v d) k =
  angular natoms Q v k - Rsum n (fun i => cross (row (take (ic G) Q) i) (row d i) k).
Proof.
  intros K. unfold angular. apply Rminus_diag_uniq.
  set (e := fun u c => match index_of (3 * u + c)%nat (ic G) with Some i => d i | None => 0 end).
  rewrite (Rsum_ext natoms (fun u => cross (row Q u) (row (sub_at (ic G) v d) u) k) (fun u => cross (row Q u) (row v u) k - cross (row Q u) (e u) k)).
  2:{ intros u Hu. assert (X : forall c, row (sub_at (ic G) v d) u c = row v u c - e u c) by (intros c; unfold row, sub_at, e; destruct (index_of _ _); ring).
      destruct k as [|[|[|k]]]; [..|lia]; cbn [cross]; rewrite !X; ring. }
  rewrite Rsum_minus. rewrite (Rsum_support natoms (fun u => cross (row Q u) (e u) k) (unique atoms)).
  - fold n. rewrite (Rsum_ext n (fun i => cross (row Q (nth i (unique atoms) O)) (e (nth i (unique atoms) O)) k) (fun i => cross (row (take (ic G) Q) i) (row d i) k)); [ring|].
    intros i Hi. assert (X : forall c, (c < 3)%nat -> e (nth i (unique atoms) O) c = row d i c).
    { intros c C. unfold e, row. rewrite Hic, index_i3; [reflexivity|apply unique_NoDup|assumption|assumption]. }
    assert (Y : forall c, (c < 3)%nat -> row Q (nth i (unique atoms) O) c = row (take (ic G) Q) i c).
    { intros c C. unfold row, take. now rewrite Hic, i3_nth. }
    destruct k as [|[|[|k]]]; [..|lia]; cbn [cross]; now rewrite !X, !Y by lia.
  - apply unique_NoDup.
  - intros u Hu. apply Hlt. now apply unique_In.
  - intros u _ N. assert (X : forall c, (c < 3)%nat -> e u c = 0) by (intros c C; unfold e; now rewrite Hic, not_i3).
    destruct k as [|[|[|k]]]; [..|lia]; cbn [cross]; rewrite !X by lia; ring.
Qed.
Lemma push_force dg x k : (forall a, (a < ncons G)%nat -> Rsum n (fun i => dg a (3 * i + k)%nat) = 0) ->
  Rsum n (fun i => push G dg x (3 * i + k)%nat) = 0.
Proof.
  intros H. unfold push. rewrite Rsum_swap. apply Rsum_0. intros a Ha. rewrite Rsum_scal_r. rewrite H by exact Ha. ring.
Qed.
Theorem momentum_kept Q p k : (k < 3)%nat -> force_free G (take (ic G) Q) ->
  momentum natoms (cot_one solve m3 Q p G) k = momentum natoms p k.
Proof.
  intros K F. rewrite cot_one_eq, sub_momentum by exact K. rewrite push_force; [ring|]. intros a Ha. apply F; auto. apply G_dim.
Qed.
Theorem angular_kept Q p k : (k < 3)%nat -> torque_free G (take (ic G) Q) ->
  angular natoms Q (cot_one solve m3 Q p G) k = angular natoms Q p k.
Proof.
  intros K F. rewrite cot_one_eq, sub_angular by exact K. rewrite (turn_sum _ _ n k K). unfold push.
  rewrite (Rsum_ext (3 * n) _ (fun i => Rsum (ncons G) (fun a => dgfun G (take (ic G) Q) a i * turn (take (ic G) Q) k i * mult solve m3 Q p G a)))
    by (intros i Hi; rewrite <- Rsum_scal_r; apply Rsum_ext; intros; ring).
  rewrite Rsum_swap, Rsum_0; [ring|]. intros a Ha. rewrite Rsum_scal_r, <- turn_sum by exact K.
  rewrite (F n a k G_dim Ha K). ring.
Qed.
End conserve.
(** For all constraints of a list made of bonds and angles. *)
Theorem total_momentum_kept solve m3 natoms Gs Q k : (k < 3)%nat ->
  (forall G, In G Gs -> force_free G (take (ic G) Q) /\ torque_free G (take (ic G) Q) /\
     exists l, ic G = i3 (unique l) /\ forall u, In u l -> (u < natoms)%nat) ->
  forall p, momentum natoms (proj_cotangent solve m3 Gs Q p) k = momentum natoms p k /\
            angular natoms Q (proj_cotangent solve m3 Gs Q p) k = angular natoms Q p k.
Proof.
  intros K. induction Gs as [|G Gs IH]; intros H p; [split; reflexivity|]. cbn.
  destruct (H G (or_introl eq_refl)) as (F & T & l & E & L). destruct (IH (fun G' H' => H G' (or_intror H')) (cot_one solve m3 Q p G)) as [A B].
  unfold proj_cotangent in A, B. rewrite A, B. split; [now apply momentum_kept with l|now apply angular_kept with l].
Qed.
(** C111: nor does the projection of positions move the centre of mass. *)
Lemma newton_momentum solve nrm m3 tol natoms G atoms dg dt k : (k < 3)%nat -> dt <> 0 -> (forall j, m3 j <> 0) -> ic G = i3 (unique atoms) -> (forall u, In u atoms -> (u < natoms)%nat) ->
  (forall a, (a < ncons G)%nat -> Rsum (length (unique atoms)) (fun i => dg a (3 * i + k)%nat) = 0) ->
  forall left c i q p q' p' i' b, newton solve nrm m3 tol G dg dt left c i q p = (q', p', i', b) -> momentum natoms p' k = momentum natoms p k.
Proof.
  intros K D M E L F. induction left as [|f IH]; intros c i q p q' p' i' b; cbn; [intros [= <- <- <- <-]; reflexivity|].
  destruct (Rlt_dec _ tol) as [_|_]; [intros [= <- <- <- <-]; reflexivity|]. intros N. apply IH in N. rewrite N.
  rewrite (sub_momentum natoms G atoms E L) by exact K. unfold Rdiv. rewrite Rsum_scal_r. rewrite (push_force G atoms); [ring|exact F].
Qed.
Theorem centre_of_mass_kept solve nrm m3 tol maxit natoms Gs Q dt q p o k : (k < 3)%nat -> dt <> 0 -> (forall j, m3 j <> 0) ->
  (forall G, In G Gs -> force_free G (take (ic G) Q) /\ exists l, ic G = i3 (unique l) /\ forall u, In u l -> (u < natoms)%nat) ->
  proj_manifold solve nrm m3 tol maxit Gs Q dt q p = Some o ->
  momentum natoms (o_p o) k = momentum natoms p k /\ momentum natoms (fun j => m3 j * o_q o j) k = momentum natoms (fun j => m3 j * q j) k.
Proof.
  intros K D M H E.
  assert (A : momentum natoms (o_p o) k = momentum natoms p k).
  { revert E. unfold proj_manifold. change p with (o_p (PosOut q p None 0 true)) at 2. generalize (PosOut q p None 0 true). clear q p.
    induction Gs as [|G Gs IH]; intros s; cbn [fold_left]; [intros [= <-]; reflexivity|].
    destruct (man_one solve nrm m3 tol maxit Q dt (Some s) G) as [s1|] eqn:E1; [|rewrite man_none; discriminate]. intros E.
    rewrite (IH (fun G' H' => H G' (or_intror H')) s1 E). apply man_one_some in E1. destruct E1 as (s0 & i & c & [= <-] & E1 & _).
    destruct (H G (or_introl eq_refl)) as (F & l & Ei & L).
    refine (newton_momentum solve nrm m3 tol natoms G l _ dt k K D M Ei L _ _ _ _ _ _ _ _ _ _ E1).
    intros a Ha. apply F; auto. unfold dim. now rewrite Ei, i3_length. }
  split; [exact A|]. pose proof (positions_momenta_together solve nrm m3 tol maxit Gs Q dt D M q p o E) as P.
  assert (S : momentum natoms (fun j => m3 j * o_q o j) k - momentum natoms (fun j => m3 j * q j) k = dt * (momentum natoms (o_p o) k - momentum natoms p k)).
  { unfold momentum. rewrite <- !Rsum_minus, <- Rsum_scal. apply Rsum_ext. intros u Hu. rewrite P. field. exact D. }
  rewrite A in S. lra.
Qed.
