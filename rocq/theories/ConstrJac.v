(** * What the constraints are, and their Jacobians: C112, C114 *)
From Coq Require Import List Arith Bool Reals Lra Lia FunctionalExtensionality.
From Coquelicot Require Import Coquelicot.
From Verif Require Import RSum MinModel MinLin ConstrModel ConstrLin ConstrProps.
Import ListNotations.
Open Scope R_scope.

(** ** Indices *)
Lemma insert_In a l j : In j (insert a l) <-> j = a \/ In j l.
Proof.
  induction l as [|b l IH]; cbn [insert In]; [intuition (subst; auto)|]. destruct (a <? b)%nat; [cbn; intuition (subst; auto)|].
  destruct (Nat.eqb_spec a b) as [->|N]; cbn; [intuition (subst; auto)|]. rewrite IH. intuition (subst; auto).
Qed.
Lemma unique_In l j : In j (unique l) <-> In j l.
Proof. induction l as [|a l IH]; cbn; [tauto|]. rewrite insert_In, IH. intuition (subst; auto). Qed.
Lemma insert_head a l b : (forall j, In j l -> (b < j)%nat) -> (b < a)%nat -> forall j, In j (insert a l) -> (b < j)%nat.
Proof. intros H L j Hj. apply insert_In in Hj. destruct Hj as [->|Hj]; auto. Qed.
Inductive increasing : list nat -> Prop :=
| inc_nil : increasing []
| inc_cons b l : (forall j, In j l -> (b < j)%nat) -> increasing l -> increasing (b :: l).
Lemma insert_inc a l : increasing l -> increasing (insert a l).
Proof.
  induction 1 as [|b l H I IH]; cbn [insert]; [constructor; [intros j []|constructor]|].
  destruct (Nat.ltb_spec a b); [constructor; [|constructor; auto]; intros j [<-|Hj]; [lia|specialize (H j Hj); lia]|].
  destruct (Nat.eqb_spec a b) as [->|N]; [now constructor|]. constructor; [|exact IH]. apply insert_head; [exact H|lia].
Qed.
Lemma unique_inc l : increasing (unique l).
Proof. induction l; cbn; [constructor|]. now apply insert_inc. Qed.
Lemma inc_NoDup l : increasing l -> NoDup l.
Proof. induction 1 as [|b l H I IH]; constructor; [|exact IH]. intros K. specialize (H b K). lia. Qed.
Lemma unique_NoDup l : NoDup (unique l).
Proof. apply inc_NoDup, unique_inc. Qed.
Lemma i3_length l : length (i3 l) = (3 * length l)%nat.
Proof. induction l as [|a l IH]; [reflexivity|]. unfold i3 in *. cbn [flat_map three app length]. rewrite IH. lia. Qed.
Lemma i3_nth l : forall i k, (i < length l)%nat -> (k < 3)%nat -> nth (3 * i + k) (i3 l) O = (3 * nth i l O + k)%nat.
Proof.
  induction l as [|a l IH]; intros i k H K; cbn in H; [lia|]. change (i3 (a :: l)) with (three a ++ i3 l). destruct i as [|i].
  - rewrite app_nth1 by (cbn; lia). destruct k as [|[|[|k]]]; cbn; lia.
  - rewrite app_nth2 by (cbn [three length]; lia). cbn [three length].
    replace (3 * S i + k - 3)%nat with (3 * i + k)%nat by lia. rewrite IH by lia. reflexivity.
Qed.
Lemma i3_In l j : In j (i3 l) <-> exists u k, In u l /\ (k < 3)%nat /\ j = (3 * u + k)%nat.
Proof.
  unfold i3. rewrite in_flat_map. split.
  - intros (u & Hu & H). exists u. cbn in H. destruct H as [<-|[<-|[<-|[]]]]; [exists 0%nat|exists 1%nat|exists 2%nat]; repeat split; auto; lia.
  - intros (u & k & Hu & K & ->). exists u. split; [exact Hu|]. cbn. destruct k as [|[|[|k]]]; lia.
Qed.
Lemma i3_NoDup l : NoDup l -> NoDup (i3 l).
Proof.
  induction 1 as [|a l N _ IH]; [constructor|]. change (i3 (a :: l)) with (three a ++ i3 l). unfold three. cbn [app].
  assert (K : forall k, (k < 3)%nat -> ~ In (3 * a + k)%nat (i3 l)).
  { intros k Hk H. apply i3_In in H. destruct H as (u & k' & Hu & Hk' & E). assert (u = a) by lia. subst u. contradiction. }
  pose proof (K 0%nat ltac:(lia)) as K0. pose proof (K 1%nat ltac:(lia)) as K1. pose proof (K 2%nat ltac:(lia)) as K2.
  replace (3 * a + 0)%nat with (3 * a)%nat in K0 by lia.
  constructor; [intros [H|[H|H]]; [lia|lia|contradiction]|]. constructor; [intros [H|H]; [lia|contradiction]|]. constructor; assumption.
Qed.
Lemma rev_index_nth l u : In u l -> (rev_index l u < length (unique l))%nat /\ nth (rev_index l u) (unique l) O = u.
Proof.
  intros H. apply unique_In in H. unfold rev_index. destruct (index_of_In _ _ H) as (i & -> & A & B). split; assumption.
Qed.
Lemma rev_index_inj l u v : In u l -> In v l -> rev_index l u = rev_index l v -> u = v.
Proof. intros Hu Hv E. rewrite <- (proj2 (rev_index_nth l u Hu)), E. apply (proj2 (rev_index_nth l v Hv)). Qed.
Lemma take_atom l q u k : In u l -> (k < 3)%nat -> take (i3 (unique l)) q (3 * rev_index l u + k)%nat = q (3 * u + k)%nat.
Proof.
  intros H K. destruct (rev_index_nth l u H) as [A B]. unfold take. rewrite i3_nth by assumption. now rewrite B.
Qed.
Lemma Rsum_3 n f : Rsum (3 * n) f = Rsum n (fun a => Rsum 3 (fun k => f (3 * a + k)%nat)).
Proof.
  induction n as [|n IH]; [reflexivity|]. replace (3 * S n)%nat with (S (S (S (3 * n)))) by lia. cbn [Rsum]. rewrite IH. cbn [Rsum].
  replace (3 * n + 0)%nat with (3 * n)%nat by lia. replace (3 * n + 1)%nat with (S (3 * n)) by lia.
  replace (3 * n + 2)%nat with (S (S (3 * n))) by lia. ring.
Qed.
Lemma div3 a k : (k < 3)%nat -> ((3 * a + k) / 3 = a)%nat.
Proof. intros H. symmetry. apply Nat.div_unique with k; lia. Qed.
Lemma mod3 a k : (k < 3)%nat -> ((3 * a + k) mod 3 = k)%nat.
Proof. intros H. symmetry. apply Nat.mod_unique with a; lia. Qed.
Lemma diff3_ext q q' u v : (forall k, (k < 3)%nat -> q (3 * u + k)%nat = q' (3 * u + k)%nat) ->
  (forall k, (k < 3)%nat -> q (3 * v + k)%nat = q' (3 * v + k)%nat) -> forall k, (k < 3)%nat -> diff3 q u v k = diff3 q' u v k.
Proof. intros A B k K. unfold diff3. now rewrite A, B. Qed.
Lemma diff3_same q u k : diff3 q u u k = 0.
Proof. unfold diff3. ring. Qed.
Lemma diff3_take l q u v k : In u l -> In v l -> (k < 3)%nat ->
  diff3 (take (i3 (unique l)) q) (rev_index l u) (rev_index l v) k = diff3 q u v k.
Proof. intros. unfold diff3. now rewrite !take_atom. Qed.
Lemma dot3_ext a b a' b' : (forall k, (k < 3)%nat -> a k = a' k) -> (forall k, (k < 3)%nat -> b k = b' k) -> dot3 a b = dot3 a' b'.
Proof. intros A B. apply Rsum_ext. intros k K. now rewrite A, B. Qed.
Lemma pair_in l a u v : (a < length l)%nat -> nth a l (O, O) = (u, v) -> In u (pair_atoms l) /\ In v (pair_atoms l).
Proof.
  intros H E. assert (I : In (u, v) l) by (rewrite <- E; now apply nth_In).
  unfold pair_atoms. split; apply in_flat_map; exists (u, v); (split; [exact I|cbn; auto]).
Qed.
Lemma trip_in l a u v w : (a < length l)%nat -> nth a l (O, O, O) = (u, v, w) ->
  In u (trip_atoms l) /\ In v (trip_atoms l) /\ In w (trip_atoms l).
Proof.
  intros H E. assert (I : In (u, v, w) l) by (rewrite <- E; now apply nth_In).
  unfold trip_atoms. repeat split; apply in_flat_map; exists (u, v, w); (split; [exact I|cbn; auto]).
Qed.

(** ** C112: what the values mean, in the numbering of the whole system *)
Theorem bond_value l d q a u v : (a < length l)%nat -> nth a l (O, O) = (u, v) ->
  gfun (bonds l d) (take (ic (bonds l d)) q) a = Rsum 3 (fun k => (q (3 * u + k)%nat - q (3 * v + k)%nat) ^ 2) - d a ^ 2.
Proof.
  intros H E. destruct (pair_in l a u v H E) as [Iu Iv]. cbn [bonds gfun ic]. unfold bond_g. rewrite E. f_equal. apply Rsum_ext.
  intros k K. now rewrite diff3_take.
Qed.
(** Without given values the distances of the first frame are the constraints, and they are met. *)
Theorem bond_first_frame l q a : (a < length l)%nat ->
  gfun (bonds l (bond_values l q)) (take (ic (bonds l (fun _ => 0))) q) a = 0.
Proof.
  intros H. destruct (nth a l (O, O)) as [u v] eqn:E. change (ic (bonds l (fun _ => 0))) with (ic (bonds l (bond_values l q))).
  rewrite (bond_value l _ q a u v H E).
  unfold bond_values. change (bond_g l (fun _ => 0) (take (i3 (unique (pair_atoms l))) q) a) with
    (gfun (bonds l (fun _ => 0)) (take (ic (bonds l (fun _ => 0))) q) a).
  rewrite (bond_value l _ q a u v H E). rewrite pow2_sqrt; [ring|].
  replace (0 ^ 2) with 0 by ring. rewrite Rminus_0_r. apply Rsum_nonneg. intros. apply pow2_ge_0.
Qed.
Definition angle_cos (q : vec) (u v w : nat) : R :=
  let a := fun k => q (3 * v + k)%nat - q (3 * u + k)%nat in
  let b := fun k => q (3 * w + k)%nat - q (3 * u + k)%nat in
  Rsum 3 (fun k => a k * b k) / sqrt (Rsum 3 (fun k => a k * a k)) / sqrt (Rsum 3 (fun k => b k * b k)).
Theorem angle_value l th q a u v w : (a < length l)%nat -> nth a l (O, O, O) = (u, v, w) ->
  gfun (angles l th) (take (ic (angles l th)) q) a = angle_cos q u v w - cos (th a).
Proof.
  intros H E. destruct (trip_in l a u v w H E) as (Iu & Iv & Iw). cbn [angles gfun ic]. unfold angle_g. rewrite E. unfold angle_cos.
  f_equal. f_equal; [f_equal|]; [|f_equal|f_equal]; apply dot3_ext; intros k K; now rewrite diff3_take.
Qed.

(** ** C112: Jacobians *)
(** The rows of the Jacobian give the derivatives of the values in all directions. *)
Definition jacobian_at (G : group) (q : vec) : Prop := forall h a, (a < ncons G)%nat ->
  derivable_pt_lim (fun t => gfun G (fun i => q i + t * h i) a) 0 (Rsum (dim G) (fun i => dgfun G q a i * h i)).
Lemma sum_atom n r A w : (r < n)%nat ->
  Rsum (3 * n) (fun i => (if (i / 3 =? r)%nat then A (i mod 3)%nat else 0) * w i) = Rsum 3 (fun k => A k * w (3 * r + k)%nat).
Proof.
  intros H. rewrite Rsum_3. rewrite (Rsum_ext n _ (fun a => Rsum 3 (fun k => A k * w (3 * r + k)%nat) * delta a r)).
  - rewrite (Rsum_delta_r n r (fun _ => Rsum 3 (fun k => A k * w (3 * r + k)%nat))); auto.
  - intros a Ha. unfold delta. destruct (Nat.eqb_spec a r) as [->|N].
    + rewrite Rmult_1_r. apply Rsum_ext. intros k K. rewrite div3, mod3, Nat.eqb_refl by assumption. reflexivity.
    + rewrite Rmult_0_r. apply Rsum_0. intros k K. rewrite div3 by assumption. apply Nat.eqb_neq in N. rewrite N. ring.
Qed.
Lemma bond_row_sum l q a u v w : (a < length l)%nat -> nth a l (O, O) = (u, v) ->
  let r := rev_index (pair_atoms l) in
  Rsum (dim (bonds l (fun _ => 0))) (fun i => bond_dg l q a i * w i) =
  Rsum 3 (fun k => 2 * diff3 q (r u) (r v) k * diff3 w (r u) (r v) k).
Proof.
  intros H E r. destruct (pair_in l a u v H E) as [Iu Iv]. unfold dim. cbn [bonds ic]. rewrite i3_length.
  destruct (rev_index_nth _ u Iu) as [Lu _]. destruct (rev_index_nth _ v Iv) as [Lv _]. fold r in Lu, Lv.
  set (n := length (unique (pair_atoms l))) in *. unfold bond_dg. rewrite E. fold r. destruct (Nat.eq_dec (r u) (r v)) as [Er|Nr].
  - rewrite Er. rewrite Rsum_0.
    + symmetry. apply Rsum_0. intros k K. rewrite !diff3_same. ring.
    + intros i Hi. rewrite diff3_same. destruct (i / 3 =? r v)%nat; ring.
  - rewrite (Rsum_ext _ _ (fun i => (if (i / 3 =? r v)%nat then (-2 * diff3 q (r u) (r v) (i mod 3)) else 0) * w i +
      (if (i / 3 =? r u)%nat then (2 * diff3 q (r u) (r v) (i mod 3)) else 0) * w i)).
    + rewrite Rsum_plus, (sum_atom n (r v) (fun k => -2 * diff3 q (r u) (r v) k)), (sum_atom n (r u) (fun k => 2 * diff3 q (r u) (r v) k)) by assumption.
      rewrite <- Rsum_plus. apply Rsum_ext. intros k K. change (diff3 w (r u) (r v) k) with (w (3 * r u + k)%nat - w (3 * r v + k)%nat). ring.
    + intros i Hi. destruct (Nat.eqb_spec (i / 3) (r v)) as [E1|N1]; destruct (Nat.eqb_spec (i / 3) (r u)) as [E2|N2]; try ring. congruence.
Qed.
Ltac diff := apply is_derive_Reals; auto_derive.
Theorem bond_jacobian l d q : jacobian_at (bonds l d) q.
Proof.
  intros h a Ha. cbn [bonds ncons] in Ha. destruct (nth a l (O, O)) as [u v] eqn:E.
  change (dim (bonds l d)) with (dim (bonds l (fun _ => 0))). cbn [bonds dgfun gfun].
  rewrite (bond_row_sum l q a u v h Ha E). unfold bond_g. rewrite E. cbn [Rsum]. unfold diff3.
  repeat match goal with |- context [q ?i] => generalize (q i); intros end.
  repeat match goal with |- context [h ?i] => generalize (h i); intros end.
  diff; [exact I|]. ring.
Qed.
(** Momenta along a bond constraint: the velocities of the two atoms do not separate them. *)
Theorem bond_tangent m3 l d Q p a u v : tangent m3 (bonds l d) Q p -> (a < length l)%nat -> nth a l (O, O) = (u, v) ->
  Rsum 3 (fun k => (Q (3 * u + k)%nat - Q (3 * v + k)%nat) *
                   (p (3 * u + k)%nat / m3 (3 * u + k)%nat - p (3 * v + k)%nat / m3 (3 * v + k)%nat)) = 0.
Proof.
  intros T Ha E. destruct (pair_in l a u v Ha E) as [Iu Iv]. specialize (T a Ha).
  pose proof (bond_row_sum l (take (i3 (unique (pair_atoms l))) Q) a u v
    (fun i => take (i3 (unique (pair_atoms l))) p i / take (i3 (unique (pair_atoms l))) m3 i) Ha E) as B.
  cbn zeta in B. pose proof (eq_trans (eq_sym T) B) as B'. clear B. rename B' into B.
  rewrite (Rsum_ext 3 _ (fun k => 2 * (diff3 Q u v k * (p (3 * u + k)%nat / m3 (3 * u + k)%nat - p (3 * v + k)%nat / m3 (3 * v + k)%nat)))) in B.
  - rewrite Rsum_scal in B. unfold diff3 in B. lra.
  - intros k K. rewrite diff3_take by assumption. unfold diff3 at 2. rewrite !take_atom by assumption. ring.
Qed.

(** Angles. *)
Definition dv (q1 q2 : nat -> R) (k : nat) : R :=
  let r1 := sqrt (dot3 q1 q1) in let r2 := sqrt (dot3 q2 q2) in
  (q2 k / r2 - dot3 (fun k => q1 k / r1) (fun k => q2 k / r2) * (q1 k / r1)) / r1.
Lemma dot3_comm a b : dot3 a b = dot3 b a.
Proof. apply Rsum_ext. intros. ring. Qed.
Lemma angle_row_sum l q a u v w y : (a < length l)%nat -> nth a l (O, O, O) = (u, v, w) -> u <> v -> u <> w -> v <> w ->
  let r := rev_index (trip_atoms l) in
  let q1 := diff3 q (r v) (r u) in let q2 := diff3 q (r w) (r u) in
  Rsum (dim (angles l (fun _ => 0))) (fun i => angle_dg l q a i * y i) =
  Rsum 3 (fun k => dv q1 q2 k * diff3 y (r v) (r u) k + dv q2 q1 k * diff3 y (r w) (r u) k).
Proof.
  intros H E Nv Nw Nvw r q1 q2. destruct (trip_in l a u v w H E) as (Iu & Iv & Iw). unfold dim. cbn [angles ic]. rewrite i3_length.
  destruct (rev_index_nth _ u Iu) as [Lu _]. destruct (rev_index_nth _ v Iv) as [Lv _]. destruct (rev_index_nth _ w Iw) as [Lw _].
  fold r in Lu, Lv, Lw. set (n := length (unique (trip_atoms l))) in *.
  assert (R1 : r u <> r v) by (intros K; apply Nv; now apply (rev_index_inj (trip_atoms l))).
  assert (R2 : r u <> r w) by (intros K; apply Nw; now apply (rev_index_inj (trip_atoms l))).
  assert (R3 : r v <> r w) by (intros K; apply Nvw; now apply (rev_index_inj (trip_atoms l))).
  rewrite (Rsum_ext _ _ (fun i => (if (i / 3 =? r u)%nat then - (dv q1 q2 (i mod 3) + dv q2 q1 (i mod 3)) else 0) * y i +
    ((if (i / 3 =? r w)%nat then dv q2 q1 (i mod 3) else 0) * y i + (if (i / 3 =? r v)%nat then dv q1 q2 (i mod 3) else 0) * y i))).
  - rewrite !Rsum_plus, (sum_atom n (r u) (fun k => - (dv q1 q2 k + dv q2 q1 k))), (sum_atom n (r w) (fun k => dv q2 q1 k)), (sum_atom n (r v) (fun k => dv q1 q2 k)) by assumption.
    rewrite <- !Rsum_plus. apply Rsum_ext. intros k K. change (diff3 y (r v) (r u) k) with (y (3 * r v + k)%nat - y (3 * r u + k)%nat). change (diff3 y (r w) (r u) k) with (y (3 * r w + k)%nat - y (3 * r u + k)%nat). ring.
  - intros i Hi. unfold angle_dg. rewrite E. cbn zeta. fold r. fold q1 q2. unfold dv.
    rewrite (dot3_comm (fun k => q2 k / sqrt (dot3 q2 q2)) (fun k => q1 k / sqrt (dot3 q1 q1))).
    destruct (Nat.eqb_spec (i / 3) (r u)) as [E1|N1]; destruct (Nat.eqb_spec (i / 3) (r w)) as [E2|N2];
      destruct (Nat.eqb_spec (i / 3) (r v)) as [E3|N3]; try ring; congruence.
Qed.
Lemma angle_derive (x y z w : nat -> R) : 0 < dot3 x x -> 0 < dot3 z z ->
  derivable_pt_lim (fun t => dot3 (fun k => x k + t * y k) (fun k => z k + t * w k) / sqrt (dot3 (fun k => x k + t * y k) (fun k => x k + t * y k))
     / sqrt (dot3 (fun k => z k + t * w k) (fun k => z k + t * w k))) 0
   (Rsum 3 (fun k => dv x z k * y k + dv z x k * w k)).
Proof.
  intros X Z.
  pose proof (sqrt_lt_R0 _ X) as S1. pose proof (sqrt_lt_R0 _ Z) as S2. pose proof (sqrt_sqrt _ (Rlt_le _ _ X)) as Q1. pose proof (sqrt_sqrt _ (Rlt_le _ _ Z)) as Q2.
  unfold dv. set (r1 := sqrt (dot3 x x)) in *. set (r2 := sqrt (dot3 z z)) in *.
  assert (D : is_derive (fun t => (dot3 x z + t * (dot3 y z + dot3 x w) + t ^ 2 * dot3 y w) / sqrt (dot3 x x + t * (2 * dot3 x y) + t ^ 2 * dot3 y y)
     / sqrt (dot3 z z + t * (2 * dot3 z w) + t ^ 2 * dot3 w w)) 0
     ((dot3 y z + dot3 x w) / r1 / r2 - dot3 x z * dot3 x y / r1 ^ 3 / r2 - dot3 x z * dot3 z w / r1 / r2 ^ 3)).
  { auto_derive.
    - replace (dot3 x x + 0 * (2 * dot3 x y) + 0 * (0 * 1) * dot3 y y) with (dot3 x x) by ring.
      replace (dot3 z z + 0 * (2 * dot3 z w) + 0 * (0 * 1) * dot3 w w) with (dot3 z z) by ring.
      fold r1 r2. repeat split; try assumption; intros K; lra.
    - replace (dot3 x x + 0 * (2 * dot3 x y) + 0 * (0 * 1) * dot3 y y) with (dot3 x x) by ring.
      replace (dot3 z z + 0 * (2 * dot3 z w) + 0 * (0 * 1) * dot3 w w) with (dot3 z z) by ring.
      fold r1 r2. field. lra. }
  apply is_derive_Reals in D.
  eapply derivable_eq; [|apply derivable_ext with (2 := D)].
  - unfold dot3. cbn [Rsum]. unfold dot3 in Q1, Q2. cbn [Rsum] in Q1, Q2.
    set (x0 := x 0%nat) in *. set (x1 := x 1%nat) in *. set (x2 := x 2%nat) in *. set (z0 := z 0%nat) in *. set (z1 := z 1%nat) in *. set (z2 := z 2%nat) in *.
    clearbody r1 r2. field. lra.
  - intros t. unfold dot3. cbn [Rsum]. f_equal; [f_equal|]; [ring|f_equal; ring|f_equal; ring].
Qed.
Definition far (q : vec) (u v : nat) : Prop := exists k, (k < 3)%nat /\ q (3 * u + k)%nat <> q (3 * v + k)%nat.
Lemma far_pos q u v : far q u v -> 0 < dot3 (diff3 q v u) (diff3 q v u).
Proof.
  intros (k & K & N). unfold dot3. cbn [Rsum].
  assert (P : 0 < diff3 q v u k * diff3 q v u k) by (apply Rsqr_pos_lt; unfold diff3; lra).
  pose proof (Rle_0_sqr (diff3 q v u 0)). pose proof (Rle_0_sqr (diff3 q v u 1)). pose proof (Rle_0_sqr (diff3 q v u 2)). unfold Rsqr in *.
  destruct k as [|[|[|k]]]; [lra..|lia].
Qed.
(** For three different atoms, the first of which is at another place than the others. *)
Theorem angle_jacobian l th Q : (forall u v w, In (u, v, w) l -> u <> v /\ u <> w /\ v <> w /\ far Q u v /\ far Q u w) ->
  jacobian_at (angles l th) (take (ic (angles l th)) Q).
Proof.
  intros D h a Ha. set (q := take (ic (angles l th)) Q). cbn [angles ncons] in Ha. destruct (nth a l (O, O, O)) as [[u v] w] eqn:E.
  assert (I : In (u, v, w) l) by (rewrite <- E; now apply nth_In).
  destruct (D u v w I) as (N1 & N2 & N3 & P1 & P2). apply far_pos in P1, P2. destruct (trip_in l a u v w Ha E) as (Iu & Iv & Iw).
  change (dim (angles l th)) with (dim (angles l (fun _ => 0))). cbn [angles dgfun gfun].
  rewrite (angle_row_sum l q a u v w h Ha E N1 N2 N3). unfold angle_g. rewrite E. cbn zeta.
  set (r := rev_index (trip_atoms l)) in *.
  rewrite (dot3_ext _ _ (diff3 q (r v) (r u)) (diff3 q (r v) (r u))) in P1 by (intros k K; unfold q, r; cbn [angles ic]; now rewrite diff3_take).
  rewrite (dot3_ext _ _ (diff3 q (r w) (r u)) (diff3 q (r w) (r u))) in P2 by (intros k K; unfold q, r; cbn [angles ic]; now rewrite diff3_take).
  pose proof (angle_derive (diff3 q (r v) (r u)) (diff3 h (r v) (r u)) (diff3 q (r w) (r u)) (diff3 h (r w) (r u)) P1 P2) as A.
  eapply derivable_eq; [|apply derivable_ext with (2 := derivable_pt_lim_minus _ (fun _ => cos (th a)) _ _ _ A (derivable_pt_lim_const _ _))].
  - ring.
  - intros t. unfold minus_fct. cbn beta. f_equal.
    assert (X : forall i j k, diff3 (fun i => q i + t * h i) i j k = diff3 q i j k + t * diff3 h i j k) by (intros; unfold diff3; ring).
    f_equal; [f_equal|]; [|f_equal|f_equal]; apply dot3_ext; intros k K; rewrite X; reflexivity.
Qed.

(** Eckart: the values are linear, and the rows are their coefficients. *)
Theorem eckart_linear l m3 qref : linear (eckart l m3 qref).
Proof.
  intros Q q d a Ha. cbn [eckart ncons gfun dgfun dim ic] in *. unfold dim. cbn [eckart ic]. rewrite i3_length. set (n := length (unique l)).
  set (m := take (i3 (unique l)) m3). set (M := mtot n m). rewrite Rsum_3. unfold eckart_g. fold M.
  destruct a as [|[|[|[|[|[|a]]]]]]; [..|lia]; cbn [Nat.ltb Nat.leb Nat.sub cross]; unfold Rdiv; rewrite <- !Rsum_scal_r, <- Rsum_minus; apply Rsum_ext; intros b Hb;
    cbn [Rsum]; unfold eckart_dg; rewrite ?div3, ?mod3 by lia; fold M; unfold row, Rdiv; ring.
Qed.
Theorem eckart_jacobian l m3 qref q : jacobian_at (eckart l m3 qref) q.
Proof.
  intros h a Ha. set (c := Rsum _ _).
  apply derivable_ext with (fun t => gfun (eckart l m3 qref) q a + t * c).
  - intros t. pose proof (eckart_linear l m3 qref q q (fun i => - t * h i) a Ha) as E.
    cbn beta in E. replace (fun i => q i - - t * h i) with (fun i => q i + t * h i) in E by (apply functional_extensionality; intros; ring).
    rewrite E. rewrite (Rsum_ext _ _ (fun i => - t * (dgfun (eckart l m3 qref) q a i * h i))) by (intros; ring). rewrite Rsum_scal. unfold c. ring.
  - diff; [exact I|ring].
Qed.
(** Positions and momenta of the conditions: the reference is met by itself; momenta along the
    constraint carry no momentum of the atoms and no angular momentum about the reference. *)
Theorem eckart_reference l m3 qref a : (a < 6)%nat -> gfun (eckart l m3 qref) qref a = 0.
Proof.
  intros Ha. cbn [eckart gfun]. unfold eckart_g, Rdiv. destruct (a <? 3)%nat; rewrite Rsum_0; try ring; intros b Hb; [ring|].
  unfold row. destruct (a - 3)%nat as [|[|k]]; cbn [cross]; ring.
Qed.
Theorem eckart_tangent l m3 qref Q p : tangent m3 (eckart l m3 qref) Q p ->
  (forall u k, (k < 3)%nat -> In u l -> m3 (3 * u + k)%nat = m3 (3 * u)%nat /\ 0 < m3 (3 * u)%nat) -> l <> [] ->
  let n := length (unique l) in let m := take (i3 (unique l)) m3 in forall k, (k < 3)%nat ->
  Rsum n (fun i => p (3 * nth i (unique l) O + k)%nat) = 0 /\
  Rsum n (fun i => cross (fun c => qref (3 * i + c)%nat - ref_com n m qref c) (row p (nth i (unique l) O)) k) = 0.
Proof.
  intros T M Ne n m k K.
  assert (Mi : forall i c, (i < n)%nat -> (c < 3)%nat -> m (3 * i + c)%nat = m3 (3 * nth i (unique l) O)%nat /\ 0 < m3 (3 * nth i (unique l) O)%nat).
  { intros i c Hi C. unfold m, take. rewrite i3_nth by assumption. apply M; [exact C|]. apply unique_In. now apply nth_In. }
  assert (Pi : forall i c, (i < n)%nat -> (c < 3)%nat -> take (i3 (unique l)) p (3 * i + c)%nat = p (3 * nth i (unique l) O + c)%nat).
  { intros i c Hi C. unfold take. now rewrite i3_nth. }
  assert (Mt : 0 < mtot n m).
  { unfold mtot. destruct n as [|n0] eqn:En.
    - exfalso. destruct l as [|a l']; [contradiction|]. assert (J : In a (unique (a :: l'))) by (apply unique_In; now left).
      unfold n in En. destruct (unique (a :: l')); [destruct J|discriminate].
    - cbn [Rsum]. assert (0 <= Rsum n0 (fun a => m (3 * a)%nat)).
      { apply Rsum_nonneg. intros i Hi. destruct (Mi i 0%nat ltac:(lia) ltac:(lia)) as [E P]. rewrite Nat.add_0_r in E. rewrite E. lra. }
      destruct (Mi n0 0%nat ltac:(lia) ltac:(lia)) as [E P]. rewrite Nat.add_0_r in E. rewrite E. lra. }
  assert (C : forall a, (a < 6)%nat -> Rsum n (fun i => Rsum 3 (fun c => eckart_dg n m qref a (3 * i + c)%nat *
    (p (3 * nth i (unique l) O + c)%nat / m3 (3 * nth i (unique l) O)%nat))) = 0).
  { intros a Ha. specialize (T a Ha). revert T. unfold dim. cbn [eckart ic dgfun]. rewrite i3_length, Rsum_3. fold m n. intros T. rewrite <- T.
    apply Rsum_ext. intros i Hi. apply Rsum_ext. intros c Hc. cbn beta. fold m. destruct (Mi i c Hi Hc) as [-> _]. now rewrite Pi. }
  assert (D : forall F, Rsum n F / mtot n m = 0 -> Rsum n F = 0).
  { intros F H. apply Rmult_eq_reg_r with (/ mtot n m); [|apply Rinv_neq_0_compat; intros A; lra]. rewrite Rmult_0_l. exact H. }
  split; apply D; [rewrite <- (C k ltac:(lia))|rewrite <- (C (3 + k)%nat ltac:(lia))]; unfold Rdiv; rewrite <- Rsum_scal_r; apply Rsum_ext; intros i Hi;
    pose proof (Mi i 0%nat Hi ltac:(lia)) as [E0 P]; pose proof (Mi i 1%nat Hi ltac:(lia)) as [E1 _]; pose proof (Mi i 2%nat Hi ltac:(lia)) as [E2 _];
    cbn [Rsum]; unfold eckart_dg; rewrite ?div3, ?mod3 by lia; destruct k as [|[|[|k]]]; try lia; cbn [Nat.add cross]; unfold row, mref, Rdiv;
    rewrite ?mod3 by lia; rewrite ?E0, ?E1, ?E2; field; split; intros A; lra.
Qed.

(** Momenta along a constraint do not change its value, to first order in time. *)
Theorem tangent_keeps_value m3 G Q p : jacobian_at G (take (ic G) Q) -> tangent m3 G Q p -> forall a, (a < ncons G)%nat ->
  derivable_pt_lim (fun t => gfun G (take (ic G) (fun j => Q j + t * (p j / m3 j))) a) 0 0.
Proof. intros J T a Ha. pose proof (J (take (ic G) (fun j => p j / m3 j)) a Ha) as D. eapply derivable_eq; [exact (T a Ha)|exact D]. Qed.

(** ** Constraints look only at their own coordinates *)
Theorem bonds_local l d : local (bonds l d).
Proof.
  intros v w H. apply functional_extensionality. intros a. cbn [bonds gfun]. unfold bond_g. destruct (nth a l (O, O)) as [x y] eqn:E. f_equal.
  apply Rsum_ext. intros k K. f_equal. destruct (lt_dec a (length l)) as [L|L].
  - destruct (pair_in l a x y L E) as [Ix Iy]. destruct (rev_index_nth _ x Ix) as [Lx _]. destruct (rev_index_nth _ y Iy) as [Ly _].
    apply diff3_ext; [intros k' K'; apply H|intros k' K'; apply H|exact K]; unfold dim; cbn [bonds ic]; rewrite i3_length; lia.
  - rewrite nth_overflow in E by lia. injection E as <- <-. now rewrite !diff3_same.
Qed.
Theorem angles_local l th : local (angles l th).
Proof.
  intros v w H. apply functional_extensionality. intros a. cbn [angles gfun]. unfold angle_g. destruct (nth a l (O, O, O)) as [[x y] z] eqn:E. f_equal.
  set (r := rev_index (trip_atoms l)).
  assert (D : (forall k, (k < 3)%nat -> diff3 v (r y) (r x) k = diff3 w (r y) (r x) k) /\ (forall k, (k < 3)%nat -> diff3 v (r z) (r x) k = diff3 w (r z) (r x) k)).
  { destruct (lt_dec a (length l)) as [L|L].
    - destruct (trip_in l a x y z L E) as (Ix & Iy & Iz). destruct (rev_index_nth _ x Ix) as [Lx _]. destruct (rev_index_nth _ y Iy) as [Ly _].
      destruct (rev_index_nth _ z Iz) as [Lz _].
      split; apply diff3_ext; intros k' K'; apply H; unfold dim, r; cbn [angles ic]; rewrite i3_length; lia.
    - rewrite nth_overflow in E by lia. injection E as <- <- <-. split; intros; now rewrite !diff3_same. }
  destruct D as [D1 D2]. f_equal; [f_equal|]; [|f_equal|f_equal]; apply dot3_ext; intros k K; auto.
Qed.
Theorem eckart_local l m3 qref : local (eckart l m3 qref).
Proof.
  intros v w H. apply functional_extensionality. intros a. cbn [eckart gfun]. unfold eckart_g.
  assert (D : forall b c, (b < length (unique l))%nat -> (c < 3)%nat -> v (3 * b + c)%nat = w (3 * b + c)%nat).
  { intros b c Hb Hc. apply H. unfold dim. cbn [eckart ic]. rewrite i3_length. lia. }
  destruct (Nat.ltb_spec a 3); f_equal; apply Rsum_ext; intros b Hb; [now rewrite D|].
  unfold row. destruct (a - 3)%nat as [|[|k]]; cbn [cross]; now rewrite !D by lia.
Qed.
Theorem atoms_proper natoms l G : ic G = i3 (unique l) -> (forall u, In u l -> (u < natoms)%nat) -> proper (3 * natoms) G.
Proof.
  intros E H. split; rewrite E; [apply i3_NoDup, unique_NoDup|]. intros j Hj. apply i3_In in Hj. destruct Hj as (u & k & Hu & K & ->).
  apply (proj1 (unique_In l u)) in Hu. specialize (H u Hu). lia.
Qed.
(** A single bond is independent wherever its atoms are apart. *)
Theorem bond_independent u v d Q : u <> v -> far Q u v -> independent (bonds [(u, v)] d) Q.
Proof.
  intros N (k & K & F) x H a Ha. cbn [bonds ncons length] in *. assert (a = O) by lia. subst a. set (l := [(u, v)]) in *.
  assert (Iu : In u (pair_atoms l)) by (cbn; auto). assert (Iv : In v (pair_atoms l)) by (cbn; auto).
  destruct (rev_index_nth _ u Iu) as [Lu _]. set (r := rev_index (pair_atoms l)) in *.
  specialize (H (3 * r u + k)%nat). unfold dim in H. cbn [bonds ic] in H. rewrite i3_length in H. specialize (H ltac:(lia)).
  cbn [Rsum dgfun bonds ic] in H. unfold bond_dg in H. cbn [nth l] in H. fold l r in H. rewrite div3, mod3, Nat.eqb_refl in H by exact K.
  assert (R1 : r u <> r v) by (intros E; apply N; now apply (rev_index_inj (pair_atoms l))). apply Nat.eqb_neq in R1. rewrite R1 in H.
  unfold r in H. rewrite diff3_take in H by assumption. unfold diff3 in H.
  apply Rmult_eq_reg_l with (2 * (Q (3 * u + k)%nat - Q (3 * v + k)%nat)); [lra|]. intros A. apply F. lra.
Qed.

(** ** Lists of constraints that are solved together *)
Lemma locate_In cs : forall a l G b, locate cs a = Some (l, G, b) -> In (l, G) cs /\ (b < ncons G)%nat.
Proof.
  induction cs as [|[l' G'] cs IH]; intros a l G b; cbn [locate snd]; [discriminate|]. destruct (Nat.ltb_spec a (ncons G')).
  - intros [= <- <- <-]. split; [now left|assumption].
  - intros E. destruct (IH _ _ _ _ E). split; [now right|assumption].
Qed.
Lemma locate_some cs : forall a, (a < ncons (joined cs))%nat -> exists c, locate cs a = Some c.
Proof.
  cbn [joined ncons]. induction cs as [|[l' G'] cs IH]; intros a; cbn [locate snd fold_right]; [lia|]. intros H. destruct (Nat.ltb_spec a (ncons G')); [eauto|]. apply IH. lia.
Qed.
(** The conditions of the constraints come one after the other. *)
Theorem joined_order cs1 l G cs2 b : (b < ncons G)%nat ->
  locate (cs1 ++ (l, G) :: cs2) (fold_right (fun c s => (ncons (snd c) + s)%nat) O cs1 + b) = Some (l, G, b).
Proof.
  intros H. induction cs1 as [|[l' G'] cs1 IH]; cbn [locate snd fold_right app].
  - rewrite Nat.add_0_l. destruct (Nat.ltb_spec b (ncons G)); [reflexivity|lia].
  - destruct (Nat.ltb_spec (ncons G' + fold_right (fun c s => (ncons (snd c) + s)%nat) O cs1 + b) (ncons G')); [lia|].
    rewrite <- IH. f_equal. lia.
Qed.
Lemma map_nth_unique cs l G i : In (l, G) cs -> (i < length (unique l))%nat ->
  let all := all_atoms cs in let idx := fun j => match index_of j all with Some i => i | None => O end in
  (idx (nth i (unique l) O) < length all)%nat /\ nth (idx (nth i (unique l) O)) all O = nth i (unique l) O.
Proof.
  intros I H all idx. assert (J : In (nth i (unique l) O) all).
  { unfold all, all_atoms. apply unique_In. apply in_concat. exists l. split; [apply in_map_iff; exists (l, G); auto|].
    apply unique_In. now apply nth_In. }
  unfold idx. destruct (index_of_In _ _ J) as (j & -> & A & B). split; assumption.
Qed.
Lemma ic3_map_nth cs l G i : In (l, G) cs -> (i < 3 * length (unique l))%nat ->
  nth (nth i (ic3_map (all_atoms cs) l) O) (i3 (all_atoms cs)) O = nth i (i3 (unique l)) O /\ (nth i (ic3_map (all_atoms cs) l) O < 3 * length (all_atoms cs))%nat.
Proof.
  intros I H. pose proof (Nat.div_mod i 3 ltac:(lia)) as E. pose proof (Nat.mod_upper_bound i 3 ltac:(lia)) as K. set (b := (i / 3)%nat) in *. set (k := (i mod 3)%nat) in *.
  rewrite E. assert (Hb : (b < length (unique l))%nat) by lia. destruct (map_nth_unique cs l G b I Hb) as [A B]. cbn zeta in A, B.
  set (idx := fun j => match index_of j (all_atoms cs) with Some i => i | None => O end) in *.
  change (nth (idx (nth b (unique l) O)) (all_atoms cs) O = nth b (unique l) O) in B. change (idx (nth b (unique l) O) < length (all_atoms cs))%nat in A.
  unfold ic3_map. fold idx. rewrite i3_nth by (rewrite ?map_length; assumption).
  rewrite (nth_indep (map idx (unique l)) O (idx O)) by now rewrite map_length. rewrite map_nth.
  rewrite !i3_nth by assumption. rewrite B. split; [reflexivity|lia].
Qed.
Lemma joined_take cs l G q i : In (l, G) cs -> (i < 3 * length (unique l))%nat ->
  take (ic3_map (all_atoms cs) l) (take (i3 (all_atoms cs)) q) i = take (i3 (unique l)) q i.
Proof. intros I H. unfold take. now rewrite (proj1 (ic3_map_nth cs l G i I H)). Qed.
(** The values are those of the constraints, at the positions of their own atoms. *)
Theorem joined_value cs q a l G b : (forall l G, In (l, G) cs -> ic G = i3 (unique l) /\ local G) -> locate cs a = Some (l, G, b) ->
  gfun (joined cs) (take (ic (joined cs)) q) a = gfun G (take (ic G) q) b.
Proof.
  intros H E. destruct (locate_In cs a l G b E) as [I _]. destruct (H l G I) as [Ei L]. cbn [joined gfun ic]. rewrite E.
  rewrite (L _ (take (ic G) q)); [reflexivity|]. intros i Hi. unfold dim in Hi. rewrite Ei in *. rewrite i3_length in Hi. now apply joined_take with G.
Qed.
Lemma ic3_map_length all l : length (ic3_map all l) = (3 * length (unique l))%nat.
Proof. unfold ic3_map. now rewrite i3_length, map_length. Qed.
Lemma ic3_map_NoDup cs l G : In (l, G) cs -> NoDup (ic3_map (all_atoms cs) l).
Proof.
  intros I. apply NoDup_nth with (d := O). rewrite ic3_map_length. intros i j Hi Hj E.
  pose proof (proj1 (ic3_map_nth cs l G i I Hi)) as A. pose proof (proj1 (ic3_map_nth cs l G j I Hj)) as B. rewrite E in A. rewrite A in B.
  apply (proj1 (NoDup_nth (i3 (unique l)) O) (i3_NoDup _ (unique_NoDup l))); rewrite ?i3_length; assumption.
Qed.
(** The Jacobian of the list is right when those of its constraints are. *)
Theorem joined_jacobian cs q : (forall l G, In (l, G) cs -> ic G = i3 (unique l) /\ jacobian_at G (take (ic3_map (all_atoms cs) l) q)) ->
  jacobian_at (joined cs) q.
Proof.
  intros H h a Ha. destruct (locate_some cs a Ha) as [[[l G] b] E]. destruct (locate_In cs a l G b E) as [I Hb]. destruct (H l G I) as [Ei J].
  unfold dim. cbn [joined gfun dgfun ic]. rewrite E, i3_length. set (mp := ic3_map (all_atoms cs) l).
  rewrite (Rsum_support (3 * length (all_atoms cs)) _ mp).
  - specialize (J (take mp h) b Hb). fold mp in J. eapply derivable_eq; [|exact J].
    unfold mp. rewrite ic3_map_length. unfold dim. rewrite Ei, i3_length. apply Rsum_ext. intros i Hi. fold mp.
    rewrite index_of_nth; [reflexivity|now apply ic3_map_NoDup with G|unfold mp; now rewrite ic3_map_length].
  - now apply ic3_map_NoDup with G.
  - intros j Hj. apply In_nth with (d := O) in Hj. destruct Hj as (i & Hi & <-). unfold mp in Hi. rewrite ic3_map_length in Hi.
    apply (proj2 (ic3_map_nth cs l G i I Hi)).
  - intros j Hj Nj. apply index_of_None in Nj. rewrite Nj. ring.
Qed.
Theorem joined_local cs : (forall l G, In (l, G) cs -> ic G = i3 (unique l) /\ local G) -> local (joined cs).
Proof.
  intros H v w E. apply functional_extensionality. intros a. cbn [joined gfun]. destruct (locate cs a) as [[[l G] b]|] eqn:El; [|reflexivity].
  destruct (locate_In cs a l G b El) as [I _]. destruct (H l G I) as [Ei L]. 
  rewrite (L _ (take (ic3_map (all_atoms cs) l) w)); [reflexivity|]. intros i Hi. unfold dim in Hi. rewrite Ei, i3_length in Hi.
  unfold take. apply E. unfold dim. cbn [joined ic]. rewrite i3_length. apply (proj2 (ic3_map_nth cs l G i I Hi)).
Qed.
