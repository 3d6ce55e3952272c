(** * Properties of the instanton optimisers: the step, the reduced path, the first geometry, the end *)
From Coq Require Import List Arith Lia Reals Lra Bool String Sorted.
From Verif Require Import RSum NMModel SpringModel MinModel MinProps InstFix InstModel InstHess InstProps.
Import ListNotations.
Open Scope list_scope.
Open Scope R_scope.

(** ** Lanczos *)
(** [u] is a mode of the complete Hessian in mass-scaled coordinates: [H u = lambda M u].  The step is
    taken with the shift and the factor found from the two lowest eigenvalues of the banded matrix:
    against the force along the lowest mode, along the force along the others. *)
Theorem lanczos_direction dof n m w2 shift coef h junk f d_x d0 d1 alpha lamb : (0 < dof)%nat -> (n = 1 \/ 3 <= n)%nat -> List.length coef = (n + 1)%nat -> sym_blocks dof n h ->
  (forall c, (c < dof)%nat -> 0 < m c) -> nichols_par d0 d1 = (alpha, lamb) -> d0 < d1 -> (d1 < 0 -> d1 <> d0 / 2) ->
  exists B H, banded_hessian dof n m w2 false shift coef (dynmat dof m h) = Val B /\ full_hessian dof n m w2 coef h = Val H /\
    (is_step dof n m junk (shift_band dof lamb B) alpha f d_x ->
     forall u lambda, (forall r, (r < dof * n)%nat -> Rsum (dof * n) (fun s => H r s * u s) = lambda * m (r mod dof)%nat * u r) ->
     let force := Rsum (dof * n) (fun r => u r * f r) in
     let moved := Rsum (dof * n) (fun r => u r * (m (r mod dof)%nat * d_x r)) in
     (lambda + shift - lamb) * moved = alpha * force /\
     (lambda + shift = d0 -> force <> 0 -> force * moved < 0) /\ (d1 <= lambda + shift -> force <> 0 -> 0 < force * moved)).
Proof.
  intros Hd Hn HL Hs Hm HP L N. destruct (step_solves dof n m w2 shift lamb alpha coef h junk f d_x Hd Hn HL Hs Hm) as (B & H & EB & EH & ST).
  exists B, H. split; [easy|]. split; [easy|]. intros IS u lambda EU force moved. specialize (ST IS).
  assert (HS : forall i j, (i < dof * n)%nat -> (j < dof * n)%nat -> H i j = H j i).
  { intros i j Hi Hj. apply (full_symmetric dof n m w2 coef h); try easy; lia. }
  assert (E : (lambda + shift - lamb) * moved = alpha * force).
  { unfold force, moved. rewrite <- !Rsum_scal.
    assert (Q : Rsum (dof * n) (fun r => u r * Rsum (dof * n) (fun s => H r s * d_x s)) = Rsum (dof * n) (fun s => lambda * (u s * (m (s mod dof)%nat * d_x s)))).
    { rewrite (Rsum_ext (dof * n) (fun r => u r * Rsum (dof * n) (fun s => H r s * d_x s)) (fun r => Rsum (dof * n) (fun s => u r * (H r s * d_x s)))) by (intros r _; now rewrite Rsum_scal).
      rewrite Rsum_swap. apply Rsum_ext. intros s Hs'.
      rewrite (Rsum_ext (dof * n) (fun r => u r * (H r s * d_x s)) (fun r => H s r * u r * d_x s)) by (intros r Hr; rewrite (HS r s) by easy; ring).
      rewrite Rsum_scal_r, EU by easy. ring. }
    rewrite (Rsum_ext (dof * n) (fun i => alpha * (u i * f i)) (fun r => u r * Rsum (dof * n) (fun s => H r s * d_x s) + (shift - lamb) * (u r * (m (r mod dof)%nat * d_x r)))).
    - rewrite Rsum_plus, Q, <- Rsum_plus. apply Rsum_ext. intros r _. ring.
    - intros r Hr. replace (alpha * (u r * f r)) with (u r * (alpha * f r)) by ring. rewrite <- (ST r Hr). ring. }
  pose proof (nichols_par_between d0 d1 L N) as BT. rewrite HP in BT. destruct BT as (PA & P0 & P1).
  split; [exact E|]. clearbody force moved. clear - E PA P0 P1.
  assert (S2 : force <> 0 -> 0 < force * force) by (intros Q; destruct (Rdichotomy _ _ Q); nra).
  assert (E2 : (lambda + shift - lamb) * (force * moved) = alpha * (force * force)) by (replace ((lambda + shift - lamb) * (force * moved)) with (force * ((lambda + shift - lamb) * moved)) by ring; rewrite E; ring).
  set (x := force * moved) in *. split; intros Q F; specialize (S2 F).
  - assert (0 < alpha * (force * force)) by (apply Rmult_lt_0_compat; easy). nra.
  - assert (0 < alpha * (force * force)) by (apply Rmult_lt_0_compat; easy). nra.
Qed.

(** ** Distance along the path *)
Lemma ms_path_sum dof n m q i : (i < n)%nat -> ms_pathway dof n m q i = Rsum i (fun k => ms_step dof m q (k + 1)).
Proof.
  intros Hi. unfold ms_pathway. rewrite (proj2 (Nat.ltb_lt i n) Hi), andb_true_r. destruct (Nat.leb_spec 1 i) as [H|H].
  - rewrite firstn_all2 by (rewrite map_length, seq_length; lia). rewrite Rsuml_seq. apply Rsum_ext. intros k _. f_equal. lia.
  - replace i with 0%nat by lia. easy.
Qed.
(** Mass-scaled distance of two beads. *)
Definition ms_dist (dof : nat) (m : InstModel.vec) (x y : InstModel.vec) : R := sqrt (Rsum dof (fun c => m c * (x c - y c) ^ 2)).
Lemma ms_step_dist dof m q i : (forall c, (c < dof)%nat -> 0 <= m c) -> ms_step dof m q i = ms_dist dof m (q i) (q (i - 1)%nat).
Proof.
  intros Hm. unfold ms_step, ms_dist. f_equal. apply Rsum_ext. intros c Hc. specialize (Hm c Hc).
  replace (((q i c - q (i - 1)%nat c) * sqrt (m c)) ^ 2) with ((sqrt (m c) * sqrt (m c)) * (q i c - q (i - 1)%nat c) ^ 2) by ring. now rewrite sqrt_sqrt.
Qed.
Theorem pathway_start dof n m q : (0 < n)%nat -> ms_pathway dof n m q 0%nat = 0.
Proof. intros Hn. now rewrite ms_path_sum. Qed.
Theorem pathway_step dof n m q i : (forall c, (c < dof)%nat -> 0 <= m c) -> (i + 1 < n)%nat ->
  ms_pathway dof n m q (i + 1)%nat = ms_pathway dof n m q i + ms_dist dof m (q (i + 1)%nat) (q i).
Proof.
  intros Hm Hi. rewrite !ms_path_sum by lia. rewrite Nat.add_1_r. cbn [Rsum]. rewrite ms_step_dist by easy. rewrite Nat.add_1_r. replace (S i - 1)%nat with i by lia. easy.
Qed.
(** Cauchy-Schwarz and the triangle inequality for the mass-scaled distance. *)
Lemma cs_sum n a b : Rsum n (fun i => a i * b i) ^ 2 <= Rsum n (fun i => a i ^ 2) * Rsum n (fun i => b i ^ 2).
Proof.
  set (A := Rsum n (fun i => a i ^ 2)). set (D := Rsum n (fun i => b i ^ 2)). set (C := Rsum n (fun i => a i * b i)).
  assert (HA : 0 <= A) by (apply Rsum_nonneg; intros; apply pow2_ge_0). assert (HD : 0 <= D) by (apply Rsum_nonneg; intros; apply pow2_ge_0).
  assert (Q : forall t, 0 <= A + 2 * t * C + t ^ 2 * D).
  { intros t. replace (A + 2 * t * C + t ^ 2 * D) with (Rsum n (fun i => (a i + t * b i) ^ 2)).
    - apply Rsum_nonneg. intros. apply pow2_ge_0.
    - unfold A, C, D. rewrite <- !Rsum_scal, <- !Rsum_plus. apply Rsum_ext. intros. ring. }
  destruct (Req_dec D 0) as [HD0|HD0].
  - rewrite HD0 in *. destruct (Req_dec C 0) as [->|HC]; [nra|]. exfalso. specialize (Q (- (A + 1) / (2 * C))).
    replace (A + 2 * (- (A + 1) / (2 * C)) * C + (- (A + 1) / (2 * C)) ^ 2 * 0) with (-1) in Q by (field; easy). lra.
  - specialize (Q (- C / D)). replace (A + 2 * (- C / D) * C + (- C / D) ^ 2 * D) with ((A * D - C ^ 2) / D) in Q by (field; easy).
    assert (0 < D) by lra. apply Rmult_le_compat_r with (r := D) in Q; [|lra]. unfold Rdiv in Q. rewrite Rmult_assoc, Rinv_l, Rmult_0_l in Q by easy. lra.
Qed.
Lemma norm_triangle n a b : sqrt (Rsum n (fun i => (a i + b i) ^ 2)) <= sqrt (Rsum n (fun i => a i ^ 2)) + sqrt (Rsum n (fun i => b i ^ 2)).
Proof.
  assert (HA : 0 <= Rsum n (fun i => a i ^ 2)) by (apply Rsum_nonneg; intros; apply pow2_ge_0). assert (HB : 0 <= Rsum n (fun i => b i ^ 2)) by (apply Rsum_nonneg; intros; apply pow2_ge_0).
  pose proof (cs_sum n a b) as C. set (A := Rsum n (fun i => a i ^ 2)) in *. set (B := Rsum n (fun i => b i ^ 2)) in *. set (X := Rsum n (fun i => a i * b i)) in *.
  assert (E : Rsum n (fun i => (a i + b i) ^ 2) = A + 2 * X + B).
  { unfold A, B, X. rewrite <- Rsum_scal, <- !Rsum_plus. apply Rsum_ext. intros. ring. }
  assert (PA := sqrt_pos A). assert (PB := sqrt_pos B). assert (SA := sqrt_sqrt A HA). assert (SB := sqrt_sqrt B HB).
  rewrite <- (sqrt_Rsqr (sqrt A + sqrt B)) by lra. apply sqrt_le_1_alt. rewrite E. unfold Rsqr.
  assert (X <= sqrt A * sqrt B).
  { apply Rle_trans with (Rabs X); [apply Rle_abs|]. rewrite <- (sqrt_Rsqr_abs X), <- sqrt_mult by easy. apply sqrt_le_1_alt. unfold Rsqr. nra. }
  nra.
Qed.
Lemma ms_dist_triangle dof m x y z : (forall c, (c < dof)%nat -> 0 <= m c) -> ms_dist dof m x z <= ms_dist dof m x y + ms_dist dof m y z.
Proof.
  intros Hm. unfold ms_dist.
  rewrite (Rsum_ext dof (fun c => m c * (x c - z c) ^ 2) (fun c => (sqrt (m c) * (x c - y c) + sqrt (m c) * (y c - z c)) ^ 2)).
  rewrite (Rsum_ext dof (fun c => m c * (x c - y c) ^ 2) (fun c => (sqrt (m c) * (x c - y c)) ^ 2)).
  rewrite (Rsum_ext dof (fun c => m c * (y c - z c) ^ 2) (fun c => (sqrt (m c) * (y c - z c)) ^ 2)).
  - apply norm_triangle.
  - intros c Hc. specialize (Hm c Hc). rewrite <- (sqrt_sqrt (m c)) at 1 by easy. ring.
  - intros c Hc. specialize (Hm c Hc). rewrite <- (sqrt_sqrt (m c)) at 1 by easy. ring.
  - intros c Hc. specialize (Hm c Hc). rewrite <- (sqrt_sqrt (m c)) at 1 by easy. ring.
Qed.
(** The distance along the path is never less than the distance itself. *)
Theorem pathway_distance dof n m q i j : (forall c, (c < dof)%nat -> 0 <= m c) -> (i <= j)%nat -> (j < n)%nat ->
  ms_dist dof m (q j) (q i) <= ms_pathway dof n m q j - ms_pathway dof n m q i.
Proof.
  intros Hm Hij. induction Hij as [|j Hij IH]; intros Hj.
  - unfold ms_dist. rewrite Rsum_0 by (intros; ring). rewrite sqrt_0. lra.
  - specialize (IH ltac:(lia)). pose proof (pathway_step dof n m q j Hm ltac:(lia)) as Q. rewrite Nat.add_1_r in Q. rewrite Q.
    pose proof (ms_dist_triangle dof m (q (S j)) (q j) (q i) Hm). lra.
Qed.

(** ** Selection of the beads *)
Section Select.
Variables (mm me : R) (path pot : InstModel.vec).
Lemma select_acc is old acc : select mm me path pot is old acc = acc ++ select mm me path pot is old [].
Proof.
  revert old acc. induction is as [|i is IH]; intros old acc; cbn [select]; [now rewrite app_nil_r|].
  destruct (far mm me path pot i old); [|apply IH]. rewrite IH, (IH i ([] ++ [i])), app_assoc. easy.
Qed.
(** Each bead is judged against the last one selected before it. *)
Definition judged (i : nat) (l : list nat) (b : bool) : Prop :=
  exists o, In o l /\ (o < i)%nat /\ (forall j, In j l -> (j <= o \/ i <= j)%nat) /\ far mm me path pot i o = b.
Lemma select_spec k : forall a old, (old < a)%nat -> let s := select mm me path pot (seq a k) old [] in
  StronglySorted lt s /\ Forall (fun x => (a <= x < a + k)%nat) s /\
  (forall i, (a <= i < a + k)%nat -> (In i s -> judged i (old :: s) true) /\ (~ In i s -> judged i (old :: s) false)).
Proof.
  induction k as [|k IH]; intros a old Ho; cbn [seq select].
  - split; [constructor|]. split; [constructor|]. intros; lia.
  - destruct (far mm me path pot a old) eqn:F.
    + rewrite select_acc. cbn [List.app]. destruct (IH (S a) a ltac:(lia)) as (S1 & S2 & S3). set (s := select mm me path pot (seq (S a) k) a []) in *. cbv zeta.
      split; [constructor; [easy|]; apply Forall_impl with (2 := S2); intros; lia|].
      split; [constructor; [lia|]; apply Forall_impl with (2 := S2); intros; lia|].
      intros i Hi. assert (C : i = a \/ (S a <= i < S a + k)%nat) by lia. destruct C as [->|C].
      * split; [|intros Q; elim Q; now left]. intros _. exists old. split; [now left|]. split; [easy|]. split; [|easy]. intros j [<-|[<-|Hj]]; [lia | lia |].
        apply (proj1 (Forall_forall _ _) S2) in Hj. lia.
      * destruct (S3 i C) as (S4 & S5). assert (A : forall b, judged i (a :: s) b -> judged i (old :: a :: s) b).
        { intros b (o & H1 & H2 & H3 & H4). exists o. split; [now right|]. split; [easy|]. split; [|easy]. intros j [<-|Hj]; [|now apply H3].
          left. destruct H1 as [<-|H1]; [lia|]. apply (proj1 (Forall_forall _ _) S2) in H1. lia. }
        split; intros Q; apply A.
        -- destruct Q as [<-|Q]; [lia|]. now apply S4.
        -- apply S5. intros Q'. apply Q. now right.
    + destruct (IH (S a) old ltac:(lia)) as (S1 & S2 & S3). set (s := select mm me path pot (seq (S a) k) old []) in *. cbv zeta.
      split; [easy|]. split; [apply Forall_impl with (2 := S2); intros; lia|].
      intros i Hi. assert (C : i = a \/ (S a <= i < S a + k)%nat) by lia. destruct C as [->|C]; [|now apply S3].
      split; intros Q; [apply (proj1 (Forall_forall _ _) S2) in Q; lia|]. exists old. split; [now left|]. split; [easy|]. split; [|easy].
      intros j [<-|Hj]; [lia|]. apply (proj1 (Forall_forall _ _) S2) in Hj. lia.
Qed.
End Select.
Lemma memb_In x l : memb x l = true <-> In x l.
Proof. unfold memb. rewrite existsb_exists. split; [intros (y & H & Q); apply Nat.eqb_eq in Q; now subst | intros H; exists x; now rewrite Nat.eqb_refl]. Qed.
Lemma sorted_snoc l x : StronglySorted lt l -> Forall (fun y => (y < x)%nat) l -> StronglySorted lt (l ++ [x]).
Proof.
  induction l as [|y l IH]; intros H1 H2; cbn [List.app]; [repeat constructor|]. apply StronglySorted_inv in H1. destruct H1 as (H1 & H3). inversion H2; subst.
  constructor; [now apply IH|]. apply Forall_app. now repeat constructor.
Qed.
Lemma sorted_last l x : StronglySorted lt l -> In x l -> Forall (fun y => (y <= x)%nat) l -> last l 0%nat = x.
Proof.
  induction l as [|y l IH]; intros H1 H2 H3; [easy|]. apply StronglySorted_inv in H1. destruct H1 as (H1 & H4). inversion H3; subst.
  destruct l as [|z l].
  - destruct H2 as [H2|[]]. exact H2.
  - change (last (y :: z :: l) 0%nat) with (last (z :: l) 0%nat). apply IH; try easy. destruct H2 as [->|H2]; [|easy].
    inversion H4; subst. inversion H6; subst. lia.
Qed.
(** The selected beads: in order, the first and the last among them, at least three; every bead left out is within the
    thresholds of the last one selected before it. *)
Theorem selected_beads mm me dof m n q pot l : (0 < n)%nat -> indexes true mm me n (ms_pathway dof n m q) pot = Val l ->
  StronglySorted lt l /\ Forall (fun i => (i < n)%nat) l /\ hd_error l = Some 0%nat /\ last l 0%nat = (n - 1)%nat /\ (3 <= List.length l)%nat /\
  (forall i, (i < n)%nat -> In i l \/ exists o, In o l /\ (o < i)%nat /\ (forall j, In j l -> (j <= o \/ i < j)%nat) /\
     ms_pathway dof n m q i - ms_pathway dof n m q o <= mm /\ Rabs (pot i - pot o) <= me).
Proof.
  intros Hn. unfold indexes. set (path := ms_pathway dof n m q).
  destruct (select_spec mm me path pot (n - 1) 1 0 ltac:(lia)) as (S1 & S2 & S3). rewrite select_acc. cbn [List.app]. set (s := select mm me path pot (seq 1 (n - 1)) 0 []) in *.
  assert (T1 : StronglySorted lt (0%nat :: s)) by (constructor; [easy|]; apply Forall_impl with (2 := S2); intros; lia).
  assert (T2 : Forall (fun i => (i < n)%nat) (0%nat :: s)) by (constructor; [easy|]; apply Forall_impl with (2 := S2); intros; lia).
  set (l0 := if memb (n - 1) (0%nat :: s) then 0%nat :: s else 0%nat :: s ++ [(n - 1)%nat]). destruct (Nat.leb_spec (List.length l0) 2) as [H|H]; [easy|].
  intros Q. assert (El : l = l0) by now injection Q. subst l. clear Q.
  assert (M : forall x, In x l0 <-> In x (0%nat :: s) \/ x = (n - 1)%nat).
  { intros x. unfold l0. destruct (memb (n - 1) (0%nat :: s)) eqn:E.
    - apply memb_In in E. intuition. now subst.
    - cbn. rewrite in_app_iff. cbn. intuition. }
  assert (L1 : StronglySorted lt l0).
  { unfold l0. destruct (memb (n - 1) (0%nat :: s)) eqn:E; [easy|]. apply (sorted_snoc (0%nat :: s)); [easy|]. apply Forall_forall. intros y Hy.
    apply (proj1 (Forall_forall _ _) T2) in Hy as Hy'. assert (y <> n - 1)%nat; [|lia]. intros ->. apply memb_In in Hy. congruence. }
  assert (L2 : Forall (fun i => (i < n)%nat) l0).
  { apply Forall_forall. intros x Hx. apply M in Hx. destruct Hx as [Hx| ->]; [|lia]. now apply (proj1 (Forall_forall _ _) T2). }
  split; [easy|]. split; [easy|]. split; [unfold l0; now destruct (memb (n - 1) (0%nat :: s))|]. split.
  { apply sorted_last; [easy | apply M; now right |]. apply Forall_impl with (2 := L2). intros; lia. }
  split; [lia|]. intros i Hi. destruct (in_dec Nat.eq_dec i l0) as [I|I]; [now left|]. right.
  assert (I0 : ~ In i (0%nat :: s)) by (intros Q; apply I, M; now left). assert (In' : i <> (n - 1)%nat) by (intros ->; apply I, M; now right).
  assert (Ip : (1 <= i)%nat) by (destruct i; [elim I0; now left | lia]).
  destruct (proj2 (S3 i ltac:(lia))) as (o & O1 & O2 & O3 & O4); [intros Q; apply I0; now right|].
  exists o. split; [apply M; now left|]. split; [easy|]. split.
  { intros j Hj. apply M in Hj as Hj'. destruct Hj' as [Hj'| ->]; [|lia]. destruct (O3 j Hj') as [?|?]; [now left|]. right. assert (i <> j) by (intros ->; easy). lia. }
  unfold far in O4. destruct (Rlt_dec mm (path i - path o)); [easy|]. destruct (Rlt_dec me (Rabs (pot i - pot o))); [easy|]. lra.
Qed.
(** So it is within the threshold of a selected bead in mass-scaled distance. *)
Theorem selected_close mm me dof m n q pot l i : (0 < n)%nat -> (forall c, (c < dof)%nat -> 0 <= m c) -> indexes true mm me n (ms_pathway dof n m q) pot = Val l -> (i < n)%nat ->
  In i l \/ exists o, In o l /\ ms_dist dof m (q i) (q o) <= mm /\ Rabs (pot i - pot o) <= me.
Proof.
  intros Hn Hm E Hi. destruct (selected_beads mm me dof m n q pot l Hn E) as (_ & _ & _ & _ & _ & H). destruct (H i Hi) as [?|(o & O1 & O2 & _ & O3 & O4)]; [now left|]. right.
  exists o. split; [easy|]. split; [|easy]. apply Rle_trans with (2 := O3). apply pathway_distance; try easy; lia.
Qed.
(** Every bead selected, but for the last, lies beyond a threshold from the one selected before it. *)
Theorem selected_needed mm me n path pot l i : (0 < n)%nat -> indexes true mm me n path pot = Val l -> In i l -> (0 < i < n - 1)%nat ->
  exists o, In o l /\ (o < i)%nat /\ (forall j, In j l -> (j <= o \/ i <= j)%nat) /\ (mm < path i - path o \/ me < Rabs (pot i - pot o)).
Proof.
  intros Hn. unfold indexes. destruct (select_spec mm me path pot (n - 1) 1 0 ltac:(lia)) as (S1 & S2 & S3). rewrite select_acc. cbn [List.app]. set (s := select mm me path pot (seq 1 (n - 1)) 0 []) in *.
  set (l0 := if memb (n - 1) (0%nat :: s) then 0%nat :: s else 0%nat :: s ++ [(n - 1)%nat]). destruct (Nat.leb_spec (List.length l0) 2) as [H|H]; [easy|].
  intros Q. assert (El : l = l0) by now injection Q. subst l. clear Q.
  assert (M : forall x, In x l0 <-> In x (0%nat :: s) \/ x = (n - 1)%nat).
  { intros x. unfold l0. destruct (memb (n - 1) (0%nat :: s)) eqn:E.
    - apply memb_In in E. intuition. now subst.
    - cbn. rewrite in_app_iff. cbn. intuition. }
  intros Hi Hr. apply M in Hi. destruct Hi as [[<-|Hi]|Hi]; [lia| |lia].
  destruct (proj1 (S3 i ltac:(lia)) Hi) as (o & O1 & O2 & O3 & O4). exists o. split; [apply M; now left|]. split; [easy|]. split.
  - intros j Hj. apply M in Hj as [Hj| ->]; [now apply O3 | lia].
  - unfold far in O4. destruct (Rlt_dec mm (path i - path o)); [now left|]. destruct (Rlt_dec me (Rabs (pot i - pot o))); [now right | easy].
Qed.
(** When no bead between the ends is beyond the thresholds from the first one, the run fails. *)
Theorem selection_fails mm me n path pot : (forall i, (0 < i < n - 1)%nat -> path i - path 0%nat <= mm /\ Rabs (pot i - pot 0%nat) <= me) -> indexes true mm me n path pot = ValueError.
Proof.
  intros H. unfold indexes. set (l := select _ _ _ _ _ _ _). assert (Hl : l = [0%nat] \/ l = [0%nat; (n - 1)%nat]).
  { unfold l. assert (G : forall k a, (a + k <= n - 1)%nat -> (0 < a)%nat -> forall rest acc, select mm me path pot (seq a k ++ rest) 0 acc = select mm me path pot rest 0 acc).
    { induction k as [|k IH]; intros a Ha Hp rest acc; [easy|]. cbn [seq List.app select].
      assert (F : far mm me path pot a 0 = false) by (unfold far; destruct (H a ltac:(lia)); destruct (Rlt_dec mm (path a - path 0%nat)); [lra|]; destruct (Rlt_dec me (Rabs (pot a - pot 0%nat))); [lra|]; easy).
      rewrite F. apply IH; lia. }
    destruct (Nat.le_gt_cases n 1) as [Hn|Hn].
    - left. replace (n - 1)%nat with 0%nat by lia. easy.
    - assert (E : seq 1 (n - 1) = seq 1 (n - 2) ++ [(n - 1)%nat]) by (replace (n - 1)%nat with (S (n - 2)) by lia; apply seq_S).
      rewrite E, G by lia. cbn [select].
      destruct (far mm me path pot (n - 1) 0); [now right | now left]. }
  destruct Hl as [->| ->].
  - destruct (memb (n - 1) [0%nat]); easy.
  - assert (E : memb (n - 1) [0%nat; (n - 1)%nat] = true) by (apply memb_In; right; now left). rewrite E. easy.
Qed.
Theorem no_selection mm me n path pot : indexes false mm me n path pot = Val (seq 0 n).
Proof. reflexivity. Qed.
Theorem thresholds_spec a b : (thresholds a b = None <-> a <= 0 /\ b <= 0) /\
  (forall mm me, thresholds a b = Some (mm, me) -> 0 < mm /\ 0 < me /\ (0 < a -> mm = a) /\ (0 < b -> me = b)).
Proof.
  unfold thresholds. split.
  - destruct (Rlt_dec 0 a); [split; [easy | lra]|]. destruct (Rlt_dec 0 b); split; try easy; lra.
  - intros mm me. destruct (Rlt_dec 0 a); [|destruct (Rlt_dec 0 b); [|easy]]; intros Q.
    + assert (E1 : mm = a) by (now injection Q). assert (E2 : me = if Rlt_dec 0 b then b else 10000000) by (now injection Q). subst. destruct (Rlt_dec 0 b); lra.
    + assert (E1 : mm = 1000000) by (now injection Q). assert (E2 : me = b) by (now injection Q). subst. lra.
Qed.

(** ** The first geometry *)
Lemma cos_mirror n i : (2 <= n)%nat -> (i < n)%nat -> cos (INR (n - 1 - i) * PI / INR (n - 1)) = - cos (INR i * PI / INR (n - 1)).
Proof.
  intros Hn Hi. assert (P : 0 < INR (n - 1)) by (apply lt_0_INR; lia). rewrite minus_INR by lia.
  replace ((INR (n - 1) - INR i) * PI / INR (n - 1)) with (PI - INR i * PI / INR (n - 1)) by (field; lra).
  rewrite cos_minus, cos_PI, sin_PI. ring.
Qed.
(** The two halves of the path mirror each other; the centroid stays; the ends are at plus and minus delta. *)
Theorem geometry_mirror n delta v q i c : (2 <= n)%nat -> (i < n)%nat -> initial_geo n delta v q i c - q i c = - (initial_geo n delta v q (n - 1 - i)%nat c - q (n - 1 - i)%nat c).
Proof. intros Hn Hi. unfold initial_geo. rewrite cos_mirror by easy. ring. Qed.
Lemma Rsum_rev n f : Rsum n f = Rsum n (fun i => f (n - 1 - i)%nat).
Proof.
  induction n as [|n IH]; [easy|]. rewrite (Rsum_first n (fun i => f (S n - 1 - i)%nat)). replace (S n - 1 - 0)%nat with n by lia. cbn [Rsum]. rewrite IH, Rplus_comm.
  f_equal. apply Rsum_ext. intros i Hi. f_equal. lia.
Qed.
Theorem geometry_centroid n delta v q c : (2 <= n)%nat -> Rsum n (fun i => initial_geo n delta v q i c) = Rsum n (fun i => q i c).
Proof.
  intros Hn. unfold initial_geo. rewrite Rsum_plus.
  assert (Z : Rsum n (fun i => delta * cos (INR i * PI / INR (n - 1)) * v c) = 0); [|lra].
  set (F := fun i => delta * cos (INR i * PI / INR (n - 1)) * v c). assert (E : Rsum n F = - Rsum n F); [|lra].
  rewrite (Rsum_rev n F) at 1. replace (- Rsum n F) with (-1 * Rsum n F) by ring. rewrite <- Rsum_scal. apply Rsum_ext. intros i Hi. unfold F. rewrite cos_mirror by easy. ring.
Qed.
Theorem geometry_ends n delta v q c : (2 <= n)%nat ->
  initial_geo n delta v q 0%nat c = q 0%nat c + delta * v c /\ initial_geo n delta v q (n - 1)%nat c = q (n - 1)%nat c - delta * v c.
Proof.
  intros Hn. assert (P : 0 < INR (n - 1)) by (apply lt_0_INR; lia). unfold initial_geo. split.
  - replace (INR 0 * PI / INR (n - 1)) with 0 by (cbn [INR]; field; lra). rewrite cos_0. ring.
  - replace (INR (n - 1) * PI / INR (n - 1)) with PI by (field; lra). rewrite cos_PI. ring.
Qed.
Theorem geometry_fixed n delta v q i c : v c = 0 -> initial_geo n delta v q i c = q i c.
Proof. intros H. unfold initial_geo. rewrite H. ring. Qed.
(** Beads that started together are lined up: neighbours of the path do not turn back. *)
Theorem geometry_monotone n delta v q i c : (2 <= n)%nat -> (i + 1 < n)%nat -> q i c = q (i + 1)%nat c -> 0 < delta * v c ->
  initial_geo n delta v q (i + 1)%nat c < initial_geo n delta v q i c.
Proof.
  intros Hn Hi Hq Hv. assert (P : 0 < INR (n - 1)) by (apply lt_0_INR; lia). pose proof PI_RGT_0 as PP. unfold initial_geo. rewrite <- Hq.
  assert (L : cos (INR (i + 1) * PI / INR (n - 1)) < cos (INR i * PI / INR (n - 1))); [|nra].
  assert (B : forall k, (k <= n - 1)%nat -> 0 <= INR k * PI / INR (n - 1) <= PI).
  { intros k Hk. apply le_INR in Hk. pose proof (pos_INR k). split.
    - apply Rmult_le_pos; [nra | left; now apply Rinv_0_lt_compat].
    - apply Rmult_le_reg_r with (INR (n - 1)); [easy|]. unfold Rdiv. rewrite Rmult_assoc, Rinv_l by lra. nra. }
  apply cos_decreasing_1; try (apply B; lia). rewrite plus_INR. cbn [INR]. unfold Rdiv. apply Rmult_lt_compat_r; [now apply Rinv_0_lt_compat|]. nra.
Qed.

(** ** The end *)
Theorem exits_spec T natoms du fmax df dx : exits T natoms du fmax df dx = true <->
  Rabs (du / natoms) <= tol_energy T /\ (fmax <= tol_force T \/ df <= 1 / 100000000) /\ dx <= tol_position T.
Proof.
  unfold exits. rewrite !andb_true_iff, orb_true_iff.
  destruct (Rle_dec (Rabs (du / natoms)) (tol_energy T)), (Rle_dec fmax (tol_force T)), (Rle_dec df (1 / 100000000)), (Rle_dec dx (tol_position T)); intuition (try easy; try lra).
Qed.
(** A run may end with a force above its tolerance, when the difference of the forces is small. *)
Theorem exits_refuted : exists T natoms du fmax df dx, 0 < tol_force T /\ exits T natoms du fmax df dx = true /\ tol_force T < fmax.
Proof. exists (Tol 1 1 1), 1, 0, 2, 0, 0. split; [cbn; lra|]. split; [|cbn; lra]. apply exits_spec. cbn. unfold Rdiv. rewrite Rmult_0_l, Rabs_R0. repeat split; try lra. Qed.

(** ** Concrete cases *)
(** The chain of [InstHess.ex_full] has the modes (1,1,1), (1,0,-1) and (1,-2,1) with eigenvalues 2, 3 and 5. *)
Example ex_lanczos : exists B alpha lamb, nichols_par 2 3 = (alpha, lamb) /\ alpha = / 3 /\ lamb = 9 / 4 /\
  banded_hessian 1 3 (fun _ => 1) 1 false 0 ex_coef (dynmat 1 (fun _ => 1) ex_red) = Val B /\
  is_step 1 3 (fun _ => 1) (fun _ _ => 7) (shift_band 1 lamb B) alpha (fun _ => 2) (fun _ => - 8 / 3).
Proof.
  destruct ex_band as (B & E & B1 & B2 & B3 & B4 & B5). exists B, (/ 3), (9 / 4). split.
  { unfold nichols_par. destruct (Rlt_dec 0 2); [|lra]. destruct (Rlt_dec 2 (3 / 2)); [lra|]. f_equal; field. }
  split; [easy|]. split; [easy|]. split; [easy|]. exists (fun _ => - 8). split.
  - intros r Hr. unfold of_band, sym_band, shift_band. destruct r as [|[|[|r]]]; [| | |lia]; cbn; rewrite ?B1, ?B2, ?B3, ?B4, ?B5, sqrt_1; field.
  - intros r Hr. cbn. rewrite sqrt_1. field.
Qed.
Definition ex_line : mat := fun b _ => match b with 0%nat => 0 | 1%nat => 3 | _ => 7 end.
Example ex_path : ms_pathway 1 3 (fun _ => 4) ex_line 0%nat = 0 /\ ms_pathway 1 3 (fun _ => 4) ex_line 1%nat = 6 /\ ms_pathway 1 3 (fun _ => 4) ex_line 2%nat = 14.
Proof.
  assert (S4 : sqrt 4 = 2) by (replace 4 with (2 * 2) by ring; apply sqrt_square; lra).
  rewrite !ms_path_sum by lia. cbn [Rsum]. unfold ms_step. cbn [Rsum Nat.add Nat.sub ex_line]. rewrite S4.
  replace (sqrt (0 + ((3 - 0) * 2) ^ 2)) with 6 by (replace (0 + ((3 - 0) * 2) ^ 2) with (6 * 6) by ring; rewrite sqrt_square; lra).
  replace (sqrt (0 + ((7 - 3) * 2) ^ 2)) with 8 by (replace (0 + ((7 - 3) * 2) ^ 2) with (8 * 8) by ring; rewrite sqrt_square; lra). repeat split; ring.
Qed.
(** Five beads one apart, threshold one and a half: every second bead. *)
Example ex_selected : indexes true (3 / 2) 100 5 INR (fun _ => 0) = Val [0; 2; 4]%nat /\ indexes true 10 100 5 INR (fun _ => 0) = ValueError.
Proof.
  split.
  - unfold indexes. cbn [seq Nat.sub select].
    assert (F : forall i o, (o <= i)%nat -> far (3 / 2) 100 INR (fun _ => 0) i o = (2 <=? i - o)%nat).
    { intros i o H. unfold far. rewrite <- minus_INR by easy. rewrite Rminus_0_r, Rabs_R0. destruct (Nat.leb_spec 2 (i - o)) as [L|L].
      - apply le_INR in L. cbn [INR] in L. destruct (Rlt_dec (3 / 2) (INR (i - o))); [easy | lra].
      - assert (L' : (i - o <= 1)%nat) by lia. apply le_INR in L'. cbn [INR] in L'. destruct (Rlt_dec (3 / 2) (INR (i - o))); [lra|]. destruct (Rlt_dec 100 0); [lra | easy]. }
    rewrite !F by lia. reflexivity.
  - apply selection_fails. intros i Hi. replace (0 - 0) with 0 by ring; rewrite Rabs_R0. split; [|lra]. assert (L : (i <= 3)%nat) by lia. apply le_INR in L. cbn [INR] in *. lra.
Qed.
Example ex_geometry : initial_geo 3 (/ 10) (fun _ => 2) (fun _ _ => 5) 0%nat 0%nat = 26 / 5 /\ initial_geo 3 (/ 10) (fun _ => 2) (fun _ _ => 5) 1%nat 0%nat = 5 /\ initial_geo 3 (/ 10) (fun _ => 2) (fun _ _ => 5) 2%nat 0%nat = 24 / 5.
Proof.
  destruct (geometry_ends 3 (/ 10) (fun _ => 2) (fun _ _ => 5) 0 ltac:(lia)) as (H1 & H2). cbn [Nat.sub] in H2. rewrite H1, H2. split; [field|]. split; [|field].
  pose proof (geometry_centroid 3 (/ 10) (fun _ => 2) (fun _ _ => 5) 0 ltac:(lia)) as C. cbn [Rsum] in C. rewrite H1, H2 in C. lra.
Qed.
Example ex_thresholds : thresholds 0 (/ 2) = Some (1000000, / 2) /\ thresholds (-1) 0 = None.
Proof. unfold thresholds. split; repeat (destruct (Rlt_dec _ _); try lra); easy. Qed.
Print Assumptions lanczos_direction.
Print Assumptions pathway_start.
Print Assumptions pathway_step.
Print Assumptions pathway_distance.
Print Assumptions selected_beads.
Print Assumptions selected_close.
Print Assumptions selected_needed.
Print Assumptions selection_fails.
Print Assumptions no_selection.
Print Assumptions thresholds_spec.
Print Assumptions geometry_mirror.
Print Assumptions geometry_centroid.
Print Assumptions geometry_ends.
Print Assumptions geometry_fixed.
Print Assumptions geometry_monotone.
Print Assumptions exits_spec.
Print Assumptions exits_refuted.
