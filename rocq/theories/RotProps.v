(** * Theorems of record about rotational averaging (C23) *)
From Coq Require Import List Reals Lra Lia FunctionalExtensionality.
From Verif Require Import RSum RotModel.
Import ListNotations.
Open Scope R_scope.

(** ** Vocabulary *)
(** An orthogonal matrix: a proper or improper rotation. *)
Definition orthogonal (A : M3) : Prop :=
  (forall i j, (i < 3)%nat -> (j < 3)%nat -> Rsum 3 (fun k => A i k * A j k) = delta i j) /\
  (forall i j, (i < 3)%nat -> (j < 3)%nat -> Rsum 3 (fun k => A k i * A k j) = delta i j).
(** Rotating structure and cell rotates the force of every atom and the virial,
    and does not change the energy. *)
Definition equivariant (ff : model) : Prop :=
  forall A q h, orthogonal A ->
    let o := ff q h in let o' := ff (rowmul q (tr A)) (mmul A h) in
    pot o' = pot o /\
    (forall a i, (i < 3)%nat -> frc o' a i = Rsum 3 (fun k => A i k * frc o a k)) /\
    (forall i j, (i < 3)%nat -> (j < 3)%nat ->
       vir o' i j = Rsum 3 (fun k => Rsum 3 (fun l => A i k * vir o k l * A j l))).

(** ** Proofs *)
Lemma neg_orthogonal A : orthogonal A -> orthogonal (neg A).
Proof.
  intros [H1 H2]. split; intros i j Hi Hj; unfold neg.
  - rewrite <- (H1 i j Hi Hj). apply Rsum_ext. intros; ring.
  - rewrite <- (H2 i j Hi Hj). apply Rsum_ext. intros; ring.
Qed.
Lemma mmul_orthogonal A B : orthogonal A -> orthogonal B -> orthogonal (mmul A B).
Proof.
  assert (G : forall A B : M3,
    (forall i j, (i < 3)%nat -> (j < 3)%nat -> Rsum 3 (fun k => A i k * A j k) = delta i j) ->
    (forall i j, (i < 3)%nat -> (j < 3)%nat -> Rsum 3 (fun k => B i k * B j k) = delta i j) ->
    forall i j, (i < 3)%nat -> (j < 3)%nat -> Rsum 3 (fun k => mmul A B i k * mmul A B j k) = delta i j).
  { clear. intros A B HA HB i j Hi Hj. unfold mmul.
    rewrite (Rsum_ext 3 _ (fun k => Rsum 3 (fun a => Rsum 3 (fun b => A i a * A j b * (B a k * B b k))))).
    2:{ intros k _. rewrite <- Rsum_scal_r. apply Rsum_ext. intros a _. rewrite <- Rsum_scal. apply Rsum_ext. intros; ring. }
    rewrite Rsum_swap. rewrite <- (HA i j Hi Hj). apply Rsum_ext. intros a Ha. rewrite Rsum_swap.
    rewrite <- (Rsum_delta_l 3 a (fun b => A i a * A j b) Ha). apply Rsum_ext. intros b Hb. now rewrite Rsum_scal, HB. }
  intros [HA1 HA2] [HB1 HB2]. split; [now apply G|].
  intros i j Hi Hj. rewrite <- (G (tr B) (tr A)) with (i := i) (j := j); try easy.
  apply Rsum_ext. intros k Hk. unfold mmul, tr. f_equal; apply Rsum_ext; intros; ring.
Qed.

Lemma rotations_orthogonal grid Rr inv :
  (forall Rw, In Rw grid -> orthogonal (fst Rw)) -> orthogonal Rr ->
  forall Rw, In Rw (rotations grid Rr inv) -> orthogonal (fst Rw).
Proof.
  intros Hg Hr Rw H. unfold rotations in H. apply in_flat_map in H. destruct H as (Rw0 & H0 & H).
  assert (Ho : orthogonal (mmul (fst Rw0) Rr)) by (apply mmul_orthogonal; auto).
  destruct inv; cbn in H.
  - destruct H as [<-|[<-|[]]]; [exact Ho | now apply neg_orthogonal].
  - destruct H as [<-|[]]. exact Ho.
Qed.

Lemma avg_const (l : list (M3 * R)) (f : M3 -> R) c : wsum l <> 0 -> (forall Rw, In Rw l -> f (fst Rw) = c) ->
  Rsuml (map (fun Rw => f (fst Rw) * snd Rw) l) / wsum l = c.
Proof.
  intros Hw H. rewrite (Rsuml_map_ext _ (fun Rw => c * snd Rw)) by (intros; now rewrite H).
  rewrite Rsuml_map_scal. unfold wsum in *. field. exact Hw.
Qed.

Lemma rot_back ff q h A : equivariant ff -> orthogonal A ->
  pot (rotated ff q h A) = pot (ff q h) /\
  (forall a i, (i < 3)%nat -> rowmul (frc (rotated ff q h A)) A a i = frc (ff q h) a i) /\
  (forall i j, (i < 3)%nat -> (j < 3)%nat -> mmul (mmul (tr A) (vir (rotated ff q h A))) A i j = vir (ff q h) i j).
Proof.
  intros He Ho. destruct (He A q h Ho) as (Hp & Hf & Hv). destruct Ho as [_ H2]. unfold rotated.
  set (o' := ff (rowmul q (tr A)) (mmul A h)) in *. set (o := ff q h) in *.
  split; [exact Hp|]. split.
  - intros a i Hi. unfold rowmul.
    rewrite (Rsum_ext 3 _ (fun k => Rsum 3 (fun l => frc o a l * (A k l * A k i)))).
    2:{ intros k Hk. rewrite Hf by easy. rewrite <- Rsum_scal_r. apply Rsum_ext. intros; ring. }
    rewrite Rsum_swap. rewrite <- (Rsum_delta_r 3 i (fun l => frc o a l) Hi). apply Rsum_ext. intros l Hl. now rewrite Rsum_scal, H2.
  - intros i j Hi Hj. unfold mmul, tr.
    rewrite (Rsum_ext 3 _ (fun k => Rsum 3 (fun m => Rsum 3 (fun n => vir o m n * (Rsum 3 (fun l => A l m * A l i)) * (A k n * A k j))))).
    2:{ intros k Hk. rewrite <- Rsum_scal_r.
        rewrite (Rsum_ext 3 _ (fun l => Rsum 3 (fun m => Rsum 3 (fun n => vir o m n * (A l m * A l i) * (A k n * A k j))))).
        - rewrite Rsum_swap. apply Rsum_ext. intros m Hm. rewrite Rsum_swap. apply Rsum_ext. intros n Hn.
          rewrite Rsum_scal_r. f_equal. now rewrite Rsum_scal.
        - intros l Hl. rewrite Hv by easy. rewrite Rmult_comm. rewrite <- !Rsum_scal. apply Rsum_ext. intros m Hm.
          rewrite <- !Rsum_scal. apply Rsum_ext. intros n Hn.
          ring_simplify. rewrite <- ?Rsum_scal. ring. }
    rewrite Rsum_swap. rewrite <- (Rsum_delta_r 3 i (fun m => vir o m j) Hi). apply Rsum_ext. intros m Hm.
    rewrite Rsum_swap. rewrite <- (Rsum_delta_r 3 j (fun n => vir o m n) Hj), <- Rsum_scal_r. apply Rsum_ext. intros n Hn.
    rewrite Rsum_scal, !H2 by easy. ring.
Qed.

(** C23. If the inner model is exactly equivariant, averaging over any list of
    proper or improper rotations with any weights of nonzero sum gives the inner
    model's own potential, forces and virial. *)
Theorem rotations_exact_for_equivariant ff grid Rr inv q h :
  equivariant ff -> orthogonal Rr -> (forall Rw, In Rw grid -> orthogonal (fst Rw)) ->
  wsum (rotations grid Rr inv) <> 0 ->
  let o := evaluate ff (rotations grid Rr inv) q h in
  pot o = pot (ff q h) /\
  (forall a i, (i < 3)%nat -> frc o a i = frc (ff q h) a i) /\
  (forall i j, (i < 3)%nat -> (j < 3)%nat -> vir o i j = vir (ff q h) i j).
Proof.
  intros He Hr Hg Hw o. pose proof (rotations_orthogonal grid Rr inv Hg Hr) as Ho.
  unfold o, evaluate, gather. cbn [pot frc vir]. split; [|split].
  - apply (avg_const _ (fun A => pot (rotated ff q h A))); [easy|]. intros Rw HR. apply rot_back; auto.
  - intros a i Hi. apply (avg_const _ (fun A => rowmul (frc (rotated ff q h A)) A a i)); [easy|]. intros Rw HR. apply rot_back; auto.
  - intros i j Hi Hj. apply (avg_const _ (fun A => mmul (mmul (tr A) (vir (rotated ff q h A))) A i j)); [easy|]. intros Rw HR. apply rot_back; auto.
Qed.

(** C23. A common factor of the weights does not matter. *)
Theorem rotations_weight_scale ff c l q h :
  c <> 0 -> wsum l <> 0 ->
  let o := evaluate ff l q h in
  let o' := evaluate ff (map (fun Rw => (fst Rw, c * snd Rw)) l) q h in
  pot o' = pot o /\ (forall a i, frc o' a i = frc o a i) /\ (forall i j, vir o' i j = vir o i j).
Proof.
  intros Hc Hw o o'.
  assert (Hs : wsum (map (fun Rw => (fst Rw, c * snd Rw)) l) = c * wsum l).
  { unfold wsum. rewrite map_map. cbn. apply Rsuml_map_scal. }
  assert (G : forall f : M3 -> R,
     Rsuml (map (fun Rw => f (fst Rw) * snd Rw) (map (fun Rw => (fst Rw, c * snd Rw)) l)) / wsum (map (fun Rw => (fst Rw, c * snd Rw)) l)
     = Rsuml (map (fun Rw => f (fst Rw) * snd Rw) l) / wsum l).
  { intros f. rewrite Hs, map_map. cbn [fst snd].
    rewrite (Rsuml_map_ext _ (fun Rw => c * (f (fst Rw) * snd Rw))) by (intros; ring).
    rewrite Rsuml_map_scal. field. split; easy. }
  unfold o, o', evaluate, gather. cbn [pot frc vir]. split; [|split].
  - apply (G (fun A => pot (rotated ff q h A))).
  - intros a i. apply (G (fun A => rowmul (frc (rotated ff q h A)) A a i)).
  - intros i j. apply (G (fun A => mmul (mmul (tr A) (vir (rotated ff q h A))) A i j)).
Qed.

(** C23. The averaged force is minus the gradient of the averaged potential also
    for a model that is not equivariant, if the same rotations are used: for [n]
    atoms, along any direction [d]. *)
Definition along (q d : coords) (t : R) : coords := fun a i => q a i + t * d a i.
Definition gradient_force (n : nat) (ff : model) : Prop :=
  forall q d h, derivable_pt_lim (fun t => pot (ff (along q d t) h)) 0
    (- Rsum n (fun a => Rsum 3 (fun i => frc (ff q h) a i * d a i))).
(** A model looks at the values of the coordinates only. *)
Definition extensional (ff : model) : Prop :=
  forall q q' h, (forall a i, q a i = q' a i) -> ff q h = ff q' h.

Theorem rotations_force_is_gradient n ff l q d h :
  gradient_force n ff -> extensional ff ->
  derivable_pt_lim (fun t => pot (evaluate ff l (along q d t) h)) 0
    (- Rsum n (fun a => Rsum 3 (fun i => frc (evaluate ff l q h) a i * d a i))).
Proof.
  intros Hg Hx. unfold evaluate, gather. cbn [pot frc].
  set (W := wsum l).
  assert (H1 : forall A, derivable_pt_lim (fun t => pot (rotated ff (along q d t) h A)) 0
      (- Rsum n (fun a => Rsum 3 (fun i => rowmul (frc (rotated ff q h A)) A a i * d a i)))).
  { intros A. unfold rotated.
    apply (derivable_ext (fun t => pot (ff (along (rowmul q (tr A)) (rowmul d (tr A)) t) (mmul A h)))).
    - intros t. f_equal. apply Hx. intros a i. unfold along, rowmul. rewrite <- Rsum_scal, <- Rsum_plus. apply Rsum_ext. intros; ring.
    - eapply derivable_eq; [|apply Hg]. f_equal. apply Rsum_ext. intros a _. unfold rowmul, tr.
      rewrite (Rsum_ext 3 _ (fun i => Rsum 3 (fun k => frc (ff (rowmul q (fun i j => A j i)) (mmul A h)) a i * A i k * d a k)))
        by (intros i _; rewrite <- Rsum_scal; apply Rsum_ext; intros; unfold rowmul; ring).
      rewrite Rsum_swap. apply Rsum_ext. intros k _. rewrite <- Rsum_scal_r. apply Rsum_ext. intros; unfold rowmul; ring. }
  apply (derivable_ext (fun t => mult_real_fct (/ W) (fun t => Rsuml (map (fun Rw => snd Rw * pot (rotated ff (along q d t) h (fst Rw))) l)) t)).
  { intros t. unfold mult_real_fct. rewrite (Rsuml_map_ext (fun Rw => snd Rw * _) (fun Rw => pot (rotated ff (along q d t) h (fst Rw)) * snd Rw)) by (intros; ring).
    unfold Rdiv. ring. }
  assert (H2 : derivable_pt_lim (fun t => Rsuml (map (fun Rw => snd Rw * pot (rotated ff (along q d t) h (fst Rw))) l)) 0
     (Rsuml (map (fun Rw => snd Rw * - Rsum n (fun a => Rsum 3 (fun i => rowmul (frc (rotated ff q h (fst Rw))) (fst Rw) a i * d a i))) l))).
  { clear W. induction l as [|Rw l IH]; cbn [map Rsuml]; [apply derivable_pt_lim_const|].
    apply (derivable_pt_lim_plus (fun t => snd Rw * pot (rotated ff (along q d t) h (fst Rw)))
             (fun t => Rsuml (map (fun Rw => snd Rw * pot (rotated ff (along q d t) h (fst Rw))) l))); [|exact IH].
    apply (derivable_pt_lim_scal (fun t => pot (rotated ff (along q d t) h (fst Rw)))). apply H1. }
  eapply derivable_eq; [|apply derivable_pt_lim_scal; exact H2].
  rewrite (Rsuml_map_ext _ (fun Rw => (-1) * (Rsum n (fun a => Rsum 3 (fun i => rowmul (frc (rotated ff q h (fst Rw))) (fst Rw) a i * snd Rw * d a i))))).
  2:{ intros Rw _. replace (snd Rw * - Rsum n (fun a => Rsum 3 (fun i => rowmul (frc (rotated ff q h (fst Rw))) (fst Rw) a i * d a i)))
        with ((-1) * (snd Rw * Rsum n (fun a => Rsum 3 (fun i => rowmul (frc (rotated ff q h (fst Rw))) (fst Rw) a i * d a i)))) by ring.
      f_equal. rewrite <- Rsum_scal. apply Rsum_ext. intros a _. rewrite <- Rsum_scal. apply Rsum_ext. intros; ring. }
  rewrite Rsuml_map_scal, Rsuml_map_Rsum.
  transitivity (- (/ W * Rsum n (fun a => Rsum 3 (fun i => Rsuml (map (fun Rw => rowmul (frc (rotated ff q h (fst Rw))) (fst Rw) a i * snd Rw) l) * d a i)))).
  - rewrite (Rsum_ext n _ (fun a => Rsum 3 (fun i => Rsuml (map (fun Rw => rowmul (frc (rotated ff q h (fst Rw))) (fst Rw) a i * snd Rw) l) * d a i))); [ring|].
    intros a _. rewrite Rsuml_map_Rsum. apply Rsum_ext. intros i _. rewrite Rmult_comm, <- Rsuml_map_scal. apply Rsuml_map_ext. intros; ring.
  - f_equal. rewrite <- Rsum_scal. apply Rsum_ext. intros a _. rewrite <- Rsum_scal. apply Rsum_ext. intros i _. unfold Rdiv. ring.
Qed.

(** ** The hypotheses are met *)

(** Harmonic attraction to the origin: equivariant and conservative. *)
Definition harm (n : nat) : model := fun q h =>
  mkOut (Rsum n (fun a => Rsum 3 (fun i => q a i * q a i)) / 2) (fun a i => - q a i)
        (fun i j => Rsum n (fun a => q a i * q a j)).
Definition rotz : M3 := fun i j => match i, j with 0%nat, 1%nat => -1 | 1%nat, 0%nat => 1 | 2%nat, 2%nat => 1 | _, _ => 0 end.
Example rotz_orthogonal : orthogonal rotz.
Proof.
  split; intros i j Hi Hj; destruct i as [|[|[|i]]]; destruct j as [|[|[|j]]]; try lia; unfold delta, rotz; cbn; lra.
Qed.
Example harm_equivariant n : equivariant (harm n).
Proof.
  intros A q h [H1 H2] o o'. unfold o, o', harm, rowmul, tr. cbn [pot frc vir]. split; [|split].
  - f_equal. apply Rsum_ext. intros a _.
    rewrite (Rsum_ext 3 _ (fun i => Rsum 3 (fun k => Rsum 3 (fun l => q a k * q a l * (A i k * A i l))))).
    2:{ intros i _. rewrite <- Rsum_scal_r. apply Rsum_ext. intros k _. rewrite <- Rsum_scal. apply Rsum_ext. intros; ring. }
    rewrite Rsum_swap. apply Rsum_ext. intros k Hk. rewrite Rsum_swap.
    rewrite <- (Rsum_delta_l 3 k (fun l => q a k * q a l) Hk). apply Rsum_ext. intros l Hl. now rewrite Rsum_scal, H2.
  - intros a i Hi. rewrite <- Rsum_opp. apply Rsum_ext. intros; ring.
  - intros i j Hi Hj.
    rewrite (Rsum_ext n _ (fun a => Rsum 3 (fun k => Rsum 3 (fun l => A i k * (q a k * q a l) * A j l)))).
    2:{ intros a _. rewrite <- Rsum_scal_r. apply Rsum_ext. intros k _. rewrite <- Rsum_scal. apply Rsum_ext. intros; ring. }
    rewrite Rsum_swap. apply Rsum_ext. intros k _. rewrite Rsum_swap. apply Rsum_ext. intros l _.
    rewrite Rsum_scal_r, Rsum_scal. easy.
Qed.
Example harm_gradient n : gradient_force n (harm n).
Proof.
  intros q d h. unfold harm, along. cbn [pot frc].
  apply (derivable_ext (fun t => mult_real_fct (/2) (fun t => Rsum n (fun a => Rsum 3 (fun i => (q a i + t * d a i) * (q a i + t * d a i)))) t)).
  { intros t. unfold mult_real_fct, Rdiv. ring. }
  eapply derivable_eq; [|apply derivable_pt_lim_scal;
    apply (derivable_Rsum n (fun a t => Rsum 3 (fun i => (q a i + t * d a i) * (q a i + t * d a i))) (fun a => Rsum 3 (fun i => 2 * q a i * d a i)))].
  - rewrite <- Rsum_scal, <- Rsum_opp. apply Rsum_ext. intros a _. rewrite <- Rsum_scal, <- Rsum_opp. apply Rsum_ext. intros i _. lra.
  - intros a _. apply (derivable_Rsum 3 (fun i t => (q a i + t * d a i) * (q a i + t * d a i)) (fun i => 2 * q a i * d a i)).
    intros i _.
    assert (H : derivable_pt_lim (fun t => q a i + t * d a i) 0 (d a i)).
    { eapply derivable_eq; [|apply (derivable_pt_lim_plus (fun _ => q a i) (fun t => t * d a i));
        [apply derivable_pt_lim_const | apply (derivable_pt_lim_mult id (fun _ => d a i)); [apply derivable_pt_lim_id | apply derivable_pt_lim_const]]].
      unfold id. ring. }
    eapply derivable_eq; [|apply (derivable_pt_lim_mult _ _ 0 _ _ H H)]. ring.
Qed.
Example harm_extensional n : extensional (harm n).
Proof.
  intros q q' h H. assert (q = q') as -> by (apply functional_extensionality; intros a; apply functional_extensionality; apply H).
  easy.
Qed.
Example rot_case :
  let grid := [(rotz, 1); (rotz, 2)] in
  (forall Rw, In Rw grid -> orthogonal (fst Rw)) /\ wsum (rotations grid rotz true) <> 0 /\ length (rotations grid rotz true) = 4%nat.
Proof.
  cbv zeta. split; [|split].
  - intros Rw [<-|[<-|[]]]; apply rotz_orthogonal.
  - unfold wsum. cbn. lra.
  - easy.
Qed.

Print Assumptions rotations_exact_for_equivariant.
Print Assumptions rotations_weight_scale.
Print Assumptions rotations_force_is_gradient.
