(** * Theorems of record: the nudged elastic band, when it stops and what it leaves behind *)
From Coq Require Import List Arith Lia Reals Lra Bool.
From Verif Require Import RSum MinModel MinLin MinSearch NebModel NebProps.
Import ListNotations.
Open Scope list_scope.
Open Scope R_scope.

(** ** C200: convergence *)
Lemma amax_le n f c : 0 <= c -> (forall i, (i < n)%nat -> f i <= c) -> amax n f <= c.
Proof. intros C. induction n as [|n IH]; intros H; [exact C|]. cbn. apply Rmax_lub; [apply IH; intros; apply H; lia|apply H; lia]. Qed.
Lemma amax_band_spec P g c : 0 <= c -> (amax_band P g <= c <-> forall b i, (b < pnimg P)%nat -> inner P b = true -> (i < pn P)%nat -> pmask P i = true -> Rabs (g b i) <= c).
Proof.
  intros C. unfold amax_band. split.
  - intros H b i Hb In Hi Mi. eapply Rle_trans; [|exact H].
    eapply Rle_trans; [|apply (amax_ge (pnimg P) (fun b => if inner P b then amax (pn P) (fun i => Rabs (masked P (g b) i)) else 0) b Hb)].
    rewrite In. eapply Rle_trans; [|apply (amax_ge (pn P) (fun i => Rabs (masked P (g b) i)) i Hi)]. cbn beta. unfold masked. rewrite Mi. lra.
  - intros H. apply amax_le; [exact C|]. intros b Hb. destruct (inner P b) eqn:In; [|exact C]. apply amax_le; [exact C|]. intros i Hi. unfold masked.
    destruct (pmask P i) eqn:Mi; [now apply H|]. now rewrite Rabs_R0.
Qed.
Lemma all_some_nth {A} (f : nat -> option A) k : forall s l, all_some (map f (seq s k)) = Some l -> forall b d, (b < k)%nat -> f (s + b)%nat = Some (nth b l d).
Proof.
  induction k as [|k IH]; intros s l H b d Hb; [lia|]. cbn [seq map all_some] in H. destruct (f s) as [a|] eqn:F; [|easy].
  destruct (all_some (map f (seq (S s) k))) as [t|] eqn:T; [|easy]. cbn in H. injection H as <-. destruct b as [|b]; [rewrite Nat.add_0_r; exact F|].
  cbn [nth]. replace (s + S b)%nat with (S s + b)%nat by lia. apply IH; [exact T|lia].
Qed.
Lemma band_grads_at P q g b : band_grads P q = Some g -> inner P b = true -> band_grad P q b = Some (g b).
Proof.
  unfold band_grads. destruct (all_some _) as [l|] eqn:E; [|easy]. intros Q; injection Q as <-. unfold inner. rewrite andb_true_iff, Nat.leb_le, Nat.ltb_lt. intros [H1 H2].
  rewrite <- (all_some_nth _ _ _ _ E (b - 1) (fun _ => 0)) by lia. f_equal. lia.
Qed.
Lemma lebR_true a b : lebR a b = true <-> a <= b.
Proof. unfold lebR. destruct (Rle_dec a b); split; congruence || lra || easy. Qed.
Lemma inner_lt P b : inner P b = true -> (b < pnimg P)%nat.
Proof. unfold inner. rewrite andb_true_iff, Nat.leb_le, Nat.ltb_lt. lia. Qed.
(** Every moving coordinate of the images between the endpoints has a small gradient and moved little. *)
Definition small_band (P : par) (q q' : nat -> vec) : Prop :=
  (forall b, inner P b = true -> exists g, band_grad P q' b = Some g /\ forall i, (i < pn P)%nat -> pmask P i = true -> Rabs (g i) <= tol_f P) /\
  (forall b i, inner P b = true -> (i < pn P)%nat -> pmask P i = true -> Rabs (q' b i - q b i) <= tol_x P) /\
  Rabs (Rsum (pnimg P) (fun b => ppot P (q' b)) - Rsum (pnimg P) (fun b => ppot P (q b))) / (INR (pnimg P) * INR (pnat P)) <= tol_e P.
Theorem band_converged P o s s' : 0 <= tol_f P -> 0 <= tol_x P -> stg s = Neb -> fin s = None -> step P o s = Next s' ->
  (stg s' <> Neb -> small_band P (pos s) (pos s')) /\
  (stg s' = Neb \/ (stg s' = Climb /\ puse_climb P = true /\ fin s' = None) \/ (stg s' = Converged /\ puse_climb P = false /\ fin s' = Some Success)).
Proof.
  intros T1 T2 S F H. unfold step in H. rewrite S in H. destruct (pvarsprings P); [easy|].
  assert (E : s' = band_step P o s) by (destruct (pmode P); congruence). subst s'. clear H.
  unfold band_step. cbn [stg pos fin]. set (q' := place P (pos s) (o_band o (pos s))). destruct (band_grads P q') as [g|] eqn:G; cbn [andb].
  2:{ split; [now intros|now left]. }
  set (t1 := lebR _ (tol_e P)). set (t2 := lebR _ (tol_f P)). set (t3 := lebR _ (tol_x P)). destruct (t1 && t2 && t3)%bool eqn:C.
  2:{ split; [now intros|now left]. }
  apply andb_prop in C. destruct C as [C C3]. apply andb_prop in C. destruct C as [C1 C2]. split.
  - intros _. apply lebR_true in C1, C2, C3. split; [|split; [|exact C1]].
    + intros b In. exists (g b). split; [now apply band_grads_at|]. intros i Hi Mi. rewrite amax_band_spec in C2 by easy. apply C2; auto. now apply inner_lt.
    + intros b i In Hi Mi. rewrite amax_band_spec in C3 by easy. apply C3; auto. now apply inner_lt.
  - rewrite F. destruct (puse_climb P); auto.
Qed.
(** And it does stop when they are small. *)
Theorem band_stops P o s s' : 0 <= tol_f P -> 0 <= tol_x P -> stg s = Neb -> fin s = None -> step P o s = Next s' -> small_band P (pos s) (pos s') -> stg s' <> Neb.
Proof.
  intros T1 T2 S F H (A & B & C). unfold step in H. rewrite S in H. destruct (pvarsprings P); [easy|].
  assert (E : s' = band_step P o s) by (destruct (pmode P); congruence). subst s'. clear H.
  unfold band_step in *. cbn [stg pos] in *. set (q' := place P (pos s) (o_band o (pos s))) in *.
  assert (G : exists g, band_grads P q' = Some g).
  { unfold band_grads. assert (X : forall l, (forall b, In b l -> inner P b = true) -> exists t, all_some (map (band_grad P q') l) = Some t).
    { induction l as [|b l IH]; intros Hl; [now exists []|]. cbn. destruct (A b (Hl b (or_introl eq_refl))) as (g & -> & _). destruct IH as [t ->]; [intros; apply Hl; now right|]. now exists (g :: t). }
    destruct (X (seq 1 (pnimg P - 2))) as [t ->]; [|now eexists]. intros b Hb. apply in_seq in Hb. unfold inner. apply andb_true_intro. split; [apply Nat.leb_le|apply Nat.ltb_lt]; lia. }
  destruct G as [g G]. rewrite G.
  assert (C2 : lebR (amax_band P g) (tol_f P) = true).
  { apply lebR_true. apply amax_band_spec; [easy|]. intros b i Hb In Hi Mi. destruct (A b In) as (g' & G' & X). rewrite (band_grads_at P q' g b G In) in G'. injection G' as <-. now apply X. }
  assert (C3 : lebR (amax_band P (fun b i => q' b i - pos s b i)) (tol_x P) = true).
  { apply lebR_true. apply amax_band_spec; [easy|]. intros b i Hb In Hi Mi. now apply B. }
  apply lebR_true in C. rewrite C, C2, C3. cbn [andb]. now destruct (puse_climb P).
Qed.
(** The same of the climbing image, whose tolerance then bounds the physical force. *)
Theorem climb_converged P o s s' : 0 <= tol_f P -> stg s = Climb -> fin s = None -> step P o s = Next s' -> fin s' = Some Success ->
  stg s' = Converged /\ exists g, image_grad P (pos s' (cl s')) (qprev s') (qnext s') = Some g /\
  (forall i, (i < pn P)%nat -> pmask P i = true -> Rabs (g i) <= tol_f P) /\ norm (pn P) g = norm (pn P) (masked P (pforce P (pos s' (cl s')))).
Proof.
  intros T S F H Su. unfold step in H. rewrite S in H. destruct (fin (climb_init P s)) as [x|] eqn:F1.
  { injection H as <-. exfalso. rewrite F1 in Su. injection Su as ->. revert F1. unfold climb_init. destruct (_ || _)%bool; [|congruence]. destruct (_ || _)%bool; cbn; congruence. }
  set (s1 := climb_init P s) in *. assert (E : s' = climb_move P o s1) by (destruct (pmode P); try congruence; injection H as <-; discriminate Su). subst s'. clear H.
  unfold climb_move in *. cbn [fin stg pos cl qprev qnext] in *. set (x := place_image P (cl s1) (pos s1) (o_image o (pos s1 (cl s1))) (cl s1)) in *.
  destruct (image_grad P x (qprev s1) (qnext s1)) as [g|] eqn:G; [|congruence].
  match goal with |- context [if ?c then Converged else Climb] => destruct c eqn:C; [|congruence] end. split; [easy|]. exists g. split; [reflexivity|].
  apply andb_prop in C. destruct C as [C _]. apply andb_prop in C. destruct C as [_ C]. apply lebR_true in C. split.
  - intros i Hi Mi. eapply Rle_trans; [|exact C]. eapply Rle_trans; [|apply (amax_ge (pn P) (fun i => Rabs (masked P g i)) i Hi)]. cbn beta. unfold masked. rewrite Mi. lra.
  - unfold image_grad, climb_grad in G. destruct (tangent_plain _ _ _) as [t|] eqn:TP; [|easy]. injection G as <-. rewrite norm_opp. apply climb_norm.
    now apply (tangent_unit (pn P) Plain 0 0 0 (fun i => masked P x i - qprev s1 i) (fun i => qnext s1 i - masked P x i)).
Qed.
(** A converged calculation that is started again ends at once, unchanged. *)
Theorem converged_ends P o s : stg s = Converged -> exists s', step P o s = Next s' /\ fin s' = Some Success /\ pos s' = pos s.
Proof. intros H. unfold step. rewrite H. eexists; split; [reflexivity|]. easy. Qed.
(** The stage "endpoints" without their optimisation does nothing, for ever. *)
Theorem endpoints_stage_refuted P os s : stg s = Endpoints -> poptimize P = false -> fin s = None -> run P os s = Next s.
Proof. intros H O F. induction os as [|o os IH]; [easy|]. cbn [run]. rewrite F. unfold step. rewrite H, O. exact IH. Qed.

(** ** C201: the climbing image is chosen once *)
Theorem climb_chosen_once P o s s' : zeros P (qprev s) = false -> zeros P (qnext s) = false -> stg s = Climb -> fin s = None -> step P o s = Next s' ->
  cl s' = cl s /\ qprev s' = qprev s /\ qnext s' = qnext s.
Proof.
  intros Z1 Z2 S F H. unfold step in H. rewrite S in H. unfold climb_init in H. rewrite Z1, Z2 in H. cbn [orb] in H. rewrite F in H.
  destruct (pmode P); injection H as <-; easy.
Qed.
(** Not when a neighbour has all its coordinates at zero: then it is chosen again at every step. *)
Definition P1 : par := Par 3 (fun _ => true) 4 1 1 Plain Fire true false false 0 0 0 (fun v => v 0%nat) (fun _ _ => 0) 1.
Definition s1 : st := St Climb (fun b i => match b with 0%nat => 0 | 1%nat => 2 | 2%nat => 1 | _ => 1 / 2 end) (fun _ => 0) (fun _ => 0) 0 (fun _ _ => 0) None.
Definition o1 : opt := Opt (fun q => q) (fun x i => 1 / 2).
Lemma zeros_zero P : zeros P (masked P (fun _ => 0)) = true.
Proof. unfold zeros. apply forallb_forall. intros i _. unfold masked. destruct (pmask P i); [|easy]. destruct (Req_EM_T 0 0); [easy|lra]. Qed.
Lemma init1 : climb_init P1 s1 = St Climb (pos s1) (masked P1 (pos s1 0%nat)) (masked P1 (pos s1 2%nat)) 1 (rep s1) None.
Proof.
  assert (A1 : argmax 4 (fun b => ppot P1 (pos s1 b)) = 1%nat). { unfold argmax. cbn. destruct (Rlt_dec 0 2); [|lra]. destruct (Rlt_dec 2 1); [lra|]. destruct (Rlt_dec 2 (1/2)); [lra|]. reflexivity. }
  unfold climb_init. replace (zeros P1 (qprev s1)) with true; [|symmetry; unfold zeros; cbn; destruct (Req_EM_T 0 0); [easy|lra]]. cbn [orb]. change (pnimg P1) with 4%nat. rewrite A1. reflexivity.
Qed.
Definition s1' : st := climb_move P1 o1 (St Climb (pos s1) (masked P1 (pos s1 0%nat)) (masked P1 (pos s1 2%nat)) 1 (rep s1) None).
Lemma pos1' b i : pos s1' b i = match b with 0%nat => 0 | 2%nat => 1 | _ => 1 / 2 end.
Proof. unfold s1', climb_move, place_image. cbn. destruct b as [|[|[|b]]]; reflexivity. Qed.
(** a step that changes the energy is not the last *)
Lemma moving_on P o s : fin s = None -> tol_e P < Rabs (ppot P (place_image P (cl s) (pos s) (o_image o (pos s (cl s))) (cl s)) - ppot P (pos s (cl s))) / INR (pnat P) ->
  fin (climb_move P o s) = None /\ stg (climb_move P o s) = Climb.
Proof.
  intros F H. unfold climb_move. cbn [fin stg]. destruct (image_grad _ _ _ _); [|easy].
  assert (L : lebR (Rabs (ppot P (place_image P (cl s) (pos s) (o_image o (pos s (cl s))) (cl s)) - ppot P (pos s (cl s))) / INR (pnat P)) (tol_e P) = false) by (unfold lebR; destruct (Rle_dec _ _); [lra|easy]).
  rewrite L. cbn [andb]. easy.
Qed.
Theorem climb_chosen_again_refuted : exists P o s s' s'', fin s = None /\ stg s = Climb /\ step P o s = Next s' /\ fin s' = None /\ stg s' = Climb /\ step P o s' = Next s'' /\ fin s'' = None /\ cl s' <> cl s''.
Proof.
  destruct (moving_on P1 o1 (St Climb (pos s1) (masked P1 (pos s1 0%nat)) (masked P1 (pos s1 2%nat)) 1 (rep s1) None) eq_refl) as [F1 S1].
  { unfold place_image. cbn. rewrite Rabs_left by lra. lra. }
  fold s1' in F1, S1.
  assert (Z : zeros P1 (qprev s1') = true). { unfold s1', climb_move. cbn [qprev]. apply zeros_zero. }
  assert (A2 : argmax 4 (fun b => ppot P1 (pos s1' b)) = 2%nat).
  { unfold argmax. cbn [Nat.sub argmax_from Nat.add]. cbn [ppot P1]. rewrite !pos1'. destruct (Rlt_dec 0 (1/2)); [|lra]. cbv iota beta. destruct (Rlt_dec (1/2) 1); [|lra]. cbv iota beta. destruct (Rlt_dec 1 (1/2)); [lra|]. reflexivity. }
  assert (I2 : climb_init P1 s1' = St Climb (pos s1') (masked P1 (pos s1' 1%nat)) (masked P1 (pos s1' 3%nat)) 2 (rep s1') None).
  { unfold climb_init. rewrite Z. cbn [orb]. change (pnimg P1) with 4%nat. rewrite A2. cbn [Nat.eqb orb Nat.sub Nat.add]. now rewrite F1. }
  destruct (moving_on P1 o1 (climb_init P1 s1')) as [F2 S2]; [now rewrite I2| |].
  { rewrite I2. cbn [cl pos]. unfold place_image. cbn [Nat.eqb andb pmask P1 ppot o_image o1 pnat tol_e]. rewrite pos1'. cbn [INR]. rewrite Rabs_left by lra. lra. }
  exists P1, o1, s1, s1', (climb_move P1 o1 (climb_init P1 s1')). split; [easy|]. split; [easy|]. split; [unfold step; cbn [stg s1]; fold s1; now rewrite init1|].
  split; [exact F1|]. split; [exact S1|]. split.
  - unfold step. rewrite S1. rewrite I2 at 1. reflexivity.
  - split; [exact F2|]. rewrite I2. discriminate.
Qed.

(** ** C202: the largest step *)
(** It never falls to a hundredth or below, and a good direction makes it longer. *)
Theorem big_step_floor big ql : 1 / 100 < big -> 1 / 100 < adjust_big_step big ql.
Proof.
  intros H. unfold adjust_big_step. destruct ql as [q|]; [destruct (Rlt_dec (8/10) q); [lra|destruct (Rlt_dec (6/10) q); [lra|]]|]; destruct (Rle_dec _ _); lra.
Qed.
Theorem big_step_floor_always l : forall big, 1 / 100 < big -> 1 / 100 < fold_left adjust_big_step l big.
Proof. induction l as [|q l IH]; intros big H; [exact H|]. cbn. apply IH. now apply big_step_floor. Qed.
Theorem big_step_good big q : 0 < big -> 6 / 10 < q -> big < adjust_big_step big (Some q).
Proof. intros H Q. unfold adjust_big_step. destruct (Rlt_dec (8/10) q); [lra|]. destruct (Rlt_dec (6/10) q); lra. Qed.
Theorem big_step_bad big ql : 2 / 100 < big -> (match ql with None => True | Some q => q <= 6 / 10 end) -> adjust_big_step big ql = big / 2.
Proof.
  intros H Q. unfold adjust_big_step. destruct ql as [q|]; [destruct (Rlt_dec (8/10) q); [lra|destruct (Rlt_dec (6/10) q); [lra|]]|]; destruct (Rle_dec _ _); lra.
Qed.
(** A bad direction makes it shorter: not from a short one. *)
Theorem big_step_bad_refuted : exists big q, 1 / 100 < big /\ q <= 6 / 10 /\ big < adjust_big_step big (Some q).
Proof.
  exists (15 / 1000), 0. split; [lra|]. split; [lra|]. unfold adjust_big_step. destruct (Rlt_dec (8/10) 0); [lra|]. destruct (Rlt_dec (6/10) 0); [lra|]. destruct (Rle_dec _ _); lra.
Qed.
(** It has no largest value. *)
Theorem big_step_grows k : forall big, 0 < big -> fold_left adjust_big_step (repeat (Some 1) k) big = (13 / 10) ^ k * big.
Proof.
  induction k as [|k IH]; intros big H; [cbn; ring|]. cbn [repeat fold_left]. replace (adjust_big_step big (Some 1)) with (big * (13 / 10)) by (unfold adjust_big_step; destruct (Rlt_dec (8/10) 1); lra). rewrite IH by lra. cbn [pow]. ring.
Qed.

(** ** C203: the Hessian given to a damped BFGS run *)
Theorem hessian_band nact nfull nb size : (size = (nact * (nb - 2)) ^ 2)%nat -> bind_hessian DampedBfgs Neb nact nfull nb size = Kept.
Proof. intros ->. unfold bind_hessian. now rewrite Nat.eqb_refl. Qed.
Theorem hessian_none s nact nfull nb : s = Neb \/ s = Climb -> (0 < nact <= nfull)%nat -> (2 < nb)%nat -> bind_hessian DampedBfgs s nact nfull nb 0 = Unity.
Proof.
  intros S H N. unfold bind_hessian. destruct S as [-> | ->].
  - destruct (Nat.eqb_spec 0 ((nact * (nb - 2)) ^ 2)) as [E|E]; [symmetry in E; apply Nat.pow_eq_0 in E; nia|]. destruct (Nat.eqb_spec 0 (nb * nfull * (nb * nfull))) as [E'|]; [symmetry in E'; apply Nat.mul_eq_0 in E'; destruct E' as [E'|E']; apply Nat.mul_eq_0 in E'; lia|]. reflexivity.
  - destruct (Nat.eqb_spec 0 (nact * nact)); [nia|]. destruct (Nat.eqb_spec 0 (nfull * nfull)); [nia|]. reflexivity.
Qed.
(** A Hessian of all images is reduced: it never is, the mask does not exist yet. *)
Theorem hessian_full_refuted nact nfull nb : (0 < nact <= nfull)%nat -> (2 < nb)%nat -> bind_hessian DampedBfgs Neb nact nfull nb ((nb * nfull) * (nb * nfull)) = AttributeErr.
Proof.
  intros H N. unfold bind_hessian. rewrite Nat.eqb_refl. destruct (Nat.eqb_spec (nb * nfull * (nb * nfull)) ((nact * (nb - 2)) ^ 2)) as [E|]; [|easy].
  exfalso. rewrite Nat.pow_2_r in E. assert (L : (nact * (nb - 2) < nb * nfull)%nat).
  { apply Nat.le_lt_trans with (nfull * (nb - 2))%nat; [apply Nat.mul_le_mono_r; lia|]. rewrite (Nat.mul_comm nb). apply Nat.mul_lt_mono_pos_l; lia. }
  pose proof (Nat.mul_lt_mono _ _ _ _ L L). lia.
Qed.
(** A run stopped while climbing starts again from its Hessian: it never does, although the size is right. *)
Theorem hessian_climb_refuted nact nfull nb : (0 < nact)%nat -> bind_hessian DampedBfgs Climb nact nfull nb (nact * nact) = ValueErr.
Proof. intros H. unfold bind_hessian. rewrite Nat.eqb_refl. destruct (Nat.eqb_spec (nact * nact) 0); [nia|easy]. Qed.
Theorem hessian_climb_only_empty nact nfull nb size : bind_hessian DampedBfgs Climb nact nfull nb size = Unity \/ bind_hessian DampedBfgs Climb nact nfull nb size = ValueErr \/ bind_hessian DampedBfgs Climb nact nfull nb size = AttributeErr.
Proof. unfold bind_hessian. repeat match goal with |- context [(?a =? ?b)%nat] => destruct (a =? b)%nat end; auto. Qed.

(** ** C204: the forces that are left for output *)
(** While the band is optimised they are the physical forces of all images, for a component of weight one. *)
Definition rep_ok (P : par) (s : st) : Prop := forall b i, rep s b i = pforce P (pos s b) i.
Theorem band_reports P o s s' : pweight P = 1 -> (forall u v, (forall i, u i = v i) -> forall i, pforce P u i = pforce P v i) ->
  stg s = Neb -> rep_ok P s -> step P o s = Next s' -> rep_ok P s'.
Proof.
  intros W X S R H b i. unfold step in H. rewrite S in H. destruct (pvarsprings P); [easy|].
  assert (E : s' = band_step P o s) by (destruct (pmode P); congruence). subst s'. unfold band_step. cbn [rep pos]. rewrite W, Rmult_1_l. destruct (inner P b) eqn:In; [easy|].
  rewrite R. apply X. intros k. symmetry. apply place_keeps. now left.
Qed.
(** With another weight those of the endpoints are multiplied by it at every step. *)
Theorem band_reports_weight_refuted P o s s' b i : stg s = Neb -> step P o s = Next s' -> inner P b = false -> rep s' b i = pweight P * rep s b i.
Proof.
  intros S H In. unfold step in H. rewrite S in H. destruct (pvarsprings P); [easy|].
  assert (E : s' = band_step P o s) by (destruct (pmode P); congruence). subst s'. unfold band_step. cbn [rep]. now rewrite In.
Qed.
Theorem first_force_weight_refuted : exists w raw i, first_force w raw i <> w * raw i.
Proof. exists (1 / 2), (fun _ => 1), 0%nat. unfold first_force, transferred. lra. Qed.
Theorem first_force_weight_one raw i : first_force 1 raw i = raw i.
Proof. unfold first_force, transferred. ring. Qed.
(** While climbing, what is left as the force of the climbing image is the gradient that is minimised: the
    physical force with the sign changed across the path. *)
Theorem climb_reports P o s s' i g : fin s = None -> zeros P (qprev s) = false -> zeros P (qnext s) = false -> stg s = Climb -> pmode P <> OtherMode -> step P o s = Next s' ->
  image_grad P (pos s' (cl s')) (qprev s') (qnext s') = Some g -> pmask P i = true -> rep s' (cl s') i = pweight P * g i.
Proof.
  intros F Z1 Z2 S M H G Mi. unfold step in H. rewrite S in H. unfold climb_init in H. rewrite Z1, Z2 in H. cbn [orb] in H. rewrite F in H.
  assert (E : s' = climb_move P o s) by (destruct (pmode P); congruence). subst s'. unfold climb_move in *. cbn [rep cl pos qprev qnext] in *. rewrite Nat.eqb_refl, Mi. cbn [andb]. rewrite G. reflexivity.
Qed.
Theorem climb_reports_across P o s s' g tau u : fin s = None -> zeros P (qprev s) = false -> zeros P (qnext s) = false -> stg s = Climb -> pmode P <> OtherMode ->
  step P o s = Next s' -> image_grad P (pos s' (cl s')) (qprev s') (qnext s') = Some g ->
  tangent_plain (pn P) (fun i => masked P (pos s' (cl s')) i - qprev s' i) (fun i => qnext s' i - masked P (pos s' (cl s')) i) = Some tau ->
  (forall i, pmask P i = false -> u i = 0) -> dot (pn P) tau u = 0 ->
  dot (pn P) (rep s' (cl s')) u = - (pweight P * dot (pn P) (pforce P (pos s' (cl s'))) u).
Proof.
  intros F Z1 Z2 S M H G T U0 U. set (f := masked P (pforce P (pos s' (cl s')))) in *.
  assert (GG : forall i, g i = - climb_force (pn P) tau f i). { unfold image_grad, climb_grad in G. fold f in G. rewrite T in G. now injection G as <-. }
  assert (R : forall i, rep s' (cl s') i * u i = pweight P * (g i * u i)).
  { intros i. destruct (pmask P i) eqn:Mi; [rewrite (climb_reports P o s s' i g) by easy; ring|]. rewrite U0 by easy. ring. }
  unfold dot at 1. rewrite (Rsum_ext _ _ _ (fun i _ => R i)). rewrite Rsum_scal. fold (dot (pn P) g u).
  rewrite (dot_ext (pn P) g (fun i => - climb_force (pn P) tau f i) u u) by (intros i _; auto). rewrite dot_opp_l, climb_across by easy.
  replace (dot (pn P) f u) with (dot (pn P) (pforce P (pos s' (cl s'))) u); [ring|]. apply Rsum_ext. intros i _. unfold f, masked. destruct (pmask P i) eqn:Mi; [easy|]. rewrite (U0 i Mi). ring.
Qed.
Definition P2 : par := Par 3 (fun _ => true) 3 1 1 Plain Fire true false false 0 0 0 (fun v => 0) (fun _ i => if (i =? 1)%nat then 1 else 0) 1.
Definition s2 : st := St Climb (fun b i => if (i =? 0)%nat then INR b + 1 else 0) (fun i => if (i =? 0)%nat then 1 else 0) (fun i => if (i =? 0)%nat then 3 else 0) 1 (fun _ _ => 0) None.
Definition o2 : opt := Opt (fun q => q) (fun x => x).
Theorem climb_reports_refuted : exists P o s s' i, pweight P = 1 /\ stg s = Climb /\ fin s = None /\ step P o s = Next s' /\ rep s' (cl s') i <> pforce P (pos s' (cl s')) i.
Proof.
  exists P2, o2, s2. assert (Z1 : zeros P2 (qprev s2) = false) by (unfold zeros; cbn; destruct (Req_EM_T 1 0); [lra|easy]).
  assert (Z2 : zeros P2 (qnext s2) = false) by (unfold zeros; cbn; destruct (Req_EM_T 3 0); [lra|easy]).
  exists (climb_move P2 o2 s2), 1%nat. split; [easy|]. split; [easy|]. split; [easy|]. split.
  - unfold step. cbn [stg s2]. unfold climb_init. fold s2. rewrite Z1, Z2. reflexivity.
  - unfold climb_move. cbn [rep cl pos qprev qnext s2 P2 pweight pmask pforce Nat.eqb andb]. destruct (image_grad _ _ _ _) as [g|] eqn:G; [|lra].
    unfold image_grad, climb_grad, tangent_plain in G. change (pn P2) with 3%nat in G.
    destruct (unit_of 3 _) as [a|] eqn:A; [|easy]. destruct (unit_of 3 (fun i => _ - masked _ _ i)) as [b|] eqn:B; [|easy]. destruct (unit_of 3 (fun i => a i + b i)) as [t|] eqn:T; [|easy]. injection G as <-.
    assert (T1 : t 1%nat = 0).
    { unfold unit_of in A, B, T. destruct (Req_EM_T _ 0) in A; [easy|]. destruct (Req_EM_T _ 0) in B; [easy|]. destruct (Req_EM_T _ 0) in T; [easy|]. injection A as <-. injection B as <-. injection T as <-.
      unfold masked, place_image. cbn. unfold Rdiv. ring. }
    unfold climb_force. rewrite T1, Rmult_0_r. match goal with |- _ * - (?a - 0) <> ?b => change a with 1; try change b with 1 end. cbn. lra.
Qed.

Print Assumptions band_converged.
Print Assumptions band_stops.
Print Assumptions climb_converged.
Print Assumptions converged_ends.
Print Assumptions endpoints_stage_refuted.
Print Assumptions climb_chosen_once.
Print Assumptions climb_chosen_again_refuted.
Print Assumptions big_step_floor.
Print Assumptions big_step_floor_always.
Print Assumptions big_step_good.
Print Assumptions big_step_bad.
Print Assumptions big_step_bad_refuted.
Print Assumptions big_step_grows.
Print Assumptions hessian_band.
Print Assumptions hessian_none.
Print Assumptions hessian_full_refuted.
Print Assumptions hessian_climb_refuted.
Print Assumptions hessian_climb_only_empty.
Print Assumptions band_reports.
Print Assumptions band_reports_weight_refuted.
Print Assumptions first_force_weight_refuted.
Print Assumptions first_force_weight_one.
Print Assumptions climb_reports.
Print Assumptions climb_reports_across.
Print Assumptions climb_reports_refuted.
