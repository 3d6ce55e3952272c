(** * Constrained dynamics: defined steps, worked cases, and what goes wrong (C110 to C114) *)
From Coq Require Import List Arith Bool Reals Lra Lia FunctionalExtensionality.
From Verif Require Import RSum MinModel MinLin ConstrModel ConstrLin ConstrProps ConstrJac ConstrCons.
Import ListNotations.
Open Scope R_scope.

(** ** With at least one iteration all steps are defined; with none there is a NameError (C111) *)
Section defined.
Variable solve : nat -> mat -> vec -> vec.
Variable nrm : nat -> vec -> R.
Variable m3 : vec.
Variable tol : R.
Variable maxit : nat.
Lemma man_defined Q dt Gs : (0 < maxit)%nat -> forall s, exists o, fold_left (man_one solve nrm m3 tol maxit Q dt) Gs (Some s) = Some o.
Proof.
  intros H. induction Gs as [|G Gs IH]; intros s; cbn [fold_left]; [eauto|].
  assert (E : exists s1, man_one solve nrm m3 tol maxit Q dt (Some s) G = Some s1); [|destruct E as [s1 ->]; apply IH].
  unfold man_one. destruct (newton solve nrm m3 tol G _ dt maxit 0 (o_i s) (o_q s) (o_p s)) as [[[q p] i] c] eqn:E.
  apply newton_index in E. destruct E as [[_ E]|(a & -> & _)]; [lia|eauto].
Qed.
Theorem positions_defined Gs Q dt q p : (0 < maxit)%nat -> exists o, proj_manifold solve nrm m3 tol maxit Gs Q dt q p = Some o.
Proof. intros H. now apply man_defined. Qed.
Theorem no_iterations_undefined G Gs Q dt q p : proj_manifold solve nrm m3 tol 0 (G :: Gs) Q dt q p = None.
Proof. unfold proj_manifold. cbn. apply man_none. Qed.
Variable Gs : list group.
Variable force : nat -> vec -> vec.
Variable pdt : nat -> R.
Variable qdt : R.
Variable ngeo : nat.
Hypothesis Hmax : (0 < maxit)%nat.
Definition total (f : state -> option state) : Prop := forall s, exists s', f s = Some s'.
Lemma total_then f g : total f -> total g -> total (and_then f g).
Proof. intros F K s. unfold and_then. destruct (F s) as [s1 ->]. apply K. Qed.
Lemma total_id : total (fun s => Some s).
Proof. intros s. eauto. Qed.
Lemma total_times n f : total f -> total (times n f).
Proof. intros F. induction n; [apply total_id|now apply total_then]. Qed.
Lemma total_Ag : total (step_Ag solve nrm m3 tol maxit Gs qdt ngeo).
Proof.
  intros s. apply total_times. intros s1. unfold geo, do_man.
  destruct (positions_defined Gs (s_prev (step_A m3 qdt s1)) qdt (s_q (step_A m3 qdt s1)) (s_p (step_A m3 qdt s1)) Hmax) as [o ->]. eauto.
Qed.
Lemma total_Bc level : total (step_Bc solve m3 Gs force pdt level).
Proof. intros s. unfold step_Bc. eauto. Qed.
Lemma total_halves nmts : forall index, total (fst (halves solve nrm m3 tol maxit Gs force pdt qdt ngeo index nmts)) /\
  total (snd (halves solve nrm m3 tol maxit Gs force pdt qdt ngeo index nmts)).
Proof.
  induction nmts as [|n l IH]; intros index; [split; apply total_id|]. cbn [halves]. specialize (IH (S index)).
  destruct (halves solve nrm m3 tol maxit Gs force pdt qdt ngeo (S index) l) as [ba ab]. cbn [fst snd] in *. destruct IH as [Ib Ia].
  split; apply total_then; try apply total_times; try destruct (Nat.odd n); destruct l;
    repeat first [apply total_id|apply total_Bc|apply total_Ag|exact Ib|exact Ia|apply total_then].
Qed.
Theorem nve_step_defined nmts s : exists s', nve_step solve nrm m3 tol maxit Gs force pdt qdt ngeo nmts s = Some s'.
Proof. apply total_then; apply total_halves. Qed.
Theorem nvt_step_defined N sp th1 th2 no nmts s e :
  exists s' e', nvt_step solve nrm m3 tol maxit Gs force pdt qdt ngeo N sp th1 th2 no nmts s e = Some (s', e').
Proof.
  unfold nvt_step. destruct sp.
  - destruct (step_Oc solve m3 Gs N th1 no s e) as [s1 e1]. destruct (nve_step_defined nmts s1) as [s2 ->].
    destruct (step_Oc solve m3 Gs N th2 no s2 e1) as [s3 e3]. eauto.
  - destruct (proj1 (total_halves nmts 0) s) as [s1 ->]. destruct (step_Oc solve m3 Gs N th1 no s1 e) as [s2 e2].
    destruct (proj2 (total_halves nmts 0) s2) as [s3 ->]. eauto.
Qed.
End defined.

(** ** A case for the theorems: two atoms of mass one, a bond of length one *)
Definition sum_norm (c : nat) (v : vec) : R := Rsum c (fun a => Rabs (v a)).
Definition one_bond : group := bonds [(0, 1)%nat] (fun _ => 1).
Definition Qx : vec := fun j => if (j =? 3)%nat then 1 else 0.
Lemma one_bond_proper : proper 6 one_bond /\ local one_bond.
Proof.
  split; [|apply bonds_local]. apply (atoms_proper 2 [0; 1]%nat); [reflexivity|]. intros u [<-|[<-|[]]]; lia.
Qed.
Lemma one_bond_within Q : within sum_norm (1 / 2) one_bond Q -> far Q 0 1.
Proof.
  unfold within, sum_norm. change (ncons one_bond) with 1%nat. cbn [Rsum]. unfold one_bond. rewrite (bond_value [(0, 1)%nat] _ Q 0 0 1) by (cbn; auto).
  intros H. unfold far.
  destruct (Req_dec (Q (3 * 0 + 0)%nat) (Q (3 * 1 + 0)%nat)) as [E0|N0]; [|exists 0%nat; split; [lia|exact N0]].
  destruct (Req_dec (Q (3 * 0 + 1)%nat) (Q (3 * 1 + 1)%nat)) as [E1|N1]; [|exists 1%nat; split; [lia|exact N1]].
  destruct (Req_dec (Q (3 * 0 + 2)%nat) (Q (3 * 1 + 2)%nat)) as [E2|N2]; [|exists 2%nat; split; [lia|exact N2]].
  exfalso. cbn [Rsum] in H. rewrite E0, E1, E2 in H. revert H. rewrite Rplus_0_l. replace (_ - 1 ^ 2) with (- 1) by ring.
  rewrite Rabs_left by lra. lra.
Qed.
Lemma one_bond_independent Q : within sum_norm (1 / 2) one_bond Q -> independent one_bond Q.
Proof. intros W. apply bond_independent; [lia|now apply one_bond_within]. Qed.
Lemma one_bond_start : within sum_norm (1 / 2) one_bond Qx.
Proof.
  unfold within, sum_norm. change (ncons one_bond) with 1%nat. cbn [Rsum]. unfold one_bond. rewrite (bond_value [(0, 1)%nat] _ Qx 0 0 1) by (cbn; auto).
  cbn [Rsum Qx Nat.mul Nat.add Nat.eqb]. unfold Qx. cbn [Nat.mul Nat.add Nat.eqb]. replace (_ - 1 ^ 2) with 0 by ring. rewrite Rabs_R0. lra.
Qed.
(** All that the theorems on steps ask for, with any forces, time steps, levels and thermostats. *)
Example steps_case force pdt qdt ngeo n l th no p :
  let s := St Qx p Qx true in
  exists s', nve_step schur sum_norm (fun _ => 1) (1 / 2) 100 [one_bond] force pdt qdt ngeo (S n :: l) s = Some s' /\
    good sum_norm (fun _ => 1) (1 / 2) [one_bond] s' /\
    exists s2 e2, nvt_step schur sum_norm (fun _ => 1) (1 / 2) 100 [one_bond] force pdt qdt ngeo 6 Obabo th th no l s' 0 = Some (s2, e2) /\
      good sum_norm (fun _ => 1) (1 / 2) [one_bond] s2.
Proof.
  intros s. destruct (nve_step_defined schur sum_norm (fun _ => 1) (1 / 2) 100 [one_bond] force pdt qdt ngeo ltac:(lia) (S n :: l) s) as [s' E].
  assert (M : forall j, (j < 6)%nat -> 0 < 1) by (intros; lra).
  assert (A : all_apart [one_bond]) by (constructor; constructor).
  assert (P : forall G, In G [one_bond] -> proper 6 G /\ local G) by (intros G [<-|[]]; apply one_bond_proper).
  assert (I : forall G Q, In G [one_bond] -> within sum_norm (1 / 2) G Q -> independent G Q) by (intros G Q [<-|[]]; apply one_bond_independent).
  exists s'. split; [exact E|].
  assert (Gd : good sum_norm (fun _ => 1) (1 / 2) [one_bond] s').
  { refine (nve_step_sound _ _ _ _ _ 6 _ schur_ok M A P I _ _ _ _ _ _ s s' _ _ E); [lia|]. split; [reflexivity|]. intros _ G [<-|[]]. exact one_bond_start. }
  split; [exact Gd|].
  destruct (nvt_step_defined schur sum_norm (fun _ => 1) (1 / 2) 100 [one_bond] force pdt qdt ngeo ltac:(lia) 6 Obabo th th no l s' 0) as (s2 & e2 & E2).
  exists s2, e2. split; [exact E2|]. exact (nvt_step_good _ _ _ _ _ 6 _ schur_ok M A P I _ _ _ _ _ _ _ _ _ _ _ _ _ Gd E2).
Qed.
Ltac real_cbn := cbn -[Rplus Rmult Rminus Ropp Rinv Rdiv IZR pow sqrt Rabs].
Ltac real_cbn_in H := cbn -[Rplus Rmult Rminus Ropp Rinv Rdiv IZR pow sqrt Rabs] in H.
(** The projection of a momentum along the bond: both atoms get half of it. *)
Example projection_case : let p := proj_cotangent schur (fun _ => 1) [one_bond] Qx (fun j => if (j =? 3)%nat then 1 else 0) in
  p 0%nat = 1 / 2 /\ p 3%nat = 1 / 2 /\ p 1%nat = 0.
Proof. cbn zeta. repeat split; real_cbn; unfold take; real_cbn; unfold diff3, Qx; real_cbn; field; lra. Qed.

(** ** C110: constraints that share an atom must be in one list *)
Definition Q3 : vec := fun j => if (j =? 3)%nat then 1 else if (j =? 6)%nat then 2 else 0.
Definition bond01 : group := bonds [(0, 1)%nat] (fun _ => 1).
Definition bond12 : group := bonds [(1, 2)%nat] (fun _ => 1).
Theorem momenta_projected_sharing_refuted : exists solve m3 Gs Q p G, solver_ok solve /\ (forall j, 0 < m3 j) /\
  (forall G, In G Gs -> proper 9 G /\ independent G Q) /\ In G Gs /\ ~ tangent m3 G Q (proj_cotangent solve m3 Gs Q p).
Proof.
  exists schur, (fun _ => 1), [bond01; bond12], Q3, (fun j => if (j =? 6)%nat then 1 else 0), bond01.
  split; [exact schur_ok|]. split; [intros; lra|]. split.
  { intros G [<-|[<-|[]]]; split.
    - apply (atoms_proper 3 [0; 1]%nat); [reflexivity|]. intros u [<-|[<-|[]]]; lia.
    - apply bond_independent; [lia|]. exists 0%nat. split; [lia|]. cbn. lra.
    - apply (atoms_proper 3 [1; 2]%nat); [reflexivity|]. intros u [<-|[<-|[]]]; lia.
    - apply bond_independent; [lia|]. exists 0%nat. split; [lia|]. cbn. lra. }
  split; [now left|]. intros T. specialize (bond_tangent _ _ _ _ _ 0 0 1 T ltac:(cbn; lia) eq_refl) as B.
  real_cbn_in B. unfold take in B. real_cbn_in B. unfold diff3, Q3 in B. real_cbn_in B. field_simplify in B. lra.
Qed.
(** In one list the conditions of both bonds hold together. *)
Definition both : group := joined [([0; 1]%nat, bond01); ([1; 2]%nat, bond12)].
Lemma both_independent : independent both Q3.
Proof.
  intros x H a Ha. change (ncons both) with 2%nat in *. change (dim both) with 9%nat in H.
  pose proof (H 0%nat ltac:(lia)) as H0. pose proof (H 6%nat ltac:(lia)) as H6. clear H.
  real_cbn_in H0. real_cbn_in H6. unfold take in H0, H6. real_cbn_in H0. real_cbn_in H6. unfold diff3, Q3 in H0, H6. real_cbn_in H0. real_cbn_in H6.
  destruct a as [|[|a]]; [lra|lra|lia].
Qed.
Example both_case p : let p' := proj_cotangent schur (fun _ => 1) [both] Q3 p in tangent (fun _ => 1) both Q3 p' /\
  kinetic 9 (fun _ => 1) p' <= kinetic 9 (fun _ => 1) p.
Proof.
  assert (P : forall G, In G [both] -> proper 9 G /\ independent G Q3).
  { intros G [<-|[]]. split; [|exact both_independent]. apply (atoms_proper 3 [0; 1; 1; 2]%nat); [reflexivity|]. intros u [<-|[<-|[<-|[<-|[]]]]]; lia. }
  cbn zeta. split.
  - apply (momenta_projected schur (fun _ => 1) 9 [both]); [exact schur_ok|intros; lra|constructor; constructor|exact P|now left].
  - apply (momenta_projection_cools schur (fun _ => 1) 9 [both]); [exact schur_ok|intros; lra|exact P].
Qed.

(** ** C111: no convergence, no warning *)
(** The atoms are two apart along y while the last known bond was along x: no multiple of the old
    direction can repair that, with any solver and any number of iterations. *)
Definition qy : vec := fun j => if (j =? 4)%nat then 2 else 0.
Lemma off_axis dg x j (q d : vec) : dg = bond_dg [(0, 1)%nat] (take (ic one_bond) Qx) -> (j = 1 \/ j = 4)%nat ->
  sub_at (ic one_bond) q (fun i => push one_bond dg x i / d i) j = q j.
Proof.
  intros -> [-> | ->]; unfold sub_at; cbn [one_bond bonds ic pair_atoms flat_map fst snd app unique insert Nat.ltb Nat.leb Nat.eqb i3 three index_of Nat.mul Nat.add];
    unfold push; cbn [one_bond bonds ncons length Rsum]; unfold bond_dg; real_cbn; unfold diff3, take; real_cbn; unfold Qx; real_cbn; unfold Rdiv; ring.
Qed.

Lemma newton_off_axis solve nrm tol dt left : forall k i q p q' p' i' b,
  newton solve nrm (fun _ => 1) tol one_bond (dgfun one_bond (take (ic one_bond) Qx)) dt left k i q p = (q', p', i', b) ->
  q' 1%nat = q 1%nat /\ q' 4%nat = q 4%nat.
Proof.
  induction left as [|n IH]; intros k i q p q' p' i' b; cbn [newton]; [intros [= <- <- <- <-]; auto|].
  destruct (Rlt_dec _ tol) as [_|_]; [intros [= <- <- <- <-]; auto|]. intros E. apply IH in E.
  rewrite !off_axis in E by auto. exact E.
Qed.
Theorem unconverged_unnoticed_refuted : exists G Q q p dt, within sum_norm (1 / 2) G Q /\ proper 6 G /\ local G /\ independent G Q /\
  forall solve maxit, (0 < maxit)%nat ->
  exists o, proj_manifold solve sum_norm (fun _ => 1) (1 / 2) maxit [G] Q dt q p = Some o /\ o_warn o = O /\ ~ within sum_norm (1 / 2) G (o_q o).
Proof.
  exists one_bond, Qx, qy, (fun _ => 0), 1. split; [exact one_bond_start|]. split; [apply one_bond_proper|]. split; [apply one_bond_proper|].
  split; [apply one_bond_independent, one_bond_start|]. intros solve maxit H.
  destruct (positions_defined solve sum_norm (fun _ => 1) (1 / 2) maxit [one_bond] Qx 1 qy (fun _ => 0) H) as [o E].
  exists o. split; [exact E|]. split; [exact (positions_never_warned _ _ _ _ _ _ _ _ _ _ _ E)|].
  unfold proj_manifold in E. cbn [fold_left] in E. apply man_one_some in E. destruct E as (s0 & i & c & [= <-] & E & _). cbn [o_i o_q o_p] in E.
  apply newton_off_axis in E. destruct E as [E1 E4]. intros W. unfold within, sum_norm in W. change (ncons one_bond) with 1%nat in W. cbn [Rsum] in W.
  unfold one_bond in W. rewrite (bond_value [(0, 1)%nat] _ (o_q o) 0 0 1) in W by (cbn; auto). cbn [Rsum Nat.mul Nat.add] in W. rewrite E1, E4 in W.
  unfold qy in W. cbn [Nat.eqb] in W. apply Rabs_def2 in W || (rewrite Rplus_0_l in W; apply Rabs_def2 in W).
  pose proof (pow2_ge_0 (o_q o 0%nat - o_q o 3%nat)). pose proof (pow2_ge_0 (o_q o 2%nat - o_q o 5%nat)). lra.
Qed.

(** ** C111: a linear constraint *)
(** Eckart conditions are linear ([eckart_linear]); the case is the simplest linear condition. *)
Definition plane : group := Group [0; 3]%nat 1 (fun q _ => q 0%nat + q 1%nat - 1) (fun _ _ _ => 1).
Example linear_case q p dt : exists o, proj_manifold schur sum_norm (fun _ => 2) (1 / 2) 5 [plane] q dt q p = Some o /\ o_conv o = true /\
  sum_norm 1 (gfun plane (take (ic plane) (o_q o))) < 1 / 2.
Proof.
  assert (P : proper 6 plane). { split; [repeat constructor; cbn; intuition lia|]. intros j [<-|[<-|[]]]; lia. }
  assert (I : independent plane q). { intros x H a Ha. cbn in Ha. specialize (H 0%nat ltac:(cbn; lia)). cbn [plane ncons Rsum dgfun] in H. assert (a = O) by lia. subst. lra. }
  destruct (Rlt_dec (sum_norm 1 (gfun plane (take (ic plane) q))) (1 / 2)) as [W|W].
  - eexists. unfold proj_manifold. cbn [fold_left]. unfold man_one. cbn [newton o_q o_p o_i]. change (ncons plane) with 1%nat.
    destruct (Rlt_dec (sum_norm 1 (gfun plane (take (ic plane) q))) (1 / 2)); [|contradiction]. split; [reflexivity|]. split; [reflexivity|]. exact W.
  - destruct (linear_constraint_exact schur sum_norm (fun _ => 2) (1 / 2) 5 6 q dt q p plane) as (o & E & C & Z).
    + exact schur_ok.
    + intros; lra.
    + exact P.
    + exact I.
    + intros v w H. cbn [plane gfun]. rewrite !H by (cbn; lia). reflexivity.
    + intros Q q0 d a Ha. cbn. ring.
    + exact W.
    + lia.
    + intros z Hz. unfold sum_norm. rewrite Rsum_0; [lra|]. intros a Ha. rewrite Hz by exact Ha. apply Rabs_R0.
    + exists o. split; [exact E|]. split; [exact C|]. unfold sum_norm. rewrite Rsum_0; [lra|]. intros a Ha. rewrite Z by exact Ha. apply Rabs_R0.
Qed.

(** ** C112: cases *)
Example jacobian_case th : jacobian_at (angles [(1, 0, 2)%nat] th) (take (ic (angles [(1, 0, 2)%nat] th)) Q3) /\
  jacobian_at both Q3 /\ force_free (angles [(1, 0, 2)%nat] th) (take (ic (angles [(1, 0, 2)%nat] th)) Q3).
Proof.
  split; [|split].
  - apply angle_jacobian. intros u v w [[= <- <- <-]|[]]. repeat split; try lia; exists 0%nat; (split; [lia|cbn; lra]).
  - apply joined_jacobian. intros l G [[= <- <-]|[[= <- <-]|[]]]; (split; [reflexivity|apply bond_jacobian]).
  - apply angles_force_free. intros u v w [[= <- <- <-]|[]]. lia.
Qed.

(** ** C114: construction *)
Lemma insert_small a l : (forall j, In j l -> (a < j)%nat) -> insert a l = a :: l.
Proof. destruct l as [|b l]; [reflexivity|]. intros H. cbn [insert]. specialize (H b (or_introl eq_refl)). apply Nat.ltb_lt in H. now rewrite H. Qed.
Lemma unique_fixed l : increasing l -> unique l = l.
Proof. induction 1 as [|b l H I IH]; [reflexivity|]. cbn [unique]. rewrite IH. now apply insert_small. Qed.
(** The test for repeated atoms takes increasing lists, and lists of one atom over and over. *)
Theorem eckart_check l : eckart_accepts l = true <-> increasing l \/ exists u, forall a, In a l -> a = u.
Proof.
  unfold eckart_accepts. assert (U : forall j, In j (unique l) <-> In j l) by apply unique_In. pose proof (unique_inc l) as Inc. pose proof (unique_fixed l) as F.
  destruct (unique l) as [|u [|u' us]] eqn:E.
  - destruct (list_eq_dec Nat.eq_dec l []) as [->|N]; [split; auto; left; constructor|]. exfalso. destruct l as [|a l]; [auto|]. apply (proj2 (U a)). now left.
  - split; [|intros _]; [intros H; right; exists u; intros a Ha; apply (proj1 (forallb_forall _ _) H) in Ha; now apply Nat.eqb_eq|].
    apply forallb_forall. intros a Ha. apply U in Ha. destruct Ha as [<-|[]]. apply Nat.eqb_refl.
  - destruct (list_eq_dec Nat.eq_dec l (u :: u' :: us)) as [->|N]; [split; auto|]. split; [discriminate|]. intros [I|(x & X)].
    + exfalso. apply N. symmetry. now apply F.
    + exfalso. assert (u = x) by (apply X, U; now left). assert (u' = x) by (apply X, U; right; now left). subst. inversion Inc as [|? ? H _]; subst.
      specialize (H x (or_introl eq_refl)). lia.
Qed.
(** It is said to refuse repetitions: it refuses other lists as well, and not all repetitions. *)
Theorem eckart_check_refuted : (exists l, NoDup l /\ eckart_accepts l = false) /\ (exists l, ~ NoDup l /\ eckart_accepts l = true).
Proof.
  split; [exists [1; 0]%nat; split; [repeat constructor; cbn; intuition lia|reflexivity]|]. exists [5; 5]%nat. split; [|reflexivity].
  intros N. inversion N as [|? ? H _]; subst. apply H. now left.
Qed.
(** The reference enters relative to its own centre of mass only: moving the reference and the atoms
    together changes none of the conditions. *)
Theorem eckart_moved n m qref q (t : nat -> R) c : mtot n m <> 0 -> (forall a k, (k < 3)%nat -> m (3 * a + k)%nat = m (3 * a)%nat) -> (c < 6)%nat ->
  eckart_g n m (fun i => qref i + t (i mod 3)%nat) (fun i => q i + t (i mod 3)%nat) c = eckart_g n m qref q c.
Proof.
  intros M0 M C.
  assert (E : forall i, mref n m (fun i => qref i + t (i mod 3)%nat) i = mref n m qref i).
  { intros i. unfold mref. f_equal. assert (Z : ref_com n m (fun i => qref i + t (i mod 3)%nat) (i mod 3) = ref_com n m qref (i mod 3) + t (i mod 3)%nat); [|rewrite Z; ring].
    set (k := (i mod 3)%nat). assert (K : (k < 3)%nat) by (apply Nat.mod_upper_bound; lia). unfold ref_com.
    rewrite (Rsum_ext n _ (fun a => qref (3 * a + k)%nat * m (3 * a + k)%nat + t k * m (3 * a)%nat)).
    - rewrite Rsum_plus, Rsum_scal. fold (mtot n m). field. exact M0.
    - intros a _. rewrite M by exact K. assert (R : ((3 * a + k) mod 3 = k)%nat) by (rewrite Nat.add_comm, Nat.mul_comm, Nat.mod_add by lia; apply Nat.mod_small; exact K).
      rewrite R. ring. }
  unfold eckart_g. destruct (c <? 3)%nat.
  - f_equal. apply Rsum_ext. intros a _. ring.
  - f_equal. apply Rsum_ext. intros a _. unfold row. destruct (c - 3)%nat as [|[|k]]; cbn [cross]; rewrite ?E; ring.
Qed.
Example eckart_moved_case : mtot 2 (fun i => if (i <? 3)%nat then 1 else 3) <> 0 /\ forall a k, (k < 3)%nat -> (if (3 * a + k <? 3)%nat then 1 else 3) = (if (3 * a <? 3)%nat then 1 else 3).
Proof.
  split; [unfold mtot; cbn; lra|]. intros a k K. destruct (Nat.ltb_spec (3 * a + k) 3), (Nat.ltb_spec (3 * a) 3); try lia; reflexivity.
Qed.
(** Every condition takes away one degree of freedom. *)
Theorem fixdof_counts base Gs : fixdof base Gs = (base + list_sum (map ncons Gs))%nat.
Proof.
  unfold fixdof. revert base. induction Gs as [|G Gs IH]; intros base; cbn [fold_left map]; [cbn; lia|]. rewrite IH. change (list_sum (ncons G :: map ncons Gs)) with (ncons G + list_sum (map ncons Gs))%nat. lia.
Qed.
Theorem joined_counts cs : ncons (joined cs) = list_sum (map (fun c => ncons (snd c)) cs).
Proof. cbn [joined ncons]. induction cs as [|c cs IH]; [reflexivity|]. cbn [fold_right map]. rewrite IH. reflexivity. Qed.
Example fixdof_case : fixdof 3 [bond01; both] = 6%nat.
Proof. reflexivity. Qed.

Print Assumptions momenta_projected.
Print Assumptions momenta_projection_orthogonal.
Print Assumptions momenta_projection_cools.
Print Assumptions momenta_projection_once.
Print Assumptions total_momentum_kept.
Print Assumptions momenta_projected_sharing_refuted.
Print Assumptions positions_projected_partial.
Print Assumptions positions_momenta_together.
Print Assumptions linear_constraint_exact.
Print Assumptions positions_never_warned.
Print Assumptions unconverged_unnoticed_refuted.
Print Assumptions centre_of_mass_kept.
Print Assumptions bond_jacobian.
Print Assumptions angle_jacobian.
Print Assumptions eckart_jacobian.
Print Assumptions eckart_tangent.
Print Assumptions joined_jacobian.
Print Assumptions joined_value.
Print Assumptions nve_step_good.
Print Assumptions nve_step_sound.
Print Assumptions nvt_step_good.
Print Assumptions thermostat_step_ledger.
Print Assumptions nvt_step_defined.
Print Assumptions eckart_check.
Print Assumptions fixdof_counts.
Print Assumptions eckart_moved.
