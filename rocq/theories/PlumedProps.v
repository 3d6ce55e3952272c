(** * Theorems of record: PLUMED force field and metadynamics *)
From Coq Require Import List Arith Lia Bool Reals Lra.
From Verif Require Import RSum PlumedModel.
Import ListNotations.
Open Scope R_scope.

(** ** Evaluation (C233) *)
Section Evaluate.
Variable X : Type.
Variable bias : X -> option R -> arr -> ten -> R.
Variable dforce : X -> option R -> arr -> ten -> arr -> arr.
Variable dvirial : X -> option R -> arr -> ten -> ten -> ten.
Variable update : X -> nat -> option R -> arr -> ten -> X.
Notation ffp := (ffp X).
Notation evaluate := (evaluate X bias dforce dvirial).
Notation mtd_update := (mtd_update X bias update).
(** The energy PLUMED sees, and the transposed cell. *)
Definition seen (s : ffp) : option R := match sysforce X s with Some p => Some (p_pot p) | None => penergy X s end.
Definition boxed (cell : ten) : ten := fun i j => cell j i.
Definition held_f (s : ffp) : arr := match sysforce X s with Some p => p_f p | None => zero_arr end.
Definition held_w (s : ffp) : ten := match sysforce X s with Some p => (fun i j => - p_vir p i j) | None => zero_ten end.
(** Potential and force returned are PLUMED's alone, whether or not it was given those of the system; its state is
    not changed; arrays of another length are refused. *)
Theorem evaluate_force s len pos cell s' a : evaluate s len pos cell = Some (s', a) ->
  len = (3 * natoms X s)%nat /\ a_v a = bias (px X s) (seen s) pos (boxed cell) /\
  (forall i, a_f a i = dforce (px X s) (seen s) pos (boxed cell) (held_f s) i) /\
  px X s' = px X s /\ pstep X s' = pstep X s /\ lastq X s' = pos /\ ppos X s' = pos.
Proof.
  unfold PlumedModel.evaluate, seen, boxed, held_f. destruct (Nat.eqb len (3 * natoms X s)) eqn:L; [|discriminate]. apply Nat.eqb_eq in L. cbn [negb].
  intros H. injection H as <- <-. split; [exact L|]. split; [reflexivity|]. split; [|now repeat split].
  intros i. cbn [a_f]. destruct (sysforce X s) as [p|]; unfold zero_arr; ring.
Qed.
Theorem evaluate_refuses s len pos cell : len <> (3 * natoms X s)%nat -> evaluate s len pos cell = None.
Proof. intros N. unfold PlumedModel.evaluate. now rewrite (proj2 (Nat.eqb_neq _ _) N). Qed.
(** Without the energy of the system, the virial returned is minus PLUMED's. *)
Theorem evaluate_virial s len pos cell s' a : sysforce X s = None -> evaluate s len pos cell = Some (s', a) ->
  forall i j, a_vir a i j = - dvirial (px X s) (penergy X s) pos (boxed cell) zero_ten i j.
Proof.
  unfold PlumedModel.evaluate, boxed. intros E. rewrite E. destruct (Nat.eqb len (3 * natoms X s)); [|discriminate]. cbn [negb].
  intros H. injection H as <- <-. intros i j. cbn [a_vir]. unfold zero_ten. ring.
Qed.
(** With it, twice the virial of the system is added. *)
Theorem evaluate_virial_energy s p len pos cell s' a : sysforce X s = Some p -> evaluate s len pos cell = Some (s', a) ->
  forall i j, a_vir a i j = 2 * p_vir p i j - dvirial (px X s) (Some (p_pot p)) pos (boxed cell) (held_w s) i j.
Proof.
  unfold PlumedModel.evaluate, boxed, held_w. intros E. rewrite E. destruct (Nat.eqb len (3 * natoms X s)); [|discriminate]. cbn [negb].
  intros H. injection H as <- <-. intros i j. cbn [a_vir]. ring.
Qed.

(** ** Updates (C234) *)
(** An update at the positions evaluated last returns by how much the bias there has gone down; steps are
    counted one by one. *)
Theorem update_work s len pos cell : (forall i, (i < len)%nat -> lastq X s i = pos i) -> compute_work X s = true ->
  exists s', mtd_update s len pos cell = Some (s', bias (px X s) (penergy X s) (ppos X s) (pbox X s) - bias (px X s') (penergy X s) (ppos X s) (pbox X s)) /\
    pstep X s' = S (pstep X s) /\ px X s' = update (px X s) (S (pstep X s)) (penergy X s) (ppos X s) (pbox X s) /\
    lastq X s' = lastq X s /\ ppos X s' = ppos X s /\ pbox X s' = pbox X s /\ penergy X s' = penergy X s /\ compute_work X s' = true.
Proof.
  intros L C. unfold PlumedModel.mtd_update. destruct (Rlt_dec _ _) as [N|_].
  - exfalso. rewrite Rsum_0 in N by (intros i I; rewrite L by easy; ring). rewrite sqrt_0 in N.
    assert (0 < / 10 ^ 10) by (apply Rinv_0_lt_compat; lra). lra.
  - rewrite C. exists (Ffp X (update (px X s) (S (pstep X s)) (penergy X s) (ppos X s) (pbox X s)) (penergy X s) (ppos X s) (pbox X s) (S (pstep X s)) (lastq X s) (natoms X s) (sysforce X s) true).
    now repeat split.
Qed.
(** At other positions it ends in an error. *)
Theorem update_moved s len pos cell i : (i < len)%nat -> / 10 ^ 10 < Rabs (lastq X s i - pos i) -> mtd_update s len pos cell = None.
Proof.
  intros I N. unfold PlumedModel.mtd_update. destruct (Rlt_dec _ _) as [_|F]; [reflexivity|]. exfalso. apply F. clear F.
  apply Rlt_le_trans with (1 := N). rewrite <- sqrt_Rsqr_abs. apply sqrt_le_1_alt. unfold Rsqr.
  rewrite <- (Rsum_delta_r len i (fun i => (lastq X s i - pos i) * (lastq X s i - pos i)) I). apply Rsum_le. intros j _.
  unfold delta. destruct (Nat.eqb j i); [right; ring|]. rewrite Rmult_0_r. apply pow2_ge_0.
Qed.
(** Updates one after the other at the same positions: the works add up to the whole change of the bias. *)
Fixpoint updates (n : nat) (s : ffp) (len : nat) (pos : arr) (cell : ten) : option (ffp * R) :=
  match n with
  | O => Some (s, 0)
  | S n => match updates n s len pos cell with
           | None => None
           | Some (s, w) => match mtd_update s len pos cell with None => None | Some (s', w') => Some (s', w + w') end
           end
  end.
Theorem updates_work n s len pos cell : (forall i, (i < len)%nat -> lastq X s i = pos i) -> compute_work X s = true ->
  exists s', updates n s len pos cell = Some (s', bias (px X s) (penergy X s) (ppos X s) (pbox X s) - bias (px X s') (penergy X s) (ppos X s) (pbox X s)) /\
    pstep X s' = (pstep X s + n)%nat.
Proof.
  intros L C.
  assert (G : exists s', updates n s len pos cell = Some (s', bias (px X s) (penergy X s) (ppos X s) (pbox X s) - bias (px X s') (penergy X s) (ppos X s) (pbox X s)) /\
    pstep X s' = (pstep X s + n)%nat /\ lastq X s' = lastq X s /\ ppos X s' = ppos X s /\ pbox X s' = pbox X s /\ penergy X s' = penergy X s /\ compute_work X s' = true).
  { induction n as [|n (s1 & U & P & Q & A & B & D & E)]; cbn [updates].
    - exists s. repeat split; [|lia|exact C]. do 2 f_equal. ring.
    - rewrite U. destruct (update_work s1 len pos cell) as (s2 & M & P2 & _ & Q2 & A2 & B2 & D2 & E2); [now rewrite Q|exact E|].
      exists s2. rewrite M. repeat split; try congruence; [|rewrite P2, P; lia]. do 2 f_equal. rewrite A, B, D. ring. }
  destruct G as (s' & U & P & _). eauto.
Qed.
(** Without compute_work the work is always zero. *)
Theorem no_work s len pos cell s' w : compute_work X s = false -> mtd_update s len pos cell = Some (s', w) -> w = 0.
Proof. intros C. unfold PlumedModel.mtd_update. destruct (Rlt_dec _ _); [discriminate|]. rewrite C. intros H. injection H as _ <-. ring. Qed.

(** ** Conserved quantity (C235) *)
Notation metad_one := (metad_one X bias update).
Notation metad_loop := (metad_loop X bias update).
Notation metad_step := (metad_step X bias update).
(** Total weight of the components with force field [k]. *)
Definition weight_of (k : nat) (l : list comp) : R := Rsuml (map c_w (filter (fun c => Nat.eqb (c_ff c) k) l)).
Definition filled (l : list comp) : Prop := forall c, In c l -> c_u c <> [].
Lemma lower_pot nb k w c : c_u c <> [] -> comp_pot nb (lower k w c) = comp_pot nb c - (if Nat.eqb (c_ff c) k then c_w c else 0) * (INR nb * w).
Proof.
  intros N. unfold lower, comp_pot. destruct (Nat.eqb (c_ff c) k); [|ring]. cbn [c_w c_u]. rewrite map_length.
  rewrite (Rsuml_map_minus (fun u => u) (fun _ => w)), map_id, Rsuml_map_const.
  assert (0 < INR (List.length (c_u c))) by (apply lt_0_INR; destruct (c_u c); [easy|cbn; lia]). field. lra.
Qed.
Lemma lowered_pot nb k w l : filled l -> Rsuml (map (comp_pot nb) (map (lower k w) l)) = Rsuml (map (comp_pot nb) l) - weight_of k l * (INR nb * w).
Proof.
  intros F. unfold weight_of. induction l as [|c l IH]; [cbn; ring|]. cbn [map filter]. change (Rsuml (?a :: ?b)) with (a + Rsuml b).
  rewrite lower_pot by (apply F; now left). rewrite IH by (intros x I; apply F; now right).
  destruct (Nat.eqb (c_ff c) k); cbn [map]; [change (Rsuml (?a :: ?b)) with (a + Rsuml b)|]; ring.
Qed.
Lemma lower_weight k j w l : weight_of k (map (lower j w) l) = weight_of k l.
Proof.
  unfold weight_of. induction l as [|c l IH]; [reflexivity|]. cbn [map filter].
  assert (E : c_ff (lower j w c) = c_ff c /\ c_w (lower j w c) = c_w c) by (unfold lower; destruct (Nat.eqb (c_ff c) j); auto).
  rewrite (proj1 E). destruct (Nat.eqb (c_ff c) k); cbn [map Rsuml]; [|exact IH]. now rewrite (proj2 E), IH.
Qed.
Lemma lower_filled j w l : filled l -> filled (map (lower j w) l).
Proof.
  intros F c I. apply in_map_iff in I. destruct I as (x & <- & I). specialize (F x I). unfold lower. destruct (Nat.eqb (c_ff x) j); [|exact F].
  cbn [c_u]. now destruct (c_u x).
Qed.
(** One component: the change of the conserved quantity. *)
Theorem metad_one_econs metaff F s ik F' s' : filled (comps s) -> metad_one metaff (F, s) ik = Some (F', s') ->
  exists k w, econs s' = econs s + INR (nbeads s) * w * (1 - weight_of k (comps s)) /\ (w <> 0 -> metaff k = true) /\ eens s' = eens s + w * INR (nbeads s).
Proof.
  intros FL. unfold PlumedModel.metad_one. destruct (nth_error (comps s) ik) as [c|]; [|intros H; injection H as <- <-; exists 0%nat, 0; repeat split; try ring; easy].
  destruct (metaff (c_ff c)) eqn:M; cbn [negb]; [|intros H; injection H as <- <-; exists 0%nat, 0; repeat split; try ring; easy].
  destruct (F (c_ff c)) as [p|]; [|discriminate]. destruct (Req_EM_T (c_w c) 0) as [Z|N]; [intros H; injection H as <- <-; exists 0%nat, 0; repeat split; try ring; easy|].
  destruct (PlumedModel.mtd_update _ _ _ p _ _ _) as [[p' w]|]; [|discriminate]. intros H. injection H as <- <-. exists (c_ff c), w. split; [|now split].
  unfold econs, bias_pot. cbn [comps nbeads eens rest]. destruct (Req_EM_T w 0) as [Z|NZ]; [rewrite Z; ring|].
  rewrite lowered_pot by exact FL. ring.
Qed.
Lemma metad_one_keeps metaff F s ik F' s' : filled (comps s) -> metad_one metaff (F, s) ik = Some (F', s') ->
  filled (comps s') /\ (forall k, weight_of k (comps s') = weight_of k (comps s)) /\ nbeads s' = nbeads s.
Proof.
  intros FL. unfold PlumedModel.metad_one. destruct (nth_error (comps s) ik) as [c|]; [|intros H; injection H as <- <-; easy].
  destruct (metaff (c_ff c)) eqn:M; cbn [negb]; [|intros H; injection H as <- <-; easy].
  destruct (F (c_ff c)) as [p|]; [|discriminate]. destruct (Req_EM_T (c_w c) 0) as [Z|N]; [intros H; injection H as <- <-; easy|].
  destruct (PlumedModel.mtd_update _ _ _ p _ _ _) as [[p' w]|]; [|discriminate]. intros H. injection H as <- <-. cbn [comps nbeads].
  destruct (Req_EM_T w 0); [easy|]. split; [now apply lower_filled|]. split; [intros; apply lower_weight|reflexivity].
Qed.
(** A step leaves the conserved quantity as it is if the weights of the components of each force field with
    metadynamics add up to one, whatever PLUMED does. *)
Theorem metad_econs metaff F s F' s' : filled (comps s) -> (forall k, metaff k = true -> weight_of k (comps s) = 1) ->
  metad_step metaff F s = Some (F', s') -> econs s' = econs s.
Proof.
  unfold PlumedModel.metad_step. generalize (seq 0 (List.length (comps s))) as l. intros l. revert F s. induction l as [|ik l IH]; intros F s FL W H.
  - cbn in H. now injection H as <- <-.
  - cbn [PlumedModel.metad_loop] in H. destruct (metad_one metaff (F, s) ik) as [[F1 s1]|] eqn:E; [|discriminate].
    destruct (metad_one_keeps _ _ _ _ _ _ FL E) as (FL1 & W1 & _). destruct (metad_one_econs _ _ _ _ _ _ FL E) as (k & w & EC & MK & _).
    rewrite (IH F1 s1 FL1); [|intros j J; rewrite W1; auto|exact H]. rewrite EC. destruct (Req_dec w 0) as [->|N]; [ring|]. rewrite W by auto. ring.
Qed.

(** ** Cached potentials (C236) *)
(** With one component at the centroid: after the step the cached potential is that of the new bias. *)
Theorem metad_cache metaff F nb k w u e q len h r p : metaff k = true -> F k = Some p -> w <> 0 -> compute_work X p = true ->
  (forall i, (i < len)%nat -> lastq X p i = q i) -> u = bias (px X p) (penergy X p) (ppos X p) (pbox X p) ->
  exists F' s' p', metad_step metaff F (Sys nb [Comp k w [u]] e q len h r) = Some (F', s') /\ F' k = Some p' /\
    comps s' = [Comp k w [bias (px X p') (penergy X p') (ppos X p') (pbox X p')]] /\ pstep X p' = S (pstep X p) /\
    px X p' = update (px X p) (S (pstep X p)) (penergy X p) (ppos X p) (pbox X p).
Proof.
  intros M FK W C L U. destruct (update_work p len q h L C) as (p' & E & PS & PX & _ & A & B & D & _).
  unfold PlumedModel.metad_step. cbn [comps List.length seq PlumedModel.metad_loop]. unfold PlumedModel.metad_one. cbn [comps nth_error c_ff]. rewrite M, FK. cbn [negb c_w].
  destruct (Req_EM_T w 0) as [Z|_]; [easy|]. cbn [qlen centroid hcell nbeads eens rest]. rewrite E. do 2 eexists. exists p'. split; [reflexivity|].
  split; [unfold set_field; now rewrite Nat.eqb_refl|]. split; [|auto]. cbn [comps]. rewrite A, B, D.
  destruct (Req_EM_T _ 0) as [Z|N]; [do 3 f_equal; lra|]. cbn [map]. unfold lower. cbn [c_ff c_w c_u map]. rewrite Nat.eqb_refl. repeat f_equal. rewrite U. ring.
Qed.
End Evaluate.
Print Assumptions evaluate_force.
Print Assumptions evaluate_refuses.
Print Assumptions evaluate_virial.
Print Assumptions evaluate_virial_energy.
Print Assumptions update_work.
Print Assumptions update_moved.
Print Assumptions updates_work.
Print Assumptions no_work.
Print Assumptions metad_one_econs.
Print Assumptions metad_econs.
Print Assumptions metad_cache.

(** A bias of one dimension: the first coordinate is the collective variable, hills of height and width one. *)
Definition case_bias (l : list (R * R)) (_ : option R) (q : arr) (_ : ten) : R := hills 1 l (q 0%nat).
Definition case_update (l : list (R * R)) (_ : nat) (_ : option R) (q : arr) (_ : ten) : list (R * R) := (1, q 0%nat) :: l.
Definition case_ffp (cw : bool) (sf : option physical) : ffp (list (R * R)) :=
  Ffp _ [] None zero_arr zero_ten 0 zero_arr 1 sf cw.
Lemma hill_top : gauss 1 1 0 0 = 1.
Proof. unfold gauss. replace (- (0 - 0) ^ 2 / (2 * 1 ^ 2)) with 0 by field. rewrite exp_0. ring. Qed.
(** The virial with the energy as a collective variable: PLUMED that does nothing, and a virial of two. *)
Theorem evaluate_virial_refuted : exists s p pos cell s' a,
  sysforce unit s = Some p /\
  evaluate unit (fun _ _ _ _ => 0) (fun _ _ _ _ _ => zero_arr) (fun _ _ _ _ _ => zero_ten) s 3 pos cell = Some (s', a) /\
  (forall i, a_f a i = 0) /\ a_v a = 0 /\ p_vir p 0%nat 0%nat = 1 /\ a_vir a 0%nat 0%nat = 2.
Proof.
  set (p := Physical 1 zero_arr (fun _ _ => 1)). exists (Ffp unit tt None zero_arr zero_ten 0 zero_arr 1 (Some p) true), p, zero_arr, zero_ten.
  do 2 eexists. split; [reflexivity|]. split; [reflexivity|]. cbn. unfold zero_arr, zero_ten. repeat split; intros; ring.
Qed.
Print Assumptions evaluate_virial_refuted.
(** Two updates at the same place, each adding a hill. *)
Example updates_case : exists s', updates _ case_bias case_update 2 (case_ffp true None) 3 zero_arr zero_ten = Some (s', - 2) /\ pstep _ s' = 2%nat.
Proof.
  destruct (update_work _ case_bias case_update (case_ffp true None) 3 zero_arr zero_ten (fun _ _ => eq_refl) eq_refl) as (s1 & E1 & P1 & X1 & Q1 & A1 & B1 & D1 & C1).
  destruct (update_work _ case_bias case_update s1 3 zero_arr zero_ten (fun i _ => f_equal (fun f => f i) Q1) C1) as (s2 & E2 & P2 & X2 & _).
  exists s2. cbn [updates]. rewrite E1, E2. split; [|now rewrite P2, P1]. do 2 f_equal. rewrite X2, X1, A1, B1, D1.
  unfold case_bias, case_update, hills. cbn [case_ffp px ppos penergy pbox map fst snd Rsuml]. unfold zero_arr. rewrite hill_top. ring.
Qed.
(** What is meant to be a full update at other positions is an error. *)
Theorem update_moved_refuted : exists pos, mtd_update _ case_bias case_update (case_ffp true None) 3 pos zero_ten = None.
Proof.
  exists (fun _ => 1). apply (update_moved _ _ _ _ _ _ _ 0%nat); [lia|]. cbn. unfold zero_arr. rewrite Rabs_left by lra. lra.
Qed.
Print Assumptions update_moved_refuted.
Lemma case_step cw w nb : w <> 0 ->
  exists F' s' p', metad_step _ case_bias case_update (Nat.eqb 0) (fun _ => Some (case_ffp cw None)) (Sys nb [Comp 0 w [0]] 0 zero_arr 3 zero_ten 0) = Some (F', s') /\
    F' 0%nat = Some p' /\ px _ p' = [(1, 0)] /\ eens s' = (if cw then - INR nb else 0) /\ comps s' = [Comp 0 w [if cw then 1 else 0]] /\ nbeads s' = nb /\ rest s' = 0.
Proof.
  intros W. unfold metad_step. cbn [comps List.length seq metad_loop]. unfold metad_one. cbn [comps nth_error c_ff Nat.eqb negb c_w].
  destruct (Req_EM_T w 0) as [Z|_]; [easy|]. cbn [qlen centroid hcell nbeads eens rest]. unfold mtd_update.
  cbn [case_ffp lastq px penergy ppos pbox pstep compute_work natoms sysforce].
  destruct (Rlt_dec _ _) as [N|_].
  { exfalso. rewrite Rsum_0 in N by (intros; unfold zero_arr; ring). rewrite sqrt_0 in N. assert (0 < / 10 ^ 10) by (apply Rinv_0_lt_compat; lra). lra. }
  do 3 eexists. split; [reflexivity|]. split; [reflexivity|]. split; [reflexivity|].
  assert (B1 : case_bias (case_update [] 1 None zero_arr zero_ten) None zero_arr zero_ten = 1).
  { unfold case_bias, case_update, hills. cbn [map fst snd Rsuml]. unfold zero_arr. rewrite hill_top. ring. }
  assert (B0 : case_bias [] None zero_arr zero_ten = 0) by reflexivity.
  cbn [eens comps nbeads rest]. destruct cw.
  - rewrite B1, B0. split; [ring|]. split; [|now split]. destruct (Req_EM_T (0 - 1) 0) as [Z|_]; [lra|]. cbn [map]. unfold lower. cbn. repeat f_equal. ring.
  - split; [ring|]. split; [|now split]. destruct (Req_EM_T (0 - 0) 0) as [_|N]; [reflexivity|]. exfalso. apply N. ring.
Qed.
(** With weight one the case keeps its conserved quantity; with weight one half it does not. *)
Example metad_case : exists F' s', metad_step _ case_bias case_update (Nat.eqb 0) (fun _ => Some (case_ffp true None)) (Sys 4 [Comp 0 1 [0]] 0 zero_arr 3 zero_ten 0) = Some (F', s') /\
  econs s' = 0 /\ eens s' = - 4 /\ bias_pot s' = 4.
Proof.
  destruct (case_step true 1 4 ltac:(lra)) as (F' & s' & p' & E & _ & _ & EE & CC & NN & RR). exists F', s'. split; [exact E|].
  assert (EC : econs s' = 0).
  { etransitivity; [refine (metad_econs _ _ _ _ _ _ _ _ _ _ E)|].
    - intros c [<-|[]]; discriminate.
    - intros [|k] K; [cbn; lra|discriminate].
    - unfold econs, bias_pot, comp_pot. cbn. field. }
  split; [exact EC|]. rewrite EE. unfold econs in EC. rewrite EE, RR in EC. cbn in *. lra.
Qed.
(** A bias with weight one half: the correction is that of the whole bias. *)
Theorem metad_weight_refuted : exists F s F' s', filled (comps s) /\ metad_step _ case_bias case_update (Nat.eqb 0) F s = Some (F', s') /\
  comps s = [Comp 0 (1 / 2) [0]] /\ econs s = 0 /\ econs s' = - 1 / 2.
Proof.
  destruct (case_step true (1 / 2) 1 ltac:(lra)) as (F' & s' & p' & E & _ & _ & EE & CC & NN & RR).
  do 2 eexists. exists F', s'. split; [|split; [exact E|]]; [intros c [<-|[]]; discriminate|]. split; [reflexivity|]. unfold econs, bias_pot, comp_pot.
  rewrite CC, NN, RR, EE. cbn. lra.
Qed.
Print Assumptions metad_weight_refuted.
(** Without compute_work the cached potential stays that of the old bias. *)
Theorem metad_cache_refuted : exists F s F' s' p', metad_step _ case_bias case_update (Nat.eqb 0) F s = Some (F', s') /\ F' 0%nat = Some p' /\
  comps s' = [Comp 0 1 [0]] /\ case_bias (px _ p') None zero_arr zero_ten = 1.
Proof.
  destruct (case_step false 1 1 ltac:(lra)) as (F' & s' & p' & E & FK & PX & EE & CC & NN & RR). do 2 eexists. exists F', s', p'. split; [exact E|].
  split; [exact FK|]. split; [exact CC|]. rewrite PX. unfold case_bias, hills. cbn [map fst snd Rsuml]. unfold zero_arr. rewrite hill_top. ring.
Qed.
Print Assumptions metad_cache_refuted.
(** Two systems with the same PLUMED, at the same place: after the step of both, the potential cached for the first
    lacks the hill of the second, and PLUMED has counted two steps. *)
Theorem metad_shared_refuted : exists F s F1 s1 F2 s2 p, metad_step _ case_bias case_update (Nat.eqb 0) F s = Some (F1, s1) /\
  metad_step _ case_bias case_update (Nat.eqb 0) F1 (Sys 1 [Comp 0 1 [1]] 0 zero_arr 3 zero_ten 0) = Some (F2, s2) /\ F2 0%nat = Some p /\
  comps s1 = [Comp 0 1 [1]] /\ case_bias (px _ p) None zero_arr zero_ten = 2 /\ pstep _ p = 2%nat.
Proof.
  destruct (metad_cache _ case_bias case_update (Nat.eqb 0) (fun _ => Some (case_ffp true None)) 1 0 1 0 0 zero_arr 3 zero_ten 0 (case_ffp true None))
    as (F1 & s1 & p1 & E1 & FK1 & CC1 & PS1 & PX1); try reflexivity; [lra|].
  assert (U : forall l, case_bias (case_update l 0 None zero_arr zero_ten) None zero_arr zero_ten = 1 + case_bias l None zero_arr zero_ten).
  { intros l. unfold case_bias, case_update, hills. cbn [map fst snd Rsuml]. unfold zero_arr. rewrite hill_top. reflexivity. }
  pose proof E1 as E1'. unfold metad_step in E1'. cbn [comps List.length seq metad_loop] in E1'. unfold metad_one in E1'. cbn [comps nth_error c_ff Nat.eqb negb c_w] in E1'.
  destruct (Req_EM_T 1 0); [lra|]. cbn [qlen centroid hcell nbeads eens rest] in E1'.
  destruct (update_work _ case_bias case_update (case_ffp true None) 3 zero_arr zero_ten (fun _ _ => eq_refl) eq_refl) as (q1 & M1 & Q1 & X1 & L1 & A1 & B1 & D1 & C1).
  rewrite M1 in E1'. injection E1' as EF ES. rewrite <- EF in FK1. unfold set_field in FK1. cbn in FK1. injection FK1 as <-.
  assert (V1 : case_bias (px _ q1) None zero_arr zero_ten = 1) by (rewrite X1; change (1 + 0 = 1 + 0 + 0) || idtac; cbn [case_ffp px penergy ppos pbox pstep]; etransitivity; [apply (U [])|]; unfold case_bias, hills; cbn; ring).
  destruct (metad_cache _ case_bias case_update (Nat.eqb 0) F1 1 0 1 1 0 zero_arr 3 zero_ten 0 q1) as (F2 & s2 & p2 & E2 & FK2 & CC2 & PS2 & PX2).
  - reflexivity.
  - rewrite <- EF. reflexivity.
  - lra.
  - exact C1.
  - intros i _. now rewrite L1.
  - rewrite A1, B1, D1. symmetry. exact V1.
  - do 2 eexists. exists F1, s1, F2, s2, p2. split; [exact E1|]. split; [exact E2|]. split; [exact FK2|]. split.
    + rewrite CC1, A1, B1, D1. cbn [case_ffp penergy ppos pbox]. now rewrite V1.
    + split; [|rewrite PS2, Q1; reflexivity]. rewrite PX2, A1, B1, D1. cbn [case_ffp penergy ppos pbox]. etransitivity; [apply (U (px _ q1))|]. rewrite V1. ring.
Qed.
Print Assumptions metad_shared_refuted.
(** The force of a hill is zero at its centre, so the cached force is right: the derivative of the bias there does
    not change. *)
Theorem hill_force sg l h c d : sg <> 0 -> derivable_pt_lim (hills sg l) c d -> derivable_pt_lim (hills sg ((h, c) :: l)) c d.
Proof.
  intros N D.
  assert (G : derivable_pt_lim (gauss h sg c) c 0).
  { unfold gauss. replace 0 with (h * (exp (- (c - c) ^ 2 / (2 * sg ^ 2)) * 0)) by ring. apply derivable_pt_lim_scal.
    apply (derivable_pt_lim_comp (fun s => - (s - c) ^ 2 / (2 * sg ^ 2)) exp c 0).
    - intros eps E. exists (mkposreal (eps * (2 * sg ^ 2)) ltac:(assert (0 < sg ^ 2) by nra; nra)). intros x X H. cbn in H.
      replace ((- (c + x - c) ^ 2 / (2 * sg ^ 2) - - (c - c) ^ 2 / (2 * sg ^ 2)) / x - 0) with (- x / (2 * sg ^ 2)) by (field; easy).
      assert (P : 0 < 2 * sg ^ 2) by (assert (0 < sg ^ 2) by nra; nra). unfold Rdiv. rewrite Rabs_mult, Rabs_Ropp, (Rabs_pos_eq (/ _)) by (left; now apply Rinv_0_lt_compat).
      apply (Rmult_lt_reg_r (2 * sg ^ 2)); [exact P|]. rewrite Rmult_assoc, Rinv_l by lra. cbn in *. lra.
    - apply derivable_pt_lim_exp. }
  replace d with (0 + d) by ring. exact (derivable_pt_lim_plus _ _ _ _ _ G D).
Qed.
Print Assumptions hill_force.
Example hill_case : derivable_pt_lim (hills 1 [(1, 0)]) 0 0.
Proof. apply hill_force; [lra|]. intros e E. exists (mkposreal 1 ltac:(lra)). intros h N _. cbn. rewrite Rminus_0_r. unfold Rdiv. rewrite Rminus_0_r, Rmult_0_l, Rabs_R0. exact E. Qed.

(** ** Energy as a collective variable, and extras (C237) *)
Theorem bind_one X nb p (s s' : ffp X) : bind_energy X [(nb, p)] s = Some s' -> (nb <= 1)%nat /\ sysforce X s' = Some p.
Proof. cbn [bind_energy]. destruct (Nat.ltb 1 nb) eqn:L; [discriminate|]. apply Nat.ltb_ge in L. intros H. injection H as <-. now split. Qed.
Theorem bind_beads X l (s s' : ffp X) nb p : bind_energy X l s = Some s' -> In (nb, p) l -> (nb <= 1)%nat.
Proof.
  revert s. induction l as [|[a b] l IH]; intros s; [intros _ []|]. cbn [bind_energy]. destruct (Nat.ltb 1 a) eqn:L; [discriminate|]. apply Nat.ltb_ge in L.
  intros H [E|I]; [injection E as -> ->; exact L|]. exact (IH _ H I).
Qed.
(** With two systems the forces given to PLUMED are those of the last one, for both. *)
Theorem bind_refuted : exists (s s' : ffp unit) p1 p2, bind_energy unit [(1%nat, p1); (1%nat, p2)] s = Some s' /\
  sysforce unit s' = Some p2 /\ p_pot p1 <> p_pot p2.
Proof.
  exists (Ffp unit tt None zero_arr zero_ten 0 zero_arr 1 None true). eexists. exists (Physical 1 zero_arr zero_ten), (Physical 2 zero_arr zero_ten).
  split; [reflexivity|]. split; [reflexivity|]. cbn. lra.
Qed.
Print Assumptions bind_one.
Print Assumptions bind_beads.
Print Assumptions bind_refuted.
(** Variables are accepted exactly if they are vectors, of any length. *)
Theorem extras_vectors rank shape : extra_init rank shape = Accepted shape <-> rank = 1%nat.
Proof.
  unfold extra_init. destruct rank as [|[|r]]; [split; discriminate|now split|]. cbn. split; [discriminate|lia].
Qed.
Theorem extras_refuted : extra_init 0 [] = Index_error /\ extra_init 1 [5%nat] = Accepted [5%nat].
Proof. now split. Qed.
Print Assumptions extras_vectors.
Print Assumptions extras_refuted.
