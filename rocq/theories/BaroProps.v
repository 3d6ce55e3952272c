(** * Theorems of record about the barostats (C121-C126) *)
From Coq Require Import List Arith Lia Reals Lra FunctionalExtensionality String.
From Verif Require Import RSum CellModel BaroModel BaroIso BaroRate BaroCons BaroCell.
From Verif Require ConstrJac MTSModel MTSSched.
Import ListNotations.
Open Scope R_scope.

(** ** A system to show the hypotheses on: one atom, two beads, in a trap along x *)
Definition y2 : sys := Sys 2 1 (fun _ => 1) 2 1 1 1 []
  (fun _ q _ b c => if Nat.eqb c 0 then - q b 0%nat else 0)
  (fun _ q _ i j => if Nat.eqb i 0 then - (q 0%nat 0%nat * q 0%nat j + q 1%nat 0%nat * q 1%nat j) else 0) None.
Definition E2 (l : nat) (q : nat -> vec) (h : mat3) : R := 1 / 2 * q 0%nat 0%nat ^ 2 / 1 + 1 / 2 * q 1%nat 0%nat ^ 2 / 1.
Lemma y2_consistent s : all_consistent y2 E2 s.
Proof.
  intros l Hl q h A d X Hq Hh HA. unfold E2.
  assert (Q : forall b, (b < 2)%nat -> q 0 b 0%nat = pos s b 0%nat /\ derivable_pt_lim (fun t => q t b 0%nat) 0 (d b 0%nat)) by (intros b Hb; apply Hq; cbn; lia).
  destruct (Q 0%nat ltac:(lia)) as [Q0 D0]. destruct (Q 1%nat ltac:(lia)) as [Q1 D1].
  eapply derivable_eq; cycle 1; [apply d_plus; apply d_sq_of; eassumption|].
  cbn beta. rewrite Q0, Q1. cbn [y2 nb natoms Rsum]. unfold fall, fbias, bvir. cbn [y2 bias force vir]. cbn. field.
Qed.
Definition s2 (h : mat3) : atm := Atm (fun c => INR c) (fun _ => 1) (fun b c => if Nat.eqb b 0 then 1 else - 1) (fun b c => if Nat.eqb b 0 then 1 else - 1) h.
Definition u2 (h : mat3) (t : R) : (nat -> vec) * (nat -> vec) := (fun b c => dq (s2 h) b c + t * dp (s2 h) b c, dp (s2 h)).
Lemma u2_free h x : (forall t, dq (x t) = fst (u2 h t) /\ dp (x t) = snd (u2 h t)) -> free_motion y2 (fun _ => 0) (s2 h) x.
Proof.
  intros H. split.
  - intros b c _ _. apply (derivable_ext (fun t => dq (s2 h) b c + (dp (s2 h) b c * t + (0 * t ^ 2 + 0 * t ^ 3)))); [intros t; destruct (H t) as [-> _]; cbn; ring|].
    eapply derivable_eq; [|apply d_poly3]. unfold m3. cbn. field.
  - apply (derivable_ext (fun _ => kin_dev y2 (dp (s2 h)) + 0)); [intros t; destruct (H t) as [_ ->]; reflexivity|]. apply d_const.
Qed.
Example bzp_conserved_case : exists (rate : nat -> R) drift,
  let s := s2 (rows3 2 1 0 0 3 0 0 0 4) in let u := u2 (rows3 2 1 0 0 3 0 0 0 4) in
    (forall l, (l < 1)%nat -> derivable_pt_lim (fun t => bzp_cons y2 E2 (fun _ => 0) (npt_pstep y2 l t (s, 1))) 0 (rate l)) /\
    derivable_pt_lim (fun t => bzp_cons y2 E2 (fun _ => 0) (bzp_drift y2 s 1 u t, 1)) 0 drift /\
    Rsum 1 rate + drift = 0.
Proof.
  set (h := rows3 2 1 0 0 3 0 0 0 4). apply (bzp_conserved y2 E2 (fun _ => 0) (s2 h) 1 (u2 h)); try (cbn; lra); try (cbn; lia).
  - reflexivity.
  - unfold vol, det_ut3x3. cbn. lra.
  - intros c _. cbn. ring.
  - apply y2_consistent.
  - apply functional_extensionality. intros b. apply functional_extensionality. intros c. cbn. ring.
  - apply (u2_free h). intros t. unfold bzp_drift, bzp_qcstep. cbn [y2 wmass]. destruct (Req_EM_T (1 / 1) 0) as [E|_]; [exfalso; lra|]. cbn. split; reflexivity.
Qed.
(** A step of the integrator has a result, and can be run backwards. *)
Definition s0 : atm := Atm (fun _ => 0) (fun _ => 0) (fun _ _ => 0) (fun b c => if Nat.eqb b 0 then 1 else - 1) eye3.
Definition free2 (u : (nat -> vec) * (nat -> vec)) := (fun b c => fst u b c + snd u b c, snd u).
Example npt_step_reversible_case : exists x', run y2 (fun _ => 1) 1 free2 (fun _ _ _ _ => 0) (fun _ _ _ _ => 0) 0 (MTSModel.nve_step [1%nat]) (s0, 1) = Some x' /\
  run y2 (fun _ => 1) 1 free2 (fun _ _ _ _ => 0) (fun _ _ _ _ => 0) 0 (MTSModel.nve_step [1%nat]) (flip x') = Some (flip (s0, 1)).
Proof.
  assert (P1 : bzp_pstep y2 0 1 s0 1 = 1).
  { rewrite bzp_pstep_eq by (unfold vol, det_ut3x3; cbn; lra). unfold tr_static, trace, kstress, fall, fbias, bvir, dotm, fc, mean, pos, vol, det_ut3x3, eye3.
    cbn [innermost y2 nlev Nat.sub Nat.eqb nb natoms Rsum]. unfold innermost. cbn [innermost y2 nlev Nat.sub Nat.eqb nb natoms Rsum]. cbn. field. }
  assert (H : exists x', run y2 (fun _ => 1) 1 free2 (fun _ _ _ _ => 0) (fun _ _ _ _ => 0) 0 (MTSModel.nve_step [1%nat]) (s0, 1) = Some x').
  { eexists. change (MTSModel.nve_step [1%nat]) with [MTSModel.P 0; MTSModel.Con; MTSModel.A; MTSModel.A; MTSModel.P 0; MTSModel.Con].
    cbn [run exec1 bind]. unfold npt_pstep at 1. rewrite P1. unfold astep at 1. cbn [fst snd]. unfold bzp_qcstep. cbn [y2 wmass].
    destruct (Req_EM_T (1 / 1) 0) as [E|_]; [exfalso; lra|]. cbn [free2 fst snd]. unfold astep, bzp_qcstep. cbn [bind fst snd y2 wmass].
    destruct (Req_EM_T (1 / 1) 0) as [E|_]; [exfalso; lra|]. cbn [free2 bind fst snd]. reflexivity. }
  destruct H as [x' H]. exists x'. split; [exact H|]. revert H. apply npt_step_reversible.
  - intros u. unfold free2, neg2. cbn. f_equal. apply functional_extensionality. intros b. apply functional_extensionality. intros c. ring.
  - intros l. split; [reflexivity|]. split; [cbn; lia|]. right. left. reflexivity.
  - split; [discriminate|]. intros k [<-|[]]. lia.
  - unfold vol, det_ut3x3. cbn. lra.
Qed.

(** ** Where the isotropic barostat is wrong *)
(** With a bias and one level of forces the substep is not reversible: the forces that
    change the kinetic energy of the centroid along the kick leave the bias out. *)
Definition y_bias : sys := Sys 1 1 (fun _ => 1) 1 1 1 1 [] (fun _ _ _ _ _ => 0) (fun _ _ _ _ _ => 0) (Some (fun _ _ _ _ => 1, fun _ _ _ _ => 0)).
Theorem npt_pstep_bias_refuted : exists y s P dt, frozen y = [] /\ vol s > 0 /\
  npt_pstep y 0 dt (flip (npt_pstep y 0 dt (s, P))) <> flip (s, P).
Proof.
  exists y_bias, (Atm (fun _ => 0) (fun _ => 0) (fun _ _ => 0) (fun _ _ => 0) eye3), 0, 1.
  split; [reflexivity|]. split; [unfold vol, det_ut3x3; cbn; lra|]. intros H. apply (f_equal snd) in H. revert H.
  unfold flip, npt_pstep. cbn [fst snd]. rewrite !bzp_pstep_eq by (unfold vol, det_ut3x3; cbn; lra).
  unfold tr_static, trace, kstress, bvir, dotm, fc, mean, pos, vol, det_ut3x3, eye3, innermost.
  cbn [y_bias nlev Nat.sub Nat.eqb nb natoms bias force vir kT pext]. unfold kick, kicked, flip_atm, mean, is_frozen, fall, fbias, m3. cbn. intros H. field_simplify in H. lra.
Qed.
(** With fixed atoms two steps are not one of twice the length, and the fixed atoms move. *)
Definition y_fix : sys := Sys 1 1 (fun _ => 1) 1 1 1 1 [0; 1; 2]%nat (fun _ _ _ _ _ => 1) (fun _ _ _ _ _ => 0) None.
Theorem npt_pstep_fixed_refuted : exists y s P t u, bias y = None /\ vol s > 0 /\
  npt_pstep y 0 u (npt_pstep y 0 t (s, P)) <> npt_pstep y 0 (t + u) (s, P).
Proof.
  exists y_fix, (Atm (fun _ => 0) (fun _ => 0) (fun _ _ => 0) (fun _ _ => 0) eye3), 0, 1, 1.
  split; [reflexivity|]. split; [unfold vol, det_ut3x3; cbn; lra|]. intros H. apply (f_equal snd) in H. revert H.
  unfold npt_pstep. cbn [fst snd]. rewrite !bzp_pstep_eq by (unfold vol, det_ut3x3; cbn; lra).
  unfold tr_static, trace, kstress, bvir, dotm, fc, mean, pos, vol, det_ut3x3, eye3, innermost.
  cbn [y_fix nlev Nat.sub Nat.eqb nb natoms bias force vir kT pext]. unfold kick, kicked, mean, is_frozen, fall, fbias, m3. cbn. intros H. field_simplify in H. lra.
Qed.
Theorem fixed_atoms_move_refuted : exists y s P dt s', In 0%nat (frozen y) /\ pc s 0%nat = 0 /\ bzp_qcstep y dt s P = Some s' /\ qc s' 0%nat <> qc s 0%nat.
Proof.
  exists y_fix, (Atm (fun _ => 1) (fun _ => 0) (fun _ _ => 0) (fun _ _ => 0) eye3), 1, 1. unfold bzp_qcstep. cbn [y_fix wmass].
  destruct (Req_EM_T (1 / 1) 0) as [E|_]; [exfalso; lra|]. eexists. split; [now left|]. split; [reflexivity|]. split; [reflexivity|]. cbn.
  intros H. assert (X : 1 < exp (1 / 1 * 1)) by (apply exp_ineq1' || (rewrite <- exp_0 at 1; apply exp_increasing; lra)). unfold Rdiv in *. lra.
Qed.

(** ** The anisotropic barostats *)
Lemma rates_unique y E usp pi pot hmask volc eig inv s p e u rate drift :
  frozen y = [] -> (0 < nb y)%nat -> (0 < nlev y)%nat -> pos_diag (hh s) -> upper (hh s) -> upper p ->
  centred y (dp s) -> all_consistent y E s -> works y pi pot ->
  diag0 (vel y p) = false -> eig_ok eig inv (vel y p) ->
  fst (u 0) = dq s -> free_motion y usp s (cell_drift y eig inv s p u) ->
  (forall l, (l < nlev y)%nat -> derivable_pt_lim (fun t => let x := cell_kick y pi hmask volc l t s (p, e) in cell_cons y E usp pot (fst x) (snd x)) 0 (rate l)) ->
  derivable_pt_lim (fun t => cell_cons y E usp pot (cell_drift y eig inv s p u t) (p, e)) 0 drift ->
  Rsum (nlev y) rate + drift = defect y hmask (vel y p) s.
Proof.
  intros H1 H2 H3 H4 H5 H6 H7 H8 H9 H10 H11 H12 H13 Dl Dd.
  destruct (cell_rate y E usp pi pot hmask volc eig inv s p e u H1 H2 H3 H4 H5 H6 H7 H8 H9 H10 H11 H12 H13) as (r' & d' & Dl' & Dd' & <-).
  f_equal; [apply Rsum_ext; intros l Hl; exact (uniqueness_limite _ _ _ _ (Dl l Hl) (Dl' l Hl))|exact (uniqueness_limite _ _ _ _ Dd Dd')].
Qed.
(** Without fixed entries the quantity is conserved, to first order, when the velocity of the
    cell is diagonal. *)
Theorem cell_conserved_partial y E usp pi pot hmask volc eig inv s p e u :
  frozen y = [] -> (0 < nb y)%nat -> (0 < nlev y)%nat -> pos_diag (hh s) -> upper (hh s) -> upper p ->
  centred y (dp s) -> all_consistent y E s -> works y pi pot ->
  diag0 (vel y p) = false -> eig_ok eig inv (vel y p) ->
  fst (u 0) = dq s -> free_motion y usp s (cell_drift y eig inv s p u) ->
  mask_from_fix [] = Some hmask -> p 0%nat 1%nat = 0 -> p 0%nat 2%nat = 0 -> p 1%nat 2%nat = 0 ->
  exists (rate : nat -> R) (drift : R),
    (forall l, (l < nlev y)%nat -> derivable_pt_lim (fun t => let x := cell_kick y pi hmask volc l t s (p, e) in cell_cons y E usp pot (fst x) (snd x)) 0 (rate l)) /\
    derivable_pt_lim (fun t => cell_cons y E usp pot (cell_drift y eig inv s p u t) (p, e)) 0 drift /\
    Rsum (nlev y) rate + drift = 0.
Proof.
  intros H1 H2 H3 H4 H5 H6 H7 H8 H9 H10 H11 H12 H13 Hm P1 P2 P3.
  destruct (cell_rate y E usp pi pot hmask volc eig inv s p e u H1 H2 H3 H4 H5 H6 H7 H8 H9 H10 H11 H12 H13) as (r' & d' & Dl' & Dd' & Eq).
  exists r', d'. split; [exact Dl'|]. split; [exact Dd'|]. rewrite Eq. injection Hm as <-. unfold defect, offdiag, vel. rewrite P1, P2, P3. unfold Lmat. cbn [Nat.eqb].
  rewrite Rsum_0; [unfold Rdiv; ring|]. intros l _. unfold Rdiv. ring.
Qed.
(** Numerical eigenvectors of a matrix with distinct eigenvalues. *)
Definition eigU (U iU : mat3) : mat3 -> vec * mat3 := fun v => (fun i => v i i, U).
Definition U_shear : mat3 := rows3 1 1 0 0 1 0 0 0 1.
Definition iU_shear : mat3 := rows3 1 (- 1) 0 0 1 0 0 0 1.
Definition v_shear : mat3 := rows3 1 1 0 0 2 0 0 0 3.
Lemma shear_eig y : wmass y = 1 -> diag0 (vel y v_shear) = false /\ eig_ok (eigU U_shear iU_shear) (fun _ => iU_shear) (vel y v_shear) /\
  forall i k, (i < 3)%nat -> (k < 3)%nat -> prod3 v_shear U_shear i k = v_shear k k * U_shear i k.
Proof.
  intros W. split; [|split].
  - unfold diag0, vel. rewrite W. destruct (Req_EM_T (v_shear 0%nat 0%nat / 1) 0) as [E|_]; [|reflexivity]. exfalso. revert E. cbn. lra.
  - intros i j Hi Hj. unfold eigU, prod3, eye3. destruct i as [|[|[|i]]]; [..|lia]; destruct j as [|[|[|j]]]; try lia; cbn; ring.
  - intros i j Hi Hj. unfold prod3. destruct i as [|[|[|i]]]; [..|lia]; destruct j as [|[|[|j]]]; try lia; cbn; ring.
Qed.
(** One free particle moving along the diagonal, in a cell that shears: the off-diagonal
    kinetic stress is missing. *)
Definition y_gas (n : nat) : sys := Sys n 1 (fun _ => 1) 1 1 1 1 [] (fun _ _ _ _ _ => 0) (fun _ _ _ _ _ => 0) None.
Lemma gas_consistent n s : all_consistent (y_gas n) (fun _ _ _ => 0) s.
Proof.
  intros l Hl q h A d X _ _ _. eapply derivable_eq; [|apply d_const]. unfold fall, fbias, bvir. cbn [y_gas bias force vir].
  rewrite (Rsum_0 (nb _)), (Rsum_0 3); [ring| |].
  - intros i _. apply Rsum_0. intros; ring.
  - intros b _. apply Rsum_0. intros a _. apply Rsum_0. intros; ring.
Qed.
Definition s_gas : atm := Atm (fun _ => 0) (fun _ => 1) (fun _ _ => 0) (fun _ _ => 0) eye3.
Definition not_conserved (y : sys) (E : nat -> (nat -> vec) -> mat3 -> R) (fix_ : list string) (s : atm) (p : mat3) : Prop :=
  exists hmask, mask_from_fix fix_ = Some hmask /\ (forall i j, (i < 3)%nat -> (j < 3)%nat -> p i j * hmask i j = p i j) /\
  all_consistent y E s /\ centred y (dp s) /\ frozen y = [] /\ pos_diag (hh s) /\ upper (hh s) /\ upper p /\
  (exists eig inv, eig_ok eig inv (vel y p)) /\
  forall eig inv usp u rate drift e, eig_ok eig inv (vel y p) -> fst (u 0) = dq s -> free_motion y usp s (cell_drift y eig inv s p u) ->
  (forall l, (l < nlev y)%nat -> derivable_pt_lim (fun t => let x := cell_kick y (pi_mtk y) hmask false l t s (p, e) in cell_cons y E usp (pot_mtk y) (fst x) (snd x)) 0 (rate l)) ->
  derivable_pt_lim (fun t => cell_cons y E usp (pot_mtk y) (cell_drift y eig inv s p u t) (p, e)) 0 drift ->
  Rsum (nlev y) rate + drift <> 0.
Ltac idx := intros i j Hi Hj; destruct i as [|[|[|i]]]; [..|lia]; destruct j as [|[|[|j]]]; try lia; cbn; ring.
Theorem cell_shear_refuted : exists y E s p, nb y = 1%nat /\ not_conserved y E [] s p.
Proof.
  exists (y_gas 1), (fun _ _ _ => 0), s_gas, v_shear. split; [reflexivity|]. exists (fun _ _ => 1). split; [reflexivity|]. split; [idx|].
  split; [apply gas_consistent|]. split; [intros c _; cbn; ring|]. split; [reflexivity|].
  assert (Hd : pos_diag (hh s_gas)) by (repeat split; cbn; lra). assert (Hu : upper (hh s_gas)) by (repeat split; reflexivity).
  assert (Hp : upper v_shear) by (repeat split; reflexivity). split; [exact Hd|]. split; [exact Hu|]. split; [exact Hp|].
  destruct (shear_eig (y_gas 1) eq_refl) as (D0 & Ok & _). split; [do 2 eexists; exact Ok|].
  intros eig inv usp u rate drift e Ok' U0 Fm Dl Dd.
  rewrite (rates_unique (y_gas 1) (fun _ _ _ => 0) usp (pi_mtk (y_gas 1)) (pot_mtk (y_gas 1)) (fun _ _ => 1) false eig inv s_gas v_shear e u rate drift); try assumption; try reflexivity; try (cbn; lia).
  - unfold defect, offdiag, kin_tensor, dev_vir, vel, Lmat, fall, fbias. cbn. intros H. field_simplify in H. lra.
  - intros c _. cbn. ring.
  - apply gas_consistent.
  - apply mtk_works.
Qed.
(** With the off-diagonal entries of the cell held fixed: the logarithm of the cell in the conserved quantity is
    not adapted to the number of moving entries. *)
Definition mask_off : mat3 := fold_left set0 [(0, 1); (0, 2); (1, 2)]%nat (fun _ _ => 1).
Definition U_id : mat3 := rows3 1 0 0 0 1 0 0 0 1.
Theorem cell_hfix_refuted : exists y E s p, nb y = 1%nat /\ not_conserved y E ["offdiagonal"%string] s p.
Proof.
  exists (y_gas 1), (fun _ _ _ => 0), s_gas, U_id. split; [reflexivity|]. exists mask_off. split; [reflexivity|]. split; [idx|].
  split; [apply gas_consistent|]. split; [intros c _; cbn; ring|]. split; [reflexivity|].
  assert (Hd : pos_diag (hh s_gas)) by (repeat split; cbn; lra). assert (Hu : upper (hh s_gas)) by (repeat split; reflexivity).
  assert (Hp : upper U_id) by (repeat split; reflexivity). split; [exact Hd|]. split; [exact Hu|]. split; [exact Hp|].
  assert (D0 : diag0 (vel (y_gas 1) U_id) = false) by (unfold diag0, vel; cbn; destruct (Req_EM_T (1 / 1) 0); [lra|reflexivity]).
  split; [exists (eigU U_id U_id), (fun _ => U_id); unfold eig_ok, eigU, prod3, eye3; idx|].
  intros eig inv usp u rate drift e Ok' U0 Fm Dl Dd.
  rewrite (rates_unique (y_gas 1) (fun _ _ _ => 0) usp (pi_mtk (y_gas 1)) (pot_mtk (y_gas 1)) mask_off false eig inv s_gas U_id e u rate drift); try assumption; try reflexivity; try (cbn; lia).
  - unfold defect, offdiag, kin_tensor, dev_vir, vel, Lmat, fall, fbias. cbn. intros H. field_simplify in H. lra.
  - intros c _. cbn. ring.
  - apply gas_consistent.
  - apply mtk_works.
Qed.
(** Two beads: the virial of the deviations is taken with its indices exchanged. *)
Definition s_two : atm := Atm (fun _ => 0) (fun _ => 0) (fun b c => if Nat.eqb b 0 then 1 else - 1) (fun _ _ => 0) eye3.
Theorem cell_transposed_refuted : exists y E s p, nb y = 2%nat /\ (forall c, pc s c = 0) /\ not_conserved y E [] s p.
Proof.
  exists y2, E2, s_two, v_shear. split; [reflexivity|]. split; [reflexivity|]. exists (fun _ _ => 1). split; [reflexivity|]. split; [idx|].
  split; [apply y2_consistent|]. split; [intros c _; cbn; ring|]. split; [reflexivity|].
  assert (Hd : pos_diag (hh s_two)) by (repeat split; cbn; lra). assert (Hu : upper (hh s_two)) by (repeat split; reflexivity).
  assert (Hp : upper v_shear) by (repeat split; reflexivity). split; [exact Hd|]. split; [exact Hu|]. split; [exact Hp|].
  destruct (shear_eig y2 eq_refl) as (D0 & Ok & _). split; [do 2 eexists; exact Ok|].
  intros eig inv usp u rate drift e Ok' U0 Fm Dl Dd.
  rewrite (rates_unique y2 E2 usp (pi_mtk y2) (pot_mtk y2) (fun _ _ => 1) false eig inv s_two v_shear e u rate drift); try assumption; try reflexivity; try (cbn; lia).
  - unfold defect, offdiag, kin_tensor, dev_vir, vel, Lmat, fall, fbias, pos. cbn. intros H. field_simplify in H. lra.
  - intros c _. cbn. ring.
  - apply y2_consistent.
  - apply mtk_works.
Qed.
(** The hypotheses of [cell_conserved_partial] can be met. *)
Example cell_conserved_case : exists (rate : nat -> R) drift,
  let h := rows3 2 1 0 0 3 0 0 0 4 in let s := s2 h in
    (forall l, (l < 1)%nat -> derivable_pt_lim (fun t => let x := cell_kick y2 (pi_mtk y2) (fun _ _ => 1) false l t s (U_id, 0) in cell_cons y2 E2 (fun _ => 0) (pot_mtk y2) (fst x) (snd x)) 0 (rate l)) /\
    derivable_pt_lim (fun t => cell_cons y2 E2 (fun _ => 0) (pot_mtk y2) (cell_drift y2 (eigU U_id U_id) (fun _ => U_id) s U_id (u2 h) t) (U_id, 0)) 0 drift /\
    Rsum 1 rate + drift = 0.
Proof.
  set (h := rows3 2 1 0 0 3 0 0 0 4).
  apply (cell_conserved_partial y2 E2 (fun _ => 0) (pi_mtk y2) (pot_mtk y2) (fun _ _ => 1) false (eigU U_id U_id) (fun _ => U_id) (s2 h) U_id 0 (u2 h)); try reflexivity; try (cbn; lia).
  - repeat split; cbn; lra.
  - repeat split; reflexivity.
  - repeat split; reflexivity.
  - intros c _. cbn. ring.
  - apply y2_consistent.
  - apply mtk_works.
  - unfold diag0, vel. cbn. destruct (Req_EM_T (1 / 1) 0); [lra|reflexivity].
  - unfold eig_ok, eigU, prod3, eye3. idx.
  - apply functional_extensionality. intros b. apply functional_extensionality. intros c. cbn. ring.
  - apply (u2_free h). intros t. split; reflexivity.
Qed.
(** And those of the work of the elastic energy. *)
Example rgb_works_case : works y2 (pi_rgb (rows3 2 1 0 0 3 0 0 0 4) (rows3 1 2 0 2 1 0 0 0 3)) (pot_rgb y2 (rows3 2 1 0 0 3 0 0 0 4) (rows3 1 2 0 2 1 0 0 0 3)).
Proof. apply rgb_works; [repeat split; cbn; lra|]. intros i j Hi Hj. destruct i as [|[|[|i]]]; [..|lia]; destruct j as [|[|[|j]]]; try lia; reflexivity. Qed.
(** At the reference cell the external stress of BaroRGB is the one given. *)
Theorem pi_rgb_reference s sigma : pos_diag (hh s) -> upper (hh s) -> forall i j, (i < 3)%nat -> (j < 3)%nat -> pi_rgb (hh s) sigma s i j = sigma i j.
Proof.
  intros (H0 & H1 & H2) (U1 & U2 & U3) i j Hi Hj.
  assert (F : forall i j, (i < 3)%nat -> (j < 3)%nat -> strain_F (hh s) s i j = eye3 i j).
  { intros a b Ha Hb. unfold strain_F, prod3, invert_ut3x3, rows3, eye3. destruct a as [|[|[|a]]]; [..|lia]; destruct b as [|[|[|b]]]; try lia; cbn [Rsum Nat.eqb];
      rewrite ?U1, ?U2, ?U3; field; repeat split; lra. }
  unfold pi_rgb. assert (V : vol s <> 0) by (unfold vol, det_ut3x3; repeat apply Rmult_integral_contrapositive_currified; lra).
  change (det_ut3x3 (hh s)) with (vol s). unfold prod3. cbn [Rsum]. rewrite !F by lia. unfold eye3.
  destruct i as [|[|[|i]]]; [..|lia]; destruct j as [|[|[|j]]]; try lia; cbn [Nat.eqb]; field; exact V.
Qed.
(** With an external stress that is not symmetric the quantity is not conserved. *)
Theorem rgb_asymmetric_refuted : exists y h0 sigma, pos_diag h0 /\ ~ works y (pi_rgb h0 sigma) (pot_rgb y h0 sigma).
Proof.
  exists (y_gas 1), eye3, (rows3 0 1 0 0 0 0 0 0 0). split; [repeat split; cbn; lra|]. intros (_ & W).
  destruct (shear_eig (y_gas 1) eq_refl) as (D0 & Ok & _).
  pose proof (cell_drifts (y_gas 1) _ _ s_gas v_shear (fun _ => (fun _ _ => 0, fun _ _ => 0)) D0 Ok eq_refl) as D.
  set (v := vel (y_gas 1) v_shear) in *. set (x := cell_drift (y_gas 1) (eigU U_shear iU_shear) (fun _ => iU_shear) s_gas v_shear (fun _ => (fun _ _ => 0, fun _ _ => 0))) in *.
  assert (X : derivable_pt_lim (fun t => pot_rgb (y_gas 1) eye3 (rows3 0 1 0 0 0 0 0 0 0) (x t)) 0 (1 / 2)).
  { destruct (dr_h _ _ _ _ D) as (A & Hh & HA).
    apply (derivable_ext (fun t => 1 / 2 * (A t 0%nat 1%nat * A t 0%nat 0%nat + A t 1%nat 1%nat * A t 1%nat 0%nat + A t 2%nat 1%nat * A t 2%nat 0%nat))).
    { intros t. unfold pot_rgb, trace, prod3, eps_rgb, strain_F, prod3. cbn [Rsum rows3]. rewrite !Hh by lia. unfold prod3, invert_ut3x3, eye3, det_ut3x3, rows3, s_gas, y_gas. cbn. unfold eye3. cbn. field. }
    eapply derivable_eq; cycle 1.
    - apply d_scal. apply d_plus; [apply d_plus|]; apply d_mult; apply HA; lia.
    - cbn beta. destruct (HA 0%nat 0%nat ltac:(lia) ltac:(lia)) as [-> _]. destruct (HA 0%nat 1%nat ltac:(lia) ltac:(lia)) as [-> _].
      destruct (HA 1%nat 0%nat ltac:(lia) ltac:(lia)) as [-> _]. destruct (HA 1%nat 1%nat ltac:(lia) ltac:(lia)) as [-> _].
      destruct (HA 2%nat 0%nat ltac:(lia) ltac:(lia)) as [-> _]. destruct (HA 2%nat 1%nat ltac:(lia) ltac:(lia)) as [-> _].
      unfold v, vel, eye3. cbn. field. }
  assert (Y := W s_gas v x ltac:(unfold vol, det_ut3x3; cbn; lra) ltac:(repeat split; reflexivity) ltac:(unfold v, vel; repeat split; cbn; field) D).
  pose proof (uniqueness_limite _ _ _ _ X Y) as Z. revert Z. unfold contract, triu, v, vel, pi_rgb, prod3, strain_F, prod3, invert_ut3x3, vol, det_ut3x3, eye3. cbn. unfold eye3. cbn. intros Z. field_simplify in Z. lra.
Qed.

Print Assumptions bzp_qcstep_flow.
Print Assumptions bzp_qcstep_group.
Print Assumptions npt_pstep_group.
Print Assumptions npt_step_reversible.
Print Assumptions sc_npt_step_reversible.
Print Assumptions scbzp_is_bzp.
Print Assumptions bzp_conserved.
Print Assumptions cell_rate.
Print Assumptions cell_conserved_partial.
Print Assumptions cell_shear_refuted.
Print Assumptions cell_hfix_refuted.
Print Assumptions cell_transposed_refuted.
Print Assumptions rgb_works.
Print Assumptions rgb_asymmetric_refuted.
