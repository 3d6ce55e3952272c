(** * Theorems of record: the dynamics driven by an electric field *)
From Coq Require Import List Arith Lia Reals Lra Bool String.
From Verif Require Import RSum Ortho NMModel NMProofs NMProps SpringModel SpringProofs SpringProps MTSModel MTSSched MTSProofs MTSProps DrivModel.
Import ListNotations.
Open Scope list_scope.
Open Scope R_scope.

(** ** C182: the field *)
Theorem envelope_pulse e s t : 0 < peak e -> sigma e = Some s -> envelope e t = exp (- (t - peak e) ^ 2 / (2 * s ^ 2)).
Proof.
  intros P Q. unfold envelope, envelope_on. rewrite Q. destruct (Rlt_dec 0 (peak e)); [|easy]. f_equal.
  unfold Rdiv. rewrite !Rpow_mult_distr. destruct (Req_dec s 0) as [->|Hs].
  - rewrite Rinv_0. replace (2 * 0 ^ 2) with 0 by ring. rewrite Rinv_0. ring.
  - field. easy.
Qed.
Theorem envelope_wave e t : sigma e = None -> envelope e t = 1.
Proof. intros Q. unfold envelope, envelope_on. rewrite Q. now destruct (Rlt_dec 0 (peak e)). Qed.
Theorem envelope_range e t : 0 < envelope e t <= 1.
Proof.
  unfold envelope. destruct (envelope_on e); [|lra]. destruct (sigma e) as [s|]; [|lra]. split; [apply exp_pos|].
  apply Rle_trans with (exp 0); [|rewrite exp_0; lra]. assert (H : - (1 / 2) * ((t - peak e) / s) ^ 2 <= 0) by (pose proof (pow2_ge_0 ((t - peak e) / s)); lra).
  destruct H as [H|H]; [left; now apply exp_increasing | right; f_equal; exact H].
Qed.
Theorem envelope_peak e t : envelope e t <= envelope e (peak e) /\ envelope e (peak e) = 1.
Proof.
  assert (H : envelope e (peak e) = 1).
  { unfold envelope. destruct (envelope_on e); [|easy]. destruct (sigma e) as [s|]; [|easy]. transitivity (exp 0); [f_equal; unfold Rdiv; ring|apply exp_0]. }
  rewrite H. split; [apply envelope_range|easy].
Qed.
Theorem envelope_symmetric e x : envelope e (peak e - x) = envelope e (peak e + x).
Proof.
  unfold envelope. destruct (envelope_on e); [|easy]. destruct (sigma e) as [s|]; [|easy]. f_equal. unfold Rdiv. ring.
Qed.
(** A pulse switches on and off: it grows before its peak and fades after it. *)
Theorem envelope_fades e s t t' : 0 < peak e -> sigma e = Some s -> s <> 0 -> Rabs (t - peak e) < Rabs (t' - peak e) -> envelope e t' < envelope e t.
Proof.
  intros P Q Hs H. rewrite !(envelope_pulse e s) by easy. apply exp_increasing. assert (K : (t - peak e) ^ 2 < (t' - peak e) ^ 2).
  { rewrite <- !Rsqr_pow2. now apply Rsqr_lt_abs_1. }
  assert (S2 : 0 < 2 * s ^ 2) by (pose proof (Rsqr_pos_lt s Hs) as X; rewrite Rsqr_pow2 in X; lra). unfold Rdiv. apply Rmult_lt_compat_r; [now apply Rinv_0_lt_compat|lra].
Qed.
Theorem field_bounded e t k : Rabs (efield_at e t k) <= Rabs (amp e k).
Proof.
  unfold efield_at. destruct (enabled e); [|rewrite Rabs_R0; apply Rabs_pos]. rewrite !Rabs_mult.
  rewrite <- (Rmult_1_l (Rabs (amp e k))) at 2. apply Rmult_le_compat_r; [apply Rabs_pos|].
  destruct (envelope_range e t) as [A B]. rewrite (Rabs_pos_eq (envelope e t)) by lra.
  assert (C : Rabs (ecos e t) <= 1) by (unfold ecos; apply Rabs_le; apply COS_bound).
  rewrite <- (Rmult_1_r 1). apply Rmult_le_compat; try lra. apply Rabs_pos.
Qed.
Theorem field_wave e t k : enabled e = true -> sigma e = None -> efield_at e t k = amp e k * cos (freq e * t + phase e).
Proof. intros A B. unfold efield_at. rewrite A, envelope_wave by easy. unfold ecos. ring. Qed.
Theorem field_period e t k (m : nat) : sigma e = None -> freq e <> 0 -> efield_at e (t + INR m * (2 * PI / freq e)) k = efield_at e t k.
Proof.
  intros B F. unfold efield_at. destruct (enabled e); [|easy]. rewrite !envelope_wave by easy. unfold ecos.
  replace (freq e * (t + INR m * (2 * PI / freq e)) + phase e) with (freq e * t + phase e + 2 * INR m * PI) by (field; easy).
  now rewrite cos_period.
Qed.
Theorem field_off e t k : enabled e = false -> efield_at e t k = 0.
Proof. intros A. unfold efield_at. now rewrite A. Qed.
(** Only the driven ensembles have a field. *)
Theorem field_enabled_spec x : field_enabled x = true <-> x = "eda-nve"%string \/ x = "eda-nvt"%string.
Proof. unfold field_enabled. rewrite orb_true_iff, !String.eqb_eq. reflexivity. Qed.
(** A list of times gives the fields of the times. *)
Theorem field_of_list e ts : List.length (efield_list e ts) = List.length ts /\
  forall i k, (i < List.length ts)%nat -> nth i (efield_list e ts) (fun _ => 0) k = efield_at e (nth i ts 0) k.
Proof.
  unfold efield_list, efield_at. destruct (enabled e).
  - rewrite map_map. split; [apply map_length|]. intros i k Hi.
    rewrite (nth_indep _ _ ((fun t k => ecos e t * envelope e t * amp e k) 0)) by now rewrite map_length.
    rewrite (map_nth (fun t k => ecos e t * envelope e t * amp e k)). reflexivity.
  - rewrite map_length, seq_length. split; [easy|]. intros i k Hi. now rewrite (map_nth (fun (_ : nat) (_ : nat) => 0) (seq 0 (List.length ts)) 0%nat).
Qed.
(** A width given together with a peak at the start of the simulation is not used. *)
Theorem envelope_refuted : exists e s t, enabled e = true /\ sigma e = Some s /\ 0 < s /\
  (exists k, efield_at e t k <> amp e k * cos (freq e * t + phase e) * exp (- (t - peak e) ^ 2 / (2 * s ^ 2))).
Proof.
  exists (EField (fun _ => 1) 0 0 0 (Some 1) true), 1, 1. split; [easy|]. split; [easy|]. split; [lra|]. exists 0%nat.
  unfold efield_at, envelope, envelope_on, ecos. cbn [enabled peak sigma amp freq phase]. destruct (Rlt_dec 0 0) as [H|H]; [lra|].
  replace (0 * 1 + 0) with 0 by ring. rewrite cos_0. intros Q. assert (L : exp (- (1 - 0) ^ 2 / (2 * 1 ^ 2)) < 1).
  { apply Rlt_le_trans with (exp 0); [apply exp_increasing; lra|rewrite exp_0; lra]. } lra.
Qed.
Example field_case : let e := EField (fun k => INR k) 2 1 5 (Some 3) true in
  enabled e = true /\ 0 < peak e /\ efield_at e 5 2%nat = 2 * cos 11 /\ envelope e 8 = exp (- (1 / 2)).
Proof.
  cbn zeta. split; [easy|]. split; [cbn; lra|]. split.
  - unfold efield_at. cbn [enabled]. match goal with |- _ * envelope ?e _ * _ = _ => pose proof (proj2 (envelope_peak e 0)) as H; cbn [peak] in H; rewrite H end.
    unfold ecos. cbn [freq phase amp]. replace (INR 2) with 2 by (cbn; lra). replace (2 * 5 + 1) with 11 by ring. ring.
  - rewrite (envelope_pulse _ 3) by (cbn; try easy; lra). cbn [peak]. f_equal. lra.
Qed.

(** ** The kicks of the field *)
(** The force of the field, of the charges at the positions. *)
Section V.
Variable y : sys.
Notation r := (ringp y).
Notation n := (nbeads r).
Hypothesis V : valid y.
Let Hr : sound r := v_ring y V.
Variable bec : mat -> tensor.
Hypothesis bec_beads : forall q q' b c k, agree n q q' -> (b < n)%nat -> bec q b c k = bec q' b c k.
Variable E : R -> nat -> R.
Definition half : R := tstep_dt y / 2 / INR (nth 0 (nmts y) 1%nat).
Lemma pdt0 : nth 0 (get_pdt (tstep_dt y) (nmts y)) 0 = half.
Proof.
  unfold half. destruct (v_nts y V) as [A B]. destruct (nmts y) as [|k l]; [easy|]. unfold get_pdt. cbn [pdt_loop map nth].
  pose proof (lt_0_INR k (B k (or_introl eq_refl))). field. lra.
Qed.
Definition field_force (t : R) (q : mat) : mat := fun b c => Rsum 3 (fun k => bec q b c k * E t k).
Lemma eda_field t q b c : eda_forces (bec q) (E t) b c = field_force t q b c.
Proof. unfold eda_forces, field_force, qe. apply Rsum_ext. intros. ring. Qed.
Lemma field_agree t q q' : agree n q q' -> agree n (field_force t q) (field_force t q').
Proof. intros H b c Hb. apply Rsum_ext. intros k _. now rewrite (bec_beads q q') by easy. Qed.
Definition field_kick (t : R) (s : st) : st := pconstraints y (mkSt (fun b c => sp s b c + eda_forces (bec (sq s)) (E t) b c * nth 0 (get_pdt (tstep_dt y) (nmts y)) 0) (sq s) (eens s)).

(** ** C183 *)
(** Only the outermost level may be asked for the field, and there it never fails. *)
Theorem td_levels t l s : td_pstep y bec E t l s = if (l =? 0)%nat then Val (field_kick t s) else ValueError.
Proof. unfold td_pstep. destruct l; reflexivity. Qed.
Lemma driven_val mid t s : driven_step y bec E mid (t, s) = Val (t + tstep_dt y, field_kick (t + tstep_dt y) (mid (field_kick t s))).
Proof. reflexivity. Qed.
(** The time of the simulation after any number of steps, and the step never fails. *)
Theorem driven_time mid k : forall t s, exists s', driven_steps k y bec E mid (t, s) = Val (t + INR k * tstep_dt y, s').
Proof.
  induction k as [|k IH]; intros t s.
  - exists s. cbn. do 2 f_equal. lra.
  - cbn [driven_steps]. rewrite driven_val. cbn [bind]. destruct (IH (t + tstep_dt y) (field_kick (t + tstep_dt y) (mid (field_kick t s)))) as [s' Q].
    exists s'. rewrite Q. do 2 f_equal. rewrite S_INR. ring.
Qed.

(** The kick of a state that satisfies the constraints. *)
Definition fproj (t : R) (q : mat) : mat := fun b c =>
  field_force t q b c - (if fixcom y then m3 r c * (total_momentum y (field_force t q) (c mod 3) / Mnb y) else 0).
Lemma kick_p t s b c : constrained y s -> (b < n)%nat ->
  sp (field_kick t s) b c = if is_frozen y c then 0 else sp s b c + fproj t (sq s) b c * half.
Proof.
  intros [H1 H2] Hb. unfold field_kick. rewrite con_p, pdt0 by easy. destruct (is_frozen y c) eqn:Q; [easy|]. cbn [sp].
  unfold fproj. destruct (fixcom y) eqn:F.
  - rewrite vcom_total, (total_ext y _ (fun b c => sp s b c + field_force t (sq s) b c * half)).
    + rewrite total_plus, H1, eda_field by (try easy; apply Nat.mod_upper_bound; lia). unfold Rdiv. ring.
    + intros b' c' _. now rewrite eda_field.
  - rewrite eda_field. ring.
Qed.
Lemma kick_q t s : sq (field_kick t s) = sq s.
Proof. unfold field_kick. now rewrite con_q. Qed.
Lemma fproj_agree t q q' : agree n q q' -> agree n (fproj t q) (fproj t q').
Proof.
  intros H b c Hb. unfold fproj. rewrite (field_agree t q q' H b c Hb). destruct (fixcom y); [|easy]. do 3 f_equal. apply total_ext. now apply field_agree.
Qed.

(** ** C184 *)
Lemma kick_constrained t s : constrained y s -> constrained y (field_kick t s).
Proof.
  intros H. split.
  - intros F k Hk. unfold field_kick. apply no_total_momentum; try easy; [apply (v_atoms y V) | now apply (v_one y V)].
  - intros c Hc b Hb. rewrite kick_p, kick_q by easy. rewrite (proj2 (frozen_in y c) Hc). split; [easy|]. now apply H.
Qed.
Lemma kick_eqs t s s' : constrained y s -> constrained y s' -> eqs y s s' -> eqs y (field_kick t s) (field_kick t s').
Proof.
  intros H H' [A B]. split; intros b c Hb.
  - rewrite !kick_p by easy. destruct (is_frozen y c); [easy|]. rewrite A, (fproj_agree t (sq s) (sq s') B b c Hb) by easy. reflexivity.
  - rewrite !kick_q. now apply B.
Qed.
Lemma kick_back t s : constrained y s -> eqs y (field_kick t (flip (field_kick t s))) (flip s).
Proof.
  intros H. pose proof (kick_constrained t s H) as K. split; intros b c Hb.
  - rewrite kick_p by (try easy; now apply constrained_flip). cbn [flip sp sq]. rewrite kick_q, kick_p by easy. destruct (is_frozen y c) eqn:Q; [|ring].
    rewrite (proj1 (proj2 H c (proj1 (frozen_in y c) Q) b Hb)). ring.
  - now rewrite kick_q; cbn [flip sq]; rewrite kick_q.
Qed.
End V.

(** What one driven step does, with the plain step of area MTS in the middle. *)
Definition driven_nve (y : sys) (bec : mat -> tensor) (E : R -> nat -> R) (t : R) (s : st) : st :=
  field_kick y bec E (t + tstep_dt y) (nve y (field_kick y bec E t s)).
Definition of_beads (y : sys) (bec : mat -> tensor) : Prop :=
  forall q q' b c k, agree (nbeads (ringp y)) q q' -> (b < nbeads (ringp y))%nat -> bec q b c k = bec q' b c k.
Theorem driven_step_is y bec E t s : driven_step y bec E (nve y) (t, s) = Val (t + tstep_dt y, driven_nve y bec E t s).
Proof. reflexivity. Qed.
Theorem driven_keeps_constraints y bec E t s : valid y -> constrained y s -> constrained y (driven_nve y bec E t s).
Proof.
  intros V H. apply kick_constrained; [easy|]. apply nve_step_keeps_constraints; [easy|]. now apply kick_constrained.
Qed.
(** The way back: the momenta reversed, and the field at the beginning of the step back is the one
    at the end of the step. *)
Theorem driven_reversible y bec E E' t t' s : valid y -> of_beads y bec -> constrained y s ->
  (forall k, E' t' k = E (t + tstep_dt y) k) -> (forall k, E' (t' + tstep_dt y) k = E t k) ->
  eqs y (flip (driven_nve y bec E' t' (flip (driven_nve y bec E t s)))) s.
Proof.
  intros V B H E1 E2. set (s1 := field_kick y bec E t s). set (s2 := nve y s1). set (s3 := field_kick y bec E (t + tstep_dt y) s2).
  assert (H1 : constrained y s1) by now apply kick_constrained.
  assert (H2 : constrained y s2) by now apply nve_step_keeps_constraints.
  assert (H3 : constrained y s3) by now apply kick_constrained.
  assert (X : forall t0 t1 F F' a, (forall k, F' t1 k = F t0 k) -> constrained y a -> eqs y (field_kick y bec F' t1 a) (field_kick y bec F t0 a)).
  { intros t0 t1 F F' a Q Ha. assert (FF : forall q b c, field_force bec F' t1 q b c = field_force bec F t0 q b c) by (intros; apply Rsum_ext; intros; now rewrite Q).
    split; intros b c Hb; [|now rewrite !kick_q]. rewrite !kick_p by easy. destruct (is_frozen y c); [easy|]. unfold fproj. rewrite FF. destruct (fixcom y); [|easy].
    rewrite (total_ext y _ (field_force bec F t0 (sq a))); [easy|]. intros b' c' _. apply FF. }
  assert (Y : eqs y (field_kick y bec E' t' (flip s3)) (flip s2)).
  { apply (eqs_trans y _ (field_kick y bec E (t + tstep_dt y) (flip s3))); [apply X; [easy|now apply constrained_flip]|]. now apply kick_back. }
  assert (Hc : constrained y (field_kick y bec E' t' (flip s3))) by (apply kick_constrained; [easy|]; now apply constrained_flip).
  assert (Z : eqs y (nve y (field_kick y bec E' t' (flip s3))) (flip s1)).
  { apply (eqs_trans y _ (nve y (flip s2))).
    - rewrite !nve_run by easy. apply run_eqs; try easy; [apply respa_plain|now apply constrained_flip].
    - pose proof (flip_eqs y _ _ (nve_step_reversible y V s1 H1)) as [P1 P2].
      split; intros b c Hb; [rewrite <- P1 by easy; cbn [flip sp]; unfold s2; ring | rewrite <- P2 by easy; reflexivity]. }
  assert (W : eqs y (field_kick y bec E' (t' + tstep_dt y) (nve y (field_kick y bec E' t' (flip s3)))) (flip s)).
  { apply (eqs_trans y _ (field_kick y bec E (t) (nve y (field_kick y bec E' t' (flip s3))))); [apply X; [easy|now apply nve_step_keeps_constraints]|].
    apply (eqs_trans y _ (field_kick y bec E t (flip s1))); [|now apply kick_back].
    apply kick_eqs; try easy; [now apply nve_step_keeps_constraints|now apply constrained_flip]. }
  pose proof (flip_eqs y _ _ W) as [P1 P2]. split; intros b c Hb; [unfold driven_nve; fold s1 s2 s3; rewrite P1 by easy; cbn [flip sp]; ring|].
  unfold driven_nve; fold s1 s2 s3. rewrite P2 by easy. reflexivity.
Qed.
(** Frozen coordinates do not move, whatever the field. *)
Theorem driven_frozen y bec E t s b c : valid y -> constrained y s -> In c (frozen y) -> (b < nbeads (ringp y))%nat ->
  sq (driven_nve y bec E t s) b c = sq s b c /\ sp (driven_nve y bec E t s) b c = 0.
Proof.
  intros V H Hc Hb. split; [|now apply (driven_keeps_constraints y bec E t s)]. unfold driven_nve. rewrite kick_q.
  destruct (frozen_atoms_stay y V 1 (field_kick y bec E t s) b c) as [A _]; try easy; [now apply kick_constrained|]. cbn [Nat.iter nat_rect] in A. rewrite A. now rewrite kick_q.
Qed.

(** *** The impulse *)
Theorem driven_impulse y bec E t s k : valid y -> fixcom y = false -> frozen y = [] -> no_net_force y -> (k < 3)%nat ->
  let q' := sq (driven_nve y bec E t s) in
  total_momentum y (sp (driven_nve y bec E t s)) k = total_momentum y (sp s) k
  + tstep_dt y / INR (nth 0 (nmts y) 1%nat) * (1 / 2) * (total_momentum y (field_force bec E t (sq s)) k + total_momentum y (field_force bec E (t + tstep_dt y) q') k).
Proof.
  intros V F Z N Hk q'. assert (T : forall t s, total_momentum y (sp (field_kick y bec E t s)) k = total_momentum y (sp s) k + total_momentum y (field_force bec E t (sq s)) k * half y).
  { intros t0 s0. rewrite <- total_plus. apply total_ext. assert (C : constrained y s0) by (split; [congruence|]; rewrite Z; easy).
    intros b c Hb. rewrite kick_p by easy. unfold is_frozen, fproj. rewrite Z, F. cbn [existsb]. ring. }
  unfold driven_nve at 1. rewrite T, (momentum_conserved y V), T by easy. replace (sq (nve y (field_kick y bec E t s))) with q' by (unfold q', driven_nve; now rewrite kick_q).
  unfold half, Rdiv. ring.
Qed.
(** With one kick of the outer level per half step this is the trapezium rule for the impulse of
    the field. *)
Theorem driven_impulse_trapezium y bec E t s k : valid y -> nth 0 (nmts y) 1%nat = 1%nat -> fixcom y = false -> frozen y = [] -> no_net_force y -> (k < 3)%nat ->
  total_momentum y (sp (driven_nve y bec E t s)) k - total_momentum y (sp s) k =
  tstep_dt y * ((total_momentum y (field_force bec E t (sq s)) k + total_momentum y (field_force bec E (t + tstep_dt y) (sq (driven_nve y bec E t s))) k) / 2).
Proof. intros V O F Z N Hk. rewrite driven_impulse by easy. rewrite O. cbn [INR]. field. Qed.
(** With more than one it is not: a constant field gives too small an impulse. *)
Definition y_two : sys := mkSys (mkRing 1 1 [] (fun _ => 1) 1 (fun _ => 1) (fun _ => 1)) Exact false [] (fun _ _ _ _ => 0) None [2]%nat 1 None.
Lemma y_two_valid : valid y_two.
Proof.
  split; cbn [y_two ringp prop fixcom frozen mts_f bias_f nmts tstep_dt sc]; try easy; try lra.
  - split; cbn [nbeads natoms openp mass wn nmf o_nmf]; try lia; try (intros; lra); try easy. constructor.
  - cbn; lia.
  - split; [easy|]. intros k [<-|[]]; lia.
Qed.
Lemma y_two_no_net : no_net_force y_two.
Proof. intros l q k _. unfold total_momentum, gforce. cbn. ring. Qed.
Definition diag_bec : mat -> tensor := fun _ _ c k => if (c mod 3 =? k)%nat then 1 else 0.
Theorem impulse_refuted : exists y bec E s, valid y /\ of_beads y bec /\ no_net_force y /\ fixcom y = false /\ frozen y = [] /\
  (forall t q, total_momentum y (field_force bec E t q) 0%nat = 1) /\
  total_momentum y (sp (driven_nve y bec E 0 s)) 0%nat - total_momentum y (sp s) 0%nat = tstep_dt y / 2.
Proof.
  exists y_two, diag_bec, (fun _ k => if (k =? 0)%nat then 1 else 0), (mkSt (fun _ _ => 0) (fun _ _ => 0) 0).
  assert (T : forall t q, total_momentum y_two (field_force diag_bec (fun _ k => if (k =? 0)%nat then 1 else 0) t q) 0%nat = 1).
  { intros t q. unfold total_momentum, field_force, diag_bec. cbn. ring. }
  split; [exact y_two_valid|]. split; [easy|]. split; [exact y_two_no_net|]. split; [easy|]. split; [easy|]. split; [exact T|].
  rewrite driven_impulse by first [exact y_two_valid|exact y_two_no_net|lia|easy]. rewrite !T. cbn [y_two nmts nth tstep_dt INR]. field.
Qed.

(** ** C185: the work of the field *)
(** Kinetic energy of the beads. *)
Definition kinetic (r : ring) (p : mat) : R := Rsum (nbeads r) (fun b => Rsum (3 * natoms r) (fun c => p b c ^ 2 / (2 * m3 r c))).
(** A kick changes it by the field times the mean of the derivatives of the dipole before and
    after. *)
Theorem kick_work (r : ring) (Z : tensor) (E : nat -> R) (h : R) (p : mat) : sound r ->
  let p' : mat := fun b c => p b c + eda_forces Z E b c * h in
  kinetic r p' - kinetic r p = h * Rsum (nbeads r) (fun b => Rsum 3 (fun k => E k *
    ((dipole_dtime (3 * natoms r) Z p (m3 r) b k + dipole_dtime (3 * natoms r) Z p' (m3 r) b k) / 2))).
Proof.
  intros S p'. unfold kinetic. rewrite <- Rsum_minus, <- Rsum_scal. apply Rsum_ext. intros b _. rewrite <- Rsum_minus.
  transitivity (h * Rsum (3 * natoms r) (fun c => Rsum 3 (fun k => E k * (Z b c k * ((p b c + p' b c) / (2 * m3 r c)))))).
  - rewrite <- Rsum_scal. apply Rsum_ext. intros c _. assert (M : 0 < m3 r c) by apply (s_m r S).
    rewrite (Rsum_ext 3 _ (fun k => Z b c k * E k * ((p b c + p' b c) / (2 * m3 r c)))) by (intros; ring). rewrite Rsum_scal_r.
    rewrite (Rsum_ext 3 _ (fun k => qe * Z b c k * E k)) by (intros; unfold qe; ring). change (Rsum 3 (fun k => qe * Z b c k * E k)) with (eda_forces Z E b c).
    unfold p'. field. lra.
  - f_equal. rewrite Rsum_swap. apply Rsum_ext. intros k _. unfold dipole_dtime, qe.
    rewrite Rsum_scal. f_equal. rewrite !Rmult_1_l, <- Rsum_plus. unfold Rdiv. rewrite <- Rsum_scal_r. apply Rsum_ext. intros c _.
    assert (M : 0 < m3 r c) by apply (s_m r S). field. lra.
Qed.
(** The derivative of the dipole is the one of a dipole linear in the positions. *)
Theorem dipole_rate n3 Z q p m b k h : 
  (Rsum n3 (fun c => Z b c k * (q b c + h * (p b c / m c))) - Rsum n3 (fun c => Z b c k * q b c)) = h * dipole_dtime n3 Z p m b k.
Proof.
  unfold dipole_dtime, qe. rewrite <- Rsum_minus, Rmult_1_l, <- Rsum_scal. apply Rsum_ext. intros. ring.
Qed.
(** Frozen coordinates are kicked by the field before they are stopped again, and that energy is
    entered into the conserved quantity although nothing moved. *)
Definition y_still : sys := mkSys (mkRing 1 1 [] (fun _ => 1) 1 (fun _ => 1) (fun _ => 1)) Exact false [0; 1; 2]%nat (fun _ _ _ _ => 0) None [1]%nat 2 None.
Lemma y_still_valid : valid y_still.
Proof.
  split; cbn [y_still ringp prop fixcom frozen mts_f bias_f nmts tstep_dt sc]; try easy; try lra.
  - split; cbn [nbeads natoms openp mass wn nmf o_nmf]; try lia; try (intros; lra); try easy. constructor.
  - cbn; lia.
  - split; [easy|]. intros k [<-|[]]; lia.
Qed.
Lemma y_still_kick s E t : (forall c, (c < 3)%nat -> sp s 0%nat c = 0) ->
  eens (field_kick y_still diag_bec E t s) = eens s + (E t 0%nat ^ 2 + E t 1%nat ^ 2 + E t 2%nat ^ 2) / 2.
Proof.
  intros H. set (y := y_still). pose proof (v_ring _ y_still_valid) as Hs. unfold field_kick. set (s1 := mkSt _ _ _).
  assert (P1 : forall c, (c < 3)%nat -> sp s1 0%nat c = E t c).
  { intros c Hc. unfold s1. cbn [sp]. rewrite H by easy. cbn [y y_still nmts tstep_dt get_pdt pdt_loop map nth]. unfold eda_forces, qe, diag_bec. cbn [Rsum].
    destruct c as [|[|[|c]]]; [| | |lia]; cbn; field. }
  pose proof (constraint_energy_accounted y Hs s1 ltac:(cbn; lia) eq_refl) as Q. specialize (Q ltac:(cbn [y y_still frozen]; repeat constructor; cbn; lia)).
  specialize (Q ltac:(cbn; lia) (or_introl eq_refl)).
  assert (X : forall x c, to_nm y x 0%nat c = x 0%nat c).
  { intros x c. unfold to_nm. rewrite nm_centroid by (cbn; lia). cbn [y y_still ringp nbeads Rsum]. change (INR 1) with 1. rewrite sqrt_1. field. }
  assert (K : forall p, get_kin (ringp y) (to_nm y p) = (p 0%nat 0%nat ^ 2 + p 0%nat 1%nat ^ 2 + p 0%nat 2%nat ^ 2) / 2).
  { intros p. rewrite kin_columns by exact Hs. change (nbeads (ringp y)) with 1%nat. change (3 * natoms (ringp y))%nat with 3%nat. cbn [Rsum]. rewrite !X. unfold m3. cbn [y y_still ringp mass nmf]. field. }
  rewrite !K in Q. rewrite !(frozen_at_rest y Hs s1 0), !P1 in Q by (cbn; lia). change (eens s1) with (eens s) in Q. lra.
Qed.
Lemma y_still_rest s : constrained y_still s -> forall c, (c < 3)%nat -> sp s 0%nat c = 0.
Proof. intros [_ H] c Hc. apply H; [|cbn; lia]. cbn. lia. Qed.
Theorem frozen_field_energy_refuted : exists y bec E s, valid y /\ of_beads y bec /\ constrained y s /\
  (forall c, (c < 3 * natoms (ringp y))%nat -> In c (frozen y)) /\ eens (driven_nve y bec E 0 s) = eens s + 1.
Proof.
  exists y_still, diag_bec, (fun _ k => if (k =? 0)%nat then 1 else 0), (mkSt (fun _ _ => 0) (fun _ _ => 0) 0). set (s := mkSt _ _ _). set (E := fun (_ : R) (k : nat) => _).
  assert (C : constrained y_still s) by (split; [easy|]; intros; easy).
  split; [exact y_still_valid|]. split; [easy|]. split; [exact C|]. split; [intros c Hc; cbn in *; lia|].
  assert (C1 : constrained y_still (field_kick y_still diag_bec E 0 s)) by (apply kick_constrained; [exact y_still_valid|exact C]).
  unfold driven_nve. rewrite y_still_kick by (apply y_still_rest, nve_step_keeps_constraints; [exact y_still_valid|exact C1]).
  rewrite constraints_do_no_work by (try easy; exact y_still_valid). rewrite y_still_kick by (now apply y_still_rest). unfold E, s. cbn. lra.
Qed.
Example driven_case : let E := fun t k => cos t * INR k in
  valid y_com /\ of_beads y_com diag_bec /\ constrained y_com (mkSt (fun b c => if (c =? 0)%nat then 1 else if (c =? 3)%nat then -1 else 0) (fun b c => INR (b + c)) 0) /\
  (forall k, (fun t k => E (- t) k) (- (0 + tstep_dt y_com)) k = E (0 + tstep_dt y_com) k) /\
  (forall k, (fun t k => E (- t) k) (- (0 + tstep_dt y_com) + tstep_dt y_com) k = E 0 k) /\ E 0 2%nat = 2.
Proof.
  cbn zeta. destruct com_case as (A & _ & B). split; [exact A|]. split; [easy|]. split; [exact B|]. split; [|split].
  - intros k. do 2 f_equal. ring.
  - intros k. do 2 f_equal. ring.
  - rewrite cos_0. cbn. lra.
Qed.

(** ** C186: the charges sent by the driver *)
Lemma within_spec thr N a : within thr N a = true <-> forall i k, (i < 3)%nat -> (k < 3)%nat -> Rabs (sum_rule N a i k) <= thr * INR N.
Proof.
  unfold within. rewrite forallb_forall. split.
  - intros H i k Hi Hk. specialize (H i ltac:(apply in_seq; lia)). rewrite forallb_forall in H. specialize (H k ltac:(apply in_seq; lia)).
    cbn beta in H. destruct (Rle_dec _ _); easy.
  - intros H i Hi. apply forallb_forall. intros k Hk. apply in_seq in Hi, Hk. cbn beta. destruct (Rle_dec _ _) as [|X]; [easy|]. elim X. apply H; lia.
Qed.
Definition good_array (N : nat) (thr : R) (a : bec_array) : Prop :=
  rows a = (3 * N)%nat /\ cols a = 3%nat /\ forall i k, (i < 3)%nat -> (k < 3)%nat -> Rabs (Rsum N (fun j => entry a (3 * j + i)%nat k) / INR N) <= thr * INR N.
Lemma driver_loop_spec N thr l : forall b Z, match driver_loop N thr l b Z with
  | Val Z' => Forall (good_array N thr) l /\ forall b' c k, Z' b' c k = if ((b <=? b') && (b' <? b + List.length l))%nat then entry (nth (b' - b) l (Bec 0 0 (fun _ _ => 0))) c k else Z b' c k
  | ValueError => ~ Forall (good_array N thr) l
  | IndexError => False end.
Proof.
  induction l as [|a l IH]; intros b Z; cbn [driver_loop List.length].
  - split; [constructor|]. intros. rewrite Nat.add_0_r. destruct (Nat.leb_spec b b'), (Nat.ltb_spec b' b); cbn; try easy; lia.
  - destruct (Nat.eqb_spec (rows a) (3 * N)) as [A|A]; cbn [negb]; [|intros H; inversion H as [|? ? [X _] _]; now apply A].
    destruct (Nat.eqb_spec (cols a) 3) as [B|B]; cbn [negb]; [|intros H; inversion H as [|? ? (_ & X & _) _]; now apply B].
    destruct (within thr N a) eqn:W; cbn [negb].
    + assert (G : good_array N thr a) by (split; [easy|]; split; [easy|]; now apply within_spec).
      specialize (IH (S b) (fun b' c k => if (b' =? b)%nat then entry a c k else Z b' c k)). destruct (driver_loop _ _ _ _ _) as [Z'| |]; [|intros H; inversion H; now apply IH|easy].
      destruct IH as [F Q]. split; [now constructor|]. intros b' c k. rewrite Q.
      destruct (Nat.leb_spec (S b) b'), (Nat.ltb_spec b' (S b + List.length l)), (Nat.leb_spec b b'), (Nat.ltb_spec b' (b + S (List.length l))), (Nat.eqb_spec b' b); cbn [andb]; try lia; try easy.
      * replace (b' - b)%nat with (S (b' - S b)) by lia. easy.
      * subst b'. now rewrite Nat.sub_diag.
    + intros H. inversion H as [|? ? (_ & _ & X) _]. assert (within thr N a = true) by now apply within_spec. congruence.
Qed.
(** The charges are accepted exactly when every bead has the right shape and a small mean, and then
    they are the ones sent. *)
Theorem driver_bec_accepted P N thr l Z : get_driver_bec P N thr true (Some l) = Val Z ->
  (P <= List.length l)%nat /\ (forall b, (b < P)%nat -> good_array N thr (nth b l (Bec 0 0 (fun _ _ => 0)))) /\
  forall b c k, (b < P)%nat -> Z b c k = entry (nth b l (Bec 0 0 (fun _ _ => 0))) c k.
Proof.
  unfold get_driver_bec. destruct (Nat.ltb_spec (List.length l) P) as [L|L].
  - destruct (driver_loop _ _ _ _ _); easy.
  - intros Q. pose proof (driver_loop_spec N thr (firstn P l) 0 (fun _ _ _ => 0)) as H. rewrite Q in H. destruct H as [F E].
    assert (LP : List.length (firstn P l) = P) by now rewrite firstn_length_le.
    assert (NTH : forall b, (b < P)%nat -> nth b (firstn P l) (Bec 0 0 (fun _ _ => 0)) = nth b l (Bec 0 0 (fun _ _ => 0))).
    { intros b Hb. rewrite <- (firstn_skipn P l) at 2. rewrite app_nth1 by lia. easy. }
    split; [easy|]. split.
    + intros b Hb. rewrite <- NTH by easy. rewrite Forall_forall in F. apply F, nth_In. lia.
    + intros b c k Hb. rewrite E, LP. cbn [Nat.leb andb]. destruct (Nat.ltb_spec b (0 + P)); [|lia]. now rewrite Nat.sub_0_r, NTH.
Qed.
Theorem driver_bec_complete P N thr l : (P <= List.length l)%nat -> (forall b, (b < P)%nat -> good_array N thr (nth b l (Bec 0 0 (fun _ _ => 0)))) ->
  exists Z, get_driver_bec P N thr true (Some l) = Val Z.
Proof.
  intros L G. unfold get_driver_bec. destruct (Nat.ltb_spec (List.length l) P); [lia|]. pose proof (driver_loop_spec N thr (firstn P l) 0 (fun _ _ _ => 0)) as H0.
  assert (F : Forall (good_array N thr) (firstn P l)).
  { apply Forall_forall. intros a Ha. destruct (In_nth _ _ (Bec 0 0 (fun _ _ => 0)) Ha) as (b & Hb & <-). rewrite firstn_length_le in Hb by easy.
    replace (nth b (firstn P l) _) with (nth b l (Bec 0 0 (fun _ _ => 0))); [now apply G|].
    rewrite <- (firstn_skipn P l) at 1. rewrite app_nth1 by (rewrite firstn_length_le; easy). easy. }
  destruct (driver_loop _ _ _ _ _) as [Z| |]; [now exists Z|easy|easy].
Qed.
Theorem driver_bec_missing P N thr : get_driver_bec P N thr true None = ValueError /\ forall x, get_driver_bec P N thr false x = ValueError.
Proof. split; easy. Qed.
(** Charges that add up to zero over the atoms give no net force, so the field does not move the
    centre of mass. *)
Theorem sum_rule_no_force y bec E t q k : (forall b i l, (b < nbeads (ringp y))%nat -> (l < 3)%nat -> (i < 3)%nat -> Rsum (natoms (ringp y)) (fun j => bec q b (3 * j + i)%nat l) = 0) -> (k < 3)%nat ->
  total_momentum y (field_force bec E t q) k = 0.
Proof.
  intros H Hk. unfold total_momentum, field_force. apply Rsum_0. intros b Hb. rewrite Rsum_swap. apply Rsum_0. intros l Hl.
  rewrite Rsum_scal_r, H by easy. ring.
Qed.
Theorem sum_rule_momentum y bec E t s k : valid y -> fixcom y = false -> frozen y = [] -> no_net_force y -> (k < 3)%nat ->
  (forall q b i l, (b < nbeads (ringp y))%nat -> (l < 3)%nat -> (i < 3)%nat -> Rsum (natoms (ringp y)) (fun j => bec q b (3 * j + i)%nat l) = 0) ->
  total_momentum y (sp (driven_nve y bec E t s)) k = total_momentum y (sp s) k.
Proof. intros V F Z N Hk H. rewrite driven_impulse by easy. rewrite !sum_rule_no_force by (try easy; intros; now apply H). unfold Rdiv. ring. Qed.
(** What the accepted charges guarantee of the force on all atoms of a bead. *)
Theorem accepted_force P N thr l Z (E : nat -> R) b i : (0 < N)%nat -> get_driver_bec P N thr true (Some l) = Val Z -> (b < P)%nat -> (i < 3)%nat ->
  Rabs (Rsum N (fun j => eda_forces Z E b (3 * j + i)%nat)) <= thr * INR N ^ 2 * (Rabs (E 0%nat) + Rabs (E 1%nat) + Rabs (E 2%nat)).
Proof.
  intros HN Q Hb Hi. destruct (driver_bec_accepted _ _ _ _ _ Q) as (_ & G & V). specialize (G b Hb). destruct G as (_ & _ & G).
  pose proof (lt_0_INR N HN) as NP.
  assert (S : Rsum N (fun j => eda_forces Z E b (3 * j + i)%nat) = Rsum 3 (fun k => Rsum N (fun j => entry (nth b l (Bec 0 0 (fun _ _ => 0))) (3 * j + i)%nat k) * E k)).
  { unfold eda_forces. rewrite Rsum_swap. apply Rsum_ext. intros k _. rewrite <- Rsum_scal_r. apply Rsum_ext. intros j _. rewrite V by easy. unfold qe. ring. }
  rewrite S. assert (B : forall k, (k < 3)%nat -> Rabs (Rsum N (fun j => entry (nth b l (Bec 0 0 (fun _ _ => 0))) (3 * j + i)%nat k)) <= thr * INR N ^ 2).
  { intros k Hk. specialize (G i k Hi Hk). set (x := Rsum N _) in *. replace x with (x / INR N * INR N) by (field; lra). rewrite Rabs_mult, (Rabs_pos_eq (INR N)) by lra.
    replace (thr * INR N ^ 2) with (thr * INR N * INR N) by ring. apply Rmult_le_compat_r; lra. }
  cbn [Rsum]. set (x0 := Rsum N _). set (x1 := Rsum N _). set (x2 := Rsum N _).
  assert (B0 : Rabs x0 <= thr * INR N ^ 2) by (apply B; lia). assert (B1 : Rabs x1 <= thr * INR N ^ 2) by (apply B; lia). assert (B2 : Rabs x2 <= thr * INR N ^ 2) by (apply B; lia).
  pose proof (Rabs_pos (E 0%nat)). pose proof (Rabs_pos (E 1%nat)). pose proof (Rabs_pos (E 2%nat)).
  pose proof (Rabs_triang (0 + x0 * E 0%nat + x1 * E 1%nat) (x2 * E 2%nat)). pose proof (Rabs_triang (0 + x0 * E 0%nat) (x1 * E 1%nat)). pose proof (Rabs_triang 0 (x0 * E 0%nat)).
  rewrite Rabs_R0 in *. rewrite !Rabs_mult in *.
  assert (Rabs x0 * Rabs (E 0%nat) <= thr * INR N ^ 2 * Rabs (E 0%nat)) by now apply Rmult_le_compat_r.
  assert (Rabs x1 * Rabs (E 1%nat) <= thr * INR N ^ 2 * Rabs (E 1%nat)) by now apply Rmult_le_compat_r.
  assert (Rabs x2 * Rabs (E 2%nat) <= thr * INR N ^ 2 * Rabs (E 2%nat)) by now apply Rmult_le_compat_r. lra.
Qed.
(** The input manual has the sum over the atoms within the threshold times the number of atoms; the
    code compares the mean with that. *)
Theorem sum_rule_refuted : exists P N thr l Z, (0 < thr) /\ get_driver_bec P N thr true (Some l) = Val Z /\
  Rabs (Rsum N (fun j => Z 0%nat (3 * j)%nat 0%nat)) > thr * INR N.
Proof.
  set (a := Bec 6 3 (fun c k => if ((c =? 0) && (k =? 0))%nat then 4 else 0)).
  assert (G : good_array 2 1 a).
  { split; [easy|]. split; [easy|]. intros i k Hi Hk. destruct i as [|[|[|i]]]; [| | |lia]; (destruct k as [|[|[|k]]]; [| | |lia]); cbn;
      match goal with |- Rabs ?x <= _ => first [replace x with 2 by lra | replace x with 0 by lra] end; rewrite ?Rabs_R0, ?Rabs_pos_eq; lra. }
  destruct (driver_bec_complete 1 2 1 [a]) as [Z HZ]; [cbn; lia| |].
  - intros b Hb. now replace b with 0%nat by lia.
  - exists 1%nat, 2%nat, 1, [a], Z. split; [lra|]. split; [exact HZ|]. destruct (driver_bec_accepted _ _ _ _ _ HZ) as (_ & _ & V).
    rewrite (Rsum_ext 2 _ (fun j => entry a (3 * j)%nat 0%nat)) by (intros; apply V; lia). cbn. rewrite Rabs_pos_eq; lra.
Qed.

(** ** C187: the charges of the input file *)
Theorem fixed_bec_size P N flat : (exists Z, get_fixed_bec P N flat = Val Z) <-> List.length flat = (9 * N * P)%nat.
Proof.
  unfold get_fixed_bec. destruct (Nat.eqb_spec (List.length flat) (P * (3 * N) * 3)) as [H|H]; split.
  - intros _. lia.
  - intros _. eexists; reflexivity.
  - intros [Z Q]; easy.
  - intros Q. lia.
Qed.
Lemma flat_map_nth {A} (f : nat -> list A) w d : forall m b j, (forall i, (i < m)%nat -> List.length (f i) = w) -> (b < m)%nat -> (j < w)%nat ->
  nth (b * w + j) (flat_map f (seq 0 m)) d = nth j (f b) d.
Proof.
  intros m. assert (L : forall k, (k <= m)%nat -> (forall i, (i < m)%nat -> List.length (f i) = w) -> List.length (flat_map f (seq 0 k)) = (k * w)%nat).
  { induction k as [|k IH]; intros Hk H; [easy|]. rewrite seq_S, flat_map_app, app_length, IH by (try easy; lia). cbn. rewrite app_nil_r, H by lia. lia. }
  intros b j H Hb Hj. replace m with (b + (1 + (m - S b)))%nat by lia. rewrite !seq_app, !flat_map_app, app_nth2; rewrite L by (try easy; lia); [|lia].
  replace (b * w + j - b * w)%nat with j by lia. rewrite app_nth1; cbn [seq flat_map Nat.add]; rewrite ?app_nil_r; [easy|]. now rewrite H.
Qed.
Lemma flat_map_len {A} (f : nat -> list A) w m : (forall i, List.length (f i) = w) -> List.length (flat_map f (seq 0 m)) = (m * w)%nat.
Proof. intros H. induction m as [|m IH]; [easy|]. rewrite seq_S, flat_map_app, app_length, IH. cbn. rewrite app_nil_r, H. lia. Qed.
(** The array written to a checkpoint and read again gives the same charges. *)
Theorem fixed_bec_roundtrip P N Z : exists Z', get_fixed_bec P N (flatten P N Z) = Val Z' /\
  forall b c k, (b < P)%nat -> (c < 3 * N)%nat -> (k < 3)%nat -> Z' b c k = Z b c k.
Proof.
  assert (W : forall b c, List.length (map (fun k => Z b c k) (seq 0 3)) = 3%nat) by (intros; now rewrite map_length, seq_length).
  assert (W2 : forall b, List.length (flat_map (fun c => map (fun k => Z b c k) (seq 0 3)) (seq 0 (3 * N))) = (3 * N * 3)%nat) by (intros b; now apply flat_map_len).
  unfold get_fixed_bec. assert (L : List.length (flatten P N Z) = (P * (3 * N) * 3)%nat).
  { unfold flatten. rewrite (flat_map_len _ (3 * N * 3)) by easy. lia. }
  rewrite L, Nat.eqb_refl. eexists; split; [reflexivity|]. intros b c k Hb Hc Hk. cbn beta. unfold flatten.
  replace ((b * (3 * N) + c) * 3 + k)%nat with (b * (3 * N * 3) + (c * 3 + k))%nat by lia.
  rewrite (flat_map_nth _ (3 * N * 3)) by (try easy; lia). rewrite (flat_map_nth _ 3) by (try easy; lia).
  rewrite (nth_indep _ _ (Z b c 0%nat)) by (rewrite W; easy). rewrite (map_nth (fun k => Z b c k)), seq_nth by easy. reflexivity.
Qed.

(** ** C188: the dipole *)
Theorem dipole_key contains numbers P l raw : (P <= List.length l)%nat -> Forall (fun v => List.length v = 3%nat) l ->
  forall n k, (n < P)%nat -> (k < 3)%nat -> get_dipole contains numbers P (Some l) raw n k = Some (nth k (nth n l []) 0).
Proof.
  intros L F n k Hn Hk. unfold get_dipole, from_key. destruct (Nat.ltb_spec (List.length l) P); [lia|].
  rewrite Forall_forall in F. assert (A : forallb (fun v => (List.length v =? 3)%nat) (firstn P l) = true).
  { apply forallb_forall. intros v Hv. apply Nat.eqb_eq, F. rewrite <- (firstn_skipn P l). apply in_or_app. now left. }
  rewrite A. destruct (Nat.ltb_spec n P); [|lia]. apply nth_error_nth'. rewrite F; [easy|]. apply nth_In. lia.
Qed.
Theorem dipole_key_wrong contains numbers P l raw v : (P <= List.length l)%nat -> In v (firstn P l) -> List.length v <> 3%nat ->
  get_dipole contains numbers P (Some l) raw = nan_dipole.
Proof.
  intros L Hv W. unfold get_dipole, from_key. destruct (Nat.ltb_spec (List.length l) P); [lia|].
  destruct (forallb _ _) eqn:A; [|easy]. rewrite forallb_forall in A. specialize (A v Hv). now apply Nat.eqb_eq in A.
Qed.
Theorem dipole_nothing contains numbers P : get_dipole contains numbers P None None = nan_dipole.
Proof. reflexivity. Qed.
(** A dipole sent as text is lost whatever the text. *)
Theorem dipole_text_refuted contains numbers P raws n k : get_dipole contains numbers P None (Some raws) n k = None.
Proof.
  unfold get_dipole, from_text. destruct (forallb contains raws); [|easy]. destruct (_ <? _)%nat; [easy|]. destruct raws as [|x l]; [easy|].
  destruct (negb _); easy.
Qed.
Example dipole_case : get_dipole (fun _ => true) (fun _ => 3%nat) 2 (Some [[1; 2; 3]; [4; 5; 6]]) None 1%nat 2%nat = Some 6 /\ (2 <= List.length [[1; 2; 3]; [4; 5; 6]])%nat.
Proof. split; [reflexivity|cbn; lia]. Qed.

(** ** C189: the temperature *)
Definition needs_temperature (enstype : string) (nbeads : nat) : Prop :=
  In enstype ["nvt"; "nvt-cc"; "npt"; "nst"]%string \/ (enstype = "nve"%string /\ (1 < nbeads)%nat).
Theorem temperature_check enstype nbeads temp : temperature_checked enstype nbeads temp = false <-> temp < 0 /\ needs_temperature enstype nbeads.
Proof.
  unfold temperature_checked, needs_temperature. rewrite negb_false_iff, orb_true_iff, !andb_true_iff, !orb_true_iff, !String.eqb_eq, Nat.ltb_lt. cbn [In].
  destruct (Rlt_dec temp 0); intuition congruence.
Qed.
(** Not so for the driven ensembles: a negative (missing) temperature goes unnoticed. *)
Theorem temperature_refuted : exists temp, temp < 0 /\ temperature_checked "eda-nvt" 8 temp = true /\ temperature_checked "nvt" 8 temp = false.
Proof. exists (-1). split; [lra|]. unfold temperature_checked. destruct (Rlt_dec (-1) 0); [easy|lra]. Qed.

Print Assumptions envelope_pulse.
Print Assumptions envelope_wave.
Print Assumptions envelope_range.
Print Assumptions envelope_peak.
Print Assumptions envelope_symmetric.
Print Assumptions envelope_fades.
Print Assumptions field_bounded.
Print Assumptions field_wave.
Print Assumptions field_period.
Print Assumptions field_off.
Print Assumptions field_enabled_spec.
Print Assumptions field_of_list.
Print Assumptions envelope_refuted.
Print Assumptions td_levels.
Print Assumptions driven_time.
Print Assumptions driven_step_is.
Print Assumptions driven_keeps_constraints.
Print Assumptions driven_reversible.
Print Assumptions driven_frozen.
Print Assumptions driven_impulse.
Print Assumptions driven_impulse_trapezium.
Print Assumptions impulse_refuted.
Print Assumptions kick_work.
Print Assumptions dipole_rate.
Print Assumptions frozen_field_energy_refuted.
Print Assumptions driver_bec_accepted.
Print Assumptions driver_bec_complete.
Print Assumptions driver_bec_missing.
Print Assumptions sum_rule_no_force.
Print Assumptions sum_rule_momentum.
Print Assumptions accepted_force.
Print Assumptions sum_rule_refuted.
Print Assumptions fixed_bec_size.
Print Assumptions fixed_bec_roundtrip.
Print Assumptions dipole_key.
Print Assumptions dipole_key_wrong.
Print Assumptions dipole_nothing.
Print Assumptions dipole_text_refuted.
Print Assumptions temperature_check.
Print Assumptions temperature_refuted.
