(** * Theorems of record: reversibility, constraints and momentum of the integrator step *)
From Coq Require Import List Reals ZArith Lra Lia Arith Bool.
From Verif Require Import RSum Ortho NMModel NMProofs NMProps SpringModel SpringProofs SpringProps SpringBab MTSModel MTSSched MTSProofs.
Import ListNotations.
Open Scope R_scope.

(** ** Specification *)
(** Total momentum along direction k, over atoms and beads. *)
Definition total_momentum (y : sys) (p : mat) (k : nat) : R :=
  Rsum (nbeads (ringp y)) (fun b => Rsum (natoms (ringp y)) (fun i => p b (3 * i + k)%nat)).
(** A state that satisfies the constraints: no total momentum with fixcom; frozen coordinates at
    rest, with all their beads at the same place. *)
Definition constrained (y : sys) (s : st) : Prop :=
  (fixcom y = true -> forall k, (k < 3)%nat -> total_momentum y (sp s) k = 0) /\
  (forall c, In c (frozen y) -> forall b, (b < nbeads (ringp y))%nat -> sp s b c = 0 /\ sq s b c = sq s 0%nat c).
(** What the inputs guarantee (inputs/motion/motion.py 339-344: fixcom is switched off when atoms
    are frozen), forces that depend on the beads of the ring only, a nonzero time step, and the
    plain integrator. *)
Record valid (y : sys) : Prop := {
  v_ring : sound (ringp y); v_atoms : (0 < natoms (ringp y))%nat;
  v_prop : match prop y with Bab k => (0 < k)%nat | _ => True end;
  v_one : fixcom y = true -> frozen y = []; v_nts : factors (nmts y); v_dt : tstep_dt y <> 0; v_sc : sc y = None;
  v_f : forall l q q', agree (nbeads (ringp y)) q q' -> agree (nbeads (ringp y)) (mts_f y l q) (mts_f y l q');
  v_bias : match bias_f y with Some f => forall q q', agree (nbeads (ringp y)) q q' -> agree (nbeads (ringp y)) (f q) (f q') | None => True end }.
(** The total force applied at a level, and forces without a net force. *)
Definition gforce (y : sys) (l : nat) (q : mat) : mat := fun b c =>
  mts_f y l q b c + match bias_f y with Some f => if (l =? 0)%nat then f q b c else 0 | None => 0 end.
Definition no_net_force (y : sys) : Prop := forall l q k, (k < 3)%nat -> total_momentum y (gforce y l q) k = 0.

(** ** Lemmas *)
Section S.
Variable y : sys.
Notation r := (ringp y).
Notation n := (nbeads r).

Lemma frozen_in c : is_frozen y c = true <-> In c (frozen y).
Proof.
  unfold is_frozen. rewrite existsb_exists. split; [intros (x & Hx & E); apply Nat.eqb_eq in E; now subst|intros H; exists c; split; [easy|apply Nat.eqb_refl]].
Qed.
Lemma vcom_total p k : vcom y p k = total_momentum y p k / Mnb y.
Proof. reflexivity. Qed.
Lemma total_ext p p' k : agree n p p' -> total_momentum y p k = total_momentum y p' k.
Proof. intros H. apply Rsum_ext. intros b Hb. apply Rsum_ext. intros. now apply H. Qed.
Lemma total_plus p (g : mat) a k : total_momentum y (fun b c => p b c + g b c * a) k = total_momentum y p k + total_momentum y g k * a.
Proof.
  unfold total_momentum. rewrite <- Rsum_scal_r, <- Rsum_plus. apply Rsum_ext. intros b _. rewrite <- Rsum_scal_r, <- Rsum_plus. now apply Rsum_ext.
Qed.
Lemma Mnb_pos : sound r -> (0 < natoms r)%nat -> 0 < Mnb y.
Proof.
  intros Hr Ha. unfold Mnb. apply Rmult_lt_0_compat; [|apply INR_pos, Hr].
  destruct (natoms r) as [|N]; [lia|]. rewrite Rsum_first. pose proof (s_m r Hr 0%nat).
  assert (0 <= Rsum N (fun i => mass r (S i))) by (apply Rsum_nonneg; intros; apply Rlt_le, Hr). lra.
Qed.
Lemma mod3 i k : (k < 3)%nat -> ((3 * i + k) mod 3 = k)%nat.
Proof. intros H. rewrite Nat.add_comm, Nat.mul_comm, Nat.mod_add, Nat.mod_small by lia. lia. Qed.
Lemma total_remove p (v : nat -> R) k : (k < 3)%nat ->
  total_momentum y (fun b c => p b c - m3 r c * v (c mod 3)%nat) k = total_momentum y p k - Mnb y * v k.
Proof.
  intros Hk. unfold total_momentum.
  transitivity (Rsum n (fun b => Rsum (natoms r) (fun i => p b (3 * i + k)%nat) - Rsum (natoms r) (mass r) * v k)).
  - apply Rsum_ext. intros b _. rewrite Rsum_minus. f_equal. rewrite <- Rsum_scal_r. apply Rsum_ext. intros i _.
    unfold m3. now rewrite mod3, third by easy.
  - rewrite Rsum_minus, Rsum_const. unfold Mnb. ring.
Qed.

Hypothesis Hr : sound r.

Lemma freeze_beads p b c : (b < n)%nat -> to_beads y (fun k c => if is_frozen y c then 0 else to_nm y p k c) b c = if is_frozen y c then 0 else p b c.
Proof.
  intros Hb. destruct (is_frozen y c) eqn:E.
  - unfold to_beads, nm_trans_nm2b, app. apply Rsum_0. intros. rewrite E. ring.
  - rewrite <- (nm_roundtrip n (openp r) p b c) by (try easy; apply Hr). unfold to_beads, nm_trans_nm2b, app. apply Rsum_ext. intros. rewrite E. reflexivity.
Qed.
Lemma con_p s b c : (b < n)%nat -> sp (pconstraints y s) b c =
  if is_frozen y c then 0 else if fixcom y then sp s b c - m3 r c * vcom y (sp s) (c mod 3) else sp s b c.
Proof.
  intros Hb. unfold pconstraints. destruct (frozen y) as [|a l] eqn:E.
  - replace (is_frozen y c) with false by (unfold is_frozen; now rewrite E). now destruct (fixcom y).
  - unfold freeze. cbn [sp]. rewrite freeze_beads by easy. now destruct (fixcom y).
Qed.
Lemma con_q s : sq (pconstraints y s) = sq s.
Proof. unfold pconstraints. destruct (frozen y), (fixcom y); reflexivity. Qed.

(** ** C33 *)
(** After the constraints the frozen coordinates are at rest, and the rest has no total momentum. *)
Theorem frozen_at_rest s b c : In c (frozen y) -> (b < n)%nat -> sp (pconstraints y s) b c = 0.
Proof. intros H Hb. rewrite con_p by easy. now rewrite (proj2 (frozen_in c) H). Qed.
Theorem others_not_touched s b c : fixcom y = false -> ~ In c (frozen y) -> (b < n)%nat -> sp (pconstraints y s) b c = sp s b c.
Proof.
  intros Hf H Hb. rewrite con_p, Hf by easy. destruct (is_frozen y c) eqn:E; [apply frozen_in in E; easy|easy].
Qed.
Theorem no_total_momentum s k : (0 < natoms r)%nat -> fixcom y = true -> frozen y = [] -> (k < 3)%nat -> total_momentum y (sp (pconstraints y s)) k = 0.
Proof.
  intros Ha Hf Hz Hk. rewrite (total_ext _ (fun b c => sp s b c - m3 r c * vcom y (sp s) (c mod 3))).
  - rewrite (total_remove _ (vcom y (sp s))) by easy. rewrite vcom_total. pose proof (Mnb_pos Hr Ha). field. lra.
  - intros b c Hb. rewrite con_p, Hf by easy. unfold is_frozen. now rewrite Hz.
Qed.

(** Kinetic energy plus the accumulated energy does not change. *)
Lemma com_energy s : (0 < natoms r)%nat -> nmf r 0%nat = 1 ->
  get_kin r (to_nm y (sp (remove_com y s))) + eens (remove_com y s) = get_kin r (to_nm y (sp s)) + eens s.
Proof.
  intros Ha H0. pose proof (Mnb_pos Hr Ha) as HM. set (v := vcom y (sp s)). pose proof (INR_pos n (s_n r Hr)) as Hn.
  assert (E : forall k c, (k < n)%nat -> to_nm y (sp (remove_com y s)) k c = to_nm y (sp s) k c - (if (k =? 0)%nat then sqrt (INR n) * (m3 r c * v (c mod 3)%nat) else 0)).
  { intros k c Hk. unfold remove_com. cbn [sp]. fold v. unfold to_nm.
    rewrite (b2nm_ext _ _ _ (fun b c => sp s b c + -1 * (m3 r c * v (c mod 3)%nat))) by (intros; ring).
    rewrite (b2nm_linear _ _ (sp s) (fun _ c => m3 r c * v (c mod 3)%nat)).
    pose proof (b2nm_const y Hr (fun c => m3 r c * v (c mod 3)%nat) k c Hk) as Hc. unfold to_nm in Hc. rewrite Hc. ring. }
  rewrite !kin_columns by easy.
  assert (D : Rsum (3 * natoms r) (fun c => Rsum n (fun k => to_nm y (sp (remove_com y s)) k c ^ 2 / (2 * m3 r c * nmf r k)))
    = Rsum (3 * natoms r) (fun c => Rsum n (fun k => to_nm y (sp s) k c ^ 2 / (2 * m3 r c * nmf r k)))
      + Rsum (3 * natoms r) (fun c => INR n * m3 r c * v (c mod 3)%nat ^ 2 / 2 - Rsum n (fun b => sp s b c) * v (c mod 3)%nat)).
  { rewrite <- Rsum_plus. apply Rsum_ext. intros c _. pose proof (s_m r Hr (c / 3)%nat) as Hm. fold (m3 r c) in Hm.
    rewrite bead_sum by easy. set (x := (to_nm y (sp s)) 0%nat c).
    transitivity (Rsum n (fun k => to_nm y (sp s) k c ^ 2 / (2 * m3 r c * nmf r k) + (INR n * m3 r c * v (c mod 3)%nat ^ 2 / 2 - sqrt (INR n) * x * v (c mod 3)%nat) * delta k 0)).
    - apply Rsum_ext. intros k Hk. rewrite E by easy. unfold delta. destruct (Nat.eqb_spec k 0) as [->|Hne].
      + rewrite H0. fold x. pose proof (sqrt_sqrt (INR n) ltac:(lra)) as HS. set (w := sqrt (INR n)) in *. clearbody w x. rewrite <- HS. field. lra.
      + rewrite Rminus_0_r, Rmult_0_r. ring.
    - rewrite Rsum_plus. f_equal. rewrite (Rsum_delta_r n 0 (fun _ => _)) by apply Hr. reflexivity. }
  rewrite D. unfold remove_com. cbn [eens]. fold v.
  assert (G : Rsum (3 * natoms r) (fun c => INR n * m3 r c * v (c mod 3)%nat ^ 2 / 2 - Rsum n (fun b => sp s b c) * v (c mod 3)%nat)
    = Rsum 3 (fun k => Mnb y * v k ^ 2 / 2 - total_momentum y (sp s) k * v k)).
  { rewrite Rsum_three. 
    assert (T : forall k, total_momentum y (sp s) k = Rsum (natoms r) (fun i => Rsum n (fun b => sp s b (3 * i + k)%nat))) by (intros; unfold total_momentum; apply Rsum_swap).
    assert (T0 : total_momentum y (sp s) 0 = Rsum (natoms r) (fun i => Rsum n (fun b => sp s b (3 * i)%nat)))
      by (rewrite T; apply Rsum_ext; intros; now rewrite Nat.add_0_r).
    cbn [Rsum]. rewrite T0, !T. unfold Mnb.
    transitivity (Rsum (natoms r) (fun j => 
       (mass r j * (INR n * v 0%nat ^ 2 / 2) - Rsum n (fun b => sp s b (3 * j)%nat) * v 0%nat)
       + (mass r j * (INR n * v 1%nat ^ 2 / 2) - Rsum n (fun b => sp s b (3 * j + 1)%nat) * v 1%nat)
       + (mass r j * (INR n * v 2%nat ^ 2 / 2) - Rsum n (fun b => sp s b (3 * j + 2)%nat) * v 2%nat))).
    - apply Rsum_ext. intros j _. pose proof (mod3 j 0 ltac:(lia)) as M0. rewrite Nat.add_0_r in M0. unfold m3. rewrite third0, !third, !mod3, M0 by lia. lra.
    - rewrite !Rsum_plus, !Rsum_minus, !Rsum_scal_r. lra. }
  rewrite G. cbn [Rsum]. unfold v. rewrite !vcom_total. fold n. field. lra.
Qed.
Lemma freeze_energy s : NoDup (frozen y) -> (forall c, In c (frozen y) -> (c < 3 * natoms r)%nat) ->
  (openp r = [] \/ forall k, (0 < k < n)%nat -> o_nmf r k = nmf r k) ->
  get_kin r (to_nm y (sp (freeze y s))) + eens (freeze y s) = get_kin r (to_nm y (sp s)) + eens s.
Proof.
  intros Hd Hb Ho. unfold freeze. cbn [sp eens]. rewrite !kin_columns by easy.
  assert (Ed : forall k c, (k < n)%nat -> get_dynm3 r k c = m3 r c * nmf r k).
  { intros k c Hk. unfold get_dynm3. destruct Ho as [Ho|Ho].
    - unfold is_open. rewrite Ho. reflexivity.
    - destruct (Nat.eqb_spec k 0) as [->|Hne]; [now rewrite andb_false_r|]. rewrite Ho by lia. now destruct (_ && _). }
  assert (E : 1 / 2 * Rsum n (fun k => Rsuml (map (fun c => to_nm y (sp s) k c ^ 2 / get_dynm3 r k c) (frozen y)))
    = Rsum (3 * natoms r) (fun c => Rsum n (fun k => if is_frozen y c then to_nm y (sp s) k c ^ 2 / (2 * m3 r c * nmf r k) else 0))).
  { rewrite Rsum_swap, <- Rsum_scal. apply Rsum_ext. intros k Hk. rewrite (sum_members (3 * natoms r)) by easy. rewrite <- Rsum_scal.
    apply Rsum_ext. intros c _. fold (is_frozen y c). rewrite Ed by easy. pose proof (s_m r Hr (c / 3)%nat). pose proof (s_f r Hr k).
    destruct (is_frozen y c); [unfold m3; field; lra|ring]. }
  rewrite E, <- Rplus_assoc, (Rplus_comm _ (eens s)), Rplus_assoc, (Rplus_comm (eens s)). f_equal. rewrite <- Rsum_plus. apply Rsum_ext. intros c _.
  rewrite <- Rsum_plus. apply Rsum_ext. intros k Hk. unfold to_nm at 1. unfold to_beads. rewrite nm_roundtrip_modes by (try easy; apply Hr).
  destruct (is_frozen y c); [unfold Rdiv; ring|ring].
Qed.
Theorem constraint_energy_accounted s : (0 < natoms r)%nat -> nmf r 0%nat = 1 -> NoDup (frozen y) -> (forall c, In c (frozen y) -> (c < 3 * natoms r)%nat) ->
  (openp r = [] \/ forall k, (0 < k < n)%nat -> o_nmf r k = nmf r k) ->
  get_kin r (to_nm y (sp (pconstraints y s))) + eens (pconstraints y s) = get_kin r (to_nm y (sp s)) + eens s.
Proof.
  intros Ha H0 Hd Hb Ho. unfold pconstraints.
  assert (E : get_kin r (to_nm y (sp (if fixcom y then remove_com y s else s))) + eens (if fixcom y then remove_com y s else s) = get_kin r (to_nm y (sp s)) + eens s)
    by (destruct (fixcom y); [now apply com_energy|easy]).
  rewrite <- E. set (s1 := if fixcom y then _ else _). destruct (frozen y) eqn:F; [easy|]. rewrite <- F in *. now apply freeze_energy.
Qed.
End S.

Section V.
Variable y : sys.
Notation r := (ringp y).
Notation n := (nbeads r).
Hypothesis V : valid y.
Let Hr : sound r := v_ring y V.
Let Hp := v_prop y V.
Notation hl l := (nth l (get_pdt (tstep_dt y) (nmts y)) 0).
Notation h := (get_qdt (tstep_dt y) (nmts y)).
Lemma h_nz : h <> 0.
Proof.
  unfold get_qdt. pose proof (v_nts y V) as [_ H]. pose proof (INR_pos (inmts (nmts y)) (prodn_pos _ H)). pose proof (v_dt y V).
  unfold Rdiv. apply Rmult_integral_contrapositive_currified; [nra|]. apply Rinv_neq_0_compat. lra.
Qed.
Lemma gforce_agree l q q' : agree n q q' -> agree n (gforce y l q) (gforce y l q').
Proof.
  intros H b c Hb. unfold gforce. rewrite (v_f y V l q q' H b c Hb). pose proof (v_bias y V) as Hbi. destruct (bias_f y) as [f|]; [|easy].
  destruct (l =? 0)%nat; [|easy]. now rewrite (Hbi q q' H b c Hb).
Qed.
Lemma pstep_p l s b c : sp (pstep y l s) b c = if is_frozen y c then sp s b c else sp s b c + gforce y l (sq s) b c * hl l.
Proof.
  unfold pstep, gforce. cbn [sp]. destruct (bias_f y) as [f|]; [destruct (l =? 0)%nat|]; unfold kick; destruct (is_frozen y c); lra.
Qed.
Lemma pstep_q l s : sq (pstep y l s) = sq s.
Proof. reflexivity. Qed.
(** The kick projected on the constraints. *)
Definition projected (l : nat) (q : mat) : mat := fun b c =>
  gforce y l q b c - (if fixcom y then m3 r c * (total_momentum y (gforce y l q) (c mod 3) / Mnb y) else 0).
Lemma nofrozen c : fixcom y = true -> is_frozen y c = false.
Proof. intros H. unfold is_frozen. now rewrite (v_one y V H). Qed.
Definition kc (l : nat) (s : st) : st := pconstraints y (pstep y l s).
Lemma kc_p l s b c : constrained y s -> (b < n)%nat ->
  sp (kc l s) b c = if is_frozen y c then 0 else sp s b c + projected l (sq s) b c * hl l.
Proof.
  intros [H1 H2] Hb. unfold kc. rewrite con_p by easy. destruct (is_frozen y c) eqn:E; [easy|].
  unfold projected. destruct (fixcom y) eqn:F.
  - rewrite vcom_total, (total_ext y _ (fun b c => sp s b c + gforce y l (sq s) b c * hl l)).
    + rewrite total_plus, H1 by (try easy; apply Nat.mod_upper_bound; lia). rewrite pstep_p, E. unfold Rdiv. ring.
    + intros b' c' _. rewrite pstep_p, nofrozen by easy. reflexivity.
  - rewrite pstep_p, E. ring.
Qed.
Lemma kc_q l s : sq (kc l s) = sq s.
Proof. unfold kc. now rewrite con_q. Qed.
Lemma projected_agree l q q' : agree n q q' -> agree n (projected l q) (projected l q').
Proof.
  intros H b c Hb. unfold projected. rewrite (gforce_agree l q q' H b c Hb). now rewrite (total_ext y _ _ _ (gforce_agree l q q' H)).
Qed.
Lemma constrained_flip s : constrained y s -> constrained y (flip s).
Proof.
  intros [H1 H2]. split.
  - intros F k Hk. cbn [flip sp]. specialize (H1 F k Hk). unfold total_momentum in *.
    rewrite (Rsum_ext _ _ (fun b => - Rsum (natoms r) (fun i => sp s b (3 * i + k)%nat))) by (intros; apply Rsum_opp). rewrite Rsum_opp, H1. ring.
  - intros c Hc b Hb. destruct (H2 c Hc b Hb) as [E1 E2]. cbn [flip sp sq]. rewrite E1. split; [ring|easy].
Qed.
Lemma constrained_kc l s : constrained y s -> constrained y (kc l s).
Proof.
  intros [H1 H2]. split.
  - intros F k Hk. unfold kc. exact (no_total_momentum y Hr _ k (v_atoms y V) F (v_one y V F) Hk).
  - intros c Hc b Hb. rewrite kc_q. split; [now apply frozen_at_rest | now apply H2].
Qed.
Lemma drift_mode0 s c : to_nm y (sp (drift y s)) 0%nat c = to_nm y (sp s) 0%nat c.
Proof. pose proof (drift_modes y Hr Hp s 0 c (s_n r Hr)) as E. unfold modes, dstep in E. cbn [fst snd Nat.eqb] in E. now injection E. Qed.
Lemma total_modes x k : total_momentum y x k = Rsum (natoms r) (fun i => sqrt (INR n) * to_nm y x 0%nat (3 * i + k)%nat).
Proof. unfold total_momentum. rewrite Rsum_swap. apply Rsum_ext. intros i _. now apply bead_sum. Qed.
Lemma drift_momentum s k : total_momentum y (sp (drift y s)) k = total_momentum y (sp s) k.
Proof. rewrite !total_modes. apply Rsum_ext. intros i _. now rewrite drift_mode0. Qed.
Lemma drift_frozen s c : (forall b, (b < n)%nat -> sp s b c = 0 /\ sq s b c = sq s 0%nat c) ->
  forall b, (b < n)%nat -> sp (drift y s) b c = 0 /\ sq (drift y s) b c = sq s b c.
Proof.
  intros H. assert (P0 : forall k, (k < n)%nat -> to_nm y (sp s) k c = 0).
  { intros k Hk. unfold to_nm. rewrite (b2nm_ext _ _ _ (fun _ _ => 0)) by (intros; now apply H). unfold nm_trans_b2nm, app. apply Rsum_0. intros; ring. }
  assert (Q0 : forall k, (0 < k < n)%nat -> to_nm y (sq s) k c = 0) by (apply collapsed; [exact Hr|intros; now apply H]).
  assert (M : forall k, (k < n)%nat -> modes r (sp (drift y s), sq (drift y s)) k c = (0, to_nm y (sq s) k c)).
  { intros k Hk. rewrite drift_modes by easy. unfold modes. cbn [fst snd]. fold (to_nm y (sp s)) (to_nm y (sq s)). rewrite P0 by easy.
    destruct (Nat.eq_dec k 0) as [->|Hne].
    - unfold dstep. cbn [Nat.eqb fst snd]. f_equal. unfold Rdiv. ring.
    - rewrite Q0 by lia. now apply dstep_zero. }
  intros b Hb. split.
  - apply (beads_of_modes y Hr _ (fun _ _ => 0) c); [|easy]. intros k Hk. specialize (M k Hk). unfold modes in M. cbn [fst snd] in M. injection M as M1 M2.
    unfold to_nm. rewrite M1. unfold nm_trans_b2nm, app. symmetry. apply Rsum_0. intros; ring.
  - apply (beads_of_modes y Hr _ _ c); [|easy]. intros k Hk. specialize (M k Hk). unfold modes in M. cbn [fst snd] in M. now injection M.
Qed.
Lemma constrained_drift s : constrained y s -> constrained y (drift y s).
Proof.
  intros [H1 H2]. split.
  - intros F k Hk. rewrite drift_momentum. now apply H1.
  - intros c Hc b Hb. pose proof (drift_frozen s c (H2 c Hc)) as D. split; [now apply D|].
    rewrite (proj2 (D b Hb)), (proj2 (D 0%nat (s_n r Hr))). now apply H2.
Qed.
(** Blocks of the schedule. *)
Definition plain (o : op) : Prop := match o with A | P _ => True | _ => False end.
Definition block (o : op) (s : st) : st := exec y (guard o) s.
Lemma block_cases o s : plain o -> block o s = match o with P l => kc l s | _ => drift y s end.
Proof. pose proof (v_sc y V) as E. destruct o; try easy. intros _. unfold block, exec, guard. cbn [fold_left exec1]. now rewrite E. Qed.
Lemma block_constrained o s : plain o -> constrained y s -> constrained y (block o s).
Proof. intros Ho H. rewrite block_cases by easy. destruct o; try easy; [now apply constrained_kc | now apply constrained_drift]. Qed.
Lemma block_eqs o s s' : plain o -> constrained y s -> constrained y s' -> eqs y s s' -> eqs y (block o s) (block o s').
Proof.
  intros Ho H H' E. rewrite !block_cases by easy. destruct o; try easy; [|apply drift_eqs; try easy; apply h_nz].
  destruct E as [E1 E2]. split.
  - intros b c Hb. rewrite !kc_p by easy. rewrite E1, (projected_agree l _ _ E2) by easy. reflexivity.
  - rewrite !kc_q. exact E2.
Qed.
Lemma block_flip o s : plain o -> constrained y s -> eqs y (block o (flip (block o s))) (flip s).
Proof.
  intros Ho H. rewrite !block_cases by easy. destruct o; try easy; [|apply drift_flip; try easy; apply h_nz].
  pose proof (constrained_flip _ (constrained_kc l s H)) as H'. split.
  - intros b c Hb. rewrite kc_p by easy. cbn [flip sp sq]. rewrite kc_p, kc_q by easy. destruct (is_frozen y c) eqn:E; [|ring].
    apply frozen_in in E. rewrite (proj1 (proj2 H c E b Hb)). ring.
  - rewrite kc_q. cbn [flip sq]. rewrite kc_q. intros b c _. reflexivity.
Qed.
Definition run (l : list op) (s : st) : st := exec y (guarded l) s.
Lemma run_cons o l s : run (o :: l) s = run l (block o s).
Proof. unfold run, exec, block. change (guarded (o :: l)) with (guard o ++ guarded l). apply fold_left_app. Qed.
Lemma run_app l l' s : run (l ++ l') s = run l' (run l s).
Proof. unfold run, exec. rewrite guarded_app. apply fold_left_app. Qed.
Lemma run_constrained l s : Forall plain l -> constrained y s -> constrained y (run l s).
Proof. intros F. revert s. induction F as [|o l Ho F IH]; intros s H; [easy|]. rewrite run_cons. apply IH. now apply block_constrained. Qed.
Lemma run_eqs l s s' : Forall plain l -> constrained y s -> constrained y s' -> eqs y s s' -> eqs y (run l s) (run l s').
Proof.
  intros F. revert s s'. induction F as [|o l Ho F IH]; intros s s' H H' E; [easy|]. rewrite !run_cons. apply IH; try (now apply block_constrained).
  now apply block_eqs.
Qed.
Lemma run_back l s : Forall plain l -> constrained y s -> eqs y (run l (flip (run (rev l) s))) (flip s).
Proof.
  intros F. revert s. induction l as [|o l IH]; intros s H; [apply eqs_refl|]. inversion F as [|? ? Ho F']; subst. cbn [rev].
  rewrite run_app, run_cons. set (s' := run (rev l) s). assert (Hs' : constrained y s') by (apply run_constrained; [now apply Forall_rev|easy]).
  rewrite (run_cons o [] s'). change (run [] (block o s')) with (block o s').
  apply (eqs_trans y _ (run l (flip s'))); [|now apply IH].
  apply run_eqs; try easy; [apply block_constrained; [easy|]; now apply constrained_flip, block_constrained | now apply constrained_flip | now apply block_flip].
Qed.
Lemma respa_plain ns : forall idx, Forall plain (respa idx ns).
Proof.
  induction ns as [|k rest IH]; intros idx; cbn [respa]; [repeat constructor|].
  apply Forall_concat. apply Forall_forall. intros l Hl. apply repeat_spec in Hl. subst l. constructor; [exact I|]. apply Forall_app. split; [apply IH|repeat constructor].
Qed.
Definition nve (s : st) : st := exec y (nve_step (nmts y)) s.
Lemma nve_run s : nve s = run (respa 0 (nmts y)) s.
Proof. unfold nve, run. now rewrite (schedule_is_respa _ (v_nts y V)). Qed.

(** ** C32 *)
(** A step, a reversal of all momenta, another step and another reversal lead back, for all
    force functions, propagators and nestings. *)
Theorem nve_step_reversible s : constrained y s -> eqs y (flip (nve (flip (nve s)))) s.
Proof.
  intros H. rewrite !nve_run. rewrite <- (respa_rev (nmts y) 0) at 2.
  pose proof (flip_eqs y _ _ (run_back (respa 0 (nmts y)) s (respa_plain _ _) H)) as [E1 E2].
  split; intros b c Hb; [rewrite E1 by easy; cbn [flip sp]; ring | rewrite E2 by easy; reflexivity].
Qed.
Theorem nve_step_keeps_constraints s : constrained y s -> constrained y (nve s).
Proof. intros H. rewrite nve_run. apply run_constrained; [apply respa_plain|easy]. Qed.
(** Any number of steps. *)
Theorem nve_steps_reversible N s : constrained y s -> eqs y (flip (Nat.iter N nve (flip (Nat.iter N nve s)))) s.
Proof.
  intros H. assert (K : forall M s, constrained y s -> constrained y (Nat.iter M nve s))
    by (induction M as [|M IH]; intros s' H'; [easy|]; rewrite iterS; now apply nve_step_keeps_constraints, IH).
  assert (X : forall s s', constrained y s -> constrained y s' -> eqs y s s' -> eqs y (nve s) (nve s'))
    by (intros; rewrite !nve_run; apply run_eqs; try easy; apply respa_plain).
  assert (XN : forall M s s', constrained y s -> constrained y s' -> eqs y s s' -> eqs y (Nat.iter M nve s) (Nat.iter M nve s'))
    by (induction M as [|M IH]; intros; [easy|]; rewrite !iterS; apply X; auto).
  induction N as [|N IH].
  - split; intros b c _; cbn; [ring|easy].
  - rewrite iterS_r, (iterS N nve s). set (s' := Nat.iter N nve s) in *. assert (Hs' : constrained y s') by now apply K.
    apply (eqs_trans y _ (flip (Nat.iter N nve (flip s')))); [|exact IH]. apply flip_eqs, XN.
    + apply nve_step_keeps_constraints, constrained_flip. now apply nve_step_keeps_constraints.
    + now apply constrained_flip.
    + pose proof (flip_eqs y _ _ (nve_step_reversible s' Hs')) as [E1 E2].
      split; intros b c Hb; [rewrite <- E1 by easy; cbn [flip sp]; ring | rewrite <- E2 by easy; reflexivity].
Qed.

(** ** C77 *)
(** Frozen atoms whose beads coincide never move. *)
Lemma block_frozen o s : plain o -> constrained y s -> forall b c, In c (frozen y) -> (b < n)%nat -> sq (block o s) b c = sq s b c.
Proof.
  intros Ho H b c Hc Hb. rewrite block_cases by easy. destruct o; try easy; [now rewrite kc_q|].
  apply (drift_frozen s c); [|easy]. now apply H.
Qed.
Lemma run_frozen l s : Forall plain l -> constrained y s -> forall b c, In c (frozen y) -> (b < n)%nat -> sq (run l s) b c = sq s b c.
Proof.
  intros F. revert s. induction F as [|o l Ho F IH]; intros s H b c Hc Hb; [easy|]. rewrite run_cons, IH by (try easy; now apply block_constrained).
  now apply block_frozen.
Qed.
Theorem frozen_atoms_stay N s b c : constrained y s -> In c (frozen y) -> (b < n)%nat ->
  sq (Nat.iter N nve s) b c = sq s b c /\ sp (Nat.iter N nve s) b c = 0.
Proof.
  intros H Hc Hb. assert (K : constrained y (Nat.iter N nve s))
    by (induction N as [|N IH]; [easy|]; rewrite iterS; now apply nve_step_keeps_constraints).
  split; [|now apply K]. induction N as [|N IH]; [easy|]. rewrite iterS in *.
  assert (K' : constrained y (Nat.iter N nve s)) by (clear IH K; induction N as [|N IH]; [easy|]; rewrite iterS; now apply nve_step_keeps_constraints).
  rewrite nve_run, run_frozen by (try easy; apply respa_plain). now apply IH.
Qed.

(** ** C78 *)
(** The total momentum is conserved when the forces have no net force, and the constraints then
    neither add nor remove energy. *)
Theorem momentum_conserved s k : fixcom y = false -> frozen y = [] -> no_net_force y -> (k < 3)%nat ->
  total_momentum y (sp (nve s)) k = total_momentum y (sp s) k.
Proof.
  intros F Z Hf Hk. rewrite nve_run. pose proof (respa_plain (nmts y) 0) as Hl. revert s. induction Hl as [|o l Ho _ IH]; intros s; [easy|].
  rewrite run_cons, IH, block_cases by easy. destruct o; try easy; [|apply drift_momentum].
  rewrite (total_ext y _ (fun b c => sp s b c + gforce y l0 (sq s) b c * hl l0)).
  - rewrite total_plus, Hf by easy. ring.
  - intros b c Hb. assert (H0 : constrained y s) by (split; [congruence|]; rewrite Z; easy). rewrite kc_p by easy. unfold projected, is_frozen. rewrite Z, F. cbn [existsb]. ring.
Qed.
Lemma con_eens s : (fixcom y = true -> forall k, (k < 3)%nat -> total_momentum y (sp s) k = 0) ->
  (forall c, In c (frozen y) -> forall b, (b < n)%nat -> sp s b c = 0) -> eens (pconstraints y s) = eens s.
Proof.
  intros H1 H2. assert (E1 : eens (if fixcom y then remove_com y s else s) = eens s).
  { destruct (fixcom y) eqn:F; [|easy]. cbn [remove_com eens Rsum]. rewrite !vcom_total, !H1 by (try easy; lia). unfold Rdiv. ring. }
  unfold pconstraints. destruct (frozen y) as [|c0 l0] eqn:F; [easy|]. assert (Fc : fixcom y = false).
  { destruct (fixcom y) eqn:X; [|easy]. pose proof (v_one y V X). congruence. }
  rewrite Fc. rewrite <- F in *. unfold freeze. cbn [eens]. rewrite (Rsum_0 n); [ring|]. intros k Hk.
  rewrite (Rsuml_map_ext _ (fun _ => 0)); [rewrite Rsuml_map_const; ring|]. intros c Hc. unfold to_nm. rewrite (b2nm_ext _ _ _ (fun _ _ => 0)) by (intros; now apply H2).
  replace (nm_trans_b2nm n (openp r) (fun _ _ => 0) k c) with 0; [unfold Rdiv; ring|]. unfold nm_trans_b2nm, app. symmetry. apply Rsum_0. intros; ring.
Qed.
Theorem constraints_do_no_work s : constrained y s -> (fixcom y = true -> no_net_force y) -> eens (nve s) = eens s.
Proof.
  intros H Hf. rewrite nve_run. pose proof (respa_plain (nmts y) 0) as Hl. revert s H. induction Hl as [|o l Ho _ IH]; intros s H; [easy|].
  rewrite run_cons, IH by now apply block_constrained. rewrite block_cases by easy. destruct o; try easy.
  - unfold kc. rewrite con_eens; [reflexivity| |].
    + intros F k Hk. rewrite (total_ext y _ (fun b c => sp s b c + gforce y l0 (sq s) b c * hl l0)).
      * rewrite total_plus, (proj1 H F k Hk), (Hf F) by easy. ring.
      * intros b c Hb. rewrite pstep_p, nofrozen by easy. reflexivity.
    + intros c Hc b Hb. rewrite pstep_p. rewrite (proj2 (frozen_in y c) Hc). now apply H.
  - clear. unfold drift. now destruct (prop y).
Qed.
End V.

(** ** Cases *)
(** Two atoms and two beads coupled by a spring of every level, total force zero, fixcom; and the
    same with the second atom frozen. *)
Definition spring2 : nat -> mat -> mat := fun _ q b c => if (c <? 3)%nat then q b (c + 3)%nat - q b c else if (c <? 6)%nat then q b (c - 3)%nat - q b c else 0.
Definition ring2 : ring := mkRing 2 2 [] (fun j => INR (S j)) 1 (fun _ => 1) (fun _ => 1).
Lemma ring2_sound : sound ring2.
Proof. split; cbn [ring2 nbeads natoms openp mass wn nmf o_nmf]; try lia; try (intros; lra); try easy; [intros; apply lt_0_INR; lia|constructor]. Qed.
Definition y_com : sys := mkSys ring2 Exact true [] spring2 None [2; 3]%nat (1 / 10) None.
Definition y_frz : sys := mkSys ring2 (Bab 4) false [3; 4; 5]%nat spring2 (Some (fun q b c => - q b c)) [1; 2]%nat (1 / 10) None.
Lemma spring2_agree l q q' : agree 2 q q' -> agree 2 (spring2 l q) (spring2 l q').
Proof. intros H b c Hb. unfold spring2. now rewrite !H by easy. Qed.
Lemma y_com_valid : valid y_com.
Proof.
  split; cbn [y_com ringp prop fixcom frozen mts_f bias_f nmts tstep_dt sc]; try easy; try lra.
  - apply ring2_sound.
  - cbn; lia.
  - split; [easy|]. intros k [<-|[<-|[]]]; lia.
  - apply spring2_agree.
Qed.
Lemma y_frz_valid : valid y_frz.
Proof.
  split; cbn [y_frz ringp prop fixcom frozen mts_f bias_f nmts tstep_dt sc]; try easy; try lra.
  - apply ring2_sound.
  - cbn; lia.
  - lia.
  - split; [easy|]. intros k [<-|[<-|[]]]; lia.
  - apply spring2_agree.
  - intros q q' H b c Hb. now rewrite H.
Qed.
Example com_case : valid y_com /\ no_net_force y_com /\
  constrained y_com (mkSt (fun b c => if (c =? 0)%nat then 1 else if (c =? 3)%nat then -1 else 0) (fun b c => INR (b + c)) 0).
Proof.
  split; [exact y_com_valid|]. split.
  - intros l q k Hk. unfold total_momentum, gforce. cbn [y_com ringp ring2 nbeads natoms mts_f bias_f Rsum]. unfold spring2.
    destruct k as [|[|[|k]]]; [| | |lia]; cbn; ring.
  - split; [|easy]. intros _ k Hk. unfold total_momentum. cbn [y_com ringp ring2 nbeads natoms Rsum sp]. destruct k as [|[|[|k]]]; [| | |lia]; cbn; ring.
Qed.
Example frz_case : valid y_frz /\
  constrained y_frz (mkSt (fun b c => if (c <? 3)%nat then INR b else 0) (fun b c => if (c <? 3)%nat then INR (b + c) else INR c) 0).
Proof.
  split; [exact y_frz_valid|]. split; [easy|]. intros c Hc b Hb. cbn [sp sq].
  destruct Hc as [<-|[<-|[<-|[]]]]; cbn; split; lra.
Qed.

(** ** Where the code falls short *)
(** C77: frozen atoms whose beads are spread do move: the free ring-polymer step does not know
    about them. *)
Definition y_spread (dt : R) : sys := mkSys (mkRing 2 1 [] (fun _ => 1) 1 (fun _ => 1) (fun _ => 1)) Exact false [0; 1; 2]%nat (fun _ _ _ _ => 0) None [1]%nat dt None.
Lemma y_spread_valid dt : dt <> 0 -> valid (y_spread dt).
Proof.
  intros Hdt. split; cbn [y_spread ringp prop fixcom frozen mts_f bias_f nmts tstep_dt sc]; try easy.
  - split; cbn [nbeads natoms openp mass wn nmf o_nmf]; try lia; try (intros; lra); try easy. constructor.
  - cbn; lia.
  - split; [easy|]. intros k [<-|[]]; lia.
Qed.
Lemma spread_step dt s : dt <> 0 -> sq s 0%nat 0%nat + sq s 1%nat 0%nat = 0 ->
  forall b, (b < 2)%nat -> sq (nve (y_spread dt) s) b 0%nat = cos (2 * dt) * sq s b 0%nat.
Proof.
  intros Hdt Hz. pose proof (y_spread_valid dt Hdt) as V. set (y := y_spread dt) in *. set (r := ringp y). assert (Hs : sound r) by apply V.
  (* the step: constrained kick, two drifts, constrained kick *)
  assert (E : nve y s = pconstraints y (pstep y 0 (drift y (drift y (pconstraints y (pstep y 0 s)))))) by reflexivity.
  rewrite E, con_q, pstep_q. clear E. set (s1 := pconstraints y (pstep y 0 s)).
  assert (Q1 : sq s1 = sq s) by (unfold s1; now rewrite con_q).
  assert (P1 : forall b, (b < 2)%nat -> sp s1 b 0%nat = 0) by (intros b Hb; apply frozen_at_rest; [exact Hs|now left|exact Hb]).
  assert (Hh : get_qdt (tstep_dt y) (nmts y) = dt / 2) by (unfold get_qdt; cbn; lra).
  destruct eva_2 as (Ev & _).
  assert (Om : om_of r 1 0 = 2) by (unfold om_of, omegak, r; cbn [y y_spread ringp wn nbeads openp is_open existsb]; rewrite Ev; lra).
  set (d := drift y). assert (M : forall k, (k < 2)%nat -> modes r (sp (d (d s1)), sq (d (d s1))) k 0%nat = dstep y k 0 (dstep y k 0 (modes r (sp s1, sq s1) k 0%nat))).
  { intros k Hk. unfold d, r. rewrite !drift_modes by (try easy; apply V). reflexivity. }
  assert (PM : forall k, (k < 2)%nat -> to_nm y (sp s1) k 0%nat = 0).
  { intros k Hk. unfold to_nm. rewrite (b2nm_ext _ _ _ (fun _ _ => 0)) by exact P1. unfold nm_trans_b2nm, app. apply Rsum_0. intros; ring. }
  assert (Q0 : to_nm y (sq s1) 0%nat 0%nat = 0).
  { rewrite Q1. unfold to_nm. rewrite nm_centroid by (cbn; lia). cbn [y y_spread ringp nbeads Rsum]. replace (0 + sq s 0%nat 0%nat + sq s 1%nat 0%nat) with 0 by lra. unfold Rdiv. ring. }
  apply (beads_of_modes y Hs _ (fun b c => cos (2 * dt) * sq s b c) 0%nat). intros k Hk.
  assert (N : to_nm y (fun b c => cos (2 * dt) * sq s b c) k 0%nat = cos (2 * dt) * to_nm y (sq s1) k 0%nat).
  { rewrite Q1. unfold to_nm. apply (b2nm_scale _ _ (sq s) (fun _ => cos (2 * dt))). }
  rewrite N. specialize (M k Hk). unfold modes in M. cbn [fst snd] in M.
  change (nm_trans_b2nm (nbeads r) (openp r) (sp s1) k 0%nat) with (to_nm y (sp s1) k 0%nat) in M.
  change (nm_trans_b2nm (nbeads r) (openp r) (sq s1) k 0%nat) with (to_nm y (sq s1) k 0%nat) in M.
  change (nm_trans_b2nm (nbeads r) (openp r) (sq (d (d s1))) k 0%nat) with (to_nm y (sq (d (d s1))) k 0%nat) in M.
  rewrite PM in M by easy. cbn in Hk. assert (Hk' : k = 0%nat \/ k = 1%nat) by lia. destruct Hk' as [-> | ->].
  - rewrite Q0 in *. unfold dstep in M. cbn [Nat.eqb fst snd] in M. apply pair_comp in M as [_ M]. rewrite M. unfold Rdiv. ring.
  - unfold dstep in M. cbn [Nat.eqb] in M. change (prop y) with Exact in M. cbv iota in M. fold r in M. rewrite Hh in M.
    rewrite exact_compose in M by (try apply f_pos; try apply Hs; rewrite ?Om; lra).
    rewrite Om in M. replace (f_of r 1 0) with 1 in M by reflexivity. replace (m3 r 0) with 1 in M by reflexivity.
    unfold mode_step, apply_pq, mass_scale, prop_exact in M. cbn [p00 p01 p10 p11 fst snd] in M. rewrite sqrt_1 in M.
    replace (2 * (dt / 2 + dt / 2) / 1) with (2 * dt) in M by lra. apply pair_comp in M as [_ M]. rewrite M. lra.
Qed.
Definition spread0 : st := mkSt (fun _ _ => 0) (fun b c => if (c =? 0)%nat then (if (b =? 0)%nat then 1 else -1) else 0) 0.
Theorem frozen_atoms_stay_refuted : exists y s b c, valid y /\ In c (frozen y) /\ (b < nbeads (ringp y))%nat /\
  (forall b c, sp s b c = 0) /\ sq (nve y s) b c <> sq s b c.
Proof.
  pose proof PI_RGT_0 as HPI. exists (y_spread (PI / 2)), spread0, 0%nat, 0%nat.
  split; [apply y_spread_valid; lra|]. split; [now left|]. split; [cbn; lia|]. split; [easy|].
  rewrite spread_step by (cbn; try lia; lra). replace (2 * (PI / 2)) with PI by lra. rewrite cos_PI. cbn. lra.
Qed.
(** C32: and the momentum they pick up is thrown away, so the step cannot be reversed. *)
Theorem nve_frozen_reversible_refuted : exists y s b c, valid y /\ (forall b c, sp s b c = 0) /\ (b < nbeads (ringp y))%nat /\
  sq (nve y (flip (nve y s))) b c <> sq s b c.
Proof.
  pose proof PI_RGT_0 as HPI. exists (y_spread (PI / 4)), spread0, 0%nat, 0%nat.
  split; [apply y_spread_valid; lra|]. split; [easy|]. split; [cbn; lia|].
  assert (E : forall b, (b < 2)%nat -> sq (nve (y_spread (PI / 4)) spread0) b 0%nat = 0).
  { intros b Hb. rewrite spread_step by (cbn; try lia; lra). replace (2 * (PI / 4)) with (PI / 2) by lra. rewrite cos_PI2. ring. }
  rewrite spread_step by (cbn [flip sq]; rewrite ?E by lia; try lia; lra). cbn [flip sq]. rewrite E by lia. cbn. lra.
Qed.

(** C78: with fixcom and a net force the kick along the centre of mass is removed and booked as
    ensemble energy at every step although nothing moves. *)
Definition y_pull : sys := mkSys (mkRing 1 1 [] (fun _ => 1) 1 (fun _ => 1) (fun _ => 1)) Exact true [] (fun _ _ _ c => if (c =? 0)%nat then 1 else 0) None [1]%nat 2 None.
Lemma y_pull_valid : valid y_pull.
Proof.
  split; cbn [y_pull ringp prop fixcom frozen mts_f bias_f nmts tstep_dt sc]; try easy; try lra.
  - split; cbn [nbeads natoms openp mass wn nmf o_nmf]; try lia; try (intros; lra); try easy. constructor.
  - cbn; lia.
  - split; [easy|]. intros k [<-|[]]; lia.
Qed.
Lemma y_pull_total p k : total_momentum y_pull p k = p 0%nat k.
Proof. unfold total_momentum. cbn. lra. Qed.
Lemma y_pull_M : Mnb y_pull = 1.
Proof. unfold Mnb. cbn. lra. Qed.
Lemma y_pull_kc s : constrained y_pull s -> eens (kc y_pull 0 s) = eens s + 1 / 2.
Proof.
  intros [H _]. specialize (H eq_refl). unfold kc, pconstraints. change (fixcom y_pull) with true. change (frozen y_pull) with (@nil nat). cbv iota.
  unfold remove_com. cbn [eens Rsum]. rewrite !vcom_total, !y_pull_total, y_pull_M, !pstep_p. unfold is_frozen, gforce.
  cbn [y_pull frozen existsb mts_f bias_f Nat.eqb nth get_pdt pdt_loop map nmts tstep_dt eens pstep].
  pose proof (H 0%nat ltac:(lia)) as H0. pose proof (H 1%nat ltac:(lia)) as H1. pose proof (H 2%nat ltac:(lia)) as H2. rewrite y_pull_total in *.
  rewrite H0, H1, H2. cbn. field.
Qed.
Lemma y_pull_drift s c : constrained y_pull s -> (c < 3)%nat -> sq (drift y_pull s) 0%nat c = sq s 0%nat c.
Proof.
  intros [H _] Hc. specialize (H eq_refl c Hc). rewrite y_pull_total in H. pose proof (v_ring _ y_pull_valid) as Hs.
  apply (beads_of_modes y_pull Hs _ _ c); [|cbn; lia]. intros k Hk. cbn in Hk. assert (k = 0%nat) by lia. subst k.
  pose proof (drift_modes y_pull Hs I s 0 c ltac:(cbn; lia)) as M. unfold modes, dstep in M. cbn [Nat.eqb fst snd] in M. apply pair_comp in M as [_ M].
  unfold to_nm. rewrite M. rewrite (nm_centroid _ _ (sp s)) by (cbn; lia). cbn [y_pull ringp nbeads Rsum]. rewrite H. unfold Rdiv. ring.
Qed.
Theorem fixcom_net_force_energy_refuted : exists y s, valid y /\ constrained y s /\ fixcom y = true /\
  forall N, eens (Nat.iter N (nve y) s) = eens s + INR N /\
    forall c, (c < 3 * natoms (ringp y))%nat -> sq (Nat.iter N (nve y) s) 0%nat c = sq s 0%nat c /\ sp (Nat.iter N (nve y) s) 0%nat c = sp s 0%nat c.
Proof.
  pose proof y_pull_valid as V. exists y_pull, (mkSt (fun _ _ => 0) (fun _ _ => 0) 0).
  assert (C0 : constrained y_pull (mkSt (fun _ _ => 0) (fun _ _ => 0) 0)) by (split; [intros; rewrite y_pull_total; reflexivity|easy]).
  split; [exact V|]. split; [exact C0|]. split; [reflexivity|]. set (s := mkSt _ _ _) in *.
  assert (L : forall s, constrained y_pull s -> eens (nve y_pull s) = eens s + 1 /\ forall c, (c < 3)%nat -> sq (nve y_pull s) 0%nat c = sq s 0%nat c).
  { clear. pose proof y_pull_valid as V. intros s C. assert (E : nve y_pull s = kc y_pull 0 (drift y_pull (drift y_pull (kc y_pull 0 s)))) by reflexivity. rewrite E.
    pose proof (constrained_kc _ V 0 s C) as C1. pose proof (constrained_drift _ V _ C1) as C2. pose proof (constrained_drift _ V _ C2) as C3. split.
    - rewrite y_pull_kc by easy. cbn [drift y_pull prop eens]. rewrite y_pull_kc by easy. lra.
    - intros c Hc. rewrite kc_q, !y_pull_drift by easy. now rewrite kc_q. }
  assert (CN : forall N, constrained y_pull (Nat.iter N (nve y_pull) s))
    by (induction N as [|N IH]; [easy|]; rewrite iterS; now apply nve_step_keeps_constraints).
  intros N. split.
  - induction N as [|N IH]; [cbn; lra|]. rewrite iterS, (proj1 (L _ (CN N))), IH, S_INR. lra.
  - intros c Hc. cbn in Hc. split; [|destruct (CN N) as [H _]; specialize (H eq_refl c Hc); rewrite y_pull_total in H; rewrite H; reflexivity].
    induction N as [|N IH]; [easy|]. rewrite iterS, (proj2 (L _ (CN N)) c Hc). exact IH.
Qed.

(** C33: both constraints together (not reachable from the input file) do not give zero total
    momentum; an atom listed twice has its energy counted twice. *)
Definition one (N : nat) : ring := mkRing 1 N [] (fun _ => 1) 1 (fun _ => 1) (fun _ => 1).
Lemma one_sound N : sound (one N).
Proof. split; cbn [one nbeads natoms openp mass wn nmf o_nmf]; try lia; try (intros; lra); try easy. constructor. Qed.
Theorem both_constraints_refuted : exists y s, sound (ringp y) /\ fixcom y = true /\ total_momentum y (sp (pconstraints y s)) 0%nat <> 0.
Proof.
  set (y := mkSys (one 2) Exact true [3; 4; 5]%nat (fun _ _ _ _ => 0) None [1]%nat 1 None).
  exists y, (mkSt (fun _ c => if (c =? 0)%nat then 1 else 0) (fun _ _ => 0) 0). split; [apply one_sound|]. split; [reflexivity|].
  unfold total_momentum. cbn [y ringp one nbeads natoms Rsum]. rewrite !con_p by (try apply one_sound; cbn; lia). cbn [y fixcom is_frozen frozen existsb Nat.eqb Nat.mul Nat.add orb].
  unfold vcom, Mnb. cbn [y ringp one nbeads natoms mass Rsum sp m3]. cbn. lra.
Qed.
Theorem duplicate_frozen_refuted : exists y s, sound (ringp y) /\ nmf (ringp y) 0%nat = 1 /\ fixcom y = false /\ (forall c, In c (frozen y) -> (c < 3 * natoms (ringp y))%nat) /\
  get_kin (ringp y) (to_nm y (sp (pconstraints y s))) + eens (pconstraints y s) <> get_kin (ringp y) (to_nm y (sp s)) + eens s.
Proof.
  set (y := mkSys (one 1) Exact false [0; 0]%nat (fun _ _ _ _ => 0) None [1]%nat 1 None).
  exists y, (mkSt (fun _ c => if (c =? 0)%nat then 1 else 0) (fun _ _ => 0) 0). split; [apply one_sound|]. split; [reflexivity|]. split; [reflexivity|].
  split; [intros c [<-|[<-|[]]]; cbn; lia|]. set (s := mkSt _ _ _).
  assert (Q : forall x c, to_nm y x 0%nat c = x 0%nat c).
  { intros x c. unfold to_nm. rewrite nm_centroid by (cbn; lia). cbn [y ringp one nbeads Rsum]. change (INR 1) with 1. rewrite sqrt_1. field. }
  assert (K : forall p, get_kin (ringp y) (to_nm y p) = (p 0%nat 0%nat ^ 2 + p 0%nat 1%nat ^ 2 + p 0%nat 2%nat ^ 2) / 2).
  { intros p. rewrite kin_columns by apply one_sound. change (nbeads (ringp y)) with 1%nat. change (3 * natoms (ringp y))%nat with 3%nat. cbn [Rsum]. rewrite !Q. unfold m3. cbn [y ringp one mass nmf]. field. }
  rewrite !K, !con_p by (try apply one_sound; cbn; lia).
  unfold pconstraints. change (fixcom y) with false. change (frozen y) with [0; 0]%nat. cbv iota. unfold freeze. cbn [eens].
  change (frozen y) with [0; 0]%nat. change (nbeads (ringp y)) with 1%nat. cbn [map Rsum Rsuml]. rewrite Q. unfold get_dynm3, m3. cbn. lra.
Qed.

(** C78: the Suzuki-Chin kicks do not spare frozen atoms. Their kick is removed by the next
    constraint and its energy booked as ensemble energy, although nothing moves; and the last
    kick of the baoab step is not followed by a constraint at all. *)
Definition y_sc (g : R) : sys := mkSys (mkRing 2 1 [] (fun _ => 1) 1 (fun _ => 1) (fun _ => 1)) Exact false [0; 1; 2]%nat
  (fun _ _ _ c => if (c =? 0)%nat then 1 else 0) None [1]%nat 2 (Some (fun _ _ _ => g)).
Theorem sc_frozen_at_rest_refuted : exists y s b c, sound (ringp y) /\ In c (frozen y) /\ (b < nbeads (ringp y))%nat /\
  (forall b c, sp s b c = 0) /\ sp (exec y (sc_step Baoab (nmts y)) s) b c <> 0.
Proof.
  exists (y_sc 1), (mkSt (fun _ _ => 0) (fun _ _ => 0) 0), 0%nat, 0%nat.
  assert (Hs : sound (ringp (y_sc 1))) by (split; cbn [y_sc ringp nbeads natoms openp mass wn nmf o_nmf]; try lia; try (intros; lra); try easy; constructor).
  split; [exact Hs|]. split; [now left|]. split; [cbn; lia|]. split; [easy|]. set (s := mkSt _ _ _).
  assert (E : exists s', exec (y_sc 1) (sc_step Baoab (nmts (y_sc 1))) s = sc_kick (y_sc 1) (fun _ _ _ => 1) (pconstraints (y_sc 1) s')).
  { eexists. reflexivity. }
  destruct E as [s' E]. rewrite E. unfold sc_kick. cbn [sp]. rewrite (frozen_at_rest (y_sc 1) Hs s' 0 0 (or_introl eq_refl) (s_n _ Hs)). cbn. lra.
Qed.
Lemma y_sc_sound : sound (ringp (y_sc 0)).
Proof. split; cbn [y_sc ringp nbeads natoms openp mass wn nmf o_nmf]; try lia; try (intros; lra); try easy. constructor. Qed.
Definition rest2 (s : st) : Prop := forall b c, (b < 2)%nat -> (c < 3)%nat -> sp s b c = 0 /\ sq s b c = 0.
Lemma y_sc_kick s : rest2 s -> eens (pconstraints (y_sc 0) (sc_pstep (y_sc 0) 0 s)) = eens s + 10 / 9 /\ rest2 (pconstraints (y_sc 0) (sc_pstep (y_sc 0) 0 s)).
Proof.
  intros H. set (y := y_sc 0). set (s1 := sc_pstep y 0 s).
  assert (P1 : forall b c, (b < 2)%nat -> (c < 3)%nat -> sp s1 b c = if (c =? 0)%nat then (if (b =? 0)%nat then 2 / 3 else 4 / 3) else 0).
  { intros b c Hb Hc. unfold s1, sc_pstep. cbn [y y_sc bias_f mts_f sp nmts tstep_dt get_pdt pdt_loop map nth]. rewrite (proj1 (H b c Hb Hc)).
    destruct (c =? 0)%nat; [|unfold Rdiv; ring]. assert (Hb' : b = 0%nat \/ b = 1%nat) by lia. destruct Hb' as [-> | ->]; cbn; field. }
  assert (R2 : rest2 (pconstraints y s1)).
  { intros b c Hb Hc. rewrite con_q. split; [|now apply H]. apply frozen_at_rest; [exact y_sc_sound| |exact Hb].
    cbn. lia. }
  split; [|exact R2].
  pose proof (constraint_energy_accounted y y_sc_sound s1 ltac:(cbn; lia) eq_refl) as E. specialize (E ltac:(cbn [y y_sc frozen]; repeat constructor; cbn; lia)).
  specialize (E ltac:(cbn; lia) (or_introl eq_refl)).
  assert (K : forall p, get_kin (ringp y) (to_nm y p) = Rsum 3 (fun c => Rsum 2 (fun b => p b c ^ 2)) / 2).
  { intros p. rewrite kin_columns by exact y_sc_sound. unfold Rdiv at 2. rewrite <- Rsum_scal_r. apply Rsum_ext. intros c _.
    pose proof (nm_norm 2 [] p c ltac:(lia)) as N. cbn beta in N. unfold to_nm. cbn [y y_sc ringp nbeads openp nmf].
    transitivity (Rsum 2 (fun k => nm_trans_b2nm 2 [] p k c ^ 2) * / 2).
    - rewrite <- Rsum_scal_r. apply Rsum_ext. intros k _. unfold m3. cbn [mass]. field.
    - f_equal. rewrite (Rsum_ext 2 _ (fun k => nm_trans_b2nm 2 [] p k c * nm_trans_b2nm 2 [] p k c)) by (intros; ring). cbn [Rsum] in *. lra. }
  rewrite !K in E. cbn [Rsum] in E.
  assert (R0 : forall b c, (b < 2)%nat -> (c < 3)%nat -> sp (pconstraints y s1) b c = 0) by (intros; now apply R2).
  rewrite !R0, !P1 in E by lia. cbn [Nat.eqb] in E. change (eens s1) with (eens s) in E. lra.
Qed.
Theorem sc_frozen_energy_refuted : exists y s, sound (ringp y) /\ frozen y <> [] /\
  forall N, eens (Nat.iter N (exec y [P 0; Con]) s) = eens s + INR N * (10 / 9) /\
    forall b c, (b < nbeads (ringp y))%nat -> (c < 3 * natoms (ringp y))%nat ->
      sq (Nat.iter N (exec y [P 0; Con]) s) b c = sq s b c /\ sp (Nat.iter N (exec y [P 0; Con]) s) b c = sp s b c.
Proof.
  exists (y_sc 0), (mkSt (fun _ _ => 0) (fun _ _ => 0) 0). split; [exact y_sc_sound|]. split; [discriminate|]. set (s := mkSt _ _ _).
  assert (L : forall N, rest2 (Nat.iter N (exec (y_sc 0) [P 0; Con]) s) /\ eens (Nat.iter N (exec (y_sc 0) [P 0; Con]) s) = eens s + INR N * (10 / 9)).
  { induction N as [|N [I1 I2]]; [split; [easy|cbn; lra]|]. rewrite !iterS. destruct (y_sc_kick _ I1) as [K1 K2]. split; [exact K2|].
    unfold exec at 1. cbn [fold_left exec1 sc y_sc]. fold (y_sc 0). rewrite K1, I2, S_INR. lra. }
  intros N. destruct (L N) as [L1 L2]. split; [exact L2|]. intros b c Hb Hc. cbn in Hb, Hc. destruct (L1 b c Hb Hc) as [-> ->]. easy.
Qed.

Print Assumptions nve_steps_reversible.
Print Assumptions constraint_energy_accounted.
Print Assumptions frozen_atoms_stay.
Print Assumptions constraints_do_no_work.
Print Assumptions frozen_atoms_stay_refuted.
Print Assumptions fixcom_net_force_energy_refuted.
Print Assumptions sc_frozen_energy_refuted.
