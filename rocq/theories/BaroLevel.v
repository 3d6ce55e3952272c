(** * The barostats level by level *)
From Coq Require Import List Arith Lia Reals Lra.
From Coquelicot Require Import Coquelicot.
From Verif Require Import RSum CellModel BaroModel.
From Verif Require SCModel.
Open Scope R_scope.

Lemma Rsum_by3 n (f : vec) : Rsum n (fun a => f (3 * a)%nat + f (3 * a + 1)%nat + f (3 * a + 2)%nat) = Rsum (3 * n) f.
Proof.
  induction n as [|n IH]; [reflexivity|]. replace (3 * S n)%nat with (S (S (S (3 * n)))) by lia. cbn [Rsum]. rewrite IH. replace (S (3 * n)) with (3 * n + 1)%nat by lia. replace (S (3 * n + 1)) with (3 * n + 2)%nat by lia. ring.
Qed.
(** Sum over beads and coordinates of deviation times force. *)
Definition dev_work (y : sys) (s : atm) (f : nat -> vec) : R := Rsum (nb y) (fun b => Rsum (3 * natoms y) (fun c => dq s b c * f b c)).
Lemma trace_kstress y f s : trace (kstress y f s) = - dev_work y s f.
Proof.
  unfold trace, kstress, dev_work. rewrite <- !Ropp_plus_distr, <- !Rsum_plus. f_equal. apply Rsum_ext. intros b _. rewrite <- !Rsum_plus, <- Rsum_by3. apply Rsum_ext. intros a _. now rewrite Nat.add_0_r.
Qed.
(** What the kick of a level and the barostat of the same level take: the forces of the level, and
    with level 0 the bias. *)
Definition level_force (y : sys) (l : nat) (s : atm) : nat -> vec := fun b c =>
  force y l (pos s) (hh s) b c + match bias y, l with Some (f, _), O => f (pos s) (hh s) b c | _, _ => 0 end.
Definition level_vir (y : sys) (l : nat) (s : atm) : mat3 := fun i j =>
  vir y l (pos s) (hh s) i j + match bias y, l with Some (_, v), O => v (pos s) (hh s) i j | _, _ => 0 end.
(** Atoms and barostat get the momentum of one and the same potential at each level: forces and
    virial of [l], both with the bias or both without. *)
Theorem bzp_level y l dt s P : frozen y = nil -> vol s <> 0 -> innermost y l = false -> exists s' P', npt_pstep y l dt (s, P) = (s', P') /\
  P' = P + dt * (trace (level_vir y l s) - dev_work y s (level_force y l s)) /\
  forall b c, pc s' c + dp s' b c = pc s c + dp s b c + dt * level_force y l s b c.
Proof.
  intros Z V I. eexists. eexists. split; [reflexivity|]. split.
  - unfold bzp_pstep. rewrite I. assert (E : trace (stress_mts y l s) = (trace (kstress y (fall y l s) s) + trace (level_vir y l s)) / vol s).
    { unfold trace, stress_mts, kstress_mts, level_vir, bvir. rewrite I. destruct (bias y) as [[f v]|], l; cbn [Nat.eqb]; field; exact V. }
    rewrite E, trace_kstress. replace (dev_work y s (fall y l s)) with (dev_work y s (level_force y l s)); [field; exact V|].
    unfold dev_work, fall, fbias, level_force. apply Rsum_ext. intros b _. apply Rsum_ext. intros c _. destruct (bias y) as [[f v]|], l; reflexivity.
  - intros b c. unfold kick, kicked, mean, is_frozen. cbn [pc dp]. rewrite Z. cbn [existsb]. unfold fall, fbias, level_force. destruct (bias y) as [[f v]|], l; cbn [Nat.eqb]; ring.
Qed.
(** At the innermost level there is besides the pressure of the centroid, the external pressure
    and the temperature (first order in the time step). *)
Theorem bzp_level_innermost y l s P : vol s <> 0 -> innermost y l = true ->
  derivable_pt_lim (fun dt => bzp_pstep y l dt s P) 0
    (trace (level_vir y l s) - dev_work y s (level_force y l s) + INR (nb y) * dotm y (pc s) (pc s) - 3 * vol s * INR (nb y) * pext y + 3 * kT y).
Proof.
  intros V I. assert (E : trace (stress_mts y l s) = (trace (kstress y (fall y l s) s) + (kin_diag y s 0 + kin_diag y s 1 + kin_diag y s 2) + trace (level_vir y l s)) / vol s).
  { unfold trace, stress_mts, kstress_mts, level_vir, bvir. rewrite I. destruct (bias y) as [[f v]|], l; cbn [Nat.eqb]; field; exact V. }
  assert (K : kin_diag y s 0 + kin_diag y s 1 + kin_diag y s 2 = INR (nb y) * dotm y (pc s) (pc s)).
  { unfold kin_diag, dotm. rewrite <- !Rmult_plus_distr_r, <- !Rsum_plus, Rmult_comm. f_equal. rewrite <- Rsum_by3. apply Rsum_ext. intros a _. unfold m3. rewrite Nat.add_0_r.
    replace (3 * a / 3)%nat with a by (apply (Nat.div_unique _ _ _ 0); lia). replace ((3 * a + 1) / 3)%nat with a by (apply (Nat.div_unique _ _ _ 1); lia).
    replace ((3 * a + 2) / 3)%nat with a by (apply (Nat.div_unique _ _ _ 2); lia). reflexivity. }
  assert (D : dev_work y s (fall y l s) = dev_work y s (level_force y l s)).
  { unfold dev_work, fall, fbias, level_force. apply Rsum_ext. intros b _. apply Rsum_ext. intros c _. destruct (bias y) as [[f v]|], l; reflexivity. }
  set (A := trace (level_vir y l s) - dev_work y s (level_force y l s) + INR (nb y) * dotm y (pc s) (pc s) - 3 * vol s * INR (nb y) * pext y + 3 * kT y).
  apply (derivable_ext (fun dt => P + A * dt + (dotm y (pc s) (fc y l s) + dt / 3 * dotm y (fc y l s) (fc y l s)) * (dt * dt * INR (nb y)))).
  - intros dt. unfold bzp_pstep. rewrite I, E, trace_kstress, K, D. unfold A. field. exact V.
  - set (B := dotm y (pc s) (fc y l s)). set (C := dotm y (fc y l s) (fc y l s)). set (n := INR (nb y)).
    clearbody A B C n. apply is_derive_Reals. auto_derive; [trivial|field].
Qed.
(** pscstep: the second part of the Suzuki-Chin forces and its virial. *)
Theorem pscstep_level y f2 vir2 halfdt s P : vol s <> 0 -> scbzp_pscstep y f2 vir2 halfdt s P = P + halfdt * (trace vir2 - dev_work y s f2).
Proof.
  intros V. unfold scbzp_pscstep. assert (E : trace (stress_sc y f2 vir2 s) = (trace (kstress y f2 s) + trace vir2) / vol s) by (unfold trace, stress_sc; field; exact V).
  rewrite E, trace_kstress. field. exact V.
Qed.
(** The coefficients are those of the forces (area SC). *)
Theorem coeffsc_forces b : coeffsc b = SCModel.coeffsc_part_1 b.
Proof. unfold coeffsc, SCModel.coeffsc_part_1, SCModel.even_b. destruct (Nat.eqb (b mod 2) 0); field. Qed.
(** Two levels with a bias meet the hypotheses. *)
Example bzp_level_case : exists y s, frozen y = nil /\ vol s <> 0 /\ innermost y 0 = false /\ innermost y 1 = true /\ bias y <> None /\ level_force y 0 s 0%nat 0%nat <> level_force y 1 s 0%nat 0%nat.
Proof.
  exists (Sys 1 1 (fun _ => 1) 1 1 1 2 nil (fun _ _ _ _ _ => 0) (fun _ _ _ _ _ => 0) (Some (fun _ _ _ _ => 1, fun _ _ _ _ => 1))), (Atm (fun _ => 0) (fun _ => 0) (fun _ _ => 0) (fun _ _ => 0) (fun i j => if Nat.eqb i j then 1 else 0)).
  split; [reflexivity|]. split; [unfold vol, det_ut3x3; cbn; lra|]. split; [reflexivity|]. split; [reflexivity|]. split; [discriminate|]. unfold level_force. cbn. lra.
Qed.
Print Assumptions bzp_level.
Print Assumptions bzp_level_innermost.
Print Assumptions pscstep_level.
Print Assumptions coeffsc_forces.
