(** * Rates of the conserved quantity of the barostats
    What the atoms contribute: the kicks of all levels, and the motion of atoms and cell with
    a given cell velocity. Used for all barostats. *)
From Coq Require Import List Arith Lia Reals Lra FunctionalExtensionality.
From Verif Require Import RSum CellModel BaroModel BaroIso.
From Verif Require ConstrJac.
Import ListNotations.
Open Scope R_scope.

(** Atoms: kinetic energy of centroid and deviations, levels of the potential, springs. *)
Definition kinetic (y : sys) (s : atm) : R :=
  INR (nb y) * Rsum (3 * natoms y) (fun c => 1 / 2 * (pc s c ^ 2 / m3 y c))
  + Rsum (nb y) (fun b => Rsum (3 * natoms y) (fun c => 1 / 2 * (dp s b c ^ 2 / m3 y c))).
Definition kin_dev (y : sys) (p : nat -> vec) : R := Rsum (nb y) (fun b => Rsum (3 * natoms y) (fun c => 1 / 2 * (p b c ^ 2 / m3 y c))).
Definition eatoms (y : sys) (E : nat -> (nat -> vec) -> mat3 -> R) (usp : (nat -> vec) -> R) (s : atm) : R :=
  kinetic y s + Rsum (nlev y) (fun l => E l (pos s) (hh s)) + usp (dq s).

(** Forces and virial are those of the energy: moving the atoms and straining the cell, h(t) =
    A(t) h, changes the energy by - f (dq - A' q) - A' : virial. *)
Definition consistent (y : sys) (E : (nat -> vec) -> mat3 -> R) (f : nat -> vec) (w : mat3) (s : atm) : Prop :=
  forall (q : R -> nat -> vec) (h A : R -> mat3) (d : nat -> vec) (X : mat3),
  (forall b c, (b < nb y)%nat -> (c < 3 * natoms y)%nat -> q 0 b c = pos s b c /\ derivable_pt_lim (fun t => q t b c) 0 (d b c)) ->
  (forall t i j, (i < 3)%nat -> (j < 3)%nat -> h t i j = prod3 (A t) (hh s) i j) ->
  (forall i j, (i < 3)%nat -> (j < 3)%nat -> A 0 i j = eye3 i j /\ derivable_pt_lim (fun t => A t i j) 0 (X i j)) ->
  derivable_pt_lim (fun t => E (q t) (h t)) 0
    (- Rsum (nb y) (fun b => Rsum (natoms y) (fun a => Rsum 3 (fun i =>
         f b (3 * a + i)%nat * (d b (3 * a + i)%nat - Rsum 3 (fun j => X i j * pos s b (3 * a + j)%nat)))))
     - Rsum 3 (fun i => Rsum 3 (fun j => X i j * w i j))).
Definition all_consistent (y : sys) (E : nat -> (nat -> vec) -> mat3 -> R) (s : atm) : Prop :=
  forall l, (l < nlev y)%nat -> consistent y (E l) (fall y l s) (fun i j => vir y l (pos s) (hh s) i j + bvir y l s i j) s.
(** The deviations have no mean. *)
Definition centred (y : sys) (p : nat -> vec) : Prop := forall c, (c < 3 * natoms y)%nat -> Rsum (nb y) (fun b => p b c) = 0.

(** Power of the forces of a level. *)
Definition power (y : sys) (l : nat) (s : atm) : R :=
  Rsum (nb y) (fun b => Rsum (3 * natoms y) (fun c => fall y l s b c * ((pc s c + dp s b c) / m3 y c))).

Lemma d_sq a b k : derivable_pt_lim (fun t => 1 / 2 * ((a + b * t) ^ 2 / k)) 0 (a * b / k).
Proof.
  apply (derivable_ext (fun t => 1 / 2 * (a ^ 2 / k) + ((a * b / k) * t + (1 / 2 * (b ^ 2 / k)) * (t * t)))); [intros t; unfold Rdiv; generalize (/ k); intros; field|].
  eapply derivable_eq; cycle 1.
  - apply (derivable_pt_lim_plus (fun _ => 1 / 2 * (a ^ 2 / k))); [apply derivable_pt_lim_const|].
    apply derivable_pt_lim_plus; [apply (derivable_pt_lim_scal id), derivable_pt_lim_id|].
    apply derivable_pt_lim_scal. apply (derivable_pt_lim_mult id id); apply derivable_pt_lim_id.
  - unfold id. ring.
Qed.
Lemma d_scal k f x l : derivable_pt_lim f x l -> derivable_pt_lim (fun t => k * f t) x (k * l).
Proof. apply derivable_pt_lim_scal. Qed.
Lemma d_plus f g x l l' : derivable_pt_lim f x l -> derivable_pt_lim g x l' -> derivable_pt_lim (fun t => f t + g t) x (l + l').
Proof. apply derivable_pt_lim_plus. Qed.
Lemma d_mult f g x l l' : derivable_pt_lim f x l -> derivable_pt_lim g x l' -> derivable_pt_lim (fun t => f t * g t) x (l * g x + f x * l').
Proof. apply derivable_pt_lim_mult. Qed.
Lemma d_const k x : derivable_pt_lim (fun _ => k) x 0.
Proof. apply derivable_pt_lim_const. Qed.

(** The kick of a level changes the energy of the atoms by the power of its forces. *)
Theorem kick_rate y E usp l s : frozen y = [] -> (0 < nb y)%nat -> centred y (dp s) ->
  derivable_pt_lim (fun t => eatoms y E usp (kick y l t s)) 0 (power y l s).
Proof.
  intros F N C. set (f := fall y l s). set (fm := mean y f). set (U := Rsum (nlev y) (fun l => E l (pos s) (hh s)) + usp (dq s)).
  apply (derivable_ext (fun t => (INR (nb y) * Rsum (3 * natoms y) (fun c => 1 / 2 * ((pc s c + fm c * t) ^ 2 / m3 y c))
     + Rsum (nb y) (fun b => Rsum (3 * natoms y) (fun c => 1 / 2 * ((dp s b c + (f b c - fm c) * t) ^ 2 / m3 y c)))) + U)).
  { intros t. transitivity (kinetic y (kick y l t s) + U); [|unfold eatoms, U; cbn [kick kicked]; symmetry; apply Rplus_assoc].
    apply (f_equal (fun z => z + U)). unfold kinetic. apply f_equal2.
    - apply f_equal. apply Rsum_ext. intros c _. rewrite pc_kick by assumption. reflexivity.
    - apply Rsum_ext. intros b _. apply Rsum_ext. intros c _. rewrite dp_kick by assumption. reflexivity. }
  eapply derivable_eq; cycle 1.
  - apply d_plus; [|apply d_const]. apply d_plus.
    + apply d_scal. apply derivable_Rsum. intros c _. apply d_sq.
    + apply derivable_Rsum. intros b _. apply derivable_Rsum. intros c _. apply d_sq.
  - rewrite Rplus_0_r. unfold power. fold f.
    assert (Nz : INR (nb y) <> 0) by (apply not_0_INR; lia).
    rewrite (Rsum_swap (nb y) (3 * natoms y)), (Rsum_swap (nb y) (3 * natoms y)). rewrite <- Rsum_scal, <- Rsum_plus.
    apply Rsum_ext. intros c Hc.
    assert (Fm : Rsum (nb y) (fun b => f b c) = INR (nb y) * fm c) by (unfold fm, mean; field; exact Nz).
    rewrite (Rsum_ext (nb y) (fun b => dp s b c * (f b c - fm c) / m3 y c) (fun b => dp s b c * f b c * / m3 y c - fm c * / m3 y c * dp s b c)) by (intros b _; unfold Rdiv; ring).
    rewrite Rsum_minus, Rsum_scal, (C c Hc).
    rewrite (Rsum_ext (nb y) (fun b => f b c * ((pc s c + dp s b c) / m3 y c)) (fun b => (pc s c * / m3 y c) * f b c + dp s b c * f b c * / m3 y c)) by (intros b _; unfold Rdiv; ring).
    rewrite Rsum_plus, Rsum_scal, Fm. unfold Rdiv. ring.
Qed.

(** Atoms and cell moving with the velocity [v] of the cell. *)
Record drifts (y : sys) (v : mat3) (s : atm) (x : R -> atm) : Prop :=
  { dr_pos : forall b c, (b < nb y)%nat -> (c < 3 * natoms y)%nat -> pos (x 0) b c = pos s b c;
    dr_pc0 : forall c, (c < 3 * natoms y)%nat -> pc (x 0) c = pc s c;
    dr_qc : forall a i, (a < natoms y)%nat -> (i < 3)%nat -> derivable_pt_lim (fun t => qc (x t) (3 * a + i)%nat) 0
       (pc s (3 * a + i)%nat / m y a + Rsum 3 (fun j => v i j * qc s (3 * a + j)%nat));
    dr_pc : forall a i, (a < natoms y)%nat -> (i < 3)%nat -> derivable_pt_lim (fun t => pc (x t) (3 * a + i)%nat) 0
       (- Rsum 3 (fun j => v i j * pc s (3 * a + j)%nat));
    dr_h : exists A, (forall t i j, (i < 3)%nat -> (j < 3)%nat -> hh (x t) i j = prod3 (A t) (hh s) i j)
       /\ forall i j, (i < 3)%nat -> (j < 3)%nat -> A 0 i j = eye3 i j /\ derivable_pt_lim (fun t => A t i j) 0 (v i j) }.
(** The ring polymer relative to its centroid moves freely, and keeps its energy (C29). *)
Definition free_motion (y : sys) (usp : (nat -> vec) -> R) (s : atm) (x : R -> atm) : Prop :=
  (forall b c, (b < nb y)%nat -> (c < 3 * natoms y)%nat -> derivable_pt_lim (fun t => dq (x t) b c) 0 (dp s b c / m3 y c))
  /\ derivable_pt_lim (fun t => kin_dev y (dp (x t)) + usp (dq (x t))) 0 0.

(** Kinetic stress of the centroid, all components. *)
Definition kin_tensor (y : sys) (s : atm) : mat3 := fun i j =>
  INR (nb y) * Rsum (natoms y) (fun a => pc s (3 * a + i)%nat * (pc s (3 * a + j)%nat / m y a)).
(** What straining the deviations does to a level: f_i (q - qc)_j. *)
Definition dev_vir (y : sys) (l : nat) (s : atm) : mat3 := fun i j =>
  Rsum (nb y) (fun b => Rsum (natoms y) (fun a => fall y l s b (3 * a + i)%nat * dq s b (3 * a + j)%nat)).
Definition contract (A B : mat3) : R := Rsum 3 (fun i => Rsum 3 (fun j => A i j * B i j)).
Lemma contract_ext A B C : (forall i j, (i < 3)%nat -> (j < 3)%nat -> B i j = C i j) -> contract A B = contract A C.
Proof. intros H. unfold contract. apply Rsum_ext. intros i Hi. apply Rsum_ext. intros j Hj. now rewrite H. Qed.
Lemma contract_plus A B C : contract A (fun i j => B i j + C i j) = contract A B + contract A C.
Proof. unfold contract. rewrite <- Rsum_plus. apply Rsum_ext. intros i _. rewrite <- Rsum_plus. apply Rsum_ext. intros j _. ring. Qed.
Lemma contract_scal A k B : contract A (fun i j => k * B i j) = k * contract A B.
Proof. unfold contract. rewrite <- Rsum_scal. apply Rsum_ext. intros i _. rewrite <- Rsum_scal. apply Rsum_ext. intros j _. ring. Qed.
Lemma contract_sum A n (F : nat -> mat3) : contract A (fun i j => Rsum n (fun k => F k i j)) = Rsum n (fun k => contract A (F k)).
Proof.
  induction n as [|n IH]; cbn [Rsum].
  - unfold contract. apply Rsum_0. intros i _. apply Rsum_0. intros j _. ring.
  - rewrite <- IH, <- contract_plus. reflexivity.
Qed.
Theorem drift_rate y E usp v s x : all_consistent y E s -> drifts y v s x -> free_motion y usp s x ->
  derivable_pt_lim (fun t => eatoms y E usp (x t)) 0
    (Rsum (nlev y) (fun l => - power y l s + contract v (dev_vir y l s) - contract v (fun i j => vir y l (pos s) (hh s) i j + bvir y l s i j))
     - contract v (kin_tensor y s)).
Proof.
  intros C D (Fq & Fe). destruct D as [Dp Dp0 Dq Dpc (A & Hh & HA)].
  apply (derivable_ext (fun t => INR (nb y) * Rsum (natoms y) (fun a => Rsum 3 (fun i => 1 / 2 * (pc (x t) (3 * a + i)%nat * pc (x t) (3 * a + i)%nat * / m y a)))
     + (Rsum (nlev y) (fun l => E l (pos (x t)) (hh (x t))) + (kin_dev y (dp (x t)) + usp (dq (x t)))))).
  { intros t. unfold eatoms, kinetic, kin_dev. rewrite ConstrJac.Rsum_3.
    rewrite (Rsum_ext (natoms y) (fun a => Rsum 3 (fun k => 1 / 2 * (pc (x t) (3 * a + k)%nat ^ 2 / m3 y (3 * a + k))))
       (fun a => Rsum 3 (fun i => 1 / 2 * (pc (x t) (3 * a + i)%nat * pc (x t) (3 * a + i)%nat * / m y a)))); [ring|].
    intros a _. apply Rsum_ext. intros i Hi. rewrite m3_at by assumption. unfold Rdiv. ring. }
  eapply derivable_eq; cycle 1.
  - apply d_plus.
    + apply d_scal. apply derivable_Rsum. intros a Ha. apply derivable_Rsum. intros i Hi. apply d_scal.
      apply (d_mult (fun t => pc (x t) (3 * a + i)%nat * pc (x t) (3 * a + i)%nat) (fun _ => / m y a)); [|apply d_const].
      apply d_mult; apply Dpc; assumption.
    + apply d_plus; [|exact Fe]. apply derivable_Rsum. intros l Hl.
      apply (C l Hl (fun t => pos (x t)) (fun t => hh (x t)) A
        (fun b c => (pc s c / m3 y c + Rsum 3 (fun j => v (c mod 3)%nat j * qc s (3 * (c / 3) + j)%nat)) + dp s b c / m3 y c) v); [|exact Hh|exact HA].
      intros b c Hb Hc. split; [apply Dp; assumption|]. unfold pos. apply d_plus; [|apply Fq; assumption].
      pose proof (Nat.div_mod c 3 ltac:(lia)) as Ec. assert (Hm : (c mod 3 < 3)%nat) by (apply Nat.mod_upper_bound; lia).
      assert (Ha : (c / 3 < natoms y)%nat) by (apply Nat.div_lt_upper_bound; lia).
      specialize (Dq (c / 3)%nat (c mod 3)%nat Ha Hm). rewrite <- Ec in Dq. exact Dq.
  - rewrite Rplus_0_r, Rplus_comm. match goal with |- _ = ?a - ?b => change (a - b) with (a + - b) end. apply f_equal2.
    + apply Rsum_ext. intros l _. apply (f_equal2 Rminus); [|reflexivity].
      unfold power, dev_vir. rewrite contract_sum.
      rewrite (Rsum_ext (nb y) (fun k => contract v (fun i j => Rsum (natoms y) (fun a => fall y l s k (3 * a + i)%nat * dq s k (3 * a + j)%nat)))
        (fun k => Rsum (natoms y) (fun a => contract v (fun i j => fall y l s k (3 * a + i)%nat * dq s k (3 * a + j)%nat)))) by (intros b _; apply contract_sum).
      rewrite <- !Rsum_opp, <- Rsum_plus. apply Rsum_ext. intros b Hb. rewrite ConstrJac.Rsum_3, <- !Rsum_opp, <- Rsum_plus.
      apply Rsum_ext. intros a Ha. unfold contract. cbn [Rsum]. rewrite !ConstrJac.div3, !ConstrJac.mod3, !m3_at by lia. unfold pos. unfold Rdiv. ring.
    + unfold kin_tensor. rewrite contract_scal, contract_sum. rewrite Ropp_mult_distr_r. apply f_equal. rewrite <- Rsum_opp.
      apply Rsum_ext. intros a Ha. unfold contract. cbn [Rsum]. rewrite !Dp0 by lia. unfold Rdiv. generalize (/ m y a). intros im. field.
Qed.
