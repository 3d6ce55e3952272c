(** * Theorems of record: the internal pair and harmonic force fields *)
From Coq Require Import Bool List Reals ZArith Lra Lia Arith.
From Flocq Require Import Core.
From Verif Require Import RSum PairModel PairProofs.
Import ListNotations.
Open Scope R_scope.

(** ** C24: total momentum *)
(** Sum of all forces along a Cartesian direction. *)
Definition total_force (nat_ : nat) (f : coords) (k : nat) : R := Rsum nat_ (fun a => f a k).

Theorem lj_total_force_zero eps sigma nat_ q k :
  (k < 3)%nat -> total_force nat_ (snd (lj eps sigma nat_ q)) k = 0.
Proof.
  intros Hk. unfold total_force, lj. cbv zeta.
  destruct (pair_loop _ _ (nat_ - 1)) as [v f] eqn:E. cbn [snd].
  destruct nat_ as [|n]; [easy|]. replace (S n - 1)%nat with n in E by lia.
  replace f with (snd (v, f)) by easy. rewrite <- E. now apply pair_total_zero.
Qed.

Theorem dmd_total_force_zero coupling periodic h ih nat_ q k :
  (k < 3)%nat -> total_force nat_ (snd (fst (dmd coupling periodic h ih nat_ q))) k = 0.
Proof.
  intros Hk. unfold total_force, dmd. cbv zeta.
  destruct (pair_loop _ _ (nat_ - 1)) as [v f] eqn:E. cbn [snd fst].
  destruct nat_ as [|n]; [easy|]. replace (S n - 1)%nat with n in E by lia.
  replace f with (snd (v, f)) by easy. rewrite <- E. now apply pair_total_zero.
Qed.

(** Newton's third law: the force on every atom is the sum over the other atoms of a
    function of the two positions that changes sign when the two are exchanged. *)
Theorem lj_newton eps sigma nat_ q :
  exists F : vec -> vec -> vec,
    (forall x y k, F x y k = - F y x k) /\
    (forall a k, (a < nat_)%nat ->
       snd (lj eps sigma nat_ q) a k = Rsum nat_ (fun b => if (b =? a)%nat then 0 else F (q a) (q b) k)).
Proof.
  exists (fun x y => lj_g (6 * (eps * 4)) (sigma * sigma) (fun k => x k - y k)). split.
  - intros x y k. rewrite <- lj_g_odd. unfold lj_g.
    replace (norm2 (fun k0 => - (y k0 - x k0))) with (norm2 (fun k0 => x k0 - y k0)); [ring|].
    unfold norm2. apply Rsum_ext. intros; ring.
  - intros a k Ha. unfold lj. cbv zeta.
    destruct (pair_loop _ _ (nat_ - 1)) as [v f] eqn:E. cbn [snd].
    destruct nat_ as [|n]; [lia|]. replace (S n - 1)%nat with n in E by lia.
    replace f with (snd (v, f)) by easy. rewrite <- E. apply pair_sum_others; [|lia].
    intros i j c. rewrite <- lj_g_odd. unfold lj_g.
    replace (norm2 (fun k0 => - sep q j i k0)) with (norm2 (sep q i j)); [unfold sep; ring|].
    unfold norm2, sep. apply Rsum_ext. intros; ring.
Qed.

Theorem minimum_image_antisymmetric h ih qi qj k :
  vector_separation h ih qj qi k = - vector_separation h ih qi qj k.
Proof. apply separation_odd. Qed.

(** ** C69: the force is minus the gradient of the energy *)
(** [f] is minus the gradient at [q] of the energy [V]: the derivative along every
    displacement [d] is minus the work of [f]. *)
Definition minus_gradient (nat_ : nat) (V : coords -> R) (f : coords) (q : coords) : Prop :=
  forall d : coords,
    derivable_pt_lim (fun t => V (fun a k => q a k + t * d a k)) 0
      (- Rsum nat_ (fun a => Rsum 3 (fun k => f a k * d a k))).

(** Two different atoms are at different places. *)
Definition distinct (nat_ : nat) (q : coords) : Prop :=
  forall i j, (j < i < nat_)%nat -> exists k, (k < 3)%nat /\ q i k <> q j k.

Lemma distinct_norm2 d k : (k < 3)%nat -> d k <> 0 -> norm2 d <> 0.
Proof.
  intros Hk Hd H. unfold norm2 in H. assert (Hs : d k * d k = 0).
  { apply (Rsum_eq0 3 (fun k => d k * d k)); [|easy|easy]. intros; apply Rle_0_sqr. }
  apply Rmult_integral in Hs. tauto.
Qed.

Theorem lj_force_is_gradient eps sigma nat_ q :
  distinct nat_ q ->
  minus_gradient nat_ (fun x => fst (lj eps sigma nat_ x)) (snd (lj eps sigma nat_ q)) q.
Proof.
  intros Hq d. destruct nat_ as [|n].
  { cbn. rewrite Ropp_0. apply (derivable_ext (fun _ => 0 * (eps * 4))); [easy|]. apply derivable_pt_lim_const. }
  set (e := fun x i j => lj_e (sigma * sigma) (sep x i j)).
  set (g := fun x i j => lj_g (6 * (eps * 4)) (sigma * sigma) (sep x i j)).
  assert (Hlj : forall x, lj eps sigma (S n) x = (fst (pair_loop (e x) (g x) n) * (eps * 4), snd (pair_loop (e x) (g x) n))).
  { intros x. unfold lj. cbv zeta. replace (S n - 1)%nat with n by lia. unfold e, g. now destruct (pair_loop _ _ n). }
  rewrite Hlj. cbn [snd].
  apply (derivable_ext (fun t => Rsum (S n) (fun i => Rsum i (fun j => e (fun a k => q a k + t * d a k) i j * (eps * 4))))).
  { intros t. rewrite Hlj. cbn [fst]. rewrite pair_loop_fst, <- Rsum_scal_r. apply Rsum_ext. intros i _.
    now rewrite <- Rsum_scal_r. }
  apply (gradient_sum (e q) (g q) n q (fun i j t => e (fun a k => q a k + t * d a k) i j * (eps * 4)) d).
  intros i j Hij. destruct (Hq i j ltac:(lia)) as (k & Hk & Hne).
  assert (Hn : norm2 (sep q i j) <> 0) by (apply (distinct_norm2 _ k); [easy|unfold sep; lra]).
  pose proof (lj_pair_gradient eps (sigma * sigma) (sep q i j) (fun k => d i k - d j k) Hn) as H.
  unfold g. eapply derivable_ext; [|exact H]. intros t. unfold e. f_equal.
  unfold lj_e. replace (norm2 (sep (fun a k0 => q a k0 + t * d a k0) i j)) with
    (norm2 (fun k0 => sep q i j k0 + t * (d i k0 - d j k0))); [easy|].
  unfold norm2, sep. apply Rsum_ext. intros; ring.
Qed.

(** The oscillating pair potential in a cell [h] with inverse [ih], when no two atoms
    coincide and no pair is exactly half-way between two periodic images. *)
Theorem dmd_force_is_gradient coupling periodic h ih nat_ q :
  inverse3 h ih ->
  (forall i j, (j < i < nat_)%nat -> inside h ih (q i) (q j) /\ norm2 (vector_separation h ih (q i) (q j)) <> 0) ->
  minus_gradient nat_ (fun x => fst (fst (dmd coupling periodic h ih nat_ x)))
    (snd (fst (dmd coupling periodic h ih nat_ q))) q.
Proof.
  intros Hh Hq d. destruct nat_ as [|n].
  { cbn. rewrite Ropp_0. apply (derivable_ext (fun _ => 0)); [easy|]. apply derivable_pt_lim_const. }
  set (e := fun (x : coords) i j => cpl coupling i j * sqrt (norm2 (vector_separation h ih (x i) (x j))) * periodic).
  set (g := fun (x : coords) i j k => vector_separation h ih (x i) (x j) k * - (cpl coupling i j / sqrt (norm2 (vector_separation h ih (x i) (x j)))) * periodic).
  assert (Hd : forall x, fst (dmd coupling periodic h ih (S n) x) = pair_loop (e x) (g x) n).
  { intros x. unfold dmd. cbv zeta. replace (S n - 1)%nat with n by lia. unfold e, g.
    match goal with |- fst (let '(_, _) := ?p in _) = _ => now destruct p eqn:E end. }
  rewrite Hd.
  apply (derivable_ext (fun t => Rsum (S n) (fun i => Rsum i (fun j => e (fun a k => q a k + t * d a k) i j)))).
  { intros t. now rewrite Hd, pair_loop_fst. }
  apply (gradient_sum (e q) (g q) n q (fun i j t => e (fun a k => q a k + t * d a k) i j) d).
  intros i j Hij. destruct (Hq i j ltac:(lia)) as (Hin & Hn).
  unfold e, g. apply (dmd_pair_gradient (cpl coupling i j) periodic h ih (q i) (q j) (d i) (d j)); easy.
Qed.

(** The virial returned by the oscillating potential is symmetric, and its trace is minus
    the energy (the energy is homogeneous of degree one in the separations). *)
Theorem dmd_virial coupling periodic h ih nat_ q :
  (forall a b, snd (dmd coupling periodic h ih nat_ q) a b = snd (dmd coupling periodic h ih nat_ q) b a) /\
  ((forall i j, (j < i < nat_)%nat -> norm2 (vector_separation h ih (q i) (q j)) <> 0) ->
   Rsum 3 (fun a => snd (dmd coupling periodic h ih nat_ q) a a) = - fst (fst (dmd coupling periodic h ih nat_ q))).
Proof.
  split.
  - intros a b. unfold dmd. cbv zeta. destruct (pair_loop _ _ _). cbn [snd].
    apply Rsum_ext. intros i _. apply Rsum_ext. intros j _. ring.
  - intros Hn. unfold dmd. cbv zeta. destruct (pair_loop _ _ _) as [v f] eqn:E. cbn [snd fst].
    assert (Ev : v = Rsum nat_ (fun i => Rsum i (fun j => cpl coupling i j * sqrt (norm2 (vector_separation h ih (q i) (q j))) * periodic))).
    { replace v with (fst (v, f)) by easy. rewrite <- E, pair_loop_fst. destruct nat_ as [|n]; [cbn; lra|]. replace (S (S n - 1)) with (S n) by lia. easy. }
    rewrite Ev, <- Rsum_opp, Rsum_swap. apply Rsum_ext. intros i Hi. rewrite <- Rsum_opp, Rsum_swap. apply Rsum_ext. intros j Hj.
    specialize (Hn i j ltac:(lia)). set (d := vector_separation h ih (q i) (q j)) in *.
    assert (Hp : 0 < norm2 d) by (pose proof (norm2_nonneg d); lra). pose proof (sqrt_lt_R0 _ Hp) as Hs.
    rewrite (Rsum_ext 3 _ (fun a => (- (cpl coupling i j / sqrt (norm2 d)) * periodic) * (d a * d a))) by (intros; ring).
    rewrite Rsum_scal. fold (norm2 d). rewrite <- (sqrt_sqrt (norm2 d)) at 2 by lra. field. lra.
Qed.

(** The harmonic crystal, for a symmetric Hessian. *)
Definition minus_gradient1 (n : nat) (V : vec -> R) (f : vec) (q : vec) : Prop :=
  forall d : vec, derivable_pt_lim (fun t => V (fun k => q k + t * d k)) 0 (- Rsum n (fun k => f k * d k)).

Lemma debye_derivative H xref vref n q d :
  derivable_pt_lim (fun t => fst (debye H xref vref n (fun k => q k + t * d k))) 0
    (/ 2 * Rsum n (fun i => Rsum n (fun j => H i j * (d i * (q j - xref j) + (q i - xref i) * d j)))).
Proof.
  set (x := fun k => q k - xref k).
  apply (derivable_ext (fun t => vref + mult_real_fct (/ 2) (fun t => Rsum n (fun i => Rsum n (fun j => H i j * ((x i + t * d i) * (x j + t * d j))))) t)).
  { intros t. unfold mult_real_fct, debye. cbn [fst]. f_equal. f_equal. apply Rsum_ext. intros i _. rewrite <- Rsum_scal.
    apply Rsum_ext. intros j _. unfold x. ring. }
  eapply derivable_eq; [|apply (derivable_pt_lim_plus (fun _ => vref) (mult_real_fct (/ 2) _)); [apply derivable_pt_lim_const|]].
  1: rewrite Rplus_0_l; reflexivity.
  apply derivable_pt_lim_scal.
  apply (derivable_Rsum n (fun i t => Rsum n (fun j => H i j * ((x i + t * d i) * (x j + t * d j))))). intros i _.
  apply (derivable_Rsum n (fun j t => H i j * ((x i + t * d i) * (x j + t * d j)))). intros j _.
  assert (L : forall k, derivable_pt_lim (fun t => x k + t * d k) 0 (d k)).
  { intros k. eapply derivable_eq; [|apply (derivable_pt_lim_plus (fun _ => x k) (fun t => t * d k));
      [apply derivable_pt_lim_const | apply (derivable_pt_lim_mult id (fun _ => d k)); [apply derivable_pt_lim_id | apply derivable_pt_lim_const]]].
    unfold id. ring. }
  apply (derivable_ext (mult_real_fct (H i j) (fun t => (x i + t * d i) * (x j + t * d j)))); [easy|].
  eapply derivable_eq; [|apply derivable_pt_lim_scal, (derivable_pt_lim_mult _ _ 0 _ _ (L i) (L j))].
  unfold x. ring.
Qed.

Theorem debye_force_is_gradient H xref vref n q :
  (forall i j, H i j = H j i) ->
  minus_gradient1 n (fun x => fst (debye H xref vref n x)) (snd (debye H xref vref n q)) q.
Proof.
  intros Hs d. eapply derivable_eq; [|apply debye_derivative]. unfold debye. cbn [snd].
  set (x := fun k => q k - xref k).
  assert (E1 : Rsum n (fun i => Rsum n (fun j => H i j * (d i * (q j - xref j) + (q i - xref i) * d j)))
       = Rsum n (fun i => Rsum n (fun j => H i j * x j * d i)) + Rsum n (fun i => Rsum n (fun j => H j i * x i * d j))).
  { rewrite <- Rsum_plus. apply Rsum_ext. intros i _. rewrite <- Rsum_plus. apply Rsum_ext. intros j _.
    rewrite (Hs j i). unfold x. ring. }
  rewrite E1, (Rsum_swap n n (fun i j => H j i * x i * d j)).
  rewrite <- Rsum_opp.
  rewrite (Rsum_ext n (fun i => - (- Rsum n (fun j => H i j * (q j - xref j)) * d i)) (fun i => Rsum n (fun j => H i j * x j * d i))).
  2:{ intros i _. rewrite Rsum_scal_r. unfold x. ring. }
  lra.
Qed.

(** A Hessian that is not symmetric is accepted (only its shape is checked) and the force
    is then not minus the gradient of the reported energy. *)
Theorem debye_asymmetric_refuted : exists H xref vref q,
  ~ minus_gradient1 3 (fun x => fst (debye H xref vref 3 x)) (snd (debye H xref vref 3 q)) q.
Proof.
  set (H := fun i j => match i, j with 0%nat, 1%nat => 2 | _, _ => 0 end : R).
  exists H, (fun _ => 0), 0, (fun k => match k with 0%nat => 1 | _ => 0 end : R). intros G.
  specialize (G (fun k => match k with 1%nat => 1 | _ => 0 end : R)).
  pose proof (debye_derivative H (fun _ => 0) 0 3 (fun k => match k with 0%nat => 1 | _ => 0 end : R) (fun k => match k with 1%nat => 1 | _ => 0 end : R)) as D.
  pose proof (uniqueness_limite _ _ _ _ G D) as E. unfold debye, H in E. cbn in E. lra.
Qed.

(** ** Concrete cases *)
(** Two atoms at distance one along x: the Lennard-Jones force with eps = sigma = 1 is
    24 on one atom and -24 on the other; the energy is zero. *)
Definition dimer : coords := fun a k => match a, k with 1%nat, 0%nat => 1 | _, _ => 0 end.
Example lj_dimer : fst (lj 1 1 2 dimer) = 0 /\ snd (lj 1 1 2 dimer) 1%nat 0%nat = 24 /\ snd (lj 1 1 2 dimer) 0%nat 0%nat = -24.
Proof. unfold lj, lj_e, lj_g, lj_x6, norm2, sep, row_update. cbn. repeat split; field. Qed.
Example dimer_distinct : distinct 2 dimer.
Proof. intros i j Hij. exists 0%nat. split; [lia|]. assert (i = 1%nat) as -> by lia. assert (j = 0%nat) as -> by lia. cbn. lra. Qed.

(** The same dimer in a cube of side 4 for the oscillating potential. *)
Definition cube (a : R) (i j : nat) : R := if (i =? j)%nat then a else 0.
Example cube_inverse : inverse3 (cube 4) (cube (/ 4)).
Proof.
  intros i j Hi Hj. unfold cube, delta.
  destruct i as [|[|[|i]]]; try lia; destruct j as [|[|[|j]]]; try lia; cbn; field.
Qed.
Lemma rint_small x : Rabs x < / 2 -> rint x = 0.
Proof. intros H. apply (rint_near x 0). now rewrite Rminus_0_r. Qed.
Example dmd_case_hypotheses : forall i j, (j < i < 2)%nat ->
  inside (cube 4) (cube (/ 4)) (dimer i) (dimer j) /\ norm2 (vector_separation (cube 4) (cube (/ 4)) (dimer i) (dimer j)) <> 0.
Proof.
  intros i j Hij. assert (i = 1%nat) as -> by lia. assert (j = 0%nat) as -> by lia.
  assert (S0 : mvec (cube (/ 4)) (fun c => dimer 1%nat c - dimer 0%nat c) 0%nat = / 4) by (unfold mvec, cube; cbn; field).
  assert (S1 : mvec (cube (/ 4)) (fun c => dimer 1%nat c - dimer 0%nat c) 1%nat = 0) by (unfold mvec, cube; cbn; field).
  assert (S2 : mvec (cube (/ 4)) (fun c => dimer 1%nat c - dimer 0%nat c) 2%nat = 0) by (unfold mvec, cube; cbn; field).
  assert (R1 : rint (/ 4) = 0) by (apply rint_small; rewrite Rabs_right; lra).
  assert (R2 : rint 0 = 0) by (apply rint_small; rewrite Rabs_R0; lra).
  split.
  - intros k Hk. cbv zeta. destruct k as [|[|[|k]]]; try lia; [rewrite S0, R1|rewrite S1, R2|rewrite S2, R2].
    + rewrite Rminus_0_r, Rabs_right; lra.
    + rewrite Rminus_0_r, Rabs_R0; lra.
    + rewrite Rminus_0_r, Rabs_R0; lra.
  - apply (distinct_norm2 _ 0%nat); [lia|]. unfold vector_separation, mvec at 1. cbn [Rsum].
    rewrite S0, S1, S2, R1, R2. unfold cube. cbn. lra.
Qed.
Example dmd_case_force : snd (fst (dmd (fun _ => 3) 2 (cube 4) (cube (/ 4)) 2 dimer)) 1%nat 0%nat = -6.
Proof.
  assert (S0 : mvec (cube (/ 4)) (fun c => dimer 1%nat c - dimer 0%nat c) 0%nat = / 4) by (unfold mvec, cube; cbn; field).
  assert (S1 : mvec (cube (/ 4)) (fun c => dimer 1%nat c - dimer 0%nat c) 1%nat = 0) by (unfold mvec, cube; cbn; field).
  assert (S2 : mvec (cube (/ 4)) (fun c => dimer 1%nat c - dimer 0%nat c) 2%nat = 0) by (unfold mvec, cube; cbn; field).
  assert (R1 : rint (/ 4) = 0) by (apply rint_small; rewrite Rabs_right; lra).
  assert (R2 : rint 0 = 0) by (apply rint_small; rewrite Rabs_R0; lra).
  assert (D : forall k, vector_separation (cube 4) (cube (/ 4)) (dimer 1%nat) (dimer 0%nat) k = match k with 0%nat => 1 | _ => 0 end).
  { intros k. unfold vector_separation, mvec at 1. cbn [Rsum]. rewrite S0, S1, S2, R1, R2. unfold cube.
    destruct k as [|[|[|k]]]; cbn; lra. }
  assert (N : norm2 (vector_separation (cube 4) (cube (/ 4)) (dimer 1%nat) (dimer 0%nat)) = 1).
  { unfold norm2. cbn [Rsum]. rewrite !D. lra. }
  unfold dmd. cbn [pair_loop Nat.sub fst snd]. unfold row_update. cbn [Nat.eqb Nat.ltb Rsum].
  rewrite N, D, sqrt_1. unfold cpl. cbn. field.
Qed.
Example debye_symmetric_case : (forall i j, cube 3 i j = cube 3 j i) /\ snd (debye (cube 3) (fun _ => 0) 0 3 (fun _ => 1)) 0%nat = -3.
Proof.
  split; [intros i j; unfold cube; now rewrite Nat.eqb_sym|]. unfold debye, cube. cbn. lra.
Qed.

(** Every pair of atoms has its own entry of the coupling array of length n (n - 1) / 2, and every
    entry belongs to a pair. *)
Lemma tri_step i : ((S i) * (S i - 1) / 2 = i * (i - 1) / 2 + i)%nat.
Proof.
  replace (S i * (S i - 1))%nat with (i * (i - 1) + i * 2)%nat by nia. apply Nat.div_add. lia.
Qed.
Lemma tri_mono i i' : (i <= i')%nat -> (i * (i - 1) / 2 <= i' * (i' - 1) / 2)%nat.
Proof. intros H. apply Nat.div_le_mono; [lia|nia]. Qed.
Theorem dmd_coupling_per_pair n :
  (forall i j i' j', (j < i < n)%nat -> (j' < i' < n)%nat -> cpl INR i j = cpl INR i' j' -> i = i' /\ j = j') /\
  (forall i j, (j < i < n)%nat -> exists k, (k < n * (n - 1) / 2)%nat /\ forall coupling, cpl coupling i j = coupling k) /\
  (forall k, (k < n * (n - 1) / 2)%nat -> exists i j, (j < i < n)%nat /\ forall coupling, cpl coupling i j = coupling k).
Proof.
  unfold cpl. split; [|split].
  - intros i j i' j' H H' E. apply INR_eq in E. destruct (Nat.lt_trichotomy i i') as [L|[L|L]].
    + pose proof (tri_step i). pose proof (tri_mono (S i) i' L). lia.
    + subst. lia.
    + pose proof (tri_step i'). pose proof (tri_mono (S i') i L). lia.
  - intros i j H. eexists. split; [|reflexivity]. pose proof (tri_step i). pose proof (tri_mono (S i) n). lia.
  - intros k. induction n as [|m IH]; intros H; [cbn in H; lia|]. rewrite tri_step in H.
    destruct (Nat.lt_ge_cases k (m * (m - 1) / 2)) as [L|L].
    + destruct (IH L) as (i & j & B & E). exists i, j. split; [lia|easy].
    + exists m, (k - m * (m - 1) / 2)%nat. split; [lia|]. intros c. f_equal. lia.
Qed.
Print Assumptions dmd_coupling_per_pair.
Print Assumptions lj_total_force_zero.
Print Assumptions dmd_total_force_zero.
Print Assumptions lj_newton.
Print Assumptions minimum_image_antisymmetric.
Print Assumptions lj_force_is_gradient.
Print Assumptions dmd_force_is_gradient.
Print Assumptions dmd_virial.
Print Assumptions debye_force_is_gradient.
Print Assumptions debye_asymmetric_refuted.
