(** * Theorems of record: Suzuki-Chin forces (C76) *)
From Coq Require Import List Reals Lra Lia Arith Bool FunctionalExtensionality.
From Verif Require Import RSum NMModel NMProps FSumModel FSumProps SCModel.
Import ListNotations.
Open Scope R_scope.

(** ** Specification *)
(** A differentiable force with a symmetric derivative that is minus the gradient of its
    potential: [J x u] is the derivative of the force at x along u. *)
Record smooth (ncol : nat) (F : (nat -> R) -> nat -> R) (V : (nat -> R) -> R) (J : (nat -> R) -> (nat -> R) -> nat -> R) : Prop := {
  sm_grad : forall x d, derivable_pt_lim (fun t => V (fun c => x c + t * d c)) 0 (- Rsum ncol (fun c => F x c * d c));
  sm_jac : forall x u c, derivable_pt_lim (fun t => F (fun c => x c + t * u c) c) 0 (J x u c);
  sm_sym : forall x u v, Rsum ncol (fun c => J x u c * v c) = Rsum ncol (fun c => J x v c * u c) }.
Definition smooth_ff (ncol : nat) (f : ffield) J := smooth ncol (f_F f) (f_V f) J.
(** Exactly linear (harmonic) forces. *)
Definition linear_ff (f : ffield) (J : (nat -> R) -> (nat -> R) -> nat -> R) : Prop :=
  forall x u t c, f_F f (fun c => x c + t * u c) c = f_F f x c + t * J x u c.

(** The component is evaluated on all beads, and has a finite-difference parameter. *)
Definition full (n : nat) (sc : scomp) : Prop := f_nb (base sc) = n /\ epsilon sc <> 0.
Definition amp_ (sc : scomp) : R := f_w (base sc) * Rsuml (f_mts (base sc)).
Definition Ftot (scs : list scomp) (x : nat -> R) (c : nat) : R := Rsuml (map (fun sc => amp_ sc * f_F (base sc) x c) scs).
Definition Vtot (scs : list scomp) (x : nat -> R) : R := Rsuml (map (fun sc => amp_ sc * f_V (base sc) x) scs).
Definition Jtot (scs : list (scomp * ((nat -> R) -> (nat -> R) -> nat -> R))) (x u : nat -> R) (c : nat) : R :=
  Rsuml (map (fun p => amp_ (fst p) * snd p x u c) scs).
(** Minus the gradient of the Suzuki-Chin energy at bead b. *)
Definition exact_sc (m : nat -> R) (alpha omegan2 : R) scs (q : mat) : mat := fun b c =>
  coeffsc_part_1 b * Ftot (map fst scs) (q b) c
  + coeffsc_part_2 alpha omegan2 b * (- 2 * Jtot scs (q b) (fun c => Ftot (map fst scs) (q b) c / m c) c).

(** ** Lemmas *)
Lemma is0_true x : is0 x = true <-> x = 0.
Proof. unfold is0. destruct (nz x) eqn:E; cbn; [apply nz_true in E|apply nz_false in E]; intuition congruence. Qed.
Lemma pos_true x : pos x = true <-> 0 < x.
Proof. unfold pos. destruct (Rlt_dec 0 x); intuition congruence. Qed.
Lemma pos_false x : pos x = false <-> x <= 0.
Proof. unfold pos. destruct (Rlt_dec 0 x); intuition (try congruence); lra. Qed.
Lemma even_half n : even_b n = true -> n = (2 * (n / 2))%nat.
Proof. unfold even_b. intros H. apply Nat.eqb_eq in H. pose proof (Nat.div_mod n 2). lia. Qed.
Lemma odd_half b : even_b b = false -> b = (2 * (b / 2) + 1)%nat.
Proof.
  unfold even_b. intros H. apply Nat.eqb_neq in H. pose proof (Nat.div_mod b 2). pose proof (Nat.mod_upper_bound b 2). lia.
Qed.

Lemma beads_of_same n : beads_of n n = n.
Proof. unfold beads_of. destruct (_ || _); reflexivity. Qed.
Lemma beads_of_half n : (0 < n)%nat -> beads_of (n / 2) n = (n / 2)%nat.
Proof.
  intros H. unfold beads_of. destruct (Nat.ltb_spec (n / 2) n) as [_|G]; [now rewrite orb_true_r|].
  assert (n / 2 < n)%nat by (apply Nat.div_lt; lia). lia.
Qed.
Lemma dforce_id n' f open q : beads_of n' (f_nb f) = n' -> dforce open n' f q = fun b => f_F f (q b).
Proof.
  intros H. unfold dforce. rewrite H. unfold rescale_b2tob1, rescale_b1tob2. now rewrite Nat.eqb_refl.
Qed.

Section S.
Variables (n ncol natoms : nat) (open : list nat) (m : nat -> R) (alpha omegan2 : R).
Notation f_at := (f_at n open).

Lemma at_full sc q b c : f_nb (base sc) = n -> expand_f n open (at_ n open q (base sc)) b c = f_F (base sc) (q b) c.
Proof. intros H. unfold expand_f, at_, rescale_b2tob1, rescale_b1tob2. cbn [nb cf]. now rewrite H, Nat.eqb_refl. Qed.
Lemma at_full_p sc q b : f_nb (base sc) = n -> expand_p n open (at_ n open q (base sc)) b 0%nat = f_V (base sc) (q b).
Proof. intros H. unfold expand_p, at_, rescale_b2tob1, rescale_b1tob2. cbn [nb cpots]. now rewrite H, Nat.eqb_refl. Qed.

Lemma f_at_full scs q b c : (forall sc, In sc scs -> full n sc) -> f_at scs q b c = Ftot scs (q b) c.
Proof.
  intros H. unfold SCModel.f_at, comps_at. rewrite total_force_is_declared. unfold declared, Ftot. rewrite !map_map.
  apply Rsuml_map_ext. intros sc Hsc. rewrite at_full by apply H, Hsc. reflexivity.
Qed.
Lemma pots_at_full scs q b : (forall sc, In sc scs -> full n sc) -> pots_at n open scs q b = Vtot scs (q b).
Proof.
  intros H. unfold pots_at, comps_at. rewrite total_potential_is_declared. unfold declared, Vtot. rewrite !map_map.
  apply Rsuml_map_ext. intros sc Hsc. rewrite at_full_p by apply H, Hsc. reflexivity.
Qed.

(** The difference quotient the code uses. *)
Definition quot (sc : scomp) (delta : R) (x u : nat -> R) (c : nat) : R :=
  let F := f_F (base sc) in
  if pos (epsilon sc) then
    if is0 alpha then (F x c - F (fun c => x c + (- delta) * u c) c) / delta
    else (F (fun c => x c + delta * u c) c - F x c) / delta
  else (F (fun c => x c + delta * u c) c - F (fun c => x c + (- delta) * u c) c) / 2 / delta.

Lemma foverm_pos f : / 10 ^ 20 < Rabs (foverm n ncol natoms m f) -> 0 < foverm n ncol natoms m f.
Proof.
  intros H. assert (0 < / 10 ^ 20) by (apply Rinv_0_lt_compat, pow_lt; lra). unfold foverm in *.
  rewrite Rabs_pos_eq in H by apply sqrt_pos. lra.
Qed.
Lemma delta_pos eps f : eps <> 0 -> 0 < delta_of n ncol natoms m eps f.
Proof.
  intros H. unfold delta_of. pose proof (Rabs_pos_lt eps H). destruct (Rlt_dec _ _) as [G|G]; [|easy].
  apply Rdiv_lt_0_compat; [easy|now apply foverm_pos].
Qed.

Lemma forces_4th_spec sc f q : (0 < n)%nat -> even_b n = true -> full n sc ->
  exists f4, forces_4th_order n ncol natoms open m alpha sc f q = Some f4 /\
    forall b c, (b < n)%nat -> f4 b c = if even_b b && is0 alpha then 0
      else - 2 * quot sc (delta_of n ncol natoms m (epsilon sc) f) (q b) (fun c => f b c / m c) c.
Proof.
  intros Hn He [Hnb Hep]. pose proof (delta_pos (epsilon sc) f Hep) as Hd.
  unfold forces_4th_order. rewrite He. cbn [negb]. set (dl := delta_of n ncol natoms m (epsilon sc) f) in *.
  assert (Ep : forall b, (fun c => q b c + dl * f b c / m c) = (fun c => q b c + dl * (f b c / m c))).
  { intros b. apply functional_extensionality. intros c. unfold Rdiv. ring. }
  assert (Em : forall b, (fun c => q b c - dl * f b c / m c) = (fun c => q b c + (- dl) * (f b c / m c))).
  { intros b. apply functional_extensionality. intros c. unfold Rdiv. ring. }
  assert (B : beads_of n (f_nb (base sc)) = n) by (rewrite Hnb; apply beads_of_same).
  assert (H2 : beads_of (n / 2) (f_nb (base sc)) = (n / 2)%nat) by (rewrite Hnb; now apply beads_of_half).
  unfold quot. destruct (pos (epsilon sc)) eqn:P.
  - rewrite B, Nat.eqb_refl. cbn [negb]. destruct (is0 alpha) eqn:A.
    + eexists. split; [reflexivity|]. intros b c Hb. rewrite !dforce_id by easy. destruct (even_b b) eqn:Eb; [easy|].
      cbn [andb]. rewrite <- (odd_half b Eb). rewrite (Em b). field. lra.
    + eexists. split; [reflexivity|]. intros b c Hb. rewrite !dforce_id by easy. rewrite andb_false_r, (Ep b). field. lra.
  - apply pos_false in P. assert (P' : pos (- epsilon sc) = true) by (apply pos_true; lra). rewrite P'.
    destruct (is0 alpha) eqn:A.
    + eexists. split; [reflexivity|]. intros b c Hb. rewrite !dforce_id by easy. destruct (even_b b) eqn:Eb; [easy|].
      cbn [andb]. pose proof (even_half n He). pose proof (odd_half b Eb).
      destruct (Nat.ltb_spec (n / 2 + b / 2) (n / 2)); [lia|]. destruct (Nat.ltb_spec (b / 2) (n / 2)); [|lia].
      replace (n / 2 + b / 2 - n / 2)%nat with (b / 2)%nat by lia. rewrite <- (odd_half b Eb), (Ep b), (Em b). field. lra.
    + eexists. split; [reflexivity|]. intros b c Hb. rewrite !dforce_id by easy. rewrite andb_false_r, (Ep b), (Em b). field. lra.
Qed.

Lemma f4_acc scs f q : (0 < n)%nat -> even_b n = true -> (forall sc, In sc scs -> full n sc) -> forall acc,
  exists f4, fold_left (fvir_step n ncol natoms open m alpha f q) scs (Some acc) = Some f4 /\
    forall b c, (b < n)%nat -> f4 b c = acc b c + if even_b b && is0 alpha then 0
      else - 2 * Rsuml (map (fun sc => amp_ sc * quot sc (delta_of n ncol natoms m (epsilon sc) f) (q b) (fun c => f b c / m c) c) scs).
Proof.
  intros Hn He. induction scs as [|sc scs IH]; intros H acc; cbn [fold_left map Rsuml].
  { exists acc. split; [easy|]. intros. destruct (_ && _); ring. }
  unfold fvir_step at 2. destruct (nz (f_w (base sc)) && nz (Rsuml (f_mts (base sc)))) eqn:E.
  - destruct (forces_4th_spec sc f q Hn He (H sc ltac:(now left))) as (g & -> & Hg).
    destruct (IH ltac:(intros; apply H; now right) (addto acc (f_w (base sc) * Rsuml (f_mts (base sc))) g)) as (f4 & E4 & H4).
    exists f4. split; [exact E4|]. intros b c Hb. rewrite H4 by easy. unfold addto. rewrite (Hg b c Hb).
    fold (amp_ sc). destruct (even_b b && is0 alpha); ring.
  - assert (Z : amp_ sc = 0).
    { unfold amp_. apply andb_false_iff in E. destruct E as [E|E]; apply nz_false in E; rewrite E; ring. }
    destruct (IH ltac:(intros; apply H; now right) acc) as (f4 & E4 & H4).
    exists f4. split; [exact E4|]. intros b c Hb. rewrite H4 by easy. rewrite Z. destruct (even_b b && is0 alpha); ring.
Qed.

Lemma coeff2_even b : even_b b && is0 alpha = true -> coeffsc_part_2 alpha omegan2 b = 0.
Proof.
  intros H. apply andb_true_iff in H as [H1 H2]. apply is0_true in H2. unfold coeffsc_part_2. rewrite H1, H2. unfold Rdiv. ring.
Qed.

Lemma fsc_spec scs q : (0 < n)%nat -> even_b n = true -> (forall sc, In sc scs -> full n sc) ->
  exists g, fsc n ncol natoms open m alpha omegan2 scs q = Some g /\
    forall b c, (b < n)%nat -> g b c = coeffsc_part_1 b * Ftot scs (q b) c + coeffsc_part_2 alpha omegan2 b *
      (- 2 * Rsuml (map (fun sc => amp_ sc * quot sc (delta_of n ncol natoms m (epsilon sc) (f_at scs q)) (q b) (fun c => Ftot scs (q b) c / m c) c) scs)).
Proof.
  intros Hn He H. unfold fsc, f_4th_order. destruct (f4_acc scs (f_at scs q) q Hn He H zeros) as (f4 & -> & H4).
  eexists. split; [reflexivity|]. intros b c Hb. cbv beta. rewrite f_at_full by easy. rewrite (H4 b c Hb).
  assert (E : (fun c => f_at scs q b c / m c) = (fun c => Ftot scs (q b) c / m c)).
  { apply functional_extensionality. intros k. now rewrite f_at_full. }
  rewrite E. unfold zeros. destruct (even_b b && is0 alpha) eqn:Z; [|ring]. rewrite (coeff2_even b Z). ring.
Qed.

(** ** Theorems *)
(** The coefficients: with the unit weight of the plain force, even beads carry two thirds of the
    potential and odd beads four thirds, which is one on average; the second-order terms
    have alpha/9 and (1 - alpha)/9 over the squared frequency. *)
Theorem sc_coefficients j : 1 + coeffsc_part_1 (2 * j) = 2 / 3 /\ 1 + coeffsc_part_1 (2 * j + 1) = 4 / 3 /\
  coeffsc_part_2 alpha omegan2 (2 * j) = alpha / (9 * omegan2) /\
  coeffsc_part_2 alpha omegan2 (2 * j + 1) = (1 - alpha) / (9 * omegan2) /\
  Rsum (2 * j) coeffsc_part_1 = 0.
Proof.
  assert (E : forall j, even_b (2 * j) = true) by (intros i; unfold even_b; apply Nat.eqb_eq; rewrite Nat.mul_comm; now apply Nat.mod_mul).
  assert (O : forall j, even_b (2 * j + 1) = false).
  { intros i. unfold even_b. rewrite Nat.add_comm, Nat.mul_comm, Nat.mod_add by lia. reflexivity. }
  unfold coeffsc_part_2. rewrite E, O.
  assert (C : forall j, coeffsc_part_1 (2 * j) = - 1 / 3 /\ coeffsc_part_1 (2 * j + 1) = 1 / 3)
    by (intros i; unfold coeffsc_part_1; now rewrite E, O).
  destruct (C j) as [-> ->]. split; [field|]. split; [field|].
  split; [unfold Rdiv; rewrite Rinv_mult; ring|]. split; [unfold Rdiv; rewrite Rinv_mult; ring|].
  clear E O. induction j as [|j IH]; [reflexivity|]. replace (2 * S j)%nat with (S (S (2 * j))) by lia. cbn [Rsum].
  rewrite IH. replace (S (2 * j)) with (2 * j + 1)%nat by lia. destruct (C j) as [-> ->]. field.
Qed.
(** The gradient of the Suzuki-Chin energy. *)
Theorem sc_energy_gradient (scs : list (scomp * ((nat -> R) -> (nat -> R) -> nat -> R))) q d : (0 < n)%nat ->
  (forall p, In p scs -> full n (fst p) /\ smooth_ff ncol (base (fst p)) (snd p)) ->
  derivable_pt_lim (fun t => potsc n ncol open m alpha omegan2 (map fst scs) (fun b c => q b c + t * d b c)) 0
    (- Rsum n (fun b => Rsum ncol (fun c => exact_sc m alpha omegan2 scs q b c * d b c))).
Proof.
  intros Hn H.
  assert (Hf : forall sc, In sc (map fst scs) -> full n sc).
  { intros sc Hs. apply in_map_iff in Hs as (p & <- & Hp). apply H, Hp. }
  unfold potsc. eapply derivable_eq; [|apply derivable_Rsum].
  { rewrite <- Rsum_opp. apply Rsum_ext. intros b Hb. reflexivity. }
  intros b Hb. cbv beta.
  assert (DF : forall c, derivable_pt_lim (fun t => Ftot (map fst scs) (fun c => q b c + t * d b c) c) 0 (Jtot scs (q b) (d b) c)).
  { intros c. unfold Ftot, Jtot. apply (derivable_ext (fun t => Rsuml (map (fun p => amp_ (fst p) * f_F (base (fst p)) (fun c => q b c + t * d b c) c) scs))).
    { intros t. now rewrite map_map. }
    apply derivable_list. intros p Hp. apply (derivable_pt_lim_scal (fun t => f_F (base (fst p)) (fun c => q b c + t * d b c) c)).
    apply (sm_jac _ _ _ _ (proj2 (H p Hp))). }
  assert (DV : derivable_pt_lim (fun t => Vtot (map fst scs) (fun c => q b c + t * d b c)) 0
     (- Rsum ncol (fun c => Ftot (map fst scs) (q b) c * d b c))).
  { unfold Vtot. apply (derivable_ext (fun t => Rsuml (map (fun p => amp_ (fst p) * f_V (base (fst p)) (fun c => q b c + t * d b c)) scs))).
    { intros t. now rewrite map_map. }
    eapply derivable_eq; [|apply derivable_list with (d := fun p => amp_ (fst p) * - Rsum ncol (fun c => f_F (base (fst p)) (q b) c * d b c))].
    - transitivity ((-1) * Rsum ncol (fun c => Ftot (map fst scs) (q b) c * d b c)); [|ring].
      rewrite <- Rsum_scal. transitivity (Rsum ncol (fun c => Rsuml (map (fun p => (- 1) * (amp_ (fst p) * f_F (base (fst p)) (q b) c) * d b c) scs))).
      + rewrite <- Rsuml_map_Rsum. apply Rsuml_map_ext. intros p _.
        transitivity (- amp_ (fst p) * Rsum ncol (fun c => f_F (base (fst p)) (q b) c * d b c)); [ring|].
        rewrite <- Rsum_scal. apply Rsum_ext. intros; ring.
      + apply Rsum_ext. intros c _. unfold Ftot. rewrite map_map.
        transitivity (Rsuml (map (fun p => (- d b c) * (amp_ (fst p) * f_F (base (fst p)) (q b) c)) scs)); [apply Rsuml_map_ext; intros; ring|].
        rewrite Rsuml_map_scal. ring.
    - intros p Hp. apply (derivable_pt_lim_scal (fun t => f_V (base (fst p)) (fun c => q b c + t * d b c))).
      apply (sm_grad _ _ _ _ (proj2 (H p Hp))). }
  assert (Sym : forall u v, Rsum ncol (fun c => Jtot scs (q b) u c * v c) = Rsum ncol (fun c => Jtot scs (q b) v c * u c)).
  { intros u v. unfold Jtot.
    assert (G : forall u v, Rsum ncol (fun c => Rsuml (map (fun p => amp_ (fst p) * snd p (q b) u c) scs) * v c)
       = Rsuml (map (fun p => amp_ (fst p) * Rsum ncol (fun c => snd p (q b) u c * v c)) scs)).
    { intros u' v'. transitivity (Rsum ncol (fun c => Rsuml (map (fun p => v' c * (amp_ (fst p) * snd p (q b) u' c)) scs))).
      - apply Rsum_ext. intros c _. rewrite Rsuml_map_scal. ring.
      - rewrite <- Rsuml_map_Rsum. apply Rsuml_map_ext. intros p _. rewrite <- Rsum_scal. apply Rsum_ext. intros; ring. }
    rewrite !G. apply Rsuml_map_ext. intros p Hp. f_equal. apply (sm_sym _ _ _ _ (proj2 (H p Hp))). }
  apply (derivable_ext (fun t => coeffsc_part_1 b * Vtot (map fst scs) (fun c => q b c + t * d b c)
    + coeffsc_part_2 alpha omegan2 b * Rsum ncol (fun c => / m c * (Ftot (map fst scs) (fun c => q b c + t * d b c) c * Ftot (map fst scs) (fun c => q b c + t * d b c) c)))).
  { intros t. unfold potssc. rewrite pots_at_full by easy. f_equal. f_equal. apply Rsum_ext. intros c _.
    rewrite !f_at_full by easy. unfold Rdiv. ring. }
  eapply derivable_eq; [|apply (derivable_pt_lim_plus (fun t => coeffsc_part_1 b * Vtot (map fst scs) (fun c => q b c + t * d b c))
     (fun t => coeffsc_part_2 alpha omegan2 b * Rsum ncol (fun c => / m c * (Ftot (map fst scs) (fun c => q b c + t * d b c) c * Ftot (map fst scs) (fun c => q b c + t * d b c) c))));
     [apply (derivable_pt_lim_scal (fun t => Vtot (map fst scs) (fun c => q b c + t * d b c))); exact DV|
      apply (derivable_pt_lim_scal (fun t => Rsum ncol (fun c => / m c * (Ftot (map fst scs) (fun c => q b c + t * d b c) c * Ftot (map fst scs) (fun c => q b c + t * d b c) c))));
      apply derivable_Rsum; intros c _;
      apply (derivable_pt_lim_scal (fun t => Ftot (map fst scs) (fun c => q b c + t * d b c) c * Ftot (map fst scs) (fun c => q b c + t * d b c) c));
      apply (derivable_pt_lim_mult (fun t => Ftot (map fst scs) (fun c => q b c + t * d b c) c) (fun t => Ftot (map fst scs) (fun c => q b c + t * d b c) c)); apply DF]].
  cbv beta.
  assert (E0 : (fun c => q b c + 0 * d b c) = q b) by (apply functional_extensionality; intros; ring). rewrite E0.
  unfold exact_sc.
  assert (S1 := Sym (fun c => Ftot (map fst scs) (q b) c / m c) (d b)).
  transitivity (coeffsc_part_1 b * - Rsum ncol (fun c => Ftot (map fst scs) (q b) c * d b c) +
     2 * coeffsc_part_2 alpha omegan2 b * Rsum ncol (fun c => Jtot scs (q b) (d b) c * (Ftot (map fst scs) (q b) c / m c))).
  - f_equal. rewrite <- !Rsum_scal. apply Rsum_ext. intros c _. unfold Rdiv. ring.
  - rewrite <- S1. rewrite <- Rsum_opp, <- !Rsum_scal. rewrite <- Rsum_plus, <- Rsum_opp. apply Rsum_ext. intros c _. ring.
Qed.

(** For harmonic (linear) forces the reported force is exactly minus the gradient of the
    reported energy, for every finite-difference parameter and every branch. *)
Theorem sc_force_is_gradient_harmonic (scs : list (scomp * ((nat -> R) -> (nat -> R) -> nat -> R))) q : (0 < n)%nat -> even_b n = true ->
  (forall p, In p scs -> full n (fst p) /\ smooth_ff ncol (base (fst p)) (snd p) /\ linear_ff (base (fst p)) (snd p)) ->
  exists g, fsc n ncol natoms open m alpha omegan2 (map fst scs) q = Some g /\
    forall d, derivable_pt_lim (fun t => potsc n ncol open m alpha omegan2 (map fst scs) (fun b c => q b c + t * d b c)) 0
      (- Rsum n (fun b => Rsum ncol (fun c => g b c * d b c))).
Proof.
  intros Hn He H.
  assert (Hf : forall sc, In sc (map fst scs) -> full n sc).
  { intros sc Hs. apply in_map_iff in Hs as (p & <- & Hp). apply H, Hp. }
  destruct (fsc_spec (map fst scs) q Hn He Hf) as (g & Eg & Hg). exists g. split; [exact Eg|]. intros d.
  eapply derivable_eq; [|apply sc_energy_gradient; [easy|intros p Hp; split; apply H, Hp]].
  f_equal. apply Rsum_ext. intros b Hb. apply Rsum_ext. intros c _. f_equal. rewrite (Hg b c Hb). unfold exact_sc.
  f_equal. f_equal. f_equal. unfold Jtot. rewrite map_map. apply Rsuml_map_ext. intros p Hp. f_equal.
  destruct (H p Hp) as ([_ Hep] & _ & Hl). pose proof (delta_pos (epsilon (fst p)) (f_at (map fst scs) q) Hep) as Hd.
  unfold quot. rewrite !(Hl (q b)). destruct (pos _); [destruct (is0 alpha)|]; field; lra.
Qed.

(** For smooth forces the reported force tends to minus the gradient of the reported energy as
    the finite-difference parameters tend to zero. [re] replaces the parameters. *)
Definition re (eps : scomp -> R) (sc : scomp) : scomp := mkSC (base sc) (eps sc).
Theorem sc_force_converges (scs : list (scomp * ((nat -> R) -> (nat -> R) -> nat -> R))) q b c : (0 < n)%nat -> even_b n = true -> (b < n)%nat ->
  (forall p, In p scs -> full n (fst p) /\ smooth_ff ncol (base (fst p)) (snd p)) ->
  forall tol, 0 < tol -> exists eta, 0 < eta /\ forall eps, (forall p, In p scs -> 0 < Rabs (eps (fst p)) < eta) ->
  exists g, fsc n ncol natoms open m alpha omegan2 (map (fun p => re eps (fst p)) scs) q = Some g /\
    Rabs (g b c - exact_sc m alpha omegan2 scs q b c) < tol.
Proof.
  intros Hn He Hb H tol Ht.
  set (u := fun c => Ftot (map fst scs) (q b) c / m c).
  (* one component *)
  assert (One : forall sc J, smooth_ff ncol (base sc) J -> forall tl, 0 < tl -> exists et, 0 < et /\
     forall e dl, 0 < dl < et -> Rabs (quot (mkSC (base sc) e) dl (q b) u c - J (q b) u c) < tl).
  { intros sc J Hs tl Htl. destruct (sm_jac _ _ _ _ Hs (q b) u c tl Htl) as [[et Het] Hlim]. cbn in Hlim.
    assert (E0 : (fun c => q b c + 0 * u c) = q b) by (apply functional_extensionality; intros; ring).
    exists et. split; [exact Het|]. intros e dl [D1 D2]. unfold quot. cbn [epsilon base].
    assert (P := Hlim dl ltac:(lra) ltac:(rewrite Rabs_pos_eq; lra)).
    assert (M := Hlim (- dl) ltac:(lra) ltac:(rewrite Rabs_Ropp, Rabs_pos_eq; lra)).
    rewrite !Rplus_0_l in P, M. rewrite E0 in P, M.
    set (Fp := f_F (base sc) (fun c => q b c + dl * u c) c) in *. set (Fm := f_F (base sc) (fun c => q b c + - dl * u c) c) in *.
    set (F0 := f_F (base sc) (q b) c) in *.
    replace ((Fm - F0) / - dl) with ((F0 - Fm) / dl) in M by (field; lra).
    destruct (pos e); [destruct (is0 alpha); assumption|].
    replace ((Fp - Fm) / 2 / dl - J (q b) u c) with (/ 2 * ((Fp - F0) / dl - J (q b) u c) + / 2 * ((F0 - Fm) / dl - J (q b) u c)) by (field; lra).
    eapply Rle_lt_trans; [apply Rabs_triang|]. rewrite !Rabs_mult, (Rabs_pos_eq (/ 2)) by lra. lra. }
  (* all components: the weighted sum of quotients *)
  set (K := 2 * Rabs (coeffsc_part_2 alpha omegan2 b)).
  assert (All : forall l, (forall p, In p l -> smooth_ff ncol (base (fst p)) (snd p)) -> forall tl, 0 < tl -> exists et, 0 < et /\
     forall (eps dl : scomp -> R), (forall p, In p l -> 0 < dl (fst p) < et) ->
       Rabs (Rsuml (map (fun p => amp_ (fst p) * quot (re eps (fst p)) (dl (fst p)) (q b) u c) l) - Jtot l (q b) u c) < tl).
  { induction l as [|p l IH]; intros Hl tl Htl.
    - exists 1. split; [lra|]. intros. cbn. rewrite Rminus_0_r, Rabs_R0. exact Htl.
    - destruct (IH ltac:(intros; apply Hl; now right) (tl / 2) ltac:(lra)) as (e1 & P1 & L1).
      pose proof (Rabs_pos (amp_ (fst p))).
      destruct (One (fst p) (snd p) (Hl p ltac:(now left)) (tl / 2 / (Rabs (amp_ (fst p)) + 1))) as (e2 & P2 & L2).
      { apply Rdiv_lt_0_compat; lra. }
      exists (Rmin e1 e2). split; [now apply Rmin_glb_lt|]. intros eps dl Hdl. unfold Jtot. cbn [map Rsuml].
      assert (A1 := L1 eps dl ltac:(intros r Hr; specialize (Hdl r ltac:(now right)); pose proof (Rmin_l e1 e2); lra)).
      assert (A2 := L2 (eps (fst p)) (dl (fst p)) ltac:(specialize (Hdl p ltac:(now left)); pose proof (Rmin_r e1 e2); lra)).
      fold (re eps (fst p)) in A2. unfold Jtot in A1.
      set (Q := quot (re eps (fst p)) (dl (fst p)) (q b) u c) in *.
      match goal with |- Rabs (amp_ (fst p) * Q + ?X - (?Y + ?Z)) < _ => replace (amp_ (fst p) * Q + X - (Y + Z)) with (amp_ (fst p) * (Q - snd p (q b) u c) + (X - Z)) by ring end.
      eapply Rle_lt_trans; [apply Rabs_triang|]. rewrite Rabs_mult.
      assert (Rabs (amp_ (fst p)) * Rabs (Q - snd p (q b) u c) <= tl / 2).
      { apply Rle_trans with ((Rabs (amp_ (fst p)) + 1) * (tl / 2 / (Rabs (amp_ (fst p)) + 1))).
        - apply Rmult_le_compat; try apply Rabs_pos; lra.
        - right. field. lra. }
      lra. }
  destruct (All scs ltac:(intros p Hp; apply H, Hp) (tol / (K + 1))) as (et & Pet & Let).
  { pose proof (Rabs_pos (coeffsc_part_2 alpha omegan2 b)). unfold K. apply Rdiv_lt_0_compat; lra. }
  (* from delta to epsilon *)
  set (fo := foverm n ncol natoms m (f_at (map fst scs) q)).
  exists (if Rlt_dec (/ 10 ^ 20) (Rabs fo) then et * fo else et).
  assert (Pf : / 10 ^ 20 < Rabs fo -> 0 < fo) by apply foverm_pos.
  split; [destruct (Rlt_dec _ _); [apply Rmult_lt_0_compat; auto|auto]|]. intros eps Heps.
  set (scs' := map (fun p => re eps (fst p)) scs).
  assert (Hf' : forall sc, In sc scs' -> full n sc).
  { intros sc Hs. apply in_map_iff in Hs as (p & <- & Hp). split; [apply H, Hp|]. intros E. specialize (Heps p Hp). cbn in E. rewrite E, Rabs_R0 in Heps. lra. }
  assert (EF : forall x k, Ftot scs' x k = Ftot (map fst scs) x k).
  { intros x k. unfold Ftot, scs'. rewrite !map_map. reflexivity. }
  assert (Ef : f_at scs' q = f_at (map fst scs) q).
  { unfold SCModel.f_at, comps_at, scs'. rewrite !map_map. reflexivity. }
  destruct (fsc_spec scs' q Hn He Hf') as (g & Eg & Hg). exists g. split; [exact Eg|]. rewrite (Hg b c Hb).
  assert (Eu : (fun c => Ftot scs' (q b) c / m c) = u).
  { apply functional_extensionality. intros k. unfold u. now rewrite EF. }
  rewrite Eu, EF, Ef. unfold exact_sc. fold u. unfold scs'. rewrite map_map.
  set (dl := fun sc : scomp => delta_of n ncol natoms m (eps sc) (f_at (map fst scs) q)).
  change (Rsuml (map (fun p => amp_ (re eps (fst p)) * quot (re eps (fst p)) (delta_of n ncol natoms m (epsilon (re eps (fst p))) (f_at (map fst scs) q)) (q b) u c) scs))
    with (Rsuml (map (fun p => amp_ (fst p) * quot (re eps (fst p)) (dl (fst p)) (q b) u c) scs)).
  assert (Hdl : forall p, In p scs -> 0 < dl (fst p) < et).
  { intros p Hp. specialize (Heps p Hp). split.
    - apply delta_pos. intros E. rewrite E, Rabs_R0 in Heps. lra.
    - unfold dl, delta_of. fold fo. destruct (Rlt_dec (/ 10 ^ 20) (Rabs fo)) as [G|G]; [|lra].
      specialize (Pf G). apply Rmult_lt_reg_r with fo; [easy|]. unfold Rdiv. rewrite Rmult_assoc, Rinv_l, Rmult_1_r by lra. lra. }
  specialize (Let eps dl Hdl).
  set (X := Rsuml (map (fun p => amp_ (fst p) * quot (re eps (fst p)) (dl (fst p)) (q b) u c) scs)) in *.
  set (Y := Jtot scs (q b) u c) in *.
  match goal with |- Rabs ?e < _ => replace e with (-2 * coeffsc_part_2 alpha omegan2 b * (X - Y)) by ring end.
  rewrite !Rabs_mult. replace (Rabs (-2)) with 2 by (rewrite Rabs_left; lra). fold K.
  assert (K0 : 0 <= K) by (unfold K; pose proof (Rabs_pos (coeffsc_part_2 alpha omegan2 b)); lra).
  apply Rle_lt_trans with (K * (tol / (K + 1))); [apply Rmult_le_compat_l; lra|].
  apply Rmult_lt_reg_r with (K + 1); [lra|]. unfold Rdiv. rewrite !Rmult_assoc, Rinv_l by lra. rewrite Rmult_1_r.
  assert (0 < tol) by easy. nra.
Qed.

(** An odd number of beads is refused; so is the one-sided difference on a contracted ring. *)
Theorem sc_odd_refused sc f q : even_b n = false -> forces_4th_order n ncol natoms open m alpha sc f q = None.
Proof. intros H. unfold forces_4th_order. now rewrite H. Qed.
Theorem sc_one_sided_contraction_refused sc f q : 0 < epsilon sc -> (0 < f_nb (base sc) < n)%nat ->
  forces_4th_order n ncol natoms open m alpha sc f q = None.
Proof.
  intros H Hb. unfold forces_4th_order. destruct (negb (even_b n)); [easy|]. rewrite (proj2 (pos_true _) H).
  unfold beads_of. destruct (Nat.eqb_spec (f_nb (base sc)) 0); [lia|]. destruct (Nat.ltb_spec n (f_nb (base sc))); [lia|].
  cbn [orb]. destruct (Nat.eqb_spec (f_nb (base sc)) n); [lia|]. reflexivity.
Qed.
End S.

(** ** False statements *)
(** A zero finite-difference parameter is not refused on input and has no branch. *)
Theorem sc_zero_epsilon_refuted : exists sc, epsilon sc = 0 /\ f_w (base sc) = 1 /\
  fsc 2 1 1 [] (fun _ => 1) (1 / 3) 1 [sc] (fun _ _ => 1) = None.
Proof.
  exists (mkSC (mkFF 1 [1] 2 (fun x => 1 / 2 * (x 0%nat * x 0%nat)) (fun x _ => - x 0%nat) (fun _ _ => 0)) 0).
  split; [easy|]. split; [easy|]. unfold fsc, f_4th_order, fold_left, fvir_step. cbn [base f_w f_mts Rsuml].
  rewrite !(proj2 (nz_true _)) by lra. cbn [andb]. unfold forces_4th_order. cbn [even_b Nat.modulo negb epsilon].
  change (even_b 2) with true. cbn [negb]. rewrite (proj2 (pos_false 0)) by lra. rewrite (proj2 (pos_false (- 0))) by lra. reflexivity.
Qed.

(** With ring-polymer contraction the force is not the gradient of the energy. Two beads, a
    harmonic component contracted to one bead, alpha = 0, centred differences: the two half-rings
    displaced in opposite directions are contracted together, so that the fourth-order force vanishes. *)
Lemma half_entry j : mk_rs_matrix 2 1 0%nat j = / 2.
Proof.
  unfold mk_rs_matrix, mk_rs. cbn [Nat.eqb Nat.ltb Nat.leb]. rewrite RPCProofs.rs_entry by lia.
  assert (S0 : RPCProofs.sigma 2 1 0 = 0%nat) by reflexivity.
  cbn [Rsum]. rewrite S0, !NMProofs.nm_row0 by lia. cbn [INR]. rewrite sqrt_1.
  replace (1 + 1) with 2 by ring. unfold Rdiv. rewrite Rmult_1_l.
  assert (P : 0 < sqrt 2) by (apply sqrt_lt_R0; lra).
  rewrite <- sqrt_inv by lra. assert (E : sqrt (/ 2) * sqrt (/ 2) = / 2) by (apply sqrt_sqrt; lra).
  rewrite Rplus_0_l, Rinv_1, Rmult_1_l. exact E.
Qed.
Lemma contract21 q c : rescale_b1tob2 2 1 [] true q 0%nat c = (q 0%nat c + q 1%nat c) / 2.
Proof.
  unfold rescale_b1tob2, b1tob2_m, app. cbn [Nat.eqb nonempty Rsum]. rewrite !half_entry. field.
Qed.
Lemma expand21 two_d q b c : rescale_b2tob1 2 1 [] two_d q b c = q 0%nat c.
Proof.
  unfold rescale_b2tob1, b2tob1_m, b1tob2_m, app. cbn [Nat.eqb nonempty Rsum]. rewrite !half_entry. cbn [INR]. field.
Qed.
Definition contracted : scomp := mkSC (mkFF 1 [1] 1 (fun x => 1 / 2 * (x 0%nat * x 0%nat)) (fun x _ => - x 0%nat) (fun _ _ => 0)) (-1).
Lemma contracted_f q b c : f_at 2 [] [contracted] q b c = - ((q 0%nat 0%nat + q 1%nat 0%nat) / 2).
Proof.
  unfold f_at, comps_at. rewrite total_force_is_declared. unfold declared, expand_f, at_. cbn [map Rsuml weight mts_weights nb cf contracted base f_w f_mts f_nb f_F].
  rewrite expand21, contract21. ring.
Qed.
Lemma contracted_p q b : pots_at 2 [] [contracted] q b = 1 / 2 * ((q 0%nat 0%nat + q 1%nat 0%nat) / 2 * ((q 0%nat 0%nat + q 1%nat 0%nat) / 2)).
Proof.
  unfold pots_at, comps_at. rewrite total_potential_is_declared. unfold declared, expand_p, at_. cbn [map Rsuml weight mts_weights nb cpots contracted base f_w f_mts f_nb f_V].
  rewrite expand21, contract21. ring.
Qed.
Theorem sc_contracted_force_is_gradient_refuted : exists sc q d g L,
  (0 < f_nb (base sc) < 2)%nat /\ epsilon sc < 0 /\
  fsc 2 1 1 [] (fun _ => 1) 0 1 [sc] q = Some g /\
  derivable_pt_lim (fun t => potsc 2 1 [] (fun _ => 1) 0 1 [sc] (fun b c => q b c + t * d b c)) 0 L /\
  L = 2 / 9 /\ - Rsum 2 (fun b => Rsum 1 (fun c => g b c * d b c)) = 0.
Proof.
  exists contracted, (fun _ _ => 1), (fun _ _ => 1). eexists. exists (2 / 9).
  split; [cbn; lia|]. split; [cbn; lra|]. split.
  { unfold fsc, f_4th_order, fold_left, fvir_step. cbn [contracted base f_w f_mts Rsuml].
    rewrite !(proj2 (nz_true _)) by lra. cbn [andb]. unfold forces_4th_order. change (even_b 2) with true. cbn [negb].
    fold contracted. change (epsilon contracted) with (-1). rewrite (proj2 (pos_false (-1))) by lra. rewrite (proj2 (pos_true (- -1))) by lra.
    rewrite (proj2 (is0_true 0)) by easy. reflexivity. }
  split; [|split; [easy|]].
  - apply (derivable_ext (fun t => 1 / 9 * ((1 + t) * (1 + t)))).
    { intros t. unfold potsc, potssc. cbn [Rsum]. rewrite !contracted_f, !contracted_p. unfold coeffsc_part_1, coeffsc_part_2.
      change (even_b 0) with true. change (even_b 1) with false. cbn iota. field. }
    eapply derivable_eq; [|apply (derivable_pt_lim_scal (fun t => (1 + t) * (1 + t)) (1 / 9) 0 (1 * (1 + 0) + (1 + 0) * 1))]; [field|].
    assert (D : derivable_pt_lim (fun t => 1 + t) 0 1).
    { eapply derivable_eq; [|apply derivable_pt_lim_plus; [apply derivable_pt_lim_const|apply derivable_pt_lim_id]]. ring. }
    apply (derivable_pt_lim_mult (fun t => 1 + t) (fun t => 1 + t)); exact D.
  - cbn [Rsum]. unfold addto, zeros, dforce. change (beads_of 2 (f_nb (base contracted))) with 1%nat.
    rewrite !contracted_f. unfold coeffsc_part_1, coeffsc_part_2. change (even_b 0) with true. change (even_b 1) with false. cbn iota.
    rewrite !expand21. field. 
    apply Rgt_not_eq. apply delta_pos. lra.
Qed.

(** Harmonic case: two components, masses 1 and 2, alpha = 1/3, four beads. *)
Definition harmonic (k w : R) : ffield := mkFF w [1 / 2; 1 / 2] 4 (fun x => k / 2 * (x 0%nat * x 0%nat) + k * (x 0%nat * x 1%nat)) (fun x c => match c with 0%nat => - k * (x 0%nat + x 1%nat) | _ => - k * x 0%nat end) (fun _ _ => 0).
Definition harmonicJ (k : R) (x u : nat -> R) (c : nat) : R := match c with 0%nat => - k * (u 0%nat + u 1%nat) | _ => - k * u 0%nat end.
Example harmonic_ok k w e : e <> 0 -> full 4 (mkSC (harmonic k w) e) /\ smooth_ff 2 (harmonic k w) (harmonicJ k) /\ linear_ff (harmonic k w) (harmonicJ k).
Proof.
  intros He. assert (L : linear_ff (harmonic k w) (harmonicJ k)).
  { intros x u t [|c]; cbn; ring. }
  split; [split; [easy|exact He]|]. split; [|exact L]. split.
  - intros x d. cbn [harmonic f_V f_F Rsum].
    assert (D : forall i, derivable_pt_lim (fun t => x i + t * d i) 0 (d i)).
    { intros i. eapply derivable_eq; [|apply derivable_pt_lim_plus; [apply derivable_pt_lim_const|apply derivable_pt_lim_mult; [apply derivable_pt_lim_id|apply derivable_pt_lim_const]]]. unfold id. ring. }
    eapply derivable_eq; [|apply (derivable_pt_lim_plus (fun t => k / 2 * ((x 0%nat + t * d 0%nat) * (x 0%nat + t * d 0%nat))) (fun t => k * ((x 0%nat + t * d 0%nat) * (x 1%nat + t * d 1%nat))));
      [apply (derivable_pt_lim_scal (fun t => (x 0%nat + t * d 0%nat) * (x 0%nat + t * d 0%nat)))|apply (derivable_pt_lim_scal (fun t => (x 0%nat + t * d 0%nat) * (x 1%nat + t * d 1%nat)))];
      apply (derivable_pt_lim_mult (fun t => x _ + t * d _) (fun t => x _ + t * d _)); apply D].
    field.
  - intros x u c. apply (derivable_ext (fun t => f_F (harmonic k w) x c + t * harmonicJ k x u c)); [intros t; now rewrite <- L|].
    eapply derivable_eq; [|apply derivable_pt_lim_plus; [apply derivable_pt_lim_const|apply derivable_pt_lim_mult; [apply derivable_pt_lim_id|apply derivable_pt_lim_const]]]. unfold id. ring.
  - intros x u v. cbn. ring.
Qed.
Example harmonic_case q : let scs := [(mkSC (harmonic 3 1) (/ 100), harmonicJ 3); (mkSC (harmonic 1 2) (- / 10), harmonicJ 1)] in
  exists g, fsc 4 2 1 [] (fun c => INR (S c)) (1 / 3) 7 (map fst scs) q = Some g /\
    forall d, derivable_pt_lim (fun t => potsc 4 2 [] (fun c => INR (S c)) (1 / 3) 7 (map fst scs) (fun b c => q b c + t * d b c)) 0
      (- Rsum 4 (fun b => Rsum 2 (fun c => g b c * d b c))).
Proof.
  intros scs. apply sc_force_is_gradient_harmonic; [lia|reflexivity|]. intros p [<-|[<-|[]]]; apply harmonic_ok; lra.
Qed.

Print Assumptions sc_coefficients.
Print Assumptions sc_energy_gradient.
Print Assumptions sc_force_is_gradient_harmonic.
Print Assumptions sc_force_converges.
Print Assumptions sc_odd_refused.
Print Assumptions sc_one_sided_contraction_refused.
Print Assumptions sc_zero_epsilon_refuted.
Print Assumptions sc_contracted_force_is_gradient_refuted.
