(* C100-C102: the potentials bundled with the python driver. *)
From Coq Require Import String List Reals Arith Bool Lia Lra.
From Coquelicot Require Import Coquelicot.
From Verif Require Import RSum SpringProofs PesModel.
Import ListNotations.
Local Open Scope R_scope.

(* the force is minus the gradient of the energy, along every direction *)
Definition conservative_at (dof : nat) (V : vec -> R) (F : vec) (x : vec) : Prop :=
  forall d : vec, derivable_pt_lim (fun t => V (fun c => x c + t * d c)) 0 (- Rsum dof (fun c => F c * d c)).

Ltac gen x a := generalize (x (3 * a)%nat), (x (3 * a + 1)%nat), (x (3 * a + 2)%nat); intros X Y Z.
Ltac diff := apply is_derive_Reals; auto_derive; [try easy|cbn [Init.Nat.pred INR]].

Lemma mod_0 a : ((3 * a) mod 3 = 0)%nat. Proof. rewrite Nat.mul_comm. now apply Nat.mod_mul. Qed.
Lemma mod_i a i : (i < 3)%nat -> ((3 * a + i) mod 3 = i)%nat.
Proof. intros H. rewrite Nat.add_comm, Nat.mul_comm, Nat.mod_add by easy. now apply Nat.mod_small. Qed.
Lemma div_i a i : (i < 3)%nat -> ((3 * a + i) / 3 = a)%nat.
Proof. intros H. rewrite Nat.add_comm, Nat.mul_comm, Nat.div_add by easy. now rewrite Nat.div_small. Qed.
Lemma div_0 a : ((3 * a) / 3 = a)%nat.
Proof. rewrite Nat.mul_comm. now apply Nat.div_mul. Qed.

(* atoms one by one *)
Lemma by_atoms n (V : nat -> R -> R -> R -> R) (F : vec) (x : vec) :
  (forall a dx dy dz, (a < n)%nat ->
     derivable_pt_lim (fun t => V a (x (3 * a)%nat + t * dx) (x (3 * a + 1)%nat + t * dy) (x (3 * a + 2)%nat + t * dz)) 0
       (- (F (3 * a)%nat * dx + F (3 * a + 1)%nat * dy + F (3 * a + 2)%nat * dz))) ->
  conservative_at (3 * n) (fun q => Rsum n (fun a => V a (q (3 * a)%nat) (q (3 * a + 1)%nat) (q (3 * a + 2)%nat))) F x.
Proof.
  intros H d. rewrite Rsum_three. rewrite <- Rsum_opp.
  apply (derivable_Rsum n (fun a t => V a (x (3 * a)%nat + t * d (3 * a)%nat) (x (3 * a + 1)%nat + t * d (3 * a + 1)%nat) (x (3 * a + 2)%nat + t * d (3 * a + 2)%nat))).
  intros a Ha. now apply H.
Qed.
Lemma conservative_ext dof V V' F F' x : (forall q, V q = V' q) -> (forall c, (c < dof)%nat -> F c = F' c) ->
  conservative_at dof V F x -> conservative_at dof V' F' x.
Proof.
  intros HV HF H d. apply (derivable_ext (fun t => V (fun c => x c + t * d c))); [intros; apply HV|].
  eapply derivable_eq; [|apply H]. f_equal. apply Rsum_ext. intros c Hc. now rewrite HF.
Qed.

(* ---------------- harmonic ---------------- *)

Lemma harmonic_atoms s n pos : fst (harmonic_one s n pos) =
  Rsum n (fun a => match s with
    | Iso k => k / 2 * (pos (3 * a)%nat ^ 2 + pos (3 * a + 1)%nat ^ 2 + pos (3 * a + 2)%nat ^ 2)
    | Aniso k1 k2 k3 => k1 / 2 * pos (3 * a)%nat ^ 2 + k2 / 2 * pos (3 * a + 1)%nat ^ 2 + k3 / 2 * pos (3 * a + 2)%nat ^ 2 end).
Proof.
  destruct s as [k|k1 k2 k3]; cbn [harmonic_one fst].
  - rewrite Rsum_three, <- Rsum_scal. apply Rsum_ext. intros. field.
  - cbn [Rsum kth]. rewrite <- !Rsum_scal, Rplus_0_l, <- !Rsum_plus. apply Rsum_ext. intros a _.
    replace (3 * a + 0)%nat with (3 * a)%nat by lia. field.
Qed.
Theorem harmonic_conservative s n x : conservative_at (3 * n) (fun q => fst (harmonic_one s n q)) (snd (harmonic_one s n x)) x.
Proof.
  eapply conservative_ext; [intros q; symmetry; apply harmonic_atoms|intros; reflexivity|].
  destruct s as [k|k1 k2 k3].
  - apply (by_atoms n (fun _ x y z => k / 2 * (x ^ 2 + y ^ 2 + z ^ 2))). intros a dx dy dz _. cbn [harmonic_one snd]. gen x a. diff; field.
  - apply (by_atoms n (fun _ x y z => k1 / 2 * x ^ 2 + k2 / 2 * y ^ 2 + k3 / 2 * z ^ 2)). intros a dx dy dz _. cbn [harmonic_one snd].
    rewrite mod_0, !mod_i by lia. cbn [kth]. gen x a. diff; field.
Qed.
(* evaluating a batch gives what one evaluation after the other gives *)
Theorem harmonic_batch_same s cells ps rs : harmonic_batch s cells ps = Some rs ->
  exists rs', serial (harmonic_one s) cells ps = Some rs' /\
  Forall2 (fun r r' => fst r = fst r' /\ forall c, snd r c = snd r' c) rs rs'.
Proof.
  unfold harmonic_batch, serial. destruct (negb (Nat.eqb cells (length ps))); [easy|].
  destruct ps as [|[n p] ps]; [easy|]. destruct (forallb _ ((n, p) :: ps)) eqn:E; [|easy]. cbn [negb]. intros K.
  eexists. split; [reflexivity|]. apply (f_equal (fun o => match o with Some r => r | None => [] end)) in K. subst rs.
  rewrite forallb_forall in E. revert E. generalize ((n, p) :: ps). clear p ps. intros ps E.
  induction ps as [|[n' p] ps IH]; cbn [map]; constructor; [|apply IH; intros; apply E; now right].
  assert (n' = n) by (specialize (E (n', p) (or_introl eq_refl)); now apply Nat.eqb_eq in E). subst n'. cbn [fst snd].
  destruct s as [k|k1 k2 k3]; (split; [|now intros c]); [reflexivity|].
  rewrite harmonic_atoms, Rsum_three, <- Rsum_scal. apply Rsum_ext. intros a _. rewrite mod_0, !mod_i by lia. cbn [kth]. field.
Qed.
(* ... and is done unless the batch is empty or mixed *)
Theorem harmonic_batch_defined s n ps : ps <> [] -> (forall p, In p ps -> fst p = n) ->
  exists rs, harmonic_batch s (length ps) ps = Some rs.
Proof.
  intros H1 H2. unfold harmonic_batch. rewrite Nat.eqb_refl. cbn [negb]. destruct ps as [|[n' p] ps]; [easy|].
  replace (forallb _ _) with true; [eexists; reflexivity|]. symmetry. apply forallb_forall. intros r Hr.
  rewrite (H2 r Hr). rewrite <- (H2 _ (or_introl eq_refl)). apply Nat.eqb_refl.
Qed.
Theorem gas_batch_same ps rs : gas_batch (length ps) ps = Some rs -> serial gas_one (length ps) ps = Some rs.
Proof. unfold gas_batch, serial. rewrite Nat.eqb_refl. cbn [negb]. now destruct ps. Qed.
Theorem gas_conservative n x : conservative_at (3 * n) (fun q => fst (gas_one n q)) (snd (gas_one n x)) x.
Proof. intros d. cbn. rewrite Rsum_0 by (intros; ring). eapply derivable_eq; [|apply derivable_pt_lim_const]. ring. Qed.

(* ---------------- Morse ---------------- *)

Theorem morse_conservative m n x : conservative_at (3 * n) (fun q => fst (morse_one m n q)) (snd (morse_one m n x)) x.
Proof.
  apply (by_atoms n (fun _ => morse_atom m)). intros a dx dy dz _. cbn [morse_one snd]. unfold morse_force, morse_atom.
  rewrite mod_0, !mod_i by lia. cbn [Nat.eqb]. gen x a. diff; field.
Qed.
(* the minimum is at z0, where the energy is zero, if the constants are positive *)
Theorem morse_minimum m n x : 0 <= De m -> 0 <= mk m -> 0 <= fst (morse_one m n x) /\
  ((forall a, (a < n)%nat -> x (3 * a)%nat = 0 /\ x (3 * a + 1)%nat = 0 /\ x (3 * a + 2)%nat = z0 m) -> fst (morse_one m n x) = 0).
Proof.
  intros H1 H2. cbn [morse_one fst]. split.
  - apply Rsum_nonneg. intros a _. unfold morse_atom. set (u := (_ - z0 m) * ma m).
    assert (0 <= u ^ 2 - u ^ 3 + 7 / 12 * u ^ 4).
    { replace (u ^ 2 - u ^ 3 + 7 / 12 * u ^ 4) with (u ^ 2 * ((1 - u / 2) ^ 2 + u ^ 2 / 3)) by field.
      apply Rmult_le_pos; [nra|]. pose proof (pow2_ge_0 (1 - u / 2)). nra. }
    assert (0 <= x (3 * a)%nat ^ 2 + x (3 * a + 1)%nat ^ 2) by nra.
    apply Rplus_le_le_0_compat; apply Rmult_le_pos; lra.
  - intros H. apply Rsum_0. intros a Ha. destruct (H a Ha) as (-> & -> & ->). unfold morse_atom. field.
Qed.
(* units of the four parameters *)
Theorem morse_parameters ev ang d a z k : morse_init ev ang (Some d) (Some a) (Some z) (Some k) = Morse (d * ev) (a / ang) (z * ang) (k * ev / ang ^ 2).
Proof. reflexivity. Qed.
(* with one of them missing, the three others are ignored *)
Theorem morse_some_parameters_refuted : exists ev ang d a z, De (morse_init ev ang (Some d) (Some a) (Some z) None) <> d * ev /\
  ma (morse_init ev ang (Some d) (Some a) (Some z) None) <> a / ang /\ z0 (morse_init ev ang (Some d) (Some a) (Some z) None) <> z * ang.
Proof. exists 1, 1, 1, 1, 1. cbn. lra. Qed.

(* ---------------- double wells ---------------- *)

(* one atom: conservative *)
Theorem dw_conservative w x : conservative_at 3 (fun q => nth 0 (fst (dw_one w 1 q)) 0) (snd (dw_one w 1 x)) x.
Proof.
  eapply conservative_ext; [| |apply (by_atoms 1 (fun _ x y z => wA w * (x - delta w) ^ 2 + wB w * x ^ 4 + 1 / 2 * wk w * y ^ 2 + 1 / 2 * wk w * z ^ 2) (snd (dw_one w 1 x)))].
  - intros q. cbn -[pow]. field.
  - reflexivity.
  - intros a dx dy dz Ha. assert (a = 0%nat) by lia. subst a. cbn -[pow]. generalize (x 0%nat), (x 1%nat), (x 2%nat); intros X Y Z. diff; field.
Qed.
(* several atoms: not one energy *)
Theorem dw_several_atoms_refuted : exists w n x, length (fst (dw_one w n x)) <> 1%nat.
Proof. exists (Well 0 0 0 0 0 0 0 0), 2%nat, (fun _ => 0). cbn. lia. Qed.
Theorem dw_energies w n x : length (fst (dw_one w n x)) = n.
Proof. cbn. now rewrite map_length, seq_length. Qed.
(* the height of the barrier is the one asked for, and so is the curvature on
   top of it *)
Theorem dw_barrier cm ang self wb v0 m x y z : 0 < wb * cm -> 0 < v0 * cm -> 0 < m ->
  let w := dw_init cm ang self (Some wb) (Some v0) (Some m) (Some 0) in
  let V q := nth 0 (fst (dw_one w 1 q)) 0 in
  let at3 x y z := fun c : nat => match c with 0%nat => x | 1%nat => y | _ => z end in
  V (at3 0 0 0) = 0 /\ - (v0 * cm) <= V (at3 x y z) /\ V (at3 (sqrt (4 * (v0 * cm) / (m * (wb * cm) ^ 2))) 0 0) = - (v0 * cm) /\
  derivable_pt_lim (fun t => snd (dw_one w 1 (at3 t 0 0)) 0%nat) 0 (m * (wb * cm) ^ 2).
Proof.
  intros H1 H2 H3. cbv zeta. set (W := wb * cm) in *. set (U := v0 * cm) in *. cbn -[pow].
  fold W U. rewrite !Rmult_0_l.
  assert (K : 0 <= kxy) by (unfold kxy; apply Rmult_le_pos; [lra|apply pow2_ge_0]).
  split; [field; lra|]. split; [|split].
  - assert (E : - (1 / 2) * m * W ^ 2 * (x - 0) ^ 2 + m ^ 2 * W ^ 4 / (16 * U) * x ^ 4 = - U + U * (1 - m * W ^ 2 * x ^ 2 / (4 * U)) ^ 2) by (field; lra).
    rewrite E. pose proof (pow2_ge_0 (1 - m * W ^ 2 * x ^ 2 / (4 * U))). pose proof (pow2_ge_0 y). pose proof (pow2_ge_0 z).
    assert (0 <= U * (1 - m * W ^ 2 * x ^ 2 / (4 * U)) ^ 2) by (apply Rmult_le_pos; lra).
    assert (0 <= 1 / 2 * kxy * (0 + y ^ 2)) by (apply Rmult_le_pos; lra). assert (0 <= 1 / 2 * kxy * (0 + z ^ 2)) by (apply Rmult_le_pos; lra). lra.
  - set (r := 4 * U / (m * W ^ 2)). assert (P : 0 < m * W ^ 2) by (apply Rmult_lt_0_compat; [easy|now apply pow_lt]).
    assert (0 <= r) by (unfold r; apply Rlt_le, Rdiv_lt_0_compat; lra).
    replace ((sqrt r - 0) ^ 2) with (sqrt r * sqrt r) by ring. replace (sqrt r ^ 4) with ((sqrt r * sqrt r) * (sqrt r * sqrt r)) by ring.
    rewrite sqrt_sqrt by easy. unfold r. field. repeat split; try lra; apply Rgt_not_eq; try lra; nra.
  - diff. field. lra.
Qed.
(* the double well with friction does not use the barrier asked for *)
Theorem friction_well_refuted : exists cm ang self wb v0 m e0 e1 e2 d dQ,
  let w := friction_init cm ang self wb v0 m e0 e1 e2 d dQ in
  let want := dw_init cm ang self (Some wb) (Some v0) (Some m) (Some d) in
  wA w <> wA want /\ delta w <> delta want.
Proof. exists 1, 1, (Well 0 0 0 0 0 0 0 0), 1, 1, 1, 1, 0, 0, 1, 1. cbn. lra. Qed.
Theorem friction_well_ignores_parameters cm ang self wb v0 m d wb' v0' m' d' e0 e1 e2 dQ :
  friction_init cm ang self wb v0 m e0 e1 e2 d dQ = friction_init cm ang self wb' v0' m' e0 e1 e2 d' dQ.
Proof. reflexivity. Qed.

Lemma tanh_derivative q : derivable_pt_lim tanh q (1 - tanh q ^ 2).
Proof.
  assert (C : 0 < cosh q) by (unfold cosh; pose proof (exp_pos q); pose proof (exp_pos (- q)); lra).
  unfold tanh. eapply derivable_eq; [|apply (derivable_pt_lim_div sinh cosh q _ _ (derivable_pt_lim_sinh q) (derivable_pt_lim_cosh q)); lra].
  unfold Rsqr. field. lra.
Qed.
Lemma coupling_derivative e1 e2 dQ q : dQ <> 0 -> derivable_pt_lim (coupling e1 e2 dQ) q (dSD_dq e1 e2 dQ q).
Proof.
  intros H. unfold coupling, dSD_dq.
  assert (K : derivable_pt_lim (SD e1 e2 dQ) q (e1 * exp (- (1 / 2) * (q / dQ) ^ 2) * (- (q / dQ) / dQ) + e2 * (1 - tanh (q / dQ) ^ 2) / dQ)).
  { unfold SD. apply (derivable_pt_lim_plus (fun q => 1 + e1 * exp (- (1 / 2) * (q / dQ) ^ 2)) (fun q => e2 * tanh (q / dQ))).
    - diff. replace (- (1 / 2) * (q * / dQ * (q * / dQ * 1))) with (- (1 / 2) * (q / dQ) ^ 2) by (unfold Rdiv; ring). field. easy.
    - eapply derivable_eq; [|apply (derivable_pt_lim_scal (fun q => tanh (q / dQ)) e2 q ((1 - tanh (q / dQ) ^ 2) * / dQ))].
      + field; easy.
      + apply (derivable_pt_lim_comp (fun q => q / dQ) tanh); [diff; field; easy|apply tanh_derivative]. }
  eapply derivable_eq; [|apply (derivable_pt_lim_mult (fun q => q) (SD e1 e2 dQ) q 1 _ (derivable_pt_lim_id q) K)].
  ring.
Qed.
(* the friction is never negative and comes from the slope of the coupling *)
Theorem friction_tensor w x i j : 0 <= eta0 w -> deltaQ w <> 0 ->
  0 <= friction w x i j /\ friction w x i j = friction w x j i /\
  forall s, derivable_pt_lim (coupling (eps1 w) (eps2 w) (deltaQ w)) (x 0%nat) s -> friction w x 0 0 = eta0 w * s ^ 2.
Proof.
  intros H1 H2. unfold friction. split; [|split].
  - destruct (Nat.eqb i 0 && Nat.eqb j 0); [|lra]. apply Rmult_le_pos; [easy|apply pow2_ge_0].
  - now rewrite andb_comm.
  - intros s Hs. cbn [Nat.eqb andb]. f_equal. f_equal. apply (uniqueness_limite (coupling (eps1 w) (eps2 w) (deltaQ w)) (x 0%nat)); [now apply coupling_derivative|easy].
Qed.

(* ---------------- baths ---------------- *)

Lemma omega_pos b i : 0 < w_c b -> (i < nbath b)%nat -> 0 < omega b i.
Proof.
  intros H Hi. unfold omega. assert (P : 0 < INR (nbath b)) by (apply lt_0_INR; lia). pose proof (pos_INR i).
  assert (INR i + 1 <= INR (nbath b)) by (rewrite <- S_INR; apply le_INR; lia).
  assert (L : ln ((INR i + 1 / 2) / INR (nbath b)) < 0).
  { rewrite <- ln_1. apply ln_increasing; [apply Rdiv_lt_0_compat; lra|]. apply (Rmult_lt_reg_r (INR (nbath b))); [easy|].
    unfold Rdiv. rewrite Rmult_assoc, Rinv_l by lra. lra. }
  nra.
Qed.
(* the degree of freedom first, then the bath *)
Definition joined (b : bath) (x : vec) : R := fst (fst (bath_one b (x 0%nat) (fun i => x (i + 1)%nat))).
Theorem bath_conservative b x : bm b <> 0 -> bdQ b <> 0 ->
  conservative_at (1 + nbath b) (joined b)
    (fun c => match c with O => snd (fst (bath_one b (x 0%nat) (fun i => x (i + 1)%nat)))
              | S i => snd (bath_one b (x 0%nat) (fun i => x (i + 1)%nat)) i end) x.
Proof.
  intros Hm HQ d. unfold joined, bath_one. destruct (Rlt_dec 0 (w_c b)) as [W|W]; cbn [fst snd].
  2: { rewrite Rsum_0; [eapply derivable_eq; [|apply derivable_pt_lim_const]; ring|]. intros [|i] _; ring. }
  set (cp := coupling (be1 b) (be2 b) (bdQ b)). set (dc := dSD_dq (be1 b) (be2 b) (bdQ b) (x 0%nat)).
  pose (xt := fun t i => x (i + 1)%nat + t * d (i + 1)%nat). pose (qt := fun t => x 0%nat + t * d 0%nat).
  assert (Hq : derivable_pt_lim (fun t => cp (qt t)) 0 (dc * d 0%nat)).
  { apply (derivable_pt_lim_comp qt cp); [unfold qt; diff; ring|]. unfold qt. rewrite Rmult_0_l, Rplus_0_r. now apply coupling_derivative. }
  eapply derivable_eq; [|apply (derivable_Rsum (nbath b) (fun i t => 1 / 2 * bm b * omega2 b i * aux b (qt t) (xt t) i ^ 2)
     (fun i => bm b * omega2 b i * aux b (x 0%nat) (fun i => x (i + 1)%nat) i * (d (i + 1)%nat - coef b i * (dc * d 0%nat) / (bm b * omega2 b i))))].
  - cbn [Nat.add]. rewrite Rsum_first. fold dc. rewrite <- Rsum_scal_r, <- Rsum_plus, <- Rsum_opp. apply Rsum_ext. intros i Hi.
    replace (i + 1)%nat with (S i) by lia. assert (omega2 b i <> 0) by (pose proof (omega_pos b i W Hi); unfold omega2; apply pow_nonzero; lra).
    field. easy.
  - intros i Hi. pose proof (omega_pos b i W Hi).
    assert (Ha : derivable_pt_lim (fun t => aux b (qt t) (xt t) i) 0 (d (i + 1)%nat - coef b i * (dc * d 0%nat) / (bm b * omega2 b i))).
    { unfold aux. fold cp. apply (derivable_pt_lim_minus (fun t => xt t i) (fun t => coef b i * cp (qt t) / (bm b * omega2 b i))); [unfold xt; diff; ring|].
      eapply derivable_eq; [|apply (derivable_ext (mult_real_fct (coef b i / (bm b * omega2 b i)) (fun t => cp (qt t))));
         [intros t; unfold mult_real_fct; unfold Rdiv; ring|apply (derivable_pt_lim_scal _ _ _ _ Hq)]]. unfold Rdiv; ring. }
    pose proof (derivable_pt_lim_mult _ _ _ _ _ Ha Ha) as Hs.
    pose proof (derivable_pt_lim_scal _ (1 / 2 * bm b * omega2 b i) _ _ Hs) as Hc.
    eapply derivable_eq; [|eapply (derivable_ext _ _ _ _); [|exact Hc]]; [|intros t; unfold mult_real_fct, mult_fct; ring].
    assert (E : aux b (qt 0) (xt 0) i = aux b (x 0%nat) (fun i => x (i + 1)%nat) i).
    { unfold aux, qt, xt. now rewrite !Rmult_0_l, !Rplus_0_r. }
    cbv beta. rewrite E. match goal with |- context [d (i + 1)%nat - ?u] => generalize (d (i + 1)%nat - u); intros L end. field.
Qed.

(* the double well and its bath would be conservative ... *)
Theorem dw_bath_conservative cls w b x V F : In "__call__"%string cls -> bm b <> 0 -> bdQ b <> 0 ->
  (forall q, option_map fst (dw_bath_one cls w b q) = Some (V q)) -> option_map snd (dw_bath_one cls w b x) = Some F ->
  conservative_at (1 + nbath b) V F x.
Proof.
  intros Hc Hm HQ HV HF d.
  assert (Hcall : forall q y, call cls b q y = Some (bath_one b q y)).
  { intros q y. unfold call. replace (existsb _ cls) with true; [easy|]. symmetry. apply existsb_exists. eexists. split; [exact Hc|]. apply String.eqb_refl. }
  pose (U := fun q : R => wA w * (q - delta w) ^ 2 + wB w * q ^ 4).
  assert (EV : forall q, V q = joined b q + U (q 0%nat)).
  { intros q. specialize (HV q). unfold dw_bath_one in HV. rewrite Hcall in HV. unfold joined. destruct (bath_one b (q 0%nat) (fun i => q (i + 1)%nat)) as [[e fq] fx].
    cbn [option_map fst] in HV. apply (f_equal (fun o => match o with Some r => r | None => 0 end)) in HV. symmetry. exact HV. }
  apply (derivable_ext (fun t => joined b (fun c => x c + t * d c) + U (x 0%nat + t * d 0%nat))); [intros; now rewrite EV|].
  pose proof (bath_conservative b x Hm HQ d) as HB.
  eapply derivable_eq; [|apply (derivable_pt_lim_plus (fun t => joined b (fun c => x c + t * d c)) (fun t => U (x 0%nat + t * d 0%nat)) 0 _ ((2 * wA w * (x 0%nat - delta w) + 4 * wB w * x 0%nat ^ 3) * d 0%nat) HB)].
  2: { unfold U. generalize (x 0%nat), (d 0%nat). intros X D. diff. ring. }
  unfold dw_bath_one in HF. rewrite Hcall in HF. destruct (bath_one b (x 0%nat) (fun i => x (i + 1)%nat)) as [[e fq] fx]. cbn [option_map snd fst] in *.
  assert (EF : F = fun c => match c with O => fq + (- 2 * wA w * (x 0%nat - delta w) - 4 * wB w * x 0%nat ^ 3) | S i => fx i end) by congruence.
  rewrite EF. cbn [Nat.add]. rewrite !Rsum_first. ring.
Qed.
(* two coupled double wells, each with its bath: again, if the bath could be called *)
Definition part (first : nat) (start : nat) (q : vec) : vec := fun c => match c with O => q first | S i => q (i + start)%nat end.
Lemma part_tail first start q : (fun i => part first start q (i + 1)%nat) = (fun i => q (i + start)%nat).
Proof. apply FunctionalExtensionality.functional_extensionality. intros i. unfold part. now replace (i + 1)%nat with (S i) by lia. Qed.
Theorem ddw_conservative cls C w1 w2 b x V F : In "__call__"%string cls -> bm b <> 0 -> bdQ b <> 0 ->
  (forall q, option_map fst (ddw_one cls C w1 w2 b q) = Some (V q)) -> option_map snd (ddw_one cls C w1 w2 b x) = Some F ->
  conservative_at (2 + 2 * nbath b) V F x.
Proof.
  intros Hc Hm HQ HV HF d.
  assert (Hcall : forall q y, call cls b q y = Some (bath_one b q y)).
  { intros q y. unfold call. replace (existsb _ cls) with true; [easy|]. symmetry. apply existsb_exists. eexists. split; [exact Hc|]. apply String.eqb_refl. }
  set (m := nbath b).
  pose (U := fun a c => (wA w1 * (a - delta w1) ^ 2 + wB w1 * a ^ 4) + (wA w2 * (c - delta w1) ^ 2 + wB w2 * c ^ 4) + C * a * c).
  assert (EV : forall q, V q = joined b (part 0 2 q) + joined b (part 1 (2 + m) q) + U (q 0%nat) (q 1%nat)).
  { intros q. specialize (HV q). unfold ddw_one in HV. rewrite !Hcall in HV. unfold joined. rewrite !part_tail. cbn [part]. fold m in HV |- *.
    destruct (bath_one b (q 0%nat) (fun i => q (i + 2)%nat)) as [[e1 f1] fx]. destruct (bath_one b (q 1%nat) (fun i => q (i + (2 + m))%nat)) as [[e2 f2] fy].
    cbn [option_map fst] in *. apply (f_equal (fun o => match o with Some r => r | None => 0 end)) in HV. rewrite <- HV. unfold U. ring. }
  assert (P : forall first start t, part first start (fun c => x c + t * d c) = fun c => part first start x c + t * part first start d c).
  { intros. apply FunctionalExtensionality.functional_extensionality. intros [|i]; reflexivity. }
  pose proof (bath_conservative b (part 0 2 x) Hm HQ (part 0 2 d)) as B1. pose proof (bath_conservative b (part 1 (2 + m) x) Hm HQ (part 1 (2 + m) d)) as B2.
  apply (derivable_ext (fun t => joined b (fun c => part 0 2 x c + t * part 0 2 d c) + joined b (fun c => part 1 (2 + m) x c + t * part 1 (2 + m) d c)
    + U (x 0%nat + t * d 0%nat) (x 1%nat + t * d 1%nat))); [intros t; now rewrite EV, !P|].
  unfold ddw_one in HF. rewrite !Hcall in HF. fold m in HF. rewrite !part_tail in B1, B2. cbn [part] in B1, B2.
  destruct (bath_one b (x 0%nat) (fun i => x (i + 2)%nat)) as [[e1 f1] fx]. destruct (bath_one b (x 1%nat) (fun i => x (i + (2 + m))%nat)) as [[e2 f2] fy].
  cbn [option_map snd fst] in *.
  assert (EF : F = fun c => match c with
     | O => f1 + (- 2 * wA w1 * (x 0%nat - delta w1) - 4 * wB w1 * x 0%nat ^ 3) + - C * x 1%nat
     | 1%nat => f2 + (- 2 * wA w2 * (x 1%nat - delta w1) - 4 * wB w2 * x 1%nat ^ 3) + - C * x 0%nat
     | S (S i) => if (i <? m)%nat then fx i else fy (i - m)%nat end) by congruence.
  eapply derivable_eq; [|apply (derivable_pt_lim_plus _ (fun t => U (x 0%nat + t * d 0%nat) (x 1%nat + t * d 1%nat)) 0 _
    ((2 * wA w1 * (x 0%nat - delta w1) + 4 * wB w1 * x 0%nat ^ 3 + C * x 1%nat) * d 0%nat + (2 * wA w2 * (x 1%nat - delta w1) + 4 * wB w2 * x 1%nat ^ 3 + C * x 0%nat) * d 1%nat)
    (derivable_pt_lim_plus _ _ _ _ _ B1 B2))].
  2: { unfold U. generalize (x 0%nat), (d 0%nat), (x 1%nat), (d 1%nat). intros X D Y E. diff. ring. }
  rewrite EF. cbn [Nat.add]. rewrite !Rsum_first. fold m. replace (2 * m)%nat with (m + m)%nat by lia.
  rewrite Rsum_split. cbn [part].
  rewrite (Rsum_ext m (fun i => (if (i <? m)%nat then fx i else fy (i - m)%nat) * d (S (S i))) (fun i => fx i * d (i + 2)%nat)).
  2: { intros i Hi. apply Nat.ltb_lt in Hi. rewrite Hi. now replace (i + 2)%nat with (S (S i)) by lia. }
  rewrite (Rsum_ext m (fun i => (if (m + i <? m)%nat then fx (m + i)%nat else fy (m + i - m)%nat) * d (S (S (m + i)))) (fun i => fy i * d (i + S (S m))%nat)).
  2: { intros i Hi. replace (m + i <? m)%nat with false by (symmetry; apply Nat.ltb_ge; lia). replace (m + i - m)%nat with i by lia. now replace (i + S (S m))%nat with (S (S (m + i))) by lia. }
  cbn [Nat.add]. ring.
Qed.
(* ... but nothing is ever evaluated: the bath cannot be called *)
Theorem dw_bath_refuted : forall w b x, dw_bath_one bath_class w b x = None.
Proof. reflexivity. Qed.
Theorem ddw_refuted : forall C w1 w2 b x, ddw_one bath_class C w1 w2 b x = None /\ bath_new ["nbath"; "m"]%string = false.
Proof. split; reflexivity. Qed.

(* ---------------- the sphere ---------------- *)

Lemma pow_frac s r p : r <> 0 -> (s / r) ^ p = s ^ p / r ^ p.
Proof. intros H. unfold Rdiv. now rewrite Rpow_mult_distr, pow_inv. Qed.
Lemma slj_slope s r : r <> 0 -> derivable_pt_lim (fun r => slj_pot s r) r (- slj_dU s r).
Proof.
  intros H.
  assert (K : forall p, derivable_pt_lim (fun r => (sigma s / r) ^ p) r (- INR p * sigma s ^ p / r ^ (p + 1))).
  { intros p. diff. unfold Rdiv at 1. destruct p as [|p]; [cbn; field; easy|].
    cbn [Init.Nat.pred]. fold (sigma s / r). rewrite pow_frac by easy. replace (S p + 1)%nat with (S (S p)) by lia. cbn [pow]. field. split; [now apply pow_nonzero|easy]. }
  unfold slj_pot, slj_dU.
  eapply derivable_eq; [|apply (derivable_pt_lim_scal (fun r => 2 / 15 * (sigma s / r) ^ p1 s - (sigma s / r) ^ p2 s) (epsilon s));
    apply (derivable_pt_lim_minus (fun r => 2 / 15 * (sigma s / r) ^ p1 s) (fun r => (sigma s / r) ^ p2 s));
    [apply (derivable_pt_lim_scal (fun r => (sigma s / r) ^ p1 s) (2 / 15)); apply K|apply K]].
  unfold Rdiv; ring.
Qed.
(* atoms away from the centre and from the wall: conservative *)
Theorem slj_conservative s symbols sel n x V F : slj_one s symbols sel n x <> None ->
  (forall q, option_map fst (slj_one s symbols sel n q) = Some (V q)) -> option_map snd (slj_one s symbols sel n x) = Some F ->
  (forall a, (a < n)%nat -> chosen symbols sel a = true -> dist s x a <> 0 /\ gap s x a <> 0) ->
  conservative_at (3 * n) V F x.
Proof.
  intros _ HV HF Hd. unfold slj_one in HV, HF. destruct (negb (Nat.eqb n (length symbols))); [easy|]. cbn [option_map fst snd] in HV, HF.
  assert (EV : forall q, V q = Rsum n (fun a => if chosen symbols sel a then slj_pot s (gap s q a) else 0)) by (intros q; specialize (HV q); apply (f_equal (fun o => match o with Some f => f | None => 0 end)) in HV; symmetry; exact HV).
  assert (EF : forall c, F c = (let a := (c / 3)%nat in if chosen symbols sel a then - slj_dU s (gap s x a) * ((x c - ctr s (c mod 3)%nat) / dist s x a) else 0)) by (intros c; apply (f_equal (fun o => match o with Some f => f c | None => 0 end)) in HF; symmetry; exact HF).
  clear HV HF.
  pose (v := fun a X Y Z => if chosen symbols sel a then slj_pot s (radius s - sqrt ((X - ctr s 0%nat) ^ 2 + (Y - ctr s 1%nat) ^ 2 + (Z - ctr s 2%nat) ^ 2)) else 0).
  eapply conservative_ext; [| |apply (by_atoms n v F)].
  - intros q. rewrite EV. apply Rsum_ext. intros a _. unfold v. destruct (chosen symbols sel a); [|easy]. unfold gap, dist. cbn [Rsum].
    replace (3 * a + 0)%nat with (3 * a)%nat by lia. now rewrite Rplus_0_l.
  - easy.
  - intros a dx dy dz Ha. rewrite !EF. cbv zeta. rewrite div_0, !div_i, mod_0, !mod_i by lia. unfold v. destruct (chosen symbols sel a) eqn:Ec.
    2: { eapply derivable_eq; [|apply derivable_pt_lim_const]. ring. }
    destruct (Hd a Ha Ec) as (D1 & D2).
    set (X := x (3 * a)%nat) in *. set (Y := x (3 * a + 1)%nat) in *. set (Z := x (3 * a + 2)%nat) in *.
    set (X0 := ctr s 0%nat) in *. set (Y0 := ctr s 1%nat) in *. set (Z0 := ctr s 2%nat) in *.
    assert (ED : dist s x a = sqrt ((X - X0) ^ 2 + (Y - Y0) ^ 2 + (Z - Z0) ^ 2)).
    { unfold dist. cbn [Rsum]. replace (3 * a + 0)%nat with (3 * a)%nat by lia. now rewrite Rplus_0_l. }
    unfold gap in *. rewrite ED in *.
    assert (P : 0 < (X - X0) ^ 2 + (Y - Y0) ^ 2 + (Z - Z0) ^ 2).
    { destruct (Rle_lt_dec ((X - X0) ^ 2 + (Y - Y0) ^ 2 + (Z - Z0) ^ 2) 0); [|easy]. exfalso. apply D1. now apply sqrt_neg_0. }
    set (N := (X - X0) ^ 2 + (Y - Y0) ^ 2 + (Z - Z0) ^ 2) in *.
    assert (I : derivable_pt_lim (fun t => radius s - sqrt ((X + t * dx - X0) ^ 2 + (Y + t * dy - Y0) ^ 2 + (Z + t * dz - Z0) ^ 2)) 0
       (- (((X - X0) * dx + (Y - Y0) * dy + (Z - Z0) * dz) / sqrt N))).
    { clearbody X Y Z X0 Y0 Z0. diff.
      - repeat split; try easy. match goal with |- 0 < ?u => replace u with N by (unfold N; ring) end. easy.
      - match goal with |- context [sqrt ?u] => replace u with N by (unfold N; ring) end. field. apply Rgt_not_eq. now apply sqrt_lt_R0. }
    eapply derivable_eq; [|apply (derivable_pt_lim_comp (fun t => radius s - sqrt ((X + t * dx - X0) ^ 2 + (Y + t * dy - Y0) ^ 2 + (Z + t * dz - Z0) ^ 2)) (slj_pot s) 0 _ (- slj_dU s (radius s - sqrt N)) I)].
    + field. easy.
    + match goal with |- derivable_pt_lim _ ?u _ => replace u with (radius s - sqrt N) by (unfold N; repeat f_equal; ring) end. now apply slj_slope.
Qed.
(* other atoms feel nothing *)
Theorem slj_others s symbols sel n x V F : slj_one s symbols sel n x = Some (V, F) ->
  forall a i, (i < 3)%nat -> chosen symbols sel a = false -> F (3 * a + i)%nat = 0.
Proof.
  unfold slj_one. destruct (negb (Nat.eqb n (length symbols))); [easy|]. intros E a i Hi Hc.
  apply (f_equal (fun o => match o with Some f => snd f (3 * a + i)%nat | None => 0 end)) in E. cbn [snd] in E. cbv zeta in E.
  rewrite <- E, div_i by easy. now rewrite Hc.
Qed.

(* ---------------- splines ---------------- *)

(* the force along the interpolated direction is not the slope of the energy *)
Theorem spline_refuted : exists k e x, ~ conservative_at 3 (fun q => fst (spline_one k e q)) (snd (spline_one k e x)) x.
Proof.
  exists 0, (fun y => y), (fun _ => 0). intros H. specialize (H (fun c => match c with O => 1 | _ => 0 end)).
  assert (K : derivable_pt_lim (fun t => fst (spline_one 0 (fun y => y) (fun c => 0 + t * match c with O => 1 | _ => 0 end))) 0 5).
  { cbn -[pow]. unfold factor_coord. diff. ring. }
  pose proof (uniqueness_limite _ _ _ _ H K) as U. cbn in U. unfold factor_coord in U. lra.
Qed.
(* up to the error of the difference it is a fifth of it; here without error,
   for parabolas *)
Theorem spline_fifth k a b c x : derivable_pt_lim (fun t => fst (spline_one k (fun y => a * y ^ 2 + b * y + c) (fun i => match i with O => t | _ => x i end))) (x 0%nat)
   (- (5 * snd (spline_one k (fun y => a * y ^ 2 + b * y + c) x) 0%nat)).
Proof.
  cbn -[pow]. unfold factor_coord. generalize (x 0%nat), (x 1%nat), (x 2%nat). intros X Y Z. diff. field.
Qed.

(* ---------------- positional arguments ---------------- *)

(* the two file names of driverdipole: the first is taken for another argument *)
Theorem dipole_arguments_refuted : forall a b : string, dipole_files [a; b] = None.
Proof. reflexivity. Qed.
Theorem dipole_first_argument_lost : forall a b c : string, dipole_files [a; b; c] = Some (b, c).
Proof. reflexivity. Qed.

(* ---------------- results of batched models ---------------- *)

(* every structure gets its own rows *)
Theorem store_gives_parts {A} (parts : list (list A)) : store (map (@length A) parts) (concat parts) = Some parts.
Proof.
  assert (E : split (map (@length A) parts) (concat parts) = parts).
  { induction parts as [|p parts IH]; cbn; [easy|]. rewrite firstn_app, Nat.sub_diag, firstn_all, firstn_O, app_nil_r.
    rewrite skipn_app, Nat.sub_diag, skipn_all. cbn. now rewrite IH. }
  unfold store. rewrite E. replace (forallb _ _) with true; [easy|]. symmetry. apply forallb_forall. clear E.
  intros [n p] Hp. cbn. apply Nat.eqb_eq. induction parts as [|q parts IH]; cbn in Hp; [easy|].
  destruct Hp as [Hp|Hp]; [congruence|auto].
Qed.
(* nothing is stored when there are too few rows *)
Lemma split_length {A} ns : forall rows : list A, length (split ns rows) = length ns.
Proof. induction ns as [|n ns IH]; intros rows; cbn; [easy|]. now rewrite IH. Qed.
Theorem store_sound {A} ns (rows : list A) parts : store ns rows = Some parts ->
  map (@length A) parts = ns /\ concat parts = firstn (list_sum ns) rows /\ (list_sum ns <= length rows)%nat.
Proof.
  unfold store. destruct (forallb _ _) eqn:E; [|easy]. intros K. assert (Hp : parts = split ns rows) by congruence. subst parts. clear K.
  revert rows E. induction ns as [|n ns IH]; intros rows E; [cbn; repeat split; lia|].
  cbn [split combine map forallb fst snd concat] in *. change (list_sum (n :: ns)) with (n + list_sum ns)%nat.
  rewrite andb_true_iff in E. destruct E as (E1 & E2). apply Nat.eqb_eq in E1. destruct (IH _ E2) as (K1 & K2 & K3).
  rewrite firstn_length in E1. rewrite skipn_length in K3.
  assert (Hle : (n <= length rows)%nat) by lia.
  split; [|split; [|lia]].
  - f_equal; [rewrite firstn_length; lia|easy].
  - rewrite K2. rewrite <- (firstn_skipn n rows) at 3. rewrite firstn_app, firstn_length.
    replace (Nat.min n (length rows)) with n by lia. rewrite firstn_firstn. replace (Nat.min (n + list_sum ns) n) with n by lia.
    now replace (n + list_sum ns - n)%nat with (list_sum ns) by lia.
Qed.
(* the mean over models *)
Lemma fold_sum xs : forall z, fold_left Rplus xs z = z + Rsuml xs.
Proof. induction xs as [|x xs IH]; intros z; cbn; [ring|]. rewrite IH. ring. Qed.
Theorem mean_of_models xs m : mean xs = Some m -> INR (length xs) * m = Rsuml xs.
Proof.
  destruct xs as [|x xs]; [easy|]. intros E. assert (Em : m = fold_left Rplus (x :: xs) 0 / INR (length (x :: xs))) by (cbn in E |- *; congruence).
  rewrite Em, fold_sum. assert (0 < INR (length (x :: xs))) by (apply lt_0_INR; cbn; lia). field. lra.
Qed.
Theorem mean_within xs m lo hi : mean xs = Some m -> (forall x, In x xs -> lo <= x <= hi) -> lo <= m <= hi.
Proof.
  intros E H. pose proof (mean_of_models xs m E) as K. destruct xs as [|x xs]; [easy|].
  assert (B : forall l, (forall x, In x l -> lo <= x <= hi) -> INR (length l) * lo <= Rsuml l <= INR (length l) * hi).
  { induction l as [|y l IH]; intros Hl; cbn [length Rsuml]; [cbn; lra|]. rewrite S_INR. specialize (IH (fun x Hx => Hl x (or_intror Hx))).
    specialize (Hl y (or_introl eq_refl)). lra. }
  specialize (B _ H). assert (0 < INR (length (x :: xs))) by (apply lt_0_INR; cbn; lia). split; nra.
Qed.

(* ---------------- cases ---------------- *)

Example harmonic_case : fst (harmonic_one (harmonic_init 2 None None) 1 (fun _ => 1)) = 3 /\ snd (harmonic_one (harmonic_init 2 (Some 3) (Some 4)) 1 (fun _ => 1)) 2%nat = -4 /\
  exists rs, harmonic_batch (Aniso 1 2 3) 2 [(1%nat, fun _ => 1); (1%nat, fun _ => 2)] = Some rs.
Proof. split; [cbn; field|]. split; [cbn; ring|]. eexists. reflexivity. Qed.
Example barrier_case : 0 < 500 * 1 /\ 0 < 2085 * 1 /\ 0 < 1837. Proof. lra. Qed.
Example friction_case : friction (Well 0 0 0 0 2 0 0 1) (fun _ => 0) 0 0 = 2.
Proof. unfold friction, dSD_dq, SD. cbn [Nat.eqb andb eta0 eps1 eps2 deltaQ]. ring. Qed.
Example bath_case : let b := Bath 2 1 1 0 0 1 1 in bm b <> 0 /\ bdQ b <> 0 /\ 0 < w_c b /\ 0 < omega b 1.
Proof. cbn. split; [lra|]. split; [lra|]. split; [lra|]. apply omega_pos; cbn; lra || lia. Qed.
Example bath_callable_case : exists V F w, dw_bath_one ["__call__"%string] w (Bath 2 1 1 0 0 1 1) (fun _ => 1) = Some (V, F).
Proof.
  unfold dw_bath_one, call. cbn [existsb String.eqb Ascii.eqb Bool.eqb orb]. destruct (bath_one (Bath 2 1 1 0 0 1 1) 1 (fun _ => 1)) as [[e fq] fx].
  eexists. eexists. exists (Well 0 0 0 0 0 0 0 0). reflexivity.
Qed.
Example sphere_case : let s := Sphere (fun _ => 0) 10 1 1 9 3 in let x := fun c : nat => match c with O => 2 | _ => 0 end in
  chosen ["O"]%string ["O"]%string 0 = true /\ dist s x 0 <> 0 /\ gap s x 0 <> 0 /\ slj_one s ["O"]%string ["O"]%string 1 x <> None.
Proof.
  cbv zeta. unfold gap, dist. cbn [Rsum ctr radius Nat.mul Nat.add].
  replace (0 + (2 - 0) ^ 2 + (0 - 0) ^ 2 + (0 - 0) ^ 2) with (2 * 2) by ring. rewrite sqrt_square by lra.
  split; [reflexivity|]. split; [lra|]. split; [lra|]. easy.
Qed.
Example store_case : store [1; 2]%nat [7; 8; 9]%nat = Some [[7]; [8; 9]]%nat /\ store [1; 2]%nat [7; 8]%nat = None.
Proof. split; reflexivity. Qed.
Example mean_case : mean [1; 2; 6] = Some ((0 + 1 + 2 + 6) / INR 3). Proof. reflexivity. Qed.

Print Assumptions harmonic_conservative.
Print Assumptions harmonic_batch_same.
Print Assumptions morse_conservative.
Print Assumptions morse_minimum.
Print Assumptions dw_conservative.
Print Assumptions dw_barrier.
Print Assumptions friction_well_refuted.
Print Assumptions friction_tensor.
Print Assumptions bath_conservative.
Print Assumptions dw_bath_conservative.
Print Assumptions dw_bath_refuted.
Print Assumptions slj_conservative.
Print Assumptions slj_others.
Print Assumptions spline_refuted.
Print Assumptions spline_fifth.
Print Assumptions store_gives_parts.
Print Assumptions store_sound.
Print Assumptions mean_within.
