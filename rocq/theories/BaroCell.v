(** * The anisotropic barostats: the exact first order rate of the conserved quantity *)
From Coq Require Import List Arith Lia Reals Lra FunctionalExtensionality Ranalysis5.
From Verif Require Import RSum CellModel BaroModel BaroIso BaroRate BaroCons.
From Verif Require ConstrJac.
Import ListNotations.
Open Scope R_scope.

(** ** Value and derivative at zero of a matrix that depends on time *)
Definition germ (M : R -> mat3) (A B : mat3) : Prop :=
  forall i j, (i < 3)%nat -> (j < 3)%nat -> M 0 i j = A i j /\ derivable_pt_lim (fun t => M t i j) 0 (B i j).
Lemma germ_eq M A B A' B' : germ M A B -> (forall i j, (i < 3)%nat -> (j < 3)%nat -> A i j = A' i j /\ B i j = B' i j) -> germ M A' B'.
Proof. intros G H i j Hi Hj. destruct (G i j Hi Hj) as [G1 G2]. destruct (H i j Hi Hj) as [<- <-]. now split. Qed.
Lemma germ_mul M A B M' A' B' : germ M A B -> germ M' A' B' ->
  germ (fun t => nmul 3 (M t) (M' t)) (nmul 3 A A') (fun i j => nmul 3 B A' i j + nmul 3 A B' i j).
Proof.
  intros G G' i j Hi Hj. unfold nmul. split.
  - apply Rsum_ext. intros k Hk. destruct (G i k Hi Hk) as [-> _]. destruct (G' k j Hk Hj) as [-> _]. reflexivity.
  - rewrite <- Rsum_plus. apply derivable_Rsum. intros k Hk. destruct (G i k Hi Hk) as [E D]. destruct (G' k j Hk Hj) as [E' D'].
    eapply derivable_eq; [|apply d_mult; eassumption]. cbn beta. rewrite E, E'. ring.
Qed.
Definition one3 : mat3 := fun i j => delta i j.
Lemma one_l A i j : (i < 3)%nat -> nmul 3 one3 A i j = A i j.
Proof. intros H. unfold nmul, one3. rewrite (Rsum_delta 3 i); [rewrite delta_same; ring|exact H|]. intros k _ N. rewrite delta_diff by auto. ring. Qed.
Lemma one_r A i j : (j < 3)%nat -> nmul 3 A one3 i j = A i j.
Proof. intros H. unfold nmul, one3. rewrite (Rsum_delta 3 j); [rewrite delta_same; ring|exact H|]. intros k _ N. rewrite delta_diff by auto. ring. Qed.
Lemma germ_square M B : germ M one3 B -> germ (fun t => nmul 3 (M t) (M t)) one3 (fun i j => 2 * B i j).
Proof.
  intros G. eapply germ_eq; [apply (germ_mul _ _ _ _ _ _ G G)|]. intros i j Hi Hj. rewrite !one_l, one_r by assumption. split; [reflexivity|ring].
Qed.
Lemma germ_squarings k : forall M B, germ M one3 B -> germ (fun t => squarings 3 k (M t)) one3 (fun i j => 2 ^ k * B i j).
Proof.
  induction k as [|k IH]; intros M B G; cbn [squarings].
  - eapply germ_eq; [exact G|]. intros i j _ _. cbn. split; [reflexivity|ring].
  - eapply germ_eq; [apply IH, germ_square, G|]. intros i j _ _. cbn. split; [reflexivity|ring].
Qed.
Lemma germ_horner v N (SM : R -> mat3) : germ SM (fun _ _ => 0) (fun i j => v i j / N) ->
  forall k EM B, germ EM (fun i j => delta i j * tcoef (S k)) B ->
  germ (fun t => horner 3 (SM t) (S k) (EM t)) one3 (fun i j => v i j / N).
Proof.
  intros G. induction k as [|k IH]; intros EM B GE.
  - cbn [horner]. intros i j Hi Hj. pose proof (germ_mul _ _ _ _ _ _ G GE i j Hi Hj) as [M1 M2]. cbn beta in *. split.
    + rewrite M1. unfold nmul. rewrite Rsum_0 by (intros; ring). unfold one3, tcoef. cbn. rewrite Rinv_1. ring.
    + eapply derivable_eq; cycle 1; [apply d_plus; [exact M2|apply d_const]|].
      unfold nmul. rewrite (Rsum_delta 3 j); [|exact Hj|intros k _ Nk; rewrite delta_diff by auto; ring].
      rewrite (Rsum_0 3 (fun k => 0 * B k j)) by (intros; ring). rewrite delta_same. unfold tcoef. cbn. rewrite Rinv_1. ring.
  - change (fun t => horner 3 (SM t) (S (S k)) (EM t)) with (fun t => horner 3 (SM t) (S k) (fun i j => nmul 3 (SM t) (EM t) i j + delta i j * tcoef (S k))).
    eapply (IH _ (fun i j => v i j / N * tcoef (S (S k)))). intros i j Hi Hj. pose proof (germ_mul _ _ _ _ _ _ G GE i j Hi Hj) as [M1 M2]. cbn beta in *. split.
    + rewrite M1. unfold nmul. rewrite Rsum_0 by (intros; ring). ring.
    + eapply derivable_eq; cycle 1; [apply d_plus; [exact M2|apply d_const]|].
      unfold nmul. rewrite (Rsum_delta 3 j); [|exact Hj|intros q _ Nk; rewrite delta_diff by auto; ring].
      rewrite (Rsum_0 3 (fun k => 0 * B k j)) by (intros; ring). rewrite delta_same. ring.
Qed.
(** The exponential is the identity at time zero, with derivative v. *)
Lemma germ_exp v : germ (fun t => matrix_exp 3 20 10 (scal3 t v)) one3 v.
Proof.
  unfold matrix_exp.
  eapply germ_eq; [apply germ_squarings, (germ_horner v (2 ^ 10) _) with (B := fun _ _ => 0)|].
  - intros i j _ _. unfold scal3. split; [unfold Rdiv; ring|].
    apply (derivable_ext (fun t => (v i j / 2 ^ 10) * t)); [intros t; unfold Rdiv; ring|].
    eapply derivable_eq; [|apply (d_scal (v i j / 2 ^ 10) id), derivable_pt_lim_id]. ring.
  - intros i j _ _. split; [reflexivity|]. apply d_const with (k := delta i j * tcoef 20).
  - intros i j _ _. split; [reflexivity|]. field.
Qed.
Lemma sinch_flat w : derivable_pt_lim (fun t => sinch (t * w)) 0 0.
Proof.
  set (K := / 10 ^ 12). assert (HK : 0 < K) by (unfold K; apply Rinv_0_lt_compat; apply pow_lt; lra).
  set (r := / 10 ^ 7 / (Rabs w + 1)).
  assert (W : 0 < Rabs w + 1) by (pose proof (Rabs_pos w); lra).
  assert (Hr : 0 < r) by (unfold r; apply Rdiv_lt_0_compat; [apply Rinv_0_lt_compat, pow_lt; lra|exact W]).
  apply (derivable_pt_lim_locally_ext (fun t => 1 + (0 * t + ((w ^ 2 / 6) * t ^ 2 + (t * w ^ 4 / 120 * (1 + (t * w) ^ 2 / 42)) * t ^ 3))) _ 0 (- r) r); [lra| |].
  - intros t Ht. unfold sinch. destruct (Rlt_dec (Rabs (t * w * (t * w))) (/ 10 ^ 12)) as [_|Nn]; [field|]. exfalso. apply Nn.
    assert (B : Rabs (t * w) < / 10 ^ 6).
    { rewrite Rabs_mult. assert (T : Rabs t < r) by (apply Rabs_def1; lra).
      apply Rle_lt_trans with (r * (Rabs w + 1)).
      - apply Rmult_le_compat; try apply Rabs_pos; lra.
      - unfold r. replace (/ 10 ^ 7 / (Rabs w + 1) * (Rabs w + 1)) with (/ 10 ^ 7) by (field; lra).
        apply Rinv_lt_contravar; [apply Rmult_lt_0_compat; apply pow_lt; lra|lra]. }
    rewrite Rabs_mult. replace (/ 10 ^ 12) with (/ 10 ^ 6 * / 10 ^ 6) by field.
    pose proof (Rabs_pos (t * w)). assert (0 < / 10 ^ 6) by (apply Rinv_0_lt_compat, pow_lt; lra).
    apply Rle_lt_trans with (Rabs (t * w) * / 10 ^ 6); [apply Rmult_le_compat_l; lra|apply Rmult_lt_compat_r; lra].
  - apply (derivable_ext (fun t => 1 + (0 * t + ((w ^ 2 / 6) * t ^ 2 + 0 * t ^ 3)) + t ^ 4 * (w ^ 4 / 120 + w ^ 6 / 5040 * t ^ 2))); [intros t; field|].
    eapply derivable_eq; cycle 1.
    + apply d_plus; [apply d_poly3|]. apply d_mult; [apply (derivable_pt_lim_pow 0 4)|].
      apply d_plus; [apply d_const|]. apply d_scal. apply (derivable_pt_lim_pow 0 2).
    + cbn. ring.
Qed.
Definition eig_ok (eig : mat3 -> vec * mat3) (inv : mat3 -> mat3) (v : mat3) : Prop :=
  forall i j, (i < 3)%nat -> (j < 3)%nat -> prod3 (snd (eig v)) (inv (snd (eig v))) i j = eye3 i j.
Lemma germ_sinh eig inv v : diag0 v = false -> eig_ok eig inv v -> germ (sinh_of eig inv v) (fun _ _ => 0) one3.
Proof.
  intros D0 Ok i j Hi Hj. unfold sinh_of. rewrite D0. specialize (Ok i j Hi Hj). destruct (eig v) as [w U]. cbn [fst snd] in Ok.
  unfold scal3. split; [ring|].
  assert (E : one3 i j = eye3 i j) by reflexivity. rewrite E, <- Ok. eapply derivable_eq; cycle 1.
  - apply (d_mult (fun t => t)); [apply derivable_pt_lim_id|].
    unfold prod3. apply (derivable_Rsum 3 _ (fun k => U i k * Rsum 3 (fun q => 0))). intros k Hk. apply d_scal. apply derivable_Rsum. intros q Hq.
    eapply derivable_eq; [|apply (d_mult _ _ _ 0 0); [|apply d_const]]; [ring|].
    destruct (Nat.eqb k q); [apply sinch_flat|apply d_const].
  - rewrite Rmult_0_l, Rplus_0_r, Rmult_1_l. unfold prod3. apply Rsum_ext. intros k Hk. apply f_equal.
    rewrite (Rsum_delta 3 k); [|exact Hk|intros q _ Nq; apply Nat.neq_sym, Nat.eqb_neq in Nq; rewrite Nq; ring].
    rewrite Nat.eqb_refl, Rmult_0_l. unfold sinch. rewrite Rmult_0_l, Rabs_R0.
    destruct (Rlt_dec 0 (/ 10 ^ 12)) as [_|Nn]; [field|]. exfalso. apply Nn, Rinv_0_lt_compat, pow_lt. lra.
Qed.

(** ** Drift of atoms and cell *)
Definition vel (y : sys) (p : mat3) : mat3 := fun i j => p i j / wmass y.
Definition cell_drift (y : sys) (eig : mat3 -> vec * mat3) (inv : mat3 -> mat3) (s : atm) (p : mat3) (u : R -> (nat -> vec) * (nat -> vec)) (t : R) : atm :=
  let s1 := cell_qcstep y eig inv t s p in Atm (qc s1) (pc s1) (fst (u t)) (snd (u t)) (hh s1).
Definition neg3 (v : mat3) : mat3 := fun i j => - v i j.
Lemma drift_qc y eig inv s p u t c : qc (cell_drift y eig inv s p u t) c =
  rowmul (matrix_exp 3 20 10 (scal3 t (vel y p))) (qc s) c + rowmul (sinh_of eig inv (vel y p) t) (fun k => pc s k / m3 y k) c.
Proof. reflexivity. Qed.
Lemma drift_pc y eig inv s p u t c : pc (cell_drift y eig inv s p u t) c = rowmul (matrix_exp 3 20 10 (scal3 t (neg3 (vel y p)))) (pc s) c.
Proof. reflexivity. Qed.
Lemma rowmul_at A u a i : (i < 3)%nat -> rowmul A u (3 * a + i)%nat = Rsum 3 (fun k => A i k * u (3 * a + k)%nat).
Proof. intros H. unfold rowmul. rewrite ConstrJac.div3, ConstrJac.mod3 by assumption. reflexivity. Qed.
Lemma one_row u a i : (i < 3)%nat -> Rsum 3 (fun k => one3 i k * u (3 * a + k)%nat) = u (3 * a + i)%nat.
Proof. intros H. rewrite (Rsum_delta 3 i); [unfold one3; rewrite delta_same; ring|exact H|]. intros k _ N. unfold one3. rewrite delta_diff by auto. ring. Qed.
Lemma at3 c : exists a i, (i < 3)%nat /\ c = (3 * a + i)%nat.
Proof. exists (c / 3)%nat, (c mod 3)%nat. split; [apply Nat.mod_upper_bound; lia|apply Nat.div_mod; lia]. Qed.
Theorem cell_drifts y eig inv s p u : diag0 (vel y p) = false -> eig_ok eig inv (vel y p) -> fst (u 0) = dq s ->
  drifts y (vel y p) s (cell_drift y eig inv s p u).
Proof.
  intros D0 Ok U0. set (v := vel y p) in *. pose proof (germ_exp v) as Ge. pose proof (germ_exp (neg3 v)) as Gm.
  pose proof (germ_sinh eig inv v D0 Ok) as Gs.
  assert (Q0 : forall c, qc (cell_drift y eig inv s p u 0) c = qc s c).
  { intros c. destruct (at3 c) as (a & i & Hi & ->). rewrite drift_qc. fold v. rewrite !rowmul_at by assumption.
    rewrite (Rsum_ext 3 _ (fun k => one3 i k * qc s (3 * a + k)%nat)) by (intros k Hk; destruct (Ge i k Hi Hk) as [E _]; cbn beta in E; now rewrite E).
    rewrite one_row by assumption. rewrite Rsum_0; [ring|]. intros k Hk. destruct (Gs i k Hi Hk) as [E _]. rewrite E. ring. }
  constructor.
  - intros b c _ _. unfold pos. rewrite Q0. cbn. now rewrite U0.
  - intros c _. destruct (at3 c) as (a & i & Hi & ->). rewrite drift_pc. fold v. rewrite rowmul_at by assumption.
    rewrite (Rsum_ext 3 _ (fun k => one3 i k * pc s (3 * a + k)%nat)) by (intros k Hk; destruct (Gm i k Hi Hk) as [E _]; cbn beta in E; now rewrite E).
    now apply one_row.
  - intros a i Ha Hi.
    apply (derivable_ext (fun t => Rsum 3 (fun k => matrix_exp 3 20 10 (scal3 t v) i k * qc s (3 * a + k)%nat) + Rsum 3 (fun k => sinh_of eig inv v t i k * (pc s (3 * a + k)%nat / m y a)))).
    { intros t. rewrite drift_qc. fold v. rewrite !rowmul_at by assumption. f_equal. apply Rsum_ext. intros k Hk. now rewrite m3_at. }
    eapply derivable_eq; cycle 1.
    + apply d_plus; apply derivable_Rsum; intros k Hk; (apply d_mult; [|apply d_const]); [apply (Ge i k Hi Hk)|apply (Gs i k Hi Hk)].
    + rewrite Rplus_comm. f_equal.
      * rewrite (Rsum_ext 3 _ (fun k => one3 i k * (fun c => pc s c / m y a) (3 * a + k)%nat)) by (intros; ring). now apply (one_row (fun c => pc s c / m y a)).
      * apply Rsum_ext. intros; ring.
  - intros a i Ha Hi.
    apply (derivable_ext (fun t => Rsum 3 (fun k => matrix_exp 3 20 10 (scal3 t (neg3 v)) i k * pc s (3 * a + k)%nat))); [intros t; rewrite drift_pc; now rewrite rowmul_at|].
    eapply derivable_eq; cycle 1.
    + apply derivable_Rsum; intros k Hk; apply d_mult; [apply (Gm i k Hi Hk)|apply d_const].
    + rewrite <- Rsum_opp. apply Rsum_ext. intros; unfold neg3; ring.
  - exists (fun t => matrix_exp 3 20 10 (scal3 t v)). split; [reflexivity|]. intros i j Hi Hj. exact (Ge i j Hi Hj).
Qed.

(** ** The conserved quantity *)
Definition cell_cons (y : sys) (E : nat -> (nat -> vec) -> mat3 -> R) (usp : (nat -> vec) -> R) (pot : atm -> R) (s : atm) (x : mat3 * R) : R :=
  eatoms y E usp s + (snd x + kin33 y (fst x) + pot s + jac33 y s).
(** Kick of a level: barostat, then atoms. *)
Definition cell_kick (y : sys) (pi : atm -> mat3) (hmask : mat3) (volc : bool) (l : nat) (t : R) (s : atm) (x : mat3 * R) : atm * (mat3 * R) :=
  (kick y l t s, cell_pstep y pi hmask volc l t s x).
Definition upper (A : mat3) : Prop := A 1%nat 0%nat = 0 /\ A 2%nat 0%nat = 0 /\ A 2%nat 1%nat = 0.
(** What the work of the external stress must be, for [pi] to be the stress of [pot]. *)
Definition works (y : sys) (pi : atm -> mat3) (pot : atm -> R) : Prop :=
  (forall s s', hh s = hh s' -> pot s = pot s') /\
  forall s v x, 0 < vol s -> upper (hh s) -> upper v -> drifts y v s x ->
  derivable_pt_lim (fun t => pot (x t)) 0 (INR (nb y) * vol s * contract v (triu (pi s))).
(** The first order change of the conserved quantity. *)
Definition offdiag (v A : mat3) : R := v 0%nat 1%nat * A 0%nat 1%nat + v 0%nat 2%nat * A 0%nat 2%nat + v 1%nat 2%nat * A 1%nat 2%nat.
Definition defect (y : sys) (hmask v : mat3) (s : atm) : R :=
  - offdiag v (kin_tensor y s)
  + Rsum (nlev y) (fun l => offdiag v (fun i j => dev_vir y l s i j - dev_vir y l s j i))
  + kT y * ((Lmat hmask 0%nat 0%nat - 3) * v 0%nat 0%nat + (Lmat hmask 1%nat 1%nat - 2) * v 1%nat 1%nat + (Lmat hmask 2%nat 2%nat - 1) * v 2%nat 2%nat).
Lemma kin33_eq y p : kin33 y p = 1 / 2 * contract p p / wmass y.
Proof. unfold kin33, trace, prod3, contract. cbn [Rsum]. f_equal. f_equal. ring. Qed.
Definition p_rate (y : sys) (pi : atm -> mat3) (hmask : mat3) (l : nat) (s : atm) : mat3 := fun i j =>
  vol s * triu (stress_mts y l s) i j + (if innermost y l then vol s * triu (fun i j => - INR (nb y) * pi s i j) i j + kT y * Lmat hmask i j else 0).
Lemma raw_rate y pi hmask l s p i j : derivable_pt_lim (fun t => raw_pstep y pi hmask l t s p i j) 0 (p_rate y pi hmask l s i j).
Proof.
  unfold raw_pstep, p_rate. set (B := if innermost y l then triu (fcTonm y l s (pc s)) i j * INR (nb y) else 0).
  set (G := if innermost y l then triu (fcTonm y l s (fc y l s)) i j / 3 * INR (nb y) else 0).
  apply (derivable_ext (fun t => p i j + ((vol s * triu (stress_mts y l s) i j + (if innermost y l then vol s * triu (fun i j => - INR (nb y) * pi s i j) i j + kT y * Lmat hmask i j else 0)) * t + (B * t ^ 2 + G * t ^ 3)))); [|apply d_poly3].
  intros t. unfold B, G. destruct (innermost y l); [|ring]. unfold triu. destruct (i <=? j)%nat; field.
Qed.
Lemma cell_kick_rate y E usp pi pot hmask volc l s p e : frozen y = [] -> (0 < nb y)%nat -> centred y (dp s) -> works y pi pot ->
  derivable_pt_lim (fun t => let x := cell_kick y pi hmask volc l t s (p, e) in cell_cons y E usp pot (fst x) (snd x)) 0
    (power y l s + contract (vel y p) (p_rate y pi hmask l s)).
Proof.
  intros F N C (Wp & _). unfold cell_kick, cell_cons. cbn [fst snd]. apply d_plus; [now apply kick_rate|].
  apply (derivable_ext (fun t => (e + pot s + jac33 y s) + Rsum 3 (fun i => Rsum 3 (fun j => 1 / 2 * raw_pstep y pi hmask l t s p i j ^ 2 / wmass y)))).
  { intros t. unfold cell_pstep. cbn [fst snd]. rewrite (Wp (kick y l t s) s) by reflexivity. change (jac33 y (kick y l t s)) with (jac33 y s).
    rewrite (kin33_eq y (raw_pstep y pi hmask l t s p)). generalize (raw_pstep y pi hmask l t s p). intros r. unfold contract. cbn [Rsum]. unfold Rdiv. ring. }
  eapply derivable_eq; cycle 1.
  - apply d_plus; [apply d_const|]. apply derivable_Rsum. intros i _. apply derivable_Rsum. intros j _. apply d_sq_of, raw_rate.
  - cbn beta. rewrite Rplus_0_l. unfold contract. apply Rsum_ext. intros i _. apply Rsum_ext. intros j _. unfold vel.
    replace (raw_pstep y pi hmask l 0 s p i j) with (p i j); [unfold Rdiv; ring|]. unfold raw_pstep. destruct (innermost y l); [|ring]. unfold triu. destruct (i <=? j)%nat; field.
Qed.
Lemma drift_h y v s x : drifts y v s x -> upper (hh s) -> upper v ->
  (forall i, (i < 3)%nat -> hh (x 0) i i = hh s i i) /\
  forall i, (i < 3)%nat -> derivable_pt_lim (fun t => hh (x t) i i) 0 (v i i * hh s i i).
Proof.
  intros D (U1 & U2 & U3) (V1 & V2 & V3). destruct (dr_h _ _ _ _ D) as (A & Hh & HA). split.
  - intros i Hi. rewrite Hh by assumption. unfold prod3. rewrite (Rsum_ext 3 _ (fun k => eye3 i k * hh s k i)) by (intros k Hk; destruct (HA i k Hi Hk) as [-> _]; reflexivity).
    destruct i as [|[|[|i]]]; [..|lia]; cbn [Rsum]; unfold eye3; cbn [Nat.eqb]; ring.
  - intros i Hi. apply (derivable_ext (fun t => Rsum 3 (fun k => A t i k * hh s k i))); [intros t; now rewrite Hh|].
    eapply derivable_eq; cycle 1.
    + apply derivable_Rsum. intros k Hk. apply d_mult; [apply (HA i k Hi Hk)|apply d_const].
    + cbn beta. destruct i as [|[|[|i]]]; [..|lia]; cbn [Rsum]; rewrite ?U1, ?U2, ?U3, ?V1, ?V2, ?V3; ring.
Qed.
Lemma d_ln f l : 0 < f 0 -> derivable_pt_lim f 0 l -> derivable_pt_lim (fun t => ln (f t)) 0 (/ f 0 * l).
Proof. intros P H. apply (derivable_pt_lim_comp f ln); [exact H|]. now apply derivable_pt_lim_ln. Qed.
Definition pos_diag (h : mat3) : Prop := 0 < h 0%nat 0%nat /\ 0 < h 1%nat 1%nat /\ 0 < h 2%nat 2%nat.
Lemma jac_rate y v s x : drifts y v s x -> upper (hh s) -> upper v -> pos_diag (hh s) ->
  derivable_pt_lim (fun t => jac33 y (x t)) 0 (- kT y * (3 * v 0%nat 0%nat + 2 * v 1%nat 1%nat + v 2%nat 2%nat)).
Proof.
  intros D U V (H0 & H1 & H2). destruct (drift_h y v s x D U V) as [Z Dh]. unfold jac33.
  eapply derivable_eq; cycle 1.
  - apply d_scal. apply d_plus; [apply d_plus|]; [apply d_scal|apply d_scal|]; apply d_ln; try (apply Dh; lia); rewrite Z by lia; assumption.
  - cbn beta. rewrite !Z by lia. field. repeat split; lra.
Qed.
Lemma contract_upper v A : upper v -> contract v A = v 0%nat 0%nat * A 0%nat 0%nat + v 1%nat 1%nat * A 1%nat 1%nat + v 2%nat 2%nat * A 2%nat 2%nat + offdiag v A.
Proof. intros (V1 & V2 & V3). unfold contract, offdiag. cbn [Rsum]. rewrite V1, V2, V3. ring. Qed.
Lemma kstress_dev y l s i j : kstress y (fall y l s) s i j = - dev_vir y l s j i.
Proof. unfold kstress, dev_vir. f_equal. apply Rsum_ext. intros b _. apply Rsum_ext. intros a _. ring. Qed.
Lemma kin_diag_tensor y s i : kin_diag y s i = kin_tensor y s i i.
Proof. unfold kin_diag, kin_tensor. ring. Qed.
(** The kicks of all levels and the drift change the conserved quantity, to first order, by
    [defect]. *)
Theorem cell_rate y E usp pi pot hmask volc eig inv s p e u :
  frozen y = [] -> (0 < nb y)%nat -> (0 < nlev y)%nat -> pos_diag (hh s) -> upper (hh s) -> upper p ->
  centred y (dp s) -> all_consistent y E s -> works y pi pot ->
  diag0 (vel y p) = false -> eig_ok eig inv (vel y p) ->
  fst (u 0) = dq s -> free_motion y usp s (cell_drift y eig inv s p u) ->
  exists (rate : nat -> R) (drift : R),
    (forall l, (l < nlev y)%nat -> derivable_pt_lim (fun t => let x := cell_kick y pi hmask volc l t s (p, e) in cell_cons y E usp pot (fst x) (snd x)) 0 (rate l)) /\
    derivable_pt_lim (fun t => cell_cons y E usp pot (cell_drift y eig inv s p u t) (p, e)) 0 drift /\
    Rsum (nlev y) rate + drift = defect y hmask (vel y p) s.
Proof.
  intros F N Lv Hd Uh Up C Co W D0 Ok U0 Fm. set (v := vel y p) in *.
  assert (Uv : upper v) by (destruct Up as (P1 & P2 & P3); unfold v, vel, upper; rewrite P1, P2, P3; unfold Rdiv; rewrite !Rmult_0_l; auto).
  assert (V : 0 < vol s) by (destruct Hd as (H0 & H1 & H2); unfold vol, det_ut3x3; repeat apply Rmult_lt_0_compat; assumption).
  pose proof (cell_drifts y eig inv s p u D0 Ok U0) as D. fold v in D.
  exists (fun l => power y l s + contract v (p_rate y pi hmask l s)). eexists. split; [|split].
  - intros l _. now apply cell_kick_rate.
  - unfold cell_cons. cbn [fst snd]. apply d_plus; [apply (drift_rate y E usp _ s _ Co D Fm)|].
    apply d_plus; [apply d_plus; [apply d_const|]|].
    + destruct W as [_ W]. apply (W s v); assumption.
    + apply (jac_rate y v s); assumption.
  - rewrite (Rsum_ext (nlev y) (fun l => power y l s + contract v (p_rate y pi hmask l s))
      (fun l => power y l s + (contract v (fun i j => vir y l (pos s) (hh s) i j + bvir y l s i j) - contract v (dev_vir y l s))
        + (offdiag v (fun i j => dev_vir y l s i j - dev_vir y l s j i)
          + if innermost y l then v 0%nat 0%nat * (kin_tensor y s 0%nat 0%nat + kT y * Lmat hmask 0%nat 0%nat) + v 1%nat 1%nat * (kin_tensor y s 1%nat 1%nat + kT y * Lmat hmask 1%nat 1%nat)
             + v 2%nat 2%nat * (kin_tensor y s 2%nat 2%nat + kT y * Lmat hmask 2%nat 2%nat) - INR (nb y) * vol s * contract v (triu (pi s)) else 0))).
    2:{ intros l _. rewrite !contract_upper by assumption. unfold p_rate, triu, offdiag, stress_mts, kstress_mts. cbn [Nat.leb Nat.eqb]. rewrite !kstress_dev, !kin_diag_tensor.
        unfold Lmat. cbn [Nat.eqb]. destruct (innermost y l); field; lra. }
    rewrite !Rsum_plus, !Rsum_minus, !Rsum_plus, Rsum_opp.
    rewrite (Rsum_delta (nlev y) (nlev y - 1) (fun i => if innermost y i then _ else 0)) by (try lia; intros i Hi Ne; unfold innermost; apply Nat.eqb_neq in Ne; now rewrite Ne).
    unfold innermost at 1. rewrite Nat.eqb_refl. unfold defect. rewrite (contract_upper v (kin_tensor y s)) by assumption. ring.
Qed.

(** The external stress of BaroMTK does the work of the pressure on the volume. *)
Theorem mtk_works y : works y (pi_mtk y) (pot_mtk y).
Proof.
  split; [intros s s' E; unfold pot_mtk, vol; now rewrite E|].
  intros s v x V U Uv D. destruct (drift_h y v s x D U Uv) as [Z Dh]. unfold pot_mtk, vol, det_ut3x3. eapply derivable_eq; cycle 1.
  - apply (d_mult (fun t => hh (x t) 0%nat 0%nat * hh (x t) 1%nat 1%nat * hh (x t) 2%nat 2%nat * pext y) (fun _ => INR (nb y))); [|apply d_const].
    apply d_mult; [|apply d_const]. apply d_mult; [apply d_mult|]; apply Dh; lia.
  - cbn beta. rewrite !Z by lia. rewrite contract_upper by assumption. unfold offdiag, triu, pi_mtk, eye3. cbn [Nat.leb Nat.eqb]. ring.
Qed.
(** And that of BaroRGB the work of the elastic energy, for a symmetric external stress. *)
Theorem rgb_works y h0 sigma : pos_diag h0 -> (forall i j, (i < 3)%nat -> (j < 3)%nat -> sigma i j = sigma j i) ->
  works y (pi_rgb h0 sigma) (pot_rgb y h0 sigma).
Proof.
  intros H0 Sy. split; [intros s s' E; unfold pot_rgb, eps_rgb, strain_F; now rewrite E|].
  intros s v x V U Uv D. destruct (dr_h _ _ _ _ D) as (A & Hh & HA). set (F := strain_F h0 s).
  assert (Fe : forall t i j, (i < 3)%nat -> (j < 3)%nat -> strain_F h0 (x t) i j = prod3 (A t) F i j).
  { intros t i j Hi Hj. unfold strain_F, F, prod3 at 1. rewrite (Rsum_ext 3 _ (fun k => prod3 (A t) (hh s) i k * invert_ut3x3 h0 k j)) by (intros k Hk; now rewrite Hh).
    unfold strain_F, prod3. cbn [Rsum]. ring. }
  assert (F0 : forall i j, (i < 3)%nat -> (j < 3)%nat -> strain_F h0 (x 0) i j = F i j).
  { intros i j Hi Hj. rewrite Fe by assumption. unfold prod3. rewrite (Rsum_ext 3 _ (fun k => eye3 i k * F k j)) by (intros k Hk; destruct (HA i k Hi Hk) as [-> _]; reflexivity).
    destruct i as [|[|[|i]]]; [..|lia]; cbn [Rsum]; unfold eye3; cbn [Nat.eqb]; ring. }
  assert (Fd : forall i j, (i < 3)%nat -> (j < 3)%nat -> derivable_pt_lim (fun t => strain_F h0 (x t) i j) 0 (prod3 v F i j)).
  { intros i j Hi Hj. apply (derivable_ext (fun t => prod3 (A t) F i j)); [intros t; now rewrite Fe|].
    unfold prod3. apply derivable_Rsum. intros k Hk. eapply derivable_eq; [|apply d_mult; [apply (HA i k Hi Hk)|apply d_const]]. cbn beta. ring. }
  unfold pot_rgb. eapply derivable_eq; cycle 1.
  - apply (d_mult (fun t => det_ut3x3 h0 * trace (prod3 sigma (eps_rgb h0 (x t)))) (fun _ => INR (nb y))); [|apply d_const]. apply d_scal.
    apply (derivable_ext (fun t => Rsum 3 (fun i => Rsum 3 (fun k => sigma i k * (1 / 2 * (Rsum 3 (fun q => strain_F h0 (x t) q k * strain_F h0 (x t) q i) + - eye3 k i)))))).
    { intros t. unfold trace, eps_rgb, prod3. cbn [Rsum]. ring. }
    apply derivable_Rsum. intros i Hi. apply derivable_Rsum. intros k Hk. apply d_scal, d_scal, d_plus; [|apply d_const].
    apply derivable_Rsum. intros q Hq. apply d_mult; apply Fd; assumption.
  - cbn beta. rewrite contract_upper by assumption. unfold offdiag, triu, pi_rgb. cbn [Nat.leb]. fold F.
    assert (S10 : sigma 1%nat 0%nat = sigma 0%nat 1%nat) by (apply Sy; lia). assert (S20 : sigma 2%nat 0%nat = sigma 0%nat 2%nat) by (apply Sy; lia).
    assert (S21 : sigma 2%nat 1%nat = sigma 1%nat 2%nat) by (apply Sy; lia).
    destruct Uv as (V1 & V2 & V3). cbn [Rsum]. rewrite !F0 by lia. unfold prod3. cbn [Rsum]. rewrite V1, V2, V3, S10, S20, S21.
    assert (Vz : vol s <> 0) by lra. field. exact Vz.
Qed.
