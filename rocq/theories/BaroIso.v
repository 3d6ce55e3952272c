(** * The isotropic barostat: exact substeps, reversibility and the conserved quantity *)
From Coq Require Import List Arith Lia Reals Lra FunctionalExtensionality.
From Verif Require Import RSum CellModel BaroModel.
From Verif Require ConstrJac MTSModel MTSSched.
Import ListNotations.
Open Scope R_scope.

Lemma mean_scal y f dt c : mean y (fun b c => f b c * dt) c = mean y f c * dt.
Proof. unfold mean. rewrite Rsum_scal_r. unfold Rdiv. ring. Qed.
Lemma mean_ext y f g c : (forall b, (b < nb y)%nat -> f b c = g b c) -> mean y f c = mean y g c.
Proof. intros H. unfold mean. f_equal. now apply Rsum_ext. Qed.
Lemma m3_at y a i : (i < 3)%nat -> m3 y (3 * a + i) = m y a.
Proof. intros H. unfold m3. now rewrite ConstrJac.div3. Qed.
Lemma kin_trace y s : kin_diag y s 0 + kin_diag y s 1 + kin_diag y s 2 = INR (nb y) * dotm y (pc s) (pc s).
Proof.
  unfold kin_diag, dotm. rewrite ConstrJac.Rsum_3. rewrite <- !Rmult_plus_distr_r, <- !Rsum_plus, Rmult_comm. f_equal.
  apply Rsum_ext. intros a Ha. cbn [Rsum]. rewrite !m3_at by lia. ring.
Qed.
Lemma dotm_comm y u v : dotm y u v = dotm y v u.
Proof. unfold dotm. apply Rsum_ext. intros c _. unfold Rdiv. ring. Qed.
Lemma dotm_plus_l y u v w : dotm y (fun c => u c + v c) w = dotm y u w + dotm y v w.
Proof. unfold dotm. rewrite <- Rsum_plus. apply Rsum_ext. intros c _. ring. Qed.
Lemma dotm_scal_l y a u w : dotm y (fun c => u c * a) w = a * dotm y u w.
Proof. unfold dotm. rewrite <- Rsum_scal. apply Rsum_ext. intros c _. ring. Qed.
Lemma dotm_opp y u w : dotm y (fun c => - u c) w = - dotm y u w.
Proof. unfold dotm. rewrite <- Rsum_opp. apply Rsum_ext. intros c _. ring. Qed.

(** The part of the trace of the stress (times the volume) that depends on positions only. *)
Definition tr_static (y : sys) (l : nat) (s : atm) : R :=
  trace (kstress y (fall y l s) s) + trace (vir y l (pos s) (hh s)) + trace (bvir y l s).
Lemma bzp_pstep_eq y l dt s P : vol s <> 0 ->
  bzp_pstep y l dt s P = P + dt * tr_static y l s
   + (if innermost y l then dt * (INR (nb y) * dotm y (pc s) (pc s)) + 3 * dt * (kT y - vol s * (INR (nb y) * pext y))
        + INR (nb y) * (dt ^ 2 * dotm y (pc s) (fc y l s) + dt ^ 3 / 3 * dotm y (fc y l s) (fc y l s)) else 0).
Proof.
  intros V. rewrite <- kin_trace. unfold bzp_pstep, tr_static, trace, stress_mts, kstress_mts. cbn [Nat.eqb].
  destruct (innermost y l); cbn zeta; field; assumption.
Qed.
(** What positions and cell determine does not change in a kick. *)
Lemma kick_static y l dt s l' : fall y l' (kick y l dt s) = fall y l' s /\ tr_static y l' (kick y l dt s) = tr_static y l' s
  /\ fc y l' (kick y l dt s) = fc y l' s /\ vol (kick y l dt s) = vol s.
Proof. repeat split; reflexivity. Qed.

(** ** Exactness of the substeps *)
(** The dilation of the centroid is the flow of q' = p / m + v q, p' = - v p, h' = v h. *)
Theorem bzp_qcstep_flow y s P : P / wmass y <> 0 ->
  exists x : R -> atm, (forall t, bzp_qcstep y t s P = Some (x t)) /\ x 0 = s /\
  let v := P / wmass y in
  (forall t c, derivable_pt_lim (fun t => qc (x t) c) t (pc (x t) c / m3 y c + v * qc (x t) c)) /\
  (forall t c, derivable_pt_lim (fun t => pc (x t) c) t (- v * pc (x t) c)) /\
  (forall t i j, derivable_pt_lim (fun t => hh (x t) i j) t (v * hh (x t) i j)) /\
  (forall t, dq (x t) = dq s /\ dp (x t) = dp s).
Proof.
  intros N. unfold bzp_qcstep. destruct (Req_EM_T (P / wmass y) 0) as [E|_]; [easy|]. set (v := P / wmass y) in *. cbn zeta.
  eexists. split; [intros t; reflexivity|].
  assert (De : forall w t, derivable_pt_lim (fun t => exp (w * t)) t (w * exp (w * t))).
  { intros w t. eapply derivable_eq; cycle 1.
    - apply (derivable_pt_lim_comp (fun t => w * t) exp); [apply (derivable_pt_lim_scal id w t 1); apply derivable_pt_lim_id|apply derivable_pt_lim_exp].
    - ring. }
  split; [|repeat split].
  - destruct s as [qc' pc' dq' dp' h']. cbn. f_equal.
    + apply functional_extensionality. intros c. rewrite !Rmult_0_r, exp_0. unfold Rdiv. ring.
    + apply functional_extensionality. intros c. rewrite !Rmult_0_r, exp_0. ring.
    + apply functional_extensionality. intros i. apply functional_extensionality. intros j. rewrite !Rmult_0_r, exp_0. ring.
  - intros t c. cbn. eapply derivable_eq; cycle 1.
    + apply (derivable_ext (fun t => (qc s c + / (2 * v) * (pc s c / m3 y c)) * exp (v * t) - (/ (2 * v) * (pc s c / m3 y c)) * exp (- v * t))).
      { intros u. unfold Rdiv. ring. }
      apply derivable_pt_lim_minus; apply derivable_pt_lim_scal; apply De.
    + unfold Rdiv. generalize (/ m3 y c). intros im. field. exact N.
  - intros t c. cbn. eapply derivable_eq; cycle 1.
    + apply (derivable_ext (fun t => pc s c * exp (- v * t))); [intros u; ring|]. apply derivable_pt_lim_scal, De.
    + ring.
  - intros t i j. cbn. eapply derivable_eq; cycle 1.
    + apply derivable_pt_lim_scal, De.
    + ring.
Qed.
Definition bind {A B} (x : option A) (f : A -> option B) : option B := match x with Some a => f a | None => None end.
Theorem bzp_qcstep_group y s P t u : P / wmass y <> 0 ->
  bind (bzp_qcstep y t s P) (fun s' => bzp_qcstep y u s' P) = bzp_qcstep y (t + u) s P.
Proof.
  intros N. unfold bzp_qcstep. destruct (Req_EM_T (P / wmass y) 0) as [E|_]; [easy|]. set (v := P / wmass y) in *. cbn.
  assert (Ep : forall w, exp (w * (t + u)) = exp (w * t) * exp (w * u)) by (intros w; rewrite Rmult_plus_distr_l; apply exp_plus).
  assert (Ev : exp (v * t) * exp (- v * t) = 1) by (rewrite <- exp_plus; replace (v * t + - v * t) with 0 by ring; apply exp_0).
  assert (Eu : exp (v * u) * exp (- v * u) = 1) by (rewrite <- exp_plus; replace (v * u + - v * u) with 0 by ring; apply exp_0).
  rewrite !Ep. f_equal. f_equal.
  - apply functional_extensionality. intros c. unfold Rdiv. generalize (/ m3 y c). intros im.
    set (a := exp (v * t)) in *. set (a' := exp (- v * t)) in *. set (b := exp (v * u)) in *. set (b' := exp (- v * u)) in *. field. exact N.
  - apply functional_extensionality. intros c. ring.
  - apply functional_extensionality. intros i. apply functional_extensionality. intros j. ring.
Qed.
(** With the barostat at rest there is no result. *)
Theorem bzp_at_rest_refuted : exists y s dt, 0 < wmass y /\ 0 < vol s /\ bzp_qcstep y dt s 0 = None.
Proof.
  exists (Sys 1 1 (fun _ => 1) 1 0 1 1 [] (fun _ _ _ _ _ => 0) (fun _ _ _ _ _ => 0) None).
  exists (Atm (fun _ => 0) (fun _ => 1) (fun _ _ => 0) (fun _ _ => 0) eye3), 1. unfold vol, det_ut3x3, eye3, bzp_qcstep. cbn.
  split; [lra|]. split; [lra|]. replace (0 / 1) with 0 by field. destruct (Req_EM_T 0 0); [easy|lra].
Qed.

(** The substep of the momenta is the flow of p' = f, P' = internal - external pressure, in which the
    kinetic energy of the centroid changes along the kick.  Needs the forces of that level to be
    those that [fc] (barostats.py 601) uses. *)
Definition same_forces (y : sys) (l : nat) : Prop :=
  frozen y = [] /\ (0 < nb y)%nat /\ (innermost y l = false \/ bias y = None \/ l <> 0%nat).
Lemma same_fc y l s : same_forces y l -> innermost y l = true -> forall c, mean y (fall y l s) c = fc y l s c.
Proof.
  intros (_ & _ & B) I c. unfold fc, fall, fbias. apply mean_ext. intros b _. destruct B as [B|[B|B]]; [congruence| |].
  - rewrite B. ring.
  - destruct (bias y) as [[fb vb]|]; [|ring]. apply Nat.eqb_neq in B. rewrite B. ring.
Qed.
Lemma pc_kick y l dt s c : frozen y = [] -> pc (kick y l dt s) c = pc s c + mean y (fall y l s) c * dt.
Proof. intros F. unfold kick, kicked. cbn. f_equal. unfold is_frozen. rewrite F. cbn. apply mean_scal. Qed.
Lemma dp_kick y l dt s b c : frozen y = [] -> dp (kick y l dt s) b c = dp s b c + (fall y l s b c - mean y (fall y l s) c) * dt.
Proof.
  intros F. unfold kick, kicked. cbn. unfold is_frozen. rewrite F. cbn. rewrite mean_scal. ring.
Qed.
Lemma dotm_ext y u u' v v' : (forall c, u c = u' c) -> (forall c, v c = v' c) -> dotm y u v = dotm y u' v'.
Proof. intros A B. unfold dotm. apply Rsum_ext. intros c _. now rewrite A, B. Qed.
Lemma dotm_shift y u f t : dotm y (fun c => u c + f c * t) (fun c => u c + f c * t) = dotm y u u + 2 * t * dotm y u f + t ^ 2 * dotm y f f.
Proof.
  rewrite dotm_plus_l, dotm_scal_l, (dotm_comm y u), (dotm_comm y f), !dotm_plus_l, !dotm_scal_l, (dotm_comm y f u). ring.
Qed.
Theorem npt_pstep_group y l s P t u : vol s <> 0 -> same_forces y l ->
  npt_pstep y l u (npt_pstep y l t (s, P)) = npt_pstep y l (t + u) (s, P).
Proof.
  intros V Sf. unfold npt_pstep. destruct (kick_static y l t s l) as (Ef & Et & Ec & Ev).
  pose proof Sf as (F & _ & _). f_equal.
  - assert (Q : qc (kick y l t s) = qc s /\ dq (kick y l t s) = dq s /\ hh (kick y l t s) = hh s) by (repeat split; reflexivity).
    destruct Q as (Q1 & Q2 & Q3).
    assert (X : forall z z' : atm, qc z = qc z' -> dq z = dq z' -> hh z = hh z' -> (forall c, pc z c = pc z' c) -> (forall b c, dp z b c = dp z' b c) -> z = z').
    { intros [a1 a2 a3 a4 a5] [b1 b2 b3 b4 b5]. cbn. intros -> -> -> E1 E2. f_equal.
      - now apply functional_extensionality.
      - apply functional_extensionality. intros b. now apply functional_extensionality. }
    apply X; try reflexivity.
    + intros c. rewrite !pc_kick by assumption. rewrite Ef. ring.
    + intros b c. rewrite !dp_kick by assumption. rewrite Ef. ring.
  - rewrite !bzp_pstep_eq by (rewrite ?Ev; assumption). rewrite Et, Ec, Ev. destruct (innermost y l) eqn:I; [|ring].
    pose proof (same_fc y l s Sf I) as Sc.
    rewrite (dotm_ext y (pc (kick y l t s)) (fun c => pc s c + fc y l s c * t) (pc (kick y l t s)) (fun c => pc s c + fc y l s c * t));
      [|intros c; rewrite pc_kick, Sc; auto..].
    rewrite dotm_shift.
    rewrite (dotm_ext y (pc (kick y l t s)) (fun c => pc s c + fc y l s c * t) (fc y l s) (fc y l s)); [|intros c; rewrite pc_kick, Sc; auto|auto].
    rewrite dotm_plus_l, dotm_scal_l. field.
Qed.
Lemma npt_pstep_0 y l s P : vol s <> 0 -> same_forces y l -> npt_pstep y l 0 (s, P) = (s, P).
Proof.
  intros V (F & N & _). unfold npt_pstep. f_equal.
  - unfold kick, kicked, is_frozen. rewrite F. cbn. destruct s as [a1 a2 a3 a4 a5]. cbn. f_equal.
    + apply functional_extensionality. intros c. rewrite mean_scal. ring.
    + apply functional_extensionality. intros b. apply functional_extensionality. intros c. rewrite mean_scal. ring.
  - rewrite bzp_pstep_eq by assumption. destruct (innermost y l); field.
Qed.

(** ** Reversal of time *)
Definition flip_atm (s : atm) : atm := Atm (qc s) (fun c => - pc s c) (dq s) (fun b c => - dp s b c) (hh s).
Definition flip (x : atm * R) : atm * R := (flip_atm (fst x), - snd x).
Lemma flip_flip x : flip (flip x) = x.
Proof.
  destruct x as [[a1 a2 a3 a4 a5] P]. unfold flip, flip_atm. cbn. rewrite Ropp_involutive. f_equal. f_equal.
  - apply functional_extensionality. intros c. apply Ropp_involutive.
  - apply functional_extensionality. intros b. apply functional_extensionality. intros c. apply Ropp_involutive.
Qed.
Lemma npt_pstep_flip y l dt s P : vol s <> 0 -> same_forces y l -> npt_pstep y l dt (flip (s, P)) = flip (npt_pstep y l (- dt) (s, P)).
Proof.
  intros V Sf. pose proof Sf as (F & _ & _). unfold flip, npt_pstep. cbn [fst snd].
  assert (Vf : vol (flip_atm s) = vol s) by reflexivity. f_equal.
  - unfold kick. change (fall y l (flip_atm s)) with (fall y l s). generalize (fall y l s). intros f.
    unfold flip_atm, kicked. cbn. unfold is_frozen. rewrite F. cbn. f_equal.
    + apply functional_extensionality. intros c. rewrite !mean_scal. ring.
    + apply functional_extensionality. intros b. apply functional_extensionality. intros c. rewrite !mean_scal. ring.
  - rewrite !bzp_pstep_eq by (rewrite ?Vf; assumption). rewrite Vf.
    change (tr_static y l (flip_atm s)) with (tr_static y l s). change (fc y l (flip_atm s)) with (fc y l s).
    cbn [flip_atm pc]. rewrite !dotm_opp, (dotm_comm y (pc s) (fun c => - pc s c)), dotm_opp. destruct (innermost y l); field.
Qed.
Theorem npt_pstep_reversible y l dt s P : vol s <> 0 -> same_forces y l ->
  npt_pstep y l dt (flip (npt_pstep y l dt (s, P))) = flip (s, P).
Proof.
  intros V Sf. destruct (npt_pstep y l dt (s, P)) as [s' P'] eqn:E.
  assert (V' : vol s' <> 0) by (replace (vol s') with (vol s); [exact V|]; injection E as <- _; reflexivity).
  rewrite npt_pstep_flip by assumption. rewrite <- E, npt_pstep_group by assumption. replace (dt + - dt) with 0 by ring.
  now rewrite npt_pstep_0.
Qed.
Theorem bzp_qcstep_reversible y dt s P s' : bzp_qcstep y dt s P = Some s' ->
  bzp_qcstep y dt (flip_atm s') (- P) = Some (flip_atm s).
Proof.
  unfold bzp_qcstep. destruct (Req_EM_T (P / wmass y) 0) as [E|N]; [easy|]. intros H. injection H as <-.
  destruct (Req_EM_T (- P / wmass y) 0) as [E|N']; [exfalso; apply N; unfold Rdiv in *; lra|]. cbn.
  replace (- P / wmass y) with (- (P / wmass y)) by (unfold Rdiv; ring). set (v := P / wmass y) in *.
  replace (- - v * dt) with (v * dt) by ring.
  assert (Ev : exp (v * dt) * exp (- v * dt) = 1) by (rewrite <- exp_plus; replace (v * dt + - v * dt) with 0 by ring; apply exp_0).
  unfold flip_atm. f_equal. f_equal.
  - apply functional_extensionality. intros c. unfold Rdiv. generalize (/ m3 y c). intros im.
    set (a := exp (v * dt)) in *. set (a' := exp (- v * dt)) in *.
    transitivity (qc s c * (a * a')); [|rewrite Ev; ring]. field. exact N.
  - apply functional_extensionality. intros c. transitivity (- pc s c * (exp (v * dt) * exp (- v * dt))); [ring|rewrite Ev; ring].
  - apply functional_extensionality. intros i. apply functional_extensionality. intros j.
    transitivity (hh s i j * (exp (v * dt) * exp (- v * dt))); [ring|rewrite Ev; ring].
Qed.

(** A whole step of the integrator (dynamics.py 365-400, 441-450, 641-656) without thermostats.
    [free]: what nm.free_qstep does to the deviations in half an inner step. *)
Section Step.
Variable y : sys.
Variable pdt : nat -> R.
Variable qdt : R.
Variable free : (nat -> vec) * (nat -> vec) -> (nat -> vec) * (nat -> vec).
Definition astep (x : atm * R) : option (atm * R) :=
  match bzp_qcstep y qdt (fst x) (snd x) with
  | None => None
  | Some s => let '(a, b) := free (dq s, dp s) in Some (Atm (qc s) (pc s) a b (hh s), snd x)
  end.
(** The high order part of the Suzuki-Chin forces (dynamics.py 805-835). *)
Variable f2 : (nat -> vec) -> mat3 -> nat -> vec.
Variable vir2 : (nat -> vec) -> mat3 -> mat3.
Variable sdt : R.
Definition s4step (x : atm * R) : atm * R :=
  let '(s, P) := x in
  (kicked y (f2 (pos s) (hh s)) sdt s, scbzp_pscstep y (f2 (pos s) (hh s)) (vir2 (pos s) (hh s)) sdt s P).
Definition exec1 (o : MTSModel.op) (x : atm * R) : option (atm * R) :=
  match o with
  | MTSModel.S4 => Some (s4step x)
  | MTSModel.P l => Some (npt_pstep y l (pdt l) x)
  | MTSModel.A => astep x
  | _ => Some x
  end.
Fixpoint run (ops : list MTSModel.op) (x : atm * R) : option (atm * R) :=
  match ops with [] => Some x | o :: r => bind (exec1 o x) (run r) end.
Definition neg2 (u : (nat -> vec) * (nat -> vec)) := (fst u, fun b c => - snd u b c).
(** The free ring polymer can be run backwards (property C29). *)
Hypothesis free_rev : forall u, free (neg2 (free u)) = neg2 u.
Hypothesis plain : forall l, same_forces y l.

Lemma run_app a b x : run (a ++ b) x = bind (run a x) (run b).
Proof. revert x. induction a as [|o a IH]; intros x; [reflexivity|]. cbn. destruct (exec1 o x); [apply IH|reflexivity]. Qed.
Lemma run_guarded l x : run (MTSSched.guarded l) x = run l x.
Proof.
  revert x. induction l as [|o l IH]; intros x; [reflexivity|].
  change (MTSSched.guarded (o :: l)) with (MTSSched.guard o ++ MTSSched.guarded l). rewrite run_app. cbn [run].
  assert (E : run (MTSSched.guard o) x = exec1 o x) by (destruct o; cbn; try reflexivity; destruct (astep x); reflexivity).
  rewrite E. destruct (exec1 o x) as [x'|]; [apply IH|reflexivity].
Qed.
Lemma vol_scaled h e : det_ut3x3 (fun i j => h i j * e) = det_ut3x3 h * e ^ 3.
Proof. unfold det_ut3x3. ring. Qed.
Lemma exec1_vol o x x' : exec1 o x = Some x' -> vol (fst x) <> 0 -> vol (fst x') <> 0.
Proof.
  destruct x as [s P]. destruct o; cbn; intros H V; try (injection H as <-; exact V).
  unfold astep, bzp_qcstep in H. cbn in H. destruct (Req_EM_T (P / wmass y) 0) as [E|N]; [easy|]. cbn in H.
  destruct (free (dq s, dp s)) as [a b]. injection H as <-. cbn. unfold vol in *. cbn. rewrite vol_scaled.
  apply Rmult_integral_contrapositive_currified; [exact V|]. apply pow_nonzero. pose proof (exp_pos (P / wmass y * qdt)). lra.
Qed.
Lemma s4_rev s P : s4step (flip (s4step (s, P))) = flip (s, P).
Proof.
  destruct (plain 0) as (F & _ & _). unfold s4step, flip. cbn [fst snd].
  change (pos (flip_atm (kicked y (f2 (pos s) (hh s)) sdt s))) with (pos s). change (hh (flip_atm (kicked y (f2 (pos s) (hh s)) sdt s))) with (hh s).
  set (f := f2 (pos s) (hh s)). set (w := vir2 (pos s) (hh s)). f_equal.
  - unfold flip_atm, kicked, is_frozen. rewrite F. cbn. f_equal.
    + apply functional_extensionality. intros c. ring.
    + apply functional_extensionality. intros b. apply functional_extensionality. intros c. ring.
  - unfold scbzp_pscstep. change (vol (flip_atm (kicked y f sdt s))) with (vol s).
    change (stress_sc y f w (flip_atm (kicked y f sdt s))) with (stress_sc y f w s). ring.
Qed.
Lemma exec1_rev o x x' : vol (fst x) <> 0 -> exec1 o x = Some x' -> exec1 o (flip x') = Some (flip x).
Proof.
  destruct x as [s P]. intros V. destruct o; cbn [exec1]; intros H; try (injection H as <-; reflexivity).
  - injection H as <-. cbn [fst] in V. f_equal. apply npt_pstep_reversible; auto.
  - unfold astep in *. cbn [fst snd] in H. destruct (bzp_qcstep y qdt s P) as [s1|] eqn:Q; [|easy].
    destruct (free (dq s1, dp s1)) as [a b] eqn:Fr. injection H as <-.
    pose proof (bzp_qcstep_reversible _ _ _ _ _ Q) as B.
    assert (D : dq s1 = dq s /\ dp s1 = dp s).
    { revert Q. unfold bzp_qcstep. destruct (Req_EM_T (P / wmass y) 0); [easy|]. intros Q. injection Q as <-. split; reflexivity. }
    destruct D as [D1 D2].
    unfold flip. cbn [fst snd flip_atm qc pc dq dp hh].
    assert (B' : bzp_qcstep y qdt (flip_atm (Atm (qc s1) (pc s1) a b (hh s1))) (- P) = Some (Atm (qc s) (fun c => - pc s c) a (fun i c => - b i c) (hh s))).
    { revert B. unfold bzp_qcstep. destruct (Req_EM_T (- P / wmass y) 0); [easy|]. cbn. intros B. injection B as B1 B2 _ _ B5.
      unfold flip_atm. cbn. rewrite B1, B2, B5. reflexivity. }
    rewrite B'. cbn. specialize (free_rev (dq s1, dp s1)). rewrite Fr in free_rev. unfold neg2 in free_rev. cbn in free_rev.
    match goal with |- context [free ?z] => change (free z = (dq s1, fun i c => - dp s1 i c)) in free_rev end. rewrite free_rev, D1, D2. reflexivity.
  - injection H as <-. f_equal. apply s4_rev.
Qed.
Lemma run_rev ops : forall x x', vol (fst x) <> 0 -> run ops x = Some x' -> vol (fst x') <> 0 /\ run (rev ops) (flip x') = Some (flip x).
Proof.
  induction ops as [|o ops IH]; intros x x' V H; [injection H as <-; now split|].
  cbn in H. destruct (exec1 o x) as [x1|] eqn:E; [|easy]. cbn in H.
  pose proof (exec1_vol _ _ _ E V) as V1. destruct (IH _ _ V1 H) as [V2 R]. split; [exact V2|].
  cbn [rev]. rewrite run_app, R. cbn. now rewrite (exec1_rev _ _ _ V E).
Qed.
(** The step can be run backwards, for every splitting into levels. *)
Theorem npt_step_reversible ns x x' : MTSSched.factors ns -> vol (fst x) <> 0 ->
  run (MTSModel.nve_step ns) x = Some x' -> run (MTSModel.nve_step ns) (flip x') = Some (flip x).
Proof.
  intros Fn V H. destruct (MTSSched.nve_schedule_symmetric ns Fn) as (core & Pal & E). rewrite E, run_guarded in *.
  destruct (run_rev core x x' V H) as [_ R]. now rewrite Pal in R.
Qed.
(** And so can those with a thermostat, and the Suzuki-Chin ones, when the thermostats do nothing. *)
Lemma run_strip l x : run (MTSSched.strip l) x = run l x.
Proof.
  revert x. induction l as [|o l IH]; intros x; [reflexivity|]. unfold MTSSched.strip in *. cbn [filter].
  assert (X : forall o, run (o :: filter (fun o => negb (MTSSched.op_eq o MTSModel.Con)) l) x = run (o :: l) x).
  { intros o'. cbn [run]. destruct (exec1 o' x); [apply IH|reflexivity]. }
  destruct o; try exact (X _). exact (IH x).
Qed.
Theorem nvt_npt_step_reversible sp ns x x' : MTSSched.factors ns -> vol (fst x) <> 0 ->
  run (MTSModel.nvt_step sp ns) x = Some x' -> run (MTSModel.nvt_step sp ns) (flip x') = Some (flip x).
Proof.
  intros Fn V H. destruct (MTSSched.nvt_schedule_symmetric sp ns Fn) as (core & Pal & E). rewrite E, run_guarded in *.
  destruct (run_rev core x x' V H) as [_ R]. now rewrite Pal in R.
Qed.
Theorem sc_npt_step_reversible sp ns x x' : MTSSched.factors ns -> vol (fst x) <> 0 ->
  run (MTSModel.sc_step sp ns) x = Some x' -> run (MTSModel.sc_step sp ns) (flip x') = Some (flip x).
Proof.
  intros Fn V H. destruct (MTSSched.sc_schedule_symmetric sp ns Fn) as [Pal _]. rewrite <- run_strip in *.
  destruct (run_rev _ x x' V H) as [_ R]. now rewrite Pal in R.
Qed.
End Step.
(** The Suzuki-Chin barostat is the isotropic one with the scaled forces and virials (without a bias). *)
Definition scaled (y : sys) (virs : nat -> (nat -> vec) -> mat3 -> nat -> mat3) : sys :=
  Sys (nb y) (natoms y) (m y) (kT y) (pext y) (wmass y) (nlev y) (frozen y)
      (fun l q h => sc_force (force y l q h)) (fun l q h => sc_vir y (virs l q h)) None.
Theorem scbzp_is_bzp y virs l dt s P : bias y = None -> scbzp_pstep y virs l dt s P = bzp_pstep (scaled y virs) l dt s P.
Proof.
  intros B. unfold scbzp_pstep, bzp_pstep, stress_mts_sc, stress_mts, kstress_mts_sc, kstress_mts, fall, fbias, bvir, fc. rewrite B. cbn [scaled bias].
  change (innermost (scaled y virs) l) with (innermost y l). destruct (innermost y l); [|reflexivity].
  change (mean (scaled y virs)) with (mean y). change (dotm (scaled y virs)) with (dotm y).
  cbn [scaled nb force vir pext kT]. change (kstress (scaled y virs)) with (kstress y). change (kin_diag (scaled y virs)) with (kin_diag y). field.
Qed.
