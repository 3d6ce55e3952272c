(** * The conserved quantity of the barostats, to first order in the time step *)
From Coq Require Import List Arith Lia Reals Lra FunctionalExtensionality Ranalysis5.
From Verif Require Import RSum CellModel BaroModel BaroIso BaroRate.
From Verif Require ConstrJac.
Import ListNotations.
Open Scope R_scope.

Lemma d_poly3 a b c d : derivable_pt_lim (fun t => a + (b * t + (c * t ^ 2 + d * t ^ 3))) 0 b.
Proof.
  eapply derivable_eq; cycle 1.
  - apply d_plus; [apply d_const|]. apply d_plus; [apply (d_scal b id), derivable_pt_lim_id|].
    apply d_plus; apply d_scal; [apply (derivable_pt_lim_pow 0 2)|apply (derivable_pt_lim_pow 0 3)].
  - cbn. ring.
Qed.
Lemma d_sq_of f l k : derivable_pt_lim f 0 l -> derivable_pt_lim (fun t => 1 / 2 * (f t) ^ 2 / k) 0 (f 0 * l / k).
Proof.
  intros H. apply (derivable_ext (fun t => (1 / 2 * / k) * (f t * f t))); [intros t; unfold Rdiv; ring|].
  eapply derivable_eq; cycle 1; [apply d_scal, d_mult; exact H|unfold Rdiv; generalize (/ k); intros; field].
Qed.

(** ** The isotropic barostat *)
Definition bzp_drift (y : sys) (s : atm) (P : R) (u : R -> (nat -> vec) * (nat -> vec)) (t : R) : atm :=
  match bzp_qcstep y t s P with
  | Some s1 => Atm (qc s1) (pc s1) (fst (u t)) (snd (u t)) (hh s1)
  | None => s
  end.
Definition bzp_cons (y : sys) (E : nat -> (nat -> vec) -> mat3 -> R) (usp : (nat -> vec) -> R) (x : atm * R) : R :=
  eatoms y E usp (fst x) + bzp_ebaro y (fst x) (snd x).
Lemma trace_power y l s (W : mat3) : trace (kstress y (fall y l s) s) = - (contract eye3 (dev_vir y l s)).
Proof.
  unfold trace, kstress, contract, dev_vir, eye3. cbn [Rsum Nat.eqb].
  assert (X : forall i, Rsum (nb y) (fun b => Rsum (natoms y) (fun a => dq s b (3 * a + i)%nat * fall y l s b (3 * a + i)%nat))
     = Rsum (nb y) (fun b => Rsum (natoms y) (fun a => fall y l s b (3 * a + i)%nat * dq s b (3 * a + i)%nat)))
    by (intros i; apply Rsum_ext; intros b _; apply Rsum_ext; intros a _; ring).
  rewrite !X. ring.
Qed.
Lemma contract_eye A : contract eye3 A = trace A.
Proof. unfold contract, eye3, trace. cbn [Rsum Nat.eqb]. ring. Qed.
Lemma contract_iso v A : contract (fun i j => v * eye3 i j) A = v * trace A.
Proof. unfold contract, eye3, trace. cbn [Rsum Nat.eqb]. ring. Qed.
Lemma trace_kin_tensor y s : trace (kin_tensor y s) = INR (nb y) * dotm y (pc s) (pc s).
Proof. rewrite <- kin_trace. unfold trace, kin_tensor, kin_diag. ring. Qed.
Definition bzp_rate (y : sys) (l : nat) (s : atm) (P : R) : R :=
  power y l s + P / wmass y * (tr_static y l s + if innermost y l then INR (nb y) * dotm y (pc s) (pc s) + 3 * (kT y - vol s * (INR (nb y) * pext y)) else 0).
Lemma bzp_kick_rate y E usp l s P : frozen y = [] -> (0 < nb y)%nat -> vol s <> 0 -> centred y (dp s) ->
  derivable_pt_lim (fun t => bzp_cons y E usp (npt_pstep y l t (s, P))) 0 (bzp_rate y l s P).
Proof.
  intros F N V C. unfold bzp_cons, npt_pstep. cbn [fst snd]. apply d_plus; [now apply kick_rate|].
  unfold bzp_ebaro. change (fun t => 1 / 2 * bzp_pstep y l t s P ^ 2 / wmass y + vol (kick y l t s) * pext y * INR (nb y) + - 1 * ln (vol (kick y l t s)) * kT y)
    with (fun t => 1 / 2 * bzp_pstep y l t s P ^ 2 / wmass y + vol s * pext y * INR (nb y) + - 1 * ln (vol s) * kT y).
  eapply derivable_eq; cycle 1.
  - apply d_plus; [|apply d_const]. apply d_plus; [|apply d_const]. apply d_sq_of.
    apply (derivable_ext (fun t => P + ((tr_static y l s + if innermost y l then INR (nb y) * dotm y (pc s) (pc s) + 3 * (kT y - vol s * (INR (nb y) * pext y)) else 0) * t
      + ((if innermost y l then INR (nb y) * dotm y (pc s) (fc y l s) else 0) * t ^ 2 + (if innermost y l then INR (nb y) * (dotm y (fc y l s) (fc y l s) / 3) else 0) * t ^ 3)))).
    { intros t. rewrite bzp_pstep_eq by assumption. destruct (innermost y l); field. }
    apply d_poly3.
  - cbn beta. rewrite bzp_pstep_eq by assumption. destruct (innermost y l); unfold Rdiv; ring.
Qed.
Lemma bzp_drifts y s P u : P / wmass y <> 0 -> fst (u 0) = dq s -> drifts y (fun i j => P / wmass y * eye3 i j) s (bzp_drift y s P u).
Proof.
  intros N U0. destruct (bzp_qcstep_flow y s P N) as (x & Hx & X0 & Fq & Fp & Fh & _). set (v := P / wmass y) in *.
  assert (Ex : forall t, bzp_drift y s P u t = Atm (qc (x t)) (pc (x t)) (fst (u t)) (snd (u t)) (hh (x t))) by (intros t; unfold bzp_drift; now rewrite Hx).
  constructor.
  - intros b c _ _. rewrite Ex. unfold pos. cbn. now rewrite X0, U0.
  - intros c _. rewrite Ex. cbn. now rewrite X0.
  - intros a i Ha Hi. apply (derivable_ext (fun t => qc (x t) (3 * a + i)%nat)); [intros t; now rewrite Ex|].
    eapply derivable_eq; [|apply Fq]. rewrite X0, m3_at by assumption. f_equal.
    destruct i as [|[|[|i]]]; [..|lia]; cbn [Rsum eye3 Nat.eqb]; unfold eye3; cbn [Nat.eqb]; ring.
  - intros a i Ha Hi. apply (derivable_ext (fun t => pc (x t) (3 * a + i)%nat)); [intros t; now rewrite Ex|].
    eapply derivable_eq; [|apply Fp]. rewrite X0.
    destruct i as [|[|[|i]]]; [..|lia]; cbn [Rsum eye3 Nat.eqb]; unfold eye3; cbn [Nat.eqb]; ring.
  - exists (fun t i j => exp (v * t) * eye3 i j). split.
    + intros t i j Hi Hj. rewrite Ex. cbn [hh]. specialize (Hx t). unfold bzp_qcstep in Hx. fold v in Hx. destruct (Req_EM_T v 0); [easy|]. injection Hx as Hx.
      rewrite <- Hx. cbn [hh]. unfold prod3. destruct i as [|[|[|i]]]; [..|lia]; cbn [Rsum]; unfold eye3; cbn [Nat.eqb]; ring.
    + intros i j _ _. split; [rewrite Rmult_0_r, exp_0; ring|]. eapply derivable_eq; cycle 1.
      * apply d_mult; [|apply d_const]. apply (derivable_pt_lim_comp (fun t => v * t) exp); [apply (d_scal v id), derivable_pt_lim_id|apply derivable_pt_lim_exp].
      * rewrite Rmult_0_r, exp_0. ring.
Qed.
(** The conserved quantity (atoms, external pressure, barostat, and the logarithm of the volume) does not change
    to first order: the rates of the kicks of all levels and of the drift add up to zero. *)
Theorem bzp_conserved y E usp s P u : frozen y = [] -> (0 < nb y)%nat -> (0 < nlev y)%nat -> 0 < vol s -> wmass y <> 0 -> P <> 0 ->
  centred y (dp s) -> all_consistent y E s -> fst (u 0) = dq s -> free_motion y usp s (bzp_drift y s P u) ->
  exists (rate : nat -> R) (drift : R),
    (forall l, (l < nlev y)%nat -> derivable_pt_lim (fun t => bzp_cons y E usp (npt_pstep y l t (s, P))) 0 (rate l)) /\
    derivable_pt_lim (fun t => bzp_cons y E usp (bzp_drift y s P u t, P)) 0 drift /\
    Rsum (nlev y) rate + drift = 0.
Proof.
  intros F N Lv V W NP C Co U0 Fm. set (v := P / wmass y).
  assert (Nv : v <> 0) by (unfold v, Rdiv; apply Rmult_integral_contrapositive_currified; [exact NP|now apply Rinv_neq_0_compat]).
  pose proof (bzp_drifts y s P u Nv U0) as D. fold v in D.
  exists (fun l => bzp_rate y l s P). eexists. split; [|split].
  - intros l _. apply bzp_kick_rate; auto; lra.
  - unfold bzp_cons. cbn [fst snd]. apply d_plus; [apply (drift_rate y E usp _ s _ Co D Fm)|].
    assert (Ev : forall t, vol (bzp_drift y s P u t) = vol s * exp (3 * v * t)).
    { intros t. unfold bzp_drift, bzp_qcstep. fold v. destruct (Req_EM_T v 0); [easy|]. unfold vol. cbn [hh].
      rewrite vol_scaled. f_equal. replace (3 * v * t) with (v * t + (v * t + v * t)) by ring. rewrite !exp_plus. ring. }
    unfold bzp_ebaro. apply (derivable_ext (fun t => (1 / 2 * P ^ 2 / wmass y - ln (vol s) * kT y) + ((vol s * pext y * INR (nb y)) * exp (3 * v * t) + (- 3 * v * kT y) * t))).
    { intros t. rewrite Ev, ln_mult, ln_exp by (try assumption; apply exp_pos). ring. }
    apply d_plus; [apply d_const|]. apply d_plus.
    + apply d_scal. apply (derivable_pt_lim_comp (fun t => 3 * v * t) exp); [apply (d_scal (3 * v) id), derivable_pt_lim_id|apply derivable_pt_lim_exp].
    + apply (d_scal (- 3 * v * kT y) id), derivable_pt_lim_id.
  - rewrite Rmult_0_r, exp_0. rewrite !contract_iso, trace_kin_tensor.
    rewrite (Rsum_ext (nlev y) (fun l => - power y l s + contract (fun i j => v * eye3 i j) (dev_vir y l s) - contract (fun i j => v * eye3 i j) (fun i j => vir y l (pos s) (hh s) i j + bvir y l s i j))
      (fun l => - power y l s - v * tr_static y l s)).
    2:{ intros l _. rewrite !contract_iso. unfold tr_static. rewrite (trace_power y l s eye3), contract_eye. unfold trace. ring. }
    unfold bzp_rate. fold v. rewrite Rsum_minus, Rsum_opp, Rsum_plus, !Rsum_scal, Rsum_plus.
    rewrite (Rsum_delta (nlev y) (nlev y - 1) (fun i => if innermost y i then _ else 0)) by (try lia; intros i Hi Ne; unfold innermost; apply Nat.eqb_neq in Ne; now rewrite Ne).
    unfold innermost at 1. rewrite Nat.eqb_refl. ring.
Qed.
