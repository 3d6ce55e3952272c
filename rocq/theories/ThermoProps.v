(** Theorems of record about the thermostats (C34, C79-C82). *)
Require Import Reals List ZArith Lia Lra Psatz.
From Verif Require Import RSum Ortho ThermoModel ThermoProofs.
Import ListNotations.
Local Open Scope R_scope.

(** ** Energy bookkeeping (C34) *)

(** "Kinetic energy plus ethermo is what it was": the property every
    thermostat step below has, for every outcome of the random numbers. *)
Definition accounted (n : nat) (m : nat -> R) (before after : (nat -> R) * R) : Prop :=
  kinetic n m (fst after) + snd after = kinetic n m (fst before) + snd before.
Definition masses_positive (n : nat) (m : nat -> R) : Prop := forall i, (i < n)%nat -> 0 < m i.

Theorem langevin_energy_accounted n dt tau temp m xi p eth : masses_positive n m ->
  accounted n m (p, eth) (lang_step n dt tau temp m xi p eth).
Proof.
  intros Hm. pose proof (lang_energy n dt tau temp m xi p eth Hm) as H. unfold accounted.
  now destruct (lang_step n dt tau temp m xi p eth).
Qed.

Theorem svr_energy_accounted n ndof dt tau temp m d p eth : masses_positive n m ->
  0 <= dt -> 0 < tau -> 0 <= temp -> (forall k, 0 <= dr_gamma d k) ->
  accounted n m (p, eth) (svr_step n ndof dt tau temp m d p eth).
Proof.
  intros Hm Hd Ht Hk Hg. pose proof (svr_energy n ndof dt tau temp m d p eth Hm Hd Ht Hk Hg) as H. unfold accounted.
  now destruct (svr_step n ndof dt tau temp m d p eth).
Qed.

(** the square of the rescaling factor is never negative: it is a square plus a non-negative term *)
Theorem svr_factor_real et Kbar K r1 rg : 0 <= et <= 1 -> 0 <= Kbar -> 0 < K -> 0 <= rg ->
  0 <= svr_alpha2 et Kbar K r1 rg /\
  svr_alpha et Kbar K r1 rg * svr_alpha et Kbar K r1 rg = svr_alpha2 et Kbar K r1 rg.
Proof.
  intros He Hb HK Hr. pose proof (svr_nonneg et Kbar K r1 rg He Hb HK Hr) as H. split; [easy|now apply svr_alpha_sq].
Qed.

Theorem gle_energy_accounted q n T Sm m xi p s eth : masses_positive n m ->
  let '((p', _), eth') := gle_step q n T Sm m xi (p, s) eth in accounted n m (p, eth) (p', eth').
Proof.
  intros Hm. pose proof (gle_energy q n T Sm m xi (p, s) eth Hm) as H.
  destruct (gle_step q n T Sm m xi (p, s) eth) as [[p' s'] eth']. exact H.
Qed.

Theorem cl_energy_accounted n dt tau intau idtau temp m xi p eth : masses_positive n m ->
  accounted n m (p, eth) (cl_step n dt tau intau idtau temp m xi p eth).
Proof.
  intros Hm. unfold accounted, cl_step. cbn [fst snd].
  pose proof (half_dot' n m (fun i => p i / sqrt (m i) * cl_T dt tau intau + cl_S dt tau idtau temp * xi i) Hm) as Q.
  cbv beta in Q. rewrite <- Q, (half_dot n m p Hm). ring.
Qed.

Theorem ffl_energy_accounted f n dt tau temp m xi p eth res : masses_positive n m ->
  ffl_step f n dt tau temp m xi p eth = Some res -> accounted n m (p, eth) res.
Proof.
  intros Hm H. unfold ffl_step in H. destruct ffl_flip as [p2|]; [|discriminate]. injection H as <-.
  unfold accounted. cbn [fst snd]. rewrite <- (half_dot' n m p2 Hm), (half_dot n m p Hm). ring.
Qed.

(** Composite thermostats: whatever sub-thermostats act on whatever modes, even
    several on the same one, if each accounts for its energy so does the whole. *)
Theorem composite_energy_accounted nb n dynm3 l pnm :
  (forall t e, In (t, e) l -> (mode t < nb)%nat /\
     forall p e0, accounted n (dynm3 (mode t)) (p, e0) (act t p e0)) ->
  let '(l', pnm') := subs_step l pnm in
  Rsum nb (fun k => kinetic n (dynm3 k) (pnm' k)) + get_ethermo l'
  = Rsum nb (fun k => kinetic n (dynm3 k) (pnm k)) + get_ethermo l.
Proof.
  intros H. apply subs_energy. intros t e Hin. destruct (H t e Hin) as [A B]. split; [easy|].
  intros p e0. specialize (B p e0). unfold accounted in B. now destruct (act t p e0).
Qed.

Theorem pile_l_energy_accounted nb n dt tau temp pilescale pilect om dynm3 xi es pnm :
  (forall k, (k < nb)%nat -> masses_positive n (dynm3 k)) ->
  let l := combine (pile_l nb n dt tau temp pilescale pilect om dynm3 xi) es in
  let '(l', pnm') := subs_step l pnm in
  Rsum nb (fun k => kinetic n (dynm3 k) (pnm' k)) + get_ethermo l'
  = Rsum nb (fun k => kinetic n (dynm3 k) (pnm k)) + get_ethermo l.
Proof.
  intros Hm l. apply composite_energy_accounted. intros t e Hin. apply in_combine_l in Hin.
  unfold pile_l in Hin. apply in_map_iff in Hin as (k & <- & Hk). apply in_seq in Hk. cbn [mode act].
  split; [lia|]. intros p e0. apply langevin_energy_accounted, Hm. lia.
Qed.

Theorem pile_g_energy_accounted nb n nfix fixcom dt tau temp pilescale pilect om dynm3 xi d es pnm : (0 < nb)%nat ->
  (forall k, (k < nb)%nat -> masses_positive n (dynm3 k)) ->
  0 <= dt -> 0 < tau -> 0 <= temp -> (forall k, 0 <= dr_gamma d k) ->
  let l := combine (pile_g nb n nfix fixcom dt tau temp pilescale pilect om dynm3 xi d) es in
  let '(l', pnm') := subs_step l pnm in
  Rsum nb (fun k => kinetic n (dynm3 k) (pnm' k)) + get_ethermo l'
  = Rsum nb (fun k => kinetic n (dynm3 k) (pnm k)) + get_ethermo l.
Proof.
  intros Hnb Hm Hd Ht Hk Hg l. apply composite_energy_accounted. intros t e Hin. apply in_combine_l in Hin.
  destruct Hin as [<- |Hin].
  - cbn [mode act]. split; [easy|]. intros p e0. apply svr_energy_accounted; auto.
    unfold pile_temp. destruct Rlt_dec; [|easy]. apply Rmult_le_pos; [apply pos_INR|lra].
  - assert (Hin' : In t (pile_l nb n dt tau temp pilescale pilect om dynm3 xi)).
    { destruct (pile_l nb n dt tau temp pilescale pilect om dynm3 xi); [easy|now right]. }
    unfold pile_l in Hin'. apply in_map_iff in Hin' as (k & <- & Hk'). apply in_seq in Hk'. cbn [mode act].
    split; [lia|]. intros p e0. apply langevin_energy_accounted, Hm. lia.
Qed.

(** the stored value survives being divided between the sub-thermostats, so a
    restart neither creates nor loses energy *)
Theorem restart_keeps_ethermo prev ts : ts <> [] -> get_ethermo (split_ethermo prev ts) = prev.
Proof. apply split_sum. Qed.
Theorem restart_keeps_ethermo_nmgleg prev ts t : ts <> [] -> get_ethermo (split_ethermo_g prev ts t) = prev.
Proof.
  intros N. rewrite get_ethermo_sum. unfold split_ethermo_g. rewrite map_app, Rsuml_app.
  rewrite <- get_ethermo_sum, split_sum by easy. cbn. ring.
Qed.
(** every step keeps the number of sub-thermostats, so the split can be repeated *)
Theorem step_keeps_thermostats l pnm : map fst (fst (subs_step l pnm)) = map fst l.
Proof. apply subs_fst. Qed.

Example langevin_case : (** a particle at rest is heated, and the bath pays for it *)
  let '(p', eth') := lang_step 1 1 1 1 (fun _ => 4) (fun _ => 1) (fun _ => 0) 0 in
  0 < kinetic 1 (fun _ => 4) p' /\ eth' < 0.
Proof.
  pose proof (langevin_energy_accounted 1 1 1 1 (fun _ => 4) (fun _ => 1) (fun _ => 0) 0) as A.
  assert (M : masses_positive 1 (fun _ => 4)) by (intros i _; lra). specialize (A M).
  unfold accounted in A. cbn [fst snd] in A.
  assert (P : fst (lang_step 1 1 1 1 (fun _ => 4) (fun _ => 1) (fun _ => 0) 0) 0%nat <> 0).
  { rewrite lang_p by lra. rewrite Rmult_0_r, Rplus_0_l, Rmult_1_r.
    assert (0 < lang_S 1 (lang_T 1 1)).
    { apply sqrt_lt_R0. unfold kb. pose proof (damp_lt1 1 1 ltac:(lra) ltac:(lra)) as D. unfold lang_T. nra. }
    pose proof (sqrt_lt_R0 4 ltac:(lra)). apply Rmult_integral_contrapositive. lra. }
  destruct (lang_step 1 1 1 1 (fun _ => 4) (fun _ => 1) (fun _ => 0) 0) as [p' eth']. cbn [fst snd] in *.
  assert (Z : kinetic 1 (fun _ => 4) (fun _ => 0) = 0) by (unfold kinetic; cbn; field). rewrite Z in A.
  assert (K : 0 < kinetic 1 (fun _ => 4) p').
  { unfold kinetic. cbn [Rsum]. assert (0 < p' 0%nat ^ 2) by (cbn; rewrite Rmult_1_r; now apply Rsqr_pos_lt). lra. }
  split; [easy|lra].
Qed.
Example composite_case : exists l pnm, (1 < length l)%nat /\
  (forall t e, In (t, e) l -> (mode t < 2)%nat /\ forall p e0, accounted 3 (fun _ => 1) (p, e0) (act t p e0)) /\
  get_ethermo l = 5 /\ pnm 1%nat 2%nat = 7.
Proof.
  exists (split_ethermo 5 (pile_l 2 3 1 1 1 1 0 (fun _ => 1) (fun _ _ => 1) (fun _ _ => 1))), (fun _ _ => 7).
  split; [unfold split_ethermo; rewrite map_length; cbn; lia|]. split; [|split; [now apply restart_keeps_ethermo|easy]].
  intros t e Hin. unfold split_ethermo in Hin. apply in_map_iff in Hin as (t' & Q & Hin). injection Q as -> _.
  unfold pile_l in Hin. apply in_map_iff in Hin as (k & <- & Hk). apply in_seq in Hk. cbn [mode act].
  split; [lia|]. intros p e0. apply langevin_energy_accounted. intros i _. lra.
Qed.

(** ** The right temperature (C79) *)

(** The Langevin step multiplies the covariance of the momenta by exp(-2 dt/tau)
    and moves it towards the Maxwell one by exactly the rest. *)
Theorem langevin_relaxes {O} (E : (O -> R) -> R) n dt tau temp m (xi p : O -> nat -> R) eth i j :
  expectation E -> 0 <= dt -> 0 < tau -> 0 <= temp -> masses_positive n m -> (i < n)%nat -> (j < n)%nat ->
  E (fun o => xi o i * xi o j) = delta i j -> E (fun o => p o i * xi o j) = 0 -> E (fun o => p o j * xi o i) = 0 ->
  let p' o := fst (lang_step n dt tau temp m (xi o) (p o) (eth o)) in
  E (fun o => p' o i * p' o j)
  = exp (- 2 * dt / tau) * E (fun o => p o i * p o j) + (1 - exp (- 2 * dt / tau)) * (m i * kb * temp * delta i j).
Proof. intros HE Hd Ht Hk Hm Hi Hj. apply lang_cov; auto. Qed.

(** so the Maxwell distribution's covariance is stationary, and it is the only one *)
Theorem langevin_stationary {O} (E : (O -> R) -> R) n dt tau temp m (xi p : O -> nat -> R) eth i j :
  expectation E -> 0 < dt -> 0 < tau -> 0 <= temp -> masses_positive n m -> (i < n)%nat -> (j < n)%nat ->
  E (fun o => xi o i * xi o j) = delta i j -> E (fun o => p o i * xi o j) = 0 -> E (fun o => p o j * xi o i) = 0 ->
  let p' o := fst (lang_step n dt tau temp m (xi o) (p o) (eth o)) in
  E (fun o => p' o i * p' o j) = E (fun o => p o i * p o j) <-> E (fun o => p o i * p o j) = m i * kb * temp * delta i j.
Proof.
  intros HE Hd Ht Hk Hm Hi Hj Hx H1 H2 p'.
  assert (G := langevin_relaxes E n dt tau temp m xi p eth i j HE (Rlt_le _ _ Hd) Ht Hk Hm Hi Hj Hx H1 H2).
  cbv zeta in G. unfold p'. rewrite G.
  assert (B : 0 < exp (-2 * dt / tau) < 1).
  { replace (-2 * dt / tau) with (- (2 * dt) / tau) by (field; lra). apply damp_lt1; lra. }
  set (e := exp (-2 * dt / tau)) in *. clearbody e. split; intros Q.
  - apply (Rmult_eq_reg_l (1 - e)); lra.
  - rewrite Q. ring.
Qed.

(** Two steps are one step of the summed length: the splitting of the time step
    between the two halves of the integrator adds no error. *)
Theorem langevin_exact_in_time dt1 dt2 tau temp : 0 <= dt1 -> 0 <= dt2 -> 0 < tau -> 0 <= temp ->
  lang_T (dt1 + dt2) tau = lang_T dt1 tau * lang_T dt2 tau /\
  lang_S temp (lang_T (dt1 + dt2) tau) ^ 2
  = lang_T dt2 tau ^ 2 * lang_S temp (lang_T dt1 tau) ^ 2 + lang_S temp (lang_T dt2 tau) ^ 2.
Proof.
  intros H1 H2 Ht Hk.
  assert (A : lang_T (dt1 + dt2) tau = lang_T dt1 tau * lang_T dt2 tau).
  { unfold lang_T. rewrite <- exp_plus. f_equal. field. lra. }
  split; [easy|].
  assert (L : forall d, 0 <= d -> lang_S temp (lang_T d tau) ^ 2 = kb * temp * (1 - lang_T d tau ^ 2)).
  { intros d Hd. replace (lang_S temp (lang_T d tau) ^ 2) with (lang_S temp (lang_T d tau) * lang_S temp (lang_T d tau)) by ring.
    apply lang_S2; [easy|]. now apply damp_le1. }
  rewrite !L by lra. rewrite A. ring.
Qed.

(** The generalised Langevin step keeps the covariance kb C of the extended
    momenta, for every drift matrix, however its exponential was computed,
    provided that the noise matrix is a root of the matrix it is the root of. *)
Theorem gle_stationary {O} (E : (O -> R) -> R) q n T Sm C m (xi : O -> mat) (st : O -> (nat -> R) * mat) eth a b i j :
  expectation E -> masses_positive n m -> (i < n)%nat -> (j < n)%nat -> (a < q)%nat -> (b < q)%nat ->
  (forall a b, (a < q)%nat -> (b < q)%nat -> mmul q Sm (tr Sm) a b = gle_SST q T C a b) ->
  (forall a b, (a < q)%nat -> (b < q)%nat -> E (fun o => extended m (st o) a i * extended m (st o) b j) = kb * C a b * delta i j) ->
  (forall a b, (a < q)%nat -> (b < q)%nat -> E (fun o => xi o a i * xi o b j) = delta a b * delta i j) ->
  (forall a b i j, (a < q)%nat -> (b < q)%nat -> E (fun o => extended m (st o) a i * xi o b j) = 0) ->
  let st' o := fst (gle_step q n T Sm m (xi o) (st o) (eth o)) in
  E (fun o => extended m (st' o) a i * extended m (st' o) b j) = kb * C a b * delta i j.
Proof. intros HE Hm. now apply gle_cov. Qed.

(** The root: if eigh's result is right then the product of the root with its
    transpose has the eigenvalues clipped at zero, so it is the matrix itself
    when no eigenvalue is negative. *)
Theorem root_herm_squares n w V A : orthonormal_cols n V ->
  (forall i j, (i < n)%nat -> (j < n)%nat -> A i j = Rsum n (fun k => V i k * w k * V j k)) ->
  (forall k, (k < n)%nat -> 0 <= w k) ->
  forall i j, (i < n)%nat -> (j < n)%nat -> mmul n (root_herm n w V) (tr (root_herm n w V)) i j = A i j.
Proof.
  intros HV HA Hw i j Hi Hj. rewrite root_square by easy. rewrite HA by easy. apply Rsum_ext. intros k Hk.
  now rewrite Rmax_left by auto.
Qed.
Theorem root_herm_clips n w V i j : orthonormal_cols n V ->
  mmul n (root_herm n w V) (tr (root_herm n w V)) i j = Rsum n (fun k => V i k * Rmax (w k) 0 * V j k).
Proof. apply root_square. Qed.

(** Velocity rescaling: the mean kinetic energy relaxes towards ndof kT/2 with
    the time constant tau, for even and odd numbers of degrees of freedom. *)
Theorem svr_relaxes {O} (E : (O -> R) -> R) n ndof dt tau temp m (d : O -> draws) p eth :
  expectation E -> masses_positive n m -> 0 <= dt -> 0 < tau -> 0 <= temp -> (1 <= ndof)%Z ->
  (forall o k, 0 <= dr_gamma (d o) k) -> kinetic n m p <> 0 ->
  E (fun o => dr_1 (d o)) = 0 -> E (fun o => dr_1 (d o) ^ 2) = 1 -> E (fun o => dr_2 (d o) ^ 2) = 1 ->
  (forall k, 0 <= k -> E (fun o => dr_gamma (d o) k) = k) ->
  E (fun o => kinetic n m (fst (svr_step n ndof dt tau temp m (d o) p eth)))
  = exp (- dt / tau) * kinetic n m p + (1 - exp (- dt / tau)) * (IZR ndof * (kb * temp / 2)).
Proof.
  intros HE Hm Hd Ht Hk Hn Hg N H1 H11 H2 Hgam.
  set (et := svr_et dt tau). set (K := kinetic n m p) in *.
  rewrite (E_ext _ HE _ (fun o => et * K + (svr_K temp * (1 - et) * (dr_1 (d o) ^ 2)
     + (svr_K temp * (1 - et) * svr_rg ndof (d o) + 2 * (K * sqrt (svr_K temp / K * et * (1 - et))) * dr_1 (d o))))).
  2:{ intros o. rewrite svr_kin by auto. fold K et. ring. }
  rewrite (E_plus _ HE (fun _ => et * K)), (E_const _ HE).
  rewrite (E_plus _ HE (fun o => svr_K temp * (1 - et) * (dr_1 (d o) ^ 2))), (E_scal _ HE _ (fun o => dr_1 (d o) ^ 2)), H11.
  rewrite (E_plus _ HE (fun o => svr_K temp * (1 - et) * svr_rg ndof (d o))), (E_scal _ HE _ (fun o => svr_rg ndof (d o))).
  rewrite (E_scal _ HE _ (fun o => dr_1 (d o))), H1, (svr_rg_mean E HE) by auto.
  change (exp (- dt / tau)) with et. unfold svr_K. field.
Qed.

(** Each normal mode of the local PILE gets exactly its own Langevin step... *)
Theorem pile_l_modes nb n dt tau temp pilescale pilect om dynm3 xi es pnm k : (k < nb)%nat -> length es = nb ->
  snd (subs_step (combine (pile_l nb n dt tau temp pilescale pilect om dynm3 xi) es) pnm) k
  = fst (lang_step n dt (match k with O => tau | _ => 1 / (2 * pilescale * om k) end)
          (match k with O => if Rlt_dec 0 pilect then INR nb * pilect else temp | _ => temp end)
          (dynm3 k) (xi k) (pnm k) (nth k es 0)).
Proof.
  intros Hk Hl.
  set (mk := fun k => {| mode := k; act := lang_step n dt (pile_tau tau pilescale om k) (pile_temp nb temp pilect k) (dynm3 k) (xi k) |}).
  assert (C : combine (pile_l nb n dt tau temp pilescale pilect om dynm3 xi) es
              = map (fun j => (mk j, nth j es 0)) (seq 0 k) ++ (mk k, nth k es 0) :: map (fun j => (mk j, nth j es 0)) (seq (S k) (nb - S k))).
  { assert (E : es = map (fun j => nth j es 0) (seq 0 nb)).
    { apply (nth_ext _ _ 0 0). - now rewrite map_length, seq_length.
      - intros j Hj. rewrite (nth_indep (map (fun j0 => nth j0 es 0) (seq 0 nb)) 0 (nth 0 es 0)) by (rewrite map_length, seq_length; lia).
        rewrite (map_nth (fun j => nth j es 0)), seq_nth by lia. reflexivity. }
    unfold pile_l. rewrite E at 1.
    assert (CM : forall l, combine (map (fun k0 => mk k0) l) (map (fun j => nth j es 0) l) = map (fun j => (mk j, nth j es 0)) l).
    { induction l as [|x l IH]; cbn; [easy|]. now rewrite IH. }
    change (fun k0 : nat => {| mode := k0; act := _ |}) with (fun k0 => mk k0).
    rewrite CM. replace nb with (k + S (nb - S k))%nat at 1 by lia. rewrite seq_app, map_app. cbn [seq map]. reflexivity. }
  rewrite C. rewrite (subs_single _ (mk k)).
  - destruct k; reflexivity.
  - intros t' e' Hin. apply in_app_iff in Hin as [Hin|Hin]; apply in_map_iff in Hin as (j & Q & Hj); injection Q as <- _;
      apply in_seq in Hj; cbn [mode mk]; lia.
Qed.
(** ...with the friction 2 pilescale omega_k, which for pilescale = 1 is the
    optimal damping of a free ring polymer. *)
Theorem pile_friction dt pilescale om k : 0 < pilescale -> 0 < om k ->
  lang_T dt (tauk pilescale om k) = exp (- (2 * pilescale * om k) * dt).
Proof. intros Hp Ho. unfold lang_T, tauk. f_equal. field. lra. Qed.

(** A probability space with two independent fair signs meets the hypotheses of
    the theorems above, with a momentum that really is random. *)
Definition coins (f : bool * bool -> R) : R := (f (true, true) + f (true, false) + f (false, true) + f (false, false)) / 4.
Definition sign (b : bool) : R := if b then 1 else -1.
Example coins_expectation : expectation coins.
Proof.
  split; intros; unfold coins; [now rewrite !H| | |]; field.
Qed.
Example langevin_stationary_case :
  let p (o : bool * bool) (_ : nat) := 2 * sign (fst o) in let xi (o : bool * bool) (_ : nat) := sign (snd o) in
  coins (fun o => xi o 0%nat * xi o 0%nat) = delta 0 0 /\ coins (fun o => p o 0%nat * xi o 0%nat) = 0 /\
  coins (fun o => p o 0%nat * p o 0%nat) = 4 * kb * 1 * delta 0 0.
Proof. cbv [coins sign fst snd delta Nat.eqb kb]. repeat split; field. Qed.
Example gle_stationary_case : (* two extended momenta, drift 1/2, coupled through T *)
  let T : mat := fun a b => match a, b with 0%nat, 0%nat => 3/5 | 0%nat, 1%nat => 4/5 | 1%nat, 0%nat => - (4/5) | 1%nat, 1%nat => 3/5 | _, _ => 0 end in
  forall a b, (a < 2)%nat -> (b < 2)%nat -> mmul 2 (fun _ _ => 0) (tr (fun _ _ => 0)) a b = gle_SST 2 T (gle_C 3) a b.
Proof.
  intros T a b Ha Hb. destruct a as [|[|]]; destruct b as [|[|]]; try lia; cbv [mmul gle_SST gle_C tr T Rsum delta Nat.eqb kb]; field.
Qed.
Example gle_stationary_case2 : (* damping T = 1/2 of the physical momentum: the noise is sqrt(3)/2 sqrt(kT) *)
  let T : mat := fun a b => delta a b / 2 in let Sm : mat := fun a b => delta a b * sqrt (3/4 * 5) in
  forall a b, (a < 1)%nat -> (b < 1)%nat -> mmul 1 Sm (tr Sm) a b = gle_SST 1 T (gle_C 5) a b.
Proof.
  intros T Sm [|a] [|b] Ha Hb; try lia. cbv [mmul gle_SST gle_C tr T Sm Rsum delta Nat.eqb kb].
  rewrite !Rmult_1_l, Rplus_0_l, sqrt_sqrt by lra. field.
Qed.
Example root_herm_case : exists V : mat, orthonormal_cols 2 V /\ V 0%nat 1%nat <> 0 /\ V 0%nat 0%nat <> 0.
Proof.
  exists (fun i j => match i, j with 0%nat, 0%nat => 3/5 | 0%nat, 1%nat => 4/5 | 1%nat, 0%nat => - (4/5) | 1%nat, 1%nat => 3/5 | _, _ => 0 end).
  split; [|split; lra]. intros i j Hi Hj. destruct i as [|[|]]; destruct j as [|[|]]; try lia; cbv [Rsum delta Nat.eqb]; field.
Qed.
Example svr_relaxes_case :
  let d (o : bool * bool) := {| dr_1 := sign (fst o); dr_gamma := fun k => Rmax k 0 * (1 + sign (snd o)); dr_2 := sign (snd o) |} in
  (forall o k, 0 <= dr_gamma (d o) k) /\ coins (fun o => dr_1 (d o)) = 0 /\ coins (fun o => dr_1 (d o) ^ 2) = 1 /\
  coins (fun o => dr_2 (d o) ^ 2) = 1 /\ (forall k, 0 <= k -> coins (fun o => dr_gamma (d o) k) = k) /\
  kinetic 3 (fun _ => 2) (fun _ => 1) <> 0.
Proof.
  cbv [coins sign fst snd dr_1 dr_gamma dr_2]. repeat split; try field.
  - intros [a b] k. pose proof (Rmax_r k 0). destruct b; nra.
  - intros k Hk. rewrite Rmax_left by easy. field.
  - unfold kinetic. cbn. lra.
Qed.

(** ** Signs and flips (C80) *)

(** The rescaling comes from projecting the Langevin equation of the kinetic
    energy: the factor belongs to the momentum component
    sqrt(et) + r1 sqrt(Kbar/K (1 - et)), whose square plus the rest is alpha2. *)
Definition projected (et Kbar K r1 : R) : R := sqrt et + r1 * sqrt (Kbar / K * (1 - et)).
Theorem svr_factor_decomposed et Kbar K r1 rg : 0 <= et <= 1 -> 0 <= Kbar -> 0 < K -> 0 <= rg ->
  svr_alpha et Kbar K r1 rg ^ 2 = projected et Kbar K r1 ^ 2 + Kbar / K * (1 - et) * rg.
Proof.
  intros He Hb HK Hr.
  pose proof (svr_nonneg et Kbar K r1 rg He Hb HK Hr) as P.
  replace (svr_alpha et Kbar K r1 rg ^ 2) with (svr_alpha et Kbar K r1 rg * svr_alpha et Kbar K r1 rg) by ring.
  rewrite svr_alpha_sq by easy. now apply svr_split.
Qed.

Lemma projected_sign et Kbar K r1 : 0 < et < 1 -> 0 < Kbar -> 0 < K ->
  projected et Kbar K r1 < 0 <-> r1 + sqrt (K / Kbar * et / (1 - et)) < 0.
Proof.
  intros He Hb HK. unfold projected.
  assert (A : 0 < Kbar / K * (1 - et)) by (apply Rmult_lt_0_compat; [now apply Rdiv_lt_0_compat|lra]).
  pose proof (sqrt_lt_R0 _ A) as B.
  assert (Q : sqrt et = sqrt (K / Kbar * et / (1 - et)) * sqrt (Kbar / K * (1 - et))).
  { rewrite <- sqrt_mult; [f_equal; field; lra| |lra].
    apply Rmult_le_pos; [|left; apply Rinv_0_lt_compat; lra]. apply Rmult_le_pos; [|lra].
    left. now apply Rdiv_lt_0_compat. }
  rewrite Q. set (w := sqrt (K / Kbar * et / (1 - et))) in *. set (v := sqrt (Kbar / K * (1 - et))) in *.
  replace (w * v + r1 * v) with (v * (r1 + w)) by ring. split; intros H; nra.
Qed.

(** The sign test of the code has twice the kinetic energy under the root, so
    there are draws for which the momenta should be reversed and are not. *)
Theorem svr_sign_refuted : exists et Kbar K r1 rg, 0 < et < 1 /\ 0 < Kbar /\ 0 < K /\ 0 <= rg /\
  projected et Kbar K r1 < 0 /\ 0 < svr_alpha et Kbar K r1 rg.
Proof.
  exists (1/2), 1, 1, (-6/5), 1. split; [lra|]. split; [lra|]. split; [lra|]. split; [lra|]. split.
  - apply projected_sign; try lra. replace (1 / 1 * (1 / 2) / (1 - 1 / 2)) with 1 by field. rewrite sqrt_1. lra.
  - unfold svr_alpha. destruct Rlt_dec as [l|_].
    + exfalso. replace (2 * 1 / 1 * (1 / 2) / (1 - 1 / 2)) with 2 in l by field.
      pose proof (sqrt_pos 2). pose proof (sqrt_sqrt 2 ltac:(lra)). nra.
    + apply sqrt_lt_R0. unfold svr_alpha2.
      replace (1 / 1 * (1 / 2) * (1 - 1 / 2)) with ((1/2)*(1/2)) by field. rewrite sqrt_square by lra. lra.
Qed.
(** It is right for all draws outside that window. *)
Theorem svr_sign_partial et Kbar K r1 rg : 0 < et < 1 -> 0 < Kbar -> 0 < K -> 0 <= rg ->
  let w := sqrt (K / Kbar * et / (1 - et)) in (- w <= r1 -> 0 <= svr_alpha et Kbar K r1 rg /\ 0 <= projected et Kbar K r1) /\
  (r1 < - sqrt 2 * w -> svr_alpha et Kbar K r1 rg <= 0 /\ projected et Kbar K r1 < 0).
Proof.
  intros He Hb HK Hr w.
  assert (G : 0 <= K / Kbar * et / (1 - et)).
  { apply Rmult_le_pos; [|left; apply Rinv_0_lt_compat; lra]. apply Rmult_le_pos; [|lra]. left. now apply Rdiv_lt_0_compat. }
  assert (W : sqrt (2 * K / Kbar * et / (1 - et)) = sqrt 2 * w).
  { unfold w. rewrite <- sqrt_mult by lra. f_equal. field. lra. }
  assert (P : 0 <= w) by apply sqrt_pos.
  assert (T : 1 <= sqrt 2). { rewrite <- sqrt_1 at 1. apply sqrt_le_1_alt. lra. }
  pose proof (projected_sign et Kbar K r1 He Hb HK) as S. fold w in S.
  unfold svr_alpha. rewrite W. pose proof (sqrt_pos (svr_alpha2 et Kbar K r1 rg)) as A. split; intros H; (split; [|]).
  - destruct Rlt_dec; [nra|easy].
  - destruct (Rlt_le_dec (projected et Kbar K r1) 0) as [l|]; [|easy]. apply S in l. lra.
  - destruct Rlt_dec; [lra|nra].
  - apply S. nra.
Qed.
Example svr_sign_case : exists et Kbar K r1, 0 < et < 1 /\ 0 < Kbar /\ 0 < K /\ r1 < - sqrt 2 * sqrt (K / Kbar * et / (1 - et)).
Proof.
  exists (1/2), 1, 1, (-2). repeat split; try lra. replace (1 / 1 * (1 / 2) / (1 - 1 / 2)) with 1 by field. rewrite sqrt_1.
  assert (sqrt 2 < 2); [|lra]. pose proof (sqrt_sqrt 2 ltac:(lra)). pose proof (sqrt_pos 2). nra.
Qed.

(** The fast-forward flips keep the length of every atom's momentum that the
    Langevin step gave it, and never let it turn back. *)
Theorem ffl_flips_forward f n old new p2 i : (i < n)%nat -> ffl_flip f n old new = Some p2 -> f = Soft \/ f = Rescale ->
  adot p2 p2 i = adot new new i /\ 0 <= adot old p2 i.
Proof.
  intros Hi H Hf.
  assert (R : adot old old i <> 0 \/ ffl_flip f n old new = None).
  { destruct (Req_dec (adot old old i) 0) as [Z|]; [|now left]. right.
    assert (X : existsb (fun j => if Req_EM_T (adot old old j) 0 then true else false) (seq 0 n) = true).
    { apply existsb_exists. exists i. split; [apply in_seq; lia|]. now destruct Req_EM_T. }
    unfold ffl_flip. rewrite X. now destruct Hf as [-> | ->]. }
  destruct R as [N|R]; [|rewrite R in H; discriminate].
  pose proof (adot_pos old i) as P. assert (P' : 0 < adot old old i) by lra.
  destruct Hf as [-> | ->]; unfold ffl_flip in H; destruct existsb; try discriminate; injection H as <-.
  - set (h := fun j => hfunc (adot old new j / adot old old j)).
    assert (B : forall j, (j / 3 = i / 3)%nat -> 1 = 1 /\ h j = h i).
    { intros j Hj. split; [easy|]. unfold h. now rewrite (adot_block old new j i Hj), (adot_block old old j i Hj). }
    assert (F : forall w, adot (fun j => new j + h j * old j) w i = adot new w i + h i * adot old w i).
    { intros w. rewrite <- (Rmult_1_l (adot new w i)). rewrite <- (adot_lin (fun _ => 1) h new old w i B).
      unfold adot. ring. }
    change (fun i0 : nat => new i0 + hfunc (adot old new i0 / adot old old i0) * old i0) with (fun j => new j + h j * old j).
    rewrite F, (adot_sym new), (adot_sym old (fun j => _) i), !F.
    rewrite (adot_sym new old i). unfold h. rewrite hfunc_cases.
    set (x := adot old new i) in *. set (y := adot old old i) in *. destruct Rlt_dec as [l|l].
    + split; [field; lra|]. assert (x < 0); [|]. { apply (Rmult_lt_reg_r (/ y)); [now apply Rinv_0_lt_compat|]. rewrite Rmult_0_l. exact l. }
      replace (x + -2 * (x / y) * y) with (- x) by (field; lra). lra.
    + split; [ring|]. assert (0 <= x); [|lra]. destruct (Rle_dec 0 x); [easy|]. exfalso. apply l.
      apply (Rmult_lt_reg_r y); [easy|]. unfold Rdiv. rewrite Rmult_assoc, Rinv_l; lra.
  - set (h := fun j => sqrt (adot new new j) / sqrt (adot old old j)).
    assert (B : forall j, (j / 3 = i / 3)%nat -> h j = h i /\ 0 = 0).
    { intros j Hj. split; [|easy]. unfold h. now rewrite (adot_block new new j i Hj), (adot_block old old j i Hj). }
    assert (F : forall w, adot (fun j => h j * old j) w i = h i * adot old w i).
    { intros w. transitivity (h i * adot old w i + 0 * adot old w i); [|ring].
      rewrite <- (adot_lin h (fun _ => 0) old old w i B). unfold adot. ring. }
    change (fun i0 : nat => sqrt (adot new new i0) / sqrt (adot old old i0) * old i0) with (fun j => h j * old j).
    rewrite F, (adot_sym old (fun j => _) i), !F.
    pose proof (sqrt_lt_R0 _ P') as Q. pose proof (sqrt_sqrt _ P) as Q1. pose proof (sqrt_sqrt _ (adot_pos new i)) as Q2.
    unfold h. set (a := sqrt (adot new new i)) in *. set (b := sqrt (adot old old i)) in *. rewrite <- Q1, <- Q2. split.
    + field. lra.
    + replace (a / b * (b * b)) with (a * b) by (field; lra). apply Rmult_le_pos; [apply sqrt_pos|lra].
Qed.
Theorem ffl_hard_forward n old new p2 i : ffl_flip Hard n old new = Some p2 ->
  0 <= old i * p2 i /\ (old i <> 0 -> p2 i * p2 i = new i * new i).
Proof.
  intros H. injection H as <-. split.
  - replace (old i * (new i * sgn (new i * old i))) with (sgn (new i * old i) * (new i * old i)) by ring.
    rewrite sgn_abs. apply Rabs_pos.
  - intros N. destruct (Req_dec (new i) 0) as [-> |M]; [ring|].
    replace (new i * sgn (new i * old i) * (new i * sgn (new i * old i)))
      with (new i * new i * (sgn (new i * old i) * sgn (new i * old i))) by ring.
    rewrite sgn_sq; [ring|]. now apply Rmult_integral_contrapositive.
Qed.
(** without a flip the step is the Langevin step *)
Theorem ffl_none_is_langevin n dt tau temp m xi p eth : masses_positive n m ->
  exists p' e', ffl_step NoFlip n dt tau temp m xi p eth = Some (p', e') /\
    (forall i, (i < n)%nat -> p' i = fst (lang_step n dt tau temp m xi p eth) i) /\
    e' = snd (lang_step n dt tau temp m xi p eth).
Proof.
  intros Hm. unfold ffl_step. cbn [ffl_flip]. do 2 eexists. split; [reflexivity|].
  assert (G : forall i, (i < n)%nat -> (p i / sqrt (m i) * lang_T dt tau + lang_S temp (lang_T dt tau) * xi i) * sqrt (m i)
     = fst (lang_step n dt tau temp m xi p eth) i).
  { intros i Hi. rewrite lang_p by auto. destruct (sqrt_pos2 _ (Hm i Hi)) as [N _]. field. easy. }
  split; [exact G|].
  assert (A := langevin_energy_accounted n dt tau temp m xi p eth Hm).
  assert (B := ffl_energy_accounted NoFlip n dt tau temp m xi p eth _ Hm eq_refl).
  unfold accounted in A, B. cbn [fst snd] in B. cbn [fst snd] in A.
  match type of B with kinetic n m ?q + _ = _ => rewrite (kin_ext n m q _ G) in B end.
  lra.
Qed.
(** but an atom at rest makes the soft and the default rescaling flip divide zero
    by zero, whatever the noise *)
Theorem ffl_defined_refuted f : f = Soft \/ f = Rescale -> forall n dt tau temp m xi eth i, (i < n)%nat ->
  exists p, ffl_step f n dt tau temp m xi p eth = None.
Proof.
  intros Hf n dt tau temp m xi eth i Hi. exists (fun _ => 0). unfold ffl_step.
  assert (X : existsb (fun j => if Req_EM_T (adot (fun i0 => 0 / sqrt (m i0)) (fun i0 => 0 / sqrt (m i0)) j) 0 then true else false) (seq 0 n) = true).
  { apply existsb_exists. exists i. split; [apply in_seq; lia|]. destruct Req_EM_T as [|N]; [easy|].
    exfalso. apply N. unfold adot, Rdiv. ring. }
  destruct Hf as [-> | ->]; cbn [ffl_flip]; now rewrite X.
Qed.
(** and the hard flip never lets a momentum component leave zero *)
Theorem ffl_hard_stuck n dt tau temp m xi p eth i p' e' : p i = 0 ->
  ffl_step Hard n dt tau temp m xi p eth = Some (p', e') -> p' i = 0.
Proof.
  intros Hp H. unfold ffl_step in H. cbn [ffl_flip] in H. injection H as <- _. rewrite Hp.
  match goal with |- ?x * sgn (?x * (0 / ?s)) * _ = 0 => replace (x * (0 / s)) with 0 by (unfold Rdiv; ring) end.
  unfold sgn. destruct Rlt_dec; [lra|]. ring.
Qed.
(** nor does velocity rescaling move a system at rest *)
Theorem svr_at_rest n ndof dt tau temp m d p eth : masses_positive n m -> (forall i, (i < n)%nat -> p i = 0) ->
  svr_step n ndof dt tau temp m d p eth = (p, eth).
Proof.
  intros Hm Hp. unfold svr_step. rewrite Rsum_0; [|intros i Hi; rewrite Hp by easy; ring].
  rewrite Rmult_0_l. now destruct Req_EM_T.
Qed.
Example ffl_case : exists old new p2, ffl_flip Soft 3 old new = Some p2 /\ adot old new 0 < 0.
Proof.
  exists (fun _ => 1), (fun _ => -1). unfold ffl_flip.
  assert (X : existsb (fun j => if Req_EM_T (adot (fun _ => 1) (fun _ => 1) j) 0 then true else false) (seq 0 3) = false).
  { cbn [seq existsb]. unfold adot. repeat (destruct Req_EM_T; [lra|]). reflexivity. }
  rewrite X. eexists. split; [reflexivity|]. unfold adot. lra.
Qed.

(** ** Degrees of freedom (C81) *)

(** The degrees of freedom of the centroid: three per atom, minus the frozen
    ones, minus three if the centre of mass is fixed. *)
Definition centroid_dof (natoms nfix : Z) (fixcom : bool) : Z := 3 * natoms - nfix - (if fixcom then 3 else 0).

Theorem pile_g_counts_dof natoms nfix nb fixcom : (0 < nb)%Z ->
  bind_ndof (3 * natoms) (Some (pile_g_fixdof0 (get_fixdof nfix nb fixcom) nb fixcom))
  = centroid_dof (Z.of_nat natoms) nfix fixcom.
Proof.
  intros Hb. unfold bind_ndof, pile_g_fixdof0, get_fixdof, centroid_dof. destruct fixcom.
  - replace (nfix * nb + 3 - 3)%Z with (nfix * nb)%Z by lia. rewrite Z.div_mul by lia. lia.
  - rewrite Z.sub_0_r, Z.div_mul by lia. lia.
Qed.
(** The rescaling thermostat of nm_gle_g does not know about the constraints... *)
Theorem nmgleg_counts_dof_refuted : exists natoms nfix nb fixcom, (0 < nb)%Z /\
  nmgleg_svr_ndof (3 * natoms) (get_fixdof nfix nb fixcom) <> centroid_dof (Z.of_nat natoms) nfix fixcom.
Proof. exists 2%nat, 0%Z, 4%Z, true. vm_compute. split; [reflexivity|discriminate]. Qed.
Theorem nmgleg_counts_dof_partial natoms nb :
  nmgleg_svr_ndof (3 * natoms) (get_fixdof 0 nb false) = centroid_dof (Z.of_nat natoms) 0 false.
Proof. unfold nmgleg_svr_ndof, bind_ndof, centroid_dof. lia. Qed.
(** ...and a PILE_G inside a multiple thermostat is not told that the centre of mass is fixed. *)
Theorem multi_pile_g_counts_dof_refuted : exists natoms nfix nb fixcom, (0 < nb)%Z /\
  bind_ndof (3 * natoms) (Some (multi_pile_g_fixdof0 (get_fixdof nfix nb fixcom) nb fixcom))
  <> centroid_dof (Z.of_nat natoms) nfix fixcom.
Proof. exists 2%nat, 0%Z, 4%Z, true. vm_compute. split; [reflexivity|discriminate]. Qed.
Theorem multi_pile_g_counts_dof_partial natoms nfix nb fixcom : (0 < nb)%Z -> fixcom = false \/ nb = 1%Z ->
  bind_ndof (3 * natoms) (Some (multi_pile_g_fixdof0 (get_fixdof nfix nb fixcom) nb fixcom))
  = centroid_dof (Z.of_nat natoms) nfix fixcom.
Proof.
  intros Hb [-> | ->].
  - apply (pile_g_counts_dof natoms nfix nb false Hb).
  - unfold bind_ndof, multi_pile_g_fixdof0, pile_g_fixdof0, get_fixdof, centroid_dof. destruct fixcom; rewrite ?Z.div_1_r; lia.
Qed.
Example counts_dof_case : bind_ndof 9 (Some (pile_g_fixdof0 (get_fixdof 3 4 true) 4 true)) = 3%Z.
Proof. reflexivity. Qed.
(** The kinetic energy that the wrong count aims at: with N atoms and a fixed
    centre of mass the target is too high by a factor N/(N-1). *)
Theorem nmgleg_target natoms nb temp :
  IZR (nmgleg_svr_ndof (3 * natoms) (get_fixdof 0 nb true)) * (kb * temp / 2) * (INR natoms - 1)
  = IZR (centroid_dof (Z.of_nat natoms) 0 true) * (kb * temp / 2) * INR natoms.
Proof.
  unfold nmgleg_svr_ndof, bind_ndof, centroid_dof. rewrite !minus_IZR, mult_IZR, <- !INR_IZR_INZ, mult_INR.
  cbn [INR]. ring.
Qed.

(** ** Correlated-noise thermostat (C82) *)

(** With both compensations off it is a Langevin thermostat, but with twice the
    time constant it was given. *)
Theorem cl_is_langevin n dt tau temp m xi p eth : 0 < tau -> masses_positive n m ->
  (forall i, (i < n)%nat -> fst (cl_step n dt tau 0 0 temp m xi p eth) i = fst (lang_step n dt (2 * tau) temp m xi p eth) i) /\
  snd (cl_step n dt tau 0 0 temp m xi p eth) = snd (lang_step n dt (2 * tau) temp m xi p eth).
Proof.
  intros Ht Hm.
  assert (A : cl_damp dt tau = lang_T dt (2 * tau)).
  { unfold cl_damp, lang_T. destruct Rlt_dec; [|lra]. f_equal. field. lra. }
  assert (B : cl_damp dt 0 = 1) by (unfold cl_damp; destruct Rlt_dec; lra).
  assert (G : forall i, (i < n)%nat -> fst (cl_step n dt tau 0 0 temp m xi p eth) i = fst (lang_step n dt (2 * tau) temp m xi p eth) i).
  { intros i Hi. rewrite lang_p by auto. cbn [cl_step fst]. unfold cl_T, cl_S, lang_S. rewrite A, B, !Rmult_1_r.
    destruct (sqrt_pos2 _ (Hm i Hi)) as [N _]. field. easy. }
  split; [exact G|].
  assert (H1 := langevin_energy_accounted n dt (2 * tau) temp m xi p eth Hm).
  assert (H2 := cl_energy_accounted n dt tau 0 0 temp m xi p eth Hm).
  unfold accounted in H1, H2. cbn [fst snd] in H1, H2. fold (snd (cl_step n dt tau 0 0 temp m xi p eth)) in H2.
  rewrite (kin_ext n m _ _ G) in H2. lra.
Qed.
Theorem cl_time_constant_refuted : exists dt tau, 0 < dt /\ 0 < tau /\ cl_T dt tau 0 <> lang_T dt tau.
Proof.
  exists 1, 1. split; [lra|]. split; [lra|]. unfold cl_T, cl_damp, lang_T.
  destruct Rlt_dec; [|lra]. destruct Rlt_dec; [lra|]. intros Q. rewrite Rmult_1_r in Q. apply exp_inv in Q. lra.
Qed.
(** The automatic adjustment acts in the right direction: too hot a system gets
    a shorter noise time scale or a longer dissipation time scale. *)
Theorem cl_adjust_direction n ndof dt apat temp m p intau idtau :
  masses_positive n m -> 0 < dt -> 0 < apat -> 0 < temp -> 0 < ndof ->
  let mytemp := 2 * kinetic n m p / (kb * ndof) in
  (0 < intau -> idtau = 0 -> temp < mytemp ->
     let '(i', d') := cl_adjust n ndof dt apat temp true m p intau idtau in 0 < i' < intau /\ d' = 0) /\
  (0 < intau -> idtau = 0 -> 0 < mytemp < temp ->
     let '(i', d') := cl_adjust n ndof dt apat temp true m p intau idtau in intau < i' /\ d' = 0) /\
  (0 < idtau -> intau = 0 -> temp < mytemp ->
     let '(i', d') := cl_adjust n ndof dt apat temp true m p intau idtau in idtau < d' /\ i' = 0) /\
  (0 < idtau -> intau = 0 -> 0 < mytemp < temp ->
     let '(i', d') := cl_adjust n ndof dt apat temp true m p intau idtau in 0 < d' < idtau /\ i' = 0).
Proof.
  intros Hm Hd Ha Ht Hn mytemp.
  assert (MT : Rsum n (fun i => p i * (p i / m i)) * (1 / 2) / kb / ndof * 2 = mytemp).
  { rewrite (kin_alt n m p Hm). unfold mytemp, kb. field. lra. }
  assert (X : 0 < dt / apat) by now apply Rdiv_lt_0_compat.
  assert (UP : temp < mytemp -> 1 < Rpower (mytemp / temp) (dt / apat)).
  { intros H. rewrite <- (Rpower_O (mytemp / temp)).
    - apply Rpower_lt; [|easy]. apply (Rmult_lt_reg_r temp); [easy|]. unfold Rdiv. rewrite Rmult_assoc, Rinv_l; lra.
    - apply Rdiv_lt_0_compat; lra. }
  assert (DN : 0 < mytemp < temp -> 0 < Rpower (mytemp / temp) (dt / apat) < 1).
  { intros H. split; [apply exp_pos|]. unfold Rpower. rewrite <- exp_0. apply exp_increasing.
    assert (L : ln (mytemp / temp) < 0).
    { rewrite <- ln_1. apply ln_increasing; [apply Rdiv_lt_0_compat; lra|].
      apply (Rmult_lt_reg_r temp); [easy|]. unfold Rdiv. rewrite Rmult_assoc, Rinv_l; lra. }
    nra. }
  unfold cl_adjust. rewrite MT. destruct (Rlt_dec 0 apat) as [_|]; [|lra].
  repeat split; intros Hi H0 H; subst; cbn [andb].
  all: repeat (destruct Req_EM_T; try lra); cbn [xorb]; try lra.
  all: try (specialize (UP H)); try (specialize (DN H)).
  all: repeat split; try lra; try nra.
  all: set (r := Rpower (mytemp / temp) (dt / apat)) in *.
  - apply Rdiv_lt_0_compat; lra.
  - apply (Rmult_lt_reg_r r); [lra|]. unfold Rdiv. rewrite Rmult_assoc, Rinv_l by lra. nra.
  - apply (Rmult_lt_reg_r r); [lra|]. unfold Rdiv. rewrite Rmult_assoc, Rinv_l by lra. nra.
Qed.
Example cl_adjust_case : let m (_ : nat) := 1 in let p (_ : nat) := 2 in
  masses_positive 3 m /\ 1 < 2 * kinetic 3 m p / (kb * 3).
Proof. split; [intros i _; lra|]. unfold kinetic, kb. cbn. lra. Qed.

Print Assumptions langevin_energy_accounted.
Print Assumptions svr_energy_accounted.
Print Assumptions svr_factor_real.
Print Assumptions gle_energy_accounted.
Print Assumptions composite_energy_accounted.
Print Assumptions pile_g_energy_accounted.
Print Assumptions langevin_stationary.
Print Assumptions gle_stationary.
Print Assumptions svr_relaxes.
Print Assumptions pile_l_modes.
Print Assumptions svr_sign_refuted.
Print Assumptions ffl_flips_forward.
Print Assumptions pile_g_counts_dof.
Print Assumptions cl_is_langevin.
Print Assumptions cl_adjust_direction.
