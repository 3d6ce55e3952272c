(** * Theorems of record: free ring-polymer propagation and springs *)
From Coq Require Import List Reals ZArith Lra Lia Arith Bool.
From Verif Require Import RSum TrigSum Ortho NMModel NMProofs NMProps SpringModel SpringProofs.
Import ListNotations.
Open Scope R_scope.

(** What the code assumes of its parameters: positive masses and factors, a positive
    temperature, open_paths lists distinct existing atoms. *)
Record sound (r : ring) : Prop := {
  s_n : (0 < nbeads r)%nat; s_m : forall j, 0 < mass r j; s_w : 0 < wn r;
  s_f : forall k, 0 < nmf r k; s_of : forall k, 0 < o_nmf r k;
  s_nodup : NoDup (openp r); s_in : forall j, In j (openp r) -> (j < natoms r)%nat }.

Lemma nm_eva_pos n k : (0 < k < n)%nat -> 0 < nm_eva n k.
Proof.
  intros H. assert (0 < INR k) by (apply lt_0_INR; lia). assert (INR k < INR n) by (apply lt_INR; lia). pose proof PI_RGT_0.
  unfold nm_eva. apply Rmult_lt_0_compat; [lra|]. apply sin_gt_0.
  - apply Rdiv_lt_0_compat; [nra|lra].
  - apply Rmult_lt_reg_r with (INR n); [lra|]. unfold Rdiv. rewrite Rmult_assoc, Rinv_l by lra. nra.
Qed.
Lemma o_nm_eva_pos n k : (0 < k < n)%nat -> 0 < o_nm_eva n k.
Proof.
  intros H. assert (0 < INR k) by (apply lt_0_INR; lia). assert (INR k < INR n) by (apply lt_INR; lia). pose proof PI_RGT_0.
  unfold o_nm_eva. apply Rmult_lt_0_compat; [lra|]. apply sin_gt_0.
  - apply Rdiv_lt_0_compat; [nra|lra].
  - apply Rmult_lt_reg_r with (2 * INR n); [lra|]. unfold Rdiv. rewrite Rmult_assoc, Rinv_l by lra. nra.
Qed.
(** Frequency and factor that the step uses for coordinate [c] of mode [k]. *)
Definition om_of (r : ring) (k c : nat) : R :=
  if is_open (openp r) c then o_omegak (wn r) (nbeads r) k else omegak (wn r) (nbeads r) k.
Definition f_of (r : ring) (k c : nat) : R := if is_open (openp r) c then o_nmf r k else nmf r k.
Lemma om_pos r k c : sound r -> (0 < k < nbeads r)%nat -> 0 < om_of r k c.
Proof.
  intros S H. unfold om_of, omegak, o_omegak. pose proof (s_w r S).
  destruct (is_open _ _); apply Rmult_lt_0_compat; try easy; [now apply o_nm_eva_pos | now apply nm_eva_pos].
Qed.
Lemma f_pos r k c : sound r -> 0 < f_of r k c.
Proof. intros S. unfold f_of. destruct (is_open _ _); apply S. Qed.
Lemma free_step_mode r cayley dt s k c : (0 < k < nbeads r)%nat ->
  (fst (free_qstep r cayley dt s) k c, snd (free_qstep r cayley dt s) k c)
  = mode_step (if cayley then prop_cayley (om_of r k c) (f_of r k c) dt else prop_exact (om_of r k c) (f_of r k c) dt) (m3 r c) (fst s k c, snd s k c).
Proof.
  intros H. unfold free_qstep. replace (nbeads r =? 1)%nat with false by (symmetry; apply Nat.eqb_neq; lia).
  cbn [fst snd]. replace (k =? 0)%nat with false by (symmetry; apply Nat.eqb_neq; lia). unfold get_prop_pq, om_of, f_of.
  replace (k =? 0)%nat with false by (symmetry; apply Nat.eqb_neq; lia). unfold mode_step. cbn [fst snd].
  destruct (is_open (openp r) c), cayley; now rewrite <- surjective_pairing.
Qed.
Lemma free_step_centroid r cayley dt s c : fst (free_qstep r cayley dt s) 0%nat c = fst s 0%nat c /\ snd (free_qstep r cayley dt s) 0%nat c = snd s 0%nat c.
Proof. unfold free_qstep. destruct (nbeads r =? 1)%nat; easy. Qed.
Lemma pair_comp (a b c d : R) : (a, b) = (c, d) -> a = c /\ b = d.
Proof. now intros [= -> ->]. Qed.

(** ** C29 *)
(** Agreement of two states on the modes of the ring. *)
Definition same (n : nat) (s s' : mat * mat) : Prop := forall k c, (k < n)%nat -> fst s k c = fst s' k c /\ snd s k c = snd s' k c.


(** The determinant of every two-by-two block is one. *)
Theorem propagator_symplectic r cayley dt k c : sound r -> (k < nbeads r)%nat -> dt <> 0 ->
  det (mass_scale (m3 r c) (get_prop_pq cayley (fun k => om_of r k c) (fun k => f_of r k c) dt k)) = 1.
Proof.
  intros S Hk Hd. pose proof (s_m r S (c / 3)%nat) as Hm. unfold get_prop_pq. destruct (Nat.eqb_spec k 0) as [->|Hk0].
  - unfold det, mass_scale. cbn [p00 p01 p10 p11]. unfold m3. field. lra.
  - destruct cayley.
    + apply cayley_det; [now apply f_pos | easy | unfold m3; lra].
    + apply exact_det; [now apply f_pos | | unfold m3; lra]. pose proof (om_pos r k c S ltac:(lia)). lra.
Qed.

(** Two steps of the exact propagator are one longer step; a step back undoes a step; reversing the
    momenta, stepping and reversing again too. *)
Theorem exact_steps_compose r dt dt' s : sound r ->
  same (nbeads r) (free_qstep r false dt (free_qstep r false dt' s)) (free_qstep r false (dt + dt') s).
Proof.
  intros S k c Hk. destruct k as [|k].
  - rewrite !(proj1 (free_step_centroid _ _ _ _ _)), !(proj2 (free_step_centroid _ _ _ _ _)). easy.
  - apply pair_comp. rewrite !free_step_mode by lia. rewrite <- exact_compose.
    + now rewrite <- (free_step_mode r false dt' s (Datatypes.S k) c) by lia.
    + now apply f_pos.
    + pose proof (om_pos r (Datatypes.S k) c S ltac:(lia)). lra.
    + apply S.
Qed.
Theorem exact_step_zero r s : sound r -> same (nbeads r) (free_qstep r false 0 s) s.
Proof.
  intros S k c Hk. destruct k as [|k]; [apply free_step_centroid|]. apply pair_comp.
  rewrite free_step_mode by lia. apply exact_zero. now apply f_pos.
Qed.
Theorem free_step_back r cayley dt s : sound r -> dt <> 0 ->
  same (nbeads r) (free_qstep r cayley (- dt) (free_qstep r cayley dt s)) s.
Proof.
  intros S Hd k c Hk. destruct k as [|k].
  - rewrite !(proj1 (free_step_centroid _ _ _ _ _)), !(proj2 (free_step_centroid _ _ _ _ _)). easy.
  - apply pair_comp. rewrite !free_step_mode by lia.
    pose proof (om_pos r (Datatypes.S k) c S ltac:(lia)). pose proof (f_pos r (Datatypes.S k) c S). pose proof (s_m r S (c / 3)%nat).
    destruct cayley.
    + now apply cayley_back.
    + rewrite exact_compose by (try easy; lra). replace (- dt + dt) with 0 by ring. now apply exact_zero.
Qed.

(** The exact propagator solves Hamilton's equations: the velocity of each mode is its
    momentum over the declared dynamical mass (get_dynm3), and the force is the spring force. *)
Theorem exact_step_solves_hamilton r s k c t : sound r -> (0 < k < nbeads r)%nat ->
  let x t := free_qstep r false t s in
  derivable_pt_lim (fun t => snd (x t) k c) t (fst (x t) k c / get_dynm3 r k c) /\
  derivable_pt_lim (fun t => fst (x t) k c) t (fspring_nm r (snd (x t)) k c).
Proof.
  intros S Hk x.
  assert (E : forall t, (fst (x t) k c, snd (x t) k c) = mode_step (prop_exact (om_of r k c) (f_of r k c) t) (m3 r c) (fst s k c, snd s k c))
    by (intros; now apply (free_step_mode r false)).
  destruct (exact_hamilton (om_of r k c) (f_of r k c) (m3 r c) (fst s k c, snd s k c) t) as [Hq Hp].
  { now apply f_pos. } { pose proof (om_pos r k c S Hk). lra. } { apply S. }
  rewrite <- E in Hq, Hp. cbn [fst snd] in Hq, Hp.
  replace (m3 r c * f_of r k c) with (get_dynm3 r k c) in Hq.
  2:{ unfold get_dynm3, f_of. replace (k =? 0)%nat with false by (symmetry; apply Nat.eqb_neq; lia). now destruct (is_open _ _). }
  replace (- (m3 r c * om_of r k c ^ 2) * snd (x t) k c) with (fspring_nm r (snd (x t)) k c) in Hp by (unfold fspring_nm, om_of; ring).
  split.
  - refine (derivable_ext _ _ _ _ _ Hq). intros u. now rewrite <- E.
  - refine (derivable_ext _ _ _ _ _ Hp). intros u. now rewrite <- E.
Qed.
(** qcstep does the same for the centroid when its factor is one (as get_nmm always sets). *)
Theorem centroid_step_solves_hamilton r s c t : sound r -> nmf r 0%nat = 1 ->
  derivable_pt_lim (fun t => snd (qcstep r t s) 0%nat c) t (fst (qcstep r t s) 0%nat c / get_dynm3 r 0%nat c).
Proof.
  intros S H1. pose proof (s_m r S (c / 3)%nat). unfold qcstep, get_dynm3. cbn [fst snd Nat.eqb negb]. rewrite andb_false_r, H1.
  apply (derivable_ext (fun t => plus_fct (fct_cte (snd s 0%nat c)) (mult_real_fct (fst s 0%nat c / m3 r c) id) t)).
  { intros u. unfold plus_fct, fct_cte, mult_real_fct, id. ring. }
  eapply derivable_eq; [|apply derivable_pt_lim_plus; [apply derivable_pt_lim_const | apply derivable_pt_lim_scal, derivable_pt_lim_id]].
  unfold m3. field. lra.
Qed.

(** The energy reported by the code is conserved by the free propagation, exact or Cayley, when
    open paths have the same dynamical factors as closed ones. *)
Lemma kin_columns r pnm : sound r -> get_kin r pnm = Rsum (3 * natoms r) (fun c => Rsum (nbeads r) (fun k => pnm k c ^ 2 / (2 * m3 r c * nmf r k))).
Proof.
  intros S. unfold get_kin, get_kins. rewrite Rsum_swap. apply Rsum_ext. intros k _.
  unfold Rdiv at 1. rewrite Rmult_assoc, <- Rsum_scal_r, <- Rsum_scal. apply Rsum_ext. intros c _.
  pose proof (s_m r S (c / 3)%nat) as Hm. fold (m3 r c) in Hm. pose proof (s_f r S k). destruct (sqrt_pos' _ Hm) as [Hp Hs].
  rewrite <- Hs at 2. field. lra.
Qed.
Definition energy (r : ring) (s : mat * mat) : R := get_kin r (fst s) + vspring r (snd s).
Lemma energy_columns r s : sound r -> nbeads r <> 1%nat -> (openp r = [] \/ forall k, (0 < k < nbeads r)%nat -> o_nmf r k = nmf r k) ->
  energy r s = Rsum (3 * natoms r) (fun c => Rsum (nbeads r) (fun k =>
    if (k =? 0)%nat then fst s k c ^ 2 / (2 * m3 r c * nmf r k) else mode_energy (m3 r c) (om_of r k c) (f_of r k c) (fst s k c, snd s k c))).
Proof.
  intros S Hn Hf. unfold energy. rewrite kin_columns, vspring_columns by (try easy; apply S). rewrite <- Rsum_plus. apply Rsum_ext. intros c _.
  rewrite <- Rsum_plus. apply Rsum_ext. intros k Hk. unfold mode_energy, om_of. rewrite omega_eva. cbn [fst snd].
  destruct (Nat.eqb_spec k 0) as [->|Hk0].
  - replace (eva (is_open (openp r) c) (nbeads r) 0) with 0; [ring|]. unfold eva, nm_eva, o_nm_eva. cbn [INR].
    unfold Rdiv. rewrite !Rmult_0_l, sin_0, Rmult_0_r. now destruct (is_open _ _).
  - f_equal. unfold f_of. destruct (is_open (openp r) c) eqn:E; [|easy]. destruct Hf as [H|H]; [now rewrite H in E|]. now rewrite H by lia.
Qed.
Theorem free_step_conserves_energy r cayley dt s : sound r -> dt <> 0 ->
  (openp r = [] \/ forall k, (0 < k < nbeads r)%nat -> o_nmf r k = nmf r k) ->
  energy r (free_qstep r cayley dt s) = energy r s.
Proof.
  intros S Hd Hf. destruct (Nat.eq_dec (nbeads r) 1) as [E|Hn].
  { unfold free_qstep. rewrite E. easy. }
  rewrite !energy_columns by easy. apply Rsum_ext. intros c _. apply Rsum_ext. intros k Hk.
  destruct (Nat.eqb_spec k 0) as [->|Hk0]; [now rewrite (proj1 (free_step_centroid _ _ _ _ _))|].
  rewrite free_step_mode by lia. pose proof (om_pos r k c S ltac:(lia)). pose proof (f_pos r k c S). pose proof (s_m r S (c / 3)%nat).
  destruct cayley; [apply cayley_energy | apply exact_energy]; try easy; try (unfold m3; lra); lra.
Qed.

(** The Cayley propagator is the implicit midpoint rule for the declared mass, but with the
    time step multiplied by the square root of the dynamical factor. *)
Theorem cayley_step_is_midpoint r dt s k c : sound r -> (0 < k < nbeads r)%nat -> dt <> 0 ->
  midpoint (m3 r c) (om_of r k c) (f_of r k c) (dt * sqrt (f_of r k c)) (fst s k c, snd s k c)
    (fst (free_qstep r true dt s) k c, snd (free_qstep r true dt s) k c).
Proof.
  intros S Hk Hd. rewrite free_step_mode by lia. apply cayley_midpoint; [now apply f_pos | easy | apply S].
Qed.

(** Two beads, one closed atom of mass one, factor four for the internal mode. *)
Definition r_cayley : ring := mkRing 2 1 [] (fun _ => 1) 1 (fun k => if (k =? 0)%nat then 1 else 4) (fun _ => 1).
Lemma r_cayley_sound : sound r_cayley.
Proof.
  split; cbn; intros; try lia; try lra; try easy; [destruct (k =? 0)%nat; lra | constructor].
Qed.
(** Cayley: the velocity at the start of the step is not momentum over declared mass. *)
Theorem cayley_dynamical_mass_refuted : exists r s k c l, sound r /\ (0 < k < nbeads r)%nat /\
  derivable_pt_lim (fun t => snd (free_qstep r true t s) k c) 0 l /\ l <> fst s k c / get_dynm3 r k c.
Proof.
  exists r_cayley, ((fun _ _ => 1), (fun _ _ => 0)), 1%nat, 0%nat, (/ 2).
  split; [apply r_cayley_sound|]. split; [cbn; lia|].
  assert (S4 : sqrt 4 = 2) by (replace 4 with (2 * 2) by ring; rewrite sqrt_square; lra).
  set (w := omegak 1 2 1). split.
  - apply (derivable_ext (fun t => div_fct id (fun t => 2 * (1 + (w * t / 2) ^ 2)) t)).
    { intros t. unfold free_qstep, get_prop_pq, apply_pq, mass_scale, prop_cayley, m3, r_cayley.
      cbn [nbeads openp is_open existsb Nat.eqb fst snd mass p00 p01 p10 p11 wn SpringModel.nmf]. fold w. rewrite S4. unfold div_fct, id.
      pose proof (cayley_square w t). set (k := (w * t / 2) ^ 2) in *. clearbody k. field. lra. }
    eapply derivable_eq; [|apply (derivable_pt_lim_div id (fun t => 2 * (1 + (w * t / 2) ^ 2)) 0 1 0)].
    + unfold id, Rsqr. field.
    + apply derivable_pt_lim_id.
    + apply (derivable_ext (fun t => plus_fct (fct_cte 2) (mult_real_fct (w * w / 2) (mult_fct id id)) t)).
      { intros t. unfold plus_fct, fct_cte, mult_real_fct, mult_fct, id. field. }
      eapply derivable_eq; [|apply derivable_pt_lim_plus; [apply derivable_pt_lim_const | apply derivable_pt_lim_scal, derivable_pt_lim_mult; apply derivable_pt_lim_id]].
      unfold id. ring.
    + replace (w * 0 / 2) with 0 by field. cbn. lra.
  - unfold get_dynm3, r_cayley, m3. cbn. lra.
Qed.

(** ** C71: requested mode frequencies *)
(** In the modes other than rpmd the dynamical frequencies (get_dynwk) are the ones asked for. *)
Theorem dynamical_frequencies mode freqs n om f : get_nmm mode freqs n om = Some f ->
  (forall k, (0 < k < n)%nat -> 0 < om k) -> (forall w, In w freqs -> 0 < w) ->
  forall k, (0 < k < n)%nat ->
  match mode with
  | Rpmd => dynomegak om f k = om k
  | Manual => dynomegak om f k = nth (k - 1) freqs 0
  | PaCmd => Some (dynomegak om f k) = hd_error freqs
  | WmaxCmd => forall wmax wt, firstn 2 freqs = [wmax; wt] ->
      dynomegak om f k = wt * (om k / om 1%nat) * sqrt ((wmax ^ 2 + om 1%nat ^ 2) / (wmax ^ 2 + om k ^ 2))
  end.
Proof.
  intros Hg Ho Hw k Hk. pose proof (Ho k Hk) as Hok. assert (Ek : (k =? 0)%nat = false) by (apply Nat.eqb_neq; lia).
  assert (Sq : forall x, 0 < x -> sqrt (x ^ 2) = x) by (intros x Hx; apply sqrt_pow2; lra).
  unfold dynomegak. destruct mode; cbn in Hg.
  - injection Hg as <-. rewrite sqrt_1. field.
  - destruct (Nat.eqb_spec (length freqs) (n - 1)) as [E|]; [|easy]. injection Hg as <-. rewrite Ek.
    assert (0 < nth (k - 1) freqs 0) by (apply Hw, nth_In; lia). fold ((om k / nth (k - 1) freqs 0) ^ 2).
    change (om k / nth (k - 1) freqs 0 * (om k / nth (k - 1) freqs 0 * 1)) with ((om k / nth (k - 1) freqs 0) ^ 2).
    rewrite Sq by (now apply Rdiv_lt_0_compat). field. lra.
  - destruct freqs as [|w l]; [easy|]. injection Hg as <-. rewrite Ek. cbn [hd_error]. f_equal.
    assert (0 < w) by (apply Hw; now left).
    change (om k / w * (om k / w * 1)) with ((om k / w) ^ 2). rewrite Sq by (now apply Rdiv_lt_0_compat). field. lra.
  - destruct freqs as [|wmax [|wt l]]; try easy. injection Hg as <-. rewrite Ek. intros wmax' wt' [= <- <-].
    assert (0 < wmax) by (apply Hw; now left). assert (0 < wt) by (apply Hw; right; now left). pose proof (Ho 1%nat ltac:(lia)) as Ho1.
    match goal with |- context [sqrt (1 / sqrt ?y * _)] => set (a := y) end.
    assert (Ha : a = (wt * / om 1%nat) ^ 2 * ((wmax ^ 2 + om 1%nat ^ 2) / (wmax ^ 2 + om k ^ 2))) by (unfold a; field; nra).
    assert (0 < wt * / om 1%nat) by (apply Rmult_lt_0_compat; [easy|now apply Rinv_0_lt_compat]).
    assert (0 < (wmax ^ 2 + om 1%nat ^ 2) / (wmax ^ 2 + om k ^ 2)) by (apply Rdiv_lt_0_compat; nra).
    assert (Sa : sqrt a = wt * / om 1%nat * sqrt ((wmax ^ 2 + om 1%nat ^ 2) / (wmax ^ 2 + om k ^ 2))).
    { rewrite Ha, sqrt_mult_alt by apply pow2_ge_0. now rewrite Sq. }
    assert (0 < sqrt a) by (rewrite Sa; apply Rmult_lt_0_compat; [easy|now apply sqrt_lt_R0]).
    change (1 / sqrt a * (1 / sqrt a * 1)) with ((1 / sqrt a) ^ 2). rewrite Sq by (apply Rdiv_lt_0_compat; lra).
    transitivity (om k * sqrt a); [field; lra|]. rewrite Sa. field. lra.
Qed.
(** In wmax-cmd mode the first internal mode is at the target frequency. *)
Corollary wmax_first_mode wmax wt l n om f : get_nmm WmaxCmd (wmax :: wt :: l) n om = Some f -> (1 < n)%nat ->
  (forall k, (0 < k < n)%nat -> 0 < om k) -> 0 < wmax -> 0 < wt -> (forall w, In w l -> 0 < w) -> dynomegak om f 1 = wt.
Proof.
  intros Hg Hn Ho H1 H2 Hl. pose proof (Ho 1%nat ltac:(lia)).
  rewrite (dynamical_frequencies WmaxCmd _ n om f Hg Ho ltac:(intros w [<-|[<-|Hw]]; auto) 1%nat ltac:(lia) wmax wt eq_refl).
  replace ((wmax ^ 2 + om 1%nat ^ 2) / (wmax ^ 2 + om 1%nat ^ 2)) with 1 by (field; nra). rewrite sqrt_1. field. lra.
Qed.
(** The factor of the centroid is one. *)
Theorem centroid_factor mode freqs n om f : get_nmm mode freqs n om = Some f -> f 0%nat = 1.
Proof. destruct mode; cbn; try (destruct (length freqs =? n - 1)%nat); try destruct freqs as [|? [|]]; intros [= <-]; easy. Qed.

(** ** Energy with open paths *)
Lemma sq2 : sqrt 2 * sqrt 2 = 2.
Proof. apply sqrt_sqrt. lra. Qed.
Lemma eva_2 : nm_eva 2 1 = 2 /\ o_nm_eva 2 1 = sqrt 2 /\ nm_eva 2 0 = 0 /\ o_nm_eva 2 0 = 0.
Proof.
  unfold nm_eva, o_nm_eva. cbn [INR]. replace (1 * PI / (1 + 1)) with (PI / 2) by field. replace (1 * PI / (2 * (1 + 1))) with (PI / 4) by field.
  replace (0 * PI / (1 + 1)) with 0 by field. replace (0 * PI / (2 * (1 + 1))) with 0 by field.
  rewrite sin_PI2, sin_PI4, sin_0. assert (0 < sqrt 2) by (apply sqrt_lt_R0; lra). pose proof sq2.
  repeat split; try lra. rewrite <- sq2 at 1. field. lra.
Qed.
Definition pa2 (om : nat -> R) : nat -> R := fun b => if (b =? 0)%nat then 1 else (om b / 1) ^ 2.
(** pa-cmd with target frequency one, two beads, one open atom of mass one. *)
Definition r_open : ring := mkRing 2 1 [0%nat] (fun _ => 1) 1 (pa2 (omegak 1 2)) (fun k => if (k <? 2)%nat then pa2 (o_omegak 1 2) k else 1).
Theorem open_path_energy_refuted : exists r cayley dt s mode freqs f,
  (0 < nbeads r)%nat /\ (forall j, 0 < mass r j) /\ 0 < wn r /\ NoDup (openp r) /\ (forall j, In j (openp r) -> (j < natoms r)%nat) /\ dt <> 0 /\
  get_nmm mode freqs (nbeads r) (omegak (wn r) (nbeads r)) = Some (nmf r) /\
  get_nmm mode freqs (nbeads r) (o_omegak (wn r) (nbeads r)) = Some f /\ (forall k, (k < nbeads r)%nat -> o_nmf r k = f k) /\
  energy r (free_qstep r cayley dt s) <> energy r s.
Proof.
  set (s := ((fun k c => if (k =? 1)%nat && (c =? 0)%nat then 1 else 0) : mat, (fun _ _ => 0) : mat)).
  destruct eva_2 as (E1 & E2 & E3 & E4). assert (P2 : 0 < sqrt 2) by (apply sqrt_lt_R0; lra).
  exists r_open, false, (PI / 2), s, PaCmd, [1], (pa2 (o_omegak 1 2)).
  split; [cbn; lia|]. split; [cbn; intros; lra|]. split; [cbn; lra|].
  split; [repeat constructor; easy|]. split; [cbn; lia|]. split; [pose proof PI_RGT_0; lra|].
  split; [reflexivity|]. split; [reflexivity|]. split.
  { cbn [nbeads r_open SpringModel.o_nmf]. intros k Hk. now rewrite (proj2 (Nat.ltb_lt k 2) Hk). }
  assert (F1 : pa2 (omegak 1 2) 1 = 4) by (unfold pa2, omegak; cbn [Nat.eqb]; rewrite E1; field).
  assert (F2 : pa2 (o_omegak 1 2) 1 = 2).
  { unfold pa2, o_omegak; cbn [Nat.eqb]; rewrite E2. transitivity (sqrt 2 * sqrt 2); [field|apply sq2]. }
  assert (W : o_omegak 1 2 1 = sqrt 2) by (unfold o_omegak; rewrite E2; ring).
  assert (Ks : forall p : mat, (forall c, p 0%nat c = 0) -> get_kin r_open p = (p 1%nat 0%nat ^ 2 + p 1%nat 1%nat ^ 2 + p 1%nat 2%nat ^ 2) / 8).
  { intros p Hp. unfold get_kin, get_kins, r_open, m3. cbn [nbeads natoms mass SpringModel.nmf Nat.mul Nat.add Rsum]. rewrite F1, !Hp, sqrt_1.
    unfold pa2 at 1. cbn [Nat.eqb]. field. }
  assert (Vs : forall q : mat, (forall c, q 0%nat c = 0) -> vspring r_open q = q 1%nat 0%nat ^ 2 + q 1%nat 1%nat ^ 2 + q 1%nat 2%nat ^ 2).
  { intros q Hq. unfold vspring, r_open, m3. cbn [nbeads natoms mass openp wn Nat.mul Nat.add Rsum Nat.eqb map Rsuml Nat.div Nat.divmod fst].
    rewrite !Hq, sqrt_1, W. unfold omegak, o_omegak. rewrite E1, E3. replace (sqrt 2 ^ 2) with 2 by (rewrite <- sq2 at 1; ring). field. }
  unfold energy. rewrite !Ks, !Vs; try (intros c; unfold s; cbn [fst snd]; try apply (proj1 (free_step_centroid _ _ _ _ _)); reflexivity).
  assert (St : forall c, (c < 3)%nat -> (fst (free_qstep r_open false (PI / 2) s) 1%nat c, snd (free_qstep r_open false (PI / 2) s) 1%nat c)
     = (0, if (c =? 0)%nat then / 2 else 0)).
  { intros c Hc. rewrite free_step_mode by (cbn; lia). unfold om_of, f_of, m3. cbn [openp r_open nbeads wn SpringModel.o_nmf SpringModel.nmf mass Nat.ltb Nat.leb].
    replace (is_open [0%nat] c) with true by (destruct c as [|[|[|c]]]; try reflexivity; lia). rewrite W, F2.
    unfold mode_step, apply_pq, mass_scale, prop_exact. cbn [p00 p01 p10 p11 fst snd].
    replace (sqrt 2 * (PI / 2) / sqrt 2) with (PI / 2) by (field; lra). rewrite cos_PI2, sin_PI2, sq2.
    destruct c as [|c]; unfold s; cbn [fst snd Nat.eqb andb]; f_equal; field. }
  pose proof (pair_comp _ _ _ _ (St 0%nat ltac:(lia))) as [A1 A2]. pose proof (pair_comp _ _ _ _ (St 1%nat ltac:(lia))) as [B1 B2].
  pose proof (pair_comp _ _ _ _ (St 2%nat ltac:(lia))) as [C1 C2]. cbn [Nat.eqb] in A2, B2, C2.
  rewrite A1, A2, B1, B2, C1, C2. unfold s. cbn [fst snd Nat.eqb andb]. intros F. lra.
Qed.

(** ** C30: springs in bead and in mode coordinates *)
(** Harmonic springs between neighbouring beads; closed atoms also between the last and the
    first bead. *)
Definition bead_springs (r : ring) (q : mat) : R :=
  Rsum (3 * natoms r) (fun c => Rsum (nbeads r) (fun b => / 2 * m3 r c * wn r ^ 2 *
    (match b with
     | 0%nat => if is_open (openp r) c then 0 else q 0%nat c - q (nbeads r - 1)%nat c
     | S b' => q b c - q b' c
     end) ^ 2)).
Lemma b2nm_cmat r q k c : nm_trans_b2nm (nbeads r) (openp r) q k c = app (nbeads r) (cmat (is_open (openp r) c) (nbeads r)) (fun j => q j c) k.
Proof. easy. Qed.
Theorem spring_energy_is_bead_springs r q : sound r ->
  vspring r (nm_trans_b2nm (nbeads r) (openp r) q) = bead_springs r q.
Proof.
  intros S. unfold bead_springs. destruct (Nat.eq_dec (nbeads r) 1) as [E|Hn].
  - unfold vspring. rewrite E. cbn [Nat.eqb]. symmetry. apply Rsum_0. intros c _. cbn [Rsum Nat.sub]. destruct (is_open _ _); ring.
  - rewrite vspring_columns by (try easy; apply S). apply Rsum_ext. intros c _.
    set (o := is_open (openp r) c). set (n := nbeads r). set (x := fun j => q j c).
    transitivity (/ 2 * m3 r c * wn r ^ 2 * Rsum n (fun k => eva o n k ^ 2 * app n (cmat o n) x k ^ 2)).
    + rewrite <- Rsum_scal. apply Rsum_ext. intros k _. subst n o x. rewrite b2nm_cmat. ring.
    + rewrite modes_energy by apply S. rewrite <- Rsum_scal. apply Rsum_ext. intros b Hb. f_equal. f_equal. unfold x, left.
      destruct b as [|b]; cbn [Nat.eqb].
      * destruct o; [ring|easy].
      * replace (Datatypes.S b - 1)%nat with b by lia. easy.
Qed.
(** Without open paths: omegan^2 times Beads.vpath, and the force is omegan^2 times Beads.fpath. *)
Theorem spring_energy_is_vpath r q : sound r -> openp r = [] ->
  vspring r (nm_trans_b2nm (nbeads r) (openp r) q) = wn r ^ 2 * vpath r q.
Proof.
  intros S Ho. rewrite spring_energy_is_bead_springs by easy. unfold bead_springs, vpath. rewrite Rsum_swap.
  rewrite <- Rsum_scal_r, <- Rsum_scal. apply Rsum_ext. intros b _. rewrite <- Rsum_scal_r, <- Rsum_scal. apply Rsum_ext. intros c _.
  rewrite Ho. cbn [is_open existsb]. destruct b as [|b]; cbn [Nat.ltb Nat.leb]; [ring|]. replace (Datatypes.S b - 1)%nat with b by lia. ring.
Qed.
Lemma fspring_lap r q b c : sound r -> (b < nbeads r)%nat -> nbeads r <> 1%nat ->
  fspring r q b c = - (wn r ^ 2 * m3 r c * lap (is_open (openp r) c) (nbeads r) (fun j => q j c) b).
Proof.
  intros S Hb Hn. unfold fspring. rewrite (proj2 (Nat.eqb_neq _ _) Hn).
  rewrite <- modes_lap by (try easy; apply S). set (n := nbeads r). set (o := is_open (openp r) c).
  change (nm_trans_nm2b n (openp r) ?y b c) with (app n (transpose (cmat o n)) (fun j => y j c) b).
  unfold app. rewrite <- Rsum_scal, <- Rsum_opp. apply Rsum_ext. intros k _. unfold fspring_nm. subst n o. rewrite b2nm_cmat.
  rewrite omega_eva. unfold app. ring.
Qed.
Lemma fpath_loop r q (t : nat) i c : (i < nbeads r)%nat -> (t <= nbeads r)%nat ->
  fold_left (fpath_step r q) (seq 0 t) (fun _ _ => 0) i c
  = (if (i <? t)%nat then - fpath_dq r q i c else 0)
    + (if (i =? nbeads r - 1)%nat then (if (0 <? t)%nat then fpath_dq r q 0 c else 0) else if (S i <? t)%nat then fpath_dq r q (S i) c else 0).
Proof.
  intros Hi. induction t as [|t IH]; intros Ht.
  - cbn [seq fold_left]. replace (i <? 0)%nat with false by reflexivity. cbn [Nat.ltb Nat.leb]. destruct (i =? nbeads r - 1)%nat; ring.
  - rewrite seq_S, fold_left_app. cbn [fold_left Nat.add]. set (F := fold_left _ _ _) in *. unfold fpath_step. cbv zeta.
    rewrite !IH by lia. clear IH. clearbody F. set (n := nbeads r) in *. replace (0 <? S t)%nat with true by reflexivity.
    destruct t as [|t].
    + replace (0 <? 0)%nat with false by reflexivity. replace (i <? 0)%nat with false by reflexivity.
      replace (S i <? 0)%nat with false by reflexivity. replace (S i <? 1)%nat with false by reflexivity.
      replace (i <? 1)%nat with (i =? 0)%nat by (destruct i; reflexivity).
      destruct (Nat.eqb_spec i 0) as [->|]; [destruct (0 =? n - 1)%nat|destruct (i =? n - 1)%nat]; ring.
    + replace (0 <? S t)%nat with true by reflexivity. replace (S t - 1)%nat with t by lia.
      destruct (Nat.ltb_spec i (S t)); destruct (Nat.ltb_spec i (S (S t))); destruct (Nat.eqb_spec i (S t)); destruct (Nat.eqb_spec i t);
      destruct (Nat.ltb_spec (S i) (S t)); destruct (Nat.ltb_spec (S i) (S (S t))); destruct (Nat.eqb_spec i (n - 1)); try lia; subst; try ring.
Qed.
Theorem spring_force_is_fpath r q b c : sound r -> openp r = [] -> (b < nbeads r)%nat ->
  fspring r q b c = wn r ^ 2 * fpath r q b c.
Proof.
  intros Hs Ho Hb. unfold fpath. rewrite (fpath_loop r q (nbeads r) b c Hb ltac:(lia)).
  rewrite (proj2 (Nat.ltb_lt _ _) Hb). replace (0 <? nbeads r)%nat with true by (symmetry; apply Nat.ltb_lt; lia).
  destruct (Nat.eq_dec (nbeads r) 1) as [E|Hn].
  - unfold fspring. rewrite E. cbn [Nat.eqb]. assert (b = 0%nat) as -> by lia. unfold fpath_dq. rewrite E. cbn. ring.
  - rewrite fspring_lap by easy. rewrite Ho. cbn [is_open existsb]. unfold lap, left, right, fpath_dq.
    replace (0 <? S b)%nat with true by reflexivity. replace (0 <? 0)%nat with false by reflexivity.
    destruct (Nat.eqb_spec b (nbeads r - 1)) as [E|Hne].
    + destruct b as [|b]; [lia|]. replace (0 <? S b)%nat with true by reflexivity. cbn [Nat.eqb]. rewrite <- E. ring.
    + rewrite (proj2 (Nat.ltb_lt (S b) (nbeads r))) by lia.
      replace (S b - 1)%nat with b by lia. replace (b + 1)%nat with (S b) by lia.
      destruct b as [|b]; cbn [Nat.eqb Nat.ltb Nat.leb]; ring.
Qed.

(** The force is minus the gradient of the energy, with or without open paths. *)
Theorem spring_force_is_gradient r q d : sound r ->
  derivable_pt_lim (fun t => vspring r (nm_trans_b2nm (nbeads r) (openp r) (fun b c => q b c + t * d b c))) 0
    (- Rsum (nbeads r) (fun b => Rsum (3 * natoms r) (fun c => fspring r q b c * d b c))).
Proof.
  intros Hs. destruct (Nat.eq_dec (nbeads r) 1) as [E|Hn].
  { unfold vspring, fspring. rewrite E. cbn [Nat.eqb].
    eapply derivable_eq; [|apply (derivable_pt_lim_const 0)]. rewrite Rsum_0; [ring|]. intros b _. apply Rsum_0. intros; ring. }
  set (n := nbeads r) in *. set (y := fun k c => nm_trans_b2nm n (openp r) q k c). set (z := fun k c => nm_trans_b2nm n (openp r) d k c).
  set (A := fun k c => m3 r c * (wn r * eva (is_open (openp r) c) n k) ^ 2).
  apply (derivable_ext (fun t => Rsum (3 * natoms r) (fun c => Rsum n (fun k => / 2 * A k c * ((y k c + t * z k c) * (y k c + t * z k c)))))).
  { intros t. rewrite vspring_columns by (try easy; apply Hs). apply Rsum_ext. intros c _. apply Rsum_ext. intros k _. unfold A. fold n.
    replace (nm_trans_b2nm n (openp r) (fun b c0 => q b c0 + t * d b c0) k c) with (y k c + t * z k c); [ring|].
    unfold y, z, nm_trans_b2nm, app. rewrite <- Rsum_scal, <- Rsum_plus. apply Rsum_ext. intros; ring. }
  eapply derivable_eq; [|apply (derivable_Rsum _ _ (fun c => Rsum n (fun k => A k c * y k c * z k c)))].
  - rewrite (Rsum_swap n (3 * natoms r)), <- Rsum_opp. apply Rsum_ext. intros c _.
    unfold fspring. fold n. rewrite (proj2 (Nat.eqb_neq _ _) Hn). set (o := is_open (openp r) c).
    transitivity (- Rsum n (fun b => Rsum n (fun k => cmat o n k b * (- A k c * y k c)) * d b c)).
    + transitivity (Rsum n (fun k => A k c * y k c * Rsum n (fun b => cmat o n k b * d b c))); [reflexivity|].
      rewrite <- Rsum_opp. symmetry.
      transitivity (Rsum n (fun b => Rsum n (fun k => A k c * y k c * (cmat o n k b * d b c)))).
      * apply Rsum_ext. intros b _. rewrite <- Rsum_scal_r, <- Rsum_opp. apply Rsum_ext. intros; ring.
      * rewrite Rsum_swap. apply Rsum_ext. intros k _. apply Rsum_scal.
    + f_equal. apply Rsum_ext. intros b _. f_equal. apply Rsum_ext. intros k _. unfold transpose, fspring_nm, A. fold n. fold o.
      rewrite omega_eva. fold (y k c). unfold cmat. ring.
  - intros c _. apply (derivable_Rsum _ (fun k t => / 2 * A k c * ((y k c + t * z k c) * (y k c + t * z k c)))). intros k _.
    assert (L : derivable_pt_lim (fun t => y k c + t * z k c) 0 (z k c)).
    { eapply derivable_eq; [|apply (derivable_pt_lim_plus (fun _ => y k c) (fun t => t * z k c));
        [apply derivable_pt_lim_const | apply (derivable_pt_lim_mult id (fun _ => z k c)); [apply derivable_pt_lim_id | apply derivable_pt_lim_const]]].
      unfold id. ring. }
    eapply derivable_eq; [|apply (derivable_pt_lim_scal (fun t => (y k c + t * z k c) * (y k c + t * z k c))), (derivable_pt_lim_mult _ _ 0 _ _ L L)]. cbv beta. field.
Qed.
(** An atom listed twice in open_paths is counted twice. *)
Theorem duplicate_open_path_refuted : exists r q, (0 < nbeads r)%nat /\ (forall j, 0 < mass r j) /\ 0 < wn r /\
  (forall j, In j (openp r) -> (j < natoms r)%nat) /\ vspring r (nm_trans_b2nm (nbeads r) (openp r) q) <> bead_springs r q.
Proof.
  set (r := mkRing 2 1 [0%nat; 0%nat] (fun _ => 1) 1 (fun _ => 1) (fun _ => 1)).
  set (r1 := mkRing 2 1 [0%nat] (fun _ => 1) 1 (fun _ => 1) (fun _ => 1)).
  set (q := (fun b c => if (c =? 0)%nat then (if (b =? 0)%nat then 1 else -1) else 0) : mat).
  exists r, q. cbn [nbeads mass wn openp natoms r]. split; [lia|]. split; [intros; lra|]. split; [lra|]. split; [cbn; lia|].
  assert (Hs : sound r1).
  { split; cbn; intros; try lra; try lia. repeat constructor; easy. }
  assert (B : bead_springs r q = bead_springs r1 q).
  { unfold bead_springs. apply Rsum_ext. intros c Hc. cbn [nbeads r r1 natoms Nat.mul Nat.add] in Hc |- *. apply Rsum_ext. intros b _. destruct b; [|easy].
    unfold is_open. cbn [openp r r1 existsb]. now destruct (c / 3 =? 0)%nat. }
  rewrite B, <- (spring_energy_is_bead_springs r1 q Hs).
  assert (N : forall k c, (k < 2)%nat -> nm_trans_b2nm 2 (openp r) q k c = nm_trans_b2nm 2 (openp r1) q k c).
  { intros k c _. unfold nm_trans_b2nm, is_open. cbn [openp r r1 existsb]. now destruct (c / 3 =? 0)%nat. }
  change (nbeads r1) with 2%nat. set (y := nm_trans_b2nm 2 (openp r1) q).
  destruct eva_2 as (E1 & E2 & E3 & E4). assert (P2 : 0 < sqrt 2) by (apply sqrt_lt_R0; lra).
  assert (Y : y 1%nat 0%nat ^ 2 = 2 /\ y 1%nat 1%nat = 0 /\ y 1%nat 2%nat = 0).
  { pose proof (nm_mid_row 2 0 ltac:(lia) eq_refl) as M0. pose proof (nm_mid_row 2 1 ltac:(lia) eq_refl) as M1. cbn [Nat.div Nat.divmod fst] in M0, M1.
    unfold y, nm_trans_b2nm, app. cbn [openp r1 is_open existsb Nat.div Nat.divmod fst Nat.eqb orb Rsum].
    rewrite !two_bead_matrices by lia. rewrite M0, M1. unfold q. cbn [Nat.eqb INR]. replace (PI * 0) with 0 by ring. rewrite (Rmult_1_r PI), cos_0, cos_PI.
    replace (1 + 1) with 2 by ring. repeat split; try ring. transitivity (4 / (sqrt 2 * sqrt 2)); [field; lra | rewrite sq2; field]. }
  destruct Y as (Y0 & Y1 & Y2).
  assert (V1 : vspring r1 y = 2).
  { unfold vspring, r1, m3. cbn [nbeads natoms mass openp wn Nat.mul Nat.add Rsum Nat.eqb map Rsuml Nat.div Nat.divmod fst].
    unfold omegak, o_omegak. rewrite E1, E2, E3, E4, Y0, Y1, Y2, sqrt_1. replace (y 1%nat 0%nat * 1) with (y 1%nat 0%nat) by ring. rewrite Y0.
    replace ((1 * sqrt 2) ^ 2) with 2 by (rewrite <- sq2 at 1; ring). field. }
  assert (V2 : vspring r (nm_trans_b2nm 2 (openp r) q) = 0).
  { unfold vspring, m3. cbn [nbeads natoms mass wn r]. cbn [openp map Rsuml Nat.eqb Nat.mul Nat.add Rsum Nat.div Nat.divmod fst r].
    change ([0%nat; 0%nat]) with (openp r). rewrite !N by lia. fold y.
    unfold omegak, o_omegak. rewrite E1, E2, E3, E4, Y0, Y1, Y2, sqrt_1. replace (y 1%nat 0%nat * 1) with (y 1%nat 0%nat) by ring. rewrite Y0.
    replace ((1 * sqrt 2) ^ 2) with 2 by (rewrite <- sq2 at 1; ring). field. }
  rewrite V1. change [0%nat; 0%nat] with (openp r). fold r. rewrite V2. lra.
Qed.

(** ** Concrete cases *)
(** Four beads, two atoms, the second one open, rpmd: a case of [sound]. *)
Definition r_mixed : ring := mkRing 4 2 [1%nat] (fun j => INR (S j)) (1 / 10) (fun _ => 1) (fun _ => 1).
Lemma r_mixed_sound : sound r_mixed.
Proof.
  split; cbn [r_mixed nbeads natoms openp mass wn nmf o_nmf]; intros; try lra; try lia; try (apply lt_0_INR; lia).
  - repeat constructor; easy.
  - cbn in H. lia.
Qed.
Example mixed_energy_conserved s : energy r_mixed (free_qstep r_mixed false (3 / 2) s) = energy r_mixed s.
Proof. apply free_step_conserves_energy; [apply r_mixed_sound | lra | now right]. Qed.
(** Two beads a distance 2 apart, mass and frequency one: spring energy 4 (two springs of length 2). *)
Example ring_of_two : vspring r_cayley (nm_trans_b2nm 2 [] (fun b c => if (c =? 0)%nat then (if (b =? 0)%nat then 1 else -1) else 0)) = 4.
Proof.
  rewrite (spring_energy_is_bead_springs r_cayley _ r_cayley_sound). unfold bead_springs, m3. cbn. field.
Qed.
Example pa_cmd_case : exists f, get_nmm PaCmd [10] 4 (omegak 2 4) = Some f /\ dynomegak (omegak 2 4) f 2 = 10.
Proof.
  eexists. split; [reflexivity|].
  pose proof (dynamical_frequencies PaCmd [10] 4 (omegak 2 4) _ eq_refl) as H. cbv iota in H.
  specialize (H ltac:(intros k Hk; unfold omegak; apply Rmult_lt_0_compat; [lra|now apply nm_eva_pos]) ltac:(intros w [<-|[]]; lra) 2%nat ltac:(lia)).
  cbn [hd_error] in H. now injection H.
Qed.

Print Assumptions propagator_symplectic.
Print Assumptions exact_steps_compose.
Print Assumptions exact_step_zero.
Print Assumptions free_step_back.
Print Assumptions exact_step_solves_hamilton.
Print Assumptions centroid_step_solves_hamilton.
Print Assumptions free_step_conserves_energy.
Print Assumptions cayley_step_is_midpoint.
Print Assumptions cayley_dynamical_mass_refuted.
Print Assumptions dynamical_frequencies.
Print Assumptions wmax_first_mode.
Print Assumptions open_path_energy_refuted.
Print Assumptions spring_energy_is_bead_springs.
Print Assumptions spring_energy_is_vpath.
Print Assumptions spring_force_is_fpath.
Print Assumptions spring_force_is_gradient.
Print Assumptions duplicate_open_path_refuted.
