(** * Lemmas about the free ring-polymer propagators and the springs *)
From Coq Require Import List Reals ZArith Lra Lia Arith Bool.
From Verif Require Import RSum TrigSum Ortho NMModel NMProofs SpringModel.
Import ListNotations.
Open Scope R_scope.

(** ** One mode *)
Lemma sqrt_pos' f : 0 < f -> 0 < sqrt f /\ sqrt f * sqrt f = f.
Proof. intros H. split; [now apply sqrt_lt_R0 | apply sqrt_sqrt; lra]. Qed.

(** Mass-scaled step of one mode. *)
Definition mode_step (x : pq) (m : R) (s : R * R) : R * R := apply_pq (mass_scale m x) (fst s) (snd s).
Definition mode_energy (m om f : R) (s : R * R) : R := fst s ^ 2 / (2 * m * f) + / 2 * m * om ^ 2 * snd s ^ 2.
Definition det (x : pq) : R := p00 x * p11 x - p01 x * p10 x.

Lemma cs1 x : cos x * cos x + sin x * sin x = 1.
Proof. pose proof (sin2_cos2 x) as H. unfold Rsqr in H. lra. Qed.

Lemma exact_det om f dt m : 0 < f -> om <> 0 -> m <> 0 -> det (mass_scale m (prop_exact om f dt)) = 1.
Proof.
  intros Hf Ho Hm. destruct (sqrt_pos' f Hf) as [Hs _]. unfold det, mass_scale, prop_exact. cbn [p00 p01 p10 p11].
  rewrite <- (cs1 (om * dt / sqrt f)). field. repeat split; lra.
Qed.
Lemma exact_energy om f dt m s : 0 < f -> om <> 0 -> 0 < m ->
  mode_energy m om f (mode_step (prop_exact om f dt) m s) = mode_energy m om f s.
Proof.
  intros Hf Ho Hm. destruct (sqrt_pos' f Hf) as [Hs Hss]. destruct s as [p q].
  unfold mode_energy, mode_step, apply_pq, mass_scale, prop_exact. cbn [p00 p01 p10 p11 fst snd].
  set (c := cos (om * dt / sqrt f)). set (s := sin (om * dt / sqrt f)).
  assert (H : c * c + s * s = 1) by apply cs1. set (k := sqrt f) in *. clearbody c s k. subst f.
  transitivity ((c * c + s * s) * (p ^ 2 / (2 * m * (k * k)) + / 2 * m * om ^ 2 * q ^ 2)); [field; lra|]. rewrite H. ring.
Qed.
Lemma exact_compose om f dt dt' m s : 0 < f -> om <> 0 -> 0 < m ->
  mode_step (prop_exact om f dt) m (mode_step (prop_exact om f dt') m s) = mode_step (prop_exact om f (dt + dt')) m s.
Proof.
  intros Hf Ho Hm. destruct (sqrt_pos' f Hf) as [Hs Hss]. destruct s as [p q].
  unfold mode_step, apply_pq, mass_scale, prop_exact. cbn [p00 p01 p10 p11 fst snd].
  replace (om * (dt + dt') / sqrt f) with (om * dt / sqrt f + om * dt' / sqrt f) by (field; lra).
  rewrite cos_plus, sin_plus. f_equal; field; lra.
Qed.
Lemma exact_zero om f m s : 0 < f -> mode_step (prop_exact om f 0) m s = s.
Proof.
  intros Hf. destruct (sqrt_pos' f Hf) as [Hs Hss]. destruct s as [p q].
  unfold mode_step, apply_pq, mass_scale, prop_exact. cbn [p00 p01 p10 p11 fst snd].
  replace (om * 0 / sqrt f) with 0 by (field; lra). rewrite cos_0, sin_0. unfold Rdiv. f_equal; ring.
Qed.
(** Hamilton's equations for mass [m * f] and frequency constant [m * om^2]. *)
Lemma exact_hamilton om f m s t : 0 < f -> om <> 0 -> 0 < m ->
  let x t := mode_step (prop_exact om f t) m s in
  derivable_pt_lim (fun t => snd (x t)) t (fst (x t) / (m * f)) /\
  derivable_pt_lim (fun t => fst (x t)) t (- (m * om ^ 2) * snd (x t)).
Proof.
  intros Hf Ho Hm x. destruct (sqrt_pos' f Hf) as [Hs Hss]. destruct s as [p q]. unfold x. clear x.
  unfold mode_step, apply_pq, mass_scale, prop_exact. cbn [p00 p01 p10 p11 fst snd].
  set (k := sqrt f) in *. clearbody k. subst f.
  assert (L : derivable_pt_lim (fun t => om * t / k) t (om / k)).
  { apply (derivable_ext (mult_real_fct (om / k) id)); [intros u; unfold mult_real_fct, id; field; lra|].
    eapply derivable_eq; [|apply derivable_pt_lim_scal, derivable_pt_lim_id]. ring. }
  assert (C : derivable_pt_lim (fun t => cos (om * t / k)) t (- sin (om * t / k) * (om / k)))
    by (apply (derivable_pt_lim_comp (fun t => om * t / k) cos _ _ _ L), derivable_pt_lim_cos).
  assert (S : derivable_pt_lim (fun t => sin (om * t / k)) t (cos (om * t / k) * (om / k)))
    by (apply (derivable_pt_lim_comp (fun t => om * t / k) sin _ _ _ L), derivable_pt_lim_sin).
  split.
  - apply (derivable_ext (fun t => plus_fct (mult_real_fct (p / (om * k * m)) (fun t => sin (om * t / k))) (mult_real_fct q (fun t => cos (om * t / k))) t)).
    { intros u. unfold plus_fct, mult_real_fct. field. lra. }
    eapply derivable_eq; [|apply derivable_pt_lim_plus; apply derivable_pt_lim_scal; [apply S | apply C]].
    field. lra.
  - apply (derivable_ext (fun t => plus_fct (mult_real_fct p (fun t => cos (om * t / k))) (mult_real_fct (- q * om * k * m) (fun t => sin (om * t / k))) t)).
    { intros u. unfold plus_fct, mult_real_fct. ring. }
    eapply derivable_eq; [|apply derivable_pt_lim_plus; apply derivable_pt_lim_scal; [apply C | apply S]].
    field. lra.
Qed.

(** Cayley *)
Lemma cayley_square om dt : 0 < 1 + (om * dt / 2) ^ 2.
Proof. pose proof (pow2_ge_0 (om * dt / 2)). lra. Qed.
Lemma cayley_det om f dt m : 0 < f -> dt <> 0 -> m <> 0 -> det (mass_scale m (prop_cayley om f dt)) = 1.
Proof.
  intros Hf Hd Hm. destruct (sqrt_pos' f Hf) as [Hs _]. pose proof (cayley_square om dt).
  unfold det, mass_scale, prop_cayley. cbn [p00 p01 p10 p11]. set (k := (om * dt / 2) ^ 2) in *. clearbody k.
  field. repeat split; lra.
Qed.
Lemma cayley_energy om f dt m s : 0 < f -> dt <> 0 -> 0 < m ->
  mode_energy m om f (mode_step (prop_cayley om f dt) m s) = mode_energy m om f s.
Proof.
  intros Hf Hd Hm. destruct (sqrt_pos' f Hf) as [Hs Hss]. destruct s as [p q]. pose proof (cayley_square om dt) as H.
  unfold mode_energy, mode_step, apply_pq, mass_scale, prop_cayley. cbn [p00 p01 p10 p11 fst snd].
  set (k := sqrt f) in *. clearbody k. subst f.
  assert (H' : 0 < 4 + om ^ 2 * dt ^ 2) by nra. assert (H2 : om ^ 2 * dt ^ 2 + 4 <> 0) by lra.
  field. repeat split; try lra; nra.
Qed.
Lemma cayley_back om f dt m s : 0 < f -> dt <> 0 -> 0 < m ->
  mode_step (prop_cayley om f (- dt)) m (mode_step (prop_cayley om f dt) m s) = s.
Proof.
  intros Hf Hd Hm. destruct (sqrt_pos' f Hf) as [Hs Hss]. destruct s as [p q]. pose proof (cayley_square om dt) as H.
  unfold mode_step, apply_pq, mass_scale, prop_cayley. cbn [p00 p01 p10 p11 fst snd].
  assert (H' : 0 < 4 + om ^ 2 * dt ^ 2) by nra.
  f_equal; field; repeat split; try lra; try nra.
Qed.
(** Implicit midpoint rule with step [h]. *)
Definition midpoint (m om f h : R) (s s' : R * R) : Prop :=
  fst s' - fst s = - h * (m * om ^ 2) * ((snd s + snd s') / 2) /\
  snd s' - snd s = h / (m * f) * ((fst s + fst s') / 2).
Lemma cayley_midpoint om f dt m s : 0 < f -> dt <> 0 -> 0 < m ->
  midpoint m om f (dt * sqrt f) s (mode_step (prop_cayley om f dt) m s).
Proof.
  intros Hf Hd Hm. destruct (sqrt_pos' f Hf) as [Hs Hss]. destruct s as [p q]. pose proof (cayley_square om dt) as H.
  unfold midpoint, mode_step, apply_pq, mass_scale, prop_cayley. cbn [p00 p01 p10 p11 fst snd].
  set (k := sqrt f) in *. clearbody k. subst f.
  assert (H' : 0 < 4 + om ^ 2 * dt ^ 2) by nra.
  split; field; repeat split; try lra; try nra.
Qed.
Lemma exact_flip om f dt m s : 0 < f -> om <> 0 -> 0 < m ->
  let flip (x : R * R) := (- fst x, snd x) in
  flip (mode_step (prop_exact om f dt) m (flip (mode_step (prop_exact om f dt) m s))) = s.
Proof.
  intros Hf Ho Hm. cbv zeta. destruct (sqrt_pos' f Hf) as [Hs Hss]. destruct s as [p q].
  unfold mode_step, apply_pq, mass_scale, prop_exact. cbn [p00 p01 p10 p11 fst snd].
  pose proof (cs1 (om * dt / sqrt f)) as H. set (c := cos _) in *. set (s := sin _) in *. clearbody c s.
  set (k := sqrt f) in *. clearbody k.
  f_equal; [transitivity ((c * c + s * s) * p)|transitivity ((c * c + s * s) * q)]; try (field; lra); rewrite H; ring.
Qed.

(** ** Eigenvectors of the chain *)
(** Left and right neighbours of a bead; an open path is reflected at its ends. *)
Definition left (o : bool) (n j : nat) : nat := if (j =? 0)%nat then (if o then 0 else n - 1)%nat else (j - 1)%nat.
Definition right (o : bool) (n j : nat) : nat := if (j =? n - 1)%nat then (if o then n - 1 else 0)%nat else (j + 1)%nat.
Definition cmat (o : bool) (n : nat) : mat := if o then mk_o_nm_matrix n else mk_nm_matrix n.
Definition eva (o : bool) (n k : nat) : R := if o then o_nm_eva n k else nm_eva n k.
Definition lap (o : bool) (n : nat) (x : nat -> R) (j : nat) : R := 2 * x j - x (left o n j) - x (right o n j).

Lemma cos_double a : 2 - 2 * cos (2 * a) = (2 * sin a) ^ 2.
Proof. rewrite cos_2a_sin. ring. Qed.
Lemma cos_step x t : 2 * cos x - cos (x - t) - cos (x + t) = (2 - 2 * cos t) * cos x.
Proof. rewrite cos_minus, cos_plus. ring. Qed.

Lemma closed_entry n k x j : (0 < n)%nat -> (j < n)%nat ->
  x = INR j * (2 * PI * INR k / INR n) + phase n k ->
  let t := 2 * PI * INR k / INR n in
  cos (INR (left false n j) * t + phase n k) = cos (x - t) /\ cos (INR (right false n j) * t + phase n k) = cos (x + t).
Proof.
  intros Hn Hj Hx t. pose proof (INR_pos n Hn) as Hp. unfold left, right. split.
  - destruct (Nat.eqb_spec j 0) as [->|Hj0].
    + replace (INR (n - 1) * t + phase n k) with ((x - t) + IZR (Z.of_nat k) * (2 * PI)); [apply cos_Z_2PI|].
      rewrite Hx, minus_INR, <- INR_IZR_INZ by lia. cbn [INR]. unfold t. field. lra.
    + rewrite minus_INR by lia. cbn [INR]. f_equal. rewrite Hx. unfold t. ring.
  - destruct (Nat.eqb_spec j (n - 1)) as [->|Hj1].
    + replace (x + t) with (INR 0 * t + phase n k + IZR (Z.of_nat k) * (2 * PI)); [symmetry; apply cos_Z_2PI|].
      rewrite Hx, minus_INR, <- INR_IZR_INZ by lia. cbn [INR]. unfold t. field. lra.
    + rewrite plus_INR. cbn [INR]. f_equal. rewrite Hx. unfold t. ring.
Qed.
Lemma nm_lap n k j : (0 < n)%nat -> (j < n)%nat -> lap false n (mk_nm_matrix n k) j = nm_eva n k ^ 2 * mk_nm_matrix n k j.
Proof.
  intros Hn Hj. pose proof (INR_pos n Hn) as Hp. assert (0 < sqrt (INR n)) by now apply sqrt_lt_R0.
  destruct (closed_entry n k _ j Hn Hj eq_refl) as [El Er]. unfold lap, mk_nm_matrix. rewrite !nm_entry_cos, El, Er by easy.
  set (x := INR j * _ + _). set (t := 2 * PI * INR k / INR n).
  transitivity ((2 * cos x - cos (x - t) - cos (x + t)) * (amp n k / sqrt (INR n))); [field; lra|].
  rewrite cos_step. replace t with (2 * (INR k * PI / INR n)) by (unfold t; field; lra). rewrite cos_double. unfold nm_eva. field. lra.
Qed.
Lemma o_entry_cos n i j : (0 < n)%nat ->
  o_nm_entry n i j = (if (i =? 0)%nat then 1 else sqrt 2) * cos ((INR j + / 2) * (PI * INR i / INR n)).
Proof.
  intros Hn. pose proof (INR_pos n Hn) as Hp. unfold o_nm_entry. destruct (Nat.eqb_spec i 0) as [->|H].
  - cbn [INR]. replace ((INR j + / 2) * (PI * 0 / INR n)) with 0 by (field; lra). rewrite cos_0, sqrt_1. ring.
  - f_equal. f_equal. field. lra.
Qed.
Lemma o_nm_lap n k j : (0 < n)%nat -> (j < n)%nat -> lap true n (mk_o_nm_matrix n k) j = o_nm_eva n k ^ 2 * mk_o_nm_matrix n k j.
Proof.
  intros Hn Hj. pose proof (INR_pos n Hn) as Hp. assert (0 < sqrt (INR n)) by now apply sqrt_lt_R0.
  set (t := PI * INR k / INR n). set (x := (INR j + / 2) * t).
  assert (El : cos ((INR (left true n j) + / 2) * t) = cos (x - t)).
  { unfold left. destruct (Nat.eqb_spec j 0) as [->|Hj0].
    - unfold x. cbn [INR]. rewrite <- cos_neg. f_equal. field.
    - rewrite minus_INR by lia. cbn [INR]. f_equal. unfold x. ring. }
  assert (Er : cos ((INR (right true n j) + / 2) * t) = cos (x + t)).
  { unfold right. destruct (Nat.eqb_spec j (n - 1)) as [->|Hj0].
    - unfold x. rewrite minus_INR by lia. cbn [INR].
      rewrite <- (cos_neg ((INR n - 1 + / 2) * t + t)), <- (cos_Z_2PI (- _) (Z.of_nat k)). f_equal.
      rewrite <- INR_IZR_INZ. unfold t. field. lra.
    - rewrite plus_INR. cbn [INR]. f_equal. unfold x. ring. }
  unfold lap, mk_o_nm_matrix. rewrite !o_entry_cos by easy. fold t. fold x. rewrite El, Er.
  set (a := if (k =? 0)%nat then 1 else sqrt 2).
  transitivity ((2 * cos x - cos (x - t) - cos (x + t)) * (a / sqrt (INR n))); [field; lra|].
  rewrite cos_step. replace t with (2 * (INR k * PI / (2 * INR n))) by (unfold t; field; lra). rewrite cos_double. unfold o_nm_eva. field. lra.
Qed.
Lemma cmat_lap o n k j : (0 < n)%nat -> (j < n)%nat -> lap o n (cmat o n k) j = eva o n k ^ 2 * cmat o n k j.
Proof. destruct o; [apply o_nm_lap | apply nm_lap]. Qed.
Lemma cmat_cols o n : (0 < n)%nat -> orthonormal_cols n (cmat o n).
Proof. destruct o; [apply o_nm_cols | apply nm_cols]. Qed.

Lemma left_lt o n j : (j < n)%nat -> (left o n j < n)%nat.
Proof. unfold left. destruct (Nat.eqb_spec j 0), o; lia. Qed.
Lemma right_lt o n j : (j < n)%nat -> (right o n j < n)%nat.
Proof. unfold right. destruct (Nat.eqb_spec j (n - 1)), o; lia. Qed.

(** The springs in mode space are the springs between neighbours. *)
Lemma modes_lap o n x j : (0 < n)%nat -> (j < n)%nat ->
  app n (transpose (cmat o n)) (fun k => eva o n k ^ 2 * app n (cmat o n) x k) j = lap o n x j.
Proof.
  intros Hn Hj. unfold app, transpose.
  transitivity (lap o n (fun j => Rsum n (fun k => cmat o n k j * Rsum n (fun i => cmat o n k i * x i))) j).
  - unfold lap. rewrite <- Rsum_scal, <- !Rsum_minus. apply Rsum_ext. intros k Hk.
    rewrite <- Rmult_assoc, (Rmult_comm (cmat o n k j)), <- cmat_lap by easy. unfold lap. ring.
  - unfold lap. rewrite !(ortho_roundtrip n (cmat o n) x) by (try apply cmat_cols; try apply left_lt; try apply right_lt; easy). easy.
Qed.
(** Summation by parts. *)
Lemma sum_left o n f : (0 < n)%nat -> Rsum n (fun j => f (left o n j)) = Rsum n f + (if o then f 0%nat - f (n - 1)%nat else 0).
Proof.
  intros Hn. destruct n as [|m]; [lia|]. rewrite Rsum_first. cbn [Rsum]. unfold left at 1. cbn [Nat.eqb]. replace (S m - 1)%nat with m by lia.
  rewrite (Rsum_ext m (fun i => f (left o (S m) (S i))) f).
  - destruct o; ring.
  - intros i _. unfold left. cbn [Nat.eqb]. f_equal. lia.
Qed.
Lemma sum_right o n x : (0 < n)%nat -> Rsum n (fun j => x j * x (right o n j)) = Rsum n (fun j => x (left o n j) * x j)
  + (if o then x (n - 1)%nat * x (n - 1)%nat - x 0%nat * x 0%nat else 0).
Proof.
  intros Hn. destruct n as [|m]; [lia|]. rewrite (Rsum_first m (fun j => x (left o (S m) j) * x j)). cbn [Rsum].
  replace (S m - 1)%nat with m by lia.
  rewrite (Rsum_ext m (fun j => x j * x (right o (S m) j)) (fun j => x j * x (S j))).
  - rewrite (Rsum_ext m (fun i => x (left o (S m) (S i)) * x (S i)) (fun j => x j * x (S j))).
    + unfold left, right. cbn [Nat.eqb]. replace (S m - 1)%nat with m by lia. rewrite Nat.eqb_refl. destruct o; ring.
    + intros i _. unfold left. cbn [Nat.eqb]. replace (S i - 1)%nat with i by lia. easy.
  - intros j Hj. unfold right. replace (S m - 1)%nat with m by lia. destruct (Nat.eqb_spec j m); [lia|]. f_equal. f_equal. lia.
Qed.
Lemma lap_energy o n x : (0 < n)%nat -> Rsum n (fun j => x j * lap o n x j) = Rsum n (fun j => (x j - x (left o n j)) ^ 2).
Proof.
  intros Hn. unfold lap.
  transitivity (2 * Rsum n (fun j => x j * x j) - Rsum n (fun j => x (left o n j) * x j) - Rsum n (fun j => x j * x (right o n j))).
  - rewrite <- Rsum_scal, <- !Rsum_minus. apply Rsum_ext. intros; ring.
  - transitivity (Rsum n (fun j => x j * x j) - 2 * Rsum n (fun j => x (left o n j) * x j) + Rsum n (fun j => x (left o n j) * x (left o n j))).
    + rewrite sum_right by easy. rewrite (sum_left o n (fun j => x j * x j)) by easy. destruct o; ring.
    + rewrite <- Rsum_scal, <- Rsum_minus, <- Rsum_plus. apply Rsum_ext. intros; ring.
Qed.
Lemma modes_energy o n x : (0 < n)%nat ->
  Rsum n (fun k => eva o n k ^ 2 * app n (cmat o n) x k ^ 2) = Rsum n (fun j => (x j - x (left o n j)) ^ 2).
Proof.
  intros Hn. rewrite <- lap_energy by easy.
  transitivity (Rsum n (fun j => x j * app n (transpose (cmat o n)) (fun k => eva o n k ^ 2 * app n (cmat o n) x k) j)).
  - unfold app, transpose. symmetry.
    transitivity (Rsum n (fun j => Rsum n (fun k => eva o n k ^ 2 * Rsum n (fun i => cmat o n k i * x i) * (cmat o n k j * x j)))).
    + apply Rsum_ext. intros j _. rewrite <- Rsum_scal. apply Rsum_ext. intros; ring.
    + rewrite Rsum_swap. apply Rsum_ext. intros k _. rewrite Rsum_scal. ring.
  - apply Rsum_ext. intros j Hj. now rewrite modes_lap.
Qed.

(** ** Sums over atoms and coordinates *)
Lemma Rsum_three N f : Rsum (3 * N) f = Rsum N (fun j => f (3 * j)%nat + f (3 * j + 1)%nat + f (3 * j + 2)%nat).
Proof.
  induction N as [|N IH]; [easy|]. replace (3 * S N)%nat with (S (S (S (3 * N)))) by lia. cbn [Rsum]. rewrite IH.
  replace (3 * N + 1)%nat with (S (3 * N)) by lia. replace (3 * N + 2)%nat with (S (S (3 * N))) by lia. ring.
Qed.
Lemma sum_members N l h : NoDup l -> (forall j, In j l -> (j < N)%nat) ->
  Rsuml (map h l) = Rsum N (fun j => if existsb (Nat.eqb j) l then h j else 0).
Proof.
  induction l as [|a l IH]; intros Hd Hb; cbn [map Rsuml].
  - symmetry. now apply Rsum_0.
  - inversion Hd as [|? ? Hna Hd']; subst. rewrite IH by (try easy; intros; apply Hb; now right).
    rewrite <- (Rsum_delta_r N a h (Hb a (or_introl eq_refl))), <- Rsum_plus. apply Rsum_ext. intros j _. cbn [existsb].
    unfold delta. destruct (Nat.eqb_spec j a) as [->|Hne]; cbn [orb]; [|ring].
    destruct (existsb (Nat.eqb a) l) eqn:E; [|ring]. apply existsb_exists in E. destruct E as (y & Hy & Ey). apply Nat.eqb_eq in Ey. now subst.
Qed.
Lemma third j a : (a < 3)%nat -> ((3 * j + a) / 3 = j)%nat.
Proof. intros. rewrite Nat.mul_comm, Nat.div_add_l by lia. rewrite Nat.div_small by easy. lia. Qed.
Lemma third0 j : ((3 * j) / 3 = j)%nat.
Proof. now rewrite Nat.mul_comm, Nat.div_mul. Qed.

(** The spring energy as a sum over coordinates, each with its own frequencies. *)
Lemma omega_eva (o : bool) w n k : (if o then o_omegak w n k else omegak w n k) = w * eva o n k.
Proof. now destruct o. Qed.
Lemma vspring_columns r qnm : nbeads r <> 1%nat -> (forall c, 0 < mass r c) -> NoDup (openp r) -> (forall j, In j (openp r) -> (j < natoms r)%nat) ->
  vspring r qnm = Rsum (3 * natoms r) (fun c => Rsum (nbeads r) (fun k =>
    / 2 * m3 r c * (wn r * eva (is_open (openp r) c) (nbeads r) k) ^ 2 * qnm k c ^ 2)).
Proof.
  intros Hn Hm Hd Hb. unfold vspring. apply Nat.eqb_neq in Hn. rewrite Hn. cbv zeta. set (n := nbeads r).
  rewrite (sum_members (natoms r)) by easy.
  transitivity ((Rsum (3 * natoms r) (fun c => Rsum n (fun k => omegak (wn r) n k ^ 2 * m3 r c * qnm k c ^ 2))
    + Rsum (3 * natoms r) (fun c => if is_open (openp r) c then Rsum n (fun k => m3 r c * (o_omegak (wn r) n k ^ 2 - omegak (wn r) n k ^ 2) * qnm k c ^ 2) else 0)) * (1 / 2)).
  - f_equal. f_equal.
    + rewrite Rsum_swap. apply Rsum_ext. intros k _. rewrite <- Rsum_scal. apply Rsum_ext. intros c _.
      rewrite Rpow_mult_distr. replace (sqrt (m3 r c) ^ 2) with (m3 r c); [ring|]. rewrite pow2_sqrt; [easy|].
      apply Rlt_le, Hm.
    + rewrite Rsum_three. apply Rsum_ext. intros j Hj. unfold is_open, m3.
      rewrite !third, third0 by lia. destruct (existsb (Nat.eqb j) (openp r)); [|ring].
      rewrite <- !Rsum_plus. apply Rsum_ext. intros. ring.
  - rewrite <- Rsum_plus, <- Rsum_scal_r. apply Rsum_ext. intros c _. unfold eva, omegak, o_omegak.
    destruct (is_open (openp r) c).
    + rewrite <- Rsum_plus, <- Rsum_scal_r. apply Rsum_ext. intros; field.
    + rewrite Rplus_0_r, <- Rsum_scal_r. apply Rsum_ext. intros; field.
Qed.
