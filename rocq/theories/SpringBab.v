(** * Theorems of record: the Cartesian ("bab") ring-polymer propagator *)
From Coq Require Import List Reals ZArith Lra Lia Arith Bool.
From Verif Require Import RSum Ortho NMModel NMProofs NMProps SpringModel SpringProofs SpringProps.
Import ListNotations.
Open Scope R_scope.

Lemma iterS {A} n (f : A -> A) x : Nat.iter (S n) f x = f (Nat.iter n f x).
Proof. reflexivity. Qed.
Lemma iterS_r {A} n (f : A -> A) x : Nat.iter (S n) f x = Nat.iter n f (f x).
Proof. induction n as [|n IH]; [easy|]. rewrite iterS, IH. reflexivity. Qed.

(** Mode coordinates of a state of the beads. *)
Definition modes (r : ring) (s : mat * mat) (k c : nat) : R * R :=
  (nm_trans_b2nm (nbeads r) (openp r) (fst s) k c, nm_trans_b2nm (nbeads r) (openp r) (snd s) k c).
(** One velocity-Verlet step of a harmonic oscillator of mass [m] and frequency [om]. *)
Definition verlet (m om h : R) (s : R * R) : R * R :=
  let p1 := fst s + h / 2 * (- (m * om ^ 2) * snd s) in
  let q1 := snd s + h * (p1 / m) in
  (p1 + h / 2 * (- (m * om ^ 2) * q1), q1).

Lemma b2nm_linear n open x y a k c :
  nm_trans_b2nm n open (fun b c => x b c + a * y b c) k c = nm_trans_b2nm n open x k c + a * nm_trans_b2nm n open y k c.
Proof. unfold nm_trans_b2nm, app. rewrite <- Rsum_scal, <- Rsum_plus. apply Rsum_ext. intros; ring. Qed.
Lemma b2nm_ext n open x y k c : (forall b, (b < n)%nat -> x b c = y b c) -> nm_trans_b2nm n open x k c = nm_trans_b2nm n open y k c.
Proof. intros H. unfold nm_trans_b2nm, app. apply Rsum_ext. intros b Hb. now rewrite H. Qed.
Lemma b2nm_scale n open x (a : nat -> R) k c : nm_trans_b2nm n open (fun b c => a c * x b c) k c = a c * nm_trans_b2nm n open x k c.
Proof. unfold nm_trans_b2nm, app. rewrite <- Rsum_scal. apply Rsum_ext. intros; ring. Qed.
Lemma fspring_modes r q k c : sound r -> nbeads r <> 1%nat -> (k < nbeads r)%nat ->
  nm_trans_b2nm (nbeads r) (openp r) (fspring r q) k c = - (m3 r c * om_of r k c ^ 2) * nm_trans_b2nm (nbeads r) (openp r) q k c.
Proof.
  intros Hs Hn Hk. unfold fspring. rewrite (proj2 (Nat.eqb_neq _ _) Hn), nm_roundtrip_modes by (try easy; apply Hs).
  unfold fspring_nm, om_of. ring.
Qed.
Lemma vv_modes r h s k c : sound r -> nbeads r <> 1%nat -> (k < nbeads r)%nat ->
  modes r (vv_step r h s) k c = verlet (m3 r c) (om_of r k c) h (modes r s k c).
Proof.
  intros Hs Hn Hk. destruct s as [p q]. pose proof (s_m r Hs (c / 3)%nat) as Hm. fold (m3 r c) in Hm.
  set (p1 := (fun b c => p b c + 1 / 2 * h * fspring r q b c) : mat). set (q1 := (fun b c => q b c + h * p1 b c / m3 r c) : mat).
  change (modes r (vv_step r h (p, q)) k c) with (nm_trans_b2nm (nbeads r) (openp r) (fun b c => p1 b c + 1 / 2 * h * fspring r q1 b c) k c, nm_trans_b2nm (nbeads r) (openp r) q1 k c).
  unfold modes, verlet. cbn [fst snd].
  assert (E1 : nm_trans_b2nm (nbeads r) (openp r) p1 k c = nm_trans_b2nm (nbeads r) (openp r) p k c + h / 2 * (- (m3 r c * om_of r k c ^ 2) * nm_trans_b2nm (nbeads r) (openp r) q k c)).
  { unfold p1. rewrite b2nm_linear, fspring_modes by easy. field. }
  assert (E2 : nm_trans_b2nm (nbeads r) (openp r) q1 k c = nm_trans_b2nm (nbeads r) (openp r) q k c + h * (nm_trans_b2nm (nbeads r) (openp r) p1 k c / m3 r c)).
  { unfold q1. rewrite (b2nm_ext _ _ _ (fun b c => q b c + h * (/ m3 r c * p1 b c))) by (intros; field; lra).
    rewrite (b2nm_linear _ _ q (fun b c => / m3 r c * p1 b c)), (b2nm_scale _ _ p1 (fun c => / m3 r c)). field. lra. }
  f_equal.
  - rewrite b2nm_linear, fspring_modes, E2, E1 by easy. field. lra.
  - now rewrite E2, E1.
Qed.
Lemma uncentroid_modes r dt s k c : sound r -> (k < nbeads r)%nat ->
  modes r (uncentroid r dt s) k c = if (k =? 0)%nat then (fst (modes r s k c), snd (modes r s k c) - fst (modes r s k c) / m3 r c * dt) else modes r s k c.
Proof.
  intros Hs Hk. unfold modes, uncentroid. cbn [fst snd]. rewrite nm_roundtrip_modes by (try easy; apply Hs).
  destruct (Nat.eqb_spec k 0) as [->|]; easy.
Qed.
Lemma iter_modes r h n s k c : sound r -> nbeads r <> 1%nat -> (k < nbeads r)%nat ->
  modes r (Nat.iter n (vv_step r h) s) k c = Nat.iter n (verlet (m3 r c) (om_of r k c) h) (modes r s k c).
Proof. intros Hs Hn Hk. induction n as [|n IH]; [easy|]. rewrite !iterS. now rewrite vv_modes, IH. Qed.
Lemma verlet_free m h n p q : 0 < m -> Nat.iter n (verlet m 0 h) (p, q) = (p, q + INR n * h * (p / m)).
Proof.
  intros Hm. induction n as [|n IH]; [cbn; f_equal; ring|]. rewrite iterS, IH. unfold verlet. cbn [fst snd]. rewrite S_INR. f_equal; field; lra.
Qed.
Lemma om_0 r c : om_of r 0 c = 0.
Proof. unfold om_of, omegak, o_omegak, nm_eva, o_nm_eva. cbn [INR]. unfold Rdiv. rewrite !Rmult_0_l, sin_0, !Rmult_0_r. now destruct (is_open _ _). Qed.

(** ** C72 *)
(** The propagator keeps the contract of free_qstep: the centroid is left alone (it is moved by
    qcstep), every internal mode takes nmts velocity-Verlet steps with its own frequency. *)
Theorem bab_step_modes r nmts dt s k c : sound r -> nbeads r <> 1%nat -> (0 < nmts)%nat -> (k < nbeads r)%nat ->
  modes r (free_babstep r nmts dt s) k c
  = if (k =? 0)%nat then modes r s k c else Nat.iter nmts (verlet (m3 r c) (om_of r k c) (dt / INR nmts)) (modes r s k c).
Proof.
  intros Hs Hn Hm Hk. unfold free_babstep. rewrite (proj2 (Nat.eqb_neq _ _) Hn), iter_modes, uncentroid_modes by easy.
  destruct (Nat.eqb_spec k 0) as [->|]; [|easy]. rewrite om_0, verlet_free by apply Hs.
  pose proof (INR_pos nmts Hm). pose proof (s_m r Hs (c / 3)%nat). unfold modes. cbn [fst snd]. f_equal. unfold m3. field. lra.
Qed.
(** A step back undoes a step, and so does a step with reversed momenta. *)
Lemma verlet_back m om h s : 0 < m -> verlet m om (- h) (verlet m om h s) = s.
Proof. intros Hm. destruct s as [p q]. unfold verlet. cbn [fst snd]. f_equal; field; lra. Qed.
Lemma verlet_flip m om h p q : 0 < m -> verlet m om h (- p, q) = (- fst (verlet m om (- h) (p, q)), snd (verlet m om (- h) (p, q))).
Proof. intros Hm. unfold verlet. cbn [fst snd]. f_equal; field; lra. Qed.
Lemma iter_verlet_back m om h n s : 0 < m -> Nat.iter n (verlet m om (- h)) (Nat.iter n (verlet m om h) s) = s.
Proof.
  intros Hm. induction n as [|n IH]; [easy|]. rewrite iterS_r, iterS, verlet_back by easy. exact IH.
Qed.
Theorem bab_step_back r nmts dt s k c : sound r -> nbeads r <> 1%nat -> (0 < nmts)%nat -> (k < nbeads r)%nat ->
  modes r (free_babstep r nmts (- dt) (free_babstep r nmts dt s)) k c = modes r s k c.
Proof.
  intros Hs Hn Hm Hk. rewrite !bab_step_modes by easy. destruct (k =? 0)%nat; [easy|].
  replace (- dt / INR nmts) with (- (dt / INR nmts)) by (unfold Rdiv; ring). apply iter_verlet_back, Hs.
Qed.
(** Beads and modes carry the same information. *)
Corollary bab_step_back_beads r nmts dt s b c : sound r -> nbeads r <> 1%nat -> (0 < nmts)%nat -> (b < nbeads r)%nat ->
  let s' := free_babstep r nmts (- dt) (free_babstep r nmts dt s) in
  fst s' b c = fst s b c /\ snd s' b c = snd s b c.
Proof.
  intros Hs Hn Hm Hb s'.
  assert (E : forall k, (k < nbeads r)%nat -> modes r s' k c = modes r s k c) by (intros; now apply bab_step_back).
  assert (G : forall x y : mat, (forall k, (k < nbeads r)%nat -> nm_trans_b2nm (nbeads r) (openp r) x k c = nm_trans_b2nm (nbeads r) (openp r) y k c) -> x b c = y b c).
  { intros x y H. rewrite <- (nm_roundtrip (nbeads r) (openp r) x b c), <- (nm_roundtrip (nbeads r) (openp r) y b c) by (try easy; apply Hs).
    unfold nm_trans_nm2b at 1 2. unfold app at 1 2. apply Rsum_ext. intros k Hk. now rewrite H. }
  split; apply G; intros k Hk; pose proof (E k Hk) as Ek; unfold modes in Ek; now injection Ek.
Qed.
(** The velocity of an internal mode is momentum over physical mass, not over the declared
    dynamical mass: the dynamical factors are ignored. *)
Theorem bab_dynamical_mass_refuted : exists r s k c l, sound r /\ (0 < k < nbeads r)%nat /\
  derivable_pt_lim (fun t => snd (modes r (free_babstep r 1 t s) k c)) 0 l /\ l <> fst (modes r s k c) / get_dynm3 r k c.
Proof.
  set (s := ((fun b _ => if (b =? 0)%nat then 1 else -1) : mat, (fun _ _ => 0) : mat)).
  assert (M : modes r_cayley s 1 0 = (sqrt 2, 0)).
  { unfold modes, nm_trans_b2nm, app. cbn [r_cayley nbeads openp is_open existsb Rsum s fst snd Nat.eqb].
    pose proof (nm_mid_row 2 0 ltac:(lia) eq_refl) as M0. pose proof (nm_mid_row 2 1 ltac:(lia) eq_refl) as M1. cbn [Nat.div Nat.divmod fst] in M0, M1.
    rewrite M0, M1. cbn [INR]. replace (PI * 0) with 0 by ring. rewrite (Rmult_1_r PI), cos_0, cos_PI. replace (1 + 1) with 2 by ring.
    assert (0 < sqrt 2) by (apply sqrt_lt_R0; lra). f_equal; [|ring]. transitivity (2 / sqrt 2); [field; lra|]. rewrite <- sq2 at 1. field. lra. }
  exists r_cayley, s, 1%nat, 0%nat, (sqrt 2). split; [apply r_cayley_sound|]. split; [cbn; lia|].
  assert (P2 : 0 < sqrt 2) by (apply sqrt_lt_R0; lra). rewrite M. cbn [fst]. split.
  - apply (derivable_ext (mult_real_fct (sqrt 2) id)).
    { intros t. rewrite bab_step_modes by (first [exact r_cayley_sound | easy | cbn [nbeads r_cayley]; lia]). cbn [Nat.eqb]. rewrite iterS. cbn [Nat.iter nat_rect]. rewrite M. unfold verlet. cbn [fst snd INR].
      unfold m3. cbn [mass r_cayley]. unfold mult_real_fct, id. field. }
    eapply derivable_eq; [|apply derivable_pt_lim_scal, derivable_pt_lim_id]. ring.
  - unfold get_dynm3, m3. cbn. lra.
Qed.

Print Assumptions bab_step_modes.
Print Assumptions bab_step_back_beads.
Print Assumptions bab_dynamical_mass_refuted.
