(** * The estimators are the derivatives of the path-integral action

    The action is minus the logarithm of the weight of a path at the inverse temperature beta, with its
    prefactor: (m P / (2 pi beta hbar^2))^(3 P / 2) for every atom.  The energy is its derivative with
    respect to beta, the kinetic energy of an atom is -kT m times its derivative with respect to the mass. *)
From Coq Require Import String Ascii List Reals Lra Lia Arith Bool ZArith.
From Verif Require Import RSum NMModel SCModel TextLib ValModel ValProps SpringModel SpringProps EstModel EstLib EstKin EstDisp.
Import ListNotations.
Open Scope R_scope.

(** omegan = P kT / hbar *)
Definition omega2 (P : nat) (hbar beta : R) : R := (INR P / (beta * hbar)) ^ 2.
(** second-order (Trotter) action; constants in beta and m left out *)
Definition action (s : sys) (hbar : R) (m : nat -> R) (beta : R) : R :=
  beta / INR (nb s) * (Rsum (na s) (fun i => 1 / 2 * m i * omega2 (nb s) hbar beta * ring2 s i) + Rsum (nb s) (pot1 s))
  + 3 / 2 * INR (na s) * INR (nb s) * ln beta - 3 / 2 * INR (nb s) * Rsum (na s) (fun i => ln (m i)).
(** fourth-order (Suzuki-Chin) action: even beads 2/3 V + alpha/9 f^2/(m omega^2), odd beads
    4/3 V + (1-alpha)/9 f^2/(m omega^2) *)
Definition sc_f2 (alpha : R) (s : sys) (m : nat -> R) (hbar beta : R) (b : nat) : R :=
  (if even_b b then alpha else 1 - alpha) / 9 / omega2 (nb s) hbar beta * Rsum (na s) (fun i => sum3 i (fun c => ff s b c ^ 2) / m i).
Definition sc_action (s : sys) (alpha hbar : R) (m : nat -> R) (beta : R) : R :=
  beta / INR (nb s) * (Rsum (na s) (fun i => 1 / 2 * m i * omega2 (nb s) hbar beta * ring2 s i)
    + Rsum (nb s) (fun b => (if even_b b then 2 / 3 else 4 / 3) * pot1 s b + sc_f2 alpha s m hbar beta b))
  + 3 / 2 * INR (na s) * INR (nb s) * ln beta - 3 / 2 * INR (nb s) * Rsum (na s) (fun i => ln (m i)).

Record at_beta (s : sys) (hbar : R) : Prop := {
  t_nb : (0 < nb s)%nat; t_kT : 0 < kT s; t_h : 0 < hbar; t_om : om2 s = omega2 (nb s) hbar (/ kT s);
  t_m : forall i, (i < na s)%nat -> 0 < ms s i; t_bos : bosons s = [] }.

Lemma kT_nz s : 0 < kT s -> kb s <> 0 /\ temp s <> 0.
Proof. unfold kT. intros H. split; intros Z; rewrite Z in H; lra. Qed.
Lemma d_id x : derivable_pt_lim (fun t => t) x 1.
Proof. apply derivable_pt_lim_id. Qed.
Lemma d_ln x : 0 < x -> derivable_pt_lim ln x (/ x).
Proof. apply derivable_pt_lim_ln. Qed.
Lemma d_inv x : x <> 0 -> derivable_pt_lim (fun t => / t) x (- / x ^ 2).
Proof.
  intros H. apply derivable_ext with (fun t => 1 / t); [intros; unfold Rdiv; ring|].
  apply derivable_eq with ((0 * x - 1 * 1) / Rsqr x); [unfold Rsqr; now field|].
  apply (derivable_pt_lim_div (fun _ => 1) (fun t => t) x 0 1); [apply derivable_pt_lim_const|apply d_id|easy].
Qed.
Lemma d_scal c f x l : derivable_pt_lim f x l -> derivable_pt_lim (fun t => c * f t) x (c * l).
Proof. intros H. now apply (derivable_pt_lim_scal f c x l). Qed.
Lemma d_plus f g x l l' : derivable_pt_lim f x l -> derivable_pt_lim g x l' -> derivable_pt_lim (fun t => f t + g t) x (l + l').
Proof. apply derivable_pt_lim_plus. Qed.
Lemma d_minus f g x l l' : derivable_pt_lim f x l -> derivable_pt_lim g x l' -> derivable_pt_lim (fun t => f t - g t) x (l - l').
Proof. apply derivable_pt_lim_minus. Qed.
Lemma d_const c x : derivable_pt_lim (fun _ => c) x 0.
Proof. apply derivable_pt_lim_const. Qed.
Lemma derivable_near f g x l d : 0 < d -> (forall t, Rabs (t - x) < d -> f t = g t) -> derivable_pt_lim f x l -> derivable_pt_lim g x l.
Proof.
  intros Hd E H e He. destruct (H e He) as [d' Hd']. assert (Hm : 0 < Rmin d d') by (apply Rmin_glb_lt; [easy|apply cond_pos]).
  exists (mkposreal _ Hm). intros h Hh Hl. cbn in Hl. rewrite <- !E.
  - apply Hd'; [easy|]. eapply Rlt_le_trans; [exact Hl|apply Rmin_r].
  - replace (x - x) with 0 by ring. now rewrite Rabs_R0.
  - replace (x + h - x) with h by ring. eapply Rlt_le_trans; [exact Hl|apply Rmin_l].
Qed.
Lemma near_pos x t : 0 < x -> Rabs (t - x) < x -> 0 < t.
Proof. intros H A. apply Rabs_def2 in A. lra. Qed.

(** The energy: kinetic_td + potential is the derivative with respect to beta. *)
Theorem kintd_is_energy s hbar : at_beta s hbar ->
  exists k, get_kintd s [] = Some k /\
  derivable_pt_lim (action s hbar (ms s)) (/ kT s) (k + Rsum (nb s) (pot1 s) / INR (nb s)).
Proof.
  intros T. assert (P : 0 < INR (nb s)) by apply lt_0_INR, T. assert (K := t_kT _ _ T). assert (H := t_h _ _ T).
  rewrite kintd_sum, resolve_nil by apply T. eexists. split; [reflexivity|]. rewrite sum_over_all.
  assert (B : 0 < / kT s) by now apply Rinv_0_lt_compat.
  set (sp := Rsum (na s) (fun i => 1 / 2 * ms s i * ring2 s i)).
  apply derivable_near with (f := fun beta => INR (nb s) / hbar ^ 2 * sp * / beta + Rsum (nb s) (pot1 s) / INR (nb s) * beta
     + 3 / 2 * INR (na s) * INR (nb s) * ln beta - 3 / 2 * INR (nb s) * Rsum (na s) (fun i => ln (ms s i))) (d := / kT s).
  - easy.
  - intros t Ht. apply near_pos in Ht; [|easy]. unfold action. f_equal. f_equal.
    rewrite (Rsum_ext (na s) (fun i => 1 / 2 * ms s i * omega2 (nb s) hbar t * ring2 s i) (fun i => omega2 (nb s) hbar t * (1 / 2 * ms s i * ring2 s i)))
      by (intros; ring). rewrite Rsum_scal. fold sp. unfold omega2. field. lra.
  - eapply derivable_eq; [|apply d_minus; [apply d_plus; [apply d_plus; [apply d_scal, d_inv; lra|apply d_scal, d_id]|apply d_scal, d_ln; lra]|apply d_const]].
    unfold ktd1. rewrite Rsum_plus, Rsum_const.
    rewrite (Rsum_ext (na s) (fun i => ring2 s i * _) (fun i => - om2 s / INR (nb s) * (1 / 2 * ms s i * ring2 s i))) by (intros; field; lra).
    rewrite Rsum_scal. fold sp. rewrite (t_om _ _ T). unfold omega2. destruct (kT_nz _ K). unfold kT in *. field. repeat split; lra.
Qed.

(** Atom by atom: the derivative with respect to the mass. *)
Definition upd (m : nat -> R) (i : nat) (x : R) : nat -> R := fun j => if (j =? i)%nat then x else m j.
Theorem kintd_is_mass_derivative s hbar i : at_beta s hbar -> (i < na s)%nat -> (forall j, (j < na s)%nat -> lab s j <> []) ->
  exists k, get_kintd s (show_z (Z.of_nat i)) = Some k /\
  derivable_pt_lim (fun mu => action s hbar (upd (ms s) i mu) (/ kT s)) (ms s i) (- k / (kT s * ms s i)).
Proof.
  intros T Hi Hl. assert (P : 0 < INR (nb s)) by apply lt_0_INR, T. assert (K := t_kT _ _ T). assert (H := t_h _ _ T). assert (M := t_m _ _ T i Hi).
  rewrite kintd_sum, resolve_index by (easy || apply T). eexists. split; [reflexivity|]. rewrite sum_over_index by easy.
  unfold action.
  apply derivable_eq with (/ kT s / INR (nb s) * (Rsum (na s) (fun j => if (j =? i)%nat then 1 / 2 * omega2 (nb s) hbar (/ kT s) * ring2 s j else 0) + 0)
     + 0 - 3 / 2 * INR (nb s) * Rsum (na s) (fun j => if (j =? i)%nat then / ms s i else 0)).
  - rewrite !(Rsum_delta _ i) by (try easy; intros j _ N; destruct (Nat.eqb_spec j i); congruence). rewrite Nat.eqb_refl.
    unfold ktd1. rewrite (t_om _ _ T). destruct (kT_nz _ K). unfold kT in *. field. repeat split; lra.
  - apply d_minus; [apply d_plus; [apply d_scal, d_plus; [|apply d_const]|apply d_const]|apply d_scal].
    + apply derivable_Rsum. intros j _. unfold upd. destruct (Nat.eqb_spec j i) as [->|N].
      * apply derivable_ext with (fun t => 1 / 2 * omega2 (nb s) hbar (/ kT s) * ring2 s i * t); [intros; ring|].
        eapply derivable_eq; [|apply d_scal, d_id]. ring.
      * apply d_const.
    + apply (derivable_Rsum (na s) (fun j t => ln (upd (ms s) i t j)) (fun j => if (j =? i)%nat then / ms s i else 0)). intros j _. unfold upd. destruct (Nat.eqb_spec j i) as [->|N].
      * now apply d_ln.
      * apply d_const.
Qed.

(** Suzuki-Chin: kinetic_prsc + potential_tdsc is the energy, kinetic_prsc the derivative with respect to
    the masses. *)
Definition springs (s : sys) : R := Rsum (na s) (fun i => 1 / 2 * ms s i * om2 s * ring2 s i).
Lemma f2m_atoms s b : f2m s b = Rsum (na s) (fun i => sum3 i (fun c => ff s b c ^ 2) / ms s i).
Proof.
  unfold f2m. rewrite Rsum_3. apply Rsum_ext. intros i _. unfold sum3.
  replace (3 * i / 3)%nat with i by (rewrite <- (Nat.add_0_r (3 * i)), div3; lia). rewrite !div3 by lia. unfold Rdiv. ring.
Qed.
Lemma potssc_part s alpha b :
  (if even_b b then potssc s alpha b + pot1 s b / 3 else potssc s alpha b - pot1 s b / 3) = coeffsc_part_2 alpha (om2 s) b * f2m s b.
Proof. unfold potssc, coeffsc_part_1. destruct (even_b b); field. Qed.
Lemma scpottd_split s alpha : get_scpottd s alpha =
  Rsum (nb s) (fun b => (if even_b b then 2 / 3 else 4 / 3) * pot1 s b) / INR (nb s)
  + 2 * Rsum (nb s) (fun b => coeffsc_part_2 alpha (om2 s) b * f2m s b) / INR (nb s).
Proof.
  unfold get_scpottd. rewrite (Rsum_ext _ _ (fun b => (if even_b b then 2 / 3 else 4 / 3) * pot1 s b + 2 * (coeffsc_part_2 alpha (om2 s) b * f2m s b))).
  - rewrite Rsum_plus, Rsum_scal. unfold Rdiv. ring.
  - intros b _. rewrite <- potssc_part. destruct (even_b b); field.
Qed.
Lemma sckinpr_split s alpha vs : get_sckinpr s alpha vs =
  3 / 2 * kT s * INR (nb s) * INR (na s) - vs / INR (nb s) + Rsum (nb s) (fun b => coeffsc_part_2 alpha (om2 s) b * f2m s b) / INR (nb s).
Proof.
  unfold get_sckinpr, kT. rewrite (Rsum_ext (nb s) (fun b => if even_b b then _ else _) (fun b => coeffsc_part_2 alpha (om2 s) b * f2m s b))
    by (intros; apply potssc_part). ring.
Qed.
Theorem sc_energy s alpha hbar : at_beta s hbar ->
  derivable_pt_lim (sc_action s alpha hbar (ms s)) (/ kT s) (get_sckinpr s alpha (springs s) + get_scpottd s alpha).
Proof.
  intros T. assert (P : 0 < INR (nb s)) by apply lt_0_INR, T. assert (K := t_kT _ _ T). assert (H := t_h _ _ T).
  assert (B : 0 < / kT s) by now apply Rinv_0_lt_compat.
  rewrite sckinpr_split, scpottd_split.
  set (sp := Rsum (na s) (fun i => 1 / 2 * ms s i * ring2 s i)).
  set (V := Rsum (nb s) (fun b => (if even_b b then 2 / 3 else 4 / 3) * pot1 s b)).
  set (G := Rsum (nb s) (fun b => (if even_b b then alpha else 1 - alpha) / 9 * f2m s b)).
  assert (Hs : springs s = om2 s * sp).
  { unfold springs, sp. rewrite <- Rsum_scal. apply Rsum_ext. intros. ring. }
  assert (HG : Rsum (nb s) (fun b => coeffsc_part_2 alpha (om2 s) b * f2m s b) = / om2 s * G).
  { unfold G. rewrite <- Rsum_scal. apply Rsum_ext. intros b _. unfold coeffsc_part_2. destruct (even_b b); unfold Rdiv; ring. }
  rewrite Hs, HG.
  apply derivable_near with (f := fun beta => INR (nb s) / hbar ^ 2 * sp * / beta + V / INR (nb s) * beta + hbar ^ 2 / INR (nb s) ^ 3 * G * beta ^ 3
     + 3 / 2 * INR (na s) * INR (nb s) * ln beta - 3 / 2 * INR (nb s) * Rsum (na s) (fun i => ln (ms s i))) (d := / kT s).
  - easy.
  - intros t Ht. apply near_pos in Ht; [|easy]. unfold sc_action. f_equal. f_equal.
    rewrite (Rsum_ext (na s) (fun i => 1 / 2 * ms s i * omega2 (nb s) hbar t * ring2 s i) (fun i => omega2 (nb s) hbar t * (1 / 2 * ms s i * ring2 s i)))
      by (intros; ring). rewrite Rsum_scal. fold sp. rewrite Rsum_plus. fold V.
    replace (Rsum (nb s) (sc_f2 alpha s (ms s) hbar t)) with (/ omega2 (nb s) hbar t * G).
    + unfold omega2. field. lra.
    + unfold G. rewrite <- Rsum_scal. apply Rsum_ext. intros b _. unfold sc_f2. rewrite <- f2m_atoms. unfold Rdiv. ring.
  - eapply derivable_eq; [|apply d_minus; [apply d_plus; [apply d_plus; [apply d_plus; [apply d_scal, d_inv; lra|apply d_scal, d_id]|apply d_scal, (derivable_pt_lim_pow _ 3)]|apply d_scal, d_ln; lra]|apply d_const]].
    rewrite (t_om _ _ T). unfold omega2. cbn [pred INR]. destruct (kT_nz _ K). unfold kT in *. field. repeat split; lra.
Qed.
Theorem sckinpr_is_mass_derivative s alpha hbar : at_beta s hbar ->
  derivable_pt_lim (fun lam => sc_action s alpha hbar (fun i => lam * ms s i) (/ kT s)) 1 (- get_sckinpr s alpha (springs s) / kT s).
Proof.
  intros T. assert (P : 0 < INR (nb s)) by apply lt_0_INR, T. assert (K := t_kT _ _ T). assert (H := t_h _ _ T).
  rewrite sckinpr_split.
  set (V := Rsum (nb s) (fun b => (if even_b b then 2 / 3 else 4 / 3) * pot1 s b)).
  set (G := Rsum (nb s) (fun b => coeffsc_part_2 alpha (om2 s) b * f2m s b)).
  apply derivable_near with (f := fun lam => / kT s / INR (nb s) * springs s * lam + / kT s / INR (nb s) * G * / lam - 3 / 2 * INR (nb s) * INR (na s) * ln lam
     + (/ kT s / INR (nb s) * V + 3 / 2 * INR (na s) * INR (nb s) * ln (/ kT s) - 3 / 2 * INR (nb s) * Rsum (na s) (fun i => ln (ms s i)))) (d := 1).
  - lra.
  - intros t Ht. apply near_pos in Ht; [|lra]. unfold sc_action. rewrite <- (t_om _ _ T).
    rewrite (Rsum_ext (na s) (fun i => 1 / 2 * (t * ms s i) * om2 s * ring2 s i) (fun i => t * (1 / 2 * ms s i * om2 s * ring2 s i))) by (intros; ring).
    rewrite Rsum_scal. fold (springs s). rewrite Rsum_plus. fold V.
    rewrite (Rsum_ext (na s) (fun i => ln (t * ms s i)) (fun i => ln t + ln (ms s i))) by (intros; apply ln_mult; [easy|now apply (t_m _ _ T)]).
    rewrite Rsum_plus, Rsum_const.
    replace (Rsum (nb s) (sc_f2 alpha s (fun i => t * ms s i) hbar (/ kT s))) with (/ t * G); [ring|].
    unfold G. rewrite <- Rsum_scal. apply Rsum_ext. intros b _. unfold sc_f2, coeffsc_part_2. rewrite <- (t_om _ _ T), f2m_atoms.
    rewrite (Rsum_ext (na s) (fun i => sum3 i (fun c => ff s b c ^ 2) / (t * ms s i)) (fun i => / t * (sum3 i (fun c => ff s b c ^ 2) / ms s i))).
    + rewrite Rsum_scal. destruct (even_b b); unfold Rdiv; ring.
    + intros i Hi. pose proof (t_m _ _ T i Hi). field. lra.
  - eapply derivable_eq; [|apply d_plus; [apply d_minus; [apply d_plus; [apply d_scal, d_id|apply d_scal, d_inv; lra]|apply d_scal, d_ln; lra]|apply d_const]].
    cbv beta. field. lra.
Qed.
