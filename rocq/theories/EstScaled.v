(** * Scaled coordinates *)
From Coq Require Import String Ascii List Reals Lra Lia Arith Bool ZArith.
From Verif Require Import RSum NMModel SCModel TextLib ValModel ValProps EstModel EstLib EstKin EstDisp EstThermo.
Import ListNotations.
Open Scope R_scope.

Section Scaled.
Variables (Cell : Type) (V : mat -> Cell -> R) (Vsc : mat -> Cell -> R).
Notation yama_loop := (yama_loop Cell).

(** ** The loop ends *)
Theorem yama_ends n E s h fd d : d <= 2 ^ n * minfid -> exists r, yama_loop (S n) E s h fd d = Some r.
Proof.
  revert d. induction n as [|n IH]; intros d Hd.
  - cbn [EstDisp.yama_loop]. destruct (if Rlt_dec fd 0 then _ else _); [|eauto]. destruct (Rlt_dec minfid d); [cbn in Hd; lra|eauto].
  - assert (H : d * (1 / 2) <= 2 ^ n * minfid) by (cbn [pow] in Hd; lra). destruct (IH _ H) as [r Hr].
    set (k := S n) in *. cbn [EstDisp.yama_loop]. destruct (if Rlt_dec fd 0 then _ else _); [|eauto]. destruct (Rlt_dec minfid d); eauto.
Qed.
(** Some number of rounds is enough for every displacement. *)
Theorem yama_always_ends E s h fd d : exists n r, yama_loop (S n) E s h fd d = Some r.
Proof.
  assert (M : 0 < minfid) by (unfold minfid; apply Rinv_0_lt_compat, pow_lt; lra).
  destruct (Pow_x_infinity 2 ltac:(rewrite Rabs_pos_eq; lra) (d / minfid)) as [n Hn]. exists n. apply yama_ends. specialize (Hn n (le_n n)).
  rewrite Rabs_pos_eq in Hn by (apply pow_le; lra). apply Rge_le in Hn. apply Rmult_le_compat_r with (r := minfid) in Hn; [|lra].
  replace (d / minfid * minfid) with d in Hn by (field; lra). exact Hn.
Qed.
(** With a positive displacement one round. *)
Lemma yama_positive n E s h fd : 0 < fd -> yama_loop (S n) E s h fd (Rabs fd) = yama_loop 1 E s h fd fd.
Proof. intros H. rewrite Rabs_right by lra. cbn [EstDisp.yama_loop]. destruct (Rlt_dec fd 0); [lra|easy]. Qed.

(** ** The limit of small displacements is the virial energy *)
Lemma sqrt_close x e : 0 < e -> exists d, 0 < d /\ d <= 1 / 2 /\ forall t, Rabs t < d -> Rabs (sqrt (x + t) - sqrt x) < e \/ x <= 1 / 2.
Proof.
  intros He. destruct (Rle_dec x (1 / 2)) as [L|L].
  - exists (1 / 2). split; [lra|]. split; [lra|]. intros. now right.
  - destruct (continuity_pt_sqrt x ltac:(lra) e He) as (d & Hd & H). exists (Rmin d (1 / 2)). split; [apply Rmin_glb_lt; lra|]. split; [apply Rmin_r|].
    intros t Ht. left. destruct (Req_EM_T t 0) as [->|N]; [rewrite Rplus_0_r; replace (sqrt x - sqrt x) with 0 by ring; rewrite Rabs_R0; easy|].
    apply (H (x + t)). split; [split; [easy|lra]|]. cbn. unfold R_dist. replace (x + t - x) with t by ring. eapply Rlt_le_trans; [exact Ht|apply Rmin_l].
Qed.
(** h(d) = (1 + d) g(sqrt(1 + d)) *)
Lemma scaled_derivative g l : derivable_pt_lim g 1 l ->
  derivable_pt_lim (fun d => (1 + d) * g (sqrt (1 + d))) 0 (g 1 + l / 2).
Proof.
  intros H. assert (S1 : sqrt (1 + 0) = 1) by (rewrite Rplus_0_r; apply sqrt_1).
  assert (D1 : derivable_pt_lim (fun d => 1 + d) 0 1).
  { eapply derivable_eq; [|apply d_plus; [apply d_const|apply d_id]]. ring. }
  assert (D2 : derivable_pt_lim (fun d => sqrt (1 + d)) 0 (/ 2)).
  { eapply derivable_eq; [|apply (derivable_pt_lim_comp (fun d => 1 + d) sqrt 0 1 (/ (2 * sqrt (1 + 0)))); [exact D1|apply derivable_pt_lim_sqrt; lra]].
    rewrite S1. field. }
  assert (D3 : derivable_pt_lim (fun d => g (sqrt (1 + d))) 0 (l * / 2)).
  { apply (derivable_pt_lim_comp (fun d => sqrt (1 + d)) g 0 (/ 2) l); [exact D2|]. now rewrite S1. }
  eapply derivable_eq; [|apply (derivable_pt_lim_mult (fun d => 1 + d) (fun d => g (sqrt (1 + d))) 0 1 (l * / 2)); [exact D1|exact D3]].
  rewrite S1. field.
Qed.
Lemma symmetric_difference f l : derivable_pt_lim f 0 l ->
  forall e, 0 < e -> exists d0, 0 < d0 /\ forall d, 0 < d < d0 -> Rabs ((f d - f (- d)) / (2 * d) - l) < e.
Proof.
  intros H e He. destruct (H e He) as [d0 Hd]. exists d0. split; [apply cond_pos|]. intros d Hh.
  pose proof (Hd d ltac:(lra) ltac:(rewrite Rabs_right; lra)) as A. pose proof (Hd (- d) ltac:(lra) ltac:(rewrite Rabs_left; lra)) as B.
  rewrite !Rplus_0_l in A, B.
  replace ((f d - f (- d)) / (2 * d) - l) with (/ 2 * ((f d - f 0) / d - l) + / 2 * ((f (- d) - f 0) / - d - l)) by (field; lra).
  eapply Rle_lt_trans; [apply Rabs_triang|]. rewrite !Rabs_mult, (Rabs_right (/ 2)) by lra. lra.
Qed.

(** The derivative of the energy along the scaling, in terms of a force [f]. *)
Definition force_along (E : mat -> Cell -> R) (s : sys) (h : Cell) (f : mat) : Prop :=
  derivable_pt_lim (fun x => E (scale_all s x) h) 1 (- Rsum (nb s) (fun b => Rsum (3 * na s) (fun c => dev s b c * f b c))).
(** Kinetic energy of the centroid virial formula with force f *)
Definition virial_energy (s : sys) (f : mat) : R :=
  Rsum (nb s) (fun b => Rsum (3 * na s) (fun c => dev s b c * f b c)) * (- (1 / 2) / INR (nb s)) + 3 / 2 * INR (na s) * kT s.

Lemma scale_one s : scale_all s 1 = qq s \/ forall b c, scale_all s 1 b c = qq s b c.
Proof. right. intros. unfold scale_all. ring. Qed.

Theorem yama_limit E s h f : (0 < nb s)%nat -> 0 < kT s -> E (scale_all s 1) h = E (qq s) h -> force_along E s h f ->
  forall e, 0 < e -> exists d0, 0 < d0 /\ forall d, 0 < d < d0 ->
  exists v v', yama_loop 1 E s h d d = Some (v, v') /\ Rabs (v - (virial_energy s f + E (qq s) h / INR (nb s))) < e.
Proof.
  intros Hn HT H1 Hf e He. assert (P : 0 < INR (nb s)) by now apply lt_0_INR.
  pose proof (scaled_derivative _ _ Hf) as D.
  destruct (symmetric_difference _ _ D (e * INR (nb s)) ltac:(nra)) as (d0 & Hd0 & Hd). exists d0. split; [easy|]. intros d Hh.
  specialize (Hd d Hh). cbn [EstDisp.yama_loop]. destruct (Rlt_dec d 0); [lra|]. do 2 eexists. split; [reflexivity|].
  cbv beta in Hd. rewrite H1 in Hd.
  set (A := E (scale_all s (sqrt (1 + d))) h) in *. set (B := E (scale_all s (sqrt (1 - d))) h) in *.
  replace (E (scale_all s (sqrt (1 + - d))) h) with B in Hd by (unfold B; do 3 f_equal; ring).
  match type of Hd with Rabs ?X < _ => set (W := X) in * end.
  match goal with |- Rabs ?X < e => replace X with (W / INR (nb s)) end.
  - unfold Rdiv. rewrite Rabs_mult, (Rabs_right (/ _)) by (left; now apply Rinv_0_lt_compat).
    apply Rmult_lt_reg_r with (INR (nb s)); [easy|]. rewrite Rmult_assoc, Rinv_l by lra. lra.
  - unfold W, virial_energy. destruct (kT_nz _ HT). unfold kT. field. repeat split; try lra.
Qed.

(** ** kinetic_cv + potential is the limit of the scaled-coordinates energy *)
Lemma kincv_virial_energy s : bosons s = [] -> get_kincv s [] = Some (virial_energy s (ff s)).
Proof.
  intros H. rewrite kincv_sum, resolve_nil by easy. f_equal. rewrite sum_over_all. unfold kcv1, virial_energy.
  rewrite Rsum_plus, Rsum_const, Rsum_scal_r, Rsum_swap. f_equal; [|ring]. f_equal. apply Rsum_ext. intros b _. now rewrite Rsum_3.
Qed.
Theorem scaledcoords_limit s h a : (0 < nb s)%nat -> 0 < kT s -> bosons s = [] ->
  V (scale_all s 1) h = V (qq s) h -> force_along V s h (ff s) ->
  exists k, get_kincv s [] = Some k /\
  forall e, 0 < e -> exists d0, 0 < d0 /\ forall d, 0 < d < d0 ->
  exists v v', get_yama Cell V 1 s h a d = Some (v, v') /\ Rabs (v - (k + V (qq s) h / INR (nb s))) < e.
Proof.
  intros Hn HT Hb H1 Hf. exists (virial_energy s (ff s)). split; [now apply kincv_virial_energy|]. intros e He.
  destruct (yama_limit V s h (ff s) Hn HT H1 Hf e He) as (d0 & Hd0 & H). exists d0. split; [easy|]. intros d Hd.
  destruct (H d Hd) as (v & v' & E & A). exists v, v'. split; [|easy]. unfold get_yama. rewrite yama_positive by easy. easy.
Qed.

(** Suzuki-Chin: the scaled-coordinates energy misses twice the average of the |f|^2 term, which depends on
    the temperature through omegan2. *)
Definition f2_term (s : sys) (alpha : R) : R := Rsum (nb s) (fun b => coeffsc_part_2 alpha (om2 s) b * f2m s b) / INR (nb s).
Lemma sckintd_virial s alpha fsc : get_sckintd s alpha fsc [] = Some (virial_energy s (fun b c => ff s b c + fsc b c) + f2_term s alpha).
Proof.
  unfold get_sckintd. rewrite resolve_nil, sum_over_all. f_equal. unfold virial_energy, f2_term.
  rewrite Rsum_plus, Rsum_const, Rsum_scal_r, Rsum_swap.
  rewrite (Rsum_ext (nb s) (fun b => Rsum (na s) _) (fun b => Rsum (3 * na s) (fun c => dev s b c * (ff s b c + fsc b c)) - 2 * (coeffsc_part_2 alpha (om2 s) b * f2m s b))).
  - rewrite Rsum_minus, Rsum_scal. unfold kT, Rdiv. generalize (/ INR (nb s)) as y. intros y. field.
  - intros b _. rewrite Rsum_minus, <- Rsum_3. f_equal. rewrite f2m_atoms.
    rewrite (Rsum_ext (na s) _ (fun i => 2 * coeffsc_part_2 alpha (om2 s) b * (sum3 i (fun c => ff s b c ^ 2) / ms s i))).
    + rewrite Rsum_scal. ring.
    + intros i _. unfold coeffsc_part_2, sum3. destruct (even_b b); unfold Rdiv; ring.
Qed.
Theorem sc_scaledcoords_limit s h a alpha fsc : (0 < nb s)%nat -> 0 < kT s ->
  V (qq s) h = Rsum (nb s) (pot1 s) -> Vsc (qq s) h = Rsum (nb s) (potssc s alpha) ->
  V (scale_all s 1) h + Vsc (scale_all s 1) h = V (qq s) h + Vsc (qq s) h ->
  force_along (fun q h => V q h + Vsc q h) s h (fun b c => ff s b c + fsc b c) ->
  exists k, get_sckintd s alpha fsc [] = Some k /\
  forall e, 0 < e -> exists d0, 0 < d0 /\ forall d, 0 < d < d0 ->
  exists v v', get_scyama Cell V Vsc 1 s h a d = Some (v, v') /\
  Rabs (v - (k + get_scpottd s alpha - 2 * f2_term s alpha)) < e.
Proof.
  intros Hn HT HV HS H1 Hf. eexists. split; [apply sckintd_virial|]. intros e He.
  destruct (yama_limit (fun q h => V q h + Vsc q h) s h _ Hn HT H1 Hf e He) as (d0 & Hd0 & H). exists d0. split; [easy|]. intros d Hd.
  destruct (H d Hd) as (v & v' & E & A). exists v, v'. split.
  - unfold get_scyama. rewrite yama_positive by easy. easy.
  - cbv beta in A. rewrite HV, HS in A.
    replace (virial_energy s (fun b c => ff s b c + fsc b c) + f2_term s alpha + get_scpottd s alpha - 2 * f2_term s alpha) with
      (virial_energy s (fun b c => ff s b c + fsc b c) + (Rsum (nb s) (pot1 s) + Rsum (nb s) (potssc s alpha)) / INR (nb s)); [easy|].
    rewrite scpottd_split. unfold f2_term. rewrite <- Rsum_plus.
    rewrite (Rsum_ext (nb s) (fun b => pot1 s b + potssc s alpha b) (fun b => (if even_b b then 2 / 3 else 4 / 3) * pot1 s b + coeffsc_part_2 alpha (om2 s) b * f2m s b)).
    + rewrite Rsum_plus. unfold Rdiv. ring.
    + intros b _. unfold potssc, coeffsc_part_1. destruct (even_b b); field.
Qed.

(** ** Harmonic potentials: exact for every displacement *)
Theorem scaledcoords_harmonic s h a c0 c2 n fd : (0 < nb s)%nat -> 0 < kT s -> bosons s = [] -> fd <> 0 -> Rabs fd <= 1 ->
  (forall x, V (scale_all s x) h = c0 + c2 * x ^ 2) -> V (qq s) h = V (scale_all s 1) h -> force_along V s h (ff s) ->
  exists k, get_kincv s [] = Some k /\
  get_yama Cell V (S n) s h a fd = Some (k + V (qq s) h / INR (nb s), 2 * c2 / INR (nb s) * kT s - 3 / 2 * INR (na s) * kT s ^ 2).
Proof.
  intros Hn HT Hb Hfd H1 HV HQ Hf. eexists. split; [now apply kincv_virial_energy|].
  assert (P : 0 < INR (nb s)) by now apply lt_0_INR.
  assert (L : - Rsum (nb s) (fun b => Rsum (3 * na s) (fun c => dev s b c * ff s b c)) = 2 * c2).
  { apply (uniqueness_limite (fun x => V (scale_all s x) h) 1); [exact Hf|].
    apply derivable_ext with (fun x => c0 + c2 * x ^ 2); [intros; now rewrite HV|].
    eapply derivable_eq; [|apply d_plus; [apply d_const|apply d_scal, (derivable_pt_lim_pow 1 2)]]. cbn. ring. }
  unfold get_yama. cbn [dh EstDisp.yama_loop]. rewrite HQ, !HV.
  assert (A : 0 < Rabs fd) by now apply Rabs_pos_lt. set (d := Rabs fd) in *.
  rewrite !pow2_sqrt by lra.
  assert (T : too_far ((c0 + c2 * (1 + d)) / INR (nb s)) ((c0 + c2 * (1 - d)) / INR (nb s)) ((c0 + c2 * 1 ^ 2) / INR (nb s)) fderror = false).
  { unfold too_far. replace ((c0 + c2 * (1 + d)) / INR (nb s) + (c0 + c2 * (1 - d)) / INR (nb s) - 2 * ((c0 + c2 * 1 ^ 2) / INR (nb s))) with 0 by (field; lra).
    destruct Req_EM_T; [destruct Req_EM_T; easy|]. unfold Rdiv. rewrite Rmult_0_l, Rabs_R0.
    destruct Rlt_dec as [X|]; [|easy]. unfold fderror in X. assert (0 < / 10 ^ 5) by (apply Rinv_0_lt_compat; lra). lra. }
  rewrite T. replace (if Rlt_dec fd 0 then false else false) with false by now destruct Rlt_dec.
  f_equal. unfold virial_energy. set (W := Rsum (nb s) _) in *. destruct (kT_nz _ HT). f_equal.
  - replace W with (- (2 * c2)) by lra. unfold kT. field. lra.
  - unfold kT. field. lra.
Qed.
End Scaled.
