(** * What the estimators of properties.py satisfy, cases, and where they fail *)
From Coq Require Import String Ascii List Reals Lra Lia Arith Bool ZArith.
From Verif Require Import RSum NMModel SCModel SpringModel SpringProps TextLib ValModel ValProps CellModel CellProps
  EstModel EstLib EstKin EstTemp EstDisp EstThermo EstScaled EstIso.
Import ListNotations.
Open Scope R_scope.

(** ** Bosons *)
Lemma existsb_true_in {A} (p : A -> bool) l x : In x l -> p x = true -> existsb p l = true.
Proof. intros. apply existsb_exists. eauto. Qed.
(** A label that selects some of the bosons only is refused by both estimators. *)
Theorem some_bosons s (l : text) i j : l <> [] -> read_int l = None -> In i (bosons s) -> In j (bosons s) -> lab s i = l -> lab s j <> l ->
  get_kintd s l = None /\ get_kincv s l = None.
Proof.
  intros Hl Hr Hi Hj Li Lj. unfold get_kintd, get_kincv. rewrite resolve_label by easy.
  assert (I : included s ((-1)%Z, l) i = true) by (unfold included; cbn; rewrite teq_diff by easy; cbn; now apply teq_spec).
  assert (J : included s ((-1)%Z, l) j = false) by (unfold included; cbn; rewrite teq_diff by easy; cbn; apply teq_diff; congruence).
  assert (B : bosons_included s ((-1)%Z, l) = None).
  { unfold bosons_included. destruct (filter _ (bosons s)) eqn:E.
    - exfalso. assert (X : In i (filter (included s ((-1)%Z, l)) (bosons s))) by now apply filter_In. now rewrite E in X.
    - destruct (forallb _ (bosons s)) eqn:A; [|easy]. rewrite forallb_forall in A. rewrite (A j Hj) in J. easy. }
  cbv beta iota. now rewrite B.
Qed.
(** All atoms: the distinguishable ones one by one, the bosons together. *)
Theorem all_bosons s : bosons s <> [] -> (forall i, In i (bosons s) -> (i < na s)%nat) ->
  get_kintd s [] = Some (Rsum (na s) (fun i => if existsb (Nat.eqb i) (bosons s) then 0 else ktd1 s i) + exkin s).
Proof.
  intros Hb Hi. unfold get_kintd. rewrite resolve_nil.
  assert (B : forall w, w = ((-1)%Z, [] : text) -> bosons_included s w = Some (bosons s)).
  { intros w Hw. unfold bosons_included. assert (A : forall i, In i (bosons s) -> included s w i = true) by (intros i H; rewrite Hw; unfold included; cbn; apply Nat.ltb_lt; auto).
    assert (Fi : filter (included s w) (bosons s) = bosons s).
    { clear Hb Hi. induction (bosons s) as [|x l IH]; [easy|]. cbn. rewrite A by now left. f_equal. apply IH. intros; apply A; now right. }
    rewrite Fi. destruct (bosons s) eqn:E; [easy|]. rewrite <- E in *. destruct (forallb _ (bosons s)) eqn:G; [easy|].
    exfalso. assert (forallb (included s w) (bosons s) = true) by now apply forallb_forall. congruence. }
  cbv beta iota. rewrite B by easy. destruct (bosons s) eqn:E; [easy|]. rewrite <- E. unfold kinetic_td_dist. now rewrite sum_over_all.
Qed.

(** ** The copies of the beads and of the cell *)
Section Copies.
Variables (Cell : Type).
Notation happen := (happen Cell). Notation run := (run Cell). Notation event := (event Cell).
Definition resizes (e : event) : Prop := match e with Resize _ _ => True | _ => False end.
Definition scales (e : event) : Prop := match e with Scaled _ _ => True | _ => False end.
Lemma follow es r : (forall e, In e es -> ~ resizes e) -> dh Cell (ra Cell r) = rh Cell r ->
  dh Cell (ra Cell (fold_left happen es r)) = rh Cell (fold_left happen es r).
Proof.
  revert r. induction es as [|e es IH]; intros r H D; [easy|]. cbn. apply IH; [intros; apply H; now right|].
  specialize (H e ltac:(now left)). destruct e; cbn in *; easy.
Qed.
(** Without changes of the cell the copy of the cell is the cell. *)
Theorem copies_follow q h es : (forall e, In e es -> ~ resizes e) ->
  let r := fold_left happen es (bind Cell q h) in dh Cell (ra Cell r) = rh Cell r.
Proof. intros H. now apply follow. Qed.
(** A scaled-coordinates estimator brings it up to date. *)
Theorem copies_refreshed es r q : (forall e, In e es -> ~ resizes e) ->
  let r' := fold_left happen es (happen r (Scaled Cell q)) in dh Cell (ra Cell r') = rh Cell r'.
Proof. intros H. now apply follow. Qed.
(** Otherwise it stays at the old cell. *)
Theorem copies_stale es r h : dh Cell (ra Cell r) <> h -> (forall e, In e es -> ~ resizes e /\ ~ scales e) ->
  let r' := fold_left happen es (happen r (Resize Cell h)) in dh Cell (ra Cell r') <> rh Cell r'.
Proof.
  intros D H. assert (K : forall es r, dh Cell (ra Cell r) <> rh Cell r -> (forall e, In e es -> ~ resizes e /\ ~ scales e) ->
    dh Cell (ra Cell (fold_left happen es r)) <> rh Cell (fold_left happen es r)).
  { clear. induction es as [|e es IH]; intros r D H; [easy|]. cbn. apply IH; [|intros; apply H; now right].
    specialize (H e ltac:(now left)). destruct e; cbn in *; tauto. }
  now apply K.
Qed.
End Copies.

(** The estimators of the operator method need forces bead by bead. *)
Theorem scop_local Cell pots F s h a a' fd :
  (forall q q' b, (forall c, q b c = q' b c) -> forall c, F q h b c = F q' h b c) ->
  get_scop Cell pots F s h a fd = get_scop Cell pots F s h a' fd.
Proof.
  intros H. unfold get_scop. cbv zeta.
  assert (E : evens s (fun b => Rsum (3 * na s) (fun c => dev s b c * ((F (scop_q Cell s a (Rabs fd)) h b c - F (qq s) h b c) / Rabs fd))) =
              evens s (fun b => Rsum (3 * na s) (fun c => dev s b c * ((F (scop_q Cell s a' (Rabs fd)) h b c - F (qq s) h b c) / Rabs fd)))).
  { unfold evens. apply Rsum_ext. intros b _. destruct (even_b b) eqn:E; [|easy]. apply Rsum_ext. intros c _.
    rewrite (H (scop_q Cell s a (Rabs fd)) (scop_q Cell s a' (Rabs fd))); [easy|]. intros c'. unfold scop_q. now rewrite E. }
  now rewrite E.
Qed.

(** ** Trajectories *)
Theorem traj_zetatd_mean s alpha : (0 < nb s)%nat -> 0 < kT s -> (0 < na s)%nat ->
  exists t u v z, traj_zetatd s alpha [] = Some t /\ get_isotope_zetatd s alpha [] = Some [u; v; z] /\
  u = mean (fun i => fst (fst (t i))) (seq 0 (na s)) /\ v = mean (fun i => snd (fst (t i))) (seq 0 (na s)) /\
  z = mean (fun i => snd (t i)) (seq 0 (na s)) * free_factor s alpha.
Proof.
  intros Hn K Ha. unfold traj_zetatd, get_isotope_zetatd. rewrite resolve_nil, selected_all.
  destruct (seq 0 (na s)) as [|x l] eqn:L; [destruct (na s); [lia|discriminate]|]. rewrite <- L. do 4 eexists.
  split; [reflexivity|]. split; [reflexivity|]. cbv beta zeta. cbn [fst snd].
  split; [|split].
  - apply mean_ext. intros i _. now rewrite skip_all.
  - apply mean_ext. intros i _. rewrite skip_all. ring.
  - f_equal. apply mean_ext. intros i _. rewrite skip_all. f_equal. unfold betaP'. unfold Rdiv. ring.
Qed.
Theorem traj_zetasc_mean Cell V s h a alpha : (0 < nb s)%nat -> 0 < kT s -> (0 < na s)%nat ->
  exists t u v z, traj_zetasc Cell V s h a alpha [] = Some t /\ get_isotope_zetasc Cell V s h a alpha [] = Some [u; v; z] /\
  u = INR (nb s) * mean (fun i => fst (fst (t i))) (seq 0 (na s)) /\
  v = INR (nb s) ^ 2 * mean (fun i => snd (fst (t i))) (seq 0 (na s)) /\
  z = mean (fun i => snd (t i)) (seq 0 (na s)).
Proof.
  intros Hn K Ha. assert (P : 0 < INR (nb s)) by now apply lt_0_INR. destruct (kT_nz _ K).
  unfold traj_zetasc, get_isotope_zetasc. rewrite resolve_nil, selected_all.
  destruct (seq 0 (na s)) as [|x l] eqn:L; [destruct (na s); [lia|discriminate]|]. rewrite <- L. do 4 eexists.
  split; [reflexivity|]. split; [reflexivity|]. cbv beta zeta. cbn [fst snd]. rewrite <- !mean_scal.
  split; [|split]; apply mean_ext; intros i _; rewrite skip_all; unfold scdiff.
  - field. lra.
  - field. lra.
  - f_equal. unfold betaP'. field. lra.
Qed.

(** ** Concrete systems *)
(** One atom, two beads at +1 and -1 on the first axis, unit mass, unit temperature, omegan = 2. *)
Definition q2 : mat := fun b c => match b, c with 0%nat, 0%nat => 1 | 1%nat, 0%nat => -1 | _, _ => 0 end.
(** springs of constant h *)
Definition har_pots (q : mat) (h : R) (b : nat) : R := h / 2 * (q b 0%nat ^ 2 + q b 1%nat ^ 2 + q b 2%nat ^ 2).
Definition har_V (q : mat) (h : R) : R := har_pots q h 0 + har_pots q h 1.
Definition har_F (q : mat) (h : R) : mat := fun b c => - h * q b c.
Definition one : sys := mkSys 2 1 (fun _ => tx "H") (fun _ => 1) q2 (har_F q2 1) (har_pots q2 1) 1 1 4 [] 0.
Lemma kT_one : kT one = 1.
Proof. unfold kT. cbn. ring. Qed.
Lemma one_beta : at_beta one 1.
Proof.
  constructor; cbn; try lia; try lra; try easy; try (rewrite ?kT_one; unfold omega2; cbn; try lra; field).
  intros. lra.
Qed.
Lemma one_named : named one.
Proof. intros i _. discriminate. Qed.
Lemma one_field : force_field R har_V har_pots har_F one 1.
Proof. split; [|easy]. intros q. cbn. unfold har_V. ring. Qed.
Lemma one_scaled x : har_V (scale_all one x) 1 = 0 + 1 * x ^ 2.
Proof. unfold har_V, har_pots, scale_all, qc. cbn. field. Qed.
Lemma one_same : har_V (qq one) 1 = har_V (scale_all one 1) 1.
Proof. rewrite one_scaled. unfold har_V, har_pots. cbn. field. Qed.
Lemma one_force : force_along R har_V one 1 (ff one).
Proof.
  unfold force_along. apply derivable_ext with (fun x => 0 + 1 * x ^ 2); [intros; now rewrite one_scaled|].
  eapply derivable_eq; [|apply d_plus; [apply d_const|apply d_scal, (derivable_pt_lim_pow 1 2)]].
  unfold dev, qc, har_F. cbn. unfold har_F. cbn. field.
Qed.
Lemma one_kincv : get_kincv one [] = Some 2.
Proof.
  rewrite kincv_virial_energy by easy. f_equal. unfold virial_energy, dev, qc. rewrite kT_one. cbn. unfold har_F. cbn. field.
Qed.

(** The kinetic energies of this system: centroid virial 3/2 + 1/2, thermodynamic 3 - 8; their additions. *)
Example kin_case : get_kincv one [] = Some 2 /\ get_kincv one (tx "H") = Some 2 /\ get_kincv one (tx "0") = Some 2 /\ get_kincv one (tx "1") = None /\
  get_kincv one (tx "O") = Some 0 /\ get_kintd one [] = Some (-5).
Proof.
  assert (S : forall atom w, resolve 1 atom = Some w -> skip one atom w 0 = false -> get_kincv one atom = Some 2).
  { intros atom w R K. rewrite <- one_kincv, !kincv_sum, resolve_nil by easy. cbn [na one]. rewrite R. f_equal. unfold sum_over. cbn [na one Rsum]. now rewrite K, skip_all. }
  split; [apply one_kincv|]. split; [now apply (S _ ((-1)%Z, tx "H"))|]. split; [now apply (S _ (0%Z, []))|]. split; [easy|]. split.
  - rewrite kincv_sum by easy. cbn [na one]. change (resolve 1 (tx "O")) with (Some ((-1)%Z, tx "O")). cbv iota. f_equal. unfold sum_over. cbn [na one Rsum].
    change (skip one (tx "O") ((-1)%Z, tx "O") 0) with true. cbv iota. apply Rplus_0_l.
  - rewrite kintd_sum, resolve_nil, sum_over_all by easy. f_equal. cbn [na one Rsum]. unfold ktd1, ring2, sum3. cbn. field.
Qed.
(** The hypotheses of the additions and traces hold of this system. *)
Example adds_case : adds_up one (get_kincv one) /\ adds_up one (get_kintd one) /\ masses_pos one /\
  (exists t, get_ktens one [] = Some t /\ t 0%nat + t 1%nat + t 2%nat = 2) /\ monotone 3 (fun x c => - x c).
Proof.
  split; [now apply kincv_adds_up|]. split; [now apply kintd_adds_up|]. assert (M : masses_pos one) by (intros i _; cbn; lra). split; [easy|]. split.
  - destruct (get_ktens one []) as [t|] eqn:E; [|unfold get_ktens in E; rewrite resolve_nil in E; easy]. exists t. split; [easy|].
    pose proof (ktens_trace one [] t eq_refl M E) as H. rewrite one_kincv in H. injection H as H. lra.
  - intros x y. cbn [Rsum]. pose proof (Rle_0_sqr (x 0%nat - y 0%nat)). pose proof (Rle_0_sqr (x 1%nat - y 1%nat)). pose proof (Rle_0_sqr (x 2%nat - y 2%nat)). unfold Rsqr in *. lra.
Qed.
(** The energy: kinetic_td + potential = -5 + 1/2 = -9/2 is the derivative of the action. *)
Example energy_case : at_beta one 1 /\ derivable_pt_lim (action one 1 (ms one)) (/ kT one) (-9 / 2).
Proof.
  split; [apply one_beta|]. destruct (kintd_is_energy one 1 one_beta) as (k & E & D).
  rewrite (proj2 (proj2 (proj2 (proj2 (proj2 kin_case))))) in E. injection E as <-.
  eapply derivable_eq; [|exact D]. cbn. unfold har_pots. cbn. field.
Qed.
(** Scaled coordinates: 5/2 = 2 + 1/2, that of the centroid virial, exactly. *)
Example scaled_case : exists v', get_yama R har_V 1 one 1 (mkAux R q2 1) (-1) = Some (5 / 2, v') /\
  (forall e, 0 < e -> exists d0, 0 < d0 /\ forall d, 0 < d < d0 ->
     exists v v', get_yama R har_V 1 one 1 (mkAux R q2 1) d = Some (v, v') /\ Rabs (v - 5 / 2) < e).
Proof.
  assert (V : har_V (qq one) 1 = 1) by (unfold har_V, har_pots; cbn; field).
  destruct (scaledcoords_harmonic R har_V one 1 (mkAux R q2 1) 0 1 0 (-1)) as (k & E & H); try easy.
  - cbn; lia.
  - rewrite kT_one. lra.
  - lra.
  - rewrite Rabs_left; lra.
  - apply one_scaled.
  - apply one_same.
  - apply one_force.
  - rewrite one_kincv in E. injection E as <-. rewrite V in H. eexists. split.
    + rewrite H. f_equal. f_equal. cbn. field.
    + destruct (scaledcoords_limit R har_V one 1 (mkAux R q2 1)) as (k & E & L); try easy; try (cbn; lia); try (rewrite kT_one; lra); try apply one_force; [now rewrite one_same|].
      rewrite one_kincv in E. injection E as <-. intros e He. destruct (L e He) as (d0 & Hd & Q). exists d0. split; [easy|]. intros d Hh.
      destruct (Q d Hh) as (v & v' & Q1 & Q2). exists v, v'. split; [easy|]. rewrite V in Q2. replace (5 / 2) with (2 + 1 / INR (nb one)) by (cbn; field). exact Q2.
Qed.

(** Isotopes of this atom: the springs have energy 16; mass 2 has the weight exp(-16/2) 2^(3/2). *)
Example zeta_case : get_isotope_zetatd one 2 (tx "0") = Some [16; 16 * 16; exp (- (1 / 2) * 16) * Rpower 2 (3 / 2)] /\
  (exists a b z, get_isotope_zetatd one 2 (tx "0") = Some [a; b; z] /\
     z = exp (- (action one 1 (isotope one 0 2) (/ kT one) - action one 1 (ms one) (/ kT one))) * Rpower 2 (- (3 / 2))) /\
  (exists u v, get_isotope_zetasc_4th R har_V har_pots har_F one 1 (mkAux R q2 1) 2 (tx "0") =
     Some [u; v; sc_ratio R har_pots har_F one 1 0 2 (fun s => action s 1); sc_ratio R har_pots har_F one 1 0 2 (fun s => ti_action s 1);
           sc_ratio R har_pots har_F one 1 0 2 (fun s => sc_action s 0 1)]).
Proof.
  split; [|split].
  - unfold get_isotope_zetatd. cbn [na one]. change (tx "0") with (show_z (Z.of_nat 0)). rewrite (resolve_index 1 0) by lia.
    rewrite (selected_one one 0) by (apply one_named || (cbn; lia)). rewrite !mean_one. unfold free_factor.
    assert (S : spr one 2 0 = 16) by (unfold spr, ring2, sum3; cbn; field). rewrite S.
    assert (B : betaP' one = 1 / 2) by (unfold betaP'; cbn; field). rewrite B. cbn [nb one]. replace (3 / 2 * (INR 2 - 1)) with (3 / 2) by (cbn; field). easy.
  - apply (zetatd_weight one 1 0 2 one_beta one_named); [cbn; lia|lra].
  - apply (zetasc_4th_weight R har_V har_pots har_F one 1 1 _ 0 2 one_beta one_named); try easy; [cbn; lia|lra|apply one_field|].
    intros b. unfold others_f2. cbn. ring.
Qed.
(** The path opened by (1, 0, 0), and the fourth-order weights. *)
Definition ux : nat -> R := fun k => match k with 0%nat => 1 | _ => 0 end.
Example linlin_case : get_linlin R har_V one 1 1 (mkAux R q2 1) ux (tx "0") =
    Some (exp (- (/ kT one / INR (nb one)) * (1 / 2 * ms one 0 * om2 one * (open_ring2 2 (open_q one ux 0) ux 0 - ring2 one 0) + (har_V (open_q one ux 0) 1 - har_V (qq one) 1)))) /\
  open_ring2 2 (open_q one ux 0) ux 0 = 17 / 2 /\ ring2 one 0 = 8 /\
  get_linlin R har_V one 1 1 (mkAux R q2 1) (fun _ => 0) (tx "H") = Some 1 /\
  get_chin_correction one = Some (- (1 / 2) * (1 / 36), (- (1 / 2) * (1 / 36)) ^ 2, exp (- (1 / 2) * (1 / 36))).
Proof.
  assert (R8 : ring2 one 0 = 8) by (unfold ring2, sum3; cbn; ring).
  split; [|split; [|split; [|split]]].
  - apply (linlin_weight R har_V one 1 1 (mkAux R q2 1) ux 0 one_beta one_named); [cbn; lia|easy].
  - change 2%nat with (nb one). rewrite (open_bonds one ux 0) by (cbn; lia). rewrite R8. cbn. field.
  - easy.
  - destruct (get_linlin R har_V one 1 1 (mkAux R q2 1) (fun _ => 0) (tx "H")) as [r|] eqn:E.
    + f_equal. apply (linlin_zero R har_V one 1 1 (mkAux R q2 1) (tx "H") r); [|easy|exact E].
      intros q q' H. unfold har_V, har_pots. now rewrite !H.
    + unfold get_linlin in E. change (resolve (na one) (tx "H")) with (Some ((-1)%Z, tx "H")) in E. cbv iota in E.
      change (selected one (tx "H") ((-1)%Z, tx "H")) with [0%nat] in E. easy.
  - rewrite chin_correction_weight by easy.
    assert (S : - betaP one * Rsum (nb one) (potssc one 0) = - (1 / 2) * (1 / 36)); [|now rewrite S].
    unfold betaP, potssc, coeffsc_part_1, coeffsc_part_2, f2m. cbn [nb na one kb temp om2 Rsum]. change (even_b 0) with true. change (even_b 1) with false. cbn. unfold har_F, har_pots. cbn. field.
Qed.

(** ** Where they fail *)

(** After a change of the cell the displaced-path estimator of no displacement is not 1, nor is the ratio of
    the partition functions of equal masses: dcell.h is the old cell. *)
Theorem stale_cell_refuted : exists (q : mat) (h h' : R),
  let r := fold_left (happen R) [Resize R h'] (bind R q h) in
  exists z, get_linlin R har_V one 1 (rh R r) (ra R r) (fun _ => 0) [] = Some z /\ z <> 1 /\
  exists u v, get_isotope_zetasc R har_V one (rh R r) (ra R r) 1 [] = Some [u; v; z].
Proof.
  exists q2, 1, 2. cbn [fold_left happen bind rh ra rq]. exists (exp (1 / 2)).
  assert (V1 : forall q, (forall b c, q b c = q2 b c) -> har_V q 1 = 1) by (intros q H; unfold har_V, har_pots; rewrite !H; cbn; field).
  assert (V2 : har_V (qq one) 2 = 2) by (unfold har_V, har_pots; cbn; field).
  split; [|split].
  - unfold get_linlin. rewrite resolve_nil, selected_all. cbn [na one seq]. rewrite mean_one, V2. cbn [dh]. rewrite V1.
    + f_equal. rewrite <- exp_plus. f_equal. cbn. field.
    + intros b c. unfold open_q. destruct (c / 3 =? 0)%nat; [|easy]. cbn [qq one]. ring.
  - intros H. assert (X : exp 0 < exp (1 / 2)) by (apply exp_increasing; lra). rewrite exp_0, H in X. lra.
  - unfold get_isotope_zetasc. rewrite resolve_nil, selected_all. cbn [na one seq]. cbv zeta. do 2 eexists. do 4 f_equal. rewrite mean_one.
    f_equal. unfold scdiff. cbn [dh]. rewrite V2, V1; [unfold betaP'; cbn; field|]. intros b c. rewrite scale_atom_one. easy.
Qed.

(** Forces that depend on all beads (ring-polymer contraction): the estimators of the operator method
    depend on what an earlier estimator left in the odd beads of the copy. *)
Definition contracted (q : mat) (h : R) : mat := fun _ c => - h * ((q 0%nat c + q 1%nat c) / 2).
Theorem scop_refuted : exists a a', get_scop R har_pots contracted one 1 a 1 <> get_scop R har_pots contracted one 1 a' 1.
Proof.
  exists (mkAux R q2 1), (mkAux R (fun _ _ => 0) 1). intros H. apply (f_equal snd) in H. revert H.
  unfold get_scop, evens, scop_q, contracted, dev, qc. cbn [snd nb na one qq dq kb temp Rsum Nat.mul Nat.add].
  change (even_b 0) with true. change (even_b 1) with false. rewrite Rabs_R1. cbn. unfold contracted. cbn. intros H. lra.
Qed.

(** Suzuki-Chin: sc_scaledcoords does not converge to kinetic_tdsc + potential_tdsc. *)
Definition har_Vsc (q : mat) (h : R) : R :=
  - (1 / 3) * har_pots q h 0 + 1 / 3 * har_pots q h 1 + h ^ 2 / 36 * (q 1%nat 0%nat ^ 2 + q 1%nat 1%nat ^ 2 + q 1%nat 2%nat ^ 2).
Definition har_fsc (q : mat) (h : R) : mat := fun b c => match b with 0%nat => h / 3 * q b c | _ => - (h / 3) * q b c - h ^ 2 / 18 * q b c end.
Lemma one_sc_scaled x : har_V (scale_all one x) 1 + har_Vsc (scale_all one x) 1 = 0 + 37 / 36 * x ^ 2.
Proof. unfold har_V, har_Vsc, har_pots, scale_all, qc. cbn. field. Qed.
Theorem sc_scaledcoords_refuted : exists k v0, get_sckintd one 0 (har_fsc q2 1) [] = Some k /\
  force_along R har_V one 1 (ff one) /\ force_along R (fun q h => har_V q h + har_Vsc q h) one 1 (fun b c => ff one b c + har_fsc q2 1 b c) /\
  har_Vsc (qq one) 1 = Rsum 2 (potssc one 0) /\ v0 = get_scpottd one 0 /\
  exists e, 0 < e /\ forall d0, 0 < d0 -> exists d v v', 0 < d < d0 /\
  get_scyama R har_V har_Vsc 1 one 1 (mkAux R q2 1) d = Some (v, v') /\ e <= Rabs (v - (k + v0)).
Proof.
  assert (FA : force_along R (fun q h => har_V q h + har_Vsc q h) one 1 (fun b c => ff one b c + har_fsc q2 1 b c)).
  { unfold force_along. apply derivable_ext with (fun x => 0 + 37 / 36 * x ^ 2); [intros; now rewrite one_sc_scaled|].
    eapply derivable_eq; [|apply d_plus; [apply d_const|apply d_scal, (derivable_pt_lim_pow 1 2)]].
    unfold dev, qc, har_fsc, har_F. cbn. unfold har_F. cbn. field. }
  assert (HS : har_Vsc (qq one) 1 = Rsum 2 (potssc one 0)).
  { unfold har_Vsc, potssc, coeffsc_part_1, coeffsc_part_2, f2m. cbn [nb na one kb temp om2 Rsum]. change (even_b 0) with true. change (even_b 1) with false. cbn. unfold har_F, har_pots. cbn. field. }
  assert (F2 : f2_term one 0 = 1 / 72).
  { unfold f2_term, coeffsc_part_2, f2m. cbn [nb na one kb temp om2 Rsum]. change (even_b 0) with true. change (even_b 1) with false. cbn. unfold har_F. cbn. field. }
  destruct (sc_scaledcoords_limit R har_V har_Vsc one 1 (mkAux R q2 1) 0 (har_fsc q2 1)) as (k & E & L); try easy; try (cbn; lia); try (rewrite kT_one; lra).
  - apply one_field.
  - rewrite one_sc_scaled. unfold har_V, har_Vsc, har_pots. cbn. field.
  - exists k, (get_scpottd one 0). split; [easy|]. split; [apply one_force|]. split; [easy|]. split; [easy|]. split; [easy|].
    exists (1 / 72). split; [lra|]. intros d0 Hd0. destruct (L (1 / 72) ltac:(lra)) as (d1 & H1 & Q).
    assert (Hm : 0 < Rmin d0 d1) by now apply Rmin_glb_lt. pose proof (Rmin_l d0 d1). pose proof (Rmin_r d0 d1).
    destruct (Q (Rmin d0 d1 / 2) ltac:(lra)) as (v & v' & Q1 & Q2). exists (Rmin d0 d1 / 2), v, v'. split; [lra|]. split; [easy|].
    rewrite F2 in Q2. apply Rabs_def2 in Q2. rewrite Rabs_left; lra.
Qed.

(** Isotope estimators: two atoms with kinetic energies -3 and +1; the logarithm and sign say -4. *)
Definition q4 : mat := fun b c => match b, c with 0%nat, 0%nat => 1 | 1%nat, 0%nat => -1 | _, _ => 0 end.
Definition f4 : mat := fun b c => match b, c with 0%nat, 0%nat => 8 | 1%nat, 0%nat => -8 | _, _ => 0 end.
Definition two : sys := mkSys 2 2 (fun _ => tx "H") (fun _ => 1) q4 f4 (fun _ => 0) 1 (2 / 3) 1 [] 0.
Theorem isotope_log_refuted : exists a b c d l lk sk, get_isotope_thermo two 1 [] = Some [a; b; c; d; l; lk; sk] /\
  tcv_of two (qq two) (ff two) 0 = -3 /\ tcv_of two (qq two) (ff two) 1 = 1 /\ sk * exp lk = -4.
Proof.
  assert (T0 : tcv_of two (qq two) (ff two) 0 = -3) by (unfold tcv_of, sum3; cbn; field).
  assert (T1 : tcv_of two (qq two) (ff two) 1 = 1) by (unfold tcv_of, sum3; cbn; field).
  unfold get_isotope_thermo. rewrite resolve_nil, selected_all. cbn [na two seq]. unfold seven. do 7 eexists. split; [reflexivity|]. split; [exact T0|]. split; [exact T1|].
  unfold log_ke. cbn [fold_left]. change (qq two) with q4 in *. change (ff two) with f4 in *. rewrite T0, T1.
  rewrite (Rabs_left (-3)), (Rabs_right 1), ln_1 by lra. unfold sgn. destruct (Rlt_dec 0 (-3)); [lra|]. destruct (Rlt_dec (-3) 0); [|lra]. destruct (Rlt_dec 0 1); [|lra].
  replace (- ((1 - 1) * (ring2 two 0 * (1 / 2 * ms two 0 * om2 two)) / (kb two * temp two * INR (nb two))) + ln (- -3)) with (ln 3) by (replace (- -3) with 3 by ring; unfold Rdiv; ring).
  replace (- ((1 - 1) * (ring2 two 1 * (1 / 2 * ms two 1 * om2 two)) / (kb two * temp two * INR (nb two))) + 0) with 0 by (unfold Rdiv; ring).
  assert (L3 : 0 < ln 3) by (rewrite <- ln_1; apply ln_increasing; lra).
  unfold logsumlog. destruct (Rlt_dec 0 (ln 3)); [|lra]. cbn [fst snd].
  replace (0 - ln 3) with (- ln 3) by ring. rewrite exp_Ropp, exp_ln by lra. rewrite exp_plus, exp_ln, exp_ln by lra. lra.
Qed.

(** The trajectory of the thermodynamic isotope estimator: an atom that is not selected has 1, not 0, in the
    third column. *)
Theorem traj_zeta_refuted : exists t, traj_zetatd two 2 (tx "O") = Some t /\ t 0%nat = (0, 0, 1).
Proof.
  eexists. split; [reflexivity|]. cbv beta. change (skip two (tx "O") ((-1)%Z, tx "O") 0) with true. cbv zeta iota.
  rewrite Rmult_0_r, exp_0. f_equal. f_equal. ring.
Qed.

(** Two coupled atoms: the fourth-order ratio in scaled coordinates is not the ratio of the weights. *)
Definition cp_pots (q : mat) (h : R) (b : nat) : R := q b 0%nat * q b 3%nat.
Definition cp_V (q : mat) (h : R) : R := cp_pots q h 0 + cp_pots q h 1.
Definition cp_F (q : mat) (h : R) : mat := fun b c => match c with 0%nat => - q b 3%nat | 3%nat => - q b 0%nat | _ => 0 end.
Definition pair : sys := mkSys 2 2 (fun _ => tx "H") (fun _ => 1) q4 (cp_F q4 1) (cp_pots q4 1) 1 1 4 [] 0.
Lemma pair_beta : at_beta pair 1.
Proof.
  assert (K : kT pair = 1) by (unfold kT; cbn; ring).
  constructor; cbn; try lia; try lra; try easy; try (rewrite ?K; unfold omega2; cbn; try lra; field). intros. lra.
Qed.
Theorem zetasc_4th_refuted : force_field R cp_V cp_pots cp_F pair 1 /\ at_beta pair 1 /\
  exists a b c d z, get_isotope_zetasc_4th R cp_V cp_pots cp_F pair 1 (mkAux R q4 1) 4 (tx "0") = Some [a; b; c; d; z] /\
  z <> sc_ratio R cp_pots cp_F pair 1 0 4 (fun s => sc_action s 0 1) /\ d <> sc_ratio R cp_pots cp_F pair 1 0 4 (fun s => ti_action s 1).
Proof.
  assert (HF : force_field R cp_V cp_pots cp_F pair 1) by (split; [intros q; cbn; unfold cp_V; ring|easy]).
  split; [exact HF|]. split; [apply pair_beta|].
  destruct (zetasc_4th_partial R cp_V cp_pots cp_F pair 1 1 (mkAux R q4 1) 0 4 pair_beta) as (u & v & E); try easy; try (cbn; lia); try lra.
  do 5 eexists. split; [exact E|]. assert (B : betaP' pair = 1 / 2) by (unfold betaP'; cbn; field). rewrite B. cbn [om2 pair nb].
  assert (S4 : sqrt 4 = 2) by (replace 4 with (2 * 2) by ring; apply sqrt_square; lra).
  assert (O0 : others_f2 R cp_F pair 1 0 4 0 = - (3 / 4)) by (unfold others_f2, sum3, scale_atom, qc; cbn; rewrite S4; field).
  assert (O1 : others_f2 R cp_F pair 1 0 4 1 = - (3 / 4)) by (unfold others_f2, sum3, scale_atom, qc; cbn; rewrite S4; field).
  assert (N : forall A y, y < 0 -> sc_ratio R cp_pots cp_F pair 1 0 4 A * exp y <> sc_ratio R cp_pots cp_F pair 1 0 4 A).
  { intros A y Hy H. assert (P : 0 < sc_ratio R cp_pots cp_F pair 1 0 4 A) by (unfold sc_ratio, Rpower; apply Rmult_lt_0_compat; apply exp_pos).
    assert (X : exp y < exp 0) by now apply exp_increasing. rewrite exp_0 in X. nra. }
  split.
  - apply N. change (2 / 2)%nat with 1%nat. cbn [Rsum]. replace (2 * 0 + 1)%nat with 1%nat by easy. rewrite O1. lra.
  - apply N. cbn [Rsum]. rewrite O0, O1. lra.
Qed.

(** The index -1: no atom is selected, but the exchange energy of the bosons is returned. *)
Theorem kintd_minus_one_refuted : exists s, get_kintd s (tx "-1") = Some 7 /\ forall w i, resolve (na s) (tx "-1") = Some w -> skip s (tx "-1") w i = true.
Proof.
  set (s := mkSys 2 2 (fun _ => tx "He") (fun _ => 1) q4 f4 (fun _ => 0) 1 1 1 [0%nat; 1%nat] 7). exists s.
  assert (K : forall w i, resolve (na s) (tx "-1") = Some w -> skip s (tx "-1") w i = true).
  { intros w i H. change (resolve (na s) (tx "-1")) with (Some ((-1)%Z, [] : text)) in H. injection H as <-. unfold skip. cbn [fst snd].
    destruct (Z.eqb_spec (-1) (Z.of_nat i)); [lia|]. easy. }
  split; [|exact K]. unfold get_kintd. change (resolve (na s) (tx "-1")) with (Some ((-1)%Z, [] : text)). cbv iota.
  change (bosons_included s ((-1)%Z, [] : text)) with (Some [0%nat; 1%nat]). cbv iota. f_equal. unfold kinetic_td_dist, sum_over. cbn [na s Rsum].
  rewrite !K by reflexivity. change (exkin s) with 7. ring.
Qed.
Example bosons_case : exists s, get_kintd s (tx "He") = None /\ get_kintd s [] = Some 7.
Proof.
  exists (mkSys 2 2 (fun i => match i with 0%nat => tx "He" | _ => tx "He4" end) (fun _ => 1) q4 f4 (fun _ => 0) 1 1 1 [0%nat; 1%nat] 7). split.
  - eapply (some_bosons _ (tx "He") 0 1); try easy; cbn; tauto.
  - rewrite all_bosons; [|easy|cbn; lia]. f_equal. cbn. ring.
Qed.

(** Open paths: the thermodynamic kinetic energy counts the bond from the last bead to the first. *)
Theorem kintd_open_refuted : exists s r k, sound r /\ same_ring s r /\ bosons s = [] /\ get_kintd s [] = Some k /\
  k <> 3 / 2 * INR (na s) * INR (nb s) * kT s - vspring r (nm_trans_b2nm (nbeads r) (openp r) (qq s)) / INR (nb s).
Proof.
  set (r := mkRing 2 1 [0%nat] (fun _ => 1) 2 (fun _ => 1) (fun _ => 1)). exists one, r, (-5).
  assert (So : sound r) by (split; cbn; intros; try lra; try lia; repeat constructor; easy).
  split; [exact So|]. split; [unfold same_ring; cbn; repeat split; ring|]. split; [easy|]. split; [apply kin_case|].
  rewrite spring_energy_is_bead_springs by exact So.
  assert (B : bead_springs r (qq one) = 8) by (unfold bead_springs, m3; cbn; field). rewrite B, kT_one. cbn. lra.
Qed.
Example spring_case : exists r, sound r /\ same_ring one r /\ openp r = [] /\ get_kintd one [] = Some (3 / 2 * INR 1 * INR 2 * kT one - vspring r (nm_trans_b2nm 2 [] q2) / INR 2).
Proof.
  set (r := mkRing 2 1 [] (fun _ => 1) 2 (fun _ => 1) (fun _ => 1)). exists r.
  assert (So : sound r) by (split; cbn; intros; try lra; try lia; constructor).
  assert (Sa : same_ring one r) by (unfold same_ring; cbn; repeat split; ring).
  split; [exact So|]. split; [exact Sa|]. split; [easy|]. now apply (kintd_spring one r).
Qed.

(** ** Temperature *)
Definition held : mot := mkMot (fun k c => match k, c with 1%nat, 1%nat => sqrt 2 | 1%nat, 2%nat => sqrt 2 | _, _ => 0 end)
  (fun _ _ => 1) (fun _ _ => 0) (Some true) false [0%nat].
Lemma held_usual : usual one held.
Proof. constructor; cbn; try lia; try lra; try easy. Qed.
Lemma held_equi : equipartition one held.
Proof.
  intros k c Hk Hc. cbn in Hk, Hc. rewrite kT_one. assert (S : sqrt 2 ^ 2 = 2) by (rewrite pow2_sqrt; lra).
  destruct k as [|[|k]]; [| |lia]; destruct c as [|[|[|c]]]; try lia; unfold share; cbn [held pnm dm3 existsb fixdof Nat.eqb cc enstype nb one INR orb andb]; rewrite ?S; field.
Qed.
Example temp_case : get_temp one held [] [] [] = Some 1.
Proof. apply (temp_all_modes one held [] [0%nat]); try easy; [apply held_usual|apply held_equi]. Qed.
(** Constant centroid with fixed atoms: the temperatures of the normal modes are off. *)
Theorem temp_mode_refuted : usual one held /\ equipartition one held /\ temp one = 1 /\
  get_temp one held [] [] (tx "1") = Some (5 / 6) /\ get_temp one held [] [] (tx "0") = Some (7 / 6).
Proof.
  split; [apply held_usual|]. split; [apply held_equi|]. split; [easy|]. split.
  - pose proof (temp_mode one held [] [0%nat] 1 held_usual held_equi ltac:(cbn; lia) eq_refl ltac:(easy)) as H.
    change (show_z (Z.of_nat 1)) with (tx "1") in H. rewrite H. f_equal. unfold fixed, sum3, held_dof. cbn. field.
  - pose proof (temp_mode one held [] [0%nat] 0 held_usual held_equi ltac:(cbn; lia) eq_refl ltac:(easy)) as H.
    change (show_z (Z.of_nat 0)) with (tx "0") in H. rewrite H. f_equal. unfold fixed, sum3, held_dof. cbn. field.
Qed.
(** Without the fault: not constant centroid, or no fixed atoms. *)
Theorem temp_mode_partial s mo atom ids k : usual s mo -> equipartition s mo -> (k < nb s)%nat ->
  get_atom_ids s atom = Some ids -> ids <> [] -> cc mo = false \/ fixdof mo = [] ->
  get_temp s mo atom [] (show_z (Z.of_nat k)) = Some (temp s).
Proof.
  intros U E Hk I Hi H. rewrite (temp_mode s mo atom ids k) by easy. f_equal. destruct H as [->|H]; [easy|].
  rewrite fixed_nil by easy. destruct (cc mo); [|easy]. unfold Rdiv. rewrite Rmult_0_r, Rmult_0_l. ring.
Qed.
(** A motion class without ensemble type that holds atoms: no temperature. *)
Theorem temp_no_enstype s mo atom bead nm : 0 < temp s -> enstype mo = None -> fixdof mo <> [] -> get_temp s mo atom bead nm = None.
Proof.
  intros T E H. unfold get_temp. destruct get_kinmd; [|easy]. destruct get_atom_ids; [|easy]. rewrite E. cbv zeta. destruct (Rlt_dec 0 (temp s)); [|lra].
  destruct (fixdof mo); [easy|]. reflexivity.
Qed.

Print Assumptions kincv_adds_up. Print Assumptions kintd_is_energy. Print Assumptions sc_energy.
Print Assumptions scaledcoords_limit. Print Assumptions sc_scaledcoords_refuted. Print Assumptions zetatd_4th_weight.
Print Assumptions zetasc_4th_refuted. Print Assumptions linlin_weight. Print Assumptions stale_cell_refuted.
Print Assumptions temp_all_modes. Print Assumptions temp_mode_refuted. Print Assumptions isotope_log_refuted.
Print Assumptions kintd_open_refuted. Print Assumptions some_bosons.
