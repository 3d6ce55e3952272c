(** * The kinetic energy estimators agree with each other *)
From Coq Require Import String Ascii List Reals Lra Lia Arith Bool ZArith.
From Verif Require Import RSum NMModel SCModel TextLib ValModel ValProps SpringModel SpringProps EstModel EstLib.
Import ListNotations.
Open Scope R_scope.

(** ** A quantity of a group of atoms is the sum over the atoms *)

(** [X] is the sum over the labels and the sum over the indices. *)
Definition adds_up (s : sys) (X : text -> option R) : Prop :=
  exists v, X [] = Some v /\
  (forall labels, NoDup labels -> (forall i, (i < na s)%nat -> In (lab s i) labels) ->
     (forall t, In t labels -> t <> [] /\ read_int t = None) ->
     exists vs, map X labels = map Some vs /\ v = Rsuml vs) /\
  ((forall i, (i < na s)%nat -> lab s i <> []) ->
     exists x, (forall i, (i < na s)%nat -> X (show_z (Z.of_nat i)) = Some (x i)) /\ v = Rsum (na s) x).

Lemma sums_add_up s X x :
  (forall atom, X atom = match resolve (na s) atom with None => None | Some w => Some (sum_over s atom w x) end) ->
  adds_up s X.
Proof.
  intros H. exists (Rsum (na s) x). split; [|split].
  - rewrite H, resolve_nil. now rewrite sum_over_all.
  - intros l N Hl Ht. exists (map (fun t => sum_over s t ((-1)%Z, t) x) l). split.
    + rewrite map_map. apply map_ext_in. intros t Hi. rewrite H, resolve_label; [easy|]. now apply Ht.
    + symmetry. apply sum_over_labels; auto. intros t Hi. now apply Ht.
  - intros Hn. exists x. split; [|easy]. intros i Hi. rewrite H, resolve_index by easy. now rewrite sum_over_index.
Qed.

(** ** The centroid virial estimator *)
Definition kcv1 (s : sys) (i : nat) : R :=
  Rsum (nb s) (fun b => sum3 i (fun c => dev s b c * ff s b c)) * (- (1 / 2) / INR (nb s)) + 3 / 2 * kT s.

Lemma bosons_none s w : bosons s = [] -> bosons_included s w = Some [].
Proof. intros H. unfold bosons_included. now rewrite H. Qed.
Lemma kincv_sum s atom : bosons s = [] ->
  get_kincv s atom = match resolve (na s) atom with None => None | Some w => Some (sum_over s atom w (kcv1 s)) end.
Proof.
  intros Hb. unfold get_kincv. destruct (resolve (na s) atom) as [w|]; [|easy]. rewrite bosons_none by easy. f_equal.
  unfold kcv1. rewrite sum_over_plus, sum_over_const, sum_over_scal_r. f_equal; [|unfold kT; ring]. f_equal.
  unfold sum_over. transitivity (Rsum (nb s) (fun b => Rsum (na s) (fun i => if skip s atom w i then 0 else sum3 i (fun c => dev s b c * ff s b c)))).
  - apply Rsum_ext. intros b _. rewrite Rsum_3. apply Rsum_ext. intros i _. unfold sum3.
    replace (3 * i / 3)%nat with i by (rewrite <- (Nat.add_0_r (3 * i)), div3; lia). rewrite !div3 by lia. destruct skip; lra.
  - rewrite Rsum_swap. apply Rsum_ext. intros i _. destruct skip; [now apply Rsum_0|easy].
Qed.

Theorem kincv_adds_up s : bosons s = [] -> adds_up s (get_kincv s).
Proof. intros H. apply (sums_add_up s _ (kcv1 s)). intros atom. now apply kincv_sum. Qed.

Lemma kintd_sum s atom : bosons s = [] ->
  get_kintd s atom = match resolve (na s) atom with None => None | Some w => Some (sum_over s atom w (ktd1 s)) end.
Proof.
  intros H. unfold get_kintd. destruct (resolve (na s) atom) as [w|]; [|easy]. rewrite bosons_none by easy. f_equal.
  unfold kinetic_td_dist. rewrite H. easy.
Qed.
Theorem kintd_adds_up s : bosons s = [] -> adds_up s (get_kintd s).
Proof. intros H. apply (sums_add_up s _ (ktd1 s)). intros atom. now apply kintd_sum. Qed.

Theorem sckintd_adds_up s alpha fsc : adds_up s (get_sckintd s alpha fsc).
Proof. eapply sums_add_up. intros atom. unfold get_sckintd. reflexivity. Qed.

Theorem ti_term_adds_up s : adds_up s (get_ti_term s).
Proof.
  apply (sums_add_up s _ (fun i => sum3 i (fun c => Rsum (nb s) (fun b => ff s b c ^ 2 / ms s i)) * (1 / 24 / om2 s / INR (nb s)))).
  intros atom. unfold get_ti_term. destruct (resolve (na s) atom) as [w|]; [|easy]. now rewrite sum_over_scal_r.
Qed.
Theorem ktens_adds_up s k : adds_up s (fun atom => option_map (fun t => t k) (get_ktens s atom)).
Proof.
  apply (sums_add_up s _ (fun i => nth k (get_kij s i i) 0)). intros atom. unfold get_ktens.
  destruct (resolve (na s) atom) as [w|]; easy.
Qed.

(** The trace of the kinetic energy tensor is the kinetic energy. *)
Definition masses_pos (s : sys) : Prop := forall i, (i < na s)%nat -> 0 < ms s i.
Lemma kij_diag s i a c : 0 < ms s i ->
  kij1 s i i a c = Rsum (nb s) (fun b => dev s b (3 * i + a)%nat * ff s b (3 * i + c)%nat + dev s b (3 * i + c)%nat * ff s b (3 * i + a)%nat)
                   * (- (1 / 4) / INR (nb s)).
Proof.
  intros Hm. unfold kij1. rewrite sqrt_square by lra.
  rewrite (Rsum_ext _ _ (fun b => ms s i * (dev s b (3 * i + a)%nat * ff s b (3 * i + c)%nat + dev s b (3 * i + c)%nat * ff s b (3 * i + a)%nat)))
    by (intros; ring). rewrite Rsum_scal. unfold Rdiv. rewrite !Rinv_mult. generalize (/ INR (nb s)) as y. intros y. field. lra.
Qed.
Lemma ktens_trace1 s i : 0 < ms s i ->
  nth 0 (get_kij s i i) 0 + nth 1 (get_kij s i i) 0 + nth 2 (get_kij s i i) 0 = kcv1 s i.
Proof.
  intros Hm. cbn [nth get_kij]. unfold get_kij. cbn [nth]. rewrite Nat.eqb_refl, !kij_diag by easy. unfold kcv1, kT, sum3.
  rewrite Nat.add_0_r. rewrite !Rsum_plus. unfold Rdiv. generalize (/ INR (nb s)) as y. intros y. field.
Qed.
Theorem ktens_trace s atom t : bosons s = [] -> masses_pos s ->
  get_ktens s atom = Some t -> get_kincv s atom = Some (t 0%nat + t 1%nat + t 2%nat).
Proof.
  intros Hb Hm H. rewrite kincv_sum by easy. unfold get_ktens in H. destruct (resolve (na s) atom) as [w|]; [|easy].
  injection H as <-. f_equal. rewrite <- !sum_over_plus. apply sum_over_ext. intros i Hi _. symmetry. now apply ktens_trace1, Hm.
Qed.
(** The trajectories: three diagonal and three other components of every atom. *)
Theorem traj_components s i a : (a < 3)%nat -> 0 < ms s i ->
  get_akcv s (3 * i + a) = nth a (get_kij s i i) 0 /\ get_akcv_od s (3 * i + a) = nth (3 + a) (get_kij s i i) 0.
Proof.
  intros Ha Hm. unfold get_akcv, get_akcv_od. rewrite div3 by easy.
  replace ((3 * i + a) mod 3)%nat with a by (rewrite Nat.add_comm, Nat.mul_comm, Nat.mod_add by lia; now rewrite Nat.mod_small).
  unfold get_kij. rewrite Nat.eqb_refl.
  destruct a as [|[|[|a]]]; [| | |lia]; cbn [nth Nat.add]; rewrite !kij_diag by easy; rewrite ?Rsum_plus; split;
    unfold dev, Rdiv; rewrite ?Nat.add_0_r; generalize (/ INR (nb s)) as y; intros y; field.
Qed.
Theorem traj_kinetic s i : (i < na s)%nat -> (forall j, (j < na s)%nat -> lab s j <> []) -> bosons s = [] -> 0 < ms s i ->
  get_kincv s (show_z (Z.of_nat i)) = Some (sum3 i (get_akcv s)).
Proof.
  intros Hi Hn Hb Hm. rewrite kincv_sum, resolve_index by easy. rewrite sum_over_index by easy. f_equal.
  rewrite <- ktens_trace1 by easy. unfold sum3.
  pose proof (proj1 (traj_components s i 0 ltac:(lia) Hm)) as A0. pose proof (proj1 (traj_components s i 1 ltac:(lia) Hm)) as A1.
  pose proof (proj1 (traj_components s i 2 ltac:(lia) Hm)) as A2. rewrite Nat.add_0_r in A0. now rewrite A0, A1, A2.
Qed.

(** The sum of the deviations from the centroid is zero. *)
Lemma dev_sum s c : (0 < nb s)%nat -> Rsum (nb s) (fun b => dev s b c) = 0.
Proof.
  intros H. unfold dev. rewrite Rsum_minus, Rsum_const. unfold qc. field. now apply not_0_INR, Nat.neq_0_lt_0.
Qed.
Definition set_q (s : sys) (q : mat) : sys := mkSys (nb s) (na s) (lab s) (ms s) q (ff s) (pot1 s) (kb s) (temp s) (om2 s) (bosons s) (exkin s).
Definition set_f (s : sys) (f : mat) : sys := mkSys (nb s) (na s) (lab s) (ms s) (qq s) f (pot1 s) (kb s) (temp s) (om2 s) (bosons s) (exkin s).

(** Moving the whole ring polymers, or adding the same force to every bead, changes nothing. *)
Theorem kincv_translation s atom t : bosons s = [] -> (0 < nb s)%nat ->
  get_kincv (set_q s (fun b c => qq s b c + t c)) atom = get_kincv s atom.
Proof.
  intros Hb Hn. rewrite !kincv_sum by easy. cbn [na set_q]. destruct (resolve (na s) atom) as [w|]; [|easy]. f_equal.
  unfold sum_over. cbn [na set_q]. apply Rsum_ext. intros i _. change (skip (set_q s (fun b c => qq s b c + t c)) atom w i) with (skip s atom w i).
  destruct skip; [easy|]. unfold kcv1. cbn [nb ff kb temp set_q]. change (kT (set_q s _)) with (kT s). f_equal. f_equal.
  apply Rsum_ext. intros b _. apply sum3_ext. intros c _. f_equal. unfold dev, qc. cbn [qq nb set_q].
  rewrite Rsum_plus, Rsum_const. field. now apply not_0_INR, Nat.neq_0_lt_0.
Qed.
Theorem kincv_common_force s atom g : bosons s = [] -> (0 < nb s)%nat ->
  get_kincv (set_f s (fun b c => ff s b c + g c)) atom = get_kincv s atom.
Proof.
  intros Hb Hn. rewrite !kincv_sum by easy. cbn [na set_f]. destruct (resolve (na s) atom) as [w|]; [|easy]. f_equal.
  unfold sum_over. cbn [na set_f]. apply Rsum_ext. intros i _. change (skip (set_f s (fun b c => ff s b c + g c)) atom w i) with (skip s atom w i).
  destruct skip; [easy|]. unfold kcv1. cbn [nb ff kb temp set_f]. change (kT (set_f s _)) with (kT s). f_equal. f_equal.
  change (dev (set_f s (fun b c => ff s b c + g c))) with (dev s).
  rewrite (Rsum_ext _ _ (fun b => sum3 i (fun c => dev s b c * ff s b c) + sum3 i (fun c => dev s b c * g c)))
    by (intros; unfold sum3; ring).
  rewrite Rsum_plus, <- (sum3_Rsum i (nb s) (fun b c => dev s b c * g c)). rewrite (sum3_ext i (fun j => Rsum (nb s) (fun b => dev s b j * g j)) (fun _ => 0)); [unfold sum3; ring|].
  intros c _. now rewrite Rsum_scal_r, dev_sum, Rmult_0_l by easy.
Qed.

(** For the forces of a convex potential the quantum kinetic energy is at least the classical one. *)
Definition monotone (n : nat) (G : (nat -> R) -> nat -> R) : Prop :=
  forall x y, Rsum n (fun c => (x c - y c) * (G x c - G y c)) <= 0.
Theorem kincv_convex s G : bosons s = [] -> (0 < nb s)%nat -> monotone (3 * na s) G ->
  (forall b c, (b < nb s)%nat -> (c < 3 * na s)%nat -> ff s b c = G (qq s b) c) ->
  exists v, get_kincv s [] = Some v /\ 3 / 2 * INR (na s) * kT s <= v.
Proof.
  intros Hb Hn HG Hf. rewrite kincv_sum, resolve_nil by easy. eexists. split; [reflexivity|].
  rewrite sum_over_all. unfold kcv1. rewrite Rsum_plus, Rsum_const, Rsum_scal_r, Rsum_swap.
  assert (P : 0 < INR (nb s)) by now apply lt_0_INR.
  assert (X : Rsum (nb s) (fun b => Rsum (na s) (fun i => sum3 i (fun c => dev s b c * ff s b c))) <= 0).
  - apply Rle_trans with (Rsum (nb s) (fun b => Rsum (3 * na s) (fun c => dev s b c * (G (qq s b) c - G (qc s) c)))).
    + right. transitivity (Rsum (nb s) (fun b => Rsum (3 * na s) (fun c => dev s b c * ff s b c))).
      * apply Rsum_ext. intros b _. now rewrite Rsum_3.
      * rewrite (Rsum_ext (nb s) (fun b => Rsum (3 * na s) (fun c => dev s b c * (G (qq s b) c - G (qc s) c)))
          (fun b => Rsum (3 * na s) (fun c => dev s b c * ff s b c) - Rsum (3 * na s) (fun c => dev s b c * G (qc s) c))).
        -- rewrite Rsum_minus. rewrite (Rsum_swap _ _ (fun b c => dev s b c * G (qc s) c)).
           rewrite (Rsum_0 _ (fun c => Rsum (nb s) (fun b => dev s b c * G (qc s) c))); [ring|].
           intros c _. now rewrite Rsum_scal_r, dev_sum, Rmult_0_l.
        -- intros b Hbb. rewrite <- Rsum_minus. apply Rsum_ext. intros c Hc. rewrite Hf by easy. ring.
    + rewrite <- (Rsum_0 (nb s) (fun _ => 0)) by easy. apply Rsum_le. intros b _. apply HG.
  - set (Y := Rsum (nb s) _) in *. assert (0 <= Y * (- (1 / 2) / INR (nb s))); [|lra].
    replace (Y * (- (1 / 2) / INR (nb s))) with ((- Y) * (1 / 2 * / INR (nb s))) by (unfold Rdiv; ring).
    apply Rmult_le_pos; [lra|]. pose proof (Rinv_0_lt_compat _ P). lra.
Qed.

(** virial_fq and the centroid *)
Theorem kincv_virial s : bosons s = [] -> (0 < nb s)%nat ->
  exists v, get_kincv s [] = Some v /\
  v + get_fqvirial s = 3 / 2 * INR (na s) * kT s
    + 1 / 2 * Rsum (3 * na s) (fun c => qc s c * (Rsum (nb s) (fun b => ff s b c) / INR (nb s))).
Proof.
  intros Hb Hn. rewrite kincv_sum, resolve_nil by easy. eexists. split; [reflexivity|]. rewrite sum_over_all.
  unfold kcv1. rewrite Rsum_plus, Rsum_const, Rsum_scal_r, Rsum_swap. unfold get_fqvirial.
  rewrite (Rsum_ext (nb s) (fun b => Rsum (na s) _) (fun b => Rsum (3 * na s) (fun c => ff s b c * (qq s b c - 0)) - Rsum (3 * na s) (fun c => ff s b c * qc s c))).
  - rewrite Rsum_minus. rewrite (Rsum_swap _ _ (fun b c => ff s b c * qc s c)).
    rewrite (Rsum_ext (3 * na s) (fun c => qc s c * _) (fun c => Rsum (nb s) (fun b => ff s b c * qc s c) * / INR (nb s)))
      by (intros; rewrite Rsum_scal_r; unfold Rdiv; ring).
    rewrite Rsum_scal_r. field. now apply not_0_INR, Nat.neq_0_lt_0.
  - intros b _. rewrite <- Rsum_3, <- Rsum_minus. apply Rsum_ext. intros c _. unfold dev. ring.
Qed.

(** The trace of the kinetic stress: the centroid virial energy with the classical kinetic energy of the
    centroid in the place of its average. *)
Theorem kstress_trace s pc : bosons s = [] -> (0 < nb s)%nat ->
  exists v, get_kincv s [] = Some v /\
  kstress_cv s pc 0 0 + kstress_cv s pc 1 1 + kstress_cv s pc 2 2 =
    INR (nb s) * (2 * (v - 3 / 2 * INR (na s) * kT s) + Rsum (na s) (fun i => sum3 i (fun c => pc c ^ 2) / ms s i)).
Proof.
  intros Hb Hn. rewrite kincv_sum, resolve_nil by easy. eexists. split; [reflexivity|]. rewrite sum_over_all.
  unfold kcv1. rewrite Rsum_plus, Rsum_const, Rsum_scal_r, Rsum_swap. unfold kstress_cv. cbn [Nat.leb Nat.eqb].
  rewrite (Rsum_ext (nb s) (fun b => Rsum (na s) (fun i => sum3 i (fun c => dev s b c * ff s b c)))
     (fun b => Rsum (na s) (fun i => dev s b (3 * i + 0)%nat * ff s b (3 * i + 0)%nat) + Rsum (na s) (fun i => dev s b (3 * i + 1)%nat * ff s b (3 * i + 1)%nat)
       + Rsum (na s) (fun i => dev s b (3 * i + 2)%nat * ff s b (3 * i + 2)%nat)))
    by (intros b _; rewrite <- !Rsum_plus; apply Rsum_ext; intros i _; unfold sum3; now rewrite Nat.add_0_r).
  rewrite !Rsum_plus.
  rewrite (Rsum_ext (na s) (fun i => sum3 i (fun c => pc c ^ 2) / ms s i)
    (fun i => pc (3 * i + 0)%nat * (pc (3 * i + 0)%nat / ms s i) + pc (3 * i + 1)%nat * (pc (3 * i + 1)%nat / ms s i) + pc (3 * i + 2)%nat * (pc (3 * i + 2)%nat / ms s i)))
    by (intros i _; unfold sum3, Rdiv; rewrite Nat.add_0_r; ring).
  rewrite !Rsum_plus. field. now apply not_0_INR, Nat.neq_0_lt_0.
Qed.

(** The components of the gyration radius. *)
Theorem rg_components s i : rg1 s i = sqrt (sum3 i (fun c => traj_rg s c ^ 2)).
Proof.
  unfold rg1. f_equal. rewrite <- sum3_Rsum. unfold Rdiv. rewrite <- sum3_scal_r. apply sum3_ext. intros c _. unfold traj_rg, Rdiv.
  rewrite pow2_sqrt; [easy|]. destruct (nb s); [cbn; lra|]. apply Rmult_le_pos.
  - apply Rsum_nonneg. intros. nra.
  - left. apply Rinv_0_lt_compat, lt_0_INR. lia.
Qed.

(** ** The primitive estimator *)
Definition same_ring (s : sys) (r : ring) : Prop :=
  nbeads r = nb s /\ natoms r = na s /\ mass r = ms s /\ wn r ^ 2 = om2 s.
Lemma spring_sum s r : sound r -> same_ring s r -> openp r = [] ->
  vspring r (nm_trans_b2nm (nbeads r) (openp r) (qq s)) = Rsum (na s) (fun i => 1 / 2 * ms s i * om2 s * ring2 s i).
Proof.
  intros So (Hn & Ha & Hm & Hw) Ho. rewrite spring_energy_is_vpath by easy. unfold vpath. rewrite Hn, Ha, Hw.
  assert (Hp : (0 < nb s)%nat) by (rewrite <- Hn; apply So).
  rewrite (Rsum_ext (nb s) _ (fun b => Rsum (na s) (fun i => ms s i * sum3 i (fun c =>
     (if (0 <? b)%nat then qq s b c - qq s (b - 1)%nat c else qq s b c - qq s (nb s - 1)%nat c) ^ 2)))).
  - rewrite Rsum_swap. match goal with |- _ * (?X * / 2) = _ => replace (om2 s * (X * / 2)) with (om2 s * / 2 * X) by ring end.
    rewrite <- Rsum_scal. apply Rsum_ext. intros i _. rewrite Rsum_scal. unfold ring2.
    destruct (nb s) as [|n] eqn:E; [lia|]. rewrite Rsum_first. cbn [Nat.ltb Nat.leb]. replace (S n - 1)%nat with n by lia.
    rewrite (Rsum_ext n (fun b => sum3 i (fun c => (qq s (S b) c - qq s (S b - 1)%nat c) ^ 2)) (fun b => sum3 i (fun j => (qq s (S b) j - qq s b j) ^ 2)))
      by (intros b _; now replace (S b - 1)%nat with b by lia).
    unfold sum3. field.
  - intros b _. rewrite Rsum_3. apply Rsum_ext. intros i _. unfold sum3, m3. rewrite Hm.
    replace (3 * i / 3)%nat with i by (rewrite <- (Nat.add_0_r (3 * i)), div3; lia). rewrite !div3 by lia. ring.
Qed.
Theorem kintd_spring s r : sound r -> same_ring s r -> openp r = [] -> bosons s = [] ->
  get_kintd s [] = Some (3 / 2 * INR (na s) * INR (nb s) * kT s
                         - vspring r (nm_trans_b2nm (nbeads r) (openp r) (qq s)) / INR (nb s)).
Proof.
  intros So Hr Ho Hb. rewrite kintd_sum, resolve_nil by easy. f_equal. rewrite sum_over_all, (spring_sum s r) by easy.
  unfold ktd1. rewrite Rsum_plus, Rsum_const.
  rewrite (Rsum_ext _ _ (fun i => - / INR (nb s) * (1 / 2 * ms s i * om2 s * ring2 s i))) by (intros; unfold Rdiv; ring).
  rewrite Rsum_scal. unfold kT, Rdiv. ring.
Qed.
