(** * Theorems of record about committees (C22, C66-C68) *)
From Coq Require Import String List Reals Bool Arith Lra Lia.
From Verif Require Import RSum CommModel CommProofs.
Import ListNotations.
Open Scope R_scope.

Lemma Ok_inj {A} (a b : A) : Ok a = Ok b -> a = b.
Proof. now injection 1. Qed.

(** C22. Without a baseline: the potential is the mean of all member potentials
    (including those read from JSON extras), and for plain members every component
    of force and virial is the mean over the members. *)
Theorem committee_potential_is_mean p n ms r :
  gather p n ms = Ok r -> baseline_name p = ""%string -> all_pots (parse_json p) ms <> [] ->
  is_mean (all_pots (parse_json p) ms) (r_pot r).
Proof.
  intros H Hb Hne. unfold gather in H. rewrite Hb in H. change (negb (String.eqb "" "")) with false in H. cbv zeta iota in H. rewrite collect_pots in H.
  destruct (_ && _); [discriminate|]. destruct (_ && _); [discriminate|].
  injection H as <-. cbn. now apply mean_is_mean.
Qed.
Theorem committee_force_is_mean p n ms r :
  gather p n ms = Ok r -> baseline_name p = ""%string -> ms <> [] -> plain ms ->
  (forall k, (k < n)%nat -> is_mean (map (fun m => nth k (m_frc m) 0) ms) (nth k (r_frc r) 0)) /\
  (forall k, (k < 9)%nat -> is_mean (map (fun m => nth k (m_vir m) 0) ms) (nth k (r_vir r) 0)).
Proof.
  intros H Hb Hne Hp. unfold gather in H. rewrite Hb in H. cbn [String.eqb negb andb] in H.
  rewrite collect_plain in H by easy. cbn [pots frcs virs hf hv] in H. rewrite !map_length, !Nat.eqb_refl in H.
  cbn [negb andb] in H. injection H as <-. cbn [r_frc r_vir].
  split; intros k Hk; rewrite comp_meanv by easy; unfold comp; rewrite map_map; apply mean_is_mean; now destruct ms.
Qed.

(** C22. Rescaling keeps the mean, multiplies every deviation by alpha, and the
    reported variance is alpha squared times the unbiased variance. *)
Theorem committee_rescaling p n ms r :
  gather p n ms = Ok r -> baseline_name p = ""%string ->
  (2 <= length (all_pots (parse_json p) ms))%nat ->
  let ps := all_pots (parse_json p) ms in
  length (committee_pot r) = length ps /\
  is_mean (committee_pot r) (r_pot r) /\
  (forall i, (i < length ps)%nat ->
     nth i (committee_pot r) 0 - r_pot r = alpha p * (nth i ps 0 - r_pot r)) /\
  committee_var r = alpha p * alpha p * pair_var ps.
Proof.
  intros H Hb Hl ps. unfold gather in H. rewrite Hb in H. change (negb (String.eqb "" "")) with false in H. cbv zeta iota in H. rewrite collect_pots in H.
  destruct (_ && _); [discriminate|]. destruct (_ && _); [discriminate|].
  injection H as <-. cbn [committee_pot r_pot committee_var]. fold ps in Hl |- *. assert (Hne : ps <> []) by (destruct ps; cbn in Hl; [lia|easy]).
  split; [unfold rescale; now rewrite map_length|]. split; [|split].
  - rewrite <- (mean_rescale (alpha p) (mean ps) ps) at 2 by easy. apply mean_is_mean. unfold rescale. now destruct ps.
  - intros i Hi. unfold rescale. set (g := fun x => mean ps + alpha p * (x - mean ps)).
    rewrite (nth_indep _ 0 (g 0)) by now rewrite map_length. rewrite map_nth. unfold g. ring.
  - rewrite var1_rescale, var1_pair by easy. easy.
Qed.

(** ** Forces and virial are derivatives of the potential *)

(** A force field along a path: name, and potential, forces and virial at [t]. *)
Definition ffpath : Type := string * (R -> R * list R * list R).
Definition at_t (t : R) (g : ffpath) : member :=
  let '(u, f, v) := snd g t in mkM (fst g) u f v None.

(** The derivative of the potential is minus the [k]-th component of the force
    (of the virial) at [x]. *)
Definition conservative (x : R) (k : nat) (vir : bool) (g : ffpath) : Prop :=
  derivable_pt_lim (fun t => m_pot (at_t t g)) x
    (- nth k (if vir then m_vir (at_t x g) else m_frc (at_t x g)) 0).

Lemma split_path name gs : match split_baseline name (map (at_t 0) gs) with
  | None => forall t, split_baseline name (map (at_t t) gs) = None
  | Some _ => exists b r, In b gs /\ length gs = S (length r) /\ (forall g, In g r -> In g gs) /\
       forall t, split_baseline name (map (at_t t) gs) = Some (at_t t b, map (at_t t) r)
  end.
Proof.
  induction gs as [|g gs IH]; cbn; [easy|].
  assert (Hn : forall t, m_name (at_t t g) = fst g) by (intros t; unfold at_t; destruct (snd g t) as [[u f] v]; easy).
  rewrite Hn. destruct (String.eqb (fst g) name) eqn:E.
  - exists g, gs. repeat split; auto. intros t. now rewrite Hn, E.
  - destruct (split_baseline name (map (at_t 0) gs)) as [[b0 r0]|].
    + destruct IH as (b & r & Hb & Hlen & Hr & Hs). exists b, (g :: r). repeat split.
      * now right.
      * cbn. lia.
      * intros h [->|Hh]; [now left|right; auto].
      * intros t. rewrite Hn, E, Hs. easy.
    + intros t. now rewrite Hn, E, IH.
Qed.

Lemma plain_at t gs : plain (map (at_t t) gs).
Proof. apply Forall_forall. intros m Hm. apply in_map_iff in Hm. destruct Hm as (g & <- & _). unfold at_t. now destruct (snd g t) as [[u f] v]. Qed.

(** C22. With or without a weighted baseline: if the members' forces (virials) are
    minus the derivatives of their potentials along a path, so is the committee's,
    for all paths and all values of alpha and of the baseline uncertainty. *)
Theorem committee_force_is_gradient p n gs x k r :
  (3 <= length gs)%nat -> (baseline_name p <> ""%string -> baseline_uncertainty p <> 0) ->
  (forall t, gather p n (map (at_t t) gs) = Ok (r t)) ->
  ((k < n)%nat -> (forall g, In g gs -> conservative x k false g) ->
     derivable_pt_lim (fun t => r_pot (r t)) x (- nth k (r_frc (r x)) 0)) /\
  ((k < 9)%nat -> (forall g, In g gs -> conservative x k true g) ->
     derivable_pt_lim (fun t => r_pot (r t)) x (- nth k (r_vir (r x)) 0)).
Proof.
  intros Hl Hu Hr.
  destruct (String.eqb (baseline_name p) "") eqn:Eb.
  - (* no baseline *)
    assert (Hv : forall t, r t = mkRes (mean (map m_pot (map (at_t t) gs))) (meanv n (map m_frc (map (at_t t) gs)))
       (meanv 9 (map m_vir (map (at_t t) gs))) (committee_pot (r t)) (committee_var (r t)) (committee_force (r t)) (committee_virial (r t))).
    { intros t. specialize (Hr t). unfold gather in Hr. rewrite Eb in Hr. cbn [negb] in Hr.
      rewrite collect_plain in Hr by apply plain_at. cbn [pots frcs virs hf hv] in Hr.
      rewrite !map_length, !Nat.eqb_refl in Hr. cbn [negb andb] in Hr. injection Hr as Hr. rewrite <- Hr. easy. }
    assert (HM : forall (d : ffpath -> R), (forall g, In g gs -> derivable_pt_lim (fun t => m_pot (at_t t g)) x (- d g)) ->
       derivable_pt_lim (fun t => r_pot (r t)) x (- mean (map d gs))).
    { intros d Hd. apply (derivable_ext (fun t => mean (map (fun g => m_pot (at_t t g)) gs))).
      - intros t. rewrite (Hv t). cbn. now rewrite map_map.
      - rewrite <- mean_opp. now apply (derivable_mean (fun g t => m_pot (at_t t g)) (fun g => - d g)). }
    split; intros Hk Hc; rewrite (Hv x); cbn [r_frc r_vir]; rewrite comp_meanv by easy; unfold comp; rewrite !map_map;
      apply (HM (fun g => nth k _ 0)); exact Hc.
  - (* baseline *)
    assert (Hbn : baseline_name p <> ""%string) by (intros E; rewrite E in Eb; discriminate).
    specialize (Hu Hbn). pose proof (split_path (baseline_name p) gs) as Hs.
    destruct (split_baseline (baseline_name p) (map (at_t 0) gs)) as [[b0 r0]|].
    2:{ exfalso. specialize (Hr 0). unfold gather in Hr. rewrite Eb, Hs in Hr. cbn [negb] in Hr.
        destruct (_ && _); [discriminate|]. destruct (_ && _); [discriminate|].
        rewrite collect_plain in Hr by apply plain_at. discriminate. }
    destruct Hs as (b & com & Hb & Hlen & Hcom & Hs).
    set (s2 := baseline_uncertainty p * baseline_uncertainty p).
    assert (Hs2 : 0 < s2) by (unfold s2; pose proof (Rsqr_pos_lt _ Hu); unfold Rsqr in *; lra).
    set (ps := fun t => map (fun g => m_pot (at_t t g)) com).
    set (var := fun t => var1 (rescale (alpha p) (mean (ps t)) (ps t))).
    assert (Hv : forall t, r_pot (r t) = m_pot (at_t t b) + mean (ps t) * s2 / (s2 + var t) /\
       r_frc (r t) = map (fun k => final_frc s2 (var t) (nth k (m_frc (at_t t b)) 0) (mean (ps t)) (alpha p) (ps t)
                                   (map (fun g => nth k (m_frc (at_t t g)) 0) com)) (seq 0 n) /\
       r_vir (r t) = map (fun k => final_frc s2 (var t) (nth k (m_vir (at_t t b)) 0) (mean (ps t)) (alpha p) (ps t)
                                   (map (fun g => nth k (m_vir (at_t t g)) 0) com)) (seq 0 9)).
    { intros t. specialize (Hr t). unfold gather in Hr. rewrite Eb, Hs in Hr. cbn [negb] in Hr.
      rewrite collect_plain in Hr by apply plain_at. cbn [pots frcs virs hf hv] in Hr.
      rewrite !map_length, !Nat.eqb_refl in Hr. cbn [negb andb] in Hr.
      assert (E : forall {B} (h : member -> B), map h (map (at_t t) com) = map (fun g => h (at_t t g)) com) by (intros; apply map_map).
      rewrite !E in Hr. apply Ok_inj in Hr. rewrite <- Hr. cbn [r_pot r_frc r_vir]. fold (ps t). fold (var t). fold s2.
      split; [easy|]. split; apply map_ext; intros j; unfold comp; now rewrite map_map. }
    assert (HM : forall (d : ffpath -> R), (forall g, In g gs -> derivable_pt_lim (fun t => m_pot (at_t t g)) x (- d g)) ->
       derivable_pt_lim (fun t => r_pot (r t)) x (- final_frc s2 (var x) (d b) (mean (ps x)) (alpha p) (ps x) (map d com))).
    { intros d Hd. apply (derivable_ext (fun t => m_pot (at_t t b) + mean (ps t) * s2 / (s2 + var t))).
      - intros t. now rewrite (proj1 (Hv t)).
      - apply (derivable_baseline (fun g t => m_pot (at_t t g)) d (fun t => m_pot (at_t t b)) (d b)); [lia|easy|now apply Hd|].
        intros g Hg. now apply Hd, Hcom. }
    split; intros Hk Hc; [rewrite (proj1 (proj2 (Hv x)))|rewrite (proj2 (proj2 (Hv x)))]; rewrite nth_map_seq by easy.
    + apply (HM (fun g => nth k (m_frc (at_t x g)) 0)). exact Hc.
    + apply (HM (fun g => nth k (m_vir (at_t x g)) 0)). exact Hc.
Qed.

(** C22. The potential with a baseline is the baseline plus the mean of the others
    times a factor between 0 and 1, which is s_b^2/(s_b^2 + s_c^2). *)
Theorem baseline_mixing p n ms r :
  gather p n ms = Ok r -> baseline_name p <> ""%string -> baseline_uncertainty p <> 0 ->
  exists b com w,
    In b ms /\ m_name b = baseline_name p /\ length ms = S (length com) /\
    ((2 <= length (all_pots (parse_json p) com))%nat ->
       0 < w <= 1 /\
       w = let s2 := (baseline_uncertainty p)² in s2 / (s2 + (alpha p)² * pair_var (all_pots (parse_json p) com))) /\
    r_pot r = m_pot b + w * mean (all_pots (parse_json p) com).
Proof.
  intros H Hn Hu. unfold gather in H. destruct (String.eqb_spec (baseline_name p) ""); [easy|]. cbn [negb] in H.
  destruct (split_baseline (baseline_name p) ms) as [[b com]|] eqn:Es.
  - rewrite collect_pots in H. set (ps := all_pots (parse_json p) com) in *.
    destruct (_ && _); [discriminate|]. destruct (_ && _); [discriminate|]. destruct (_ && _); [|discriminate].
    assert (Hin : In b ms /\ m_name b = baseline_name p /\ length ms = S (length com)).
    { clear -Es. revert com Es. induction ms as [|m ms IH]; intros com Es; cbn in Es; [discriminate|].
      destruct (String.eqb_spec (m_name m) (baseline_name p)) as [E|E].
      - injection Es as <- <-. repeat split; auto. now left.
      - destruct (split_baseline (baseline_name p) ms) as [[b' r']|]; [|discriminate]. injection Es as <- <-.
        destruct (IH r' eq_refl) as (H1 & H2 & H3). repeat split; auto. { now right. } cbn. lia. }
    destruct Hin as (H1 & H2 & H3).
    set (s2 := baseline_uncertainty p * baseline_uncertainty p) in *.
    exists b, com, (s2 / (s2 + var1 (rescale (alpha p) (mean ps) ps))). fold ps.
    split; [easy|]. split; [easy|]. split; [easy|]. split; [intros H0; repeat split|].
    + apply Rmult_lt_0_compat; [unfold s2; exact (Rsqr_pos_lt _ Hu)|]. apply Rinv_0_lt_compat.
      assert (Hps : ps <> []) by (destruct ps; cbn in H0; [lia|easy]).
      rewrite var1_rescale by easy. assert (0 <= alpha p * alpha p * var1 ps).
      { apply Rmult_le_pos; [|now apply var1_nonneg]. pose proof (Rle_0_sqr (alpha p)). unfold Rsqr in *. lra. }
      pose proof (Rsqr_pos_lt _ Hu) as Hq. unfold Rsqr in Hq. fold s2 in Hq. lra.
    + assert (Hps : ps <> []) by (destruct ps; cbn in H0; [lia|easy]).
      rewrite var1_rescale by easy. assert (0 <= alpha p * alpha p * var1 ps).
      { apply Rmult_le_pos; [|now apply var1_nonneg]. pose proof (Rle_0_sqr (alpha p)). unfold Rsqr in *. lra. }
      assert (0 < s2) by exact (Rsqr_pos_lt _ Hu).
      apply Rmult_le_reg_r with (s2 + alpha p * alpha p * var1 ps); [lra|]. unfold Rdiv. rewrite Rmult_assoc, Rinv_l by lra. lra.
    + assert (Hps : ps <> []) by (destruct ps; cbn in H0; [lia|easy]).
      rewrite var1_rescale, var1_pair by easy. easy.
    + injection H as <-. cbn. unfold Rdiv. ring.
  - destruct (_ && _); [discriminate|]. destruct (_ && _); [discriminate|]. destruct (_ && _); discriminate.
Qed.

(** C66 is false of the code: the weights of the members are not used. *)
Theorem committee_weights_ignored_refuted :
  exists p ms r,
    ffweights p = [1; 3] /\ baseline_name p = ""%string /\
    check_weights true false (length ms) 2 true = true /\
    gather p 0 ms = Ok r /\ map m_pot ms = [0; 4] /\
    r_pot r <> (1 * 0 + 3 * 4) / (1 + 3).
Proof.
  exists (mkP 1 "" (-1) [1; 3] false), [mkM "a" 0 [] [] None; mkM "b" 4 [] [] None].
  eexists. repeat split. cbn. unfold mean. cbn. lra.
Qed.

(** C67 is false of the code: only the extras of the last member are kept. *)
Theorem committee_extras_dropped_refuted :
  exists (ms : list (member * string)), length ms = 2%nat /\ length (collected_extras ms ""%string) = 1%nat.
Proof. exists [(mkM "a" 0 [] [] None, "x"%string); (mkM "b" 0 [] [] None, "y"%string)]. now cbn. Qed.

(** C68 is false of the code: the bundled metatomic driver puts the flattened
    list of forces into "committee_force" (/repo/ipi/pes/metatomic.py:519-520), i.e.
    one "vector" per number; for every committee of more than one coordinate this
    is refused. *)
Theorem flattened_committee_forces_refused p n m j (ps : list R) (fs : list R) vs :
  baseline_name p = ""%string -> parse_json p = true ->
  m_json m = Some j -> j = mkJson ps (Some (map (fun x => [x]) fs)) vs ->
  ps <> [] -> (2 <= n)%nat -> length fs = (length ps * n)%nat ->
  gather p n [m] = ValueError.
Proof.
  intros Hb Hp Hj -> Hne Hn Hl. unfold gather. rewrite Hb, Hp. change (negb (String.eqb "" "")) with false.
  cbv zeta iota. unfold collect. cbn [fold_left]. unfold collect1. rewrite Hj. cbn [pots frcs virs j_pot j_frc j_vir app].
  rewrite map_length, Hl. assert (length ps <> 0%nat) by now destruct ps.
  replace (length ps =? length ps * n)%nat with false by (symmetry; apply Nat.eqb_neq; nia).
  replace (1 <? length ps * n)%nat with true by (symmetry; apply Nat.ltb_lt; nia). easy.
Qed.

(** ** The hypotheses are met *)
Example committee_case :
  exists r, gather (mkP 2 "" (-1) [] false) 1 [mkM "a" 1 [3] (repeat 0 9) None; mkM "b" 5 [7] (repeat 0 9) None] = Ok r
   /\ r_pot r = 3 /\ r_frc r = [5] /\ committee_pot r = [-1; 7] /\ committee_var r = 32.
Proof.
  eexists. split; [reflexivity|]. cbn. unfold mean, comp, rescale, var1, mean. cbn.
  split; [lra|]. split; [f_equal; lra|]. split; [repeat f_equal; lra|]. field.
Qed.
(** Two harmonic members over a linear baseline, along the first coordinate. *)
Definition ex_gs : list ffpath :=
  [("base"%string, fun t => (t, [-1], repeat 0 9));
   ("a"%string, fun t => (t * t, [-2 * t], repeat 0 9));
   ("b"%string, fun t => (3 * (t * t), [-6 * t], repeat 0 9))].
Example gradient_case :
  let p := mkP (1/2) "base" (1/10) [] false in
  (forall t, exists r, gather p 1 (map (at_t t) ex_gs) = Ok r) /\
  (forall x g, In g ex_gs -> conservative x 0 false g).
Proof.
  split.
  - intros t. eexists. reflexivity.
  - intros x g [<-|[<-|[<-|[]]]]; unfold conservative; cbn.
    + eapply derivable_eq; [|apply derivable_pt_lim_id]. lra.
    + eapply derivable_eq; [|apply derivable_sq, derivable_pt_lim_id]. cbv beta. lra.
    + apply (derivable_ext (mult_real_fct 3 (fun t => t * t))); [easy|].
      eapply derivable_eq; [|apply derivable_pt_lim_scal, derivable_sq, derivable_pt_lim_id]. cbv beta. lra.
Qed.
Example flattened_case :
  gather (mkP 1 "" (-1) [] true) 3
    [mkM "mta" 1 [1;2;3] (repeat 0 9) (Some (mkJson [1; 2] (Some (map (fun x => [x]) [1;2;3;4;5;6])) None))] = ValueError.
Proof. reflexivity. Qed.

Print Assumptions committee_potential_is_mean.
Print Assumptions committee_force_is_mean.
Print Assumptions committee_rescaling.
Print Assumptions committee_force_is_gradient.
Print Assumptions baseline_mixing.
Print Assumptions committee_weights_ignored_refuted.
Print Assumptions committee_extras_dropped_refuted.
Print Assumptions flattened_committee_forces_refused.

(** C22. The reported forces and virials of the members are scaled like their energies. *)
Lemma rescalev_nth n a m l i k : (i < length l)%nat -> (k < n)%nat ->
  nth k (nth i (rescalev n a m l) []) 0 = nth k m 0 + a * (nth k (nth i l []) 0 - nth k m 0).
Proof.
  intros Hi Hk. unfold rescalev. set (g := fun v : list R => map (fun k => nth k m 0 + a * (nth k v 0 - nth k m 0)) (seq 0 n)).
  rewrite (nth_indep _ [] (g [])) by now rewrite map_length. rewrite map_nth. unfold g. set (w := fun k => _).
  rewrite (nth_indep _ 0 (w 0%nat)) by now rewrite map_length, seq_length. rewrite map_nth, seq_nth by easy. reflexivity.
Qed.
Theorem committee_members_rescaled p n ms r :
  gather p n ms = Ok r -> baseline_name p = ""%string -> ms <> [] -> plain ms ->
  exists F W, committee_force r = Some F /\ committee_virial r = Some W /\ length F = length ms /\ length W = length ms /\
    (forall i k m, nth_error ms i = Some m -> (k < n)%nat ->
       nth k (nth i F []) 0 - nth k (r_frc r) 0 = alpha p * (nth k (m_frc m) 0 - nth k (r_frc r) 0)) /\
    (forall i k m, nth_error ms i = Some m -> (k < 9)%nat ->
       nth k (nth i W []) 0 - nth k (r_vir r) 0 = alpha p * (nth k (m_vir m) 0 - nth k (r_vir r) 0)).
Proof.
  intros H Hb Hne Hp. unfold gather in H. rewrite Hb in H. cbn [String.eqb negb andb] in H.
  rewrite collect_plain in H by easy. cbn [pots frcs virs hf hv] in H. rewrite !map_length, !Nat.eqb_refl in H.
  cbn [negb andb] in H. injection H as <-. cbn [r_frc r_vir committee_force committee_virial].
  do 2 eexists. split; [reflexivity|]. split; [reflexivity|]. unfold rescalev at 1 2. rewrite !map_length. split; [easy|]. split; [easy|].
  assert (N : forall (g : member -> list R) i m, nth_error ms i = Some m -> nth i (map g ms) [] = g m).
  { intros g i m Hm. apply nth_error_nth. now apply map_nth_error. }
  split; intros i k m Hm Hk; (assert (i < length ms)%nat by (apply nth_error_Some; congruence)); rewrite rescalev_nth by (try easy; now rewrite map_length);
    rewrite (N _ i m Hm); ring.
Qed.
(** A member that reports several energies without forces (virials) switches the report off. *)
Lemma collect_hf pj ms c : hf (fold_left (collect1 pj) ms c) = hf c && forallb (fun m => match (if pj then m_json m else None) with Some j => match j_frc j with Some _ => true | None => false end | None => true end) ms
  /\ hv (fold_left (collect1 pj) ms c) = hv c && forallb (fun m => match (if pj then m_json m else None) with Some j => match j_vir j with Some _ => true | None => false end | None => true end) ms.
Proof.
  revert c. induction ms as [|m ms IH]; intros c; cbn [fold_left forallb]; [now rewrite !andb_true_r|].
  destruct (IH (collect1 pj c m)) as [-> ->]. unfold collect1. destruct (if pj then m_json m else None) as [j|]; cbn [hf hv]; rewrite <- ?andb_assoc; easy.
Qed.
Theorem committee_without_forces p n ms m j r :
  gather p n ms = Ok r -> parse_json p = true -> baseline_name p = ""%string -> In m ms -> m_json m = Some j ->
  (j_frc j = None -> committee_force r = None) /\ (j_vir j = None -> committee_virial r = None).
Proof.
  intros H Hj Hb Hin Hm. unfold gather in H. rewrite Hb in H. change (negb (String.eqb "" "")) with false in H. cbv zeta iota in H. rewrite Hj in H.
  destruct (_ && _); [discriminate|]. destruct (_ && _); [discriminate|]. injection H as <-. cbn [committee_force committee_virial].
  unfold collect. destruct (collect_hf true ms (mkColl [] [] [] true true)) as [-> ->]. cbn [hf hv andb].
  split; intros E; (destruct (forallb _ ms) eqn:F; [|reflexivity]); rewrite forallb_forall in F; specialize (F m Hin); cbn beta iota in F; rewrite Hm, E in F; discriminate.
Qed.
(** With a baseline such a committee is refused. *)
Theorem committee_baseline_needs_forces p n ms m j :
  parse_json p = true -> baseline_name p <> ""%string -> (forall m', In m' ms -> m_name m' = baseline_name p -> m' <> m) -> In m ms -> m_json m = Some j ->
  j_frc j = None \/ j_vir j = None -> gather p n ms = ValueError \/ gather p n ms = UnboundLocalError.
Proof.
  intros Hj Hb Hn Hin Hm Hd. unfold gather. apply String.eqb_neq in Hb. rewrite Hb. cbn [negb]. cbv zeta.
  set (com := match split_baseline _ ms with Some (_, r) => r | None => ms end).
  assert (Hc : In m com).
  { unfold com. clear -Hn Hin. revert Hin. induction ms as [|a ms IH]; [easy|]. intros Hin. cbn [split_baseline]. destruct (String.eqb_spec (m_name a) (baseline_name p)) as [E|E].
    - destruct Hin as [->|Hin]; [|easy]. exfalso. exact (Hn m (or_introl eq_refl) E eq_refl).
    - assert (IH' : In m ms -> In m (match split_baseline (baseline_name p) ms with Some (_, r) => r | None => ms end)) by (intros; apply IH; [intros; apply Hn; [now right|easy]|easy]).
      destruct (split_baseline (baseline_name p) ms) as [[b l]|]; [|easy]. destruct Hin as [->|Hin]; [now left|right; now apply IH']. }
  destruct (_ && _); [now left|]. destruct (_ && _); [now left|].
  destruct (hf _ && hv _) eqn:F; [|now left]. exfalso. rewrite Hj in F. unfold collect in F. destruct (collect_hf true com (mkColl [] [] [] true true)) as [E1 E2]. rewrite E1, E2 in F. cbn [hf hv andb] in F.
  apply andb_prop in F as [F1 F2]. rewrite forallb_forall in F1, F2. specialize (F1 m Hc). specialize (F2 m Hc). cbn beta iota in F1, F2. rewrite Hm in F1, F2. destruct Hd as [-> | ->] in F1, F2; discriminate.
Qed.
(** C66. The number of weights is checked: one per member without a baseline, one less with. *)
Theorem committee_weights_counted neg pos nff nw noname : check_weights neg pos nff nw noname = true <->
  (neg = true -> (nw = 0 \/ nw = nff)%nat) /\ (pos = true -> neg = false \/ nff = 0%nat -> (nw = 0 \/ nw = nff - 1)%nat) /\ (neg = true -> pos = true -> nff = 0%nat) /\ noname = neg.
Proof.
  unfold check_weights. rewrite !andb_true_iff, !negb_true_iff, !andb_false_iff, !negb_false_iff, eqb_true_iff, !Nat.eqb_eq.
  destruct neg, pos; cbn [andb]; rewrite ?andb_true_r, ?andb_false_r; destruct (Nat.eqb_spec nw 0) as [->|]; intuition (try discriminate; try lia).
Qed.
Example without_forces_case :
  exists r, gather (mkP 1 "" (-1) [] true) 1 [mkM "mta" 1 [1] (repeat 0 9) (Some (mkJson [1; 2] None None))] = Ok r /\ committee_force r = None.
Proof. eexists. split; reflexivity. Qed.
Print Assumptions committee_members_rescaled.
Print Assumptions committee_without_forces.
Print Assumptions committee_baseline_needs_forces.
Print Assumptions committee_weights_counted.
