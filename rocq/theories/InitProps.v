(* C57, C97-C99: what the commands of an initialize block leave behind. *)
From Coq Require Import String List Reals Arith Bool Lia Lra.
From Verif Require Import RSum NMModel RPCProofs NMProps InitModel.
Import ListNotations.
Local Open Scope R_scope.

Lemma Some_eq {A} (x y : A) : Some x = Some y -> x = y.
Proof. congruence. Qed.

Section Init.
Variable nbeads : nat.
Variable ens_temp : R.
Variable nm_factor : nat -> R.
Notation step := (step nbeads ens_temp nm_factor).
Notation steps := (steps nbeads ens_temp nm_factor).
Notation init_stage1 := (init_stage1 nbeads ens_temp nm_factor).

(* ---------------- what is refused ---------------- *)

(* a system that passes has atoms, a cell with a volume, and for every atom a
   positive mass and a label *)
Theorem accepted_system_complete s cs s' : init_stage1 s cs = Some s' ->
  (0 < na s')%nat /\ h s' 0%nat 0%nat * h s' 1%nat 1%nat * h s' 2%nat 2%nat <> 0 /\
  forall i, (i < na s')%nat -> 0 < m s' i /\ names s' i <> ""%string.
Proof.
  unfold InitModel.init_stage1. destruct (steps s cs) as [t|]; [|easy].
  destruct (complete t) eqn:E; [|easy]. intros K. inversion K; subst t. clear K.
  unfold complete in E. rewrite !andb_true_iff in E. destruct E as ((E1 & E2) & E3).
  split; [rewrite negb_true_iff, Nat.eqb_neq in E1; lia|]. split.
  - intros K. unfold vol in E2. destruct (Req_EM_T _ 0); [easy|]. lra.
  - intros i Hi. rewrite forallb_forall in E3. specialize (E3 i). rewrite in_seq in E3.
    specialize (E3 ltac:(lia)). rewrite andb_true_iff, negb_true_iff in E3. destruct E3 as (E3 & E4).
    split; [destruct (Rle_dec (m s' i) 0); [easy|lra]|]. now apply String.eqb_neq.
Qed.

(* a cell of no volume at the end is refused *)
Theorem zero_volume_refused s cs s' : steps s cs = Some s' -> vol (h s') = 0 -> init_stage1 s cs = None.
Proof.
  intros E V. unfold InitModel.init_stage1. rewrite E. unfold complete. destruct (Req_EM_T (vol (h s')) 0); [|easy].
  rewrite !andb_false_r. easy.
Qed.

(* what needs to know the size of the system, or the masses, is refused before *)
Theorem too_early_refused s : nb s = 0%nat -> na s = 0%nat ->
  (forall x i b, step s (Masses x i b) = None) /\ (forall x i b, step s (Labels x i b) = None) /\
  (forall t g i b, step s (Thermal t g i b) = None) /\
  (forall x k b, step s (Positions x (Some k) b) = None) /\ (forall x k b, step s (Momenta x (Some k) b) = None).
Proof.
  intros Hb Ha. cbn. repeat split; intros.
  - unfold do_masses. now rewrite Hb.
  - unfold do_labels. now rewrite Hb.
  - unfold do_thermal. now rewrite Ha.
  - unfold do_positions. destruct (init_vector x nbeads false b) as [[[rb ra] rq]|]; [|easy]. unfold sized. now rewrite Hb.
  - unfold do_momenta. destruct (init_vector x nbeads true b) as [[[rb ra] rq]|]; [|easy]. unfold sized. now rewrite Hb.
Qed.
Theorem thermal_needs_masses s t g i b : fmass s = false -> step s (Thermal t g i b) = None.
Proof. intros H. cbn. unfold do_thermal. rewrite H. now destruct (Nat.eqb (na s) 0). Qed.

(* single beads have no masses, labels or temperature of their own *)
Theorem single_bead_refused s : (forall x i b, step s (Masses x i (Some b)) = None) /\
  (forall x i b, step s (Labels x i (Some b)) = None) /\ (forall t g i b, step s (Thermal t g i (Some b)) = None).
Proof.
  cbn. repeat split; intros.
  - unfold do_masses. destruct (Nat.eqb (nb s) 0); [easy|]. now destruct x.
  - unfold do_labels. destruct (Nat.eqb (nb s) 0); [easy|]. now destruct x.
  - unfold do_thermal. destruct (Nat.eqb (na s) 0), (negb (fmass s)); easy.
Qed.

Lemma set_vector_range i b db da dq src : (match i with Some k => (da <= k)%nat | None => False end) \/
  (match b with Some k => (db <= k)%nat | None => False end) -> set_vector i b db da dq src = None.
Proof.
  intros H. unfold set_vector. destruct src as [[rb ra] rq].
  destruct H as [H|H].
  - destruct i as [k|]; [|easy]. apply Nat.leb_le in H. now rewrite H.
  - destruct (match i with None => negb (Nat.eqb ra da) | Some k => (da <=? k)%nat end); [easy|].
    destruct b as [k|]; [|easy]. apply Nat.leb_le in H. now rewrite H.
Qed.
(* atoms and beads beyond the system are refused, for vectors *)
Theorem out_of_range_refused s x i b : nb s <> 0%nat -> fmass s = true ->
  (match i with Some k => (na s <= k)%nat | None => False end) \/ (match b with Some k => (nb s <= k)%nat | None => False end) ->
  step s (Positions x i b) = None /\ step s (Momenta x i b) = None /\ step s (Velocities x i b) = None.
Proof.
  intros Hb Hf H. apply Nat.eqb_neq in Hb. cbn. split; [|split].
  - unfold do_positions. destruct (init_vector x nbeads false b) as [[[rb ra] rq]|]; [|easy]. unfold sized. rewrite Hb.
    now rewrite set_vector_range.
  - unfold do_momenta. destruct (init_vector x nbeads true b) as [[[rb ra] rq]|]; [|easy]. unfold sized. rewrite Hb.
    now rewrite set_vector_range.
  - unfold do_velocities. destruct (init_vector x nbeads false b) as [[[rb ra] rq]|]; [|easy]. rewrite Hb, Hf. cbn [orb negb].
    destruct (match i with Some k => _ | None => _ end); [|easy]. now rewrite set_vector_range.
Qed.
(* a file or a checkpoint with another number of atoms is refused *)
Theorem other_atom_number_refused s x b rb ra : nb s <> 0%nat -> fmass s = true -> ra <> na s ->
  (forall mom, exists y, init_vector x nbeads mom b = Some (rb, ra, y)) ->
  step s (Positions x None b) = None /\ step s (Momenta x None b) = None /\ step s (Velocities x None b) = None.
Proof.
  intros Hb Hf Hn Hx. apply Nat.eqb_neq in Hb, Hn. cbn. split; [|split].
  - unfold do_positions. destruct (Hx false) as (z & ->). unfold sized, set_vector. rewrite Hb. now rewrite Hn.
  - unfold do_momenta. destruct (Hx true) as (z & ->). unfold sized, set_vector. rewrite Hb. now rewrite Hn.
  - unfold do_velocities. destruct (Hx false) as (z & ->). rewrite Hb, Hf. cbn [orb negb]. now rewrite Hn.
Qed.

(* ---------------- what is kept ---------------- *)

Definition is_positions (c : command) : bool := match c with Positions _ _ _ => true | _ => false end.
Definition is_velocities (c : command) : bool := match c with Velocities _ _ _ => true | _ => false end.
Definition is_mass (c : command) : bool := match c with Masses _ _ _ => true | _ => false end.

(* a command does not touch what it is not about, once sizes and masses are
   known; masses rescale momenta *)
Theorem other_data_kept s c s' : nb s <> 0%nat -> (is_velocities c = true -> fmass s = true) -> step s c = Some s' ->
  nb s' = nb s /\ na s' = na s /\ (is_positions c = false -> q s' = q s) /\ (is_mass c = false -> m s' = m s) /\
  ((forall x i b, c <> Labels x i b) -> names s' = names s) /\ ((forall x, c <> Cell x) -> h s' = h s) /\
  (fmass s = true -> fmass s' = true).
Proof.
  intros Hb Hv E. apply Nat.eqb_neq in Hb. destruct c as [c|x i b|x i b|x i b|t g i b|x i b|x i b|]; cbn in E.
  - unfold do_cell in E. destruct c as [y u|y]; [|destruct (Req_EM_T _ _)]; inversion E; subst; cbn;
      repeat (split; [easy|]); try easy; (split; [intros K; exfalso; now eapply K|easy]).
  - unfold do_masses in E. rewrite Hb in E. destruct (match x with Hand _ _ => _ | HandNames _ => _ | _ => _ end) as [[n rm]|]; [|easy].
    destruct b; [easy|]. destruct (match i with None => _ | Some k => _ end) as [m'|]; [|easy]. inversion E; subst; cbn.
    repeat (split; [easy|]). easy.
  - unfold do_labels in E. rewrite Hb in E. destruct (match x with Hand _ _ => _ | HandNames _ => _ | _ => _ end) as [[n rm]|]; [|easy].
    destruct b; [easy|]. destruct (match i with None => _ | Some k => _ end) as [m'|]; [|easy]. inversion E; subst; cbn.
    repeat (split; [easy|]). split; [intros K; exfalso; now eapply K|easy].
  - unfold do_positions in E. destruct (init_vector x nbeads false b) as [[[rb ra] rq]|]; [|easy]. unfold sized in E. rewrite Hb in E.
    destruct (set_vector _ _ _ _ _ _); [|easy]. inversion E; subst; cbn. repeat (split; [easy|]). easy.
  - unfold do_thermal in E. destruct (Nat.eqb (na s) 0); [easy|]. destruct (negb (fmass s)); [easy|]. destruct b; [easy|].
    destruct i as [k|]; [destruct (na s <=? k)%nat; [easy|]|]; inversion E; subst; cbn; repeat (split; [easy|]); easy.
  - unfold do_momenta in E. destruct (init_vector x nbeads true b) as [[[rb ra] rq]|]; [|easy]. unfold sized in E. rewrite Hb in E.
    destruct (set_vector _ _ _ _ _ _); [|easy]. inversion E; subst; cbn. repeat (split; [easy|]). easy.
  - unfold do_velocities in E. destruct (init_vector x nbeads false b) as [[[rb ra] rq]|]; [|easy]. rewrite Hb, (Hv eq_refl) in E.
    cbn [orb negb] in E. destruct (match i with Some k => _ | None => _ end); [|easy].
    destruct (set_vector _ _ _ _ _ _); [|easy]. inversion E; subst; cbn. repeat (split; [easy|]). easy.
  - inversion E; subst. repeat (split; [easy|]). easy.
Qed.

(* once masses are known, positions stay through every sequence of commands
   without positions *)
Theorem positions_kept cs : forall s s', nb s <> 0%nat -> fmass s = true ->
  (forall c, In c cs -> is_positions c = false) -> steps s cs = Some s' ->
  q s' = q s /\ nb s' = nb s /\ na s' = na s.
Proof.
  induction cs as [|c cs IH]; intros s s' Hb Hf Hc E; cbn in E; [inversion E; subst; easy|].
  destruct (step s c) as [t|] eqn:Et; [|easy].
  destruct (other_data_kept s c t Hb (fun _ => Hf) Et) as (K1 & K2 & K3 & _ & _ & _ & K4).
  destruct (IH t s') as (J1 & J2 & J3); [congruence|auto|intros d Hd; apply Hc; cbn; auto|easy|].
  rewrite J1, J2, J3. split; [apply K3, Hc; cbn; auto|]. easy.
Qed.

(* ---------------- positions, momenta and velocities ---------------- *)

(* for the same number of beads the values are copied *)
Theorem positions_copied s x ra y s' : init_vector x nbeads false None = Some (nb s, ra, y) -> nb s <> 0%nat ->
  step s (Positions x None None) = Some s' -> forall b c, q s' b c = y b c.
Proof.
  intros E Hb Es b c. cbn in Es. unfold do_positions in Es. rewrite E in Es. unfold sized in Es. apply Nat.eqb_neq in Hb. rewrite Hb in Es.
  unfold set_vector in Es. destruct (negb (Nat.eqb ra (na s))); [easy|]. inversion Es; subst. cbn.
  unfold rescale_b1tob2. now rewrite Nat.eqb_refl.
Qed.
(* for other numbers of beads the centroid is kept *)
Theorem positions_centroid_kept s x rb ra y s' c : init_vector x nbeads false None = Some (rb, ra, y) ->
  (0 < rb)%nat -> (0 < nbeads)%nat ->
  step s (Positions x None None) = Some s' ->
  mean (nb s') (fun b => q s' b c) = mean rb (fun b => y b c).
Proof.
  intros E Hr Hn Es. cbn in Es. unfold do_positions in Es. rewrite E in Es. unfold sized in Es.
  destruct (Nat.eqb_spec (nb s) 0) as [Z|Z]; cbn in Es; destruct (negb (Nat.eqb ra _)); try easy; inversion Es; subst; cbn;
    refine (proj1 (contraction_centroid _ _ [] true y c Hr _)); lia.
Qed.

Lemma expand_one n x i c : (0 < n)%nat -> (i < n)%nat -> rescale_b1tob2 1 n [] true x i c = x 0%nat c.
Proof.
  intros Hn Hi. unfold rescale_b1tob2. destruct (Nat.eqb_spec 1 n) as [<-|N]; [replace i with 0%nat by lia; easy|].
  cbn [nonempty]. unfold app, b1tob2_m, mk_rs_matrix, mk_rs. destruct (Nat.eqb_spec 1 n); [easy|].
  destruct (Nat.ltb_spec n 1); [lia|]. cbn [Rsum].
  assert (K : rs mk_nm_matrix n 1 0%nat i * (INR n / INR 1) = 1).
  { pose proof (rs_sum mk_nm_matrix good_nm n 1 ltac:(lia) ltac:(lia) (fun j => delta j i)) as S.
    unfold app in S. cbn [Rsum] in S. rewrite (Rsum_delta_r n i (fun j => rs mk_nm_matrix n 1 0%nat j) Hi) in S.
    rewrite (Rsum_ext n (fun j => delta j i) (fun j => 1 * delta j i)) in S by (intros; ring).
    rewrite (Rsum_delta_r n i (fun _ => 1) Hi) in S.
    pose proof (lt_0_INR n Hn). cbn [INR] in *.
    replace (rs mk_nm_matrix n 1 0%nat i) with (1 / INR n * 1) by lra. field. lra. }
  rewrite K. ring.
Qed.

(* one configuration goes to all beads *)
Theorem one_frame_to_all_beads s x ra y s' b c : init_vector x nbeads false None = Some (1%nat, ra, y) ->
  (0 < nbeads)%nat -> step s (Positions x None None) = Some s' -> (b < nb s')%nat -> q s' b c = y 0%nat c.
Proof.
  intros E Hn Es Hb. cbn in Es. unfold do_positions in Es. rewrite E in Es. unfold sized in Es.
  destruct (Nat.eqb_spec (nb s) 0) as [Z|Z]; cbn in Es; destruct (negb (Nat.eqb ra _)); try easy; inversion Es; subst; cbn in *;
    apply expand_one; lia.
Qed.

(* velocities times the masses already there, for the same number of beads *)
Theorem velocities_give_momenta s x ra v s' b c : init_vector x nbeads false None = Some (nbeads, ra, v) ->
  (0 < nbeads)%nat -> nb s = nbeads -> fmass s = true ->
  step s (Velocities x None None) = Some s' -> p s' b c = m s (c / 3) * v b c.
Proof.
  intros E Hn Hb Hf Es. cbn in Es. unfold do_velocities in Es. rewrite E, Hf, Hb in Es.
  destruct (Nat.eqb_spec nbeads 0); [lia|]. cbn [orb negb] in Es. destruct (Nat.eqb ra (na s)) eqn:Ea; [|easy].
  unfold set_vector in Es. rewrite Ea, Hb in Es. cbn [negb] in Es. inversion Es; subst s'. cbn [p with_p].
  unfold rescale_b1tob2. rewrite Nat.eqb_refl. unfold scaled, m3. pose proof (lt_0_INR nbeads Hn).
  replace (INR nbeads / INR nbeads) with 1 by (field; lra). rewrite sqrt_1. ring.
Qed.
(* one frame of velocities: every bead gets them times the square root of the
   number of beads, so that the mean kinetic energy grows with the beads as
   the temperature of the ring polymer does *)
Theorem velocities_of_one_frame s x ra v s' b c : init_vector x nbeads false None = Some (1%nat, ra, v) ->
  (0 < nbeads)%nat -> nb s = nbeads -> fmass s = true ->
  step s (Velocities x None None) = Some s' -> (b < nbeads)%nat -> p s' b c = sqrt (INR nbeads) * (m s (c / 3) * v 0%nat c).
Proof.
  intros E Hn Hb Hf Es Hbb. cbn in Es. unfold do_velocities in Es. rewrite E, Hf, Hb in Es.
  destruct (Nat.eqb_spec nbeads 0); [lia|]. cbn [orb negb] in Es. destruct (Nat.eqb ra (na s)) eqn:Ea; [|easy].
  unfold set_vector in Es. rewrite Ea, Hb in Es. cbn [negb] in Es. inversion Es; subst s'. cbn [p with_p].
  rewrite expand_one by easy. unfold scaled, m3. cbn [INR]. replace (INR nbeads / 1) with (INR nbeads) by field. ring.
Qed.

(* ---------------- masses ---------------- *)

(* new masses keep the kinetic energy of every degree of freedom when momenta
   and masses were there before *)
Theorem mass_change_keeps_kinetic_energy s x i s' b c :
  (forall a, (a < na s)%nat -> 0 < m s a) -> (forall a, (a < na s)%nat -> 0 < m s' a) -> fmom s = true -> fmass s = true ->
  step s (Masses x i None) = Some s' -> (c < 3 * na s)%nat ->
  p s' b c ^ 2 / m s' (c / 3) = p s b c ^ 2 / m s (c / 3).
Proof.
  intros H1 H2 Hm Hf E Hc. cbn in E. unfold do_masses in E. destruct (Nat.eqb (nb s) 0); [easy|].
  destruct (match x with Hand _ _ => _ | HandNames _ => _ | _ => _ end) as [[n rm]|]; [|easy].
  destruct (match i with None => _ | Some k => _ end) as [m'|]; [|easy]. rewrite Hm, Hf in E. apply Some_eq in E. subst s'. cbn [p m andb] in *.
  assert (Hc' : (c / 3 < na s)%nat) by (apply Nat.div_lt_upper_bound; lia).
  specialize (H1 _ Hc'). specialize (H2 _ Hc'). unfold m3.
  pose proof (sqrt_lt_R0 _ H1). pose proof (sqrt_lt_R0 _ H2).
  set (m1 := m s (c / 3)) in *. set (m2 := m' (c / 3)%nat) in *.
  assert (E1 : m1 = sqrt m1 * sqrt m1) by (rewrite sqrt_sqrt; lra). assert (E2 : m2 = sqrt m2 * sqrt m2) by (rewrite sqrt_sqrt; lra).
  replace (p s b c ^ 2 / m1) with (p s b c ^ 2 / (sqrt m1 * sqrt m1)) by (now rewrite <- E1).
  replace ((p s b c / sqrt m1 * sqrt m2) ^ 2 / m2) with ((p s b c / sqrt m1 * sqrt m2) ^ 2 / (sqrt m2 * sqrt m2)) by (now rewrite <- E2).
  field. split; lra.
Qed.
(* masses before momenta leave the momenta alone *)
Theorem first_masses_keep_momenta s x i s' : fmass s = false -> step s (Masses x i None) = Some s' -> p s' = p s.
Proof.
  intros Hf E. cbn in E. unfold do_masses in E. destruct (Nat.eqb (nb s) 0); [easy|].
  destruct (match x with Hand _ _ => _ | HandNames _ => _ | _ => _ end) as [[n rm]|]; [|easy].
  destruct (match i with None => _ | Some k => _ end) as [m'|]; [|easy]. rewrite Hf, andb_false_r in E. now inversion E.
Qed.
(* masses by hand are converted *)
Theorem masses_by_hand_converted s vs u s' a : step s (Masses (Hand vs u) None None) = Some s' ->
  length vs = na s -> m s' a = nth a vs 0 * u.
Proof.
  intros E Hl. cbn in E. unfold do_masses in E. destruct (Nat.eqb (nb s) 0); [easy|]. unfold stretch in E.
  rewrite Hl, Nat.eqb_refl in E. now inversion E.
Qed.
Theorem cell_by_hand_converted s x u s' i j : step s (Cell (HandCell x u)) = Some s' -> h s' i j = x i j * u.
Proof. intros E. cbn in E. now inversion E. Qed.

(* ---------------- parts of the system ---------------- *)

(* values given by hand: bead by bead, atom by atom *)
Theorem hand_layout vs u mom bead a : let n := match bead with Some _ => 1%nat | None => nbeads end in
  (0 < n)%nat -> length vs = (n * (3 * a))%nat ->
  exists y, init_vector (Hand vs u) nbeads mom bead = Some (n, a, y) /\ forall i j, y i j = nth (i * (3 * a) + j) vs 0.
Proof.
  intros n Hn Hl. unfold init_vector. fold n. rewrite Hl.
  replace (n * (3 * a) / (n * 3))%nat with a by (rewrite Nat.mul_assoc, (Nat.mul_comm (n * 3)); symmetry; apply Nat.div_mul; lia).
  rewrite Nat.eqb_refl. eexists. split; [reflexivity|]. reflexivity.
Qed.
Definition of_atom (k c : nat) : Prop := exists j, (j < 3)%nat /\ c = (3 * k + j)%nat.
Lemma of_atom_spec k c : of_atom k c <-> (3 * k <=? c)%nat && (c <? 3 * (k + 1))%nat = true.
Proof.
  rewrite andb_true_iff, Nat.leb_le, Nat.ltb_lt. split; [intros (j & ? & ->); lia|]. intros []. exists (c - 3 * k)%nat. lia.
Qed.
(* one atom in all beads, one bead, or one atom in one bead: this and nothing
   else is set *)
Theorem positions_of_one_atom s x k y s' : nb s <> 0%nat -> init_vector x nbeads false None = Some (nb s, 1%nat, y) ->
  step s (Positions x (Some k) None) = Some s' ->
  (forall b j, (j < 3)%nat -> q s' b (3 * k + j)%nat = y b j) /\ (forall b c, ~ of_atom k c -> q s' b c = q s b c).
Proof.
  intros Hb E Es. cbn in Es. unfold do_positions in Es. rewrite E in Es. unfold sized in Es. apply Nat.eqb_neq in Hb. rewrite Hb in Es.
  unfold set_vector in Es. destruct (na s <=? k)%nat; [easy|]. cbn [negb Nat.eqb] in Es. apply Some_eq in Es. subst s'. cbn [q with_q].
  unfold rescale_b1tob2. rewrite Nat.eqb_refl. split.
  - intros b j Hj. rewrite (proj1 (of_atom_spec k _)) by (exists j; auto). f_equal. lia.
  - intros b c N. destruct (_ && _) eqn:F; [|reflexivity]. now apply of_atom_spec in F.
Qed.
Theorem positions_of_one_bead s x b0 a y s' : nb s <> 0%nat -> init_vector x nbeads false (Some b0) = Some (1%nat, a, y) ->
  step s (Positions x None (Some b0)) = Some s' ->
  (forall c, q s' b0 c = y 0%nat c) /\ (forall b c, b <> b0 -> q s' b c = q s b c).
Proof.
  intros Hb E Es. cbn in Es. unfold do_positions in Es. rewrite E in Es. unfold sized in Es. apply Nat.eqb_neq in Hb. rewrite Hb in Es.
  unfold set_vector in Es. destruct (negb (Nat.eqb a (na s))); [easy|]. destruct (nb s <=? b0)%nat; [easy|].
  cbn [negb Nat.eqb] in Es. apply Some_eq in Es. subst s'. cbn [q with_q]. split.
  - intros c. now rewrite Nat.eqb_refl.
  - intros b c N. apply Nat.eqb_neq in N. now rewrite N.
Qed.
Theorem positions_of_one_atom_and_bead s x k b0 y s' : nb s <> 0%nat -> init_vector x nbeads false (Some b0) = Some (1%nat, 1%nat, y) ->
  step s (Positions x (Some k) (Some b0)) = Some s' ->
  (forall j, (j < 3)%nat -> q s' b0 (3 * k + j)%nat = y 0%nat j) /\ (forall b c, b <> b0 \/ ~ of_atom k c -> q s' b c = q s b c).
Proof.
  intros Hb E Es. cbn in Es. unfold do_positions in Es. rewrite E in Es. unfold sized in Es. apply Nat.eqb_neq in Hb. rewrite Hb in Es.
  unfold set_vector in Es. destruct (na s <=? k)%nat; [easy|]. destruct (nb s <=? b0)%nat; [easy|].
  cbn [negb Nat.eqb andb] in Es. apply Some_eq in Es. subst s'. cbn [q with_q]. split.
  - intros j Hj. rewrite Nat.eqb_refl, (proj1 (of_atom_spec k _)) by (exists j; auto). cbn [andb]. f_equal. lia.
  - intros b c [N|N].
    + apply Nat.eqb_neq in N. now rewrite N.
    + destruct (_ && _) eqn:F at 1; [|reflexivity]. apply andb_true_iff in F. destruct F as [_ F]. now apply of_atom_spec in F.
Qed.
(* velocities of one atom become its momenta by its mass *)
Theorem velocities_of_one_atom s x k v s' b j : init_vector x nbeads false None = Some (nbeads, 1%nat, v) ->
  (0 < nbeads)%nat -> nb s = nbeads -> fmass s = true -> (j < 3)%nat ->
  step s (Velocities x (Some k) None) = Some s' -> p s' b (3 * k + j)%nat = m s k * v b j.
Proof.
  intros E Hn Hb Hf Hj Es. cbn in Es. unfold do_velocities in Es. rewrite E, Hf, Hb in Es.
  destruct (Nat.eqb_spec nbeads 0); [lia|]. cbn [orb negb] in Es. destruct (na s <=? k)%nat eqn:Ek; [easy|].
  unfold set_vector in Es. rewrite Ek, Hb in Es. cbn [negb Nat.eqb] in Es. apply Some_eq in Es. subst s'. cbn [p with_p].
  rewrite (proj1 (of_atom_spec k _)) by (exists j; auto). unfold rescale_b1tob2. rewrite Nat.eqb_refl.
  replace (3 * k + j - 3 * k)%nat with j by lia. unfold scaled. pose proof (lt_0_INR nbeads Hn).
  replace (INR nbeads / INR nbeads) with 1 by (field; lra). rewrite sqrt_1. ring.
Qed.
(* a temperature for one atom leaves the momenta of the others *)
Theorem thermal_of_one_atom s t g k s' b c : step s (Thermal t g (Some k) None) = Some s' -> ~ of_atom k c -> p s' b c = p s b c.
Proof.
  intros E N. cbn in E. unfold do_thermal in E. destruct (Nat.eqb (na s) 0); [easy|]. destruct (negb (fmass s)); [easy|].
  destruct (na s <=? k)%nat; [easy|]. apply Some_eq in E. subst s'. cbn [p with_p].
  destruct (_ && _) eqn:F; [|reflexivity]. now apply of_atom_spec in F.
Qed.

(* ---------------- thermal momenta ---------------- *)

(* the kinetic energy of the modes is that of the numbers drawn, at the
   temperature of the ring polymer *)
Theorem thermal_kinetic_energy s t g s' k c : step s (Thermal t g None None) = Some s' ->
  (0 < nb s)%nat -> (k < nb s)%nat -> 0 < nm_factor k -> 0 < m s (c / 3) -> 0 < ens_temp ->
  let T := if Rle_dec t 0 then ens_temp else t in
  nm_trans_b2nm (nb s') [] (p s') k c ^ 2 / (2 * (nm_factor k * m s (c / 3))) = INR (nb s) * T / 2 * g k c ^ 2.
Proof.
  intros E Hb Hk Hf Hm Ht T. cbn in E. unfold do_thermal in E. destruct (Nat.eqb (na s) 0); [easy|]. destruct (negb (fmass s)); [easy|].
  inversion E; subst s'. cbn [nb p with_p]. rewrite nm_roundtrip_modes by easy. fold T.
  assert (0 < T) by (unfold T; destruct (Rle_dec t 0); lra). unfold m3.
  pose proof (lt_0_INR _ Hb) as Hp.
  assert (P1 : 0 < nm_factor k * m s (c / 3)) by (now apply Rmult_lt_0_compat).
  assert (P2 : 0 <= INR (nb s) * T) by (apply Rlt_le; now apply Rmult_lt_0_compat).
  replace ((g k c * sqrt (nm_factor k * m s (c / 3)) * sqrt (INR (nb s) * T)) ^ 2)
    with (g k c ^ 2 * (sqrt (nm_factor k * m s (c / 3)) * sqrt (nm_factor k * m s (c / 3))) * (sqrt (INR (nb s) * T) * sqrt (INR (nb s) * T))) by ring.
  rewrite !sqrt_sqrt by lra. field. split; lra.
Qed.
End Init.

(* ---------------- false of the code ---------------- *)

Lemma complete_intro s : na s <> 0%nat -> vol (h s) <> 0 -> (forall i, (i < na s)%nat -> 0 < m s i /\ names s i <> ""%string) ->
  complete s = true.
Proof.
  intros H1 H2 H3. unfold complete. apply Nat.eqb_neq in H1. rewrite H1. destruct (Req_EM_T (vol (h s)) 0); [easy|]. cbn [negb andb].
  apply forallb_forall. intros i Hi. apply in_seq in Hi. destruct (H3 i ltac:(lia)) as (K1 & K2).
  destruct (Rle_dec (m s i) 0); [lra|]. cbn [andb]. rewrite negb_true_iff. now apply String.eqb_neq.
Qed.
Lemma accepted nbeads T f s cs s' : InitModel.steps nbeads T f s cs = Some s' -> na s' <> 0%nat -> vol (h s') <> 0 ->
  (forall i, (i < na s')%nat -> 0 < m s' i /\ names s' i <> ""%string) -> InitModel.init_stage1 nbeads T f s cs = Some s'.
Proof. intros E H1 H2 H3. unfold InitModel.init_stage1. rewrite E. now rewrite complete_intro. Qed.

Definition unit_cell : mat := fun i j => if Nat.eqb i j then 1 else 0.
(* a file with one frame of one atom at (x, y, z) *)
Definition frame (x y z : R) : source :=
  Frames 1 1 (fun _ c => nth c [x; y; z] 0) (fun _ => 1) (fun _ => "H"%string).
Definition the_rest : list command := [Masses (Hand [1] 1) None None; Labels (HandNames ["H"%string]) None None; Cell (HandCell unit_cell 1)].
Ltac accept := split; [reflexivity|]; split; [cbn; lia|]; split; [unfold vol; cbn; lra|];
  cbn; intros i Hi; destruct i as [|i]; [|lia]; cbn; split; [lra|easy].

(* velocities before masses pass, and wipe out positions and velocities: the
   error is built but not raised *)
Theorem velocities_before_masses_refuted : exists pos vel s', q s' 0%nat 0%nat <> 1 /\
  init_vector pos 1 false None = Some (1%nat, 1%nat, fun _ c => nth c [1; 2; 3] 0) /\
  init_vector vel 1 false None = Some (1%nat, 1%nat, fun _ c => nth c [4; 5; 6] 0) /\
  init_stage1 1 1 (fun _ => 1) nothing (Positions pos None None :: Velocities vel None None :: the_rest) = Some s' /\
  (forall b c, q s' b c = 0) /\ (forall b c, (c < 3)%nat -> p s' b c = 0).
Proof.
  destruct (InitModel.steps 1 1 (fun _ => 1) nothing (Positions (frame 1 2 3) None None :: Velocities (frame 4 5 6) None None :: the_rest)) as [s'|] eqn:E;
    [|cbv in E; easy].
  exists (frame 1 2 3), (frame 4 5 6), s'. cbn in E. inversion E; subst s'. split; [cbn; lra|]. repeat (split; [reflexivity|]). split.
  - apply accepted; [reflexivity| | |]; [cbn; lia|unfold vol; cbn; lra|]. cbn. intros i Hi. destruct i as [|i]; [|lia]. cbn. split; [lra|easy].
  - split; [reflexivity|]. intros b c Hc. cbn. unfold scaled, m3. cbn. ring.
Qed.

(* no positions at all: accepted, with all atoms at the origin *)
Theorem missing_positions_refuted : exists mom s', (forall c, In c (Momenta mom None None :: the_rest) -> is_positions c = false) /\
  init_stage1 1 1 (fun _ => 1) nothing (Momenta mom None None :: the_rest) = Some s' /\ fpos s' = false /\ (forall b c, q s' b c = 0).
Proof.
  destruct (InitModel.steps 1 1 (fun _ => 1) nothing (Momenta (frame 1 2 3) None None :: the_rest)) as [s'|] eqn:E; [|cbv in E; easy].
  exists (frame 1 2 3), s'. cbn in E. inversion E; subst s'.
  split; [intros c Hc; repeat (destruct Hc as [<-|Hc]; [reflexivity|]); easy|]. split; [|split; reflexivity].
  apply accepted; [reflexivity| | |]; [cbn; lia|unfold vol; cbn; lra|]. cbn. intros i Hi. destruct i as [|i]; [|lia]. cbn. split; [lra|easy].
Qed.

(* mass or label of an atom that is not there: nothing happens and nothing is
   said, unlike for positions, momenta, velocities and temperatures *)
Theorem mass_out_of_range_refuted : exists s k v s', nb s <> 0%nat /\ (na s <= k)%nat /\
  step 1 1 (fun _ => 1) s (Masses (Hand [v] 1) (Some k) None) = Some s' /\ (forall a, (a < na s)%nat -> m s' a = m s a).
Proof.
  exists (resize nothing 1 1), 7%nat, 2. eexists. split; [easy|]. split; [cbn; lia|]. split; [reflexivity|].
  cbn. intros a Ha. destruct a; [reflexivity|lia].
Qed.
Theorem label_out_of_range_refuted : exists s k v s', nb s <> 0%nat /\ (na s <= k)%nat /\
  step 1 1 (fun _ => 1) s (Labels (HandNames [v]) (Some k) None) = Some s' /\ (forall a, (a < na s)%nat -> names s' a = names s a).
Proof.
  exists (resize nothing 1 1), 7%nat, "H"%string. eexists. split; [easy|]. split; [cbn; lia|]. split; [reflexivity|].
  cbn. intros a Ha. destruct a; [reflexivity|lia].
Qed.

(* momenta of two beads: given together they are kept, given bead by bead they
   are multiplied by the square root of two *)
Theorem momenta_by_bead_refuted : exists (x : mat) s' s'',
  step 2 1 (fun _ => 1) (resize nothing 1 2) (Momenta (Frames 2 1 x (fun _ => 1) (fun _ => "H"%string)) None None) = Some s' /\
  steps 2 1 (fun _ => 1) (resize nothing 1 2)
    [Momenta (Frames 1 1 (fun _ c => x 0%nat c) (fun _ => 1) (fun _ => "H"%string)) None (Some 0%nat);
     Momenta (Frames 1 1 (fun _ c => x 1%nat c) (fun _ => 1) (fun _ => "H"%string)) None (Some 1%nat)] = Some s'' /\
  (forall b c, (b < 2)%nat -> p s' b c = x b c) /\ (forall b c, (b < 2)%nat -> p s'' b c = sqrt 2 * x b c) /\
  p s' 0%nat 0%nat <> p s'' 0%nat 0%nat.
Proof.
  exists (fun b c => INR (b + c + 1)). eexists. eexists. split; [reflexivity|]. split; [reflexivity|].
  assert (S2 : sqrt 2 <> 1) by (intros K; pose proof (sqrt_sqrt 2 ltac:(lra)); rewrite K in *; lra).
  split; [|split].
  - intros b c Hb. cbn. unfold scaled, rescale_b1tob2. cbn. replace ((1 + 1) / (1 + 1)) with 1 by field. rewrite sqrt_1. ring.
  - intros b c Hb. cbn. unfold scaled. cbn. replace ((1 + 1) / 1) with 2 by field.
    destruct b as [|[|b]]; [| |lia]; cbn; ring.
  - cbn. unfold scaled, rescale_b1tob2. cbn. replace ((1 + 1) / (1 + 1)) with 1 by field. replace ((1 + 1) / 1) with 2 by field.
    rewrite sqrt_1. lra.
Qed.

(* C97: a length of one angstrom given by hand is taken as one bohr, while a
   cell or a mass is converted *)
Theorem units_by_hand_refuted : exists (vs : list R) u s', u <> 1 /\
  step 1 1 (fun _ => 1) nothing (Positions (Hand vs u) None None) = Some s' /\
  (forall c, (c < length vs)%nat -> q s' 0%nat c = nth c vs 0) /\ q s' 0%nat 0%nat <> nth 0 vs 0 * u.
Proof.
  exists [1; 2; 3], 2. eexists. split; [lra|]. split; [reflexivity|]. split; [intros c _; reflexivity|]. cbn. lra.
Qed.
(* the same for all vectors: the unit plays no part *)
Theorem units_by_hand_ignored nbeads T f s vs u u' i b :
  step nbeads T f s (Positions (Hand vs u) i b) = step nbeads T f s (Positions (Hand vs u') i b) /\
  step nbeads T f s (Momenta (Hand vs u) i b) = step nbeads T f s (Momenta (Hand vs u') i b) /\
  step nbeads T f s (Velocities (Hand vs u) i b) = step nbeads T f s (Velocities (Hand vs u') i b).
Proof. repeat split; reflexivity. Qed.

(* C98: velocities from a checkpoint are its positions *)
Theorem checkpoint_velocities_refuted : exists (qq pp : mat) s s', m s 0%nat = 1 /\ fmass s = true /\ nb s = 1%nat /\ na s = 1%nat /\
  step 1 1 (fun _ => 1) s (Velocities (Chk 1 1 qq pp (fun _ => 1) (fun _ => "H"%string)) None None) = Some s' /\
  (forall c, (c < 3)%nat -> p s' 0%nat c = qq 0%nat c) /\ p s' 0%nat 0%nat <> pp 0%nat 0%nat.
Proof.
  exists (fun _ _ => 5), (fun _ _ => 7), (Sys 1 1 (fun _ _ => 0) (fun _ _ => 0) (fun _ => 1) (fun _ => "H"%string) unit_cell true false true true true).
  eexists. repeat (split; [reflexivity|]). cbn. unfold rescale_b1tob2, scaled, m3. cbn.
  replace (1 / 1) with 1 by field. rewrite sqrt_1. split; [intros; ring|lra].
Qed.
(* ... in every state: the momenta of the checkpoint play no part *)
Theorem checkpoint_velocities_ignore_momenta nbeads T f s n1 n2 qq pp pp' ms ns i b :
  step nbeads T f s (Velocities (Chk n1 n2 qq pp ms ns) i b) = step nbeads T f s (Velocities (Chk n1 n2 qq pp' ms ns) i b).
Proof. reflexivity. Qed.
(* momenta from a checkpoint are its momenta *)
Theorem checkpoint_momenta nbeads T f s na0 qq pp ms ns s' b c : (0 < nbeads)%nat -> nb s = nbeads ->
  step nbeads T f s (Momenta (Chk nbeads na0 qq pp ms ns) None None) = Some s' -> p s' b c = pp b c.
Proof.
  intros Hn Hb E. cbn in E. unfold do_momenta in E. cbn in E. unfold sized in E. rewrite Hb in E.
  destruct (Nat.eqb_spec nbeads 0); [lia|]. cbn in E. destruct (negb (Nat.eqb na0 (na s))); [easy|]. inversion E; subst s'. cbn.
  rewrite Hb. unfold rescale_b1tob2. rewrite Nat.eqb_refl. unfold scaled. pose proof (lt_0_INR nbeads Hn).
  replace (INR nbeads / INR nbeads) with 1 by (field; lra). rewrite sqrt_1. ring.
Qed.

(* C99: a left-handed cell is accepted *)
Theorem left_handed_cell_refuted : exists s cs s', init_stage1 1 1 (fun _ => 1) s cs = Some s' /\ vol (h s') < 0.
Proof.
  exists nothing, [Positions (frame 1 2 3) None None; Masses (Hand [1] 1) None None; Labels (HandNames ["H"%string]) None None;
    Cell (HandCell (fun i j => if Nat.eqb i j then if Nat.eqb i 0 then -1 else 1 else 0) 1)].
  eexists. split; [apply accepted; [reflexivity| | |]|]; [cbn; lia|unfold vol; cbn; lra| |unfold vol; cbn; lra].
  cbn. intros i Hi. destruct i as [|i]; [|lia]. cbn. split; [lra|easy].
Qed.

(* ---------------- cases ---------------- *)

(* positions, masses, labels, cell and temperature for two beads *)
Example a_complete_input : exists s', init_stage1 2 1 (fun _ => 1) nothing
  (Positions (frame 1 2 3) None None :: the_rest ++ [Thermal 1 (fun _ _ => 1) None None]) = Some s' /\
  q s' 1%nat 2%nat = 3 /\ nm_trans_b2nm 2 [] (p s') 0%nat 0%nat ^ 2 / (2 * (1 * m s' 0%nat)) = 1.
Proof.
  destruct (steps 2 1 (fun _ => 1) nothing (Positions (frame 1 2 3) None None :: the_rest)) as [t|] eqn:E; [|cbv in E; easy].
  assert (Q : q t 1%nat 2%nat = 3).
  { cbn in E. inversion E; subst t. cbn [q]. change (rescale_b1tob2 1 2 [] true (fun _ c => nth c [1; 2; 3] 0) 1%nat 2%nat = 3).
    rewrite expand_one by lia. reflexivity. }
  assert (Mm : m t 0%nat = 1) by (cbn in E; inversion E; subst t; cbn; lra).
  assert (Et : nb t = 2%nat /\ na t = 1%nat /\ fmass t = true /\ vol (h t) = 1 /\ names t 0%nat = "H"%string).
  { cbn in E. inversion E; subst t. cbn. repeat split; try easy. unfold vol. cbn. lra. }
  destruct Et as (E1 & E2 & E3 & E4 & E5).
  destruct (step 2 1 (fun _ => 1) t (Thermal 1 (fun _ _ => 1) None None)) as [s'|] eqn:Es.
  2: { cbn in Es. unfold do_thermal in Es. now rewrite E2, E3 in Es. }
  destruct (other_data_kept 2 1 (fun _ => 1) t _ s' ltac:(lia) ltac:(easy) Es) as (K1 & K2 & K3 & K4 & K5 & K6 & _).
  exists s'. split; [|split].
  - apply accepted.
    + change (steps 2 1 (fun _ => 1) nothing ((Positions (frame 1 2 3) None None :: the_rest) ++ [Thermal 1 (fun _ _ => 1) None None]) = Some s').
      assert (A : forall l s0 u, steps 2 1 (fun _ => 1) s0 l = Some u -> forall l', steps 2 1 (fun _ => 1) s0 (l ++ l') = steps 2 1 (fun _ => 1) u l').
      { induction l as [|c l IH]; intros s0 u Hu l'; cbn in *; [now inversion Hu|]. destruct (step 2 1 (fun _ => 1) s0 c); [|easy]. now apply IH. }
      rewrite (A _ _ _ E). cbn [InitModel.steps]. now rewrite Es.
    + lia.
    + rewrite K6 by easy. lra.
    + intros i Hi. assert (i = 0%nat) by lia. subst i. rewrite K4, K5 by easy. rewrite Mm, E5. split; [lra|easy].
  - rewrite K3 by easy. easy.
  - rewrite K4 by easy. pose proof (thermal_kinetic_energy 2 1 (fun _ => 1) t 1 _ s' 0 0 Es ltac:(lia) ltac:(lia) ltac:(lra)) as K.
    cbn [Nat.div Nat.divmod fst] in K. rewrite Mm in K. specialize (K ltac:(lra) ltac:(lra)). cbv zeta in K.
    rewrite K1, E1, Mm in *. rewrite K. destruct (Rle_dec 1 0); [lra|]. cbn. field.
Qed.
Example too_early_case : nb nothing = 0%nat /\ na nothing = 0%nat /\ fmass nothing = false.
Proof. easy. Qed.
(* a known system of two atoms *)
Definition two_atoms : sys := Sys 1 2 (fun _ _ => 0) (fun _ _ => 1) (fun _ => 4) (fun _ => "H"%string) unit_cell true true true true true.
Example range_case : nb two_atoms <> 0%nat /\ fmass two_atoms = true /\ (na two_atoms <= 2)%nat /\ (1 <> na two_atoms)%nat.
Proof. cbn. lia. Qed.
Example mass_change_case : exists s', step 1 1 (fun _ => 1) two_atoms (Masses (Hand [9; 1] 1) None None) = Some s' /\
  p s' 0%nat 0%nat = 3 / 2 /\ p s' 0%nat 3%nat = 1 / 2.
Proof.
  eexists. split; [reflexivity|]. cbn. unfold m3. cbn.
  replace (sqrt 4) with 2 by (rewrite <- (sqrt_square 2) by lra; f_equal; lra).
  replace (sqrt (9 * 1)) with 3 by (rewrite <- (sqrt_square 3) by lra; f_equal; lra). rewrite Rmult_1_l, sqrt_1. split; lra.
Qed.
Example velocity_case : exists s', step 1 1 (fun _ => 1) two_atoms (Velocities (Frames 1 2 (fun _ c => INR c) (fun _ => 1) (fun _ => "H"%string)) None None) = Some s' /\
  p s' 0%nat 5%nat = 20.
Proof.
  eexists. split; [reflexivity|]. cbn. unfold rescale_b1tob2, scaled, m3. cbn. replace (1 / 1) with 1 by field. rewrite sqrt_1. ring.
Qed.
Example kept_case : exists s', steps 1 1 (fun _ => 1) two_atoms [Momenta (Frames 1 2 (fun _ c => INR c) (fun _ => 1) (fun _ => "H"%string)) None None; Gle] = Some s'.
Proof. eexists. reflexivity. Qed.

Print Assumptions accepted_system_complete.
Print Assumptions positions_kept.
Print Assumptions positions_centroid_kept.
Print Assumptions one_frame_to_all_beads.
Print Assumptions velocities_of_one_frame.
Print Assumptions mass_change_keeps_kinetic_energy.
Print Assumptions thermal_kinetic_energy.
Print Assumptions velocities_before_masses_refuted.
Print Assumptions checkpoint_velocities_refuted.
