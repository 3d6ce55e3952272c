(** * The kinetic temperature *)
From Coq Require Import String Ascii List Reals Lra Lia Arith Bool ZArith.
From Verif Require Import RSum NMModel SCModel TextLib ValModel ValProps EstModel EstLib EstKin.
Import ListNotations.
Open Scope R_scope.

Lemma Rsuml_filter {A} (p : A -> bool) (x : A -> R) l :
  Rsuml (map x (filter p l)) = Rsuml (map (fun a => if p a then x a else 0) l).
Proof. induction l as [|a l IH]; cbn; [easy|]. destruct (p a); cbn; rewrite IH; lra. Qed.
Lemma Rsuml_seq (x : nat -> R) n : Rsuml (map x (seq 0 n)) = Rsum n x.
Proof. induction n as [|n IH]; [easy|]. rewrite seq_S, map_app, Rsuml_app, IH. cbn. lra. Qed.

(** The list of indices is the selection of the kinetic energy. *)
Lemma ids_sum s atom ids : get_atom_ids s atom = Some ids ->
  exists w, resolve (na s) atom = Some w /\ (forall x, sum_over s atom w x = Rsuml (map x ids)) /\ count_over s atom w = INR (length ids).
Proof.
  intros H. assert (K : exists w, resolve (na s) atom = Some w /\ forall x, sum_over s atom w x = Rsuml (map x ids)).
  - unfold get_atom_ids in H. destruct (teq atom []) eqn:E.
    + apply teq_spec in E. subst atom. injection H as <-. rewrite resolve_nil. eexists. split; [reflexivity|]. intros x.
      now rewrite sum_over_all, Rsuml_seq.
    + destruct (resolve (na s) atom) as [[z t]|]; [|easy]. injection H as <-. exists (z, t). split; [easy|]. intros x.
      rewrite Rsuml_filter, Rsuml_seq. apply Rsum_ext. intros i _. unfold skip. rewrite E. cbn [fst snd negb andb].
      rewrite (Z.eqb_sym (Z.of_nat i) z). destruct (Z.eqb z (Z.of_nat i)); cbn [negb andb orb]; [easy|].
      destruct (teq t (lab s i)) eqn:T.
      * apply teq_spec in T. subst t. now rewrite teq_refl.
      * destruct (teq (lab s i) t) eqn:T'; [|easy]. apply teq_spec in T'. subst t. now rewrite teq_refl in T.
  - destruct K as (w & R & K). exists w. split; [easy|]. split; [easy|]. unfold count_over. rewrite K, Rsuml_map_const. lra.
Qed.
Lemma ids_range s atom ids i : get_atom_ids s atom = Some ids -> In i ids -> (i < na s)%nat.
Proof.
  unfold get_atom_ids. destruct (teq atom []).
  - intros H. injection H as <-. rewrite in_seq. lia.
  - destruct resolve as [[z t]|]; [|easy]. intros H. injection H as <-. rewrite filter_In, in_seq. lia.
Qed.

(** ** What equipartition gives

    The part of the motion of coordinate [c] in mode [k] that is removed: all of it for a fixed coordinate
    and for the centroid of nvt-cc, the share of its mass for the centroid with the centre of mass held. *)
Definition cc (mo : mot) : bool := match enstype mo with Some true => true | _ => false end.
Definition share (s : sys) (mo : mot) (k c : nat) : R :=
  if existsb (Nat.eqb c) (fixdof mo) then 1 else
  if (k =? 0)%nat then (if cc mo then 1 else if fixcom mo then ms s (c / 3) / Rsum (na s) (ms s) else 0)
  else 0.
(** Every mode has the average kinetic energy of the temperature P*T in what is left to it. *)
Definition equipartition (s : sys) (mo : mot) : Prop :=
  forall k c, (k < nb s)%nat -> (c < 3 * na s)%nat ->
  pnm mo k c ^ 2 / (2 * dm3 mo k (3 * (c / 3))%nat) = 1 / 2 * INR (nb s) * kT s * (1 - share s mo k c).
Definition bead_equipartition (s : sys) (mo : mot) : Prop :=
  forall b c, (b < nb s)%nat -> (c < 3 * na s)%nat ->
  pp mo b c ^ 2 / (2 * ms s (c / 3)) = 1 / 2 * INR (nb s) * kT s * (1 - Rsum (nb s) (fun k => share s mo k c) / INR (nb s)).
(** What get_temp assumes: a positive temperature, not both fixcom and fixed atoms, an ensemble type when
    there are fixed atoms. *)
Record usual (s : sys) (mo : mot) : Prop := {
  u_nb : (0 < nb s)%nat; u_kb : 0 < kb s; u_t : 0 < temp s; u_m : 0 < Rsum (na s) (ms s);
  u_com : fixcom mo = true -> fixdof mo = []; u_ens : fixdof mo <> [] -> enstype mo <> None }.

Lemma sum3_share0 s mo i : (fixdof mo = [] \/ cc mo = true) ->
  sum3 i (share s mo 0) = if cc mo then 3 else if fixcom mo then 3 * ms s i / Rsum (na s) (ms s) else 0.
Proof.
  intros H. unfold sum3, share. replace (3 * i / 3)%nat with i by (rewrite <- (Nat.add_0_r (3 * i)), div3; lia). rewrite !div3 by lia.
  cbn [Nat.eqb]. destruct (cc mo).
  - repeat destruct existsb; lra.
  - destruct H as [H|H]; [|easy]. rewrite H. cbn [existsb]. destruct (fixcom mo); lra.
Qed.
Lemma sum3_shareS s mo i k : (0 < k)%nat -> sum3 i (share s mo k) = sum3 i (held_dof mo).
Proof. intros H. unfold sum3, share, held_dof. destruct k; [lia|]. cbn [Nat.eqb]. easy. Qed.
Lemma sum3_share_fixed s mo i k : cc mo = false -> fixcom mo = false -> sum3 i (share s mo k) = sum3 i (held_dof mo).
Proof.
  intros H F. unfold sum3, share, held_dof. rewrite H, F. destruct (k =? 0)%nat; easy.
Qed.
Lemma held_nil mo i : fixdof mo = [] -> sum3 i (held_dof mo) = 0.
Proof. intros H. unfold sum3, held_dof. rewrite H. cbn. lra. Qed.
Lemma Rsum_share s mo i : (0 < nb s)%nat -> (fixcom mo = true -> fixdof mo = []) ->
  Rsum (nb s) (fun k => sum3 i (share s mo k)) =
  (if cc mo then 3 else if fixcom mo then 3 * ms s i / Rsum (na s) (ms s) else 0)
  + sum3 i (held_dof mo) * (if cc mo then INR (nb s) - 1 else INR (nb s)).
Proof.
  intros Hn Hc. destruct (nb s) as [|n]; [lia|]. rewrite Rsum_first.
  rewrite (Rsum_ext n _ (fun _ => sum3 i (held_dof mo))) by (intros; apply sum3_shareS; lia). rewrite Rsum_const, S_INR.
  destruct (cc mo) eqn:C.
  - rewrite sum3_share0 by tauto. rewrite C. lra.
  - destruct (fixcom mo) eqn:F.
    + rewrite sum3_share0 by tauto. rewrite C, F. rewrite held_nil by auto. lra.
    + rewrite sum3_share_fixed by easy. lra.
Qed.

(** the effective number of removed coordinates, as the code counts it *)
Definition eff (s : sys) (mo : mot) (ids : list nat) : R :=
  Rsuml (map (fun i => (if cc mo then 3 else if fixcom mo then 3 * ms s i / Rsum (na s) (ms s) else 0)) ids).
Definition fixed (mo : mot) (ids : list nat) : R := Rsuml (map (fun i => sum3 i (held_dof mo)) ids).
Lemma eff_code s mo ids :
  (if match enstype mo with Some true => true | _ => false end then INR (length ids) * 3
   else if fixcom mo then 3 * Rsuml (map (ms s) ids) / Rsum (na s) (ms s) else 0) = eff s mo ids.
Proof.
  unfold eff. fold (cc mo). destruct (cc mo).
  - now rewrite Rsuml_map_const.
  - destruct (fixcom mo).
    + unfold Rdiv. rewrite (Rsuml_map_ext (fun i => 3 * ms s i * / Rsum (na s) (ms s)) (fun i => 3 * / Rsum (na s) (ms s) * ms s i)) by (intros; ring).
      rewrite Rsuml_map_scal. ring.
    + rewrite Rsuml_map_const. lra.
Qed.
Lemma fixed_nil mo ids : fixdof mo = [] -> fixed mo ids = 0.
Proof. intros H. unfold fixed. rewrite (Rsuml_map_ext _ (fun _ => 0)) by (intros; now apply held_nil). rewrite Rsuml_map_const. lra. Qed.

Lemma temp_value s mo atom bead nm kemd ids : usual s mo ->
  get_kinmd s mo atom bead nm = Some kemd -> get_atom_ids s atom = Some ids ->
  get_temp s mo atom bead nm =
  Some (2 * (kemd + 1 / 2 * kb s * temp s *
    ((if teq nm [] then eff s mo ids else
      match read_int nm with Some z => if (z =? 0)%Z then eff s mo ids * INR (nb s) else if (0 <? z)%Z then 0 else eff s mo ids | None => eff s mo ids end)
     + fixed mo ids * (if cc mo then INR (nb s) - 1 else INR (nb s)))) / (kb s * 3 * INR (length ids) * INR (nb s))).
Proof.
  intros U K I. unfold get_temp. rewrite K, I, eff_code. fold (fixed mo ids).
  destruct (Rlt_dec 0 (temp s)) as [_|N]; [|exfalso; apply N, U].
  destruct (fixdof mo) as [|d l] eqn:D.
  - rewrite fixed_nil by easy. rewrite Rmult_0_l, Rplus_0_r. easy.
  - assert (E := u_ens _ _ U). rewrite D in E. unfold cc. destruct (enstype mo) as [c|] eqn:X; [|exfalso; apply E; [discriminate|easy]]. destruct c; easy.
Qed.

(** ** The temperature read from an equipartitioned state *)
Lemma temp_exact (T k n p kemd e E : R) : 0 < k -> 0 < n -> 0 < p -> kemd = 1 / 2 * k * T * (3 * n * p - E) -> e = E ->
  2 * (kemd + 1 / 2 * k * T * e) / (k * 3 * n * p) = T.
Proof. intros ? ? ? -> ->. field. lra. Qed.

Lemma number_nil n : number n [] = Some (-1)%Z.
Proof. reflexivity. Qed.
Lemma number_index n i : (i < n)%nat -> number n (show_z (Z.of_nat i)) = Some (Z.of_nat i).
Proof.
  intros H. unfold number. rewrite teq_diff by apply show_not_nil. rewrite read_int_show.
  destruct (Z.leb_spec (Z.of_nat n) (Z.of_nat i)); [lia|easy].
Qed.
Lemma atom_coords i a n : (i < n)%nat -> (a < 3)%nat -> (3 * i + a < 3 * n)%nat.
Proof. lia. Qed.
Lemma equi_atom s mo k i : equipartition s mo -> (k < nb s)%nat -> (i < na s)%nat ->
  sum3 i (fun c => pnm mo k c ^ 2) / (2 * dm3 mo k (3 * i)%nat) = 1 / 2 * INR (nb s) * kT s * (3 - sum3 i (share s mo k)).
Proof.
  intros E Hk Hi. pose proof (E k (3 * i + 0)%nat Hk ltac:(lia)) as E0. pose proof (E k (3 * i + 1)%nat Hk ltac:(lia)) as E1.
  pose proof (E k (3 * i + 2)%nat Hk ltac:(lia)) as E2. rewrite div3 in E0, E1, E2 by lia. rewrite Nat.add_0_r in E0.
  unfold sum3. unfold Rdiv in *. rewrite !Rmult_plus_distr_r, E0, E1, E2. ring.
Qed.

Lemma eff_shares s mo ids : usual s mo ->
  eff s mo ids + fixed mo ids * (if cc mo then INR (nb s) - 1 else INR (nb s)) =
  Rsuml (map (fun i => Rsum (nb s) (fun k => sum3 i (share s mo k))) ids).
Proof.
  intros U. unfold eff, fixed. rewrite (Rmult_comm _ (if cc mo then INR (nb s) - 1 else _)), <- Rsuml_map_scal, <- Rsuml_map_plus.
  apply Rsuml_map_ext. intros i _. rewrite Rsum_share by apply U. ring.
Qed.
Lemma ids_selected s atom ids w i : get_atom_ids s atom = Some ids -> resolve (na s) atom = Some w ->
  (i < na s)%nat -> skip s atom w i = false -> In i ids.
Proof.
  unfold get_atom_ids, skip. intros H R Hi K. destruct (teq atom []) eqn:E.
  - injection H as <-. apply in_seq. lia.
  - rewrite R in H. destruct w as [z t]. cbn [fst snd negb andb] in *. injection H as <-. apply filter_In. split; [apply in_seq; lia|].
    apply orb_true_iff. apply andb_false_iff in K as [K|K]; apply negb_false_iff in K.
    + left. now rewrite Z.eqb_sym.
    + right. apply teq_spec in K. subst t. apply teq_refl.
Qed.

Theorem temp_all_modes s mo atom ids : usual s mo -> equipartition s mo ->
  get_atom_ids s atom = Some ids -> ids <> [] -> get_temp s mo atom [] [] = Some (temp s).
Proof.
  intros U E I Hi. destruct (ids_sum _ _ _ I) as (w & R & S & _).
  assert (P : 0 < INR (nb s)) by apply lt_0_INR, (u_nb _ _ U).
  assert (N : 0 < INR (length ids)) by (apply lt_0_INR; destruct ids; [easy|cbn; lia]).
  erewrite temp_value; [|easy| |exact I].
  2:{ unfold get_kinmd. cbn [teq negb andb]. rewrite R, !number_nil. cbn. reflexivity. }
  f_equal. rewrite S. cbn [teq list_eq_dec list_rec list_rect].
  apply temp_exact with (Rsuml (map (fun i => Rsum (nb s) (fun k => sum3 i (share s mo k))) ids)); try easy; [apply U| |].
  - rewrite (Rsuml_map_ext _ (fun i => 1 / 2 * INR (nb s) * kT s * (3 * INR (nb s) - Rsum (nb s) (fun k => sum3 i (share s mo k))))).
    + rewrite Rsuml_map_scal, Rsuml_map_minus, Rsuml_map_const. unfold kT. field. lra.
    + intros i Hin. rewrite (Rsum_ext _ _ (fun k => 1 / 2 * INR (nb s) * kT s * (3 - sum3 i (share s mo k))))
        by (intros; apply equi_atom; auto; now apply (ids_range _ _ _ _ I)).
      rewrite Rsum_scal, Rsum_minus, Rsum_const. ring.
  - now apply eff_shares.
Qed.

(** The same for one bead. *)
Theorem temp_bead s mo atom ids b : usual s mo -> bead_equipartition s mo -> (b < nb s)%nat ->
  (forall i, In i ids -> all_same (nb s) (fun b' => dm3 mo b' (3 * i)%nat) = true) ->
  get_atom_ids s atom = Some ids -> ids <> [] -> get_temp s mo atom (show_z (Z.of_nat b)) [] = Some (temp s).
Proof.
  intros U E Hb Hd I Hi. destruct (ids_sum _ _ _ I) as (w & R & S & _).
  assert (P : 0 < INR (nb s)) by apply lt_0_INR, (u_nb _ _ U).
  assert (N : 0 < INR (length ids)) by (apply lt_0_INR; destruct ids; [easy|cbn; lia]).
  erewrite temp_value; [|easy| |exact I].
  2:{ unfold get_kinmd. rewrite (teq_diff (show_z _) []) by apply show_not_nil. rewrite R, number_nil, number_index by easy. cbn [teq list_eq_dec list_rec list_rect negb andb].
      destruct (Z.ltb_spec (-1) (Z.of_nat b)); [|lia]. rewrite Nat2Z.id.
      replace (forallb _ _) with true; [reflexivity|]. symmetry. apply forallb_forall. intros i Hin. apply in_seq in Hin.
      destruct (skip s atom w i) eqn:K; [easy|]. cbn [orb]. apply Hd. now apply (ids_selected s atom ids w). }
  f_equal. rewrite S. cbn [teq list_eq_dec list_rec list_rect].
  apply temp_exact with (Rsuml (map (fun i => Rsum (nb s) (fun k => sum3 i (share s mo k))) ids)); try easy; [apply U| |].
  - rewrite (Rsuml_map_ext _ (fun i => 1 / 2 * kT s * (3 * INR (nb s) - Rsum (nb s) (fun k => sum3 i (share s mo k))))).
    + rewrite Rsuml_map_scal, Rsuml_map_minus, Rsuml_map_const. unfold kT. field.
    + intros i Hin. assert (Hr := ids_range _ _ _ _ I Hin).
      pose proof (E b (3 * i + 0)%nat Hb ltac:(lia)) as E0. pose proof (E b (3 * i + 1)%nat Hb ltac:(lia)) as E1.
      pose proof (E b (3 * i + 2)%nat Hb ltac:(lia)) as E2. rewrite div3 in E0, E1, E2 by lia. rewrite Nat.add_0_r in E0.
      rewrite <- sum3_Rsum. unfold sum3. unfold Rdiv in *. rewrite !Rmult_plus_distr_r, E0, E1, E2. field. lra.
  - now apply eff_shares.
Qed.

(** One normal mode: right unless atoms are fixed in an nvt-cc run; then the centroid reads too high and the
    other modes too low. *)
Theorem temp_mode s mo atom ids k : usual s mo -> equipartition s mo -> (k < nb s)%nat ->
  get_atom_ids s atom = Some ids -> ids <> [] ->
  get_temp s mo atom [] (show_z (Z.of_nat k)) =
  Some (if cc mo then temp s * (1 + (if (k =? 0)%nat then INR (nb s) - 1 else - 1) * fixed mo ids / (3 * INR (length ids) * INR (nb s)))
        else temp s).
Proof.
  intros U E Hk I Hi. destruct (ids_sum _ _ _ I) as (w & R & S & _).
  assert (P : 0 < INR (nb s)) by apply lt_0_INR, (u_nb _ _ U).
  assert (N : 0 < INR (length ids)) by (apply lt_0_INR; destruct ids; [easy|cbn; lia]).
  erewrite temp_value; [|easy| |exact I].
  2:{ unfold get_kinmd. rewrite (teq_diff (show_z _) []) by apply show_not_nil. rewrite R, number_nil, number_index by easy.
      cbn [teq list_eq_dec list_rec list_rect negb andb]. cbn [Z.ltb Z.compare].
      destruct (Z.ltb_spec (-1) (Z.of_nat k)); [|lia]. rewrite Nat2Z.id. reflexivity. }
  f_equal. rewrite S. rewrite (teq_diff (show_z _) []) by apply show_not_nil. rewrite read_int_show.
  rewrite (Rsuml_map_ext _ (fun i => 1 / 2 * INR (nb s) * kT s * (3 - sum3 i (share s mo k))))
        by (intros; apply equi_atom; auto; now apply (ids_range _ _ _ _ I)).
  rewrite Rsuml_map_scal, Rsuml_map_minus, Rsuml_map_const.
  assert (kb s <> 0) by (pose proof (u_kb _ _ U); lra).
  destruct (Nat.eqb_spec k 0) as [->|Hk0].
  - cbn [Z.of_nat Z.eqb]. destruct (cc mo) eqn:C.
    + rewrite (Rsuml_map_ext (fun i => sum3 i (share s mo 0)) (fun _ => 3)) by (intros; rewrite sum3_share0 by tauto; now rewrite C).
      rewrite Rsuml_map_const. unfold eff. rewrite C, Rsuml_map_const. unfold kT. field. repeat split; lra.
    + destruct (fixcom mo) eqn:F.
      * rewrite fixed_nil by (now apply (u_com _ _ U)). unfold eff. rewrite C, F.
        rewrite (Rsuml_map_ext (fun i => sum3 i (share s mo 0)) (fun i => 3 * ms s i / Rsum (na s) (ms s)))
          by (intros; rewrite sum3_share0 by (left; now apply (u_com _ _ U)); now rewrite C, F).
        unfold kT. field. repeat split; lra.
      * rewrite (Rsuml_map_ext (fun i => sum3 i (share s mo 0)) (fun i => sum3 i (held_dof mo))) by (intros; now apply sum3_share_fixed).
        fold (fixed mo ids). unfold eff. rewrite C, F, Rsuml_map_const. unfold kT. field. repeat split; lra.
  - destruct (Z.eqb_spec (Z.of_nat k) 0); [lia|]. destruct (Z.ltb_spec 0 (Z.of_nat k)); [|lia].
    rewrite (Rsuml_map_ext (fun i => sum3 i (share s mo k)) (fun i => sum3 i (held_dof mo))) by (intros; apply sum3_shareS; lia).
    fold (fixed mo ids). unfold kT. destruct (cc mo); field; repeat split; lra.
Qed.
