(** * Which atom is where: the index arrays of the kinetic Monte Carlo *)
From Coq Require Import List Arith Bool Reals Lra Lia Permutation.
From Verif Require Import RSum PairModel CellModel KmcModel KmcLattice.
Import ListNotations.
Local Open Scope nat_scope.

Lemma seqb_eq a b : seqb a b = true <-> a = b.
Proof. destruct a, b; cbn; split; congruence. Qed.
Lemma seqb_refl a : seqb a a = true.
Proof. now destruct a. Qed.
Lemma seqb_neq a b : seqb a b = false <-> a <> b.
Proof. destruct a, b; cbn; split; congruence. Qed.

(** ** One-to-one maps of the first [n] numbers *)
Definition bij (n : nat) (f : nat -> nat) : Prop := (forall i, i < n -> f i < n) /\ (forall i j, i < n -> j < n -> f i = f j -> i = j).
Lemma bij_perm n f : bij n f -> Permutation (map f (seq 0 n)) (seq 0 n).
Proof.
  intros [B I]. apply NoDup_Permutation_bis.
  - assert (G : forall l, NoDup l -> (forall x, In x l -> x < n) -> NoDup (map f l)).
    { intros l N H. induction N as [|a l A N IH]; cbn; constructor.
      - rewrite in_map_iff. intros (b & E & J). apply I in E; [subst; contradiction|apply H; now right|apply H; now left].
      - apply IH. intros x J. apply H. now right. }
    apply G; [apply seq_NoDup|]. intros x J. apply in_seq in J. lia.
  - now rewrite map_length, !seq_length.
  - intros x J. apply in_map_iff in J. destruct J as (i & <- & J). apply in_seq in J. apply in_seq. specialize (B i ltac:(lia)). lia.
Qed.
Lemma bij_surj n f k : bij n f -> k < n -> exists i, i < n /\ f i = k.
Proof.
  intros B K. assert (J : In k (map f (seq 0 n))) by (apply (Permutation_in _ (Permutation_sym (bij_perm n f B))); apply in_seq; lia).
  apply in_map_iff in J. destruct J as (i & E & J). exists i. apply in_seq in J. split; [lia|exact E].
Qed.
Lemma scatter_S {A} n f (v a : nat -> A) : scatter (S n) f v a = upd (scatter n f v a) (f n) (v n).
Proof. unfold scatter. rewrite seq_S, fold_left_app. reflexivity. Qed.
Lemma upd_eq {A} (f : nat -> A) k v : upd f k v k = v.
Proof. unfold upd. now rewrite Nat.eqb_refl. Qed.
Lemma upd_ne {A} (f : nat -> A) k v i : i <> k -> upd f k v i = f i.
Proof. unfold upd. intros H. destruct (Nat.eqb_spec i k); [contradiction|reflexivity]. Qed.
Lemma scatter_at {A} n f (v a : nat -> A) i : (forall i j, i < n -> j < n -> f i = f j -> i = j) -> i < n -> scatter n f v a (f i) = v i.
Proof.
  revert i. induction n as [|n IH]; intros i I L; [lia|]. rewrite scatter_S. destruct (Nat.eq_dec i n) as [->|D]; [apply upd_eq|].
  rewrite upd_ne by (intros E; apply D; apply I; [lia|lia|exact E]). apply IH; [|lia]. intros j k J K. apply I; lia.
Qed.
Lemma scatter_out {A} n f (v a : nat -> A) k : (forall i, i < n -> f i <> k) -> scatter n f v a k = a k.
Proof.
  induction n as [|n IH]; intros H; [reflexivity|]. rewrite scatter_S, upd_ne by (intros E; apply (H n); [lia|now symmetry]). apply IH. intros i L. apply H. lia.
Qed.
Definition inverse (n : nat) (f g : nat -> nat) : Prop := (forall i, i < n -> f i < n /\ g (f i) = i) /\ (forall k, k < n -> g k < n /\ f (g k) = k).
Lemma inverse_bij n f g : inverse n f g -> bij n f.
Proof. intros [A B]. split; [intros i L; now apply A|]. intros i j Li Lj E. destruct (A i Li) as [_ <-]. destruct (A j Lj) as [_ <-]. now rewrite E. Qed.
Lemma inverse_sym n f g : inverse n f g -> inverse n g f.
Proof. intros [A B]. split; assumption. Qed.
Lemma scatter_inverse n f a : bij n f -> inverse n f (scatter n f (fun i => i) a).
Proof.
  intros B. pose proof B as [R I]. split.
  - intros i L. split; [now apply R|now rewrite scatter_at].
  - intros k L. destruct (bij_surj n f k B L) as (i & Li & <-). rewrite scatter_at by assumption. now split.
Qed.
Lemma swap_l {A} (f : nat -> A) i j : swap i j f i = f j.
Proof. unfold swap. destruct (Nat.eq_dec i j) as [->|D]; [apply upd_eq|]. rewrite upd_ne by exact D. apply upd_eq. Qed.
Lemma swap_r {A} (f : nat -> A) i j : swap i j f j = f i.
Proof. apply upd_eq. Qed.
Lemma swap_o {A} (f : nat -> A) i j k : k <> i -> k <> j -> swap i j f k = f k.
Proof. intros D E. unfold swap. now rewrite !upd_ne. Qed.
Lemma swap_swap {A} (f : nat -> A) i j k : swap j i (swap i j f) k = f k.
Proof.
  destruct (Nat.eq_dec k i) as [->|D]; [now rewrite swap_r, swap_r|]. destruct (Nat.eq_dec k j) as [->|D2]; [now rewrite !swap_l|]. now rewrite !swap_o.
Qed.
(** Swapping two values of a map and the corresponding arguments of its inverse. *)
Lemma inverse_swap n f g a b : inverse n f g -> a < n -> b < n -> inverse n (swap a b f) (swap (f a) (f b) g).
Proof.
  intros I La Lb. pose proof (inverse_bij _ _ _ I) as [_ J]. pose proof (inverse_bij _ _ _ (inverse_sym _ _ _ I)) as [_ J']. destruct I as [A B]. split.
  - intros i L. destruct (Nat.eq_dec i a) as [->|Da]; [|destruct (Nat.eq_dec i b) as [->|Db]].
    + rewrite swap_l, swap_r. destruct (A b Lb) as [X _]. now destruct (A a La) as [_ ->].
    + rewrite swap_r, swap_l. destruct (A a La) as [X _]. now destruct (A b Lb) as [_ ->].
    + rewrite swap_o by assumption. rewrite swap_o; [now apply A|intros E; apply J in E; auto|intros E; apply J in E; auto].
  - intros k L. destruct (Nat.eq_dec k (f a)) as [->|Da]; [|destruct (Nat.eq_dec k (f b)) as [->|Db]].
    + rewrite swap_l. destruct (A b Lb) as [_ ->]. now rewrite swap_r.
    + rewrite swap_r. destruct (A a La) as [_ ->]. now rewrite swap_l.
    + rewrite swap_o by assumption. destruct (B k L) as [X Y]. rewrite swap_o; [now split|intros E; apply Da; now rewrite <- E|intros E; apply Db; now rewrite <- E].
Qed.

(** ** Counting *)
Fixpoint cnt (s : nat -> species) (c : species) (m : nat) : nat := match m with O => 0 | S m => cnt s c m + if seqb (s m) c then 1 else 0 end.
Lemma sdec (a b : species) : {a = b} + {a <> b}.
Proof. decide equality. Qed.
Lemma cnt_occ s c m : cnt s c m = count_occ sdec (map s (seq 0 m)) c.
Proof.
  induction m as [|m IH]; [reflexivity|]. cbn [cnt]. rewrite seq_S, map_app, count_occ_app, IH. cbn [map count_occ Nat.add]. destruct (sdec (s m) c) as [->|D]; [now rewrite seqb_refl|].
  apply seqb_neq in D. now rewrite D.
Qed.
Lemma cnt_mono s c a b : a <= b -> cnt s c a <= cnt s c b.
Proof. induction 1; cbn; lia. Qed.
Lemma cnt_lt s c a b : a < b -> s a = c -> cnt s c a < cnt s c b.
Proof. intros L E. pose proof (cnt_mono s c (S a) b L) as H. cbn in H. rewrite E, seqb_refl in H. lia. Qed.
Lemma cnt_ext s s' c m : (forall k, k < m -> s k = s' k) -> cnt s c m = cnt s' c m.
Proof. induction m as [|m IH]; intros H; [reflexivity|]. cbn. rewrite IH by auto. now rewrite H by lia. Qed.

Section Index.
Variable y : params.
Notation N := (nsites y).
(** The atoms of the input: the numbers of Si, Mg and vacancies fit on the lattice. *)
Definition fits : Prop := nvac y <= N /\ nsi y + nmg y <= natoms y.
Definition size (c : species) : nat := match c with Si => nsi y | Mg => nmg y | Al => natoms y - (nsi y + nmg y) | Vac => nvac y end.
Definition off (c : species) : nat := match c with Si => 0 | Mg => nsi y | Al => nsi y + nmg y | Vac => natoms y end.
Definition composition (s : nat -> species) : Prop := forall c, cnt s c N = size c.
Hypothesis F : fits.
Lemma natoms_vac : natoms y + nvac y = N.
Proof. destruct F as [A _]. unfold natoms. lia. Qed.
Lemma names_block i : i < N -> off (names y i) <= i < off (names y i) + size (names y i).
Proof.
  intros L. pose proof natoms_vac. destruct F as [A B]. unfold names. destruct (Nat.ltb_spec i (nsi y)); [cbn; lia|]. destruct (Nat.ltb_spec i (nsi y + nmg y)); [cbn; lia|].
  destruct (Nat.ltb_spec i (natoms y)); cbn; lia.
Qed.
Lemma names_off c j : j < size c -> names y (off c + j) = c /\ off c + j < N.
Proof.
  pose proof natoms_vac. destruct F as [A B]. intros L. unfold names. destruct c; cbn in L; cbn [off];
    repeat (match goal with |- context [?a <? ?b] => destruct (Nat.ltb_spec a b) end); (split; [first [reflexivity|lia]|lia]).
Qed.
Lemma names_composition : composition (names y).
Proof.
  pose proof natoms_vac as V. destruct F as [A B].
  assert (G : forall m, cnt (names y) Si m = Nat.min m (nsi y) /\ cnt (names y) Mg m = Nat.min m (nsi y + nmg y) - Nat.min m (nsi y) /\
    cnt (names y) Al m = Nat.min m (natoms y) - Nat.min m (nsi y + nmg y) /\ cnt (names y) Vac m = m - Nat.min m (natoms y)).
  { induction m as [|m (H1 & H2 & H3 & H4)]; [cbn; lia|]. cbn [cnt]. rewrite H1, H2, H3, H4. unfold names.
    destruct (Nat.ltb_spec m (nsi y)); [cbn [seqb]; lia|]. destruct (Nat.ltb_spec m (nsi y + nmg y)); [cbn [seqb]; lia|]. destruct (Nat.ltb_spec m (natoms y)); cbn [seqb]; lia. }
  intros c. destruct (G N) as (H1 & H2 & H3 & H4). destruct c; cbn [size]; [rewrite H1|rewrite H2|rewrite H3|rewrite H4]; lia.
Qed.

(** ** unique_idx *)
(** The place of site [k]: after the sites before it with the same kind of atom. *)
Definition slot (s : nat -> species) (k : nat) : nat := off (s k) + cnt s (s k) k.
Lemma slot_lt s k : composition s -> k < N -> cnt s (s k) k < size (s k).
Proof. intros C L. rewrite <- (C (s k)). now apply cnt_lt. Qed.
Lemma slot_names s k : composition s -> k < N -> names y (slot s k) = s k /\ slot s k < N.
Proof. intros C L. apply names_off. now apply slot_lt. Qed.
Lemma slot_inj s j k : composition s -> j < N -> k < N -> slot s j = slot s k -> j = k.
Proof.
  intros C Lj Lk E. destruct (slot_names s j C Lj) as [Nj _]. destruct (slot_names s k C Lk) as [Nk _]. assert (S : s j = s k) by congruence.
  unfold slot in E. rewrite S in E. destruct (Nat.lt_trichotomy j k) as [H|[H|H]]; [|exact H|].
  - pose proof (cnt_lt s (s k) j k H S). lia.
  - pose proof (cnt_lt s (s k) k j H eq_refl). lia.
Qed.
Theorem unique_idx_slot s k : composition s -> k < N -> unique_idx y s (slot s k) = k.
Proof.
  intros C. unfold unique_idx.
  assert (G : forall m, m <= N -> let r := fold_left (unique_step s) (seq 0 m) (Counters 0 (nsi y) (nsi y + nmg y) (natoms y) (fun _ => 0)) in
    ksi r = off Si + cnt s Si m /\ kmg r = off Mg + cnt s Mg m /\ kal r = off Al + cnt s Al m /\ kvac r = off Vac + cnt s Vac m /\
    forall k, k < m -> uix r (slot s k) = k).
  { induction m as [|m IH]; intros L; [cbn; repeat split; try lia|]. cbv zeta. rewrite seq_S, fold_left_app. cbn [fold_left Nat.add].
    specialize (IH ltac:(lia)). cbv zeta in IH. destruct (fold_left (unique_step s) (seq 0 m) _) as [a b c d u]. cbn [ksi kmg kal kvac uix] in IH. destruct IH as (H1 & H2 & H3 & H4 & H5).
    assert (W : forall k, k < S m -> upd u (slot s m) m (slot s k) = k).
    { intros j J. destruct (Nat.eq_dec j m) as [->|D]; [apply upd_eq|]. rewrite upd_ne; [apply H5; lia|]. intros E. apply D. apply (slot_inj s); [exact C|lia|lia|exact E]. }
    unfold unique_step. cbn [cnt]. unfold slot in W at 1. destruct (s m) eqn:E; cbn [ksi kmg kal kvac uix off seqb] in *; repeat split; try lia; intros j J;
      [rewrite H1|rewrite H2|rewrite H3|rewrite H4]; now apply W. }
  intros L. destruct (G N (le_n _)) as (_ & _ & _ & _ & H). now apply H.
Qed.
(** The sites in the order of unique_idx carry the atoms in the order of the names: one-to-one, and
    the inverse sends a site to its place. *)
Theorem unique_idx_inverse s : composition s -> inverse N (unique_idx y s) (slot s).
Proof.
  intros C. assert (B : bij N (slot s)).
  { split; [intros i L; now apply slot_names|]. intros i j Li Lj. now apply slot_inj. }
  assert (A : forall k, k < N -> slot s k < N /\ unique_idx y s (slot s k) = k) by (intros k L; split; [now apply slot_names|now apply unique_idx_slot]).
  split; [|exact A]. intros i L. destruct (bij_surj N (slot s) i B L) as (k & Lk & <-). rewrite unique_idx_slot by assumption. now split.
Qed.
Theorem unique_idx_names s i : composition s -> i < N -> unique_idx y s i < N /\ s (unique_idx y s i) = names y i.
Proof.
  intros C L. destruct (unique_idx_inverse s C) as [A _]. destruct (A i L) as [X Y]. split; [exact X|]. destruct (slot_names s (unique_idx y s i) C X) as [Z _]. rewrite Y in Z. now symmetry.
Qed.
(** Among atoms of a kind, later ones are on later sites. *)
Theorem unique_idx_sorted s i j : composition s -> i < j -> j < N -> names y i = names y j -> unique_idx y s i < unique_idx y s j.
Proof.
  intros C L Lj E. destruct (unique_idx_inverse s C) as [A _]. destruct (A i ltac:(lia)) as [Xi Yi]. destruct (A j Lj) as [Xj Yj].
  destruct (unique_idx_names s i C ltac:(lia)) as [_ Ni]. destruct (unique_idx_names s j C Lj) as [_ Nj].
  set (a := unique_idx y s i) in *. set (b := unique_idx y s j) in *. destruct (Nat.lt_ge_cases a b) as [H|H]; [exact H|]. exfalso.
  assert (cnt s (s b) b <= cnt s (s b) a) by now apply cnt_mono. unfold slot in Yi, Yj. rewrite Ni, E, <- Nj in Yi. lia.
Qed.
(** Only the string matters. *)
Theorem unique_idx_key s s' : key y s = key y s' -> unique_idx y s = unique_idx y s'.
Proof.
  intros E. assert (H : forall k, k < N -> s k = s' k).
  { intros k L. unfold key in E. assert (X : nth k (map s (seq 0 N)) (s 0) = nth k (map s' (seq 0 N)) (s 0)) by now rewrite E.
    rewrite (nth_indep _ _ (s k)) in X by now rewrite map_length, seq_length. rewrite (nth_indep (map s' _) _ (s' k)) in X by now rewrite map_length, seq_length.
    rewrite (nth_indep (map s _) _ (s 0)), (nth_indep (map s' _) _ (s' 0)) in X by now rewrite map_length, seq_length. rewrite !map_nth, !seq_nth in X by exact L. exact X. }
  unfold unique_idx. f_equal. assert (G : forall l c, (forall k, In k l -> k < N) -> fold_left (unique_step s) l c = fold_left (unique_step s') l c).
  { induction l as [|k l IH]; intros c J; [reflexivity|]. cbn [fold_left]. unfold unique_step at 2 4. rewrite (H k) by (apply J; now left). apply IH. intros j I. apply J. now right. }
  apply G. intros k I. apply in_seq in I. lia.
Qed.
Lemma key_ext s s' : (forall k, k < N -> s k = s' k) -> key y s = key y s'.
Proof. intros H. apply map_ext_in. intros k I. apply in_seq in I. apply H. lia. Qed.
Lemma key_inj s s' : key y s = key y s' -> forall k, k < N -> s k = s' k.
Proof.
  intros E k L. unfold key in E. assert (X : nth_error (map s (seq 0 N)) k = nth_error (map s' (seq 0 N)) k) by now rewrite E.
  assert (Z : nth_error (seq 0 N) k = Some k) by (rewrite (nth_error_nth' _ 0) by (now rewrite seq_length); now rewrite seq_nth).
  rewrite (map_nth_error s _ _ Z), (map_nth_error s' _ _ Z) in X. congruence.
Qed.

(** ** The state of the simulation *)
Record consistent (k : kmc) : Prop := Consistent { c_inv : inverse N (idx k) (ridx k); c_names : forall i, i < N -> st k (idx k i) = names y i }.
Lemma consistent_composition k : consistent k -> composition (st k).
Proof.
  intros [I C] c. rewrite <- (names_composition c), !cnt_occ. apply Permutation_count_occ.
  rewrite <- (Permutation_map (st k) (bij_perm _ _ (inverse_bij _ _ _ I))), map_map. apply eq_ind_r with (P := fun l => Permutation l _) (x := map (names y) (seq 0 N)); [reflexivity|].
  apply map_ext_in. intros i J. apply in_seq in J. apply C. lia.
Qed.
Lemma consistent_st k s : consistent k -> s < N -> st k s = names y (ridx k s).
Proof. intros [I C] L. destruct I as [_ B]. destruct (B s L) as [X Y]. rewrite <- Y at 1. now apply C. Qed.
Theorem bind_consistent ix q t : bij N ix -> consistent (bind y ix q t).
Proof. intros B. split; cbn [bind idx ridx st]; [now apply scatter_inverse|]. intros i L. apply (scatter_at N ix (names y) (names y) i); [apply B|exact L]. Qed.
(** The vacancies are the last atoms. *)
Lemma names_vac i : i < N -> (names y i = Vac <-> natoms y <= i).
Proof.
  intros L. destruct F as [A B]. unfold names. destruct (Nat.ltb_spec i (nsi y)); [split; [discriminate|lia]|]. destruct (Nat.ltb_spec i (nsi y + nmg y)); [split; [discriminate|lia]|].
  destruct (Nat.ltb_spec i (natoms y)); [split; [discriminate|lia]|]. split; auto.
Qed.

(** ** The events *)
Definition good_rows (neigh : nat -> list nat) : Prop :=
  forall k, k < N -> NoDup (neigh k) /\ (forall j, In j (neigh k) -> j < N /\ In k (neigh j)) /\ ~ In k (neigh k).
Variable neigh : nat -> list nat.
Hypothesis GR : good_rows neigh.
Lemma all_events_app k a b : all_events neigh k (a ++ b) = match all_events neigh k a, all_events neigh k b with Some x, Some z => Some (x ++ z) | _, _ => None end.
Proof.
  induction a as [|v a IH]; cbn; [now destruct (all_events neigh k b)|]. rewrite IH. destruct (events_of neigh k v); [|reflexivity]. destruct (all_events neigh k a); [|reflexivity].
  destruct (all_events neigh k b); [now rewrite app_assoc|reflexivity].
Qed.
Lemma events_of_some k v : consistent k -> natoms y <= v < N -> events_of neigh k v = Some (map (fun n => (idx k v, n)) (filter (fun n => negb (seqb (st k n) Vac)) (neigh (idx k v)))).
Proof.
  intros [I C] L. unfold events_of. rewrite C by lia. replace (names y v) with Vac by (symmetry; apply names_vac; lia). cbn [seqb negb].
  destruct (filter _ _) eqn:E; [reflexivity|]. rewrite <- E. destruct I as [A _]. destruct (A v ltac:(lia)) as [_ ->]. now rewrite Nat.eqb_refl.
Qed.
(** Neither of the two IndexErrors. *)
Lemma all_events_flat k vs : consistent k -> (forall v, In v vs -> natoms y <= v < N) ->
  all_events neigh k vs = Some (flat_map (fun v => map (fun n => (idx k v, n)) (filter (fun n => negb (seqb (st k n) Vac)) (neigh (idx k v)))) vs).
Proof.
  intros C. induction vs as [|v vs IH]; intros H; [reflexivity|]. cbn [all_events flat_map]. rewrite events_of_some by (auto; apply H; now left). rewrite IH by (intros; apply H; now right). reflexivity.
Qed.
Lemma nodup_flat {A B} (f : A -> list B) l : NoDup l -> (forall a, In a l -> NoDup (f a)) -> (forall a b x, In a l -> In b l -> In x (f a) -> In x (f b) -> a = b) -> NoDup (flat_map f l).
Proof.
  induction 1 as [|a l A1 N1 IH]; intros H D; [constructor|]. cbn. assert (IH' := IH ltac:(intros; apply H; now right) ltac:(intros ? ? ? ? ?; apply D; now right)).
  assert (G : forall l1 l2 : list B, NoDup l1 -> NoDup l2 -> (forall x, In x l1 -> ~ In x l2) -> NoDup (l1 ++ l2)).
  { induction l1 as [|x l1 I1]; intros l2 M1 M2 M3; [exact M2|]. inversion M1; subst. cbn. constructor.
    - rewrite in_app_iff. intros [J|J]; [contradiction|]. apply (M3 x); [now left|exact J].
    - apply I1; [assumption|assumption|]. intros z J. apply M3. now right. }
  apply G; [apply H; now left|exact IH'|]. intros x J K. apply in_flat_map in K. destruct K as (b & Kb & K). apply A1. rewrite (D a b x); auto; [now left|now right].
Qed.
(** The events are the pairs of a vacancy and a neighbouring atom, each once. *)
Theorem events_spec k : consistent k -> exists ev, events y neigh k = Some ev /\ NoDup ev /\
  forall a b, In (a, b) ev <-> a < N /\ b < N /\ st k a = Vac /\ st k b <> Vac /\ In b (neigh a).
Proof.
  intros C. pose proof natoms_vac as V. assert (I := c_inv _ C). pose proof (inverse_bij _ _ _ I) as [RB IJ]. eexists. split; [|split].
  - unfold events. apply all_events_flat; [exact C|]. intros v J. apply in_seq in J. lia.
  - apply nodup_flat.
    + apply seq_NoDup.
    + intros v J. apply in_seq in J. apply FinFun.Injective_map_NoDup; [intros a b E; congruence|]. apply NoDup_filter. apply GR. apply RB. lia.
    + intros v w x J K Jx Kx. apply in_seq in J, K. apply in_map_iff in Jx, Kx. destruct Jx as (a & <- & _). destruct Kx as (b & E & _). injection E as E _. symmetry. apply IJ; [lia|lia|exact E].
  - intros a b. rewrite in_flat_map. split.
    + intros (v & J & K). apply in_seq in J. apply in_map_iff in K. destruct K as (n & E & K). injection E as <- <-. apply filter_In in K. destruct K as [K S]. apply negb_true_iff, seqb_neq in S.
      assert (Lv : idx k v < N) by (apply RB; lia). destruct (GR _ Lv) as (_ & G & _). destruct (G n K) as [Ln _]. repeat split; auto. rewrite (c_names _ C) by lia. apply names_vac; lia.
    + intros (La & Lb & Sa & Sb & J). exists (ridx k a). destruct I as [_ I]. destruct (I a La) as [X Y]. split.
      * apply in_seq. rewrite (consistent_st k a C La) in Sa. apply names_vac in Sa; [lia|exact X].
      * apply in_map_iff. exists b. rewrite Y. split; [reflexivity|]. apply filter_In. split; [exact J|]. apply negb_true_iff. now apply seqb_neq.
Qed.
(** Different events lead to different states, so no state is optimised twice at a time. *)
Theorem targets_distinct k ev : consistent k -> events y neigh k = Some ev -> NoDup (map (fun e => key y (target (st k) e)) ev).
Proof.
  intros C E. destruct (events_spec k C) as (ev' & E' & ND & H). rewrite E in E'. injection E' as <-.
  assert (G : forall l, NoDup l -> (forall e, In e l -> In e ev) -> NoDup (map (fun e => key y (target (st k) e)) l)).
  { induction 1 as [|[a b] l A1 N1 IH]; intros J; [constructor|]. cbn [map]. constructor; [|apply IH; intros; apply J; now right].
    rewrite in_map_iff. intros ([c d] & K & Lc). apply A1. assert (Ja := proj1 (H a b) (J _ (or_introl eq_refl))). assert (Jc := proj1 (H c d) (J _ (or_intror Lc))).
    destruct Ja as (La & Lb & Sa & Sb & _). destruct Jc as (Lc' & Ld & Sc & Sd & _). pose proof (key_inj _ _ K) as X. unfold target in X. cbn [fst snd] in X.
    assert (Nab : a <> b) by congruence. assert (Ncd : c <> d) by congruence.
    assert (Eac : c = a).
    { destruct (Nat.eq_dec c a) as [|D]; [assumption|]. exfalso. specialize (X a La). rewrite swap_l in X. destruct (Nat.eq_dec a d) as [->|D2]; [congruence|]. rewrite swap_o in X by congruence. congruence. }
    subst c. destruct (Nat.eq_dec d b) as [->|D]; [exact Lc|]. exfalso. specialize (X b Lb). rewrite swap_r, swap_o in X by congruence. congruence. }
  apply G; auto.
Qed.

(** ** A step *)
Lemma select_lt fp l i : select fp l = Some i -> i < length l.
Proof.
  revert i. induction l as [|c l IH]; intros i; [discriminate|]. cbn. destruct (Rlt_dec c fp); [|intros E; injection E as <-; lia].
  destruct (select fp l) as [j|]; [|discriminate]. intros E. injection E as <-. specialize (IH j eq_refl). lia.
Qed.
Lemma crates_length acc l : length (crates acc l) = length l.
Proof. revert acc. induction l as [|r l IH]; intros acc; cbn; [reflexivity|now rewrite IH]. Qed.
Variable geop : (nat -> vec) -> R * (nat -> vec).
(** What a step does, given the event it selects. *)
Lemma step_inv u1 u2 k k' : consistent k -> step y geop neigh u1 u2 k = Some k' -> exists ev isel a b, events y neigh k = Some ev /\ nth_error ev isel = Some (a, b) /\
  select (u1 * cdf (map (event_rate y geop (st k)) ev)) (crates 0 (map (event_rate y geop (st k)) ev)) = Some isel /\
  (a < N /\ b < N /\ st k a = Vac /\ st k b <> Vac /\ In b (neigh a)) /\
  k' = Kmc (swap (ridx k a) (ridx k b) (idx k)) (swap a b (ridx k)) (swap a b (st k))
    (moved y k (swap a b (st k)) (swap (ridx k a) (ridx k b) (idx k)) (relaxed y geop (swap a b (st k)))) (time k + residence (cdf (map (event_rate y geop (st k)) ev)) u2).
Proof.
  intros C. unfold step. destruct (events_spec k C) as (ev & E & ND & H). rewrite E. destruct (select _ _) as [i|] eqn:Q; [|discriminate]. intros X. injection X as <-.
  pose proof (select_lt _ _ _ Q) as L. rewrite crates_length, map_length in L. destruct (nth_error ev i) as [[a b]|] eqn:Z; [|apply nth_error_None in Z; lia].
  exists ev, i, a, b. split; [reflexivity|]. split; [exact Z|]. split; [exact Q|]. split; [apply H; apply (nth_error_In _ _ Z)|]. now rewrite (nth_error_nth _ _ _ Z).
Qed.
Theorem step_consistent u1 u2 k k' : consistent k -> step y geop neigh u1 u2 k = Some k' -> consistent k'.
Proof.
  intros C H. destruct (step_inv _ _ _ _ C H) as (ev & i & a & b & _ & _ & _ & (La & Lb & Sa & Sb & _) & ->). destruct C as [I Nm]. pose proof I as [A B]. destruct (B a La) as [Xa Ya]. destruct (B b Lb) as [Xb Yb]. split; cbn [idx ridx st].
  - pose proof (inverse_swap N (idx k) (ridx k) (ridx k a) (ridx k b) I Xa Xb) as Z. now rewrite Ya, Yb in Z.
  - intros j L. pose proof (inverse_bij _ _ _ I) as [_ IJ]. destruct (Nat.eq_dec j (ridx k a)) as [->|Da]; [rewrite swap_l, Yb, swap_r, <- (Nm _ Xa); now rewrite Ya|].
    destruct (Nat.eq_dec j (ridx k b)) as [->|Db]; [rewrite swap_r, Ya, swap_l, <- (Nm _ Xb); now rewrite Yb|].
    rewrite (swap_o (idx k)) by assumption. rewrite swap_o; [now apply Nm|intros E; apply Da; destruct (A j L) as [_ <-]; now rewrite E|intros E; apply Db; destruct (A j L) as [_ <-]; now rewrite E].
Qed.
(** Any number of steps, with any random numbers. *)
Inductive run : kmc -> kmc -> Prop :=
| run_refl k : run k k
| run_step k k' k'' u1 u2 : run k k' -> (0 <= u1 < 1)%R -> (0 <= u2 < 1)%R -> step y geop neigh u1 u2 k' = Some k'' -> run k k''.
Theorem run_consistent k k' : consistent k -> run k k' -> consistent k' /\ composition (st k') /\ exists ev, events y neigh k' = Some ev.
Proof.
  intros C R. assert (C' : consistent k') by (induction R as [|k k1 k2 u1 u2 R IH U1 U2 S]; [exact C|exact (step_consistent _ _ _ _ (IH C) S)]).
  split; [exact C'|]. split; [now apply consistent_composition|]. destruct (events_spec k' C') as (ev & E & _). now exists ev.
Qed.
End Index.
