(** * Properties of the fixed atoms of the instanton optimisers *)
From Coq Require Import List Arith Lia Reals Lra ZArith String Bool Sorted.
From Verif Require Import InstFix.
Import ListNotations.
Open Scope nat_scope.

(** ** Lists *)
Lemma memb_In x l : memb x l = true <-> In x l.
Proof.
  unfold memb. rewrite existsb_exists. split.
  - intros (y & H & E). apply Nat.eqb_eq in E. now subst.
  - intros H. exists x. split; [easy | apply Nat.eqb_refl].
Qed.
Lemma memb_false x l : memb x l = false <-> ~ In x l.
Proof. rewrite <- memb_In. destruct (memb x l); intuition congruence. Qed.
Lemma index_of_Some x l k : index_of x l = Some k -> k < List.length l /\ nth k l 0 = x.
Proof.
  revert k. induction l as [|y l IH]; intros k; cbn; [easy|]. destruct (Nat.eqb_spec x y) as [->|Hn].
  - intros [= <-]. cbn. split; [lia | easy].
  - destruct (index_of x l) as [j|]; [|easy]. intros [= <-]. destruct (IH j eq_refl). cbn. split; [lia | easy].
Qed.
Lemma index_of_None x l : index_of x l = None <-> ~ In x l.
Proof.
  induction l as [|y l IH]; cbn; [easy|]. destruct (Nat.eqb_spec x y) as [->|Hn].
  - split; [easy|]. tauto.
  - destruct (index_of x l); cbn; [|intuition congruence]. split; [easy|]. intros H. exfalso. apply H. right.
    destruct (in_dec Nat.eq_dec x l) as [|N]; [easy|]. apply IH in N. easy.
Qed.
Lemma index_of_nth l k : NoDup l -> k < List.length l -> index_of (nth k l 0) l = Some k.
Proof.
  intros H. revert k. induction H as [|y l N H IH]; cbn; [lia|]. intros [|k] Hk.
  - now rewrite Nat.eqb_refl.
  - destruct (Nat.eqb_spec (nth k l 0) y) as [E|E].
    + exfalso. apply N. rewrite <- E. apply nth_In. lia.
    + rewrite IH by lia. easy.
Qed.
(** [where_] lists the positions of the true entries. *)
Lemma where_from a m : map fst (filter snd (combine (seq a (List.length m)) m)) = filter (fun i => nth (i - a) m false) (seq a (List.length m)).
Proof.
  revert a. induction m as [|b m IH]; intros a; [easy|]. cbn [List.length seq combine filter].
  replace (a - a) with 0 by lia. cbn [nth snd]. rewrite <- (filter_ext_in (fun i => nth (i - S a) m false)).
  - destruct b; cbn [map fst]; now rewrite IH.
  - intros x Hx. apply in_seq in Hx. replace (x - a) with (S (x - S a)) by lia. easy.
Qed.
Lemma where_filter m : where_ m = filter (fun i => nth i m false) (seq 0 (List.length m)).
Proof. unfold where_. rewrite where_from. apply filter_ext. intros i. now rewrite Nat.sub_0_r. Qed.
Lemma seq_sorted a n : StronglySorted lt (seq a n).
Proof. revert a. induction n as [|n IH]; intros a; cbn; constructor; [apply IH|]. apply Forall_forall. intros x Hx. apply in_seq in Hx. lia. Qed.
Lemma filter_sorted f l : StronglySorted lt l -> StronglySorted lt (filter f l).
Proof.
  induction 1 as [|a l H IH A]; cbn; [constructor|]. destruct (f a); [|easy]. constructor; [easy|].
  rewrite Forall_forall in *. intros x Hx. apply filter_In in Hx. now apply A.
Qed.
Lemma sorted_NoDup l : StronglySorted lt l -> NoDup l.
Proof.
  induction 1 as [|a l H IH A]; constructor; [|easy]. intros Hin. rewrite Forall_forall in A. specialize (A a Hin). lia.
Qed.
Lemma repeat_mask_length m n : List.length (repeat_mask m n) = n * List.length m.
Proof. unfold repeat_mask. induction n as [|n IH]; cbn; [easy|]. rewrite app_length, IH. lia. Qed.
Lemma repeat_mask_nth m n x : m <> [] -> x < n * List.length m -> nth x (repeat_mask m n) false = nth (x mod List.length m) m false.
Proof.
  intros Hm. assert (L : 0 < List.length m) by (destruct m; cbn; [easy | lia]).
  revert x. unfold repeat_mask. induction n as [|n IH]; cbn [repeat List.concat]; intros x Hx; [lia|].
  destruct (Nat.lt_ge_cases x (List.length m)) as [H|H].
  - rewrite app_nth1, Nat.mod_small by lia. easy.
  - rewrite app_nth2 by lia. rewrite IH by lia.
    replace (x mod List.length m) with ((x - List.length m + 1 * List.length m) mod List.length m) by (f_equal; lia).
    rewrite Nat.mod_add by lia. easy.
Qed.
Lemma filter_count_split {A} (f : A -> bool) l : List.length (filter f l) + List.length (filter (fun x => negb (f x)) l) = List.length l.
Proof. induction l as [|a l IH]; cbn; [easy|]. destruct (f a); cbn; lia. Qed.

Lemma in2 s t i k : Forall2 (fun s i : nat => i < s) [s; t] [i; k] -> i < s /\ k < t.
Proof. intros H. inversion H as [|? ? ? ? Hi H']; subst. inversion H' as [|? ? ? ? Hk _]; subst. easy. Qed.

(** ** Masks: what is fixed *)
(** Coordinate [c] belongs to an atom one of whose coordinates is in the list. *)
Definition touched (dof : list nat) (c : nat) : Prop := exists d, In d dof /\ d / 3 = c / 3.
Definition atom_touched (dof : list nat) (a : nat) : Prop := exists d, In d dof /\ d / 3 = a.
Definition fixedb (F : fixing) (c : nat) : bool := memb (c / 3) (fixatoms F).

Definition wf (F : fixing) : Prop :=
  (forall a, In a (fixatoms F) -> a < natoms F) /\ NoDup (fixatoms F) /\
  mask0 F = filter (fun a => negb (memb a (fixatoms F))) (seq 0 (natoms F)) /\
  mask1 F = filter (fun c => negb (fixedb F c)) (seq 0 (3 * natoms F)) /\
  mask2 F = filter (fun x => negb (fixedb F (x mod (3 * natoms F)))) (seq 0 (3 * natoms F * nbeads F)).

Lemma init_wf N P dof F : fix_init N P dof = Val F -> wf F /\ natoms F = N /\ nbeads F = P.
Proof.
  unfold fix_init. destruct (negb _); [easy|]. destruct (negb _); [easy|]. intros [= <-]. cbn [natoms nbeads fixatoms]. split; [|easy].
  set (fixed := filter _ _). unfold wf, fixedb. cbn [natoms nbeads fixatoms mask0 mask1 mask2].
  set (m1 := map _ _).
  assert (L : List.length m1 = 3 * N) by (unfold m1; now rewrite map_length, seq_length).
  assert (M : forall c, c < 3 * N -> nth c m1 false = negb (memb (c / 3) fixed)).
  { intros c Hc. unfold m1. rewrite (nth_indep _ false (negb (memb (0 / 3) fixed))) by (rewrite map_length, seq_length; easy).
    rewrite (map_nth (fun c => negb (memb (c / 3) fixed)) (seq 0 (3 * N)) 0). now rewrite seq_nth by lia. }
  split; [|split; [|split; [|split]]].
  - intros a Ha. apply filter_In in Ha. destruct Ha as (Ha & _). apply in_seq in Ha. lia.
  - apply NoDup_filter. apply seq_NoDup.
  - easy.
  - rewrite where_filter, L. apply filter_ext_in. intros c Hc. apply in_seq in Hc. apply M. lia.
  - rewrite where_filter, repeat_mask_length, L. rewrite (Nat.mul_comm P). apply filter_ext_in. intros x Hx. apply in_seq in Hx.
    destruct N as [|N']; [cbn in Hx; lia|].
    rewrite repeat_mask_nth, L.
    + apply M. apply Nat.mod_upper_bound. lia.
    + intros E. rewrite E in L. cbn in L. lia.
    + rewrite L. lia.
Qed.
Lemma count_atoms f n : List.length (filter (fun c => f (c / 3)) (seq 0 (3 * n))) = 3 * List.length (filter f (seq 0 n)).
Proof.
  induction n as [|n IH]; [easy|]. rewrite seq_S, filter_app, app_length. replace (3 * S n) with (3 * n + 3) by lia.
  rewrite seq_app, filter_app, app_length, IH. cbn [Nat.add].
  assert (E : filter (fun c => f (c / 3)) (seq (3 * n) 3) = if f n then seq (3 * n) 3 else []).
  { assert (Q : forall a, a < 3 -> (3 * n + a) / 3 = n) by (intros a Ha; symmetry; apply (Nat.div_unique _ 3 n a); lia).
    cbn [seq filter]. replace (3 * n / 3) with n by (specialize (Q 0); rewrite Nat.add_0_r in Q; symmetry; apply Q; lia).
    replace (S (3 * n)) with (3 * n + 1) by lia. replace (S (3 * n + 1)) with (3 * n + 2) by lia. rewrite !Q by lia. now destruct (f n). }
  rewrite E. cbn [filter]. destruct (f n); cbn [List.length seq]; lia.
Qed.
Lemma count_beads f n P : List.length (filter (fun x => f (x mod n)) (seq 0 (n * P))) = P * List.length (filter f (seq 0 n)).
Proof.
  destruct n as [|n']; [cbn; lia|]. set (n := S n').
  induction P as [|P IH]; [rewrite Nat.mul_0_r; easy|]. replace (n * S P) with (n * P + n) by lia.
  rewrite seq_app, filter_app, app_length, IH. cbn [Nat.add].
  assert (E : forall k, k <= n -> List.length (filter (fun x => f (x mod n)) (seq (n * P) k)) = List.length (filter f (seq 0 k))).
  { induction k as [|k IHk]; intros Hk; [easy|]. rewrite !seq_S, !filter_app, !app_length, IHk by lia. cbn [Nat.add filter].
    replace ((n * P + k) mod n) with k; [now destruct (f k)|]. symmetry. rewrite Nat.add_comm, Nat.mul_comm, Nat.mod_add by (unfold n; lia). apply Nat.mod_small. lia. }
  rewrite E by lia. lia.
Qed.
Lemma not_in_count f n : List.length (filter (fun a => negb (memb a (filter f (seq 0 n)))) (seq 0 n)) = n - List.length (filter f (seq 0 n)).
Proof.
  rewrite (filter_ext_in (fun a => negb (memb a (filter f (seq 0 n)))) (fun a => negb (f a))).
  - pose proof (filter_count_split f (seq 0 n)) as H. rewrite seq_length in H. lia.
  - intros a Ha. f_equal. destruct (f a) eqn:E.
    + apply memb_In. now apply filter_In.
    + apply memb_false. rewrite filter_In. intros (_ & E'). congruence.
Qed.

Section Fixed.
Variables (N P : nat) (dof : list nat) (F : fixing).
Hypothesis HF : fix_init N P dof = Val F.
Let HN : natoms F = N. Proof. apply (init_wf N P dof F HF). Qed.
Let HP : nbeads F = P. Proof. apply (init_wf N P dof F HF). Qed.
Let W : wf F. Proof. apply (init_wf N P dof F HF). Qed.
Lemma fixatoms_eq : fixatoms F = filter (fun a => memb a (map (fun d => d / 3) dof)) (seq 0 N).
Proof. revert HF. unfold fix_init. destruct (negb _); [easy|]. destruct (negb _); [easy|]. now intros [= <-]. Qed.
Lemma dof_range d : In d dof -> d / 3 < N.
Proof.
  revert HF. unfold fix_init. destruct (negb _); [easy|]. destruct (forallb _ _) eqn:E; cbn [negb]; [|easy]. intros _ H.
  rewrite forallb_forall in E. apply Nat.ltb_lt. apply E. now apply (in_map (fun d => d / 3)).
Qed.
Lemma fixatoms_In a : In a (fixatoms F) <-> atom_touched dof a.
Proof.
  rewrite fixatoms_eq, filter_In, memb_In, in_map_iff. unfold atom_touched. split.
  - intros (_ & d & E & H). eauto.
  - intros (d & H & E). split; [|eauto]. apply in_seq. pose proof (dof_range d H). lia.
Qed.
Lemma fixedb_true c : fixedb F c = true <-> touched dof c.
Proof. unfold fixedb. rewrite memb_In, fixatoms_In. easy. Qed.
Lemma fixedb_false c : fixedb F c = false <-> ~ touched dof c.
Proof. rewrite <- fixedb_true. destruct (fixedb F c); intuition congruence. Qed.
(** The masks hold, in increasing order, exactly the atoms and the coordinates none of whose
    atom's coordinates is in the list. *)
Theorem fix_masks :
  (forall a, In a (mask0 F) <-> a < N /\ ~ atom_touched dof a) /\
  (forall c, In c (mask1 F) <-> c < 3 * N /\ ~ touched dof c) /\
  (forall x, In x (mask2 F) <-> x < 3 * N * P /\ ~ touched dof (x mod (3 * N))) /\
  StronglySorted lt (mask0 F) /\ StronglySorted lt (mask1 F) /\ StronglySorted lt (mask2 F) /\
  List.length (mask0 F) = fix_natoms F /\ List.length (mask1 F) = 3 * fix_natoms F /\ List.length (mask2 F) = P * (3 * fix_natoms F).
Proof.
  destruct W as (_ & _ & W0 & W1 & W2). rewrite W0, W1, W2, HN, HP.
  assert (L1 : List.length (filter (fun c => negb (fixedb F c)) (seq 0 (3 * N))) = 3 * fix_natoms F).
  { unfold fixedb. rewrite (count_atoms (fun a => negb (memb a (fixatoms F)))), fixatoms_eq, not_in_count. unfold fix_natoms. rewrite HN, fixatoms_eq. easy. }
  split; [|split; [|split; [|split; [|split; [|split; [|split; [|split]]]]]]].
  - intros a. rewrite filter_In, negb_true_iff, memb_false, fixatoms_In, in_seq. intuition lia.
  - intros c. rewrite filter_In, negb_true_iff, fixedb_false, in_seq. intuition lia.
  - intros x. rewrite filter_In, negb_true_iff, fixedb_false, in_seq. intuition lia.
  - apply filter_sorted, seq_sorted.
  - apply filter_sorted, seq_sorted.
  - apply filter_sorted, seq_sorted.
  - rewrite fixatoms_eq, not_in_count. unfold fix_natoms. now rewrite HN, fixatoms_eq.
  - exact L1.
  - rewrite (count_beads (fun c => negb (fixedb F c))), L1. easy.
Qed.
Lemma m1_NoDup : NoDup (mask1 F).
Proof. apply sorted_NoDup. apply fix_masks. Qed.
Lemma m2_NoDup : NoDup (mask2 F).
Proof. apply sorted_NoDup. apply fix_masks. Qed.
Lemma m1_In c : In c (mask1 F) <-> c < 3 * N /\ fixedb F c = false.
Proof. rewrite fixedb_false. apply fix_masks. Qed.
Lemma m2_In x : In x (mask2 F) <-> x < 3 * N * P /\ fixedb F (x mod (3 * N)) = false.
Proof. rewrite fixedb_false. apply fix_masks. Qed.

(** ** Arrays *)
Lemma bc_refl l : bc l l = true.
Proof. induction l as [|a l IH]; cbn; [easy|]. now rewrite Nat.eqb_refl, IH. Qed.
Lemma bidx_id src idx : Forall2 (fun s i => i < s) src idx -> bidx src idx = idx.
Proof. induction 1 as [|s i src idx H _ IH]; cbn; [easy|]. rewrite IH. destruct (Nat.eqb_spec s 1); [|easy]. now replace i with 0 by lia. Qed.
Lemma bget_in v idx : Forall2 (fun s i => i < s) (shape v) idx -> bget v idx = at_ v idx.
Proof.
  intros H. unfold bget. rewrite bidx_id, rev_involutive; [easy|].
  revert H. generalize (shape v) as sh. intros sh. induction 1 as [|s i sh' idx' H _ IH]; cbn; [constructor|]. apply Forall2_app; [easy | repeat constructor; easy].
Qed.
Lemma take_ok ax l a d : nth_error (shape a) ax = Some d -> (forall i, In i l -> i < d) ->
  take ax l a = Val (Arr (set_nth ax (List.length l) (shape a)) (fun idx => at_ a (set_nth ax (nth (nth ax idx 0) l 0) idx))).
Proof.
  intros E H. unfold take. rewrite E. replace (forallb _ l) with true; [easy|]. symmetry. apply forallb_forall. intros i Hi. apply Nat.ltb_lt. auto.
Qed.
Lemma m1_lt i : In i (mask1 F) -> i < 3 * N.
Proof. rewrite m1_In. tauto. Qed.
Lemma m2_lt i : In i (mask2 F) -> i < 3 * N * P.
Proof. rewrite m2_In. tauto. Qed.
Definition n1 : nat := 3 * fix_natoms F.
Lemma len1 : List.length (mask1 F) = n1. Proof. apply fix_masks. Qed.
Lemma len2 : List.length (mask2 F) = P * n1. Proof. apply fix_masks. Qed.
Lemma nothing_spec : nothing_fixed F = true <-> forall c, ~ touched dof c.
Proof.
  unfold nothing_fixed. destruct (fixatoms F) as [|a l] eqn:E.
  - split; [|easy]. intros _ c. rewrite <- fixedb_true. unfold fixedb. now rewrite E.
  - split; [easy|]. intros H. exfalso. assert (Ha : In a (fixatoms F)) by (rewrite E; now left).
    apply fixatoms_In in Ha. destruct Ha as (d & Hd & Q). apply (H d). exists d. easy.
Qed.

(** Active arrays: what they hold. *)
Theorem fix_active_1 v : shape v = [P; 3 * N] -> nothing_fixed F = false ->
  exists a, get_active_vector F v 1 = Val a /\ shape a = [P; n1] /\ forall b k, at_ a [b; k] = at_ v [b; nth k (mask1 F) 0].
Proof.
  intros S Hf. unfold get_active_vector. rewrite Hf. cbn [orb Z.eqb].
  rewrite (take_ok 1 (mask1 F) v (3 * N)) by (try apply m1_lt; now rewrite S).
  eexists. split; [reflexivity|]. rewrite S. cbn [shape at_ set_nth nth]. rewrite len1. split; easy.
Qed.
Theorem fix_active_2 v : shape v = [3 * N; 3 * N * P] -> nothing_fixed F = false ->
  exists a, get_active_vector F v 2 = Val a /\ shape a = [n1; P * n1] /\
    forall i k, at_ a [i; k] = at_ v [nth i (mask1 F) 0; nth k (mask2 F) 0].
Proof.
  intros S Hf. unfold get_active_vector. rewrite Hf. cbn [orb Z.eqb].
  rewrite (take_ok 0 (mask1 F) v (3 * N)) by (try apply m1_lt; now rewrite S). cbn [bind].
  rewrite (take_ok 1 (mask2 F) _ (3 * N * P)) by (try apply m2_lt; now rewrite S). rewrite S.
  eexists. split; [reflexivity|]. cbn [shape at_ set_nth nth]. rewrite len1, len2. split; easy.
Qed.

(** Full arrays of types 1 and 2. *)
Lemma full1_ok a : shape a = [P; n1] -> exists w, full1 F a = Val w /\ shape w = [P; 3 * N] /\
  (forall b k, b < P -> k < n1 -> at_ w [b; nth k (mask1 F) 0] = at_ a [b; k]) /\
  (forall b c, fixedb F c = true -> at_ w [b; c] = 0%R).
Proof.
  intros S. unfold full1, assignable. rewrite S, HP, len1, bc_refl. eexists. split; [reflexivity|]. cbn [shape at_]. rewrite HN.
  split; [easy|]. split.
  - intros b k Hb Hk. rewrite index_of_nth by (try apply m1_NoDup; now rewrite len1). apply bget_in. rewrite S. repeat constructor; easy.
  - intros b c Hc. replace (index_of c (mask1 F)) with (@None nat); [easy|]. symmetry. apply index_of_None. rewrite m1_In. intuition congruence.
Qed.
Definition body2 (v : arr) (i : nat) (s : nat * (nat -> nat -> R)) : res (nat * (nat -> nat -> R)) :=
  let '(ii, acc) := s in
  bind (row v ii) (fun r =>
  if assignable r [List.length (mask2 F)]
  then Val (S ii, fun i' c => if i' =? i then match index_of c (mask2 F) with Some k => bget r [k] | None => acc i' c end else acc i' c)
  else ValueError).
Lemma full2_loop a l ii acc : shape a = [n1; P * n1] -> ii + List.length l = n1 -> NoDup l ->
  exists acc', for_ l (body2 a) (ii, acc) = Val (n1, acc') /\
    (forall j k, j < List.length l -> k < P * n1 -> acc' (nth j l 0) (nth k (mask2 F) 0) = at_ a [ii + j; k]) /\
    (forall i c, ~ In i l -> acc' i c = acc i c) /\
    (forall i c, ~ In c (mask2 F) -> acc' i c = acc i c).
Proof.
  intros S. revert ii acc. induction l as [|i l IH]; intros ii acc Hl Hd; cbn [for_].
  - cbn in Hl. rewrite Nat.add_0_r in Hl. subst ii. exists acc. cbn. split; [easy|]. split; [intros; lia|]. easy.
  - cbn [List.length] in Hl. unfold body2 at 1. unfold row. rewrite S. destruct (Nat.ltb_spec ii n1) as [H|H]; [|lia]. cbn [bind].
    unfold assignable. cbn [shape rev app]. rewrite len2, bc_refl. cbn [bind].
    apply NoDup_cons_iff in Hd. destruct Hd as (Hn & Hd').
    match goal with |- exists acc', for_ l _ (_, ?x) = _ /\ _ => destruct (IH (Datatypes.S ii) x) as (acc' & E & A1 & A2 & A3) end; [lia | easy |].
    exists acc'. split; [exact E|]. split; [|split].
    + intros [|j] k Hj Hk; cbn [nth].
      * rewrite A2 by easy. rewrite Nat.eqb_refl, index_of_nth by (try apply m2_NoDup; now rewrite len2).
        rewrite bget_in by (cbn [shape]; repeat constructor; easy). cbn [at_]. now rewrite Nat.add_0_r.
      * cbn [List.length] in Hj. rewrite A1 by (try lia; easy). f_equal. f_equal. lia.
    + intros i' c H'. cbn [In] in H'. rewrite A2 by tauto. destruct (Nat.eqb_spec i' i); [|easy]. subst. tauto.
    + intros i' c H'. rewrite A3 by easy. destruct (Nat.eqb_spec i' i); [|easy]. now rewrite (proj2 (index_of_None c (mask2 F)) H').
Qed.
Lemma full2_ok a : shape a = [n1; P * n1] -> exists w, full2 F a = Val w /\ shape w = [3 * N; 3 * N * P] /\
  (forall i k, i < n1 -> k < P * n1 -> at_ w [nth i (mask1 F) 0; nth k (mask2 F) 0] = at_ a [i; k]) /\
  (forall i c, fixedb F i = true \/ fixedb F (c mod (3 * N)) = true -> at_ w [i; c] = 0%R).
Proof.
  intros S. unfold full2. fold (body2 a).
  destruct (full2_loop a (mask1 F) 0 (fun _ _ => 0%R)) as (acc & E & A1 & A2 & A3); [easy | apply len1 | apply m1_NoDup |].
  change (for_ (mask1 F) _ _) with (for_ (mask1 F) (body2 a) (0, fun _ _ => 0%R)). rewrite E. cbn [bind]. eexists. split; [reflexivity|].
  cbn [shape at_ snd]. rewrite HN, HP. split; [easy|]. split.
  - intros i k Hi Hk. rewrite A1 by (rewrite ?len1; easy). easy.
  - intros i c [H|H].
    + apply A2. rewrite m1_In. intuition congruence.
    + apply A3. rewrite m2_In. intuition congruence.
Qed.

(** ** Round trips *)
(** Positions and forces: the coordinates of the free atoms come back, the others are zero. *)
Theorem fix_round_trip_1 v : shape v = [P; 3 * N] -> (exists c, touched dof c) ->
  exists a w, get_active_vector F v 1 = Val a /\ shape a = [P; n1] /\ get_full_vector F a 1 = Val w /\ shape w = [P; 3 * N] /\
    forall b c, b < P -> c < 3 * N -> (touched dof c -> at_ w [b; c] = 0%R) /\ (~ touched dof c -> at_ w [b; c] = at_ v [b; c]).
Proof.
  intros S (c0 & H0). assert (Hf : nothing_fixed F = false). { destruct (nothing_fixed F) eqn:E; [|easy]. apply nothing_spec with (c := c0) in E. easy. }
  destruct (fix_active_1 v S Hf) as (a & Ea & Sa & Va). destruct (full1_ok a Sa) as (w & Ew & Sw & Vw & Zw).
  exists a, w. split; [easy|]. split; [easy|]. split; [unfold get_full_vector; rewrite Hf; exact Ew|]. split; [easy|].
  intros b c Hb Hc. rewrite <- fixedb_true. split; [apply Zw|]. rewrite Bool.not_true_iff_false. intros Hn.
  assert (Hin : In c (mask1 F)) by (rewrite m1_In; easy). destruct (In_nth _ _ 0 Hin) as (k & Hk & Ek). rewrite len1 in Hk.
  rewrite <- Ek, Vw by easy. now rewrite Va.
Qed.
(** Hessians in the reduced form: rows of the coordinates, columns of all beads. *)
Theorem fix_round_trip_2 v : shape v = [3 * N; 3 * N * P] -> (exists c, touched dof c) ->
  exists a w, get_active_vector F v 2 = Val a /\ shape a = [n1; P * n1] /\ get_full_vector F a 2 = Val w /\ shape w = [3 * N; 3 * N * P] /\
    forall i c, i < 3 * N -> c < 3 * N * P ->
      (touched dof i \/ touched dof (c mod (3 * N)) -> at_ w [i; c] = 0%R) /\
      (~ touched dof i -> ~ touched dof (c mod (3 * N)) -> at_ w [i; c] = at_ v [i; c]).
Proof.
  intros S (c0 & H0). assert (Hf : nothing_fixed F = false). { destruct (nothing_fixed F) eqn:E; [|easy]. apply nothing_spec with (c := c0) in E. easy. }
  destruct (fix_active_2 v S Hf) as (a & Ea & Sa & Va). destruct (full2_ok a Sa) as (w & Ew & Sw & Vw & Zw).
  exists a, w. split; [easy|]. split; [easy|]. split; [unfold get_full_vector; rewrite Hf; exact Ew|]. split; [easy|].
  intros i c Hi Hc. rewrite <- !fixedb_true. split; [apply Zw|]. rewrite !Bool.not_true_iff_false. intros Hn Hn'.
  assert (Hin : In i (mask1 F)) by (rewrite m1_In; easy). destruct (In_nth _ _ 0 Hin) as (k & Hk & Ek). rewrite len1 in Hk.
  assert (Hin' : In c (mask2 F)) by (rewrite m2_In; easy). destruct (In_nth _ _ 0 Hin') as (k' & Hk' & Ek'). rewrite len2 in Hk'.
  rewrite <- Ek, <- Ek', Vw by easy. now rewrite Va.
Qed.
(** An active array filled in with zeros and reduced again is the array itself. *)
Theorem fix_full_active a (t : Z) : (t = 1%Z /\ shape a = [P; n1]) \/ (t = 2%Z /\ shape a = [n1; P * n1]) ->
  exists w a', get_full_vector F a t = Val w /\ get_active_vector F w t = Val a' /\ shape a' = shape a /\
    forall i k, Forall2 (fun s i => i < s) (shape a) [i; k] -> at_ a' [i; k] = at_ a [i; k].
Proof.
  intros H. destruct (nothing_fixed F) eqn:Hf.
  { exists a, a. unfold get_full_vector, get_active_vector. rewrite Hf. cbn [orb]. easy. }
  destruct H as [(-> & S)|(-> & S)].
  - destruct (full1_ok a S) as (w & Ew & Sw & Vw & _). destruct (fix_active_1 w Sw Hf) as (a' & Ea & Sa & Va).
    exists w, a'. split; [unfold get_full_vector; rewrite Hf; exact Ew|]. split; [easy|]. split; [congruence|].
    intros i k HH. rewrite S in HH. apply in2 in HH. destruct HH as (Hi & Hk). rewrite Va. now apply Vw.
  - destruct (full2_ok a S) as (w & Ew & Sw & Vw & _). destruct (fix_active_2 w Sw Hf) as (a' & Ea & Sa & Va).
    exists w, a'. split; [unfold get_full_vector; rewrite Hf; exact Ew|]. split; [easy|]. split; [congruence|].
    intros i k HH. rewrite S in HH. apply in2 in HH. destruct HH as (Hi & Hk). rewrite Va. now apply Vw.
Qed.

(** ** Types 3, 4 and 5 never come back *)
Lemma col_assignable a l n rest : shape a = n :: rest -> (n = P \/ n = 1) -> List.length l = List.length rest -> in_range l rest = true ->
  exists col, pick a l = Val col /\ assignable col [P] = true.
Proof.
  intros S Hn Hl Hr. unfold pick. rewrite S, Hr. eexists. split; [reflexivity|]. unfold assignable. cbn [shape]. rewrite Hl, skipn_all. cbn [rev app bc].
  destruct Hn as [->| ->]; rewrite ?Nat.eqb_refl; cbn; rewrite ?orb_true_r; easy.
Qed.
Lemma for_count {A} (body : nat -> nat * A -> res (nat * A)) l k s n :
  (forall x k s, k < n -> exists s', body x (k, s) = Val (S k, s')) -> k + List.length l <= n ->
  exists s', for_ l body (k, s) = Val (k + List.length l, s').
Proof.
  intros H. revert k s. induction l as [|x l IH]; intros k s Hk; cbn [for_ List.length] in *.
  - exists s. now rewrite Nat.add_0_r.
  - destruct (H x k s) as (s' & E); [lia|]. rewrite E. cbn [bind]. destruct (IH (S k) s') as (s'' & E'); [lia|]. exists s''. rewrite E'. f_equal. f_equal. lia.
Qed.
Theorem fix_full_3 v : (exists c, touched dof c) -> get_full_vector F v 3 = AttributeError.
Proof.
  intros (c0 & H0). unfold get_full_vector. replace (nothing_fixed F) with false; [easy|]. destruct (nothing_fixed F) eqn:E; [|easy].
  apply nothing_spec with (c := c0) in E. easy.
Qed.
Theorem fix_full_5 v : shape v = [P; n1; n1] -> (exists c, touched dof c) -> (exists c, c < 3 * N /\ ~ touched dof c) -> get_full_vector F v 5 = IndexError.
Proof.
  intros S (c0 & H0) (c1 & H1 & H1'). unfold get_full_vector. replace (nothing_fixed F) with false.
  2:{ destruct (nothing_fixed F) eqn:E; [|easy]. apply nothing_spec with (c := c0) in E. easy. }
  cbn [orb Z.eqb]. unfold full5.
  assert (L : 3 <= n1). { assert (Hin : In c1 (mask1 F)) by (rewrite m1_In, fixedb_false; easy). pose proof len1 as L. unfold n1 in *. destruct (mask1 F); [easy|]. cbn in L. lia. }
  destruct (mask1 F) as [|i0 [|i1 l]] eqn:E1; try (pose proof len1 as Q; rewrite E1 in Q; cbn [List.length] in Q; lia).
  pose proof len1 as Q1. rewrite E1 in Q1.
  set (m := i0 :: i1 :: l) in *.
  assert (B : exists s', for_ m (fun j s => let '(jj, acc) := s in
              bind (pick v [0; jj]) (fun col => bind (write (nbeads F) col [i0; j] acc) (fun acc => Val (Datatypes.S jj, acc)))) (0, fun _ : list nat => 0%R) = Val (n1, s')).
  { match goal with |- exists s', for_ m ?b _ = _ => destruct (for_count b m 0 (fun _ => 0%R) n1) as (s' & Q) end.
    - intros x k s Hk. cbn beta iota. destruct (col_assignable v [0; k] P [n1; n1] S) as (col & Ec & A); [now left | easy | |].
      + cbn [in_range]. rewrite !(proj2 (Nat.ltb_lt _ _)) by lia. easy.
      + rewrite Ec. cbn [bind]. unfold write. rewrite HP, A. cbn [bind]. eauto.
    - rewrite Q1. lia.
    - rewrite Q1 in Q. eauto. }
  destruct B as (s' & B). unfold m at 1. cbn [for_]. rewrite B. cbn [bind].
  unfold m at 1. cbn [for_]. unfold pick at 1. rewrite S. cbn [in_range]. rewrite (proj2 (Nat.ltb_ge n1 n1)) by lia. rewrite !andb_false_r. easy.
Qed.
Theorem fix_full_4 v : shape v = [P; n1; n1; n1] -> (exists c, touched dof c) -> (exists c, c < 3 * N /\ ~ touched dof c) -> get_full_vector F v 4 = IndexError.
Proof.
  intros S (c0 & H0) (c1 & H1 & H1'). unfold get_full_vector. replace (nothing_fixed F) with false.
  2:{ destruct (nothing_fixed F) eqn:E; [|easy]. apply nothing_spec with (c := c0) in E. easy. }
  cbn [orb Z.eqb]. unfold full4.
  assert (L : 3 <= n1). { assert (Hin : In c1 (mask1 F)) by (rewrite m1_In, fixedb_false; easy). pose proof len1 as L. unfold n1 in *. destruct (mask1 F); [easy|]. cbn in L. lia. }
  destruct (mask1 F) as [|i0 [|i1 l]] eqn:E1; try (pose proof len1 as Q; rewrite E1 in Q; cbn [List.length] in Q; lia).
  pose proof len1 as Q1. rewrite E1 in Q1.
  set (m := i0 :: i1 :: l) in *.
  assert (B : for_ m (fun k s => let '(kk, acc) := s in
              bind (pick v [0; 0; kk]) (fun col => bind (write (nbeads F) col [i0; i0; k] acc) (fun acc => Val (Datatypes.S kk, acc)))) (0, fun _ : list nat => 0%R)
            = IndexError \/ exists s', for_ m (fun k s => let '(kk, acc) := s in
              bind (pick v [0; 0; kk]) (fun col => bind (write (nbeads F) col [i0; i0; k] acc) (fun acc => Val (Datatypes.S kk, acc)))) (0, fun _ : list nat => 0%R) = Val (n1, s')).
  { right. match goal with |- exists s', for_ m ?b _ = _ => destruct (for_count b m 0 (fun _ => 0%R) n1) as (s' & Q) end.
    - intros x k s Hk. cbn beta iota. destruct (col_assignable v [0; 0; k] P [n1; n1; n1] S) as (col & Ec & A); [now left | easy | |].
      + cbn [in_range]. rewrite !(proj2 (Nat.ltb_lt _ _)) by lia. easy.
      + rewrite Ec. cbn [bind]. unfold write. rewrite HP, A. cbn [bind]. eauto.
    - rewrite Q1. lia.
    - rewrite Q1 in Q. eauto. }
  unfold m at 1. cbn [for_]. unfold m at 1. cbn [for_].
  destruct B as [B|(s' & B)]; rewrite B; cbn [bind]; [easy|].
  unfold m at 1. cbn [for_]. unfold pick at 1. rewrite S. cbn [in_range]. rewrite (proj2 (Nat.ltb_ge n1 n1)) by lia. rewrite !andb_false_r. easy.
Qed.

(** ** What the optimisers do with it *)
(** The LBFGS optimiser cannot write its arrays back. *)
Theorem lbfgs_fixed_fails ql gl d : (exists c, touched dof c) -> lbfgs_store F ql gl d = AttributeError.
Proof. intros H. unfold lbfgs_store. now rewrite fix_full_3. Qed.
(** A Hessian computed again has the rows and columns of all coordinates: it is refused. *)
Theorem recompute_fixed_fails h : shape h = [3 * N; 3 * N * P] -> 0 < P -> (exists c, touched dof c) -> (exists c, c < 3 * N /\ ~ touched dof c) ->
  store_hessian F h = ValueError.
Proof.
  intros S HPp (c0 & H0) (c1 & H1 & H1'). unfold store_hessian, get_full_vector.
  assert (Hf : nothing_fixed F = false). { destruct (nothing_fixed F) eqn:E; [|easy]. apply nothing_spec with (c := c0) in E. easy. }
  rewrite Hf. cbn [orb Z.eqb]. unfold full2.
  assert (Hin : In c1 (mask1 F)) by (rewrite m1_In, fixedb_false; easy).
  destruct (mask1 F) as [|i l] eqn:E1; [easy|]. cbn [for_]. unfold row. rewrite S. rewrite (proj2 (Nat.ltb_lt 0 (3 * N))) by lia. cbn [bind].
  unfold assignable. cbn [shape rev app bc]. rewrite len2.
  assert (Lt : fix_natoms F < N).
  { unfold fix_natoms. rewrite HN. unfold nothing_fixed in Hf. destruct (fixatoms F) as [|a fl] eqn:Ef; [easy|]. cbn [List.length]. lia. }
  unfold n1. rewrite (proj2 (Nat.eqb_neq _ _)) by nia. rewrite (proj2 (Nat.eqb_neq _ 1)) by nia. easy.
Qed.
(** Without fixed atoms the same arrays are stored as they are. *)
Theorem free_stores v t : (forall c, ~ touched dof c) -> get_full_vector F v t = Val v /\ get_active_vector F v t = Val v.
Proof. intros H. apply nothing_spec in H. unfold get_full_vector, get_active_vector. now rewrite H. Qed.
(** A Hessian updated by Powell's formula has the shape of the active one and can be stored. *)
Theorem powell_stores h : shape h = [n1; P * n1] -> exists w, store_hessian F h = Val w.
Proof. intros S. destruct (fix_full_active h 2) as (w & a & E & _); [now right|]. now exists w. Qed.
End Fixed.

(** ** Coordinates that are asked to be fixed *)
(** Whole atoms: exactly the coordinates of the list are taken out. *)
Theorem fix_whole_atoms_partial N P dof F : fix_init N P dof = Val F -> (forall d c, In d dof -> c / 3 = d / 3 -> In c dof) ->
  forall c, In c (mask1 F) <-> c < 3 * N /\ ~ In c dof.
Proof.
  intros HF Hw c. destruct (fix_masks N P dof F HF) as (_ & H & _). rewrite H. unfold touched. split.
  - intros (Hc & Hn). split; [easy|]. intros Hin. apply Hn. now exists c.
  - intros (Hc & Hn). split; [easy|]. intros (d & Hd & E). apply Hn. now apply (Hw d).
Qed.
(** Three coordinates of three atoms: all nine coordinates are frozen. *)
Theorem fix_dofs_refuted : exists N P dof F c, fix_init N P dof = Val F /\ c < 3 * N /\ ~ In c dof /\ ~ In c (mask1 F).
Proof.
  exists 4, 2, [0; 4; 8], (Fixing 4 2 [0; 1; 2] [3] [9; 10; 11] [9; 10; 11; 21; 22; 23]), 1.
  split; [reflexivity|]. split; [lia|]. cbn. split; intuition lia.
Qed.
(** Numbers of coordinates that are not multiples of three end the run. *)
Theorem fix_count_stop N P dof : List.length dof mod 3 <> 0 -> fix_init N P dof = Stop.
Proof. intros H. unfold fix_init. now rewrite (proj2 (Nat.eqb_neq _ _) H). Qed.
Theorem fix_round_trip_refuted : exists N P dof F v a, fix_init N P dof = Val F /\ get_active_vector F v 5 = Val a /\ get_full_vector F a 5 = IndexError /\
  exists v' a', get_active_vector F v' 3 = Val a' /\ get_full_vector F a' 3 = AttributeError.
Proof.
  pose (F := Fixing 2 2 [0] [1] [3; 4; 5] [3; 4; 5; 9; 10; 11]).
  assert (HF : fix_init 2 2 [0; 1; 2] = Val F) by reflexivity.
  exists 2, 2, [0; 1; 2], F, (Arr [2; 6; 6] (fun _ => 0%R)). eexists. split; [easy|]. split; [reflexivity|]. split.
  - apply (fix_full_5 2 2 [0; 1; 2] F HF); [reflexivity | exists 0; now exists 0; split; [left|] | ].
    exists 3. split; [lia|]. intros (d & Hd & E). cbn in Hd. destruct Hd as [<-|[<-|[<-|[]]]]; cbn in E; discriminate.
  - exists (Arr [5; 12] (fun _ => 0%R)). eexists. split; reflexivity.
Qed.

(** ** Types of the arrays *)
(** Documented at lines 399-408 of instools.py. *)
Definition documented (key : string) : option Z :=
  match find (fun p => String.eqb (fst p) key)
    [("old_x", 1%Z); ("old_f", 1%Z); ("d", 1%Z); ("hessian", 2%Z); ("qlist", 3%Z); ("glist", 3%Z); ("fric_hessian", 4%Z); ("eta0", 5%Z);
     ("old_u", (-1)%Z); ("big_step", (-1)%Z); ("delta", (-1)%Z); ("energy_shift", (-1)%Z); ("initial_hessian", (-1)%Z)]%string with
  | Some (_, t) => Some t | None => None end.
Theorem array_type_refuted : exists key t, documented key = Some t /\ array_type key = Val 2%Z /\ t <> 2%Z.
Proof. exists "qlist"%string, 3%Z. now repeat split. Qed.
(** The type is the documented one for the nine keys that are tested before, and for the Hessian; every other
    key, known or not, is taken for a Hessian: the error of line 389 is never raised. *)
Theorem array_type_partial key : (exists t, array_type key = Val t) /\
  ((exists t, documented key = Some t /\ array_type key = Val t) \/ array_type key = Val 2%Z).
Proof.
  unfold array_type, documented. cbn [find fst].
  rewrite !(String.eqb_sym _ key).
  repeat match goal with |- context [String.eqb key ?s] => destruct (String.eqb_spec key s) as [->|_]; [cbn; split; eauto 6 | cbn [orb]] end.
  cbn; split; eauto.
Qed.
Theorem array_type_keys key t : documented key = Some t -> (t < 3)%Z -> array_type key = Val t.
Proof.
  unfold array_type, documented. cbn [find fst].
  rewrite !(String.eqb_sym _ key).
  repeat match goal with |- context [String.eqb key ?s] => destruct (String.eqb_spec key s) as [->|_]; [intros H; injection H as <-; intros L; first [reflexivity | lia] | cbn [orb]] end.
  discriminate.
Qed.
(** Lists of corrections reduced as if they were Hessians: an error, or the rows of the active coordinates. *)
Theorem lists_reduced N P dof F c v : fix_init N P dof = Val F -> shape v = [c; 3 * N * P] -> (exists c, touched dof c) ->
  array_type "qlist" = Val 2%Z /\
  ((exists i, In i (mask1 F) /\ c <= i) -> get_active_vector F v 2 = IndexError) /\
  (forall a, get_active_vector F v 2 = Val a -> shape a = [3 * fix_natoms F; P * (3 * fix_natoms F)]).
Proof.
  intros HF S (c0 & H0). split; [reflexivity|].
  assert (Hf : nothing_fixed F = false). { destruct (nothing_fixed F) eqn:E; [|easy]. apply (nothing_spec N P dof F HF) with (c := c0) in E. easy. }
  destruct (fix_masks N P dof F HF) as (_ & _ & _ & _ & _ & _ & _ & L1 & L2).
  unfold get_active_vector. rewrite Hf. cbn [orb Z.eqb]. split.
  - intros (i & Hi & Hc). unfold take. rewrite S. cbn [nth_error]. replace (forallb (fun i => i <? c) (mask1 F)) with false; [easy|].
    symmetry. apply not_true_iff_false. rewrite forallb_forall. intros H. specialize (H i Hi). apply Nat.ltb_lt in H. lia.
  - intros a. unfold take. rewrite S. cbn [nth_error]. destruct (forallb (fun i => i <? c) (mask1 F)); [|cbn [bind]; discriminate]. cbn [bind shape set_nth nth_error].
    destruct (forallb _ (mask2 F)); [|easy]. intros [= <-]. cbn [shape]. now rewrite L1, L2.
Qed.

(** ** A case: two atoms, three beads, the first atom fixed *)
Example fixed_case : fix_init 2 3 [0; 1; 2] = Val (Fixing 2 3 [0] [1] [3; 4; 5] [3; 4; 5; 9; 10; 11; 15; 16; 17]).
Proof. reflexivity. Qed.
Example fixed_case_touched : touched [0; 1; 2] 1 /\ ~ touched [0; 1; 2] 4.
Proof.
  split; [now exists 0; split; [left|]|]. intros (d & Hd & E). cbn in Hd. destruct Hd as [<-|[<-|[<-|[]]]]; cbn in E; discriminate.
Qed.
Example fixed_case_round_trip : exists a w, 
  get_active_vector (Fixing 2 3 [0] [1] [3; 4; 5] [3; 4; 5; 9; 10; 11; 15; 16; 17]) (Arr [3; 6] (fun idx => match idx with [b; c] => INR (10 * b + c) | _ => 0%R end)) 1 = Val a /\
  get_full_vector (Fixing 2 3 [0] [1] [3; 4; 5] [3; 4; 5; 9; 10; 11; 15; 16; 17]) a 1 = Val w /\ at_ w [2; 4] = INR 24 /\ at_ w [2; 1] = 0%R.
Proof. eexists. eexists. split; [reflexivity|]. split; [reflexivity|]. split; reflexivity. Qed.
Example fixed_case_five : get_full_vector (Fixing 2 3 [0] [1] [3; 4; 5] [3; 4; 5; 9; 10; 11; 15; 16; 17]) (Arr [3; 3; 3] (fun _ => 1%R)) 5 = IndexError.
Proof. reflexivity. Qed.
Example fixed_case_lists : get_active_vector (Fixing 2 3 [0] [1] [3; 4; 5] [3; 4; 5; 9; 10; 11; 15; 16; 17]) (Arr [5; 18] (fun _ => 1%R)) 2 = IndexError.
Proof. reflexivity. Qed.

Print Assumptions fix_masks.
Print Assumptions fix_active_1.
Print Assumptions fix_active_2.
Print Assumptions fix_round_trip_1.
Print Assumptions fix_round_trip_2.
Print Assumptions fix_full_active.
Print Assumptions fix_full_3.
Print Assumptions fix_full_4.
Print Assumptions fix_full_5.
Print Assumptions lbfgs_fixed_fails.
Print Assumptions recompute_fixed_fails.
Print Assumptions free_stores.
Print Assumptions powell_stores.
Print Assumptions fix_whole_atoms_partial.
Print Assumptions fix_dofs_refuted.
Print Assumptions fix_count_stop.
Print Assumptions fix_round_trip_refuted.
Print Assumptions array_type_refuted.
Print Assumptions array_type_partial.
Print Assumptions lists_reduced.
