(* Lemmas about the MPI interface *)
From Coq Require Import String List Arith ZArith Bool Lia Permutation Sorted.
From Verif Require Import WireModel WireSpec WireProofs MpiModel.
Import ListNotations.
Local Open Scope nat_scope.

(* ---------------- groups of ranks ---------------- *)

Lemma NoDup_concat_map {A B} (f : A -> list B) l :
  NoDup l -> (forall a, In a l -> NoDup (f a)) ->
  (forall a a' x, In a l -> In a' l -> In x (f a) -> In x (f a') -> a = a') ->
  NoDup (concat (map f l)).
Proof.
  induction l as [|a l IH]; intros Hn Hf Hd; cbn; [constructor|].
  inversion Hn; subst.
  assert (G : forall l1 l2 : list B, NoDup l1 -> NoDup l2 -> (forall x, In x l1 -> ~ In x l2) -> NoDup (l1 ++ l2)).
  { clear. induction l1 as [|x l1 IH]; intros l2 H1 H2 H; cbn; [easy|].
    inversion H1; subst. constructor.
    - rewrite in_app_iff. intros [K|K]; [easy|]. apply (H x); cbn; auto.
    - apply IH; auto. intros y Hy. apply H. cbn; auto. }
  apply G.
  - apply Hf. cbn; auto.
  - apply IH; auto.
    + intros b Hb. apply Hf. cbn; auto.
    + intros b b' x Hb Hb'. apply Hd; cbn; auto.
  - intros x Hx K. apply in_concat in K. destruct K as (c & Hc & Hxc).
    apply in_map_iff in Hc. destruct Hc as (b & <- & Hb).
    assert (a = b) by (apply (Hd a b x); cbn; auto). now subst.
Qed.

Section Groups.
Variable L : launch.
Variable size : nat.
Notation group := (group L size). Notation is_root := (is_root L size). Notation hellos := (hellos L size).

Lemma in_group x r : In x (group r) <-> (1 <= x < size /\ id_of L x = id_of L r /\ colour L x = colour L r).
Proof.
  unfold MpiModel.group. rewrite filter_In, in_seq, andb_true_iff, !Nat.eqb_eq. intuition lia.
Qed.
Lemma group_same x r : In x (group r) -> group x = group r.
Proof.
  rewrite in_group. intros (_ & E1 & E2). unfold MpiModel.group. rewrite E1, E2. easy.
Qed.
Lemma group_own r : 1 <= r < size -> In r (group r).
Proof. intros H. now apply in_group. Qed.
Lemma group_nodup r : NoDup (group r).
Proof. apply NoDup_filter, seq_NoDup. Qed.

Lemma root_head r : is_root r = true <-> exists l, group r = r :: l.
Proof.
  unfold MpiModel.is_root. destruct (group r) as [|x l] eqn:E.
  - split; [easy|intros (l & K); easy].
  - rewrite Nat.eqb_eq. split; [intros ->; now exists l|intros (l' & K); congruence].
Qed.

Lemma in_hellos m : In m hellos <->
  exists r, 1 <= r < size /\ is_root r = true /\ m = Hello r (group r) (name_of L r).
Proof.
  unfold MpiModel.hellos. rewrite in_map_iff. split.
  - intros (r & <- & H). apply filter_In in H. rewrite in_seq in H. exists r. intuition lia.
  - intros (r & H & H' & ->). exists r. split; [easy|]. apply filter_In. rewrite in_seq. intuition lia.
Qed.

Lemma hellos_unique m m' x : In m hellos -> In m' hellos -> In x (members m) -> In x (members m') -> m = m'.
Proof.
  rewrite !in_hellos. intros (r & _ & R & ->) (r' & _ & R' & ->). cbn. intros Hx Hx'.
  apply group_same in Hx. apply group_same in Hx'.
  apply root_head in R. apply root_head in R'. destruct R as (l & E), R' as (l' & E').
  assert (r = r') by congruence. now subst.
Qed.

Lemma hellos_cover x : 1 <= x < size -> exists m, In m hellos /\ In x (members m).
Proof.
  intros Hx. pose proof (group_own x Hx) as G.
  destruct (group x) as [|r l] eqn:E; [easy|].
  assert (Hr : In r (group x)) by (rewrite E; cbn; auto).
  pose proof (group_same _ _ Hr) as Er. apply in_group in Hr.
  exists (Hello r (group r) (name_of L r)). split.
  - apply in_hellos. exists r. split; [tauto|]. split; [|easy]. apply root_head. exists l. congruence.
  - cbn. rewrite Er, E. exact G.
Qed.

Lemma hellos_range m x : In m hellos -> In x (members m) -> 1 <= x < size.
Proof. rewrite in_hellos. intros (r & _ & _ & ->). cbn. rewrite in_group. tauto. Qed.

Lemma hellos_nodup : NoDup (concat (map members hellos)).
Proof.
  apply NoDup_concat_map.
  - unfold MpiModel.hellos. apply FinFun.Injective_map_NoDup.
    + intros a b K. now injection K.
    + apply NoDup_filter, seq_NoDup.
  - intros m. rewrite in_hellos. intros (r & _ & _ & ->). apply group_nodup.
  - intros a b x. apply hellos_unique.
Qed.

Lemma hellos_partition : Permutation (concat (map members hellos)) (seq 1 (size - 1)).
Proof.
  apply NoDup_Permutation; [apply hellos_nodup|apply seq_NoDup|].
  intros x. rewrite in_concat, in_seq. split.
  - intros (c & Hc & Hx). apply in_map_iff in Hc. destruct Hc as (m & <- & Hm).
    pose proof (hellos_range _ _ Hm Hx). lia.
  - intros H. destruct (hellos_cover x) as (m & Hm & Hx); [lia|].
    exists (members m). split; [now apply in_map|easy].
Qed.

Lemma hellos_root m : In m hellos -> In (root m) (members m).
Proof.
  rewrite in_hellos. intros (r & H & _ & ->). cbn. now apply group_own.
Qed.
End Groups.

(* ---------------- handshake ---------------- *)

Lemma mem_In x l : mem x l = true <-> In x l.
Proof.
  unfold mem. rewrite existsb_exists. split.
  - intros (y & H & E). apply Nat.eqb_eq in E. now subst.
  - intros H. exists x. split; [easy|apply Nat.eqb_refl].
Qed.
Lemma same_iff a b : same a b = true <-> (forall x, In x a <-> In x b).
Proof.
  unfold same. rewrite andb_true_iff, !forallb_forall. split.
  - intros (H1 & H2) x. split; intros K; [apply mem_In, H1, K|apply mem_In, H2, K].
  - intros H. split; intros x K; apply mem_In, H, K.
Qed.

Definition gather (ms : list hello) (b : buckets) : buckets := fold_left (fun b m => push (tag m) (root m) b) ms b.

Lemma handshake_all size ms : forall covered b,
  (forall m, In m ms -> members m <> []) -> NoDup (covered ++ concat (map members ms)) ->
  (forall x, In x (covered ++ concat (map members ms)) <-> In x (seq 1 (size - 1))) ->
  handshake size ms covered b = Some (gather ms b, []).
Proof.
  induction ms as [|m ms IH]; intros covered b Hne Hnd Hcov.
  - cbn -[same seq]. cbn in Hcov. rewrite app_nil_r in Hcov. now rewrite (proj2 (same_iff _ _) Hcov).
  - cbn -[same seq].
    destruct (same covered (seq 1 (size - 1))) eqn:E.
    + exfalso. rewrite same_iff in E.
      assert (K : members m <> []) by (apply Hne; cbn; auto).
      destruct (members m) as [|x l] eqn:Em; [easy|].
      assert (Hx : In x covered).
      { apply E, Hcov. rewrite in_app_iff. right. cbn. rewrite Em. cbn. auto. }
      cbn in Hnd. rewrite Em in Hnd. cbn in Hnd. apply NoDup_remove_2 in Hnd. apply Hnd. rewrite in_app_iff. auto.
    + apply IH.
      * intros m' H. apply Hne. cbn; auto.
      * rewrite <- app_assoc. exact Hnd.
      * rewrite <- app_assoc. exact Hcov.
Qed.

Lemma bget_push n k r b : bget n (push k r b) = bget n b ++ (if String.eqb k n then [r] else []).
Proof.
  induction b as [|[n' rs] b IH]; cbn.
  - destruct (String.eqb k n); easy.
  - destruct (String.eqb_spec n' k) as [->|E]; cbn.
    + destruct (String.eqb k n); [easy|now rewrite app_nil_r].
    + destruct (String.eqb_spec n' n) as [->|E'].
      * destruct (String.eqb_spec k n) as [->|]; [easy|now rewrite app_nil_r].
      * exact IH.
Qed.
Lemma bget_gather n ms : forall b, bget n (gather ms b) = bget n b ++ map root (filter (fun m => String.eqb (tag m) n) ms).
Proof.
  induction ms as [|m ms IH]; intros b; cbn; [now rewrite app_nil_r|].
  unfold gather in IH. rewrite IH, bget_push, <- app_assoc. f_equal. destruct (String.eqb (tag m) n); easy.
Qed.

Lemma push_keys n k r b : In n (map fst (push k r b)) <-> In n (map fst b) \/ n = k.
Proof.
  induction b as [|[n' rs] b IH]; cbn; [intuition|].
  destruct (String.eqb_spec n' k) as [->|E]; cbn; [intuition|]. rewrite IH. intuition.
Qed.
Lemma gather_keys n ms : forall b, In n (map fst (gather ms b)) <-> In n (map fst b) \/ exists m, In m ms /\ tag m = n.
Proof.
  induction ms as [|m ms IH]; intros b; cbn.
  - split; [auto|intros [H|(m & [] & _)]; easy].
  - unfold gather in IH. rewrite IH, push_keys. split.
    + intros [[H|H]|(m' & H & E)]; [auto|right; exists m; auto|right; exists m'; auto].
    + intros [H|(m' & [->|H] & E)]; [auto|auto|right; exists m'; auto].
Qed.
Lemma push_nodup k r b : NoDup (map fst b) -> NoDup (map fst (push k r b)).
Proof.
  induction b as [|[n' rs] b IH]; cbn; intros H; [repeat constructor; easy|].
  inversion H; subst. destruct (String.eqb_spec n' k) as [->|E]; cbn; [easy|].
  constructor; [|now apply IH]. rewrite push_keys. intros [K|K]; easy.
Qed.
Lemma gather_nodup ms : forall b, NoDup (map fst b) -> NoDup (map fst (gather ms b)).
Proof. induction ms as [|m ms IH]; intros b H; cbn; [easy|]. apply IH. now apply push_nodup. Qed.

Lemma push_concat k r b : Permutation (concat (map snd (push k r b))) (r :: concat (map snd b)).
Proof.
  induction b as [|[n rs] b IH]; cbn; [auto|].
  destruct (String.eqb n k); cbn.
  - rewrite <- app_assoc. cbn. symmetry. apply Permutation_middle.
  - rewrite IH. symmetry. apply Permutation_middle.
Qed.
Lemma gather_concat ms : forall b, Permutation (concat (map snd (gather ms b))) (map root ms ++ concat (map snd b)).
Proof.
  induction ms as [|m ms IH]; intros b; cbn; [auto|].
  unfold gather in IH. rewrite IH, push_concat. symmetry. apply Permutation_middle.
Qed.

(* ---------------- sorting ---------------- *)

Lemma insert_comm x y l : insert x (insert y l) = insert y (insert x l).
Proof.
  induction l as [|z l IH]; cbn.
  - destruct (Nat.leb_spec x y), (Nat.leb_spec y x); try easy; try lia. replace y with x by lia. easy.
  - destruct (Nat.leb_spec y z), (Nat.leb_spec x z); cbn;
      repeat match goal with |- context [?a <=? ?b] => destruct (Nat.leb_spec a b) end; try easy; try lia.
    + replace y with x by lia. easy.
    + now rewrite IH.
Qed.
Lemma sort_Permutation l l' : Permutation l l' -> sort l = sort l'.
Proof.
  induction 1; cbn; [easy|now rewrite IHPermutation|apply insert_comm|congruence].
Qed.
Lemma insert_perm x l : Permutation (insert x l) (x :: l).
Proof.
  induction l as [|y l IH]; cbn; [easy|]. destruct (x <=? y); [easy|]. rewrite IH. apply perm_swap.
Qed.
Lemma sort_perm l : Permutation (sort l) l.
Proof. induction l as [|x l IH]; cbn; [easy|]. rewrite insert_perm. now constructor. Qed.
Lemma insert_sorted x l : StronglySorted le l -> StronglySorted le (insert x l).
Proof.
  induction 1 as [|y l H IH Hy]; cbn; [repeat constructor|].
  destruct (Nat.leb_spec x y).
  - constructor; [now constructor|]. constructor; [easy|]. rewrite Forall_forall in *. intros z Hz. specialize (Hy z Hz). lia.
  - constructor; [easy|]. rewrite Forall_forall in *. intros z Hz.
    apply (Permutation_in _ (insert_perm x l)) in Hz. destruct Hz as [<-|Hz]; [lia|auto].
Qed.
Lemma sort_sorted l : StronglySorted le (sort l).
Proof. induction l; cbn; [constructor|now apply insert_sorted]. Qed.
Lemma sort_in x l : In x (sort l) <-> In x l.
Proof. split; apply Permutation_in; [apply sort_perm|symmetry; apply sort_perm]. Qed.
Lemma sort_nil l : sort l = [] <-> l = [].
Proof.
  split; [|now intros ->]. intros E. pose proof (sort_perm l) as P. rewrite E in P. now apply Permutation_nil.
Qed.

Lemma bget_sorted n b : bget n (map (fun e => (fst e, sort (snd e))) b) = sort (bget n b).
Proof.
  induction b as [|[k rs] b IH]; cbn; [easy|]. destruct (String.eqb k n); easy.
Qed.
Lemma isname_In n l : isname n l = true <-> In n l.
Proof.
  unfold isname. rewrite existsb_exists. split.
  - intros (y & H & E). apply String.eqb_eq in E. now subst.
  - intros H. exists n. split; [easy|apply String.eqb_refl].
Qed.

Lemma permutation_filter {A} (p : A -> bool) l l' : Permutation l l' -> Permutation (filter p l) (filter p l').
Proof.
  induction 1; cbn; [easy| | |].
  - destruct (p x); [now constructor|easy].
  - destruct (p x), (p y); try easy. apply perm_swap.
  - now rewrite IHPermutation1.
Qed.

(* the dictionary the handshake builds *)
Definition proper (size : nat) (ms : list hello) : Prop :=
  (forall m, In m ms -> In (root m) (members m)) /\ Permutation (concat (map members ms)) (seq 1 (size - 1)).

Lemma proper_handshake size ms : proper size ms -> handshake size ms [] [] = Some (gather ms [], []).
Proof.
  intros (H1 & H2). apply handshake_all.
  - intros m Hm. specialize (H1 m Hm). intros E. now rewrite E in H1.
  - cbn. eapply Permutation_NoDup; [symmetry; exact H2|apply seq_NoDup].
  - intros x. cbn [app]. split; apply Permutation_in; [exact H2|symmetry; exact H2].
Qed.
Lemma in_members_concat x m ms : In m ms -> In x (members m) -> In x (concat (map members ms)).
Proof. intros Hm Hx. apply in_concat. exists (members m). split; [now apply in_map|easy]. Qed.
Lemma proper_unique size ms m m' : proper size ms -> In m ms -> In m' ms -> root m = root m' -> m = m'.
Proof.
  intros (H1 & H2) Hm Hm' E.
  assert (N : NoDup (concat (map members ms))) by (eapply Permutation_NoDup; [symmetry; exact H2|apply seq_NoDup]).
  assert (R : In (root m) (members m) /\ In (root m) (members m')) by (split; [auto|rewrite E; auto]).
  clear H1 H2 E. destruct R as (R1 & R2). generalize dependent (root m). intros x R1 R2.
  induction ms as [|a ms IH]; [easy|]. cbn in N.
  assert (D : forall z, In z (members a) -> ~ In z (concat (map members ms))).
  { intros z Hz K. revert N. apply in_split in Hz. destruct Hz as (l1 & l2 & ->). rewrite <- app_assoc. cbn.
    intros N. apply NoDup_remove_2 in N. apply N. rewrite !in_app_iff. auto. }
  assert (N' : NoDup (concat (map members ms))).
  { clear - N. induction (members a) as [|z l IH]; [easy|]. inversion N; subst. auto. }
  destruct Hm as [->|Hm], Hm' as [->|Hm']; [easy| | |auto].
  - exfalso. apply (D x); [easy|]. eapply in_members_concat; eauto.
  - exfalso. apply (D x); [easy|]. eapply in_members_concat; eauto.
Qed.

Lemma in_bget_gather r n ms : In r (bget n (gather ms [])) <-> exists m, In m ms /\ tag m = n /\ root m = r.
Proof.
  rewrite bget_gather. cbn. rewrite in_map_iff. split.
  - intros (m & E & H). apply filter_In in H. destruct H as (H & K). apply String.eqb_eq in K. eauto.
  - intros (m & H & K & E). exists m. split; [easy|]. apply filter_In. split; [easy|]. now apply String.eqb_eq.
Qed.

(* ---------------- packing ---------------- *)

Section Data.
Context {F : Type}.
Notation struct := (MpiModel.struct F). Notation result := (MpiModel.result F).
Definition seen (s : struct) : list F * list F := (h s, pos s).

Lemma map_seq_nth {A B} (f : nat -> B) (g : A -> B) l : forall k,
  (forall i x, nth_error l i = Some x -> f (k + i) = g x) -> map f (seq k (length l)) = map g l.
Proof.
  induction l as [|a l IH]; intros k H; cbn; [easy|]. f_equal.
  - rewrite <- (H 0 a eq_refl). f_equal. lia.
  - apply IH. intros i x E. rewrite <- (H (S i) x E). f_equal. lia.
Qed.

Lemma skipn_blocks k (bs : list (list F)) : (forall b, In b bs -> length b = k) -> forall i,
  skipn (i * k) (concat bs) = concat (skipn i bs).
Proof.
  induction bs as [|b bs IH]; intros H i.
  - cbn. now rewrite !skipn_nil.
  - destruct i; [easy|]. cbn [skipn]. rewrite <- IH by (intros c Hc; apply H; cbn; auto).
    cbn [concat]. rewrite Nat.mul_succ_l, Nat.add_comm, skipn_plus. f_equal.
    rewrite <- (H b) by (cbn; auto). apply skipn_exact. easy.
Qed.

Lemma slice_block k (bs : list (list F)) i x a b : (forall b, In b bs -> length b = k) -> nth_error bs i = Some x ->
  a <= b <= k -> slice (i * k + a) (i * k + b) (concat bs) = slice a b x.
Proof.
  intros H E Hab. unfold slice. rewrite skipn_plus, skipn_blocks by easy.
  replace (i * k + b - (i * k + a)) with (b - a) by lia.
  destruct (nth_error_split _ _ E) as (l1 & l2 & -> & <-).
  rewrite (skipn_exact l1 (x :: l2)) by easy.
  assert (Hx : length x = k) by (apply H; rewrite in_app_iff; cbn; auto).
  cbn [concat]. rewrite skipn_app, firstn_app, skipn_length.
  replace (b - a - (length x - a)) with 0 by lia. cbn. now rewrite app_nil_r.
Qed.

Lemma nth_block k (bs : list (list F)) i x : (forall b, In b bs -> length b = k) -> nth_error bs i = Some x ->
  0 < k -> nth_error (concat bs) (i * k) = nth_error x 0.
Proof.
  intros H E Hk.
  destruct (nth_error_split _ _ E) as (l1 & l2 & -> & <-).
  assert (Hx : length x = k) by (apply H; rewrite in_app_iff; cbn; auto).
  assert (G : skipn (length l1 * k) (concat (l1 ++ x :: l2)) = x ++ concat l2).
  { rewrite skipn_blocks by easy. rewrite (skipn_exact l1 (x :: l2)) by easy. easy. }
  assert (N : forall (l : list F) n, nth_error l n = nth_error (skipn n l) 0).
  { clear. induction l as [|a l IH]; intros [|n]; try easy. apply IH. }
  rewrite N, G. destruct x; [cbn in Hx; lia|easy].
Qed.

Lemma pack_unpack_work batch nat n body : pack_work batch = Some (nat, n, body) ->
  n = length batch /\ unpack_work nat n body = map seen batch /\
  forall s, In s batch -> length (pos s) = 3 * nat.
Proof.
  unfold pack_work. destruct batch as [|s0 batch]; [easy|].
  remember (s0 :: batch) as l. clear Heql.
  remember (length (pos s0) / 3) as m. clear Heqm.
  destruct (forallb _ l) eqn:E; [|easy]. intros K. inversion K; subst. clear K.
  rewrite forallb_forall in E.
  assert (E' : forall s, In s l -> length (h s) = 9 /\ length (ih s) = 9 /\ length (pos s) = 3 * nat).
  { intros s Hs. specialize (E s Hs). unfold fits in E. rewrite !andb_true_iff, !Nat.eqb_eq in E. tauto. }
  split; [easy|]. split.
  - unfold unpack_work. apply (map_seq_nth _ seen). intros i s Es. unfold seen.
    assert (Hs : In s l) by (eapply nth_error_In; eauto). destruct (E' s Hs) as (L1 & L2 & L3).
    assert (Hb : forall b, In b (map (fun s => h s ++ ih s ++ pos s) l) -> length b = 18 + 3 * nat).
    { intros b Hb. apply in_map_iff in Hb. destruct Hb as (t & <- & Ht). destruct (E' t Ht) as (K1 & K2 & K3).
      rewrite !app_length. lia. }
    assert (Hn : nth_error (map (fun s => h s ++ ih s ++ pos s) l) i = Some (h s ++ ih s ++ pos s)).
    { now rewrite (map_nth_error _ _ _ Es). }
    rewrite Nat.add_0_l. f_equal.
    + rewrite <- (Nat.add_0_r (i * (18 + 3 * nat))) at 1.
      rewrite (slice_block _ _ _ _ _ _ Hb Hn) by lia. unfold slice. cbn [skipn Nat.sub].
      apply firstn_exact. easy.
    + rewrite (slice_block _ _ _ _ _ _ Hb Hn) by lia. unfold slice.
      rewrite app_assoc, (skipn_exact (h s ++ ih s)) by (rewrite app_length; lia).
      replace (18 + 3 * nat - 18) with (length (pos s)) by lia. apply firstn_all.
  - intros s Hs. now apply E'.
Qed.

Definition sendable (r : result) : Prop := unicode (extra r) /\ small (length (utf8 (extra r))).

Lemma unpack_results_pack nat all num : (forall r, In r all -> length (force r) = 3 * nat /\ length (vir r) = 9 /\ sendable r) ->
  num = concat (map (fun r => pot r :: force r ++ vir r) all) ->
  forall rs i, (forall j r, nth_error rs j = Some r -> nth_error all (i + j) = Some r) ->
  unpack_results (length rs) i nat num
    (concat (map (fun r => le4 (Z.of_nat (length (utf8 (extra r)))) ++ utf8 (extra r)) rs)) = Some rs.
Proof.
  intros H -> rs. induction rs as [|r rs IH]; intros i Hi; [easy|].
  assert (Er : nth_error all i = Some r) by (rewrite <- (Hi 0 r eq_refl); f_equal; lia).
  assert (Hr : In r all) by (eapply nth_error_In; eauto).
  destruct (H r Hr) as (L1 & L2 & U & Sm).
  assert (Hb : forall b, In b (map (fun r => pot r :: force r ++ vir r) all) -> length b = 1 + 3 * nat + 9).
  { intros b Hb. apply in_map_iff in Hb. destruct Hb as (t & <- & Ht). destruct (H t Ht) as (K1 & K2 & _).
    cbn. rewrite app_length. lia. }
  assert (Hn : nth_error (map (fun r => pot r :: force r ++ vir r) all) i = Some (pot r :: force r ++ vir r)).
  { now rewrite (map_nth_error _ _ _ Er). }
  cbn [length unpack_results].
  rewrite (nth_block _ _ _ _ Hb Hn) by lia. cbn [nth_error].
  set (st := 1 + 3 * nat + 9) in *.
  replace (i * st + 1 + 3 * nat) with (i * st + (1 + 3 * nat)) by lia.
  rewrite !(slice_block _ _ _ _ _ _ Hb Hn) by (unfold st; lia).
  assert (S1 : slice 1 (1 + 3 * nat) (pot r :: force r ++ vir r) = force r).
  { unfold slice. cbn [skipn]. apply firstn_exact. lia. }
  assert (S2 : slice (1 + 3 * nat) st (pot r :: force r ++ vir r) = vir r).
  { unfold slice. change (pot r :: force r ++ vir r) with ((pot r :: force r) ++ vir r).
    rewrite skipn_exact by (cbn; lia). replace (st - (1 + 3 * nat)) with (length (vir r)) by (unfold st; lia). apply firstn_all. }
  rewrite S1, S2, L2. cbn [Nat.eqb negb map concat].
  rewrite <- app_assoc, firstn_exact by apply le4_length. rewrite le4_length. cbn [Nat.eqb negb].
  rewrite (skipn_exact (le4 _)) by apply le4_length.
  rewrite int32_le4 by (unfold small in Sm; lia). rewrite Nat2Z.id.
  rewrite firstn_exact, skipn_exact by easy. rewrite decode_utf8_utf8 by easy.
  rewrite IH.
  - destruct (Nat.eqb_spec (length (utf8 (extra r))) 0) as [E|E].
    + rewrite <- (utf8_nil _ E). now destruct r.
    + now destruct r.
  - intros j t Et. rewrite <- (Hi (S j) t Et). f_equal. lia.
Qed.

Lemma pack_unpack_results nat rs num eb : pack_result nat rs = Some (num, eb) -> (forall r, In r rs -> sendable r) ->
  unpack_results (length rs) 0 nat num eb = Some rs.
Proof.
  unfold pack_result. destruct (forallb _ rs) eqn:E; [|easy]. intros K Hs. inversion K; subst. clear K.
  rewrite forallb_forall in E. eapply unpack_results_pack; [|reflexivity|easy].
  intros r Hr. specialize (E r Hr). unfold fits in E. rewrite andb_true_iff, !Nat.eqb_eq in E. now split; [|split; [|apply Hs]].
Qed.

(* ---------------- requests ---------------- *)

Notation request := (MpiModel.request F).
Lemma set_status_length (rs : list request) i s : length (set_status rs i s) = length rs.
Proof. revert i. induction rs as [|r rs IH]; intros [|i]; cbn; auto. Qed.
Lemma set_status_st (rs : list request) i s : map st (set_status rs i s) = map st rs.
Proof. revert i. induction rs as [|r rs IH]; intros [|i]; cbn; f_equal; auto. Qed.
Lemma set_status_other (rs : list request) i j s : i <> j -> nth_error (set_status rs i s) j = nth_error rs j.
Proof. revert i j. induction rs as [|r rs IH]; intros [|i] [|j] H; cbn; try easy; apply IH; lia. Qed.
Lemma set_status_same (rs : list request) i s q : nth_error rs i = Some q ->
  nth_error (set_status rs i s) i = Some (Request (st q) s).
Proof. revert i. induction rs as [|r rs IH]; intros [|i] H; cbn in *; try easy; [now inversion H|auto]. Qed.

Lemma structs_st (rs rs' : list request) ids : map st rs = map st rs' -> structs rs ids = structs rs' ids.
Proof.
  intros E. unfold structs. apply flat_map_ext. intros i.
  assert (G : option_map st (nth_error rs i) = option_map st (nth_error rs' i)) by (rewrite <- !nth_error_map; now rewrite E).
  destruct (nth_error rs i), (nth_error rs' i); cbn in G; congruence.
Qed.
Lemma structs_length (rs : list request) ids : (forall i, In i ids -> exists q, nth_error rs i = Some q) ->
  length (structs rs ids) = length ids.
Proof.
  intros H. induction ids as [|i ids IH]; cbn; [easy|].
  destruct (H i) as (q & ->); [cbn; auto|]. cbn. f_equal. apply IH. intros j Hj. apply H. cbn; auto.
Qed.
Lemma structs_nth (rs : list request) ids : (forall i, In i ids -> exists q, nth_error rs i = Some q) ->
  forall k i q, nth_error ids k = Some i -> nth_error rs i = Some q -> nth_error (structs rs ids) k = Some (st q).
Proof.
  intros H. induction ids as [|j ids IH]; intros k i q E1 E2; [destruct k; easy|].
  cbn. destruct (H j) as (q' & Ej); [cbn; auto|]. rewrite Ej. cbn.
  destruct k; cbn in *.
  - congruence.
  - eapply IH; eauto.
Qed.

Fixpoint mark (rs : list request) (ids : list nat) : list request :=
  match ids with nil => rs | i :: ids => mark (set_status rs i Running) ids end.
Lemma mark_fold ids : forall rs, fold_left (fun rs i => set_status rs i Running) ids rs = mark rs ids.
Proof. induction ids; intros; cbn; auto. Qed.
Lemma mark_st ids : forall rs, map st (mark rs ids) = map st rs.
Proof. induction ids; intros; cbn; [easy|]. rewrite IHids. apply set_status_st. Qed.
Lemma mark_length ids : forall rs, length (mark rs ids) = length rs.
Proof. induction ids; intros; cbn; [easy|]. rewrite IHids. apply set_status_length. Qed.
Lemma mark_out ids j : forall rs, ~ In j ids -> nth_error (mark rs ids) j = nth_error rs j.
Proof.
  induction ids as [|i ids IH]; intros rs H; cbn; [easy|]. rewrite IH by (cbn in H; tauto).
  apply set_status_other. cbn in H. tauto.
Qed.
Lemma mark_in ids j : forall rs q, In j ids -> nth_error rs j = Some q -> nth_error (mark rs ids) j = Some (Request (st q) Running).
Proof.
  induction ids as [|i ids IH]; intros rs q H E; [easy|]. cbn.
  destruct (Nat.eq_dec i j) as [->|N].
  - apply (set_status_same _ _ Running) in E.
    destruct (in_dec Nat.eq_dec j ids) as [K|K].
    + rewrite (IH _ _ K E). easy.
    + now rewrite mark_out.
  - destruct H as [H|H]; [easy|]. apply IH; [easy|]. now rewrite set_status_other.
Qed.

Variable eval : list F * list F -> result.
Variable shift : F -> F.
Notation deliver := (MpiModel.deliver F shift).
Definition shifted (v : result) : result := Result (shift (pot v)) (force v) (vir v) (extra v).

Lemma deliver_st ids : forall rs vs, map st (deliver rs ids vs) = map st rs.
Proof. induction ids as [|i ids IH]; intros rs [|v vs]; cbn; try easy. rewrite IH. apply set_status_st. Qed.
Lemma deliver_out ids j : forall rs vs, ~ In j ids -> nth_error (deliver rs ids vs) j = nth_error rs j.
Proof.
  induction ids as [|i ids IH]; intros rs [|v vs] H; cbn; try easy. rewrite IH by (cbn in H; tauto).
  apply set_status_other. cbn in H. tauto.
Qed.
Lemma deliver_in ids : forall rs vs k j v q, NoDup ids -> nth_error ids k = Some j -> nth_error vs k = Some v ->
  nth_error rs j = Some q -> nth_error (deliver rs ids vs) j = Some (Request (st q) (Done (shifted v))).
Proof.
  induction ids as [|i ids IH]; intros rs [|v0 vs] k j v q N E1 E2 E3; try (destruct k; easy).
  inversion N; subst. cbn. destruct k; cbn in E1, E2.
  - inversion E1; inversion E2; subst. rewrite deliver_out by easy. now apply set_status_same.
  - eapply IH; eauto. rewrite set_status_other; [easy|]. intros ->. apply H1. eapply nth_error_In; eauto.
Qed.

(* ---------------- the invariant ---------------- *)

Definition answer (s : struct) : result := shifted (eval (seen s)).
Definition ids_of (s : slot) : list nat := match work s with Some (ids, _) => ids | None => [] end.
Definition busy (sl : list slot) : list nat := flat_map ids_of sl.
Definition slot_ok (rs : list request) (w : nat -> channel F) (s : slot) : Prop :=
  match work s with
  | None => w (rank s) = Quiet
  | Some (ids, nat) =>
      ids <> [] /\ (forall i, In i ids -> exists q, nth_error rs i = Some q /\ status_of q = Running) /\
      exists n body, pack_work (structs rs ids) = Some (nat, n, body) /\
        (w (rank s) = Work nat n body \/
         exists num eb, pack_result nat (map eval (map seen (structs rs ids))) = Some (num, eb) /\ w (rank s) = Reply num eb)
  end.
Record inv (sl : list slot) (rs : list request) (w : nat -> channel F) : Prop := {
  i_ranks : NoDup (map rank sl);
  i_slots : forall s, In s sl -> slot_ok rs w s;
  i_busy : NoDup (busy sl);
  i_run : forall i q, nth_error rs i = Some q -> status_of q = Running -> In i (busy sl);
  i_done : forall i q r, nth_error rs i = Some q -> status_of q = Done r -> r = answer (st q);
}.

Lemma busy_app a b : busy (a ++ b) = busy a ++ busy b.
Proof. apply flat_map_app. Qed.
Lemma busy_in i sl : In i (busy sl) <-> exists s, In s sl /\ In i (ids_of s).
Proof. apply in_flat_map. Qed.

Lemma NoDup_app_inv {A} (a b : list A) : NoDup (a ++ b) -> NoDup a /\ NoDup b /\ (forall x, In x a -> ~ In x b).
Proof.
  induction a as [|x a IH]; cbn; intros H.
  - split; [constructor|]. split; [easy|]. easy.
  - inversion H; subst. destruct (IH H3) as (K1 & K2 & K3). rewrite in_app_iff in H2.
    split; [constructor; tauto|]. split; [easy|]. intros y [<-|Hy]; [tauto|auto].
Qed.
Lemma NoDup_app_intro {A} (a b : list A) : NoDup a -> NoDup b -> (forall x, In x a -> ~ In x b) -> NoDup (a ++ b).
Proof.
  induction a as [|x a IH]; cbn; intros H1 H2 H; [easy|]. inversion H1; subst.
  constructor; [rewrite in_app_iff; intros [K|K]; [easy|]; apply (H x); auto|]. apply IH; auto.
Qed.

Lemma other_rank pre s sl t : NoDup (map rank (pre ++ s :: sl)) -> In t (pre ++ sl) -> rank t <> rank s.
Proof.
  rewrite map_app. cbn. intros N H E. apply NoDup_remove_2 in N. apply N. rewrite <- map_app, <- E. now apply in_map.
Qed.
Lemma other_ids pre s sl t i : NoDup (busy (pre ++ s :: sl)) -> In t (pre ++ sl) -> In i (ids_of t) -> ~ In i (ids_of s).
Proof.
  rewrite busy_app. cbn. intros N H Hi K.
  apply NoDup_app_inv in N. destruct N as (_ & N & D).
  apply NoDup_app_inv in N. destruct N as (_ & _ & D').
  apply in_app_iff in H. destruct H as [H|H].
  - apply (D i); [apply busy_in; eauto|]. rewrite in_app_iff. auto.
  - apply (D' i K). apply busy_in. eauto.
Qed.

(* slot s becomes s' and nothing else changes *)
Lemma slot_ok_frame rs rs' (w w' : nat -> channel F) t : slot_ok rs w t -> map st rs' = map st rs -> w' (rank t) = w (rank t) ->
  (forall i, In i (ids_of t) -> nth_error rs' i = nth_error rs i) -> slot_ok rs' w' t.
Proof.
  unfold slot_ok, ids_of. intros H E1 E2 E3. destruct (work t) as [[ids nat]|]; [|congruence].
  rewrite (structs_st rs' rs ids E1), E2. destruct H as (H1 & H2 & H3). split; [easy|]. split; [|easy].
  intros i Hi. rewrite E3 by easy. auto.
Qed.

Hypothesis sound : forall a, sendable (eval a).

Lemma collect_inv sl : forall pre rs w sl' rs' w', inv (pre ++ sl) rs w ->
  collect F shift sl rs w = Some (sl', rs', w') ->
  inv (pre ++ sl') rs' w' /\ map rank sl' = map rank sl /\ map st rs' = map st rs.
Proof.
  induction sl as [|s sl IH]; intros pre rs w sl' rs' w' I E; cbn in E.
  - inversion E; subst. auto.
  - assert (Hs : slot_ok rs w s) by (apply (i_slots _ _ _ I); rewrite in_app_iff; cbn; auto).
    assert (Keep : forall sl1 rs1 w1, collect F shift sl rs w = Some (sl1, rs1, w1) ->
      inv (pre ++ s :: sl1) rs1 w1 /\ map rank (s :: sl1) = map rank (s :: sl) /\ map st rs1 = map st rs).
    { intros sl1 rs1 w1 E1. specialize (IH (pre ++ [s]) rs w sl1 rs1 w1).
      rewrite <- !app_assoc in IH. cbn in IH. destruct (IH I E1) as (I1 & R & S1). split; [easy|]. split; [cbn; congruence|easy]. }
    destruct (work s) as [[ids nat]|] eqn:Ew.
    2:{ destruct (collect F shift sl rs w) as [[[sl1 rs1] w1]|] eqn:E1; [|easy]. inversion E; subst. now apply Keep. }
    destruct (w (rank s)) as [| |num eb] eqn:Ewire.
    1,2: destruct (collect F shift sl rs w) as [[[sl1 rs1] w1]|] eqn:E1; [|easy]; inversion E; subst; now apply Keep.
    unfold slot_ok in Hs. rewrite Ew in Hs. destruct Hs as (Hne & Hrun & n & body & Hp & Hw).
    rewrite Ewire in Hw. destruct Hw as [Hw|(num' & eb' & Hr & Hw)]; [easy|]. inversion Hw; subst num' eb'. clear Hw.
    assert (Hlen : length (structs rs ids) = length ids).
    { apply structs_length. intros i Hi. destruct (Hrun i Hi) as (q & Hq & _). eauto. }
    assert (U : unpack_results (length ids) 0 nat num eb = Some (map eval (map seen (structs rs ids)))).
    { rewrite <- Hlen. rewrite <- (map_length seen), <- (map_length eval).
      apply pack_unpack_results with (1 := Hr). intros r K. apply in_map_iff in K. destruct K as (a & <- & _). apply sound. }
    rewrite U in E.
    set (vs := map eval (map seen (structs rs ids))) in *.
    assert (Nids : NoDup ids).
    { pose proof (i_busy _ _ _ I) as N. rewrite busy_app in N. cbn in N. apply NoDup_app_inv in N. destruct N as (_ & N & _).
      apply NoDup_app_inv in N. destruct N as (N & _). unfold ids_of in N. now rewrite Ew in N. }
    assert (Din : forall k i, nth_error ids k = Some i -> exists q, nth_error rs i = Some q /\
       nth_error (deliver rs ids vs) i = Some (Request (st q) (Done (answer (st q))))).
    { intros k i Ek. destruct (Hrun i) as (q & Hq & _); [eapply nth_error_In; eauto|]. exists q. split; [easy|].
      eapply deliver_in; eauto. unfold vs. rewrite map_map. apply (map_nth_error (fun x => eval (seen x))).
      eapply structs_nth; eauto. intros j Hj. destruct (Hrun j Hj) as (q' & Hq' & _). eauto. }
    assert (I' : inv (pre ++ Slot (rank s) None :: sl) (deliver rs ids vs) (set_wire w (rank s) Quiet)).
    { constructor.
      - pose proof (i_ranks _ _ _ I) as N. rewrite map_app in *. exact N.
      - intros t Ht. rewrite in_app_iff in Ht. cbn in Ht.
        assert (Ht' : t = Slot (rank s) None \/ In t (pre ++ sl)) by (rewrite in_app_iff; intuition). clear Ht.
        destruct Ht' as [->|Ht].
        + unfold slot_ok. cbn. unfold set_wire. now rewrite Nat.eqb_refl.
        + assert (Hin : In t (pre ++ s :: sl)) by (rewrite in_app_iff in *; cbn; intuition).
          apply (slot_ok_frame rs _ w).
          * now apply (i_slots _ _ _ I).
          * apply deliver_st.
          * unfold set_wire. destruct (Nat.eqb_spec (rank t) (rank s)) as [K|K]; [|easy].
            exfalso. revert K. eapply other_rank; [apply (i_ranks _ _ _ I)|easy].
          * intros i Hi. apply deliver_out. intros K.
            apply (other_ids pre s sl t i (i_busy _ _ _ I) Ht Hi). unfold ids_of. now rewrite Ew.
      - pose proof (i_busy _ _ _ I) as N. rewrite busy_app in *. cbn in *.
        apply NoDup_app_inv in N. destruct N as (N1 & N2 & D). apply NoDup_app_inv in N2. destruct N2 as (_ & N2 & _).
        apply NoDup_app_intro; [easy|easy|]. intros x Hx K. apply (D x Hx). rewrite in_app_iff. auto.
      - intros i q Hq Hst. destruct (in_dec Nat.eq_dec i ids) as [K|K].
        + apply In_nth_error in K. destruct K as (k & Ek). destruct (Din k i Ek) as (q' & _ & Hq'). rewrite Hq' in Hq.
          inversion Hq; subst. easy.
        + rewrite deliver_out in Hq by easy. pose proof (i_run _ _ _ I i q Hq Hst) as B.
          rewrite busy_app in *. cbn in *. rewrite !in_app_iff in *. unfold ids_of in B at 1. rewrite Ew in B. tauto.
      - intros i q r Hq Hst. destruct (in_dec Nat.eq_dec i ids) as [K|K].
        + apply In_nth_error in K. destruct K as (k & Ek). destruct (Din k i Ek) as (q' & _ & Hq'). rewrite Hq' in Hq.
          inversion Hq; subst. cbn in Hst. inversion Hst; subst. easy.
        + rewrite deliver_out in Hq by easy. eapply (i_done _ _ _ I); eauto. }
    destruct (collect F shift sl (deliver rs ids vs) (set_wire w (rank s) Quiet)) as [[[sl1 rs1] w1]|] eqn:E1; [|easy].
    inversion E; subst.
    assert (I2 : inv ((pre ++ [Slot (rank s) None]) ++ sl) (deliver rs ids vs) (set_wire w (rank s) Quiet)) by (now rewrite <- app_assoc).
    destruct (IH _ _ _ _ _ _ I2 E1) as (I1 & R & S1). rewrite <- app_assoc in I1.
    split; [easy|]. split; [cbn; congruence|]. rewrite S1. apply deliver_st.
Qed.

Lemma collect_some sl : forall pre rs w, inv (pre ++ sl) rs w -> collect F shift sl rs w <> None.
Proof.
  induction sl as [|s sl IH]; intros pre rs w I; [easy|].
  assert (Keep : collect F shift sl rs w <> None).
  { apply (IH (pre ++ [s])). now rewrite <- app_assoc. }
  destruct (collect F shift [s] rs w) as [[[sl1 rs1] w1]|] eqn:E1.
  - assert (I1 : inv (pre ++ s :: sl) rs w) by easy.
    cbn in E1 |- *.
    destruct (work s) as [[ids nat]|] eqn:Ew.
    2:{ destruct (collect F shift sl rs w) as [[[? ?] ?]|]; easy. }
    destruct (w (rank s)) as [| |num eb] eqn:Ewire.
    1,2: destruct (collect F shift sl rs w) as [[[? ?] ?]|]; easy.
    destruct (unpack_results (length ids) 0 nat num eb) as [vs|] eqn:U; [|easy].
    assert (J : inv (pre ++ Slot (rank s) None :: sl) (deliver rs ids vs) (set_wire w (rank s) Quiet)).
    { assert (P : Permutation ((pre ++ s :: sl)) ((pre ++ sl) ++ [s])).
      { rewrite <- app_assoc. apply Permutation_app_head. change (s :: sl) with ([s] ++ sl). apply Permutation_app_comm. }
      assert (I2 : inv ((pre ++ sl) ++ [s]) rs w).
      { clear - P I. destruct I as [A B C D E]. constructor.
        - eapply Permutation_NoDup; [|exact A]. now apply Permutation_map.
        - intros t Ht. apply B. eapply Permutation_in; [symmetry; exact P|exact Ht].
        - eapply Permutation_NoDup; [|exact C]. now apply Permutation_flat_map.
        - intros i q H K. eapply Permutation_in; [apply Permutation_flat_map; exact P|]. exact (D i q H K).
        - exact E. }
      destruct (collect_inv [s] (pre ++ sl) rs w [Slot (rank s) None] (deliver rs ids vs) (set_wire w (rank s) Quiet) I2) as (I3 & _).
      { cbn. now rewrite Ew, Ewire, U. }
      assert (P' : Permutation ((pre ++ sl) ++ [Slot (rank s) None]) (pre ++ Slot (rank s) None :: sl)).
      { rewrite <- app_assoc. apply Permutation_app_head. change (Slot (rank s) None :: sl) with ([Slot (rank s) None] ++ sl). apply Permutation_app_comm. }
      clear - P' I3. destruct I3 as [A B C D E]. constructor.
      - eapply Permutation_NoDup; [|exact A]. now apply Permutation_map.
      - intros t Ht. apply B. eapply Permutation_in; [symmetry; exact P'|exact Ht].
      - eapply Permutation_NoDup; [|exact C]. now apply Permutation_flat_map.
      - intros i q H K. eapply Permutation_in; [apply Permutation_flat_map; exact P'|]. exact (D i q H K).
      - exact E. }
    assert (K : collect F shift sl (deliver rs ids vs) (set_wire w (rank s) Quiet) <> None).
    { apply (IH (pre ++ [Slot (rank s) None])). now rewrite <- app_assoc. }
    destruct (collect F shift sl (deliver rs ids vs) (set_wire w (rank s) Quiet)) as [[[? ?] ?]|]; easy.
  - exfalso. assert (Hs : slot_ok rs w s) by (apply (i_slots _ _ _ I); rewrite in_app_iff; cbn; auto).
    cbn in E1. unfold slot_ok in Hs. destruct (work s) as [[ids nat]|] eqn:Ew; [|easy].
    destruct (w (rank s)) as [| |num eb] eqn:Ewire; [easy|easy|].
    destruct Hs as (Hne & Hrun & n & body & Hp & [Hw|(num' & eb' & Hr & Hw)]); [easy|]. inversion Hw; subst num' eb'.
    assert (Hlen : length (structs rs ids) = length ids).
    { apply structs_length. intros i Hi. destruct (Hrun i Hi) as (q & Hq & _). eauto. }
    rewrite <- Hlen, <- (map_length seen), <- (map_length eval) in E1.
    rewrite (pack_unpack_results _ _ _ _ Hr) in E1; [easy|].
    intros r K. apply in_map_iff in K. destruct K as (a & <- & _). apply sound.
Qed.

(* dispatch *)
Definition waiting (rs : list request) (q : list nat) : Prop :=
  NoDup q /\ forall i, In i q -> exists r, nth_error rs i = Some r /\ status_of r = Queued.

Lemma waiting_skip rs q k : waiting rs q -> waiting (mark rs (firstn k q)) (skipn k q).
Proof.
  intros (N & H). rewrite <- (firstn_skipn k q) in N. apply NoDup_app_inv in N. destruct N as (N1 & N2 & D).
  split; [easy|]. intros i Hi. rewrite mark_out by (intros K; apply (D i K Hi)).
  apply H. rewrite <- (firstn_skipn k q). apply in_app_iff. auto.
Qed.
Lemma structs_mark rs ids q : structs (mark rs q) ids = structs rs ids.
Proof. apply structs_st, mark_st. Qed.

Lemma dispatch_inv bs : 0 < bs -> forall sl pre q rs w sl' rs' w', inv (pre ++ sl) rs w -> waiting rs q ->
  dispatch bs sl q rs w = Some (sl', rs', w') ->
  inv (pre ++ sl') rs' w' /\ map rank sl' = map rank sl /\ map st rs' = map st rs.
Proof.
  intros Hbs. induction sl as [|s sl IH]; intros pre q rs w sl' rs' w' I Q E; cbn in E.
  - inversion E; subst. auto.
  - assert (Hs : slot_ok rs w s) by (apply (i_slots _ _ _ I); rewrite in_app_iff; cbn; auto).
    assert (Keep : forall sl1 rs1 w1, dispatch bs sl q rs w = Some (sl1, rs1, w1) ->
      inv (pre ++ s :: sl1) rs1 w1 /\ map rank (s :: sl1) = map rank (s :: sl) /\ map st rs1 = map st rs).
    { intros sl1 rs1 w1 E1. specialize (IH (pre ++ [s]) q rs w sl1 rs1 w1).
      rewrite <- !app_assoc in IH. cbn in IH. destruct (IH I Q E1) as (I1 & R & S1). split; [easy|]. split; [cbn; congruence|easy]. }
    destruct (work s) as [[ids nat]|] eqn:Ew.
    { destruct (dispatch bs sl q rs w) as [[[sl1 rs1] w1]|] eqn:E1; [|easy]. inversion E; subst. now apply Keep. }
    destruct q as [|i0 q0].
    { destruct (dispatch bs sl [] rs w) as [[[sl1 rs1] w1]|] eqn:E1; [|easy]. inversion E; subst. now apply Keep. }
    remember (i0 :: q0) as q. set (batch := firstn bs q) in *.
    destruct (pack_work (structs rs batch)) as [[[nat n] body]|] eqn:Ep; [|easy].
    rewrite mark_fold in E.
    assert (Hb : forall i, In i batch -> exists r, nth_error rs i = Some r /\ status_of r = Queued).
    { intros i Hi. apply Q. rewrite <- (firstn_skipn bs q). apply in_app_iff. auto. }
    assert (Nb : NoDup batch).
    { destruct Q as (N & _). rewrite <- (firstn_skipn bs q) in N. apply NoDup_app_inv in N. tauto. }
    assert (Hne : batch <> []) by (unfold batch; subst q; destruct bs; [lia|easy]).
    assert (Hout : forall i, In i (busy (pre ++ s :: sl)) -> ~ In i batch).
    { intros i Hi K. apply busy_in in Hi. destruct Hi as (t & Ht & Hi). pose proof (i_slots _ _ _ I t Ht) as Ot.
      unfold slot_ok, ids_of in *. destruct (work t) as [[ids' nat']|]; [|easy]. destruct Ot as (_ & Ot & _).
      destruct (Ot i Hi) as (r & Hr & Sr). destruct (Hb i K) as (r' & Hr' & Sr'). congruence. }
    assert (I' : inv (pre ++ Slot (rank s) (Some (batch, nat)) :: sl) (mark rs batch) (set_wire w (rank s) (Work nat n body))).
    { constructor.
      - pose proof (i_ranks _ _ _ I) as N. rewrite map_app in *. exact N.
      - intros t Ht. rewrite in_app_iff in Ht. cbn in Ht.
        assert (Ht' : t = Slot (rank s) (Some (batch, nat)) \/ In t (pre ++ sl)) by (rewrite in_app_iff; intuition). clear Ht.
        destruct Ht' as [->|Ht].
        + unfold slot_ok. cbn. split; [easy|]. split.
          * intros i Hi. destruct (Hb i Hi) as (r & Hr & _). exists (Request (st r) Running). split; [|easy]. now apply mark_in.
          * exists n, body. rewrite structs_mark. split; [easy|]. left. unfold set_wire. now rewrite Nat.eqb_refl.
        + assert (Hin : In t (pre ++ s :: sl)) by (rewrite in_app_iff in *; cbn; intuition).
          apply (slot_ok_frame rs _ w).
          * now apply (i_slots _ _ _ I).
          * apply mark_st.
          * unfold set_wire. destruct (Nat.eqb_spec (rank t) (rank s)) as [K|K]; [|easy].
            exfalso. revert K. eapply other_rank; [apply (i_ranks _ _ _ I)|easy].
          * intros i Hi. apply mark_out. apply Hout. apply busy_in. eauto.
      - pose proof (i_busy _ _ _ I) as N. rewrite busy_app in *. cbn in *. unfold ids_of in N at 1. rewrite Ew in N. cbn in N.
        assert (P : Permutation (busy pre ++ batch ++ busy sl) (batch ++ busy pre ++ busy sl)).
        { rewrite !app_assoc. apply Permutation_app_tail, Permutation_app_comm. }
        eapply Permutation_NoDup; [symmetry; exact P|]. apply NoDup_app_intro; [easy|easy|].
        intros i Hi K. apply (Hout i); [|easy]. rewrite !in_app_iff in *. tauto.
      - intros i r Hr Hst. rewrite busy_app. cbn. rewrite !in_app_iff.
        destruct (in_dec Nat.eq_dec i batch) as [K|K]; [auto|].
        rewrite mark_out in Hr by easy. pose proof (i_run _ _ _ I i r Hr Hst) as B.
        rewrite busy_app in B. cbn in B. rewrite !in_app_iff in B. unfold ids_of in B at 1. rewrite Ew in B. cbn in B. tauto.
      - intros i r v Hr Hst. destruct (in_dec Nat.eq_dec i batch) as [K|K].
        + destruct (Hb i K) as (r' & Hr' & _). rewrite (mark_in _ _ _ _ K Hr') in Hr. inversion Hr; subst. easy.
        + rewrite mark_out in Hr by easy. eapply (i_done _ _ _ I); eauto. }
    destruct (dispatch bs sl (skipn bs q) (mark rs batch) (set_wire w (rank s) (Work nat n body))) as [[[sl1 rs1] w1]|] eqn:E1; [|easy].
    inversion E; subst sl' rs' w'.
    assert (I2 : inv ((pre ++ [Slot (rank s) (Some (batch, nat))]) ++ sl) (mark rs batch) (set_wire w (rank s) (Work nat n body))) by (now rewrite <- app_assoc).
    destruct (IH _ _ _ _ _ _ _ I2 (waiting_skip _ _ bs Q) E1) as (I1 & R & S1). rewrite <- app_assoc in I1.
    split; [easy|]. split; [cbn; congruence|]. rewrite S1. apply mark_st.
Qed.

Lemma queued_waiting rs : waiting rs (queued rs).
Proof.
  unfold queued. split; [apply NoDup_filter, seq_NoDup|].
  intros i Hi. apply filter_In in Hi. destruct Hi as (_ & H). destruct (nth_error rs i) as [r|]; [|easy].
  exists r. split; [easy|]. unfold is_queued in H. now destruct (status_of r).
Qed.

Lemma poll_inv bs x x' : 0 < bs -> inv (slots x) (requests x) (wire x) -> poll F shift bs x = Some x' ->
  inv (slots x') (requests x') (wire x') /\ map rank (slots x') = map rank (slots x) /\ map st (requests x') = map st (requests x).
Proof.
  unfold poll. intros Hbs I E.
  destruct (collect F shift (slots x) (requests x) (wire x)) as [[[sl rs] w]|] eqn:E1; [|easy].
  destruct (collect_inv _ [] _ _ _ _ _ I E1) as (I1 & R1 & S1).
  destruct (dispatch bs sl (queued rs) rs w) as [[[sl2 rs2] w2]|] eqn:E2; [|easy].
  destruct (dispatch_inv bs Hbs _ [] _ _ _ _ _ _ I1 (queued_waiting rs) E2) as (I2 & R2 & S2).
  inversion E; subst. cbn in *. split; [easy|]. split; congruence.
Qed.

Lemma turn_inv r x x' : inv (slots x) (requests x) (wire x) -> turn F eval r x = Some x' ->
  inv (slots x') (requests x') (wire x') /\ slots x' = slots x /\ requests x' = requests x /\
  (forall k, k <> r -> wire x' k = wire x k) /\ (forall a b c, wire x' r <> Work a b c).
Proof.
  unfold turn. intros I E. destruct (wire x r) as [|nat n body|num eb] eqn:Ew.
  1,3: inversion E; subst; repeat (split; [easy|]); intros a b c K; congruence.
  destruct (pack_result nat (map eval (unpack_work nat n body))) as [[num eb]|] eqn:Ep; [|easy].
  inversion E; subst. cbn. clear E. split; [|split; [easy|split; [easy|split]]].
  - destruct I as [A B C D G]. constructor; try easy. intros s Hs. specialize (B s Hs).
    unfold slot_ok in *. destruct (work s) as [[ids nat']|]; unfold set_wire.
    + destruct B as (B1 & B2 & n' & body' & B3 & B4). split; [easy|]. split; [easy|].
      exists n', body'. split; [easy|]. destruct (Nat.eqb_spec (rank s) r) as [Er|Er]; [|easy].
      right. subst r. rewrite Ew in B4. destruct B4 as [B4|(? & ? & _ & B4)]; [|easy]. inversion B4; subst nat' n' body'.
      exists num, eb. split; [|easy]. destruct (pack_unpack_work _ _ _ _ B3) as (_ & U & _). now rewrite <- U.
    + destruct (Nat.eqb_spec (rank s) r) as [Er|Er]; [|easy]. subst r. congruence.
  - intros k Hk. unfold set_wire. destruct (Nat.eqb_spec k r); [easy|easy].
  - intros a b c. unfold set_wire. rewrite Nat.eqb_refl. easy.
Qed.

Lemma queue_inv s x : inv (slots x) (requests x) (wire x) ->
  inv (slots (queue s x)) (requests (queue s x)) (wire (queue s x)).
Proof.
  intros [A B C D G]. unfold queue. constructor; cbn; try easy.
  - intros t Ht. specialize (B t Ht). unfold slot_ok in *. destruct (work t) as [[ids nat]|]; [|easy].
    destruct B as (B1 & B2 & B3). split; [easy|]. split.
    + intros i Hi. destruct (B2 i Hi) as (q & Hq & K). exists q. split; [|easy].
      rewrite nth_error_app1; [easy|]. apply nth_error_Some. congruence.
    + assert (K : structs (requests x ++ [Request s Queued]) ids = structs (requests x) ids).
      { clear B3 B1. induction ids as [|i ids IH]; [easy|]. cbn [structs flat_map].
        destruct (B2 i) as (q & Hq & _); [cbn; auto|]. rewrite nth_error_app1 by (apply nth_error_Some; congruence).
        f_equal. apply IH. intros j Hj. apply B2. cbn; auto. }
      now rewrite K.
  - intros i q Hq K. destruct (Nat.lt_ge_cases i (length (requests x))) as [L|L].
    + rewrite nth_error_app1 in Hq by easy. now apply (D i q).
    + rewrite nth_error_app2 in Hq by easy. destruct (i - length (requests x)) as [|[|]]; cbn in Hq; inversion Hq; subst; easy.
  - intros i q r Hq K. destruct (Nat.lt_ge_cases i (length (requests x))) as [L|L].
    + rewrite nth_error_app1 in Hq by easy. now apply (G i q).
    + rewrite nth_error_app2 in Hq by easy. destruct (i - length (requests x)) as [|[|]]; cbn in Hq; inversion Hq; subst; easy.
Qed.

Lemma release_inv i x : inv (slots x) (requests x) (wire x) ->
  inv (slots (release i x)) (requests (release i x)) (wire (release i x)).
Proof.
  intros I. unfold release. destruct (nth_error (requests x) i) as [[s [| |v|]]|] eqn:E; try easy.
  pose proof I as [A B C D G].
  assert (Hout : ~ In i (busy (slots x))).
  { intros K. apply busy_in in K. destruct K as (t & Ht & K). specialize (B t Ht). unfold slot_ok, ids_of in *.
    destruct (work t) as [[ids nat]|]; [|easy]. destruct B as (_ & B & _). destruct (B i K) as (q & Hq & S1). rewrite E in Hq.
    inversion Hq; subst. easy. }
  constructor; cbn; try easy.
  - intros t Ht. apply (slot_ok_frame (requests x) _ (wire x)); [auto|apply set_status_st|easy|].
    intros j Hj. apply set_status_other. intros ->. apply Hout, busy_in. eauto.
  - intros j q Hq K. destruct (Nat.eq_dec i j) as [->|N].
    + rewrite (set_status_same _ _ _ _ E) in Hq. inversion Hq; subst. easy.
    + rewrite set_status_other in Hq by easy. now apply (D j q).
  - intros j q r Hq K. destruct (Nat.eq_dec i j) as [->|N].
    + rewrite (set_status_same _ _ _ _ E) in Hq. inversion Hq; subst. easy.
    + rewrite set_status_other in Hq by easy. now apply (G j q).
Qed.

Lemma start_inv ranks : NoDup ranks -> let x := start ranks : state F in inv (slots x) (requests x) (wire x).
Proof.
  intros N x. unfold x, start. cbn. constructor; cbn.
  - rewrite map_map. cbn. now rewrite map_id.
  - intros s Hs. apply in_map_iff in Hs. destruct Hs as (r & <- & _). easy.
  - assert (E : busy (map (fun r => Slot r None) ranks) = []) by (clear; induction ranks; cbn; auto). rewrite E. constructor.
  - intros [|i] q Hq; easy.
  - intros [|i] q r Hq; easy.
Qed.

Lemma next_inv bs e x x' : 0 < bs -> inv (slots x) (requests x) (wire x) -> next F eval shift bs e x = Some x' ->
  inv (slots x') (requests x') (wire x') /\ map rank (slots x') = map rank (slots x).
Proof.
  intros Hbs I E. destruct e as [s| |r|i]; cbn in E.
  - inversion E; subst. split; [now apply queue_inv|easy].
  - destruct (poll_inv _ _ _ Hbs I E) as (H1 & H2 & _). auto.
  - destruct (turn_inv _ _ _ I E) as (H1 & H2 & _). split; [easy|congruence].
  - inversion E; subst. split; [now apply release_inv|].
    unfold release. destruct (nth_error (requests x) i) as [[s [| |v|]]|]; easy.
Qed.
Lemma run_inv bs es : 0 < bs -> forall x x', inv (slots x) (requests x) (wire x) -> run F eval shift bs es x = Some x' ->
  inv (slots x') (requests x') (wire x') /\ map rank (slots x') = map rank (slots x).
Proof.
  intros Hbs. induction es as [|e es IH]; intros x x' I E; cbn in E; [inversion E; subst; auto|].
  destruct (next F eval shift bs e x) as [y|] eqn:Ey; [|easy].
  destruct (next_inv _ _ _ _ Hbs I Ey) as (I1 & R1). destruct (IH _ _ I1 E) as (I2 & R2). split; [easy|congruence].
Qed.

(* statuses only move forward *)
Definition later (a b : status F) : Prop :=
  match a, b with
  | Queued, _ => True
  | Running, (Running | Done _ | Released) => True
  | Done r, Done r' => r = r'
  | Done _, Released => True
  | Released, Released => True
  | _, _ => False
  end.
Definition moved (rs rs' : list request) : Prop :=
  forall i q, nth_error rs i = Some q -> exists q', nth_error rs' i = Some q' /\ st q' = st q /\ later (status_of q) (status_of q').

Lemma later_refl a : later a a.
Proof. destruct a; cbn; auto. Qed.
Lemma later_trans a b c : later a b -> later b c -> later a c.
Proof. destruct a, b, c; cbn; intros; try easy; congruence. Qed.
Lemma moved_refl rs : moved rs rs.
Proof. intros i q H. exists q. split; [easy|]. split; [easy|apply later_refl]. Qed.
Lemma moved_trans a b c : moved a b -> moved b c -> moved a c.
Proof.
  intros H1 H2 i q Hq. destruct (H1 i q Hq) as (q1 & E1 & S1 & L1). destruct (H2 i q1 E1) as (q2 & E2 & S2 & L2).
  exists q2. split; [easy|]. split; [congruence|]. eapply later_trans; eauto.
Qed.
Lemma moved_set rs i s : (forall q, nth_error rs i = Some q -> later (status_of q) s) -> moved rs (set_status rs i s).
Proof.
  intros H j q Hq. destruct (Nat.eq_dec i j) as [->|N].
  - exists (Request (st q) s). split; [now apply set_status_same|]. split; [easy|]. cbn. auto.
  - exists q. rewrite set_status_other by easy. split; [easy|]. split; [easy|apply later_refl].
Qed.
Lemma moved_deliver ids : forall rs vs, NoDup ids ->
  (forall i q, In i ids -> nth_error rs i = Some q -> status_of q = Running) -> moved rs (deliver rs ids vs).
Proof.
  induction ids as [|i ids IH]; intros rs [|v vs] N H; cbn; try apply moved_refl.
  inversion N; subst. eapply moved_trans; [apply moved_set|apply IH; [easy|]].
  - intros q Hq. rewrite (H i q) by (cbn; auto). easy.
  - intros j q Hj Hq. rewrite set_status_other in Hq by (intros ->; easy). apply (H j q); cbn; auto.
Qed.
Lemma moved_mark ids : forall rs, NoDup ids ->
  (forall i q, In i ids -> nth_error rs i = Some q -> status_of q = Queued) -> moved rs (mark rs ids).
Proof.
  induction ids as [|i ids IH]; intros rs N H; cbn; [apply moved_refl|].
  inversion N; subst. eapply moved_trans; [apply moved_set|apply IH; [easy|]].
  - intros q Hq. rewrite (H i q) by (cbn; auto). easy.
  - intros j q Hj Hq. rewrite set_status_other in Hq by (intros ->; easy). apply (H j q); cbn; auto.
Qed.

(* only the statuses that are running matter for the replies *)
Lemma collect_moved sl : forall rs w sl' rs' w', NoDup (busy sl) ->
  (forall i q, In i (busy sl) -> nth_error rs i = Some q -> status_of q = Running) ->
  collect F shift sl rs w = Some (sl', rs', w') -> moved rs rs'.
Proof.
  induction sl as [|s sl IH]; intros rs w sl' rs' w' N H E; cbn in E.
  - inversion E; subst. apply moved_refl.
  - cbn in N. apply NoDup_app_inv in N. destruct N as (N1 & N2 & D).
    assert (Keep : forall a b c, collect F shift sl rs w = Some (a, b, c) -> moved rs b).
    { intros a b c K. apply (IH _ _ _ _ _ N2) with (2 := K). intros i q Hi. apply H. cbn. apply in_app_iff. auto. }
    unfold ids_of in *. destruct (work s) as [[ids nat]|] eqn:Ew.
    2:{ destruct (collect F shift sl rs w) as [[[? ?] ?]|] eqn:E1; [|easy]. inversion E; subst. eauto. }
    destruct (w (rank s)).
    1,2: destruct (collect F shift sl rs w) as [[[? ?] ?]|] eqn:E1; [|easy]; inversion E; subst; eauto.
    destruct (unpack_results (length ids) 0 nat numeric ebuf) as [vs|]; [|easy].
    destruct (collect F shift sl (deliver rs ids vs) (set_wire w (rank s) Quiet)) as [[[? ?] ?]|] eqn:E1; [|easy].
    inversion E; subst. apply (moved_trans _ (deliver rs ids vs)); [apply moved_deliver; [easy|]|].
    + intros i q Hi. apply H. cbn. unfold ids_of at 1. rewrite Ew. apply in_app_iff. auto.
    + apply (IH _ _ _ _ _ N2) with (2 := E1). intros i q Hi Hq. rewrite deliver_out in Hq by (intros K; apply (D i K Hi)).
      apply (H i q); [|easy]. cbn. apply in_app_iff. auto.
Qed.
Lemma dispatch_moved bs sl : forall q rs w sl' rs' w', waiting rs q ->
  dispatch bs sl q rs w = Some (sl', rs', w') -> moved rs rs'.
Proof.
  induction sl as [|s sl IH]; intros q rs w sl' rs' w' Q E; cbn in E.
  - inversion E; subst. apply moved_refl.
  - destruct (work s) as [[ids nat]|] eqn:Ew.
    { destruct (dispatch bs sl q rs w) as [[[? ?] ?]|] eqn:E1; [|easy]. inversion E; subst. eauto. }
    destruct q as [|i0 q0].
    { destruct (dispatch bs sl [] rs w) as [[[? ?] ?]|] eqn:E1; [|easy]. inversion E; subst. eauto. }
    remember (i0 :: q0) as q.
    destruct (pack_work (structs rs (firstn bs q))) as [[[nat n] body]|]; [|easy].
    rewrite mark_fold in E.
    destruct (dispatch bs sl (skipn bs q) (mark rs (firstn bs q)) (set_wire w (rank s) (Work nat n body))) as [[[? ?] ?]|] eqn:E1; [|easy].
    inversion E; subst sl' rs' w'. apply (moved_trans _ (mark rs (firstn bs q))); [apply moved_mark|].
    + destruct Q as (N & _). rewrite <- (firstn_skipn bs q) in N. apply NoDup_app_inv in N. tauto.
    + intros i r Hi Hr. destruct Q as (_ & Q). destruct (Q i) as (r' & Hr' & K); [|congruence].
      rewrite <- (firstn_skipn bs q). apply in_app_iff. auto.
    + apply (IH _ _ _ _ _ _ (waiting_skip _ _ bs Q) E1).
Qed.
Lemma busy_running sl rs w : inv sl rs w -> forall i q, In i (busy sl) -> nth_error rs i = Some q -> status_of q = Running.
Proof.
  intros I i q Hi Hq. apply busy_in in Hi. destruct Hi as (t & Ht & Hi). pose proof (i_slots _ _ _ I t Ht) as B.
  unfold slot_ok, ids_of in *. destruct (work t) as [[ids nat]|]; [|easy]. destruct B as (_ & B & _).
  destruct (B i Hi) as (q' & Hq' & K). congruence.
Qed.
Lemma next_moved bs e x x' : inv (slots x) (requests x) (wire x) -> next F eval shift bs e x = Some x' ->
  moved (requests x) (requests x').
Proof.
  intros I E. destruct e as [s| |r|i]; cbn in E.
  - inversion E; subst. intros i q Hq. exists q. cbn. rewrite nth_error_app1 by (apply nth_error_Some; congruence).
    split; [easy|]. split; [easy|apply later_refl].
  - unfold poll in E. destruct (collect F shift (slots x) (requests x) (wire x)) as [[[sl rs] w]|] eqn:E1; [|easy].
    destruct (dispatch bs sl (queued rs) rs w) as [[[sl2 rs2] w2]|] eqn:E2; [|easy].
    inversion E; subst. cbn. eapply moved_trans.
    + apply (collect_moved _ _ _ _ _ _ (i_busy _ _ _ I) (busy_running _ _ _ I) E1).
    + apply (dispatch_moved _ _ _ _ _ _ _ _ (queued_waiting rs) E2).
  - destruct (turn_inv _ _ _ I E) as (_ & _ & -> & _). apply moved_refl.
  - inversion E; subst. unfold release. destruct (nth_error (requests x) i) as [[s [| |v|]]|] eqn:Ei; try apply moved_refl.
    cbn. apply moved_set. intros q Hq. rewrite Ei in Hq. inversion Hq; subst. easy.
Qed.
Lemma run_moved bs es : 0 < bs -> forall x x', inv (slots x) (requests x) (wire x) -> run F eval shift bs es x = Some x' ->
  moved (requests x) (requests x').
Proof.
  intros Hbs. induction es as [|e es IH]; intros x x' I E; cbn in E; [inversion E; subst; apply moved_refl|].
  destruct (next F eval shift bs e x) as [y|] eqn:Ey; [|easy].
  destruct (next_inv _ _ _ _ Hbs I Ey) as (I1 & _).
  eapply moved_trans; [eapply next_moved; eauto|eauto].
Qed.

(* ---------------- every request is answered ---------------- *)

Definition nq (rs : list request) : nat := length (filter is_queued rs).
Local Arguments nq : simpl never.
Definition one (b : bool) : nat := if b then 1 else 0.
Lemma nq_set rs : forall i q s, nth_error rs i = Some q ->
  nq (set_status rs i s) + one (is_queued q) = nq rs + one (is_queued (Request (st q) s)).
Proof.
  unfold nq. induction rs as [|r rs IH]; intros [|i] q s E; try easy; cbn in E |- *.
  - inversion E; subst r. destruct (is_queued q), (is_queued (Request (st q) s)); cbn; lia.
  - specialize (IH i q s E). destruct (is_queued r); cbn; lia.
Qed.
Lemma set_status_out (rs : list request) i s : nth_error rs i = None -> set_status rs i s = rs.
Proof. revert i. induction rs as [|r rs IH]; intros [|i] E; cbn in *; try easy. f_equal. auto. Qed.
Lemma nq_deliver ids : forall rs vs, (forall i q, In i ids -> nth_error rs i = Some q -> is_queued q = false) ->
  nq (deliver rs ids vs) = nq rs.
Proof.
  induction ids as [|i ids IH]; intros rs [|v vs] H; cbn [MpiModel.deliver]; try easy.
  rewrite IH.
  - destruct (nth_error rs i) as [q|] eqn:E.
    + pose proof (nq_set rs i q (Done (shifted v)) E) as K. rewrite (H i q) in K by (cbn; auto). unfold shifted in K. cbn in K. lia.
    + now rewrite set_status_out.
  - intros j q Hj Hq. destruct (Nat.eq_dec i j) as [->|N].
    + destruct (nth_error rs j) as [q'|] eqn:E.
      * rewrite (set_status_same _ _ _ _ E) in Hq. inversion Hq; subst. easy.
      * rewrite set_status_out in Hq by easy. congruence.
    + rewrite set_status_other in Hq by easy. apply (H j q); cbn; auto.
Qed.
Lemma nq_mark ids : forall rs, nq (mark rs ids) <= nq rs.
Proof.
  induction ids as [|i ids IH]; intros rs; cbn; [easy|]. etransitivity; [apply IH|].
  destruct (nth_error rs i) as [q|] eqn:E.
  - pose proof (nq_set rs i q Running E) as K. cbn in K. lia.
  - now rewrite set_status_out.
Qed.
Lemma nq_mark_lt i ids rs q : nth_error rs i = Some q -> status_of q = Queued -> nq (mark rs (i :: ids)) < nq rs.
Proof.
  intros E K. cbn. pose proof (nq_mark ids (set_status rs i Running)). pose proof (nq_set rs i q Running E) as G.
  unfold is_queued at 1 in G. rewrite K in G. cbn in G. lia.
Qed.

Definition idle (s : slot) : Prop := work s = None.
Definition replied (w : nat -> channel F) (s : slot) : Prop := match w (rank s) with Work _ _ _ => False | _ => True end.

Lemma collect_idle sl : forall pre rs w sl' rs' w', inv (pre ++ sl) rs w -> (forall s, In s sl -> replied w s) ->
  collect F shift sl rs w = Some (sl', rs', w') -> (forall s, In s sl' -> idle s) /\ nq rs' = nq rs.
Proof.
  induction sl as [|s sl IH]; intros pre rs w sl' rs' w' I H E.
  - inversion E; subst. easy.
  - assert (One : exists sl1 rs1 w1, collect F shift [s] rs w = Some (sl1, rs1, w1) /\ nq rs1 = nq rs /\ (forall t, In t sl1 -> idle t) /\
       (forall t, rank t <> rank s -> w1 (rank t) = w (rank t)) /\
       exists sl2, collect F shift sl rs1 w1 = Some (sl2, rs', w') /\ sl' = sl1 ++ sl2).
    { pose proof (i_slots _ _ _ I s) as Hs. specialize (H s (or_introl eq_refl)). unfold replied in H.
      unfold slot_ok in Hs. cbn in E |- *. destruct (work s) as [[ids nat]|] eqn:Ew.
      - destruct Hs as (_ & Hrun & n & body & _ & Hw); [rewrite in_app_iff; cbn; auto|].
        destruct (w (rank s)) as [|? ? ?|num eb]; [destruct Hw as [?|(? & ? & _ & ?)]; easy|easy|].
        destruct (unpack_results (length ids) 0 nat num eb) as [vs|]; [|easy].
        exists [Slot (rank s) None], (deliver rs ids vs), (set_wire w (rank s) Quiet).
        split; [easy|]. split.
        { apply nq_deliver. intros i q Hi Hq. destruct (Hrun i Hi) as (q' & Hq' & K). unfold is_queued.
          replace q with q' by congruence. now rewrite K. }
        split; [intros t [<-|[]]; easy|]. split.
        { intros t Ht. unfold set_wire. destruct (Nat.eqb_spec (rank t) (rank s)); easy. }
        destruct (collect F shift sl (deliver rs ids vs) (set_wire w (rank s) Quiet)) as [[[sl2 ?] ?]|]; [|easy].
        inversion E; subst. exists sl2. easy.
      - exists [s], rs, w. split; [easy|]. split; [easy|]. split; [intros t [<-|[]]; easy|]. split; [easy|].
        destruct (collect F shift sl rs w) as [[[sl2 ?] ?]|]; [|easy]. inversion E; subst. exists sl2. easy. }
    destruct One as (sl1 & rs1 & w1 & E1 & Q1 & Id1 & W1 & sl2 & E2 & ->).
    assert (P : Permutation (pre ++ s :: sl) ((pre ++ sl) ++ [s])).
    { rewrite <- app_assoc. apply Permutation_app_head. change (s :: sl) with ([s] ++ sl). apply Permutation_app_comm. }
    assert (IP : forall a b rs0 w0, Permutation a b -> inv a rs0 w0 -> inv b rs0 w0).
    { clear. intros a b rs0 w0 P [A B C D G]. constructor.
      - eapply Permutation_NoDup; [|exact A]. now apply Permutation_map.
      - intros t Ht. apply B. eapply Permutation_in; [symmetry; exact P|exact Ht].
      - eapply Permutation_NoDup; [|exact C]. now apply Permutation_flat_map.
      - intros i q H K. eapply Permutation_in; [apply Permutation_flat_map; exact P|]. exact (D i q H K).
      - exact G. }
    destruct (collect_inv [s] (pre ++ sl) rs w sl1 rs1 w1 (IP _ _ _ _ P I) E1) as (I1 & R1 & _).
    assert (P' : Permutation ((pre ++ sl) ++ sl1) ((pre ++ sl1) ++ sl)).
    { rewrite <- !app_assoc. apply Permutation_app_head, Permutation_app_comm. }
    destruct (IH (pre ++ sl1) rs1 w1 sl2 rs' w' (IP _ _ _ _ P' I1)) as (J1 & J2); [|exact E2|].
    + intros t Ht. unfold replied. rewrite W1; [apply H; cbn; auto|].
      intros K. apply (other_rank pre s sl t); [apply (i_ranks _ _ _ I)|rewrite in_app_iff; auto|easy].
    + split; [|congruence]. intros t Ht. apply in_app_iff in Ht. destruct Ht; auto.
Qed.

Lemma dispatch_nq bs sl : forall q rs w sl' rs' w', dispatch bs sl q rs w = Some (sl', rs', w') -> nq rs' <= nq rs.
Proof.
  induction sl as [|s sl IH]; intros q rs w sl' rs' w' E; cbn in E.
  - inversion E; subst. easy.
  - destruct (work s) as [[ids nat]|] eqn:Ew.
    { destruct (dispatch bs sl q rs w) as [[[? ?] ?]|] eqn:E1; [|easy]. inversion E; subst. eauto. }
    destruct q as [|i0 q0].
    { destruct (dispatch bs sl [] rs w) as [[[? ?] ?]|] eqn:E1; [|easy]. inversion E; subst. eauto. }
    remember (i0 :: q0) as q.
    destruct (pack_work (structs rs (firstn bs q))) as [[[nat n] body]|]; [|easy].
    rewrite mark_fold in E.
    destruct (dispatch bs sl (skipn bs q) (mark rs (firstn bs q)) (set_wire w (rank s) (Work nat n body))) as [[[? ?] ?]|] eqn:E1; [|easy].
    inversion E; subst sl' rs' w'. etransitivity; [eapply IH; exact E1|apply nq_mark].
Qed.
Lemma dispatch_less bs s sl q rs w sl' rs' w' : 0 < bs -> idle s -> waiting rs q -> q <> [] ->
  dispatch bs (s :: sl) q rs w = Some (sl', rs', w') -> nq rs' < nq rs.
Proof.
  intros Hbs Hi Q Hq E. cbn in E. unfold idle in Hi. rewrite Hi in E. destruct q as [|i0 q0]; [easy|].
  remember (i0 :: q0) as q.
  destruct (pack_work (structs rs (firstn bs q))) as [[[nat n] body]|]; [|easy].
  rewrite mark_fold in E.
  destruct (dispatch bs sl (skipn bs q) (mark rs (firstn bs q)) (set_wire w (rank s) (Work nat n body))) as [[[? ?] ?]|] eqn:E1; [|easy].
  inversion E; subst sl' rs' w'. eapply Nat.le_lt_trans; [eapply dispatch_nq; exact E1|].
  subst q. destruct bs; [lia|]. cbn [firstn]. destruct Q as (_ & Q). destruct (Q i0) as (r & Hr & K); [cbn; auto|].
  eapply nq_mark_lt; eauto.
Qed.

(* structures of one size, results of the right size *)
Definition uniform (N : nat) (s : struct) : Prop := length (h s) = 9 /\ length (ih s) = 9 /\ length (pos s) = 3 * N.
Definition all_uniform (N : nat) (rs : list request) : Prop := forall s, In s (map st rs) -> uniform N s.

Lemma pack_uniform N batch : batch <> [] -> (forall s, In s batch -> uniform N s) -> pack_work batch <> None.
Proof.
  intros Hne H. unfold pack_work. destruct batch as [|s0 batch]; [easy|].
  assert (E : length (pos s0) / 3 = N).
  { destruct (H s0) as (_ & _ & ->); [cbn; auto|]. rewrite Nat.mul_comm. now apply Nat.div_mul. }
  rewrite E. destruct (forallb _ (s0 :: batch)) eqn:G; [easy|]. exfalso.
  rewrite <- not_true_iff_false in G. apply G. apply forallb_forall. intros s Hs. destruct (H s Hs) as (A & B & C).
  unfold fits. rewrite !andb_true_iff, !Nat.eqb_eq. tauto.
Qed.
Lemma structs_in (rs : list request) ids s : In s (structs rs ids) -> In s (map st rs).
Proof.
  unfold structs. rewrite in_flat_map. intros (i & _ & K). destruct (nth_error rs i) as [q|] eqn:E; [|easy].
  destruct K as [<-|[]]. apply in_map. eapply nth_error_In; eauto.
Qed.
Lemma dispatch_some N bs : 0 < bs -> forall sl q rs w, waiting rs q -> all_uniform N rs -> dispatch bs sl q rs w <> None.
Proof.
  intros Hbs. induction sl as [|s sl IH]; intros q rs w Q U; cbn; [easy|].
  destruct (work s) as [[ids nat]|] eqn:Ew.
  { specialize (IH q rs w Q U). destruct (dispatch bs sl q rs w) as [[[? ?] ?]|]; easy. }
  destruct q as [|i0 q0].
  { specialize (IH [] rs w Q U). destruct (dispatch bs sl [] rs w) as [[[? ?] ?]|]; easy. }
  remember (i0 :: q0) as q.
  destruct (pack_work (structs rs (firstn bs q))) as [[[nat n] body]|] eqn:Ep.
  - rewrite mark_fold. specialize (IH (skipn bs q) (mark rs (firstn bs q)) (set_wire w (rank s) (Work nat n body)) (waiting_skip _ _ bs Q)).
    destruct (dispatch bs sl (skipn bs q) (mark rs (firstn bs q)) (set_wire w (rank s) (Work nat n body))) as [[[? ?] ?]|]; [easy|].
    exfalso. apply IH; [|easy]. unfold all_uniform. now rewrite mark_st.
  - exfalso. revert Ep. apply (pack_uniform N).
    + destruct Q as (_ & Q). destruct (Q i0) as (r & Hr & _); [subst q; cbn; auto|].
      subst q. destruct bs; [lia|]. cbn. rewrite Hr. easy.
    + intros t Ht. apply U. eapply structs_in; eauto.
Qed.

Hypothesis sizes : forall c p, length (force (eval (c, p))) = length p /\ length (vir (eval (c, p))) = 9.

Lemma turn_some r x : inv (slots x) (requests x) (wire x) -> In r (map rank (slots x)) -> turn F eval r x <> None.
Proof.
  intros I Hr. unfold turn. destruct (wire x r) as [|nat n body|] eqn:Ew; try easy.
  apply in_map_iff in Hr. destruct Hr as (s & Es & Hs). pose proof (i_slots _ _ _ I s Hs) as B.
  unfold slot_ok in B. rewrite Es, Ew in B. destruct (work s) as [[ids nat']|]; [|easy].
  destruct B as (_ & _ & n' & body' & Hp & [Hw|(? & ? & _ & Hw)]); [|easy]. inversion Hw; subst nat' n' body'.
  destruct (pack_unpack_work _ _ _ _ Hp) as (_ & -> & Hl).
  destruct (pack_result nat (map eval (map seen (structs (requests x) ids)))) as [[num eb]|] eqn:E; [easy|].
  exfalso. unfold pack_result in E. destruct (forallb _ _) eqn:G; [easy|].
  rewrite <- not_true_iff_false in G. apply G. apply forallb_forall. intros v Hv.
  apply in_map_iff in Hv. destruct Hv as (a & <- & Ha). apply in_map_iff in Ha. destruct Ha as (t & <- & Ht).
  unfold seen, fits. destruct (sizes (h t) (pos t)) as (Z1 & Z2). rewrite Z1, Z2, (Hl t Ht), !Nat.eqb_refl. easy.
Qed.

Lemma turns_some bs rks : forall x, inv (slots x) (requests x) (wire x) -> (forall r, In r rks -> In r (map rank (slots x))) ->
  exists x', run F eval shift bs (map Turn rks) x = Some x' /\ inv (slots x') (requests x') (wire x') /\
   slots x' = slots x /\ requests x' = requests x /\
   (forall r a b c, In r rks \/ wire x r <> Work a b c -> wire x' r <> Work a b c).
Proof.
  induction rks as [|r rks IH]; intros x I H.
  - exists x. split; [easy|]. repeat (split; [easy|]). intros r a b c [[]|K]; easy.
  - cbn. destruct (turn F eval r x) as [y|] eqn:E; [|exfalso; revert E; apply turn_some; [easy|apply H; cbn; auto]].
    destruct (turn_inv _ _ _ I E) as (I1 & S1 & R1 & W1 & W2).
    destruct (IH y I1) as (x' & E' & I' & S' & R' & W'); [intros k Hk; rewrite S1; apply H; cbn; auto|].
    exists x'. split; [easy|]. split; [easy|]. split; [congruence|]. split; [congruence|].
    intros k a b c Hk. apply W'. destruct (Nat.eq_dec k r) as [->|N]; [right; apply W2|].
    destruct Hk as [[Hk|Hk]|Hk]; [congruence|auto|right; now rewrite W1].
Qed.

Definition round (rks : list nat) : list (event F) := map Turn rks ++ [Poll].
Fixpoint rounds (rks : list nat) (k : nat) : list (event F) :=
  match k with 0 => [] | S k => round rks ++ rounds rks k end.

Lemma run_app bs a : forall b x, run F eval shift bs (a ++ b) x =
  match run F eval shift bs a x with Some y => run F eval shift bs b y | None => None end.
Proof. induction a as [|e a IH]; intros b x; cbn; [easy|]. destruct (next F eval shift bs e x); [apply IH|easy]. Qed.

Lemma nq_queued rs : nq rs = 0 <-> queued rs = [].
Proof.
  split.
  - intros H. destruct (queued rs) as [|i l] eqn:E; [easy|]. exfalso.
    destruct (queued_waiting rs) as (_ & Q). destruct (Q i) as (r & Hr & K); [rewrite E; cbn; auto|].
    unfold nq in H. apply length_zero_iff_nil in H. apply nth_error_In in Hr.
    assert (G : In r (filter is_queued rs)) by (apply filter_In; split; [easy|unfold is_queued; now rewrite K]).
    rewrite H in G. easy.
  - intros H. unfold nq. destruct (filter is_queued rs) as [|r l] eqn:E; [easy|]. exfalso.
    assert (G : In r (filter is_queued rs)) by (rewrite E; cbn; auto). apply filter_In in G. destruct G as (G & K).
    apply In_nth_error in G. destruct G as (i & Hi).
    assert (G : In i (queued rs)).
    { unfold queued. apply filter_In. rewrite Hi. split; [|easy]. apply in_seq. split; [lia|]. apply nth_error_Some. congruence. }
    rewrite H in G. easy.
Qed.

Lemma round_step N bs x : 0 < bs -> inv (slots x) (requests x) (wire x) -> all_uniform N (requests x) -> slots x <> [] ->
  exists x', run F eval shift bs (round (map rank (slots x))) x = Some x' /\ inv (slots x') (requests x') (wire x') /\
    map rank (slots x') = map rank (slots x) /\ map st (requests x') = map st (requests x) /\
    (nq (requests x) <> 0 -> nq (requests x') < nq (requests x)) /\
    (nq (requests x) = 0 -> nq (requests x') = 0 /\ forall s, In s (slots x') -> idle s).
Proof.
  intros Hbs I U Hne. unfold round. rewrite run_app.
  destruct (turns_some bs (map rank (slots x)) x I) as (y & E & Iy & Sy & Ry & Wy); [easy|]. rewrite E. cbn.
  unfold poll.
  destruct (collect F shift (slots y) (requests y) (wire y)) as [[[sl rs] w]|] eqn:E1; [|exfalso; revert E1; apply (collect_some _ []); easy].
  destruct (collect_inv _ [] _ _ _ _ _ Iy E1) as (I1 & R1 & S1).
  assert (Rep : forall s, In s (slots y) -> replied (wire y) s).
  { intros s Hs. unfold replied. rewrite Sy in Hs. destruct (wire y (rank s)) as [|a b c|] eqn:Ew; try easy.
    exfalso. revert Ew. apply Wy. left. now apply in_map. }
  destruct (collect_idle _ [] _ _ _ _ _ Iy Rep E1) as (Idle & Q1).
  destruct (dispatch bs sl (queued rs) rs w) as [[[sl2 rs2] w2]|] eqn:E2.
  2:{ exfalso. revert E2. apply (dispatch_some N); [easy|apply queued_waiting|]. unfold all_uniform. rewrite S1, Ry. exact U. }
  destruct (dispatch_inv bs Hbs _ [] _ _ _ _ _ _ I1 (queued_waiting rs) E2) as (I2 & R2 & S2).
  eexists. split; [reflexivity|]. cbn. split; [easy|]. rewrite Sy in R1. rewrite Ry in S1, Q1.
  split; [congruence|]. split; [congruence|]. split.
  - intros K. destruct sl as [|s sl].
    + cbn in R1. destruct (slots x); [easy|discriminate].
    + rewrite <- Q1. eapply dispatch_less; [exact Hbs| | |  |exact E2]; [apply Idle; cbn; auto|apply queued_waiting|].
      intros G. apply nq_queued in G. congruence.
  - intros K. assert (G : queued rs = []) by (apply nq_queued; congruence). rewrite G in E2.
    assert (H : forall sl, dispatch bs sl [] rs w = Some (sl, rs, w)).
    { clear. induction sl as [|s sl IH]; cbn; [easy|]. rewrite IH. now destruct (work s) as [[? ?]|]. }
    rewrite H in E2. inversion E2; subst. split; [congruence|]. exact Idle.
Qed.

Lemma rounds_end N bs k : 0 < bs -> forall x, inv (slots x) (requests x) (wire x) -> all_uniform N (requests x) -> slots x <> [] ->
  nq (requests x) < k ->
  exists x', run F eval shift bs (rounds (map rank (slots x)) k) x = Some x' /\ inv (slots x') (requests x') (wire x') /\
    map st (requests x') = map st (requests x) /\ nq (requests x') = 0 /\ forall s, In s (slots x') -> idle s.
Proof.
  intros Hbs. induction k as [|k IH]; intros x I U Hne Hk; [lia|].
  cbn [rounds]. rewrite run_app.
  destruct (round_step N bs x Hbs I U Hne) as (y & E & Iy & Ry & Sy & Q1 & Q2). rewrite E, <- Ry.
  destruct (Nat.eq_dec (nq (requests x)) 0) as [Z|Z].
  - destruct (Q2 Z) as (Q3 & Idle). clear Q1 Q2.
    destruct k as [|k].
    + exists y. cbn. repeat (split; [easy|]). exact Idle.
    + destruct (IH y Iy) as (x' & E' & I' & S' & Q' & Id').
      * unfold all_uniform. rewrite Sy. exact U.
      * intros K. rewrite K in Ry. destruct (slots x); easy.
      * lia.
      * exists x'. repeat (split; [easy|]). split; [congruence|]. easy.
  - specialize (Q1 Z).
    destruct (IH y Iy) as (x' & E' & I' & S' & Q' & Id').
    + unfold all_uniform. rewrite Sy. exact U.
    + intros K. rewrite K in Ry. destruct (slots x); easy.
    + lia.
    + exists x'. repeat (split; [easy|]). split; [congruence|]. easy.
Qed.
End Data.
