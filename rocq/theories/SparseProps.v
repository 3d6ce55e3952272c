(** * Theorems of record: sparse matrices and netstrings *)
From Coq Require Import String Ascii List Arith Lia Bool DecimalNat DecimalString DecimalFacts.
From Verif Require Import PlanModel.
Import ListNotations.
Open Scope list_scope.

(** ** C194: a matrix is recovered from its compressed form *)
Section Sp.
Variable A : Type.
Variable zero : A.
Variable nz : A -> bool.
(** Only the zero counts as zero. *)
Hypothesis nz_zero : forall x, nz x = false -> x = zero.

Lemma filter_flat {B C} (p : C -> bool) (f : B -> list C) l : filter p (flat_map f l) = flat_map (fun x => filter p (f x)) l.
Proof. induction l as [|x l IH]; [easy|]. cbn. now rewrite filter_app, IH. Qed.
Lemma list_prod_flat {B C} (l : list B) (l' : list C) : list_prod l l' = flat_map (fun x => map (pair x) l') l.
Proof. induction l as [|x l IH]; [easy|]. cbn. now rewrite IH. Qed.
Definition block (n : nat) (M : nat -> nat -> A) (r : nat) : list (nat * nat) := filter (fun x => nz (M (fst x) (snd x))) (map (pair r) (seq 0 n)).
Lemma where_blocks m n M : where_nz A nz m n M = flat_map (block n M) (seq 0 m).
Proof. unfold where_nz. now rewrite list_prod_flat, filter_flat. Qed.
Lemma block_row n M r x : In x (block n M r) -> fst x = r.
Proof. intros H. apply filter_In in H. destruct H as [H _]. apply in_map_iff in H. destruct H as [c [<- _]]. easy. Qed.
Lemma bump_length l i : List.length (bump l i) = List.length l.
Proof. unfold bump. rewrite <- (firstn_skipn i l) at 3. rewrite !app_length. f_equal. now destruct (skipn i l). Qed.
Lemma bump_sum l : forall i k, i < List.length l -> list_sum (firstn k (bump l i)) = list_sum (firstn k l) + (if i <? k then 1 else 0).
Proof.
  unfold bump. induction l as [|x l IH]; intros i k H; [cbn in H; lia|]. destruct i as [|i].
  - destruct k as [|k]; [easy|]. cbn. lia.
  - destruct k as [|k]; [easy|]. cbn [firstn skipn app]. change (list_sum (?a :: ?b)) with (a + list_sum b). rewrite IH by (cbn in H; lia).
    replace (S i <? S k) with (i <? k) by (symmetry; destruct (Nat.ltb_spec i k); [apply Nat.ltb_lt|apply Nat.ltb_ge]; lia). lia.
Qed.
Lemma bumps_sum rows : forall l k, Forall (fun r => r + 1 < List.length l) rows ->
  list_sum (firstn k (fold_left (fun l r => bump l (r + 1)) rows l)) = list_sum (firstn k l) + List.length (filter (fun r => r + 1 <? k) rows)
  /\ List.length (fold_left (fun l r => bump l (r + 1)) rows l) = List.length l.
Proof.
  induction rows as [|r rows IH]; intros l k H; [cbn; lia|]. inversion H; subst. cbn [fold_left filter]. destruct (IH (bump l (r + 1)) k) as [E1 E2]; [now rewrite bump_length|].
  rewrite E1, E2, bump_length, bump_sum by easy. destruct (r + 1 <? k); cbn; lia.
Qed.
Lemma cumsum_nth l : forall acc r, r < List.length l -> nth r (cumsum acc l) 0 = acc + list_sum (firstn (S r) l).
Proof.
  induction l as [|x l IH]; intros acc r H; [cbn in H; lia|]. cbn [cumsum]. destruct r as [|r]; [cbn; lia|]. cbn [nth]. rewrite IH by (cbn in H; lia).
  change (firstn (S (S r)) (x :: l)) with (x :: firstn (S r) l). change (list_sum (x :: ?b)) with (x + list_sum b). lia.
Qed.
Lemma list_sum_zeros k n : list_sum (firstn k (repeat 0 n)) = 0.
Proof. revert k. induction n; intros [|k]; cbn; auto. Qed.
Lemma filter_all {B} (p : B -> bool) l : Forall (fun x => p x = true) l -> filter p l = l.
Proof. induction 1 as [|x l H _ IH]; [easy|]. cbn. now rewrite H, IH. Qed.
Lemma filter_none {B} (p : B -> bool) l : Forall (fun x => p x = false) l -> filter p l = [].
Proof. induction 1 as [|x l H _ IH]; [easy|]. cbn. now rewrite H, IH. Qed.
Lemma rows_in n M s k : Forall (fun r => s <= r < s + k) (map fst (flat_map (block n M) (seq s k))).
Proof.
  apply Forall_forall. intros r H. apply in_map_iff in H. destruct H as [x [<- H]]. apply in_flat_map in H. destruct H as [y [Hy H]].
  apply in_seq in Hy. rewrite (block_row _ _ _ _ H). easy.
Qed.
(** The pointers are the numbers of entries of the rows before. *)
Lemma pointers_nth m n M r : r <= m -> nth r (pointers m (map fst (where_nz A nz m n M))) 0 = List.length (flat_map (block n M) (seq 0 r)).
Proof.
  intros H. unfold pointers. rewrite where_blocks.
  assert (F : Forall (fun r => r + 1 < List.length (repeat 0 (m + 1))) (map fst (flat_map (block n M) (seq 0 m)))).
  { eapply Forall_impl; [|apply rows_in]. intros a Ha. cbn beta in *. rewrite repeat_length. lia. }
  destruct (bumps_sum _ (repeat 0 (m + 1)) (S r) F) as [E1 E2]. rewrite cumsum_nth by (rewrite E2, repeat_length; lia).
  rewrite E1, list_sum_zeros. cbn [plus]. replace m with (r + (m - r)) at 1 by lia. rewrite seq_app, flat_map_app, map_app, filter_app. cbn [plus].
  rewrite (filter_all _ (map fst (flat_map (block n M) (seq 0 r)))), (filter_none _ (map fst (flat_map (block n M) (seq r (m - r))))).
  - rewrite List.app_nil_r, map_length. reflexivity.
  - eapply Forall_impl; [|apply rows_in]. intros a Ha. cbn beta in *. apply Nat.ltb_ge. lia.
  - eapply Forall_impl; [|apply rows_in]. intros a Ha. cbn beta in *. apply Nat.ltb_lt. lia.
Qed.
Lemma slice_mid {B} (a b c : list B) : slice (a ++ b ++ c) (List.length a) (List.length (a ++ b)) = b.
Proof. unfold slice. rewrite skipn_app, skipn_all, Nat.sub_diag. cbn [skipn app]. rewrite List.app_length. replace (_ + _ - _) with (List.length b) by lia. rewrite firstn_app, firstn_all, Nat.sub_diag. cbn. apply List.app_nil_r. Qed.
Lemma slice_block {B} (g : nat * nat -> B) m n M r : r < m ->
  let p := pointers m (map fst (where_nz A nz m n M)) in
  slice (map g (where_nz A nz m n M)) (nth r p 0) (nth (r + 1) p 0) = map g (block n M r).
Proof.
  intros H. cbn zeta. rewrite !pointers_nth by lia. rewrite where_blocks. replace m with (r + (1 + (m - r - 1))) by lia.
  rewrite !seq_app, !flat_map_app, !map_app. cbn [plus seq flat_map]. rewrite List.app_nil_r.
  rewrite <- (map_length g (flat_map (block n M) (seq 0 r))), <- (map_length g (_ ++ _)), map_app. apply slice_mid.
Qed.
Lemma assign_block (M : nat -> nat -> A) (r c : nat) (l : list (nat * nat)) : Forall (fun x => fst x = r) l -> forall row,
  assign A row (map snd l) (map (fun x => M (fst x) (snd x)) l) c = if existsb (fun x => snd x =? c) l then M r c else row c.
Proof.
  induction 1 as [|x l H _ IH]; intros row; [easy|]. cbn [map assign existsb]. rewrite IH. rewrite (Nat.eqb_sym (snd x) c).
  destruct (existsb _ l); [now rewrite orb_true_r|]. rewrite orb_false_r. destruct (Nat.eqb_spec c (snd x)); [now subst|easy].
Qed.
Lemma row_recovered m n M r c : r < m -> c < n -> row_of A zero (Sparse "" (map (fun x => M (fst x) (snd x)) (where_nz A nz m n M))
  (pointers m (map fst (where_nz A nz m n M))) (map snd (where_nz A nz m n M)) m n) r c = M r c.
Proof.
  intros Hr Hc. unfold row_of. cbn [ja ia a_]. rewrite !slice_block by easy. rewrite assign_block with (r := r).
  2:{ apply Forall_forall. apply block_row. }
  destruct (existsb _ _) eqn:E; [easy|]. symmetry. apply nz_zero. destruct (nz (M r c)) eqn:Z; [|easy].
  assert (X : existsb (fun x => snd x =? c) (block n M r) = true); [|congruence].
  apply existsb_exists. exists (r, c). split; [|apply Nat.eqb_refl]. apply filter_In. split; [|exact Z]. apply in_map, in_seq. lia.
Qed.
Theorem csr_recovered m n M r c : r < m -> c < n -> toarray A zero (csr_of A nz m n M) r c = M r c.
Proof.
  intros Hr Hc. unfold toarray. cbn [csr_of kind String.eqb Ascii.eqb Bool.eqb]. unfold csr_toarray. change (m_ (csr_of A nz m n M)) with m. destruct (Nat.ltb_spec r m); [|lia].
  now apply (row_recovered m n M r c).
Qed.
Theorem csc_recovered m n M r c : r < m -> c < n -> toarray A zero (csc_of A nz m n M) r c = M r c.
Proof.
  intros Hr Hc. unfold toarray. cbn [csc_of kind String.eqb Ascii.eqb Bool.eqb]. unfold csc_toarray. change (n_ (csc_of A nz m n M)) with n. destruct (Nat.ltb_spec c n); [|lia].
  now apply (row_recovered n m (fun i j => M j i) c r).
Qed.
(** The values stored are exactly the entries that are not zero, none twice. *)
Theorem csr_stored m n M : List.length (a_ (csr_of A nz m n M)) = List.length (ja (csr_of A nz m n M)) /\
  Forall (fun x => nz x = true) (a_ (csr_of A nz m n M)) /\
  nth m (ia (csr_of A nz m n M)) 0 = List.length (a_ (csr_of A nz m n M)) /\
  List.length (ia (csr_of A nz m n M)) = m + 1.
Proof.
  cbn [csr_of a_ ja ia]. rewrite !map_length. split; [easy|]. split; [|split].
  - apply Forall_forall. intros x H. apply in_map_iff in H. destruct H as [y [<- H]]. apply filter_In in H. easy.
  - rewrite pointers_nth by lia. now rewrite where_blocks.
  - unfold pointers. assert (CL : forall l acc, List.length (cumsum acc l) = List.length l) by (induction l; intros; cbn; auto).
    assert (F : Forall (fun r => r + 1 < List.length (repeat 0 (m + 1))) (map fst (where_nz A nz m n M))).
    { rewrite where_blocks. eapply Forall_impl; [|apply rows_in]. intros a Ha. cbn beta in *. rewrite repeat_length. lia. }
    rewrite CL, (proj2 (bumps_sum _ _ 0 F)). apply repeat_length.
Qed.
(** Saved and loaded it is the same matrix. *)
Theorem saved_loaded m n M : load_npz A (save_npz A (csr_of A nz m n M)) = csr_of A nz m n M /\ load_npz A (save_npz A (csc_of A nz m n M)) = csc_of A nz m n M.
Proof. split; reflexivity. Qed.
(** Sums, differences and products are taken entry by entry. *)
Theorem elementwise_entries op x y r c : r < m_ x -> c < n_ x ->
  toarray A zero (elementwise A zero nz op x y) r c = op (toarray A zero x r c) (toarray A zero y r c).
Proof. intros. unfold elementwise. now rewrite csr_recovered. Qed.
End Sp.
(** Cases: the matrix [[0;5;0];[0;0;0];[7;0;9]]. *)
Definition M3 (i j : nat) : nat := match i, j with 0, 1 => 5 | 2, 0 => 7 | 2, 2 => 9 | _, _ => 0 end.
Example csr_case : csr_of nat (fun x => negb (x =? 0)) 3 3 M3 = Sparse "csr" [5; 7; 9] [0; 1; 1; 3] [1; 0; 2] 3 3.
Proof. reflexivity. Qed.
Example csc_case : csc_of nat (fun x => negb (x =? 0)) 3 3 M3 = Sparse "csc" [7; 5; 9] [0; 1; 2; 3] [2; 0; 2] 3 3.
Proof. reflexivity. Qed.
Example nz_case : forall x, negb (x =? 0) = false -> x = 0.
Proof. intros x H. now apply negb_false_iff, Nat.eqb_eq in H. Qed.

(** ** C195: netstrings *)
Lemma uint_digits d : forall rest, read_digits (NilEmpty.string_of_uint d ++ String ":" rest) = (NilEmpty.string_of_uint d, String ":" rest).
Proof.
  induction d; intros rest; [reflexivity|..]; cbn [NilEmpty.string_of_uint String.append read_digits is_digit existsb Ascii.eqb Bool.eqb orb]; now rewrite IHd.
Qed.
Lemma to_uint_shape n : 0 < n -> Nat.to_uint n <> Decimal.Nil /\ forall d, Nat.to_uint n <> Decimal.D0 d.
Proof.
  intros H. pose proof (Unsigned.of_to n) as E. pose proof (Unsigned.to_of (Nat.to_uint n)) as T. rewrite E in T.
  assert (Z : Decimal.nzhead (Nat.to_uint n) <> Decimal.Nil).
  { intros Q. apply unorm_0 in Q. rewrite Q in T. rewrite T in E. cbn in E. lia. }
  rewrite (unorm_nzhead _ Z) in T. split.
  - intros Q. rewrite Q in E. cbn in E. lia.
  - intros d Q. rewrite Q in T at 1. symmetry in T. now apply nzhead_nonzero in T.
Qed.
Lemma take_app a b : take (String.length a) (a ++ b) = (a, b).
Proof. induction a as [|c a IH]; [now destruct b|]. cbn. now rewrite IH. Qed.
Lemma append_assoc a b c : ((a ++ b) ++ c = a ++ (b ++ c))%string.
Proof. induction a as [|x a IH]; [easy|]. cbn. now rewrite IH. Qed.
(** A frame is read back, and reading stops right behind it. *)
Theorem netstring_roundtrip c rest : c <> ""%string -> netstring_read (frame c ++ rest) = inl (c, rest).
Proof.
  intros H. assert (L : 0 < String.length c) by (destruct c; [easy|cbn; lia]). destruct (to_uint_shape _ L) as [N Z].
  unfold frame. rewrite !append_assoc. assert (E : str_len c = NilEmpty.string_of_uint (Nat.to_uint (String.length c))) by (unfold str_len; now destruct (Nat.to_uint _)).
  rewrite E. cbn [String.append]. pose proof (uint_digits (Nat.to_uint (String.length c)) (c ++ "," ++ rest)) as RD.
  assert (TI : to_int (NilEmpty.string_of_uint (Nat.to_uint (String.length c))) = Some (String.length c)).
  { unfold to_int. rewrite NilEmpty.usu. pose proof (Unsigned.of_to (String.length c)) as X. destruct (Nat.to_uint (String.length c)); congruence. }
  assert (F : exists k t, NilEmpty.string_of_uint (Nat.to_uint (String.length c)) = String k t /\ Ascii.eqb k "0" = false).
  { destruct (Nat.to_uint (String.length c)) eqn:U; [easy|now elim (Z u)|..]; eexists; eexists; split; reflexivity. }
  destruct F as (k & t & Fk & F0). unfold netstring_read. cbn [String.append] in RD.
  destruct (NilEmpty.string_of_uint (Nat.to_uint (String.length c)) ++ String ":" (c ++ String "," rest))%string as [|k' t'] eqn:W.
  { rewrite Fk in W. discriminate W. }
  assert (K : k' = k) by (rewrite Fk in W; cbn in W; congruence). subst k'. rewrite F0, RD. cbn [Ascii.eqb Bool.eqb]. rewrite TI.
  pose proof (take_app c (String "," rest)) as TA. rewrite TA. reflexivity.
Qed.
(** So are several in a row. *)
Theorem netstrings_roundtrip l rest : Forall (fun c => c <> ""%string) l ->
  read_all (List.length l) (fold_right (fun c s => frame c ++ s)%string rest l) = inl (l, rest).
Proof.
  induction 1 as [|c l H _ IH]; [reflexivity|]. cbn [List.length read_all fold_right]. rewrite netstring_roundtrip by easy. now rewrite IH.
Qed.
(** What is read was framed with its length, whatever the text. *)
Lemma take_spec n : forall s a b, take n s = (a, b) -> s = (a ++ b)%string /\ String.length a <= n /\ (b <> ""%string -> String.length a = n).
Proof.
  induction n as [|n IH]; intros s a b H.
  - cbn in H. injection H as <- <-. cbn. repeat split; lia.
  - destruct s as [|k s]; cbn in H; [injection H as <- <-; cbn; repeat split; [lia|congruence]|].
    destruct (take n s) as [x y] eqn:E. injection H as <- <-. destruct (IH _ _ _ E) as (X1 & X2 & X3). cbn. repeat split; [now rewrite X1|lia|intros Q; now rewrite X3].
Qed.
Lemma read_digits_spec s : forall d r, read_digits s = (d, r) -> s = (d ++ r)%string.
Proof. induction s as [|c s IH]; intros d r H; cbn [read_digits] in H; [injection H as <- <-; reflexivity|]. destruct (is_digit c); [|injection H as <- <-; reflexivity].
  destruct (read_digits s) as [x y]. injection H as <- <-. cbn. now rewrite <- (IH x y). Qed.
Theorem netstring_read_shape s c rest : netstring_read s = inl (c, rest) ->
  exists d, to_int d = Some (String.length c) /\ s = (d ++ ":" ++ c ++ "," ++ rest)%string.
Proof.
  unfold netstring_read. destruct s as [|k s]; [easy|]. destruct (Ascii.eqb k "0"); [easy|]. destruct (read_digits (String k s)) as [d r] eqn:R.
  destruct r as [|k1 r1]; [easy|]. destruct (Ascii.eqb_spec k1 ":"); [|easy]. subst k1. destruct (to_int d) as [n|] eqn:T; [|easy]. destruct (take n r1) as [x r2] eqn:K.
  destruct r2 as [|k2 r3]; [easy|]. destruct (Ascii.eqb_spec k2 ","); [|easy]. intros Q; injection Q as <- <-. subst k2. destruct (take_spec _ _ _ _ K) as (E1 & _ & E3).
  exists d. rewrite E3 by easy. split; [exact T|]. rewrite (read_digits_spec _ _ _ R), E1. reflexivity.
Qed.
(** An empty content is written but not read. *)
Theorem netstring_empty_refuted : exists c rest, frame c = "0:,"%string /\ netstring_read (frame c ++ rest) = inr ValueError.
Proof. exists ""%string, ""%string. split; reflexivity. Qed.
(** The function of the code writes nothing: numpy gives bytes to a buffer of characters.  With a
    buffer of bytes it would write the frame. *)
Theorem netstring_save_refuted c : netstring_encoded_savez c = inr TypeError.
Proof. reflexivity. Qed.
Theorem netstring_save_bytes c : netstring_savez Bytes c = inl (frame c).
Proof. reflexivity. Qed.
Example frames_case : netstring_read (frame "hello world!" ++ frame "x") = inl ("hello world!", "1:x,")%string
  /\ frame "hello world!" = "12:hello world!,"%string.
Proof. split; reflexivity. Qed.

Print Assumptions csr_recovered.
Print Assumptions csc_recovered.
Print Assumptions csr_stored.
Print Assumptions saved_loaded.
Print Assumptions elementwise_entries.
Print Assumptions netstring_roundtrip.
Print Assumptions netstrings_roundtrip.
Print Assumptions netstring_read_shape.
Print Assumptions netstring_empty_refuted.
Print Assumptions netstring_save_refuted.
Print Assumptions netstring_save_bytes.
