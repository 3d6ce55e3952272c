(** * Sums over selected atoms (used by the estimators) *)
From Coq Require Import String Ascii List Reals Lra Lia Arith Bool ZArith.
From Verif Require Import RSum NMModel SCModel TextLib ValModel ValProps EstModel.
Import ListNotations.
Open Scope R_scope.

Lemma Rsum_3 n x : Rsum (3 * n) x = Rsum n (fun i => sum3 i x).
Proof.
  induction n as [|n IH]; [easy|]. replace (3 * S n)%nat with (S (S (S (3 * n))))%nat by lia. cbn [Rsum].
  rewrite IH. unfold sum3. replace (3 * n + 1)%nat with (S (3 * n)) by lia. replace (3 * n + 2)%nat with (S (S (3 * n))) by lia. lra.
Qed.
Lemma div3 i a : (a < 3)%nat -> ((3 * i + a) / 3 = i)%nat.
Proof. intros H. rewrite Nat.mul_comm, Nat.div_add_l by lia. rewrite Nat.div_small by easy. lia. Qed.
Lemma sum3_ext i x y : (forall c, (3 * i <= c < 3 * i + 3)%nat -> x c = y c) -> sum3 i x = sum3 i y.
Proof. intros H. unfold sum3. rewrite !H by lia. easy. Qed.
Lemma sum3_scal i c x : sum3 i (fun j => c * x j) = c * sum3 i x.
Proof. unfold sum3. lra. Qed.
Lemma sum3_scal_r i c x : sum3 i (fun j => x j * c) = sum3 i x * c.
Proof. unfold sum3. lra. Qed.
Lemma sum3_plus i x y : sum3 i (fun j => x j + y j) = sum3 i x + sum3 i y.
Proof. unfold sum3. lra. Qed.
Lemma sum3_Rsum i n x : sum3 i (fun j => Rsum n (fun b => x b j)) = Rsum n (fun b => sum3 i (x b)).
Proof. unfold sum3. rewrite !Rsum_plus. easy. Qed.
Lemma sum3_nonneg i x : (forall c, (3 * i <= c < 3 * i + 3)%nat -> 0 <= x c) -> 0 <= sum3 i x.
Proof. intros H. unfold sum3. pose proof (H (3 * i)%nat). pose proof (H (3 * i + 1)%nat). pose proof (H (3 * i + 2)%nat).
  assert (0 <= x (3 * i)%nat) by (apply H; lia). assert (0 <= x (3 * i + 1)%nat) by (apply H; lia).
  assert (0 <= x (3 * i + 2)%nat) by (apply H; lia). lra. Qed.
Lemma sum3_if (b : bool) i x : sum3 i (fun j => if b then 0 else x j) = if b then 0 else sum3 i x.
Proof. destruct b; unfold sum3; lra. Qed.

Lemma teq_refl a : teq a a = true.
Proof. unfold teq. destruct list_eq_dec; congruence. Qed.
Lemma teq_spec a b : teq a b = true <-> a = b.
Proof. unfold teq. destruct list_eq_dec; split; congruence. Qed.
Lemma teq_diff a b : a <> b -> teq a b = false.
Proof. unfold teq. destruct list_eq_dec; congruence. Qed.

Lemma read_int_nil : read_int [] = None.
Proof. reflexivity. Qed.
Lemma resolve_nil n : resolve n [] = Some ((-1)%Z, []).
Proof. unfold resolve. now rewrite read_int_nil. Qed.
Lemma resolve_label n l : read_int l = None -> resolve n l = Some ((-1)%Z, l).
Proof. unfold resolve. now intros ->. Qed.
Lemma read_int_show z : read_int (show_z z) = Some z.
Proof. apply read_show. Qed.
Lemma show_not_nil z : show_z z <> [].
Proof. intros H. pose proof (read_int_show z) as X. rewrite H in X. discriminate. Qed.
Lemma resolve_index n i : (i < n)%nat -> resolve n (show_z (Z.of_nat i)) = Some (Z.of_nat i, []).
Proof. intros H. unfold resolve. rewrite read_int_show. destruct (Z.leb_spec (Z.of_nat n) (Z.of_nat i)); [lia|easy]. Qed.
Lemma resolve_range n z : (Z.of_nat n <= z)%Z -> resolve n (show_z z) = None.
Proof. intros H. unfold resolve. rewrite read_int_show. destruct (Z.leb_spec (Z.of_nat n) z); [easy|lia]. Qed.

Lemma skip_all s i : skip s [] ((-1)%Z, []) i = false.
Proof. reflexivity. Qed.
Lemma skip_label s l i : l <> [] -> skip s l ((-1)%Z, l) i = negb (teq l (lab s i)).
Proof.
  intros H. unfold skip. rewrite (teq_diff l []) by easy. cbn [fst snd negb andb].
  destruct (Z.eqb_spec (-1) (Z.of_nat i)); [lia|]. easy.
Qed.
Lemma skip_index s z i : lab s i <> [] -> skip s (show_z z) (z, []) i = negb (Z.eqb z (Z.of_nat i)).
Proof.
  intros H. unfold skip. rewrite (teq_diff (show_z z) []) by apply show_not_nil. cbn [fst snd negb andb].
  rewrite (teq_diff [] (lab s i)) by congruence. now rewrite andb_true_r.
Qed.

Lemma sum_over_all s x : sum_over s [] ((-1)%Z, []) x = Rsum (na s) x.
Proof. unfold sum_over. apply Rsum_ext. intros i _. now rewrite skip_all. Qed.
Lemma sum_over_plus s a w x y : sum_over s a w (fun i => x i + y i) = sum_over s a w x + sum_over s a w y.
Proof. unfold sum_over. rewrite <- Rsum_plus. apply Rsum_ext. intros i _. destruct skip; lra. Qed.
Lemma sum_over_scal s a w c x : sum_over s a w (fun i => c * x i) = c * sum_over s a w x.
Proof. unfold sum_over. rewrite <- Rsum_scal. apply Rsum_ext. intros i _. destruct skip; lra. Qed.
Lemma sum_over_scal_r s a w c x : sum_over s a w (fun i => x i * c) = sum_over s a w x * c.
Proof. unfold sum_over. rewrite <- Rsum_scal_r. apply Rsum_ext. intros i _. destruct skip; lra. Qed.
Lemma sum_over_ext s a w x y : (forall i, (i < na s)%nat -> skip s a w i = false -> x i = y i) -> sum_over s a w x = sum_over s a w y.
Proof. intros H. unfold sum_over. apply Rsum_ext. intros i Hi. destruct (skip s a w i) eqn:E; auto. Qed.
Lemma sum_over_const s a w c : sum_over s a w (fun _ => c) = count_over s a w * c.
Proof. unfold count_over. rewrite <- sum_over_scal_r. apply sum_over_ext. intros. lra. Qed.
Lemma sum_over_index s i x : (forall j, (j < na s)%nat -> lab s j <> []) -> (i < na s)%nat ->
  sum_over s (show_z (Z.of_nat i)) (Z.of_nat i, []) x = x i.
Proof.
  intros H Hi. unfold sum_over. rewrite (Rsum_delta _ i).
  - rewrite skip_index by auto. now rewrite Z.eqb_refl.
  - easy.
  - intros j Hj Hn. rewrite skip_index by auto. destruct (Z.eqb_spec (Z.of_nat i) (Z.of_nat j)); [lia|easy].
Qed.

(** the atoms of one label are counted once over labels without repetition *)
Lemma label_once (l : list text) t x : NoDup l -> In t l -> Rsuml (map (fun u => if negb (teq u t) then 0 else x) l) = x.
Proof.
  induction l as [|u l IH]; intros N H; [easy|]. inversion_clear N. cbn. destruct (teq u t) eqn:E; cbn.
  - apply teq_spec in E. subst u. assert (Z : Rsuml (map (fun u => if negb (teq u t) then 0 else x) l) = 0); [|lra].
    rewrite (Rsuml_map_ext _ (fun _ => 0)); [rewrite Rsuml_map_const; lra|]. intros v Hv. rewrite teq_diff; [easy|]. now intros ->.
  - destruct H as [->|H]; [now rewrite teq_refl in E|]. rewrite IH by easy. lra.
Qed.
Lemma sum_over_labels s (l : list text) x : NoDup l -> (forall i, (i < na s)%nat -> In (lab s i) l) ->
  (forall t, In t l -> t <> []) ->
  Rsuml (map (fun t => sum_over s t ((-1)%Z, t) x) l) = Rsum (na s) x.
Proof.
  intros N H Hl. unfold sum_over. rewrite Rsuml_map_Rsum. apply Rsum_ext. intros i Hi.
  rewrite (Rsuml_map_ext _ (fun u => if negb (teq u (lab s i)) then 0 else x i)).
  - apply label_once; auto.
  - intros t Ht. now rewrite skip_label by auto.
Qed.
