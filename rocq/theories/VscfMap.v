(** * Theorems of record: anharmonic normal modes, maps and mean field *)
From Coq Require Import List FinFun Arith ZArith Lia Bool Reals Lra.
From Verif Require Import RSum MinModel PhonModel VscfModel VscfProps.
Import ListNotations.
Open Scope R_scope.

(** ** The sequence of steps (C229) *)
Lemma pairs_in l a b : In (a, b) (pairs l) <-> exists l1 l2, l = l1 ++ a :: l2 /\ In b l2.
Proof.
  induction l as [|x l IH]; cbn [pairs].
  - split; [intros []|]. intros (l1 & l2 & E & _). now destruct l1.
  - rewrite in_app_iff, in_map_iff, IH. split.
    + intros [(y & E & Y)|(l1 & l2 & -> & B)]; [injection E as -> ->; now exists [], l|]. now exists (x :: l1), l2.
    + intros (l1 & l2 & E & B). destruct l1 as [|z l1]; injection E as -> ->; [left; eauto|right; eauto].
Qed.
Lemma pairs_length l : (2 * List.length (pairs l) = List.length l * (List.length l - 1))%nat.
Proof. induction l as [|x l IH]; [reflexivity|]. cbn [pairs]. rewrite app_length, map_length. cbn [List.length]. destruct (List.length l); nia. Qed.
Lemma pairs_nodup l : NoDup l -> NoDup (pairs l).
Proof.
  intros N. induction N as [|x l X N IH]; cbn [pairs]; [constructor|]. apply NoDup_two; [|exact IH|].
  - apply Injective_map_NoDup; [intros a b E; now injection E|exact N].
  - intros [a b] H1 H2. apply in_map_iff in H1. destruct H1 as (y & E & _). injection E as <- _. apply pairs_in in H2.
    destruct H2 as (l1 & l2 & -> & _). apply X. apply in_or_app. right. now left.
Qed.
(** Ascending modes: the pairs are all with [a < b], each once. *)
Theorem pairs_all n w a b : In (a, b) (pairs (modes n w)) <-> In a (modes n w) /\ In b (modes n w) /\ (a < b)%nat.
Proof.
  unfold modes. set (f := fun k => negb (slow (w k))). generalize 0%nat as o. induction n as [|n IH]; intros o; [cbn; tauto|].
  cbn [seq filter]. destruct (f o) eqn:F; [|apply IH].
  assert (G : forall x, In x (filter f (seq (S o) n)) -> (o < x)%nat) by (intros x X; apply filter_In in X; destruct X as [X _]; apply in_seq in X; lia).
  cbn [pairs]. rewrite in_app_iff, in_map_iff, IH. cbn [In]. split.
  - intros [(y & E & Y)|(A & B & L)]; [injection E as <- <-; specialize (G y Y); auto|auto].
  - intros ([<-|A] & [B|B] & L); [lia|left; eauto|subst b; specialize (G a A); lia|right; auto].
Qed.
Lemma modes_nodup n w : NoDup (modes n w).
Proof. apply NoDup_filter, seq_NoDup. Qed.
Theorem pairs_once n w : NoDup (pairs (modes n w)).
Proof. apply pairs_nodup, modes_nodup. Qed.
Lemma nth_error_map_seq {A} (l : list A) : map (fun i => nth_error l i) (seq 0 (List.length l)) = map Some l.
Proof.
  assert (G : forall l2 l1 : list A, map (fun i => nth_error (l1 ++ l2) i) (seq (List.length l1) (List.length l2)) = map Some l2).
  { induction l2 as [|a l2 IH]; intros l1; [reflexivity|]. cbn [List.length seq map]. f_equal.
    - now rewrite nth_error_app2, Nat.sub_diag by lia.
    - specialize (IH (l1 ++ [a])). rewrite <- app_assoc in IH. cbn [app] in IH. rewrite app_length in IH. cbn in IH. now rewrite Nat.add_1_r in IH. }
  exact (G l []).
Qed.
Lemma seq_from k a : seq k a = map (plus k) (seq 0 a).
Proof. revert k. induction a as [|a IH]; intros k; [reflexivity|]. cbn [seq map]. f_equal; [lia|]. rewrite (IH (S k)), (IH 1%nat), map_map. apply map_ext. intros; lia. Qed.
Lemma nth_seq_all (l : list nat) : map (fun s => nth s l 0%nat) (seq 0 (List.length l)) = l.
Proof.
  induction l as [|a l IH]; [reflexivity|]. cbn [List.length seq map]. f_equal. rewrite (seq_from 1), map_map. exact IH.
Qed.
(** With all pairs: first the offset, then each mode once, then each pair once, then the solution. *)
Theorem vscf_sequence inms solve : let N := List.length inms in let M := List.length (pairs inms) in
  map (vscf_phase inms 0 M solve) (seq 0 (1 + N + M)) = Offset :: map Mode1 inms ++ map (fun p => Pair (fst p) (snd p)) (pairs inms) /\
  forall s, (N + M < s)%nat -> vscf_phase inms 0 M solve s = if solve then Solve else Terminate.
Proof.
  intros N M. split.
  - replace (1 + N + M)%nat with (1 + (N + M))%nat by lia. rewrite seq_app. cbn [seq app map]. rewrite seq_app, map_app.
    cbn [vscf_phase Nat.eqb]. f_equal. f_equal.
    + transitivity (map Mode1 (map (fun s => nth s inms 0%nat) (seq 0 N))); [|unfold N; now rewrite nth_seq_all].
      rewrite (seq_from (0 + 1)), !map_map. apply map_ext_in. intros s H. apply in_seq in H. unfold vscf_phase.
      rewrite (proj2 (Nat.eqb_neq (0 + 1 + s) 0)) by lia.
      rewrite (proj2 (Nat.leb_le (0 + 1 + s) (List.length inms))) by (fold N; lia). do 2 f_equal. lia.
    + transitivity (map (fun o => match o with Some p => Pair (fst p) (snd p) | None => Index_error end) (map (fun i => nth_error (pairs inms) i) (seq 0 M))).
      * rewrite map_map. replace (0 + 1 + N)%nat with (1 + N)%nat by lia. rewrite (seq_from (1 + N)), map_map. apply map_ext_in. intros s H. apply in_seq in H. unfold vscf_phase.
        rewrite (proj2 (Nat.eqb_neq (1 + N + s) 0)) by lia. rewrite (proj2 (Nat.leb_gt (1 + N + s) (List.length inms))) by (fold N; lia).
        fold N. replace (1 + N + s - N - 1)%nat with s by lia. rewrite (proj2 (Nat.ltb_lt s M)) by lia. cbn [Nat.leb].
        destruct (nth_error (pairs inms) s) as [[a b]|]; reflexivity.
      * unfold M. rewrite nth_error_map_seq, map_map. reflexivity.
  - intros s H. unfold vscf_phase. fold N. rewrite (proj2 (Nat.eqb_neq s 0)), (proj2 (Nat.leb_gt s N)) by lia.
    rewrite (proj2 (Nat.ltb_ge (s - N - 1) M)) by lia. reflexivity.
Qed.
Print Assumptions pairs_all.
Print Assumptions pairs_once.
Print Assumptions vscf_sequence.
Example sequence_case : map (vscf_phase [3; 4; 5]%nat 0 3 true) (seq 0 8) =
  [Offset; Mode1 3; Mode1 4; Mode1 5; Pair 3 4; Pair 3 5; Pair 4 5; Solve].
Proof. reflexivity. Qed.

(** ** The map of one mode (C230) *)
Lemma some_inj {A} (x y : A) : Some x = Some y -> x = y.
Proof. congruence. Qed.
Lemma arith_last k d c : last (arith (S k) d c) 0%Z = (c + Z.of_nat k * d)%Z.
Proof.
  assert (E : arith (S k) d c = arith k d c ++ [c + Z.of_nat k * d]%Z).
  { revert c. induction k as [|k IH]; intros c; [cbn; f_equal; lia|]. change (arith (S (S k)) d c) with (c :: arith (S k) d (c + d)). rewrite IH.
    cbn [arith app]. do 2 f_equal. f_equal. lia. }
  rewrite E. apply last_last.
Qed.
Lemma arith_map k d c : arith k d c = map (fun i => c + Z.of_nat i * d)%Z (seq 0 k).
Proof.
  revert c. induction k as [|k IH]; intros c; [reflexivity|]. cbn [arith seq map]. f_equal; [lia|]. rewrite IH, <- seq_shift, map_map. apply map_ext. intros; lia.
Qed.
Lemma arith_app a b d c : arith (a + b) d c = arith a d c ++ arith b d (c + Z.of_nat a * d)%Z.
Proof.
  rewrite !arith_map, seq_app, map_app. f_equal. rewrite (seq_from (0 + a)), map_map. apply map_ext. intros; lia.
Qed.
Lemma rev_arith k : rev (arith k (-1) 0) = map (fun i => Z.of_nat i - Z.of_nat k + 1)%Z (seq 0 k).
Proof.
  induction k as [|k IH]; [reflexivity|]. rewrite <- (Nat.add_1_r k), arith_app, rev_app_distr, IH. cbn [arith rev app].
  rewrite Nat.add_1_r. cbn [seq map]. f_equal; [lia|]. rewrite (seq_from 1), map_map. apply map_ext. intros; lia.
Qed.
(** The list has the potential at every multiple of the unit from [-(neg + 2)] to [pos + 2], in this order; the
    multiples with [neg] and [pos] are the first on their sides above the threshold. *)
Theorem mapper_some fuel V v0 thr neg pos l : V 0%Z = v0 -> mapper fuel V v0 thr = Some (neg, pos, l) ->
  l = map (fun i => V (Z.of_nat i - Z.of_nat neg - 2)%Z) (seq 0 (neg + pos + 1 + 4)) /\
  (1 <= neg)%nat /\ (1 <= pos)%nat /\ thr < Rabs (V (- Z.of_nat neg)%Z - v0) /\ thr < Rabs (V (Z.of_nat pos) - v0) /\
  forall k, (- Z.of_nat neg < k < Z.of_nat pos)%Z -> k <> 0%Z -> Rabs (V k - v0) <= thr.
Proof.
  intros V0. unfold mapper. set (st := fun c => if Rlt_dec thr (Rabs (V c - v0)) then true else false).
  destruct (walk fuel st (-1) (-1)) as [m|] eqn:WM; [|discriminate]. destruct (walk fuel st 1 1) as [p|] eqn:WP; [|discriminate].
  apply walk_some in WM. apply walk_some in WP. destruct WM as (km & _ & -> & TM & FM), WP as (kp & _ & -> & TP & FP).
  rewrite !arith_last.
  replace (Z.to_nat (- (-1 + Z.of_nat km * -1))) with (S km) by lia. replace (Z.to_nat (1 + Z.of_nat kp * 1)) with (S kp) by lia.
  intros H. apply some_inj in H. apply pair_equal_spec in H. destruct H as [H <-]. apply pair_equal_spec in H. destruct H as [<- <-].
  split; [|split; [lia|split; [lia|]]].
  - rewrite <- (map_map (fun i => (Z.of_nat i - Z.of_nat (S km) - 2)%Z) V).
    transitivity (map V (rev (arith (S km + 3) (-1) 0) ++ arith (S kp + 2) 1 1)).
    + rewrite map_app, map_rev. f_equal; [f_equal|].
      * replace (S km + 3)%nat with (1 + (S km + 2))%nat by lia. rewrite arith_app, map_app, arith_app, map_app. cbn [arith map app]. f_equal; [now symmetry|].
        repeat (f_equal; try lia).
      * rewrite arith_app, map_app. cbn [arith map app]. repeat (f_equal; try lia).
    + f_equal. rewrite rev_arith, arith_map. replace (S km + S kp + 1 + 4)%nat with ((S km + 3) + (S kp + 2))%nat by lia.
      rewrite (seq_app (S km + 3) (S kp + 2)), map_app. f_equal; [apply map_ext; intros; lia|]. rewrite (seq_from (0 + (S km + 3))), map_map. apply map_ext. intros; lia.
  - assert (T : forall c, st c = true <-> thr < Rabs (V c - v0)) by (intros c; unfold st; destruct (Rlt_dec _ _); split; easy).
    split; [apply T; rewrite <- TM; f_equal; lia|]. split; [apply T; rewrite <- TP; f_equal; lia|].
    intros k K NZ. apply Rnot_lt_le. rewrite <- T. intros E. destruct (Z_lt_le_dec k 0) as [L|L].
    + specialize (FM (Z.to_nat (- k - 1)) ltac:(lia)). replace (-1 + Z.of_nat (Z.to_nat (- k - 1)) * -1)%Z with k in FM by lia. congruence.
    + specialize (FP (Z.to_nat (k - 1)) ltac:(lia)). replace (1 + Z.of_nat (Z.to_nat (k - 1)) * 1)%Z with k in FP by lia. congruence.
Qed.
Print Assumptions mapper_some.
(** The displacements listed are those of the potentials. *)
Theorem displacements_match u neg pos i : (i < neg + pos + 1 + 4)%nat ->
  nth_error (displacements u neg pos) i = Some (u * IZR (Z.of_nat i - Z.of_nat neg - 2)).
Proof.
  intros I. unfold displacements. rewrite (map_nth_error _ i _ (d := i)).
  - f_equal. f_equal. rewrite !minus_IZR, <- !INR_IZR_INZ. lra.
  - rewrite (nth_error_nth' _ 0%nat) by (now rewrite seq_length). now rewrite seq_nth.
Qed.
Print Assumptions displacements_match.
Example mapper_case : mapper 5 (fun c => IZR c ^ 2) 0 3 = Some (2%nat, 2%nat, map (fun c => IZR c ^ 2) [-4; -3; -2; -1; 0; 1; 2; 3; 4]%Z).
Proof.
  unfold mapper. cbn [walk].
  repeat match goal with |- context [Rlt_dec ?x (Rabs (?y - ?z))] => let H := fresh in destruct (Rlt_dec x (Rabs (y - z))) as [H|H];
    rewrite Rabs_pos_eq in H by (cbn; lra); cbn in H; try lra; clear H end.
  cbn [last]. change (Z.to_nat (- (-1 + -1))) with 2%nat. change (Z.to_nat (1 + 1)) with 2%nat. f_equal. f_equal. cbn [map rev app].
  replace (IZR 0 ^ 2) with 0 by (cbn; ring). reflexivity.
Qed.

(** ** Maps of pairs (C231) *)
(** What a map is of: the potential at the amplitudes of both modes. *)
Section Pairs.
Variables (n nzb : nat) (inms : list nat) (kn : nat -> known) (V2 : nat -> nat -> R -> R -> R) (V1 : nat -> R -> R).
(** The modes are the last ones, all but the [nzb] zero modes. *)
Hypothesis LAST : (nzb <= n)%nat /\ inms = seq nzb (n - nzb).
(** The potentials of each mode are those of the map of one mode. *)
Hypothesis MAPS : forall k, In k inms -> k_v (kn k) =
  map (fun i => V1 k (k_unit (kn k) * IZR (Z.of_nat i - Z.of_nat (k_neg (kn k)) - 2))) (seq 0 (k_neg (kn k) + k_pos (kn k) + 1 + 4)).
(** Displacements along one of two modes are displacements along it. *)
Hypothesis AXES : forall a b x, V2 a b x 0 = V1 a x /\ V2 a b 0 x = V1 b x.
Definition amp_at (k i : nat) : R := k_unit (kn k) * IZR (Z.of_nat i - Z.of_nat (k_neg (kn k)) - 2).
Lemma len_inms : List.length inms = (n - nzb)%nat.
Proof. destruct LAST as [_ ->]. apply seq_length. Qed.
Lemma v_list_at k : In k inms -> get (v_list inms kn) (k - nzb) = Some (k_v (kn k)).
Proof.
  intros I. pose proof LAST as [L E]. rewrite E in I. apply in_seq in I. unfold get, v_list. rewrite E.
  rewrite (map_nth_error _ (k - nzb) _ (d := k)); [reflexivity|]. rewrite (nth_error_nth' _ 0%nat) by (rewrite seq_length; lia). rewrite seq_nth by lia. f_equal. lia.
Qed.
Lemma d_list_at k : In k inms -> get (d_list n inms kn) k = Some (displacements (k_unit (kn k)) (k_neg (kn k)) (k_pos (kn k))).
Proof.
  intros I. pose proof LAST as [L E]. unfold get, d_list. rewrite len_inms. rewrite E in I. apply in_seq in I.
  rewrite nth_error_app2 by (rewrite repeat_length; lia). rewrite repeat_length. rewrite E.
  rewrite (map_nth_error _ _ _ (d := k)); [reflexivity|]. rewrite (nth_error_nth' _ 0%nat) by (rewrite seq_length; lia). rewrite seq_nth by lia. f_equal. lia.
Qed.
Lemma k_v_at k i : In k inms -> (i < k_neg (kn k) + k_pos (kn k) + 1 + 4)%nat -> get (k_v (kn k)) i = Some (V1 k (amp_at k i)).
Proof.
  intros K I. rewrite MAPS by easy. unfold get. rewrite (map_nth_error _ i _ (d := i)); [reflexivity|].
  rewrite (nth_error_nth' _ 0%nat) by (now rewrite seq_length). now rewrite seq_nth.
Qed.
(** Every value stored for a pair is the potential at the two displacements, those on the axes taken from the
    maps of one mode included. *)
Theorem coupled_is a b i j : In a inms -> In b inms ->
  (i < k_neg (kn a) + k_pos (kn a) + 1 + 4)%nat -> (j < k_neg (kn b) + k_pos (kn b) + 1 + 4)%nat ->
  coupled n inms nzb kn (V2 a b) a b i j = Some (V2 a b (amp_at a i) (amp_at b j)).
Proof.
  intros A B I J. unfold coupled. destruct (Nat.eqb i (k_neg (kn a) + 2)) eqn:Q.
  - apply Nat.eqb_eq in Q. rewrite v_list_at by easy. cbn [bind2]. rewrite k_v_at by easy.
    assert (Z : amp_at a i = 0) by (unfold amp_at; subst i; replace (Z.of_nat (k_neg (kn a) + 2) - Z.of_nat (k_neg (kn a)) - 2)%Z with 0%Z by lia; ring).
    rewrite Z. now rewrite (proj2 (AXES a b _)).
  - destruct (Nat.eqb j (k_neg (kn b) + 2)) eqn:R.
    + apply Nat.eqb_eq in R. rewrite v_list_at by easy. cbn [bind2]. rewrite k_v_at by easy.
      assert (Z : amp_at b j = 0) by (unfold amp_at; subst j; replace (Z.of_nat (k_neg (kn b) + 2) - Z.of_nat (k_neg (kn b)) - 2)%Z with 0%Z by lia; ring).
      rewrite Z. now rewrite (proj1 (AXES a b _)).
    + rewrite !d_list_at by easy. cbn [bind2]. unfold get. rewrite !displacements_match by easy. reflexivity.
Qed.
End Pairs.
Print Assumptions coupled_is.
(** Three modes, one of them zero, and a coupling [x^2 y^2]. *)
Example coupled_case : exists kn, forall i j, (i < 7)%nat -> (j < 7)%nat ->
  coupled 3 [1; 2]%nat 1 kn (fun x y => x ^ 2 + y ^ 2 + x ^ 2 * y ^ 2) 1 2 i j =
  Some ((IZR (Z.of_nat i - 3) ^ 2 + 1) * ((2 * IZR (Z.of_nat j - 3)) ^ 2 + 1) - 1).
Proof.
  set (u := fun k : nat => INR k).
  set (kn := fun k : nat => Known 1 1 (u k) (map (fun i => (u k * IZR (Z.of_nat i - Z.of_nat 1 - 2)) ^ 2) (seq 0 7))).
  exists kn. intros i j I J.
  rewrite (coupled_is 3 1 [1; 2]%nat kn (fun _ _ x y => x ^ 2 + y ^ 2 + x ^ 2 * y ^ 2) (fun _ x => x ^ 2)).
  - f_equal. unfold amp_at, kn, u. cbn [k_unit k_neg]. replace (Z.of_nat i - Z.of_nat 1 - 2)%Z with (Z.of_nat i - 3)%Z by lia.
    replace (Z.of_nat j - Z.of_nat 1 - 2)%Z with (Z.of_nat j - 3)%Z by lia. cbn [INR]. ring.
  - split; [lia|reflexivity].
  - reflexivity.
  - intros a b x. split; ring.
  - now left.
  - right; now left.
  - exact I.
  - exact J.
Qed.
Lemma filter_no {A} (l : list A) : filter (fun _ => false) l = [].
Proof. induction l; auto. Qed.
Lemma filter_all {A} (l : list A) : filter (fun _ => true) l = l.
Proof. induction l; cbn; congruence. Qed.
(** The hypothesis on the modes holds when no frequency lies between that of a zero mode and 2 cm^-1. *)
Theorem modes_last n ev : ascending n ev -> (forall k, (k < n)%nat -> 0 <= ev k) ->
  (forall k, (k < n)%nat -> ev k < tiny2 \/ wmin * wmin <= ev k) ->
  (nzero n ev <= n)%nat /\ modes n (freq n ev) = seq (nzero n ev) (n - nzero n ev).
Proof.
  intros A P G. pose proof (nzero_le n ev) as L. split; [exact L|]. unfold modes.
  assert (SP : seq 0 n = seq 0 (nzero n ev) ++ seq (nzero n ev) (n - nzero n ev)) by (rewrite <- seq_app; f_equal; lia).
  rewrite SP, filter_app.
  assert (Z : forall k, (k < n)%nat -> slow (freq n ev k) = Nat.ltb k (nzero n ev)).
  { intros k K. rewrite (slow_is n ev A P) by easy. pose proof (zero_first n ev A P k K) as F. pose proof tiny2_wmin.
    destruct (G k K) as [S|S].
    - destruct (Rlt_dec _ _); [|lra]. symmetry. now apply F.
    - destruct (Rlt_dec _ _); [lra|]. destruct (Nat.ltb k (nzero n ev)); [|reflexivity]. destruct F as [F _]. specialize (F eq_refl). lra. }
  rewrite (filter_ext_in' _ (fun _ => false) (seq 0 (nzero n ev))), (filter_ext_in' _ (fun _ => true) (seq (nzero n ev) _)).
  - now rewrite filter_no, filter_all.
  - intros x X. apply in_seq in X. rewrite Z by lia. now rewrite (proj2 (Nat.ltb_ge _ _)) by lia.
  - intros x X. apply in_seq in X. rewrite Z by lia. now rewrite (proj2 (Nat.ltb_lt _ _)) by lia.
Qed.
Print Assumptions modes_last.
(** With a slow mode that is not zero, the potentials are looked up at the wrong place: the value on the axis of
    one mode is that of another, and the last is outside the list. *)
Theorem coupled_refuted : exists n ev kn V2, ascending n ev /\ (forall k, (k < n)%nat -> 0 <= ev k) /\
  let inms := modes n (freq n ev) in inms = [3; 4]%nat /\ nzero n ev = 2%nat /\
  (forall k, In k inms -> k_v (kn k) = map (fun i => INR k * (k_unit (kn k) * IZR (Z.of_nat i - Z.of_nat (k_neg (kn k)) - 2)) ^ 2) (seq 0 (k_neg (kn k) + k_pos (kn k) + 1 + 4))) /\
  (forall x y, V2 x y = INR 3 * x ^ 2 + INR 4 * y ^ 2) /\
  coupled n inms (nzero n ev) kn V2 3 4 3 0 = None /\
  coupled n inms (nzero n ev) kn V2 3 4 0 3 = Some 36 /\ V2 (-3) 0 = 27.
Proof.
  set (kn := fun k : nat => Known 1 1 1 (map (fun i => INR k * (1 * IZR (Z.of_nat i - Z.of_nat 1 - 2)) ^ 2) (seq 0 7))).
  exists 5%nat, case_ev, kn, (fun x y => INR 3 * x ^ 2 + INR 4 * y ^ 2). destruct case_ascending as [A P]. split; [exact A|]. split; [exact P|].
  assert (E : modes 5 (freq 5 case_ev) = [3; 4]%nat).
  { unfold modes. pose proof case_slow as S. cbn [map seq] in S. injection S as S0 S1 S2 S3 S4. cbn [seq filter]. now rewrite S0, S1, S2, S3, S4. }
  cbv zeta. rewrite E, case_nzero. split; [reflexivity|]. split; [reflexivity|]. split; [reflexivity|]. split; [reflexivity|].
  split; [reflexivity|]. split; [|cbn; lra]. unfold coupled, kn. cbn. f_equal. ring.
Qed.
Print Assumptions coupled_refuted.

(** ** Density and mean field (C232) *)
Section Density.
Variables (ng : nat) (T : R) (e : vec) (p : nat -> nat -> R).
(** The states are normalised on the grid. *)
Hypothesis NORM : forall k, Rsum ng (p k) = 1.
Lemma boltz_pos k : 0 < boltz T e k.
Proof. apply exp_pos. Qed.
Lemma boltz_0 : boltz T e 0 = 1.
Proof. unfold boltz. rewrite <- exp_0. f_equal. unfold Rdiv. ring. Qed.
Lemma rho_den k : Rsum ng (rho ng T (S k) e p) = 1 /\ Rsum ng (fun g => rho ng T k e p g + boltz T e k * p k g) = (match k with O => 0 | _ => 1 end) + boltz T e k.
Proof.
  induction k as [|k [IH1 IH2]].
  - assert (S0 : Rsum ng (fun g => rho ng T 0 e p g + boltz T e 0 * p 0%nat g) = 0 + boltz T e 0) by (rewrite Rsum_plus, Rsum_scal, NORM; cbn [rho]; rewrite Rsum_0 by easy; ring).
    split; [|exact S0]. cbn [rho]. rewrite Rsum_div. cbn [rho] in S0. rewrite S0. pose proof (boltz_pos 0). field. lra.
  - assert (S0 : Rsum ng (fun g => rho ng T (S k) e p g + boltz T e (S k) * p (S k) g) = 1 + boltz T e (S k)) by (rewrite Rsum_plus, Rsum_scal, NORM, IH1; ring).
    split; [|exact S0]. change (rho ng T (S (S k)) e p) with (fun g => (rho ng T (S k) e p g + boltz T e (S k) * p (S k) g) / Rsum ng (fun g => rho ng T (S k) e p g + boltz T e (S k) * p (S k) g)).
    rewrite Rsum_div, S0. pose proof (boltz_pos (S k)). field. lra.
Qed.
(** The density adds up to one, *)
Theorem rho_normalised nb : (0 < nb)%nat -> Rsum ng (rho ng T nb e p) = 1.
Proof. destruct nb as [|k]; [lia|]. intros _. apply rho_den. Qed.
(** What it should be. *)
Definition thermal (nb : nat) (g : nat) : R := Rsum nb (fun k => boltz T e k * p k g) / Rsum nb (boltz T e).
(** and with one or two states it is the thermal density. *)
Theorem rho_two g : rho ng T 1 e p g = thermal 1 g /\ rho ng T 2 e p g = thermal 2 g.
Proof.
  pose proof boltz_0 as B0. pose proof (boltz_pos 1) as B1.
  assert (R1 : rho ng T 1 e p g = p 0%nat g).
  { change (rho ng T 1 e p g) with ((rho ng T 0 e p g + boltz T e 0 * p 0%nat g) / Rsum ng (fun g => rho ng T 0 e p g + boltz T e 0 * p 0%nat g)).
    rewrite (proj2 (rho_den 0)). cbn [rho]. rewrite B0. field. }
  split.
  - rewrite R1. unfold thermal. cbn [Rsum]. rewrite B0. field.
  - change (rho ng T 2 e p g) with ((rho ng T 1 e p g + boltz T e 1 * p 1%nat g) / Rsum ng (fun g => rho ng T 1 e p g + boltz T e 1 * p 1%nat g)).
    rewrite (proj2 (rho_den 1)), R1. unfold thermal. cbn [Rsum]. rewrite B0. field. lra.
Qed.
End Density.
Print Assumptions rho_normalised.
Print Assumptions rho_two.
(** With three states of the same energy the last has half of the density. *)
Theorem thermal_refuted : exists ng T e p g, (forall k, (k < 3)%nat -> Rsum ng (p k) = 1) /\
  rho ng T 3 e p g = 1 / 2 /\ thermal T e p 3 g = 1 / 3.
Proof.
  set (p := fun k g => delta (Nat.min k 2) g). exists 3%nat, 1, (fun _ => 0), p, 2%nat.
  assert (N : forall k, Rsum 3 (p k) = 1).
  { intros k. unfold p. rewrite (Rsum_ext 3 _ (fun g => 1 * delta (Nat.min k 2) g)) by (intros; ring). rewrite (Rsum_delta_l 3 (Nat.min k 2) (fun _ => 1)) by lia. reflexivity. }
  assert (B : forall k, boltz 1 (fun _ => 0) k = 1) by (intros k; unfold boltz; rewrite <- exp_0; f_equal; lra).
  split; [intros; apply N|]. split.
  - change (rho 3 1 3 (fun _ => 0) p 2%nat) with ((rho 3 1 2 (fun _ => 0) p 2%nat + boltz 1 (fun _ => 0) 2 * p 2%nat 2%nat) / Rsum 3 (fun g => rho 3 1 2 (fun _ => 0) p g + boltz 1 (fun _ => 0) 2 * p 2%nat g)).
    rewrite (proj2 (rho_den 3 1 (fun _ => 0) p N 2)). rewrite (proj2 (rho_two 3 1 (fun _ => 0) p N 2)). unfold thermal. cbn [Rsum]. rewrite !B. unfold p, delta. cbn. lra.
  - unfold thermal. cbn [Rsum]. rewrite !B. unfold p, delta. cbn. lra.
Qed.
Print Assumptions thermal_refuted.
(** The mean field with alpha = 1 is the potential of the mode and the couplings averaged over the others. *)
Theorem mft_one vi old C : mft 1 vi old C = vi + C.
Proof. unfold mft. ring. Qed.
(** A field that does not change is the one with the potential of the mode divided by alpha. *)
Theorem mft_fixed alpha vi C v : alpha <> 0 -> (mft alpha vi v C = v <-> v = vi / alpha + C).
Proof.
  intros N. unfold mft. split.
  - intros H. apply (Rmult_eq_reg_l alpha); [|exact N]. replace (alpha * (vi / alpha + C)) with (vi + alpha * C) by (field; exact N). lra.
  - intros ->. field. exact N.
Qed.
Print Assumptions mft_one.
Print Assumptions mft_fixed.
(** So mixing changes the result: it is not the self-consistent field. *)
Theorem mixing_refuted : exists alpha vi C v, 0 < alpha < 1 /\ mft alpha vi v C = v /\ v <> vi + C.
Proof. exists (1 / 2), 1, 3, 5. unfold mft. repeat split; lra. Qed.
Print Assumptions mixing_refuted.
(** Couplings that are zero leave the potentials as they are. *)
Theorem mean_field_none ng np inms vc r a g : (forall b h, In b inms -> (h < ng)%nat -> vc a b g h = 0) -> mean_field ng np inms vc r a g = 0.
Proof.
  intros H. unfold mean_field. rewrite (Rsuml_map_ext _ (fun _ => 0)); [rewrite Rsuml_map_const; ring|].
  intros b B. rewrite Rsum_0; [unfold Rdiv; ring|]. intros h HL. destruct (Nat.eqb a b); [ring|]. rewrite H by easy. ring.
Qed.
(** Couplings that do not depend on the other mode are added as they are, once for each other mode. *)
Theorem mean_field_constant ng inms c vc r a g : (forall b h, In b inms -> vc a b g h = c) -> (forall b, In b inms -> Rsum ng (r b) = 1) ->
  mean_field ng 1 inms vc r a g = INR (List.length (filter (fun b => negb (Nat.eqb a b)) inms)) * c.
Proof.
  intros H N. unfold mean_field. induction inms as [|b l IH]; [cbn; ring|]. cbn [map filter].
  change (Rsuml (?x :: ?y)) with (x + Rsuml y). rewrite IH by (intros; (apply H || apply N); now right).
  destruct (Nat.eqb a b) eqn:E; cbn [negb].
  - rewrite (Rsum_0 ng) by (intros; ring). unfold Rdiv. ring.
  - cbn [List.length]. rewrite S_INR. rewrite (Rsum_ext ng _ (fun h => c * r b h)) by (intros h _; rewrite H by (now left); reflexivity).
    rewrite Rsum_scal, N by (now left). field.
Qed.
Print Assumptions mean_field_none.
Print Assumptions mean_field_constant.
Example mean_field_case : mean_field 2 1 [0; 1; 2]%nat (fun _ _ _ _ => 5) (fun _ h => delta h 0) 1 0 = 10.
Proof. unfold mean_field, delta. cbn. lra. Qed.
