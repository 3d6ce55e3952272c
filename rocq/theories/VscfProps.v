(** * Theorems of record: anharmonic normal modes, modes and samples *)
From Coq Require Import List FinFun Arith ZArith Lia Bool Reals Lra.
From Verif Require Import RSum Ortho MinModel PhonModel VscfModel.
Import ListNotations.
Open Scope R_scope.

(** ** The modes (C223) *)
Definition ascending (n : nat) (ev : vec) : Prop := forall i j, (i <= j)%nat -> (j < n)%nat -> ev i <= ev j.
Lemma tiny2_pos : 0 < tiny2.
Proof. unfold tiny2. apply Rinv_0_lt_compat, pow_lt. lra. Qed.
Lemma tiny2_wmin : tiny2 < wmin * wmin.
Proof. unfold tiny2, wmin. apply (Rmult_lt_reg_r (10 ^ 26)); [apply pow_lt; lra|].
  replace (/ 10 ^ 15 * 10 ^ 26) with (10 ^ 11) by field. replace (91126705 / 10 ^ 13 * (91126705 / 10 ^ 13) * 10 ^ 26) with (91126705 * 91126705) by field. lra. Qed.
Lemma wmin_pos : 0 < wmin.
Proof. unfold wmin. lra. Qed.
(** A filter that keeps what comes first keeps a range. *)
Lemma filter_prefix (f : nat -> bool) n a : (forall i j, (i <= j)%nat -> f j = true -> f i = true) ->
  filter f (seq a n) = seq a (List.length (filter f (seq a n))).
Proof.
  intros M. revert a. induction n as [|n IH]; intros a; [reflexivity|]. cbn [seq filter].
  destruct (f a) eqn:F; [cbn [List.length seq]; now rewrite <- IH|].
  assert (N : filter f (seq (S a) n) = []).
  { clear IH. destruct (filter f (seq (S a) n)) as [|x l] eqn:E; [reflexivity|].
    assert (I : In x (filter f (seq (S a) n))) by (rewrite E; now left). apply filter_In in I. destruct I as [I X].
    apply in_seq in I. now rewrite (M a x ltac:(lia) X) in F. }
  now rewrite N.
Qed.
Lemma filter_ext_in' {A} (f g : A -> bool) l : (forall x, In x l -> f x = g x) -> filter f l = filter g l.
Proof. intros H. induction l as [|a l IH]; [reflexivity|]. cbn. rewrite (H a (or_introl eq_refl)), IH; [reflexivity|]. intros; apply H; now right. Qed.
(** With ascending eigenvalues that are not negative, the zero ones come first. *)
Section Modes.
Variables (n : nat) (ev : vec).
Hypothesis A : ascending n ev.
Hypothesis P : forall k, (k < n)%nat -> 0 <= ev k.
Lemma zero_first k : (k < n)%nat -> (Nat.ltb k (nzero n ev) = true <-> ev k < tiny2).
Proof.
  intros K. unfold nzero. set (f := fun k => if Rlt_dec (Rabs (ev k)) tiny2 then true else false).
  set (g := fun k => Nat.ltb k n && f k).
  assert (E : filter f (seq 0 n) = filter g (seq 0 n)).
  { apply filter_ext_in'. intros x X. apply in_seq in X. unfold g. now rewrite (proj2 (Nat.ltb_lt x n)) by lia. }
  rewrite E.
  assert (M : forall i j, (i <= j)%nat -> g j = true -> g i = true).
  { intros i j L G. unfold g, f in *. apply andb_true_iff in G. destruct G as [G F]. apply Nat.ltb_lt in G.
    rewrite (proj2 (Nat.ltb_lt i n)) by lia. cbn [andb]. destruct (Rlt_dec (Rabs (ev j)) tiny2) as [S|S]; [|discriminate].
    rewrite Rabs_pos_eq in S by auto. pose proof (A i j L G). destruct (Rlt_dec (Rabs (ev i)) tiny2) as [S'|S']; [reflexivity|].
    exfalso. apply S'. rewrite Rabs_pos_eq by (apply P; lia). lra. }
  pose proof (filter_prefix g n 0 M) as Q. set (m := List.length (filter g (seq 0 n))) in *.
  assert (I : In k (filter g (seq 0 n)) <-> In k (seq 0 m)) by (now rewrite Q).
  rewrite filter_In, !in_seq in I. rewrite Nat.ltb_lt.
  unfold g, f in I. rewrite (proj2 (Nat.ltb_lt k n) K) in I. cbn [andb] in I.
  rewrite Rabs_pos_eq in I by auto. destruct (Rlt_dec (ev k) tiny2) as [S|S].
  - split; [easy|]. intros _. destruct I as [I _]. assert (J : (0 <= k < 0 + n)%nat) by lia. specialize (I (conj J eq_refl)). lia.
  - split; [|intros; contradiction]. intros L. destruct I as [_ I]. assert (J : (0 <= k < 0 + m)%nat) by lia. specialize (I J). now destruct I.
Qed.
(** Every frequency is the square root of its eigenvalue, those that count as zero are zero. *)
Theorem freq_is k : (k < n)%nat -> freq n ev k = Some (if Rlt_dec (ev k) tiny2 then 0 else sqrt (ev k)).
Proof.
  intros K. unfold freq. destruct (Nat.ltb k (nzero n ev)) eqn:L.
  - apply zero_first in L; [|easy]. destruct (Rlt_dec _ _); [reflexivity|contradiction].
  - assert (N : ~ ev k < tiny2) by (intros S; apply zero_first in S; [congruence|easy]).
    unfold np_sqrt, zeroed. rewrite Rabs_pos_eq by auto. destruct (Rlt_dec (ev k) tiny2) as [S|_]; [contradiction|].
    pose proof (P k K). destruct (Rlt_dec (ev k) 0); [lra|reflexivity].
Qed.
Lemma slow_is k : (k < n)%nat -> slow (freq n ev k) = if Rlt_dec (ev k) (wmin * wmin) then true else false.
Proof.
  intros K. rewrite freq_is by easy. unfold slow. pose proof tiny2_wmin. pose proof wmin_pos. pose proof (P k K) as PK.
  destruct (Rlt_dec (ev k) tiny2) as [S|S].
  - destruct (Rlt_dec 0 wmin); [|lra]. destruct (Rlt_dec (ev k) (wmin * wmin)); [reflexivity|lra].
  - pose proof (sqrt_sqrt (ev k) PK) as Q. pose proof (sqrt_pos (ev k)).
    destruct (Rlt_dec (sqrt (ev k)) wmin), (Rlt_dec (ev k) (wmin * wmin)); try reflexivity; exfalso; nra.
Qed.
Lemma slow_mono i j : (i <= j)%nat -> (j < n)%nat -> slow (freq n ev j) = true -> slow (freq n ev i) = true.
Proof.
  intros L J. rewrite !slow_is by lia. pose proof (A i j L J). destruct (Rlt_dec (ev j) _); [|discriminate]. intros _.
  destruct (Rlt_dec (ev i) _); [reflexivity|lra].
Qed.
Lemma zero_slow k : (k < n)%nat -> Nat.ltb k (nzero n ev) = true -> slow (freq n ev k) = true.
Proof.
  intros K L. apply zero_first in L; [|easy]. rewrite slow_is by easy. pose proof tiny2_wmin. destruct (Rlt_dec _ _); [reflexivity|lra].
Qed.
Lemma nzero_le : (nzero n ev <= n)%nat.
Proof. unfold nzero. rewrite <- (seq_length n 0) at 2. induction (seq 0 n) as [|x l IH]; cbn; [lia|]. destruct (Rlt_dec _ _); cbn; lia. Qed.
Lemma imf_prefix m : (m <= n)%nat ->
  imf_run n ev m = Imf (Nat.max (nzero n ev) (List.length (filter (fun k => slow (freq n ev k)) (seq 0 m))))
                       (filter (fun k => negb (slow (freq n ev k))) (seq 0 m)) false.
Proof.
  induction m as [|m IH]; intros M; [cbn; now rewrite Nat.max_0_r|].
  unfold imf_run in *. rewrite seq_S, fold_left_app. rewrite IH by lia. cbn [fold_left plus].
  rewrite !filter_app. cbn [filter]. unfold imf_step. cbn [ended nz treated].
  rewrite (proj2 (Nat.eqb_neq m n)) by lia.
  set (z := nzero n ev). set (L := List.length (filter (fun k => slow (freq n ev k)) (seq 0 m))).
  assert (LM : (L <= m)%nat) by (unfold L; rewrite <- (seq_length m 0) at 2; generalize (seq 0 m); intros l; induction l as [|x l IHl]; cbn; [lia|]; destruct (slow _); cbn; lia).
  destruct (slow (freq n ev m)) eqn:SM.
  - assert (AL : L = m).
    { unfold L. rewrite (filter_ext_in' _ (fun _ => true)).
      - rewrite <- (seq_length m 0) at 2. generalize (seq 0 m). intros l. induction l; cbn; congruence.
      - intros x X. apply in_seq in X. apply (slow_mono x m); [lia|lia|easy]. }
    cbn [negb]. rewrite List.app_nil_r, app_length. cbn [List.length]. fold L. rewrite AL.
    destruct (Nat.ltb m (Nat.max z m)) eqn:B.
    + apply Nat.ltb_lt in B. f_equal. lia.
    + apply Nat.ltb_ge in B. f_equal. lia.
  - assert (Z : Nat.ltb m z = false).
    { destruct (Nat.ltb m z) eqn:B; [|reflexivity]. now rewrite (zero_slow m ltac:(lia) B) in SM. }
    apply Nat.ltb_ge in Z. rewrite (proj2 (Nat.ltb_ge m (Nat.max z L))) by lia. cbn [negb]. now rewrite List.app_nil_r.
Qed.
(** After as many steps as there are modes and one more the run is over; the modes treated are those above the
    threshold, each once in ascending order; and the zero modes counted in the end are all the others, so the
    sums of terminate run over the modes treated. *)
Theorem imf_modes steps : (n < steps)%nat ->
  imf_run n ev steps = Imf (List.length (filter (fun k => slow (freq n ev k)) (seq 0 n)))
                           (filter (fun k => negb (slow (freq n ev k))) (seq 0 n)) true.
Proof.
  intros LT. assert (E : forall l s, ended s = true -> fold_left (imf_step n (freq n ev)) l s = s).
  { induction l as [|x l IH]; intros s H; [reflexivity|]. cbn. unfold imf_step at 2. rewrite H. now apply IH. }
  unfold imf_run. replace steps with (n + S (steps - n - 1))%nat by lia. rewrite seq_app, fold_left_app. cbn [seq fold_left plus].
  pose proof (imf_prefix n (Nat.le_refl n)) as Q. unfold imf_run in Q. rewrite Q. unfold imf_step at 2. cbn [ended nz treated].
  rewrite Nat.eqb_refl. rewrite E by reflexivity. f_equal. apply Nat.max_r. pose proof nzero_le as NL.
  assert (F : filter (fun k => slow (freq n ev k)) (seq 0 (nzero n ev)) = seq 0 (nzero n ev)).
  { rewrite (filter_ext_in' _ (fun _ => true)).
    - generalize (seq 0 (nzero n ev)). intros l. induction l; cbn; congruence.
    - intros x X. apply in_seq in X. apply zero_slow; [lia|]. apply Nat.ltb_lt. lia. }
  assert (SP : seq 0 n = seq 0 (nzero n ev) ++ seq (nzero n ev) (n - nzero n ev)) by (rewrite <- seq_app; f_equal; lia).
  rewrite SP, filter_app, F, app_length, seq_length. lia.
Qed.
End Modes.
Print Assumptions freq_is.
Print Assumptions imf_modes.
Definition case_ev : vec := fun k => nth k [0; 0; 1 / 10 ^ 12; 1; 4] 0.
Lemma case_ascending : ascending 5 case_ev /\ (forall k, (k < 5)%nat -> 0 <= case_ev k).
Proof.
  split.
  - intros i j I J. unfold case_ev.
    destruct j as [|[|[|[|[|j]]]]]; [| | | | |lia]; destruct i as [|[|[|[|[|i]]]]]; try lia; cbn; lra.
  - intros k K. unfold case_ev. destruct k as [|[|[|[|[|k]]]]]; [| | | | |lia]; cbn; lra.
Qed.
Lemma case_slow : map (fun k => slow (freq 5 case_ev k)) (seq 0 5) = [true; true; true; false; false].
Proof.
  destruct case_ascending as [A P]. cbn [map seq]. rewrite !(slow_is 5 case_ev A P) by lia. unfold case_ev, wmin. cbn [nth].
  repeat (destruct (Rlt_dec _ _); try lra). reflexivity.
Qed.
Lemma case_nzero : nzero 5 case_ev = 2%nat.
Proof.
  unfold nzero, case_ev, tiny2. cbn [seq filter nth].
  repeat match goal with |- context [Rlt_dec (Rabs ?x) ?y] => rewrite (Rabs_pos_eq x) by lra; destruct (Rlt_dec x y) as [?H|?H]; try (exfalso; lra) end. reflexivity.
Qed.
(** Two zero modes and a slow one: three modes are left out. *)
Example imf_case : nzero 5 case_ev = 2%nat /\ imf_run 5 case_ev 6 = Imf 3 [3; 4]%nat true.
Proof.
  split; [apply case_nzero|]. destruct case_ascending as [A P]. rewrite (imf_modes 5 case_ev A P) by lia.
  pose proof case_slow as E. cbn [map seq] in E. injection E as E0 E1 E2 E3 E4. cbn [seq filter]. now rewrite E0, E1, E2, E3, E4.
Qed.
(** A mode of imaginary frequency, with no zero modes before: its frequency is nan, it is treated, and the walk
    along it does not stop, as no number is above nan ([stop] of every counter is false). *)
Theorem imaginary_refuted : exists n ev k, ascending n ev /\ (k < n)%nat /\ ev k < 0 /\ freq n ev k = None /\
  In k (treated (imf_run n ev (n + 1))) /\ forall fuel d c, walk fuel (fun _ => false) d c = None.
Proof.
  exists 2%nat, (fun k => nth k [-1; 1] 0), 0%nat.
  assert (R1 : Rabs (-1) = 1) by (rewrite Rabs_left; lra).
  assert (Z : nzero 2 (fun k => nth k [-1; 1] 0) = 0%nat).
  { unfold nzero, tiny2. cbn [seq filter nth]. rewrite R1, Rabs_R1. destruct (Rlt_dec 1 (/ 10 ^ 15)); [exfalso; lra|]. reflexivity. }
  assert (F0 : freq 2 (fun k => nth k [-1; 1] 0) 0 = None).
  { unfold freq. rewrite Z. cbn [Nat.ltb Nat.leb]. unfold zeroed, np_sqrt, tiny2. cbn [nth]. rewrite R1.
    destruct (Rlt_dec 1 _); [exfalso; lra|]. destruct (Rlt_dec (-1) 0); [reflexivity|lra]. }
  split; [|split; [lia|split; [cbn; lra|split; [exact F0|split]]]].
  - intros i j I J. destruct j as [|[|j]]; [| |lia]; destruct i as [|[|i]]; try lia; cbn; lra.
  - unfold imf_run. cbn [plus seq fold_left]. rewrite Z. unfold imf_step at 3. cbn [ended Nat.eqb Nat.ltb Nat.leb nz]. rewrite F0. cbn [slow treated app].
    unfold imf_step at 2. cbn [ended Nat.eqb Nat.ltb Nat.leb nz treated].
    destruct (slow _); unfold imf_step; cbn; auto.
  - intros fuel. induction fuel as [|fuel IH]; intros d c; cbn; [reflexivity|]. now rewrite IH.
Qed.
Print Assumptions imaginary_refuted.

(** ** The samples along a mode (C224) *)
Fixpoint arith (k : nat) (d c : Z) : list Z := match k with O => [] | S k => c :: arith k d (c + d) end.
Lemma arith_nth k d c i : (i < k)%nat -> nth i (arith k d c) 0%Z = (c + Z.of_nat i * d)%Z.
Proof. revert c i. induction k as [|k IH]; intros c i I; [lia|]. destruct i as [|i]; cbn [arith nth]; [lia|]. rewrite IH by lia. lia. Qed.
Lemma arith_length k d c : List.length (arith k d c) = k.
Proof. revert c. induction k; intros; cbn; congruence. Qed.
(** A walk that ends visits the counters up to the first that stops it; it ends exactly when there is one. *)
Theorem walk_some fuel stop d c l : walk fuel stop d c = Some l ->
  exists k, (k < fuel)%nat /\ l = arith (S k) d c /\ stop (c + Z.of_nat k * d)%Z = true /\
    forall i, (i < k)%nat -> stop (c + Z.of_nat i * d)%Z = false.
Proof.
  revert c l. induction fuel as [|fuel IH]; intros c l H; [discriminate|]. cbn in H. destruct (stop c) eqn:S.
  - injection H as <-. exists 0%nat. repeat split; [lia| |intros; lia]. now rewrite Z.mul_0_l, Z.add_0_r.
  - destruct (walk fuel stop d (c + d)) as [l'|] eqn:W; [|discriminate]. injection H as <-.
    destruct (IH _ _ W) as (k & K & -> & T & F). exists (Datatypes.S k). repeat split; [lia| |].
    + rewrite <- T. f_equal. lia.
    + intros i I. destruct i as [|i]; [now rewrite Z.mul_0_l, Z.add_0_r|]. rewrite <- (F i) by lia. f_equal. lia.
Qed.
Theorem walk_ends stop d c k : stop (c + Z.of_nat k * d)%Z = true -> exists fuel, walk fuel stop d c <> None.
Proof.
  revert c. induction k as [|k IH]; intros c H.
  - exists 1%nat. cbn. rewrite Z.mul_0_l, Z.add_0_r in H. now rewrite H.
  - destruct (IH (c + d)%Z) as [fuel F]; [rewrite <- H; f_equal; lia|]. exists (Datatypes.S fuel). cbn.
    destruct (stop c); [discriminate|]. now destruct (walk fuel stop d (c + d)).
Qed.
Print Assumptions walk_some.
Print Assumptions walk_ends.
Example walk_case : walk 10 (fun c => Z.ltb 5 c) 2 1 = Some [1; 3; 5; 7]%Z.
Proof. reflexivity. Qed.
(** The test is on the potential alone. *)
Lemma stop_is pot np q v w2 thr a c : stop pot np q v w2 thr a c = if Rlt_dec thr (Rabs (pot (at_ np q v a c) / np - pot q / np)) then true else false.
Proof. unfold stop, dv, v_0. replace (1 / 2 * w2 * (a * IZR c) ^ 2 + (pot (at_ np q v a c) / np - 1 / 2 * w2 * (a * IZR c) ^ 2 - pot q / np)) with (pot (at_ np q v a c) / np - pot q / np) by ring. reflexivity. Qed.
(** The mapping of a potential that stays within the threshold does not end. *)
Theorem mapping_ends_refuted : exists n pot frc np q v w2 fn rms thr, 0 < np /\ 0 < w2 /\ 0 < fn /\ 0 < rms /\ 0 < thr /\
  forall fuel it, density n pot frc np q v w2 fn rms thr fuel it = None.
Proof.
  exists 1%nat, (fun x => Rmin 1 (x 0%nat ^ 2)), (fun _ _ => 0), 1, (fun _ => 0), (fun _ => 1), 2, 1, 1, 2.
  do 5 (split; [lra|]). intros fuel it. unfold density.
  assert (W : forall f a d c, walk f (stop (fun x => Rmin 1 (x 0%nat ^ 2)) 1 (fun _ => 0) (fun _ => 1) 2 2 a) d c = None).
  { induction f as [|f IH]; intros a d c; [reflexivity|]. cbn [walk]. rewrite stop_is.
    set (y := at_ 1 _ _ a c). destruct (Rlt_dec 2 _) as [L|_]; [|now rewrite IH]. exfalso.
    assert (B : 0 <= Rmin 1 (y 0%nat ^ 2) <= 1) by (split; [apply Rmin_glb; [lra|apply pow2_ge_0]|apply Rmin_l]).
    assert (B0 : Rmin 1 (0 ^ 2) = 0) by (rewrite Rmin_right; lra). rewrite B0 in L. unfold Rabs in L. destruct (Rcase_abs _); lra. }
  now rewrite W.
Qed.
Print Assumptions mapping_ends_refuted.

(** *** No configuration twice *)
Lemma NoDup_two {A} (l l' : list A) : NoDup l -> NoDup l' -> (forall x, In x l -> In x l' -> False) -> NoDup (l ++ l').
Proof.
  intros N M. induction N as [|a l I N IH]; intros D; [exact M|]. cbn. constructor.
  - intros X. apply in_app_or in X. destruct X as [X|X]; [now apply I|]. apply (D a); [now left|easy].
  - apply IH. intros x X Y. apply (D x); [now right|easy].
Qed.
Definition amp (t : R * R * R) : R := fst (fst t).
Lemma pow2_inv k : (/ 2) ^ k * 2 ^ k = 1.
Proof. rewrite <- Rpow_mult_distr. replace (/ 2 * 2) with 1 by field. apply pow1. Qed.
(** A displacement of passage [it] is an odd multiple of the unit over 2^it, any multiple for the first. *)
Lemma density_amps n pot frc np q v w2 fn rms thr fuel it l : density n pot frc np q v w2 fn rms thr fuel it = Some l ->
  exists cs, map amp l = map (fun c => nmd fn rms it * IZR c) cs /\ NoDup cs /\ ~ In 0%Z cs /\ (it <> 0%nat -> Forall (fun c => Z.odd c = true) cs).
Proof.
  unfold density. intros H.
  destruct (walk fuel _ (dcount it) 1) as [p|] eqn:WP; [|discriminate]. destruct (walk fuel _ (- dcount it) (-1)) as [m|] eqn:WM; [|discriminate].
  injection H as <-. apply walk_some in WP. apply walk_some in WM. destruct WP as (kp & _ & -> & _ & _), WM as (km & _ & -> & _ & _).
  assert (D : (dcount it = 1 \/ dcount it = 2)%Z /\ (it <> 0%nat -> dcount it = 2%Z)).
  { unfold dcount. destruct (Nat.eqb it 0) eqn:E; [apply Nat.eqb_eq in E|]; split; auto. intros; contradiction. }
  destruct D as [D D2]. exists (arith (S kp) (dcount it) 1 ++ arith (S km) (- dcount it) (-1)).
  assert (IN : forall k d c x, In x (arith k d c) -> exists i, (i < k)%nat /\ x = (c + Z.of_nat i * d)%Z).
  { intros k d c x X. apply (In_nth _ _ 0%Z) in X. destruct X as (i & I & <-). rewrite arith_length in I. exists i. split; [easy|]. now apply arith_nth. }
  assert (ND : forall k d c, d <> 0%Z -> NoDup (arith k d c)).
  { intros k d c ND. apply (NoDup_nth _ 0%Z). intros i j I J E. rewrite arith_length in I, J. rewrite !arith_nth in E by easy. nia. }
  split; [|split; [|split]].
  - rewrite !map_app, !map_map. reflexivity.
  - apply NoDup_two; [apply ND; lia|apply ND; lia|]. intros x X Y. apply IN in X. apply IN in Y. destruct X as (i & _ & ->), Y as (j & _ & E). nia.
  - intros X. apply in_app_or in X. destruct X as [X|X]; apply IN in X; destruct X as (i & _ & E); nia.
  - intros N. specialize (D2 N). apply Forall_forall. intros x X. apply in_app_or in X. destruct X as [X|X]; apply IN in X; destruct X as (i & _ & ->); rewrite D2.
    + replace (1 + Z.of_nat i * 2)%Z with (2 * Z.of_nat i + 1)%Z by ring. now rewrite Z.odd_add_mul_2 || (rewrite Z.add_comm, Z.odd_add_mul_2).
    + replace (-1 + Z.of_nat i * - (2))%Z with (-1 + 2 * (- Z.of_nat i))%Z by ring. now rewrite Z.odd_add_mul_2.
Qed.

(** The amplitudes of all samples of a mode are different: nothing is computed twice. *)
Theorem samples_distinct n pot frc np q v w2 fn rms thr fuel its l : fn * rms <> 0 ->
  densities n pot frc np q v w2 fn rms thr fuel its = Some l -> NoDup (map amp l).
Proof.
  intros U. set (u := fn * rms * 2). assert (U2 : u <> 0) by (unfold u; lra).
  assert (NM : forall it c, nmd fn rms it * IZR c * 2 ^ it = u * IZR c).
  { intros it c. unfold nmd. transitivity (u * IZR c * ((/ 2) ^ it * 2 ^ it)); [unfold u; ring|]. rewrite pow2_inv. ring. }
  assert (G : forall its l, densities n pot frc np q v w2 fn rms thr fuel its = Some l ->
    NoDup (map amp l) /\ (forall x, In x (map amp l) -> exists z, x * 2 ^ its = u * IZR (2 * z)) /\ (its = 0%nat -> map amp l = [0])).
  { clear its l. induction its as [|its IH]; intros l H.
    - injection H as <-. cbn. repeat split; [constructor; [intros []|constructor]|]. intros x [<-|[]]. exists 0%Z. cbn. ring.
    - cbn in H. destruct (densities n pot frc np q v w2 fn rms thr fuel its) as [l1|]; [|discriminate].
      destruct (density n pot frc np q v w2 fn rms thr fuel its) as [l2|] eqn:D; [|discriminate]. injection H as <-.
      destruct (IH l1 eq_refl) as (N1 & E1 & Z1). destruct (density_amps _ _ _ _ _ _ _ _ _ _ _ _ _ D) as (cs & A2 & N2 & Z2 & O2).
      rewrite map_app, A2. split; [|split; [|discriminate]].
      + apply NoDup_two; [exact N1| |].
        * apply FinFun.Injective_map_NoDup; [|exact N2]. intros a b E. apply eq_IZR.
          apply (Rmult_eq_reg_l u); [|exact U2]. rewrite <- !(NM its). now rewrite E.
        * intros x X Y. apply in_map_iff in Y. destruct Y as (c & <- & C). destruct (E1 _ X) as (z & Ez). rewrite NM in Ez.
          apply Rmult_eq_reg_l in Ez; [|exact U2]. apply eq_IZR in Ez. destruct its as [|its].
          -- rewrite Z1 in X by reflexivity. destruct X as [X|[]]. apply Z2. replace 0%Z with c; [exact C|]. apply eq_IZR.
             apply (Rmult_eq_reg_l u); [|exact U2]. rewrite <- (NM 0%nat), <- X. ring.
          -- specialize (O2 ltac:(lia)). rewrite Forall_forall in O2. specialize (O2 c C). rewrite Ez in O2. rewrite Z.odd_mul in O2. discriminate.
      + intros x X. apply in_app_or in X. destruct X as [X|X].
        * destruct (E1 x X) as (z & Ez). exists (2 * z)%Z. cbn [pow]. rewrite (mult_IZR 2 (2 * z)).
          transitivity (2 * (x * 2 ^ its)); [ring|]. rewrite Ez. ring.
        * apply in_map_iff in X. destruct X as (c & <- & _). exists c. cbn [pow]. rewrite mult_IZR.
          transitivity (2 * (nmd fn rms its * IZR c * 2 ^ its)); [ring|]. rewrite NM. ring. }
  intros H. apply (G its l H).
Qed.
Print Assumptions samples_distinct.

(** *** Harmonic potentials *)
Definition harm_pot (n : nat) (e0 : R) (K : MinModel.mat) (q x : vec) : R := e0 + 1 / 2 * dot n (mv n K (vsub x q)) (vsub x q).
Definition harm_frc (n : nat) (K : MinModel.mat) (q x : vec) : vec := fun i => - mv n K (vsub x q) i.
Section Harmonic.
Variables (n : nat) (e0 : R) (K : MinModel.mat) (q v : vec) (w2 np : R).
Hypothesis NP : 0 < np.
(** The mode: its curvature is its eigenvalue. *)
Hypothesis CURV : dot n (mv n K v) v = w2.
Lemma mv_at a c i : mv n K (vsub (at_ np q v a c) q) i = a * sqrt np * IZR c * mv n K v i.
Proof. unfold mv, vsub, at_. rewrite <- Rsum_scal. apply Rsum_ext. intros j _. ring. Qed.
Lemma dot_at a c : dot n (mv n K (vsub (at_ np q v a c) q)) (vsub (at_ np q v a c) q) = (a * IZR c) ^ 2 * np * w2.
Proof.
  unfold dot. rewrite (Rsum_ext n _ (fun i => (a * sqrt np * IZR c) ^ 2 * (mv n K v i * v i))).
  - rewrite Rsum_scal. change (Rsum n (fun i => mv n K v i * v i)) with (dot n (mv n K v) v). rewrite CURV.
    transitivity ((a * IZR c) ^ 2 * (sqrt np * sqrt np) * w2); [ring|]. rewrite sqrt_sqrt by lra. ring.
  - intros i _. rewrite mv_at. unfold vsub, at_. ring.
Qed.
(** Nothing is left of a harmonic potential. *)
Theorem harmonic_potential a c : dv (harm_pot n e0 K q) np q v w2 a c = 0.
Proof.
  unfold dv, v_0, harm_pot at 1. rewrite dot_at. unfold harm_pot.
  assert (Z : dot n (mv n K (vsub q q)) (vsub q q) = 0) by (apply Rsum_0; intros i _; unfold vsub; ring). rewrite Z. field. lra.
Qed.
(** Of its force what is left is proportional to the displacement, and zero for one primitive cell. *)
Theorem harmonic_force a c : df n (harm_frc n K q) np q v w2 a c = w2 * (a * IZR c) * (1 - / sqrt np).
Proof.
  unfold df, harm_frc, dot. pose proof (sqrt_lt_R0 np NP) as S.
  rewrite (Rsum_ext n _ (fun i => - (a * sqrt np * IZR c) * (mv n K v i * v i))) by (intros i _; rewrite mv_at; ring).
  rewrite Rsum_scal. change (Rsum n (fun i => mv n K v i * v i)) with (dot n (mv n K v) v). rewrite CURV.
  transitivity (w2 * (a * IZR c) * (1 - sqrt np / (sqrt np * sqrt np))); [rewrite sqrt_sqrt by lra; field; lra|]. field. lra.
Qed.
(** The walk ends at the first multiple whose energy is above the threshold. *)
Theorem harmonic_stop thr a c : 0 <= w2 -> stop (harm_pot n e0 K q) np q v w2 thr a c = true <-> thr < 1 / 2 * w2 * (a * IZR c) ^ 2.
Proof.
  intros W. unfold stop. rewrite harmonic_potential, Rplus_0_r. rewrite Rabs_pos_eq by (pose proof (pow2_ge_0 (a * IZR c)); nra).
  destruct (Rlt_dec _ _); split; try easy.
Qed.
End Harmonic.
Print Assumptions harmonic_potential.
Print Assumptions harmonic_force.
Print Assumptions harmonic_stop.
(** The force stored is not minus the derivative of the potential stored, with more than one primitive cell:
    for a harmonic potential the potential is zero everywhere and the force is not. *)
Theorem stored_force_refuted : exists n pot frc np q v w2, 0 < np /\ 0 < w2 /\
  (forall a c, dv pot np q v w2 a c = 0) /\ df n frc np q v w2 1 1 = 1 / 2.
Proof.
  exists 1%nat, (harm_pot 1 0 eye (fun _ => 0)), (harm_frc 1 eye (fun _ => 0)), 4, (fun _ => 0), (fun _ => 1), 1.
  assert (C : dot 1 (mv 1 eye (fun _ => 1)) (fun _ => 1) = 1) by (unfold dot, mv, eye, delta; cbn; lra).
  split; [lra|]. split; [lra|]. split; [intros; apply harmonic_potential; [lra|exact C]|].
  rewrite harmonic_force by (lra || exact C). replace 4 with (2 * 2) by ring. rewrite sqrt_square by lra. cbn. lra.
Qed.
Print Assumptions stored_force_refuted.
Example harmonic_case : exists l, densities 1 (harm_pot 1 0 eye (fun _ => 0)) (harm_frc 1 eye (fun _ => 0)) 1 (fun _ => 0) (fun _ => 1) 1 (1 / 2) 1 1 3 2 = Some l /\
  map amp l = [0; 1 * 1; 1 * 2; 1 * -1; 1 * -2; / 2 * 1; / 2 * 3; / 2 * -1; / 2 * -3].
Proof.
  assert (C : dot 1 (mv 1 eye (fun _ => 1)) (fun _ => 1) = 1) by (unfold dot, mv, eye, delta; cbn; lra).
  set (sp := stop (harm_pot 1 0 eye (fun _ => 0)) 1 (fun _ => 0) (fun _ => 1) 1 1).
  assert (T : forall a c, 1 < 1 / 2 * 1 * (a * IZR c) ^ 2 -> sp a c = true) by (intros a c H; apply harmonic_stop; [lra|exact C|lra|exact H]).
  assert (F : forall a c, ~ 1 < 1 / 2 * 1 * (a * IZR c) ^ 2 -> sp a c = false).
  { intros a c H. destruct (sp a c) eqn:E; [|reflexivity]. exfalso. apply H. revert E. apply harmonic_stop; [lra|exact C|lra]. }
  assert (N0 : nmd (1 / 2) 1 0 = 1) by (unfold nmd; cbn; lra). assert (N1 : nmd (1 / 2) 1 1 = / 2) by (unfold nmd; cbn; lra).
  eexists. split.
  - cbn [densities]. unfold density. rewrite N0, N1. unfold dcount. cbn [Nat.eqb]. fold sp. cbn [walk].
    rewrite (F 1 1%Z), (T 1 (1 + 1)%Z), (F 1 (-1)%Z), (T 1 (-1 + - (1))%Z) by (cbn; lra).
    rewrite (F (/ 2) 1%Z), (T (/ 2) (1 + 2)%Z), (F (/ 2) (-1)%Z), (T (/ 2) (-1 + - (2))%Z) by (cbn; lra). reflexivity.
  - reflexivity.
Qed.

(** ** Convergence (C225) *)
(** When the loop ends at a passage after the first, its value differs from the last but one by less than the
    threshold, and no passage before did. *)
Theorem converge_some fuel A m athresh prev i j a : converge fuel A m athresh prev i = Some (j, a) ->
  (i <= j)%nat /\ a = A j /\ Rabs (A j - (if Nat.eqb j i then prev else A (j - 1)%nat)) / m < athresh /\
  forall k, (i <= k < j)%nat -> ~ Rabs (A k - (if Nat.eqb k i then prev else A (k - 1)%nat)) / m < athresh.
Proof.
  revert prev i. induction fuel as [|fuel IH]; intros prev i H; [discriminate|]. cbn in H.
  destruct (Rlt_dec _ _) as [L|L].
  - injection H as <- <-. rewrite Nat.eqb_refl. repeat split; [lia|easy|]. intros k K. lia.
  - destruct (IH _ _ H) as (J & E & C & F). split; [lia|]. split; [exact E|]. rewrite (proj2 (Nat.eqb_neq j i)) by lia. split.
    + destruct (Nat.eqb j (S i)) eqn:Q; [|exact C]. apply Nat.eqb_eq in Q. subst j. replace (S i - 1)%nat with i by lia. exact C.
    + intros k K. destruct (Nat.eqb k i) eqn:Q; [apply Nat.eqb_eq in Q; now subst k|]. apply Nat.eqb_neq in Q.
      specialize (F k ltac:(lia)). destruct (Nat.eqb k (S i)) eqn:Q2; [|exact F]. apply Nat.eqb_eq in Q2. subst k. replace (S i - 1)%nat with i by lia. exact F.
Qed.
Print Assumptions converge_some.
(** The first value is compared with 1e-20: a small one is taken at once, however different the next is. *)
Theorem first_converged_refuted : exists A m athresh, 0 < m /\ 0 < athresh /\
  (forall fuel, converge (S fuel) A m athresh first_A 0 = Some (0%nat, A 0%nat)) /\ ~ Rabs (A 1%nat - A 0%nat) / m < athresh.
Proof.
  exists (fun i => match i with O => 0 | _ => 1 end), 1, (/ 100). split; [lra|]. split; [lra|]. split.
  - intros fuel. cbn. destruct (Rlt_dec _ _) as [_|L]; [reflexivity|]. exfalso. apply L. unfold first_A. rewrite Rminus_0_l, Rabs_Ropp.
    rewrite Rabs_pos_eq by (left; apply Rinv_0_lt_compat, pow_lt; lra). lra.
  - rewrite Rminus_0_r, Rabs_R1. lra.
Qed.
Print Assumptions first_converged_refuted.
Example converge_case : converge 5 (fun i => 1 + (/ 2) ^ i) 1 (/ 5) first_A 0 = Some (3%nat, 1 + (/ 2) ^ 3).
Proof.
  cbn. unfold first_A.
  destruct (Rlt_dec _ _) as [L|_]; [exfalso; rewrite Rabs_pos_eq in L; lra|].
  destruct (Rlt_dec _ _) as [L|_]; [exfalso; rewrite Rabs_left in L; lra|].
  destruct (Rlt_dec _ _) as [L|_]; [exfalso; rewrite Rabs_left in L; lra|].
  destruct (Rlt_dec _ _) as [_|L]; [reflexivity|]. exfalso. apply L. rewrite Rabs_left; lra.
Qed.

(** ** Restarts (C226) *)
(** Samples read from a file are treated with the bases of a new mapping, the first left out. *)
Theorem basis_shift nbasis i : (6 <= nbasis)%nat -> basis_read nbasis i = basis_new nbasis (S i).
Proof. intros N. unfold basis_read, basis_new. lia. Qed.
Print Assumptions basis_shift.
(** They are not those of a new mapping; 10 is the default. *)
Theorem basis_same_refuted : exists nbasis, nbasis = 10%nat /\ forall i, basis_read nbasis i <> basis_new nbasis i.
Proof. exists 10%nat. split; [reflexivity|]. intros i. unfold basis_read, basis_new. lia. Qed.
Print Assumptions basis_same_refuted.
(** The list of modes is read back from its file, unless it has just one mode. *)
Theorem modes_kept n w : List.length (modes n w) <> 1%nat -> modes_read (modes n w) = Some (modes n w).
Proof. intros H. unfold modes_read. now rewrite (proj2 (Nat.eqb_neq _ _) H). Qed.
Print Assumptions modes_kept.
(** A diatomic molecule has one. *)
Theorem modes_kept_refuted : exists n w, n = 6%nat /\ modes n w = [5]%nat /\ modes_read (modes n w) = None.
Proof.
  exists 6%nat, (fun k => if Nat.eqb k 5 then Some 1 else Some 0). split; [reflexivity|].
  assert (E : modes 6 (fun k => if Nat.eqb k 5 then Some 1 else Some 0) = [5]%nat).
  { unfold modes. cbn [seq filter Nat.eqb slow]. unfold wmin.
    destruct (Rlt_dec 0 (91126705 / 10 ^ 13)) as [_|N]; [|exfalso; lra]. destruct (Rlt_dec 1 (91126705 / 10 ^ 13)) as [N|_]; [exfalso; lra|]. reflexivity. }
  rewrite E. split; reflexivity.
Qed.
Print Assumptions modes_kept_refuted.
(** The potential offset printed is that of the minimum if at least one mode was mapped in this run. *)
Theorem offset_is read ms v0 : existsb (fun k => negb (read k)) ms = true -> offset read ms v0 = v0.
Proof.
  unfold offset. assert (K : forall l, fold_left (fun o k => if read k then o else v0) l v0 = v0).
  { induction l as [|a l IH]; [reflexivity|]. cbn. now destruct (read a). }
  generalize 0. induction ms as [|a l IH]; intros o H; [discriminate|]. cbn in *. destruct (read a); cbn in H; [now apply IH|apply K].
Qed.
Print Assumptions offset_is.
Theorem offset_refuted : exists read ms v0, ms <> [] /\ v0 <> 0 /\ offset read ms v0 = 0.
Proof. exists (fun _ => true), [5%nat], 1. split; [discriminate|]. split; [lra|]. reflexivity. Qed.
Print Assumptions offset_refuted.
Example offset_case : offset (fun k => Nat.eqb k 3) [3; 4; 5]%nat 7 = 7.
Proof. reflexivity. Qed.
