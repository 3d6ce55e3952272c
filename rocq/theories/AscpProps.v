(** * Free energies of self consistent phonons: theorems of record *)
From Coq Require Import List Arith Lia Bool String Reals Lra Psatz.
From Coquelicot Require Import Coquelicot.
From Verif Require Import AscpModel.
Import ListNotations.
Open Scope R_scope.
Open Scope list_scope.

(** ** Sums *)
Lemma total_scal c l : total (map (fun x => c * x) l) = c * total l.
Proof. induction l as [|a l IH]; cbn; [ring|]. unfold total in IH. cbn in IH. rewrite IH. ring. Qed.
Lemma total_pos A (f : A -> R) l : l <> [] -> (forall a, In a l -> 0 < f a) -> 0 < total (map f l).
Proof.
  intros N. destruct l as [|a l]; [contradiction|]. clear N. revert a. induction l as [|b l IH]; intros a H; cbn.
  - specialize (H a (or_introl eq_refl)). lra.
  - pose proof (IH b (fun x i => H x (or_intror i))) as P. specialize (H a (or_introl eq_refl)). cbn in P. lra.
Qed.
Lemma total_nonneg A (f : A -> R) l : (forall a, In a l -> 0 <= f a) -> 0 <= total (map f l).
Proof. induction l as [|a l IH]; intros H; cbn; [lra|]. specialize (IH (fun x i => H x (or_intror i))). specialize (H a (or_introl eq_refl)). unfold total in IH. lra. Qed.
Lemma total_between A (f g : A -> R) lo hi l : (forall a, In a l -> 0 <= f a) -> (forall a, In a l -> lo <= g a <= hi) ->
  lo * total (map f l) <= total (map (fun a => f a * g a) l) <= hi * total (map f l).
Proof.
  induction l as [|a l IH]; intros F G; cbn; [lra|]. specialize (IH (fun x i => F x (or_intror i)) (fun x i => G x (or_intror i))).
  specialize (F a (or_introl eq_refl)). specialize (G a (or_introl eq_refl)). unfold total in IH. nra.
Qed.
(** Averages with positive weights are between the lowest and highest value. *)
Lemma average_between A (f g : A -> R) lo hi l : l <> [] -> (forall a, In a l -> 0 < f a) -> (forall a, In a l -> lo <= g a <= hi) ->
  lo <= total (map (fun a => f a * g a) l) / total (map f l) <= hi.
Proof.
  intros N F G. assert (P := total_pos A f l N F). destruct (total_between A f g lo hi l (fun a i => Rlt_le _ _ (F a i)) G) as [L H].
  split; [apply Rmult_le_reg_r with (total (map f l)); [exact P|]|apply Rmult_le_reg_r with (total (map f l)); [exact P|]]; unfold Rdiv; rewrite Rmult_assoc, Rinv_l by lra; lra.
Qed.

(** ** Averages over samples *)
Lemma weight_pos s : 0 < weight s. Proof. apply exp_pos. Qed.
Lemma batch_weight_pos e b : 0 < batch_weight e b. Proof. apply pow_lt, exp_pos. Qed.
(** Weights turn the density that samples are drawn from into the one they are used for. *)
Theorem reweighted s : weight s * exp (- drawn s) = exp (- here s).
Proof. unfold weight. rewrite <- exp_plus. f_equal. ring. Qed.
(** The correction is between the lowest and highest difference of the samples. *)
Theorem correction_between e bs lo hi : bs <> [] -> (forall b, In b bs -> b <> []) -> (forall b s, In b bs -> In s b -> lo <= pot s - harm s <= hi) -> lo <= avg_dv e bs <= hi.
Proof.
  intros N NE H. apply average_between; [exact N|intros; apply batch_weight_pos|]. intros b Ib. unfold batch_avg. apply average_between; [now apply NE|intros; apply weight_pos|]. intros s Is. now apply (H b).
Qed.
(** For a harmonic potential it is the constant in it, with no error. *)
Theorem avg_harmonic e bs c : bs <> [] -> (forall b, In b bs -> b <> []) -> (forall b s, In b bs -> In s b -> pot s - harm s = c) -> avg_dv e bs = c /\ err_dv e bs = 0.
Proof.
  intros N NE H. assert (A : forall b, In b bs -> batch_avg b = c).
  { intros b Ib. assert (X : c <= batch_avg b <= c); [|lra]. apply average_between; [now apply NE|intros; apply weight_pos|]. intros s Is. rewrite (H b s Ib Is). lra. }
  split; [assert (X : c <= avg_dv e bs <= c); [|lra]; apply correction_between; try assumption; intros b s Ib Is; rewrite (H b s Ib Is); lra|].
  unfold err_dv. replace (total (map (fun b => batch_weight e b ^ 2 * batch_err b) bs)) with 0; [unfold Rdiv; ring|].
  assert (Z : forall A (f : A -> R) l, (forall a, In a l -> f a = 0) -> total (map f l) = 0).
  { intros T f l. induction l as [|a l IH]; intros Q; cbn; [reflexivity|]. unfold total in IH. rewrite (Q a (or_introl eq_refl)), IH; [ring|]. intros; apply Q; now right. }
  symmetry. apply Z. intros b Ib. unfold batch_err. cbv zeta. rewrite (Z _ (fun s => weight s * (pot s - harm s - batch_avg b) ^ 2)); [unfold Rdiv; ring|].
  intros s Is. rewrite (A b Ib), (H b s Ib Is). ring.
Qed.
(** With the samples of one iteration, drawn from what they are used for, it is their mean, whatever the exponent. *)
Theorem avg_own e b : b <> [] -> (forall s, In s b -> here s = drawn s) -> batch_weight e b = 1 /\ avg_dv e [b] = mean (map (fun s => pot s - harm s) b).
Proof.
  intros N H. assert (W : forall s, In s b -> weight s = 1). { intros s I. unfold weight. rewrite (H s I). replace (- drawn s + drawn s) with 0 by ring. apply exp_0. }
  assert (L0 : INR (List.length b) <> 0) by (apply not_0_INR; destruct b; [contradiction|discriminate]).
  assert (BW : batch_weight e b = 1).
  { unfold batch_weight. assert (L : map (fun s => ln (weight s)) b = map (fun _ => 0) b) by (apply map_ext_in; intros s I; rewrite (W s I); apply ln_1). rewrite L.
    assert (Z : forall n : list sample, total (map (fun _ => 0) n) = 0) by (intros n; induction n as [|x n IH]; cbn; [reflexivity|unfold total in IH; rewrite IH; ring]).
    assert (V : var (map (fun _ => 0) b) = 0).
    { unfold var, mean at 1. rewrite map_map. unfold mean. rewrite Z. rewrite (map_ext (fun _ => (0 - 0 / INR (List.length (map (fun _ : sample => 0) b))) ^ 2) (fun _ => 0)) by (intros; unfold Rdiv; ring). rewrite Z. unfold Rdiv. ring. }
    rewrite V, Ropp_0, exp_0. apply pow1. }
  split; [exact BW|]. unfold avg_dv. cbn [map total fold_right]. rewrite BW. unfold batch_avg, mean. rewrite map_length.
  rewrite (map_ext_in (fun s => weight s * (pot s - harm s)) (fun s => pot s - harm s)) by (intros s I; rewrite (W s I); ring).
  rewrite (map_ext_in weight (fun _ => 1) b W). assert (K : total (map (fun _ => 1) b) = INR (List.length b)).
  { clear. induction b as [|x b IH]; [reflexivity|]. cbn [map total fold_right List.length]. unfold total in IH. rewrite IH, S_INR. ring. }
  rewrite K. field. exact L0.
Qed.

(** ** Harmonic energies *)
(** The energy is the derivative of beta times the free energy by beta. *)
Theorem energy_is_derivative beta hw : 0 < beta -> (forall w, In w hw -> 0 < w) -> is_derive (fun b => b * AH (1 / b) b hw) beta (2 * vH beta hw).
Proof.
  intros B H. induction hw as [|w l IH].
  - unfold AH, vH. cbn. apply (is_derive_ext (fun _ => 0)); [intros; cbn; ring|]. replace (2 * 0) with 0 by ring. apply (is_derive_const (K:=R_AbsRing) (V:=R_NormedModule) 0 beta).
  - assert (W : 0 < w) by (apply H; now left). specialize (IH (fun x i => H x (or_intror i))).
    apply (is_derive_ext_loc (fun b => (b * w / 2 + ln (1 - exp (- (b * w)))) + b * AH (1 / b) b l)).
    + exists (mkposreal beta B). intros b Hb. assert (Pb : 0 < b). { unfold ball in Hb. cbn in Hb. unfold AbsRing_ball, abs, minus, plus, opp in Hb. cbn in Hb. apply Rabs_def2 in Hb. lra. }
      match goal with |- @eq _ ?x ?y => change (@eq R x y) end. change (AH (1 / b) b (w :: l)) with ((w * (1 / 2) + 1 / b * ln (1 - exp (- (b * w)))) + AH (1 / b) b l). field. lra.
    + change (vH beta (w :: l)) with (w * cosh (beta * w / 2) / sinh (beta * w / 2) * (1 / 4) + vH beta l). rewrite Rmult_plus_distr_l. apply (is_derive_plus (fun b => b * w / 2 + ln (1 - exp (- (b * w))))); [|exact IH].
      assert (E : exp (- (beta * w)) < 1) by (rewrite <- exp_0; apply exp_increasing; nra). auto_derive; [lra|].
      set (u := exp (beta * w / 2)). assert (U : 0 < u) by apply exp_pos.
      assert (E1 : exp (- (beta * w)) = / u * / u). { unfold u. rewrite <- exp_Ropp, <- exp_plus. f_equal. field. }
      assert (E2 : exp (- (beta * w / 2)) = / u) by (unfold u; apply exp_Ropp). unfold cosh, sinh. rewrite E2. fold u. rewrite E1 in E |- *.
      assert (V : 1 < u * u). { apply Rmult_lt_reg_r with (/ u * / u); [apply Rmult_lt_0_compat; apply Rinv_0_lt_compat; exact U|]. replace (u * u * (/ u * / u)) with 1 by (field; lra). lra. }
      field. repeat split; try lra; nra.
Qed.

(** ** Reports *)
Lemma report_spec kbT e first i fuel its : let f := match first with Some f => Some f | None => hd_error its end in
  let (ls, x) := report kbT e first i fuel its in List.length ls = Nat.min fuel (List.length its) /\ (x = Done <-> (fuel <= List.length its)%nat) /\ (x <> Done -> x = IndexError) /\
  forall k d it, nth_error its k = Some it -> (k < fuel)%nat -> forall g, f = Some g -> nth k ls d = row kbT e g (i + k) it.
Proof.
  revert first i its. induction fuel as [|n IH]; intros first i its; cbn [report].
  - cbn. repeat split; intros; try lia; try congruence.
  - destruct its as [|it r]; [cbn; repeat split; intros; try lia; try congruence; destruct k; discriminate|].
    set (f := match first with Some f => f | None => it end). specialize (IH (Some f) (S i) r). cbv zeta in IH. destruct (report kbT e (Some f) (S i) n r) as [ls x]. destruct IH as (L & D & E & V).
    cbn [List.length]. repeat split; [lia|intros X; apply D in X; lia|intros X; apply D; lia|exact E|].
    intros k d it' N K g G. assert (Fg : f = g) by (unfold f; destruct first; cbn in G; congruence). subst g. destruct k as [|k].
    + cbn in N |- *. injection N as <-. now rewrite Nat.add_0_r.
    + cbn in N |- *. rewrite (V k d it' N ltac:(lia) f eq_refl). f_equal. lia.
Qed.
(** A line for each iteration, relative to the first. *)
Theorem report_lines asr kbT e m its : (asr = "crystal" \/ asr = "poly")%string -> List.length (fst (get_A asr kbT e m its)) = Nat.min m (List.length its) /\
  forall k d it g, nth_error its k = Some it -> (k < m)%nat -> hd_error its = Some g -> nth k (fst (get_A asr kbT e m its)) d = row kbT e g k it.
Proof.
  intros A. assert (G : get_A asr kbT e m its = report kbT e None 0 m its) by (unfold get_A; destruct A as [-> | ->]; reflexivity). rewrite G.
  pose proof (report_spec kbT e None 0 m its) as S. cbv zeta in S. destruct (report kbT e None 0 m its) as [ls x]. destruct S as (L & _ & _ & V). split; [exact L|]. intros k d it g N K H. exact (V k d it N K g H).
Qed.
Theorem report_ends asr kbT e m its : snd (get_A asr kbT e m its) = Done <-> m = 0%nat \/ ((asr = "crystal" \/ asr = "poly")%string /\ (m <= List.length its)%nat).
Proof.
  pose proof (report_spec kbT e None 0 m its) as S. cbv zeta in S. unfold get_A. destruct (skipped asr) as [z|] eqn:K.
  - assert (A : (asr = "crystal" \/ asr = "poly")%string). { unfold skipped in K. destruct (String.eqb_spec asr "crystal"); [now left|]. destruct (String.eqb_spec asr "poly"); [now right|discriminate]. }
    destruct (report kbT e None 0 m its) as [ls x]. cbn. destruct S as (_ & D & _). rewrite D. split; [tauto|]. intros [->|[_ X]]; lia.
  - assert (A : ~ (asr = "crystal" \/ asr = "poly")%string) by (intros [-> | ->]; discriminate).
    destruct m as [|m]; [cbn; tauto|]. destruct its as [|it r]; [|cbn; split; [discriminate|intros [X|[X _]]; [discriminate|contradiction]]].
    cbn. split; [discriminate|]. intros [X|[X _]]; [discriminate|contradiction].
Qed.
Definition one_iteration : iteration := Iteration [1] 0 [[Sample 0 0 1 1]].
(** A calculation that converged before the largest number of iterations ends in an IndexError after its results. *)
Theorem converged_refuted : exists asr kbT e m its, its <> [] /\ (List.length its < m)%nat /\ List.length (fst (get_A asr kbT e m its)) = List.length its /\ snd (get_A asr kbT e m its) = IndexError.
Proof. exists "crystal"%string, 1, 1%nat, 2%nat, [one_iteration]. repeat split; [discriminate|cbn; lia]. Qed.
(** Without a sum rule nothing is reported. *)
Theorem no_sum_rule_refuted : exists kbT e m its, its <> [] /\ (0 < m)%nat /\ get_A "none" kbT e m its = ([], UnboundLocalError).
Proof. exists 1, 1%nat, 1%nat, [one_iteration]. repeat split; [discriminate|lia]. Qed.
(** What a line reports: free energy and energy, the same less those of the first iteration, and one error for all of them. *)
Theorem row_values kbT e g i it : let l := row kbT e g i it in let v := avg_dv e (batches it) in
  step l = i /\ A_scp l = AH kbT (/ kbT) (hw it) + v /\ E_scp l = 2 * vH (/ kbT) (hw it) + v /\
  A_scp l - A_corr l = AH kbT (/ kbT) (hw g) + V0 g /\ E_scp l - E_corr l = 2 * vH (/ kbT) (hw g) + V0 g /\ A_err l = sqrt (err_dv e (batches it)) /\ E_err l = A_err l.
Proof. unfold row. cbn. replace (1 / kbT) with (/ kbT) by (unfold Rdiv; ring). repeat split; ring. Qed.
(** The error is reduced by the number of samples in the present batch. *)
Theorem err_single e b : b <> [] -> err_dv e [b] * INR (List.length b) = batch_err b.
Proof.
  intros N. assert (L : INR (List.length b) <> 0) by (apply not_0_INR; destruct b; [contradiction|discriminate]). pose proof (batch_weight_pos e b) as P.
  unfold err_dv. cbn [map total fold_right last]. field. split; [lra|exact L].
Qed.
(** With more batches the errors add up, and the number of samples is that of the last one. *)
Theorem err_two e a b : err_dv e [a; b] = (batch_weight e a ^ 2 * batch_err a + batch_weight e b ^ 2 * batch_err b) / (batch_weight e a + batch_weight e b) ^ 2 / INR (List.length b).
Proof. unfold err_dv. cbn [map total fold_right]. change (last [a; b] []) with b. rewrite !Rplus_0_r. reflexivity. Qed.
(** With equal weights the error of a batch is the unbiased variance. *)
Theorem err_own b : (2 <= List.length b)%nat -> (forall s, In s b -> here s = drawn s) ->
  batch_err b = total (map (fun s => (pot s - harm s - mean (map (fun s => pot s - harm s) b)) ^ 2) b) / (INR (List.length b) - 1).
Proof.
  intros N H. assert (B : b <> []) by (intros ->; cbn in N; lia). assert (W : forall s, In s b -> weight s = 1). { intros s I. unfold weight. rewrite (H s I). replace (- drawn s + drawn s) with 0 by ring. apply exp_0. }
  destruct (avg_own 0 b B H) as [BW M]. assert (A : batch_avg b = mean (map (fun s => pot s - harm s) b)). { rewrite <- M. unfold avg_dv. cbn [map total fold_right]. rewrite BW. field. }
  assert (K : total (map (fun _ => 1) b) = INR (List.length b)).
  { clear. induction b as [|x b IH]; [reflexivity|]. cbn [map total fold_right List.length]. unfold total in IH. rewrite IH, S_INR. ring. }
  assert (L : 2 <= INR (List.length b)) by (apply (le_INR 2); exact N).
  unfold batch_err. cbv zeta. rewrite A. rewrite (map_ext_in weight (fun _ => 1) b W), K.
  rewrite (map_ext_in (fun s => weight s ^ 2) (fun _ => 1)) by (intros s I; rewrite (W s I); ring). rewrite K.
  rewrite (map_ext_in (fun s => weight s * (pot s - harm s - mean (map (fun s0 => pot s0 - harm s0) b)) ^ 2) (fun s => (pot s - harm s - mean (map (fun s0 => pot s0 - harm s0) b)) ^ 2)) by (intros s I; rewrite (W s I); ring).
  f_equal. field. lra.
Qed.
(** In a harmonic potential the first line has no corrections and no error. *)
Theorem harmonic_first kbT e it : batches it <> [] -> (forall b, In b (batches it) -> b <> []) -> (forall b s, In b (batches it) -> In s b -> pot s - harm s = V0 it) ->
  let l := row kbT e it 0 it in A_corr l = 0 /\ E_corr l = 0 /\ A_err l = 0.
Proof. intros N NE H. destruct (avg_harmonic e (batches it) (V0 it) N NE H) as [A E]. unfold row. cbn. rewrite A, E, sqrt_0. repeat split; ring. Qed.
(** The weight of a batch is at most one, and falls with the spread of the logarithms of its weights. *)
Theorem batch_weight_le e b : b <> [] -> 0 < batch_weight e b <= 1.
Proof.
  intros N. split; [apply batch_weight_pos|]. unfold batch_weight. assert (V : 0 <= var (map (fun s => ln (weight s)) b)).
  { unfold var, mean at 1. apply Rmult_le_pos; [apply total_nonneg; intros; apply pow2_ge_0|]. apply Rlt_le, Rinv_0_lt_compat. rewrite map_length, map_length. apply lt_0_INR. destruct b; [contradiction|cbn; lia]. }
  assert (E : exp (- var (map (fun s => ln (weight s)) b)) <= 1). { rewrite <- exp_0. destruct V as [V|V]; [apply Rlt_le, exp_increasing; lra|rewrite <- V; right; f_equal; ring]. }
  rewrite <- (pow1 e). apply pow_incr. split; [apply Rlt_le, exp_pos|exact E].
Qed.
Print Assumptions row_values.
Print Assumptions err_single.
Print Assumptions err_own.
Print Assumptions err_two.
Print Assumptions harmonic_first.
Print Assumptions batch_weight_le.
Print Assumptions correction_between.
Print Assumptions avg_harmonic.
Print Assumptions avg_own.
Print Assumptions reweighted.
Print Assumptions energy_is_derivative.
Print Assumptions report_lines.
Print Assumptions report_ends.
Print Assumptions converged_refuted.
Print Assumptions no_sum_rule_refuted.
(** Two batches, with differences between one and three. *)
Definition two_batches : list (list sample) := [[Sample 1 0 4 3; Sample 0 1 4 1]; [Sample 0 0 2 0]].
Example between_case : two_batches <> [] /\ (forall b, In b two_batches -> b <> []) /\ forall b s, In b two_batches -> In s b -> 1 <= pot s - harm s <= 3.
Proof.
  split; [discriminate|]. split; [intros b [<-|[<-|[]]]; discriminate|]. intros b s [<-|[<-|[]]].
  - intros [<-|[<-|[]]]; cbn; lra.
  - intros [<-|[]]; cbn; lra.
Qed.
Example own_case : here (Sample 2 2 5 1) = drawn (Sample 2 2 5 1) /\ avg_dv 3 [[Sample 2 2 5 1; Sample 1 1 4 2]] = 3.
Proof.
  split; [reflexivity|]. destruct (avg_own 3 [Sample 2 2 5 1; Sample 1 1 4 2]) as [_ ->]; [discriminate|intros s [<-|[<-|[]]]; reflexivity|]. unfold mean. cbn. lra.
Qed.
Example err_case : batch_err [Sample 2 2 5 1; Sample 1 1 4 2] = 2.
Proof. rewrite err_own; [unfold mean; cbn; lra|cbn; lia|intros s [<-|[<-|[]]]; reflexivity]. Qed.
Example derivative_case : is_derive (fun b => b * AH (1 / b) b [1; 2]) 3 (2 * vH 3 [1; 2]).
Proof. apply energy_is_derivative; [lra|intros w [<-|[<-|[]]]; lra]. Qed.
Example harmonic_case : let it := Iteration [1; 2] 4 [[Sample 2 2 5 1; Sample 1 1 6 2]] in A_corr (row 1 2 it 0 it) = 0.
Proof. apply harmonic_first; cbn; [discriminate|intros b [<-|[]]; discriminate|intros b s [<-|[]] [<-|[<-|[]]]; cbn; lra]. Qed.
Example lines_case : List.length (fst (get_A "poly" 1 1 1 [one_iteration; one_iteration])) = 1%nat /\ snd (get_A "poly" 1 1 1 [one_iteration; one_iteration]) = Done.
Proof. split; reflexivity. Qed.
