(* Ramps of temperature and pressure (C55). *)
From Coq Require Import Reals ZArith Lra Lia.
From Verif Require Import RampModel.
Local Open Scope R_scope.

(* ---------------- what is meant ---------------- *)

(* a ramp that has not begun *)
Definition fresh (r : ramp) : Prop := current r = 0%Z /\ (0 <= total r)%Z.
(* the ensemble after k steps *)
Definition after (k : nat) (r : ramp) : option R := value (steps k r).
(* the straight line and the exponential between the end points *)
Definition line (a b : R) (n k : R) : R := a + k / n * (b - a).
Definition geometric (a b : R) (n k : R) : R := exp (line (ln a) (ln b) n k).
(* a logarithmic ramp needs positive end points *)
Definition sensible (r : ramp) : Prop := logscale r = true -> 0 < from r /\ 0 < to r.

Lemma steps_spec k r : steps k r = Ramp (from r) (to r) (total r) (current r + Z.of_nat k) (logscale r).
Proof.
  revert r. induction k as [|k IH]; intros r.
  - cbn [steps]. rewrite Z.add_0_r. now destruct r.
  - cbn [steps]. rewrite IH. cbn [step advance fst from to total current logscale]. f_equal. lia.
Qed.

Lemma Some_eq (a b : R) : Some a = Some b -> b = a.
Proof. congruence. Qed.

Lemma line_ends a b n : n <> 0 -> line a b n 0 = a /\ line a b n n = b.
Proof. intros N. unfold line. split; field; easy. Qed.

Lemma line_increasing a b n k k' : 0 < n -> a < b -> k < k' -> line a b n k < line a b n k'.
Proof.
  intros N L K. unfold line. apply Rplus_lt_compat_l, Rmult_lt_compat_r; [lra|].
  apply Rmult_lt_compat_r; [now apply Rinv_0_lt_compat|easy].
Qed.

Lemma geometric_ends a b n : n <> 0 -> 0 < a -> 0 < b -> geometric a b n 0 = a /\ geometric a b n n = b.
Proof. intros N A B. unfold geometric. destruct (line_ends (ln a) (ln b) n N) as [-> ->]. now rewrite !exp_ln. Qed.

(* ---------------- theorems ---------------- *)

(* What a step hands to the ensemble is the value at the counter after it. *)
Theorem step_sets_value_reached r k : snd (step (steps k r)) = after (S k) r.
Proof.
  unfold after. rewrite !steps_spec. unfold step, advance, snd. cbn [from to total current logscale]. do 2 f_equal. lia.
Qed.
Example step_sets_value_reached_case : snd (step (steps 1 (Ramp 100 300 2 0 false))) = Some 300.
Proof. rewrite step_sets_value_reached. unfold after. rewrite steps_spec. reflexivity. Qed.

(* The value after k steps, in closed form. *)
Theorem ramp_value r k : fresh r -> sensible r -> (1 <= k)%nat ->
  after k r = Some (if (Z.of_nat k <? total r)%Z
                    then (if logscale r then geometric else line) (from r) (to r) (IZR (total r)) (INR k)
                    else to r).
Proof.
  intros [F T] S K. unfold after. rewrite steps_spec. unfold value. cbn [from to total current logscale].
  rewrite F, Z.add_0_l.
  destruct (Z.leb_spec (total r) (Z.of_nat k)) as [L|L]; destruct (Z.ltb_spec (Z.of_nat k) (total r)) as [L'|L']; try lia; [reflexivity|].
  assert (N : 0 < IZR (total r)) by (apply IZR_lt; lia).
  unfold py_div. destruct (logscale r) eqn:E.
  - destruct (S E) as [A B]. destruct (Req_EM_T (from r) 0); [lra|]. destruct (Req_EM_T (IZR (total r)) 0); [lra|].
    unfold py_pow. assert (Q : 0 < to r / from r) by (apply Rmult_lt_0_compat; [|apply Rinv_0_lt_compat]; lra).
    destruct (Rlt_dec 0 (to r / from r)) as [_|]; [|lra]. f_equal.
    unfold geometric, line, Rpower. rewrite exp_plus, (exp_ln (from r)) by easy. f_equal. f_equal.
    assert (LD : ln (to r / from r) = ln (to r) - ln (from r)) by (unfold Rdiv; rewrite ln_mult, ln_Rinv by (try apply Rinv_0_lt_compat; lra); ring). rewrite LD. rewrite INR_IZR_INZ. field. lra.
  - destruct (Req_EM_T (IZR (total r)) 0); [lra|]. f_equal. unfold line. rewrite INR_IZR_INZ. field. lra.
Qed.

(* C55: the final value is reached exactly, and kept. *)
Theorem ramp_ends r k : fresh r -> (1 <= k)%nat -> (total r <= Z.of_nat k)%Z -> after k r = Some (to r).
Proof.
  intros [F T] K L. unfold after. rewrite steps_spec. unfold value. cbn [from to total current logscale].
  rewrite F, Z.add_0_l. now rewrite (proj2 (Z.leb_le _ _) L).
Qed.

Lemma line_decreasing a b n k k' : 0 < n -> b < a -> k < k' -> line a b n k' < line a b n k.
Proof.
  intros N L K. assert (H := line_increasing (- a) (- b) n k k' N ltac:(lra) K). unfold line in *.
  replace (- a + k / n * (- b - - a)) with (- (a + k / n * (b - a))) in H by ring.
  replace (- a + k' / n * (- b - - a)) with (- (a + k' / n * (b - a))) in H by ring. lra.
Qed.

Definition profile (r : ramp) (k : nat) : R :=
  (if logscale r then geometric else line) (from r) (to r) (IZR (total r)) (INR k).

Lemma profile_up r k : sensible r -> from r < to r -> (1 <= k)%nat -> (Z.of_nat k < total r)%Z ->
  from r < profile r k < to r /\ profile r k < profile r (S k).
Proof.
  intros H L K B. assert (N : 0 < IZR (total r)) by (apply IZR_lt; lia).
  assert (K0 : 0 < INR k) by (apply lt_0_INR; lia).
  assert (KN : INR k < IZR (total r)) by (rewrite INR_IZR_INZ; now apply IZR_lt).
  assert (KS : INR k < INR (S k)) by (apply lt_INR; lia).
  unfold profile. destruct (logscale r) eqn:E.
  - destruct (H E) as [A B']. assert (LL : ln (from r) < ln (to r)) by now apply ln_increasing.
    pose proof (geometric_ends (from r) (to r) (IZR (total r)) ltac:(lra) A B') as [G0 G1].
    assert (M : forall x y, x < y -> geometric (from r) (to r) (IZR (total r)) x < geometric (from r) (to r) (IZR (total r)) y)
      by (intros; now apply exp_increasing, line_increasing).
    apply M in K0, KN, KS. rewrite G0 in K0. rewrite G1 in KN. auto.
  - pose proof (line_ends (from r) (to r) (IZR (total r)) ltac:(lra)) as [G0 G1].
    assert (M : forall x y, x < y -> line (from r) (to r) (IZR (total r)) x < line (from r) (to r) (IZR (total r)) y)
      by (intros; now apply line_increasing).
    apply M in K0, KN, KS. rewrite G0 in K0. rewrite G1 in KN. auto.
Qed.

Lemma profile_down r k : sensible r -> to r < from r -> (1 <= k)%nat -> (Z.of_nat k < total r)%Z ->
  to r < profile r k < from r /\ profile r (S k) < profile r k.
Proof.
  intros H L K B. assert (N : 0 < IZR (total r)) by (apply IZR_lt; lia).
  assert (K0 : 0 < INR k) by (apply lt_0_INR; lia).
  assert (KN : INR k < IZR (total r)) by (rewrite INR_IZR_INZ; now apply IZR_lt).
  assert (KS : INR k < INR (S k)) by (apply lt_INR; lia).
  unfold profile. destruct (logscale r) eqn:E.
  - destruct (H E) as [A B']. assert (LL : ln (to r) < ln (from r)) by now apply ln_increasing.
    pose proof (geometric_ends (from r) (to r) (IZR (total r)) ltac:(lra) A B') as [G0 G1].
    assert (M : forall x y, x < y -> geometric (from r) (to r) (IZR (total r)) y < geometric (from r) (to r) (IZR (total r)) x)
      by (intros; now apply exp_increasing, line_decreasing).
    apply M in K0, KN, KS. rewrite G0 in K0. rewrite G1 in KN. auto.
  - pose proof (line_ends (from r) (to r) (IZR (total r)) ltac:(lra)) as [G0 G1].
    assert (M : forall x y, x < y -> line (from r) (to r) (IZR (total r)) y < line (from r) (to r) (IZR (total r)) x)
      by (intros; now apply line_decreasing).
    apply M in K0, KN, KS. rewrite G0 in K0. rewrite G1 in KN. auto.
Qed.

(* C55: monotonic, strictly until the end, and within the end points. *)
Theorem ramp_increasing r k v v' : fresh r -> sensible r -> (1 <= k)%nat -> from r < to r ->
  after k r = Some v -> after (S k) r = Some v' ->
  from r < v /\ v <= v' <= to r /\ ((Z.of_nat k < total r)%Z -> v < v').
Proof.
  intros F H K L E E'. rewrite ramp_value in E, E' by (auto; lia). apply Some_eq in E, E'. subst v v'.
  fold (profile r k) (profile r (S k)).
  destruct (Z.ltb_spec (Z.of_nat k) (total r)) as [B|B]; destruct (Z.ltb_spec (Z.of_nat (S k)) (total r)) as [B'|B']; try lia.
  - destruct (profile_up r k H L K B) as [G1 G2]. destruct (profile_up r (S k) H L ltac:(lia) B') as [G3 _]. repeat split; intros; lra.
  - destruct (profile_up r k H L K B) as [G1 G2]. repeat split; intros; lra.
  - split; [easy|]. split; [lra|]. lia.
Qed.
Theorem ramp_decreasing r k v v' : fresh r -> sensible r -> (1 <= k)%nat -> to r < from r ->
  after k r = Some v -> after (S k) r = Some v' ->
  v < from r /\ to r <= v' <= v /\ ((Z.of_nat k < total r)%Z -> v' < v).
Proof.
  intros F H K L E E'. rewrite ramp_value in E, E' by (auto; lia). apply Some_eq in E, E'. subst v v'.
  fold (profile r k) (profile r (S k)).
  destruct (Z.ltb_spec (Z.of_nat k) (total r)) as [B|B]; destruct (Z.ltb_spec (Z.of_nat (S k)) (total r)) as [B'|B']; try lia.
  - destruct (profile_down r k H L K B) as [G1 G2]. destruct (profile_down r (S k) H L ltac:(lia) B') as [G3 _]. repeat split; intros; lra.
  - destruct (profile_down r k H L K B) as [G1 G2]. repeat split; intros; lra.
  - split; [easy|]. split; [lra|]. lia.
Qed.

(* Equal steps, or equal ratios. *)
Theorem ramp_even r k v v' : fresh r -> sensible r -> (1 <= k)%nat -> (Z.of_nat (S k) < total r)%Z ->
  after k r = Some v -> after (S k) r = Some v' ->
  if logscale r then v' = v * exp ((ln (to r) - ln (from r)) / IZR (total r))
  else v' = v + (to r - from r) / IZR (total r).
Proof.
  intros F H K B E E'. rewrite ramp_value in E, E' by (auto; lia). apply Some_eq in E, E'. subst v v'.
  rewrite (proj2 (Z.ltb_lt _ _) B), (proj2 (Z.ltb_lt (Z.of_nat k) _)) by lia.
  assert (N : 0 < IZR (total r)) by (apply IZR_lt; lia).
  destruct (logscale r); unfold geometric, line; rewrite S_INR; [rewrite <- exp_plus; f_equal|]; field; lra.
Qed.

(* A ramp continues from a checkpoint where it was. *)
Theorem ramp_restarts r k n : after (k + n) r = after n (fetch (store (steps k r))).
Proof.
  unfold after. f_equal. assert (E : fetch (store (steps k r)) = steps k r) by (now destruct (steps k r)).
  rewrite E, !steps_spec. cbn [from to total current logscale]. f_equal. lia.
Qed.

(* C55 is false of the code at the beginning: the initial value is never
   set.  Before the first step the ensemble has its own temperature, and
   the first step sets the second point of the ramp. *)
Theorem ramp_never_at_start r k v : fresh r -> sensible r -> (1 <= k)%nat -> from r <> to r ->
  after k r = Some v -> v <> from r.
Proof.
  intros F H K N E. rewrite ramp_value in E by auto. apply Some_eq in E. subst v. fold (profile r k).
  destruct (Z.ltb_spec (Z.of_nat k) (total r)) as [B|B]; [|auto].
  destruct (Rlt_dec (from r) (to r)) as [L|L].
  - pose proof (profile_up r k H L K B). lra.
  - pose proof (profile_down r k H ltac:(lra) K B). lra.
Qed.
Theorem ramp_start_refuted : exists r, fresh r /\ sensible r /\ from r <> to r /\
  after 1 r = Some (line (from r) (to r) (IZR (total r)) 1) /\ line (from r) (to r) (IZR (total r)) 1 <> from r.
Proof.
  exists (Ramp 100 300 2 0 false). split; [split; cbn; [reflexivity|lia]|]. split; [intros E; discriminate E|].
  split; [cbn; lra|]. split.
  - rewrite ramp_value; [reflexivity|split; cbn; [reflexivity|lia]|intros E; discriminate E|lia].
  - unfold line. cbn. lra.
Qed.

(* ... and a logarithmic ramp that starts at zero, or between values of
   opposite sign (a pressure may have both), fails at its first step. *)
Theorem ramp_log_fails r : fresh r -> logscale r = true -> (1 < total r)%Z ->
  from r = 0 \/ from r * to r < 0 -> after 1 r = None.
Proof.
  intros [F T] L B C. unfold after. rewrite steps_spec. unfold value. cbn [from to total current logscale].
  rewrite F, L. destruct (Z.leb_spec (total r) (0 + Z.of_nat 1)); [lia|].
  unfold py_div. destruct (Req_EM_T (from r) 0) as [|N]; [reflexivity|]. destruct C as [C|C]; [easy|].
  destruct (Req_EM_T (IZR (total r)) 0); [reflexivity|]. unfold py_pow.
  assert (Q : to r / from r < 0).
  { destruct (Rlt_dec 0 (from r)) as [P|P].
    - assert (to r < 0) by nra. unfold Rdiv. assert (0 < / from r) by now apply Rinv_0_lt_compat. nra.
    - assert (P' : from r < 0) by lra. assert (0 < to r) by nra. unfold Rdiv. assert (/ from r < 0) by now apply Rinv_lt_0_compat. nra. }
  destruct (Rlt_dec 0 (to r / from r)); [lra|]. destruct (Req_EM_T (to r / from r) 0); [lra|reflexivity].
Qed.
Theorem ramp_log_refuted : exists r, fresh r /\ logscale r = true /\ from r = 0 /\ to r = 1 /\ after 1 r = None.
Proof.
  exists (Ramp 0 1 10 0 true). assert (F : fresh (Ramp 0 1 10 0 true)) by (split; cbn; [reflexivity|lia]).
  split; [exact F|]. split; [reflexivity|]. split; [reflexivity|]. split; [reflexivity|].
  apply ramp_log_fails; [exact F|reflexivity|cbn; lia|now left].
Qed.

Example ramp_case : let r := Ramp 100 400 2 0 true in
  fresh r /\ sensible r /\ after 1 r = Some 200 /\ after 2 r = Some 400 /\ after 7 r = Some 400.
Proof.
  cbv zeta. assert (F : fresh (Ramp 100 400 2 0 true)) by (split; cbn; [reflexivity|lia]).
  assert (H : sensible (Ramp 100 400 2 0 true)) by (intros _; cbn; lra).
  split; [exact F|]. split; [exact H|]. rewrite !ramp_value by (auto; lia). cbn [total Z.ltb Z.of_nat Z.compare].
  split; [|split; reflexivity]. f_equal. cbn -[INR]. unfold geometric, line.
  replace 400 with (100 * (2 * 2)) by ring. rewrite !ln_mult by lra. cbn [INR].
  replace (ln 100 + 1 / 2 * (ln 100 + (ln 2 + ln 2) - ln 100)) with (ln 100 + ln 2) by field.
  rewrite exp_plus, !exp_ln by lra. ring.
Qed.

Print Assumptions ramp_value.
Print Assumptions ramp_ends.
Print Assumptions ramp_increasing.
Print Assumptions ramp_decreasing.
Print Assumptions ramp_even.
Print Assumptions ramp_restarts.
Print Assumptions ramp_never_at_start.
Print Assumptions ramp_start_refuted.
Print Assumptions ramp_log_fails.
Print Assumptions ramp_log_refuted.
