(** * Properties of the one-dimensional minimisation: C108 (brackets), C109 (Brent's method)

    Specification: what a bracket of a minimum is. *)
From Coq Require Import Reals Lra.
From Verif Require Import BrentModel.
Open Scope R_scope.

(** The middle point lies between the outer ones and is not above them. *)
Definition is_bracket (E : R -> R) (a b c : R) : Prop :=
  (a < b < c \/ c < b < a) /\ E b <= E a /\ E b <= E c.

(** ** C108 bracketing *)
Section bracketing.
Variable fdf : R -> R * R.
Let E t := fst (fdf t).
Let D t := snd (fdf t).

Definition brk_ok (f0 : R) (s : brk) : Prop :=
  fa s = fst (fdf (ax s)) /\ fb s = fst (fdf (bx s)) /\ fc s = fst (fdf (cx s)) /\ fb s <= fa s /\ fb s <= f0 /\
  (ax s < bx s < cx s \/ cx s < bx s < ax s).
Definition brk_der (s : brk) : Prop := dfb s = snd (fdf (bx s)) /\ dfc s = snd (fdf (cx s)).

Lemma brk_init_ok f0 df0 x0 step : f0 = fst (fdf x0) -> step <> 0 -> brk_ok f0 (brk_init fdf (f0, df0) x0 step).
Proof.
  intros H0 H. unfold brk_init. destruct (fdf (x0 + step)) as [f1 df1] eqn:E1.
  assert (G : 0 < gold) by (unfold gold; lra).
  assert (Hs : step < 0 \/ 0 < step) by lra.
  destruct (Rlt_dec f0 f1).
  - destruct (fdf (x0 + gold * (x0 - (x0 + step)))) as [f2 df2] eqn:E2. unfold brk_ok; cbn. rewrite E1, E2; cbn.
    split; [reflexivity|]. split; [exact H0|]. split; [reflexivity|]. split; [lra|]. split; [lra|].
    destruct Hs; [left | right]; split; try lra; unfold gold; lra.
  - destruct (fdf (x0 + step + gold * (x0 + step - x0))) as [f2 df2] eqn:E2. unfold brk_ok; cbn. rewrite E1, E2; cbn.
    split; [exact H0|]. split; [reflexivity|]. split; [reflexivity|]. split; [lra|]. split; [lra|].
    destruct Hs; [right | left]; split; try lra; unfold gold; lra.
Qed.
Lemma brk_init_der x0 step : brk_der (brk_init fdf (fdf x0) x0 step).
Proof.
  unfold brk_init, brk_der. destruct (fdf x0) as [f0 df0] eqn:E0. destruct (fdf (x0 + step)) as [f1 df1] eqn:E1.
  destruct (Rlt_dec f0 f1).
  - destruct (fdf (x0 + gold * (x0 - (x0 + step)))) as [f2 df2] eqn:E2. cbn. rewrite E0, E2. split; reflexivity.
  - destruct (fdf (x0 + step + gold * (x0 + step - x0))) as [f2 df2] eqn:E2. cbn. rewrite E1, E2. split; reflexivity.
Qed.
Lemma brk_shift_ok f0 s u : brk_ok f0 s -> fc s < fb s -> (bx s < cx s < u \/ u < cx s < bx s) -> brk_ok f0 (brk_shift fdf s u).
Proof.
  intros (A & B & C & L & L0 & O) H U. unfold brk_shift. destruct (fdf u) as [fu dfu] eqn:Eu. unfold brk_ok; cbn. rewrite Eu; cbn.
  repeat split; try assumption; try lra; try reflexivity.
Qed.
Lemma brk_shift_der s u : brk_der s -> brk_der (brk_shift fdf s u).
Proof. intros [A B]. unfold brk_shift, brk_der. destruct (fdf u) eqn:Eu. cbn. rewrite Eu. split; [exact B | reflexivity]. Qed.
Lemma pos_prod a b : 0 < a * b -> (0 < a /\ 0 < b) \/ (a < 0 /\ b < 0).
Proof.
  intros H. destruct (Rtotal_order a 0) as [? | [-> | ?]]; [right | rewrite Rmult_0_l in H; lra | left].
  - split; [assumption|]. destruct (Rlt_le_dec b 0); [assumption|]. pose proof (Rmult_le_pos (-a) b). nra.
  - split; [assumption|]. destruct (Rlt_le_dec 0 b); [assumption|]. nra.
Qed.
Definition is_ok (s : brk) f0 : Prop := brk_ok f0 s /\ fb s <= fc s.
Lemma brk_iter_ok f0 s : brk_ok f0 s -> fc s < fb s ->
  match brk_iter fdf s with inl s' => is_ok s' f0 | inr s' => brk_ok f0 s' end.
Proof.
  intros I H. pose proof I as (A & B & C & L & L0 & O). unfold brk_iter.
  assert (Gd : brk_ok f0 (brk_shift fdf s (cx s + gold * (cx s - bx s)))).
  { apply brk_shift_ok; auto. destruct O; [left | right]; split; try lra; unfold gold; lra. }
  destruct (Rlt_dec 0 ((bx s - brk_u s) * (brk_u s - cx s))) as [P | P].
  - apply pos_prod in P. destruct (fdf (brk_u s)) as [fu dfu] eqn:Eu.
    destruct (Rlt_dec fu (fc s)); [|destruct (Rlt_dec (fb s) fu); [|exact Gd]]; unfold is_ok, brk_ok; cbn; rewrite Eu; cbn;
      repeat split; try assumption; try reflexivity; try lra.
  - destruct (Rlt_dec 0 ((cx s - brk_u s) * (brk_u s - brk_ulim s))) as [Q | Q].
    + apply pos_prod in Q. assert (Hu : bx s < cx s < brk_u s \/ brk_u s < cx s < bx s).
      { unfold brk_ulim, glimit in Q. set (u := brk_u s) in *. destruct Q, O; lra. }
      destruct (fdf (brk_u s)) as [fu dfu] eqn:Eu. destruct (Rlt_dec fu (fc s)).
      * cbn [cx bx]. unfold brk_shift; cbn [cx bx fb fc dfc].
        destruct (fdf (brk_u s + gold * (brk_u s - cx s))) as [fv dfv] eqn:Ev. unfold brk_ok; cbn. rewrite Ev, Eu; cbn.
        repeat split; try assumption; try reflexivity; try lra.
        destruct Hu; [left | right]; split; try lra; unfold gold; lra.
      * apply brk_shift_ok; auto.
    + destruct (Rle_dec 0 ((brk_u s - brk_ulim s) * (brk_ulim s - cx s))); [|exact Gd].
      apply brk_shift_ok; auto. unfold brk_ulim, glimit. destruct O; lra.
Qed.
Lemma brk_iter_der s : brk_der s -> match brk_iter fdf s with inl s' => brk_der s' | inr s' => brk_der s' end.
Proof.
  intros I. unfold brk_iter.
  destruct (Rlt_dec 0 ((bx s - brk_u s) * (brk_u s - cx s))).
  - destruct (fdf (brk_u s)) as [fu dfu] eqn:Eu. destruct I as [I1 I2].
    destruct (Rlt_dec fu (fc s)); [unfold brk_der; cbn; rewrite Eu; auto|].
    destruct (Rlt_dec (fb s) fu); [unfold brk_der; cbn; rewrite Eu; auto|]. apply brk_shift_der; split; auto.
  - destruct (Rlt_dec 0 ((cx s - brk_u s) * (brk_u s - brk_ulim s))).
    + destruct (fdf (brk_u s)) as [fu dfu] eqn:Eu. destruct (Rlt_dec fu (fc s)).
      * apply brk_shift_der. destruct I. unfold brk_der; cbn. rewrite Eu. auto.
      * apply brk_shift_der; auto.
    + destruct (Rle_dec 0 ((brk_u s - brk_ulim s) * (brk_ulim s - cx s))); apply brk_shift_der; auto.
Qed.
Lemma brk_loop_ok f0 fuel : forall s s', brk_ok f0 s -> brk_loop fdf fuel s = Some s' -> is_ok s' f0.
Proof.
  induction fuel as [|k IH]; intros s s' I; cbn; destruct (Rlt_dec (fc s) (fb s)).
  - discriminate.
  - intros [= <-]. split; [assumption | lra].
  - pose proof (brk_iter_ok f0 s I r) as J. destruct (brk_iter fdf s); [intros [= <-]; exact J | apply IH; exact J].
  - intros [= <-]. split; [assumption | lra].
Qed.
Lemma brk_loop_der fuel : forall s s', brk_der s -> brk_loop fdf fuel s = Some s' -> brk_der s'.
Proof.
  induction fuel as [|k IH]; intros s s' I; cbn; destruct (Rlt_dec (fc s) (fb s)); try discriminate; try (intros [= <-]; assumption).
  pose proof (brk_iter_der s I) as J. destruct (brk_iter fdf s); [intros [= <-]; exact J | apply IH; exact J].
Qed.

(** C108: what is returned brackets a minimum, with the energy of its middle point, which is not
    above the start; the start is used as given. *)
Theorem bracket_sound df0 x0 step fuel s : step <> 0 -> bracket fdf (fst (fdf x0), df0) x0 step fuel = Some s ->
  is_bracket (fun t => fst (fdf t)) (ax s) (bx s) (cx s) /\ fb s = fst (fdf (bx s)) /\ fb s <= fst (fdf x0).
Proof.
  intros H Hb. destruct (brk_loop_ok (fst (fdf x0)) fuel _ _ (brk_init_ok _ df0 x0 step eq_refl H) Hb) as [(A & B & C & L & L0 & O) F].
  unfold is_bracket. rewrite <- A, <- B, <- C. auto.
Qed.
(** With the true derivative at the start, the derivative returned is the one at the middle point. *)
Theorem bracket_derivative x0 step fuel s : bracket fdf (fdf x0) x0 step fuel = Some s -> dfb s = snd (fdf (bx s)).
Proof. intros H. exact (proj1 (brk_loop_der fuel _ _ (brk_init_der x0 step) H)). Qed.

(** ** C109 Brent's method *)
Definition brent_ok (f0 : R) (s : brent) : Prop :=
  fx s = fst (fdf (x s)) /\ fx s <= f0 /\ fx s <= fst (fdf (lo s)) /\ fx s <= fst (fdf (hi s)).
Lemma brent_update_ok f0 s en u : brent_ok f0 s -> brent_ok f0 (brent_update s en u (fst (fdf u)) (snd (fdf u))).
Proof.
  intros (A & L & La & Lb). unfold brent_update. set (fu := fst (fdf u)). set (dfu := snd (fdf u)).
  destruct (Rle_dec fu (fx s)).
  - unfold brent_ok; cbn. fold fu. split; [reflexivity|]. split; [lra|].
    destruct (Rle_dec (x s) u); rewrite <- ?A; split; lra.
  - assert (K : fx s <= fst (fdf (if Rlt_dec u (x s) then u else lo s)) /\ fx s <= fst (fdf (if Rlt_dec u (x s) then hi s else u))).
    { destruct (Rlt_dec u (x s)); fold fu; split; lra. }
    destruct (Rle_dec fu (fw s)); [|destruct (Req_EM_T (w s) (x s)); [|destruct (Rlt_dec fu (fv s)); [|destruct (Req_EM_T (v s) (x s));
      [|destruct (Req_EM_T (v s) (w s))]]]]; unfold brent_ok; cbn; tauto.
Qed.
Lemma brent_loop_ok f0 tol left : forall s pos s' pos' c, brent_ok f0 s -> brent_loop fdf tol left s pos = (s', pos', c) ->
  brent_ok f0 s' /\ (c = true -> pos' = x s').
Proof.
  induction left as [|k IH]; intros s pos s' pos' c I; cbn [brent_loop].
  - intros [= <- <- <-]. split; [exact I | discriminate].
  - cbv zeta. set (t1 := tol * Rabs (x s) + zeps).
    destruct (Rle_dec (Rabs (x s - 1 / 2 * (lo s + hi s))) (2 * t1 - 1 / 2 * (hi s - lo s))).
    + intros [= <- <- <-]. split; auto.
    + destruct (brent_step s t1) as [d en]. destruct (Rle_dec t1 (Rabs d)).
      * pose proof (brent_update_ok f0 s en (x s + d) I) as J. destruct (fdf (x s + d)) as [fu dfu]. apply IH. exact J.
      * pose proof (brent_update_ok f0 s en (x s + copysign t1 d) I) as J.
        destruct (fdf (x s + copysign t1 d)) as [fu dfu]. destruct (Rlt_dec (fx s) fu).
        -- intros [= <- <- <-]. split; auto.
        -- apply IH. exact J.
Qed.
(** C109, partial (only a converged search): the structure is left at the best point found, whose
    energy is not above the start or the ends of the bracket, whatever derivative is given for
    the start. *)
Theorem min_brent_partial df0 x0 tol itmax step fuel s pos : step <> 0 ->
  min_brent fdf (fst (fdf x0), df0) x0 tol itmax step fuel = Some (s, pos, true) ->
  pos = x s /\ fst (fdf pos) = fx s /\ fst (fdf pos) <= fst (fdf x0) /\
  fst (fdf pos) <= fst (fdf (lo s)) /\ fst (fdf pos) <= fst (fdf (hi s)).
Proof.
  intros H. unfold min_brent. destruct (bracket fdf (fst (fdf x0), df0) x0 step fuel) as [b|] eqn:Hb; [|discriminate].
  intros Hl. destruct (bracket_sound _ _ _ _ _ H Hb) as ((O & L1 & L2) & Fb & F0).
  assert (I : brent_ok (fst (fdf x0)) (brent_init b)).
  { unfold brent_ok, brent_init; cbn. split; [exact Fb|]. split; [exact F0|].
    destruct (Rlt_dec (ax b) (cx b)), (Rlt_dec (cx b) (ax b)); lra. }
  injection Hl as Hl. destruct (brent_loop_ok _ _ _ _ _ _ _ _ I Hl) as [(A & B & C & D') P].
  rewrite (P eq_refl), <- A. auto.
Qed.
(** The best energy known never rises, also when the search runs out of iterations. *)
Theorem min_brent_best df0 x0 tol itmax step fuel s pos c : step <> 0 ->
  min_brent fdf (fst (fdf x0), df0) x0 tol itmax step fuel = Some (s, pos, c) ->
  fx s = fst (fdf (x s)) /\ fx s <= fst (fdf x0).
Proof.
  intros H. unfold min_brent. destruct (bracket fdf (fst (fdf x0), df0) x0 step fuel) as [b|] eqn:Hb; [|discriminate].
  intros Hl. destruct (bracket_sound _ _ _ _ _ H Hb) as ((O & L1 & L2) & Fb & F0).
  assert (I : brent_ok (fst (fdf x0)) (brent_init b)).
  { unfold brent_ok, brent_init; cbn. split; [exact Fb|]. split; [exact F0|].
    destruct (Rlt_dec (ax b) (cx b)), (Rlt_dec (cx b) (ax b)); lra. }
  injection Hl as Hl. destruct (brent_loop_ok _ _ _ _ _ _ _ _ I Hl) as [(A & B & C & D') P]. auto.
Qed.
End bracketing.

(** A parabola with its minimum at [m], and its derivative. *)
Definition parabola (m t : R) : R * R := ((t - m) * (t - m), 2 * (t - m)).
Lemma parabola_derivative m t : derivable_pt_lim (fun t => fst (parabola m t)) t (snd (parabola m t)).
Proof.
  unfold parabola; cbn. intros eps He. exists (mkposreal eps He). intros h Hh Hd. cbn in Hd.
  replace (((t + h - m) * (t + h - m) - (t - m) * (t - m)) / h - 2 * (t - m)) with h by (field; exact Hh). exact Hd.
Qed.
Lemma parabola_bracket df0 : bracket (parabola (1 / 4)) (fst (parabola (1 / 4) 0), df0) 0 1 O =
  Some (Brk 1 0 (- gold) (9 / 16) (1 / 16) ((- gold - 1 / 4) * (- gold - 1 / 4)) df0 (2 * (- gold - 1 / 4))).
Proof.
  unfold bracket, brk_init, parabola; cbn [fst snd].
  destruct (Rlt_dec ((0 - 1 / 4) * (0 - 1 / 4)) ((0 + 1 - 1 / 4) * (0 + 1 - 1 / 4))); [|exfalso; lra].
  replace (0 + gold * (0 - (0 + 1))) with (- gold) by ring. cbn [brk_loop fc fb].
  destruct (Rlt_dec ((- gold - 1 / 4) * (- gold - 1 / 4)) ((0 - 1 / 4) * (0 - 1 / 4))); [exfalso; unfold gold in *; lra|].
  f_equal. f_equal; lra.
Qed.
(** The theorems above apply: the bracket around the minimum of a parabola. *)
Example bracket_case : exists s, bracket (parabola (1 / 4)) (parabola (1 / 4) 0) 0 1 O = Some s /\
  ax s = 1 /\ bx s = 0 /\ cx s = - gold /\ dfb s = - (1 / 2) /\ is_bracket (fun t => fst (parabola (1 / 4) t)) 1 0 (- gold).
Proof.
  eexists. split; [apply parabola_bracket|]. cbn. repeat split; unfold gold; try lra; cbn; lra.
Qed.
(** A search that converges: a loose tolerance, satisfied by the bracket. *)
Example min_brent_case : exists s pos, min_brent (parabola (7 / 10)) (parabola (7 / 10) 1) 1 (1 / 2) 1 (- 1 / 4) O = Some (s, pos, true).
Proof.
  unfold min_brent, bracket, brk_init, parabola.
  destruct (Rlt_dec ((1 - 7 / 10) * (1 - 7 / 10)) ((1 + -1 / 4 - 7 / 10) * (1 + -1 / 4 - 7 / 10))); [exfalso; lra|].
  cbn [brk_loop fc fb].
  destruct (Rlt_dec ((1 + -1 / 4 + gold * (1 + -1 / 4 - 1) - 7 / 10) * (1 + -1 / 4 + gold * (1 + -1 / 4 - 1) - 7 / 10))
    ((1 + -1 / 4 - 7 / 10) * (1 + -1 / 4 - 7 / 10))).
  - exfalso. clear -r. unfold gold in *. lra.
  - cbn [brent_loop brent_init ax bx cx x lo hi].
    destruct (Rlt_dec 1 (1 + -1 / 4 + gold * (1 + -1 / 4 - 1))); [exfalso; unfold gold in *; lra|].
    destruct (Rlt_dec (1 + -1 / 4 + gold * (1 + -1 / 4 - 1)) 1); [|exfalso; unfold gold in *; lra].
    match goal with |- context [Rle_dec ?a ?b] => destruct (Rle_dec a b) as [|N] end; [eexists; eexists; reflexivity|].
    exfalso; apply N; clear. rewrite (Rabs_right (1 + -1 / 4)) by lra.
    unfold zeps, gold. unfold Rabs; destruct (Rcase_abs _); lra.
Qed.

(** C109, refuted: steepest descent gives the derivative at the start with the wrong sign, and a
    search that runs out of iterations leaves the structure at the last trial point: on a parabola,
    one iteration from 0, where the energy is 1/16, leaves the structure at an energy above 1. *)
Theorem sd_energy_refuted : exists s pos, sd_step (parabola (1 / 4)) (1 / 10) 1 1 O = Some (s, pos, false) /\
  fst (parabola (1 / 4) 0) < 1 / 10 /\ 1 < fst (parabola (1 / 4) pos) /\ fx s = fst (parabola (1 / 4) 0).
Proof.
  unfold sd_step, min_brent, sd_fdf0. rewrite parabola_bracket.
  unfold brent_init; cbn [ax bx cx fb dfb].
  destruct (Rlt_dec 1 (- gold)); [exfalso; unfold gold in *; lra|].
  destruct (Rlt_dec (- gold) 1); [|exfalso; unfold gold in *; lra].
  cbn [brent_loop x lo hi fx].
  rewrite Rabs_R0.
  destruct (Rle_dec (Rabs (0 - 1 / 2 * (- gold + 1))) (2 * (1 / 10 * 0 + zeps) - 1 / 2 * (1 - - gold))) as [A|_].
  { exfalso. pose proof (Rabs_pos (0 - 1 / 2 * (- gold + 1))). unfold gold, zeps in *. lra. }
  unfold brent_step; cbn [e x lo hi dfx]. rewrite Rabs_R0.
  destruct (Rlt_dec (1 / 10 * 0 + zeps) 0) as [A|_]; [exfalso; unfold zeps in A; lra|].
  unfold bisect; cbn [e x lo hi dfx parabola snd].
  destruct (Rle_dec 0 (- (2 * (0 - 1 / 4)))) as [_|A]; [|exfalso; lra].
  replace (1 / 2 * (- gold - 0)) with (- (gold / 2)) by field.
  rewrite (Rabs_left (- (gold / 2))) by (unfold gold; lra).
  destruct (Rle_dec (1 / 10 * 0 + zeps) (- - (gold / 2))) as [_|A]; [|exfalso; unfold zeps, gold in A; lra].
  unfold parabola at 1. cbn [fst snd].
  eexists; eexists. split; [reflexivity|]. unfold brent_update; cbn [fx x].
  destruct (Rle_dec ((0 + - (gold / 2) - 1 / 4) * (0 + - (gold / 2) - 1 / 4)) (1 / 16)) as [A|_].
  { exfalso. unfold gold in A. lra. }
  unfold parabola; cbn [fst]. split; [lra|]. split; [unfold gold; lra|].
  repeat match goal with |- context [if ?c then _ else _] => destruct c end; cbn [fx]; lra.
Qed.
(** The same search with the right sign goes downhill. *)
Theorem sd_sign_refuted : exists s pos, min_brent (parabola (1 / 4)) (parabola (1 / 4) 0) 0 (1 / 10) 1 1 O = Some (s, pos, false) /\
  fst (parabola (1 / 4) pos) <= fst (parabola (1 / 4) 0) /\ pos <> - (gold / 2) /\ snd (parabola (1 / 4) 0) <> snd (sd_fdf0 (parabola (1 / 4))).
Proof.
  unfold min_brent. change (parabola (1 / 4) 0) with (fst (parabola (1 / 4) 0), snd (parabola (1 / 4) 0)) at 1. rewrite parabola_bracket.
  unfold brent_init; cbn [ax bx cx fb dfb].
  destruct (Rlt_dec 1 (- gold)); [exfalso; unfold gold in *; lra|].
  destruct (Rlt_dec (- gold) 1); [|exfalso; unfold gold in *; lra].
  cbn [brent_loop x lo hi fx].
  rewrite Rabs_R0.
  destruct (Rle_dec (Rabs (0 - 1 / 2 * (- gold + 1))) (2 * (1 / 10 * 0 + zeps) - 1 / 2 * (1 - - gold))) as [A|_].
  { exfalso. pose proof (Rabs_pos (0 - 1 / 2 * (- gold + 1))). unfold gold, zeps in *. lra. }
  unfold brent_step; cbn [e x lo hi dfx]. rewrite Rabs_R0.
  destruct (Rlt_dec (1 / 10 * 0 + zeps) 0) as [A|_]; [exfalso; unfold zeps in A; lra|].
  unfold bisect; cbn [e x lo hi dfx parabola snd].
  destruct (Rle_dec 0 (2 * (0 - 1 / 4))) as [A|_]; [exfalso; lra|].
  replace (1 / 2 * (1 - 0)) with (1 / 2) by field.
  rewrite (Rabs_right (1 / 2)) by lra.
  destruct (Rle_dec (1 / 10 * 0 + zeps) (1 / 2)) as [_|A]; [|exfalso; unfold zeps in A; lra].
  unfold parabola at 1.
  eexists; eexists. split; [reflexivity|]. unfold parabola, sd_fdf0, gold; cbn [fst snd]. split; [lra|]. split; intros A; lra.
Qed.

(** ** The choice between secant step and bisection *)
(** What Brent's rule asks of a secant step from the best point: inside the bracket and not next to
    its ends, downhill, and at most half the step before the last. *)
Definition brent_rule (s : brent) (tol1 d : R) : Prop :=
  lo s + 2 * tol1 <= x s + d <= hi s - 2 * tol1 /\ dfx s * d <= 0 /\ tol1 < Rabs (e s) /\ Rabs d <= Rabs (1 / 2 * e s).
Definition secants (s : brent) (d : R) : Prop :=
  secant s (w s) (fw s) (dfw s) = d /\ secant s (v s) (fv s) (dfv s) = d.
(** C109, refuted: a secant step that Brent's rule asks for is replaced by bisection, always; one
    that is longer than the rule allows is taken. *)
Lemma brent_rule_bisect s tol1 d : 0 < tol1 -> secants s d -> brent_rule s tol1 d -> brent_step s tol1 = bisect s.
Proof.
  intros T [S1 S2] (B & G & E1 & E2). unfold brent_step. rewrite S1, S2. cbv zeta.
  destruct (Rlt_dec tol1 (Rabs (e s))); [|lra].
  destruct (secant_ok s d); [|reflexivity].
  replace (if Rlt_dec (Rabs d) (Rabs d) then d else d) with d by (destruct (Rlt_dec _ _); reflexivity).
  destruct (Rle_dec (Rabs d) (Rabs (1 / 2 * e s))); [|contradiction].
  destruct (Rlt_dec (x s + d - lo s) (2 * tol1)); [lra|]. destruct (Rlt_dec (hi s - (x s + d)) (2 * tol1)); [lra|]. reflexivity.
Qed.
Lemma brent_long_taken s tol1 d : secants s d -> lo s < x s + d < hi s -> dfx s * d <= 0 -> tol1 < Rabs (e s) ->
  Rabs (1 / 2 * e s) < Rabs d -> brent_step s tol1 = (d, 0).
Proof.
  intros [S1 S2] B G E1 E2. unfold brent_step. rewrite S1, S2. cbv zeta.
  destruct (Rlt_dec tol1 (Rabs (e s))); [|lra].
  assert (K : secant_ok s d = true).
  { unfold secant_ok. destruct (Rlt_dec 0 _) as [|N]; [|exfalso; apply N; nra]. destruct (Rle_dec (dfx s * d) 0); [reflexivity | contradiction]. }
  rewrite K. replace (if Rlt_dec (Rabs d) (Rabs d) then d else d) with d by (destruct (Rlt_dec _ _); reflexivity).
  destruct (Rle_dec (Rabs d) (Rabs (1 / 2 * e s))); [lra | reflexivity].
Qed.
Theorem brent_secant_refuted : (exists s tol1 d, 0 < tol1 /\ secants s d /\ brent_rule s tol1 d /\ fst (brent_step s tol1) <> d) /\
  (exists s tol1 d, 0 < tol1 /\ secants s d /\ ~ brent_rule s tol1 d /\ brent_step s tol1 = (d, 0)).
Proof.
  split.
  - set (s := Brent 0 10 2 4 4 1 2 2 (-2) 2 2 10). exists s, (1 / 10), 1.
    assert (Sc : secants s 1).
    { unfold secants, secant, s; cbn. destruct (Req_EM_T 2 (-2)); [exfalso; lra|]. split; field. }
    assert (Br : brent_rule s (1 / 10) 1).
    { unfold brent_rule, s; cbn. rewrite !Rabs_right by lra. lra. }
    split; [lra|]. split; [exact Sc|]. split; [exact Br|].
    rewrite (brent_rule_bisect s (1 / 10) 1 ltac:(lra) Sc Br). unfold bisect, s; cbn. destruct (Rle_dec 0 (-2)); [exfalso|]; lra.
  - set (s := Brent 0 10 2 4 4 1 2 2 (-2) 2 2 1). exists s, (1 / 10), 1.
    assert (Sc : secants s 1).
    { unfold secants, secant, s; cbn. destruct (Req_EM_T 2 (-2)); [exfalso; lra|]. split; field. }
    split; [lra|]. split; [exact Sc|]. split.
    + unfold brent_rule, s; cbn. rewrite !Rabs_right by lra. lra.
    + apply brent_long_taken; auto; unfold s; cbn; rewrite ?Rabs_right by lra; lra.
Qed.
(** Every step stays inside the bracket, or is the smallest step. *)
Theorem brent_step_inside s tol1 d en : lo s <= x s <= hi s -> 0 < tol1 -> brent_step s tol1 = (d, en) ->
  lo s <= x s + d <= hi s \/ Rabs d = tol1.
Proof.
  intros B T. assert (Bi : bisect s = (d, en) -> lo s <= x s + d <= hi s).
  { unfold bisect. destruct (Rle_dec 0 (dfx s)); intros [= <- _]; lra. }
  assert (Ok : forall t, secant_ok s t = true -> lo s <= x s + t <= hi s).
  { intros t. unfold secant_ok. destruct (Rlt_dec 0 _) as [P|]; [|discriminate]. apply pos_prod in P. intros _. lra. }
  assert (Cs : forall z, Rabs (copysign tol1 z) = tol1).
  { intros z. unfold copysign. rewrite (Rabs_right tol1) by lra. destruct (Rlt_dec z 0); [rewrite Rabs_Ropp|]; apply Rabs_right; lra. }
  unfold brent_step. cbv zeta. destruct (Rlt_dec tol1 (Rabs (e s))); [|intros H; left; auto].
  set (d1 := secant s (w s) (fw s) (dfw s)). set (d2 := secant s (v s) (fv s) (dfv s)).
  assert (K : forall t, lo s <= x s + t <= hi s ->
    (if Rle_dec (Rabs t) (Rabs (1 / 2 * e s)) then if Rlt_dec (x s + t - lo s) (2 * tol1) then (copysign tol1 (1 / 2 * (lo s + hi s) - x s), 0)
       else if Rlt_dec (hi s - (x s + t)) (2 * tol1) then (copysign tol1 (1 / 2 * (lo s + hi s) - x s), 0) else bisect s else (t, 0)) = (d, en) ->
    lo s <= x s + d <= hi s \/ Rabs d = tol1).
  { intros t Ht. destruct (Rle_dec _ _); [|intros [= <- _]; left; exact Ht].
    destruct (Rlt_dec _ _); [intros [= <- _]; right; apply Cs|]. destruct (Rlt_dec _ _); [intros [= <- _]; right; apply Cs | left; auto]. }
  destruct (secant_ok s d1) eqn:O1, (secant_ok s d2) eqn:O2.
  - apply K. destruct (Rlt_dec (Rabs d1) (Rabs d2)); auto.
  - apply K; auto.
  - apply K; auto.
  - intros H; left; auto.
Qed.
Print Assumptions bracket_sound.
Print Assumptions sd_energy_refuted.
Print Assumptions brent_secant_refuted.
