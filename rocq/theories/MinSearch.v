(** * Properties of the line search and of BFGS (model in MinModel.v) *)
From Coq Require Import List Arith Lia Reals Lra Psatz.
From Verif Require Import RSum MinModel MinLin.
Import ListNotations.
Open Scope R_scope.

(** The factor by which a failed step shrinks at least: a little more than one half. *)
Definition shrink : R := 1 / (2 * (1 - 1 / 10000)).

Lemma amax_ge n f i : (i < n)%nat -> f i <= amax n f.
Proof.
  induction n as [|n IH]; intros H; [lia|]. cbn [amax]. destruct (Nat.eq_dec i n) as [->|]; [apply Rmax_r|].
  eapply Rle_trans; [apply IH; lia|apply Rmax_l].
Qed.
Lemma amax_nonneg n f : 0 <= amax n f.
Proof. induction n as [|n IH]; cbn [amax]; [lra|]. eapply Rle_trans; [exact IH|apply Rmax_l]. Qed.

Lemma tmplam_shrinks f0 slope alam fx alam2 f2 :
  slope < 0 -> 0 < alam <= 1 -> (alam <> 1 -> alam < alam2) -> f0 + alf * alam * slope < fx ->
  ls_tmplam f0 slope alam fx alam2 f2 <= shrink * alam.
Proof.
  intros Hs Ha H2 Hf. unfold ls_tmplam, alf in *.
  destruct (Req_EM_T alam 1) as [->|N1].
  - assert (D : 0 < fx - f0 - slope) by lra. unfold shrink.
    apply (Rmult_le_reg_r (2 * (fx - f0 - slope))); [lra|].
    replace (- slope / (2 * (fx - f0 - slope)) * (2 * (fx - f0 - slope))) with (- slope) by (field; lra). lra.
  - specialize (H2 N1). cbv zeta.
    set (rhs1 := fx - f0 - alam * slope). set (rhs2 := f2 - f0 - alam2 * slope).
    destruct (Req_EM_T _ 0) as [A0|A0].
    + assert (Hr : (1 - 1 / 10000) * alam * (- slope) < rhs1) by (unfold rhs1; lra).
      assert (P : 0 < rhs1).
      { eapply Rlt_trans; [|exact Hr]. apply Rmult_lt_0_compat; [|lra]. apply Rmult_lt_0_compat; lra. }
      assert (E : rhs1 / (alam * alam) = rhs2 / (alam2 * alam2)).
      { apply (f_equal (fun z => z * (alam - alam2))) in A0. unfold Rdiv at 1 in A0. rewrite Rmult_assoc, Rinv_l in A0 by lra. lra. }
      replace ((- alam2 * rhs1 / (alam * alam) + alam * rhs2 / (alam2 * alam2)) / (alam - alam2)) with (rhs1 / (alam * alam)).
      2:{ replace (alam * rhs2 / (alam2 * alam2)) with (alam * (rhs2 / (alam2 * alam2))) by (unfold Rdiv; ring).
          rewrite <- E. field. split; [lra|]. intros Z. lra. }
      replace (- slope / (2 * (rhs1 / (alam * alam)))) with (- slope * alam * alam / (2 * rhs1)) by (field; lra).
      unfold shrink. apply (Rmult_le_reg_r (2 * rhs1)); [lra|].
      replace (- slope * alam * alam / (2 * rhs1) * (2 * rhs1)) with (- slope * alam * alam) by (field; lra).
      replace (1 / (2 * (1 - 1 / 10000)) * alam * (2 * rhs1)) with (alam * (rhs1 / (1 - 1 / 10000))) by field.
      replace (- slope * alam * alam) with (alam * (alam * - slope)) by ring.
      apply Rmult_le_compat_l; [lra|]. apply (Rmult_le_reg_r (1 - 1 / 10000)); [lra|].
      replace (rhs1 / (1 - 1 / 10000) * (1 - 1 / 10000)) with rhs1 by field. lra.
    + assert (C : 1 / 2 * alam <= shrink * alam) by (unfold shrink; apply Rmult_le_compat_r; lra).
      destruct (Rlt_dec (1 / 2 * alam) _) as [L|L]; [exact C|]. lra.
Qed.

(** What a search can end with; [k] is the number of iterations it was allowed. *)
Definition ls_result (fdf : vec -> R * vec) (x0 d : vec) (f0 slope alamin : R) (k : nat) (lam0 : R) (o : ls_out) : Prop :=
  0 < ls_lam o <= lam0 /\ ls_pos o = vadd x0 (vscal (ls_lam o) d) /\ (ls_f o, ls_g o) = fdf (ls_pos o) /\
  ((* converged in position: no step is reported *)
   (ls_x o = x0 /\ ls_lam o < alamin) \/
   (* sufficient decrease *)
   (ls_x o = ls_pos o /\ alamin <= ls_lam o /\ ls_f o <= f0 + alf * ls_lam o * slope) \/
   (* iterations exhausted *)
   (ls_x o = ls_pos o /\ alamin <= ls_lam o /\ f0 + alf * ls_lam o * slope < ls_f o /\ ls_lam o <= shrink ^ (k - 1) * lam0)).

Lemma shrink_01 : 1 / 10 < shrink < 1.
Proof. unfold shrink. lra. Qed.

Lemma ls_loop_result fdf x0 d f0 slope alamin :
  slope < 0 -> forall left alam alam2 f2 last o,
  0 < alam <= 1 -> (alam <> 1 -> alam < alam2) ->
  (left = 0%nat -> forall o', last <> Some o') ->
  ls_loop fdf x0 d f0 slope alamin left alam alam2 f2 last = Some o ->
  ls_result fdf x0 d f0 slope alamin left alam o.
Proof.
  intros Hs. induction left as [|left IH]; intros alam alam2 f2 last o Ha H2 Hl E.
  - exfalso. cbn in E. now apply (Hl eq_refl o).
  - cbn [ls_loop] in E. set (x := vadd x0 (vscal alam d)) in *. destruct (fdf x) as [fx dfx] eqn:Ef.
    destruct (Rlt_dec alam alamin) as [C|C].
    { injection E as <-. unfold ls_result; cbn [ls_lam ls_pos ls_f ls_g ls_x]. split; [lra|]. split; [reflexivity|]. split; [now rewrite Ef|]. left. now split. }
    destruct (Rle_dec fx (f0 + alf * alam * slope)) as [D|D].
    { injection E as <-. unfold ls_result; cbn [ls_lam ls_pos ls_f ls_g ls_x]. split; [lra|]. split; [reflexivity|]. split; [now rewrite Ef|].
      right; left. split; [reflexivity|]. lra. }
    apply Rnot_le_lt in D. apply Rnot_lt_le in C.
    pose proof (tmplam_shrinks f0 slope alam fx alam2 f2 Hs Ha H2 D) as T. pose proof shrink_01 as [S1 S2].
    set (al := Rmax (ls_tmplam f0 slope alam fx alam2 f2) (1 / 10 * alam)) in *.
    assert (B1 : 1 / 10 * alam <= al) by apply Rmax_r.
    assert (B2 : al <= shrink * alam). { apply Rmax_lub; [exact T|]. apply Rmult_le_compat_r; lra. }
    assert (B3 : shrink * alam < alam) by nra.
    destruct left as [|left'].
    + cbn [ls_loop] in E. injection E as <-. unfold ls_result; cbn [ls_lam ls_pos ls_f ls_g ls_x].
      split; [lra|]. split; [reflexivity|]. split; [now rewrite Ef|]. right; right. cbn [Nat.sub pow]. repeat split; try reflexivity; lra.
    + specialize (IH al alam fx (Some (LsOut x fx dfx x alam)) o).
      assert (R : ls_result fdf x0 d f0 slope alamin (S left') al o).
      { apply IH; [lra| |discriminate|exact E]. intros _. lra. }
      destruct R as (R1 & R2 & R3 & R4). split; [lra|]. split; [exact R2|]. split; [exact R3|].
      destruct R4 as [R4|[R4|(R5 & R6 & R7 & R8)]]; [now left|now right; left|]. right; right.
      split; [exact R5|]. split; [exact R6|]. split; [exact R7|].
      replace (S (S left') - 1)%nat with (S (S left' - 1)) by lia. cbn [pow].
      eapply Rle_trans; [exact R8|]. rewrite Rmult_comm, (Rmult_comm shrink), Rmult_assoc, (Rmult_comm (shrink ^ _)).
      apply Rmult_le_compat_r; [apply pow_le; lra|exact B2].
Qed.

Lemma dir_slope n big g0 d0 : 0 < big -> dot n g0 d0 < 0 -> dot n g0 (ls_dir n big d0) < 0.
Proof.
  intros Hb H. unfold ls_dir. destruct (Rlt_dec big (norm n d0)) as [L|L]; [|exact H].
  unfold vscal. rewrite dot_scal_r. assert (0 < big / norm n d0) by (apply Rdiv_lt_0_compat; lra). nra.
Qed.
Lemma dir_norm n big d0 : 0 < big -> norm n (ls_dir n big d0) <= big.
Proof.
  intros Hb. unfold ls_dir. destruct (Rlt_dec big (norm n d0)) as [L|L]; [|lra].
  unfold vscal. rewrite norm_scal, Rabs_pos_eq by (left; apply Rdiv_lt_0_compat; lra).
  right. field. lra.
Qed.

(** ** C103: the line search *)
(** For a downhill direction, whatever the function: the energy and gradient returned are those
    of the last place visited, which lies on the line at a positive factor of at most one and
    no further than the largest step; and either the decrease is sufficient (so the energy is
    lower than at the start), or the step is below the tolerance, or the iterations ran out. *)
Theorem line_search_outcome n fdf x0 f0 g0 d0 big tol itmax o :
  0 < big -> dot n g0 d0 < 0 -> min_approx n fdf x0 (f0, g0) d0 big tol itmax = Some o ->
  let d := ls_dir n big d0 in
  0 < ls_lam o <= 1 /\ ls_pos o = vadd x0 (vscal (ls_lam o) d) /\ (ls_f o, ls_g o) = fdf (ls_pos o) /\
  norm n (vsub (ls_pos o) x0) <= big /\
  ((ls_x o = x0 /\ ls_lam o * ls_test n x0 d < tol) \/
   (ls_x o = ls_pos o /\ ls_f o <= f0 + alf * ls_lam o * dot n g0 d /\ ls_f o < f0) \/
   (ls_x o = ls_pos o /\ f0 + alf * ls_lam o * dot n g0 d < ls_f o /\ tol / ls_test n x0 d <= ls_lam o <= shrink ^ (itmax - 2))).
Proof.
  intros Hb Hs E. cbv zeta. set (d := ls_dir n big d0). unfold min_approx in E. fold d in E.
  assert (S0 : dot n g0 d < 0) by now apply dir_slope.
  assert (T : 0 < ls_test n x0 d).
  { destruct (dot_pos_nonzero n d g0) as (i & Hi & N); [rewrite dot_comm; lra|]. unfold ls_test.
    eapply Rlt_le_trans; [|apply (amax_ge n _ i Hi)]. cbv beta. apply Rdiv_lt_0_compat; [now apply Rabs_pos_lt|].
    eapply Rlt_le_trans; [apply Rlt_0_1|apply Rmax_r]. }
  destruct (itmax - 1)%nat as [|k] eqn:Ek; [discriminate E|].
  apply ls_loop_result in E; [|easy|lra|lra|discriminate].
  destruct E as (A & B & C & D). split; [exact A|]. split; [exact B|]. split; [exact C|]. split.
  - rewrite B. replace (norm n (vsub (vadd x0 (vscal (ls_lam o) d)) x0)) with (norm n (fun i => ls_lam o * d i)).
    2:{ unfold norm. f_equal. apply dot_ext; intros i _; unfold vsub, vadd, vscal; ring. }
    rewrite norm_scal, Rabs_pos_eq by lra. pose proof (dir_norm n big d0 Hb) as N. fold d in N. pose proof (norm_nonneg n d). nra.
  - destruct D as [(D1 & D2)|[(D1 & D2 & D3)|(D1 & D2 & D3 & D4)]].
    + left. split; [exact D1|]. apply (Rmult_lt_compat_r (ls_test n x0 d)) in D2; [|exact T].
      replace (tol / ls_test n x0 d * ls_test n x0 d) with tol in D2 by (field; lra). exact D2.
    + right; left. split; [exact D1|]. split; [exact D3|]. unfold alf in D3.
      assert (1 / 10000 * ls_lam o * dot n g0 d < 0); [|lra].
      assert (0 < 1 / 10000 * ls_lam o) by lra. nra.
    + right; right. split; [exact D1|]. split; [exact D3|]. split; [exact D2|].
      replace (itmax - 2)%nat with (S k - 1)%nat by lia. lra.
Qed.
Print Assumptions line_search_outcome.

(** With enough iterations the search never runs out of them. *)
Theorem line_search_terminates n fdf x0 f0 g0 d0 big tol itmax :
  0 < big -> dot n g0 d0 < 0 -> (2 <= itmax)%nat -> shrink ^ (itmax - 2) < tol / ls_test n x0 (ls_dir n big d0) ->
  exists o, min_approx n fdf x0 (f0, g0) d0 big tol itmax = Some o /\ (ls_x o = x0 \/ ls_f o < f0).
Proof.
  intros Hb Hs Hi Hk.
  assert (T : exists o, min_approx n fdf x0 (f0, g0) d0 big tol itmax = Some o).
  { unfold min_approx. destruct (itmax - 1)%nat as [|k] eqn:Ek; [lia|]. clear.
    assert (G : forall left fdf x0 d f0 sl am a a2 f2 last, (exists o, last = Some o) -> exists o, ls_loop fdf x0 d f0 sl am left a a2 f2 last = Some o).
    { induction left as [|left IH]; intros; cbn [ls_loop]; [easy|]. destruct (fdf0 _). destruct (Rlt_dec _ _); [eauto|].
      destruct (Rle_dec _ _); [eauto|]. apply IH. eauto. }
    cbn [ls_loop]. destruct (fdf _). destruct (Rlt_dec _ _); [eauto|]. destruct (Rle_dec _ _); [eauto|]. apply G. eauto. }
  destruct T as [o E]. exists o. split; [exact E|].
  destruct (line_search_outcome n fdf x0 f0 g0 d0 big tol itmax o Hb Hs E) as (_ & _ & _ & _ & [D|[D|D]]);
    [left; apply D|right; apply D|]. destruct D as (_ & _ & D). lra.
Qed.
Print Assumptions line_search_terminates.

(** False of the code: where the search counts the position as converged, it reports the
    starting point together with the energy and gradient of another one, at which the beads are
    left; the energy there may be higher than at the start.  Here 2 x^2 + 1e-12 x is minimised
    from 0 with the default tolerance of 1e-11. *)
Definition flat_min (x : vec) : R * vec := (2 * x O * x O + 1 / 10 ^ 12 * x O, fun _ => 4 * x O + 1 / 10 ^ 12).
Theorem line_search_converged_refuted : exists (fdf : vec -> R * vec) x0 d0 o,
  (forall x, derivable_pt_lim (fun t => fst (fdf (fun _ => t))) (x O) (snd (fdf x) O)) /\
  let '(f0, g0) := fdf x0 in
  dot 1 g0 d0 < 0 /\ min_approx 1 fdf x0 (f0, g0) d0 1 (1 / 10 ^ 11) 100 = Some o /\
  ls_x o = x0 /\ ls_f o <> f0 /\ f0 < ls_f o /\ fst (fdf (ls_x o)) <> ls_f o /\ ls_pos o O <> x0 O.
Proof.
  set (e := 1 / 10 ^ 12). assert (He : 0 < e < 1 / 10 ^ 11) by (unfold e; cbn [pow]; lra).
  exists flat_min, (fun _ => 0), (fun _ => - e),
    (LsOut (fun _ => 0) (fst (flat_min (vadd (fun _ => 0) (vscal 1 (fun _ => - e))))) (snd (flat_min (vadd (fun _ => 0) (vscal 1 (fun _ => - e)))))
       (vadd (fun _ => 0) (vscal 1 (fun _ => - e))) 1).
  split.
  - intros x. unfold flat_min. cbn [fst snd]. generalize (1 / 10 ^ 12); intros c.
    replace (4 * x O + c) with (((0 * x O + 2 * 1) * x O + 2 * x O * 1) + (0 * x O + c * 1)) by ring.
    apply (derivable_pt_lim_plus (fun t => 2 * t * t) (fun t => c * t)).
    + apply (derivable_pt_lim_mult (fun t => 2 * t) (fun t => t)).
      * apply (derivable_pt_lim_mult (fun _ => 2) (fun t => t)); [apply derivable_pt_lim_const|apply derivable_pt_lim_id].
      * apply derivable_pt_lim_id.
    + apply (derivable_pt_lim_mult (fun _ => c) (fun t => t)); [apply derivable_pt_lim_const|apply derivable_pt_lim_id].
  - destruct (flat_min (fun _ => 0)) as [f0 g0] eqn:E0. unfold flat_min in E0. fold e in E0. injection E0 as <- <-.
    assert (Nm : norm 1 (fun _ => - e) = e).
    { unfold norm, dot. cbn [Rsum]. replace (0 + - e * - e) with (e * e) by ring. apply sqrt_square. lra. }
    assert (Dr : ls_dir 1 1 (fun _ => - e) = (fun _ => - e)).
    { unfold ls_dir. rewrite Nm. destruct (Rlt_dec 1 e) as [L|L]; [|easy]. exfalso. cbn [pow] in He. lra. }
    split; [unfold dot; cbn [Rsum]; nra|]. split.
    + unfold min_approx. rewrite Dr. change (100 - 1)%nat with (S 98). generalize 98%nat as k. intros k. cbn [ls_loop].
      destruct (flat_min (vadd (fun _ => 0) (vscal 1 (fun _ => - e)))) as [fx dfx] eqn:Ef.
      destruct (Rlt_dec 1 _) as [L|L].
      * cbn [fst snd]. reflexivity.
      * exfalso. apply L. unfold ls_test. cbn [amax].
        replace (Rmax 0 (Rabs (- e) / Rmax (Rabs 0) 1)) with e.
        2:{ rewrite Rabs_Ropp, Rabs_R0, (Rmax_right 0 1) by lra. rewrite Rabs_pos_eq by lra.
            replace (e / 1) with e by field. rewrite Rmax_right; lra. }
        apply (Rmult_lt_reg_r e); [lra|]. replace (1 / 10 ^ 11 / e * e) with (1 / 10 ^ 11) by (field; lra). lra.
    + cbn [ls_x ls_f ls_pos]. unfold flat_min, vadd, vscal. cbn [fst snd]. fold e.
      split; [reflexivity|]. split; [apply Rgt_not_eq; nra|]. split; [nra|]. split; [apply Rlt_not_eq; nra|apply Rlt_not_eq; lra].
Qed.

(** A case of the outcome: x^2 / 2 from 1 along the force, whose first step is accepted. *)
Definition bowl (x : vec) : R * vec := (x O * x O / 2, fun i => x O).
Example line_search_case : dot 1 (snd (bowl (fun _ => 1))) (fun _ => -1) < 0 /\
  exists o, min_approx 1 bowl (fun _ => 1) (bowl (fun _ => 1)) (fun _ => -1) 1 (1 / 10 ^ 11) 100 = Some o /\ ls_f o = 0 /\ ls_pos o O = 0.
Proof.
  split; [unfold dot, bowl; cbn; lra|].
  assert (Nm : norm 1 (fun _ => -1) = 1).
  { unfold norm, dot. cbn [Rsum]. replace (0 + -1 * -1) with (1 * 1) by ring. apply sqrt_square. lra. }
  assert (Dr : ls_dir 1 1 (fun _ => -1) = (fun _ => -1)).
  { unfold ls_dir. rewrite Nm. destruct (Rlt_dec 1 1) as [L|L]; [lra|easy]. }
  unfold min_approx. destruct (bowl (fun _ => 1)) as [f0 g0] eqn:E0. unfold bowl in E0. injection E0 as <- <-. rewrite Dr.
  change (100 - 1)%nat with (S 98). generalize 98%nat as k. intros k. cbn [ls_loop].
  destruct (bowl (vadd (fun _ => 1) (vscal 1 (fun _ => -1)))) as [fx dfx] eqn:Ef. unfold bowl, vadd, vscal in Ef. injection Ef as E1 E2.
  destruct (Rlt_dec 1 _) as [L|L].
  - exfalso. revert L. apply Rle_not_lt. unfold ls_test. cbn [amax].
    rewrite (Rabs_left (-1)), Rabs_R1, (Rmax_left 1 1) by lra.
    replace (- -1 / 1) with 1 by field. rewrite Rmax_right by lra. cbn [pow]. lra.
  - destruct (Rle_dec fx _) as [D|D].
    + eexists. split; [reflexivity|]. cbn [ls_f ls_pos]. unfold vadd, vscal. lra.
    + exfalso. apply D. rewrite <- E1. unfold alf, dot. cbn [Rsum]. lra.
Qed.

(** ** C104: BFGS *)
Lemma bfgs_update_inverse n H s y : bfgs_update n H s y = inverse n H s y /\ 0 < dot n y s \/ bfgs_update n H s y = H.
Proof.
  unfold bfgs_update. destruct (Rlt_dec _ (dot n y s)) as [L|L]; [left|now right].
  split; [reflexivity|]. eapply Rle_lt_trans; [|exact L]. apply sqrt_pos.
Qed.
(** The inverse Hessian stays symmetric and positive definite, whatever the step and the change
    of the gradient; when it is updated, it maps the change of the gradient to the step. *)
Theorem bfgs_update_spd n H s y : spd n H -> spd n (bfgs_update n H s y).
Proof.
  intros S. destruct (bfgs_update_inverse n H s y) as [[-> P]| ->]; [|exact S]. now apply inverse_spd.
Qed.
Print Assumptions bfgs_update_spd.
Theorem bfgs_update_secant n H s y : spd n H -> sqrt (1 / 10 ^ 13 * dot n y y * dot n s s) < dot n y s ->
  forall i, mv n (bfgs_update n H s y) y i = s i.
Proof.
  intros [Hs Hp] L i. unfold bfgs_update. destruct (Rlt_dec _ (dot n y s)) as [_|N]; [|easy].
  assert (P : 0 < dot n y s) by (eapply Rle_lt_trans; [apply sqrt_pos|exact L]).
  apply (inverse_secant n H s y i); [lra|]. apply Rgt_not_eq. apply Hp. apply (dot_pos_nonzero n y s). lra.
Qed.
Print Assumptions bfgs_update_secant.
(** Without enough curvature along the step the matrix is left alone. *)
Theorem bfgs_update_skip n H s y : dot n y s <= 0 -> bfgs_update n H s y = H.
Proof.
  intros L. unfold bfgs_update. destruct (Rlt_dec _ (dot n y s)) as [C|_]; [|easy].
  exfalso. pose proof (sqrt_pos (1 / 10 ^ 13 * dot n y y * dot n s s)). lra.
Qed.
Print Assumptions bfgs_update_skip.

(** Along a whole run, for any function: the matrix is symmetric positive definite, the energy
    and gradient belong to the positions, and the direction is downhill unless the gradient
    vanishes. *)
Definition bfgs_good (n : nat) (fdf : vec -> R * vec) (s : bfgs_state) : Prop :=
  spd n (b_h s) /\ (b_f s, b_g s) = fdf (b_x s) /\ (nonzero n (b_g s) -> dot n (b_g s) (b_d s) < 0).
Lemma descent n H g : spd n H -> nonzero n g -> dot n g (mv n H (fun i => - g i)) < 0.
Proof.
  intros [_ P] N. specialize (P g N).
  rewrite (dot_ext n g g _ (fun i => - mv n H g i)) by (try easy; intros i _; apply mv_opp). rewrite dot_opp_r. lra.
Qed.
Lemma min_approx_pos n fdf x0 f0 d0 big tol itmax o :
  min_approx n fdf x0 f0 d0 big tol itmax = Some o -> (ls_f o, ls_g o) = fdf (ls_pos o).
Proof.
  unfold min_approx. destruct f0 as [f0 g0]. generalize (ls_dir n big d0) as d. intros d.
  generalize (dot n g0 d) (tol / ls_test n x0 d). intros sl am.
  assert (G : forall left a a2 f2 last, (forall o', last = Some o' -> (ls_f o', ls_g o') = fdf (ls_pos o')) ->
     ls_loop fdf x0 d f0 sl am left a a2 f2 last = Some o -> (ls_f o, ls_g o) = fdf (ls_pos o)).
  { induction left as [|left IH]; intros a a2 f2 last Hl E; cbn [ls_loop] in E; [now apply Hl|].
    destruct (fdf (vadd x0 (vscal a d))) as [fx dfx] eqn:Ef.
    destruct (Rlt_dec a am). { injection E as <-. cbn. now rewrite Ef. }
    destruct (Rle_dec _ _). { injection E as <-. cbn. now rewrite Ef. }
    apply IH in E; [exact E|]. intros o' [= <-]. cbn. now rewrite Ef. }
  apply G. discriminate.
Qed.
Theorem bfgs_run_good n fdf big tol itmax k s s' :
  bfgs_good n fdf s -> bfgs_run n fdf big tol itmax k s = Some s' -> bfgs_good n fdf s'.
Proof.
  revert s. induction k as [|k IH]; intros s G E; cbn [bfgs_run] in E; [now injection E as <-|].
  unfold bfgs_step in E.
  destruct (min_approx _ _ _ _ _ _ _ _) as [o|] eqn:Eo; [|discriminate].
  refine (IH _ _ E). clear IH E. destruct G as (Gs & Ge & Gd).
  pose proof (bfgs_update_spd n (b_h s) (vsub (ls_x o) (b_x s)) (vsub (ls_g o) (b_g s)) Gs) as S'.
  split; [exact S'|]. cbn [b_f b_g b_x b_d]. split; [now apply (min_approx_pos _ _ _ _ _ _ _ _ _ Eo)|].
  intros N. now apply descent.
Qed.
Print Assumptions bfgs_run_good.
Theorem bfgs_init_good n fdf x : bfgs_good n fdf (bfgs_init n fdf x).
Proof.
  unfold bfgs_init. destruct (fdf x) as [u g] eqn:E. split; [apply eye_spd|]. split; [now symmetry|]. cbn [b_g b_d]. intros N.
  set (c := sqrt _). assert (C : 0 < c).
  { apply sqrt_lt_R0. rewrite dot_opp_l, dot_opp_r. pose proof (dot_self_pos n g N). lra. }
  rewrite (dot_ext n g g _ (fun i => - (1 / c) * g i)) by (try easy; intros i _; field; lra).
  rewrite dot_scal_r. pose proof (dot_self_pos n g N). assert (0 < 1 / c) by (apply Rdiv_lt_0_compat; lra). nra.
Qed.
Print Assumptions bfgs_init_good.
(** So every step of a run lowers the energy, unless it is shorter than the tolerance in every
    component (relative to the position, or absolute near zero) or the iterations of the search
    ran out. *)
Theorem bfgs_energy n fdf big tol itmax s s' :
  0 < big -> (0 < n)%nat -> bfgs_good n fdf s -> nonzero n (b_g s) -> bfgs_step n fdf big tol itmax s = Some s' ->
  b_f s' < b_f s \/
  (forall i, (i < n)%nat -> Rabs (b_x s' i - b_x s i) < tol * Rmax (Rabs (b_x s i)) 1) \/
  (exists lam, lam <= shrink ^ (itmax - 2) /\ b_x s' = vadd (b_x s) (vscal lam (ls_dir n (bfgs_big n (b_x s) big) (b_d s)))).
Proof.
  intros Hb Hn (Gs & Ge & Gd) N E. unfold bfgs_step in E.
  destruct (min_approx _ _ _ _ _ _ _ _) as [o|] eqn:Eo; [|discriminate]. injection E as <-. cbn [b_f b_x].
  assert (B : 0 < bfgs_big n (b_x s) big).
  { unfold bfgs_big. apply Rmult_lt_0_compat; [easy|]. eapply Rlt_le_trans; [|apply Rmax_r]. now apply lt_0_INR. }
  destruct (line_search_outcome n fdf (b_x s) (b_f s) (b_g s) (b_d s) _ tol itmax o B (Gd N) Eo) as (A & P & _ & _ & [D|[D|D]]).
  - right; left. intros i Hi. rewrite P. unfold vadd, vscal.
    set (d := ls_dir _ _ _) in *.
    replace (b_x s i + ls_lam o * d i - b_x s i) with (ls_lam o * d i) by ring.
    rewrite Rabs_mult, Rabs_pos_eq by lra. destruct D as [_ D].
    pose proof (amax_ge n (fun i => Rabs (d i) / Rmax (Rabs (b_x s i)) 1) i Hi) as M. cbv beta in M. fold (ls_test n (b_x s) d) in M.
    set (w := Rmax (Rabs (b_x s i)) 1) in *. assert (W : 1 <= w) by apply Rmax_r.
    apply Rle_lt_trans with (ls_lam o * ls_test n (b_x s) d * w).
    + rewrite Rmult_assoc. apply Rmult_le_compat_l; [lra|].
      apply (Rmult_le_compat_r w) in M; [|lra]. replace (Rabs (d i) / w * w) with (Rabs (d i)) in M by (field; lra). exact M.
    + apply Rmult_lt_compat_r; lra.
  - left. apply D.
  - right; right. exists (ls_lam o). split; [apply D|exact P].
Qed.
Print Assumptions bfgs_energy.
Example bfgs_case : bfgs_good 1 bowl (bfgs_init 1 bowl (fun _ => 1)) /\ nonzero 1 (b_g (bfgs_init 1 bowl (fun _ => 1))).
Proof. split; [apply bfgs_init_good|]. exists O. split; [lia|]. unfold bfgs_init, bowl. cbn. lra. Qed.
