(** * Theorems of record: the nudged elastic band *)
From Coq Require Import List Arith Lia Reals Lra Bool FunctionalExtensionality.
From Verif Require Import RSum MinModel MinLin NebModel.
Import ListNotations.
Open Scope list_scope.
Open Scope R_scope.

(** ** C196: tangents *)
Lemma unit_unit n v t : unit_of n v = Some t -> dot n t t = 1.
Proof.
  unfold unit_of. destruct (Req_EM_T _ 0) as [|N]; [easy|]. intros Q; injection Q as <-. pose proof (norm_sq n v) as S.
  rewrite (dot_ext n _ (fun i => / norm n v * v i) _ (fun i => / norm n v * v i)) by (intros i _; unfold Rdiv; ring). rewrite dot_scal_l, dot_scal_r, <- S. field. exact N.
Qed.
Theorem tangent_unit n k bm b bp d1 d2 t : tangent n k bm b bp d1 d2 = Some t -> dot n t t = 1.
Proof.
  destruct k; cbn [tangent].
  - unfold tangent_plain. destruct (unit_of n d1), (unit_of n d2); try easy. apply unit_unit.
  - apply unit_unit.
Qed.
Lemma norm_opp n v : norm n (fun i => - v i) = norm n v.
Proof. unfold norm. f_equal. rewrite dot_opp_l, dot_opp_r. ring. Qed.
Lemma norm_ext n u v : veq n u v -> norm n u = norm n v.
Proof. intros H. unfold norm. f_equal. now apply dot_ext. Qed.
(** Two optional vectors are the same in the first n entries. *)
Definition oveq (n : nat) (a b : option vec) : Prop := match a, b with Some x, Some y => veq n x y | None, None => True | _, _ => False end.
Definition oopp (a : option vec) : option vec := option_map (fun v i => - v i) a.
Lemma unit_opp n v : oveq n (unit_of n (fun i => - v i)) (oopp (unit_of n v)).
Proof. unfold unit_of. rewrite norm_opp. destruct (Req_EM_T _ 0); cbn; [easy|]. intros i _. unfold Rdiv. ring. Qed.
Lemma unit_ext n u v : veq n u v -> oveq n (unit_of n u) (unit_of n v).
Proof. intros H. unfold unit_of. rewrite (norm_ext n u v H). destruct (Req_EM_T _ 0); cbn; [easy|]. intros i Hi. now rewrite H. Qed.
Lemma unit_scal n c v : 0 < c -> oveq n (unit_of n (fun i => c * v i)) (unit_of n v).
Proof.
  intros C. unfold unit_of. rewrite norm_scal, Rabs_right by lra. destruct (Req_EM_T (c * norm n v) 0) as [E|E], (Req_EM_T (norm n v) 0) as [F|F]; cbn; try easy.
  - apply Rmult_integral in E. lra.
  - elim E. rewrite F. ring.
  - intros i _. field. lra.
Qed.
Lemma oveq_trans n a b c : oveq n a b -> oveq n b c -> oveq n a c.
Proof. destruct a, b, c; cbn; try easy. intros H K i Hi. now rewrite H, K. Qed.
Lemma oveq_sym n a b : oveq n a b -> oveq n b a.
Proof. destruct a, b; cbn; try easy. intros H i Hi. now rewrite H. Qed.
Lemma oopp_ext n a b : oveq n a b -> oveq n (oopp a) (oopp b).
Proof. destruct a, b; cbn; try easy. intros H i Hi. now rewrite H. Qed.
Ltac decide_all := repeat match goal with
  | |- context [Rlt_dec ?a ?b] => destruct (Rlt_dec a b); [try lra|try lra]
  | |- context [Rle_dec ?a ?b] => destruct (Rle_dec a b); [try lra|try lra]
  end.
Ltac vals := unfold Rmax, Rmin; repeat match goal with
  | |- context [Rabs ?x] => first [rewrite (Rabs_right x) by lra | rewrite (Rabs_left x) by lra]
  | |- context [Rle_dec ?a ?b] => destruct (Rle_dec a b); [try lra|try lra]
  end.
(** A path walked the other way has the opposite tangents. *)
Theorem plain_reversed n d1 d2 : oveq n (tangent_plain n (fun i => - d2 i) (fun i => - d1 i)) (oopp (tangent_plain n d1 d2)).
Proof.
  unfold tangent_plain. pose proof (unit_opp n d1) as A. pose proof (unit_opp n d2) as B.
  destruct (unit_of n (fun i => - d2 i)), (unit_of n d2); cbn in B; try easy; destruct (unit_of n (fun i => - d1 i)), (unit_of n d1); cbn in A; try easy.
  eapply oveq_trans; [|apply unit_opp]. apply unit_ext. intros i Hi. rewrite A, B by easy. ring.
Qed.
Theorem improved_reversed n bm b bp d1 d2 : ~ (bm = b /\ b = bp) ->
  oveq n (tangent_improved n bp b bm (fun i => - d2 i) (fun i => - d1 i)) (oopp (tangent_improved n bm b bp d1 d2)).
Proof.
  intros NE. unfold tangent_improved.
  assert (X : exists c, 0 < c /\ (veq n (improved_raw bp b bm (fun i => - d2 i) (fun i => - d1 i)) (fun i => - (c * improved_raw bm b bp d1 d2 i))
      \/ veq n (fun i => c * improved_raw bp b bm (fun i => - d2 i) (fun i => - d1 i) i) (fun i => - improved_raw bm b bp d1 d2 i))).
  { destruct (Rtotal_order bm b) as [L1|[L1|L1]], (Rtotal_order b bp) as [L2|[L2|L2]]; try (exfalso; apply NE; lra).
    - exists 1. split; [lra|]. left. unfold improved_raw. decide_all. intros i _. ring.
    - subst bp. exists (b - bm). split; [lra|]. left. unfold improved_raw. decide_all; intros i _; vals; ring.
    - exists 1. split; [lra|]. left. unfold improved_raw. decide_all; intros i _; vals; first [ring|nra].
    - subst bm. exists (bp - b). split; [lra|]. left. unfold improved_raw. decide_all; intros i _; vals; ring.
    - subst bm. exists (b - bp). split; [lra|]. right. unfold improved_raw. decide_all; intros i _; vals; ring.
    - exists 1. split; [lra|]. left. unfold improved_raw. decide_all; intros i _; vals; first [ring|nra].
    - subst bp. exists (bm - b). split; [lra|]. right. unfold improved_raw. decide_all; intros i _; vals; ring.
    - exists 1. split; [lra|]. left. unfold improved_raw. decide_all. intros i _. ring. }
  destruct X as (c & C & [X|X]).
  - eapply oveq_trans; [apply unit_ext; exact X|]. eapply oveq_trans; [apply (unit_opp n (fun i => c * improved_raw bm b bp d1 d2 i))|]. apply oopp_ext. now apply unit_scal.
  - eapply oveq_trans; [apply oveq_sym, (unit_scal n c); exact C|]. eapply oveq_trans; [apply unit_ext; exact X|]. apply unit_opp.
Qed.
(** Not on a flat part of the path: there the tangent is that towards the image behind. *)
Theorem improved_reversed_refuted : exists n b d1 d2,
  ~ oveq n (tangent_improved n b b b (fun i => - d2 i) (fun i => - d1 i)) (oopp (tangent_improved n b b b d1 d2)).
Proof.
  exists 2%nat, 0, (fun i => if (i =? 0)%nat then 1 else 0), (fun i => if (i =? 0)%nat then 0 else 1).
  unfold tangent_improved, improved_raw. decide_all. unfold unit_of. rewrite !norm_opp.
  assert (N1 : norm 2 (fun i => if (i =? 0)%nat then 1 else 0) = 1) by (unfold norm, dot; cbn; replace (0 + 1 * 1 + 0 * 0) with 1 by ring; apply sqrt_1).
  assert (N2 : norm 2 (fun i => if (i =? 0)%nat then 0 else 1) = 1) by (unfold norm, dot; cbn; replace (0 + 0 * 0 + 1 * 1) with 1 by ring; apply sqrt_1).
  rewrite N1, N2. destruct (Req_EM_T 1 0); [lra|]. cbn [oopp option_map oveq]. intros X. specialize (X 0%nat ltac:(lia)). cbn in X. lra.
Qed.
(** Along a slope the tangent points to the higher neighbour; at an extremum it is in between, and nearer
    to the higher one. *)
Theorem improved_uphill n bm b bp d1 d2 :
  (bm < b -> b < bp -> tangent_improved n bm b bp d1 d2 = unit_of n d2) /\
  (bp < b -> b < bm -> tangent_improved n bm b bp d1 d2 = unit_of n d1) /\
  ((bm < b /\ bp < b) \/ (b < bm /\ b < bp) -> exists w1 w2, 0 < w1 /\ 0 < w2 /\ (bm <= bp -> w1 <= w2) /\ (bp <= bm -> w2 <= w1) /\
     tangent_improved n bm b bp d1 d2 = unit_of n (fun i => d2 i * w2 + d1 i * w1)).
Proof.
  unfold tangent_improved. split; [|split].
  - intros. unfold improved_raw. decide_all. easy.
  - intros. unfold improved_raw. decide_all. easy.
  - intros H. set (A := Rabs (bp - b)). set (B := Rabs (bm - b)). assert (0 < A) by (apply Rabs_pos_lt; lra). assert (0 < B) by (apply Rabs_pos_lt; lra).
    destruct (Rle_dec bm bp) as [L|L].
    + exists (Rmin A B), (Rmax A B). split; [now apply Rmin_glb_lt|]. split; [unfold Rmax; destruct (Rle_dec A B); lra|].
      split; [intros _; unfold Rmax, Rmin; destruct (Rle_dec A B); lra|]. split.
      * intros L'. assert (bm = bp) by lra. subst bm. unfold A, B. rewrite Rmax_left, Rmin_left by lra. lra.
      * unfold improved_raw. fold A B. decide_all; reflexivity.
    + exists (Rmax A B), (Rmin A B). split; [unfold Rmax; destruct (Rle_dec A B); lra|]. split; [now apply Rmin_glb_lt|].
      split; [intros; lra|]. split; [intros _; unfold Rmax, Rmin; destruct (Rle_dec A B); lra|]. unfold improved_raw. fold A B. decide_all; reflexivity.
Qed.
Print Assumptions tangent_unit.
Print Assumptions plain_reversed.
Print Assumptions improved_reversed.
Print Assumptions improved_reversed_refuted.
Print Assumptions improved_uphill.

(** ** C197: the force of the band *)
(** Along the tangent only the springs act, across it only the physical force. *)
Theorem neb_force_along n kappa tau f d1 d2 : dot n tau tau = 1 -> dot n (neb_force n kappa tau f d1 d2) tau = kappa * (norm n d2 - norm n d1).
Proof.
  intros U. unfold neb_force. rewrite dot_add_l, dot_sub_l, !dot_scal_l, U. ring.
Qed.
Theorem neb_force_across n kappa tau f d1 d2 u : dot n tau u = 0 -> dot n (neb_force n kappa tau f d1 d2) u = dot n f u.
Proof. intros U. unfold neb_force. rewrite dot_add_l, dot_sub_l, !dot_scal_l, U. ring. Qed.
(** It vanishes exactly when the force is along the tangent and the images are evenly spaced. *)
Theorem neb_force_zero n kappa tau f d1 d2 : dot n tau tau = 1 -> kappa <> 0 ->
  (veq n (neb_force n kappa tau f d1 d2) (fun _ => 0) <-> (exists c, veq n f (fun i => c * tau i)) /\ norm n d1 = norm n d2).
Proof.
  intros U K. split.
  - intros H. assert (A : norm n d1 = norm n d2).
    { pose proof (neb_force_along n kappa tau f d1 d2 U) as A. rewrite (dot_veq0_l _ _ _ H) in A. symmetry in A. apply Rmult_integral in A. destruct A; [easy|lra]. }
    split; [|exact A]. exists (dot n f tau). intros i Hi. specialize (H i Hi). unfold neb_force in H. rewrite A in H. lra.
  - intros [[c C] A] i Hi. unfold neb_force. rewrite A. rewrite (dot_ext n f (fun i => c * tau i) tau tau) by easy. rewrite dot_scal_l, U, C by easy. ring.
Qed.
(** ** C198: the force of the climbing image is the force reflected at the plane across the path *)
Theorem climb_along n tau f : dot n tau tau = 1 -> dot n (climb_force n tau f) tau = - dot n f tau.
Proof. intros U. unfold climb_force. rewrite dot_sub_l, dot_scal_l, U. ring. Qed.
Theorem climb_across n tau f u : dot n tau u = 0 -> dot n (climb_force n tau f) u = dot n f u.
Proof. intros U. unfold climb_force. rewrite dot_sub_l, dot_scal_l, U. ring. Qed.
Theorem climb_norm n tau f : dot n tau tau = 1 -> norm n (climb_force n tau f) = norm n f.
Proof.
  intros U. unfold norm. f_equal. unfold climb_force. rewrite dot_sub_l, !dot_sub_r, !dot_scal_l, !dot_scal_r, U, (dot_comm n tau f). ring.
Qed.
(** So it is zero exactly at the stationary points of the potential. *)
Theorem climb_zero n tau f : dot n tau tau = 1 -> (veq n (climb_force n tau f) (fun _ => 0) <-> veq n f (fun _ => 0)).
Proof.
  intros U. pose proof (climb_norm n tau f U) as N. split; intros H.
  - apply dot_self_zero. rewrite <- norm_sq, <- N, norm_sq. now apply dot_veq0_l.
  - apply dot_self_zero. rewrite <- norm_sq, N, norm_sq. now apply dot_veq0_l.
Qed.
Theorem climb_grad_zero n f x qp qn g : climb_grad n f x qp qn = Some g -> (veq n g (fun _ => 0) <-> veq n f (fun _ => 0)).
Proof.
  unfold climb_grad. destruct (tangent_plain _ _ _) as [t|] eqn:T; [|easy]. intros Q; injection Q as <-.
  rewrite <- (climb_zero n t f) by (now apply (tangent_unit n Plain 0 0 0 (fun i => x i - qp i) (fun i => qn i - x i))).
  split; intros H i Hi; specialize (H i Hi); cbn beta in *; lra.
Qed.
Theorem band_grad_zero n k kappa be q f ii g : kappa <> 0 -> neb_grad n k kappa be q f ii = Some g ->
  exists tau, dot n tau tau = 1 /\ (veq n g (fun _ => 0) <-> (exists c, veq n (f ii) (fun i => c * tau i))
    /\ norm n (fun i => q ii i - q (ii - 1)%nat i) = norm n (fun i => q (ii + 1)%nat i - q ii i)).
Proof.
  intros K. unfold neb_grad. destruct (tangent _ _ _ _ _ _ _) as [t|] eqn:T; [|easy]. intros Q; injection Q as <-. exists t. pose proof (tangent_unit _ _ _ _ _ _ _ _ T) as U.
  split; [exact U|]. rewrite <- neb_force_zero by eassumption. split; intros H i Hi; specialize (H i Hi); cbn beta in *; lra.
Qed.
Print Assumptions neb_force_along.
Print Assumptions neb_force_across.
Print Assumptions neb_force_zero.
Print Assumptions climb_along.
Print Assumptions climb_across.
Print Assumptions climb_norm.
Print Assumptions climb_zero.
Print Assumptions climb_grad_zero.
Print Assumptions band_grad_zero.
(** A case: three images on a line, the middle one highest, force across the line. *)
Example band_case : let q b i := if (i =? 0)%nat then INR b else 0 in
  oveq 2 (neb_grad 2 Plain 1 (fun _ => 0) q (fun _ i => if (i =? 1)%nat then 3 else 7) 1) (Some (fun i => if (i =? 1)%nat then -3 else 0)).
Proof.
  cbn zeta. unfold neb_grad, tangent, tangent_plain.
  assert (N1 : forall a b c d : R, a - c = 1 -> b - d = 0 -> norm 2 (fun i => (if (i =? 0)%nat then a else b) - (if (i =? 0)%nat then c else d)) = 1).
  { intros a b c d H1 H2. unfold norm, dot. cbn. rewrite H1, H2. replace (0 + 1 * 1 + 0 * 0) with 1 by ring. apply sqrt_1. }
  unfold unit_of. rewrite !N1 by (cbn; lra). destruct (Req_EM_T 1 0); [lra|].
  assert (N2 : norm 2 (fun i => ((if (i =? 0)%nat then INR 1 else 0) - (if (i =? 0)%nat then INR (1 - 1) else 0)) / 1 + ((if (i =? 0)%nat then INR (1 + 1) else 0) - (if (i =? 0)%nat then INR 1 else 0)) / 1) = 2).
  { unfold norm, dot. cbn. match goal with |- sqrt ?x = _ => replace x with (2 * 2) by field end. apply sqrt_square. lra. }
  rewrite N2. destruct (Req_EM_T 2 0); [lra|]. cbn [oveq]. intros i Hi. unfold neb_force. rewrite !N1 by (cbn; lra).
  unfold dot. cbn. destruct i as [|[|i]]; [| |lia]; cbn; field.
Qed.

(** ** C199: what moves *)
Lemma place_keeps P q x b i : (inner P b = false \/ pmask P i = false) -> place P q x b i = q b i.
Proof. intros H. unfold place. destruct H as [-> | ->]; [easy|]. now rewrite andb_false_r. Qed.
Lemma argmax_from_lt f k : forall best i, (best < i)%nat -> (argmax_from f best i k < i + k)%nat.
Proof. induction k as [|k IH]; intros best i H; [cbn; lia|]. cbn. destruct (Rlt_dec _ _); [specialize (IH i (i + 1)%nat)|specialize (IH best (i + 1)%nat)]; lia. Qed.
Lemma argmax_from_spec f k : forall best i, (best < i)%nat -> (forall j, (j < i)%nat -> f j <= f best) -> (forall j, (j < best)%nat -> f j < f best) ->
  let m := argmax_from f best i k in (forall j, (j < i + k)%nat -> f j <= f m) /\ (forall j, (j < m)%nat -> f j < f m).
Proof.
  induction k as [|k IH]; intros best i H A B; cbn zeta; cbn [argmax_from].
  - split; [intros j Hj; apply A; lia|exact B].
  - replace (i + S k)%nat with (i + 1 + k)%nat by lia. destruct (Rlt_dec (f best) (f i)) as [L|L].
    + apply IH; [lia| |].
      * intros j Hj. destruct (Nat.eq_dec j i) as [->|]; [lra|]. specialize (A j ltac:(lia)). lra.
      * intros j Hj. specialize (A j Hj). lra.
    + apply IH; [lia| |exact B]. intros j Hj. destruct (Nat.eq_dec j i) as [->|]; [lra|]. apply A. lia.
Qed.
(** The climbing image is the first of the highest. *)
Theorem argmax_spec n f : (0 < n)%nat -> (argmax n f < n)%nat /\ (forall j, (j < n)%nat -> f j <= f (argmax n f)) /\ (forall j, (j < argmax n f)%nat -> f j < f (argmax n f)).
Proof.
  intros H. unfold argmax. destruct (argmax_from_spec f (n - 1) 0 1) as [A B]; [lia| |lia|].
  - intros j Hj. replace j with 0%nat by lia. lra.
  - cbn zeta in A, B. replace (1 + (n - 1))%nat with n in A by lia. split; [|split; [exact A|exact B]]. pose proof (argmax_from_lt f (n - 1) 0 1 ltac:(lia)). lia.
Qed.
Definition start_ok (P : par) (s : st) : Prop := zeros P (qprev s) = true \/ inner P (cl s) = true.
Lemma zeros_or P s : start_ok P s -> let s1 := climb_init P s in pos s1 = pos s /\ (fin s1 = fin s \/ fin s1 = Some Bad) /\
   (fin s = None -> fin s1 = None -> inner P (cl s1) = true) /\ (fin s1 = None -> start_ok P s1).
Proof.
  intros OK. cbn zeta. unfold climb_init. destruct (zeros P (qprev s)) eqn:Z1, (zeros P (qnext s)) eqn:Z2; cbn [orb].
  4:{ repeat split; auto. destruct OK as [OK|OK]; [congruence|easy]. }
  all: set (c := argmax _ _); destruct (Nat.eqb_spec c 0) as [E0|E0]; cbn [orb]; [cbn; repeat split; auto; discriminate|];
    destruct (Nat.eqb_spec c (pnimg P - 1)) as [E1|E1]; [cbn; repeat split; auto; discriminate|];
    assert (IN : inner P c = true) by (unfold inner; destruct (Nat.eq_dec (pnimg P) 0) as [EZ|NZ]; [exfalso; apply E0; unfold c; now rewrite EZ|];
      pose proof (proj1 (argmax_spec (pnimg P) (fun b => ppot P (pos s b)) ltac:(lia))); fold c in H; apply andb_true_intro; split; [apply Nat.leb_le|apply Nat.ltb_lt]; lia);
    cbn; repeat split; auto; right; exact IN.
Qed.
(** Whatever the optimiser does: the endpoints and the fixed coordinates stay where they are. *)
Lemma step_keeps P o s s' b i : start_ok P s -> fin s = None -> step P o s = Next s' -> (inner P b = false \/ pmask P i = false) ->
  pos s' b i = pos s b i /\ (fin s' = None -> start_ok P s').
Proof.
  intros OK F H K. unfold step in H. destruct (stg s).
  - destruct (poptimize P); [easy|]. injection H as <-. auto.
  - destruct (pvarsprings P); [easy|]. destruct (pmode P); [| |easy]; injection H as <-; (split; [now apply place_keeps|intros _; exact OK]).
  - destruct (zeros_or P s OK) as (E & _ & IN & OK'). cbn zeta in *. destruct (fin (climb_init P s)) eqn:F1.
    + injection H as <-. rewrite E, F1. split; [easy|discriminate].
    + specialize (IN F eq_refl). destruct (pmode P); [| |injection H as <-; cbn; rewrite E; split; [easy|discriminate]];
      injection H as <-; (split; [|intros _; right; exact IN]); cbn [climb_move pos]; unfold place_image; rewrite E;
      (destruct (Nat.eqb_spec b (cl (climb_init P s))) as [->|]; [|easy]); destruct K as [K|K]; [congruence|now rewrite K| congruence|now rewrite K].
  - injection H as <-. cbn. split; [easy|discriminate].
Qed.
Theorem run_keeps P os : forall s s' b i, start_ok P s -> run P os s = Next s' -> (inner P b = false \/ pmask P i = false) -> pos s' b i = pos s b i.
Proof.
  induction os as [|o os IH]; intros s s' b i OK H K; cbn [run] in H.
  - now injection H as <-.
  - destruct (fin s) eqn:F; [now injection H as <-|]. destruct (step P o s) as [s1|] eqn:E; [|easy].
    destruct (step_keeps P o s s1 b i OK F E K) as [A B]. destruct (fin s1) eqn:F1.
    + destruct os; cbn [run] in H; [|rewrite F1 in H]; injection H as <-; exact A.
    + rewrite (IH s1 s' b i (B eq_refl) H K). exact A.
Qed.
(** A climbing step moves no image but the climbing one. *)
Theorem climb_moves_one P o s s' b i : fin s = None -> stg s = Climb -> step P o s = Next s' -> b <> cl s' -> pos s' b i = pos s b i.
Proof.
  intros F C H N. unfold step in H. rewrite C in H.
  assert (E : pos (climb_init P s) = pos s). { unfold climb_init. destruct (_ || _)%bool; [|easy]. destruct (_ || _)%bool; easy. }
  destruct (fin (climb_init P s)); [injection H as <-; now rewrite E|].
  destruct (pmode P); injection H as <-; cbn in *; unfold place_image; rewrite ?E; try easy; now destruct (Nat.eqb_spec b (cl (climb_init P s))).
Qed.
(** It is the highest at the time it is chosen, never an endpoint. *)
Theorem climb_highest P s : (0 < pnimg P)%nat -> (zeros P (qprev s) || zeros P (qnext s))%bool = true -> fin s = None ->
  let s1 := climb_init P s in (forall b, (b < pnimg P)%nat -> ppot P (pos s b) <= ppot P (pos s (cl s1))) /\
  (fin s1 = None -> inner P (cl s1) = true) /\ (fin s1 = Some Bad <-> (cl s1 = 0 \/ cl s1 = pnimg P - 1)%nat).
Proof.
  intros HP Z F. cbn zeta. unfold climb_init. rewrite Z. destruct (argmax_spec (pnimg P) (fun b => ppot P (pos s b)) HP) as (A & B & _). cbn beta in B. set (c := argmax _ _) in *.
  destruct (Nat.eqb_spec c 0) as [E0|E0]; cbn [orb]; [cbn; split; [exact B|split; [discriminate|tauto]]|].
  destruct (Nat.eqb_spec c (pnimg P - 1)) as [E1|E1]; cbn; (split; [exact B|]).
  - split; [discriminate|tauto].
  - split; [intros _; unfold inner; apply andb_true_intro; split; [apply Nat.leb_le|apply Nat.ltb_lt]; lia|]. rewrite F. split; [discriminate|tauto].
Qed.
Print Assumptions argmax_spec.
Print Assumptions run_keeps.
Print Assumptions climb_moves_one.
Print Assumptions climb_highest.
