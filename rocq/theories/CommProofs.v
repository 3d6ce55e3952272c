(** * Statistics of committees *)
From Coq Require Import String List Reals Bool Arith Lra Lia.
From Verif Require Import RSum CommModel.
Import ListNotations.
Open Scope R_scope.

(** ** Vocabulary of the statements *)

(** The mean: the number from which the deviations cancel. *)
Definition is_mean (l : list R) (m : R) : Prop := Rsuml (map (fun x => x - m) l) = 0.
(** The unbiased variance from all pairs. *)
Definition pair_var (l : list R) : R :=
  Rsuml (map (fun x => Rsuml (map (fun y => (x - y) * (x - y)) l)) l)
  / (2 * INR (length l) * (INR (length l) - 1)).

Lemma INR_len_pos {A} (l : list A) : l <> [] -> 0 < INR (length l).
Proof. intros H. apply lt_0_INR. destruct l; [easy|cbn; lia]. Qed.

Lemma mean_is_mean l : l <> [] -> is_mean l (mean l).
Proof.
  intros H. pose proof (INR_len_pos l H). unfold is_mean, mean.
  rewrite (Rsuml_map_minus (fun x => x) (fun _ => Rsuml l / INR (length l))), map_id, Rsuml_map_const. field. lra.
Qed.
Lemma is_mean_unique l m : l <> [] -> is_mean l m -> m = mean l.
Proof.
  intros H Hm. pose proof (INR_len_pos l H). unfold is_mean, mean in *.
  rewrite (Rsuml_map_minus (fun x => x) (fun _ => m)), map_id, Rsuml_map_const in Hm.
  apply (Rmult_eq_reg_l (INR (length l))); [|lra]. field_simplify; lra.
Qed.

Lemma mean_rescale a m l : l <> [] -> m = mean l -> mean (rescale a m l) = m.
Proof.
  intros H Hm. pose proof (INR_len_pos l H). symmetry. apply is_mean_unique; [now destruct l|].
  unfold is_mean, rescale. rewrite map_map.
  rewrite (Rsuml_map_ext _ (fun x => a * (x - m))) by (intros; ring).
  rewrite Rsuml_map_scal. pose proof (mean_is_mean l H) as Hx. unfold is_mean in Hx. rewrite Hm, Hx. ring.
Qed.

Lemma var1_rescale a l : l <> [] -> var1 (rescale a (mean l) l) = a * a * var1 l.
Proof.
  intros H. unfold var1. rewrite mean_rescale by easy. unfold rescale. rewrite map_map, map_length.
  rewrite (Rsuml_map_ext _ (fun x => (a * a) * ((x - mean l) * (x - mean l)))) by (intros; ring).
  rewrite Rsuml_map_scal. unfold Rdiv. ring.
Qed.

Lemma var1_pair l : (2 <= length l)%nat -> var1 l = pair_var l.
Proof.
  intros H. assert (Hne : l <> []) by now destruct l.
  pose proof (INR_len_pos l Hne). assert (1 < INR (length l)) by (apply (lt_INR 1); lia).
  unfold var1, pair_var. set (n := INR (length l)) in *. set (m := mean l).
  assert (Hs : forall x, Rsuml (map (fun y => (x - y) * (x - y)) l)
     = n * ((x - m) * (x - m)) + Rsuml (map (fun y => (y - m) * (y - m)) l)).
  { intros x. pose proof (mean_is_mean l Hne) as Hm. unfold is_mean in Hm. fold m in Hm.
    rewrite (Rsuml_map_ext _ (fun y => ((x - m) * (x - m) + (y - m) * (y - m)) - (2 * (x - m)) * (y - m))) by (intros; ring).
    rewrite Rsuml_map_minus, Rsuml_map_plus, Rsuml_map_const, Rsuml_map_scal, Hm. fold n. ring. }
  rewrite (Rsuml_map_ext _ _ l (fun x _ => Hs x)). rewrite Rsuml_map_plus, Rsuml_map_const, Rsuml_map_scal.
  fold n. field. split; lra.
Qed.

Lemma var1_nonneg l : (2 <= length l)%nat -> 0 <= var1 l.
Proof.
  intros H. unfold var1. assert (1 < INR (length l)) by (apply (lt_INR 1); lia).
  apply Rmult_le_pos; [|left; apply Rinv_0_lt_compat; lra].
  assert (Hg : forall m l', 0 <= Rsuml (map (fun x => (x - m) * (x - m)) l')).
  { intros m l'. induction l' as [|x l' IH]; cbn; [lra|]. pose proof (Rle_0_sqr (x - m)). unfold Rsqr in *. lra. }
  apply Hg.
Qed.

(** ** What is collected *)
Definition all_pots (pj : bool) (ms : list member) : list R :=
  flat_map (fun m => match (if pj then m_json m else None) with Some j => j_pot j | None => [m_pot m] end) ms.

Lemma collect_pots_gen pj ms c : pots (fold_left (collect1 pj) ms c) = pots c ++ all_pots pj ms.
Proof.
  revert c. induction ms as [|m ms IH]; intros c; cbn; [now rewrite app_nil_r|].
  rewrite IH. unfold collect1. destruct (if pj then m_json m else None); cbn; now rewrite <- app_assoc.
Qed.
Lemma collect_pots pj ms : pots (collect pj ms) = all_pots pj ms.
Proof. unfold collect. now rewrite collect_pots_gen. Qed.

Definition plain (ms : list member) : Prop := Forall (fun m => m_json m = None) ms.
Lemma collect_plain_gen pj ms c : plain ms ->
  fold_left (collect1 pj) ms c =
  mkColl (pots c ++ map m_pot ms) (frcs c ++ map m_frc ms) (virs c ++ map m_vir ms) (hf c) (hv c).
Proof.
  intros H. revert c. induction H as [|m ms Hm Hms IH]; intros c; cbn.
  - rewrite !app_nil_r. now destruct c.
  - rewrite IH. unfold collect1. rewrite Hm.
    replace (if pj then None else None) with (@None json) by now destruct pj.
    cbn. now rewrite <- !app_assoc.
Qed.
Lemma collect_plain pj ms : plain ms ->
  collect pj ms = mkColl (map m_pot ms) (map m_frc ms) (map m_vir ms) true true.
Proof. intros H. unfold collect. rewrite collect_plain_gen by easy. easy. Qed.

Lemma comp_meanv n l k : (k < n)%nat -> nth k (meanv n l) 0 = mean (comp k l).
Proof.
  intros H. unfold meanv. set (g := fun k => mean (comp k l)).
  rewrite (nth_indep _ 0 (g 0%nat)) by now rewrite map_length, seq_length.
  rewrite map_nth, seq_nth by easy. easy.
Qed.
Lemma nth_map_seq n (g : nat -> R) k : (k < n)%nat -> nth k (map g (seq 0 n)) 0 = g k.
Proof.
  intros H. rewrite (nth_indep _ 0 (g 0%nat)) by now rewrite map_length, seq_length.
  rewrite map_nth, seq_nth by easy. easy.
Qed.

(** ** Derivatives *)
Lemma derivable_Rsuml_map {A} (f : A -> R -> R) (d : A -> R) x l :
  (forall a, In a l -> derivable_pt_lim (f a) x (d a)) ->
  derivable_pt_lim (fun t => Rsuml (map (fun a => f a t) l)) x (Rsuml (map d l)).
Proof.
  induction l as [|a l IH]; intros H; cbn; [apply derivable_pt_lim_const|].
  apply (derivable_pt_lim_plus (f a) (fun t => Rsuml (map (fun a => f a t) l))).
  - apply H. now left.
  - apply IH. intros b Hb. apply H. now right.
Qed.

Lemma derivable_mean {A} (f : A -> R -> R) (d : A -> R) x l :
  (forall a, In a l -> derivable_pt_lim (f a) x (d a)) ->
  derivable_pt_lim (fun t => mean (map (fun a => f a t) l)) x (mean (map d l)).
Proof.
  intros H. unfold mean.
  apply (derivable_ext (fun t => mult_real_fct (/ INR (length l)) (fun t => Rsuml (map (fun a => f a t) l)) t)).
  { intros t. unfold mult_real_fct. rewrite map_length. unfold Rdiv. ring. }
  eapply derivable_eq; [|apply derivable_pt_lim_scal; now apply (derivable_Rsuml_map f d)].
  rewrite map_length. unfold Rdiv. ring.
Qed.

Lemma derivable_sq f d x : derivable_pt_lim f x d -> derivable_pt_lim (fun t => f t * f t) x (2 * f x * d).
Proof. intros H. eapply derivable_eq; [|apply (derivable_pt_lim_mult f f); exact H]. ring. Qed.

Lemma derivable_var1 {A} (f : A -> R -> R) (d : A -> R) x l :
  (forall a, In a l -> derivable_pt_lim (f a) x (d a)) ->
  derivable_pt_lim (fun t => var1 (map (fun a => f a t) l)) x
    (2 * Rsuml (map (fun a => (f a x - mean (map (fun a => f a x) l)) * (d a - mean (map d l))) l) / (INR (length l) - 1)).
Proof.
  intros H. unfold var1.
  set (M := fun t => mean (map (fun a => f a t) l)).
  apply (derivable_ext (fun t => mult_real_fct (/ (INR (length l) - 1))
     (fun t => Rsuml (map (fun a => (f a t - M t) * (f a t - M t)) l)) t)).
  { intros t. unfold mult_real_fct. rewrite map_length, map_map. fold (M t). unfold Rdiv. ring. }
  eapply derivable_eq; [|apply derivable_pt_lim_scal;
    apply (derivable_Rsuml_map (fun a t => (f a t - M t) * (f a t - M t)) (fun a => 2 * (f a x - M x) * (d a - mean (map d l))))].
  - rewrite (Rsuml_map_ext _ (fun a => 2 * ((f a x - M x) * (d a - mean (map d l))))) by (intros; ring).
    rewrite Rsuml_map_scal. fold (M x). unfold Rdiv. ring.
  - intros a Ha. apply (derivable_sq (fun t => f a t - M t)).
    apply (derivable_pt_lim_minus (f a) M); [now apply H|]. now apply derivable_mean.
Qed.

Lemma mean_opp {A} (d : A -> R) l : mean (map (fun a => - d a) l) = - mean (map d l).
Proof.
  unfold mean. rewrite !map_length. rewrite (Rsuml_map_ext (fun a => - d a) (fun a => (-1) * d a)) by (intros; ring).
  rewrite Rsuml_map_scal. unfold Rdiv. ring.
Qed.

(** The weighted baseline: value and derivative. *)
Lemma derivable_baseline {A} (U : A -> R -> R) (F : A -> R) (B : R -> R) (Fb : R) a s2 x l :
  (2 <= length l)%nat -> 0 < s2 ->
  derivable_pt_lim B x (- Fb) ->
  (forall i, In i l -> derivable_pt_lim (U i) x (- F i)) ->
  let ps t := map (fun i => U i t) l in
  let var t := var1 (rescale a (mean (ps t)) (ps t)) in
  derivable_pt_lim (fun t => B t + mean (ps t) * s2 / (s2 + var t)) x
    (- final_frc s2 (var x) Fb (mean (ps x)) a (ps x) (map F l)).
Proof.
  intros Hl Hs HB HU ps var.
  assert (Hne : forall t, ps t <> []) by (intros t; unfold ps; now destruct l).
  assert (Hlen : forall t, length (ps t) = length l) by (intros t; unfold ps; apply map_length).
  assert (Hv : forall t, var t = a * a * var1 (ps t)) by (intros t; unfold var; now rewrite var1_rescale).
  assert (Hpos : 0 < s2 + var x).
  { rewrite Hv. pose proof (var1_nonneg (ps x) ltac:(rewrite Hlen; lia)). pose proof (Rle_0_sqr a). unfold Rsqr in *.
    assert (0 <= a * a * var1 (ps x)) by now apply Rmult_le_pos. lra. }
  set (m' := mean (map (fun i => - F i) l)).
  set (v' := 2 * Rsuml (map (fun i => (U i x - mean (ps x)) * (- F i - m')) l) / (INR (length l) - 1)).
  assert (HM : derivable_pt_lim (fun t => mean (ps t)) x m') by now apply (derivable_mean U (fun i => - F i)).
  assert (HV : derivable_pt_lim (fun t => var t) x (a * a * v')).
  { apply (derivable_ext (fun t => mult_real_fct (a * a) (fun t => var1 (ps t)) t)).
    - intros t. rewrite Hv. unfold mult_real_fct. ring.
    - apply derivable_pt_lim_scal. now apply (derivable_var1 U (fun i => - F i)). }
  assert (HD : derivable_pt_lim (fun t => s2 + var t) x (0 + a * a * v')).
  { apply (derivable_pt_lim_plus (fun _ => s2) var); [apply derivable_pt_lim_const | exact HV]. }
  assert (HN : derivable_pt_lim (fun t => mean (ps t) * s2) x (m' * s2 + mean (ps x) * 0)).
  { apply (derivable_pt_lim_mult (fun t => mean (ps t)) (fun _ => s2)); [exact HM | apply derivable_pt_lim_const]. }
  pose proof (derivable_pt_lim_div (fun t => mean (ps t) * s2) (fun t => s2 + var t) x _ _ HN HD ltac:(lra)) as HQ.
  pose proof (derivable_pt_lim_plus B (fun t => mean (ps t) * s2 / (s2 + var t)) x _ _ HB HQ) as HT.
  eapply derivable_eq; [|exact HT]. unfold final_frc, uncertain.
  assert (Hm' : m' = - mean (map F l)) by apply mean_opp.
  assert (Hv' : v' = - 2 * Rsuml (map (fun pf => (fst pf - mean (ps x)) * (snd pf - mean (map F l))) (combine (ps x) (map F l))) / (INR (length l) - 1)).
  { unfold v'. rewrite Hm'. rewrite (Rsuml_map_ext _ (fun i => (-1) * ((U i x - mean (ps x)) * (F i - mean (map F l))))) by (intros; ring).
    rewrite Rsuml_map_scal.
    assert (Hc : map (fun pf => (fst pf - mean (ps x)) * (snd pf - mean (map F l))) (combine (ps x) (map F l))
                = map (fun i => (U i x - mean (ps x)) * (F i - mean (map F l))) l).
    { generalize (mean (ps x)) (mean (map F l)). intros c1 c2. unfold ps. clear.
      induction l as [|i l IH]; cbn; [easy|]. now rewrite IH. }
    rewrite Hc. unfold Rdiv. ring. }
  rewrite Hlen, Hm', Hv'. unfold Rsqr.
  assert (1 < INR (length l)) by (apply (lt_INR 1); lia).
  field. split; lra.
Qed.
