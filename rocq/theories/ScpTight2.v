(** * Errors along the modes and skipped displacements of the self-consistent phonons *)
From Coq Require Import List Reals Lra Lia Arith String.
From Verif Require Import RSum MinModel PhonModel ScpModel VscfModel.
Import ListNotations.
Open Scope R_scope.

(** ** C222 *)
(** Errors of the coordinates add in squares; equal errors keep their size along a unit vector, and
    coordinates without error do not count. *)
Theorem mode_error n V fe k :
  0 <= fmode_err n V fe k /\ fmode_err n V fe k ^ 2 = Rsum n (fun i => (V i k * fe i) ^ 2) /\
  (forall e, (forall i, (i < n)%nat -> Rabs (fe i) = e) -> Rsum n (fun i => V i k ^ 2) = 1 -> fmode_err n V fe k = e \/ n = O) /\
  (forall c, fmode_err n V (fun i => c * fe i) k = Rabs c * fmode_err n V fe k).
Proof.
  assert (N : 0 <= Rsum n (fun i => V i k ^ 2 * fe i ^ 2)) by (apply Rsum_nonneg; intros; apply Rmult_le_pos; apply pow2_ge_0).
  repeat split.
  - apply sqrt_pos.
  - unfold fmode_err. rewrite pow2_sqrt by easy. apply Rsum_ext. intros. ring.
  - intros e He H1. destruct n as [|n']; [now right|]. left. unfold fmode_err. assert (E0 : 0 <= e) by (rewrite <- (He O ltac:(lia)); apply Rabs_pos).
    rewrite (Rsum_ext _ _ (fun i => V i k ^ 2 * e ^ 2)).
    + rewrite Rsum_scal_r, H1, Rmult_1_l. now apply sqrt_pow2.
    + intros i Hi. f_equal. rewrite <- (He i Hi). symmetry. apply pow2_abs.
  - intros c. unfold fmode_err. rewrite (Rsum_ext _ _ (fun i => c ^ 2 * (V i k ^ 2 * fe i ^ 2))) by (intros; ring). rewrite Rsum_scal, sqrt_mult by (apply pow2_ge_0 || easy).
    f_equal. rewrite <- (pow2_abs c). apply sqrt_pow2, Rabs_pos.
Qed.
Example mode_error_case : fmode_err 2 (fun i _ => if (i =? 0)%nat then 3 / 5 else 4 / 5) (fun _ => - 2) 0%nat = 2.
Proof.
  destruct (mode_error 2 (fun i _ => if (i =? 0)%nat then 3 / 5 else 4 / 5) (fun _ => - 2) 0%nat) as [_ [_ [H _]]]. destruct (H 2) as [E|E]; [| |exact E|discriminate].
  - intros. rewrite Rabs_left; lra.
  - cbn. field.
Qed.

(** One passage of the inner loop goes on only with forces that matter and batches that still have
    weight; a mode whose force is above its error moves by its force over its squared frequency,
    times the factor and divided by the number of coordinates. The others do not move. *)
Theorem inner_step n V z iw2 wthr look s s' W : (0 < n)%nat ->
  (forall k l, (k < n)%nat -> (l < n)%nat -> Rsum n (fun i => W k i * V i l) = delta k l) ->
  inner_pass n V z iw2 wthr look s = inr s' ->
  let '(f, fe, bw) := look (i_q s) in
  i_w s' = List.last bw 0 /\ i_scale s' = rescale (i_scale s) (List.last bw 0) (i_w s) /\ wthr <= rmax bw /\
  (exists k, (k < n)%nat /\ fmode_err n V fe k <= Rabs (fmode n V z f k)) /\
  forall k, (k < n)%nat -> Rsum n (fun i => W k i * (i_q s' i - i_q s i))
    = if z k then 0 else if Rlt_dec (Rabs (fmode n V z f k)) (fmode_err n V fe k) then 0
      else fmode n V z f k * iw2 k * i_scale s' / INR n.
Proof.
  intros Hn HW H. unfold inner_pass in H. destruct (look (i_q s)) as [[f fe] bw].
  destruct (insignificant n (fmode n V z f) (fmode_err n V fe)) eqn:I; [discriminate|]. destruct (Rlt_dec (rmax bw) wthr); [discriminate|]. injection H as <-.
  cbn [i_q i_scale i_w]. repeat split; [lra| |].
  - unfold insignificant in I. assert (E : exists k, In k (seq 0 n) /\ (if Rlt_dec (Rabs (fmode n V z f k)) (fmode_err n V fe k) then true else false) = false).
    { revert I. generalize (seq 0 n). induction l as [|k l IH]; cbn [forallb]; [discriminate|]. intros I. apply Bool.andb_false_iff in I. destruct I as [I|I].
      - exists k. split; [now left|exact I].
      - destruct (IH I) as [j [J1 J2]]. exists j. split; [now right|exact J2]. }
    destruct E as [k [K1 K2]]. apply in_seq in K1. exists k. split; [lia|]. destruct (Rlt_dec _ _) in K2; [discriminate|lra].
  - intros k Hk. set (d := nm_disp (rescale (i_scale s) (List.last bw 0) (i_w s) / INR n) iw2 (fmode n V z f) (fmode_err n V fe) z).
    rewrite (Rsum_ext _ _ (fun i => Rsum n (fun l => d l * (W k i * V i l)))).
    2:{ intros i Hi. unfold move_nm. replace (i_q s i + Rsum n (fun l => V i l * d l) - i_q s i) with (Rsum n (fun l => V i l * d l)) by ring.
        rewrite <- Rsum_scal. apply Rsum_ext. intros; ring. }
    rewrite Rsum_swap. rewrite (Rsum_ext _ _ (fun l => d l * delta k l)) by (intros l Hl; rewrite Rsum_scal, HW by easy; reflexivity).
    rewrite Rsum_delta_l by easy. unfold d, nm_disp. destruct (z k); [easy|]. destruct (Rlt_dec _ _); [easy|]. unfold Rdiv. ring.
Qed.
Example inner_step_case : exists s', inner_pass 1 (fun _ _ => 1) (fun _ => false) (fun _ => 2) 0 (fun _ => ((fun _ => 3), (fun _ => 1), [1])) (Inner (fun _ => 5) 1 (99 / 100)) = inr s' /\
  i_q s' 0%nat = 11.
Proof.
  eexists. unfold inner_pass, insignificant, fmode, fmode_err, rescale. cbn [i_q i_scale i_w List.last seq forallb Rsum Nat.ltb].
  replace (0 + 1 ^ 2 * 1 ^ 2) with 1 by ring. rewrite sqrt_1. replace (0 + 1 * 3) with 3 by ring. rewrite (Rabs_pos_eq 3) by lra. replace (1 - 99 / 100) with (/ 100) by field. rewrite (Rabs_pos_eq (/ 100)) by lra.
  destruct (Rlt_dec 3 1); [lra|]. cbn [andb]. destruct (Rlt_dec (/ 100) (/ 10000)); [lra|]. destruct (Rlt_dec (5 / 100) (/ 100)); [lra|].
  destruct (Rlt_dec (rmax [1]) 0) as [C|_]; [cbn in C; pose proof (Rmax_l 1 0); lra|]. split; [reflexivity|]. cbn [i_q]. unfold move_nm, nm_disp. cbn [Rsum].
  rewrite (Rabs_pos_eq 3) by lra. destruct (Rlt_dec 3 1) as [C|_]; [lra|]. cbn. field.
Qed.

(** ** C221 *)
(** Without the check beforehand the displacement is made whatever the size of the force. *)
Theorem branch_unchecked insig mode : In mode displace_options -> branches false insig mode = [mode].
Proof. intros H. cbn in H. destruct H as [<-|[<-|[<-|[<-|[]]]]]; reflexivity. Qed.
Example branch_unchecked_case : branches false true "sd" = ["sd"%string] /\ branches true true "sd" = [].
Proof. split; reflexivity. Qed.

(** ** C232 *)
(** States of higher energy have the smaller weight, with the ratio of the Boltzmann distribution. *)
Theorem boltz_order T e j k : 0 < T -> (e j < e k -> boltz T e k < boltz T e j) /\ boltz T e k = boltz T e j * exp (- (e k - e j) / T).
Proof.
  intros HT. split.
  - intros H. unfold boltz. apply exp_increasing. apply Rmult_lt_compat_r; [now apply Rinv_0_lt_compat|]. lra.
  - unfold boltz. rewrite <- exp_plus. f_equal. field. lra.
Qed.
Example boltz_order_case : boltz 1 (fun k => INR k) 1 < boltz 1 (fun k => INR k) 0.
Proof. apply boltz_order; cbn; lra. Qed.
Print Assumptions mode_error.
Print Assumptions branch_unchecked.
Print Assumptions boltz_order.
Print Assumptions inner_step.
