(** * More about the self-consistent phonons and the anharmonic modes *)
From Coq Require Import List Reals Lra Lia Arith ZArith Bool FunctionalExtensionality.
From Verif Require Import RSum MinModel PhonModel ScpModel ScpAvg.
Import ListNotations.
Open Scope R_scope.

(** ** C213 *)
(** Only one bead, and a number of configurations that the parallel forces divide. *)
Theorem bind_spec ms np nbeads : (0 < np)%nat -> bind_ok ms np nbeads = true <-> (nbeads <= 1)%nat /\ exists k, ms = (k * np)%nat.
Proof.
  intros H. unfold bind_ok. rewrite andb_true_iff, negb_true_iff, Nat.eqb_eq, Nat.ltb_ge. split.
  - intros [A B]. split; [easy|]. exists (ms / np)%nat. rewrite (Nat.div_mod ms np) at 1 by lia. rewrite A. lia.
  - intros [A [k ->]]. split; [|easy]. apply Nat.mod_mul. lia.
Qed.
Example bind_case : bind_ok 12 4 1 = true /\ bind_ok 12 4 2 = false /\ bind_ok 12 5 1 = false.
Proof. repeat split. Qed.

(** ** C216 the error of the force *)
Lemma Rsuml_nonneg {A} (f : A -> R) l : (forall x, In x l -> 0 <= f x) -> 0 <= Rsuml (map f l).
Proof.
  induction l as [|x l IH]; intros H; cbn; [lra|]. pose proof (H x (or_introl eq_refl)). pose proof (IH (fun y Hy => H y (or_intror Hy))). lra.
Qed.
(** The square of the error is that of a mean of independent batches: their variances with the squares of the shares of the weights that the
    mean itself is taken with. *)
Theorem force_error n ms e qp K iD bs j : total n ms e qp iD bs <> 0 -> (0 < ms)%nat ->
  (forall b, In b bs -> 0 <= var_batch ms (brw n iD qp b) (resid n K qp b j)) ->
  let share b := sw n ms e qp iD b / total n ms e qp iD bs in
  force n ms e qp K iD bs j = Rsuml (map (fun b => share b * avg_batch ms (brw n iD qp b) (resid n K qp b j)) bs) /\
  force_err n ms e qp K iD bs j ^ 2 = Rsuml (map (fun b => share b ^ 2 * (var_batch ms (brw n iD qp b) (resid n K qp b j) / INR ms)) bs) /\
  Rsuml (map share bs) = 1.
Proof.
  intros Ht Hm V share. pose proof (lt_0_INR ms Hm) as Hi. set (t := total n ms e qp iD bs) in *. repeat split.
  - unfold force. fold t. rewrite (Rsuml_map_ext (fun b => share b * _) (fun b => / t * (sw n ms e qp iD b * avg_batch ms (brw n iD qp b) (resid n K qp b j))))
      by (intros; unfold share, Rdiv; ring). rewrite Rsuml_map_scal. unfold Rdiv. ring.
  - unfold force_err. fold t. rewrite pow2_sqrt.
    + rewrite (Rsuml_map_ext (fun b => share b ^ 2 * _) (fun b => / (t ^ 2 * INR ms) * (sw n ms e qp iD b ^ 2 * var_batch ms (brw n iD qp b) (resid n K qp b j))))
        by (intros; unfold share; field; lra). rewrite Rsuml_map_scal. field. lra.
    + apply Rmult_le_pos; [|left; now apply Rinv_0_lt_compat]. apply Rmult_le_pos.
      * apply Rsuml_nonneg. intros b Hb. apply Rmult_le_pos; [apply pow2_ge_0|now apply V].
      * left. apply Rinv_0_lt_compat. assert (0 <= t ^ 2) by apply pow2_ge_0. assert (t ^ 2 <> 0) by now apply pow_nonzero. lra.
  - unfold share. rewrite (Rsuml_map_ext (fun b => _ / t) (fun b => / t * sw n ms e qp iD b)) by (intros; unfold Rdiv; ring).
    rewrite Rsuml_map_scal. fold (total n ms e qp iD bs). fold t. field. easy.
Qed.
(** Two equal batches with forces 1 and -1 at rest: the squared error is half of that of one. *)
Definition two_batch : batch := Batch (fun _ _ => 0) (fun k _ => if Nat.eqb k 0 then 1 else -1) (fun _ => 0) (fun _ _ => 1).
Example error_case : force_err 1 2 1 (fun _ => 0) (fun _ _ => 1) (fun _ _ => 1) [two_batch; two_batch] 0%nat ^ 2 = 1 / 2 /\
  force_err 1 2 1 (fun _ => 0) (fun _ _ => 1) (fun _ _ => 1) [two_batch] 0%nat ^ 2 = 1.
Proof.
  assert (Rr : forall k, brw 1 (fun _ _ => 1) (fun _ => 0) two_batch k = 1).
  { intros k. unfold brw, rweight, expo, quad, dot, mv, vsub. cbn. replace (_ + _) with 0 by ring. apply exp_0. }
  assert (W : sw 1 2 1 (fun _ => 0) (fun _ _ => 1) two_batch = 1).
  { unfold sw. apply bweight_one; try lia.
    - intros k _. rewrite Rr. lra.
    - cbn. rewrite !Rr. pose proof tiny_small. lra.
    - intros k l _ _. now rewrite !Rr. }
  assert (V : var_batch 2 (brw 1 (fun _ _ => 1) (fun _ => 0) two_batch) (resid 1 (fun _ _ => 1) (fun _ => 0) two_batch 0%nat) = 2).
  { unfold var_batch, avg_batch, resid, fharm. cbn. rewrite !Rr. field. }
  split.
  - destruct (force_error 1 2 1 (fun _ => 0) (fun _ _ => 1) (fun _ _ => 1) [two_batch; two_batch] 0%nat) as (_ & E & _).
    + unfold total. cbn [map Rsuml]. rewrite !W. lra.
    + lia.
    + intros b [<-|[<-|[]]]; rewrite V; lra.
    + rewrite E. unfold total. cbn [map Rsuml]. rewrite !V, !W. cbn. field.
  - destruct (force_error 1 2 1 (fun _ => 0) (fun _ _ => 1) (fun _ _ => 1) [two_batch] 0%nat) as (_ & E & _).
    + unfold total. cbn [map Rsuml]. rewrite !W. lra.
    + lia.
    + intros b [<-|[]]; rewrite V; lra.
    + rewrite E. unfold total. cbn [map Rsuml]. rewrite !V, !W. cbn. field.
Qed.
Print Assumptions bind_spec.
Print Assumptions force_error.
