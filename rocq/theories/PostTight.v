(** * Instanton post-processing: further theorems of record *)
From Coq Require Import List Arith Lia Reals Lra Bool String.
From Verif Require Import RSum Ortho NMModel NMProofs RPCProofs SpringModel SpringProofs InstFix InstModel InstHess PostLin PostModel PostProps.
Import ListNotations.
Open Scope list_scope.
Open Scope R_scope.

(** Without modes both sums are refused, and only then (compare reactant_stops). *)
Theorem no_modes d n T : (rp_freq_rate d n T = ValueError <-> d = []) /\ (rp_freq_splitting d n T = ValueError <-> d = []) /\ (reactant_logQvib d n T = ValueError <-> d = []).
Proof.
  unfold reactant_logQvib, rp_freq_rate, rp_freq_splitting. destruct d as [|x d]; cbn [List.length Nat.eqb]; [tauto|].
  destruct (any_negative (x :: d)); cbn [bind]; repeat split; discriminate.
Qed.
(** The barrier of a transition state, a single geometry, does not depend on the zero of the energy. *)
Theorem ts_barrier V V0 c : ts_energy [V] V0 = V - V0 /\ ts_energy [V + c] (V0 + c) = ts_energy [V] V0.
Proof. unfold ts_energy. cbn [Rsuml]. lra. Qed.
(** What is saved: six zeros for a molecule, three for a crystal, none else; then for each eigenvalue x a
    frequency f with f^2 = |x|, negative exactly for a negative x. *)
Theorem saved_values cm d : 0 < cm -> exists fs, List.length fs = List.length d /\
  save_frequencies cm "poly" d = [0; 0; 0; 0; 0; 0] ++ fs /\ save_frequencies cm "crystal" d = [0; 0; 0] ++ fs /\ save_frequencies cm "none" d = fs /\
  forall i x f, nth_error d i = Some x -> nth_error fs i = Some f -> (f * cm) ^ 2 = Rabs x /\ (x < 0 <-> f < 0) /\ (0 < x <-> 0 < f).
Proof.
  intros C. exists (map (fun x => sign x * sqrt (Rabs x) / cm) d). rewrite map_length. repeat split.
  all: rewrite nth_error_map, H in H0; cbn [option_map] in H0; injection H0 as <-.
  all: assert (S : x <> 0 -> 0 < sqrt (Rabs x) / cm) by (intros N; apply Rdiv_lt_0_compat; [apply sqrt_lt_R0; now apply Rabs_pos_lt|exact C]).
  - replace (sign x * sqrt (Rabs x) / cm * cm) with (sign x * sqrt (Rabs x)) by (field; lra). rewrite Rpow_mult_distr, pow2_sqrt by apply Rabs_pos.
    unfold sign. destruct (Rlt_dec x 0); [lra|]. destruct (Rlt_dec 0 x); [lra|]. replace x with 0 by lra. rewrite Rabs_R0. lra.
  - intros L. specialize (S ltac:(lra)). unfold sign. destruct (Rlt_dec x 0); [|lra]. unfold Rdiv in *. lra.
  - unfold sign. destruct (Rlt_dec x 0); [easy|]. destruct (Rlt_dec 0 x); [specialize (S ltac:(lra)); unfold Rdiv in *; lra|]. unfold Rdiv. rewrite !Rmult_0_l. lra.
  - intros L. specialize (S ltac:(lra)). unfold sign. destruct (Rlt_dec x 0); [lra|]. destruct (Rlt_dec 0 x); [|lra]. unfold Rdiv in *. lra.
  - unfold sign. destruct (Rlt_dec x 0); [specialize (S ltac:(lra)); unfold Rdiv in *; lra|]. destruct (Rlt_dec 0 x); [easy|]. unfold Rdiv. rewrite !Rmult_0_l. lra.
Qed.
Print Assumptions saved_values.
Print Assumptions no_modes.
Print Assumptions ts_barrier.
Example modes_case : rp_freq_rate [] 4 1 = ValueError /\ rp_freq_rate [1] 4 1 <> ValueError.
Proof. split; [now apply no_modes|]. rewrite (proj1 (no_modes [1] 4 1)). discriminate. Qed.
(** The moments of inertia: for a rotation about the axis u through the centre of mass, twice the kinetic energy of
    the atoms at angular velocity u. *)
Theorem moi_rotation n mm r u : Rsum 3 (fun a => Rsum 3 (fun b => u a * moi n mm r a b * u b)) =
  Rsum n (fun k => let x := fun c => r k c - Rsum n (fun j => r j c * mm j) / Rsum n mm in
    mm k * ((u 1%nat * x 2%nat - u 2%nat * x 1%nat) ^ 2 + (u 2%nat * x 0%nat - u 0%nat * x 2%nat) ^ 2 + (u 0%nat * x 1%nat - u 1%nat * x 0%nat) ^ 2)).
Proof.
  unfold moi, com. cbv zeta.
  set (X := fun k c => r k c - Rsum n (fun j => r j c * mm j) / Rsum n mm).
  assert (D : forall (f : nat -> nat -> nat -> R), Rsum 3 (fun a => Rsum 3 (fun b => u a * Rsum n (fun k => f a b k) * u b)) =
    Rsum n (fun k => Rsum 3 (fun a => Rsum 3 (fun b => u a * f a b k * u b)))).
  { intros f. induction n as [|m IH]; [cbn; ring|]. cbn [Rsum] in *. rewrite <- IH. ring. }
  etransitivity; [exact (D (fun a b k => mm k * ((if (a =? b)%nat then X k 0%nat ^ 2 + X k 1%nat ^ 2 + X k 2%nat ^ 2 else 0) - X k a * X k b)))|].
  apply Rsum_ext. intros k _. cbn [Rsum Nat.eqb]. fold (X k 0%nat) (X k 1%nat) (X k 2%nat). ring.
Qed.
(** The determinant: one for the identity, additive in a row and scaled with it, changing sign with two rows. *)
Theorem det3_is_determinant : det3 (fun a b => if (a =? b)%nat then 1 else 0) = 1 /\
  (forall M i j, (i < 3)%nat -> (j < 3)%nat -> i <> j -> det3 (fun a => if (a =? i)%nat then M j else if (a =? j)%nat then M i else M a) = - det3 M) /\
  (forall M i v s, (i < 3)%nat -> det3 (fun a b => if (a =? i)%nat then M a b + s * v b else M a b) = det3 M + s * det3 (fun a b => if (a =? i)%nat then v b else M a b)).
Proof.
  repeat split.
  - unfold det3. cbn. ring.
  - intros M i j Hi Hj N. assert (Ci : i = 0%nat \/ i = 1%nat \/ i = 2%nat) by lia. assert (Cj : j = 0%nat \/ j = 1%nat \/ j = 2%nat) by lia.
    destruct Ci as [->|[->| ->]], Cj as [->|[->| ->]]; try lia; unfold det3; cbn [Nat.eqb]; ring.
  - intros M i v s Hi. assert (Ci : i = 0%nat \/ i = 1%nat \/ i = 2%nat) by lia. destruct Ci as [->|[->| ->]]; unfold det3; cbn [Nat.eqb]; ring.
Qed.
Print Assumptions moi_rotation.
Print Assumptions det3_is_determinant.
Example moi_case : Rsum 3 (fun a => Rsum 3 (fun b => (if (a =? 2)%nat then 1 else 0) * moi 2 (fun _ => 1) (fun k c => if (c =? 0)%nat then INR (2 * k) else 0) a b * (if (b =? 2)%nat then 1 else 0))) = 2.
Proof. rewrite moi_rotation. cbn. field. Qed.
