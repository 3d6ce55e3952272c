(** * Dynamical matrices: displacements, printed modes, and what does not hold *)
From Coq Require Import List Arith Lia Reals Lra String FunctionalExtensionality.
From Verif Require Import RSum Ortho MinModel MinLin PhonModel PhonAsr PhonProps.
From Verif Require ConstrJac.
Import ListNotations.
Open Scope R_scope.

(** ** Displacements of the energy scaled method *)
Lemma nm_dev_norm n V delta k : 0 < norm n (column V k) -> 0 <= delta -> norm n (nm_dev n V delta k) = delta.
Proof.
  intros P D. unfold nm_dev. transitivity (norm n (fun i => delta / norm n (column V k) * column V k i)).
  - unfold norm, dot. f_equal. apply Rsum_ext. intros i _. unfold column. field. unfold norm, dot, column in P. lra.
  - rewrite norm_scal, Rabs_right; [field; lra|]. apply Rle_ge, Rmult_le_pos; [easy|]. left. now apply Rinv_0_lt_compat.
Qed.
(** No displacement is longer than 100 times pos_shift. *)
Theorem enm_limited n V w2 de dx k : 0 < norm n (column V k) -> 0 < de -> 0 < dx ->
  0 < norm n (nm_dev n V (edelta n V w2 de dx k) k) <= 100 * dx.
Proof.
  intros P E X. assert (Q : 0 < edelta n V w2 de dx k <= 100 * dx).
  { unfold edelta. destruct (Req_EM_T (w2 k) 0) as [|NZ]; [lra|]. destruct (Rlt_dec _ _); [lra|]. split; [|lra].
    apply Rmult_lt_0_compat; [easy|]. apply sqrt_lt_R0. apply Rmult_lt_0_compat; [lra|]. apply Rinv_0_lt_compat. now apply Rabs_pos_lt. }
  rewrite nm_dev_norm; lra.
Qed.
(** If the matrix the modes come from is right, a displacement that is not limited raises a
    quadratic potential by just energy_shift. *)
Theorem enm_energy n U ism H w2 de dx k : (k < n)%nat -> orthonormal_cols n U -> (forall i, (i < n)%nat -> ism i <> 0) ->
  (forall i, (i < n)%nat -> Rsum n (fun j => ism i * H i j * ism j * U j k) = w2 k * U i k) ->
  0 < w2 k -> 0 < de -> edelta n (nm_V U ism) w2 de dx k < 100 * dx ->
  let dev := nm_dev n (nm_V U ism) (edelta n (nm_V U ism) w2 de dx k) k in
  1 / 2 * Rsum n (fun i => Rsum n (fun j => dev i * H i j * dev j)) = de.
Proof.
  intros K O NZ EV W E L dev.
  assert (P : 0 < norm n (column (nm_V U ism) k)) by now apply V_norm.
  set (v := norm n (column (nm_V U ism) k)) in *. set (r := sqrt (de * 2 / w2 k)).
  assert (Ed : edelta n (nm_V U ism) w2 de dx k = v * r).
  { unfold edelta in *. destruct (Req_EM_T (w2 k) 0) as [Z|_]; [lra|]. destruct (Rlt_dec _ _) as [|G]; [lra|].
    fold v. now rewrite (Rabs_right (w2 k)) by lra. }
  assert (R2 : r * r = de * 2 / w2 k).
  { apply sqrt_sqrt. apply Rmult_le_pos; [lra|]. left. now apply Rinv_0_lt_compat. }
  assert (D : forall i, dev i = r * nm_V U ism i k) by (intros i; unfold dev, nm_dev; rewrite Ed; fold v; field; lra).
  transitivity (1 / 2 * (r * r) * Rsum n (fun i => U i k * Rsum n (fun j => ism i * H i j * ism j * U j k))).
  - rewrite <- Rsum_scal, <- Rsum_scal. apply Rsum_ext. intros i I. rewrite <- !Rsum_scal. apply Rsum_ext. intros j J.
    rewrite !D. unfold nm_V. ring.
  - rewrite (Rsum_ext n _ (fun i => w2 k * (U i k * U i k))) by (intros i I; rewrite EV by easy; ring).
    rewrite Rsum_scal, (O k k K K), delta_same, R2. field. lra.
Qed.

(** ** Printed modes: they solve the generalised eigenvalue problem of the printed Hessian, with
    masses [1 / ism^2], and are of unit length *)
Theorem printed_modes n eigh ism dm deltaw fixed k : let p := printall n eigh ism dm deltaw fixed in
  let ma := fun i => / (ism (nth i (active n fixed) O) * ism (nth i (active n fixed) O)) in
  (forall i, (i < o_n p)%nat -> ism (nth i (active n fixed) O) <> 0) ->
  eigen_of (o_n p) (o_dynmat p) (eigh (o_n p) (o_dynmat p)) -> (k < o_n p)%nat ->
  (forall i, (i < o_n p)%nat -> Rsum (o_n p) (fun j => o_hess p i j * o_mode p j k) = o_eigval p k * ma i * o_mode p i k) /\
  Rsum (o_n p) (fun i => o_mode p i k * o_mode p i k) = 1.
Proof.
  intros p ma NZ (O & EV) K. set (nn := o_n p) in *. set (A := o_dynmat p) in *. set (e := eigh nn A) in *.
  set (s := subvec (active n fixed) ism).
  assert (Em : forall i, o_mode p i k = snd e i k * s i / norm nn (fun j => snd e j k * s j)) by reflexivity.
  assert (Eh : forall i j, o_hess p i j = A i j / (s i * s j)) by reflexivity.
  assert (Ev : o_eigval p k = fst e k) by reflexivity.
  assert (Sz : forall i, (i < nn)%nat -> s i <> 0) by (intros i I; now apply NZ).
  assert (P : 0 < norm nn (fun j => snd e j k * s j)).
  { exact (V_norm nn s (snd e) O Sz k K). }
  set (w := norm nn (fun j => snd e j k * s j)) in *. split.
  - intros i I. rewrite (Rsum_ext nn _ (fun j => / (s i * w) * (A i j * snd e j k))).
    + rewrite Rsum_scal, EV by easy. rewrite Ev, Em. unfold ma. change (ism (nth i (active n fixed) 0%nat)) with (s i).
      field. repeat split; try (now apply Sz); try lra.
    + intros j J. rewrite Eh, Em. field. repeat split; try (now apply Sz); try lra.
  - rewrite (Rsum_ext nn _ (fun i => / (w * w) * ((snd e i k * s i) * (snd e i k * s i)))) by (intros i I; rewrite Em; field; lra).
    rewrite Rsum_scal. change (Rsum nn (fun i => snd e i k * s i * (snd e i k * s i))) with (dot nn (fun j => snd e j k * s j) (fun j => snd e j k * s j)).
    rewrite <- norm_sq. fold w. field. lra.
Qed.
(** printall adds the shift it is given to the diagonal ... *)
Theorem printall_shift n eigh ism dm deltaw i j : (i < n)%nat -> (j < n)%nat ->
  o_dynmat (printall n eigh ism dm deltaw []) i j = dm i j + (if Nat.eqb i j then deltaw else 0).
Proof.
  intros I J. cbn [o_dynmat printall]. unfold submat, shifted, eye, delta, active.
  assert (E : filter (fun i0 => negb (memb i0 [])) (seq 0 n) = seq 0 n).
  { generalize (seq 0 n). intros l. induction l as [|x l IH]; [easy|]. cbn [filter memb existsb negb]. f_equal. exact IH. }
  rewrite E, !seq_nth by easy. cbn [Nat.add]. destruct (Nat.eqb i j); ring.
Qed.

(** ** Sum rules of the printed Hessian *)
Lemma full_of_run N m q ism eigh eig asr fixed deltaw cstep ctr s0 s p :
  dyn_run (dyn_step N m q ism eigh eig asr fixed deltaw cstep ctr) 0 (S (3 * N)) s0 = Finished s p ->
  exists dm, apply_asr N m q ism eig asr dm = Some (ref s) /\ forall i j, o_full p i j = to_hess (ref s) ism i j.
Proof.
  intros E. apply (run_finished _ _ _ _ _ _ _ _ deltaw) in E. destruct E as (E & ->). eexists. split; [exact E|].
  intros i j. cbn [o_full printall]. unfold to_hess, shifted. unfold Rdiv. ring.
Qed.
Lemma invariant_ext N H H' : (forall i j, H i j = H' i j) -> translation_invariant N H' -> translation_invariant N H.
Proof. intros E T i l I L. rewrite <- (T i l I L). apply Rsum_ext. intros; apply E. Qed.
Lemma rotation_ext N m q H H' : (forall i j, H i j = H' i j) -> rotation_invariant N m q H' -> rotation_invariant N m q H.
Proof. intros E T i w I. rewrite <- (T i w I). apply Rsum_ext. intros. apply Rsum_ext. intros. now rewrite E. Qed.
Section Rules.
Variables (N : nat) (m q ism : vec).
Hypothesis mpos : forall a, (a < N)%nat -> 0 < m a.
Hypothesis some : (0 < N)%nat.
Hypothesis ism_m : forall a k, (a < N)%nat -> (k < 3)%nat -> ism (3 * a + k)%nat = / sqrt (m a).
(** Whatever the calculator and the potential: with asr = crystal a uniform displacement of all
    atoms gives no force. *)
Theorem printed_crystal eigh eig fixed deltaw cstep ctr s0 s p :
  dyn_run (dyn_step N m q ism eigh eig "crystal" fixed deltaw cstep ctr) 0 (S (3 * N)) s0 = Finished s p ->
  translation_invariant N (o_full p).
Proof.
  intros E. destruct (full_of_run _ _ _ _ _ _ _ _ _ _ _ _ _ _ E) as (dm & A & F). apply (invariant_ext N _ _ F).
  unfold apply_asr in A. cbn [String.eqb Ascii.eqb Bool.eqb] in A. apply (f_equal (fun o => match o with Some r => r | None => zero end)) in A.
  rewrite <- A. now apply crystal_sum_rule.
Qed.
(** With asr = poly also an infinitesimal rotation about the centre of mass, for a molecule that
    is not linear and whose three principal moments are different. *)
Theorem printed_poly eigh eig fixed deltaw cstep ctr s0 s p :
  eigen_unit (moi N m q) (eig (moi N m q)) -> distinct3 (fst (eig (moi N m q))) -> nonlinear N m q ->
  dyn_run (dyn_step N m q ism eigh eig "poly" fixed deltaw cstep ctr) 0 (S (3 * N)) s0 = Finished s p ->
  translation_invariant N (o_full p) /\ rotation_invariant N m q (o_full p).
Proof.
  intros EV D L E. destruct (full_of_run _ _ _ _ _ _ _ _ _ _ _ _ _ _ E) as (dm & A & F).
  unfold apply_asr in A. cbn [String.eqb Ascii.eqb Bool.eqb] in A. apply (f_equal (fun o => match o with Some r => r | None => zero end)) in A.
  assert (O : orthonormal_cols 3 (snd (eig (moi N m q)))) by (now apply (eig_orthonormal N m q)).
  destruct (poly_sum_rules N m q ism mpos some ism_m _ dm EV O L) as (T & R).
  split; [apply (invariant_ext N _ _ F) | apply (rotation_ext N m q _ _ F)]; rewrite <- A; assumption.
Qed.
End Rules.

(** ** What does not hold *)
(** The name "lin", which the input offers, makes the run fail at its last step. *)
Theorem asr_lin_refuted : exists asr, In asr asr_options /\ forall N m q ism eigh eig fixed deltaw dx F,
  dyn_run (fd_motion N m q ism eigh eig fixed deltaw dx F asr) 0 (S (3 * N)) (Mats zero zero) = Failed.
Proof.
  exists "lin"%string. split; [cbn; tauto|]. intros. unfold fd_motion. rewrite run_all. unfold dyn_step. now rewrite Nat.ltb_irrefl.
Qed.
(** output_shift: the run takes no notice of it ... *)
Theorem output_shift_ignored N m q ism eigh eig asr fixed deltaw deltaw' cstep ctr first k s :
  dyn_run (dyn_step N m q ism eigh eig asr fixed deltaw cstep ctr) first k s =
  dyn_run (dyn_step N m q ism eigh eig asr fixed deltaw' cstep ctr) first k s.
Proof. reflexivity. Qed.
(** ... so the matrix printed is not the shifted one. *)
Definition diag_eigh (n : nat) (A : mat) : vec * mat := ((fun i => A i i), eye).
Definition spring (c : R) (x : vec) : vec := fun j => - (c * x j).
Lemma spring_quadratic n c : quadratic n (spring c) (fun _ => 0) (fun i j => c * eye i j).
Proof.
  exists (fun _ => 0). intros x j J. unfold spring. rewrite (Rsum_ext n _ (fun k => c * (x k * delta j k))) by (intros; unfold eye; ring).
  rewrite Rsum_scal, (Rsum_delta_l n j x J). ring.
Qed.
Theorem output_shift_refuted : exists N m q ism eigh eig deltaw dx F s p, deltaw <> 0 /\
  dyn_run (fd_motion N m q ism eigh eig [] deltaw dx F "none") 0 (S (3 * N)) (Mats zero zero) = Finished s p /\
  o_dynmat p 0%nat 0%nat <> ref s 0%nat 0%nat + deltaw.
Proof.
  exists 1%nat, (fun _ => 1), (fun _ => 0), (fun _ => 1), diag_eigh, (fun _ => (fun _ => 0, eye)), 1, 1, (spring 1).
  destruct (fd_runs 1 (fun _ => 1) (fun _ => 0) (fun _ => 1) diag_eigh (fun _ => (fun _ => 0, eye)) [] 1 1 (spring 1) "none") as (s & p & E); [cbn; tauto|].
  exists s, p. split; [lra|]. split; [exact E|]. apply (run_finished _ _ _ _ _ _ _ _ 1) in E. destruct E as (_ & ->).
  rewrite printall_shift by lia. cbn [Nat.eqb]. lra.
Qed.
(** Fixed coordinates: the rows of the full Hessian that belong to them are not all zeros (line
    155), nor are they those of the Hessian. *)
Definition pair_H : mat := fun i j => if Nat.eqb i j then 2 else if (Nat.eqb (i + j) 1) then 1 else 0.
Definition pair_F (x : vec) : vec := fun j => - (0 + Rsum 3 (fun k => pair_H j k * (x k - 0))).
Theorem fixed_rows_refuted : exists N m q ism eigh eig fixed dx F H s p i j,
  quadratic (3 * N) F q H /\ symmetric (3 * N) H /\ dx <> 0 /\ In i fixed /\ (j < 3 * N)%nat /\
  dyn_run (fd_motion N m q ism eigh eig fixed 0 dx F "none") 0 (S (3 * N)) (Mats zero zero) = Finished s p /\
  o_full p i j <> 0 /\ o_full p i j <> H i j.
Proof.
  assert (Q : quadratic (3 * 1) pair_F (fun _ => 0) pair_H) by (exists (fun _ => 0); reflexivity).
  assert (S : symmetric (3 * 1) pair_H).
  { intros a b _ _. unfold pair_H. now rewrite Nat.eqb_sym, Nat.add_comm. }
  exists 1%nat, (fun _ => 1), (fun _ => 0), (fun _ => 1), diag_eigh, (fun _ => (fun _ => 0, eye)), [0%nat], 1, pair_F, pair_H.
  destruct (fd_runs 1 (fun _ => 1) (fun _ => 0) (fun _ => 1) diag_eigh (fun _ => (fun _ => 0, eye)) [0%nat] 0 1 pair_F "none") as (s & p & E); [cbn; tauto|].
  assert (X := fd_full_hessian 1 (fun _ => 1) (fun _ => 0) (fun _ => 1) diag_eigh (fun _ => (fun _ => 0, eye)) [0%nat] 0 1 pair_F
    (fun _ _ => R1_neq_R0) pair_H s p 0 1 Q S R1_neq_R0 E ltac:(lia) ltac:(lia)).
  exists s, p, 0%nat, 1%nat. repeat split; [easy|easy|lra|cbn; tauto|lia|exact E| |]; rewrite X; unfold weight, pair_H; cbn; lra.
Qed.
(** The modes nmfd and enmfd: the matrix printed is not the one of the potential. *)
Theorem nm_refined_refuted : exists N m q ism eigh eig U dx F H D s p,
  quadratic (3 * N) F q H /\ symmetric (3 * N) H /\ 0 < dx /\ orthonormal_cols (3 * N) U /\
  (forall i, (i < 3 * N)%nat -> ism i = 1) /\ symmetric (3 * N) D /\
  dyn_run (dyn_step N m q ism eigh eig "none" [] 0 (nm_step (3 * N) F q (nm_V U ism) (fun _ => dx)) (nm_transform (3 * N) U)) 0 (S (3 * N)) (Mats D zero)
    = Finished s p /\
  o_full p 0%nat 0%nat <> H 0%nat 0%nat.
Proof.
  exists 1%nat, (fun _ => 1), (fun _ => 0), (fun _ => 1), diag_eigh, (fun _ => (fun _ => 0, eye)), eye, 1, (spring 2), (fun i j => 2 * eye i j), eye.
  eexists. eexists. split; [apply spring_quadratic|].
  assert (SE : symmetric (3 * 1) eye) by (intros i j _ _; apply delta_sym).
  split; [intros i j I J; now rewrite (SE i j)|]. split; [lra|]. split.
  { intros i k I K. unfold eye. rewrite (Rsum_ext _ _ (fun j => delta j k * delta j i)) by (intros; ring).
    rewrite (Rsum_delta_r (3 * 1) i (fun j => delta j k) I). easy. }
  split; [easy|]. split; [easy|]. split; [rewrite run_all; unfold dyn_step; rewrite Nat.ltb_irrefl; reflexivity|].
  cbn [o_full printall]. unfold to_hess, shifted, sym, nm_transform. cbn [ref dyn].
  assert (G : forall l s, dyn (fold_left (fun s i => nm_step (3 * 1) (spring 2) (fun _ => 0) (nm_V eye (fun _ => 1)) (fun _ => 1) i s) l s) = dyn s).
  { induction l as [|x l IH]; intros t; [easy|]. cbn [fold_left]. now rewrite IH. }
  rewrite G. cbn [dyn]. unfold eye, delta. cbn [Nat.eqb]. unfold sym. cbn [Nat.eqb]. intros X. assert (Y : 1 = 2) by (etransitivity; [|etransitivity; [exact X|]]; field). lra.
Qed.
