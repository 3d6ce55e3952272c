(** * Dynamical matrices: what the finite differences and the files contain *)
From Coq Require Import List Arith Lia Reals Lra String FunctionalExtensionality.
From Verif Require Import RSum Ortho MinModel MinLin PhonModel PhonAsr.
From Verif Require ConstrJac.
Import ListNotations.
Open Scope R_scope.

(** ** What is asked for *)
(** Forces of a quadratic potential with Hessian [H] about [q]. *)
Definition quadratic (n : nat) (F : vec -> vec) (q : vec) (H : mat) : Prop :=
  exists g, forall x j, (j < n)%nat -> F x j = - (g j + Rsum n (fun k => H j k * (x k - q k))).
(** [H] holds minus the derivatives of the forces at [q]. *)
Definition derivative_at (n : nat) (F : vec -> vec) (q : vec) (H : mat) : Prop := forall i j, (i < n)%nat -> (j < n)%nat ->
  derivable_pt_lim (fun t => F (fun k => q k + t * delta k i) j) 0 (- H j i).
(** Eigenvalues and orthonormal eigenvectors (columns) of a matrix. *)
Definition eigen_of (n : nat) (A : mat) (e : vec * mat) : Prop :=
  orthonormal_cols n (snd e) /\ forall i k, (i < n)%nat -> (k < n)%nat -> Rsum n (fun j => A i j * snd e j k) = fst e k * snd e i k.
Definition zero : mat := fun _ _ => 0.

(** ** The run *)
Section Run.
Variables (N : nat) (m q ism : vec) (eigh : nat -> mat -> vec * mat) (eig : mat -> vec * mat) (asr : string) (fixed : list nat) (deltaw : R).
Variables (cstep : nat -> mats -> mats) (ctransform : mats -> mats).
Let one := dyn_step N m q ism eigh eig asr fixed deltaw cstep ctransform.
Lemma run_rows k : forall first s, (first + k <= 3 * N)%nat -> dyn_run one first k s = Going (fold_left (fun s i => cstep i s) (seq first k) s).
Proof.
  induction k as [|k IH]; intros first s L; [easy|]. cbn [dyn_run seq fold_left]. unfold one at 1, dyn_step.
  replace (first <? 3 * N)%nat with true by (symmetry; apply Nat.ltb_lt; lia). apply IH. lia.
Qed.
Lemma run_split a : forall first b s, dyn_run one first (a + b) s =
  match dyn_run one first a s with Going s' => dyn_run one (first + a) b s' | o => o end.
Proof.
  induction a as [|a IH]; intros first b s; [now rewrite Nat.add_0_r|]. cbn [dyn_run Nat.add].
  destruct (one first s); [|easy|easy]. rewrite IH. now replace (first + S a)%nat with (S first + a)%nat by lia.
Qed.
(** The last step. *)
Lemma run_all s : dyn_run one 0 (S (3 * N)) s = one (3 * N)%nat (fold_left (fun s i => cstep i s) (seq 0 (3 * N)) s).
Proof.
  replace (S (3 * N)) with (3 * N + 1)%nat by lia. rewrite run_split, run_rows by lia. cbn [dyn_run Nat.add].
  now destruct (one (3 * N)%nat _).
Qed.
Lemma run_finished s s' p : dyn_run one 0 (S (3 * N)) s = Finished s' p ->
  let t := ctransform (fold_left (fun s i => cstep i s) (seq 0 (3 * N)) s) in
  apply_asr N m q ism eig asr (ref t) = Some (ref s') /\ p = printall (3 * N) eigh ism (ref s') 0 fixed.
Proof.
  rewrite run_all. unfold one, dyn_step. rewrite Nat.ltb_irrefl. intros E. cbv zeta.
  destruct (apply_asr _ _ _ _ _ _ _); [|easy]. injection E as <- <-. easy.
Qed.
End Run.

(** A run that is stopped after any number of rows and continued from the matrices in the
    checkpoint, at the step in the checkpoint, ends as if it had not been stopped. *)
Theorem phonons_restart N m q ism eigh eig asr fixed deltaw cstep ctransform a b s :
  let one := dyn_step N m q ism eigh eig asr fixed deltaw cstep ctransform in
  (a <= 3 * N)%nat -> exists s', dyn_run one 0 a s = Going s' /\ dyn_run one a b s' = dyn_run one 0 (a + b) s.
Proof.
  intros one L. eexists. split; [now apply run_rows|].
  unfold one. rewrite (run_split N m q ism eigh eig asr fixed deltaw cstep ctransform a 0 b s).
  now rewrite (run_rows N m q ism eigh eig asr fixed deltaw cstep ctransform a 0 s) by easy.
Qed.

(** ** Finite differences along coordinates *)
Lemma memb_In i l : memb i l = true <-> In i l.
Proof.
  unfold memb. rewrite existsb_exists. split.
  - intros (x & I & E). apply Nat.eqb_eq in E. now subst.
  - intros I. exists i. split; [easy|apply Nat.eqb_refl].
Qed.
Lemma fd_rows fixed F q dx ism k : forall a s i j,
  dyn (fold_left (fun s i => fd_step fixed F q dx ism i s) (seq a k) s) i j =
  if ((a <=? i) && (i <? a + k) && negb (memb i fixed))%bool then fd_row F q dx ism i j else dyn s i j.
Proof.
  induction k as [|k IH]; intros a s i j.
  - cbn [seq fold_left]. destruct (a <=? i)%nat eqn:A; [|easy]. apply Nat.leb_le in A.
    replace (i <? a + 0)%nat with false by (symmetry; apply Nat.ltb_ge; lia). easy.
  - cbn [seq fold_left]. rewrite IH. unfold fd_step.
    destruct (Nat.eq_dec i a) as [-> | NE].
    + replace (S a <=? a)%nat with false by (symmetry; apply Nat.leb_gt; lia). rewrite Nat.leb_refl.
      replace (a <? a + S k)%nat with true by (symmetry; apply Nat.ltb_lt; lia). cbn [andb].
      destruct (memb a fixed); [easy|]. cbn [dyn negb]. unfold set_row. now rewrite Nat.eqb_refl.
    + replace (S a <=? i)%nat with (a <=? i)%nat.
      * replace (i <? S a + k)%nat with (i <? a + S k)%nat by (f_equal; lia).
        destruct ((a <=? i) && (i <? a + S k) && negb (memb i fixed))%bool; [easy|].
        destruct (memb a fixed); [easy|]. cbn [dyn]. unfold set_row. destruct (Nat.eqb_spec i a); [lia|easy].
      * destruct (Nat.leb_spec a i), (Nat.leb_spec (S a) i); lia || easy.
Qed.
Lemma fd_row_quadratic n F q dx ism H i j : quadratic n F q H -> dx <> 0 -> (i < n)%nat -> (j < n)%nat ->
  fd_row F q dx ism i j = H j i * ism i * ism j.
Proof.
  intros (g & Q) D I J. unfold fd_row. rewrite !Q by easy.
  assert (E : forall c, Rsum n (fun k => H j k * (q k + c * fd_dev i dx k - q k)) = H j i * (c * dx)).
  { intros c. rewrite (Rsum_delta n i); [unfold fd_dev; rewrite Nat.eqb_refl; ring|easy|].
    intros k K NE. unfold fd_dev. destruct (Nat.eqb_spec k i); [easy|ring]. }
  assert (E1 := E 1). assert (E2 := E (-1)).
  rewrite (Rsum_ext n (fun k => H j k * (vadd q (fd_dev i dx) k - q k)) (fun k => H j k * (q k + 1 * fd_dev i dx k - q k)))
    by (intros; unfold vadd; ring).
  rewrite (Rsum_ext n (fun k => H j k * (vsub q (fd_dev i dx) k - q k)) (fun k => H j k * (q k + -1 * fd_dev i dx k - q k)))
    by (intros; unfold vsub; ring).
  rewrite E1, E2. field. easy.
Qed.
Definition weight (fixed : list nat) (i j : nat) : R :=
  (if memb i fixed then 0 else 1 / 2) + (if memb j fixed then 0 else 1 / 2).

Section FD.
Variables (N : nat) (m q ism : vec) (eigh : nat -> mat -> vec * mat) (eig : mat -> vec * mat) (fixed : list nat) (deltaw dx : R) (F : vec -> vec).
Definition fd_motion (asr : string) : nat -> mats -> outcome :=
  dyn_step N m q ism eigh eig asr fixed deltaw (fd_step fixed F q dx ism) fd_transform.
Hypothesis nz : forall i, (i < 3 * N)%nat -> ism i <> 0.

Lemma fd_ref asr s' p : dyn_run (fd_motion asr) 0 (S (3 * N)) (Mats zero zero) = Finished s' p -> asr = "none"%string ->
  forall i j, (i < 3 * N)%nat -> (j < 3 * N)%nat -> ref s' i j =
    1 / 2 * ((if memb i fixed then 0 else fd_row F q dx ism i j) + (if memb j fixed then 0 else fd_row F q dx ism j i)).
Proof.
  intros E A i j I J. apply (run_finished _ _ _ _ _ _ _ _ deltaw) in E. destruct E as (E & _). subst asr.
  unfold apply_asr in E. rewrite String.eqb_refl in E. apply (f_equal (fun o => match o with Some r => r | None => zero end)) in E. rewrite <- E.
  unfold fd_transform, ref, sym. rewrite !fd_rows. cbn [dyn Nat.leb andb]. rewrite !Nat.add_0_l.
  replace (i <? 3 * N)%nat with true by (symmetry; now apply Nat.ltb_lt).
  replace (j <? 3 * N)%nat with true by (symmetry; now apply Nat.ltb_lt). cbn [andb].
  destruct (memb i fixed), (memb j fixed); reflexivity.
Qed.
(** The full Hessian that is printed, for a quadratic potential, whatever the displacement:
    entries between two free coordinates are exact. Between a free and a fixed one they are
    halved, and between two fixed ones zero. *)
Theorem fd_full_hessian H s' p i j : quadratic (3 * N) F q H -> symmetric (3 * N) H -> dx <> 0 ->
  dyn_run (fd_motion "none") 0 (S (3 * N)) (Mats zero zero) = Finished s' p -> (i < 3 * N)%nat -> (j < 3 * N)%nat ->
  o_full p i j = weight fixed i j * H i j.
Proof.
  intros Q S D E I J. assert (R := fd_ref _ _ _ E eq_refl i j I J). apply (run_finished _ _ _ _ _ _ _ _ deltaw) in E. destruct E as (_ & ->).
  cbn [o_full printall]. unfold to_hess, shifted. rewrite R.
  rewrite !(fd_row_quadratic (3 * N) F q dx ism H) by easy. rewrite (S j i) by easy.
  assert (X := nz i I). assert (Y := nz j J). unfold weight. destruct (memb i fixed), (memb j fixed); field; easy.
Qed.
Lemma active_length : NoDup fixed -> (forall i, In i fixed -> (i < 3 * N)%nat) ->
  List.length (active (3 * N) fixed) = (3 * N - List.length fixed)%nat.
Proof.
  intros ND B. unfold active. set (n := (3 * N)%nat) in *.
  assert (P : (List.length (filter (fun i => negb (memb i fixed)) (seq 0 n)) + List.length (filter (fun i => memb i fixed) (seq 0 n)) = n)%nat).
  { rewrite <- (seq_length n 0) at 3. generalize (seq 0 n). intros l. induction l as [|x l IH]; [easy|]. cbn [filter].
    destruct (memb x fixed); cbn [negb List.length]; lia. }
  assert (L : List.length (filter (fun i => memb i fixed) (seq 0 n)) = List.length fixed).
  { apply Nat.le_antisymm.
    - apply NoDup_incl_length; [apply NoDup_filter, seq_NoDup|]. intros x X. apply filter_In in X. now apply memb_In.
    - apply NoDup_incl_length; [easy|]. intros x X. apply filter_In. split; [apply in_seq; specialize (B x X); lia|now apply memb_In]. }
  lia.
Qed.
Lemma active_nth a : (a < List.length (active (3 * N) fixed))%nat ->
  (nth a (active (3 * N) fixed) O < 3 * N)%nat /\ memb (nth a (active (3 * N) fixed) O) fixed = false.
Proof.
  intros A. assert (I := nth_In _ O A). apply filter_In in I. destruct I as (I & M). apply in_seq in I.
  split; [lia|]. destruct (memb _ fixed); easy.
Qed.
(** The matrices of the free coordinates are exact, and of the right size. *)
Theorem fd_active_hessian H s' p a b : quadratic (3 * N) F q H -> symmetric (3 * N) H -> dx <> 0 ->
  NoDup fixed -> (forall i, In i fixed -> (i < 3 * N)%nat) ->
  dyn_run (fd_motion "none") 0 (S (3 * N)) (Mats zero zero) = Finished s' p ->
  (a < o_n p)%nat -> (b < o_n p)%nat ->
  let free := active (3 * N) fixed in let i := nth a free O in let j := nth b free O in
  List.length free = o_n p /\ o_hess p a b = H i j /\ o_dynmat p a b = ism i * H i j * ism j.
Proof.
  intros Q S D ND B E A A' free i j. assert (E' := E). apply (run_finished _ _ _ _ _ _ _ _ deltaw) in E'. destruct E' as (_ & P).
  assert (L : List.length free = o_n p) by (rewrite P; cbn [o_n printall]; now apply active_length).
  split; [easy|]. rewrite <- L in A, A'. destruct (active_nth a A) as (I & MI). destruct (active_nth b A') as (J & MJ).
  assert (R := fd_ref _ _ _ E eq_refl i j I J). rewrite P. cbn [o_hess o_dynmat printall].
  unfold to_hess, shifted, submat, subvec. fold free. fold i. fold j. rewrite R. rewrite (MI : memb i fixed = false), (MJ : memb j fixed = false).
  rewrite !(fd_row_quadratic (3 * N) F q dx ism H) by easy. rewrite (S j i) by easy.
  assert (X := nz i I). assert (Y := nz j J). split; field; easy.
Qed.
End FD.
Theorem fd_runs N m q ism eigh eig fixed deltaw dx F asr : In asr ["none"; "crystal"; "poly"]%string ->
  exists s p, dyn_run (fd_motion N m q ism eigh eig fixed deltaw dx F asr) 0 (S (3 * N)) (Mats zero zero) = Finished s p.
Proof.
  intros A. unfold fd_motion. rewrite run_all. unfold dyn_step. rewrite Nat.ltb_irrefl.
  unfold apply_asr. destruct A as [<- | [<- | [<- | []]]]; cbn; eexists; eexists; reflexivity.
Qed.

(** For any differentiable forces the printed Hessian converges to the one wanted. *)
Lemma central f l : derivable_pt_lim f 0 l -> forall eps, 0 < eps -> exists d, 0 < d /\
  forall h, 0 < h < d -> Rabs ((f h - f (- h)) / (2 * h) - l) < eps.
Proof.
  intros D eps P. destruct (D eps P) as (d & Hd). exists d. split; [apply cond_pos|]. intros h (H0 & H1).
  assert (A := Hd h ltac:(lra) ltac:(rewrite Rabs_right; lra)). assert (B := Hd (- h) ltac:(lra) ltac:(rewrite Rabs_left; lra)).
  rewrite !Rplus_0_l in A, B.
  replace ((f h - f (- h)) / (2 * h) - l) with (1 / 2 * ((f h - f 0) / h - l) + 1 / 2 * ((f (- h) - f 0) / - h - l)) by (field; lra).
  eapply Rle_lt_trans; [apply Rabs_triang|]. rewrite !Rabs_mult, (Rabs_right (1 / 2)) by lra. lra.
Qed.
Lemma dev_shift q i h : vadd q (fd_dev i h) = (fun k => q k + h * delta k i).
Proof. apply functional_extensionality. intros k. unfold vadd, fd_dev, delta. destruct (k =? i)%nat; ring. Qed.
Lemma dev_shift_minus q i h : vsub q (fd_dev i h) = (fun k => q k + - h * delta k i).
Proof. apply functional_extensionality. intros k. unfold vsub, fd_dev, delta. destruct (k =? i)%nat; ring. Qed.
Lemma uniform_below (P : nat -> R -> Prop) : (forall k d d', d' <= d -> P k d -> P k d') -> forall n,
  (forall k, (k < n)%nat -> exists d, 0 < d /\ P k d) -> exists d, 0 < d /\ forall k, (k < n)%nat -> P k d.
Proof.
  intros M n. induction n as [|n IH]; intros E; [exists 1; split; [lra|lia]|].
  destruct IH as (d & D & A); [intros; apply E; lia|]. destruct (E n ltac:(lia)) as (d' & D' & A').
  exists (Rmin d d'). split; [now apply Rmin_pos|]. intros k K. destruct (Nat.eq_dec k n) as [-> | NE].
  - apply (M n d'); [apply Rmin_r|easy].
  - apply (M k d); [apply Rmin_l|apply A; lia].
Qed.
Theorem fd_converges N m q ism eigh eig deltaw F H : (forall i, (i < 3 * N)%nat -> ism i <> 0) ->
  derivative_at (3 * N) F q H -> symmetric (3 * N) H -> forall eps, 0 < eps -> exists d, 0 < d /\ forall dx s p, 0 < dx < d ->
  dyn_run (fd_motion N m q ism eigh eig [] deltaw dx F "none") 0 (S (3 * N)) (Mats zero zero) = Finished s p ->
  forall i j, (i < 3 * N)%nat -> (j < 3 * N)%nat -> Rabs (o_full p i j - H i j) < eps.
Proof.
  intros NZ D S eps P. set (n := (3 * N)%nat) in *.
  set (Pr := fun i d => forall j dx, (j < n)%nat -> 0 < dx < d -> Rabs (fd_row F q dx (fun _ => 1) i j - H i j) < eps).
  assert (U : exists d, 0 < d /\ forall i, (i < n)%nat -> Pr i d).
  { apply uniform_below.
    - intros k d d' L A j dx J (X & Y). apply A; [easy|lra].
    - intros i I. unfold Pr.
      destruct (uniform_below (fun j d => forall dx, 0 < dx < d -> Rabs (fd_row F q dx (fun _ => 1) i j - H i j) < eps)) with (n := n) as (d & X & Y).
      + intros k d d' L A dx (U & V). apply A. lra.
      + intros j J. destruct (central _ _ (D i j I J) eps P) as (d & Dp & C). exists d. split; [easy|]. intros dx X.
        specialize (C dx X). rewrite <- Rabs_Ropp. unfold fd_row. rewrite dev_shift, dev_shift_minus.
        replace (- _) with ((F (fun k => q k + dx * delta k i) j - F (fun k => q k + - dx * delta k i) j) / (2 * dx) - - H j i); [easy|].
        rewrite (S j i) by easy. field. lra.
      + exists d. split; [easy|]. intros j dx J L. now apply Y. }
  destruct U as (d & Dp & A). exists d. split; [easy|]. intros dx s p X E i j I J.
  assert (R := fd_ref N m q ism eigh eig [] deltaw dx F "none" s p E eq_refl i j I J).
  apply (run_finished _ _ _ _ _ _ _ _ deltaw) in E. destruct E as (_ & ->). cbn [o_full printall]. unfold to_hess, shifted. rewrite R. cbn [memb existsb].
  assert (NI := NZ i I). assert (NJ := NZ j J).
  replace (_ / _ - H i j) with (1 / 2 * (fd_row F q dx (fun _ => 1) i j - H i j) + 1 / 2 * (fd_row F q dx (fun _ => 1) j i - H j i)).
  - assert (B := A i I j dx J X). assert (C := A j J i dx I X).
    eapply Rle_lt_trans; [apply Rabs_triang|]. rewrite !Rabs_mult, (Rabs_right (1 / 2)) by lra. lra.
  - rewrite (S j i) by easy. unfold fd_row. field. split; [lra|easy].
Qed.

(** ** Finite differences along normal modes *)
Section NM.
Variables (n : nat) (F : vec -> vec) (q ism : vec) (U H : mat) (delta : nat -> R).
Hypothesis ortho : orthonormal_cols n U.
Hypothesis nz : forall i, (i < n)%nat -> ism i <> 0.
Hypothesis quad : quadratic n F q H.
Hypothesis dnz : forall k, (k < n)%nat -> delta k <> 0.
Notation V := (nm_V U ism).
Lemma V_norm k : (k < n)%nat -> 0 < norm n (column V k).
Proof.
  intros K. apply norm_pos. destruct (nonzero_dec n (column V k)) as [X|X]; [easy|exfalso].
  assert (O := ortho k k K K). rewrite delta_same in O. rewrite Rsum_0 in O; [lra|].
  intros j J. specialize (X j J). unfold column, nm_V in X. apply Rmult_integral in X. specialize (nz j J).
  destruct X as [-> | X]; [ring|easy].
Qed.
Lemma nm_row_quadratic k l : (k < n)%nat -> nm_row n F q V (delta k) k l = Rsum n (fun j => V j l * Rsum n (fun i => H j i * V i k)).
Proof.
  intros K. unfold nm_row. apply Rsum_ext. intros j J. f_equal. destruct quad as (g & Q). rewrite !Q by easy.
  assert (P := V_norm k K). assert (D := dnz k K). set (w := norm n (column V k)) in *.
  assert (A : Rsum n (fun i => H j i * (vadd q (nm_dev n V (delta k) k) i - q i)) = delta k / w * Rsum n (fun i => H j i * V i k)).
  { rewrite <- Rsum_scal. apply Rsum_ext. intros i _. unfold vadd, nm_dev. fold w. field. lra. }
  assert (B : Rsum n (fun i => H j i * (vsub q (nm_dev n V (delta k) k) i - q i)) = - (delta k / w * Rsum n (fun i => H j i * V i k))).
  { rewrite <- Rsum_scal, <- Rsum_opp. apply Rsum_ext. intros i _. unfold vsub, nm_dev. fold w. field. lra. }
  rewrite A, B. field. split; [lra|easy].
Qed.
Lemma nm_rows k : forall a s i j, ref (fold_left (fun s i => nm_step n F q V delta i s) (seq a k) s) i j =
  if ((a <=? i) && (i <? a + k))%bool then nm_row n F q V (delta i) i j else ref s i j.
Proof.
  induction k as [|k IH]; intros a s i j.
  - cbn [seq fold_left]. destruct (a <=? i)%nat eqn:A; [|easy]. apply Nat.leb_le in A.
    replace (i <? a + 0)%nat with false by (symmetry; apply Nat.ltb_ge; lia). easy.
  - cbn [seq fold_left]. rewrite IH. destruct (Nat.eq_dec i a) as [-> | NE].
    + replace (S a <=? a)%nat with false by (symmetry; apply Nat.leb_gt; lia). rewrite Nat.leb_refl.
      replace (a <? a + S k)%nat with true by (symmetry; apply Nat.ltb_lt; lia). cbn [andb nm_step ref]. unfold set_row. now rewrite Nat.eqb_refl.
    + replace (S a <=? i)%nat with (a <=? i)%nat.
      * replace (i <? S a + k)%nat with (i <? a + S k)%nat by (f_equal; lia).
        destruct ((a <=? i) && (i <? a + S k))%bool; [easy|]. cbn [nm_step ref]. unfold set_row. destruct (Nat.eqb_spec i a); [lia|easy].
      * destruct (Nat.leb_spec a i), (Nat.leb_spec (S a) i); lia || easy.
Qed.
(** The rows measured, carried back to Cartesian coordinates, are the dynamical matrix, whatever
    matrix the modes came from and whatever the displacements. *)
Theorem nm_refined s i j : (i < n)%nat -> (j < n)%nat -> symmetric n H ->
  nm_back n U (ref (fold_left (fun s i => nm_step n F q V delta i s) (seq 0 n) s)) i j = ism i * H i j * ism j.
Proof.
  intros I J S. unfold nm_back, mm, tr.
  set (B := fun a b => ism a * H a b * ism b).
  transitivity (Rsum n (fun k => U i k * Rsum n (fun l => Rsum n (fun a => Rsum n (fun b => B a b * U b k) * U a l) * U j l))).
  { apply Rsum_ext. intros k K. f_equal. apply Rsum_ext. intros l L. f_equal. rewrite nm_rows. cbn [Nat.leb andb]. rewrite !Nat.add_0_l.
    replace (k <? n)%nat with true by (symmetry; now apply Nat.ltb_lt). rewrite nm_row_quadratic by easy.
    apply Rsum_ext. intros a A. rewrite <- Rsum_scal, <- Rsum_scal_r. apply Rsum_ext. intros b _. unfold nm_V, B. ring. }
  transitivity (Rsum n (fun k => U i k * Rsum n (fun b => B j b * U b k))).
  { apply Rsum_ext. intros k K. f_equal. rewrite <- (ortho_roundtrip' n U (fun a => Rsum n (fun b => B a b * U b k)) j (cols_rows n U ortho) J).
    apply Rsum_ext. intros l L. rewrite Rmult_comm. f_equal. apply Rsum_ext. intros; ring. }
  transitivity (Rsum n (fun b => B j b * Rsum n (fun k => U i k * U b k))).
  { transitivity (Rsum n (fun k => Rsum n (fun b => U i k * (B j b * U b k)))); [apply Rsum_ext; intros; now rewrite <- Rsum_scal|].
    rewrite Rsum_swap. apply Rsum_ext. intros b _. rewrite <- Rsum_scal. apply Rsum_ext. intros; ring. }
  rewrite (Rsum_ext n _ (fun b => B j b * RSum.delta i b)) by (intros b Hb; now rewrite (cols_rows n U ortho i b I Hb)).
  rewrite (Rsum_delta_l n i (fun b => B j b) I). unfold B. rewrite (S j i) by easy. ring.
Qed.
End NM.
(** ... but what is written is the matrix of the input: the forces have no effect at all. *)
Theorem nm_result_is_input N m q ism eigh eig asr fixed deltaw F U delta D R0 s p :
  dyn_run (dyn_step N m q ism eigh eig asr fixed deltaw (nm_step (3 * N) F q (nm_V U ism) delta) (nm_transform (3 * N) U)) 0 (S (3 * N)) (Mats D R0) = Finished s p ->
  apply_asr N m q ism eig asr (sym D) = Some (ref s) /\ p = printall (3 * N) eigh ism (ref s) 0 fixed.
Proof.
  intros E. apply (run_finished _ _ _ _ _ _ _ _ deltaw) in E. destruct E as (E & ->). split; [|easy]. rewrite <- E. f_equal.
  unfold nm_transform. cbn [ref]. f_equal.
  assert (G : forall l s, dyn (fold_left (fun s i => nm_step (3 * N) F q (nm_V U ism) delta i s) l s) = dyn s).
  { induction l as [|x l IH]; intros t; [easy|]. cbn [fold_left]. now rewrite IH. }
  now rewrite G.
Qed.
