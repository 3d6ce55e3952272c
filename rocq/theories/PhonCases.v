(** * Dynamical matrices: degenerate moments, concrete cases *)
From Coq Require Import List Arith Lia Reals Lra String FunctionalExtensionality.
From Verif Require Import RSum Ortho MinModel MinLin PhonModel PhonAsr PhonProps PhonOut.
From Verif Require ConstrJac.
Import ListNotations.
Open Scope R_scope.

(** ** Equal principal moments
    [numpy.linalg.eig] promises eigenvectors of unit length; for a symmetric tensor with two
    equal moments they need not be perpendicular.  Three atoms of masses 4, 4 and 1 at (1, 0, 0),
    (-1, 0, 0) and (0, 3, 0) have moments 8, 8 and 16; [skew] holds legal eigenvectors. *)
Definition mol_m : vec := fun a => match a with 0%nat => 4 | 1%nat => 4 | _ => 1 end.
Definition mol_q : vec := fun i => match i with 0%nat => 1 | 3%nat => -1 | 7%nat => 3 | _ => 0 end.
Definition mol_ism : vec := fun i => if (i <? 6)%nat then 1 / 2 else 1.
Definition skew : mat := fun i k =>
  match i, k with
  | 0%nat, 0%nat => 1 | 0%nat, 1%nat => 3 / 5 | 1%nat, 1%nat => 4 / 5 | 2%nat, 2%nat => 1
  | _, _ => 0
  end.
Definition mol_eig (M : mat) : vec * mat := ((fun k => match k with 0%nat => 8 | 1%nat => 8 | _ => 16 end), skew).
Lemma sqrt4 : sqrt 4 = 2.
Proof. replace 4 with (2 * 2) by ring. apply sqrt_square. lra. Qed.
Lemma mol_ism_m a k : (a < 3)%nat -> (k < 3)%nat -> mol_ism (3 * a + k)%nat = / sqrt (mol_m a).
Proof.
  intros A K. destruct a as [|[|[|a]]]; [| | |lia]; (destruct k as [|[|[|k]]]; [| | |lia]); cbn;
    rewrite ?sqrt4, ?sqrt_1; lra.
Qed.
Lemma mol_com k : (k < 3)%nat -> com 3 mol_m mol_q k = if Nat.eqb k 1 then 1 / 3 else 0.
Proof. intros K. unfold com. destruct k as [|[|[|k]]]; [| | |lia]; cbn; lra. Qed.
Definition mol_rel : mat := fun a k =>
  match a, k with
  | 0%nat, 0%nat => 1 | 1%nat, 0%nat => -1 | 0%nat, 1%nat => - 1 / 3 | 1%nat, 1%nat => - 1 / 3 | 2%nat, 1%nat => 8 / 3
  | _, _ => 0
  end.
Lemma mol_rel_ok a k : (a < 3)%nat -> (k < 3)%nat -> rel 3 mol_m mol_q a k = mol_rel a k.
Proof.
  intros A K. unfold rel. rewrite mol_com by easy.
  destruct a as [|[|[|a]]]; [| | |lia]; (destruct k as [|[|[|k]]]; [| | |lia]); cbn; lra.
Qed.
Lemma mol_moi i j : (i < 3)%nat -> (j < 3)%nat -> moi 3 mol_m mol_q i j = if Nat.eqb i j then (if Nat.eqb i 2 then 16 else 8) else 0.
Proof.
  intros I J. rewrite moi_inertia by (easy || lia). unfold inertia.
  rewrite (Rsum_ext 3 _ (fun a => mol_m a * (dot 3 (mol_rel a) (mol_rel a) * delta i j - mol_rel a i * mol_rel a j))).
  - unfold dot, delta. destruct i as [|[|[|i]]]; [| | |lia]; (destruct j as [|[|[|j]]]; [| | |lia]); cbn; lra.
  - intros a A. rewrite !mol_rel_ok by easy. f_equal. f_equal. f_equal. apply dot_ext; intros k K; now apply mol_rel_ok.
Qed.
Lemma mol_eigen : eigen_unit (moi 3 mol_m mol_q) (mol_eig (moi 3 mol_m mol_q)).
Proof.
  intros k K. split.
  - unfold dot, column, mol_eig, skew. destruct k as [|[|[|k]]]; [| | |lia]; cbn; lra.
  - intros i I. unfold mv, column. cbn [mol_eig fst snd].
    rewrite (Rsum_ext 3 _ (fun j => (if Nat.eqb i j then (if Nat.eqb i 2 then 16 else 8) else 0) * skew j k)) by (intros j J; now rewrite mol_moi).
    destruct i as [|[|[|i]]]; [| | |lia]; (destruct k as [|[|[|k]]]; [| | |lia]); cbn; lra.
Qed.
Lemma mol_nonlinear : nonlinear 3 mol_m mol_q.
Proof.
  intros u (k & K & Z).
  assert (C : forall a d, (a < 3)%nat -> (d < 3)%nat -> cross (rel 3 mol_m mol_q a) u d = cross (mol_rel a) u d).
  { intros a d A D. destruct d as [|[|[|d]]]; [| | |lia]; cbn [cross]; now rewrite !mol_rel_ok by lia. }
  destruct (Req_EM_T (u 2%nat) 0) as [Z2|Z2].
  - destruct (Req_EM_T (u 0%nat) 0) as [Z0|Z0].
    + exists 0%nat, 2%nat. split; [lia|]. split; [lia|]. rewrite C by lia. cbn. rewrite Z0.
      destruct k as [|[|[|k]]]; [| | |lia]; try easy. intros X. apply Z. lra.
    + exists 2%nat, 2%nat. split; [lia|]. split; [lia|]. rewrite C by lia. cbn. intros X. apply Z0. lra.
  - exists 2%nat, 0%nat. split; [lia|]. split; [lia|]. rewrite C by lia. cbn. intros X. apply Z2. lra.
Qed.
Lemma unit_sum n r D v i : (forall k, (k < r)%nat -> 0 < dot n (D k) (D k)) ->
  Rsum r (fun k => unit_rows n D k i * dot n (unit_rows n D k) v) = Rsum r (fun k => D k i * dot n (D k) v / dot n (D k) (D k)).
Proof.
  intros P. apply Rsum_ext. intros k K. specialize (P k K). rewrite <- norm_sq.
  assert (Q : 0 < norm n (D k)) by (now apply sqrt_lt_R0).
  replace (dot n (unit_rows n D k) v) with (dot n (D k) v / norm n (D k)).
  - unfold unit_rows. field. lra.
  - unfold dot, unit_rows, Rdiv at 1. rewrite <- Rsum_scal_r. apply Rsum_ext. intros; unfold Rdiv; ring.
Qed.
(** The six vectors, with numbers. *)
Definition mol_D (k : nat) : vec := fun i =>
  let a := (i / 3)%nat in let d := (i mod 3)%nat in let X := fun p => Rsum 3 (fun l => mol_rel a l * skew l p) in
  match k with
  | 0%nat => (if Nat.eqb d 0 then 1 else 0) / mol_ism i
  | 1%nat => (if Nat.eqb d 1 then 1 else 0) / mol_ism i
  | 2%nat => (if Nat.eqb d 2 then 1 else 0) / mol_ism i
  | 3%nat => (X 1%nat * skew d 2%nat - X 2%nat * skew d 1%nat) / mol_ism i
  | 4%nat => (X 2%nat * skew d 0%nat - X 0%nat * skew d 2%nat) / mol_ism i
  | _ => (X 0%nat * skew d 1%nat - X 1%nat * skew d 0%nat) / mol_ism i
  end.
Lemma mol_D_ok k i : (i < 9)%nat -> asr_D 3 mol_m mol_q mol_ism skew k i = mol_D k i.
Proof.
  intros I. unfold asr_D, mol_D. assert (A : (i / 3 < 3)%nat) by (apply Nat.div_lt_upper_bound; lia).
  assert (X : forall p, asr_R 3 mol_m mol_q skew (i / 3)%nat p = Rsum 3 (fun l => mol_rel (i / 3)%nat l * skew l p)).
  { intros p. unfold asr_R. apply Rsum_ext. intros l L. now rewrite mol_rel_ok. }
  now rewrite !X.
Qed.
Ltac nine i := destruct i as [|[|[|[|[|[|[|[|[|i]]]]]]]]]; [| | | | | | | | |lia].
Lemma mol_norms k : (k < 6)%nat -> dot 9 (mol_D k) (mol_D k) =
  match k with 0%nat => 9 | 1%nat => 9 | 2%nat => 9 | 3%nat => 8 | 4%nat => 8 | _ => 256 / 25 end.
Proof.
  intros K. destruct k as [|[|[|[|[|[|k]]]]]]; [| | | | | |lia]; unfold dot, mol_D, mol_ism; cbn; field.
Qed.
Definition mol_v (x y : R) : vec := fun i => match i with 2%nat => 2 * (x - y / 3) | 5%nat => 2 * (- x - y / 3) | 8%nat => y * 8 / 3 | _ => 0 end.
Lemma mol_dot k x y : (k < 6)%nat -> dot 9 (mol_D k) (mol_v x y) =
  match k with 3%nat => 8 * (3 / 5 * x + 4 / 5 * y) | 4%nat => - 8 * x | _ => 0 end.
Proof.
  intros K. destruct k as [|[|[|[|[|[|k]]]]]]; [| | | | | |lia]; unfold dot, mol_D, mol_ism, mol_v; cbn; field.
Qed.
Lemma mol_transf x y i : (i < 9)%nat ->
  mv 9 (transf 6 (unit_rows 9 (asr_D 3 mol_m mol_q mol_ism skew))) (mol_v x y) i =
  mol_v (- 9 / 25 * x - 12 / 25 * y) (9 / 25 * y - 12 / 25 * x) i.
Proof.
  intros I. rewrite transf_mv by easy.
  assert (Dd : forall k v, dot 9 (asr_D 3 mol_m mol_q mol_ism skew k) v = dot 9 (mol_D k) v).
  { intros k v. apply dot_ext; [|easy]. intros j J. now apply mol_D_ok. }
  assert (Dn : forall k, dot 9 (asr_D 3 mol_m mol_q mol_ism skew k) (asr_D 3 mol_m mol_q mol_ism skew k) = dot 9 (mol_D k) (mol_D k)).
  { intros k. apply dot_ext; intros j J; now apply mol_D_ok. }
  rewrite unit_sum.
  - rewrite (Rsum_ext 6 _ (fun k => mol_D k i * match k with 3%nat => 8 * (3 / 5 * x + 4 / 5 * y) | 4%nat => - 8 * x | _ => 0 end /
      match k with 0%nat => 9 | 1%nat => 9 | 2%nat => 9 | 3%nat => 8 | 4%nat => 8 | _ => 256 / 25 end)).
    + unfold mol_D, mol_ism, mol_v. nine i; cbn; field.
    + intros k K. rewrite Dn, Dd, mol_dot, mol_norms, mol_D_ok by easy. easy.
  - intros k K. rewrite Dn, mol_norms by easy. destruct k as [|[|[|[|[|[|k]]]]]]; lra.
Qed.
Theorem poly_degenerate_refuted : exists N m q ism eig dm r,
  (forall a, (a < N)%nat -> 0 < m a) /\ (forall a k, (a < N)%nat -> (k < 3)%nat -> ism (3 * a + k)%nat = / sqrt (m a)) /\
  eigen_unit (moi N m q) (eig (moi N m q)) /\ nonlinear N m q /\ symmetric (3 * N) dm /\
  apply_asr N m q ism eig "poly" dm = Some r /\ ~ rotation_invariant N m q (to_hess r ism).
Proof.
  exists 3%nat, mol_m, mol_q, mol_ism, mol_eig, eye. eexists. split.
  { intros a A. destruct a as [|[|[|a]]]; [| | |lia]; cbn; lra. }
  split; [exact mol_ism_m|]. split; [exact mol_eigen|]. split; [exact mol_nonlinear|].
  split; [intros i j _ _; apply delta_sym|]. split; [reflexivity|]. cbn [mol_eig snd]. intros R.
  set (r := asr_apply _ _ _ _) in R.
  specialize (R 8%nat (fun k => if Nat.eqb k 0 then 1 else 0) ltac:(lia)).
  assert (Z : mv 9 r (mol_v 0 1) 8%nat = 0).
  { etransitivity; [|exact R]. unfold mv. change 9%nat with (3 * 3)%nat. rewrite ConstrJac.Rsum_3. apply Rsum_ext. intros b B. apply Rsum_ext. intros l L.
    unfold to_hess. assert (C : cross (fun k => if Nat.eqb k 0 then 1 else 0) (rel 3 mol_m mol_q b) l = cross (fun k => if Nat.eqb k 0 then 1 else 0) (mol_rel b) l).
    { destruct l as [|[|[|l]]]; [| | |lia]; cbn [cross]; now rewrite !mol_rel_ok by lia. }
    rewrite C. unfold mol_v, mol_ism. generalize (r 8%nat). intros f.
    destruct b as [|[|[|b]]]; [| | |lia]; (destruct l as [|[|[|l]]]; [| | |lia]); cbn; field. }
  unfold r in Z. change (3 * 3)%nat with 9%nat in Z. rewrite asr_mv in Z.
  rewrite (mv_ext 9 _ _ (mol_v (- 9 / 25 * 0 - 12 / 25 * 1) (9 / 25 * 1 - 12 / 25 * 0))) in Z.
  - rewrite mol_transf in Z by lia. unfold mol_v in Z. lra.
  - intros i I. rewrite mv_eye by easy. now apply mol_transf.
Qed.

(** ** Concrete cases of the theorems *)
(** Different moments: the third atom at (0, 3/2, 0); moments 2, 8 and 10 along the axes. *)
Definition wat_q : vec := fun i => match i with 0%nat => 1 | 3%nat => -1 | 7%nat => 3 / 2 | _ => 0 end.
Definition wat_eig (M : mat) : vec * mat := ((fun k => match k with 0%nat => 2 | 1%nat => 8 | _ => 10 end), eye).
Definition wat_rel : mat := fun a k =>
  match a, k with
  | 0%nat, 0%nat => 1 | 1%nat, 0%nat => -1 | 0%nat, 1%nat => - 1 / 6 | 1%nat, 1%nat => - 1 / 6 | 2%nat, 1%nat => 4 / 3
  | _, _ => 0
  end.
Lemma wat_rel_ok a k : (a < 3)%nat -> (k < 3)%nat -> rel 3 mol_m wat_q a k = wat_rel a k.
Proof.
  intros A K. unfold rel, com. destruct a as [|[|[|a]]]; [| | |lia]; (destruct k as [|[|[|k]]]; [| | |lia]); cbn; lra.
Qed.
Lemma wat_moi i j : (i < 3)%nat -> (j < 3)%nat ->
  moi 3 mol_m wat_q i j = if Nat.eqb i j then match i with 0%nat => 2 | 1%nat => 8 | _ => 10 end else 0.
Proof.
  intros I J. rewrite moi_inertia by (easy || lia). unfold inertia.
  rewrite (Rsum_ext 3 _ (fun a => mol_m a * (dot 3 (wat_rel a) (wat_rel a) * delta i j - wat_rel a i * wat_rel a j))).
  - unfold dot, delta. destruct i as [|[|[|i]]]; [| | |lia]; (destruct j as [|[|[|j]]]; [| | |lia]); cbn; lra.
  - intros a A. rewrite !wat_rel_ok by easy. f_equal. f_equal. f_equal. apply dot_ext; intros k K; now apply wat_rel_ok.
Qed.
Example poly_case : exists s p,
  (forall a, (a < 3)%nat -> 0 < mol_m a) /\ (forall a k, (a < 3)%nat -> (k < 3)%nat -> mol_ism (3 * a + k)%nat = / sqrt (mol_m a)) /\
  eigen_unit (moi 3 mol_m wat_q) (wat_eig (moi 3 mol_m wat_q)) /\ distinct3 (fst (wat_eig (moi 3 mol_m wat_q))) /\ nonlinear 3 mol_m wat_q /\
  dyn_run (fd_motion 3 mol_m wat_q mol_ism diag_eigh wat_eig [] 0 (1 / 100) (spring 1) "poly") 0 (S (3 * 3)) (Mats zero zero) = Finished s p /\
  translation_invariant 3 (o_full p) /\ rotation_invariant 3 mol_m wat_q (o_full p).
Proof.
  destruct (fd_runs 3 mol_m wat_q mol_ism diag_eigh wat_eig [] 0 (1 / 100) (spring 1) "poly") as (s & p & E); [cbn; tauto|].
  exists s, p.
  assert (M : forall a, (a < 3)%nat -> 0 < mol_m a) by (intros a A; destruct a as [|[|[|a]]]; [| | |lia]; cbn; lra).
  assert (EV : eigen_unit (moi 3 mol_m wat_q) (wat_eig (moi 3 mol_m wat_q))).
  { intros k K. split.
    - unfold dot, column, wat_eig, eye, delta. destruct k as [|[|[|k]]]; [| | |lia]; cbn; lra.
    - intros i I. unfold mv, column. cbn [wat_eig fst snd].
      rewrite (Rsum_ext 3 _ (fun j => (if Nat.eqb i j then match i with 0%nat => 2 | 1%nat => 8 | _ => 10 end else 0) * eye j k)) by (intros j J; now rewrite wat_moi).
      unfold eye, delta. destruct i as [|[|[|i]]]; [| | |lia]; (destruct k as [|[|[|k]]]; [| | |lia]); cbn; lra. }
  assert (D : distinct3 (fst (wat_eig (moi 3 mol_m wat_q)))) by (cbn; repeat split; intros X; cbn in X; lra).
  assert (L : nonlinear 3 mol_m wat_q).
  { intros u (k & K & Z).
    assert (C : forall a d, (a < 3)%nat -> (d < 3)%nat -> cross (rel 3 mol_m wat_q a) u d = cross (wat_rel a) u d).
    { intros a d A Dd. destruct d as [|[|[|d]]]; [| | |lia]; cbn [cross]; now rewrite !wat_rel_ok by lia. }
    destruct (Req_EM_T (u 2%nat) 0) as [Z2|Z2].
    - destruct (Req_EM_T (u 0%nat) 0) as [Z0|Z0].
      + exists 0%nat, 2%nat. split; [lia|]. split; [lia|]. rewrite C by lia. cbn. rewrite Z0.
        destruct k as [|[|[|k]]]; [| | |lia]; try easy. intros X. apply Z. lra.
      + exists 2%nat, 2%nat. split; [lia|]. split; [lia|]. rewrite C by lia. cbn. intros X. apply Z0. lra.
    - exists 2%nat, 0%nat. split; [lia|]. split; [lia|]. rewrite C by lia. cbn. intros X. apply Z2. lra. }
  split; [easy|]. split; [exact mol_ism_m|]. split; [easy|]. split; [easy|]. split; [easy|]. split; [exact E|].
  exact (printed_poly 3 mol_m wat_q mol_ism M ltac:(lia) mol_ism_m diag_eigh wat_eig [] 0 _ _ _ s p EV D L E).
Qed.
(** Forces that are not linear: [- x - x^3] for each coordinate, at the origin. *)
Definition quartic (x : vec) : vec := fun j => - (x j + x j ^ 3).
Example fd_case : derivative_at 3 quartic (fun _ => 0) eye /\ symmetric 3 eye /\ ~ quadratic 3 quartic (fun _ => 0) eye.
Proof.
  split; [|split].
  - intros i j I J. unfold quartic, eye.
    apply (derivable_ext (fun t => (- delta j i) * t + (- (delta j i) ^ 3) * (t * (t * t)))); [intros t; ring|].
    eapply derivable_eq; [|apply derivable_pt_lim_plus;
      [apply derivable_pt_lim_scal, derivable_pt_lim_id|apply derivable_pt_lim_scal, derivable_pt_lim_mult;
        [apply derivable_pt_lim_id|apply derivable_pt_lim_mult; apply derivable_pt_lim_id]]]. unfold id. ring.
  - intros i j _ _. apply delta_sym.
  - intros (g & Q). assert (A := Q (fun _ => 0) 0%nat ltac:(lia)). assert (B := Q (fun _ => 1) 0%nat ltac:(lia)).
    unfold quartic, eye, delta in A, B. cbn in A, B. lra.
Qed.
(** Energy scaled displacements of a spring of constant 2. *)
Example enm_case : let V := nm_V eye (fun _ => 1) in edelta 3 V (fun _ => 2) (1 / 100) (1 / 100) 0 < 100 * (1 / 100) /\
  (forall i, (i < 3)%nat -> Rsum 3 (fun j => 1 * (2 * eye i j) * 1 * eye j 0%nat) = 2 * eye i 0%nat) /\ orthonormal_cols 3 eye.
Proof.
  cbv zeta. split; [|split].
  - unfold edelta. destruct (Req_EM_T 2 0); [lra|].
    assert (Nn : norm 3 (column (nm_V eye (fun _ => 1)) 0) = 1).
    { unfold norm, dot, column, nm_V, eye, delta. cbn. replace (_ + _) with 1 by ring. apply sqrt_1. }
    rewrite Nn, Rabs_right by lra. replace (1 / 100 * 2 / 2) with (1 / 10 * (1 / 10)) by field.
    rewrite sqrt_square by lra. destruct (Rlt_dec _ _); lra.
  - intros i I. unfold eye, delta. destruct i as [|[|[|i]]]; [| | |lia]; cbn; lra.
  - intros i k I K. unfold eye, delta. destruct i as [|[|[|i]]]; [| | |lia]; (destruct k as [|[|[|k]]]; [| | |lia]); cbn; lra.
Qed.
(** Modes printed for a diagonal matrix. *)
Example modes_case : let p := printall 3 diag_eigh mol_ism (fun i j => match i with 0%nat => 1 | 1%nat => 2 | _ => 3 end * eye i j) 0 [0%nat] in
  o_n p = 2%nat /\ eigen_of (o_n p) (o_dynmat p) (diag_eigh (o_n p) (o_dynmat p)) /\ o_eigval p 1%nat = 3.
Proof.
  cbv zeta. split; [reflexivity|]. split.
  - cbn [o_n printall]. split.
    + intros i k I K. cbn in I, K. unfold diag_eigh, eye, delta. destruct i as [|[|i]]; [| |lia]; (destruct k as [|[|k]]; [| |lia]); cbn; lra.
    + intros i k I K. cbn in I, K. unfold diag_eigh, submat, shifted, eye, delta. destruct i as [|[|i]]; [| |lia]; (destruct k as [|[|k]]; [| |lia]); cbn; unfold submat, shifted, eye, delta; cbn; lra.
  - cbn. unfold submat, shifted, eye, delta. cbn. lra.
Qed.
Print Assumptions fd_converges.
Print Assumptions printed_poly.
Print Assumptions poly_degenerate_refuted.
Print Assumptions nm_refined.
Print Assumptions printed_modes.
