(** * Acoustic sum rules (ipi/engine/motion/phonons.py 194-293, ipi/utils/phonontools.py) *)
From Coq Require Import List Arith Lia Reals Lra String FunctionalExtensionality.
From Verif Require Import RSum Ortho MinModel MinLin PhonModel.
From Verif Require ConstrJac.
Open Scope R_scope.

(** ** What is asked for *)
(** Vectors of unit length that are perpendicular to each other. *)
Definition orthonormal (r n : nat) (D : nat -> vec) : Prop :=
  forall a b, (a < r)%nat -> (b < r)%nat -> dot n (D a) (D b) = delta a b.
(** What an eigenvalue routine promises for a matrix of size 3: unit eigenvectors. *)
Definition eigen_unit (M : mat) (e : vec * mat) : Prop := forall k, (k < 3)%nat ->
  dot 3 (column (snd e) k) (column (snd e) k) = 1 /\
  forall i, (i < 3)%nat -> mv 3 M (column (snd e) k) i = fst e k * snd e i k.
Definition distinct3 (w : vec) : Prop := w 0%nat <> w 1%nat /\ w 0%nat <> w 2%nat /\ w 1%nat <> w 2%nat.
(** Not all atoms on one line. *)
Definition nonlinear (N : nat) (m q : vec) : Prop := forall u, nonzero 3 u ->
  exists a k, (a < N)%nat /\ (k < 3)%nat /\ cross (rel N m q a) u k <> 0.
(** The ordinary tensor of inertia about the centre of mass. *)
Definition inertia (N : nat) (m q : vec) (i j : nat) : R :=
  Rsum N (fun a => m a * (dot 3 (rel N m q a) (rel N m q a) * delta i j - rel N m q a i * rel N m q a j)).
(** A Hessian that no translation, and no rotation about the centre of mass, changes. *)
Definition translation_invariant (N : nat) (H : mat) : Prop :=
  forall i l, (i < 3 * N)%nat -> (l < 3)%nat -> Rsum N (fun b => H i (3 * b + l)%nat) = 0.
Definition rotation_invariant (N : nat) (m q : vec) (H : mat) : Prop :=
  forall i w, (i < 3 * N)%nat -> Rsum N (fun b => Rsum 3 (fun l => H i (3 * b + l)%nat * cross w (rel N m q b) l)) = 0.
Definition same_on (n : nat) (A B : mat) : Prop := forall i j, (i < n)%nat -> (j < n)%nat -> A i j = B i j.

(** ** Projections *)
Lemma mv_mm n A B v i : mv n (mm n A B) v i = mv n A (mv n B v) i.
Proof.
  unfold mv, mm. transitivity (Rsum n (fun j => Rsum n (fun k => A i k * B k j * v j))).
  - apply Rsum_ext. intros j _. now rewrite <- Rsum_scal_r.
  - rewrite Rsum_swap. apply Rsum_ext. intros k _. rewrite <- Rsum_scal. apply Rsum_ext. intros; ring.
Qed.
Lemma transf_tr r D : tr (transf r D) = transf r D.
Proof.
  unfold tr, transf, eye. apply functional_extensionality. intros i. apply functional_extensionality. intros j.
  rewrite (delta_sym j i). f_equal. apply Rsum_ext. intros; ring.
Qed.
Lemma transf_sym r D i j : transf r D i j = transf r D j i.
Proof. exact (eq_sym (f_equal (fun A => A i j) (transf_tr r D))). Qed.
Lemma transf_mv n r D v i : (i < n)%nat -> mv n (transf r D) v i = v i - Rsum r (fun k => D k i * dot n (D k) v).
Proof.
  intros I. unfold mv, transf, eye.
  rewrite (Rsum_ext n _ (fun j => v j * delta i j - Rsum r (fun k => D k i * D k j) * v j)) by (intros; ring).
  rewrite Rsum_minus, (Rsum_delta_l n i v I). f_equal.
  transitivity (Rsum n (fun j => Rsum r (fun k => D k i * (D k j * v j)))).
  - apply Rsum_ext. intros j _. rewrite <- Rsum_scal_r. apply Rsum_ext. intros; ring.
  - rewrite Rsum_swap. apply Rsum_ext. intros k _. unfold dot. now rewrite <- Rsum_scal.
Qed.
Lemma transf_kills n r D k i : orthonormal r n D -> (k < r)%nat -> (i < n)%nat -> mv n (transf r D) (D k) i = 0.
Proof.
  intros O K I. rewrite transf_mv by easy. rewrite (Rsum_ext r _ (fun a => D a i * delta a k)).
  - rewrite (Rsum_delta_r r k (fun a => D a i) K). ring.
  - intros a A. now rewrite O.
Qed.
Lemma transf_perp n r D v i : (forall k, (k < r)%nat -> dot n (D k) v = 0) -> (i < n)%nat -> mv n (transf r D) v i = v i.
Proof. intros O I. rewrite transf_mv by easy. rewrite Rsum_0; [ring|]. intros k K. rewrite O by easy. ring. Qed.
Lemma dot_transf n r D v k : orthonormal r n D -> (k < r)%nat -> dot n (D k) (mv n (transf r D) v) = 0.
Proof.
  intros O K. rewrite sym_dot.
  - apply dot_veq0_l. intros i I. now apply transf_kills.
  - intros i j _ _. apply transf_sym.
Qed.
Lemma asr_mv n r D A v i : mv n (asr_apply n r D A) v i = mv n (transf r D) (mv n A (mv n (transf r D) v)) i.
Proof.
  unfold asr_apply. rewrite transf_tr, mv_mm. unfold mv at 1 3. apply Rsum_ext. intros j _. f_equal. apply mv_mm.
Qed.
Lemma mv_col n A j i : (j < n)%nat -> mv n A (fun k => delta k j) i = A i j.
Proof. intros J. unfold mv. now apply (Rsum_delta_r n j (fun k => A i k)). Qed.
Lemma same_by_mv n A B : (forall v i, (i < n)%nat -> mv n A v i = mv n B v i) -> same_on n A B.
Proof. intros E i j I J. rewrite <- (mv_col n A j i J), <- (mv_col n B j i J). now apply E. Qed.
Lemma mv_veq0 n A v i : (forall k, (k < n)%nat -> v k = 0) -> mv n A v i = 0.
Proof. intros Z. unfold mv. apply Rsum_0. intros k K. rewrite Z by easy. ring. Qed.

(** The projected matrix gives zero on each of the vectors. *)
Theorem asr_kills n r D A k i : orthonormal r n D -> (k < r)%nat -> (i < n)%nat -> mv n (asr_apply n r D A) (D k) i = 0.
Proof.
  intros O K I. rewrite asr_mv. apply mv_veq0. intros j J. apply mv_veq0. intros l L. now apply transf_kills.
Qed.
(** It is symmetric if the matrix was. *)
Theorem asr_symmetric n r D A : symmetric n A -> symmetric n (asr_apply n r D A).
Proof.
  intros S i j I J. unfold asr_apply, mm. rewrite transf_tr.
  set (T := transf r D). assert (TS : forall a b, T a b = T b a) by (intros; apply transf_sym).
  transitivity (Rsum n (fun k => Rsum n (fun l => T i k * (A k l * T l j)))); [apply Rsum_ext; intros; now rewrite <- Rsum_scal|].
  rewrite Rsum_swap. apply Rsum_ext. intros l L. rewrite <- Rsum_scal. apply Rsum_ext. intros k K.
  rewrite (S k l) by easy. rewrite (TS l j), (TS i k). ring.
Qed.
(** Vibrations, that is vectors perpendicular to all of them, keep their curvature. *)
Theorem asr_vibrations n r D A u v : (forall k, (k < r)%nat -> dot n (D k) u = 0) -> (forall k, (k < r)%nat -> dot n (D k) v = 0) ->
  dot n u (mv n (asr_apply n r D A) v) = dot n u (mv n A v).
Proof.
  intros U V. transitivity (dot n u (mv n (transf r D) (mv n A (mv n (transf r D) v)))).
  { unfold dot. apply Rsum_ext. intros. f_equal. apply asr_mv. }
  rewrite sym_dot by (intros i j _ _; apply transf_sym).
  apply dot_ext; intros i I.
  - now apply transf_perp.
  - apply mv_ext. intros j J. now apply transf_perp.
Qed.
(** Applying the rule twice is applying it once; a matrix that satisfies it is not changed. *)
Theorem asr_fixpoint n r D A : symmetric n A -> (forall k i, (k < r)%nat -> (i < n)%nat -> mv n A (D k) i = 0) ->
  same_on n (asr_apply n r D A) A.
Proof.
  intros S Z. apply same_by_mv. intros v i I. rewrite asr_mv.
  assert (E : forall w j, (j < n)%nat -> mv n A (mv n (transf r D) w) j = mv n A w j).
  { intros w j J. unfold mv at 1. rewrite (Rsum_ext n _ (fun l => A j l * w l - Rsum r (fun k => A j l * D k l * dot n (D k) w))).
    - rewrite Rsum_minus, Rsum_swap. rewrite (Rsum_0 r); [unfold mv; ring|]. intros k K. rewrite Rsum_scal_r.
      change (Rsum n (fun l => A j l * D k l)) with (mv n A (D k) j). rewrite Z by easy. ring.
    - intros l L. rewrite transf_mv by easy. rewrite Rmult_minus_distr_l. f_equal. rewrite <- Rsum_scal. apply Rsum_ext. intros; ring. }
  rewrite (mv_ext n _ _ (mv n A v)) by (intros j J; now apply E).
  apply transf_perp; [|easy]. intros k K. rewrite sym_dot by easy. apply dot_veq0_l. intros j J. now apply Z.
Qed.
Theorem asr_idempotent n r D A : symmetric n A -> orthonormal r n D ->
  same_on n (asr_apply n r D (asr_apply n r D A)) (asr_apply n r D A).
Proof. intros S O. apply asr_fixpoint; [now apply asr_symmetric|]. intros. now apply asr_kills. Qed.

(** ** The vectors are those of the centre of mass and of the tensor of inertia *)
Section Molecule.
Variables (N : nat) (m q ism : vec).
Hypothesis mpos : forall a, (a < N)%nat -> 0 < m a.
Hypothesis some : (0 < N)%nat.
(** line 95 of phonons.py; m3 repeats the mass of an atom three times. *)
Hypothesis ism_m : forall a k, (a < N)%nat -> (k < 3)%nat -> ism (3 * a + k)%nat = / sqrt (m a).

Lemma total_mass : 0 < Rsum N m.
Proof.
  destruct N as [|M]; [lia|]. rewrite Rsum_first.
  assert (0 <= Rsum M (fun i => m (S i))) by (apply Rsum_nonneg; intros; left; apply mpos; lia).
  assert (0 < m 0%nat) by (apply mpos; lia). lra.
Qed.
Lemma com_zero k : Rsum N (fun a => m a * rel N m q a k) = 0.
Proof.
  unfold rel. rewrite (Rsum_ext N _ (fun a => q (3 * a + k)%nat * m a - m a * com N m q k)) by (intros; ring).
  rewrite Rsum_minus, Rsum_scal_r. unfold com. assert (T := total_mass). field. lra.
Qed.
Theorem moi_inertia i j : (i < 3)%nat -> (j < 3)%nat -> moi N m q i j = inertia N m q i j.
Proof.
  intros I J. unfold moi, inertia. apply Rsum_ext. intros a A. unfold mm, cross_eye, cross, dot, delta.
  destruct i as [|[|[|i]]]; [| | |lia]; (destruct j as [|[|[|j]]]; [| | |lia]); cbn; ring.
Qed.
(** Products of the vectors before they are normalised. *)
Lemma inv_ism a k : (a < N)%nat -> (k < 3)%nat -> / ism (3 * a + k)%nat = sqrt (m a).
Proof. intros A K. rewrite ism_m by easy. apply Rinv_inv. Qed.
Definition disp (U : mat) (k a d : nat) : R :=
  let X := asr_R N m q U a in
  match k with
  | 0%nat => if Nat.eqb d 0 then 1 else 0
  | 1%nat => if Nat.eqb d 1 then 1 else 0
  | 2%nat => if Nat.eqb d 2 then 1 else 0
  | 3%nat => X 1%nat * U d 2%nat - X 2%nat * U d 1%nat
  | 4%nat => X 2%nat * U d 0%nat - X 0%nat * U d 2%nat
  | _ => X 0%nat * U d 1%nat - X 1%nat * U d 0%nat
  end.
Lemma asr_D_at U k a d : (a < N)%nat -> (d < 3)%nat -> asr_D N m q ism U k (3 * a + d)%nat = disp U k a d * sqrt (m a).
Proof.
  intros A K. unfold asr_D, disp. rewrite ConstrJac.div3, ConstrJac.mod3 by easy.
  destruct k as [|[|[|[|[|k]]]]]; unfold Rdiv; rewrite inv_ism by easy; easy.
Qed.
Lemma dot_D U k l : dot (3 * N) (asr_D N m q ism U k) (asr_D N m q ism U l) =
  Rsum N (fun a => m a * Rsum 3 (fun d => disp U k a d * disp U l a d)).
Proof.
  unfold dot. rewrite ConstrJac.Rsum_3. apply Rsum_ext. intros a A. rewrite <- Rsum_scal. apply Rsum_ext. intros d K.
  rewrite !asr_D_at by easy. rewrite <- (sqrt_sqrt (m a)) at 3 by (left; now apply mpos). ring.
Qed.
Lemma col_dot U a b : orthonormal_cols 3 U -> (a < 3)%nat -> (b < 3)%nat ->
  U 0%nat a * U 0%nat b + U 1%nat a * U 1%nat b + U 2%nat a * U 2%nat b = delta a b.
Proof. intros O A B. rewrite <- (O a b A B). cbn. ring. Qed.
Lemma row_dot U a b : orthonormal_cols 3 U -> (a < 3)%nat -> (b < 3)%nat ->
  U a 0%nat * U b 0%nat + U a 1%nat * U b 1%nat + U a 2%nat * U b 2%nat = delta a b.
Proof. intros O A B. rewrite <- (cols_rows 3 U O a b A B). cbn. ring. Qed.
(** Moments along the axes in [U]. *)
Definition axis (U : mat) (a b : nat) : R := Rsum N (fun c => m c * (asr_R N m q U c a * asr_R N m q U c b)).
Lemma axis_com U k : Rsum N (fun c => m c * asr_R N m q U c k) = 0.
Proof.
  unfold asr_R. transitivity (Rsum N (fun c => Rsum 3 (fun l => m c * rel N m q c l * U l k))).
  - apply Rsum_ext. intros c _. rewrite <- Rsum_scal. apply Rsum_ext. intros; ring.
  - rewrite Rsum_swap. apply Rsum_0. intros l _. rewrite Rsum_scal_r, com_zero. ring.
Qed.
Lemma axis_inertia U a b : orthonormal_cols 3 U -> (a < 3)%nat -> (b < 3)%nat -> a <> b ->
  dot 3 (column U a) (mv 3 (moi N m q) (column U b)) = - axis U a b.
Proof.
  intros O A B NE. assert (Z := col_dot U a b O A B). rewrite delta_diff in Z by easy.
  transitivity (Rsum N (fun c => m c * (dot 3 (rel N m q c) (rel N m q c) *
     (U 0%nat a * U 0%nat b + U 1%nat a * U 1%nat b + U 2%nat a * U 2%nat b) - asr_R N m q U c a * asr_R N m q U c b))).
  - unfold dot at 1, mv, column.
    rewrite (Rsum_ext 3 _ (fun i => Rsum 3 (fun j => Rsum N (fun c => U i a * U j b *
      (m c * (dot 3 (rel N m q c) (rel N m q c) * delta i j - rel N m q c i * rel N m q c j)))))).
    + rewrite (Rsum_ext 3 _ (fun i => Rsum N (fun c => Rsum 3 (fun j => U i a * U j b *
        (m c * (dot 3 (rel N m q c) (rel N m q c) * delta i j - rel N m q c i * rel N m q c j)))))) by (intros; apply Rsum_swap).
      rewrite Rsum_swap. apply Rsum_ext. intros c _. unfold asr_R, dot, delta. cbn. ring.
    + intros i I. rewrite <- Rsum_scal. apply Rsum_ext. intros j J. rewrite (moi_inertia i j I J). unfold inertia.
      rewrite <- Rsum_scal_r, <- Rsum_scal. apply Rsum_ext. intros; ring.
  - unfold axis. rewrite <- Rsum_opp. apply Rsum_ext. intros c _. rewrite Z. ring.
Qed.
(** Translations need no axes. *)
Lemma dot_trans U k l : (k < 3)%nat -> (l < 3)%nat -> dot (3 * N) (asr_D N m q ism U k) (asr_D N m q ism U l) = Rsum N m * delta k l.
Proof.
  intros K L. rewrite dot_D, <- Rsum_scal_r. apply Rsum_ext. intros a A. unfold disp, delta.
  destruct k as [|[|[|k]]]; [| | |lia]; (destruct l as [|[|[|l]]]; [| | |lia]); cbn; ring.
Qed.
Lemma dot_trans_rot U k l : (k < 3)%nat -> (l < 3)%nat -> dot (3 * N) (asr_D N m q ism U k) (asr_D N m q ism U (3 + l)) = 0.
Proof.
  intros K L. rewrite dot_D.
  set (p := match l with 0%nat => (1, 2) | 1%nat => (2, 0) | _ => (0, 1) end%nat).
  rewrite (Rsum_ext N _ (fun a => m a * asr_R N m q U a (fst p) * U k (snd p) - m a * asr_R N m q U a (snd p) * U k (fst p))).
  - rewrite Rsum_minus, !Rsum_scal_r, !axis_com. ring.
  - intros a A. unfold disp, p. destruct k as [|[|[|k]]]; [| | |lia]; (destruct l as [|[|[|l]]]; [| | |lia]); cbn; ring.
Qed.
Lemma pair_dot U (x y z w : R) p r s t : orthonormal_cols 3 U -> (p < 3)%nat -> (r < 3)%nat -> (s < 3)%nat -> (t < 3)%nat ->
  Rsum 3 (fun d => (x * U d p - y * U d r) * (z * U d s - w * U d t)) =
  x * z * delta p s - x * w * delta p t - y * z * delta r s + y * w * delta r t.
Proof.
  intros O P R S T. rewrite <- (col_dot U p s O P S), <- (col_dot U p t O P T), <- (col_dot U r s O R S), <- (col_dot U r t O R T).
  cbn. ring.
Qed.
Lemma dot_rot U k l : orthonormal_cols 3 U -> (k < 3)%nat -> (l < 3)%nat -> k <> l ->
  dot (3 * N) (asr_D N m q ism U (3 + k)) (asr_D N m q ism U (3 + l)) = - axis U k l.
Proof.
  intros O K L NE. rewrite dot_D. unfold axis. rewrite <- Rsum_opp. apply Rsum_ext. intros a A.
  rewrite Ropp_mult_distr_r. f_equal. unfold disp. set (X := asr_R N m q U a).
  destruct k as [|[|[|k]]]; [| | |lia]; (destruct l as [|[|[|l]]]; [| | |lia]); try lia; cbn [Nat.add];
    rewrite pair_dot by (easy || lia); unfold delta; cbn [Nat.eqb]; ring.
Qed.
Lemma dot_rot_same U k : orthonormal_cols 3 U -> (k < 3)%nat ->
  dot (3 * N) (asr_D N m q ism U (3 + k)) (asr_D N m q ism U (3 + k)) =
  axis U ((k + 1) mod 3) ((k + 1) mod 3) + axis U ((k + 2) mod 3) ((k + 2) mod 3).
Proof.
  intros O K. rewrite dot_D. unfold axis. rewrite <- Rsum_plus. apply Rsum_ext. intros a A.
  rewrite <- Rmult_plus_distr_l. f_equal. unfold disp. set (X := asr_R N m q U a).
  destruct k as [|[|[|k]]]; [| | |lia]; cbn [Nat.add]; rewrite pair_dot by (easy || lia); unfold delta; cbn; ring.
Qed.
(** Rotations of a molecule that is not linear move some atom. *)
Lemma rot_moves U k : orthonormal_cols 3 U -> (k < 3)%nat -> nonlinear N m q ->
  0 < dot (3 * N) (asr_D N m q ism U (3 + k)) (asr_D N m q ism U (3 + k)).
Proof.
  intros O K L. rewrite dot_rot_same by easy.
  set (a := ((k + 1) mod 3)%nat). set (b := ((k + 2) mod 3)%nat).
  assert (P : forall c, 0 <= axis U c c).
  { intros c. apply Rsum_nonneg. intros i I. apply Rmult_le_pos; [left; now apply mpos|apply Rle_0_sqr]. }
  destruct (Rle_lt_or_eq_dec 0 (axis U a a + axis U b b)) as [G | E]; [specialize (P a) as Pa; specialize (P b) as Pb; lra|easy|exfalso].
  assert (Za : axis U a a = 0) by (specialize (P a) as Pa; specialize (P b) as Pb; lra).
  assert (Zb : axis U b b = 0) by (specialize (P a) as Pa; specialize (P b) as Pb; lra).
  assert (V : forall c, axis U c c = 0 -> forall i, (i < N)%nat -> asr_R N m q U i c = 0).
  { intros c Z i I. assert (Q : m i * (asr_R N m q U i c * asr_R N m q U i c) = 0).
    { apply (Rsum_eq0 N (fun i => m i * (asr_R N m q U i c * asr_R N m q U i c))); [|exact Z|exact I].
      intros j J; apply Rmult_le_pos; [left; now apply mpos|apply Rle_0_sqr]. } apply Rmult_integral in Q. destruct Q as [Q|Q]; [specialize (mpos i I); lra|].
    apply Rmult_integral in Q. lra. }
  assert (NZ : nonzero 3 (column U k)).
  { destruct (nonzero_dec 3 (column U k)) as [Y|Y]; [easy|exfalso].
    assert (Q := O k k K K). rewrite delta_same in Q. rewrite Rsum_0 in Q; [lra|].
    intros j J. specialize (Y j J). unfold column in Y. rewrite Y. ring. }
  destruct (L _ NZ) as (i & d & I & D & Nz). apply Nz.
  assert (Xa := V a Za i I). assert (Xb := V b Zb i I). unfold asr_R in Xa, Xb.
  assert (R3 : forall x, (x < 3)%nat -> rel N m q i x = U x k * Rsum 3 (fun y => rel N m q i y * U y k)).
  { intros x X. transitivity (U x 0%nat * Rsum 3 (fun y => rel N m q i y * U y 0%nat) + U x 1%nat * Rsum 3 (fun y => rel N m q i y * U y 1%nat)
      + U x 2%nat * Rsum 3 (fun y => rel N m q i y * U y 2%nat)).
    - transitivity (Rsum 3 (fun y => rel N m q i y * delta x y)); [now rewrite (Rsum_delta_l 3 x (fun y => rel N m q i y) X)|].
      transitivity (Rsum 3 (fun y => rel N m q i y * (U x 0%nat * U y 0%nat + U x 1%nat * U y 1%nat + U x 2%nat * U y 2%nat))).
      + apply Rsum_ext. intros y Y. now rewrite (row_dot U x y O X Y).
      + cbn. ring.
    - unfold a, b in Xa, Xb. destruct k as [|[|[|k]]]; [| | |lia]; cbn [Nat.add Nat.modulo Nat.divmod fst snd Nat.sub] in Xa, Xb;
        rewrite Xa, Xb; ring. }
  unfold cross, column. destruct d as [|[|[|d]]]; [| | |lia]; rewrite ?(R3 0%nat ltac:(lia)), ?(R3 1%nat ltac:(lia)), ?(R3 2%nat ltac:(lia)); ring.
Qed.
Lemma dot_unit n D a b : dot n (unit_rows n D a) (unit_rows n D b) = dot n (D a) (D b) / (norm n (D a) * norm n (D b)).
Proof.
  unfold unit_rows, dot. unfold Rdiv at 3. rewrite <- Rsum_scal_r. apply Rsum_ext. intros i _. rewrite Rinv_mult. unfold Rdiv. ring.
Qed.
Lemma unit_same n D a : 0 < dot n (D a) (D a) -> dot n (unit_rows n D a) (unit_rows n D a) = 1.
Proof. intros P. rewrite dot_unit, norm_sq. field. lra. Qed.

Theorem crystal_orthonormal U : orthonormal 3 (3 * N) (unit_rows (3 * N) (asr_D N m q ism U)).
Proof.
  assert (T := total_mass). intros a b A B. destruct (Nat.eq_dec a b) as [<-|NE].
  - rewrite delta_same. apply unit_same. rewrite dot_trans, delta_same by easy. lra.
  - rewrite dot_unit, dot_trans, delta_diff by easy. unfold Rdiv. ring.
Qed.
Theorem poly_orthonormal U : orthonormal_cols 3 U -> nonlinear N m q ->
  (forall a b, (a < 3)%nat -> (b < 3)%nat -> a <> b -> axis U a b = 0) ->
  orthonormal 6 (3 * N) (unit_rows (3 * N) (asr_D N m q ism U)).
Proof.
  intros O L Z a b A B. assert (T := total_mass).
  destruct (Nat.eq_dec a b) as [<-|NE].
  - rewrite delta_same. apply unit_same. destruct (Nat.lt_ge_cases a 3).
    + rewrite dot_trans, delta_same by easy. lra.
    + replace a with (3 + (a - 3))%nat by lia. apply rot_moves; [easy|lia|easy].
  - rewrite dot_unit, delta_diff by easy. assert (E : dot (3 * N) (asr_D N m q ism U a) (asr_D N m q ism U b) = 0).
    { destruct (Nat.lt_ge_cases a 3), (Nat.lt_ge_cases b 3).
      - rewrite dot_trans, delta_diff by easy. ring.
      - replace b with (3 + (b - 3))%nat by lia. apply dot_trans_rot; lia.
      - rewrite dot_comm. replace a with (3 + (a - 3))%nat by lia. apply dot_trans_rot; lia.
      - replace a with (3 + (a - 3))%nat by lia. replace b with (3 + (b - 3))%nat by lia.
        rewrite dot_rot by (easy || lia). rewrite Z by lia. ring. }
    rewrite E. unfold Rdiv. ring.
Qed.
(** Distinct eigenvalues give perpendicular eigenvectors. *)
Lemma moi_symmetric : symmetric 3 (moi N m q).
Proof.
  intros i j I J. rewrite !moi_inertia by easy. unfold inertia. apply Rsum_ext. intros a A. rewrite (delta_sym i j). ring.
Qed.
Theorem eig_orthonormal e : eigen_unit (moi N m q) e -> distinct3 (fst e) -> orthonormal_cols 3 (snd e).
Proof.
  intros E (D1 & D2 & D3) a b A B. change (dot 3 (column (snd e) a) (column (snd e) b) = delta a b).
  destruct (Nat.eq_dec a b) as [<-|NE].
  - rewrite delta_same. now apply (E a A).
  - rewrite delta_diff by easy. set (u := column (snd e) a). set (v := column (snd e) b).
    assert (X : dot 3 u (mv 3 (moi N m q) v) = fst e b * dot 3 u v).
    { rewrite <- dot_scal_r. apply dot_ext; [easy|]. intros i I. now apply (E b B). }
    assert (Y : dot 3 (mv 3 (moi N m q) u) v = fst e a * dot 3 u v).
    { rewrite <- dot_scal_l. apply dot_ext; [|easy]. intros i I. now apply (E a A). }
    rewrite sym_dot in X by apply moi_symmetric. rewrite X in Y.
    assert (W : (fst e a - fst e b) * dot 3 u v = 0) by lra. apply Rmult_integral in W. destruct W as [W|W]; [|easy].
    exfalso. destruct a as [|[|[|a]]]; [| | |lia]; (destruct b as [|[|[|b]]]; [| | |lia]); try lia; lra.
Qed.
Lemma eig_axis e a b : eigen_unit (moi N m q) e -> orthonormal_cols 3 (snd e) -> (a < 3)%nat -> (b < 3)%nat -> a <> b ->
  axis (snd e) a b = 0.
Proof.
  intros E O A B NE. assert (X := axis_inertia (snd e) a b O A B NE).
  assert (Y : dot 3 (column (snd e) a) (mv 3 (moi N m q) (column (snd e) b)) = 0).
  { rewrite (dot_ext 3 _ (column (snd e) a) _ (fun i => fst e b * column (snd e) b i)); [|easy|intros i I; now apply (E b B)].
    rewrite dot_scal_r. change (dot 3 (column (snd e) a) (column (snd e) b)) with (Rsum 3 (fun j => snd e j a * snd e j b)).
    rewrite (O a b A B), delta_diff by easy. ring. }
  lra.
Qed.

(** ** The rules in terms of the Hessian *)
Lemma unit_kills n D A k i : 0 < dot n (D k) (D k) -> mv n A (unit_rows n D k) i = 0 -> mv n A (D k) i = 0.
Proof.
  intros P Z. assert (Q : 0 < norm n (D k)) by (now apply sqrt_lt_R0).
  rewrite (mv_ext n A (D k) (fun j => norm n (D k) * unit_rows n D k j)); [rewrite mv_scal, Z; ring|].
  intros j _. unfold unit_rows. field. lra.
Qed.
Lemma hess_disp A U k i : (i < 3 * N)%nat -> mv (3 * N) A (asr_D N m q ism U k) i = 0 ->
  Rsum N (fun b => Rsum 3 (fun l => to_hess A ism i (3 * b + l)%nat * disp U k b l)) = 0.
Proof.
  intros I Z. unfold mv in Z. rewrite ConstrJac.Rsum_3 in Z.
  transitivity (/ ism i * Rsum N (fun a => Rsum 3 (fun d => A i (3 * a + d)%nat * asr_D N m q ism U k (3 * a + d)%nat))); [|rewrite Z; ring].
  rewrite <- Rsum_scal. apply Rsum_ext. intros b B. rewrite <- Rsum_scal. apply Rsum_ext. intros l L.
  rewrite asr_D_at by easy. unfold to_hess, Rdiv. rewrite Rinv_mult, inv_ism by easy. ring.
Qed.
Theorem crystal_sum_rule U A :
  translation_invariant N (to_hess (asr_apply (3 * N) 3 (unit_rows (3 * N) (asr_D N m q ism U)) A) ism).
Proof.
  intros i l I L. set (r := asr_apply _ _ _ _).
  assert (Z : mv (3 * N) r (asr_D N m q ism U l) i = 0).
  { apply unit_kills; [rewrite dot_trans, delta_same by easy; assert (T := total_mass); lra|].
    apply asr_kills; [apply crystal_orthonormal|easy|easy]. }
  rewrite <- (hess_disp r U l i I Z). apply Rsum_ext. intros b B.
  unfold disp. destruct l as [|[|[|l]]]; [| | |lia]; cbn; ring.
Qed.
Lemma rot_span U w b l : orthonormal_cols 3 U -> (l < 3)%nat ->
  let c := fun p r => Rsum 3 (fun x => U x p * cross w (column U r) x) in
  cross w (rel N m q b) l = c 2%nat 1%nat * disp U 3 b l + c 0%nat 2%nat * disp U 4 b l + c 1%nat 0%nat * disp U 5 b l.
Proof.
  intros O L c. set (X := asr_R N m q U b).
  assert (R3 : forall x, (x < 3)%nat -> rel N m q b x = U x 0%nat * X 0%nat + U x 1%nat * X 1%nat + U x 2%nat * X 2%nat).
  { intros x Hx. transitivity (Rsum 3 (fun y => rel N m q b y * delta x y)); [now rewrite (Rsum_delta_l 3 x (fun y => rel N m q b y) Hx)|].
    transitivity (Rsum 3 (fun y => rel N m q b y * (U x 0%nat * U y 0%nat + U x 1%nat * U y 1%nat + U x 2%nat * U y 2%nat))).
    - apply Rsum_ext. intros y Y. now rewrite (row_dot U x y O Hx Y).
    - unfold X, asr_R. cbn. ring. }
  assert (W : cross w (rel N m q b) l = Rsum 3 (fun x => cross w (rel N m q b) x * (U l 0%nat * U x 0%nat + U l 1%nat * U x 1%nat + U l 2%nat * U x 2%nat))).
  { transitivity (Rsum 3 (fun y => cross w (rel N m q b) y * delta l y)); [now rewrite (Rsum_delta_l 3 l (fun y => cross w (rel N m q b) y) L)|].
    apply Rsum_ext. intros y Y. now rewrite (row_dot U l y O L Y). }
  rewrite W. unfold disp, c, column. fold X. cbn [Rsum cross]. rewrite (R3 0%nat), (R3 1%nat), (R3 2%nat) by lia. ring.
Qed.
Theorem poly_sum_rules e A : eigen_unit (moi N m q) e -> orthonormal_cols 3 (snd e) -> nonlinear N m q ->
  let H := to_hess (asr_apply (3 * N) 6 (unit_rows (3 * N) (asr_D N m q ism (snd e))) A) ism in
  translation_invariant N H /\ rotation_invariant N m q H.
Proof.
  intros E O L. set (r := asr_apply _ _ _ _). set (U := snd e) in *. cbv zeta.
  assert (OD : orthonormal 6 (3 * N) (unit_rows (3 * N) (asr_D N m q ism U))).
  { apply poly_orthonormal; [easy|easy|]. intros. now apply eig_axis. }
  assert (Z : forall k i, (k < 6)%nat -> (i < 3 * N)%nat -> mv (3 * N) r (asr_D N m q ism U k) i = 0).
  { intros k i K I. apply unit_kills; [|now apply asr_kills]. destruct (Nat.lt_ge_cases k 3).
    - rewrite dot_trans, delta_same by easy. assert (T := total_mass). lra.
    - replace k with (3 + (k - 3))%nat by lia. apply rot_moves; [easy|lia|easy]. }
  split.
  - intros i l I Hl. rewrite <- (hess_disp r U l i I (Z l i ltac:(lia) I)). apply Rsum_ext. intros b B.
    unfold disp. destruct l as [|[|[|l]]]; [| | |lia]; cbn; ring.
  - intros i w I. set (c := fun p r => Rsum 3 (fun x => U x p * cross w (column U r) x)).
    transitivity (c 2%nat 1%nat * Rsum N (fun b => Rsum 3 (fun l => to_hess r ism i (3 * b + l)%nat * disp U 3 b l)) +
      c 0%nat 2%nat * Rsum N (fun b => Rsum 3 (fun l => to_hess r ism i (3 * b + l)%nat * disp U 4 b l)) +
      c 1%nat 0%nat * Rsum N (fun b => Rsum 3 (fun l => to_hess r ism i (3 * b + l)%nat * disp U 5 b l))).
    + rewrite <- !Rsum_scal, <- !Rsum_plus. apply Rsum_ext. intros b B. rewrite <- !Rsum_scal, <- !Rsum_plus. apply Rsum_ext. intros l Hl.
      assert (RS := rot_span U w b l O Hl). cbv zeta beta in RS. rewrite RS. unfold c. ring.
    + rewrite (hess_disp r U 3 i I) by (apply Z; [lia|easy]). rewrite (hess_disp r U 4 i I) by (apply Z; [lia|easy]).
      rewrite (hess_disp r U 5 i I) by (apply Z; [lia|easy]). ring.
Qed.
End Molecule.
