(** Theorems of record about the cell and the mathematical tools (C35, C36, C38, C39, C83). *)
Require Import Reals List ZArith Lia Lra Psatz.
From Flocq Require Import Core.
From Verif Require Import RSum PairModel PairProofs CellModel.
Import ListNotations.
Local Open Scope R_scope.

(** ** What is meant *)

(** An upper triangular cell matrix (its columns are the cell vectors) that is not flat. *)
Definition ut_cell (h : mat3) : Prop :=
  h 1%nat 0%nat = 0 /\ h 2%nat 0%nat = 0 /\ h 2%nat 1%nat = 0 /\
  h 0%nat 0%nat <> 0 /\ h 1%nat 1%nat <> 0 /\ h 2%nat 2%nat <> 0.
(** The lattice vector with integer coefficients n. *)
Definition lattice (h : mat3) (n : nat -> Z) : vec := fun i => Rsum 3 (fun k => h i k * IZR (n k)).
(** [q] and [q'] are images of each other. *)
Definition images (h : mat3) (q q' : vec) : Prop :=
  exists n, forall i, (i < 3)%nat -> q' i = q i + lattice h n i.
(** The general determinant and the triple product of the columns. *)
Definition det3 (h : mat3) : R :=
  h 0%nat 0%nat * (h 1%nat 1%nat * h 2%nat 2%nat - h 1%nat 2%nat * h 2%nat 1%nat)
  - h 0%nat 1%nat * (h 1%nat 0%nat * h 2%nat 2%nat - h 1%nat 2%nat * h 2%nat 0%nat)
  + h 0%nat 2%nat * (h 1%nat 0%nat * h 2%nat 1%nat - h 1%nat 1%nat * h 2%nat 0%nat).
Definition len2 (v : vec) : R := Rsum 3 (fun k => v k * v k).
Definition orthogonal3 (A : mat3) : Prop :=
  (forall i j, (i < 3)%nat -> (j < 3)%nat -> Rsum 3 (fun k => A i k * A j k) = delta i j) /\
  (forall i j, (i < 3)%nat -> (j < 3)%nat -> Rsum 3 (fun k => A k i * A k j) = delta i j).

Ltac three i := destruct i as [|[|[|i]]]; [| | |lia].

(** ** Inverse and determinant (C36) *)

Theorem invert_is_inverse h : ut_cell h -> forall i j, (i < 3)%nat -> (j < 3)%nat ->
  Rsum 3 (fun k => h i k * invert_ut3x3 h k j) = delta i j /\ Rsum 3 (fun k => invert_ut3x3 h i k * h k j) = delta i j.
Proof.
  intros (H1 & H2 & H3 & N0 & N1 & N2) i j Hi Hj.
  three i; three j; cbv [Rsum delta Nat.eqb invert_ut3x3 rows3]; rewrite ?H1, ?H2, ?H3; split; field; easy.
Qed.
Theorem det_is_determinant h : ut_cell h -> det_ut3x3 h = det3 h /\ det_ut3x3 h <> 0.
Proof.
  intros (H1 & H2 & H3 & N0 & N1 & N2). split.
  - unfold det_ut3x3, det3. rewrite H1, H2, H3. ring.
  - unfold det_ut3x3. repeat apply Rmult_integral_contrapositive_currified; easy.
Qed.

Lemma inv_left h v i : ut_cell h -> (i < 3)%nat -> mvec (invert_ut3x3 h) (mvec h v) i = v i.
Proof.
  intros H Hi. apply mvec_inverse; [|easy]. intros a b Ha Hb. now apply invert_is_inverse.
Qed.
Lemma inv_right h v i : ut_cell h -> (i < 3)%nat -> mvec h (mvec (invert_ut3x3 h) v) i = v i.
Proof. intros H Hi. apply mvec_inverse; [|easy]. intros a b Ha Hb. now apply invert_is_inverse. Qed.

(** ** Periodic wrapping (C35) *)

Lemma rint_int x : exists k, rint x = IZR k.
Proof. now exists (ZnearestE x). Qed.
Lemma rint_half_tie x : Rabs x <= / 2 -> rint x = 0.
Proof.
  intros H. destruct (Rlt_le_dec (Rabs x) (/ 2)) as [L|L].
  - apply (rint_near x 0). now rewrite Rminus_0_r.
  - assert (E : rint (/ 2) = 0).
    { unfold rint. apply (f_equal IZR). unfold Znearest.
      assert (F : Zfloor (/ 2) = 0%Z) by (apply Zfloor_imp; cbn [Z.add IZR]; lra). rewrite F.
      replace (/ 2 - 0) with (/ 2) by ring. rewrite Rcompare_Eq by reflexivity. reflexivity. }
    unfold Rabs in *. destruct (Rcase_abs x).
    + replace x with (- / 2) by lra. rewrite rint_opp, E. ring.
    + replace x with (/ 2) by lra. exact E.
Qed.
Lemma rint_shift x k : Rabs (x - rint x) < / 2 -> rint (x + IZR k) = rint x + IZR k.
Proof.
  intros H. destruct (rint_int x) as [z Hz]. rewrite Hz in *. rewrite <- plus_IZR. apply rint_near.
  rewrite plus_IZR. replace (x + IZR k - (IZR z + IZR k)) with (x - IZR z) by ring. easy.
Qed.

(** the wrapped position is an image of the given one *)
Theorem wrapped_is_image h q : ut_cell h -> images h q (apply_pbc h q).
Proof.
  intros H. exists (fun k => (- ZnearestE (mvec (invert_ut3x3 h) q k))%Z). intros i Hi.
  unfold apply_pbc. rewrite mvec_minus, inv_right by easy. unfold lattice, mvec at 1, rint.
  unfold Rminus. f_equal. rewrite <- Rsum_opp. apply Rsum_ext. intros k Hk. rewrite opp_IZR. ring.
Qed.
(** it lies in the primary cell: fractional coordinates within half a cell *)
Theorem wrapped_in_cell h q i : ut_cell h -> (i < 3)%nat ->
  Rabs (mvec (invert_ut3x3 h) (apply_pbc h q) i) <= / 2.
Proof. intros H Hi. unfold apply_pbc. rewrite inv_left by easy. apply rint_half. Qed.
(** wrapping again changes nothing, also on the boundary *)
Theorem wrapping_idempotent h q i : ut_cell h -> (i < 3)%nat ->
  apply_pbc h (apply_pbc h q) i = apply_pbc h q i.
Proof.
  intros H Hi. unfold apply_pbc at 1. transitivity (mvec h (mvec (invert_ut3x3 h) (apply_pbc h q)) i).
  - apply mvec_ext. intros k Hk. rewrite rint_half_tie by now apply wrapped_in_cell. ring.
  - now apply inv_right.
Qed.
(** every atom of an array is wrapped on its own *)
Theorem array_wraps_each h pos a : array_pbc h pos a = apply_pbc h (pos a).
Proof. reflexivity. Qed.

(** The minimum-image vector does not change when an atom moves by a lattice
    vector, unless a fractional difference is exactly half-way. *)
Definition no_tie (h : mat3) (q1 q2 : vec) : Prop := inside h (invert_ut3x3 h) q1 q2.
Theorem minimum_image_invariant_partial h q1 q2 n1 n2 : ut_cell h -> no_tie h q1 q2 -> forall i, (i < 3)%nat ->
  minimum_distance h (fun k => q1 k + lattice h n1 k) (fun k => q2 k + lattice h n2 k) i
  = minimum_distance h q1 q2 i.
Proof.
  intros H T i Hi. unfold minimum_distance. apply mvec_ext. intros k Hk.
  set (s := mvec (invert_ut3x3 h) (fun c => q1 c - q2 c)).
  assert (E : mvec (invert_ut3x3 h) (fun c => q1 c + lattice h n1 c - (q2 c + lattice h n2 c)) k = s k + IZR (n1 k - n2 k)).
  { transitivity (mvec (invert_ut3x3 h) (fun c => (q1 c - q2 c) - (mvec h (fun a => IZR (n2 a)) c - mvec h (fun a => IZR (n1 a)) c)) k).
    - apply mvec_ext. intros c _. unfold lattice, mvec. ring.
    - rewrite mvec_minus. fold s. rewrite (mvec_minus _ (mvec h (fun a => IZR (n2 a)))), !inv_left by easy.
      rewrite minus_IZR. ring. }
  rewrite E, rint_shift; [ring|]. exact (T k Hk).
Qed.
(** At a tie it changes sign. *)
Theorem minimum_image_invariant_refuted : exists h q1 q2 n, ut_cell h /\
  minimum_distance h (fun k => q1 k + lattice h n k) q2 0%nat <> minimum_distance h q1 q2 0%nat.
Proof.
  set (h := rows3 1 0 0 0 1 0 0 0 1). set (q := fun k => match k with 0%nat => / 2 | _ => 0 end : R).
  set (n := fun k => match k with 0%nat => 1%Z | _ => 0%Z end).
  assert (U : ut_cell h) by (cbv; lra).
  exists h, q, (fun _ => 0), n. split; [easy|]. unfold minimum_distance.
  assert (E1 : forall v, mvec (invert_ut3x3 h) v 0%nat = v 0%nat) by (intros v; cbv [mvec Rsum invert_ut3x3 h rows3]; field).
  assert (E2 : forall v, mvec h v 0%nat = v 0%nat) by (intros v; cbv [mvec Rsum h rows3]; ring).
  rewrite !E2, !E1.
  assert (L : q 0%nat + lattice h n 0%nat - 0 = 3 / 2) by (cbv [q lattice Rsum h n rows3]; field).
  rewrite L. replace (q 0%nat - 0) with (/ 2) by (cbv [q]; ring).
  rewrite (rint_half_tie (/ 2)) by (rewrite Rabs_right; lra).
  assert (R2 : rint (3 / 2) = 2).
  { unfold rint. apply (f_equal IZR (y := 2%Z)). unfold Znearest.
    assert (F : Zfloor (3 / 2) = 1%Z) by (apply Zfloor_imp; cbn [Z.add Pos.add Pos.succ IZR IPR IPR_2]; lra). rewrite F.
    rewrite Rcompare_Eq by lra. cbn [Z.even negb]. apply Zceil_imp. cbn [Z.sub Z.add Z.opp Z.pos_sub Pos.pred_double IZR IPR IPR_2]. lra. }
  rewrite R2. lra.
Qed.

Lemma rint_nearest x k : Rabs (x - rint x) <= Rabs (x - IZR k).
Proof.
  destruct (Rle_dec (/ 2) (Rabs (x - IZR k))) as [L|L]; [pose proof (rint_half x); lra|].
  assert (E : rint x = IZR k) by (apply rint_near; lra). rewrite E. lra.
Qed.
(** For a cell with right angles the minimum-image vector really is the shortest
    of all images. *)
Theorem minimum_image_shortest_orthorhombic h q1 q2 n : ut_cell h ->
  h 0%nat 1%nat = 0 -> h 0%nat 2%nat = 0 -> h 1%nat 2%nat = 0 ->
  len2 (minimum_distance h q1 q2) <= len2 (fun k => q1 k - q2 k + lattice h n k).
Proof.
  intros H D1 D2 D3. unfold len2. apply Rsum_le. intros i Hi.
  set (s := mvec (invert_ut3x3 h) (fun c => q1 c - q2 c)).
  assert (A : minimum_distance h q1 q2 i = h i i * (s i - rint (s i))).
  { unfold minimum_distance. fold s. destruct H as (H1 & H2 & H3 & _).
    three i; cbv [mvec Rsum]; rewrite ?D1, ?D2, ?D3, ?H1, ?H2, ?H3; ring. }
  assert (B : q1 i - q2 i + lattice h n i = h i i * (s i - IZR (- n i))).
  { rewrite opp_IZR. rewrite <- (inv_right h (fun c => q1 c - q2 c) i H Hi). fold s. unfold lattice. destruct H as (H1 & H2 & H3 & _).
    three i; cbv [mvec Rsum]; rewrite ?D1, ?D2, ?D3, ?H1, ?H2, ?H3; ring. }
  rewrite A, B. pose proof (rint_nearest (s i) (- n i)) as Q. apply Rsqr_le_abs_1 in Q.
  assert (G : forall a x y, Rsqr x <= Rsqr y -> (a * x) * (a * x) <= (a * y) * (a * y)).
  { intros a x y L. unfold Rsqr in L. replace (a * x * (a * x)) with (a * a * (x * x)) by ring.
    replace (a * y * (a * y)) with (a * a * (y * y)) by ring. apply Rmult_le_compat_l; [nra|easy]. }
  now apply G.
Qed.
(** For any cell it is the right image if there is one closer than half of every
    distance between parallel faces (1/|row of the inverse|)... *)
Definition width2 (h : mat3) (i : nat) : R := / len2 (invert_ut3x3 h i).
Lemma cauchy3 (u v : vec) : dot3 u v ^ 2 <= len2 u * len2 v.
Proof.
  unfold dot3, len2. cbn [Rsum]. 
  set (a := u 0%nat). set (b := u 1%nat). set (c := u 2%nat). set (x := v 0%nat). set (y := v 1%nat). set (z := v 2%nat).
  pose proof (pow2_ge_0 (a * y - b * x)). pose proof (pow2_ge_0 (a * z - c * x)). pose proof (pow2_ge_0 (b * z - c * y)). nra.
Qed.
Theorem minimum_image_close h q1 q2 d n : ut_cell h -> (forall i, (i < 3)%nat -> d i = q1 i - q2 i + lattice h n i) ->
  (forall i, (i < 3)%nat -> 4 * len2 d < width2 h i) ->
  forall i, (i < 3)%nat -> minimum_distance h q1 q2 i = d i.
Proof.
  intros H Hd Hw i Hi. set (ih := invert_ut3x3 h).
  assert (L : forall k, (k < 3)%nat -> Rabs (mvec ih d k) < / 2).
  { intros k Hk. specialize (Hw k Hk). unfold width2 in Hw. fold ih in Hw.
    assert (P : 0 < len2 (ih k)).
    { assert (G : exists j, (j < 3)%nat /\ ih k j <> 0).
      { exists k. split; [easy|]. destruct H as (_ & _ & _ & N0 & N1 & N2). unfold ih.
        three k; cbv [invert_ut3x3 rows3]; unfold Rdiv; rewrite Rmult_1_l; now apply Rinv_neq_0_compat. }
      destruct G as (j & Hj & N). unfold len2. cbn [Rsum].
      assert (S : 0 < ih k j * ih k j) by now apply Rsqr_pos_lt.
      pose proof (Rle_0_sqr (ih k 0%nat)). pose proof (Rle_0_sqr (ih k 1%nat)). pose proof (Rle_0_sqr (ih k 2%nat)). unfold Rsqr in *.
      three j; lra. }
    assert (C := cauchy3 (ih k) d). change (dot3 (ih k) d) with (mvec ih d k) in C.
    assert (Q : 4 * len2 d * len2 (ih k) < 1).
    { apply (Rmult_lt_compat_r (len2 (ih k))) in Hw; [|easy]. rewrite Rinv_l in Hw by lra. exact Hw. }
    set (x := mvec ih d k) in *. assert (x ^ 2 < / 4) by lra. apply Rabs_def1; nra. }
  assert (E : forall k, (k < 3)%nat -> mvec ih (fun c => q1 c - q2 c) k = mvec ih d k + IZR (- n k)).
  { intros k Hk. rewrite opp_IZR.
    transitivity (mvec ih (fun c => d c - mvec h (fun a => IZR (n a)) c) k).
    - apply mvec_ext. intros c Hc. rewrite Hd by easy. unfold lattice, mvec. ring.
    - rewrite mvec_minus. unfold ih at 2. rewrite inv_left by easy. ring. }
  unfold minimum_distance. fold ih.
  transitivity (mvec h (mvec ih d) i); [|now apply inv_right].
  apply mvec_ext. intros k Hk. rewrite E by easy.
  assert (R0 : rint (mvec ih d k) = 0) by (apply rint_half_tie; specialize (L k Hk); lra).
  rewrite rint_shift, R0; [ring|]. rewrite R0, Rminus_0_r. now apply L.
Qed.
(** ...but not, as the comment in the code says, if it is closer than the whole distance. *)
Theorem minimum_image_documented_refuted : exists h q1 q2 d n, ut_cell h /\
  (forall i, (i < 3)%nat -> d i = q1 i - q2 i + lattice h n i) /\
  (forall i, (i < 3)%nat -> len2 d < width2 h i) /\ len2 d < len2 (minimum_distance h q1 q2).
Proof.
  set (h := rows3 1 (/ 2) 0 0 1 0 0 0 1).
  set (q := fun k => match k with 0%nat => 3 / 5 | 1%nat => 2 / 5 | _ => 0 end : R).
  set (n := fun k => match k with 0%nat => (-1)%Z | _ => 0%Z end).
  assert (U : ut_cell h) by (cbv; lra).
  exists h, q, (fun _ => 0), (fun k => q k - 0 + lattice h n k), n.
  assert (D : len2 (fun k => q k - 0 + lattice h n k) = 8 / 25) by (cbv [len2 Rsum q lattice h n rows3]; field).
  split; [easy|]. split; [reflexivity|]. rewrite D. split.
  - intros i Hi. three i; cbv [width2 len2 Rsum invert_ut3x3 h rows3];
      (apply (Rmult_lt_reg_r (5 / 4)); [lra|]); 
      match goal with |- _ < / ?x * _ => let H := fresh in assert (H : x = 5 / 4 \/ x = 1) by (first [left; field|right; field]); destruct H as [-> | ->]; lra end.
  - assert (M : forall i, (i < 3)%nat -> minimum_distance h q (fun _ => 0) i = q i).
    { intros i Hi. unfold minimum_distance.
      assert (R0 : forall k, (k < 3)%nat -> rint (mvec (invert_ut3x3 h) (fun c => q c - 0) k) = 0).
      { intros k Hk. apply rint_half_tie. three k; cbv [mvec Rsum invert_ut3x3 h rows3 q].
        - match goal with |- Rabs ?x <= _ => replace x with (2 / 5) by field end. rewrite Rabs_right; lra.
        - match goal with |- Rabs ?x <= _ => replace x with (2 / 5) by field end. rewrite Rabs_right; lra.
        - match goal with |- Rabs ?x <= _ => replace x with 0 by field end. rewrite Rabs_R0. lra. }
      transitivity (mvec h (mvec (invert_ut3x3 h) q) i); [|now apply inv_right].
      apply mvec_ext. intros k Hk. rewrite R0 by easy. rewrite Rminus_0_r. apply mvec_ext. intros c _. ring. }
    assert (LL : len2 (minimum_distance h q (fun _ => 0)) = 13 / 25).
    { unfold len2. cbn [Rsum]. rewrite !M by lia. cbv [q]. field. }
    rewrite LL. lra.
Qed.
Example wrap_case : ut_cell (rows3 2 1 3 0 4 (-1) 0 0 5) /\ ~ ut_cell (rows3 2 1 3 0 0 (-1) 0 0 5).
Proof. cbv. split; [lra|]. intros (_ & _ & _ & _ & H & _). lra. Qed.
Example close_case : let h := rows3 1 (/ 2) 0 0 1 0 0 0 1 in let d : vec := fun k => match k with 0%nat => 1/10 | _ => 0 end in
  forall i, (i < 3)%nat -> 4 * len2 d < width2 h i.
Proof.
  intros h d i Hi. assert (D : 4 * len2 d = 1 / 25) by (cbv [len2 Rsum d]; field). rewrite D.
  three i; cbv [width2 len2 Rsum invert_ut3x3 h rows3];
      match goal with |- _ < / ?x => let H := fresh in assert (H : x = 5 / 4 \/ x = 1) by (first [left; field|right; field]); destruct H as [-> | ->]; lra end.
Qed.

(** ** Cell parameters (C36) *)

(** Lengths and angles that describe a cell: positive lengths, angles strictly
    between 0 and pi, and a positive squared volume. *)
Definition valid_abc (p : abc) : Prop :=
  0 < len_a p /\ 0 < len_b p /\ 0 < len_c p /\
  0 < ang_alpha p < PI /\ 0 < ang_beta p < PI /\ 0 < ang_gamma p < PI /\
  0 < 1 - cos (ang_alpha p) ^ 2 - cos (ang_beta p) ^ 2 - cos (ang_gamma p) ^ 2
      + 2 * cos (ang_alpha p) * cos (ang_beta p) * cos (ang_gamma p).

Lemma sqrt_of_sq x y : 0 <= y -> x = y * y -> sqrt x = y.
Proof. intros Hy ->. now apply sqrt_square. Qed.

Section Abc.
Variables (a b c al be ga : R).
Hypothesis V : valid_abc (mk_abc a b c al be ga).
Let x := cos al. Let y := cos be. Let z := cos ga. Let s := sin ga.
Lemma abc_s : 0 < s /\ s * s = 1 - z * z.
Proof.
  destruct V as (_ & _ & _ & _ & _ & G & _). cbn [ang_gamma] in G. split; [apply sin_gt_0; lra|].
  pose proof (sin2_cos2 ga) as Q. unfold Rsqr in Q. fold s z in Q. lra.
Qed.
Lemma abc_h22 : 0 < c ^ 2 - (c * y) ^ 2 - ((b * c * x - b * z * (c * y)) / (b * s)) ^ 2.
Proof.
  destruct V as (_ & Hb & Hc & _ & _ & _ & Hd). cbn [len_b len_c ang_alpha ang_beta ang_gamma] in *. fold x y z in Hd.
  destruct abc_s as [Hs Hss].
  assert (Q : c ^ 2 - (c * y) ^ 2 - ((b * c * x - b * z * (c * y)) / (b * s)) ^ 2
     = c ^ 2 / (s * s) * (1 - x ^ 2 - y ^ 2 - z ^ 2 + 2 * x * y * z)).
  { replace (c ^ 2 - (c * y) ^ 2 - ((b * c * x - b * z * (c * y)) / (b * s)) ^ 2)
      with (c ^ 2 / (s * s) * ((s * s) * (1 - y ^ 2) - (x - z * y) ^ 2)) by (field; lra).
    rewrite Hss. field. rewrite <- Hss. nra. }
  rewrite Q. apply Rmult_lt_0_compat; [|easy]. apply Rdiv_lt_0_compat; nra.
Qed.
Lemma abc_sqrt_c : let h := abc2h (mk_abc a b c al be ga) in
  sqrt (h 0%nat 2%nat ^ 2 + h 1%nat 2%nat ^ 2 + h 2%nat 2%nat ^ 2) = c.
Proof.
  cbv [abc2h rows3 len_a len_b len_c ang_alpha ang_beta ang_gamma]. fold x y z s.
  destruct V as (_ & _ & Hc & _). cbn [len_c] in Hc. apply sqrt_of_sq; [lra|].
  rewrite <- (Rsqr_pow2 (sqrt _)), Rsqr_sqrt by (left; apply abc_h22). ring.
Qed.
Lemma abc_sqrt_b : let h := abc2h (mk_abc a b c al be ga) in sqrt (h 0%nat 1%nat ^ 2 + h 1%nat 1%nat ^ 2) = b.
Proof.
  cbv [abc2h rows3 len_a len_b len_c ang_alpha ang_beta ang_gamma]. fold x y z s.
  destruct V as (_ & Hb & _). cbn [len_b] in Hb. destruct abc_s as [_ Q]. apply sqrt_of_sq; [lra|].
  replace ((b * z) ^ 2 + (b * s) ^ 2) with (b * b * (z * z + s * s)) by ring. rewrite Q. ring.
Qed.
Lemma abc_round : h2abc (abc2h (mk_abc a b c al be ga)) = mk_abc a b c al be ga.
Proof.
  pose proof abc_sqrt_b as B. pose proof abc_sqrt_c as C. cbv zeta in B, C.
  unfold h2abc. rewrite B, C.
  destruct V as (Ha & Hb & Hc & Hal & Hbe & Hga & _). cbn [len_a len_b len_c ang_alpha ang_beta ang_gamma] in *.
  destruct abc_s as [Hs _].
  assert (E0 : abc2h (mk_abc a b c al be ga) 0%nat 0%nat = a) by reflexivity. rewrite E0.
  assert (E1 : abc2h (mk_abc a b c al be ga) 0%nat 1%nat / b = z).
  { cbv [abc2h rows3 len_a len_b len_c ang_alpha ang_beta ang_gamma]. fold z. field. lra. }
  assert (E2 : abc2h (mk_abc a b c al be ga) 0%nat 2%nat / c = y).
  { cbv [abc2h rows3 len_a len_b len_c ang_alpha ang_beta ang_gamma]. fold y. field. lra. }
  rewrite E1, E2.
  assert (E3 : Rsum 3 (fun k => abc2h (mk_abc a b c al be ga) k 1%nat * abc2h (mk_abc a b c al be ga) k 2%nat) / (b * c) = x).
  { cbv [Rsum abc2h rows3 len_a len_b len_c ang_alpha ang_beta ang_gamma]. fold x y z s. field. lra. }
  rewrite E3. unfold x, y, z. now rewrite !acos_cos by lra.
Qed.
End Abc.

Theorem abc_roundtrip p : valid_abc p -> h2abc (abc2h p) = p.
Proof. destruct p as [a b c al be ga]. apply abc_round. Qed.

(** A standard cell: upper triangular with a positive diagonal. *)
Definition std_cell (h : mat3) : Prop :=
  h 1%nat 0%nat = 0 /\ h 2%nat 0%nat = 0 /\ h 2%nat 1%nat = 0 /\ 0 < h 0%nat 0%nat /\ 0 < h 1%nat 1%nat /\ 0 < h 2%nat 2%nat.
Lemma std_ut h : std_cell h -> ut_cell h.
Proof. intros (A & B & C & D & E & F). repeat split; lra. Qed.

Theorem abc2h_standard p : valid_abc p -> std_cell (abc2h p).
Proof.
  intros H. destruct p as [a b c al be ga]. destruct (abc_s a b c al be ga H) as [Hs _].
  destruct H as (Ha & Hb & Hc & H'). repeat split; try reflexivity; try exact Ha.
  - cbv [abc2h rows3 len_b ang_gamma]. cbn [len_b] in Hb. nra.
  - cbv [abc2h rows3]. apply sqrt_lt_R0. apply (abc_h22 a b c al be ga). now repeat split.
Qed.

Section HRound.
Variable h : mat3.
Hypothesis H : std_cell h.
Let b := sqrt (h 0%nat 1%nat ^ 2 + h 1%nat 1%nat ^ 2).
Let c := sqrt (h 0%nat 2%nat ^ 2 + h 1%nat 2%nat ^ 2 + h 2%nat 2%nat ^ 2).
Lemma hb : 0 < b /\ b * b = h 0%nat 1%nat ^ 2 + h 1%nat 1%nat ^ 2.
Proof.
  destruct H as (_ & _ & _ & _ & P & _). assert (0 < h 0%nat 1%nat ^ 2 + h 1%nat 1%nat ^ 2) by nra.
  split; [now apply sqrt_lt_R0|apply sqrt_sqrt; lra].
Qed.
Lemma hc : 0 < c /\ c * c = h 0%nat 2%nat ^ 2 + h 1%nat 2%nat ^ 2 + h 2%nat 2%nat ^ 2.
Proof.
  destruct H as (_ & _ & _ & _ & _ & P). assert (0 < h 0%nat 2%nat ^ 2 + h 1%nat 2%nat ^ 2 + h 2%nat 2%nat ^ 2) by nra.
  split; [now apply sqrt_lt_R0|apply sqrt_sqrt; lra].
Qed.
Lemma quot_bound u v : 0 < v -> u * u < v * v -> -1 < u / v < 1.
Proof.
  intros Hv Hu. split.
  - apply (Rmult_lt_reg_r v); [easy|]. unfold Rdiv. rewrite Rmult_assoc, Rinv_l by lra. nra.
  - apply (Rmult_lt_reg_r v); [easy|]. unfold Rdiv. rewrite Rmult_assoc, Rinv_l by lra. nra.
Qed.
Lemma cos_g : -1 < h 0%nat 1%nat / b < 1.
Proof. destruct hb as [P Q]. destruct H as (_ & _ & _ & _ & D & _). apply quot_bound; [easy|]. rewrite Q. nra. Qed.
Lemma cos_b : -1 < h 0%nat 2%nat / c < 1.
Proof. destruct hc as [P Q]. destruct H as (_ & _ & _ & _ & _ & D). apply quot_bound; [easy|]. rewrite Q. nra. Qed.
Lemma cos_a : -1 < (h 0%nat 1%nat * h 0%nat 2%nat + h 1%nat 1%nat * h 1%nat 2%nat) / (b * c) < 1.
Proof.
  destruct hb as [P Q]. destruct hc as [P' Q']. destruct H as (_ & _ & _ & _ & D & E). apply quot_bound; [now apply Rmult_lt_0_compat|].
  replace (b * c * (b * c)) with ((b * b) * (c * c)) by ring. rewrite Q, Q'.
  set (p := h 0%nat 1%nat) in *. set (r := h 0%nat 2%nat) in *. set (d := h 1%nat 1%nat) in *. set (e := h 1%nat 2%nat) in *. set (f := h 2%nat 2%nat) in *.
  assert (0 < d * f) by nra. pose proof (pow2_ge_0 (p * e - d * r)). pose proof (pow2_ge_0 (p * f)).
  assert (0 < (d * f) ^ 2) by nra. nra.
Qed.
Lemma sin_acos_pos x : -1 < x < 1 -> sin (acos x) = sqrt (1 - x * x).
Proof. intros Hx. rewrite sin_acos by lra. now unfold Rsqr. Qed.
Lemma h_round i j : (i < 3)%nat -> (j < 3)%nat -> abc2h (h2abc h) i j = h i j.
Proof.
  intros Hi Hj. pose proof cos_g as G. pose proof cos_b as B. pose proof cos_a as A. destruct hb as [P Q]. destruct hc as [P' Q'].
  pose proof H as (Z1 & Z2 & Z3 & D0 & D1 & D2).
  unfold h2abc. fold b c.
  assert (SA : Rsum 3 (fun k => h k 1%nat * h k 2%nat) = h 0%nat 1%nat * h 0%nat 2%nat + h 1%nat 1%nat * h 1%nat 2%nat).
  { cbn [Rsum]. rewrite Z3. ring. }
  rewrite SA.
  assert (SG : b * sin (acos (h 0%nat 1%nat / b)) = h 1%nat 1%nat).
  { rewrite sin_acos_pos by easy. rewrite <- (sqrt_square b) at 1 by lra.
    rewrite <- sqrt_mult_alt by nra. apply sqrt_of_sq; [lra|].
    replace (b * b * (1 - h 0%nat 1%nat / b * (h 0%nat 1%nat / b))) with (b * b - h 0%nat 1%nat * h 0%nat 1%nat) by (field; lra).
    rewrite Q. ring. }
  three i; three j; cbv [abc2h rows3 len_a len_b len_c ang_alpha ang_beta ang_gamma]; rewrite ?SG, ?cos_acos by lra; try easy.
  - field. lra.
  - field. lra.
  - field. lra.
  - apply sqrt_of_sq; [lra|].
    replace ((b * c * ((h 0%nat 1%nat * h 0%nat 2%nat + h 1%nat 1%nat * h 1%nat 2%nat) / (b * c)) -
      b * (h 0%nat 1%nat / b) * (c * (h 0%nat 2%nat / c))) / h 1%nat 1%nat) with (h 1%nat 2%nat) by (field; lra).
    replace (c * (h 0%nat 2%nat / c)) with (h 0%nat 2%nat) by (field; lra).
    replace (c ^ 2) with (c * c) by ring. rewrite Q'. ring.
Qed.
End HRound.
Theorem cell_roundtrip h : std_cell h -> forall i j, (i < 3)%nat -> (j < 3)%nat -> abc2h (h2abc h) i j = h i j.
Proof. intros H i j. now apply h_round. Qed.
(** in degrees the lengths are the same and the angles are the converted ones *)
Theorem degrees h : let p := h2abc h in let d := h2abc_deg h in
  len_a d = len_a p /\ len_b d = len_b p /\ len_c d = len_c p /\
  ang_alpha d / 180 = ang_alpha p / PI /\ ang_beta d / 180 = ang_beta p / PI /\ ang_gamma d / 180 = ang_gamma p / PI.
Proof. cbv [h2abc_deg]. cbn. pose proof PI_RGT_0. repeat split; field; lra. Qed.
(** the volume of a cell given by lengths and angles *)
Theorem volume_formula p : valid_abc p ->
  det_ut3x3 (abc2h p) ^ 2 = (len_a p * len_b p * len_c p) ^ 2
   * (1 - cos (ang_alpha p) ^ 2 - cos (ang_beta p) ^ 2 - cos (ang_gamma p) ^ 2
      + 2 * cos (ang_alpha p) * cos (ang_beta p) * cos (ang_gamma p)).
Proof.
  intros H. destruct p as [a b c al be ga]. pose proof (abc_h22 a b c al be ga H) as P. destruct (abc_s a b c al be ga H) as [Hs Q].
  cbv [det_ut3x3 abc2h rows3 len_a len_b len_c ang_alpha ang_beta ang_gamma].
  rewrite !Rpow_mult_distr. rewrite <- (Rsqr_pow2 (sqrt _)), Rsqr_sqrt by lra.
  destruct H as (_ & Hb & _). cbn [len_b] in Hb.
  set (x := cos al) in *. set (y := cos be) in *. set (z := cos ga) in *. set (s := sin ga) in *.
  replace (a ^ 2 * (b ^ 2 * s ^ 2) * (c ^ 2 - c ^ 2 * y ^ 2 - ((b * c * x - b * z * (c * y)) / (b * s)) ^ 2))
    with (a ^ 2 * b ^ 2 * c ^ 2 * ((s * s) * (1 - y ^ 2) - (x - z * y) ^ 2)) by (field; lra).
  rewrite Q. ring.
Qed.

(** A general cell (rows of a matrix) is turned into the standard one with the
    same lengths and angles, that is with the same scalar products between cell vectors. *)
Definition gen_cell (g : mat3) : Prop := det3 g <> 0.
Lemma gen_gram g : gen_cell g ->
  0 < dot3 (g 0%nat) (g 0%nat) /\ 0 < dot3 (g 1%nat) (g 1%nat) /\ 0 < dot3 (g 2%nat) (g 2%nat) /\
  dot3 (g 0%nat) (g 1%nat) ^ 2 < dot3 (g 0%nat) (g 0%nat) * dot3 (g 1%nat) (g 1%nat) /\
  dot3 (g 0%nat) (g 2%nat) ^ 2 < dot3 (g 0%nat) (g 0%nat) * dot3 (g 2%nat) (g 2%nat) /\
  dot3 (g 2%nat) (g 1%nat) ^ 2 < dot3 (g 1%nat) (g 1%nat) * dot3 (g 2%nat) (g 2%nat) /\
  det3 g ^ 2 = dot3 (g 0%nat) (g 0%nat) * dot3 (g 1%nat) (g 1%nat) * dot3 (g 2%nat) (g 2%nat)
    - dot3 (g 0%nat) (g 0%nat) * dot3 (g 2%nat) (g 1%nat) ^ 2 - dot3 (g 1%nat) (g 1%nat) * dot3 (g 0%nat) (g 2%nat) ^ 2
    - dot3 (g 2%nat) (g 2%nat) * dot3 (g 0%nat) (g 1%nat) ^ 2
    + 2 * dot3 (g 2%nat) (g 1%nat) * dot3 (g 0%nat) (g 2%nat) * dot3 (g 0%nat) (g 1%nat).
Proof.
  unfold gen_cell, det3, dot3. cbn [Rsum].
  set (a := g 0%nat 0%nat). set (b := g 0%nat 1%nat). set (c := g 0%nat 2%nat).
  set (d := g 1%nat 0%nat). set (e := g 1%nat 1%nat). set (f := g 1%nat 2%nat).
  set (x := g 2%nat 0%nat). set (y := g 2%nat 1%nat). set (z := g 2%nat 2%nat). clearbody a b c d e f x y z. intros D.
  assert (L : forall u v w p q r, u * p + v * q + w * r <> 0 -> 0 < 0 + u * u + v * v + w * w).
  { intros u v w p q r N. destruct (Req_dec u 0) as [-> |]; [|nra]. destruct (Req_dec v 0) as [-> |]; [|nra].
    destruct (Req_dec w 0) as [-> |]; [|nra]. exfalso. apply N. ring. }
  assert (CS : forall u v w p q r l m n, l * (v * r - w * q) + m * (w * p - u * r) + n * (u * q - v * p) <> 0 ->
     (0 + u * p + v * q + w * r) ^ 2 < (0 + u * u + v * v + w * w) * (0 + p * p + q * q + r * r)).
  { intros u v w p q r l m n N.
    assert (P : 0 < 0 + (v * r - w * q) * (v * r - w * q) + (w * p - u * r) * (w * p - u * r) + (u * q - v * p) * (u * q - v * p)).
    { apply (L _ _ _ l m n). intros Z. apply N. rewrite <- Z. ring. }
    nra. }
  repeat split.
  - apply (L a b c (e * z - f * y) (- (d * z - f * x)) (d * y - e * x)). intros Z. apply D. rewrite <- Z. ring.
  - apply (L d e f (- (b * z - c * y)) (a * z - c * x) (- (a * y - b * x))). intros Z. apply D. rewrite <- Z. ring.
  - apply (L x y z (b * f - c * e) (- (a * f - c * d)) (a * e - b * d)). intros Z. apply D. rewrite <- Z. ring.
  - apply (CS a b c d e f x y z). intros Z. apply D. rewrite <- Z. ring.
  - apply (CS a b c x y z (- d) (- e) (- f)). intros Z. apply D. rewrite <- Z. ring.
  - rewrite (Rmult_comm (0 + d * d + e * e + f * f)). apply (CS x y z d e f (- a) (- b) (- c)). intros Z. apply D. rewrite <- Z. ring.
  - ring.
Qed.
Lemma quot_in u v w : 0 < v -> 0 < w -> u ^ 2 < v * w -> -1 < u / (sqrt v * sqrt w) < 1.
Proof.
  intros Hv Hw Hu. apply quot_bound.
  - apply Rmult_lt_0_compat; now apply sqrt_lt_R0.
  - replace (sqrt v * sqrt w * (sqrt v * sqrt w)) with ((sqrt v * sqrt v) * (sqrt w * sqrt w)) by ring.
    rewrite !sqrt_sqrt by lra. nra.
Qed.
Lemma acos_strict x : -1 < x < 1 -> 0 < acos x < PI.
Proof.
  intros Hx. pose proof (acos_bound x) as B. split.
  - destruct (Req_dec (acos x) 0) as [E|N]; [|lra]. pose proof (cos_acos x ltac:(lra)) as C. rewrite E, cos_0 in C. lra.
  - destruct (Req_dec (acos x) PI) as [E|N]; [|lra]. pose proof (cos_acos x ltac:(lra)) as C. rewrite E, cos_PI in C. lra.
Qed.
Theorem genh_valid g : gen_cell g -> valid_abc (genh2abc g).
Proof.
  intros H. destruct (gen_gram g H) as (A & B & C & AB & AC & BC & D).
  unfold genh2abc. set (aa := dot3 (g 0%nat) (g 0%nat)) in *. set (bb := dot3 (g 1%nat) (g 1%nat)) in *. set (cc := dot3 (g 2%nat) (g 2%nat)) in *.
  set (ab := dot3 (g 0%nat) (g 1%nat)) in *. set (ac := dot3 (g 0%nat) (g 2%nat)) in *. set (bc := dot3 (g 2%nat) (g 1%nat)) in *.
  pose proof (quot_in ab aa bb A B AB) as Q1. pose proof (quot_in ac aa cc A C AC) as Q2. pose proof (quot_in bc bb cc B C BC) as Q3.
  unfold valid_abc. cbn [len_a len_b len_c ang_alpha ang_beta ang_gamma].
  split; [now apply sqrt_lt_R0|]. split; [now apply sqrt_lt_R0|]. split; [now apply sqrt_lt_R0|].
  split; [now apply acos_strict|]. split; [now apply acos_strict|]. split; [now apply acos_strict|].
  rewrite !cos_acos by lra.
  assert (P : 0 < det3 g ^ 2). { rewrite <- Rsqr_pow2. now apply Rsqr_pos_lt. }
  pose proof (sqrt_lt_R0 _ A) as SA. pose proof (sqrt_lt_R0 _ B) as SB. pose proof (sqrt_lt_R0 _ C) as SC.
  pose proof (sqrt_sqrt aa ltac:(lra)) as EA. pose proof (sqrt_sqrt bb ltac:(lra)) as EB. pose proof (sqrt_sqrt cc ltac:(lra)) as EC.
  set (ra := sqrt aa) in *. set (rb := sqrt bb) in *. set (rc := sqrt cc) in *.
  match goal with |- 0 < ?e => replace e with (det3 g ^ 2 / (aa * bb * cc)) end.
  - apply Rdiv_lt_0_compat; [easy|]. repeat apply Rmult_lt_0_compat; easy.
  - rewrite D, <- EA, <- EB, <- EC. field. lra.
Qed.
Theorem genh_keeps_metric g : gen_cell g -> let h := abc2h (genh2abc g) in
  forall i j, (i < 3)%nat -> (j < 3)%nat -> Rsum 3 (fun k => h k i * h k j) = dot3 (g i) (g j).
Proof.
  intros H h i j Hi Hj. destruct (gen_gram g H) as (A & B & C & AB & AC & BC & D).
  pose proof (genh_valid g H) as V.
  pose proof (quot_in _ _ _ A B AB) as Q1. pose proof (quot_in _ _ _ A C AC) as Q2. pose proof (quot_in _ _ _ B C BC) as Q3.
  pose proof (sqrt_lt_R0 _ A) as SA. pose proof (sqrt_lt_R0 _ B) as SB. pose proof (sqrt_lt_R0 _ C) as SC.
  pose proof (abc_sqrt_b _ _ _ _ _ _ V) as EB. pose proof (abc_sqrt_c _ _ _ _ _ _ V) as EC. cbv zeta in EB, EC.
  change (mk_abc _ _ _ _ _ _) with (genh2abc g) in EB, EC. fold h in EB, EC.
  assert (EB' : h 0%nat 1%nat ^ 2 + h 1%nat 1%nat ^ 2 = dot3 (g 1%nat) (g 1%nat)).
  { rewrite <- (sqrt_sqrt (dot3 (g 1%nat) (g 1%nat))) by lra. cbn [genh2abc len_b] in EB. rewrite <- EB at 1. 
    rewrite <- EB. rewrite sqrt_sqrt; [easy|]. nra. }
  assert (EC' : h 0%nat 2%nat ^ 2 + h 1%nat 2%nat ^ 2 + h 2%nat 2%nat ^ 2 = dot3 (g 2%nat) (g 2%nat)).
  { rewrite <- (sqrt_sqrt (dot3 (g 2%nat) (g 2%nat))) by lra. rewrite <- EC. rewrite sqrt_sqrt; [easy|]. nra. }
  assert (E00 : h 0%nat 0%nat * h 0%nat 0%nat = dot3 (g 0%nat) (g 0%nat)) by (apply sqrt_sqrt; lra).
  assert (E01 : h 0%nat 0%nat * h 0%nat 1%nat = dot3 (g 0%nat) (g 1%nat)).
  { cbv [h abc2h genh2abc rows3 len_a len_b len_c ang_alpha ang_beta ang_gamma]. rewrite cos_acos by lra. field. lra. }
  assert (E02 : h 0%nat 0%nat * h 0%nat 2%nat = dot3 (g 0%nat) (g 2%nat)).
  { cbv [h abc2h genh2abc rows3 len_a len_b len_c ang_alpha ang_beta ang_gamma]. rewrite cos_acos by lra. field. lra. }
  assert (E12 : h 0%nat 1%nat * h 0%nat 2%nat + h 1%nat 1%nat * h 1%nat 2%nat = dot3 (g 2%nat) (g 1%nat)).
  { pose proof (abc_s _ _ _ _ _ _ V) as [S _].
    cbv [h abc2h genh2abc rows3 len_a len_b len_c ang_alpha ang_beta ang_gamma]. rewrite (cos_acos (dot3 (g 2%nat) (g 1%nat) / _)) by lra. field. lra. }
  assert (Z : h 1%nat 0%nat = 0 /\ h 2%nat 0%nat = 0 /\ h 2%nat 1%nat = 0) by (repeat split; reflexivity).
  destruct Z as (Z1 & Z2 & Z3).
  assert (SY : forall u v, dot3 u v = dot3 v u) by (intros u v; unfold dot3; apply Rsum_ext; intros; ring).
  three i; three j; cbn [Rsum]; rewrite ?Z1, ?Z2, ?Z3, ?(SY (g 1%nat) (g 0%nat)), ?(SY (g 2%nat) (g 0%nat)), ?(SY (g 1%nat) (g 2%nat)); lra.
Qed.
(** A frame with a general cell: cell and positions are turned together, so that
    every distance, also between periodic images, stays what it was in the file. *)
Definition inverse_of (g inv : mat3) : Prop := forall i j, (i < 3)%nat -> (j < 3)%nat ->
  Rsum 3 (fun k => g i k * inv k j) = delta i j /\ Rsum 3 (fun k => inv i k * g k j) = delta i j.
Theorem genh_positions g inv u v n : gen_cell g -> inverse_of g inv ->
  len2 (fun i => genh_position g inv u i - genh_position g inv v i + lattice (genh_cell g) n i)
  = len2 (fun i => u i - v i + Rsum 3 (fun k => IZR (n k) * g k i)).
Proof.
  intros H I. pose proof (genh_keeps_metric g H) as M. cbv zeta in M. fold (genh_cell g) in M. set (h := genh_cell g) in *.
  set (us := fun w j => Rsum 3 (fun k => w k * inv k j)).
  set (s := fun j => us u j - us v j + IZR (n j)).
  assert (A : forall i, genh_position g inv u i - genh_position g inv v i + lattice h n i = mvec h s i).
  { intros i. unfold genh_position. fold h. unfold lattice, mvec, s, us. cbn [Rsum]. ring. }
  assert (B : forall i, (i < 3)%nat -> u i - v i + Rsum 3 (fun k => IZR (n k) * g k i) = Rsum 3 (fun k => s k * g k i)).
  { intros i Hi.
    assert (R0 : forall w : vec, Rsum 3 (fun k => us w k * g k i) = w i).
    { intros w. unfold us. rewrite (Rsum_ext 3 _ (fun k => Rsum 3 (fun l => w l * (inv l k * g k i)))).
      - rewrite Rsum_swap. rewrite (Rsum_ext 3 _ (fun l => w l * delta l i)) by (intros l Hl; rewrite Rsum_scal; destruct (I l i Hl Hi) as [_ ->]; easy).
        now apply Rsum_delta_r.
      - intros k _. rewrite <- Rsum_scal_r. apply Rsum_ext. intros; ring. }
    rewrite <- (R0 u), <- (R0 v). unfold s. cbn [Rsum]. ring. }
  transitivity (Rsum 3 (fun k => Rsum 3 (fun l => s k * s l * dot3 (g k) (g l)))).
  - unfold len2. rewrite (Rsum_ext 3 _ (fun i => mvec h s i * mvec h s i)) by (intros i _; now rewrite A).
    rewrite (Rsum_ext 3 (fun k => Rsum 3 _) (fun k => Rsum 3 (fun l => s k * s l * Rsum 3 (fun i => h i k * h i l))))
      by (intros k Hk; apply Rsum_ext; intros l Hl; now rewrite M).
    unfold mvec. cbn [Rsum]. ring.
  - unfold len2. rewrite (Rsum_ext 3 (fun k => _ * _) (fun i => Rsum 3 (fun k => s k * g k i) * Rsum 3 (fun k => s k * g k i))) by (intros i Hi; now rewrite B).
    unfold dot3. cbn [Rsum]. ring.
Qed.
Example abc_case : valid_abc (mk_abc 2 3 4 (PI / 2) (PI / 2) (PI / 3)) /\ std_cell (rows3 2 1 3 0 4 (-1) 0 0 5) /\
  gen_cell (rows3 1 2 3 0 4 5 (-1) 0 6) /\ gen_cell (rows3 2 0 0 1 1 0 0 0 1) /\
  inverse_of (rows3 2 0 0 1 1 0 0 0 1) (rows3 (1/2) 0 0 (-1/2) 1 0 0 0 1).
Proof.
  pose proof PI_RGT_0. split; [|split; [|split; [|split]]].
  2, 3, 4: cbv; lra.
  2: intros i j Hi Hj; three i; three j; cbv [Rsum delta Nat.eqb rows3]; split; field.
  unfold valid_abc. cbn [len_a len_b len_c ang_alpha ang_beta ang_gamma]. rewrite cos_PI2, cos_PI3. repeat split; try lra.
Qed.

(** ** Signed logarithms (C38) *)

(** The number that a logarithm and a sign stand for. *)
Definition num (l : R * R) : R := snd l * exp (fst l).
Theorem logsumlog_partial la lb sb : (sb = 1 \/ sb = -1) -> lb < la ->
  num (logsumlog (la, 1) (lb, sb)) = num (la, 1) + num (lb, sb) /\
  num (logsumlog (lb, sb) (la, 1)) = num (lb, sb) + num (la, 1).
Proof.
  intros Hs L.
  assert (E : exp (lb - la) < 1) by (rewrite <- exp_0; apply exp_increasing; lra). pose proof (exp_pos (lb - la)) as P.
  assert (Q : exp lb = exp la * exp (lb - la)) by (rewrite <- exp_plus; f_equal; ring).
  assert (X : exp (la + ln (1 + sb * exp (lb - la))) = exp la + sb * exp lb).
  { rewrite exp_plus, exp_ln by (destruct Hs as [-> | ->]; lra). rewrite Q. ring. }
  unfold logsumlog, num. cbn [fst snd]. split.
  - destruct (Rlt_dec lb la); [|lra]. cbn [fst snd]. rewrite X. ring.
  - destruct (Rlt_dec la lb); [lra|]. cbn [fst snd]. rewrite X. ring.
Qed.
(** With equal logarithms and both signs positive it is right too. *)
Theorem logsumlog_equal la : num (logsumlog (la, 1) (la, 1)) = num (la, 1) + num (la, 1).
Proof.
  unfold logsumlog, num. destruct (Rlt_dec la la); [lra|]. cbn [fst snd].
  rewrite exp_plus, Rminus_diag_eq, exp_0, exp_ln by lra. ring.
Qed.
(** When the larger number is negative the result is always wrong. *)
Theorem logsumlog_negative la lb sb : (sb = 1 \/ sb = -1) -> lb < la ->
  num (logsumlog (la, -1) (lb, sb)) <> num (la, -1) + num (lb, sb).
Proof.
  intros Hs L.
  assert (E : exp (lb - la) < 1) by (rewrite <- exp_0; apply exp_increasing; lra). pose proof (exp_pos (lb - la)) as P.
  assert (Q : exp lb = exp la * exp (lb - la)) by (rewrite <- exp_plus; f_equal; ring).
  assert (X : exp (la + ln (1 + sb * exp (lb - la))) = exp la + sb * exp lb).
  { rewrite exp_plus, exp_ln by (destruct Hs as [-> | ->]; lra). rewrite Q. ring. }
  unfold logsumlog, num. destruct (Rlt_dec lb la); [|lra]. cbn [fst snd]. rewrite X. pose proof (exp_pos lb). destruct Hs as [-> | ->]; lra.
Qed.
Theorem logsumlog_refuted : exists lasa lbsb, (snd lasa = 1 \/ snd lasa = -1) /\ (snd lbsb = 1 \/ snd lbsb = -1) /\
  num (logsumlog lasa lbsb) <> num lasa + num lbsb.
Proof.
  exists (1, -1), (0, 1). split; [now right|]. split; [now left|]. apply logsumlog_negative; [now left|lra].
Qed.

(** ** Rotations (C39) *)

Theorem quat2rot_rotation q1 q2 q3 q4 : q1 ^ 2 + q2 ^ 2 + q3 ^ 2 + q4 ^ 2 = 1 ->
  orthogonal3 (quat2rot q1 q2 q3 q4) /\ det3 (quat2rot q1 q2 q3 q4) = 1.
Proof.
  intros H. assert (E : q1 * q1 = 1 - q2 * q2 - q3 * q3 - q4 * q4) by lra.
  assert (G : forall A B K, A - B = K * (q1 ^ 2 + q2 ^ 2 + q3 ^ 2 + q4 ^ 2 - 1) -> A = B) by (intros A B K; rewrite H; lra).
  split; [split|].
  - intros i j Hi Hj. three i; three j; cbv [Rsum delta Nat.eqb quat2rot rows3].
    + apply (G _ _ (4 * (q3 ^ 2 + q4 ^ 2))). ring.
    + apply (G _ _ (- 4 * (q2 * q3))). ring.
    + apply (G _ _ (- 4 * (q2 * q4))). ring.
    + apply (G _ _ (- 4 * (q2 * q3))). ring.
    + apply (G _ _ (4 * (q2 ^ 2 + q4 ^ 2))). ring.
    + apply (G _ _ (- 4 * (q3 * q4))). ring.
    + apply (G _ _ (- 4 * (q2 * q4))). ring.
    + apply (G _ _ (- 4 * (q3 * q4))). ring.
    + apply (G _ _ (4 * (q2 ^ 2 + q3 ^ 2))). ring.
  - intros i j Hi Hj. three i; three j; cbv [Rsum delta Nat.eqb quat2rot rows3].
    + apply (G _ _ (4 * (q3 ^ 2 + q4 ^ 2))). ring.
    + apply (G _ _ (- 4 * (q2 * q3))). ring.
    + apply (G _ _ (- 4 * (q2 * q4))). ring.
    + apply (G _ _ (- 4 * (q2 * q3))). ring.
    + apply (G _ _ (4 * (q2 ^ 2 + q4 ^ 2))). ring.
    + apply (G _ _ (- 4 * (q3 * q4))). ring.
    + apply (G _ _ (- 4 * (q2 * q4))). ring.
    + apply (G _ _ (- 4 * (q3 * q4))). ring.
    + apply (G _ _ (4 * (q2 ^ 2 + q3 ^ 2))). ring.
  - cbv [det3 quat2rot rows3]. apply (G _ _ (4 * (q2 ^ 2 + q3 ^ 2 + q4 ^ 2))). ring.
Qed.
Lemma orth_mul A B : orthogonal3 A -> orthogonal3 B -> orthogonal3 (prod3 A B).
Proof.
  assert (G : forall A B : mat3, (forall i j, (i < 3)%nat -> (j < 3)%nat -> Rsum 3 (fun k => A i k * A j k) = delta i j) ->
     (forall i j, (i < 3)%nat -> (j < 3)%nat -> Rsum 3 (fun k => B i k * B j k) = delta i j) ->
     forall i j, (i < 3)%nat -> (j < 3)%nat -> Rsum 3 (fun k => prod3 A B i k * prod3 A B j k) = delta i j).
  { clear. intros A B HA HB i j Hi Hj. rewrite <- HA by easy. unfold prod3.
    rewrite (Rsum_ext 3 _ (fun k => Rsum 3 (fun l => Rsum 3 (fun m => A i l * A j m * (B l k * B m k))))).
    2:{ intros k _. cbn [Rsum]. ring. }
    rewrite Rsum_swap. apply Rsum_ext. intros l Hl. rewrite Rsum_swap.
    rewrite (Rsum_ext 3 _ (fun m => A i l * A j m * delta l m)) by (intros m Hm; rewrite Rsum_scal, HB by easy; easy).
    now rewrite (Rsum_delta_l 3 l (fun m => A i l * A j m)). }
  intros [A1 A2] [B1 B2]. split; [now apply G|].
  intros i j Hi Hj. rewrite <- (G (fun i j => B j i) (fun i j => A j i) B2 A2 i j Hi Hj).
  apply Rsum_ext. intros k _. unfold prod3. f_equal; apply Rsum_ext; intros; ring.
Qed.
Lemma det_mul A B : det3 (prod3 A B) = det3 A * det3 B.
Proof. unfold det3, prod3. cbn [Rsum]. ring. Qed.
Lemma rot_z_orth t : orthogonal3 (rot_z t) /\ det3 (rot_z t) = 1.
Proof.
  pose proof (sin2_cos2 t) as Q. unfold Rsqr in Q. split; [split|].
  - intros i j Hi Hj. three i; three j; cbv [Rsum delta Nat.eqb rot_z rows3]; lra.
  - intros i j Hi Hj. three i; three j; cbv [Rsum delta Nat.eqb rot_z rows3]; lra.
  - cbv [det3 rot_z rows3]. lra.
Qed.
Lemma rot_x_orth t : orthogonal3 (rot_x t) /\ det3 (rot_x t) = 1.
Proof.
  pose proof (sin2_cos2 t) as Q. unfold Rsqr in Q. split; [split|].
  - intros i j Hi Hj. three i; three j; cbv [Rsum delta Nat.eqb rot_x rows3]; lra.
  - intros i j Hi Hj. three i; three j; cbv [Rsum delta Nat.eqb rot_x rows3]; lra.
  - cbv [det3 rot_x rows3]. lra.
Qed.
Theorem euler_rotation theta v w : orthogonal3 (euler_zxz theta v w) /\ det3 (euler_zxz theta v w) = 1.
Proof.
  unfold euler_zxz. destruct (rot_z_orth w), (rot_x_orth v), (rot_z_orth theta). split.
  - repeat apply orth_mul; easy.
  - rewrite !det_mul. rewrite H0, H2, H4. ring.
Qed.
(** the convention: the z axis is taken to the direction with polar angle v and azimuth w - pi/2,
    and the rotation about z by theta comes first *)
Theorem euler_convention theta v w : let A := euler_zxz theta v w in
  A 0%nat 2%nat = sin w * sin v /\ A 1%nat 2%nat = - (cos w * sin v) /\ A 2%nat 2%nat = cos v /\
  A 2%nat 0%nat = sin v * sin theta /\ A 2%nat 1%nat = sin v * cos theta.
Proof. cbv [euler_zxz prod3 Rsum rot_z rot_x rows3]. repeat split; ring. Qed.
Theorem random_rotation_orthogonal g1 g2 g3 g4 u improper : 0 < g1 ^ 2 + g2 ^ 2 + g3 ^ 2 + g4 ^ 2 ->
  orthogonal3 (random_rotation g1 g2 g3 g4 u improper) /\
  (improper = false -> det3 (random_rotation g1 g2 g3 g4 u improper) = 1) /\
  (improper = true -> det3 (random_rotation g1 g2 g3 g4 u improper) = if Rlt_dec u (1 / 2) then -1 else 1).
Proof.
  intros P. unfold random_rotation. set (nrm := sqrt (g1 ^ 2 + g2 ^ 2 + g3 ^ 2 + g4 ^ 2)).
  pose proof (sqrt_lt_R0 _ P) as N. fold nrm in N.
  assert (Q : nrm * nrm = g1 ^ 2 + g2 ^ 2 + g3 ^ 2 + g4 ^ 2) by (apply sqrt_sqrt; lra).
  destruct (quat2rot_rotation (g1 / nrm) (g2 / nrm) (g3 / nrm) (g4 / nrm)) as [O D].
  { replace ((g1 / nrm) ^ 2 + (g2 / nrm) ^ 2 + (g3 / nrm) ^ 2 + (g4 / nrm) ^ 2)
      with ((g1 ^ 2 + g2 ^ 2 + g3 ^ 2 + g4 ^ 2) / (nrm * nrm)) by (field; lra). rewrite <- Q. field. lra. }
  set (rot := quat2rot (g1 / nrm) (g2 / nrm) (g3 / nrm) (g4 / nrm)) in *. clearbody rot.
  assert (O' : orthogonal3 (fun i j => rot i j * -1)).
  { destruct O as [O1 O2]. split; intros i j Hi Hj; [rewrite <- O1|rewrite <- O2]; try easy; apply Rsum_ext; intros; ring. }
  assert (D' : det3 (fun i j => rot i j * -1) = -1).
  { transitivity (- det3 rot); [unfold det3; ring|rewrite D; ring]. }
  destruct improper; cbn [andb].
  - destruct Rlt_dec; (split; [easy|split; [easy|intros _; easy]]).
  - split; [easy|]. split; [intros _; easy|easy].
Qed.
(** orthogonal matrices keep lengths *)
Theorem rotations_keep_lengths A v : orthogonal3 A -> len2 (mvec A v) = len2 v.
Proof.
  intros [_ H]. unfold len2, mvec.
  rewrite (Rsum_ext 3 _ (fun i => Rsum 3 (fun k => Rsum 3 (fun l => v k * v l * (A i k * A i l))))).
  2:{ intros i _. cbn [Rsum]. ring. }
  rewrite Rsum_swap. apply Rsum_ext. intros k Hk. rewrite Rsum_swap.
  rewrite (Rsum_ext 3 _ (fun l => v k * v l * delta k l)) by (intros l Hl; rewrite Rsum_scal, H by easy; easy).
  now rewrite (Rsum_delta_l 3 k (fun l => v k * v l)).
Qed.
Example rotation_case : (1/2) ^ 2 + (1/2) ^ 2 + (1/2) ^ 2 + (1/2) ^ 2 = 1 /\ quat2rot (1/2) (1/2) (1/2) (1/2) 0%nat 2%nat = 1 /\
  0 < 1 ^ 2 + 0 ^ 2 + (-2) ^ 2 + 0 ^ 2.
Proof. split; [lra|]. split; [cbv; lra|lra]. Qed.

(** ** Exponentials and other functions (C83) *)

Definition mv (n : nat) (A : mat3) (v : nat -> R) : nat -> R := fun i => Rsum n (fun k => A i k * v k).
(** [v] is an eigenvector of the n x n matrix A with eigenvalue l. *)
Definition eigen (n : nat) (A : mat3) (l : R) (v : nat -> R) : Prop := forall i, (i < n)%nat -> mv n A v i = l * v i.
(** The exponential series cut after the term of order k. *)
Definition taylor (k : nat) (x : R) : R := Rsum (S k) (fun i => x ^ i / INR (fact i)).

Lemma mv_nmul n A B v i : mv n (nmul n A B) v i = mv n A (mv n B v) i.
Proof.
  unfold mv, nmul. rewrite (Rsum_ext n _ (fun k => Rsum n (fun l => A i l * (B l k * v k)))).
  2:{ intros k _. rewrite <- Rsum_scal_r. apply Rsum_ext. intros; ring. }
  rewrite Rsum_swap. apply Rsum_ext. intros l _. now rewrite Rsum_scal.
Qed.
Lemma mv_ext n A v w i : (forall k, (k < n)%nat -> v k = w k) -> mv n A v i = mv n A w i.
Proof. intros H. apply Rsum_ext. intros k Hk. now rewrite H. Qed.
Lemma mv_scal n A c v i : mv n A (fun k => c * v k) i = c * mv n A v i.
Proof. unfold mv. rewrite <- Rsum_scal. apply Rsum_ext. intros; ring. Qed.
Lemma eigen_square n A l v : eigen n A l v -> eigen n (nmul n A A) (l * l) v.
Proof.
  intros H i Hi. rewrite mv_nmul. rewrite (mv_ext n A _ (fun k => l * v k)) by exact H. rewrite mv_scal, H by easy. ring.
Qed.
Lemma eigen_squarings n k : forall A l v, eigen n A l v -> eigen n (squarings n k A) (l ^ (2 ^ k)) v.
Proof.
  induction k as [|k IH]; intros A l v H; cbn [squarings].
  - replace (l ^ (2 ^ 0)) with l by (cbn; ring). easy.
  - replace (l ^ (2 ^ S k)) with ((l * l) ^ (2 ^ k)); [apply IH; now apply eigen_square|].
    replace (l * l) with (l ^ 2) by ring. rewrite <- pow_mult. reflexivity.
Qed.
Fixpoint hornerR (x : R) (k : nat) (e : R) : R :=
  match k with O => e | S k' => hornerR x k' (x * e + tcoef k') end.
Lemma eigen_horner n SM x v : eigen n SM x v -> forall k EM e, eigen n EM e v -> eigen n (horner n SM k EM) (hornerR x k e) v.
Proof.
  intros HS. induction k as [|k IH]; intros EM e H; cbn [horner hornerR]; [easy|]. apply IH. intros i Hi.
  transitivity (mv n (nmul n SM EM) v i + tcoef k * v i).
  - unfold mv. rewrite (Rsum_ext n _ (fun l => nmul n SM EM i l * v l + tcoef k * v l * delta i l)) by (intros; ring).
    rewrite Rsum_plus. now rewrite (Rsum_delta_l n i (fun l => tcoef k * v l)).
  - rewrite mv_nmul. rewrite (mv_ext n SM _ (fun a => e * v a)) by exact H. rewrite mv_scal, HS by easy. ring.
Qed.
Lemma hornerR_taylor x k e : hornerR x k e = x ^ k * e + Rsum k (fun i => x ^ i * tcoef i).
Proof.
  revert e. induction k as [|k IH]; intros e; cbn [hornerR Rsum]; [cbn; ring|]. rewrite IH. cbn [pow]. ring.
Qed.
(** matrix_exp multiplies every eigenvector by (truncated series of l/2^s)^(2^s) *)
Theorem matrix_exp_spectrum n nt ns M l v : eigen n M l v ->
  eigen n (matrix_exp n nt ns M) (taylor nt (l / 2 ^ ns) ^ (2 ^ ns)) v.
Proof.
  intros H. unfold matrix_exp. apply eigen_squarings.
  assert (E : taylor nt (l / 2 ^ ns) = hornerR (l / 2 ^ ns) nt (tcoef nt)).
  { rewrite hornerR_taylor. unfold taylor, tcoef. cbn [Rsum]. rewrite Rplus_comm. reflexivity. }
  rewrite E. apply eigen_horner.
  - intros i Hi. unfold mv. rewrite (Rsum_ext n _ (fun k => / 2 ^ ns * (M i k * v k))) by (intros; unfold Rdiv; ring).
    rewrite Rsum_scal. fold (mv n M v i). rewrite H by easy. unfold Rdiv. ring.
  - intros i Hi. unfold mv. rewrite (Rsum_ext n _ (fun k => tcoef nt * v k * delta i k)) by (intros; ring).
    now rewrite (Rsum_delta_l n i (fun k => tcoef nt * v k)).
Qed.
(** the truncated series converges to the exponential, so with enough terms so does the result *)
Theorem matrix_exp_converges ns l : Un_cv (fun nt => taylor nt (l / 2 ^ ns) ^ (2 ^ ns)) (exp l).
Proof.
  assert (C : Un_cv (fun nt => taylor nt (l / 2 ^ ns)) (exp (l / 2 ^ ns))).
  { intros e He. unfold exp. destruct (exist_exp (l / 2 ^ ns)) as [y Hy]. cbn [proj1_sig]. destruct (Hy e He) as [N HN].
    exists N. intros k Hk. specialize (HN k Hk). replace (taylor k (l / 2 ^ ns)) with (sum_f_R0 (fun i => / INR (fact i) * (l / 2 ^ ns) ^ i) k); [easy|].
    clear. unfold taylor. induction k as [|k IH]; [cbn; field|]. change (Rsum (S (S k)) ?f) with (Rsum (S k) f + f (S k)).
    cbn [sum_f_R0]. rewrite IH. unfold Rdiv. ring. }
  assert (P : forall k u L, Un_cv u L -> Un_cv (fun i => u i ^ k) (L ^ k)).
  { clear. intros k u L H. induction k as [|k IH]; cbn [pow].
    - intros e He. exists 0%nat. intros. rewrite R_dist_eq. easy.
    - now apply CV_mult. }
  replace (exp l) with (exp (l / 2 ^ ns) ^ (2 ^ ns)); [now apply P|].
  rewrite <- exp_pow_nat_helper || idtac.
  assert (G : forall x k, exp x ^ k = exp (INR k * x)).
  { clear. intros x k. induction k as [|k IH]; [cbn; now rewrite Rmult_0_l, exp_0|].
    cbn [pow]. rewrite IH, <- exp_plus. f_equal. rewrite S_INR. ring. }
  rewrite G. f_equal. rewrite pow_INR. cbn [INR]. replace (1 + 1) with 2 by ring. field. apply pow_nonzero. lra.
Qed.

(** exp_ut3x3: the exponential maps an eigenvector with eigenvalue l to exp(l)
    times it.  The code does not. *)
Lemma dd_far x y : far x y = true -> dd x y (exp x) (exp y) = (exp x - exp y) / (x - y).
Proof. intros H. unfold dd. now rewrite H. Qed.
Lemma far_ne x y : far x y = true -> x <> y.
Proof.
  unfold far. destruct Rlt_dec as [L|]; [|discriminate]. intros _ ->. 
  replace ((y - y) / y) with 0 in L by (unfold Rdiv; ring). rewrite Rabs_R0 in L. unfold minseries in L.
  assert (0 < / 10 ^ 8) by (apply Rinv_0_lt_compat; apply pow_lt; lra). lra.
Qed.
Theorem exp_ut3x3_refuted : exists h e l v, ut_cell h /\ exp_ut3x3 h = Some e /\ eigen 3 h l v /\ ~ eigen 3 e (exp l) v.
Proof.
  set (h := rows3 1 1 0 0 2 1 0 0 3).
  assert (F : forall x y, x <> 0 -> 1 <= Rabs ((x - y) / x) * 3 -> far x y = true).
  { intros x y N L. unfold far. destruct Rlt_dec as [|G]; [easy|]. exfalso. apply G. unfold minseries.
    assert (/ 10 ^ 8 < / 3). { apply Rinv_lt_contravar; lra. } lra. }
  assert (F20 : far 3 1 = true). { apply F; [lra|]. replace ((3 - 1) / 3) with (2 / 3) by field. rewrite Rabs_right; lra. }
  assert (F12 : far 2 3 = true). { apply F; [lra|]. replace ((2 - 3) / 2) with (- (1 / 2)) by field. rewrite Rabs_Ropp, Rabs_right; lra. }
  assert (F01 : far 1 2 = true). { apply F; [lra|]. replace ((1 - 2) / 1) with (- (1)) by field. rewrite Rabs_Ropp, Rabs_right; lra. }
  set (e := match exp_ut3x3 h with Some e => e | None => h end).
  assert (E : exp_ut3x3 h = Some e).
  { unfold e. unfold exp_ut3x3. cbv [h rows3]. repeat (destruct Req_EM_T; [lra|]). reflexivity. }
  assert (E02 : e 0%nat 2%nat = 0).
  { unfold e, exp_ut3x3. cbv [h rows3]. repeat (destruct Req_EM_T; [lra|]). rewrite F20. unfold Rdiv. ring. }
  assert (E00 : e 0%nat 0%nat = exp 1).
  { unfold e, exp_ut3x3. cbv [h rows3]. repeat (destruct Req_EM_T; [lra|]). reflexivity. }
  assert (E01 : e 0%nat 1%nat = exp 2 - exp 1).
  { unfold e, exp_ut3x3. cbv [h rows3]. repeat (destruct Req_EM_T; [lra|]). rewrite dd_far by easy. field. }
  exists h, e, 3, (fun k => match k with 0%nat => 1 | 1%nat => 2 | 2%nat => 2 | _ => 0 end).
  split; [cbv; lra|]. split; [exact E|]. split.
  - intros i Hi. three i; cbv [mv Rsum h rows3]; ring.
  - intros C. specialize (C 0%nat ltac:(lia)). unfold mv in C. cbn [Rsum] in C. rewrite E00, E01, E02 in C.
    assert (X : exp 3 = exp 1 + 2 * (exp 2 - exp 1)) by lra.
    assert (A2 : exp 2 = exp 1 * exp 1) by (rewrite <- exp_plus; f_equal; ring).
    assert (A3 : exp 3 = exp 1 * exp 1 * exp 1) by (rewrite <- !exp_plus; f_equal; ring).
    rewrite A2, A3 in X. pose proof (exp_ineq1 1 ltac:(lra)). set (t := exp 1) in *. nra.
Qed.
(** It is right when the element in the corner is fed only by itself, for
    diagonal elements that are far from each other. *)
Theorem exp_ut3x3_partial h e : ut_cell h -> h 0%nat 1%nat * h 1%nat 2%nat = 0 -> h 0%nat 1%nat * h 0%nat 2%nat = 0 ->
  far (h 0%nat 0%nat) (h 1%nat 1%nat) = true -> far (h 1%nat 1%nat) (h 2%nat 2%nat) = true -> far (h 2%nat 2%nat) (h 0%nat 0%nat) = true ->
  exp_ut3x3 h = Some e -> forall l v, eigen 3 h l v -> eigen 3 e (exp l) v.
Proof.
  intros (Z1 & Z2 & Z3 & N0 & N1 & N2) C1 C2 F01 F12 F20 E l v H.
  unfold exp_ut3x3 in E. repeat (destruct Req_EM_T as [q|_]; [contradiction|]). rewrite F20 in E. injection E as <-.
  assert (E0 := H 0%nat ltac:(lia)). assert (E1 := H 1%nat ltac:(lia)). assert (E2 := H 2%nat ltac:(lia)). clear H.
  unfold mv in E0, E1, E2. cbn [Rsum] in E0, E1, E2. rewrite Z1 in E1. rewrite Z2, Z3 in E2.
  rewrite (dd_far _ _ F01), (dd_far _ _ F12), (dd_far _ _ F20).
  pose proof (far_ne _ _ F01) as D01. pose proof (far_ne _ _ F12) as D12. pose proof (far_ne _ _ F20) as D20.
  set (a := h 0%nat 0%nat) in *. set (b := h 1%nat 1%nat) in *. set (c := h 2%nat 2%nat) in *.
  set (p := h 0%nat 1%nat) in *. set (q := h 0%nat 2%nat) in *. set (r := h 1%nat 2%nat) in *.
  set (x := v 0%nat) in *. set (y := v 1%nat) in *. set (z := v 2%nat) in *. clearbody a b c p q r.
  assert (G : forall i, (i < 3)%nat -> mv 3 (rows3 (exp a) (p * ((exp a - exp b) / (a - b)))
      (q * ((exp c - exp a) / (c - a)) + p * q * ((exp a - exp b) / (a - b) - (exp b - exp c) / (b - c)) / (a - c))
      0 (exp b) (r * ((exp b - exp c) / (b - c))) 0 0 (exp c)) v i = exp l * v i); [|exact G].
  assert (EX : exp a * x + p * ((exp a - exp b) / (a - b)) * y
     + (q * ((exp c - exp a) / (c - a)) + p * q * ((exp a - exp b) / (a - b) - (exp b - exp c) / (b - c)) / (a - c)) * z = exp l * x /\
     exp b * y + r * ((exp b - exp c) / (b - c)) * z = exp l * y /\ exp c * z = exp l * z).
  { rewrite C2. replace (0 * ((exp a - exp b) / (a - b) - (exp b - exp c) / (b - c)) / (a - c)) with 0 by (unfold Rdiv; ring).
    assert (K2 : (c - l) * z = 0) by lra. assert (K1 : (b - l) * y + r * z = 0) by lra. assert (K0 : (a - l) * x + p * y + q * z = 0) by lra.
    assert (R0 : forall u w, (u - l) * w = 0 -> exp u * w = exp l * w).
    { intros u w K. apply Rmult_integral in K as [K|K]; [replace u with l by lra; ring|rewrite K; ring]. }
    assert (Q2 : exp c * z = exp l * z) by now apply R0.
    assert (R1 : forall u w k m n, u <> w -> (u - l) * m + k * n = 0 -> (w - l) * n = 0 ->
       exp u * m + k * ((exp u - exp w) / (u - w)) * n = exp l * m).
    { intros u w k m n D Ku Kw. destruct (Req_dec n 0) as [-> |Nz].
      - rewrite Rmult_0_r. rewrite Rmult_0_r in Ku. rewrite Rplus_0_r. rewrite Rplus_0_r in Ku. now apply R0.
      - assert (w = l) by (apply Rmult_integral in Kw as [|]; [lra|contradiction]). subst l.
        replace (k * ((exp u - exp w) / (u - w)) * n) with (k * n * ((exp u - exp w) / (u - w))) by (unfold Rdiv; ring).
        replace (k * n) with (- ((u - w) * m)) by lra. field. lra. }
    split; [|split; [now apply R1|easy]].
    assert (SW : (exp c - exp a) / (c - a) = (exp a - exp c) / (a - c)) by (field; lra).
    rewrite SW, Rplus_0_r. apply Rmult_integral in C2 as [P0|Q0].
    + assert (X := R1 a c q x z (not_eq_sym D20) ltac:(rewrite P0 in K0; lra) K2). rewrite P0, !Rmult_0_l. lra.
    + rewrite Q0. destruct (Rmult_integral _ _ C1) as [P0|R00].
      * assert (X := R1 a c q x z (not_eq_sym D20) ltac:(rewrite P0 in K0; lra) K2). rewrite P0, !Rmult_0_l. rewrite Q0, !Rmult_0_l in X. lra.
      * assert (X := R1 a b p x y D01 ltac:(rewrite Q0 in K0; lra) ltac:(rewrite R00 in K1; lra)). rewrite !Rmult_0_l. lra. }
  destruct EX as (X0 & X1 & X2). clear - X0 X1 X2.
  intros i Hi. three i; unfold mv; cbn [Rsum rows3]; fold x y z; lra.
Qed.
Theorem exp_ut3x3_zero_refused h : h 0%nat 0%nat = 0 -> exp_ut3x3 h = None.
Proof. intros H. unfold exp_ut3x3. destruct (Req_EM_T (h 0%nat 0%nat) 0); [easy|contradiction]. Qed.

(** eigensystem_ut3x3: the columns should be eigenvectors. *)
Theorem eigensystem_refuted : exists p j, ut_cell p /\ (j < 3)%nat /\ p 0%nat 0%nat <> p 1%nat 1%nat /\ p 1%nat 1%nat <> p 2%nat 2%nat /\ p 0%nat 0%nat <> p 2%nat 2%nat /\
  let '(w, e) := eigensystem_ut3x3 p in ~ eigen 3 p (w j) (fun i => e i j).
Proof.
  exists (rows3 1 0 1 0 2 0 0 0 4), 2%nat. split; [cbv; lra|]. split; [lia|]. do 3 (split; [cbn; lra|]).
  unfold eigensystem_ut3x3. cbn [rows3]. intros C. specialize (C 0%nat ltac:(lia)). unfold mv in C. cbn [Rsum rows3] in C.
  lra.
Qed.
Theorem eigensystem_partial p j : ut_cell p -> (j < 3)%nat -> p 0%nat 0%nat <> p 1%nat 1%nat ->
  p 0%nat 2%nat = 0 -> p 1%nat 2%nat = 0 ->
  let '(w, e) := eigensystem_ut3x3 p in eigen 3 p (w j) (fun i => e i j).
Proof.
  intros (Z1 & Z2 & Z3 & _) Hj D A B. unfold eigensystem_ut3x3. intros i Hi. unfold mv.
  assert (N0 : nonzero (- p 1%nat 2%nat) = false). { unfold nonzero. destruct Req_EM_T as [|N]; [easy|exfalso; apply N; lra]. }
  assert (E01 : (p 0%nat 0%nat - p 1%nat 1%nat) * (if nonzero (- p 0%nat 1%nat) then - p 0%nat 1%nat / (p 0%nat 0%nat - p 1%nat 1%nat) else - p 0%nat 1%nat) = - p 0%nat 1%nat).
  { unfold nonzero. destruct Req_EM_T as [q|N]; [replace (p 0%nat 1%nat) with 0 by lra; ring|field; lra]. }
  set (x := if nonzero (- p 0%nat 1%nat) then _ else _) in *. clearbody x.
  rewrite N0. cbv iota. rewrite N0. cbv iota. rewrite A, B.
  three i; three j; cbn [Rsum rows3]; rewrite ?Z1, ?Z2, ?Z3, ?A, ?B; try ring; lra.
Qed.

(** sinch x = sinh x / x away from zero; near zero the series, which has the right value 1 at 0 *)
Theorem sinch_exact x : / 10 ^ 12 <= x * x -> sinch x = sinh x / x.
Proof.
  intros H. unfold sinch. destruct Rlt_dec as [L|]; [|easy]. rewrite Rabs_right in L; [lra|]. apply Rle_ge. nra.
Qed.
Theorem sinch_zero : sinch 0 = 1.
Proof.
  unfold sinch. rewrite Rmult_0_l. destruct Rlt_dec as [_|L]; [lra|]. exfalso. apply L. rewrite Rabs_R0.
  apply Rinv_0_lt_compat. apply pow_lt. lra.
Qed.
Theorem sinch_even x : sinch (- x) = sinch x.
Proof.
  unfold sinch. replace (- x * - x) with (x * x) by ring. destruct Rlt_dec; [easy|].
  assert (S : sinh (- x) = - sinh x). { unfold sinh. replace (- - x) with x by ring. field. }
  rewrite S. destruct (Req_dec x 0) as [-> |N]; [|field; lra]. exfalso. apply n. rewrite Rmult_0_l, Rabs_R0.
  apply Rinv_0_lt_compat. apply pow_lt. lra.
Qed.
(** gaussian_inv is odd about one half, whatever the polynomials *)
Theorem gaussian_inv_odd pa pb pc x : 0 < x < 1 -> gaussian_inv pa pb pc (1 - x) = - gaussian_inv pa pb pc x.
Proof.
  intros Hx. unfold gaussian_inv.
  assert (Y : 1 - x - 1 / 2 = - (x - 1 / 2)) by field. rewrite Y. set (y := x - 1 / 2).
  replace (- y * - y) with (y * y) by ring.
  destruct (Rlt_dec (8 / 100) (1 - x)) as [a|a]; destruct (Rlt_dec (1 - x) (92 / 100)) as [b|b];
    destruct (Rlt_dec (8 / 100) x) as [c|c]; destruct (Rlt_dec x (92 / 100)) as [d|d]; try lra; try (unfold Rdiv; ring).
  all: destruct (Rlt_dec 0 (- y)), (Rlt_dec 0 y), (Rlt_dec (- y) 0), (Rlt_dec y 0); try (unfold y in *; lra); try ring.
  all: replace (1 - (1 - x)) with x by ring; ring.
Qed.
Example matrix_exp_case : eigen 2 (fun i j => match i, j with 0%nat, 0%nat => 1 | 0%nat, 1%nat => 2 | 1%nat, 1%nat => 3 | _, _ => 0 end) 3 (fun _ => 1).
Proof. intros [|[|i]] Hi; [| |lia]; cbv [mv Rsum]; ring. Qed.

Print Assumptions wrapping_idempotent.
Print Assumptions minimum_image_invariant_refuted.
Print Assumptions minimum_image_close.
Print Assumptions abc_roundtrip.
Print Assumptions cell_roundtrip.
Print Assumptions genh_keeps_metric.
Print Assumptions genh_positions.
Print Assumptions logsumlog_partial.
Print Assumptions random_rotation_orthogonal.
Print Assumptions matrix_exp_spectrum.
Print Assumptions matrix_exp_converges.
Print Assumptions exp_ut3x3_partial.
Print Assumptions gaussian_inv_odd.
