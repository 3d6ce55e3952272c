(** * Reading structures with the Atomic Simulation Environment: theorems of record *)
From Coq Require Import List Arith Lia Bool String Reals Lra Psatz.
From Verif Require Import AseModel.
Import ListNotations.
Open Scope R_scope.
Open Scope list_scope.

Definition dot (u v : v3) : R := px u * px v + py u * py v + pz u * pz v.
Definition triple (u v w : v3) : R := px u * (py v * pz w - pz v * py w) - py u * (px v * pz w - pz v * px w) + pz u * (px v * py w - py v * px w).
(** Rotations about the origin. *)
Definition rotation (f : v3 -> v3) : Prop := (forall u v, dot (f u) (f v) = dot u v) /\ forall u v w, triple (f u) (f v) (f w) = triple u v w.
(** What Atoms.rotate(a, "x") is for. *)
Definition turns (turn : v3 -> v3 -> v3) (a : v3) : Prop := rotation (turn a) /\ turn a a = (sqrt (dot a a), 0, 0).

(** arctan2 is the angle of the point. *)
Theorem arctan2_angle y x : sqrt (x ^ 2 + y ^ 2) * cos (arctan2 y x) = x /\ sqrt (x ^ 2 + y ^ 2) * sin (arctan2 y x) = y.
Proof.
  assert (K : forall s, 0 < s * x -> s ^ 2 = 1 -> sqrt (x ^ 2 + y ^ 2) * cos (atan (y / x)) = s * x /\ sqrt (x ^ 2 + y ^ 2) * sin (atan (y / x)) = s * y).
  { intros s P S. assert (X : x <> 0) by (intros ->; lra). rewrite cos_atan, sin_atan.
    assert (E : sqrt (x ^ 2 + y ^ 2) = s * x * sqrt (1 + Rsqr (y / x))).
    { rewrite <- (sqrt_Rsqr (s * x)) by lra. rewrite <- sqrt_mult by (apply Rle_0_sqr || (pose proof (Rle_0_sqr (y / x)); lra)). f_equal. unfold Rsqr.
      replace (s * x * (s * x) * (1 + y / x * (y / x))) with (s ^ 2 * (x ^ 2 + y ^ 2)) by (field; exact X). rewrite S. ring. }
    assert (Q : sqrt (1 + Rsqr (y / x)) <> 0) by (apply Rgt_not_eq, sqrt_lt_R0; pose proof (Rle_0_sqr (y / x)); lra).
    rewrite E. split; field; now split || exact Q. }
  unfold arctan2. destruct (Rlt_dec 0 x) as [P|P].
  - destruct (K 1) as [A B]; [lra|lra|]. rewrite A, B. lra.
  - destruct (Rlt_dec x 0) as [N|N].
    + destruct (K (-1)) as [A B]; [lra|lra|]. destruct (Rle_dec 0 y).
      * rewrite neg_cos, neg_sin. lra.
      * replace (atan (y / x) - PI) with (- (PI - atan (y / x))) by ring. rewrite cos_neg, sin_neg, Rtrigo_facts.cos_pi_minus, Rtrigo_facts.sin_pi_minus. lra.
    + assert (x = 0) by lra. subst. replace (0 ^ 2 + y ^ 2) with (Rsqr y) by (unfold Rsqr; ring). rewrite sqrt_Rsqr_abs.
      destruct (Rlt_dec 0 y); [rewrite cos_PI2, sin_PI2, Rabs_right by lra; lra|]. destruct (Rlt_dec y 0).
      * rewrite cos_neg, sin_neg, cos_PI2, sin_PI2, Rabs_left by lra. lra.
      * assert (y = 0) by lra. subst. rewrite Rabs_R0. lra.
Qed.
Theorem rotate_x_rotation d : rotation (rotate_x d).
Proof.
  pose proof (sin2_cos2 (d * PI / 180)) as E. unfold Rsqr in E. set (s := sin (d * PI / 180)) in *. set (c := cos (d * PI / 180)) in *.
  assert (C : c * c = 1 - s * s) by lra. split.
  - intros [[a b] e] [[x y] z]. unfold dot, rotate_x, px, py, pz. cbn [fst snd]. fold s c.
    replace (a * x + (b * c - e * s) * (y * c - z * s) + (b * s + e * c) * (y * s + z * c)) with (a * x + (b * y + e * z) * (s * s + c * c)) by ring. rewrite E. ring.
  - intros [[a b] e] [[x y] z] [[u v] w]. unfold triple, rotate_x, px, py, pz. cbn [fst snd]. fold s c.
    transitivity (a * ((y * w - z * v) * (s * s + c * c)) - (b * (x * w - z * u) - e * (x * v - y * u)) * (s * s + c * c)); [ring|]. rewrite E. ring.
Qed.
Lemma dot_pos v : 0 <= dot v v.
Proof. unfold dot. nra. Qed.

(** A structure that is periodic in all directions: the cell becomes upper triangular, with a along x and b in the upper half plane; nothing else changes. *)
Section Conform.
Variables (turn : v3 -> v3 -> v3) (s : structure).
Hypothesis T : turns turn (va s).
Hypothesis P : pbc s = (true, true, true).
Hypothesis A : 0 < dot (va s) (va s).
Hypothesis B : 0 < dot (vb s) (vb s).
Lemma conform_rotation : exists f, rotation f /\ conform turn s = move f s /\ f (va s) = (sqrt (dot (va s) (va s)), 0, 0) /\ 0 <= py (f (vb s)) /\ pz (f (vb s)) = 0.
Proof.
  destruct T as [[D1 V1] X]. unfold conform. rewrite P. cbv zeta. cbn [move va vb]. set (b := turn (va s) (vb s)). set (n := norm b).
  assert (N : 0 < n). { unfold n, norm. apply sqrt_lt_R0. replace (px b ^ 2 + py b ^ 2 + pz b ^ 2) with (dot b b) by (unfold dot; ring). unfold b. now rewrite D1. }
  set (t := arctan2 (pz (over b n)) (py (over b n))). set (d := - t * 180 / PI).
  assert (Dt : d * PI / 180 = - t) by (unfold d; field; apply PI_neq0).
  destruct (rotate_x_rotation d) as [D2 V2]. exists (fun v => rotate_x d (turn (va s) v)). split; [split; intros; [now rewrite D2, D1|now rewrite V2, V1]|].
  split; [unfold move; cbn; now rewrite map_map|]. split; [rewrite X; unfold rotate_x, px, py, pz; cbn [fst snd]; cbv zeta; now rewrite !Rmult_0_l, Rminus_0_r, Rplus_0_l|].
  fold b. pose proof (arctan2_angle (pz (over b n)) (py (over b n))) as [C S]. fold t in C, S. set (r := sqrt _) in C, S.
  assert (Cy : py b = n * r * cos t). { rewrite Rmult_assoc, C. unfold over, py. cbn. field. lra. }
  assert (Cz : pz b = n * r * sin t). { rewrite Rmult_assoc, S. unfold over, pz. cbn. field. lra. }
  pose proof (sin2_cos2 t) as E. unfold Rsqr in E. assert (R0 : 0 <= r) by apply sqrt_pos.
  change (0 <= py b * cos (d * PI / 180) - pz b * sin (d * PI / 180) /\ py b * sin (d * PI / 180) + pz b * cos (d * PI / 180) = 0). rewrite Dt, cos_neg, sin_neg, Cy, Cz. split; [|ring].
  replace (n * r * cos t * cos t - n * r * sin t * - sin t) with (n * r * (sin t * sin t + cos t * cos t)) by ring. rewrite E. nra.
Qed.
Theorem conform_upper amu d : read_ase amu turn s = Some d -> cell d 1 0 = 0 /\ cell d 2 0 = 0 /\ cell d 2 1 = 0 /\
  0 < cell d 0 0 /\ 0 <= cell d 1 1 /\ cell d 0 0 * cell d 1 1 * cell d 2 2 = triple (va s) (vb s) (vc s).
Proof.
  destruct conform_rotation as (f & [_ V] & E & Xa & Yb & Zb). unfold read_ase. cbv zeta. rewrite E. intros R.
  assert (K : cell d = fun i j => component (match j with 0%nat => f (va s) | 1%nat => f (vb s) | _ => f (vc s) end) i).
  { destruct (in_dec string_dec "mass"%string (columns s)); [destruct (in_dec string_dec "masses"%string (columns s)); [|discriminate]|]; now injection R as <-. }
  rewrite K. cbn [component]. pose proof (V (va s) (vb s) (vc s)) as W. rewrite Xa in W |- *. rewrite <- W. assert (L : 0 < sqrt (dot (va s) (va s))) by now apply sqrt_lt_R0.
  destruct (f (vb s)) as [[b1 b2] b3], (f (vc s)) as [[c1 c2] c3]. unfold triple, px, py, pz in *. cbn [fst snd] in *. subst b3. repeat split; try assumption. ring.
Qed.
(** Lengths, angles and the places of the atoms in the cell. *)
Theorem conform_same amu d : read_ase amu turn s = Some d -> exists a b c q,
  cell d = (fun i j => component (match j with 0%nat => a | 1%nat => b | _ => c end) i) /\ qatoms d = flat_map (fun v => [px v; py v; pz v]) q /\ List.length q = List.length (positions s) /\
  dmasses d = map (fun m => m * amu) (masses s) /\
  dot a a = dot (va s) (va s) /\ dot b b = dot (vb s) (vb s) /\ dot c c = dot (vc s) (vc s) /\ dot a b = dot (va s) (vb s) /\ dot a c = dot (va s) (vc s) /\ dot b c = dot (vb s) (vc s) /\
  forall k, (k < List.length q)%nat -> dot (nth k q (0, 0, 0)) a = dot (nth k (positions s) (0, 0, 0)) (va s) /\ dot (nth k q (0, 0, 0)) b = dot (nth k (positions s) (0, 0, 0)) (vb s) /\ dot (nth k q (0, 0, 0)) c = dot (nth k (positions s) (0, 0, 0)) (vc s).
Proof.
  destruct conform_rotation as (f & [D _] & E & _). unfold read_ase. cbv zeta. rewrite E. intros R.
  exists (f (va s)), (f (vb s)), (f (vc s)), (map f (positions s)). rewrite map_length.
  assert (K : cell d = (fun i j => component (match j with 0%nat => f (va s) | 1%nat => f (vb s) | _ => f (vc s) end) i) /\ qatoms d = flat_map (fun v => [px v; py v; pz v]) (map f (positions s)) /\ dmasses d = map (fun m => m * amu) (masses s)).
  { destruct (in_dec string_dec "mass"%string (columns s)); [destruct (in_dec string_dec "masses"%string (columns s)); [|discriminate]|]; now injection R as <-. }
  destruct K as (K1 & K2 & K3). repeat (split; [assumption || reflexivity || apply D|]). intros k L.
  rewrite (nth_indep (map f (positions s)) (0, 0, 0) (f (0, 0, 0))) by (now rewrite map_length). rewrite map_nth, !D. now repeat split.
Qed.
End Conform.
(** Otherwise everything is as it was read. *)
Theorem not_periodic amu turn s d : pbc s <> (true, true, true) -> read_ase amu turn s = Some d ->
  (forall i j, cell d i j = component (match j with 0%nat => va s | 1%nat => vb s | _ => vc s end) i) /\ qatoms d = flat_map (fun v => [px v; py v; pz v]) (positions s) /\ dmasses d = map (fun m => m * amu) (masses s).
Proof.
  intros N. unfold read_ase. cbv zeta. assert (E : conform turn s = s) by (unfold conform; destruct (pbc s) as [[[|] [|]] [|]]; congruence). rewrite E.
  intros R. destruct (in_dec string_dec "mass"%string (columns s)); [destruct (in_dec string_dec "masses"%string (columns s)); [|discriminate]|]; now injection R as <-.
Qed.
(** Refused exactly with a column called mass and none called masses. *)
Theorem mass_refused amu turn s : read_ase amu turn s = None <-> In "mass"%string (columns s) /\ ~ In "masses"%string (columns s).
Proof. unfold read_ase. cbv zeta. destruct (in_dec string_dec "mass"%string (columns s)); [destruct (in_dec string_dec "masses"%string (columns s))|]; split; try discriminate; try tauto. Qed.

(** A structure periodic in two directions keeps a cell that is not upper triangular. *)
Definition id_turn (a v : v3) : v3 := v.
Theorem slab_refuted : exists turn s d, pbc s = (true, true, false) /\ 0 < triple (va s) (vb s) (vc s) /\ read_ase 1 turn s = Some d /\ cell d 1 0 <> 0.
Proof.
  exists id_turn, (Structure (1, 1, 0) (-1, 1, 0) (0, 0, 1) (true, true, false) [] [] []). eexists. split; [reflexivity|]. split; [unfold triple, px, py, pz; cbn; lra|]. split; [reflexivity|]. cbn. lra.
Qed.
(** A left handed cell has a negative third entry on the diagonal. *)
Theorem left_handed_refuted : exists turn s d, pbc s = (true, true, true) /\ read_ase 1 turn s = Some d /\ turns turn (va s) /\ cell d 2 2 < 0.
Proof.
  exists id_turn, (Structure (1, 0, 0) (0, 1, 0) (0, 0, -1) (true, true, true) [] [] []). eexists. split; [reflexivity|]. split; [reflexivity|]. split; [split; [split; reflexivity|]|].
  - unfold id_turn, dot, px, py, pz. cbn. replace (1 * 1 + 0 * 0 + 0 * 0) with 1 by ring. now rewrite sqrt_1.
  - cbn [cell component]. unfold conform. cbn [pbc]. cbv zeta. unfold move, id_turn. cbn [va vb vc]. unfold rotate_x, over, norm, px, py, pz. cbn [fst snd].
    replace (0 ^ 2 + 1 ^ 2 + 0 ^ 2) with 1 by ring. rewrite sqrt_1. unfold arctan2. destruct (Rlt_dec 0 (1 / 1)) as [|N]; [|exfalso; apply N; lra].
    replace (0 / 1 / (1 / 1)) with 0 by field. rewrite atan_0. replace (- 0 * 180 / PI * PI / 180) with 0 by (field; apply PI_neq0). rewrite sin_0, cos_0. lra.
Qed.
Print Assumptions arctan2_angle.
Print Assumptions rotate_x_rotation.
Print Assumptions conform_upper.
Print Assumptions conform_same.
Print Assumptions not_periodic.
Print Assumptions mass_refused.
Print Assumptions slab_refuted.
Print Assumptions left_handed_refuted.
(** A vector along y is turned by a right angle; the second vector of the cell is then out of the plane. *)
Definition quarter (a v : v3) : v3 := (py v, - px v, pz v).
Definition tilted : structure := Structure (0, 2, 0) (-1, 0, 1) (0, 0, 3) (true, true, true) [(0, 1, 0)] [] [1].
Example tilted_case : turns quarter (va tilted) /\ pbc tilted = (true, true, true) /\ 0 < dot (va tilted) (va tilted) /\ 0 < dot (vb tilted) (vb tilted) /\ pz (quarter (va tilted) (vb tilted)) <> 0 /\
  exists d, read_ase 1 quarter tilted = Some d.
Proof.
  split; [split; [split|]|].
  - intros [[a b] c] [[x y] z]. unfold dot, quarter, px, py, pz. cbn. ring.
  - intros [[a b] c] [[x y] z] [[u v] w]. unfold triple, quarter, px, py, pz. cbn. ring.
  - unfold quarter, dot, px, py, pz. cbn. replace (0 * 0 + 2 * 2 + 0 * 0) with (2 ^ 2) by ring. rewrite sqrt_pow2 by lra. now rewrite Ropp_0.
  - unfold quarter, dot, px, py, pz. cbn. repeat split; try lra. now eexists.
Qed.
