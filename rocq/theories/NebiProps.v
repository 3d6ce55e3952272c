(** * Interpolated paths: theorems of record *)
From Coq Require Import List Arith Lia Reals Lra Psatz Bool String.
From Verif Require Import RSum StrModel StrProps NebiModel.
Import ListNotations.
Open Scope list_scope.
Open Scope R_scope.

Lemma resample_given dof old new k q r : (2 <= old)%nat -> resample dof old new k q = Some r ->
  (2 <= new)%nat /\ apart dof old q = true /\ ((k = 3%nat /\ r = fun b c => spline (old - 1) (param dof old q) (fun i => q i c) (INR b / INR (new - 1))) \/
    (k = 1%nat /\ r = fun b c => broken (old - 1) (param dof old q) (fun i => q i c) (INR b / INR (new - 1)))).
Proof.
  intros Ho. unfold resample. destruct (Nat.ltb_spec new 2) as [L|L]; [discriminate|]. destruct (apart dof old q); [|discriminate]. cbn [negb].
  destruct (Nat.eqb_spec k 3) as [->|D]; [intros [= <-]; repeat split; [lia|left; auto]|].
  destruct (Nat.eqb_spec k 1) as [->|D']; [intros [= <-]; repeat split; [lia|right; auto]|discriminate].
Qed.
Lemma broken_at N t y i : (0 < N)%nat -> increasing N t -> (i <= N)%nat -> broken N t y (t i) = y i.
Proof.
  intros HN I Hi. unfold broken. cbv zeta. destruct (Nat.eq_dec i N) as [->|D].
  - destruct N as [|k]; [lia|]. pose proof (I k ltac:(lia)) as L. rewrite (locate_at (S k) t (t (S k)) k I ltac:(lia) ltac:(lra)) by now right.
    field. lra.
  - rewrite (locate_at N t (t i) i I ltac:(lia) ltac:(lra)) by (left; apply I; lia). pose proof (I i ltac:(lia)). field. lra.
Qed.
Lemma locate_bound t s N : (0 < N)%nat -> (locate t s N < N)%nat.
Proof.
  induction N as [|K IH]; intros HK; [lia|]. cbn [locate]. destruct (Rle_dec (t K) s); [lia|]. destruct K; [cbn; lia|]. specialize (IH ltac:(lia)). lia.
Qed.
Lemma broken_linear N t y A B s : (0 < N)%nat -> increasing N t -> (forall i, (i <= N)%nat -> y i = A + t i * B) -> broken N t y s = A + s * B.
Proof.
  intros HN I E. pose proof (locate_bound t s N HN) as L. unfold broken. set (i := locate t s N) in *. rewrite !E by lia. pose proof (I i L). field. lra.
Qed.
(** The first and the last image are the first and the last geometry. *)
Theorem path_ends dof old new k q r c : (2 <= old)%nat -> resample dof old new k q = Some r -> r 0%nat c = q 0%nat c /\ r (new - 1)%nat c = q (old - 1)%nat c.
Proof.
  intros Ho H. apply resample_given in H; [|exact Ho]. destruct H as [Hn [A H]]. pose proof (param_increasing dof old q Ho A) as I. destruct (param_ends dof old q Ho A) as [E0 E1].
  assert (F : INR 0 / INR (new - 1) = param dof old q 0%nat) by (rewrite E0; cbn [INR]; unfold Rdiv; ring).
  assert (G : INR (new - 1) / INR (new - 1) = param dof old q (old - 1)%nat) by (rewrite E1; field; apply not_0_INR; lia).
  destruct H as [[_ ->]|[_ ->]]; rewrite F, G.
  - destruct (spline_natural (old - 1) (param dof old q) (fun i => q i c) ltac:(lia) I) as [K _]. now rewrite !K by lia.
  - now rewrite !broken_at by (auto; lia).
Qed.
(** Geometries on a line, and so any two, give equidistant images on it, with both orders. *)
Theorem path_straight dof old new k q a d lam : (2 <= old)%nat -> (2 <= new)%nat -> (k = 1 \/ k = 3)%nat -> straight old q a d lam -> 0 < npnorm dof d ->
  exists r, resample dof old new k q = Some r /\ forall b c, r b c = a c + INR b / INR (new - 1) * d c.
Proof.
  intros Ho Hn Hk St P. pose proof (straight_apart dof old q a d lam St P) as A. pose proof (param_increasing dof old q Ho A) as I.
  assert (E : forall c i, (i <= old - 1)%nat -> q i c = a c + param dof old q i * d c).
  { intros c i Hi. rewrite (straight_param dof old q a d lam i) by (auto; lia). destruct St as [_ [_ [_ E]]]. now rewrite E by lia. }
  unfold resample. rewrite (proj2 (Nat.ltb_ge new 2)) by lia. rewrite A. cbn [negb]. destruct Hk as [-> | ->]; cbn [Nat.eqb].
  - eexists. split; [reflexivity|]. intros b c. cbv zeta. apply broken_linear; [lia|exact I|]. intros i Hi. now apply E.
  - eexists. split; [reflexivity|]. intros b c. cbv zeta. apply (spline_linear (old - 1) _ (fun i => q i c)); [lia|exact I|]. intros i Hi. now apply E.
Qed.
Corollary two_geometries dof new k q : (2 <= new)%nat -> (k = 1 \/ k = 3)%nat -> (exists c, (c < dof)%nat /\ q 1%nat c <> q 0%nat c) ->
  exists r, resample dof 2 new k q = Some r /\ forall b c, r b c = q 0%nat c + INR b / INR (new - 1) * (q 1%nat c - q 0%nat c).
Proof.
  intros Hn Hk D. apply (path_straight dof 2 new k q (q 0%nat) (fun c => q 1%nat c - q 0%nat c) INR); try lia; try exact Hk.
  - repeat split; [intros i Hi; rewrite S_INR; lra|]. intros i c Hi. destruct i as [|[|i]]; cbn; lra || lia.
  - change (0 < dist dof q 0). now apply dist_pos.
Qed.
(** With order 1 the images are equidistant along the broken line: image b is on a segment, at the
    length b/(n-1) of the whole from the start. *)
Theorem broken_equidistant dof old new q r b : (2 <= old)%nat -> resample dof old new 1 q = Some r -> (b < new)%nat ->
  exists i x, (i < old - 1)%nat /\ 0 <= x <= 1 /\ (forall c, r b c = q i c + x * (q (S i) c - q i c)) /\
    Rsum i (dist dof q) + x * dist dof q i = INR b / INR (new - 1) * Rsum (old - 1) (dist dof q).
Proof.
  intros Ho H Hb. apply resample_given in H; [|exact Ho]. destruct H as [Hn [A [[E _]|[_ ->]]]]; [discriminate|].
  pose proof (param_increasing dof old q Ho A) as I. destruct (param_ends dof old q Ho A) as [E0 E1]. pose proof (total_pos dof old q Ho A) as T.
  set (t := param dof old q) in *. set (s := INR b / INR (new - 1)).
  assert (Pn : 0 < INR (new - 1)) by (apply lt_0_INR; lia).
  assert (Hs : 0 <= s <= 1).
  { unfold s. split; [apply Rmult_le_pos; [apply pos_INR|left; now apply Rinv_0_lt_compat]|].
    apply (Rmult_le_reg_r (INR (new - 1))); [exact Pn|]. unfold Rdiv. rewrite Rmult_assoc, Rinv_l by lra. rewrite Rmult_1_r, Rmult_1_l. apply le_INR. lia. }
  assert (L : exists i, (i < old - 1)%nat /\ t i <= s <= t (S i) /\ locate t s (old - 1) = i).
  { assert (G : forall K, (0 < K)%nat -> (K <= old - 1)%nat -> s <= t K -> exists i, (i < K)%nat /\ t i <= s <= t (S i) /\ locate t s K = i).
    { induction K as [|K IH]; intros HK HK2 U; [lia|]. cbn [locate]. destruct (Rle_dec (t K) s) as [R|R].
      - exists K. repeat split; try lia; assumption.
      - destruct K as [|K]; [rewrite E0 in R; lra|]. destruct (IH ltac:(lia) ltac:(lia) ltac:(lra)) as [i [Hi [B C]]]. exists i. split; [lia|]. split; [exact B|exact C]. }
    apply G; try lia. rewrite E1. lra. }
  destruct L as [i [Hi [[B1 B2] C]]]. pose proof (I i Hi) as D. exists i, ((s - t i) / (t (S i) - t i)).
  assert (X : t (S i) - t i = dist dof q i / Rsum (old - 1) (dist dof q)) by (unfold t, param; cbn [Rsum]; field; lra).
  repeat split; try assumption.
  - apply Rmult_le_pos; [lra|left; apply Rinv_0_lt_compat; lra].
  - apply (Rmult_le_reg_r (t (S i) - t i)); [lra|]. unfold Rdiv. rewrite Rmult_assoc, Rinv_l by lra. lra.
  - intros c. unfold broken. cbv zeta. rewrite C. reflexivity.
  - pose proof (proj1 (apart_pos dof old q) A i Hi) as Q. rewrite X. unfold t, param. fold s. field. lra.
Qed.
(** Fixed atoms, active atoms and indices. *)
Theorem fixed_atoms natoms old new k l q r : (2 <= old)%nat -> new_path natoms old new k (Some l) q = Some r ->
  (forall a, In a l -> (a < natoms)%nat) /\
  (forall b a x, (x < 3)%nat -> ~ In a l -> r b (3 * a + x)%nat = (if (new =? old)%nat then q b else q 0%nat) (3 * a + x)%nat) /\
  (forall a x, (x < 3)%nat -> In a l -> r 0%nat (3 * a + x)%nat = q 0%nat (3 * a + x)%nat /\ r (new - 1)%nat (3 * a + x)%nat = q (old - 1)%nat (3 * a + x)%nat).
Proof.
  intros Ho. unfold new_path, fixmask. destruct (existsb (fun a => (natoms <=? a)%nat) l) eqn:E; [discriminate|].
  set (mask := fun c => existsb (fun a => ((c =? 3 * a) || (c =? 3 * a + 1) || (c =? 3 * a + 2))%nat%bool) l).
  match goal with |- context [resample _ _ _ _ ?Q] => destruct (resample (3 * natoms) old new k Q) as [r0|] eqn:R; [|intros X; discriminate X] end.
  change (resample (3 * natoms) old new k (fun b c => if mask c then q b c else 0) = Some r0) in R.
  intros X. assert (X' : (fun b c => if mask c then r0 b c else if (new =? old)%nat then q b c else q 0%nat c) = r) by (injection X; intros Y; exact Y). clear X. subst r.
  assert (M : forall a x, (x < 3)%nat -> mask (3 * a + x)%nat = true <-> In a l).
  { intros a x Hx. unfold mask. rewrite existsb_exists. split.
    - intros [a' [Ha H]]. rewrite !orb_true_iff, !Nat.eqb_eq in H. replace a with a' by lia. exact Ha.
    - intros Ha. exists a. split; [exact Ha|]. rewrite !orb_true_iff, !Nat.eqb_eq. lia. }
  repeat split.
  - intros a Ha. destruct (Nat.lt_ge_cases a natoms) as [L|L]; [exact L|]. exfalso.
    assert (X : existsb (fun a => (natoms <=? a)%nat) l = true) by (apply existsb_exists; exists a; split; [exact Ha|now apply Nat.leb_le]). congruence.
  - intros b a x Hx Ha. assert (F : mask (3 * a + x)%nat = false) by (destruct (mask (3 * a + x)%nat) eqn:F; [apply M in F; [contradiction|exact Hx]|reflexivity]).
    rewrite F. now destruct (new =? old)%nat.
  - rewrite (proj2 (M a x H) H0). rewrite (proj1 (path_ends _ _ _ _ _ _ (3 * a + x)%nat Ho R)). now rewrite (proj2 (M a x H) H0).
  - rewrite (proj2 (M a x H) H0). rewrite (proj2 (path_ends _ _ _ _ _ _ (3 * a + x)%nat Ho R)). now rewrite (proj2 (M a x H) H0).
Qed.
Print Assumptions path_ends.
Print Assumptions path_straight.
Print Assumptions broken_equidistant.
Print Assumptions fixed_atoms.
Lemma new_path_all natoms old new k q : new_path natoms old new k None q = resample (3 * natoms) old new k q.
Proof.
  transitivity (match resample (3 * natoms) old new k q with None => None | Some r => Some r end); [reflexivity|]. now destruct (resample (3 * natoms) old new k q).
Qed.
(** Order 3, the default: the images are equidistant neither in space nor along the spline (compare
    equidistant_refuted). *)
Theorem cubic_refuted : exists q r, new_path 1 3 3 3 None q = Some r /\ dist 3 r 0 <> dist 3 r 1 /\
  exists S c, (forall b, (b < 3)%nat -> r b 0%nat = S (INR b / 2)) /\ (forall b x, r b (1 + x)%nat = 0) /\
    (forall a b, / 2 <= a -> a <= b -> b <= 1 -> Rabs (S b - S a) <= c * (b - a)) /\ c * / 2 < Rabs (S (/ 2) - S 0).
Proof.
  exists turn. rewrite new_path_all.
  assert (D : forall i, dist 3 turn i = dist 1 turn i).
  { intros i. unfold dist, npnorm, dot. cbn [Rsum turn]. f_equal. ring. }
  assert (P : param 3 3 turn = param 1 3 turn).
  { unfold param. apply FunctionalExtensionality.functional_extensionality. intros i. rewrite (Rsum_ext i _ (dist 1 turn)) by (intros; apply D). rewrite (Rsum_ext (3 - 1) _ (dist 1 turn)) by (intros; apply D). reflexivity. }
  assert (A : apart 3 3 turn = true).
  { apply apart_pos. intros i Hi. rewrite D. now apply (proj1 (apart_pos 1 3 turn) turn_apart). }
  change (3 * 1)%nat with 3%nat. unfold resample. cbn [Nat.ltb Nat.leb Nat.eqb]. rewrite A, P. cbn [negb]. change (3 - 1)%nat with 2%nat. cbv zeta.
  eexists. split; [reflexivity|]. cbv beta.
  assert (Z : forall b x, spline 2 (param 1 3 turn) (fun i => turn i (1 + x)%nat) (INR b / INR 2) = 0).
  { intros b x. rewrite (proj1 (spline_linear 2 (param 1 3 turn) (fun i => turn i (1 + x)%nat) 0 0 _ ltac:(lia) (param_increasing 1 3 turn ltac:(lia) turn_apart) ltac:(intros; cbn [turn Nat.add]; ring))). ring. }
  assert (H0 : turn_at 0 = 0) by (rewrite turn_first by lra; ring). assert (H1 : turn_at (/ 2) = 119 / 128) by (rewrite turn_first by lra; field).
  assert (H2 : turn_at 1 = 3 / 4) by (rewrite turn_second by lra; ring). split.
  - unfold dist, npnorm, dot. cbn [Rsum]. cbv beta.
    pose proof (fun b => Z b 0%nat) as Z1. pose proof (fun b => Z b 1%nat) as Z2. cbn [Nat.add] in Z1, Z2. rewrite ?Z1, ?Z2. fold (turn_at (INR 1 / INR 2)). fold (turn_at (INR 0 / INR 2)). fold (turn_at (INR 2 / INR 2)).
    replace (INR 1 / INR 2) with (/ 2) by (cbn; field). replace (INR 0 / INR 2) with 0 by (cbn; field). replace (INR 2 / INR 2) with 1 by (cbn; field).
    rewrite H0, H1, H2. intros E. apply sqrt_inj in E; lra.
  - exists turn_at, (3 / 2). repeat split.
    + exact Z.
    + exact turn_lipschitz.
    + rewrite H0, H1. rewrite Rabs_pos_eq by lra. lra.
Qed.
(** Any text after --dry but the empty one switches the output off. *)
Theorem dry_value s : writes None = true /\ (writes (Some s) = true <-> s = ""%string).
Proof. split; [reflexivity|]. unfold writes, py_bool. rewrite negb_involutive. apply String.eqb_eq. Qed.
Theorem dry_refuted : writes (Some "False"%string) = false.
Proof. reflexivity. Qed.
Print Assumptions cubic_refuted.
Print Assumptions dry_refuted.
Example two_case : exists r, new_path 1 2 5 3 None (fun b c => INR b * INR c) = Some r /\ r 1%nat 2%nat = / 2.
Proof.
  destruct (two_geometries 3 5 3 (fun b c => INR b * INR c) ltac:(lia) ltac:(lia)) as [r [E H]].
  - exists 2%nat. split; [lia|]. cbn. lra.
  - exists r. rewrite new_path_all. split; [exact E|]. rewrite H. cbn. field.
Qed.
Example fixed_case : exists r, new_path 2 2 3 1 (Some [1%nat]) (fun b c => INR b) = Some r /\ r 2%nat 0%nat = 0 /\ r 2%nat 3%nat = 1.
Proof.
  assert (R : exists r, resample 6 2 3 1 (fun b c => if existsb (fun a => ((c =? 3 * a) || (c =? 3 * a + 1) || (c =? 3 * a + 2))%nat%bool) [1%nat] then INR b else 0) = Some r).
  { destruct (two_geometries 6 3 1 (fun b c => if existsb (fun a => ((c =? 3 * a) || (c =? 3 * a + 1) || (c =? 3 * a + 2))%nat%bool) [1%nat] then INR b else 0) ltac:(lia) ltac:(lia)) as [r [E _]]; [|exists r; exact E].
    exists 3%nat. split; [lia|]. cbn. lra. }
  destruct R as [r R]. assert (N : exists r', new_path 2 2 3 1 (Some [1%nat]) (fun b c => INR b) = Some r').
  { unfold new_path, fixmask. cbn [existsb Nat.leb orb]. change (3 * 2)%nat with 6%nat. cbn [existsb] in R. rewrite R. eexists. reflexivity. }
  destruct N as [r' N]. exists r'. split; [exact N|]. destruct (fixed_atoms 2 2 3 1 [1%nat] (fun b c => INR b) r' ltac:(lia) N) as [_ [F G]]. split.
  - change (r' 2%nat (3 * 0 + 0)%nat = 0). rewrite F; [cbn; reflexivity|lia|]. intros [X|[]]; discriminate.
  - destruct (G 1%nat 0%nat ltac:(lia) ltac:(left; reflexivity)) as [_ G2]. exact G2.
Qed.
