(** * Radial distribution functions: theorems of record *)
From Coq Require Import List Arith Lia Bool Reals Lra Psatz.
From Verif Require Import RdfModel.
Import ListNotations.
Open Scope R_scope.
Open Scope list_scope.

Definition sum (l : list R) : R := fold_right Rplus 0 l.
Lemma sum_snoc l x : sum (l ++ [x]) = sum l + x.
Proof. induction l as [|a l IH]; cbn; [ring|]. unfold sum in IH. rewrite IH. ring. Qed.
Lemma sum_scal A (f : A -> R) k l : sum (map (fun x => k * f x) l) = k * sum (map f l).
Proof. induction l as [|a l IH]; cbn; [ring|]. unfold sum in IH. rewrite IH. ring. Qed.
Lemma sum_const A (f : A -> R) k l : (forall x, In x l -> f x = k) -> sum (map f l) = INR (List.length l) * k.
Proof.
  induction l as [|a l IH]; intros H; [cbn; ring|]. cbn [map List.length]. rewrite S_INR. unfold sum in *. cbn [fold_right]. rewrite IH by (intros; apply H; now right). rewrite (H a (or_introl eq_refl)). ring.
Qed.
Lemma run_snoc c l f : run c (l ++ [f]) = step c (run c l) f.
Proof. unfold run. now rewrite fold_left_app. Qed.
Lemma skipn_snoc (l : list frame) f n : skipn n (l ++ [f]) = if (n <=? List.length l)%nat then skipn n l ++ [f] else [].
Proof.
  rewrite skipn_app. destruct (Nat.leb_spec n (List.length l)); [replace (n - List.length l)%nat with 0%nat by lia; reflexivity|]. rewrite skipn_all2 by lia. destruct (n - List.length l)%nat eqn:E; [lia|]. cbn. now destruct n0.
Qed.
(** The sums are those of the frames after the skipped ones. *)
Lemma run_sums c l : let s := run c l in let u := skipn (skip c) l in ifr s = List.length l /\
  (forall b, rdf s b = sum (map (fun f => count f b) u)) /\ (forall b, f2rdf s b = sum (map (fun f => f2temp f * count f b) u)) /\
  (forall b, frdf s b = sum (map (fun f => deriv f b) u)) /\ f2 s = sum (map f2temp u) /\ (vol s = last (map volume l) 0).
Proof.
  induction l as [|f l IH] using rev_ind; [cbn; rewrite skipn_nil; cbn; repeat split|]. cbv zeta in IH |- *. rewrite run_snoc. destruct IH as (I & A & B & C & D & E).
  rewrite skipn_snoc, app_length, (map_app volume). change (map volume [f]) with [volume f]. rewrite last_last. cbn [List.length].
  assert (S : let s1 := step c (run c l) f in ifr s1 = (ifr (run c l) + 1)%nat /\ vol s1 = volume f /\
    (if (skip c <=? ifr (run c l))%nat then (forall b, rdf s1 b = rdf (run c l) b + count f b) /\ (forall b, f2rdf s1 b = f2rdf (run c l) b + f2temp f * count f b) /\ (forall b, frdf s1 b = frdf (run c l) b + deriv f b) /\ f2 s1 = f2 (run c l) + f2temp f
     else (forall b, rdf s1 b = rdf (run c l) b) /\ (forall b, f2rdf s1 b = f2rdf (run c l) b) /\ (forall b, frdf s1 b = frdf (run c l) b) /\ f2 s1 = f2 (run c l))).
  { cbv zeta. unfold step. destruct (skip c <=? ifr (run c l))%nat; cbv zeta; match goal with |- context [if ?b then State _ _ _ _ _ _ _ else _] => destruct b end; cbn; repeat split; reflexivity. }
  cbv zeta in S. destruct S as (S1 & S2 & S3). rewrite I in S1, S3. destruct (Nat.leb_spec (skip c) (List.length l)) as [L|L].
  - destruct S3 as (R1 & R2 & R3 & R4). repeat split; try (intros b); rewrite ?S1, ?S2, ?R1, ?R2, ?R3, ?R4, ?map_app; cbn [map]; rewrite ?sum_snoc, ?A, ?B, ?C, ?D; reflexivity.
  - destruct S3 as (R1 & R2 & R3 & R4). rewrite skipn_all2 in A, B, C, D by lia. repeat split; try (intros b); rewrite ?S1, ?S2, ?R1, ?R2, ?R3, ?R4, ?A, ?B, ?C, ?D; reflexivity.
Qed.

(** The files are those of the largest number of frames that is a multiple of a hundred, if it is more than the skipped ones. *)
Lemma result_of_sums c s t : (forall b, rdf s b = rdf t b) -> (forall b, f2rdf s b = f2rdf t b) -> (forall b, frdf s b = frdf t b) -> f2 s = f2 t -> vol s = vol t -> ifr s = ifr t ->
  (forall b, g (result c s) b = g (result c t) b) /\ (forall b, gq (result c s) b = gq (result c t) b).
Proof. intros A B C D E F. unfold result. cbn. split; intros b; rewrite ?A, ?B, ?C, ?D, ?E, ?F; reflexivity. Qed.
Theorem frames_used c l : let m := (100 * (List.length l / 100))%nat in
  if (skip c <? m)%nat then exists o, out (run c l) = Some o /\ (forall b, g o b = g (result c (run c (firstn m l))) b) /\ (forall b, gq o b = gq (result c (run c (firstn m l))) b)
  else out (run c l) = None.
Proof.
  induction l as [|f l IH] using rev_ind; [cbn; reflexivity|]. cbv zeta in IH |- *. rewrite app_length. cbn [List.length]. set (n := List.length l) in *.
  assert (I : ifr (run c l) = n) by (apply (run_sums c l)).
  assert (O : let s1 := step c (run c l) f in if ((skip c <? n + 1) && ((n + 1) mod 100 =? 0))%nat then exists t, out s1 = Some (result c t) /\ rdf t = rdf s1 /\ f2rdf t = f2rdf s1 /\ frdf t = frdf s1 /\ f2 t = f2 s1 /\ vol t = vol s1 /\ ifr t = ifr s1 else out s1 = out (run c l)).
  { cbv zeta. unfold step. rewrite I. destruct (skip c <=? n)%nat; cbv zeta; cbn [ifr]; destruct ((skip c <? n + 1) && ((n + 1) mod 100 =? 0))%nat; cbn; try reflexivity; eexists; (split; [reflexivity|]); cbn; repeat split; reflexivity. }
  cbv zeta in O. rewrite <- run_snoc in O. destruct (Nat.eqb_spec ((n + 1) mod 100) 0) as [M|M].
  - assert (Q : (100 * ((n + 1) / 100) = n + 1)%nat) by (pose proof (Nat.div_mod (n + 1) 100); lia). rewrite Q.
    replace (n + 1)%nat with (List.length (l ++ [f])) at 2 by (rewrite app_length; reflexivity). destruct (Nat.ltb_spec (skip c) (n + 1)) as [S|S]; cbn [andb] in O.
    + destruct O as (t & O & A & B & C & D & E & F). exists (result c t). split; [exact O|]. replace (firstn (n + 1) (l ++ [f])) with (l ++ [f]) by (symmetry; apply firstn_all2; rewrite app_length; cbn; lia).
      apply result_of_sums; intros; congruence.
    + rewrite O. pose proof (Nat.div_mod n 100). destruct (Nat.ltb_spec (skip c) (100 * (n / 100))); [lia|exact IH].
  - rewrite andb_false_r in O. rewrite O. assert (Q : ((n + 1) / 100 = n / 100)%nat).
    { pose proof (Nat.div_mod n 100). pose proof (Nat.div_mod (n + 1) 100). pose proof (Nat.mod_upper_bound n 100). pose proof (Nat.mod_upper_bound (n + 1) 100). lia. }
    rewrite Q. assert (K : firstn (100 * (n / 100)) (l ++ [f]) = firstn (100 * (n / 100)) l).
    { rewrite firstn_app. replace (100 * (n / 100) - List.length l)%nat with 0%nat; [cbn; now rewrite app_nil_r|]. pose proof (Nat.div_mod n 100). fold n. lia. }
    rewrite K. exact IH.
Qed.
(** Up to 99 frames, or none after the skipped ones at the last multiple of a hundred, leave no files. *)
Theorem few_frames_refuted : exists c l, (skip c < List.length l)%nat /\ out (run c l) = None.
Proof. exists (Setup 2 0 1 1 1 1 0), (repeat (Frame 0 (fun _ => 1) (fun _ => 0) 1) 99). split; [rewrite repeat_length; cbn; lia|]. apply (frames_used (Setup 2 0 1 1 1 1 0) (repeat (Frame 0 (fun _ => 1) (fun _ => 0) 1) 99)). Qed.
(** Frames after that do not count. *)
Theorem last_frames_ignored c l r : (List.length l mod 100 = 0)%nat -> (List.length r < 100)%nat -> (skip c < List.length l)%nat -> exists o, out (run c (l ++ r)) = Some o /\ (forall b, g o b = g (result c (run c l)) b) /\ (forall b, gq o b = gq (result c (run c l)) b).
Proof.
  intros M R S. pose proof (frames_used c (l ++ r)) as F. cbv zeta in F. rewrite app_length in F. assert (Q : (100 * ((List.length l + List.length r) / 100) = List.length l)%nat).
  { pose proof (Nat.div_mod (List.length l) 100). replace (List.length l + List.length r)%nat with (List.length r + (List.length l / 100) * 100)%nat by lia. rewrite Nat.div_add by lia. rewrite (Nat.div_small (List.length r)) by lia. lia. }
  rewrite Q in F. destruct (Nat.ltb_spec (skip c) (List.length l)); [|lia]. rewrite firstn_app, Nat.sub_diag, firstn_all in F. cbn in F. rewrite app_nil_r in F. exact F.
Qed.

(** ** Values *)
Definition mean (l : list frame) (h : frame -> R) : R := sum (map h l) / INR (List.length l).
(** Volume of the shell of a bin. *)
Definition shell_volume (c : setup) (b : nat) : R := 4 * PI / 3 * ((r_min c + INR (b + 1) * dr c) ^ 3 - (r_min c + INR b * dr c) ^ 3).
Lemma radius_edges c b : radius c b + 1 / 2 * (radius c 1 - radius c 0) = r_min c + INR (b + 1) * dr c /\ radius c b - 1 / 2 * (radius c 1 - radius c 0) = r_min c + INR b * dr c.
Proof. unfold radius. rewrite plus_INR. cbn. split; field. Qed.
(** The function is the mean number of neighbours per bead over that in a uniform density. *)
Theorem value c l b : (skip c < List.length l)%nat -> (0 < nbeads c)%nat -> shell_volume c b <> 0 -> g (result c (run c l)) b = last (map volume l) 0 * (mean (skipn (skip c) l) (fun f => count f b) / INR (nbeads c)) / shell_volume c b.
Proof.
  intros S P V. destruct (run_sums c l) as (I & A & _ & _ & _ & E). unfold result. cbn [g]. rewrite I, A, E. destruct (radius_edges c b) as [-> ->]. unfold mean. rewrite skipn_length.
  assert (N : INR (List.length l - skip c) <> 0) by (apply not_0_INR; lia). assert (Q : INR (nbeads c) <> 0) by (apply not_0_INR; lia). unfold shell_volume in *.
  assert (W : (r_min c + INR (b + 1) * dr c) ^ 3 - (r_min c + INR b * dr c) ^ 3 <> 0) by (intros X; apply V; rewrite X; ring). pose proof PI_RGT_0. field. repeat split; try assumption; lra.
Qed.
(** The correction is the covariance of histogram and squared forces and the derivative term. *)
Theorem corrected_value c l b : (skip c < List.length l)%nat -> (0 < nbeads c)%nat -> 0 < kT c -> shell_volume c b <> 0 ->
  let u := skipn (skip c) l in let P := INR (nbeads c) in
  gq (result c (run c l)) b - g (result c (run c l)) b = last (map volume l) 0 / shell_volume c b * (hbar c ^ 2 / (24 * P ^ 4 * kT c ^ 3) * (mean u (fun f => count f b) * mean u f2temp - mean u (fun f => f2temp f * count f b)) - hbar c ^ 2 / (24 * P ^ 3 * kT c ^ 2) * mean u (fun f => deriv f b)).
Proof.
  intros S P T V u Q. destruct (run_sums c l) as (I & A & B & C & D & E). unfold result. cbn [g gq]. rewrite I, A, B, C, D, E. destruct (radius_edges c b) as [-> ->]. unfold mean, u, Q. rewrite skipn_length.
  assert (N : INR (List.length l - skip c) <> 0) by (apply not_0_INR; lia). assert (Z : INR (nbeads c) <> 0) by (apply not_0_INR; lia). unfold shell_volume in *.
  assert (W : (r_min c + INR (b + 1) * dr c) ^ 3 - (r_min c + INR b * dr c) ^ 3 <> 0) by (intros X; apply V; rewrite X; ring). pose proof PI_RGT_0. field. repeat split; try assumption; lra.
Qed.
(** Squared forces that do not fluctuate, without derivative terms, correct nothing. *)
Theorem no_correction c l b k : (skip c < List.length l)%nat -> (0 < nbeads c)%nat -> 0 < kT c -> shell_volume c b <> 0 -> (forall f, In f l -> f2temp f = k /\ deriv f b = 0) -> gq (result c (run c l)) b = g (result c (run c l)) b.
Proof.
  intros S P T V H. pose proof (corrected_value c l b S P T V) as X. cbv zeta in X. set (u := skipn (skip c) l) in *.
  assert (U : forall f, In f u -> f2temp f = k /\ deriv f b = 0). { intros f I. apply H. rewrite <- (firstn_skipn (skip c) l). apply in_or_app. now right. }
  assert (L : INR (List.length u) <> 0) by (apply not_0_INR; unfold u; rewrite skipn_length; lia).
  assert (M1 : mean u f2temp = k). { unfold mean. rewrite (sum_const _ f2temp k) by (intros f I; apply (U f I)). field. exact L. }
  assert (M2 : mean u (fun f => deriv f b) = 0). { unfold mean. rewrite (sum_const _ _ 0) by (intros f I; apply (U f I)). field. exact L. }
  assert (M3 : mean u (fun f => f2temp f * count f b) = k * mean u (fun f => count f b)).
  { unfold mean. rewrite (map_ext_in (fun f => f2temp f * count f b) (fun f => k * count f b)) by (intros f I; now rewrite (proj1 (U f I))). rewrite sum_scal. field. exact L. }
  rewrite M1, M2, M3 in X. apply Rminus_diag_uniq. rewrite X. ring.
Qed.
(** The shells of all bins fill the range. *)
Theorem shells_fill c : (0 < nbins c)%nat -> sum (map (shell_volume c) (seq 0 (nbins c))) = 4 * PI / 3 * (r_max c ^ 3 - r_min c ^ 3).
Proof.
  intros N. assert (G : forall n, sum (map (shell_volume c) (seq 0 n)) = 4 * PI / 3 * ((r_min c + INR n * dr c) ^ 3 - r_min c ^ 3)).
  { induction n as [|n IH]; [cbn; ring|]. rewrite seq_S, map_app. cbn [map plus]. rewrite sum_snoc, IH. unfold shell_volume. replace (S n) with (n + 1)%nat by lia. ring. }
  rewrite G. replace (r_min c + INR (nbins c) * dr c) with (r_max c); [reflexivity|]. unfold dr. field. apply not_0_INR. lia.
Qed.
Print Assumptions frames_used.
Print Assumptions few_frames_refuted.
Print Assumptions last_frames_ignored.
Print Assumptions value.
Print Assumptions corrected_value.
Print Assumptions no_correction.
Print Assumptions shells_fill.
Example used_case : (List.length (repeat 0%nat 200) mod 100 = 0)%nat /\ (skip (Setup 2 0 1 1 1 1 30) < 200)%nat. Proof. split; [reflexivity|cbn; lia]. Qed.
Example value_case : g (result (Setup 2 0 2 1 1 1 1) (run (Setup 2 0 2 1 1 1 1) [Frame 5 (fun _ => 7) (fun _ => 0) 3; Frame 5 (fun _ => 4) (fun _ => 0) (PI / 3)])) 0 = 1.
Proof.
  pose proof PI_RGT_0. assert (V : shell_volume (Setup 2 0 2 1 1 1 1) 0 = 4 * PI / 3) by (unfold shell_volume, dr; cbn; field). rewrite value; [|cbn; lia|cbn; lia|rewrite V; lra]. rewrite V. unfold mean. cbn. field. lra.
Qed.
