(** * Theorems of record: the planetary frequency matrix *)
From Coq Require Import List Arith Lia Reals Lra Bool String Ascii.
From Verif Require Import RSum Ortho NMModel NMProofs NMProps SpringModel PairModel PairProofs CellModel PlanModel.
Import ListNotations.
Open Scope list_scope.
Open Scope R_scope.

(** ** C190: the screening matrix *)
(** The reshapes repeat every entry in a block of three by three. *)
Lemma divmod a b r : (r < b)%nat -> ((a * b + r) / b = a /\ (a * b + r) mod b = r)%nat.
Proof.
  intros H. split; [symmetry; apply (Nat.div_unique _ _ _ r); lia | symmetry; apply (Nat.mod_unique _ _ a); lia].
Qed.
Lemma three_times N a r : (r < N)%nat -> (a < 3)%nat ->
  (a * N + r)%nat = match a with 0 => r | 1 => N + r | _ => 2 * N + r end%nat.
Proof. intros. destruct a as [|[|[|a]]]; lia. Qed.
Theorem expand3_blocks N s x y : nr s = N -> nc s = N -> (x < 3 * N)%nat -> (y < 3 * N)%nat ->
  ent (expand3 N s) x y = ent s (x / 3) (y / 3).
Proof.
  intros A B Hx Hy. assert (HN : (0 < N)%nat) by lia.
  set (s1 := cat1 (cat1 (cat0 (cat0 s s) s) (cat0 (cat0 s s) s)) (cat0 (cat0 s s) s)).
  assert (C : forall i j, (i < 3 * N)%nat -> (j < 3 * N)%nat -> ent s1 i j = ent s (i mod N) (j mod N)).
  { intros i j Hi Hj. assert (I : (i mod N = if i <? N then i else if i <? 2 * N then i - N else i - 2 * N)%nat).
    { destruct (Nat.ltb_spec i N); [now apply Nat.mod_small|]. destruct (Nat.ltb_spec i (2 * N)); symmetry; [apply (Nat.mod_unique _ _ 1)|apply (Nat.mod_unique _ _ 2)]; lia. }
    assert (J : (j mod N = if j <? N then j else if j <? 2 * N then j - N else j - 2 * N)%nat).
    { destruct (Nat.ltb_spec j N); [now apply Nat.mod_small|]. destruct (Nat.ltb_spec j (2 * N)); symmetry; [apply (Nat.mod_unique _ _ 1)|apply (Nat.mod_unique _ _ 2)]; lia. }
    rewrite I, J. unfold s1, cat1, cat0. cbn [ent nr nc]. rewrite A, B.
    destruct (Nat.ltb_spec i N), (Nat.ltb_spec i (2 * N)), (Nat.ltb_spec i (N + N)), (Nat.ltb_spec j N), (Nat.ltb_spec j (2 * N)), (Nat.ltb_spec j (N + N));
      try lia; rewrite ?Nat.sub_diag; f_equal; lia. }
  assert (R1 : nr s1 = (3 * N)%nat) by (unfold s1, cat1, cat0; cbn [nr nc]; rewrite A; lia).
  assert (C1 : nc s1 = (3 * N)%nat) by (unfold s1, cat1, cat0; cbn [nr nc]; rewrite B; lia).
  change (expand3 N s) with (tr (reshape (3 * N) (tr (reshape N s1)))).
  unfold tr at 1. cbn [ent]. unfold reshape at 1. cbn [ent]. assert (NC : nc (tr (reshape N s1)) = (9 * N)%nat).
  { cbn [tr reshape nc nr]. rewrite R1, C1. replace (3 * N * (3 * N))%nat with (9 * N * N)%nat by lia. now apply Nat.div_mul; lia. }
  rewrite NC. pose proof (Nat.div_mod y 3 ltac:(lia)) as Dy. pose proof (Nat.mod_upper_bound y 3 ltac:(lia)) as My.
  destruct (divmod (y / 3) (9 * N) ((y mod 3) * (3 * N) + x)) as [D1 D2]; [nia|].
  replace (y * (3 * N) + x)%nat with (y / 3 * (9 * N) + (y mod 3 * (3 * N) + x))%nat by (rewrite Dy at 3; ring).
  rewrite D1, D2. unfold tr, reshape. cbn [ent]. rewrite C1.
  set (rr := (y mod 3 * (3 * N) + x)%nat). assert (Hq : (y / 3 < N)%nat) by (apply Nat.div_lt_upper_bound; lia).
  pose proof (Nat.div_mod x 3 ltac:(lia)) as Dx. pose proof (Nat.mod_upper_bound x 3 ltac:(lia)) as Mx.
  assert (Hxq : (x / 3 < N)%nat) by (apply Nat.div_lt_upper_bound; lia).
  destruct (divmod (y mod 3 * N + x / 3) (3 * N) (x mod 3 * N + y / 3)) as [D3 D4]; [nia|].
  replace (rr * N + y / 3)%nat with ((y mod 3 * N + x / 3) * (3 * N) + (x mod 3 * N + y / 3))%nat by (unfold rr; rewrite Dx at 3; ring).
  rewrite D3, D4. rewrite C; [|nia|nia]. f_equal.
  - symmetry. apply (Nat.mod_unique _ _ (y mod 3)); lia.
  - symmetry. apply (Nat.mod_unique _ _ (x mod 3)); lia.
Qed.
Lemma mvec_opp m v k : mvec m (fun c => - v c) k = - mvec m v k.
Proof. unfold mvec. rewrite <- Rsum_opp. apply Rsum_ext. intros; ring. Qed.
Lemma mvec_ext' m v v' k : (forall c, (c < 3)%nat -> v c = v' c) -> mvec m v k = mvec m v' k.
Proof. intros H. apply Rsum_ext. intros c Hc. now rewrite H. Qed.
Theorem dist2_symmetric h ih q i j : dist2 h ih q i j = dist2 h ih q j i.
Proof.
  unfold dist2. set (d := fun c => q (3 * j + c)%nat - q (3 * i + c)%nat). set (d' := fun c => q (3 * i + c)%nat - q (3 * j + c)%nat).
  assert (X : forall k, mvec ih d' k = - mvec ih d k) by (intros; rewrite <- mvec_opp; apply mvec_ext'; intros; unfold d, d'; ring).
  apply Rsum_ext. intros c _. rewrite (mvec_ext' h (fun k => mvec ih d' k - rint (mvec ih d' k)) (fun k => - (mvec ih d k - rint (mvec ih d k)))).
  - rewrite mvec_opp. ring.
  - intros k _. rewrite X, rint_opp. ring.
Qed.
Lemma dist2_self h ih q i : dist2 h ih q i i = 0.
Proof.
  unfold dist2. assert (Z : forall k, mvec ih (fun c => q (3 * i + c)%nat - q (3 * i + c)%nat) k = 0) by (intros; apply Rsum_0; intros; ring).
  apply Rsum_0. intros c _. rewrite (mvec_ext' h _ (fun _ => 0)); [unfold mvec; rewrite Rsum_0; [ring|intros; ring]|].
  intros k _. rewrite Z. rewrite (rint_near 0 0); [ring|]. rewrite Rminus_0_r, Rabs_R0. lra.
Qed.
(** It is that of the pairs of atoms closer than the parameter, symmetric, and never removes the
    entries of one atom. *)
Theorem screen_entries N screen h ih q x y : (x < 3 * N)%nat -> (y < 3 * N)%nat ->
  ent (matrix_screen N screen h ih q) x y = if Rlt_dec (dist2 h ih q (x / 3) (y / 3)) (screen ^ 2) then 1 else 0.
Proof. intros Hx Hy. unfold matrix_screen. now rewrite expand3_blocks. Qed.
Theorem screen_symmetric N screen h ih q x y : (x < 3 * N)%nat -> (y < 3 * N)%nat ->
  ent (matrix_screen N screen h ih q) x y = ent (matrix_screen N screen h ih q) y x.
Proof. intros Hx Hy. rewrite !screen_entries by easy. now rewrite dist2_symmetric. Qed.
Theorem screen_own N screen h ih q x y : 0 < screen -> (x < 3 * N)%nat -> (y < 3 * N)%nat -> (x / 3 = y / 3)%nat ->
  ent (matrix_screen N screen h ih q) x y = 1.
Proof.
  intros S Hx Hy Q. rewrite screen_entries by easy. rewrite Q, dist2_self. destruct (Rlt_dec 0 (screen ^ 2)) as [|F]; [easy|]. elim F. apply pow_lt. easy.
Qed.

(** ** C191: the frequency matrix *)
(** What is accumulated: sums over the samples and the modes that are not the centroid. *)
Lemma increments nb sm3 om l : forall w i j, fold_left (increment nb sm3 om) l w i j = w i j + Rsuml (map (fun x : sample => 
   Rsum nb (fun k => if (k =? 0)%nat then 0 else
     snd x k i / sm3 i * (snd x k j / sm3 j)
     - om k ^ 2 * (1 / 2) * (snd x k i / sm3 i * (fst x k j * sm3 j) + snd x k j / sm3 j * (fst x k i * sm3 i)))) l).
Proof.
  induction l as [|[q f] l IH]; intros w i j; [cbn; ring|]. cbn [fold_left map Rsuml fold_right]. rewrite IH. unfold increment at 1. cbn [fst snd].
  change (Rsuml (?a :: ?b)) with (a + Rsuml b). rewrite <- Rplus_assoc. f_equal.
  unfold Rminus at 1. rewrite Rplus_assoc. f_equal. rewrite Rmult_plus_distr_r, <- !Rsum_scal_r, <- Rsum_plus, <- Rsum_opp, <- Rsum_plus.
  apply Rsum_ext. intros k _. destruct (k =? 0)%nat; ring.
Qed.
(** Mass-scaled coordinates of a mode. *)
Definition ms (sm3 : nat -> R) (x : sample) (k c : nat) : R := fst x k c * sm3 c.
(** Samples of a harmonic system with the matrix K of force constants. *)
Definition harmonic (d : nat) (sm3 : nat -> R) (K : mat) (x : sample) : Prop :=
  forall k i, (i < d)%nat -> snd x k i / sm3 i = - Rsum d (fun j => K i j * ms sm3 x k j).
(** Their second moments are those of the ring polymer: C_k (K + w_k^2) = P kB T. *)
Definition thermal (nb d : nat) (sm3 om : nat -> R) (K : mat) (T : R) (samples : list sample) : Prop :=
  forall k i j, (0 < k < nb)%nat -> (i < d)%nat -> (j < d)%nat ->
  let C a b := Rsuml (map (fun x => ms sm3 x k a * ms sm3 x k b) samples) / INR (List.length samples) in
  Rsum d (fun l => K i l * C l j) + om k ^ 2 * C i j = INR nb * T * delta i j.
Definition symm (d : nat) (K : mat) : Prop := forall i j, (i < d)%nat -> (j < d)%nat -> K i j = K j i.

Lemma Rsuml_scal_r {A} (f : A -> R) c l : Rsuml (map (fun x => f x * c) l) = Rsuml (map f l) * c.
Proof. rewrite (Rsuml_map_ext _ (fun x => c * f x)) by (intros; ring). rewrite Rsuml_map_scal. ring. Qed.
Lemma mode_sum nb d sm3 om K T samples : symm d K -> Forall (harmonic d sm3 K) samples -> samples <> [] -> thermal nb d sm3 om K T samples ->
  forall k i j, (0 < k < nb)%nat -> (i < d)%nat -> (j < d)%nat ->
  Rsuml (map (fun x : sample => snd x k i / sm3 i * (snd x k j / sm3 j)
     - om k ^ 2 * (1 / 2) * (snd x k i / sm3 i * (fst x k j * sm3 j) + snd x k j / sm3 j * (fst x k i * sm3 i))) samples)
  = INR (List.length samples) * (INR nb * T) * K i j.
Proof.
  intros Sy H NE Th k i j Hk Hi Hj. set (L := INR (List.length samples)).
  assert (LP : 0 < L) by (apply lt_0_INR; destruct samples; [easy|cbn; lia]).
  set (C := fun a b => Rsuml (map (fun x => ms sm3 x k a * ms sm3 x k b) samples)).
  assert (CS : forall a b, C a b = C b a) by (intros; apply Rsuml_map_ext; intros; ring).
  assert (TH : forall a b, (a < d)%nat -> (b < d)%nat -> Rsum d (fun l => K a l * C l b) + om k ^ 2 * C a b = L * (INR nb * T) * delta a b).
  { intros a b Ha Hb. specialize (Th k a b Hk Ha Hb). cbn zeta in Th. fold L in Th. rewrite Rmult_assoc, <- Th. rewrite Rmult_plus_distr_l, <- Rsum_scal. f_equal.
    - apply Rsum_ext. intros l _. fold (C l b). field. lra.
    - fold (C a b). field. lra. }
  rewrite Forall_forall in H.
  rewrite (Rsuml_map_ext _ (fun x => Rsum d (fun a => Rsum d (fun b => K i a * K j b * (ms sm3 x k a * ms sm3 x k b)))
     + om k ^ 2 * (1 / 2) * (Rsum d (fun a => K i a * (ms sm3 x k a * ms sm3 x k j)) + Rsum d (fun a => K j a * (ms sm3 x k a * ms sm3 x k i))))).
  2:{ intros x Hx. rewrite !(H x Hx k) by easy. fold (ms sm3 x k j) (ms sm3 x k i).
      rewrite (Rsum_ext d (fun a => K i a * (ms sm3 x k a * ms sm3 x k j)) (fun a => K i a * ms sm3 x k a * ms sm3 x k j)) by (intros; ring).
      rewrite (Rsum_ext d (fun a => K j a * (ms sm3 x k a * ms sm3 x k i)) (fun a => K j a * ms sm3 x k a * ms sm3 x k i)) by (intros; ring).
      rewrite !Rsum_scal_r. rewrite (Rsum_ext d (fun a => Rsum d _) (fun a => K i a * ms sm3 x k a * Rsum d (fun b => K j b * ms sm3 x k b))).
      - rewrite Rsum_scal_r. ring.
      - intros a _. rewrite <- Rsum_scal. apply Rsum_ext. intros; ring. }
  rewrite Rsuml_map_plus, Rsuml_map_scal, Rsuml_map_plus.
  rewrite (Rsuml_map_Rsum d (fun x a => Rsum d (fun b => K i a * K j b * (ms sm3 x k a * ms sm3 x k b)))).
  rewrite (Rsuml_map_Rsum d (fun x a => K i a * (ms sm3 x k a * ms sm3 x k j))), (Rsuml_map_Rsum d (fun x a => K j a * (ms sm3 x k a * ms sm3 x k i))).
  rewrite (Rsum_ext d (fun a => Rsuml _) (fun a => K i a * Rsum d (fun b => K j b * C b a))).
  2:{ intros a _. rewrite (Rsuml_map_Rsum d (fun x b => K i a * K j b * (ms sm3 x k a * ms sm3 x k b))). rewrite <- Rsum_scal. apply Rsum_ext. intros b _.
      rewrite Rsuml_map_scal. rewrite <- Rmult_assoc. f_equal. rewrite CS. reflexivity. }
  rewrite (Rsum_ext d (fun a => Rsuml (map (fun x => K i a * _) _)) (fun a => K i a * C a j)) by (intros; now rewrite Rsuml_map_scal).
  rewrite (Rsum_ext d (fun a => Rsuml (map (fun x => K j a * _) _)) (fun a => K j a * C a i)) by (intros; now rewrite Rsuml_map_scal).
  (* K C is symmetric *)
  assert (E1 : Rsum d (fun a => K i a * C a j) = L * (INR nb * T) * delta i j - om k ^ 2 * C i j) by (specialize (TH i j Hi Hj); lra).
  assert (E2 : Rsum d (fun a => K j a * C a i) = L * (INR nb * T) * delta i j - om k ^ 2 * C i j) by (specialize (TH j i Hj Hi); rewrite (CS j i), (delta_sym j i) in TH; lra).
  rewrite (Rsum_ext d _ (fun a => K i a * (L * (INR nb * T)) * delta j a - om k ^ 2 * (K i a * C a j))).
  2:{ intros a Ha. specialize (TH j a Hj Ha). replace (Rsum d (fun b => K j b * C b a)) with (L * (INR nb * T) * delta j a - om k ^ 2 * C j a) by lra. rewrite (CS j a). ring. }
  rewrite Rsum_minus, Rsum_scal, (Rsum_delta_l d j (fun a => K i a * (L * (INR nb * T)))) by easy. rewrite E1, E2. field.
Qed.
(** The matrix saved for such samples is the matrix of force constants. *)
Theorem omega2_harmonic nb d sm3 om K T samples : (1 < nb)%nat -> 0 < T -> symm d K -> samples <> [] -> Forall (harmonic d sm3 K) samples -> thermal nb d sm3 om K T samples ->
  exists w, omega2 nb sm3 om T None samples = Some w /\ forall i j, (i < d)%nat -> (j < d)%nat -> w i j = if (j <=? i)%nat then K i j else 0.
Proof.
  intros Hn HT Sy NE H Th. unfold omega2, normalise. assert (LL : (List.length samples - 1 + 1 = List.length samples)%nat) by (destruct samples; [easy|cbn; lia]).
  rewrite LL. set (L := INR (List.length samples)). assert (LP : 0 < L) by (apply lt_0_INR; destruct samples; [easy|cbn; lia]).
  assert (N1 : 0 < INR nb) by (apply lt_0_INR; lia). assert (N2 : 0 < INR (nb - 1)) by (apply lt_0_INR; lia).
  destruct (Req_EM_T _ 0) as [Z|Z].
  - exfalso. apply Rmult_integral in Z. destruct Z as [Z|Z]; [|lra]. apply Rmult_integral in Z. destruct Z as [Z|Z]; [|lra]. apply Rmult_integral in Z. lra.
  - eexists. split; [reflexivity|]. intros i j Hi Hj. unfold tril, symmetrise. destruct (j <=? i)%nat; [|easy].
    assert (W : forall a b, (a < d)%nat -> (b < d)%nat -> fold_left (increment nb sm3 om) samples (fun _ _ => 0) a b = INR (nb - 1) * (L * (INR nb * T) * K a b)).
    { intros a b Ha Hb. rewrite increments, Rplus_0_l. rewrite (Rsuml_map_Rsum nb (fun (x : sample) k => if (k =? 0)%nat then 0 else
     snd x k a / sm3 a * (snd x k b / sm3 b) - om k ^ 2 * (1 / 2) * (snd x k a / sm3 a * (fst x k b * sm3 b) + snd x k b / sm3 b * (fst x k a * sm3 a)))).
      replace nb with (S (nb - 1)) at 1 by lia. rewrite Rsum_first. rewrite (Rsum_ext (nb - 1) _ (fun _ => L * (INR nb * T) * K a b)).
      - rewrite Rsum_const. rewrite (Rsuml_map_ext _ (fun _ => 0)) by easy. rewrite Rsuml_map_const. ring.
      - intros k Hk. cbn [Nat.eqb]. rewrite (mode_sum nb d sm3 om K T) by (try easy; lia). reflexivity. }
    rewrite !W by easy. rewrite (Sy j i) by easy. field. repeat split; lra.
Qed.
(** With one bead the result is NaN whatever the samples. *)
Theorem omega2_one_bead_refuted sm3 om T scr samples : omega2 1 sm3 om T scr samples = None.
Proof. unfold omega2, normalise. rewrite Rmult_0_r. now destruct (Req_EM_T 0 0). Qed.
(** A case: one coordinate of unit mass and force constant 3, two beads, the mode at the two
    places +1 and -1, temperature 2. *)
Example harmonic_case : let K : mat := fun _ _ => 3 in
  let smp x : sample := (fun k c => x, fun k c => -3 * x) in let samples := [smp 1; smp (-1)] in
  (1 < 2)%nat /\ symm 1 K /\ Forall (harmonic 1 (fun _ => 1) K) samples /\ thermal 2 1 (fun _ => 1) (fun _ => 1) K 2 samples.
Proof.
  cbn zeta. split; [lia|]. split; [easy|]. split.
  - repeat constructor; intros k i Hi; unfold ms; cbn; field.
  - intros k i j Hk Hi Hj. replace i with 0%nat by lia. replace j with 0%nat by lia. unfold ms, delta. cbn. field.
Qed.
(** What is saved is lower triangular, the upper part is recovered by symmetry, and the screening
    only removes entries. *)
Theorem omega2_lower nb sm3 om T scr samples w i j : omega2 nb sm3 om T scr samples = Some w -> (i < j)%nat -> w i j = 0.
Proof.
  unfold omega2. destruct (normalise _ _ _ _); [|easy]. intros Q; injection Q as <-. intros H. unfold tril. destruct (Nat.leb_spec j i); [lia|easy].
Qed.
Theorem omega2_screened nb N sm3 om T screen h ih q samples w : omega2 nb sm3 om T None samples = Some w ->
  exists w', omega2 nb sm3 om T (Some (matrix_screen N screen h ih q)) samples = Some w' /\
  forall x y, (x < 3 * N)%nat -> (y < 3 * N)%nat -> w' x y = if Rlt_dec (dist2 h ih q (x / 3) (y / 3)) (screen ^ 2) then w x y else 0.
Proof.
  unfold omega2. destruct (normalise _ _ _ _) as [v|]; [|easy]. intros Q; injection Q as <-. eexists; split; [reflexivity|]. intros x y Hx Hy.
  unfold tril, symmetrise. rewrite (screen_symmetric N screen h ih q y x), screen_entries by easy. destruct (y <=? x)%nat, (Rlt_dec _ _); ring.
Qed.

(** ** C192: the constrained-centroid dynamics *)
Lemma sin_PI_pos n : (1 < n)%nat -> 0 < sin (PI / INR n).
Proof.
  intros H. assert (2 <= INR n) by (change 2 with (INR 2); apply le_INR; lia). pose proof PI_RGT_0. apply sin_gt_0.
  - apply Rdiv_lt_0_compat; lra.
  - apply Rmult_lt_reg_r with (INR n); [lra|]. unfold Rdiv. rewrite Rmult_assoc, Rinv_l by lra. nra.
Qed.
(** All its modes have the lowest frequency of a ring polymer of its number of beads. *)
Theorem dnm_freqs_lowest P nb T l : (1 < P)%nat -> (0 < nb)%nat -> dnm_freqs P nb (omegak (INR P * T) P 1) = Some l ->
  List.length l = (nb - 1)%nat /\ Forall (fun f => f = omegak (INR nb * T) nb 1) l.
Proof.
  intros HP Hn. unfold dnm_freqs. destruct (Nat.leb_spec P 1); [lia|]. intros Q; injection Q as <-. split; [apply repeat_length|].
  apply Forall_forall. intros x Hx. apply repeat_spec in Hx. rewrite Hx. unfold omegak, nm_eva. cbn [INR]. rewrite !Rmult_1_l.
  pose proof (sin_PI_pos P HP). assert (0 < INR P) by (apply lt_0_INR; lia). field. split; lra.
Qed.
Theorem dnm_freqs_one_bead_refuted nb om1 : dnm_freqs 1 nb om1 = None.
Proof. reflexivity. Qed.
(** The starting configuration has the centroid of the path. *)
Theorem start_centroid P nb q s c : (0 < nb)%nat -> (0 < P)%nat -> start_modes P nb (nm_trans_b2nm P [] q) = Some s ->
  Rsum nb (fun b => nm_trans_nm2b nb [] s b c) / INR nb = Rsum P (fun b => q b c) / INR P.
Proof.
  intros Hn HP H. assert (S0 : s 0%nat c = nm_trans_b2nm P [] q 0%nat c * sqrt (INR nb) / sqrt (INR P)).
  { unfold start_modes in H. destruct (nb <=? P)%nat; [injection H as <-; easy|]. destruct (P =? 1)%nat; [injection H as <-; easy|easy]. }
  pose proof (nm_roundtrip_modes nb [] s 0%nat c Hn Hn) as X. rewrite nm_centroid in X by easy. rewrite S0, nm_centroid in X by easy.
  pose proof (INR_pos nb Hn) as A. pose proof (INR_pos P HP) as B. pose proof (sqrt_lt_R0 _ A) as A'. pose proof (sqrt_lt_R0 _ B) as B'.
  set (u := Rsum nb _ / INR nb) in *. set (v := Rsum P _ / INR P) in *. set (x := sqrt (INR nb)) in *. set (z := sqrt (INR P)) in *.
  apply Rmult_eq_reg_l with x; [|lra]. rewrite X. field. lra.
Qed.
(** With as many beads as the path, or with one or two, it is the contraction of the path. *)
Theorem start_contracts P nb q s k c : (0 < nb <= P)%nat -> (nb = P \/ nb <= 2)%nat -> (k < nb)%nat ->
  start_modes P nb (nm_trans_b2nm P [] q) = Some s -> s k c = nm_trans_b2nm nb [] (rescale_b1tob2 P nb [] true q) k c.
Proof.
  intros Hn Hs Hk. unfold start_modes. destruct (Nat.leb_spec nb P); [|lia]. intros Q; injection Q as <-.
  assert (PP : 0 < INR P) by (apply lt_0_INR; lia). assert (PN : 0 < INR nb) by (apply lt_0_INR; lia).
  destruct (Nat.eq_dec nb P) as [->|NE].
  - unfold rescale_b1tob2. rewrite Nat.eqb_refl. pose proof (sqrt_lt_R0 _ PP). field. lra.
  - rewrite contraction_modes by lia. rewrite sqrt_div by lra. assert (K : (k <=? nb / 2)%nat = true).
    { apply Nat.leb_le. assert (X : nb = 1%nat \/ nb = 2%nat) by lia. destruct X as [-> | ->]; cbn; lia. }
    rewrite K. pose proof (sqrt_lt_R0 _ PP). field. lra.
Qed.
(** Otherwise not: with three beads of four the mode of half the period takes the place of the
    second slow mode. *)
Theorem start_contracts_refuted : exists P nb q s k c, (0 < nb <= P)%nat /\ (k < nb)%nat /\
  start_modes P nb (nm_trans_b2nm P [] q) = Some s /\ s k c <> nm_trans_b2nm nb [] (rescale_b1tob2 P nb [] true q) k c.
Proof.
  set (e := fun k c : nat => if (k =? 2)%nat then 1 else 0). exists 4%nat, 3%nat, (nm_trans_nm2b 4 [] e).
  eexists. exists 2%nat, 0%nat. split; [lia|]. split; [lia|]. split; [reflexivity|]. cbn beta. rewrite contraction_modes by lia. change (2 <=? 3 / 2)%nat with false. cbv iota.
  rewrite !nm_roundtrip_modes by lia. change (4 - (3 - 2))%nat with 3%nat. unfold e. cbn [Nat.eqb]. rewrite Rmult_0_r.
  assert (0 < sqrt (INR 3)) by (apply sqrt_lt_R0; cbn; lra). assert (0 < sqrt (INR 4)) by (apply sqrt_lt_R0; cbn; lra).
  apply Rgt_not_eq. rewrite Rmult_1_l. apply Rdiv_lt_0_compat; lra.
Qed.
(** More beads than the path: the assignment fails. *)
Theorem start_more_beads_refuted P nb q : (1 < P < nb)%nat -> start_modes P nb q = None.
Proof. intros H. unfold start_modes. destruct (Nat.leb_spec nb P); [lia|]. destruct (Nat.eqb_spec P 1); [lia|easy]. Qed.
(** The centroid starts at rest, so that it stays. *)
Theorem start_momenta_centroid nb temp kb dynm3 xi c : Rsum nb (fun b => nm_trans_nm2b nb [] (start_momenta nb temp kb dynm3 xi) b c) = 0.
Proof.
  destruct nb as [|m]; [easy|]. pose proof (nm_roundtrip_modes (S m) [] (start_momenta (S m) temp kb dynm3 xi) 0%nat c ltac:(lia) ltac:(lia)) as X.
  rewrite nm_centroid in X by lia. assert (A : 0 < sqrt (INR (S m))) by (apply sqrt_lt_R0, lt_0_INR; lia).
  change (start_momenta (S m) temp kb dynm3 xi 0%nat c) with 0 in X. assert (B : 0 < INR (S m)) by (apply lt_0_INR; lia).
  apply Rmult_integral in X. destruct X as [X|X]; [lra|]. unfold Rdiv in X. apply Rmult_integral in X. destruct X as [X|X]; [exact X|]. apply Rinv_neq_0_compat in X; [easy|lra].
Qed.
(** Squares of unit normal numbers give the kinetic temperature nb times the temperature. *)
Theorem start_momenta_scale nb temp kb dynm3 xi k c : (0 < k)%nat -> 0 <= temp * INR nb * kb -> 0 < dynm3 k c ->
  start_momenta nb temp kb dynm3 xi k c ^ 2 / dynm3 k c = INR nb * kb * temp * xi k c ^ 2.
Proof.
  intros Hk A B. unfold start_momenta. destruct (Nat.eqb_spec k 0); [lia|]. rewrite !Rpow_mult_distr, <- !Rsqr_pow2, !Rsqr_sqrt by lra. field. lra.
Qed.
(** ** C193: which steps *)
Theorem triggered_steps stride s : (0 < stride)%nat -> triggered (Some s) stride = true <-> exists k, s = (k * stride)%nat.
Proof.
  intros H. unfold triggered. rewrite Nat.eqb_eq. rewrite Nat.mod_divide by lia. split; intros [k Hk]; exists k; lia.
Qed.

Print Assumptions expand3_blocks.
Print Assumptions dist2_symmetric.
Print Assumptions screen_entries.
Print Assumptions screen_symmetric.
Print Assumptions screen_own.
Print Assumptions omega2_harmonic.
Print Assumptions omega2_one_bead_refuted.
Print Assumptions omega2_lower.
Print Assumptions omega2_screened.
Print Assumptions dnm_freqs_lowest.
Print Assumptions dnm_freqs_one_bead_refuted.
Print Assumptions start_centroid.
Print Assumptions start_contracts.
Print Assumptions start_contracts_refuted.
Print Assumptions start_more_beads_refuted.
Print Assumptions start_momenta_centroid.
Print Assumptions start_momenta_scale.
Print Assumptions triggered_steps.
