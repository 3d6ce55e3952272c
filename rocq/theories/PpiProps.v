(** * Theorems about the perturbed path integral tools *)
From Coq Require Import String Ascii List Reals Lra Lia Arith Bool ZArith.
From Verif Require Import RSum EstModel EstLib EstKin EstProps PpiModel.
Import ListNotations.
Open Scope R_scope.

(** ** Specification: averages over a list of frames *)
Definition mean (g : frame -> R) (l : list frame) : R := Rsuml (map g l) / INR (List.length l).
Definition cov (g h : frame -> R) (l : list frame) : R := mean (fun x => g x * h x) l - mean g l * mean h l.
(** averages with weights *)
Definition wav (w g : frame -> R) (l : list frame) : R := Rsuml (map (fun x => g x * w x) l) / Rsuml (map w l).

Lemma length_pos {A} (l : list A) : l <> [] -> 0 < INR (List.length l).
Proof. intros H. destruct l; [easy|]. cbn [List.length]. apply lt_0_INR. lia. Qed.
Lemma Rsuml_pos {A} (w : A -> R) l : l <> [] -> (forall x, 0 < w x) -> 0 < Rsuml (map w l).
Proof.
  intros H P. destruct l as [|x l]; [easy|]. clear H. revert x. induction l as [|y l IH]; intros x; cbn [map Rsuml].
  - pose proof (P x). lra.
  - pose proof (IH y). cbn [map Rsuml] in H. pose proof (P x). lra.
Qed.
Lemma derivable_Rsuml {A} (f : A -> R -> R) (d : A -> R) t l : (forall x, derivable_pt_lim (f x) t (d x)) ->
  derivable_pt_lim (fun e => Rsuml (map (fun x => f x e) l)) t (Rsuml (map d l)).
Proof.
  intros H. induction l as [|x l IH]; cbn [map Rsuml].
  - apply derivable_pt_lim_const.
  - apply (derivable_pt_lim_plus (f x) (fun e => Rsuml (map (fun y => f y e) l))); [apply H|exact IH].
Qed.
(** the derivative of an average whose observable and weights move *)
Lemma average_derive (g a : R -> frame -> R) (g' a' : frame -> R) t l : l <> [] ->
  (forall x, derivable_pt_lim (fun e => g e x) t (g' x)) -> (forall x, derivable_pt_lim (fun e => a e x) t (a' x)) ->
  let w := fun x => exp (- a t x) in
  derivable_pt_lim (fun e => wav (fun x => exp (- a e x)) (g e) l) t
    (wav w g' l - (wav w (fun x => g t x * a' x) l - wav w (g t) l * wav w a' l)).
Proof.
  intros Hl G D w. unfold wav.
  assert (W : forall x, derivable_pt_lim (fun e => exp (- a e x)) t (- a' x * w x)).
  { intros x. apply derivable_eq with (exp (- a t x) * - a' x); [unfold w; ring|].
    apply (derivable_pt_lim_comp (fun e => - a e x) exp t (- a' x) (exp (- a t x))).
    - apply (derivable_pt_lim_opp (fun e => a e x)), D.
    - apply derivable_pt_lim_exp. }
  assert (DN := derivable_Rsuml (fun x e => g e x * exp (- a e x)) (fun x => g' x * w x + g t x * (- a' x * w x)) t l
    (fun x => derivable_pt_lim_mult (fun e => g e x) (fun e => exp (- a e x)) t _ _ (G x) (W x))).
  assert (DD := derivable_Rsuml (fun x e => exp (- a e x)) (fun x => - a' x * w x) t l W).
  cbv beta in DN, DD. assert (P : 0 < Rsuml (map w l)) by (apply Rsuml_pos; [easy|intros; apply exp_pos]).
  eapply derivable_eq; [|apply (derivable_pt_lim_div _ _ t _ _ DN DD); apply Rgt_not_eq; exact P].
  cbv beta. fold w. rewrite Rsuml_map_plus.
  rewrite (Rsuml_map_ext (fun x => g t x * (- a' x * w x)) (fun x => -1 * (g t x * a' x * w x))) by (intros; ring).
  rewrite (Rsuml_map_ext (fun x => - a' x * w x) (fun x => -1 * (a' x * w x))) by (intros; ring). rewrite !Rsuml_map_scal.
  change (fun x : frame => exp (- a t x)) with w. unfold Rsqr.
  change (map (fun x => w x) l) with (map w l). change (map (fun x : frame => exp (- a t x)) l) with (map w l).
  change (map (fun x : frame => g t x * exp (- a t x)) l) with (map (fun x : frame => g t x * w x) l). field. lra.
Qed.
Lemma wav_one g l : l <> [] -> wav (fun _ => 1) g l = mean g l.
Proof.
  intros H. unfold wav, mean. rewrite Rsuml_map_const, (Rsuml_map_ext (fun x => g x * 1) g) by (intros; ring).
  now rewrite Rmult_1_r.
Qed.
Lemma wav_ext w w' g g' l : (forall x, w x = w' x) -> (forall x, g x = g' x) -> wav w g l = wav w' g' l.
Proof.
  intros A B. unfold wav. rewrite (Rsuml_map_ext (fun x => g x * w x) (fun x => g' x * w' x)) by (intros; now rewrite A, B).
  rewrite (Rsuml_map_ext w w') by (intros; apply A). reflexivity.
Qed.
Lemma mean_plus g h l : mean (fun x => g x + h x) l = mean g l + mean h l.
Proof. unfold mean. rewrite Rsuml_map_plus. unfold Rdiv. ring. Qed.
Lemma mean_scal c g l : mean (fun x => c * g x) l = c * mean g l.
Proof. unfold mean. rewrite Rsuml_map_scal. unfold Rdiv. ring. Qed.
Lemma mean_const c l : l <> [] -> mean (fun _ => c) l = c.
Proof. intros H. unfold mean. rewrite Rsuml_map_const. pose proof (length_pos l H). field. lra. Qed.
Lemma mean_ext g h l : (forall x, g x = h x) -> mean g l = mean h l.
Proof. intros H. unfold mean. f_equal. apply Rsuml_map_ext. intros; apply H. Qed.

(** ** The lines *)
Definition totals (i : nat) (t : R) (l : list frame) : sums :=
  mksums i t (Rsuml (map f2 l)) (Rsuml (map fKPa l)) (Rsuml (map (fun x => f2 x * fKPa x) l)) (Rsuml (map fU l)) (Rsuml (map (fun x => f2 x * fU x) l))
    (Rsuml (map fKVir l)) (Rsuml (map (fun x => (fKPa x + fU x) ^ 2) l)) (Rsuml (map (fun x => f2 x * (fKPa x + fU x) ^ 2) l)).
Lemma add_totals i t l x : add (totals i t l) x = totals (S i) t (l ++ [x]).
Proof. unfold add, totals. cbn. f_equal; rewrite map_app, Rsuml_app; cbn; ring. Qed.
Lemma run_after {A} skip (out : sums -> R -> A) t l : forall done, run skip out (totals (skip + List.length done) t done) l =
  map (fun n => out (totals (skip + List.length done + S n) t (done ++ firstn (S n) l)) (ft (nth n l (mkfr 0 0 0 0 0)) - t)) (seq 0 (List.length l)).
Proof.
  induction l as [|x l IH]; intros done; [easy|]. cbn [run]. unfold step at 1. cbn [ifr totals].
  replace (skip + List.length done <? skip)%nat with false by (symmetry; apply Nat.ltb_ge; lia).
  cbn [List.length seq map]. cbn [app]. rewrite add_totals. f_equal.
  - cbn [firstn nth time0 totals]. now rewrite Nat.add_succ_r, Nat.add_0_r.
  - replace (S (skip + List.length done)) with (skip + List.length (done ++ [x]))%nat by (rewrite app_length; cbn; lia).
    rewrite IH. rewrite <- seq_shift, map_map. apply map_ext. intros n. rewrite app_length. cbn [List.length nth firstn].
    rewrite <- app_assoc. cbn [app].
    replace (skip + (List.length done + 1) + S n)%nat with (skip + List.length done + S (S n))%nat by lia. reflexivity.
Qed.
Definition last_time (skip : nat) (l : list frame) : R := ft (last (firstn skip l) (mkfr 0 0 0 0 0)).
Lemma last_cons {A} (x y : A) l d : last (x :: y :: l) d = last (y :: l) d.
Proof. reflexivity. Qed.
Lemma run_skip {A} (out : sums -> R -> A) skip l : forall k t, (k <= skip)%nat ->
  run skip out (totals k t []) l =
  run skip out (totals skip (ft (last (firstn (skip - k) l) (mkfr t 0 0 0 0))) []) (skipn (skip - k) l).
Proof.
  induction l as [|x l IH]; intros k t H.
  - rewrite firstn_nil, skipn_nil. reflexivity.
  - destruct (Nat.eq_dec k skip) as [->|N]; [rewrite Nat.sub_diag; reflexivity|].
    cbn [run]. unfold step at 1. cbn [ifr totals]. replace (k <? skip)%nat with true by (symmetry; apply Nat.ltb_lt; lia).
    cbn [app]. change (mksums (S k) (ft x) (f2_av (totals k t [])) (KPa_av (totals k t [])) (f2KPa_av (totals k t [])) (U_av (totals k t []))
      (f2U_av (totals k t [])) (KVir_av (totals k t [])) (E2_av (totals k t [])) (f2E2_av (totals k t []))) with (totals (S k) (ft x) []).
    rewrite IH by lia. replace (skip - k)%nat with (S (skip - S k)) by lia. cbn [firstn skipn]. f_equal. f_equal.
    destruct (firstn (skip - S k) l) as [|y r]; [reflexivity|]. rewrite last_cons.
    clear. revert y. induction r as [|z r IH]; intros y; [reflexivity|]. rewrite !last_cons. apply IH.
Qed.
Lemma run_lines {A} (out : sums -> R -> A) skip l : (skip <= List.length l)%nat ->
  run skip out sums0 l = map (fun n => out (totals (skip + S n) (last_time skip l) (firstn (S n) (skipn skip l)))
    (ft (nth (skip + n) l (mkfr 0 0 0 0 0)) - last_time skip l)) (seq 0 (List.length l - skip)).
Proof.
  intros H. change sums0 with (totals 0 0 []). rewrite run_skip by lia. rewrite Nat.sub_0_r.
  pose proof (run_after skip out (ft (last (firstn skip l) (mkfr 0 0 0 0 0))) (skipn skip l) []) as E.
  cbn [List.length] in E. rewrite Nat.add_0_r in E. rewrite E, skipn_length. apply map_ext_in. intros n Hn. apply in_seq in Hn.
  cbn [app]. unfold last_time. do 3 f_equal. rewrite <- (firstn_skipn skip l) at 2. rewrite app_nth2; rewrite firstn_length; [|lia].
  f_equal. lia.
Qed.

(** ** C273 the estimators *)
(** The primitive and the virial kinetic energy are i-PI's kinetic_td and kinetic_cv of the same positions and forces. *)
Theorem ppi_estimators s hbar : (0 < nb s)%nat -> 0 < EstModel.kb s -> 0 < temp s -> 0 < hbar -> bosons s = [] ->
  om2 s = (INR (nb s) * EstModel.kb s * temp s / hbar) ^ 2 ->
  get_kintd s [] = Some (KPa_slow (nb s) (na s) (ms s) (EstModel.kb s) hbar (temp s) (qq s)) /\
  get_kincv s [] = Some (KVir_slow (nb s) (na s) (EstModel.kb s) (temp s) (qq s) (ff s)).
Proof.
  intros Hn Hk Ht Hh Hb Ho. assert (Hp : 0 < INR (nb s)) by now apply lt_0_INR. split.
  - rewrite kintd_sum, resolve_nil by easy. f_equal. rewrite sum_over_all. unfold KPa_slow.
    rewrite (Rsum_swap (nb s - 1) (na s)). unfold ktd1. rewrite Rsum_plus, Rsum_const.
    rewrite Ho. unfold ring2.
    set (A := fun i => Rsum (nb s - 1) (fun b => sum3 i (fun j => (qq s (S b) j - qq s b j) ^ 2))).
    set (B := fun i => sum3 i (fun j => (qq s (nb s - 1)%nat j - qq s 0%nat j) ^ 2)).
    rewrite (Rsum_ext (na s) _ (fun i => (A i * ms s i + B i * ms s i) * (- (1 / 2) * (INR (nb s) * EstModel.kb s * temp s / hbar) ^ 2 / INR (nb s)))) by (intros; unfold A, B; field; lra).
    rewrite Rsum_scal_r, Rsum_plus.
    rewrite (Rsum_ext (na s) (fun i => dot3 (diff (qq s 0%nat) (qq s (nb s - 1)%nat)) _ i * ms s i) (fun i => B i * ms s i)).
    2:{ intros i _. unfold B, sum3, dot3, diff. rewrite (Nat.mul_comm i 3). ring. }
    rewrite (Rsum_ext (na s) (fun i => Rsum (nb s - 1) _) (fun i => A i * ms s i)).
    2:{ intros i _. unfold A. rewrite <- Rsum_scal_r. apply Rsum_ext. intros b _. unfold sum3, dot3, diff. rewrite (Nat.mul_comm i 3). ring. }
    unfold const_1, const_2, beta. field. repeat split; lra.
  - rewrite kincv_sum, resolve_nil by easy. f_equal. rewrite sum_over_all. unfold KVir_slow, kcv1. 
    rewrite Rsum_plus, Rsum_const. unfold const_3, beta.
    rewrite (Rsum_ext (na s) (fun i => Rsum (nb s) (fun j => dot3 _ _ i)) (fun i => -1 * Rsum (nb s) (fun b => sum3 i (fun c => dev s b c * ff s b c)))).
    2:{ intros i _. rewrite <- Rsum_scal. apply Rsum_ext. intros b _. unfold sum3, dot3, diff, dev, qc, rc. rewrite (Nat.mul_comm i 3). ring. }
    rewrite ?Rsum_scal, ?Rsum_scal_r. unfold kT. field. repeat split; lra.
Qed.
(** With the compiled module the same numbers come out, although the virial is called with the forces as positions and the positions
    as forces. *)
Theorem virial_symmetric P N x y : (0 < P)%nat -> find_virial P N x y = find_virial P N y x.
Proof.
  intros H. assert (Hp : 0 < INR P) by now apply lt_0_INR. unfold find_virial. f_equal. apply Rsum_ext. intros i _. apply Rsum_ext. intros k _.
  set (c := (k + 3 * i)%nat).
  assert (E : forall u v, Rsum P (fun b => (xc P u c - u b c) * v b c) = xc P u c * Rsum P (fun b => v b c) - Rsum P (fun b => u b c * v b c)).
  { intros u v. rewrite <- Rsum_scal, <- Rsum_minus. apply Rsum_ext. intros; ring. }
  rewrite !E. rewrite (Rsum_ext P (fun b => y b c * x b c) (fun b => x b c * y b c)) by (intros; ring).
  unfold xc. field. lra.
Qed.
Theorem ppi_fast P N m kb hbar T time U q f : (0 < P)%nat -> 0 < kb -> 0 < T -> 0 < hbar ->
  frame_of P N m kb hbar T true time U q f = frame_of P N m kb hbar T false time U q f.
Proof.
  intros H Hk Ht Hh. assert (Hp : 0 < INR P) by now apply lt_0_INR. unfold frame_of.
  assert (I : forall i, ((3 * S i - 3 = i * 3) /\ (3 * S i - 2 = i * 3 + 1) /\ (3 * S i - 1 = i * 3 + 2))%nat) by (intros; lia).
  f_equal.
  - unfold F2divM, f2_slow. apply Rsum_ext. intros b _. apply Rsum_ext. intros i _. destruct (I i) as (-> & -> & ->). unfold dot3. reflexivity.
  - unfold KPa_fast, KPa_slow, find_coupling. f_equal. rewrite (Rsum_swap (P - 1) N).
    set (A := fun i => Rsum (P - 1) (fun b => sq3 q b (S b) i)). set (B := fun i => sq3 q (P - 1)%nat 0%nat i).
    rewrite (Rsum_ext N (fun i => dot3 _ _ i * m i) (fun i => B i * m i)) by (intros i _; unfold B, sq3, dot3, diff; rewrite (Nat.mul_comm i 3); ring).
    rewrite (Rsum_ext N (fun i => Rsum (P - 1) _) (fun i => A i * m i)).
    2:{ intros i _. unfold A. rewrite <- Rsum_scal_r. apply Rsum_ext. intros b _. unfold sq3, dot3, diff. rewrite (Nat.mul_comm i 3). ring. }
    rewrite (Rsum_ext N (fun i => _ * m i) (fun i => A i * m i + B i * m i)) by (intros; unfold A, B; ring). rewrite Rsum_plus.
    unfold const_4, const_1, beta. field. repeat split; lra.
  - unfold KVir_fast, KVir_slow. f_equal. rewrite virial_symmetric by easy. unfold find_virial. f_equal. apply Rsum_ext. intros i _.
    rewrite (Rsum_swap 3 P). apply Rsum_ext. intros b _. cbn [Rsum]. unfold dot3, diff, rc, xc.
    replace (0 + 3 * i)%nat with (i * 3)%nat by lia. replace (1 + 3 * i)%nat with (i * 3 + 1)%nat by lia. replace (2 + 3 * i)%nat with (i * 3 + 2)%nat by lia. ring.
Qed.

(** ** C274 the lines of energies_ppi.py *)
(** hbar^2 b^2 / (24 P^3) *)
Definition strength (P : nat) (hbar b : R) : R := hbar ^ 2 * b ^ 2 / (24 * INR P ^ 3).
Definition shift_U (P : nat) (hbar b : R) (w : list frame) : R := strength P hbar b * (2 * mean f2 w - b * cov f2 fU w).
Definition shift_K (P : nat) (hbar b : R) (w : list frame) : R := strength P hbar b * (mean f2 w - b * cov f2 fKPa w).

Lemma dU_shift P kb hbar T i t w : w <> [] -> (0 < P)%nat -> 0 < kb -> 0 < T ->
  dU P kb hbar T (INR (List.length w)) (totals i t w) = shift_U P hbar (1 / (kb * T)) w.
Proof.
  intros Hw Hp Hk Ht. pose proof (length_pos w Hw). pose proof (lt_0_INR P Hp). unfold dU, shift_U, cov, mean, const_6, strength, beta. cbn [f2_av f2U_av U_av totals].
  field. repeat split; lra.
Qed.
Lemma dK_shift P kb hbar T i t w : w <> [] -> (0 < P)%nat -> 0 < kb -> 0 < T ->
  dK P kb hbar T (INR (List.length w)) (totals i t w) = shift_K P hbar (1 / (kb * T)) w.
Proof.
  intros Hw Hp Hk Ht. pose proof (length_pos w Hw). pose proof (lt_0_INR P Hp). unfold dK, shift_K, cov, mean, const_5, strength, beta. cbn [f2_av f2KPa_av KPa_av totals].
  field. repeat split; lra.
Qed.
Lemma norm_totals skip n t w : norm skip (totals (skip + n) t w) = INR n.
Proof. unfold norm. cbn. f_equal. lia. Qed.
Lemma window skip (l : list frame) n : (n < List.length l - skip)%nat ->
  firstn (S n) (skipn skip l) <> [] /\ List.length (firstn (S n) (skipn skip l)) = S n.
Proof.
  intros H. assert (E : List.length (firstn (S n) (skipn skip l)) = S n) by (rewrite firstn_length, skipn_length; lia).
  split; [|exact E]. intros Z. rewrite Z in E. discriminate.
Qed.
(** Line n holds the averages over the first n + 1 frames after the skipped ones, and times counted from the last skipped frame. *)
Theorem ppi_lines P kb hbar T user skip l : (0 < P)%nat -> 0 < kb -> 0 < T -> (skip <= List.length l)%nat ->
  energies P kb hbar T user skip l =
  map (fun n => let w := firstn (S n) (skipn skip l) in
    let du := user (shift_U P hbar (1 / (kb * T)) w) in let dk := user (shift_K P hbar (1 / (kb * T)) w) in
    let u := user (mean fU w) in let kv := user (mean fKVir w) in
    [ft (nth (skip + n) l (mkfr 0 0 0 0 0)) - last_time skip l; kv + u + dk + du; kv + u; dk + du; u + du; u; du; kv + dk; kv; dk])
  (seq 0 (List.length l - skip)).
Proof.
  intros Hp Hk Ht H. unfold energies. rewrite run_lines by easy. apply map_ext_in. intros n Hn. apply in_seq in Hn.
  destruct (window skip l n ltac:(lia)) as [W L]. set (w := firstn (S n) (skipn skip l)) in *. unfold columns.
  replace (norm skip (totals (skip + S n) (last_time skip l) w)) with (INR (List.length w)) by (rewrite norm_totals, L; reflexivity).
  rewrite dU_shift, dK_shift by easy. reflexivity.
Qed.
(** Too few frames: nothing is written. *)
Theorem ppi_short P kb hbar T user skip l : (List.length l <= skip)%nat -> energies P kb hbar T user skip l = [].
Proof.
  intros H. unfold energies. change sums0 with (totals 0 0 []). rewrite run_skip by lia. rewrite Nat.sub_0_r, skipn_all2 by lia. reflexivity.
Qed.

(** ** C275 the corrections to first order *)
Lemma wav_exp0 (a : frame -> R) g l : l <> [] -> (forall x, a x = 0) -> wav (fun x => exp (- a x)) g l = mean g l.
Proof. intros H Z. rewrite <- wav_one by easy. apply wav_ext; [|easy]. intros x. now rewrite Z, Ropp_0, exp_0. Qed.
Lemma derivable_lin (k c : R) t : derivable_pt_lim (fun e => c + e * k) t k.
Proof.
  apply derivable_eq with (0 + 1 * k); [ring|]. apply (derivable_pt_lim_plus (fun _ => c) (fun e => e * k)); [apply derivable_pt_lim_const|].
  apply derivable_ext with (fun e => k * e); [intros; ring|]. apply derivable_eq with (k * 1); [ring|].
  apply (derivable_pt_lim_scal id k t 1), derivable_pt_lim_id.
Qed.
(** An observable that grows as [g + e k f2] averaged with the weights of the potential raised by [e c f2]. *)
Definition perturbed (b c k : R) (g : frame -> R) (l : list frame) (e : R) : R :=
  wav (fun x => exp (- (e * (b * c * f2 x)))) (fun x => g x + e * (k * c * f2 x)) l.
Lemma perturbed_derive b c k g l : l <> [] ->
  derivable_pt_lim (perturbed b c k g l) 0 (c * (k * mean f2 l - b * cov f2 g l)).
Proof.
  intros Hl. assert (A := average_derive (fun e x => g x + e * (k * c * f2 x)) (fun e x => e * (b * c * f2 x))
    (fun x => k * c * f2 x) (fun x => b * c * f2 x) 0 l Hl).
  cbv zeta in A. eapply derivable_eq; [|apply A].
  - rewrite !wav_exp0 by (easy || (intros; ring)). unfold cov.
    rewrite (mean_ext (fun x => (g x + 0 * (k * c * f2 x)) * (b * c * f2 x)) (fun x => b * c * (f2 x * g x))) by (intros; ring).
    rewrite (mean_ext (fun x => g x + 0 * (k * c * f2 x)) g) by (intros; ring).
    rewrite !mean_scal. ring.
  - intros x. apply derivable_lin.
  - intros x. apply derivable_ext with (fun e => 0 + e * (b * c * f2 x)); [intros; ring|apply derivable_lin].
Qed.
(** The fourth order term of the factorisation: an effective potential [strength * f2] per bead average. Its own temperature dependence
    makes the potential energy estimator grow twice as fast as the potential and the kinetic energy estimator once. The corrections
    written are the derivatives at zero of the averages in the perturbed ensemble, and of no other. *)
Theorem ppi_first_order P kb hbar T l i t : l <> [] -> (0 < P)%nat -> 0 < kb -> 0 < T ->
  let b := 1 / (kb * T) in let c := strength P hbar b in let n := INR (List.length l) in
  derivable_pt_lim (perturbed b c 2 fU l) 0 (dU P kb hbar T n (totals i t l)) /\
  derivable_pt_lim (perturbed b c 1 fKPa l) 0 (dK P kb hbar T n (totals i t l)) /\
  derivable_pt_lim (perturbed b c 3 (fun x => fKPa x + fU x) l) 0 (dE_total P kb hbar T l).
Proof.
  intros Hl Hp Hk Ht b c n. unfold n. rewrite dU_shift, dK_shift by easy. fold b. repeat split.
  - apply derivable_eq with (c * (2 * mean f2 l - b * cov f2 fU l)); [reflexivity|now apply perturbed_derive].
  - apply derivable_eq with (c * (1 * mean f2 l - b * cov f2 fKPa l)); [unfold shift_K; fold c; ring|now apply perturbed_derive].
  - apply derivable_eq with (c * (3 * mean f2 l - b * cov f2 (fun x => fKPa x + fU x) l)); [|now apply perturbed_derive].
    unfold c, b, strength, dE_total, const_5, cov, mean, beta. pose proof (length_pos l Hl). pose proof (lt_0_INR P Hp).
    field. repeat split; lra.
Qed.
(** The tool for the total energy and the sum of the two corrections agree. *)
Theorem ppi_total P kb hbar T l : l <> [] -> (0 < P)%nat -> 0 < kb -> 0 < T ->
  dE_total P kb hbar T l = shift_K P hbar (1 / (kb * T)) l + shift_U P hbar (1 / (kb * T)) l.
Proof.
  intros Hl Hp Hk Ht. unfold dE_total, shift_K, shift_U, strength, const_5, cov, mean, beta. pose proof (length_pos l Hl). pose proof (lt_0_INR P Hp).
  rewrite Rsuml_map_plus. rewrite (Rsuml_map_ext (fun x => f2 x * (fKPa x + fU x)) (fun x => f2 x * fKPa x + f2 x * fU x)) by (intros; ring).
  rewrite Rsuml_map_plus. field. repeat split; lra.
Qed.

(** ** C276 the heat capacity *)
Section Heat.
Variables (P N : nat) (kb hbar T : R) (l : list frame).
Hypotheses (Hl : l <> []) (Hp : (0 < P)%nat) (Hk : 0 < kb) (Ht : 0 < T).
Let b0 := 1 / (kb * T).
Let D := 15 / 10 * INR P * INR N.
(** the spring part of the action: the primitive kinetic energy at inverse temperature b is D / b - a / b^2 *)
Definition springs (x : frame) : R := (D / b0 - fKPa x) * b0 ^ 2.
Definition kinetic_at (x : frame) (b : R) : R := D / b - springs x / b ^ 2.
(** the action of a frame at inverse temperature b: normalisation, springs, potential *)
Definition action (x : frame) (b : R) : R := D * ln b + springs x / b + b * fU x.
(** frames drawn at [b0], reweighted to [b] and to the perturbed potential *)
Definition weight (b e : R) (x : frame) : R := exp (- (action x b - action x b0 + e * (hbar ^ 2 / (24 * INR P ^ 3) * b ^ 3 * f2 x))).
(** the energy: the derivative of the action (with the perturbation) *)
Definition energy_of (b e : R) (x : frame) : R := kinetic_at x b + fU x + e * (3 * (hbar ^ 2 / (24 * INR P ^ 3)) * b ^ 2 * f2 x).
Definition energy (b e : R) : R := wav (weight b e) (energy_of b e) l.

Let b0_pos : 0 < b0.
Proof. unfold b0. apply Rdiv_lt_0_compat; [lra|]. now apply Rmult_lt_0_compat. Qed.
Lemma inv_derive t : 0 < t -> derivable_pt_lim (fun b => / b) t (- / t ^ 2).
Proof.
  intros H. apply derivable_ext with (fun b => 1 / b); [intros; unfold Rdiv; ring|].
  eapply derivable_eq; [|apply (derivable_pt_lim_div (fun _ => 1) id t 0 1); [apply derivable_pt_lim_const|apply derivable_pt_lim_id|unfold id; lra]].
  unfold id, Rsqr. field. lra.
Qed.
Lemma pow_derive t n : derivable_pt_lim (fun b => b ^ S n) t (INR (S n) * t ^ n).
Proof. apply derivable_pt_lim_pow. Qed.
Lemma invsq_derive t : 0 < t -> derivable_pt_lim (fun b => / b ^ 2) t (- 2 / t ^ 3).
Proof.
  intros H. apply derivable_ext with (fun b => / b * / b); [intros; rewrite <- pow_inv; ring|].
  eapply derivable_eq; [|apply (derivable_pt_lim_mult (fun b => / b) (fun b => / b) t _ _ (inv_derive t H) (inv_derive t H))].
  field. lra.
Qed.
Lemma kinetic_derive x t : 0 < t -> derivable_pt_lim (kinetic_at x) t (- D / t ^ 2 + 2 * springs x / t ^ 3).
Proof.
  intros H. unfold kinetic_at. eapply derivable_eq; [|apply (derivable_pt_lim_minus (fun b => D / b) (fun b => springs x / b ^ 2) t)].
  2:{ apply (derivable_pt_lim_scal (fun b => / b) D t _ (inv_derive t H)). }
  2:{ apply (derivable_pt_lim_scal (fun b => / b ^ 2) (springs x) t _ (invsq_derive t H)). }
  field. lra.
Qed.
Lemma action_derive x t : 0 < t -> derivable_pt_lim (action x) t (kinetic_at x t + fU x).
Proof.
  intros H. unfold action. eapply derivable_eq; [|apply (derivable_pt_lim_plus (fun b => D * ln b + springs x / b) (fun b => b * fU x) t)].
  2:{ apply (derivable_pt_lim_plus (fun b => D * ln b) (fun b => springs x / b) t).
      - apply (derivable_pt_lim_scal ln D t _ (derivable_pt_lim_ln t H)).
      - apply (derivable_pt_lim_scal (fun b => / b) (springs x) t _ (inv_derive t H)). }
  2:{ apply derivable_ext with (fun b => 0 + b * fU x); [intros; ring|apply derivable_lin]. }
  unfold kinetic_at. field. lra.
Qed.
Let kap := hbar ^ 2 / (24 * INR P ^ 3).
(** slope of the energy with the inverse temperature *)
Definition slope (e : R) : R :=
  let w := fun x => exp (- (e * (kap * b0 ^ 3 * f2 x))) in
  wav w (fun x => D / b0 ^ 2 - 2 * fKPa x / b0 + e * (6 * kap * b0 * f2 x)) l
  - (wav w (fun x => (fKPa x + fU x + e * (3 * kap * b0 ^ 2 * f2 x)) ^ 2) l - wav w (fun x => fKPa x + fU x + e * (3 * kap * b0 ^ 2 * f2 x)) l ^ 2).
Lemma kinetic_b0 x : kinetic_at x b0 = fKPa x.
Proof. unfold kinetic_at, springs. field. lra. Qed.
Lemma energy_slope e : derivable_pt_lim (fun b => energy b e) b0 (slope e).
Proof.
  assert (A := average_derive (fun b x => energy_of b e x) (fun b x => action x b - action x b0 + e * (kap * b ^ 3 * f2 x))
    (fun x => - D / b0 ^ 2 + 2 * springs x / b0 ^ 3 + e * (6 * kap * b0 * f2 x)) (fun x => energy_of b0 e x) b0 l Hl).
  cbv zeta in A. unfold energy, weight. fold kap. eapply derivable_eq; [|apply A].
  - unfold slope. cbv zeta.
    assert (W : forall x, exp (- (action x b0 - action x b0 + e * (kap * b0 ^ 3 * f2 x))) = exp (- (e * (kap * b0 ^ 3 * f2 x)))) by (intros; f_equal; ring).
    assert (E : forall x, energy_of b0 e x = fKPa x + fU x + e * (3 * kap * b0 ^ 2 * f2 x)) by (intros; unfold energy_of; rewrite kinetic_b0; fold kap; ring).
    rewrite (wav_ext _ _ _ (fun x => D / b0 ^ 2 - 2 * fKPa x / b0 + e * (6 * kap * b0 * f2 x)) l W) by (intros; unfold springs; field; lra).
    rewrite (wav_ext _ _ _ (fun x => (fKPa x + fU x + e * (3 * kap * b0 ^ 2 * f2 x)) ^ 2) l W) by (intros; rewrite E; ring).
    rewrite (wav_ext _ _ _ (fun x => fKPa x + fU x + e * (3 * kap * b0 ^ 2 * f2 x)) l W) by (intros; apply E). ring.
  - intros x. unfold energy_of. fold kap. eapply derivable_eq; [|apply (derivable_pt_lim_plus (fun b => kinetic_at x b + fU x) (fun b => e * (3 * kap * b ^ 2 * f2 x)) b0)].
    2:{ apply (derivable_pt_lim_plus (kinetic_at x) (fun _ => fU x)); [apply kinetic_derive, b0_pos|apply derivable_pt_lim_const]. }
    2:{ apply derivable_ext with (fun b => e * 3 * kap * f2 x * b ^ 2); [intros; ring|].
        apply (derivable_pt_lim_scal (fun b => b ^ 2) _ b0 _ (pow_derive b0 1)). }
    cbn [INR]. ring.
  - intros x. unfold energy_of. fold kap. eapply derivable_eq; [|apply (derivable_pt_lim_plus (fun b => action x b - action x b0) (fun b => e * (kap * b ^ 3 * f2 x)) b0)].
    2:{ apply (derivable_pt_lim_minus (action x) (fun _ => action x b0)); [apply action_derive, b0_pos|apply derivable_pt_lim_const]. }
    2:{ apply derivable_ext with (fun b => e * kap * f2 x * b ^ 3); [intros; ring|].
        apply (derivable_pt_lim_scal (fun b => b ^ 3) _ b0 _ (pow_derive b0 2)). }
    cbn [INR]. ring.
Qed.
Let E x := fKPa x + fU x.
Lemma slope_derive : derivable_pt_lim slope 0
  (kap * (6 * b0 * mean f2 l + 2 * b0 ^ 2 * cov f2 fKPa l)
   - (6 * kap * b0 ^ 2 * mean (fun x => f2 x * E x) l - kap * b0 ^ 3 * cov f2 (fun x => E x ^ 2) l
      - 2 * mean E l * (3 * kap * b0 ^ 2 * mean f2 l - kap * b0 ^ 3 * cov f2 E l))).
Proof.
  assert (DA : forall e x, derivable_pt_lim (fun e => e * (kap * b0 ^ 3 * f2 x)) e (kap * b0 ^ 3 * f2 x)).
  { intros e x. apply derivable_ext with (fun e => 0 + e * (kap * b0 ^ 3 * f2 x)); [intros; ring|apply derivable_lin]. }
  assert (F := fun g g' H => average_derive g (fun e x => e * (kap * b0 ^ 3 * f2 x)) g' (fun x => kap * b0 ^ 3 * f2 x) 0 l Hl H (DA 0)).
  cbv zeta in F. pose proof b0_pos as Hb.
  assert (F1 := F (fun e x => D / b0 ^ 2 - 2 * fKPa x / b0 + e * (6 * kap * b0 * f2 x)) (fun x => 6 * kap * b0 * f2 x) (fun x => derivable_lin _ _ _)).
  assert (F3 := F (fun e x => fKPa x + fU x + e * (3 * kap * b0 ^ 2 * f2 x)) (fun x => 3 * kap * b0 ^ 2 * f2 x) (fun x => derivable_lin _ _ _)).
  assert (F2 := F (fun e x => (fKPa x + fU x + e * (3 * kap * b0 ^ 2 * f2 x)) ^ 2) (fun x => 2 * E x * (3 * kap * b0 ^ 2 * f2 x))).
  cbv beta in F1, F2, F3.
  assert (G2 : forall x, derivable_pt_lim (fun e => (fKPa x + fU x + e * (3 * kap * b0 ^ 2 * f2 x)) ^ 2) 0 (2 * E x * (3 * kap * b0 ^ 2 * f2 x))).
  { intros x. set (h := 3 * kap * b0 ^ 2 * f2 x).
    apply derivable_ext with (fun e => (fKPa x + fU x + e * h) * (fKPa x + fU x + e * h)); [intros; ring|].
    eapply derivable_eq; [|apply (derivable_pt_lim_mult _ _ 0 _ _ (derivable_lin h (fKPa x + fU x) 0) (derivable_lin h (fKPa x + fU x) 0))].
    unfold E. ring. }
  specialize (F2 G2).
  rewrite !wav_exp0 in F1, F2, F3 by (easy || (intros; ring)).
  unfold slope. cbv zeta. eapply derivable_eq; [|refine (derivable_pt_lim_minus _ _ 0 _ _ F1 (derivable_pt_lim_minus _ _ 0 _ _ F2 _))].
  2:{ apply derivable_ext with (fun e => wav (fun x => exp (- (e * (kap * b0 ^ 3 * f2 x)))) (fun x => fKPa x + fU x + e * (3 * kap * b0 ^ 2 * f2 x)) l
        * wav (fun x => exp (- (e * (kap * b0 ^ 3 * f2 x)))) (fun x => fKPa x + fU x + e * (3 * kap * b0 ^ 2 * f2 x)) l); [intros; ring|].
      apply (derivable_pt_lim_mult _ _ 0 _ _ F3 F3). }
  cbv beta. rewrite !wav_exp0 by (easy || (intros; ring)). unfold cov.
  rewrite (mean_ext (fun x => (D / b0 ^ 2 - 2 * fKPa x / b0 + 0 * (6 * kap * b0 * f2 x)) * (kap * b0 ^ 3 * f2 x))
             (fun x => D * kap * b0 * f2 x + -2 * kap * b0 ^ 2 * (f2 x * fKPa x))) by (intros; field; lra).
  rewrite (mean_ext (fun x => D / b0 ^ 2 - 2 * fKPa x / b0 + 0 * (6 * kap * b0 * f2 x)) (fun x => D / b0 ^ 2 + (-2 / b0) * fKPa x)) by (intros; field; lra).
  rewrite (mean_ext (fun x => 2 * E x * (3 * kap * b0 ^ 2 * f2 x)) (fun x => 6 * kap * b0 ^ 2 * (f2 x * E x))) by (intros; ring).
  rewrite (mean_ext (fun x => (fKPa x + fU x + 0 * (3 * kap * b0 ^ 2 * f2 x)) ^ 2 * (kap * b0 ^ 3 * f2 x)) (fun x => kap * b0 ^ 3 * (f2 x * E x ^ 2))) by (intros; unfold E; ring).
  rewrite (mean_ext (fun x => (fKPa x + fU x + 0 * (3 * kap * b0 ^ 2 * f2 x)) ^ 2) (fun x => E x ^ 2)) by (intros; unfold E; ring).
  rewrite (mean_ext (fun x => (fKPa x + fU x + 0 * (3 * kap * b0 ^ 2 * f2 x)) * (kap * b0 ^ 3 * f2 x)) (fun x => kap * b0 ^ 3 * (f2 x * E x))) by (intros; unfold E; ring).
  rewrite (mean_ext (fun x => fKPa x + fU x + 0 * (3 * kap * b0 ^ 2 * f2 x)) E) by (intros; unfold E; ring).
  rewrite !mean_plus, !mean_scal, !(mean_const (D / b0 ^ 2)) by easy. field. lra.
Qed.
(** The primitive heat capacity is minus kb b^2 times the slope of the energy of the reweighted frames with the inverse temperature;
    the correction is the derivative of that slope with the strength of the perturbation (for kb = 1, as in Constants: the code leaves
    the factor out of the correction). *)
Theorem ppi_heat i t : exists C : R -> R,
  (forall e, derivable_pt_lim (fun b => energy b e) b0 (- C e / (kb * b0 ^ 2))) /\
  C 0 = heat P N kb T (INR (List.length l)) (totals i t l) /\
  derivable_pt_lim C 0 (kb * dheat P kb hbar T (INR (List.length l)) (totals i t l)).
Proof.
  pose proof b0_pos as Hb. pose proof (length_pos l Hl) as Hn. pose proof (lt_0_INR P Hp) as HP.
  exists (fun e => - (kb * b0 ^ 2) * slope e). repeat split.
  - intros e. apply derivable_eq with (slope e); [field; lra|apply energy_slope].
  - unfold slope. cbv zeta. rewrite !wav_exp0 by (easy || (intros; ring)).
    rewrite (mean_ext (fun x => D / b0 ^ 2 - 2 * fKPa x / b0 + 0 * (6 * kap * b0 * f2 x)) (fun x => D / b0 ^ 2 + (-2 / b0) * fKPa x)) by (intros; field; lra).
    rewrite (mean_ext (fun x => (fKPa x + fU x + 0 * (3 * kap * b0 ^ 2 * f2 x)) ^ 2) (fun x => (fKPa x + fU x) ^ 2)) by (intros; ring).
    rewrite (mean_ext (fun x => fKPa x + fU x + 0 * (3 * kap * b0 ^ 2 * f2 x)) (fun x => fKPa x + fU x)) by (intros; ring).
    rewrite mean_plus, mean_scal, (mean_const (D / b0 ^ 2)), mean_plus by easy.
    unfold heat, mean. cbn [E2_av KPa_av U_av totals]. change (beta kb T) with b0. unfold D. field. lra.
  - apply derivable_eq with (- (kb * b0 ^ 2) *
      (kap * (6 * b0 * mean f2 l + 2 * b0 ^ 2 * cov f2 fKPa l)
   - (6 * kap * b0 ^ 2 * mean (fun x => f2 x * E x) l - kap * b0 ^ 3 * cov f2 (fun x => E x ^ 2) l
      - 2 * mean E l * (3 * kap * b0 ^ 2 * mean f2 l - kap * b0 ^ 3 * cov f2 E l)))).
    2:{ apply (derivable_pt_lim_scal slope (- (kb * b0 ^ 2)) 0 _ slope_derive). }
    unfold dheat. rewrite dU_shift by easy. fold b0.
    assert (K : dK_heat P kb hbar T (INR (List.length l)) (totals i t l) = shift_K P hbar b0 l).
    { unfold dK_heat, shift_K, cov, mean, const_6, strength. change (beta kb T) with b0. cbn [f2_av f2KPa_av KPa_av totals]. field. split; lra. }
    rewrite K. unfold shift_K, shift_U. cbn [f2_av KPa_av U_av f2E2_av E2_av totals]. change (beta kb T) with b0.
    replace (const_6 P kb hbar T) with (strength P hbar b0) by reflexivity.
    assert (S : strength P hbar b0 = kap * b0 ^ 2) by (unfold strength, kap; field; lra). rewrite S. unfold cov, mean, E.
    rewrite (Rsuml_map_ext (fun x => f2 x * (fKPa x + fU x)) (fun x => f2 x * fKPa x + f2 x * fU x)) by (intros; ring).
    rewrite !Rsuml_map_plus. field. lra.
Qed.
End Heat.
(** The lines of heat_capacity_ppi.py. *)
Theorem heat_lines P N kb hbar T skip l : (skip <= List.length l)%nat ->
  heat_capacity P N kb hbar T skip l =
  map (fun n => let w := firstn (S n) (skipn skip l) in let s := totals 0 0 w in let k := INR (List.length w) in
    [ft (nth (skip + n) l (mkfr 0 0 0 0 0)) - last_time skip l; heat P N kb T k s + dheat P kb hbar T k s; heat P N kb T k s; dheat P kb hbar T k s])
  (seq 0 (List.length l - skip)).
Proof.
  intros H. unfold heat_capacity. rewrite run_lines by easy. apply map_ext_in. intros n Hn. apply in_seq in Hn.
  destruct (window skip l n ltac:(lia)) as [W L]. set (w := firstn (S n) (skipn skip l)) in *. unfold heat_columns.
  replace (norm skip (totals (skip + S n) (last_time skip l) w)) with (INR (List.length w)) by (rewrite norm_totals, L; reflexivity).
  reflexivity.
Qed.

(** ** C277 units and columns *)
Open Scope string_scope.
Fixpoint all_lower (u : string) : bool := match u with String a u' => lower a && all_lower u' | EmptyString => true end.
Lemma unit_at_spec s u : unit_at s = Some u <-> all_lower u = true /\ exists post, s = u ++ "}" ++ post.
Proof.
  revert u. induction s as [|a s IH]; intros u; cbn [unit_at].
  - split; [easy|]. intros [_ [post H]]. destruct u; discriminate.
  - destruct (lower a) eqn:La.
    + destruct (unit_at s) as [v|] eqn:V; cbn [option_map].
      * destruct (proj1 (IH v) eq_refl) as [A [post B]]. split.
        { intros H. injection H as <-. split; [cbn; now rewrite La, A|]. exists post. cbn. now rewrite B. }
        { intros [H [p E]]. destruct u as [|c u]; cbn in E; injection E as -> E; [cbn in La; discriminate|].
          cbn in H. apply andb_true_iff in H. destruct H as [_ H]. f_equal. f_equal.
          assert (X : Some v = Some u) by (apply IH; split; [easy|]; now exists p). congruence. }
      * split; [easy|]. intros [H [p E]]. destruct u as [|c u]; cbn in E; injection E as -> E; [cbn in La; discriminate|].
        cbn in H. apply andb_true_iff in H. assert (X : None = Some u) by (apply IH; split; [easy|]; now exists p). discriminate.
    + destruct (Ascii.eqb a "}") eqn:Ea.
      * apply Ascii.eqb_eq in Ea. subst a. split.
        { intros H. injection H as <-. split; [easy|]. now exists s. }
        { intros [H [p E]]. destruct u as [|c u]; [easy|]. cbn in E. injection E as <- E. cbn in H. discriminate. }
      * split; [easy|]. intros [H [p E]]. destruct u as [|c u]; cbn in E; injection E as -> E; [discriminate|].
        cbn in H. rewrite La in H. discriminate.
Qed.
Lemma strip_spec p s r : strip p s = Some r <-> s = p ++ r.
Proof.
  revert s. induction p as [|a p IH]; intros s; cbn [strip append]; [split; congruence|].
  destruct s as [|b s]; [split; discriminate|]. destruct (Ascii.eqb a b) eqn:E.
  - apply Ascii.eqb_eq in E. subst. rewrite IH. split; congruence.
  - split; [easy|]. intros H. injection H as -> _. rewrite Ascii.eqb_refl in E. discriminate.
Qed.
Lemma append_assoc (a b c : string) : (a ++ b) ++ c = a ++ (b ++ c).
Proof. induction a as [|x a IH]; cbn; [easy|]. now rewrite IH. Qed.
Lemma here_spec name s u : here name s = Some u <-> all_lower u = true /\ exists post, s = name ++ "{" ++ u ++ "}" ++ post.
Proof.
  unfold here. destruct (strip (name ++ "{") s) as [r|] eqn:E.
  - apply strip_spec in E. rewrite unit_at_spec. rewrite append_assoc in E. split; intros [A [post B]]; (split; [easy|exists post]).
    + now rewrite E, B.
    + rewrite E in B. revert B. clear. induction name as [|a n IH]; cbn; intros B; injection B; auto.
  - split; [easy|]. intros [_ [post B]]. exfalso. assert (X : strip (name ++ "{") s = Some (u ++ "}" ++ post)) by (apply strip_spec; now rewrite append_assoc). congruence.
Qed.
(** A unit is found exactly when the line holds the name, an opening brace, lower case letters and a closing brace. *)
Theorem search_found name s : (exists u, search name s = Some u) <->
  exists pre u post, all_lower u = true /\ s = pre ++ name ++ "{" ++ u ++ "}" ++ post.
Proof.
  induction s as [|a s IH].
  - cbn [search]. destruct (here name "") as [u|] eqn:E.
    + apply here_spec in E. destruct E as [A [post B]]. split; [|eauto]. intros _. exists "", u, post. easy.
    + split; [intros [u H]; discriminate|]. intros (pre & u & post & A & B). destruct pre; [|discriminate].
      assert (X : here name "" = Some u) by (apply here_spec; split; [easy|now exists post]). congruence.
  - cbn [search]. destruct (here name (String a s)) as [u|] eqn:E.
    + apply here_spec in E. destruct E as [A [post B]]. split; [|eauto]. intros _. exists "", u, post. easy.
    + rewrite IH. split.
      * intros (pre & u & post & A & B). exists (String a pre), u, post. split; [easy|]. cbn. now rewrite B.
      * intros (pre & u & post & A & B). destruct pre as [|c pre].
        { assert (X : here name (String a s) = Some u) by (apply here_spec; split; [easy|now exists post]). congruence. }
        { cbn in B. injection B as _ B. exists pre, u, post. easy. }
Qed.
Lemma last_match_spec name l : forall i found r, last_match name i found l = Some r ->
  (found = Some r /\ forall k s, nth_error l k = Some s -> search name s = None) \/
  (exists k s, nth_error l k = Some s /\ search name s = Some (fst r) /\ snd r = (i + k)%nat /\
    forall k' s', (k < k')%nat -> nth_error l k' = Some s' -> search name s' = None).
Proof.
  induction l as [|s l IH]; intros i found r H; cbn [last_match] in H.
  - left. split; [easy|]. intros [|k] s' X; discriminate.
  - apply IH in H. destruct (search name s) as [u|] eqn:E.
    + destruct H as [[H N]|(k & s' & A & B & C & F)].
      * injection H as <-. right. exists 0%nat, s. repeat split; [easy|cbn; lia|]. intros [|k'] s' K X; [lia|]. now apply (N k').
      * right. exists (S k), s'. repeat split; [easy|easy|lia|]. intros [|k'] s'' K X; [lia|]. apply (F k' s''); [lia|easy].
    + destruct H as [[H N]|(k & s' & A & B & C & F)].
      * left. split; [easy|]. intros [|k] s' X; [now injection X as <-|now apply (N k)].
      * right. exists (S k), s'. repeat split; [easy|easy|lia|]. intros [|k'] s'' K X; [lia|]. apply (F k' s''); [lia|easy].
Qed.
Lemma last_match_some name l : forall i found k s, nth_error l k = Some s -> search name s <> None -> last_match name i found l <> None.
Proof.
  assert (S : forall l i r, last_match name i (Some r) l <> None).
  { induction l0 as [|s l0 IH]; intros i r; cbn [last_match]; [easy|]. destruct (search name s); apply IH. }
  induction l as [|s l IH]; intros i found k s' X H; [destruct k; discriminate|]. cbn [last_match]. destruct k as [|k].
  - injection X as <-. destruct (search name s); [apply S|easy].
  - apply (IH _ _ k s'); easy.
Qed.
(** The units are those of the last header line asking for the quantity, and the index is the number of lines before it; the tool stops when the
    time or the potential is on no line. *)
Theorem extract_spec h t u ui ti : extract_units h = Some (t, u, ui, ti) ->
  (exists s, nth_error h ui = Some s /\ search "potential" s = Some u) /\ (forall k s, (ui < k)%nat -> nth_error h k = Some s -> search "potential" s = None) /\
  (exists s, nth_error h ti = Some s /\ search "time" s = Some t) /\ (forall k s, (ti < k)%nat -> nth_error h k = Some s -> search "time" s = None).
Proof.
  unfold extract_units. destruct (last_match "time" 0 None h) as [[t' ti']|] eqn:A; [|easy].
  destruct (last_match "potential" 0 None h) as [[u' ui']|] eqn:B; [|easy]. intros H. injection H as -> -> -> ->.
  apply last_match_spec in A, B. destruct A as [[A _]|(k & s & A1 & A2 & A3 & A4)]; [discriminate|].
  destruct B as [[B _]|(k' & s' & B1 & B2 & B3 & B4)]; [discriminate|]. cbn in *. subst. repeat split; eauto.
Qed.
Theorem extract_total h : extract_units h <> None <->
  (exists k s, nth_error h k = Some s /\ search "potential" s <> None) /\ (exists k s, nth_error h k = Some s /\ search "time" s <> None).
Proof.
  unfold extract_units. split.
  - destruct (last_match "time" 0 None h) as [[t' ti']|] eqn:A; [|easy].
    destruct (last_match "potential" 0 None h) as [[u' ui']|] eqn:B; [|easy]. intros _.
    apply last_match_spec in A, B. destruct A as [[A _]|(k & s & A1 & A2 & A3 & A4)]; [discriminate|].
    destruct B as [[B _]|(k' & s' & B1 & B2 & B3 & B4)]; [discriminate|]. split; [exists k', s'|exists k, s]; (split; [easy|congruence]).
  - intros [(k & s & A & B) (k' & s' & C & D)].
    pose proof (last_match_some "potential" h 0 None k s A B). pose proof (last_match_some "time" h 0 None k' s' C D).
    destruct (last_match "time" 0 None h) as [[]|]; [|easy]. destruct (last_match "potential" 0 None h) as [[]|]; easy.
Qed.
(** When every property before it has one column, the value read is the value of the property of that line. *)
Lemma nth_error_concat {A} (vs : list (list A)) k v : (forall j w, (j < k)%nat -> nth_error vs j = Some w -> List.length w = 1%nat) ->
  nth_error vs k = Some v -> nth_error (concat vs) k = nth_error (v ++ concat (skipn (S k) vs)) 0.
Proof.
  revert k. induction vs as [|w vs IH]; intros k H X; [destruct k; discriminate|]. destruct k as [|k].
  - injection X as ->. reflexivity.
  - assert (L : List.length w = 1%nat) by (apply (H 0%nat); [lia|easy]). destruct w as [|x [|y w]]; try discriminate.
    cbn [concat app nth_error skipn]. apply IH; [|easy]. intros j w' J Y. apply (H (S j)); [lia|easy].
Qed.
Theorem extract_column {A} (ps : list prop) (vs : list (list A)) t u ui ti : Forall2 (fun p v => List.length v = size p) ps vs ->
  (forall p, In p ps -> size p = 1%nat) -> extract_units (header ps) = Some (t, u, ui, ti) ->
  exists pu pt vu vt, nth_error ps ui = Some pu /\ nth_error vs ui = Some [vu] /\ search "potential" (header_line pu) = Some u /\
    nth_error ps ti = Some pt /\ nth_error vs ti = Some [vt] /\ search "time" (header_line pt) = Some t /\ read_U ui ti (concat vs) = Some (vu, vt).
Proof.
  intros F O H. apply extract_spec in H. destruct H as ((s & A1 & A2) & _ & (s' & B1 & B2) & _).
  assert (L : forall j w, nth_error vs j = Some w -> List.length w = 1%nat).
  { clear - F O. induction F as [|p v ps vs E F IH]; intros j w X; [destruct j; discriminate|].
    destruct j as [|j]; [injection X as <-; rewrite E; apply O; now left|]. apply (IH (fun q Hq => O q (or_intror Hq)) j w X). }
  assert (G : forall k s, nth_error (header ps) k = Some s -> exists p x, nth_error ps k = Some p /\ s = header_line p /\ nth_error vs k = Some [x] /\ nth_error (concat vs) k = Some x).
  { intros k s0 X. unfold header in X. rewrite nth_error_map in X. destruct (nth_error ps k) as [p|] eqn:E; [|discriminate]. injection X as <-.
    assert (K : exists v, nth_error vs k = Some v).
    { clear - F E. revert k E. induction F as [|q v ps vs Q F IH]; intros k E; [destruct k; discriminate|]. destruct k; [now exists v|]. now apply IH. }
    destruct K as [v V]. pose proof (L k v V) as Lv. destruct v as [|x [|y v]]; try discriminate. exists p, x. repeat split; [easy|].
    rewrite (nth_error_concat vs k [x]) by (easy || (intros; eapply L; eauto)). reflexivity. }
  destruct (G ui s A1) as (pu & vu & P1 & -> & P2 & P3). destruct (G ti s' B1) as (pt & vt & Q1 & -> & Q2 & Q3).
  exists pu, pt, vu, vt. repeat split; try easy. unfold read_U. now rewrite P3, Q3.
Qed.
(** The header of the input the documentation asks for, and of documented units, is refused; a property of several columns before the
    potential moves it. *)
Definition pstep : prop := mkprop "step" 1 "The current simulation time step.".
Definition ptime (u : string) : prop := mkprop ("time" ++ u) 1 "The elapsed simulation time.".
Definition ppot (u : string) : prop := mkprop ("potential" ++ u) 1 "The physical system potential energy.".
Definition pcell : prop := mkprop "cell_h" 6 "The simulation cell as a matrix.".
Theorem extract_refuted :
  extract_units (header [pstep; ptime ""; ppot ""]) = None /\
  (forall u, In u ["{atomic_unit}"; "{j/mol}"; "{cal/mol}"] -> extract_units (header [pstep; ptime "{picosecond}"; ppot u]) = None) /\
  exists ui ti, extract_units (header [pstep; ptime "{picosecond}"; pcell; ppot "{electronvolt}"]) = Some ("picosecond", "electronvolt", ui, ti) /\
    read_U ui ti (concat [[1]; [2]; [11; 12; 13; 14; 15; 16]; [3]]%nat) = Some (12, 2)%nat.
Proof.
  split; [reflexivity|]. split; [intros u [<-|[<-|[<-|[]]]]; reflexivity|]. exists 3%nat, 1%nat. split; reflexivity.
Qed.
Example extract_case : extract_units (header [pstep; ptime "{picosecond}"; ppot "{electronvolt}"; pcell]) = Some ("picosecond", "electronvolt", 2%nat, 1%nat) /\
  read_U 2 1 (concat [[1]; [2]; [3]; [11; 12; 13; 14; 15; 16]]%nat) = Some (3, 2)%nat.
Proof. split; reflexivity. Qed.

(** ** C278 reading of the frames *)
(** Only the tools for all the energies and for the heat capacity can read a frame. *)
Theorem ppi_tools_refuted : map tname (filter reads_frames tools) = ["energies_ppi"; "heat_capacity_ppi"].
Proof. reflexivity. Qed.
Open Scope R_scope.

(** ** Concrete cases *)
(** The atom of two beads of the estimators: kinetic energies -5 and 2. *)
Example estimator_case : get_kintd EstProps.one [] = Some (-5) /\ KPa_slow 2 1 (fun _ => 1) 1 1 1 EstProps.q2 = -5 /\
  KVir_slow 2 1 1 1 EstProps.q2 (ff EstProps.one) = 2.
Proof.
  destruct (ppi_estimators EstProps.one 1) as [A B]; cbn; try lia; try lra; try easy.
  assert (X : KPa_slow 2 1 (fun _ => 1) 1 1 1 EstProps.q2 = -5) by (unfold KPa_slow, const_1, const_2, beta, dot3, diff, EstProps.q2; cbn; field).
  assert (Y : KVir_slow 2 1 1 1 EstProps.q2 (ff EstProps.one) = 2) by (unfold KVir_slow, const_3, beta, dot3, diff, rc, EstProps.q2; cbn; unfold EstProps.har_F, EstProps.q2; field).
  repeat split; try easy. cbn in A. rewrite A. f_equal. exact X.
Qed.
(** Three frames, one skipped. *)
Definition fr3 : list frame := [mkfr 1 5 1 1 1; mkfr 2 1 2 3 4; mkfr 3 3 4 1 2].
Example lines_case : exists a b, energies 1 1 1 1 (fun x => x) 1 fr3 = [a; b] /\ nth 0 a 0 = 1 /\ nth 0 b 0 = 2 /\ nth 5 b 0 = 2 /\ nth 6 b 0 = 5 / 24.
Proof.
  rewrite ppi_lines by (cbn; lia || lra). cbn [fr3 List.length Nat.sub seq map]. eexists _, _. split; [reflexivity|].
  unfold shift_U, strength, cov, mean, last_time. cbn. repeat split; field.
Qed.
Example first_order_case : derivable_pt_lim (perturbed 1 (1 / 24) 2 fU fr3) 0 (2 / 9).
Proof.
  eapply derivable_eq; [|apply perturbed_derive; discriminate]. unfold cov, mean, fr3. cbn. field.
Qed.
Example heat_case : heat 1 1 1 1 3 (totals 0 0 fr3) = 49 / 18 /\ exists x, dheat 1 1 1 1 3 (totals 0 0 fr3) = x /\ x <> 0.
Proof.
  split; [unfold heat, totals, fr3, beta; cbn; field|]. eexists. split; [reflexivity|].
  unfold dheat, dK_heat, dU, totals, fr3, beta, const_6, beta. cbn. lra.
Qed.
Print Assumptions ppi_estimators.
Print Assumptions virial_symmetric.
Print Assumptions ppi_fast.
Print Assumptions ppi_lines.
Print Assumptions ppi_short.
Print Assumptions ppi_first_order.
Print Assumptions ppi_total.
Print Assumptions ppi_heat.
Print Assumptions heat_lines.
Print Assumptions search_found.
Print Assumptions extract_spec.
Print Assumptions extract_total.
Print Assumptions extract_column.
Print Assumptions extract_refuted.
Print Assumptions ppi_tools_refuted.
