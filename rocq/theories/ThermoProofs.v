(** Proofs about the thermostats. *)
Require Import Reals List ZArith Lia Lra Psatz.
From Verif Require Import RSum Ortho ThermoModel.
Import ListNotations.
Local Open Scope R_scope.

(** What is meant by the kinetic energy. *)
Definition kinetic (n : nat) (m p : nat -> R) : R := Rsum n (fun i => p i ^ 2 / (2 * m i)).

(** What is meant by an average over the random outcomes. *)
Record expectation {O : Type} (E : (O -> R) -> R) : Prop := {
  E_ext : forall f g, (forall o, f o = g o) -> E f = E g;
  E_plus : forall f g, E (fun o => f o + g o) = E f + E g;
  E_scal : forall c f, E (fun o => c * f o) = c * E f;
  E_const : forall c, E (fun _ => c) = c }.

Lemma E_Rsum {O} (E : (O -> R) -> R) n (f : nat -> O -> R) : expectation E ->
  E (fun o => Rsum n (fun i => f i o)) = Rsum n (fun i => E (f i)).
Proof.
  intros H. induction n as [|n IH]; cbn [Rsum].
  - exact (E_const _ H 0).
  - rewrite (E_plus _ H). now rewrite IH.
Qed.

Lemma sqrt_pos2 x : 0 < x -> sqrt x <> 0 /\ sqrt x * sqrt x = x.
Proof. intros H. split; [pose proof (sqrt_lt_R0 x H); lra|now apply sqrt_sqrt, Rlt_le]. Qed.

Lemma half_dot n m p : (forall i, (i < n)%nat -> 0 < m i) ->
  dot2 n (fun i => p i / sqrt (m i)) * (1 / 2) = kinetic n m p.
Proof.
  intros Hm. unfold dot2, kinetic. rewrite <- Rsum_scal_r. apply Rsum_ext. intros i Hi.
  destruct (sqrt_pos2 _ (Hm i Hi)) as [N Q]. specialize (Hm i Hi).
  set (w := sqrt (m i)) in *. rewrite <- Q. field. easy.
Qed.
Lemma half_dot' n m s : (forall i, (i < n)%nat -> 0 < m i) ->
  dot2 n s * (1 / 2) = kinetic n m (fun i => s i * sqrt (m i)).
Proof.
  intros Hm. rewrite <- half_dot by easy. f_equal. unfold dot2. apply Rsum_ext. intros i Hi.
  destruct (sqrt_pos2 _ (Hm i Hi)) as [N _]. field. easy.
Qed.

Lemma lang_T_pos dt tau : 0 < lang_T dt tau.
Proof. apply exp_pos. Qed.
Lemma damp_le1 dt tau : 0 <= dt -> 0 < tau -> 0 < exp (- dt / tau) <= 1.
Proof.
  intros Hd Ht. split; [apply exp_pos|].
  assert (G : - dt / tau <= 0).
  { apply (Rmult_le_reg_r tau); [easy|]. unfold Rdiv. rewrite Rmult_assoc, Rinv_l, Rmult_0_l by lra. lra. }
  destruct (Req_dec (- dt / tau) 0) as [-> | N]; [rewrite exp_0; lra|].
  rewrite <- exp_0. left. apply exp_increasing. lra.
Qed.
Lemma damp_lt1 dt tau : 0 < dt -> 0 < tau -> 0 < exp (- dt / tau) < 1.
Proof.
  intros Hd Ht. split; [apply exp_pos|].
  assert (G : - dt / tau < 0).
  { apply (Rmult_lt_reg_r tau); [easy|]. unfold Rdiv. rewrite Rmult_assoc, Rinv_l, Rmult_0_l by lra. lra. }
  rewrite <- exp_0. now apply exp_increasing.
Qed.
Lemma lang_S2 temp T : 0 <= temp -> 0 < T <= 1 -> lang_S temp T * lang_S temp T = kb * temp * (1 - T ^ 2).
Proof. intros Ht HT. unfold lang_S. apply sqrt_sqrt. unfold kb. apply Rmult_le_pos; [lra|nra]. Qed.

Lemma lang_energy n dt tau temp m xi p eth : (forall i, (i < n)%nat -> 0 < m i) ->
  let '(p', eth') := lang_step n dt tau temp m xi p eth in
  kinetic n m p' + eth' = kinetic n m p + eth.
Proof.
  intros Hm. unfold lang_step. cbv beta zeta iota. set (T := lang_T dt tau). assert (HT : T <> 0) by (pose proof (lang_T_pos dt tau); unfold T; lra).
  pose proof (half_dot' n m (fun i => p i * (T / sqrt (m i)) + lang_S temp T * xi i) Hm) as Q. cbv beta in Q.
  rewrite <- Q, <- (half_dot n m p Hm).
  replace (dot2 n (fun i => p i * (T / sqrt (m i))) / T ^ 2) with (dot2 n (fun i => p i / sqrt (m i))); [ring|].
  unfold dot2. rewrite <- Rsum_div. apply Rsum_ext. intros i Hi.
  destruct (sqrt_pos2 _ (Hm i Hi)) as [N _]. field. easy.
Qed.

Lemma lang_p n dt tau temp m xi p eth i : 0 < m i ->
  fst (lang_step n dt tau temp m xi p eth) i
  = lang_T dt tau * p i + lang_S temp (lang_T dt tau) * sqrt (m i) * xi i.
Proof. intros Hm. cbn. destruct (sqrt_pos2 _ Hm) as [N _]. field. easy. Qed.

Section Averages.
Context {O : Type} (E : (O -> R) -> R) (HE : expectation E).

Lemma lang_cov n dt tau temp m (xi p : O -> nat -> R) eth i j :
  0 <= dt -> 0 < tau -> 0 <= temp -> 0 < m i -> 0 < m j ->
  E (fun o => xi o i * xi o j) = delta i j -> E (fun o => p o i * xi o j) = 0 -> E (fun o => p o j * xi o i) = 0 ->
  let p' o := fst (lang_step n dt tau temp m (xi o) (p o) (eth o)) in
  E (fun o => p' o i * p' o j)
  = exp (- 2 * dt / tau) * E (fun o => p o i * p o j) + (1 - exp (- 2 * dt / tau)) * (m i * kb * temp * delta i j).
Proof.
  intros Hd Ht Hk Hi Hj Hx H1 H2 p'.
  set (T := lang_T dt tau). set (s := lang_S temp T).
  rewrite (E_ext _ HE _ (fun o => T * T * (p o i * p o j) + (s * s * (sqrt (m i) * sqrt (m j)) * (xi o i * xi o j)
      + (T * s * sqrt (m j) * (p o i * xi o j) + T * s * sqrt (m i) * (p o j * xi o i))))).
  2:{ intros o. unfold p'. rewrite !lang_p by easy. fold T s. ring. }
  rewrite !(E_plus _ HE), !(E_scal _ HE), Hx, H1, H2.
  assert (TT : T * T = exp (-2 * dt / tau)).
  { unfold T, lang_T. rewrite <- exp_plus. f_equal. field. lra. }
  assert (SS : s * s = kb * temp * (1 - T ^ 2)) by (apply lang_S2; [easy|now apply damp_le1]).
  rewrite SS, TT. replace (T ^ 2) with (T * T) by ring. rewrite TT.
  unfold delta. destruct (Nat.eqb_spec i j) as [<- |N].
  - destruct (sqrt_pos2 _ Hi) as [_ Q]. rewrite Q. ring.
  - ring.
Qed.
End Averages.

(** ** Velocity rescaling *)

Lemma svr_split et Kbar K r1 rg : 0 <= et <= 1 -> 0 <= Kbar -> 0 < K ->
  svr_alpha2 et Kbar K r1 rg = (sqrt et + r1 * sqrt (Kbar / K * (1 - et))) ^ 2 + Kbar / K * (1 - et) * rg.
Proof.
  intros He Hb HK. unfold svr_alpha2.
  assert (Q : 0 <= Kbar / K) by (apply Rmult_le_pos; [easy|left; now apply Rinv_0_lt_compat]).
  assert (A : 0 <= Kbar / K * (1 - et)) by (apply Rmult_le_pos; lra).
  replace (Kbar / K * et * (1 - et)) with (et * (Kbar / K * (1 - et))) by ring.
  rewrite (sqrt_mult et) by lra. pose proof (sqrt_sqrt et (proj1 He)) as Q1. pose proof (sqrt_sqrt _ A) as Q2.
  set (a := sqrt et) in *. set (b := sqrt (Kbar / K * (1 - et))) in *.
  rewrite <- Q2, <- Q1. ring.
Qed.
Lemma svr_nonneg et Kbar K r1 rg : 0 <= et <= 1 -> 0 <= Kbar -> 0 < K -> 0 <= rg -> 0 <= svr_alpha2 et Kbar K r1 rg.
Proof.
  intros He Hb HK Hr. rewrite svr_split by easy.
  assert (Q : 0 <= Kbar / K) by (apply Rmult_le_pos; [easy|left; now apply Rinv_0_lt_compat]).
  assert (A : 0 <= Kbar / K * (1 - et)) by (apply Rmult_le_pos; lra).
  pose proof (pow2_ge_0 (sqrt et + r1 * sqrt (Kbar / K * (1 - et)))). pose proof (Rmult_le_pos _ _ A Hr). lra.
Qed.
Lemma svr_alpha_sq et Kbar K r1 rg : 0 <= svr_alpha2 et Kbar K r1 rg ->
  svr_alpha et Kbar K r1 rg * svr_alpha et Kbar K r1 rg = svr_alpha2 et Kbar K r1 rg.
Proof.
  intros H. unfold svr_alpha. pose proof (sqrt_sqrt _ H) as Q. destruct Rlt_dec; [|easy].
  rewrite <- Q at 3. ring.
Qed.

Lemma kin_alt n m p : (forall i, (i < n)%nat -> 0 < m i) ->
  Rsum n (fun i => p i * (p i / m i)) * (1 / 2) = kinetic n m p.
Proof.
  intros Hm. unfold kinetic. rewrite <- Rsum_scal_r. apply Rsum_ext. intros i Hi. specialize (Hm i Hi). field. lra.
Qed.
Lemma kin_nonneg n m p : (forall i, (i < n)%nat -> 0 < m i) -> 0 <= kinetic n m p.
Proof.
  intros Hm. apply Rsum_nonneg. intros i Hi. specialize (Hm i Hi). apply Rmult_le_pos; [apply pow2_ge_0|].
  left. apply Rinv_0_lt_compat. lra.
Qed.
Lemma kin_scale n m p a : kinetic n m (fun i => p i * a) = kinetic n m p * (a * a).
Proof. unfold kinetic. rewrite <- Rsum_scal_r. apply Rsum_ext. intros i _. unfold Rdiv. ring. Qed.
Lemma kin_ext n m p q : (forall i, (i < n)%nat -> p i = q i) -> kinetic n m p = kinetic n m q.
Proof. intros H. apply Rsum_ext. intros i Hi. now rewrite H. Qed.

Lemma svr_rg_nonneg ndof d : (forall k, 0 <= dr_gamma d k) -> 0 <= svr_rg ndof d.
Proof.
  intros H. unfold svr_rg. destruct Z.even.
  - pose proof (H (IZR (ndof - 1) / 2)). lra.
  - pose proof (H (IZR (ndof - 2) / 2)). pose proof (pow2_ge_0 (dr_2 d)). lra.
Qed.

Lemma svr_kin n ndof dt tau temp m d p eth : (forall i, (i < n)%nat -> 0 < m i) -> 0 <= dt -> 0 < tau -> 0 <= temp ->
  (forall k, 0 <= dr_gamma d k) -> kinetic n m p <> 0 ->
  kinetic n m (fst (svr_step n ndof dt tau temp m d p eth))
  = svr_et dt tau * kinetic n m p + svr_K temp * (1 - svr_et dt tau) * (dr_1 d ^ 2 + svr_rg ndof d)
    + 2 * dr_1 d * (kinetic n m p * sqrt (svr_K temp / kinetic n m p * svr_et dt tau * (1 - svr_et dt tau))).
Proof.
  intros Hm Hd Ht Hk Hg N. unfold svr_step. rewrite (kin_alt n m p Hm).
  pose proof (kin_nonneg n m p Hm) as P. destruct Req_EM_T as [e|_]; [contradiction|]. cbn [fst].
  rewrite kin_scale, svr_alpha_sq.
  - unfold svr_alpha2. field. easy.
  - apply svr_nonneg; [pose proof (damp_le1 dt tau Hd Ht); unfold svr_et; lra|unfold svr_K, kb; lra|lra|now apply svr_rg_nonneg].
Qed.

Lemma svr_energy n ndof dt tau temp m d p eth : (forall i, (i < n)%nat -> 0 < m i) -> 0 <= dt -> 0 < tau -> 0 <= temp ->
  (forall k, 0 <= dr_gamma d k) ->
  let '(p', eth') := svr_step n ndof dt tau temp m d p eth in
  kinetic n m p' + eth' = kinetic n m p + eth.
Proof.
  intros Hm Hd Ht Hk Hg. unfold svr_step. rewrite (kin_alt n m p Hm).
  pose proof (kin_nonneg n m p Hm) as P. destruct Req_EM_T as [e|N]; [easy|].
  rewrite kin_scale, svr_alpha_sq; [ring|].
  apply svr_nonneg; [pose proof (damp_le1 dt tau Hd Ht); unfold svr_et; lra|unfold svr_K, kb; lra|lra|now apply svr_rg_nonneg].
Qed.

Lemma svr_rg_mean {O} (E : (O -> R) -> R) (HE : expectation E) ndof (d : O -> draws) :
  (forall k, 0 <= k -> E (fun o => dr_gamma (d o) k) = k) -> E (fun o => dr_2 (d o) ^ 2) = 1 -> (1 <= ndof)%Z ->
  E (fun o => svr_rg ndof (d o)) = IZR ndof - 1.
Proof.
  intros Hg H2 Hn. unfold svr_rg. destruct (Z.even (ndof - 1)) eqn:Ev.
  - rewrite (E_scal _ HE 2 (fun o => dr_gamma (d o) _)), Hg; [rewrite minus_IZR; field|].
    rewrite minus_IZR. pose proof (IZR_le _ _ Hn). lra.
  - assert (2 <= ndof)%Z. { destruct (Z.eq_dec ndof 1) as [-> |]; [discriminate|lia]. }
    rewrite (E_plus _ HE (fun o => 2 * dr_gamma (d o) _) (fun o => dr_2 (d o) ^ 2)), H2.
    rewrite (E_scal _ HE 2 (fun o => dr_gamma (d o) _)), Hg; [rewrite minus_IZR; field|].
    rewrite minus_IZR. pose proof (IZR_le 2 ndof ltac:(lia)). lra.
Qed.

(** ** Generalised Langevin *)

(** The extended momenta of one step: row 0 is the physical momentum in mass-scaled units. *)
Definition extended (m : nat -> R) (st : (nat -> R) * mat) : mat :=
  fun a i => match a with O => fst st i / sqrt (m i) | Datatypes.S _ => snd st a i end.

Lemma gle_energy q n T Sm m xi st eth : (forall i, (i < n)%nat -> 0 < m i) ->
  let '(st', eth') := gle_step q n T Sm m xi st eth in
  kinetic n m (fst st') + eth' = kinetic n m (fst st) + eth.
Proof.
  intros Hm. destruct st as [p s]. cbn [gle_step fst].
  rewrite (half_dot n m p Hm).
  match goal with |- context [?e - dot2 n ?v * (1 / 2)] => rewrite <- (half_dot' n m v Hm) end. ring.
Qed.

Lemma gle_extended q n T Sm m xi st eth a i : 0 < m i ->
  extended m (fst (gle_step q n T Sm m xi st eth)) a i
  = mmul q T (extended m st) a i + mmul q Sm xi a i.
Proof.
  intros Hm. destruct st as [p s]. destruct (sqrt_pos2 _ Hm) as [N _].
  destruct a; cbn [gle_step fst snd extended].
  - unfold Rdiv at 1. rewrite Rmult_assoc, Rinv_r, Rmult_1_r by easy. f_equal; apply Rsum_ext; intros [|k] _; reflexivity.
  - f_equal; apply Rsum_ext; intros [|k] _; reflexivity.
Qed.

Lemma Rsum2_split q (f g : nat -> R) : Rsum q f * Rsum q g = Rsum q (fun a => Rsum q (fun b => f a * g b)).
Proof.
  rewrite <- Rsum_scal_r. apply Rsum_ext. intros a _. now rewrite Rsum_scal.
Qed.

Section GleAverages.
Context {O : Type} (E : (O -> R) -> R) (HE : expectation E).

Lemma E_bilinear q (A B : nat -> R) (u v : O -> nat -> R) :
  E (fun o => Rsum q (fun k => A k * u o k) * Rsum q (fun k => B k * v o k))
  = Rsum q (fun k => Rsum q (fun l => A k * B l * E (fun o => u o k * v o l))).
Proof.
  rewrite (E_ext _ HE _ (fun o => Rsum q (fun k => Rsum q (fun l => A k * B l * (u o k * v o l))))).
  2:{ intros o. rewrite Rsum2_split. apply Rsum_ext. intros k _. apply Rsum_ext. intros l _. ring. }
  rewrite (E_Rsum E q (fun k o => Rsum q (fun l => A k * B l * (u o k * v o l))) HE).
  apply Rsum_ext. intros k _.
  rewrite (E_Rsum E q (fun l o => A k * B l * (u o k * v o l)) HE).
  apply Rsum_ext. intros l _. apply (E_scal _ HE).
Qed.

Lemma gle_cov q n T Sm C m (xi : O -> mat) (st : O -> (nat -> R) * mat) eth a b i j :
  (forall i, (i < n)%nat -> 0 < m i) -> (i < n)%nat -> (j < n)%nat -> (a < q)%nat -> (b < q)%nat ->
  (forall a b, (a < q)%nat -> (b < q)%nat -> mmul q Sm (tr Sm) a b = gle_SST q T C a b) ->
  (forall a b, (a < q)%nat -> (b < q)%nat -> E (fun o => extended m (st o) a i * extended m (st o) b j) = kb * C a b * delta i j) ->
  (forall a b, (a < q)%nat -> (b < q)%nat -> E (fun o => xi o a i * xi o b j) = delta a b * delta i j) ->
  (forall a b i j, (a < q)%nat -> (b < q)%nat -> E (fun o => extended m (st o) a i * xi o b j) = 0) ->
  let st' o := fst (gle_step q n T Sm m (xi o) (st o) (eth o)) in
  E (fun o => extended m (st' o) a i * extended m (st' o) b j) = kb * C a b * delta i j.
Proof.
  intros Hm Hi Hj Ha Hb HS Hs Hx Hc st'.
  rewrite (E_ext _ HE _ (fun o =>
     Rsum q (fun k => T a k * extended m (st o) k i) * Rsum q (fun k => T b k * extended m (st o) k j)
     + (Rsum q (fun k => Sm a k * xi o k i) * Rsum q (fun k => Sm b k * xi o k j)
     + (Rsum q (fun k => T a k * extended m (st o) k i) * Rsum q (fun k => Sm b k * xi o k j)
     + Rsum q (fun k => T b k * extended m (st o) k j) * Rsum q (fun k => Sm a k * xi o k i))))).
  2:{ intros o. unfold st'. rewrite !gle_extended by auto. unfold mmul. ring. }
  rewrite !(E_plus _ HE).
  rewrite (E_bilinear q (T a) (T b) (fun o k => extended m (st o) k i) (fun o k => extended m (st o) k j)).
  rewrite (E_bilinear q (Sm a) (Sm b) (fun o k => xi o k i) (fun o k => xi o k j)).
  rewrite (E_bilinear q (T a) (Sm b) (fun o k => extended m (st o) k i) (fun o k => xi o k j)).
  rewrite (E_bilinear q (T b) (Sm a) (fun o k => extended m (st o) k j) (fun o k => xi o k i)).
  rewrite (Rsum_0 q (fun k => Rsum q (fun l => T a k * Sm b l * _))).
  2:{ intros k Hk. apply Rsum_0. intros l Hl. rewrite Hc by easy. ring. }
  rewrite (Rsum_0 q (fun k => Rsum q (fun l => T b k * Sm a l * _))).
  2:{ intros k Hk. apply Rsum_0. intros l Hl. rewrite Hc by easy. ring. }
  rewrite (Rsum_ext q (fun k => Rsum q (fun l => Sm a k * Sm b l * _)) (fun k => Sm a k * tr Sm k b * delta i j)).
  2:{ intros k Hk.
      rewrite (Rsum_ext q _ (fun l => Sm a k * Sm b l * delta i j * delta k l))
        by (intros l Hl; rewrite Hx by easy; ring).
      rewrite (Rsum_delta_l q k (fun l => Sm a k * Sm b l * delta i j)) by easy. reflexivity. }
  rewrite Rsum_scal_r. change (Rsum q (fun i0 => Sm a i0 * tr Sm i0 b)) with (mmul q Sm (tr Sm) a b).
  rewrite HS by easy. unfold gle_SST.
  rewrite (Rsum_ext q (fun k => Rsum q (fun l => T a k * T b l * _)) (fun k => kb * delta i j * (T a k * mmul q C (tr T) k b))).
  2:{ intros k Hk. unfold mmul, tr. rewrite <- !Rsum_scal.
      apply Rsum_ext. intros l Hl. rewrite Hs by easy. ring. }
  rewrite Rsum_scal. change (Rsum q (fun i0 => T a i0 * mmul q C (tr T) i0 b)) with (mmul q T (mmul q C (tr T)) a b). ring.
Qed.
End GleAverages.

Lemma mmul_assoc n A B C i j : mmul n (mmul n A B) C i j = mmul n A (mmul n B C) i j.
Proof.
  unfold mmul.
  rewrite (Rsum_ext n _ (fun k => Rsum n (fun l => A i l * B l k * C k j))) by (intros; now rewrite <- Rsum_scal_r).
  rewrite Rsum_swap. apply Rsum_ext. intros l _. rewrite <- Rsum_scal. apply Rsum_ext. intros. ring.
Qed.
Lemma root_entry n w V i j : (forall k, (k < n)%nat -> True) ->
  root_herm n w V i j = Rsum n (fun k => V i k * clipped (w k) * V j k).
Proof.
  intros _. unfold root_herm. unfold mmul at 1. apply Rsum_ext. intros k Hk.
  replace (mmul n (fun i0 j0 => delta i0 j0 * clipped (w i0)) (tr V) k j) with (clipped (w k) * V j k); [ring|].
  unfold mmul, tr. rewrite (Rsum_ext n _ (fun l => clipped (w k) * V j l * delta k l)) by (intros; ring).
  now rewrite (Rsum_delta_l n k (fun l => clipped (w k) * V j l)).
Qed.
Lemma clipped_sq x : clipped x * clipped x = Rmax x 0.
Proof.
  unfold clipped. destruct Rle_dec.
  - rewrite sqrt_sqrt by easy. now rewrite Rmax_left.
  - rewrite Rmax_right; lra.
Qed.
Lemma root_square n w V i j : orthonormal_cols n V ->
  mmul n (root_herm n w V) (tr (root_herm n w V)) i j = Rsum n (fun k => V i k * Rmax (w k) 0 * V j k).
Proof.
  intros HV. unfold mmul, tr.
  rewrite (Rsum_ext n _ (fun k => Rsum n (fun a => Rsum n (fun b => V i a * clipped (w a) * (V j b * clipped (w b)) * (V k a * V k b))))).
  2:{ intros k _. rewrite !root_entry by easy. rewrite Rsum2_split. apply Rsum_ext. intros a _. apply Rsum_ext. intros b _. ring. }
  rewrite Rsum_swap. apply Rsum_ext. intros a Ha. rewrite Rsum_swap.
  rewrite (Rsum_ext n _ (fun b => V i a * clipped (w a) * (V j b * clipped (w b)) * delta a b)).
  2:{ intros b Hb. rewrite Rsum_scal. f_equal. now apply HV. }
  rewrite (Rsum_delta_l n a (fun b => V i a * clipped (w a) * (V j b * clipped (w b)))) by easy.
  rewrite <- clipped_sq. ring.
Qed.

(** ** Composite thermostats *)

Lemma fold_eth l a : fold_left (fun et (t : sub * R) => et + snd t) l a = a + Rsuml (map snd l).
Proof. revert a. induction l as [|x l IH]; intros a; cbn; [ring|]. rewrite IH. ring. Qed.
Lemma get_ethermo_sum l : get_ethermo l = Rsuml (map snd l).
Proof. unfold get_ethermo. rewrite fold_eth. ring. Qed.
Lemma split_sum prev ts : ts <> [] -> get_ethermo (split_ethermo prev ts) = prev.
Proof.
  intros N. rewrite get_ethermo_sum. unfold split_ethermo. rewrite map_map. cbn [snd].
  rewrite Rsuml_map_const. field. apply not_0_INR. now destruct ts.
Qed.

Lemma Rsum_one_changes n k (f : nat -> R) (x : R) : (k < n)%nat ->
  Rsum n (fun i => if Nat.eqb i k then x else f i) = Rsum n f - f k + x.
Proof.
  intros Hk.
  assert (D : Rsum n (fun i => (if Nat.eqb i k then x else f i) - f i) = x - f k).
  { rewrite (Rsum_delta n k); [now rewrite Nat.eqb_refl|easy|].
    intros i _ N. apply Nat.eqb_neq in N. rewrite N. ring. }
  rewrite Rsum_minus in D. lra.
Qed.

Lemma subs_energy nb n dynm3 l pnm :
  (forall t e, In (t, e) l -> (mode t < nb)%nat /\
     forall p e0, let '(p', e') := act t p e0 in kinetic n (dynm3 (mode t)) p' + e' = kinetic n (dynm3 (mode t)) p + e0) ->
  let '(l', pnm') := subs_step l pnm in
  Rsum nb (fun k => kinetic n (dynm3 k) (pnm' k)) + get_ethermo l'
  = Rsum nb (fun k => kinetic n (dynm3 k) (pnm k)) + get_ethermo l.
Proof.
  revert pnm. induction l as [|[t e] l IH]; intros pnm H; cbn [subs_step]; [easy|].
  destruct (H t e (or_introl eq_refl)) as [Hk Hc]. unfold sub_step. specialize (Hc (pnm (mode t)) e).
  destruct (act t (pnm (mode t)) e) as [p' e'].
  set (pnm1 := fun k => if Nat.eqb k (mode t) then p' else pnm k).
  specialize (IH pnm1 (fun t0 e0 Hin => H t0 e0 (or_intror Hin))).
  destruct (subs_step l pnm1) as [l'' pnm''].
  rewrite !get_ethermo_sum in *. cbn [map snd Rsuml].
  assert (Q : Rsum nb (fun k => kinetic n (dynm3 k) (pnm1 k))
              = Rsum nb (fun k => kinetic n (dynm3 k) (pnm k)) - kinetic n (dynm3 (mode t)) (pnm (mode t)) + kinetic n (dynm3 (mode t)) p').
  { rewrite <- (Rsum_one_changes nb (mode t) (fun k => kinetic n (dynm3 k) (pnm k))) by easy.
    apply Rsum_ext. intros k _. unfold pnm1. destruct (Nat.eqb_spec k (mode t)) as [-> |]; reflexivity. }
  lra.
Qed.

Lemma subs_fst l pnm : map fst (fst (subs_step l pnm)) = map fst l.
Proof.
  revert pnm. induction l as [|[t e] l IH]; intros pnm; cbn [subs_step map]; [easy|].
  destruct (sub_step t pnm e) as [pnm1 e1]. specialize (IH pnm1). destruct (subs_step l pnm1). cbn in *. now rewrite IH.
Qed.

(** modes that no sub-thermostat is bound to are not touched, and a mode with one thermostat gets one step *)
Lemma subs_untouched l pnm k : (forall t e, In (t, e) l -> mode t <> k) -> snd (subs_step l pnm) k = pnm k.
Proof.
  revert pnm. induction l as [|[t e] l IH]; intros pnm H; cbn [subs_step]; [easy|].
  unfold sub_step. destruct (act t (pnm (mode t)) e) as [p' e'].
  match goal with |- context [subs_step l ?x] => specialize (IH x); destruct (subs_step l x) as [l'' pnm'']; cbn [snd] in * end.
  rewrite IH by (intros t0 e0 Hin; apply (H t0 e0); now right).
  pose proof (H t e (or_introl eq_refl)) as N. destruct (Nat.eqb_spec k (mode t)) as [Q|]; [|easy]. now destruct N.
Qed.
Lemma subs_single l1 t e l2 pnm : (forall t' e', In (t', e') (l1 ++ l2) -> mode t' <> mode t) ->
  snd (subs_step (l1 ++ (t, e) :: l2) pnm) (mode t) = fst (act t (pnm (mode t)) e).
Proof.
  revert pnm. induction l1 as [|[t1 e1] l1 IH]; intros pnm H.
  - cbn [app subs_step]. unfold sub_step. destruct (act t (pnm (mode t)) e) as [p' e'].
    match goal with |- context [subs_step l2 ?x] =>
      pose proof (subs_untouched l2 x (mode t) H) as Q; destruct (subs_step l2 x) as [l'' pnm'']; cbn [snd fst] in * end.
    rewrite Q. now rewrite Nat.eqb_refl.
  - cbn [app subs_step]. unfold sub_step.
    pose proof (H t1 e1 (or_introl eq_refl)) as N.
    destruct (act t1 (pnm (mode t1)) e1) as [p' e'].
    match goal with |- context [subs_step _ ?x] =>
      specialize (IH x (fun t' e' Hin => H t' e' (or_intror Hin)));
      destruct (subs_step (l1 ++ (t, e) :: l2) x) as [l'' pnm'']; cbn [snd fst] in * end.
    rewrite IH. destruct (Nat.eqb_spec (mode t) (mode t1)) as [Q|]; [now destruct N|easy].
Qed.

(** ** Flips *)

Lemma div3 i : (3 * (i / 3) / 3 = i / 3 /\ (3 * (i / 3) + 1) / 3 = i / 3 /\ (3 * (i / 3) + 2) / 3 = i / 3)%nat.
Proof.
  set (q := (i / 3)%nat). rewrite !(Nat.mul_comm 3). repeat split.
  - now rewrite Nat.div_mul.
  - rewrite Nat.div_add_l by lia. now rewrite Nat.add_0_r.
  - rewrite Nat.div_add_l by lia. now rewrite Nat.add_0_r.
Qed.
Lemma adot_pos v i : 0 <= adot v v i.
Proof. unfold adot. nra. Qed.
Lemma adot_block u v i j : (i / 3 = j / 3)%nat -> adot u v i = adot u v j.
Proof. unfold adot. now intros ->. Qed.
(** a vector built as c(i) u(i) + d(i) v(i) with c, d constant on each atom *)
Lemma adot_lin c d u v w i : (forall j, (j / 3 = i / 3)%nat -> c j = c i /\ d j = d i) ->
  adot (fun j => c j * u j + d j * v j) w i = c i * adot u w i + d i * adot v w i.
Proof.
  intros H. unfold adot. destruct (div3 i) as (A & B & C).
  rewrite !(proj1 (H _ A)), !(proj1 (H _ B)), !(proj1 (H _ C)), !(proj2 (H _ A)), !(proj2 (H _ B)), !(proj2 (H _ C)). ring.
Qed.
Lemma adot_sym u v i : adot u v i = adot v u i.
Proof. unfold adot. ring. Qed.

Lemma sgn_sq x : x <> 0 -> sgn x * sgn x = 1.
Proof. intros. unfold sgn. destruct Rlt_dec; [ring|]. destruct Rlt_dec; [ring|lra]. Qed.
Lemma sgn_abs x : sgn x * x = Rabs x.
Proof.
  unfold sgn. destruct Rlt_dec; [rewrite Rabs_left by easy; ring|].
  destruct Rlt_dec; [rewrite Rabs_right by lra; ring|]. replace x with 0 by lra. rewrite Rabs_R0. ring.
Qed.
Lemma hfunc_cases x : hfunc x = if Rlt_dec x 0 then -2 * x else 0.
Proof. unfold hfunc, sgn. destruct Rlt_dec; [ring|]. destruct Rlt_dec; [ring|]. replace x with 0 by lra. ring. Qed.
