(** * Springs and Hessians of the instanton optimisers *)
From Coq Require Import List Arith Lia Reals Lra Bool String.
From Verif Require Import RSum Ortho NMModel NMProofs SpringModel SpringProofs InstFix InstModel.
Import ListNotations.
Open Scope list_scope.
Open Scope R_scope.

(** ** Flat indices *)
Lemma flat_div dof b c : (c < dof)%nat -> ((b * dof + c) / dof = b)%nat.
Proof. intros H. symmetry. apply (Nat.div_unique _ dof b c); [easy | lia]. Qed.
Lemma flat_mod dof b c : (c < dof)%nat -> ((b * dof + c) mod dof = c)%nat.
Proof. intros H. symmetry. apply (Nat.mod_unique _ dof b c); [easy | lia]. Qed.
Lemma flat_sum dof n f : Rsum (dof * n) f = Rsum n (fun b => Rsum dof (fun c => f (b * dof + c)%nat)).
Proof.
  induction n as [|n IH]; [now rewrite Nat.mul_0_r|]. replace (dof * S n)%nat with (dof * n + dof)%nat by lia.
  rewrite Rsum_split, IH. cbn [Rsum]. f_equal. apply Rsum_ext. intros. f_equal. lia.
Qed.
Lemma flat_ex dof n r : (r < dof * n)%nat -> exists b c, (b < n)%nat /\ (c < dof)%nat /\ r = (b * dof + c)%nat.
Proof.
  intros H. assert (D : dof <> 0%nat) by (intros ->; cbn in H; lia). exists (r / dof)%nat, (r mod dof)%nat.
  split; [apply Nat.div_lt_upper_bound; lia|]. split; [apply Nat.mod_upper_bound; easy|]. rewrite Nat.mul_comm. apply Nat.div_mod. easy.
Qed.

(** ** The chain of springs *)
(** Springs of constant [w2] m / x (j + 1) between beads [j] and [j + 1]. *)
Definition chain (x : nat -> R) (w2 : R) (n dof : nat) (m : vec) (q : mat) : R :=
  / 2 * w2 * Rsum dof (fun c => m c * Rsum (n - 1) (fun j => (q (j + 1)%nat c - q j c) ^ 2 / x (j + 1)%nat)).
(** Its gradient. *)
Definition chain_grad (x : nat -> R) (w2 : R) (n : nat) (m : vec) (q : mat) (b c : nat) : R :=
  m c * w2 * ((if (1 <=? b)%nat then (q b c - q (b - 1)%nat c) / x b else 0)
              + (if (b <? n - 1)%nat then (q b c - q (b + 1)%nat c) / x (b + 1)%nat else 0)).
Definition shift_q (b c : nat) (t : R) (q : mat) : mat := fun b' c' => if ((b' =? b) && (c' =? c))%nat then t else q b' c'.

Lemma sum_pair N b (u v : nat -> R) :
  Rsum N (fun j => (if (j + 1 =? b)%nat then u j else 0) + (if (j =? b)%nat then v j else 0))
  = (if ((1 <=? b) && (b <=? N))%nat then u (b - 1)%nat else 0) + (if (b <? N)%nat then v b else 0).
Proof.
  rewrite Rsum_plus. f_equal.
  - destruct (Nat.leb_spec 1 b) as [H|H]; cbn [andb].
    + destruct (Nat.leb_spec b N) as [H'|H'].
      * rewrite (Rsum_delta N (b - 1)); [|lia|].
        -- replace (b - 1 + 1)%nat with b by lia. now rewrite Nat.eqb_refl.
        -- intros i Hi Hn. destruct (Nat.eqb_spec (i + 1) b); [lia | easy].
      * apply Rsum_0. intros i Hi. destruct (Nat.eqb_spec (i + 1) b); [lia | easy].
    + apply Rsum_0. intros i Hi. destruct (Nat.eqb_spec (i + 1) b); [lia | easy].
  - destruct (Nat.ltb_spec b N) as [H|H].
    + rewrite (Rsum_delta N b); [now rewrite Nat.eqb_refl | easy |]. intros i Hi Hn. destruct (Nat.eqb_spec i b); [lia | easy].
    + apply Rsum_0. intros i Hi. destruct (Nat.eqb_spec i b); [lia | easy].
Qed.
(** The gradient is the derivative of the energy. *)
Theorem chain_derivative x w2 n dof m q b c : (b < n)%nat -> (c < dof)%nat ->
  derivable_pt_lim (fun t => chain x w2 n dof m (shift_q b c t q)) (q b c) (chain_grad x w2 n m q b c).
Proof.
  intros Hb Hc. unfold chain.
  apply derivable_eq with (/ 2 * w2 * Rsum dof (fun c' => m c' * Rsum (n - 1) (fun j =>
    (if (j + 1 =? b)%nat then (if (c' =? c)%nat then 2 * (q (j + 1)%nat c - q j c) / x (j + 1)%nat else 0) else 0)
    + (if (j =? b)%nat then (if (c' =? c)%nat then - (2 * (q (j + 1)%nat c - q j c) / x (j + 1)%nat) else 0) else 0)))).
  - rewrite (Rsum_delta dof c); [|easy|].
    + rewrite sum_pair, !Nat.eqb_refl. unfold chain_grad.
      destruct (Nat.leb_spec 1 b) as [H|H]; cbn [andb].
      * rewrite (proj2 (Nat.leb_le b (n - 1))) by lia. replace (b - 1 + 1)%nat with b by lia. destruct (b <? n - 1)%nat; unfold Rdiv; generalize (/ x b) (/ x (b + 1)%nat); intros; field.
      * destruct (b <? n - 1)%nat; unfold Rdiv; generalize (/ x b) (/ x (b + 1)%nat); intros; field.
    + intros i Hi Hn. rewrite (proj2 (Nat.eqb_neq i c) Hn). rewrite Rsum_0; [ring|]. intros j _. destruct (j + 1 =? b)%nat, (j =? b)%nat; ring.
  - apply (derivable_pt_lim_scal (fun t => Rsum dof (fun c' => m c' * Rsum (n - 1) (fun j => (shift_q b c t q (j + 1)%nat c' - shift_q b c t q j c') ^ 2 / x (j + 1)%nat)))).
    apply derivable_Rsum. intros c' Hc'.
    apply (derivable_pt_lim_scal (fun t => Rsum (n - 1) (fun j => (shift_q b c t q (j + 1)%nat c' - shift_q b c t q j c') ^ 2 / x (j + 1)%nat))).
    apply derivable_Rsum. intros j Hj.
    set (A := fun i => if ((i =? b) && (c' =? c))%nat then 1 else 0).
    assert (SA : forall i t, shift_q b c t q i c' = q i c' + A i * (t - q b c)).
    { intros i t. unfold shift_q, A. destruct (Nat.eqb_spec i b) as [->|]; cbn [andb]; [|ring]. destruct (Nat.eqb_spec c' c) as [->|]; ring. }
    apply derivable_ext with (fun t => ((q (j + 1)%nat c' - q j c') + (A (j + 1)%nat - A j) * (t - q b c)) ^ 2 / x (j + 1)%nat).
    { intros t. rewrite !SA. f_equal. ring. }
    set (D := q (j + 1)%nat c' - q j c'). set (B := A (j + 1)%nat - A j). set (Y := / x (j + 1)%nat). set (t0 := q b c).
    apply derivable_eq with (Y * (2 * (D + B * (t0 - t0)) * (B * (1 - 0)))).
    + unfold B, A, D, Y, t0, Rdiv. destruct (Nat.eqb_spec c' c) as [->|].
      * destruct (Nat.eqb_spec (j + 1) b) as [->|], (Nat.eqb_spec j b) as [->|]; cbn [andb]; try lia; ring.
      * rewrite !andb_false_r. destruct (j + 1 =? b)%nat, (j =? b)%nat; ring.
    + apply derivable_ext with (fun t => Y * (D + B * (t - t0)) ^ 2); [intros t; unfold Y, Rdiv; ring|].
      apply (derivable_pt_lim_scal (fun t => (D + B * (t - t0)) ^ 2)).
      apply (derivable_pt_lim_comp (fun t => D + B * (t - t0)) (fun y => y ^ 2)).
      * apply derivable_eq with (0 + B * (1 - 0)); [ring|].
        apply (derivable_pt_lim_plus (fun _ => D) (fun t => B * (t - t0))); [apply derivable_pt_lim_const|].
        apply (derivable_pt_lim_scal (fun t => t - t0)). apply (derivable_pt_lim_minus (fun t => t) (fun _ => t0)); [apply derivable_pt_lim_id | apply derivable_pt_lim_const].
      * apply derivable_eq with (INR 2 * (D + B * (t0 - t0)) ^ 1); [cbn; ring|]. apply derivable_pt_lim_pow.
Qed.
Lemma left_sum n x : (0 < n)%nat -> Rsum n (fun j => (x j - x (left true n j)) ^ 2) = Rsum (n - 1) (fun j => (x (j + 1)%nat - x j) ^ 2).
Proof.
  intros H. destruct n as [|n]; [lia|]. rewrite Rsum_first. replace (S n - 1)%nat with n by lia. unfold left at 1. cbn [Nat.eqb].
  replace (x 0%nat - x 0%nat) with 0 by ring. rewrite (Rsum_ext n _ (fun j => (x (j + 1)%nat - x j) ^ 2)); [ring|].
  intros j _. unfold left. cbn [Nat.eqb]. replace (S j - 1)%nat with j by lia. now rewrite Nat.add_1_r.
Qed.
(** The energy of the springs is that of the open chain, of frequency rp wn, whatever the coefficients. *)
Theorem spring_energy n dof m rp wn coef q : (0 < n)%nat ->
  fst (spring_call n dof m rp wn coef q) = chain (fun _ => 1) ((rp * wn) ^ 2) n dof m q.
Proof.
  intros Hn. unfold spring_call, chain. destruct (Nat.eqb_spec n 1) as [->|H1]; cbn [fst].
  - rewrite Rsum_0; [ring|]. intros c _. cbn. ring.
  - rewrite Rsum_swap, Rmult_assoc. f_equal. rewrite <- Rsum_scal. apply Rsum_ext. intros c _.
    rewrite (Rsum_ext (n - 1) (fun j => (q (j + 1)%nat c - q j c) ^ 2 / 1) (fun j => (q (j + 1)%nat c - q j c) ^ 2)) by (intros; field).
    rewrite <- (left_sum n (fun b => q b c)) by easy. rewrite <- (modes_energy true n (fun b => q b c)) by easy.
    rewrite <- !Rsum_scal. apply Rsum_ext. intros k _. unfold sp_omegak, o_omegak. cbn [eva cmat]. ring.
Qed.
Theorem spring_gradient n dof m rp wn coef q b c : (b < n)%nat ->
  snd (spring_call n dof m rp wn coef q) b c = chain_grad (fun _ => 1) ((rp * wn) ^ 2) n m q b c.
Proof.
  intros Hb. unfold spring_call, chain_grad. destruct (Nat.eqb_spec n 1) as [->|H1]; cbn [snd].
  - replace b with 0%nat by lia. cbn. ring.
  - rewrite Rmult_assoc. f_equal.
    transitivity ((rp * wn) ^ 2 * app n (transpose (cmat true n)) (fun k => eva true n k ^ 2 * app n (cmat true n) (fun b => q b c) k) b).
    + unfold app at 1 3. rewrite <- Rsum_scal. apply Rsum_ext. intros k _. unfold sp_omegak, o_omegak. cbn [eva cmat]. ring.
    + rewrite modes_lap by lia. f_equal. unfold lap, left, right. destruct (Nat.eqb_spec b 0) as [->|H0].
      * cbn [Nat.leb]. rewrite (proj2 (Nat.eqb_neq 0 (n - 1))) by lia. rewrite (proj2 (Nat.ltb_lt 0 (n - 1))) by lia. field.
      * rewrite (proj2 (Nat.leb_le 1 b)) by lia. destruct (Nat.eqb_spec b (n - 1)) as [->|H2].
        -- rewrite Nat.ltb_irrefl. field.
        -- rewrite (proj2 (Nat.ltb_lt b (n - 1))) by lia. field.
Qed.
(** So the gradient is the derivative of the energy. *)
Theorem spring_consistent n dof m rp wn coef q b c : (b < n)%nat -> (c < dof)%nat ->
  derivable_pt_lim (fun t => fst (spring_call n dof m rp wn coef (shift_q b c t q))) (q b c) (snd (spring_call n dof m rp wn coef q) b c).
Proof.
  intros Hb Hc. rewrite spring_gradient by easy. apply derivable_ext with (fun t => chain (fun _ => 1) ((rp * wn) ^ 2) n dof m (shift_q b c t q)).
  - intros t. symmetry. apply spring_energy. lia.
  - now apply chain_derivative.
Qed.

(** ** The Hessian of the springs *)
Lemma fold_add {A} (F : A -> nat -> nat -> R) (l : list A) h r s :
  fold_left (fun (h : mat) i => fun r s => h r s + F i r s) l h r s = h r s + Rsuml (map (fun i => F i r s) l).
Proof. revert h. induction l as [|a l IH]; intros h; cbn; [ring|]. rewrite IH. ring. Qed.
Lemma fold_blocks {A} (f : A -> mat -> mat) (F : A -> nat -> nat -> R) l h r s :
  (forall i h r s, f i h r s = h r s + F i r s) -> fold_left (fun h i => f i h) l h r s = h r s + Rsuml (map (fun i => F i r s) l).
Proof. intros H. revert h. induction l as [|a l IH]; intros h; cbn; [ring|]. rewrite IH, H. ring. Qed.
Lemma Rsuml_seq a k (f : nat -> R) : Rsuml (map f (seq a k)) = Rsum k (fun i => f (a + i)%nat).
Proof. revert a. induction k as [|k IH]; intros a; [easy|]. cbn [seq map Rsuml]. rewrite Rsum_first, IH, Nat.add_0_r. f_equal. apply Rsum_ext. intros. f_equal. lia. Qed.
Lemma seq_pick a k b (f : nat -> R) : Rsuml (map (fun i => if (b =? i)%nat then f i else 0) (seq a k)) = if ((a <=? b) && (b <? a + k))%nat then f b else 0.
Proof.
  rewrite Rsuml_seq. destruct (Nat.leb_spec a b) as [H|H]; cbn [andb].
  - destruct (Nat.ltb_spec b (a + k)) as [H'|H'].
    + rewrite (Rsum_delta k (b - a)).
      * replace (a + (b - a))%nat with b by lia. now rewrite Nat.eqb_refl.
      * lia.
      * intros i Hi Hn. destruct (Nat.eqb_spec b (a + i)); [lia | easy].
    + apply Rsum_0. intros i Hi. destruct (Nat.eqb_spec b (a + i)); [lia | easy].
  - apply Rsum_0. intros i Hi. destruct (Nat.eqb_spec b (a + i)); [lia | easy].
Qed.
(** The tridiagonal matrix of the chain between beads. *)
Definition tri (x : nat -> R) (n b b' : nat) : R :=
  if (b =? b')%nat then (if (1 <=? b)%nat then / x b else 0) + (if (b <? n - 1)%nat then / x (b + 1)%nat else 0)
  else if (b' =? b + 1)%nat then - / x b' else if (b =? b' + 1)%nat then - / x b else 0.
Lemma spring_hessian_val dof n m w2 coef : (0 < n)%nat -> List.length coef = (n + 1)%nat ->
  exists h, spring_hessian dof n m w2 "half" coef = Val h /\
    forall b c b' c', (b < n)%nat -> (b' < n)%nat -> (c < dof)%nat -> (c' < dof)%nat ->
      h (b * dof + c)%nat (b' * dof + c')%nat = (if (c =? c')%nat then m c * w2 * tri (cf coef) n b b' else 0).
Proof.
  intros Hn HL. unfold spring_hessian. rewrite HL, Nat.eqb_refl. cbn [negb].
  destruct (Nat.eqb_spec n 1) as [->|H1].
  { eexists. split; [reflexivity|]. intros b c b' c' Hb Hb' _ _. replace b with 0%nat by lia. replace b' with 0%nat by lia. unfold tri. cbn. destruct (c =? c')%nat; ring. }
  cbn [String.eqb Ascii.eqb Bool.eqb bind]. eexists. split; [reflexivity|]. intros b c b' c' Hb Hb' Hc Hc'.
  rewrite (fold_blocks (fun i h => add_block dof (i + 1) i (scale_mat (1 / cf coef (i + 1)) (diag (fun c => - (m c * w2))))
                                     (add_block dof i (i + 1) (scale_mat (1 / cf coef (i + 1)) (diag (fun c => - (m c * w2)))) h))
    (fun i r s => (if ((r / dof =? i) && (s / dof =? i + 1))%nat then diag (fun c => - (m c * w2)) (r mod dof)%nat (s mod dof)%nat * (1 / cf coef (i + 1)) else 0)
                + (if ((r / dof =? i + 1) && (s / dof =? i))%nat then diag (fun c => - (m c * w2)) (r mod dof)%nat (s mod dof)%nat * (1 / cf coef (i + 1)) else 0)))
    by (intros; unfold add_block, scale_mat; ring).
  rewrite (fold_blocks (fun i h => add_block dof i i (scale_mat (1 / cf coef i + 1 / cf coef (i + 1)) (diag (fun c => m c * w2))) h)
    (fun i r s => if ((r / dof =? i) && (s / dof =? i))%nat then diag (fun c => m c * w2) (r mod dof)%nat (s mod dof)%nat * (1 / cf coef i + 1 / cf coef (i + 1)) else 0)) by easy.
  unfold add_block, scale_mat. rewrite !flat_div, !flat_mod by easy. unfold diag.
  rewrite (Rsuml_map_ext _ (fun i => if (b =? i)%nat then (if (b' =? b)%nat then (if (c =? c')%nat then m c * w2 else 0) * (1 / cf coef i + 1 / cf coef (i + 1)) else 0) else 0)).
  2:{ intros i _. destruct (Nat.eqb_spec b i) as [->|]; cbn [andb]; easy. }
  rewrite seq_pick.
  rewrite (Rsuml_map_plus (fun i => if ((b =? i) && (b' =? i + 1))%nat then (if (c =? c')%nat then - (m c * w2) else 0) * (1 / cf coef (i + 1)) else 0)
            (fun i => if ((b =? i + 1) && (b' =? i))%nat then (if (c =? c')%nat then - (m c * w2) else 0) * (1 / cf coef (i + 1)) else 0)).
  rewrite (Rsuml_map_ext _ (fun i => if (b =? i)%nat then (if (b' =? i + 1)%nat then (if (c =? c')%nat then - (m c * w2) else 0) * (1 / cf coef (i + 1)) else 0) else 0)).
  2:{ intros i _. destruct (b =? i)%nat; easy. }
  rewrite seq_pick.
  rewrite (Rsuml_map_ext _ (fun i => if (b' =? i)%nat then (if (b =? i + 1)%nat then (if (c =? c')%nat then - (m c * w2) else 0) * (1 / cf coef (i + 1)) else 0) else 0)).
  2:{ intros i _. destruct (b' =? i)%nat, (b =? i + 1)%nat; easy. }
  rewrite seq_pick. unfold tri. unfold Rdiv. rewrite !Rmult_1_l.
  replace (1 + (n - 2))%nat with (n - 1)%nat by lia. replace (0 + (n - 1))%nat with (n - 1)%nat by lia. change (0 <=? b)%nat with true. change (0 <=? b')%nat with true. cbn [andb].
  destruct (Nat.eqb_spec c c') as [->|Hcc].
  2:{ destruct ((b =? 0) && (b' =? 0))%nat, ((b =? n - 1) && (b' =? n - 1))%nat, ((1 <=? b) && (b <? n - 1))%nat, (b' =? b)%nat,
        (b <? n - 1)%nat, (b' =? b + 1)%nat, (b' <? n - 1)%nat, (b =? b' + 1)%nat; ring. }
  cbn [andb].
  destruct (Nat.eqb_spec b b') as [<-|Hbb].
  - rewrite Nat.eqb_refl. rewrite (proj2 (Nat.eqb_neq b (b + 1))) by lia.
    destruct (Nat.eqb_spec b 0) as [->|H0]; cbn [andb].
    + rewrite (proj2 (Nat.eqb_neq 0 (n - 1))) by lia. rewrite (proj2 (Nat.ltb_lt 0 (n - 1))) by lia. cbn [andb]. change (1 <=? 0)%nat with false. cbn [andb]. change (0 + 1)%nat with 1%nat. ring.
    + rewrite (proj2 (Nat.leb_le 1 b)) by lia. cbn [andb]. destruct (Nat.eqb_spec b (n - 1)) as [E|H2]; cbn [andb].
      * rewrite <- E, Nat.ltb_irrefl. ring.
      * rewrite (proj2 (Nat.ltb_lt b (n - 1))) by lia. ring.
  - rewrite (proj2 (Nat.eqb_neq b' b)) by lia. replace ((b =? 0) && (b' =? 0))%nat with false by (destruct (Nat.eqb_spec b 0), (Nat.eqb_spec b' 0); try easy; lia).
    replace ((b =? n - 1) && (b' =? n - 1))%nat with false by (destruct (Nat.eqb_spec b (n - 1)), (Nat.eqb_spec b' (n - 1)); try easy; lia).
    destruct (Nat.eqb_spec b' (b + 1)) as [E|E].
    + rewrite (proj2 (Nat.ltb_lt b (n - 1))) by lia. rewrite (proj2 (Nat.eqb_neq b (b' + 1))) by lia. rewrite E. destruct ((1 <=? b) && true)%nat, (b + 1 <? n - 1)%nat; ring.
    + destruct (Nat.eqb_spec b (b' + 1)) as [E'|E'].
      * rewrite (proj2 (Nat.ltb_lt b' (n - 1))) by lia. rewrite E'. destruct ((1 <=? b' + 1) && (b' + 1 <? n - 1))%nat, (b' + 1 <? n - 1)%nat; ring.
      * destruct ((1 <=? b) && (b <? n - 1))%nat, (b <? n - 1)%nat, (b' <? n - 1)%nat; ring.
Qed.
(** Sum over the row of the tridiagonal matrix. *)
Lemma tri_row x n b y : (b < n)%nat -> Rsum n (fun b' => tri x n b b' * y b')
  = (if (1 <=? b)%nat then (y b - y (b - 1)%nat) / x b else 0) + (if (b <? n - 1)%nat then (y b - y (b + 1)%nat) / x (b + 1)%nat else 0).
Proof.
  intros Hb.
  rewrite (Rsum_ext n _ (fun b' => (if (b' =? b)%nat then ((if (1 <=? b)%nat then / x b else 0) + (if (b <? n - 1)%nat then / x (b + 1)%nat else 0)) * y b' else 0)
     + ((if (b' + 1 =? b)%nat then - / x b * y b' else 0) + (if (b' =? b + 1)%nat then - / x b' * y b' else 0)))).
  - rewrite Rsum_plus, (Rsum_delta n b), Nat.eqb_refl; [| easy | intros i _ Hi; now rewrite (proj2 (Nat.eqb_neq i b) Hi)].
    rewrite Rsum_plus.
    assert (L : Rsum n (fun b' => if (b' + 1 =? b)%nat then - / x b * y b' else 0) = if (1 <=? b)%nat then - / x b * y (b - 1)%nat else 0).
    { destruct (Nat.leb_spec 1 b) as [H|H].
      - rewrite (Rsum_delta n (b - 1)); [| lia |]; [replace (b - 1 + 1)%nat with b by lia; now rewrite Nat.eqb_refl|]. intros i _ Hi. now rewrite (proj2 (Nat.eqb_neq (i + 1) b)) by lia.
      - apply Rsum_0. intros i _. now rewrite (proj2 (Nat.eqb_neq (i + 1) b)) by lia. }
    assert (U : Rsum n (fun b' => if (b' =? b + 1)%nat then - / x b' * y b' else 0) = if (b <? n - 1)%nat then - / x (b + 1)%nat * y (b + 1)%nat else 0).
    { destruct (Nat.ltb_spec b (n - 1)) as [H|H].
      - rewrite (Rsum_delta n (b + 1)); [| lia |]; [now rewrite Nat.eqb_refl|]. intros i _ Hi. now rewrite (proj2 (Nat.eqb_neq i (b + 1))) by lia.
      - apply Rsum_0. intros i Hi. now rewrite (proj2 (Nat.eqb_neq i (b + 1))) by lia. }
    rewrite L, U. destruct (1 <=? b)%nat, (b <? n - 1)%nat; unfold Rdiv; ring.
  - intros b' _. unfold tri. rewrite (Nat.eqb_sym b b'), (Nat.eqb_sym b (b' + 1)). destruct (Nat.eqb_spec b' b) as [->|].
    + rewrite (proj2 (Nat.eqb_neq (b + 1) b)), (proj2 (Nat.eqb_neq b (b + 1))) by lia. ring.
    + destruct (Nat.eqb_spec b' (b + 1)) as [->|].
      * rewrite (proj2 (Nat.eqb_neq (b + 1 + 1) b)) by lia. ring.
      * destruct (b' + 1 =? b)%nat; ring.
Qed.
Definition vec_of (dof : nat) (q : mat) (s : nat) : R := q (s / dof)%nat (s mod dof)%nat.
Lemma row_sum dof n h q b c (K : nat -> R) : (c < dof)%nat ->
  (forall b' c', (b' < n)%nat -> (c' < dof)%nat -> h (b * dof + c)%nat (b' * dof + c')%nat = if (c =? c')%nat then K b' else 0) ->
  Rsum (dof * n) (fun s => h (b * dof + c)%nat s * vec_of dof q s) = Rsum n (fun b' => K b' * q b' c).
Proof.
  intros Hc H. rewrite flat_sum. apply Rsum_ext. intros b' Hb'. rewrite (Rsum_delta dof c); [|easy|].
  - rewrite H, Nat.eqb_refl by easy. unfold vec_of. now rewrite flat_div, flat_mod.
  - intros i Hi Hn. rewrite H by easy. rewrite (proj2 (Nat.eqb_neq c i)) by auto. ring.
Qed.
(** The Hessian of the springs is that of the chain whose springs are divided by the coefficients:
    its product with the positions is the gradient of that chain. *)
Theorem spring_hessian_chain dof n m w2 coef q : (0 < n)%nat -> List.length coef = (n + 1)%nat ->
  exists h, spring_hessian dof n m w2 "half" coef = Val h /\
    (forall r s, (r < dof * n)%nat -> (s < dof * n)%nat -> h r s = h s r) /\
    forall b c, (b < n)%nat -> (c < dof)%nat ->
      Rsum (dof * n) (fun s => h (b * dof + c)%nat s * vec_of dof q s) = chain_grad (cf coef) w2 n m q b c.
Proof.
  intros Hn HL. destruct (spring_hessian_val dof n m w2 coef Hn HL) as (h & E & V). exists h. split; [easy|]. split.
  - intros r s Hr Hs. destruct (flat_ex dof n r Hr) as (b & c & Hb & Hc & ->). destruct (flat_ex dof n s Hs) as (b' & c' & Hb' & Hc' & ->).
    rewrite !V by easy. rewrite (Nat.eqb_sym c' c). destruct (Nat.eqb_spec c c') as [->|]; [|easy]. f_equal. unfold tri. rewrite (Nat.eqb_sym b' b). destruct (Nat.eqb_spec b b') as [->|]; [easy|].
    destruct (Nat.eqb_spec b' (b + 1)) as [E1|E1], (Nat.eqb_spec b (b' + 1)) as [E2|E2]; try lia; easy.
  - intros b c Hb Hc. rewrite (row_sum dof n h q b c (fun b' => m c * w2 * tri (cf coef) n b b')) by (try easy; intros; now apply V).
    rewrite (Rsum_ext n _ (fun b' => m c * w2 * (tri (cf coef) n b b' * q b' c))) by (intros; ring).
    rewrite Rsum_scal, tri_row by easy. easy.
Qed.
(** With equal coefficients of one it is the Hessian of the springs whose forces are used ... *)
Theorem spring_hessian_uniform dof n m rp wn coef q : (0 < n)%nat -> List.length coef = (n + 1)%nat -> (forall i, (1 <= i < n)%nat -> cf coef i = 1) ->
  exists h, spring_hessian dof n m (sp_omegan rp wn ^ 2) "half" coef = Val h /\
    forall b c, (b < n)%nat -> (c < dof)%nat ->
      Rsum (dof * n) (fun s => h (b * dof + c)%nat s * vec_of dof q s) = snd (spring_call n dof m rp wn coef q) b c.
Proof.
  intros Hn HL H1. destruct (spring_hessian_chain dof n m (sp_omegan rp wn ^ 2) coef q Hn HL) as (h & E & _ & V). exists h. split; [easy|].
  intros b c Hb Hc. rewrite V, spring_gradient by easy. unfold chain_grad, sp_omegan. f_equal. f_equal.
  - destruct (Nat.leb_spec 1 b) as [H|H]; [|easy]. rewrite H1 by lia. easy.
  - destruct (Nat.ltb_spec b (n - 1)) as [H|H]; [|easy]. rewrite H1 by lia. easy.
Qed.
(** ... and otherwise it is not: the forces do not know of the coefficients. *)
Theorem spring_hessian_refuted : exists dof n m rp wn coef q b c h,
  spring_hessian dof n m (sp_omegan rp wn ^ 2) "half" coef = Val h /\ (forall i, (i <= n)%nat -> 0 < cf coef i) /\ List.length coef = (n + 1)%nat /\
  (b < n)%nat /\ (c < dof)%nat /\
  Rsum (dof * n) (fun s => h (b * dof + c)%nat s * vec_of dof q s) <> snd (spring_call n dof m rp wn coef q) b c.
Proof.
  pose (q := fun b (_ : nat) => INR b). pose (coef := [1; 2; 1; 1]).
  destruct (spring_hessian_chain 3 3 (fun _ => 1) (sp_omegan 1 1 ^ 2) coef q) as (h & E & _ & V); [lia | easy |].
  exists 3%nat, 3%nat, (fun _ => 1), 1, 1, coef, q, 0%nat, 0%nat, h. split; [easy|]. split.
  { intros i Hi. unfold cf, coef. destruct i as [|[|[|[|i]]]]; cbn; try lra; lia. }
  split; [easy|]. split; [lia|]. split; [lia|]. rewrite V, spring_gradient by lia. unfold chain_grad, sp_omegan, cf, coef, q. cbn. lra.
Qed.

(** ** Reduced and complete Hessian *)
(** The blocks of the physical part: bead [b] has [h i (b * dof + j)], with its weight. *)
Theorem red2comp_entries dof n coef h b c b' c' : (b < n)%nat -> (c < dof)%nat -> (c' < dof)%nat ->
  red2comp dof n coef h (b * dof + c)%nat (b' * dof + c')%nat = if (b =? b')%nat then h c (b' * dof + c')%nat * weight coef b else 0.
Proof.
  intros Hb Hc Hc'. unfold red2comp, weight. rewrite !flat_div, flat_mod by easy. rewrite (proj2 (Nat.ltb_lt b n)) by easy. rewrite andb_true_r.
  destruct (b =? b')%nat; [|easy]. unfold Rdiv. ring.
Qed.

(** ** The banded form *)
Lemma blocks_len {A} (l : list A) n : n <> 0%nat -> List.length l = n -> (List.length l =? n)%nat = true.
Proof. intros _ ->. apply Nat.eqb_refl. Qed.
Lemma nth_map_seq {B} (f : nat -> B) a k i d : (i < k)%nat -> nth i (map f (seq a k)) d = f (a + i)%nat.
Proof. intros H. rewrite (nth_indep _ d (f 0%nat)) by (now rewrite map_length, seq_length). rewrite map_nth, seq_nth by easy. easy. Qed.
(** Two beads: one block too many. *)
Theorem banded_two_refuted dof m w2 masses shift coef h : banded_hessian dof 2 m w2 masses shift coef h = ValueError.
Proof. reflexivity. Qed.
Definition kron (i j : nat) : R := if (i =? j)%nat then 1 else 0.
(** The entries of the band: for [i <= j] at most [dof] apart. *)
Lemma banded_val dof n m w2 masses shift coef h : (0 < dof)%nat -> (n = 1 \/ 3 <= n)%nat -> List.length coef = (n + 1)%nat ->
  exists B, banded_hessian dof n m w2 masses shift coef h = Val B /\
    forall b c b' c', (b < n)%nat -> (b' < n)%nat -> (c < dof)%nat -> (c' < dof)%nat -> (b * dof + c <= b' * dof + c')%nat -> (b' * dof + c' <= b * dof + c + dof)%nat ->
      B (dof + (b * dof + c) - (b' * dof + c'))%nat (b' * dof + c')%nat
      = (if (c =? c')%nat then (if masses then m c else 1) * w2 * tri (cf coef) n b b' else 0)
        + (if (b =? b')%nat then h c (b' * dof + c')%nat * weight coef b else 0) + (if ((b =? b') && (c =? c'))%nat then shift else 0).
Proof.
  intros Hd Hn HL. unfold banded_hessian.
  assert (PHYS : forall b c b' c', (b < n)%nat -> (b' < n)%nat -> (c < dof)%nat -> (c' < dof)%nat -> (b * dof + c <= b' * dof + c')%nat -> (b' * dof + c' <= b * dof + c + dof)%nat ->
     band_phys dof n coef h (dof + (b * dof + c) - (b' * dof + c'))%nat (b' * dof + c')%nat = if (b =? b')%nat then h c (b' * dof + c')%nat * weight coef b else 0).
  { intros b c b' c' Hb Hb' Hc Hc' H1 H2. unfold band_phys. rewrite flat_div, flat_mod by easy. rewrite (proj2 (Nat.ltb_lt b' n)) by easy. rewrite andb_true_r.
    destruct (Nat.eqb_spec b b') as [<-|Hbb].
    - rewrite !(proj2 (Nat.leb_le _ _)) by lia. cbn [andb]. replace (c' - (dof - (dof + (b * dof + c) - (b * dof + c'))))%nat with c by lia. unfold weight, Rdiv. ring.
    - assert (b' = b + 1)%nat by nia. subst b'. replace (dof + (b * dof + c) - ((b + 1) * dof + c'))%nat with (c - c')%nat by nia.
      destruct (Nat.leb_spec 1 (c - c')); [|easy]. rewrite (proj2 (Nat.leb_le (c - c') dof)) by lia. cbn [andb]. rewrite (proj2 (Nat.leb_gt (dof - (c - c')) c')) by lia. easy. }
  destruct (Nat.ltb_spec 1 n) as [H1|H1].
  2:{ assert (n = 1)%nat by lia. subst n. cbn [bind]. eexists. split; [reflexivity|]. intros b c b' c' Hb Hb' Hc Hc' L1 L2. cbn beta.
      rewrite PHYS by easy. replace b with 0%nat in * by lia. replace b' with 0%nat in * by lia. cbn [Nat.eqb andb]. unfold tri. cbn [Nat.eqb Nat.leb Nat.ltb Nat.sub].
      destruct (Nat.eqb_spec c c') as [<-|Hc2].
      - replace (dof + (0 * dof + c) - (0 * dof + c))%nat with dof by lia. rewrite Nat.eqb_refl. ring.
      - rewrite (proj2 (Nat.eqb_neq _ dof)) by lia. ring. }
  assert (H3 : (3 <= n)%nat) by lia. cbv zeta.
  rewrite (blocks_len _ n); [| lia | cbn [List.app List.length]; rewrite app_length, map_length, seq_length; cbn; lia].
  rewrite (blocks_len _ n); [| lia | cbn [List.app List.length]; rewrite map_length, seq_length; lia].
  cbn [bind]. eexists. split; [reflexivity|]. intros b c b' c' Hb Hb' Hc Hc' L1 L2. cbn beta.
  set (j := (dof + (b * dof + c) - (b' * dof + c'))%nat).
  assert (DC : forall x, (if masses then fun c0 : nat => m c0 * w2 else fun _ : nat => 1 * w2) x = (if masses then m x else 1) * w2) by (intros; now destruct masses).
  assert (HL2 : (List.length coef - 2 = n - 1)%nat) by lia.
  destruct (Nat.eqb_spec j 0) as [J0|J0].
  - (* outer diagonal: next bead, same coordinate *)
    assert (E1 : b' = (b + 1)%nat) by (unfold j in J0; nia). assert (E2 : c' = c) by (unfold j in J0; nia).
    rewrite (proj2 (Nat.eqb_neq j dof)) by lia. unfold blocks_at. rewrite flat_div, flat_mod by easy.
    rewrite E1, E2. rewrite Nat.eqb_refl. rewrite (proj2 (Nat.eqb_neq b (b + 1))) by lia. cbn [andb]. unfold tri. rewrite (proj2 (Nat.eqb_neq b (b + 1))) by lia. rewrite Nat.eqb_refl.
    rewrite Nat.add_1_r. cbn [List.app nth]. destruct b as [|b].
    + rewrite DC. unfold Rdiv. ring.
    + rewrite nth_map_seq by lia. rewrite DC. unfold Rdiv. replace (2 + b)%nat with (S (S b)) by lia. ring.
  - destruct (Nat.eqb_spec j dof) as [JD|JD].
    + assert (E : (b * dof + c)%nat = (b' * dof + c')%nat) by (unfold j in JD; lia).
      assert (E1 : b = b') by (rewrite <- (flat_div dof b c), <- (flat_div dof b' c'), E by easy; easy).
      assert (E2 : c = c') by (rewrite <- (flat_mod dof b c), <- (flat_mod dof b' c'), E by easy; easy).
      unfold j. rewrite PHYS by easy. subst b' c'. rewrite !Nat.eqb_refl. cbn [andb]. unfold blocks_at. rewrite flat_div, flat_mod by easy.
      match goal with |- _ + ?t + _ = _ => assert (X : t = (if masses then m c else 1) * w2 * tri (cf coef) n b b) end.
      { unfold tri. rewrite Nat.eqb_refl. cbn [List.app]. destruct b as [|b].
        - cbn [nth Nat.leb]. rewrite DC, (proj2 (Nat.ltb_lt 0 (n - 1))) by lia. change (0 + 1)%nat with 1%nat. unfold Rdiv. ring.
        - cbn [nth]. rewrite (proj2 (Nat.leb_le 1 (S b))) by lia. destruct b as [|b].
          + rewrite DC, (proj2 (Nat.ltb_lt 1 (n - 1))) by lia. unfold Rdiv. ring.
          + destruct (Nat.ltb_spec (S (S b)) (n - 1)) as [Q|Q].
            * rewrite app_nth1 by (rewrite map_length, seq_length; lia).
              rewrite nth_map_seq by lia. rewrite DC. replace (2 + b)%nat with (S (S b)) by lia. unfold Rdiv. ring.
            * rewrite app_nth2 by (rewrite map_length, seq_length; lia). rewrite map_length, seq_length. replace (b - (n - 3))%nat with 0%nat by lia. cbn [nth].
              rewrite DC, HL2. replace (n - 1)%nat with (S (S b)) by lia. unfold Rdiv. ring. }
      rewrite X. ring.
    + unfold j. rewrite PHYS by easy. unfold j in J0, JD.
      assert (X : (if (c =? c')%nat then (if masses then m c else 1) * w2 * tri (cf coef) n b b' else 0) = 0).
      { destruct (Nat.eqb_spec c c') as [->|]; [|easy]. unfold tri. rewrite (proj2 (Nat.eqb_neq b b')) by (intros ->; lia).
        rewrite (proj2 (Nat.eqb_neq b' (b + 1))) by (intros ->; nia). rewrite (proj2 (Nat.eqb_neq b (b' + 1))) by nia. ring. }
      rewrite X. destruct (Nat.eqb_spec b b') as [->|]; cbn [andb]; [|ring]. rewrite (proj2 (Nat.eqb_neq c c')) by (intros ->; lia). ring.
Qed.
(** The band holds the complete Hessian, the diagonal shifted; and the complete Hessian is zero outside the band. *)
Theorem banded_full dof n m w2 shift coef h : (0 < dof)%nat -> (n = 1 \/ 3 <= n)%nat -> List.length coef = (n + 1)%nat ->
  exists B H, banded_hessian dof n m w2 true shift coef h = Val B /\ full_hessian dof n m w2 coef h = Val H /\
    forall i j, (i <= j)%nat -> (j < dof * n)%nat ->
      ((j <= i + dof)%nat -> B (dof + i - j)%nat j = H i j + shift * kron i j) /\ ((i + dof < j)%nat -> H i j = 0).
Proof.
  intros Hd Hn HL. destruct (banded_val dof n m w2 true shift coef h Hd Hn HL) as (B & EB & VB).
  destruct (spring_hessian_val dof n m w2 coef) as (hs & EH & VH); [lia | easy |].
  exists B. eexists. split; [easy|]. split; [unfold full_hessian; rewrite EH; reflexivity|]. cbn beta. intros i j Hij Hj.
  destruct (flat_ex dof n i) as (b & c & Hb & Hc & ->); [lia|]. destruct (flat_ex dof n j Hj) as (b' & c' & Hb' & Hc' & ->).
  rewrite VH, red2comp_entries by easy. split.
  - intros L. rewrite VB by easy. unfold kron.
    destruct (Nat.eqb_spec (b * dof + c) (b' * dof + c')) as [E|E].
    + assert (E1 : b = b') by (rewrite <- (flat_div dof b c), <- (flat_div dof b' c'), E by easy; easy).
      assert (E2 : c = c') by (rewrite <- (flat_mod dof b c), <- (flat_mod dof b' c'), E by easy; easy). subst. rewrite !Nat.eqb_refl. cbn [andb]. ring.
    + destruct (Nat.eqb_spec b b') as [->|]; cbn [andb]; [|ring]. destruct (Nat.eqb_spec c c') as [->|]; [easy | ring].
  - intros L. rewrite (proj2 (Nat.eqb_neq b b')) by (intros ->; lia). destruct (Nat.eqb_spec c c') as [->|]; [|ring]. unfold tri.
    rewrite (proj2 (Nat.eqb_neq b b')) by (intros ->; lia). rewrite (proj2 (Nat.eqb_neq b' (b + 1))) by (intros ->; nia). rewrite (proj2 (Nat.eqb_neq b (b' + 1))) by nia. ring.
Qed.
(** sym_band: what the solver reads is the symmetric matrix whose upper band is [A]. *)
Theorem sym_band_symmetric u M junk A i j : (u <= M)%nat -> (i < M)%nat -> (j < M)%nat ->
  of_band u (sym_band u M junk A) i j = if ((j <=? i + u) && (i <=? j + u))%nat then A (u + Nat.min i j - Nat.max i j)%nat (Nat.max i j) else 0.
Proof.
  intros Hu Hi Hj. unfold of_band. destruct (Nat.leb_spec j (i + u)) as [H1|H1]; cbn [andb]; [|easy]. destruct (Nat.leb_spec i (j + u)) as [H2|H2]; [|easy].
  unfold sym_band. destruct (Nat.leb_spec (u + i - j) u) as [H|H].
  - rewrite Nat.min_l, Nat.max_r by lia. easy.
  - rewrite (proj2 (Nat.ltb_lt j (M - (u + i - j - u)))) by lia. rewrite Nat.min_r, Nat.max_l by lia. f_equal; lia.
Qed.
(** Symmetric blocks of the physical Hessian. *)
Definition sym_blocks (dof n : nat) (h : mat) : Prop :=
  forall b c c', (b < n)%nat -> (c < dof)%nat -> (c' < dof)%nat -> h c (b * dof + c')%nat = h c' (b * dof + c)%nat.
Lemma full_symmetric dof n m w2 coef h H i j : (0 < n)%nat -> List.length coef = (n + 1)%nat -> sym_blocks dof n h -> full_hessian dof n m w2 coef h = Val H ->
  (i < dof * n)%nat -> (j < dof * n)%nat -> H i j = H j i.
Proof.
  intros Hn HL Hs E Hi Hj. destruct (spring_hessian_chain dof n m w2 coef (fun _ _ => 0) Hn HL) as (hs & EH & SH & _).
  unfold full_hessian in E. rewrite EH in E. cbn [bind] in E. injection E as <-. rewrite SH by easy. f_equal.
  destruct (flat_ex dof n i Hi) as (b & c & Hb & Hc & ->). destruct (flat_ex dof n j Hj) as (b' & c' & Hb' & Hc' & ->).
  rewrite !red2comp_entries by easy. rewrite (Nat.eqb_sym b' b). destruct (Nat.eqb_spec b b') as [->|]; [|easy]. now rewrite Hs.
Qed.
(** So what is solved is the complete Hessian, shifted. *)
Theorem banded_solves dof n m w2 shift coef h junk : (0 < dof)%nat -> (n = 1 \/ 3 <= n)%nat -> List.length coef = (n + 1)%nat -> sym_blocks dof n h ->
  exists B H, banded_hessian dof n m w2 true shift coef h = Val B /\ full_hessian dof n m w2 coef h = Val H /\
    forall i j, (i < dof * n)%nat -> (j < dof * n)%nat -> of_band dof (sym_band dof (dof * n) junk B) i j = H i j + shift * kron i j.
Proof.
  intros Hd Hn HL Hs. destruct (banded_full dof n m w2 shift coef h Hd Hn HL) as (B & H & EB & EH & V). exists B, H. split; [easy|]. split; [easy|].
  intros i j Hi Hj. rewrite sym_band_symmetric by nia.
  assert (MM : H i j + shift * kron i j = H (Nat.min i j) (Nat.max i j) + shift * kron (Nat.min i j) (Nat.max i j)).
  { destruct (Nat.le_ge_cases i j); [rewrite Nat.min_l, Nat.max_r by lia; easy|]. rewrite Nat.min_r, Nat.max_l by lia.
    rewrite (full_symmetric dof n m w2 coef h H i j) by (try easy; lia). unfold kron. now rewrite Nat.eqb_sym. }
  rewrite MM. destruct (V (Nat.min i j) (Nat.max i j)) as (V1 & V2); [lia | lia |].
  destruct (Nat.leb_spec j (i + dof)); cbn [andb]; [destruct (Nat.leb_spec i (j + dof))|].
  - apply V1. lia.
  - rewrite V2 by lia. unfold kron. rewrite (proj2 (Nat.eqb_neq _ _)) by lia. ring.
  - rewrite V2 by lia. unfold kron. rewrite (proj2 (Nat.eqb_neq _ _)) by lia. ring.
Qed.
(** ** Mass-weighted: the band of get_dynmat with masses = False *)
Theorem banded_dynmat dof n m w2 shift coef h junk : (0 < dof)%nat -> (n = 1 \/ 3 <= n)%nat -> List.length coef = (n + 1)%nat -> sym_blocks dof n h ->
  (forall c, (c < dof)%nat -> 0 < m c) ->
  exists B H, banded_hessian dof n m w2 false shift coef (dynmat dof m h) = Val B /\ full_hessian dof n m w2 coef h = Val H /\
    forall i j, (i < dof * n)%nat -> (j < dof * n)%nat ->
      of_band dof (sym_band dof (dof * n) junk B) i j = / sqrt (m (i mod dof)%nat) * H i j * / sqrt (m (j mod dof)%nat) + shift * kron i j.
Proof.
  intros Hd Hn HL Hs Hm.
  assert (Hs' : sym_blocks dof n (dynmat dof m h)).
  { intros b c c' Hb Hc Hc'. unfold dynmat. rewrite !flat_mod by easy. rewrite (Hs b c c') by easy. ring. }
  destruct (banded_solves dof n (fun _ => 1) w2 shift coef (dynmat dof m h) junk Hd Hn HL Hs') as (B & H & EB & EH & V).
  assert (EB' : banded_hessian dof n m w2 false shift coef (dynmat dof m h) = Val B) by (rewrite <- EB; reflexivity).
  destruct (spring_hessian_val dof n m w2 coef) as (hs & E1 & V1); [lia | easy |].
  destruct (spring_hessian_val dof n (fun _ => 1) w2 coef) as (hs' & E2 & V2); [lia | easy |].
  exists B. eexists. split; [easy|]. split; [unfold full_hessian; rewrite E1; reflexivity|]. cbn beta. intros i j Hi Hj. rewrite V by easy. f_equal.
  unfold full_hessian in EH. rewrite E2 in EH. cbn [bind] in EH. injection EH as <-.
  destruct (flat_ex dof n i Hi) as (b & c & Hb & Hc & ->). destruct (flat_ex dof n j Hj) as (b' & c' & Hb' & Hc' & ->).
  rewrite V1, V2, !red2comp_entries, !flat_mod by easy. unfold dynmat. rewrite flat_mod by easy.
  assert (SQ : sqrt (m c) * sqrt (m c) = m c) by (apply sqrt_sqrt; left; now apply Hm).
  assert (NZ : sqrt (m c) <> 0) by (apply Rgt_not_eq, sqrt_lt_R0; now apply Hm).
  assert (NZ' : sqrt (m c') <> 0) by (apply Rgt_not_eq, sqrt_lt_R0; now apply Hm).
  destruct (Nat.eqb_spec c c') as [<-|]; destruct (b =? b')%nat.
  - set (sq := sqrt (m c)) in *. rewrite <- SQ. field. easy.
  - set (sq := sqrt (m c)) in *. rewrite <- SQ. field. easy.
  - field. easy.
  - field. easy.
Qed.
(** The step solves the equations of the complete Hessian: [(H + (shift - lamb) M) d = alpha f]. *)
Theorem step_solves dof n m w2 shift lamb alpha coef h junk f d_x : (0 < dof)%nat -> (n = 1 \/ 3 <= n)%nat -> List.length coef = (n + 1)%nat -> sym_blocks dof n h ->
  (forall c, (c < dof)%nat -> 0 < m c) ->
  exists B H, banded_hessian dof n m w2 false shift coef (dynmat dof m h) = Val B /\ full_hessian dof n m w2 coef h = Val H /\
    (is_step dof n m junk (shift_band dof lamb B) alpha f d_x ->
     forall r, (r < dof * n)%nat -> Rsum (dof * n) (fun s => H r s * d_x s) + (shift - lamb) * m (r mod dof)%nat * d_x r = alpha * f r).
Proof.
  intros Hd Hn HL Hs Hm. destruct (banded_dynmat dof n m w2 shift coef h junk Hd Hn HL Hs Hm) as (B & H & EB & EH & V). exists B, H. split; [easy|]. split; [easy|].
  intros (y & Hy & Hdx) r Hr.
  assert (NZ : forall s, (s < dof * n)%nat -> sqrt (m (s mod dof)%nat) <> 0 /\ sqrt (m (s mod dof)%nat) * sqrt (m (s mod dof)%nat) = m (s mod dof)%nat).
  { intros s Hs'. assert (P : 0 < m (s mod dof)%nat) by (apply Hm; apply Nat.mod_upper_bound; lia). split; [apply Rgt_not_eq, sqrt_lt_R0; easy | apply sqrt_sqrt; lra]. }
  specialize (Hy r Hr). destruct (NZ r Hr) as (N1 & N2).
  assert (E : forall s, (s < dof * n)%nat -> of_band dof (sym_band dof (dof * n) junk (shift_band dof lamb B)) r s
     = / sqrt (m (r mod dof)%nat) * H r s * / sqrt (m (s mod dof)%nat) + (shift - lamb) * kron r s).
  { intros s Hs'. specialize (V r s Hr Hs'). rewrite sym_band_symmetric in V by nia. rewrite sym_band_symmetric by nia.
    destruct ((s <=? r + dof) && (r <=? s + dof))%nat eqn:Q.
    - unfold shift_band. unfold kron in *. destruct (Nat.eqb_spec (dof + Nat.min r s - Nat.max r s) dof) as [Q1|Q1].
      + assert (r = s) by lia. subst s. rewrite Nat.eqb_refl in *. rewrite V. ring.
      + rewrite (proj2 (Nat.eqb_neq r s)) in * by lia. rewrite V. ring.
    - assert (Ne : r <> s) by (intros ->; apply andb_false_iff in Q; rewrite !Nat.leb_gt in Q; lia). unfold kron in *. rewrite (proj2 (Nat.eqb_neq r s) Ne) in *. rewrite Rmult_0_r in *. exact V. }
  rewrite (Rsum_ext _ _ (fun s => / sqrt (m (r mod dof)%nat) * (H r s * (y s * / sqrt (m (s mod dof)%nat))) + (shift - lamb) * (y s * kron r s))) in Hy
    by (intros s Hs'; rewrite E by easy; ring).
  rewrite Rsum_plus, !Rsum_scal in Hy.
  rewrite (Rsum_ext (dof * n) (fun s => y s * kron r s) (fun s => y s * RSum.delta r s)) in Hy by easy.
  rewrite Rsum_delta_l in Hy by easy.
  rewrite (Rsum_ext _ _ (fun s => alpha * (H r s * (y s * / sqrt (m (s mod dof)%nat))))) by (intros s Hs'; rewrite Hdx by easy; ring).
  rewrite Rsum_scal, Hdx by easy. set (X := Rsum (dof * n) _) in *.
  assert (Hy' : X + sqrt (m (r mod dof)%nat) * ((shift - lamb) * y r) = f r).
  { apply (Rmult_eq_compat_l (sqrt (m (r mod dof)%nat))) in Hy. rewrite Rmult_plus_distr_l in Hy. rewrite <- !Rmult_assoc, !Rinv_r, !Rmult_1_l in Hy by easy. rewrite <- Rmult_assoc. exact Hy. }
  rewrite <- Hy'. set (sq := sqrt (m (r mod dof)%nat)) in *. rewrite <- N2. field. easy.
Qed.
(** Rescaling: no component is larger than the limit, and the direction is kept. *)
Lemma amax_ge n v i : (i < n)%nat -> Rabs (v i) <= amax n v.
Proof. induction n as [|n IH]; intros H; [lia|]. cbn. destruct (Nat.eq_dec i n) as [->|]; [apply Rmax_r|]. apply Rle_trans with (amax n v); [apply IH; lia | apply Rmax_l]. Qed.
Theorem rescale_bound n big d_x : 0 <= big -> (forall i, (i < n)%nat -> Rabs (rescale n big d_x i) <= big) /\
  exists k, 0 <= k <= 1 /\ forall i, rescale n big d_x i = k * d_x i.
Proof.
  intros Hb. unfold rescale. destruct (Rlt_dec big (amax n d_x)) as [H|H].
  - assert (P : 0 < amax n d_x) by lra. assert (K : 0 <= big / amax n d_x <= 1).
    { split; [apply Rmult_le_pos; [lra | left; now apply Rinv_0_lt_compat]|]. apply Rmult_le_reg_r with (amax n d_x); [easy|]. unfold Rdiv. rewrite Rmult_assoc, Rinv_l by lra. lra. }
    split.
    + intros i Hi. rewrite Rabs_mult, (Rabs_right (big / _)) by lra. apply Rle_trans with (amax n d_x * (big / amax n d_x)).
      * apply Rmult_le_compat_r; [lra | now apply amax_ge].
      * right. field. lra.
    + exists (big / amax n d_x). split; [easy|]. intros i. ring.
  - split.
    + intros i Hi. apply Rle_trans with (amax n d_x); [now apply amax_ge | lra].
    + exists 1. split; [lra|]. intros; ring.
Qed.

(** ** A concrete chain of three beads, one coordinate *)
Definition ex_coef : list R := [1; 1; 1; 1].
Definition ex_red : mat := fun _ _ => 2.
Example ex_full : exists H, full_hessian 1 3 (fun _ => 1) 1 ex_coef ex_red = Val H /\
  H 0%nat 0%nat = 3 /\ H 0%nat 1%nat = -1 /\ H 0%nat 2%nat = 0 /\ H 1%nat 0%nat = -1 /\ H 1%nat 1%nat = 4 /\ H 1%nat 2%nat = -1 /\ H 2%nat 0%nat = 0 /\ H 2%nat 1%nat = -1 /\ H 2%nat 2%nat = 3.
Proof. eexists. split; [reflexivity|]. unfold red2comp, add_block, scale_mat, diag, cf, ex_coef, ex_red. cbn. repeat split; field. Qed.
Lemma ex_sym : sym_blocks 1 3 ex_red.
Proof. intros b c c' _ _ _. reflexivity. Qed.
Example ex_band : exists B, banded_hessian 1 3 (fun _ => 1) 1 false 0 ex_coef (dynmat 1 (fun _ => 1) ex_red) = Val B /\
  B 0%nat 1%nat = -1 /\ B 0%nat 2%nat = -1 /\ B 1%nat 0%nat = 3 /\ B 1%nat 1%nat = 4 /\ B 1%nat 2%nat = 3.
Proof. eexists. split; [reflexivity|]. unfold band_phys, blocks_at, dynmat, cf, ex_coef, ex_red. cbn. rewrite sqrt_1. repeat split; field. Qed.
(** The step for the force (2, 2, 2) without shift: (1, 1, 1). *)
Example ex_step : exists B, banded_hessian 1 3 (fun _ => 1) 1 false 0 ex_coef (dynmat 1 (fun _ => 1) ex_red) = Val B /\
  is_step 1 3 (fun _ => 1) (fun _ _ => 7) (shift_band 1 0 B) 1 (fun _ => 2) (fun _ => 1).
Proof.
  destruct ex_band as (B & E & B1 & B2 & B3 & B4 & B5). exists B. split; [easy|]. exists (fun _ => 1). split.
  - intros r Hr. unfold of_band, sym_band, shift_band. destruct r as [|[|[|r]]]; [| | |lia]; cbn; rewrite ?B1, ?B2, ?B3, ?B4, ?B5, sqrt_1; field.
  - intros r Hr. cbn. rewrite sqrt_1. field.
Qed.
Example ex_spring : fst (spring_call 3 1 (fun _ => 2) 1 1 ex_coef (fun b _ => match b with 0%nat => 0 | 1%nat => 1 | _ => 3 end)) = 5.
Proof. rewrite spring_energy by lia. unfold chain, sp_omegan. cbn. field. Qed.
Example ex_rescale : rescale 2 1 (fun i => match i with 0%nat => 4 | _ => -2 end) 0%nat = 1 /\ rescale 2 1 (fun i => match i with 0%nat => 4 | _ => -2 end) 1%nat = - / 2.
Proof.
  assert (A : amax 2 (fun i => match i with 0%nat => 4 | _ => -2 end) = 4).
  { cbn. rewrite !(Rabs_right 4), Rabs_left by lra. rewrite (Rmax_right 0 4), Rmax_left by lra. easy. }
  unfold rescale. rewrite A. destruct (Rlt_dec 1 4); [|lra]. split; field.
Qed.
Print Assumptions chain_derivative.
Print Assumptions spring_energy.
Print Assumptions spring_gradient.
Print Assumptions spring_consistent.
Print Assumptions spring_hessian_chain.
Print Assumptions spring_hessian_uniform.
Print Assumptions spring_hessian_refuted.
Print Assumptions red2comp_entries.
Print Assumptions banded_two_refuted.
Print Assumptions banded_full.
Print Assumptions sym_band_symmetric.
Print Assumptions banded_solves.
Print Assumptions banded_dynmat.
Print Assumptions step_solves.
Print Assumptions rescale_bound.
