(** Theorems of record about the stabilised Cholesky decomposition (C37). *)
Require Import Reals List Arith Lia Lra Psatz.
From Verif Require Import RSum CholModel.
Import ListNotations.
Local Open Scope R_scope.

(** ** What is meant *)

Definition symmetric (n : nat) (M : mat) : Prop := forall i j, (i < n)%nat -> (j < n)%nat -> M i j = M j i.
Definition quad (n : nat) (A : mat) (x : nat -> R) : R := Rsum n (fun a => Rsum n (fun b => x a * x b * A a b)).
(** positive semi-definite: the quadratic form is nowhere negative *)
Definition psd (n : nat) (A : mat) : Prop := forall x, 0 <= quad n A x.
(** S S^T *)
Definition gram (n : nat) (S : mat) : mat := fun i j => Rsum n (fun k => S i k * S j k).

(** ** The loops compute the factors *)

Lemma upd_same D i v : upd D i v i = v.
Proof. unfold upd. now rewrite Nat.eqb_refl. Qed.
Lemma upd_other D i v a : a <> i -> upd D i v a = D a.
Proof. intros H. unfold upd. apply Nat.eqb_neq in H. now rewrite H. Qed.
Lemma upd2_same L i j v : upd2 L i j v i j = v.
Proof. unfold upd2. now rewrite !Nat.eqb_refl. Qed.
Lemma upd2_other L i j v a b : a <> i \/ b <> j -> upd2 L i j v a b = L a b.
Proof.
  intros H. unfold upd2. destruct (Nat.eqb_spec a i); [|easy]. destruct (Nat.eqb_spec b j); [|easy]. lia.
Qed.

Lemma sub_spec D i j m L : (m <= j)%nat -> (j < i)%nat ->
  chol_sub D i j m L i j = L i j - Rsum m (fun k => L i k * L j k * D k) /\
  forall a b, a <> i \/ b <> j -> chol_sub D i j m L a b = L a b.
Proof.
  intros Hm Hj. unfold chol_sub. induction m as [|m IH].
  - cbn. split; [ring|easy].
  - destruct IH as [E F]; [lia|]. rewrite seq_S, fold_left_app. cbn [fold_left Nat.add].
    set (L' := fold_left _ (seq 0 m) L) in *. split.
    + rewrite upd2_same, E, (F i m), (F j m) by lia. cbn [Rsum]. ring.
    + intros a b H. rewrite upd2_other by easy. now apply F.
Qed.

(** the residual that is left of M(i,j) after the first m columns *)
Definition resid (M L : mat) (D : nat -> R) (m i j : nat) : R := M i j - Rsum m (fun k => L i k * L j k * D k).

Lemma entry_spec M D i L j : (j < i)%nat ->
  (chol_entry M D i L j i j = if Req_EM_T (D j) 0 then resid M L D j i j else resid M L D j i j / D j) /\
  forall a b, a <> i \/ b <> j -> chol_entry M D i L j a b = L a b.
Proof.
  intros Hj. unfold chol_entry. destruct (sub_spec D i j j (upd2 L i j (M i j)) (Nat.le_refl j) Hj) as [E F].
  assert (R0 : chol_sub D i j j (upd2 L i j (M i j)) i j = resid M L D j i j).
  { rewrite E, upd2_same. unfold resid. f_equal. apply Rsum_ext. intros k Hk. now rewrite !upd2_other by lia. }
  destruct Req_EM_T.
  - split; [easy|]. intros a b H. rewrite F by easy. now apply upd2_other.
  - split; [rewrite upd2_same; now rewrite R0|]. intros a b H. rewrite upd2_other, F by easy. now apply upd2_other.
Qed.
Lemma resid_ext M L L' D m i j : (forall k, (k < m)%nat -> L i k = L' i k /\ L j k = L' j k) ->
  resid M L D m i j = resid M L' D m i j.
Proof. intros H. unfold resid. f_equal. apply Rsum_ext. intros k Hk. destruct (H k Hk) as [-> ->]. easy. Qed.

Lemma row_spec M D i L m : (m <= i)%nat -> let L' := fold_left (chol_entry M D i) (seq 0 m) L in
  (forall j, (j < m)%nat -> L' i j = if Req_EM_T (D j) 0 then resid M L' D j i j else resid M L' D j i j / D j) /\
  forall a b, a <> i \/ (m <= b)%nat -> L' a b = L a b.
Proof.
  intros Hm. induction m as [|m IH]; cbv zeta; [cbn; split; [lia|easy]|].
  destruct IH as [E F]; [lia|]. rewrite seq_S, fold_left_app. cbn [fold_left Nat.add].
  set (L1 := fold_left _ (seq 0 m) L) in *. destruct (entry_spec M D i L1 m ltac:(lia)) as [G H].
  set (L2 := chol_entry M D i L1 m) in *. split.
  - intros j Hj. assert (Q : resid M L1 D j i j = resid M L2 D j i j).
    { apply resid_ext. intros k Hk. rewrite !H by lia. easy. }
    destruct (Nat.eq_dec j m) as [-> |N]; [now rewrite G, Q|]. rewrite H by lia. rewrite E by lia. now rewrite Q.
  - intros a b K. rewrite H by lia. apply F. lia.
Qed.
Lemma pivot_spec M L i m D : (m <= i)%nat ->
  chol_pivot M L i m D i = M i i - Rsum m (fun k => L i k * L i k * D k) /\
  forall a, a <> i -> chol_pivot M L i m D a = D a.
Proof.
  intros Hm. unfold chol_pivot. induction m as [|m IH].
  - cbn. rewrite upd_same. split; [ring|]. intros a H. now apply upd_other.
  - destruct IH as [E F]; [lia|]. rewrite seq_S, fold_left_app. cbn [fold_left Nat.add].
    split.
    + rewrite upd_same, E, F by lia. cbn [Rsum]. ring.
    + intros a H. rewrite upd_other by easy. now apply F.
Qed.

(** the equations the factors satisfy *)
Definition factors (n : nat) (M L : mat) (D : nat -> R) : Prop :=
  (forall i j, (j < i < n)%nat -> L i j = if Req_EM_T (D j) 0 then resid M L D j i j else resid M L D j i j / D j) /\
  (forall i, (i < n)%nat -> D i = resid M L D i i i) /\
  (forall i, (i < n)%nat -> L i i = 1) /\
  (forall i j, (i < j)%nat -> L i j = 0) /\ (forall i j, (n <= i)%nat -> L i j = 0).
Lemma resid_extD M L L' D D' m i j : (forall k, (k < m)%nat -> L i k = L' i k /\ L j k = L' j k /\ D k = D' k) ->
  resid M L D m i j = resid M L' D' m i j.
Proof. intros H. unfold resid. f_equal. apply Rsum_ext. intros k Hk. destruct (H k Hk) as (-> & -> & ->). easy. Qed.
Lemma ld_factors n M : let '(L, D) := chol_ld n M in factors n M L D.
Proof.
  unfold chol_ld. induction n as [|n IH].
  - cbn. repeat split; intros; try lia; reflexivity.
  - rewrite seq_S, fold_left_app. cbn [fold_left Nat.add]. destruct (fold_left _ (seq 0 n) _) as [L D].
    destruct IH as (A & B & C & E & F). unfold chol_row.
    destruct (row_spec M D n (upd2 L n n 1) n (Nat.le_refl n)) as [G H].
    set (L2 := fold_left _ (seq 0 n) _) in *.
    destruct (pivot_spec M L2 n n D (Nat.le_refl n)) as [P Q]. set (D2 := chol_pivot M L2 n n D) in *.
    assert (OL : forall a b, a <> n -> L2 a b = L a b). { intros a b K. rewrite H by lia. apply upd2_other. lia. }
    assert (OR : forall k i, (i <= n)%nat -> (k < i)%nat -> D2 k = D k) by (intros; apply Q; lia).
    unfold factors. repeat split.
    + intros i j Hj. rewrite (Q j) by lia. destruct (Nat.eq_dec i n) as [-> |N].
      * rewrite G by lia. rewrite (resid_extD M L2 L2 D D2) by (intros k Hk; rewrite (Q k) by lia; easy). easy.
      * rewrite OL by easy. rewrite A by lia.
        rewrite (resid_extD M L L2 D D2) by (intros k Hk; rewrite (Q k), !OL by lia; easy). easy.
    + intros i Hi. destruct (Nat.eq_dec i n) as [-> |N].
      * rewrite P. unfold resid. f_equal. apply Rsum_ext. intros k Hk. now rewrite (Q k) by lia.
      * rewrite Q, B by lia. apply resid_extD. intros k Hk. rewrite (Q k), !OL by lia. easy.
    + intros i Hi. destruct (Nat.eq_dec i n) as [-> |N].
      * rewrite H by lia. apply upd2_same.
      * rewrite OL by easy. apply C. lia.
    + intros i j Hj. destruct (Nat.eq_dec i n) as [-> |N].
      * rewrite H by lia. rewrite upd2_other by lia. now apply E.
      * rewrite OL by easy. now apply E.
    + intros i j Hi. rewrite OL by lia. apply F. lia.
Qed.

(** the square root of the pivot, clipped at zero *)
Definition clip (d : R) : R := if Rlt_dec 0 d then sqrt d else 0.
Lemma assign_spec L D1 i m S : (forall j, S i j = 0) -> let S' := fold_left (fun S j => upd2 S i j (S i j + L i j * D1 j)) (seq 0 m) S in
  (forall j, (j < m)%nat -> S' i j = L i j * D1 j) /\ (forall j, (m <= j)%nat -> S' i j = 0) /\ forall a b, a <> i -> S' a b = S a b.
Proof.
  intros Z. induction m as [|m IH]; cbv zeta; [cbn; repeat split; intros; [lia|apply Z]|].
  rewrite seq_S, fold_left_app. cbn [fold_left Nat.add]. destruct IH as (A & B & C). repeat split.
  - intros j Hj. destruct (Nat.eq_dec j m) as [-> |N]; [rewrite upd2_same, B by lia; ring|]. rewrite upd2_other by lia. apply A. lia.
  - intros j Hj. rewrite upd2_other by lia. apply B. lia.
  - intros a b K. rewrite upd2_other by lia. now apply C.
Qed.
Lemma sqrt_spec L D m : let '(SM, D', neg) := fold_left (chol_sqrt L) (seq 0 m) ((fun _ _ => 0), D, false) in
  (forall i j, (i < m)%nat -> (j <= i)%nat -> SM i j = L i j * clip (D j)) /\
  (forall i j, (i < j)%nat \/ (m <= i)%nat -> SM i j = 0) /\
  (forall i, D' i = if i <? m then clip (D i) else D i) /\
  (neg = true <-> exists i, (i < m)%nat /\ D i <= 0).
Proof.
  induction m as [|m IH].
  - cbn. repeat split; intros; try lia; try discriminate. destruct H as (i & Hi & _). lia.
  - rewrite seq_S, fold_left_app. cbn [fold_left Nat.add]. destruct (fold_left _ (seq 0 m) _) as [[S D'] neg].
    destruct IH as (A & B & C & N). unfold chol_sqrt.
    assert (Em : D' m = D m) by (rewrite C, Nat.ltb_irrefl; easy).
    assert (X : (if Rlt_dec 0 (D' m) then (upd D' m (sqrt (D' m)), neg) else (upd D' m 0, true))
       = (upd D' m (clip (D m)), if Rlt_dec 0 (D m) then neg else true)).
    { rewrite Em. unfold clip. destruct Rlt_dec; easy. }
    rewrite X. clear X.
    destruct (assign_spec L (upd D' m (clip (D m))) m (m + 1) S) as (P & Q & R); [intros j; apply B; lia|].
    cbv zeta in P, Q, R. set (S' := fold_left _ (seq 0 (m + 1)) S) in *. repeat split.
    + intros i j Hi Hj. destruct (Nat.eq_dec i m) as [-> |K].
      * rewrite P by lia. destruct (Nat.eq_dec j m) as [-> |K]; [now rewrite upd_same|]. rewrite upd_other by easy.
        rewrite C. destruct (Nat.ltb_spec j m); [easy|lia].
      * rewrite R by easy. apply A; lia.
    + intros i j Hi. destruct (Nat.eq_dec i m) as [-> |K]; [apply Q; lia|]. rewrite R by easy. apply B. lia.
    + intros i. destruct (Nat.eq_dec i m) as [-> |K].
      * rewrite upd_same. destruct (Nat.ltb_spec m (Datatypes.S m)); [easy|lia].
      * rewrite upd_other, C by easy. destruct (Nat.ltb_spec i m), (Nat.ltb_spec i (Datatypes.S m)); try easy; lia.
    + intros T. destruct Rlt_dec as [L0|L0]; [|exists m; split; [lia|lra]]. apply N in T as (i & Hi & Di). exists i. split; [lia|easy].
    + intros (i & Hi & Di). destruct Rlt_dec as [L0|L0]; [|easy]. apply N. destruct (Nat.eq_dec i m) as [-> |K]; [lra|]. exists i. split; [lia|easy].
Qed.
Lemma S_spec n M : let '(L, D) := chol_ld n M in
  forall i j, (i < n)%nat -> stab_cholesky n M i j = L i j * clip (D j).
Proof.
  unfold stab_cholesky, stab_cholesky_full. pose proof (ld_factors n M) as F. destruct (chol_ld n M) as [L D].
  destruct F as (_ & _ & _ & E & _). pose proof (sqrt_spec L D n) as S. destruct (fold_left _ (seq 0 n) _) as [[S' D'] neg].
  destruct S as (A & B & _). cbn [fst]. intros i j Hi. destruct (Nat.le_gt_cases j i) as [H|H]; [now apply A|].
  rewrite B, E by lia. ring.
Qed.

(** ** S S^T *)

Lemma clip_sq d : clip d * clip d = if Rlt_dec 0 d then d else 0.
Proof. unfold clip. destruct Rlt_dec; [apply sqrt_sqrt; lra|ring]. Qed.
Lemma gram_ld n M : let '(L, D) := chol_ld n M in forall i j, (j <= i < n)%nat ->
  gram n (stab_cholesky n M) i j = Rsum (S j) (fun k => L i k * L j k * (if Rlt_dec 0 (D k) then D k else 0)).
Proof.
  pose proof (S_spec n M) as Sp. pose proof (ld_factors n M) as F. destruct (chol_ld n M) as [L D].
  intros i j H. unfold gram. replace n with (S j + (n - S j))%nat at 1 by lia. rewrite Rsum_split.
  rewrite (Rsum_0 (n - S j)).
  2:{ intros k Hk. rewrite !Sp by lia. destruct F as (_ & _ & _ & E & _). rewrite (E j) by lia. ring. }
  rewrite Rplus_0_r. apply Rsum_ext. intros k Hk. rewrite !Sp by lia. rewrite <- clip_sq. ring.
Qed.

(** Every pivot positive: exact. *)
Theorem cholesky_exact_pivots n M : symmetric n M -> (forall i, (i < n)%nat -> 0 < snd (chol_ld n M) i) ->
  forall i j, (i < n)%nat -> (j < n)%nat -> gram n (stab_cholesky n M) i j = M i j.
Proof.
  intros Sy P.
  assert (G : forall i j, (j <= i < n)%nat -> gram n (stab_cholesky n M) i j = M i j).
  { pose proof (gram_ld n M) as G. pose proof (ld_factors n M) as F. destruct (chol_ld n M) as [L D]. cbn [snd] in P.
    destruct F as (A & B & C & _). intros i j H. rewrite G by easy.
    rewrite (Rsum_ext _ _ (fun k => L i k * L j k * D k)).
    2:{ intros k Hk. specialize (P k ltac:(lia)). destruct Rlt_dec; [easy|lra]. }
    cbn [Rsum]. rewrite (C j) by lia. destruct (Nat.eq_dec i j) as [-> |N].
    - rewrite (C j) by lia. rewrite (B j) by lia. unfold resid. ring.
    - rewrite A by lia. specialize (P j ltac:(lia)). destruct Req_EM_T; [lra|]. unfold resid. field. lra. }
  intros i j Hi Hj. destruct (Nat.le_gt_cases j i); [now apply G|].
  rewrite Sy by easy. rewrite <- (G j i) by lia. unfold gram. apply Rsum_ext. intros; ring.
Qed.
(** The factor is lower triangular with a non-negative diagonal. *)
Theorem cholesky_triangular n M i j : (i < n)%nat -> (j < n)%nat ->
  ((i < j)%nat -> stab_cholesky n M i j = 0) /\ 0 <= stab_cholesky n M i i.
Proof.
  intros Hi Hj. pose proof (S_spec n M) as Sp. pose proof (ld_factors n M) as F. destruct (chol_ld n M) as [L D].
  destruct F as (_ & _ & C & E & _). split.
  - intros H. rewrite Sp, E by easy. ring.
  - rewrite Sp, C by easy. unfold clip. destruct Rlt_dec; [pose proof (sqrt_pos (D i)); lra|lra].
Qed.
(** Only the lower triangle of the matrix is read. *)
Theorem cholesky_lower_triangle n M M' : (forall i j, (j <= i < n)%nat -> M i j = M' i j) ->
  forall i j, (i < n)%nat -> stab_cholesky n M i j = stab_cholesky n M' i j.
Proof.
  intros H.
  assert (G : forall i, (i < n)%nat -> (forall j, fst (chol_ld n M) i j = fst (chol_ld n M') i j) /\ snd (chol_ld n M) i = snd (chol_ld n M') i).
  { pose proof (ld_factors n M) as F. pose proof (ld_factors n M') as F'. destruct (chol_ld n M) as [L D]. destruct (chol_ld n M') as [L' D']. cbn [fst snd].
    destruct F as (A & B & C & E & _). destruct F' as (A' & B' & C' & E' & _).
    induction i as [i IH] using lt_wf_ind. intros Hi.
    assert (K : forall j, (j < i)%nat -> L i j = L' i j).
    { induction j as [j JH] using lt_wf_ind. intros Hj. rewrite A, A' by lia.
      destruct (IH j Hj ltac:(lia)) as [_ ED]. rewrite ED.
      assert (R0 : resid M L D j i j = resid M' L' D' j i j).
      { unfold resid. rewrite H by lia. f_equal. apply Rsum_ext. intros k Hk. rewrite (JH k) by lia.
        destruct (IH j Hj ltac:(lia)) as [EL _]. destruct (IH k ltac:(lia) ltac:(lia)) as [_ EK]. now rewrite EL, EK. }
      now rewrite R0. }
    split.
    - intros j. destruct (Nat.lt_trichotomy j i) as [T|[-> |T]]; [now apply K|now rewrite C, C' by easy|now rewrite E, E'].
    - rewrite B, B' by easy. unfold resid. rewrite H by lia. f_equal. apply Rsum_ext. intros k Hk. rewrite K by easy.
      destruct (IH k Hk ltac:(lia)) as [_ ->]. easy. }
  intros i j Hi. pose proof (S_spec n M) as Sp. pose proof (S_spec n M') as Sp'. pose proof (ld_factors n M) as F. pose proof (ld_factors n M') as F'.
  destruct (chol_ld n M) as [L D]. destruct (chol_ld n M') as [L' D']. cbn [fst snd] in G.
  rewrite Sp, Sp' by easy. destruct (G i Hi) as [GL _]. rewrite GL.
  destruct (Nat.le_gt_cases j i) as [T|T]; [destruct (G j ltac:(lia)) as [_ ->]; easy|].
  destruct F' as (_ & _ & _ & E' & _). rewrite E' by easy. ring.
Qed.

(** ** Every positive semi-definite matrix, also with zero pivots *)

(** x is zero on the first m indices *)
Definition from (m : nat) (x : nat -> R) : Prop := forall a, (a < m)%nat -> x a = 0.
Definition psd_from (n m : nat) (A : mat) : Prop := forall x, from m x -> 0 <= quad n A x.
Definition sym_from (n m : nat) (A : mat) : Prop := forall a b, (m <= a < n)%nat -> (m <= b < n)%nat -> A a b = A b a.

Lemma quad_ext n A B x : (forall a b, (a < n)%nat -> (b < n)%nat -> x a * x b * A a b = x a * x b * B a b) -> quad n A x = quad n B x.
Proof. intros H. unfold quad. apply Rsum_ext. intros a Ha. apply Rsum_ext. intros b Hb. now apply H. Qed.
(** adding t in direction j *)
Lemma quad_step n m A x j t : (j < n)%nat -> (m <= j)%nat -> from m x -> sym_from n m A ->
  quad n A (fun a => x a + t * delta a j) = quad n A x + 2 * t * Rsum n (fun a => x a * A a j) + t * t * A j j.
Proof.
  intros Hj Hm Fx Sy. unfold quad.
  rewrite (Rsum_ext n _ (fun a => Rsum n (fun b => x a * x b * A a b) + (t * (x a * A a j) + (t * delta a j * Rsum n (fun b => x b * A a b) + t * t * A a j * delta a j)))).
  2:{ intros a Ha.
    rewrite (Rsum_ext n _ (fun b => x a * x b * A a b + (t * x a * A a b * delta b j + (t * delta a j * (x b * A a b) + t * t * delta a j * A a b * delta b j)))) by (intros; ring).
    rewrite !Rsum_plus. rewrite (Rsum_delta_r n j (fun b => t * x a * A a b)) by easy.
    rewrite (Rsum_delta_r n j (fun b => t * t * delta a j * A a b)) by easy. rewrite Rsum_scal. ring. }
  rewrite !Rsum_plus, Rsum_scal. rewrite (Rsum_delta_r n j (fun a => t * t * A a j)) by easy.
  rewrite (Rsum_ext n (fun a => t * delta a j * _) (fun a => t * Rsum n (fun b => x b * A a b) * delta a j)) by (intros; ring).
  rewrite (Rsum_delta_r n j (fun a => t * Rsum n (fun b => x b * A a b))) by easy.
  assert (E : Rsum n (fun b => x b * A j b) = Rsum n (fun a => x a * A a j)).
  { apply Rsum_ext. intros b Hb. destruct (Nat.lt_ge_cases b m) as [L|L]; [rewrite Fx by easy; ring|]. rewrite (Sy j b) by lia. easy. }
  rewrite E. ring.
Qed.
Lemma psd_diag n m A j : psd_from n m A -> (m <= j < n)%nat -> 0 <= A j j.
Proof.
  intros P H. specialize (P (fun a => delta a j)). 
  assert (E : quad n A (fun a => delta a j) = A j j).
  { unfold quad. rewrite (Rsum_ext n _ (fun a => A a j * delta a j)).
    - now rewrite (Rsum_delta_r n j (fun a => A a j)).
    - intros a Ha. rewrite (Rsum_ext n _ (fun b => delta a j * A a b * delta b j)) by (intros; ring).
      rewrite (Rsum_delta_r n j (fun b => delta a j * A a b)) by easy. ring. }
  rewrite E in P. apply P. intros a Ha. apply delta_diff. lia.
Qed.
Lemma psd_zero n m A j a : psd_from n m A -> sym_from n m A -> (m <= j < n)%nat -> (m <= a < n)%nat -> A j j = 0 -> A a j = 0.
Proof.
  intros P Sy Hj Ha Z. destruct (Req_dec (A a j) 0) as [|N]; [easy|]. exfalso.
  set (t := - (A a a + 1) / (2 * A a j)).
  assert (Q := P (fun b => delta b a + t * delta b j)). 
  rewrite (quad_step n m A (fun b => delta b a) j t) in Q; [|lia|lia|intros b Hb; apply delta_diff; lia|easy].
  assert (E : quad n A (fun b => delta b a) = A a a).
  { unfold quad. rewrite (Rsum_ext n _ (fun b => A b a * delta b a)).
    - apply (Rsum_delta_r n a (fun b => A b a)). lia.
    - intros b Hb. rewrite (Rsum_ext n _ (fun c => delta b a * A b c * delta c a)) by (intros; ring).
      rewrite (Rsum_delta_r n a (fun c => delta b a * A b c)) by lia. ring. }
  rewrite E, Z in Q.
  rewrite (Rsum_ext n _ (fun b => A b j * delta b a)) in Q by (intros; ring). rewrite (Rsum_delta_r n a (fun b => A b j)) in Q by lia.
  assert (T : 2 * t * A a j = - (A a a + 1)) by (unfold t; field; easy).
  assert (0 <= A a a + 2 * t * A a j + t * t * 0); [|lra]. apply Q. intros b Hb. rewrite !delta_diff by lia. ring.
Qed.
Lemma schur_psd n m A : psd_from n m A -> sym_from n m A -> (m < n)%nat -> 0 < A m m ->
  psd_from n (S m) (fun a b => A a b - A a m / A m m * (A b m / A m m) * A m m).
Proof.
  intros P Sy Hm Pos x Fx. set (s := Rsum n (fun a => x a * A a m)). set (t := - s / A m m).
  assert (F0 : from m x) by (intros a Ha; apply Fx; lia).
  assert (Q := P (fun a => x a + t * delta a m)). rewrite (quad_step n m A x m t Hm (Nat.le_refl m) F0 Sy) in Q. fold s in Q.
  assert (E : quad n (fun a b => A a b - A a m / A m m * (A b m / A m m) * A m m) x = quad n A x - s * s / A m m).
  { unfold quad. rewrite (Rsum_ext n _ (fun a => Rsum n (fun b => x a * x b * A a b) - s / A m m * (x a * A a m))).
    - rewrite Rsum_minus, Rsum_scal. fold s. field. lra.
    - intros a Ha. rewrite (Rsum_ext n _ (fun b => x a * x b * A a b - x a * A a m / A m m * (x b * A b m))) by (intros; field; lra).
      rewrite Rsum_minus, Rsum_scal. fold s. field. lra. }
  rewrite E. replace (quad n A x - s * s / A m m) with (quad n A x + 2 * t * s + t * t * A m m) by (unfold t; field; lra).
  apply Q. intros a Ha. rewrite F0, delta_diff by lia. ring.
Qed.
Lemma resid_sym n M L D m : symmetric n M -> sym_from n m (resid M L D m).
Proof.
  intros Sy a b Ha Hb. unfold resid. rewrite (Sy a b) by lia. f_equal. apply Rsum_ext. intros; ring.
Qed.
Lemma resid_S M L D m a b : resid M L D (S m) a b = resid M L D m a b - L a m * L b m * D m.
Proof. unfold resid. cbn [Rsum]. ring. Qed.
Lemma schur n M L D : symmetric n M -> psd n M -> factors n M L D -> forall m, (m <= n)%nat -> psd_from n m (resid M L D m).
Proof.
  intros Sy P F m. induction m as [|m IH]; intros Hm.
  - intros x _. rewrite (quad_ext n _ M); [apply P|]. intros. unfold resid. cbn [Rsum]. ring.
  - specialize (IH ltac:(lia)). pose proof (resid_sym n M L D m Sy) as RS. destruct F as (A & B & C & _).
    pose proof (B m ltac:(lia)) as Bm. pose proof (psd_diag n m _ m IH ltac:(lia)) as Nn. rewrite <- Bm in Nn.
    intros x Fx. destruct (Req_dec (D m) 0) as [Z|NZ].
    + rewrite (quad_ext n _ (resid M L D m)).
      * apply IH. intros a Ha. apply Fx. lia.
      * intros a b Ha Hb. rewrite resid_S, Z. ring.
    + assert (Pos : 0 < resid M L D m m m) by (rewrite <- Bm; lra).
      assert (Q := schur_psd n m _ IH RS ltac:(lia) Pos x Fx).
      rewrite (quad_ext n _ (fun a b => resid M L D m a b - resid M L D m a m / resid M L D m m m * (resid M L D m b m / resid M L D m m m) * resid M L D m m m)); [easy|].
      intros a b Ha Hb. rewrite resid_S. destruct (Nat.le_gt_cases a m) as [La|La]; [rewrite Fx by lia; ring|].
      destruct (Nat.le_gt_cases b m) as [Lb|Lb]; [rewrite (Fx b) by lia; ring|].
      rewrite (A a m), (A b m) by lia. destruct Req_EM_T; [lra|]. rewrite <- Bm. easy.
Qed.
Theorem cholesky_square n M : symmetric n M -> psd n M -> forall i j, (i < n)%nat -> (j < n)%nat ->
  gram n (stab_cholesky n M) i j = M i j.
Proof.
  intros Sy P.
  assert (G : forall i j, (j <= i < n)%nat -> gram n (stab_cholesky n M) i j = M i j).
  { pose proof (gram_ld n M) as G. pose proof (ld_factors n M) as F. destruct (chol_ld n M) as [L D].
    pose proof (schur n M L D Sy P F) as SC. pose proof F as (A & B & C & _).
    assert (Nn : forall k, (k < n)%nat -> 0 <= D k). { intros k Hk. rewrite B by easy. apply (psd_diag n k); [apply SC; lia|lia]. }
    intros i j H. rewrite G by easy.
    rewrite (Rsum_ext _ _ (fun k => L i k * L j k * D k)).
    2:{ intros k Hk. specialize (Nn k ltac:(lia)). destruct Rlt_dec; [easy|]. replace (D k) with 0 by lra. ring. }
    cbn [Rsum]. rewrite (C j) by lia. destruct (Nat.eq_dec i j) as [-> |N].
    - rewrite (C j) by lia. rewrite (B j) by lia. unfold resid. ring.
    - rewrite A by lia. destruct Req_EM_T as [Z|NZ]; [|unfold resid; field; lra].
      assert (R0 : resid M L D j i j = 0).
      { apply (psd_zero n j (resid M L D j) j i); [apply SC; lia|now apply resid_sym|lia|lia|]. rewrite <- B by lia. easy. }
      rewrite R0, Z. unfold resid in R0. lra. }
  intros i j Hi Hj. destruct (Nat.le_gt_cases j i); [now apply G|].
  rewrite Sy by easy. rewrite <- (G j i) by lia. unfold gram. apply Rsum_ext. intros; ring.
Qed.
(** and conversely only for those: S S^T is always positive semi-definite, so a
    symmetric matrix that is reproduced is one *)
Theorem cholesky_square_iff n M : symmetric n M ->
  (psd n M <-> forall i j, (i < n)%nat -> (j < n)%nat -> gram n (stab_cholesky n M) i j = M i j).
Proof.
  intros Sy. split; [intros P i j; now apply cholesky_square|]. intros H x.
  assert (E : quad n M x = Rsum n (fun k => Rsum n (fun a => x a * stab_cholesky n M a k) * Rsum n (fun a => x a * stab_cholesky n M a k))).
  { rewrite (quad_ext n M (gram n (stab_cholesky n M))) by (intros a b Ha Hb; now rewrite H). unfold quad, gram.
    rewrite (Rsum_ext n (fun k => Rsum n _ * Rsum n _) (fun k => Rsum n (fun a => Rsum n (fun b => x a * x b * (stab_cholesky n M a k * stab_cholesky n M b k))))).
    - symmetry. rewrite Rsum_swap. apply Rsum_ext. intros a _. rewrite Rsum_swap. apply Rsum_ext. intros b _. apply Rsum_scal.
    - intros k _. rewrite <- Rsum_scal_r. apply Rsum_ext. intros a _. rewrite <- Rsum_scal. apply Rsum_ext. intros; ring. }
  rewrite E. apply Rsum_nonneg. intros k _. nra.
Qed.
(** A warning is printed exactly when a pivot is not positive: also for a matrix
    that is decomposed without error. *)
Theorem cholesky_warning n M : warned n M = true <-> exists i, (i < n)%nat /\ snd (chol_ld n M) i <= 0.
Proof.
  unfold warned, stab_cholesky_full. destruct (chol_ld n M) as [L D]. pose proof (sqrt_spec L D n) as Q.
  destruct (fold_left _ (seq 0 n) _) as [[S' D'] neg]. cbn [snd]. apply Q.
Qed.
Definition zero_and_one : mat := fun i j => match i, j with 1%nat, 1%nat => 1 | _, _ => 0 end.
Theorem cholesky_spurious_warning : symmetric 2 zero_and_one /\ psd 2 zero_and_one /\ warned 2 zero_and_one = true.
Proof.
  split; [intros [|[|i]] [|[|j]] Hi Hj; try lia; reflexivity|]. split.
  - intros x. cbv [quad Rsum zero_and_one]. nra.
  - apply cholesky_warning. exists 0%nat. split; [lia|]. pose proof (ld_factors 2 zero_and_one) as F. destruct (chol_ld 2 zero_and_one) as [L D].
    destruct F as (_ & B & _). cbn [snd]. rewrite B by lia. cbv [resid Rsum zero_and_one]. lra.
Qed.
(** Not for every symmetric matrix. *)
Theorem cholesky_all_symmetric_refuted : exists n M i j, symmetric n M /\ (i < n)%nat /\ (j < n)%nat /\
  gram n (stab_cholesky n M) i j <> M i j.
Proof.
  set (M := fun i j => if Nat.eqb i j then 0 else 1 : R).
  assert (Sy : symmetric 2 M) by (intros i j _ _; unfold M; now rewrite Nat.eqb_sym).
  exists 2%nat, M.
  assert (N : ~ forall i j, (i < 2)%nat -> (j < 2)%nat -> gram 2 (stab_cholesky 2 M) i j = M i j).
  { intros H. apply cholesky_square_iff in H; [|easy]. specialize (H (fun a => match a with 0%nat => 1 | _ => -1 end)). 
    cbv [quad Rsum M Nat.eqb] in H. lra. }
  destruct (Req_dec (gram 2 (stab_cholesky 2 M) 0%nat 0%nat) (M 0%nat 0%nat)) as [E00|]; [|exists 0%nat, 0%nat; repeat split; auto].
  destruct (Req_dec (gram 2 (stab_cholesky 2 M) 0%nat 1%nat) (M 0%nat 1%nat)) as [E01|]; [|exists 0%nat, 1%nat; repeat split; auto].
  destruct (Req_dec (gram 2 (stab_cholesky 2 M) 1%nat 0%nat) (M 1%nat 0%nat)) as [E10|]; [|exists 1%nat, 0%nat; repeat split; auto].
  destruct (Req_dec (gram 2 (stab_cholesky 2 M) 1%nat 1%nat) (M 1%nat 1%nat)) as [E11|]; [|exists 1%nat, 1%nat; repeat split; auto].
  exfalso. apply N. intros [|[|i]] [|[|j]] Hi Hj; try lia; easy.
Qed.
Example cholesky_case : let M : mat := fun i j => match i, j with 0%nat, 0%nat => 4 | 1%nat, 1%nat => 3 | _, _ => 2 end in
  symmetric 2 M /\ psd 2 M.
Proof.
  split; [intros [|[|i]] [|[|j]] Hi Hj; try lia; reflexivity|]. intros x. cbv [quad Rsum].
  set (a := x 0%nat). set (b := x 1%nat). pose proof (pow2_ge_0 (a + b)). pose proof (pow2_ge_0 a). pose proof (pow2_ge_0 b). nra.
Qed.

Print Assumptions cholesky_exact_pivots.
Print Assumptions cholesky_triangular.
Print Assumptions cholesky_lower_triangle.
Print Assumptions cholesky_square.
Print Assumptions cholesky_square_iff.
Print Assumptions cholesky_warning.
Print Assumptions cholesky_spurious_warning.
Print Assumptions cholesky_all_symmetric_refuted.
