(** * Finite sums of real numbers (used by the numerical areas) *)
From Coq Require Import List Reals Lra Lia Arith.
Import ListNotations.
Open Scope R_scope.

(** Sum of [f 0 ... f (n-1)]. *)
Fixpoint Rsum (n : nat) (f : nat -> R) : R :=
  match n with O => 0 | S n' => Rsum n' f + f n' end.
(** Sum of a list. *)
Fixpoint Rsuml (l : list R) : R := match l with [] => 0 | x :: l' => x + Rsuml l' end.

Lemma Rsum_ext n f g : (forall i, (i < n)%nat -> f i = g i) -> Rsum n f = Rsum n g.
Proof. induction n as [|n IH]; intros H; cbn; [easy|]. rewrite IH, (H n); auto; intros; apply H; lia. Qed.
Lemma Rsum_0 n f : (forall i, (i < n)%nat -> f i = 0) -> Rsum n f = 0.
Proof. induction n as [|n IH]; intros H; cbn; [easy|]. rewrite IH, (H n); [lra|lia|]. intros; apply H; lia. Qed.
Lemma Rsum_plus n f g : Rsum n (fun i => f i + g i) = Rsum n f + Rsum n g.
Proof. induction n as [|n IH]; cbn; [lra|]. rewrite IH. lra. Qed.
Lemma Rsum_minus n f g : Rsum n (fun i => f i - g i) = Rsum n f - Rsum n g.
Proof. induction n as [|n IH]; cbn; [lra|]. rewrite IH. lra. Qed.
Lemma Rsum_opp n f : Rsum n (fun i => - f i) = - Rsum n f.
Proof. induction n as [|n IH]; cbn; [lra|]. rewrite IH. lra. Qed.
Lemma Rsum_scal n c f : Rsum n (fun i => c * f i) = c * Rsum n f.
Proof. induction n as [|n IH]; cbn; [lra|]. rewrite IH. lra. Qed.
Lemma Rsum_scal_r n c f : Rsum n (fun i => f i * c) = Rsum n f * c.
Proof. induction n as [|n IH]; cbn; [lra|]. rewrite IH. lra. Qed.
Lemma Rsum_div n c f : Rsum n (fun i => f i / c) = Rsum n f / c.
Proof. unfold Rdiv. apply Rsum_scal_r. Qed.
Lemma Rsum_const n c : Rsum n (fun _ => c) = INR n * c.
Proof. induction n as [|n IH]; [cbn; lra|]. cbn [Rsum]. rewrite IH, S_INR. lra. Qed.
Lemma Rsum_swap n m f : Rsum n (fun i => Rsum m (fun j => f i j)) = Rsum m (fun j => Rsum n (fun i => f i j)).
Proof.
  induction n as [|n IH]; cbn.
  - symmetry. now apply Rsum_0.
  - rewrite IH, <- Rsum_plus. easy.
Qed.
Lemma Rsum_split n m f : Rsum (n + m) f = Rsum n f + Rsum m (fun i => f (n + i)%nat).
Proof. induction m as [|m IH]; [rewrite Nat.add_0_r; cbn; lra|]. rewrite Nat.add_succ_r. cbn. rewrite IH. lra. Qed.
Lemma Rsum_first n f : Rsum (S n) f = f 0%nat + Rsum n (fun i => f (S i)).
Proof. change (S n) with (1 + n)%nat. rewrite Rsum_split. cbn. lra. Qed.
Lemma Rsum_delta n k f : (k < n)%nat -> (forall i, (i < n)%nat -> i <> k -> f i = 0) -> Rsum n f = f k.
Proof.
  induction n as [|n IH]; intros Hk H; [lia|]. cbn. destruct (Nat.eq_dec k n) as [->|Hn].
  - rewrite Rsum_0; [lra|]. intros i Hi. apply H; lia.
  - rewrite IH, (H n); try lia; [lra|]. intros i Hi. apply H; lia.
Qed.
(** Kronecker's delta. *)
Definition delta (i j : nat) : R := if Nat.eqb i j then 1 else 0.
Lemma delta_sym i j : delta i j = delta j i.
Proof. unfold delta. now rewrite Nat.eqb_sym. Qed.
Lemma delta_same i : delta i i = 1.
Proof. unfold delta. now rewrite Nat.eqb_refl. Qed.
Lemma delta_diff i j : i <> j -> delta i j = 0.
Proof. intros H. unfold delta. now rewrite (proj2 (Nat.eqb_neq i j) H). Qed.
Lemma Rsum_delta_r n k f : (k < n)%nat -> Rsum n (fun i => f i * delta i k) = f k.
Proof.
  intros H. rewrite (Rsum_delta n k) by (try easy; intros i _ Hi; rewrite delta_diff by easy; ring).
  rewrite delta_same. ring.
Qed.
Lemma Rsum_delta_l n k f : (k < n)%nat -> Rsum n (fun i => f i * delta k i) = f k.
Proof.
  intros H. rewrite <- (Rsum_delta_r n k f H). apply Rsum_ext. intros. now rewrite delta_sym.
Qed.
Lemma Rsum_nonneg n f : (forall i, (i < n)%nat -> 0 <= f i) -> 0 <= Rsum n f.
Proof. induction n as [|n IH]; intros H; cbn; [lra|]. assert (0 <= Rsum n f) by (apply IH; intros; apply H; lia). specialize (H n ltac:(lia)). lra. Qed.
Lemma Rsum_le n f g : (forall i, (i < n)%nat -> f i <= g i) -> Rsum n f <= Rsum n g.
Proof. intros H. enough (0 <= Rsum n (fun i => g i - f i)) by (rewrite Rsum_minus in *; lra). apply Rsum_nonneg. intros i Hi. specialize (H i Hi). lra. Qed.
Lemma Rsum_eq0 n f : (forall i, (i < n)%nat -> 0 <= f i) -> Rsum n f = 0 -> forall i, (i < n)%nat -> f i = 0.
Proof.
  induction n as [|n IH]; intros H Hs i Hi; [lia|]. cbn in Hs.
  assert (0 <= Rsum n f) by (apply Rsum_nonneg; intros; apply H; lia). pose proof (H n ltac:(lia)).
  destruct (Nat.eq_dec i n) as [->|]; [lra|]. apply IH; try lia; [intros; apply H; lia|lra].
Qed.
Lemma Rsum_rev n f : Rsum n (fun i => f (n - 1 - i)%nat) = Rsum n f.
Proof.
  induction n as [|n IH]; [easy|]. rewrite Rsum_first. cbn [Rsum].
  replace (S n - 1 - 0)%nat with n by lia. rewrite <- IH.
  rewrite (Rsum_ext n (fun i => f (S n - 1 - S i)%nat) (fun i => f (n - 1 - i)%nat)); [lra|]. intros i Hi. f_equal. lia.
Qed.

Lemma Rsuml_app l l' : Rsuml (l ++ l') = Rsuml l + Rsuml l'.
Proof. induction l as [|x l IH]; cbn; [lra|]. rewrite IH. lra. Qed.
Lemma Rsuml_map_plus {A} (f g : A -> R) l : Rsuml (map (fun x => f x + g x) l) = Rsuml (map f l) + Rsuml (map g l).
Proof. induction l as [|x l IH]; cbn; [lra|]. rewrite IH. lra. Qed.
Lemma Rsuml_map_minus {A} (f g : A -> R) l : Rsuml (map (fun x => f x - g x) l) = Rsuml (map f l) - Rsuml (map g l).
Proof. induction l as [|x l IH]; cbn; [lra|]. rewrite IH. lra. Qed.
Lemma Rsuml_map_scal {A} c (f : A -> R) l : Rsuml (map (fun x => c * f x) l) = c * Rsuml (map f l).
Proof. induction l as [|x l IH]; cbn; [lra|]. rewrite IH. lra. Qed.
Lemma Rsuml_map_const {A} c (l : list A) : Rsuml (map (fun _ => c) l) = INR (length l) * c.
Proof. induction l as [|x l IH]; [cbn; lra|]. cbn [map length]. rewrite S_INR. cbn [Rsuml]. rewrite IH. lra. Qed.
Lemma Rsuml_map_ext {A} (f g : A -> R) l : (forall x, In x l -> f x = g x) -> Rsuml (map f l) = Rsuml (map g l).
Proof. induction l as [|x l IH]; intros H; cbn; [easy|]. rewrite (H x) by now left. rewrite IH; [easy|]. intros y Hy. apply H. now right. Qed.
Lemma Rsuml_map_Rsum {A} n (f : A -> nat -> R) l :
  Rsuml (map (fun x => Rsum n (f x)) l) = Rsum n (fun i => Rsuml (map (fun x => f x i) l)).
Proof. induction l as [|x l IH]; cbn; [symmetry; now apply Rsum_0|]. rewrite IH, <- Rsum_plus. easy. Qed.

(** Derivatives of sums. *)
Lemma derivable_Rsum n (f : nat -> R -> R) (d : nat -> R) x :
  (forall i, (i < n)%nat -> derivable_pt_lim (f i) x (d i)) ->
  derivable_pt_lim (fun t => Rsum n (fun i => f i t)) x (Rsum n d).
Proof.
  induction n as [|n IH]; intros H; cbn.
  - apply derivable_pt_lim_const.
  - apply (derivable_pt_lim_plus (fun t => Rsum n (fun i => f i t)) (f n)); [apply IH; intros; apply H; lia | apply H; lia].
Qed.
Lemma derivable_ext f g x l : (forall t, f t = g t) -> derivable_pt_lim f x l -> derivable_pt_lim g x l.
Proof. intros He H eps Hp. destruct (H eps Hp) as [d Hd]. exists d. intros h Hh Hl. rewrite <- !He. now apply Hd. Qed.
Lemma derivable_eq f x l l' : l = l' -> derivable_pt_lim f x l -> derivable_pt_lim f x l'.
Proof. now intros ->. Qed.
