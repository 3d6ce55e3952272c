(** * Lemmas on complex sums and the Lyapunov equation *)
From Coq Require Import Reals Arith Lia Lra.
From Coquelicot Require Import Complex.
From Verif Require Import RSum GleModel.
Open Scope R_scope.

Lemma Ceq (x y : C) : fst x = fst y -> snd x = snd y -> x = y.
Proof. intros. now apply injective_projections. Qed.
Lemma Csum_ext n f g : (forall i, (i < n)%nat -> f i = g i) -> Csum n f = Csum n g.
Proof. intros H. unfold Csum. f_equal; apply Rsum_ext; intros i Hi; now rewrite H. Qed.
Lemma Csum_plus n f g : Csum n (fun i => f i + g i)%C = (Csum n f + Csum n g)%C.
Proof. apply Ceq; cbn; now rewrite <- Rsum_plus. Qed.
Lemma Csum_scal n c f : Csum n (fun i => c * f i)%C = (c * Csum n f)%C.
Proof.
  apply Ceq; cbn.
  - now rewrite <- !Rsum_scal, <- Rsum_minus.
  - now rewrite <- !Rsum_scal, <- Rsum_plus.
Qed.
Lemma Csum_scal_r n c f : Csum n (fun i => f i * c)%C = (Csum n f * c)%C.
Proof. rewrite Cmult_comm, <- Csum_scal. apply Csum_ext. intros. ring. Qed.
Lemma Csum_swap n m f : Csum n (fun i => Csum m (fun j => f i j)) = Csum m (fun j => Csum n (fun i => f i j)).
Proof. apply Ceq; cbn; apply Rsum_swap. Qed.
Lemma Csum_delta n k f : (k < n)%nat -> Csum n (fun i => f i * RtoC (delta i k))%C = f k.
Proof.
  intros H. apply Ceq; cbn.
  - rewrite (Rsum_ext n _ (fun i => fst (f i) * delta i k)) by (intros; ring). now rewrite Rsum_delta_r.
  - rewrite (Rsum_ext n _ (fun i => snd (f i) * delta i k)) by (intros; ring). now rewrite Rsum_delta_r.
Qed.
Lemma Csum_R n x : Csum n (fun i => RtoC (x i)) = RtoC (Rsum n x).
Proof. apply Ceq; cbn; [easy|]. now apply Rsum_0. Qed.

(** ** Eigenvectors *)
Record eig (n : nat) (A : mat) (a : nat -> C) (om oinv : cmat) : Prop := {
  eig_vec : forall i k, (i < n)%nat -> (k < n)%nat -> Csum n (fun m => RtoC (A i m) * om m k)%C = (om i k * a k)%C;
  eig_right : forall i j, (i < n)%nat -> (j < n)%nat -> Csum n (fun k => om i k * oinv k j)%C = RtoC (delta i j);
  eig_left : forall i j, (i < n)%nat -> (j < n)%nat -> Csum n (fun k => oinv i k * om k j)%C = RtoC (delta i j) }.

Section Eig.
Variables (n : nat) (A : mat) (a : nat -> C) (om oinv : cmat).
Hypothesis E : eig n A a om oinv.

Lemma back v i : (i < n)%nat -> Csum n (fun k => om i k * Csum n (fun p => oinv k p * v p))%C = v i.
Proof.
  intros Hi. rewrite (Csum_ext n _ (fun k => Csum n (fun p => om i k * oinv k p * v p)%C)).
  2:{ intros k _. rewrite <- Csum_scal. apply Csum_ext. intros; ring. }
  rewrite Csum_swap, (Csum_ext n _ (fun p => v p * RtoC (delta p i))%C); [now apply Csum_delta|].
  intros p Hp. rewrite Csum_scal_r, (eig_right _ _ _ _ _ E) by easy. rewrite delta_sym. ring.
Qed.
Lemma forth v i : (i < n)%nat -> Csum n (fun k => oinv i k * Csum n (fun p => om k p * v p))%C = v i.
Proof.
  intros Hi. rewrite (Csum_ext n _ (fun k => Csum n (fun p => oinv i k * om k p * v p)%C)).
  2:{ intros k _. rewrite <- Csum_scal. apply Csum_ext. intros; ring. }
  rewrite Csum_swap, (Csum_ext n _ (fun p => v p * RtoC (delta p i))%C); [now apply Csum_delta|].
  intros p Hp. rewrite Csum_scal_r, (eig_left _ _ _ _ _ E) by easy. rewrite delta_sym. ring.
Qed.
(** A times a vector given by its components along the eigenvectors *)
Lemma eig_apply v i : (i < n)%nat -> Csum n (fun m => RtoC (A i m) * Csum n (fun k => om m k * v k))%C = Csum n (fun k => om i k * (a k * v k))%C.
Proof.
  intros Hi. rewrite (Csum_ext n _ (fun m => Csum n (fun k => RtoC (A i m) * om m k * v k)%C)).
  2:{ intros m _. rewrite <- Csum_scal. apply Csum_ext. intros; ring. }
  rewrite Csum_swap. apply Csum_ext. intros k Hk. rewrite Csum_scal_r, (eig_vec _ _ _ _ _ E) by easy. ring.
Qed.
(** the components of A v *)
Lemma eig_comp v k : (k < n)%nat -> Csum n (fun i => oinv k i * Csum n (fun m => RtoC (A i m) * v m))%C = (a k * Csum n (fun m => oinv k m * v m))%C.
Proof.
  intros Hk. rewrite (Csum_ext n _ (fun i => oinv k i * Csum n (fun p => om i p * (a p * Csum n (fun m => oinv p m * v m))))%C).
  - now rewrite (forth (fun p => a p * Csum n (fun m => oinv p m * v m))%C).
  - intros i Hi. f_equal. rewrite <- (eig_apply (fun p => Csum n (fun m => oinv p m * v m))%C) by easy. apply Csum_ext. intros m Hm. now rewrite back.
Qed.

Hypothesis NZ : forall i j, (i < n)%nat -> (j < n)%nat -> (a i + a j <> 0)%C.
Variable D : mat.
Definition Y : cmat := fun k l => Csum n (fun q => Csum n (fun p => oinv k p * RtoC (D p q)) * oinv l q)%C.
Definition X : cmat := fun i j => Csum n (fun k => om i k * Csum n (fun l => lyap_W n a oinv D k l * om j l))%C.

(** om Y om^T = D *)
Lemma Y_back i j : (i < n)%nat -> (j < n)%nat -> Csum n (fun k => om i k * Csum n (fun l => om j l * Y k l))%C = RtoC (D i j).
Proof.
  intros Hi Hj. rewrite (Csum_ext n _ (fun k => om i k * Csum n (fun p => oinv k p * RtoC (D p j)))%C).
  - now rewrite (back (fun p => RtoC (D p j))).
  - intros k Hk. f_equal. rewrite <- (back (fun q => Csum n (fun p => oinv k p * RtoC (D p q)))%C j Hj).
    apply Csum_ext. intros l Hl. f_equal. unfold Y. apply Csum_ext. intros; ring.
Qed.
Lemma X_solves i j : (i < n)%nat -> (j < n)%nat ->
  (Csum n (fun m => RtoC (A i m) * X m j) + Csum n (fun m => X i m * RtoC (A j m)))%C = RtoC (D i j).
Proof.
  intros Hi Hj. unfold X.
  rewrite (eig_apply (fun k => Csum n (fun l => lyap_W n a oinv D k l * om j l)%C)) by easy.
  rewrite (Csum_ext n (fun m => Csum n (fun k => om i k * Csum n (fun l => lyap_W n a oinv D k l * om m l)) * RtoC (A j m))%C
    (fun m => Csum n (fun k => om i k * Csum n (fun l => RtoC (A j m) * (om m l * lyap_W n a oinv D k l))))%C).
  2:{ intros m _. rewrite <- Csum_scal_r. apply Csum_ext. intros k _. rewrite <- Cmult_assoc. f_equal. rewrite <- Csum_scal_r. apply Csum_ext. intros; ring. }
  rewrite Csum_swap.
  rewrite (Csum_ext n (fun k => Csum n (fun m => om i k * _)%C) (fun k => om i k * Csum n (fun l => om j l * (a l * lyap_W n a oinv D k l)))%C).
  2:{ intros k _. rewrite Csum_scal. f_equal. rewrite <- (eig_apply (lyap_W n a oinv D k)) by easy. apply Csum_ext. intros m _. now rewrite Csum_scal. }
  rewrite <- Csum_plus, <- (Y_back i j) by easy. apply Csum_ext. intros k Hk. rewrite <- Cmult_plus_distr_l. f_equal.
  rewrite <- Csum_scal, <- Csum_plus. apply Csum_ext. intros l Hl. unfold lyap_W. fold (Y k l). field. now apply NZ.
Qed.
Lemma lyap_solves i j : (i < n)%nat -> (j < n)%nat ->
  Rsum n (fun m => A i m * lyap n a om oinv D m j) + Rsum n (fun m => lyap n a om oinv D i m * A j m) = D i j.
Proof.
  intros Hi Hj. pose proof (f_equal fst (X_solves i j Hi Hj)) as H. cbn in H. rewrite <- H. f_equal; apply Rsum_ext; intros m _; unfold lyap; fold (X m j); fold (X i m).
  - rewrite Rmult_0_l. unfold X. cbn. ring.
  - rewrite Rmult_0_r. unfold X. cbn. ring.
Qed.
(** and no other matrix does *)
Lemma lyap_unique (Z : mat) : (forall i j, (i < n)%nat -> (j < n)%nat -> Rsum n (fun m => A i m * Z m j) + Rsum n (fun m => Z i m * A j m) = D i j) ->
  forall i j, (i < n)%nat -> (j < n)%nat -> lyap n a om oinv D i j = Z i j.
Proof.
  intros HZ i j Hi Hj.
  set (T := fun k l => Csum n (fun p => oinv k p * Csum n (fun q => oinv l q * RtoC (Z p q)))%C).
  assert (K : forall k l, (k < n)%nat -> (l < n)%nat -> ((a k + a l) * T k l)%C = Y k l).
  { intros k l Hk Hl. rewrite Cmult_plus_distr_r.
    assert (T1 : (a k * T k l)%C = Csum n (fun p => oinv k p * Csum n (fun q => oinv l q * RtoC (Rsum n (fun m => A p m * Z m q)%R)))%C).
    { unfold T. rewrite <- (eig_comp (fun p => Csum n (fun q => oinv l q * RtoC (Z p q))%C)) by easy. apply Csum_ext. intros p _. f_equal.
      rewrite (Csum_ext n _ (fun m => Csum n (fun q => oinv l q * RtoC (A p m * Z m q)%R)%C)).
      2:{ intros m _. rewrite <- Csum_scal. apply Csum_ext. intros q _. rewrite RtoC_mult. ring. }
      rewrite Csum_swap. apply Csum_ext. intros q _. rewrite Csum_scal. f_equal. now rewrite <- Csum_R. }
    assert (T2 : (a l * T k l)%C = Csum n (fun p => oinv k p * Csum n (fun q => oinv l q * RtoC (Rsum n (fun m => Z p m * A q m)%R)))%C).
    { unfold T. rewrite <- Csum_scal. apply Csum_ext. intros p _.
      transitivity (oinv k p * (a l * Csum n (fun q => oinv l q * RtoC (Z p q))))%C; [ring|]. f_equal.
      rewrite <- (eig_comp (fun q => RtoC (Z p q))) by easy. apply Csum_ext. intros q _. f_equal. rewrite <- Csum_R. apply Csum_ext. intros m _. rewrite RtoC_mult. ring. }
    rewrite T1, T2, <- Csum_plus. unfold Y.
    rewrite (Csum_ext n _ (fun p => Csum n (fun q => oinv k p * (oinv l q * RtoC (D p q))))%C).
    - rewrite Csum_swap. apply Csum_ext. intros q _. rewrite <- Csum_scal_r. apply Csum_ext. intros; ring.
    - intros p Hp. rewrite <- Cmult_plus_distr_l, <- Csum_plus, Csum_scal. f_equal. apply Csum_ext. intros q Hq. rewrite <- HZ by easy. rewrite RtoC_plus. ring. }
  assert (W : forall k l, (k < n)%nat -> (l < n)%nat -> lyap_W n a oinv D k l = T k l).
  { intros k l Hk Hl. unfold lyap_W. fold (Y k l). rewrite <- K by easy. field. now apply NZ. }
  assert (XZ : X i j = RtoC (Z i j)).
  { unfold X. rewrite <- (back (fun p => RtoC (Z p j)) i Hi). apply Csum_ext. intros k Hk. f_equal.
    rewrite <- (back (fun q => Csum n (fun p => oinv k p * RtoC (Z p q)))%C j Hj). apply Csum_ext. intros l Hl. rewrite W by easy. rewrite Cmult_comm. f_equal.
    unfold T. rewrite (Csum_ext n (fun p => oinv k p * _)%C (fun p => Csum n (fun q => oinv k p * (oinv l q * RtoC (Z p q))))%C) by (intros; now rewrite Csum_scal).
    rewrite Csum_swap. apply Csum_ext. intros q _. rewrite <- Csum_scal. apply Csum_ext. intros; ring. }
  unfold lyap. fold (X i j). now rewrite XZ.
Qed.
End Eig.
