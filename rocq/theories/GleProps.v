(** * Theorems on the generalised Langevin tools (C269-C272) *)
From Coq Require Import List Reals Arith Bool Lia Lra.
From Coquelicot Require Import Complex.
From Verif Require Import RSum GleModel GleLin.
Import ListNotations.
Open Scope R_scope.

(** ** Specification *)
(** [C] is the stationary covariance of dx = - A x dt + noise with squared strength [D] *)
Definition stationary (n : nat) (A D C : mat) : Prop :=
  forall i j, (i < n)%nat -> (j < n)%nat -> Rsum n (fun m => A i m * C m j) + Rsum n (fun m => C i m * A j m) = D i j.
Definition identity : mat := fun i j => delta i j.

(** ** C269: drift, diffusion and covariance *)
(** A covariance proportional to the temperature becomes the identity, whatever the temperature, *)
Theorem gle_canonical n kbT C : kbT <> 0 -> (forall i j, (i < n)%nat -> (j < n)%nat -> C i j = kbT * delta i j) ->
  forall i j, (i < n)%nat -> (j < n)%nat -> gle_C kbT C i j = delta i j.
Proof. intros H E i j Hi Hj. unfold gle_C. rewrite E by easy. field. easy. Qed.
Lemma gle_D_identity n A i j : (i < n)%nat -> (j < n)%nat -> gle_D n A identity i j = A i j + A j i.
Proof.
  intros Hi Hj. unfold gle_D, mdot, mtr, identity. f_equal.
  - now apply Rsum_delta_r.
  - rewrite (Rsum_ext n _ (fun k => A j k * delta i k)) by (intros; ring). now apply Rsum_delta_l.
Qed.
(** the squared noise is then twice the symmetric part of the drift, for any time scaling, and it is symmetric for every symmetric covariance. *)
Theorem gle_diffusion n scaling A C i j : (i < n)%nat -> (j < n)%nat ->
  gle_D n (gle_A scaling A) identity i j = (A i j + A j i) * scaling /\
  ((forall p q, C p q = C q p) -> gle_D n A C i j = gle_D n A C j i) /\
  (forall tau, gle_D 1 (lang_A scaling tau) lang_C 0%nat 0%nat = 2 * scaling / tau).
Proof.
  intros Hi Hj. split; [|split].
  - rewrite gle_D_identity by easy. unfold gle_A. ring.
  - intros S0. unfold gle_D, mdot, mtr. rewrite Rplus_comm. f_equal; apply Rsum_ext; intros k _; rewrite (S0 k); ring.
  - intros tau. unfold gle_D, mdot, mtr, lang_A, lang_C. cbn. unfold Rdiv. ring.
Qed.
Definition s (w : R) (i : nat) : R := if (i =? 0)%nat then w else 1.
Lemma s_neq w i : w <> 0 -> s w i <> 0.
Proof. intros H. unfold s. destruct (i =? 0)%nat; lra. Qed.
Lemma scale_D_Dqp w c D i j : w <> 0 -> scale_D w (fun i j => c * Dqp D i j) i j = c * Dqp D i j.
Proof. intros H. unfold scale_D, Dqp. destruct i as [|i], j as [|j]; cbn; field; easy. Qed.
(** What is computed is the stationary covariance of (q, p, s) with the rows and columns of q divided by omega0 squared: *)
Theorem cqp_scaled n w a om oinv A Dp c : w <> 0 -> eig n (scale_A w A) a om oinv -> (forall i j, (i < n)%nat -> (j < n)%nat -> (a i + a j <> 0)%C) ->
  stationary n A (fun i j => c * Dqp Dp i j) (fun i j => s w i ^ 2 * s w j ^ 2 * Cqp n w a om oinv (fun i j => c * Dqp Dp i j) i j).
Proof.
  intros Hw E NZ i j Hi Hj. set (D := fun i j => c * Dqp Dp i j). set (L := lyap n a om oinv (scale_D w D)).
  pose proof (lyap_solves n (scale_A w A) a om oinv E NZ (scale_D w D) i j Hi Hj) as H. fold L in H.
  assert (Q : forall i j, s w i ^ 2 * s w j ^ 2 * Cqp n w a om oinv D i j = s w i * s w j * L i j).
  { intros p q. unfold Cqp. fold (s w p) (s w q) D L. field. split; now apply s_neq. }
  rewrite (Rsum_ext n (fun m => A i m * _) (fun m => s w i * s w j * (scale_A w A i m * L m j))).
  2:{ intros m _. rewrite Q. unfold scale_A. fold (s w i) (s w m). field. now apply s_neq. }
  rewrite (Rsum_ext n (fun m => _ * A j m) (fun m => s w i * s w j * (L i m * scale_A w A j m))).
  2:{ intros m _. rewrite Q. unfold scale_A. fold (s w j) (s w m). field. now apply s_neq. }
  rewrite !Rsum_scal, <- Rmult_plus_distr_l, H. unfold D at 1. rewrite scale_D_Dqp by easy. fold (D i j). unfold D, Dqp, s. destruct i as [|i], j as [|j]; cbn; ring.
Qed.
(** so the block of p and s, which the kernel uses, is right for a canonical thermostat, and the entry of q is not: *)
Theorem cqp_canonical n w a om oinv Ap c : (1 < n)%nat -> w <> 0 -> let A := fun i j => c * Aqp w Ap i j in let D := fun i j => c * Dqp (gle_D (n - 1) Ap identity) i j in
  eig n (scale_A w A) a om oinv -> (forall i j, (i < n)%nat -> (j < n)%nat -> (a i + a j <> 0)%C) ->
  stationary n A D (fun i j => delta i j / s w i ^ 2) /\
  (forall i j, (i < n)%nat -> (j < n)%nat -> Cqp n w a om oinv D i j = if (i =? 0)%nat && (j =? 0)%nat then / w ^ 6 else delta i j).
Proof.
  intros Hn Hw A D E NZ.
  assert (DD : forall i j, (S i < n)%nat -> (S j < n)%nat -> Dqp (gle_D (n - 1) Ap identity) (S i) (S j) = Ap i j + Ap j i).
  { intros i j Hi Hj. cbn. apply gle_D_identity; lia. }
  split.
  - intros i j Hi Hj. rewrite (Rsum_ext n (fun m => A i m * _) (fun m => A i m / s w m ^ 2 * delta m j)) by (intros; field; now apply s_neq).
    rewrite Rsum_delta_r by easy. rewrite (Rsum_ext n (fun m => _ * A j m) (fun m => A j m / s w i ^ 2 * delta i m)) by (intros; field; now apply s_neq).
    rewrite Rsum_delta_l by easy. unfold A, D. destruct i as [|i], j as [|j].
    + cbn. unfold s. cbn. field. easy.
    + unfold s. cbn. destruct j as [|j]; field; easy.
    + unfold s. cbn. destruct i as [|i]; field; easy.
    + rewrite DD by easy. unfold s. cbn. destruct i as [|i], j as [|j]; field.
  - assert (U := lyap_unique n (scale_A w A) a om oinv E NZ (scale_D w D) (fun i j => delta i j / s w i ^ 4)).
    assert (St : forall i j, (i < n)%nat -> (j < n)%nat -> lyap n a om oinv (scale_D w D) i j = delta i j / s w i ^ 4).
    { apply U. intros i j Hi Hj. rewrite (Rsum_ext n (fun m => scale_A w A i m * _) (fun m => scale_A w A i m / s w m ^ 4 * delta m j)) by (intros; field; now apply s_neq).
      rewrite Rsum_delta_r by easy. rewrite (Rsum_ext n (fun m => _ * scale_A w A j m) (fun m => scale_A w A j m / s w i ^ 4 * delta i m)) by (intros; field; now apply s_neq).
      rewrite Rsum_delta_l by easy. unfold D. rewrite scale_D_Dqp by easy. unfold A, scale_A. destruct i as [|i], j as [|j].
      + cbn. unfold s. cbn. field. easy.
      + unfold s. cbn. destruct j as [|j]; field; easy.
      + unfold s. cbn. destruct i as [|i]; field; easy.
      + rewrite DD by easy. unfold s. cbn. destruct i as [|i], j as [|j]; field. }
    intros i j Hi Hj. unfold Cqp. rewrite St by easy. fold (s w i) (s w j). destruct i as [|i], j as [|j]; unfold s; cbn [Nat.eqb andb].
    + unfold delta. cbn [Nat.eqb]. field. easy.
    + unfold delta. cbn [Nat.eqb]. field. easy.
    + unfold delta. cbn [Nat.eqb]. field. easy.
    + field.
Qed.
(** The case of white noise with friction 5 and frequency 2 *)
Definition ex_Ap : mat := fun _ _ => 5.
Definition ex_om : cmat := fun i j => match i, j with 1%nat, 0%nat => RtoC 2 | 1%nat, 1%nat => RtoC 8 | _, _ => RtoC 1 end.
Definition ex_oinv : cmat := fun i j => match i, j with 0%nat, 0%nat => RtoC (8 / 6) | 0%nat, _ => RtoC (- (1 / 6)) | _, 0%nat => RtoC (- (2 / 6)) | _, _ => RtoC (1 / 6) end.
Definition ex_a : nat -> C := fun i => match i with 0%nat => RtoC 1 | _ => RtoC 4 end.
Lemma ex_eig : eig 2 (scale_A 2 (fun i j => 1 * Aqp 2 ex_Ap i j)) ex_a ex_om ex_oinv.
Proof. split; intros i j Hi Hj; destruct i as [|[|i]], j as [|[|j]]; try lia; apply Ceq; cbn; try unfold delta; unfold scale_A; cbn; try unfold ex_Ap; field. Qed.
Lemma ex_sums i j : (i < 2)%nat -> (j < 2)%nat -> (ex_a i + ex_a j <> 0)%C.
Proof. intros Hi Hj H. apply (f_equal fst) in H. destruct i as [|[|i]], j as [|[|j]]; try lia; cbn in H; lra. Qed.
Theorem cqp_refuted : exists w Ap a om oinv, 0 < w /\ let A := fun i j => 1 * Aqp w Ap i j in let D := fun i j => 1 * Dqp (gle_D 1 Ap identity) i j in
  eig 2 (scale_A w A) a om oinv /\ (forall i j, (i < 2)%nat -> (j < 2)%nat -> (a i + a j <> 0)%C) /\
  ~ stationary 2 A D (Cqp 2 w a om oinv D).
Proof.
  exists 2, ex_Ap, ex_a, ex_om, ex_oinv. split; [lra|]. cbv zeta. split; [exact ex_eig|]. split; [exact ex_sums|].
  intros H. specialize (H 0%nat 1%nat ltac:(lia) ltac:(lia)).
  destruct (cqp_canonical 2 2 ex_a ex_om ex_oinv ex_Ap 1 ltac:(lia) ltac:(lra) ex_eig ex_sums) as (_ & V). change (2 - 1)%nat with 1%nat in V. cbn [Rsum] in H.
  rewrite !V in H by lia. cbn in H. unfold delta in H. cbn in H. lra.
Qed.

(** ** C270: the kernel *)
(** An entry is the p component of A (A^2 + x)^-1 C over omega0, x the square of the frequency over omega0: with [u] the solution for the column of p. *)
Theorem kernel_resolvent n A w0 w om oinv (C : mat) x (u : nat -> R) : (1 < n)%nat -> w0 <> 0 -> eig n A w om oinv ->
  (forall k, (k < n)%nat -> (w k * w k + RtoC x <> 0)%C) ->
  (forall i, (i < n)%nat -> Rsum n (fun m => A i m * Rsum n (fun l => A m l * u l)) + x * u i = C i 1%nat) ->
  ker_entry n w0 w (fun k => w k * w k)%C om oinv C x = Rsum n (fun m => A 1%nat m * u m) / w0.
Proof.
  intros Hn Hw E NZ U. unfold ker_entry.
  assert (V : forall k, (k < n)%nat -> Csum n (fun l => oinv k l * RtoC (C l 1%nat))%C = ((w k * w k + RtoC x) * Csum n (fun l => oinv k l * RtoC (u l)))%C).
  { intros k Hk. rewrite (Csum_ext n _ (fun l => oinv k l * Csum n (fun m => RtoC (A l m) * Csum n (fun p => RtoC (A m p) * RtoC (u p))) + RtoC x * (oinv k l * RtoC (u l)))%C).
    - rewrite Csum_plus, Csum_scal. rewrite (eig_comp n A w om oinv E (fun m => Csum n (fun p => RtoC (A m p) * RtoC (u p))%C)) by easy.
      rewrite (eig_comp n A w om oinv E (fun p => RtoC (u p))) by easy. ring.
    - intros l Hl. rewrite <- U by easy. rewrite RtoC_plus, RtoC_mult, <- Csum_R.
      rewrite (Csum_ext n (fun m => RtoC (A l m * _)) (fun m => RtoC (A l m) * Csum n (fun p => RtoC (A m p) * RtoC (u p)))%C); [ring|].
      intros m _. rewrite RtoC_mult, <- Csum_R. f_equal. apply Csum_ext. intros p _. apply RtoC_mult. }
  assert (K : Csum n (fun k => om 1%nat k * w k / RtoC w0 * (Csum n (fun l => oinv k l * RtoC (C l 1%nat)) / (w k * w k + RtoC x)))%C =
    (/ RtoC w0 * Csum n (fun m => RtoC (A 1%nat m) * RtoC (u m)))%C).
  { rewrite (Csum_ext n _ (fun k => / RtoC w0 * (om 1%nat k * (w k * Csum n (fun l => oinv k l * RtoC (u l)))))%C).
    - rewrite Csum_scal. f_equal. rewrite <- (eig_apply n A w om oinv E (fun k => Csum n (fun l => oinv k l * RtoC (u l))%C)) by easy.
      apply Csum_ext. intros m Hm. f_equal. now apply (back n A w om oinv E (fun l => RtoC (u l))).
    - intros k Hk. rewrite V by easy. field. split; [intros F; apply Hw; now apply RtoC_inj|now apply NZ]. }
  rewrite K. rewrite (Csum_ext n _ (fun m => RtoC (A 1%nat m * u m))) by (intros; now rewrite RtoC_mult). rewrite Csum_R, <- RtoC_inv by easy. rewrite <- RtoC_mult. cbn. field. easy.
Qed.
(** White noise: the velocity spectrum of a harmonic oscillator with friction, the friction being at least twice the spacing of the frequencies. *)
Theorem kernel_white dw w0 w g a om oinv v om' oinv' : 0 < w0 -> 0 < dw -> 0 < g -> 0 < w ->
  let A := over (Aqp w0 (fun _ _ => g)) w0 in let D := over (Dqp (gle_D 1 (fun _ _ => g) identity)) w0 in
  eig 2 (scale_A w0 A) a om oinv -> (forall i j, (i < 2)%nat -> (j < 2)%nat -> (a i + a j <> 0)%C) ->
  eig 2 (raise_friction dw w0 A) v om' oinv' -> (forall k, (k < 2)%nat -> (v k * v k + RtoC (w ^ 2 / w0 ^ 2) <> 0)%C) ->
  let f := Rmax g (2 * dw) in
  kernel dw (ker_entry 2 w0 v (fun k => v k * v k)%C om' oinv' (Cqp 2 w0 a om oinv D) (w ^ 2 / w0 ^ 2)) =
  dw * (2 / PI) * (f * w ^ 2 / ((w ^ 2 - w0 ^ 2) ^ 2 + f ^ 2 * w ^ 2)).
Proof.
  intros H0 Hdw Hg Hw A D E NZ E' NZ' f. assert (Hf : 0 < f) by (unfold f; pose proof (Rmax_l g (2 * dw)); lra).
  set (x := w ^ 2 / w0 ^ 2). set (C := Cqp 2 w0 a om oinv D).
  assert (CC : C 0%nat 1%nat = 0 /\ C 1%nat 1%nat = 1).
  { assert (EA : forall i j, / w0 * Aqp w0 (fun _ _ => g) i j = A i j) by (intros; unfold A, over, Rdiv; ring).
    assert (ED : forall i j, / w0 * Dqp (gle_D 1 (fun _ _ => g) identity) i j = D i j) by (intros; unfold D, over, Rdiv; ring).
    destruct (cqp_canonical 2 w0 a om oinv (fun _ _ => g) (/ w0)) as (_ & V); [lia|lra| |exact NZ|].
    - destruct E as [E1 E2 E3]. split; [|exact E2|exact E3]. intros i k Hi Hk. rewrite <- E1 by easy. apply Csum_ext. intros m _. do 2 f_equal. unfold scale_A. now rewrite EA.
    - assert (EC : forall i j, Cqp 2 w0 a om oinv (fun i j => / w0 * Dqp (gle_D (2 - 1) (fun _ _ => g) identity) i j) i j = C i j).
      { intros i j. unfold C, Cqp, lyap. do 3 f_equal. apply Csum_ext. intros k _. f_equal. apply Csum_ext. intros l _. f_equal. unfold lyap_W. f_equal. apply Csum_ext. intros q _. f_equal. apply Csum_ext. intros p _.
        f_equal. f_equal. unfold scale_D. now rewrite <- ED. }
      split; rewrite <- EC, V by lia; reflexivity. }
  assert (D2 : 0 < (x - 1) ^ 2 + (f / w0) ^ 2 * x).
  { assert (0 < x) by (unfold x; apply Rdiv_lt_0_compat; apply pow_lt; lra). assert (0 < (f / w0) ^ 2) by (apply pow_lt; apply Rdiv_lt_0_compat; lra). pose proof (pow2_ge_0 (x - 1)). nra. }
  set (d := (x - 1) ^ 2 + (f / w0) ^ 2 * x) in *.
  set (u := fun i : nat => match i with 0%nat => - (f / w0 / w0) / d | _ => (x - 1) / d end).
  assert (RF : forall i j, (i < 2)%nat -> (j < 2)%nat -> raise_friction dw w0 A i j = match i, j with 0%nat, 0%nat => 0 | 0%nat, _ => / w0 | _, 0%nat => - w0 | _, _ => f / w0 end).
  { intros i j Hi Hj. destruct i as [|[|i]], j as [|[|j]]; try lia; unfold raise_friction; cbn [Nat.eqb andb]; unfold A, over, Aqp; try (field; lra).
    destruct (Rlt_dec (g / w0) (2 * dw / w0)) as [L|L]; unfold f.
    - rewrite Rmax_right; [easy|]. apply Rmult_lt_reg_r in L; [lra|now apply Rinv_0_lt_compat].
    - rewrite Rmax_left; [easy|]. apply Rnot_lt_le in L. apply Rmult_le_reg_r in L; [lra|now apply Rinv_0_lt_compat]. }
  rewrite (kernel_resolvent 2 (raise_friction dw w0 A) w0 v om' oinv' C x u); [|lia|lra|exact E'|exact NZ'|].
  - cbn [Rsum]. rewrite !RF by lia. unfold kernel, u, d, x. field. repeat split; try lra; try apply PI_neq0.
    + pose proof (pow2_ge_0 (w ^ 2 - w0 ^ 2)). assert (0 < f ^ 2 * w ^ 2) by (apply Rmult_lt_0_compat; apply pow_lt; lra). lra.
  - assert (D3 : 0 < (x - 1) ^ 2 * w0 ^ 2 + f ^ 2 * x).
    { replace ((x - 1) ^ 2 * w0 ^ 2 + f ^ 2 * x) with (d * w0 ^ 2) by (unfold d; field; lra). apply Rmult_lt_0_compat; [easy|apply pow_lt; lra]. }
    intros i Hi. destruct i as [|[|i]]; [| |lia]; cbn [Rsum]; rewrite !RF by lia; unfold u.
    + rewrite (proj1 CC). unfold d. field. repeat split; lra.
    + rewrite (proj2 CC). unfold d. field. repeat split; lra.
Qed.
(** A case: friction 5, frequency 2, spacing 1/2 *)
Definition k_om (t : R) : cmat := fun i j => match i, j with 1%nat, 0%nat => RtoC (4 * t) | 1%nat, 1%nat => RtoC t | _, _ => RtoC 1 end.
Definition k_oinv (t : R) : cmat := fun i j => match i, j with 0%nat, 0%nat => RtoC (- (1 / 3)) | 0%nat, _ => RtoC (1 / (3 * t)) | _, 0%nat => RtoC (4 / 3) | _, _ => RtoC (- (1 / (3 * t))) end.
Definition k_a : nat -> C := fun i => match i with 0%nat => RtoC 2 | _ => RtoC (1 / 2) end.
Example kernel_case : let A := over (Aqp 2 (fun _ _ => 5)) 2 in
  eig 2 (scale_A 2 A) k_a (k_om 2) (k_oinv 2) /\ eig 2 (raise_friction (/ 2) 2 A) k_a (k_om 1) (k_oinv 1) /\
  (forall i j, (i < 2)%nat -> (j < 2)%nat -> (k_a i + k_a j <> 0)%C) /\ (forall k, (k < 2)%nat -> (k_a k * k_a k + RtoC (3 ^ 2 / 2 ^ 2) <> 0)%C).
Proof.
  split; [|split; [|split]].
  - split; intros i j Hi Hj; destruct i as [|[|i]], j as [|[|j]]; try lia; apply Ceq; cbn; try unfold delta; unfold scale_A, over; cbn; field.
  - assert (N : ~ 5 / 2 < 2 * / 2 / 2) by lra.
    split; intros i j Hi Hj; destruct i as [|[|i]], j as [|[|j]]; try lia; apply Ceq; cbn; try unfold delta; unfold raise_friction, over; cbn; try (destruct (Rlt_dec (5 / 2) (2 * / 2 / 2)); [easy|]); field.
  - intros i j Hi Hj H. apply (f_equal fst) in H. destruct i as [|[|i]], j as [|[|j]]; try lia; cbn in H; lra.
  - intros k Hk H. apply (f_equal fst) in H. destruct k as [|[|k]]; try lia; cbn in H; lra.
Qed.
(** No frequency of the grid is zero. *)
Theorem omlist_positive omega : (forall i, 0 <= omega i) -> omega 0%nat <> omega 1%nat -> (forall i, (0 < i)%nat -> 0 < omega i) -> forall i, 0 < omlist omega i /\ omega i <= omlist omega i.
Proof.
  intros H N P i. unfold omlist, kernel_dw. destruct (Nat.eqb_spec i 0) as [->|Ni].
  - assert (0 < Rabs (omega 1%nat - omega 0%nat)) by (apply Rabs_pos_lt; intros E; apply N; lra).
    pose proof (Rmax_l (omega 0%nat) (Rabs (omega 1%nat - omega 0%nat) * / 10)). pose proof (Rmax_r (omega 0%nat) (Rabs (omega 1%nat - omega 0%nat) * / 10)). split; lra.
  - split; [apply P; lia|lra].
Qed.

(** ** C271, C272: deconvolution *)
Section Isra.
Variables (n : nat) (ker : mat) (y : nat -> R).
Definition residual (f : nat -> R) : R := Rsum n (fun k => (convolute n ker f k - y k) ^ 2).
Lemma convolute_kdot f i : convolute n ker f i = kdot n ker f i.
Proof. apply Rsum_ext. intros; ring. Qed.
Lemma gram_apply f i : kdot n (gram n ker) f i = tdot n ker (kdot n ker f) i.
Proof.
  unfold kdot, gram, tdot. rewrite (Rsum_ext n _ (fun k => Rsum n (fun l => ker l i * ker l k * f k))) by (intros; now rewrite Rsum_scal_r).
  rewrite Rsum_swap. apply Rsum_ext. intros l _. rewrite <- Rsum_scal. apply Rsum_ext. intros; ring.
Qed.
(** A spectrum that is convoluted into the given one does not change any more. *)
Theorem isra_fixed steps f : (forall i, (i < n)%nat -> convolute n ker f i = y i) -> (forall i, (i < n)%nat -> 0 < kdot n (gram n ker) f i) ->
  forall i, (i < n)%nat -> isra steps n ker y f i = f i.
Proof.
  intros H P. induction steps as [|k IH]; intros i Hi; [easy|]. cbn [isra]. unfold isra_step. rewrite IH by easy.
  assert (E : kdot n (gram n ker) (isra k n ker y f) i = kdot n (gram n ker) f i) by (apply Rsum_ext; intros j Hj; now rewrite IH).
  rewrite E. assert (T : tdot n ker y i = kdot n (gram n ker) f i).
  { rewrite gram_apply. apply Rsum_ext. intros j Hj. now rewrite <- H, convolute_kdot. }
  rewrite T. field. pose proof (P i Hi). lra.
Qed.
Hypothesis Kpos : forall i j, (i < n)%nat -> (j < n)%nat -> 0 <= ker i j.
Lemma gram_pos i j : (i < n)%nat -> (j < n)%nat -> 0 <= gram n ker i j.
Proof. intros Hi Hj. apply Rsum_nonneg. intros k Hk. apply Rmult_le_pos; now apply Kpos. Qed.
(** Spectra stay positive if no column of the kernel is zero. *)
Theorem isra_positive steps : (forall i, (i < n)%nat -> 0 < ker i i) -> (forall i, (i < n)%nat -> 0 < y i) -> forall i, (i < n)%nat -> 0 < deconvolute steps n ker y i.
Proof.
  intros Kd Yp. unfold deconvolute. induction steps as [|k IH]; [easy|]. intros i Hi. cbn [isra]. set (f := isra k n ker y y) in *.
  assert (P : forall g, (forall j, (j < n)%nat -> 0 < g j) -> 0 < tdot n ker g i).
  { intros g G. unfold tdot. assert (0 <= Rsum n (fun k => ker k i * g k - ker i i * g i * delta k i)).
    { apply Rsum_nonneg. intros j Hj. unfold delta. destruct (Nat.eqb_spec j i) as [->|]; [lra|]. assert (0 <= ker j i * g j) by (apply Rmult_le_pos; [now apply Kpos|left; now apply G]). lra. }
    rewrite Rsum_minus, (Rsum_delta_r n i (fun _ => ker i i * g i)) in H by easy. assert (0 < ker i i * g i) by (apply Rmult_lt_0_compat; auto). lra. }
  unfold isra_step. apply Rdiv_lt_0_compat; [apply Rmult_lt_0_compat; [now apply IH|now apply P]|].
  rewrite gram_apply. apply P. intros j Hj. unfold kdot. assert (0 <= Rsum n (fun k => ker j k * f k - ker j j * f j * delta k j)).
  { apply Rsum_nonneg. intros l Hl. unfold delta. destruct (Nat.eqb_spec l j) as [->|]; [lra|]. assert (0 <= ker j l * f l) by (apply Rmult_le_pos; [now apply Kpos|left; now apply IH]). lra. }
  rewrite Rsum_minus, (Rsum_delta_r n j (fun _ => ker j j * f j)) in H by easy. assert (0 < ker j j * f j) by (apply Rmult_lt_0_compat; auto). lra.
Qed.
(** No step increases the squared distance of the convolution from the spectrum. *)
Theorem isra_descent f : (forall i, (i < n)%nat -> 0 < f i) -> (forall i, (i < n)%nat -> 0 < kdot n (gram n ker) f i) -> residual (isra_step n ker y f) <= residual f.
Proof.
  intros F P. set (Q := gram n ker). set (q := kdot n Q f). set (b := tdot n ker y). set (d := fun i => isra_step n ker y f i - f i).
  change (forall i, (i < n)%nat -> 0 < q i) in P.
  assert (Hd : forall i, (i < n)%nat -> q i - b i = - d i * q i / f i).
  { intros i Hi. unfold d, isra_step. change (kdot n (gram n ker) f i) with (q i). change (tdot n ker y i) with (b i).
    pose proof (P i Hi) as Pi. pose proof (F i Hi) as Fi. revert Pi Fi. generalize (q i) (b i) (f i). intros. field. split; lra. }
  assert (R1 : residual (isra_step n ker y f) = residual f + Rsum n (fun i => d i * kdot n Q d i) + 2 * Rsum n (fun i => d i * (q i - b i))).
  { unfold residual. rewrite (Rsum_ext n (fun k => (convolute n ker (isra_step n ker y f) k - y k) ^ 2)
      (fun k => (convolute n ker f k - y k) ^ 2 + kdot n ker d k ^ 2 + 2 * (kdot n ker d k * (kdot n ker f k - y k)))).
    2:{ intros k _. rewrite !convolute_kdot. replace (kdot n ker (isra_step n ker y f) k) with (kdot n ker f k + kdot n ker d k); [ring|].
        unfold kdot, d. rewrite <- Rsum_plus. apply Rsum_ext. intros; ring. }
    rewrite !Rsum_plus, Rsum_scal. f_equal; [f_equal|f_equal].
    - unfold Q. rewrite (Rsum_ext n (fun i => d i * kdot n (gram n ker) d i) (fun i => Rsum n (fun k => d i * ker k i * kdot n ker d k))).
      2:{ intros i _. rewrite gram_apply. unfold tdot. rewrite <- Rsum_scal. apply Rsum_ext. intros; ring. }
      rewrite Rsum_swap. apply Rsum_ext. intros k _. rewrite Rsum_scal_r. replace (Rsum n (fun i => d i * ker k i)) with (kdot n ker d k) by (apply Rsum_ext; intros; ring). ring.
    - rewrite (Rsum_ext n (fun i => d i * (q i - b i)) (fun i => Rsum n (fun k => d i * ker k i * (kdot n ker f k - y k)))).
      2:{ intros i _. unfold q, Q, b. rewrite gram_apply. unfold tdot. rewrite <- Rsum_minus, <- Rsum_scal. apply Rsum_ext. intros; ring. }
      rewrite Rsum_swap. apply Rsum_ext. intros k _. rewrite Rsum_scal_r. replace (Rsum n (fun i => d i * ker k i)) with (kdot n ker d k) by (apply Rsum_ext; intros; ring). ring. }
  rewrite R1. rewrite (Rsum_ext n (fun i => d i * (q i - b i)) (fun i => - (d i ^ 2 * q i / f i))).
  2:{ intros i Hi. rewrite Hd by easy. pose proof (F i Hi). field. lra. }
  rewrite Rsum_opp.
  assert (Z1 : 0 <= Rsum n (fun i => d i ^ 2 * q i / f i)).
  { apply Rsum_nonneg. intros i Hi. apply Rmult_le_pos; [|left; apply Rinv_0_lt_compat; auto]. apply Rmult_le_pos; [apply pow2_ge_0|left; now apply P]. }
  assert (Z2 : Rsum n (fun i => d i * kdot n Q d i) <= Rsum n (fun i => d i ^ 2 * q i / f i)).
  { assert (A1 : Rsum n (fun i => d i ^ 2 * q i / f i) = Rsum n (fun i => Rsum n (fun j => Q i j * f i * f j * (d i / f i) ^ 2))).
    { apply Rsum_ext. intros i Hi. unfold q, kdot. unfold Rdiv. rewrite <- Rsum_scal, <- Rsum_scal_r. apply Rsum_ext. intros j Hj. pose proof (F i Hi). field. lra. }
    assert (A2 : Rsum n (fun i => d i ^ 2 * q i / f i) = Rsum n (fun i => Rsum n (fun j => Q i j * f i * f j * (d j / f j) ^ 2))).
    { rewrite A1, Rsum_swap. apply Rsum_ext. intros i Hi. apply Rsum_ext. intros j Hj. replace (Q j i) with (Q i j); [ring|]. unfold Q, gram. apply Rsum_ext. intros; ring. }
    assert (A3 : Rsum n (fun i => d i * kdot n Q d i) = Rsum n (fun i => Rsum n (fun j => Q i j * f i * f j * ((d i / f i) * (d j / f j))))).
    { apply Rsum_ext. intros i Hi. unfold kdot. rewrite <- Rsum_scal. apply Rsum_ext. intros j Hj. pose proof (F i Hi). pose proof (F j Hj). field. split; lra. }
    assert (A4 : 0 <= Rsum n (fun i => Rsum n (fun j => Q i j * f i * f j * (d i / f i - d j / f j) ^ 2))).
    { apply Rsum_nonneg. intros i Hi. apply Rsum_nonneg. intros j Hj. apply Rmult_le_pos; [|apply pow2_ge_0]. apply Rmult_le_pos; [|left; auto]. apply Rmult_le_pos; [now apply gram_pos|left; auto]. }
    rewrite (Rsum_ext n _ (fun i => Rsum n (fun j => Q i j * f i * f j * (d i / f i) ^ 2) + Rsum n (fun j => Q i j * f i * f j * (d j / f j) ^ 2) - 2 * Rsum n (fun j => Q i j * f i * f j * ((d i / f i) * (d j / f j))))) in A4.
    2:{ intros i _. rewrite <- Rsum_plus, <- Rsum_scal, <- Rsum_minus. apply Rsum_ext. intros; ring. }
    rewrite Rsum_minus, Rsum_plus, Rsum_scal, <- A1, <- A2, <- A3 in A4. lra. }
  lra.
Qed.
End Isra.
(** The error that is printed is that of the transposed kernel: right if the kernel is symmetric... *)
Theorem error_symmetric n ker y f : (forall i j, ker i j = ker j i) -> reported_error n ker y f = residual n ker y f.
Proof. intros H. unfold reported_error, residual, tdot, convolute. apply Rsum_ext. intros i _. do 2 f_equal. apply Rsum_ext. intros k _. rewrite H. ring. Qed.
(** ... and else not zero for the exact answer. *)
Definition ex_ker : mat := fun i j => match i, j with 0%nat, 1%nat => 1 | 0%nat, 0%nat => 2 | 1%nat, 1%nat => 2 | _, _ => 0 end.
Theorem error_refuted : exists ker y f, (forall i j, 0 <= ker i j) /\ (forall i, 0 < f i) /\ residual 2 ker y f = 0 /\ 0 < reported_error 2 ker y f.
Proof.
  exists ex_ker, (fun i => match i with 0%nat => 3 | _ => 2 end), (fun _ => 1). split; [|split; [|split]].
  - intros [|[|i]] [|[|j]]; cbn; lra.
  - intros; lra.
  - unfold residual, convolute. cbn. ring.
  - unfold reported_error, tdot. cbn. lra.
Qed.
Example isra_case : (forall i j, 0 <= ex_ker i j) /\ (forall i, (i < 2)%nat -> 0 < ex_ker i i) /\ (forall i, (i < 2)%nat -> 0 < kdot 2 (gram 2 ex_ker) (fun _ => 1) i) /\
  isra_step 2 ex_ker (fun _ => 1) (fun _ => 1) 0 = / 3.
Proof.
  split; [|split; [|split]].
  - intros [|[|i]] [|[|j]]; cbn; lra.
  - intros [|[|i]] Hi; cbn; try lra; lia.
  - intros [|[|i]] Hi; [..|lia]; unfold kdot, gram; cbn; lra.
  - unfold isra_step, tdot, kdot, gram. cbn. field.
Qed.

Print Assumptions gle_diffusion.
Print Assumptions gle_canonical.
Print Assumptions cqp_scaled.
Print Assumptions cqp_canonical.
Print Assumptions cqp_refuted.
Print Assumptions kernel_resolvent.
Print Assumptions kernel_white.
Print Assumptions omlist_positive.
Print Assumptions isra_fixed.
Print Assumptions isra_positive.
Print Assumptions isra_descent.
Print Assumptions error_symmetric.
Print Assumptions error_refuted.
