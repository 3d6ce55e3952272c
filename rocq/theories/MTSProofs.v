(** * Effect of the integrator calls on the modes of the ring polymer *)
From Coq Require Import List Reals ZArith Lra Lia Arith Bool.
From Verif Require Import RSum Ortho NMModel NMProofs NMProps SpringModel SpringProofs SpringProps SpringBab MTSModel MTSSched.
Import ListNotations.
Open Scope R_scope.

Definition agree (n : nat) (x z : mat) : Prop := forall b c, (b < n)%nat -> x b c = z b c.

Section S.
Variable y : sys.
Notation r := (ringp y).
Notation n := (nbeads r).
Hypothesis Hr : sound r.
Hypothesis Hp : match prop y with Bab k => (0 < k)%nat | _ => True end.
Notation h := (get_qdt (tstep_dt y) (nmts y)).
Hypothesis Hd : h <> 0.

Lemma n_pos : (0 < n)%nat.
Proof. apply Hr. Qed.
Lemma m3_pos c : 0 < m3 r c.
Proof. apply Hr. Qed.

Lemma beads_of_modes (x z : mat) c : (forall k, (k < n)%nat -> to_nm y x k c = to_nm y z k c) -> forall b, (b < n)%nat -> x b c = z b c.
Proof.
  intros H b Hb. rewrite <- (nm_roundtrip n (openp r) x b c), <- (nm_roundtrip n (openp r) z b c) by (try easy; apply n_pos).
  unfold nm_trans_nm2b at 1 2. unfold app at 1 2. apply Rsum_ext. intros k Hk. apply (f_equal (Rmult _)). exact (H k Hk).
Qed.

(** What one drift does to a mode. *)
Definition dstep (k c : nat) (x : R * R) : R * R :=
  if (k =? 0)%nat then (fst x, snd x + fst x / m3 r c * h)
  else match prop y with
       | Exact => mode_step (prop_exact (om_of r k c) (f_of r k c) h) (m3 r c) x
       | Cayley => mode_step (prop_cayley (om_of r k c) (f_of r k c) h) (m3 r c) x
       | Bab j => Nat.iter j (verlet (m3 r c) (om_of r k c) (h / INR j)) x
       end.
Lemma drift_free cay s k c : (k < n)%nat ->
  let e := free_qstep r cay h (qcstep r h (to_nm y (sp s), to_nm y (sq s))) in
  modes r (to_beads y (fst e), to_beads y (snd e)) k c
  = if (k =? 0)%nat then (to_nm y (sp s) k c, to_nm y (sq s) k c + to_nm y (sp s) k c / m3 r c * h)
    else mode_step (if cay then prop_cayley (om_of r k c) (f_of r k c) h else prop_exact (om_of r k c) (f_of r k c) h) (m3 r c) (to_nm y (sp s) k c, to_nm y (sq s) k c).
Proof.
  intros Hk e. unfold modes. cbn [fst snd]. unfold to_beads. rewrite !nm_roundtrip_modes by (try easy; apply n_pos).
  destruct (Nat.eqb_spec k 0) as [->|Hne].
  - subst e. rewrite !(proj1 (free_step_centroid _ _ _ _ _)), !(proj2 (free_step_centroid _ _ _ _ _)). reflexivity.
  - subst e. rewrite free_step_mode by lia. unfold qcstep. cbn [fst snd]. now rewrite (proj2 (Nat.eqb_neq _ _) Hne).
Qed.
Lemma drift_modes s k c : (k < n)%nat ->
  modes r (sp (drift y s), sq (drift y s)) k c = dstep k c (modes r (sp s, sq s) k c).
Proof.
  intros Hk. unfold drift, dstep. destruct (prop y) as [| |j] eqn:E.
  - cbn [sp sq]. rewrite (drift_free false s k c Hk). reflexivity.
  - cbn [sp sq]. rewrite (drift_free true s k c Hk). reflexivity.
  - cbn [sp sq]. rewrite <- surjective_pairing. destruct (Nat.eq_dec n 1) as [H1|H1].
    + unfold free_babstep. rewrite (proj2 (Nat.eqb_eq _ _) H1). assert (k = 0%nat) by lia. subst k. cbn [Nat.eqb].
      unfold modes. cbn [fst snd]. unfold to_beads. rewrite !nm_roundtrip_modes by (try easy; apply n_pos). reflexivity.
    + rewrite bab_step_modes by easy. unfold modes. cbn [fst snd]. unfold to_beads. rewrite !nm_roundtrip_modes by (try easy; apply n_pos).
      unfold qcstep. cbn [fst snd]. destruct (Nat.eqb_spec k 0) as [->|Hne]; reflexivity.
Qed.

Definition flip2 (x : R * R) : R * R := (- fst x, snd x).
Lemma iter_verlet_flip m om d j p q : 0 < m ->
  Nat.iter j (verlet m om d) (- p, q) = flip2 (Nat.iter j (verlet m om (- d)) (p, q)).
Proof.
  intros Hm. induction j as [|j IH]; [easy|]. rewrite !iterS, IH. destruct (Nat.iter j (verlet m om (- d)) (p, q)) as [a b]. unfold flip2 at 1. cbn [fst snd].
  now rewrite verlet_flip.
Qed.
Lemma cayley_flip om f d m x : 0 < f -> d <> 0 -> 0 < m ->
  mode_step (prop_cayley om f d) m (flip2 (mode_step (prop_cayley om f d) m x)) = flip2 x.
Proof.
  intros Hf Hd' Hm. destruct (sqrt_pos' f Hf) as [Hs Hss]. destruct x as [p q]. pose proof (cayley_square om d) as H.
  unfold flip2, mode_step, apply_pq, mass_scale, prop_cayley. cbn [p00 p01 p10 p11 fst snd].
  set (k := sqrt f) in *. clearbody k. subst f.
  assert (H' : 0 < 4 + om ^ 2 * d ^ 2) by nra.
  f_equal; field; repeat split; try lra; try nra.
Qed.
Lemma dstep_flip k c x : (k < n)%nat -> dstep k c (flip2 (dstep k c x)) = flip2 x.
Proof.
  intros Hk. unfold dstep. pose proof (m3_pos c) as Hm. pose proof (f_pos r k c Hr).
  destruct (Nat.eqb_spec k 0) as [->|Hne]; [destruct x as [p q]; unfold flip2; cbn [fst snd]; f_equal; field; lra|].
  pose proof (om_pos r k c Hr ltac:(lia)). destruct (prop y) as [| |j].
  - pose proof (exact_flip (om_of r k c) (f_of r k c) h (m3 r c) x ltac:(easy) ltac:(lra) Hm) as E. cbv zeta in E. fold flip2 in E.
    rewrite <- E at 2. unfold flip2 at 2 3. cbn [fst snd]. rewrite Ropp_involutive. now rewrite <- surjective_pairing.
  - now apply cayley_flip.
  - pose proof (INR_pos j Hp). set (d := h / INR j). destruct x as [p q].
    set (s := Nat.iter j (verlet (m3 r c) (om_of r k c) d) (p, q)). unfold flip2 at 1. rewrite iter_verlet_flip by easy. rewrite <- surjective_pairing.
    subst s. rewrite iter_verlet_back by easy. reflexivity.
Qed.
Lemma dstep_zero k c : (k < n)%nat -> k <> 0%nat -> dstep k c (0, 0) = (0, 0).
Proof.
  intros Hk Hne. unfold dstep. rewrite (proj2 (Nat.eqb_neq _ _) Hne). pose proof (m3_pos c).
  assert (M : forall X, mode_step X (m3 r c) (0, 0) = (0, 0)) by (intros; unfold mode_step, apply_pq; cbn [fst snd]; f_equal; ring).
  destruct (prop y) as [| |j]; try apply M. induction j as [|j IH]; [easy|].
  clear Hp. set (d := h / INR (S j)). clearbody d. clear IH. induction (S j) as [|i IH]; [easy|]. rewrite iterS, IH.
  unfold verlet. cbn [fst snd]. f_equal; field; lra.
Qed.

(** ** Equality on the beads *)
Definition eqs (s s' : st) : Prop := agree n (sp s) (sp s') /\ agree n (sq s) (sq s').
Lemma eqs_refl s : eqs s s.
Proof. split; intros b c _; reflexivity. Qed.
Lemma eqs_trans s s' s'' : eqs s s' -> eqs s' s'' -> eqs s s''.
Proof. intros [A B] [C D]. split; intros b c Hb; [rewrite A, C|rewrite B, D]; easy. Qed.
Lemma eqs_modes s s' : (forall k c, (k < n)%nat -> modes r (sp s, sq s) k c = modes r (sp s', sq s') k c) <-> eqs s s'.
Proof.
  split.
  - intros H. split; intros b c Hb; apply beads_of_modes; try easy; intros k Hk; specialize (H k c Hk); unfold modes in H; cbn [fst snd] in H; now injection H.
  - intros [A B] k c Hk. unfold modes. cbn [fst snd]. f_equal; apply b2nm_ext; intros; auto.
Qed.
Definition flip (s : st) : st := mkSt (fun b c => - sp s b c) (sq s) (eens s).
Lemma flip_modes s k c : modes r (sp (flip s), sq (flip s)) k c = flip2 (modes r (sp s, sq s) k c).
Proof.
  unfold modes, flip2, flip. cbn [fst snd sp sq]. f_equal. rewrite (b2nm_ext _ _ _ (fun b c => (-1) * sp s b c)) by (intros; ring).
  rewrite (b2nm_scale _ _ (sp s) (fun _ => -1)). ring.
Qed.
Lemma flip_eqs s s' : eqs s s' -> eqs (flip s) (flip s').
Proof. intros [A B]. split; intros b c Hb; cbn; [now rewrite A | now apply B]. Qed.
Lemma drift_eqs s s' : eqs s s' -> eqs (drift y s) (drift y s').
Proof. intros H. apply eqs_modes. intros k c Hk. rewrite !drift_modes by easy. f_equal. now apply eqs_modes. Qed.
Lemma drift_flip s : eqs (drift y (flip (drift y s))) (flip s).
Proof. apply eqs_modes. intros k c Hk. rewrite drift_modes, !flip_modes, drift_modes by easy. now apply dstep_flip. Qed.

(** ** Sums and constants in mode space *)
Lemma b2nm_const (g : nat -> R) k c : (k < n)%nat -> to_nm y (fun _ c => g c) k c = if (k =? 0)%nat then sqrt (INR n) * g c else 0.
Proof.
  intros Hk. pose proof (INR_pos n n_pos) as Hn. assert (Hq : 0 < sqrt (INR n)) by now apply sqrt_lt_R0.
  assert (E : forall b, (b < n)%nat -> to_beads y (fun k c => if (k =? 0)%nat then sqrt (INR n) * g c else 0) b c = g c).
  { intros b Hb. unfold to_beads, nm_trans_nm2b, app, transpose.
    rewrite (Rsum_delta n 0) by (try apply n_pos; intros i _ Hi; rewrite (proj2 (Nat.eqb_neq _ _) Hi); ring). cbn [Nat.eqb].
    destruct (is_open (openp r) c); rewrite ?nm_row0, ?o_nm_row0 by apply n_pos; field; lra. }
  unfold to_nm. rewrite (b2nm_ext _ _ _ (to_beads y (fun k c => if (k =? 0)%nat then sqrt (INR n) * g c else 0))) by (intros; now rewrite E).
  unfold to_beads. now rewrite nm_roundtrip_modes by (try easy; apply n_pos).
Qed.
Lemma bead_sum (x : mat) c : Rsum n (fun b => x b c) = sqrt (INR n) * to_nm y x 0%nat c.
Proof.
  unfold to_nm. rewrite nm_centroid by apply n_pos. pose proof (INR_pos n n_pos) as Hn.
  rewrite <- Rmult_assoc, sqrt_sqrt by lra. field. lra.
Qed.
(** All beads at the same place. *)
Lemma collapsed (x : mat) c : (forall b, (b < n)%nat -> x b c = x 0%nat c) <-> (forall k, (0 < k < n)%nat -> to_nm y x k c = 0).
Proof.
  pose proof (INR_pos n n_pos) as Hn. assert (Hq : 0 < sqrt (INR n)) by now apply sqrt_lt_R0. split.
  - intros H k Hk. unfold to_nm. rewrite (b2nm_ext _ _ _ (fun _ c => x 0%nat c)) by (intros; now apply H).
    change (to_nm y (fun _ c => x 0%nat c) k c = 0). rewrite b2nm_const by lia. now rewrite (proj2 (Nat.eqb_neq k 0)) by lia.
  - intros H. assert (E : forall b, (b < n)%nat -> x b c = to_nm y x 0%nat c / sqrt (INR n)).
    { apply (beads_of_modes x (fun _ _ => to_nm y x 0%nat c / sqrt (INR n)) c). intros k Hk.
      rewrite (b2nm_const (fun _ => to_nm y x 0%nat c / sqrt (INR n))) by easy. destruct (Nat.eqb_spec k 0) as [->|]; [field; lra|apply H; lia]. }
    intros b Hb. rewrite (E b), (E 0%nat); try easy. apply n_pos.
Qed.
End S.
