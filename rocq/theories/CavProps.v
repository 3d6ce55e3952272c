(** * Cavity photons: theorems *)

From Coq Require Import List Arith Lia Bool Reals Lra.
From Verif Require Import RSum CavModel.
Import ListNotations.
Open Scope R_scope.

(** ** Specification: the potential of Pauli and Fierz

    Two oscillators, along x and y, displaced by the dipole; the other
    coordinates of the photons are free oscillators. *)
Definition kx : nat := 0.
Definition ky (r : rep) : nat := match r with Loose => 4 | Dense => 1 end.
Definition spare (r : rep) : list nat := match r with Loose => [1; 2; 3; 5]%nat | Dense => [2]%nat end.
Definition pauli_fierz (p : photon) (ph : nat -> R) (mx my : R) : R :=
  let w := omega_c p in
  / 2 * w ^ 2 * (ph kx + E0 p / w ^ 2 * mx) ^ 2 + / 2 * w ^ 2 * (ph (ky (ph_rep p)) + E0 p / w ^ 2 * my) ^ 2
  + Rsuml (map (fun k => / 2 * w ^ 2 * ph k ^ 2) (spare (ph_rep p))).

(** The position with coordinate [j] replaced. *)
Definition upd (pos : nat -> R) (j : nat) (x : R) : nat -> R := fun k => if Nat.eqb k j then x else pos k.
(** Dipole of point charges along axis [c]. *)
Definition mu_charges (q : list R) (pos : nat -> R) (c : nat) : R :=
  Rsum (length q) (fun i => nth i q 0 * pos (3 * i + c)%nat).
(** Potential of the client for the atoms of a configuration of [n] coordinates. *)
Definition nuc_pot (f : cavff) (cl : client) wrap (n : nat) (pos : nat -> R) : R :=
  rp_u (cl (dim_atoms (ph_rep (photons f)) n) (wrap pos)).
(** The whole potential, given a dipole moment surface. *)
Definition whole_pot (f : cavff) (cl : client) wrap (n : nat) (mu : (nat -> R) -> nat -> R) (pos : nat -> R) : R :=
  nuc_pot f cl wrap n pos + pauli_fierz (photons f) (pos_ph (ph_rep (photons f)) n pos) (mu pos 0%nat) (mu pos 1%nat).

Lemma pf_energy p ph dx dy : omega_c p <> 0 -> get_ph_energy p ph dx dy = pauli_fierz p ph dx dy.
Proof.
  intros W. unfold get_ph_energy, pauli_fierz, omega_klambda3, omega_klambda, kx, ky.
  destruct (ph_rep p); cbn; field; exact W.
Qed.

Lemma pf_nonneg p ph dx dy : 0 <= pauli_fierz p ph dx dy.
Proof.
  assert (A : forall a b, 0 <= / 2 * a ^ 2 * b ^ 2) by (intros; apply Rmult_le_pos; [|apply pow2_ge_0]; pose proof (pow2_ge_0 a); lra).
  unfold pauli_fierz. apply Rplus_le_le_0_compat; [apply Rplus_le_le_0_compat; apply A|].
  induction (spare (ph_rep p)) as [|k l IH]; cbn [map Rsuml]; [lra|]. specialize (A (omega_c p) (ph k)). lra.
Qed.

(** Derivative of a half square along a path. *)
Lemma d_half_sq c g x d : derivable_pt_lim g x d -> derivable_pt_lim (fun t => / 2 * c * g t ^ 2) x (c * g x * d).
Proof.
  intros H. apply (derivable_eq _ x (/ 2 * c * (2 * g x * d))); [lra|].
  apply (derivable_pt_lim_scal (fun t => g t ^ 2)).
  apply (derivable_ext (fun t => g t * g t)); [intros; ring|].
  apply (derivable_eq _ x (d * g x + g x * d)); [ring|]. now apply derivable_pt_lim_mult.
Qed.
Lemma d_Rsuml (l : list nat) (g : nat -> R -> R) (d : nat -> R) x :
  (forall k, derivable_pt_lim (g k) x (d k)) -> derivable_pt_lim (fun t => Rsuml (map (fun k => g k t) l)) x (Rsuml (map d l)).
Proof.
  intros H. induction l as [|k l IH]; cbn [map Rsuml]; [apply derivable_pt_lim_const|].
  now apply (derivable_pt_lim_plus (g k) (fun t => Rsuml (map (fun k => g k t) l))).
Qed.
Lemma pf_derivative p (ph : R -> nat -> R) (mx my : R -> R) dph dmx dmy x :
  (forall k, derivable_pt_lim (fun t => ph t k) x (dph k)) -> derivable_pt_lim mx x dmx -> derivable_pt_lim my x dmy ->
  let w := omega_c p in
  derivable_pt_lim (fun t => pauli_fierz p (ph t) (mx t) (my t)) x
   (w ^ 2 * (ph x kx + E0 p / w ^ 2 * mx x) * (dph kx + E0 p / w ^ 2 * dmx)
    + w ^ 2 * (ph x (ky (ph_rep p)) + E0 p / w ^ 2 * my x) * (dph (ky (ph_rep p)) + E0 p / w ^ 2 * dmy)
    + Rsuml (map (fun k => w ^ 2 * ph x k * dph k) (spare (ph_rep p)))).
Proof.
  intros Hp Hx Hy w. unfold pauli_fierz. fold w.
  set (c := E0 p / w ^ 2).
  apply (derivable_pt_lim_plus (fun t => / 2 * w ^ 2 * (ph t kx + c * mx t) ^ 2 + / 2 * w ^ 2 * (ph t (ky (ph_rep p)) + c * my t) ^ 2)
           (fun t => Rsuml (map (fun k => / 2 * w ^ 2 * ph t k ^ 2) (spare (ph_rep p))))).
  - apply (derivable_pt_lim_plus (fun t => / 2 * w ^ 2 * (ph t kx + c * mx t) ^ 2) (fun t => / 2 * w ^ 2 * (ph t (ky (ph_rep p)) + c * my t) ^ 2)).
    + apply (d_half_sq (w ^ 2) (fun t => ph t kx + c * mx t)).
      apply (derivable_pt_lim_plus (fun t => ph t kx) (fun t => c * mx t)); [apply Hp|]. now apply (derivable_pt_lim_scal mx c).
    + apply (d_half_sq (w ^ 2) (fun t => ph t (ky (ph_rep p)) + c * my t)).
      apply (derivable_pt_lim_plus (fun t => ph t (ky (ph_rep p))) (fun t => c * my t)); [apply Hp|]. now apply (derivable_pt_lim_scal my c).
  - apply (d_Rsuml _ (fun k t => / 2 * w ^ 2 * ph t k ^ 2)). intros k. now apply (d_half_sq (w ^ 2) (fun t => ph t k)).
Qed.

Lemma upd_same pos j : forall k, upd pos j (pos j) k = pos k.
Proof. intros k. unfold upd. destruct (Nat.eqb_spec k j); congruence. Qed.
Lemma upd_d pos j k x : derivable_pt_lim (fun t => upd pos j t k) x (if Nat.eqb k j then 1 else 0).
Proof. unfold upd. destruct (Nat.eqb k j); [apply derivable_pt_lim_id|apply derivable_pt_lim_const]. Qed.

Lemma coeff_x p ph d : coeff p ph (slice_x (ph_rep p)) d = E0 p * ph kx + E0 p ^ 2 / omega_c p ^ 2 * d.
Proof. unfold coeff, kx. destruct (ph_rep p); cbn; ring. Qed.
Lemma coeff_y p ph d : coeff p ph (slice_y (ph_rep p)) d = E0 p * ph (ky (ph_rep p)) + E0 p ^ 2 / omega_c p ^ 2 * d.
Proof. unfold coeff, ky. destruct (ph_rep p); cbn; ring. Qed.

(** The forces of the photons are minus the derivatives with respect to their
    coordinates. *)
Lemma pf_photon_force p ph dx dy k : omega_c p <> 0 -> (k < n_photon_3 (ph_rep p))%nat ->
  let w := omega_c p in
  let dph := fun j => if Nat.eqb j k then 1 else 0 in
  w ^ 2 * (ph kx + E0 p / w ^ 2 * dx) * (dph kx + E0 p / w ^ 2 * 0)
    + w ^ 2 * (ph (ky (ph_rep p)) + E0 p / w ^ 2 * dy) * (dph (ky (ph_rep p)) + E0 p / w ^ 2 * 0)
    + Rsuml (map (fun k => w ^ 2 * ph k * dph k) (spare (ph_rep p))) = - get_ph_forces p ph dx dy k.
Proof.
  intros W K w dph. unfold get_ph_forces, omega_klambda3, omega_klambda, dph, w, kx, ky, n_photon_3, n_photon in *.
  destruct (ph_rep p); cbn in K.
  - do 6 (destruct k as [|k]; [cbn; field; exact W|]). lia.
  - do 3 (destruct k as [|k]; [cbn; field; exact W|]). lia.
Qed.

(** The potential returned by a call, and its forces, for any coupling. *)
Section Gradient.
Variables (f : cavff) (cl : client) (wrap : (nat -> R) -> nat -> R) (n : nat).
Variable mu : (nat -> R) -> nat -> R.
Let p := photons f.
Let na3 := dim_atoms (ph_rep p) n.
Hypothesis W : omega_c p <> 0.
Hypothesis Nn : (n_photon_3 (ph_rep p) <= n)%nat.

Lemma grad_general pos c dmu :
  (forall j, (j < na3)%nat -> derivable_pt_lim (fun t => nuc_pot f cl wrap n (upd pos j t)) (pos j) (- rp_f (cl na3 (wrap pos)) j)) ->
  (forall pos', (forall k, (k < na3)%nat -> pos' k = pos k) -> nuc_pot f cl wrap n pos' = nuc_pot f cl wrap n pos) ->
  (forall pos' a, (a < 2)%nat -> (forall k, (k < na3)%nat -> pos' k = pos k) -> mu pos' a = mu pos a) ->
  (forall j a, (j < na3)%nat -> (a < 2)%nat -> derivable_pt_lim (fun t => mu (upd pos j t) a) (pos j) (dmu j a)) ->
  (forall j ph dx dy, (j < na3)%nat ->
     get_nuc_cav_forces p ph dx dy c j = - (coeff p ph (slice_x (ph_rep p)) dx * dmu j 0%nat + coeff p ph (slice_y (ph_rep p)) dy * dmu j 1%nat)) ->
  forall j, (j < n)%nat ->
  let ph := pos_ph (ph_rep p) n pos in
  derivable_pt_lim (fun t => whole_pot f cl wrap n mu (upd pos j t)) (pos j)
    (- (if (j <? na3)%nat then rp_f (cl na3 (wrap pos)) j + get_nuc_cav_forces p ph (mu pos 0%nat) (mu pos 1%nat) c j
        else get_ph_forces p ph (mu pos 0%nat) (mu pos 1%nat) (j - na3))).
Proof.
  intros Hu Lu Lm Hm Hc j J ph. unfold whole_pot. fold p.
  assert (Nd : n = (na3 + n_photon_3 (ph_rep p))%nat) by (unfold na3, dim_atoms; lia).
  assert (PD : forall k, derivable_pt_lim (fun t => pos_ph (ph_rep p) n (upd pos j t) k) (pos j) (if Nat.eqb (na3 + k) j then 1 else 0)).
  { intros k. unfold pos_ph. apply upd_d. }
  destruct (Nat.ltb_spec j na3) as [L|L].
  - pose proof (pf_derivative p (fun t => pos_ph (ph_rep p) n (upd pos j t)) (fun t => mu (upd pos j t) 0%nat) (fun t => mu (upd pos j t) 1%nat)
                  _ _ _ (pos j) PD (Hm j 0%nat L ltac:(lia)) (Hm j 1%nat L ltac:(lia))) as D.
    pose proof (derivable_pt_lim_plus _ _ _ _ _ (Hu j L) D) as S.
    eapply derivable_eq; [|exact S]. rewrite (Hc j ph _ _ L), coeff_x, coeff_y.
    assert (Z : forall k, Nat.eqb (na3 + k) j = false) by (intros k; apply Nat.eqb_neq; lia). cbv beta. rewrite !Z.
    rewrite (Lm (upd pos j (pos j)) 0%nat), (Lm (upd pos j (pos j)) 1%nat) by (try lia; intros; apply upd_same).
    assert (P : forall k, pos_ph (ph_rep p) n (upd pos j (pos j)) k = ph k) by (intros k; unfold ph, pos_ph; apply upd_same). cbv beta. rewrite !P.
    rewrite (Rsuml_map_ext (fun k => omega_c p ^ 2 * pos_ph (ph_rep p) n (upd pos j (pos j)) k * (if Nat.eqb (na3 + k) j then 1 else 0)) (fun _ => 0)).
    2:{ intros k _. rewrite Z. ring. }
    rewrite Rsuml_map_const. field. exact W.
  - assert (Me : forall t a, (a < 2)%nat -> mu (upd pos j t) a = mu pos a).
    { intros t a A. apply Lm; [exact A|]. intros k K. unfold upd. now rewrite (proj2 (Nat.eqb_neq k j)) by lia. }
    assert (Hu' : derivable_pt_lim (fun t => nuc_pot f cl wrap n (upd pos j t)) (pos j) 0).
    { apply (derivable_ext (fun _ => nuc_pot f cl wrap n pos)); [|apply derivable_pt_lim_const].
      intros t. symmetry. apply Lu. intros k K. unfold upd. now rewrite (proj2 (Nat.eqb_neq k j)) by lia. }
    assert (M0 : forall a, (a < 2)%nat -> derivable_pt_lim (fun t => mu (upd pos j t) a) (pos j) 0).
    { intros a A. apply (derivable_ext (fun _ => mu pos a)); [intros t; now rewrite Me|apply derivable_pt_lim_const]. }
    pose proof (pf_derivative p (fun t => pos_ph (ph_rep p) n (upd pos j t)) (fun t => mu (upd pos j t) 0%nat) (fun t => mu (upd pos j t) 1%nat)
                  _ _ _ (pos j) PD (M0 0%nat ltac:(lia)) (M0 1%nat ltac:(lia))) as D.
    pose proof (derivable_pt_lim_plus _ _ _ _ _ Hu' D) as S.
    eapply derivable_eq; [|exact S].
    rewrite <- (pf_photon_force p ph (mu pos 0%nat) (mu pos 1%nat) (j - na3) W) by lia.
    cbv zeta. rewrite !Me by lia.
    assert (P : forall k, pos_ph (ph_rep p) n (upd pos j (pos j)) k = ph k) by (intros k; unfold ph, pos_ph; apply upd_same). cbv beta. rewrite !P.
    assert (Z : forall k, Nat.eqb (na3 + k) j = Nat.eqb k (j - na3)).
    { intros k. destruct (Nat.eqb_spec k (j - na3)); [apply Nat.eqb_eq|apply Nat.eqb_neq]; lia. }
    rewrite !Z, Rplus_0_l. f_equal. apply Rsuml_map_ext. intros k _. now rewrite P, Z.
Qed.
End Gradient.

Lemma dip_mu q pos c : dip (length q) q pos c = mu_charges q pos c.
Proof. apply Rsum_ext. intros; ring. Qed.
Lemma mu_charges_d q pos j c : (j < 3 * length q)%nat -> (c < 3)%nat ->
  derivable_pt_lim (fun t => mu_charges q (upd pos j t) c) (pos j) (if (j mod 3 =? c)%nat then nth (j / 3) q 0 else 0).
Proof.
  intros J C. unfold mu_charges.
  eapply derivable_eq; [|apply (derivable_Rsum (length q) (fun i t => nth i q 0 * upd pos j t (3 * i + c)%nat)
     (fun i => nth i q 0 * (if Nat.eqb (3 * i + c) j then 1 else 0)))].
  2:{ intros i. intros. apply (derivable_pt_lim_scal (fun t => upd pos j t (3 * i + c)%nat)). apply upd_d. }
  pose proof (Nat.div_mod j 3 ltac:(lia)) as D. pose proof (Nat.mod_upper_bound j 3 ltac:(lia)) as B.
  destruct (Nat.eqb_spec (j mod 3) c) as [E|E].
  - rewrite (Rsum_delta _ (j / 3)); [|lia|].
    + rewrite (proj2 (Nat.eqb_eq _ _)) by lia. ring.
    + intros i _ Hi. rewrite (proj2 (Nat.eqb_neq _ _)) by lia. ring.
  - apply Rsum_0. intros i _. rewrite (proj2 (Nat.eqb_neq _ _)); [ring|]. lia.
Qed.

(** ** C159: point charges. The potential of a call is that of Pauli and Fierz
    less twice the offset, the forces are minus its gradient. *)
Theorem cavity_charges f cl wrap n pos :
  apply_photon f = true -> evaluate_photon f = true -> dipole_surface f = false ->
  omega_c (photons f) <> 0 -> n = (3 * (length (charges f) + n_photon (ph_rep (photons f))))%nat ->
  let na3 := (3 * length (charges f))%nat in
  let mu := mu_charges (charges f) in
  (forall j, (j < na3)%nat -> derivable_pt_lim (fun t => nuc_pot f cl wrap n (upd pos j t)) (pos j) (- rp_f (cl na3 (wrap pos)) j)) ->
  (forall pos', (forall k, (k < na3)%nat -> pos' k = pos k) -> nuc_pot f cl wrap n pos' = nuc_pot f cl wrap n pos) ->
  exists r, queue f cl wrap n pos = Ok r /\
    rp_u r = whole_pot f cl wrap n mu pos - 2 * offset f /\
    rp_vir r = rp_vir (cl na3 (wrap pos)) /\
    (forall j, (j < n)%nat -> derivable_pt_lim (fun t => whole_pot f cl wrap n mu (upd pos j t)) (pos j) (- rp_f r j)).
Proof.
  intros A V D W N na3 mu Hu Lu.
  assert (E : dim_atoms (ph_rep (photons f)) n = na3) by (unfold dim_atoms, n_photon_3, na3; lia).
  assert (Q : dipole_of f n pos (rp_ex (cl na3 (wrap pos)))
              = Some (Some (mu pos 0%nat, mu pos 1%nat, Charges (fun i => nth i (charges f) 0)))).
  { unfold dipole_of. rewrite D, E.
    assert (n / 3 = length (charges f) + n_photon (ph_rep (photons f)))%nat as -> by (rewrite N, Nat.mul_comm; apply Nat.div_mul; lia).
    rewrite (proj2 (Nat.eqb_eq _ _)) by lia.
    assert (na3 / 3 = length (charges f))%nat as -> by (unfold na3; rewrite Nat.mul_comm; apply Nat.div_mul; lia).
    rewrite Nat.eqb_refl, !dip_mu. easy. }
  unfold queue. rewrite A, V, E. cbv zeta. cbn [socket_reply rp_ex]. rewrite Q.
  eexists. split; [reflexivity|]. cbn [rp_u rp_vir rp_f socket_reply]. split; [|split; [easy|]].
  - rewrite pf_energy by exact W. unfold whole_pot, nuc_pot. rewrite E. ring.
  - intros j J.
    pose proof (grad_general f cl wrap n mu W) as G. rewrite E in G.
    specialize (G ltac:(unfold n_photon_3; lia) pos (Charges (fun i => nth i (charges f) 0))
                  (fun j a => if (j mod 3 =? a)%nat then nth (j / 3) (charges f) 0 else 0) Hu Lu).
    eapply derivable_eq; [|apply G; try exact J].
    + f_equal. destruct (j <? na3)%nat; reflexivity.
    + intros pos' a L H. unfold mu, mu_charges. apply Rsum_ext. intros i I. rewrite H by (unfold na3; lia). easy.
    + intros i a I L. apply mu_charges_d; [exact I|lia].
    + intros i ph dx dy I. unfold get_nuc_cav_forces. destruct (i mod 3) as [|[|k]] eqn:M; cbn [Nat.eqb]; ring.
Qed.

(** ** C160: a dipole surface. The client returns a dipole and the array of its
    derivatives, atom by atom, by component of the dipole, by coordinate. *)
Theorem cavity_dipole_surface f cl wrap n na pos mu der :
  apply_photon f = true -> evaluate_photon f = true -> dipole_surface f = true ->
  omega_c (photons f) <> 0 -> n = (3 * (na + n_photon (ph_rep (photons f))))%nat ->
  let na3 := (3 * na)%nat in
  rp_ex (cl na3 (wrap pos)) = mkExtras (Some [mu pos 0%nat; mu pos 1%nat; mu pos 2%nat]) (Some der) ->
  length der = (9 * na)%nat ->
  (forall i a b, (i < na)%nat -> (a < 3)%nat -> (b < 3)%nat ->
     derivable_pt_lim (fun t => mu (upd pos (3 * i + b) t) a) (pos (3 * i + b)%nat) (nth (9 * i + 3 * a + b) der 0)) ->
  (forall pos' a, (a < 2)%nat -> (forall k, (k < na3)%nat -> pos' k = pos k) -> mu pos' a = mu pos a) ->
  (forall j, (j < na3)%nat -> derivable_pt_lim (fun t => nuc_pot f cl wrap n (upd pos j t)) (pos j) (- rp_f (cl na3 (wrap pos)) j)) ->
  (forall pos', (forall k, (k < na3)%nat -> pos' k = pos k) -> nuc_pot f cl wrap n pos' = nuc_pot f cl wrap n pos) ->
  exists r, queue f cl wrap n pos = Ok r /\
    rp_u r = whole_pot f cl wrap n mu pos - 2 * offset f /\
    (forall j, (j < n)%nat -> derivable_pt_lim (fun t => whole_pot f cl wrap n mu (upd pos j t)) (pos j) (- rp_f r j)).
Proof.
  intros A V D W N na3 X LD Hd Lm Hu Lu.
  assert (E : dim_atoms (ph_rep (photons f)) n = na3) by (unfold dim_atoms, n_photon_3, na3; lia).
  assert (Q : dipole_of f n pos (rp_ex (cl na3 (wrap pos)))
              = Some (Some (mu pos 0%nat, mu pos 1%nat, DipoleDer (fun k => nth k der 0)))).
  { unfold dipole_of. rewrite D, X. cbn [dipole dipole_derivative length Nat.eqb].
    rewrite (proj2 (Nat.eqb_eq _ _)) by lia. easy. }
  unfold queue. rewrite A, V, E. cbv zeta. cbn [socket_reply rp_ex]. rewrite Q.
  eexists. split; [reflexivity|]. cbn [rp_u rp_f socket_reply]. split.
  - rewrite pf_energy by exact W. unfold whole_pot, nuc_pot. rewrite E. ring.
  - intros j J.
    pose proof (grad_general f cl wrap n mu W) as G. rewrite E in G.
    specialize (G ltac:(unfold n_photon_3; lia) pos (DipoleDer (fun k => nth k der 0))
                  (fun j a => nth (9 * (j / 3) + 3 * a + j mod 3) der 0) Hu Lu Lm).
    eapply derivable_eq; [|apply G; try exact J].
    + f_equal. destruct (j <? na3)%nat; reflexivity.
    + intros i a I L. pose proof (Nat.div_mod i 3 ltac:(lia)) as DM. pose proof (Nat.mod_upper_bound i 3 ltac:(lia)) as B.
      specialize (Hd (i / 3)%nat a (i mod 3)%nat ltac:(lia) ltac:(lia) B). rewrite <- DM in Hd. exact Hd.
    + intros i ph dx dy I. pose proof (Nat.mod_upper_bound i 3 ltac:(lia)) as B. unfold get_nuc_cav_forces.
      destruct (i mod 3) as [|[|[|k]]] eqn:M; [| | |lia];
        replace (9 * (i / 3) + 3 * 0 + 0)%nat with (9 * (i / 3))%nat by lia;
        replace (9 * (i / 3) + 3 * 1 + 0)%nat with (3 + 9 * (i / 3))%nat by lia;
        replace (9 * (i / 3) + 3 * 0 + 1)%nat with (1 + 9 * (i / 3))%nat by lia;
        replace (9 * (i / 3) + 3 * 1 + 1)%nat with (4 + 9 * (i / 3))%nat by lia;
        replace (9 * (i / 3) + 3 * 0 + 2)%nat with (2 + 9 * (i / 3))%nat by lia;
        replace (9 * (i / 3) + 3 * 1 + 2)%nat with (5 + 9 * (i / 3))%nat by lia; ring.
Qed.

(** The photons never lower the energy, and without coupling they are free. *)
Theorem cavity_energy_bound p ph dx dy : omega_c p <> 0 -> 0 <= get_ph_energy p ph dx dy.
Proof. intros W. rewrite pf_energy by exact W. apply pf_nonneg. Qed.
Theorem cavity_uncoupled p ph dx dy k c : omega_c p <> 0 -> E0 p = 0 ->
  get_ph_energy p ph dx dy = get_ph_energy p ph 0 0 /\ get_nuc_cav_forces p ph dx dy c k = 0.
Proof.
  intros W Z. rewrite !pf_energy by exact W. unfold pauli_fierz, get_nuc_cav_forces. rewrite coeff_x, coeff_y, Z. split.
  - unfold Rdiv. rewrite !Rmult_0_l. easy.
  - destruct c; destruct (k mod 3) as [|[|]]; unfold Rdiv; ring.
Qed.
(** The total force of the cavity on the charges of a neutral system is zero. *)
Theorem cavity_net_force p ph dx dy q na c : Rsum na q = 0 -> (c < 3)%nat ->
  Rsum na (fun i => get_nuc_cav_forces p ph dx dy (Charges q) (3 * i + c)) = 0.
Proof.
  intros Z C. unfold get_nuc_cav_forces.
  assert (M : forall i, ((3 * i + c) mod 3 = c)%nat).
  { intros i. rewrite Nat.add_comm, Nat.mul_comm, Nat.mod_add by lia. now apply Nat.mod_small. }
  assert (D : forall i, ((3 * i + c) / 3 = i)%nat).
  { intros i. rewrite Nat.add_comm, Nat.mul_comm, Nat.div_add by lia. rewrite Nat.div_small by lia. lia. }
  rewrite (Rsum_ext _ _ (fun i => (match c with 0%nat => - coeff p ph (slice_x (ph_rep p)) dx | 1%nat => - coeff p ph (slice_y (ph_rep p)) dy | _ => 0 end) * q i)).
  - rewrite Rsum_scal, Z. ring.
  - intros i _. rewrite M, D. destruct c as [|[|]]; ring.
Qed.

(** ** C161: the offset *)
(** Documented meaning (forcefields.py:97-98): the potential of the client less the
    offset, plus the energy of the photons. *)
Theorem cavity_offset_refuted : exists f cl wrap n pos r,
  apply_photon f = false /\ queue f cl wrap n pos = Ok r /\ rp_u r <> rp_u (cl n (wrap pos)) - offset f.
Proof.
  exists (mkCav (mkPhoton 0 1 Loose) false true false [] 1), (fun _ _ => mkReply 5 (fun _ => 0) (fun _ _ => 0) (mkExtras None None)),
    (fun x => x), 3%nat, (fun _ => 0).
  eexists. split; [reflexivity|]. split; [reflexivity|]. cbn. lra.
Qed.
(** What holds: without photons, the result of the client less twice the offset;
    so the documented result when the offset is zero. *)
Theorem cavity_offset_partial f cl wrap n pos : apply_photon f = false ->
  exists r, queue f cl wrap n pos = Ok r /\ rp_u r = rp_u (cl n (wrap pos)) - 2 * offset f /\
    (forall k, (k < n)%nat -> rp_f r k = rp_f (cl n (wrap pos)) k) /\ rp_vir r = rp_vir (cl n (wrap pos)) /\
    rp_ex r = rp_ex (cl n (wrap pos)).
Proof.
  intros A. unfold queue. rewrite A. eexists. split; [reflexivity|]. cbn [rp_u rp_f rp_vir rp_ex socket_reply]. split; [ring|]. split; [|easy].
  intros k K. now rewrite (proj2 (Nat.ltb_lt k n) K).
Qed.

(** ** C162: a client that sends no dipole *)
Definition dipole_ok (na : nat) (ex : extras) : Prop :=
  exists d der, dipole ex = Some d /\ dipole_derivative ex = Some der /\ length d = 3%nat /\ length der = (9 * na)%nat.
(** The message of line 2407 is meant for replies without the dipole; a reply
    without it raises KeyError instead. *)
Theorem cavity_missing_dipole_refuted : exists f cl wrap n pos na,
  n = (3 * (na + n_photon (ph_rep (photons f))))%nat /\ apply_photon f = true /\ evaluate_photon f = true /\ dipole_surface f = true /\
  ~ dipole_ok na (rp_ex (cl (3 * na)%nat (wrap pos))) /\ queue f cl wrap n pos = KeyErr.
Proof.
  exists (mkCav (mkPhoton 0 1 Loose) true true true [] 0), (fun _ _ => mkReply 5 (fun _ => 0) (fun _ _ => 0) (mkExtras None None)),
    (fun x => x), 9%nat, (fun _ => 0), 1%nat.
  repeat split. intros (d & der & H & _). discriminate H.
Qed.
(** What holds: a result is only given for a complete reply; a reply with both
    entries of a wrong size stops the run. *)
Theorem cavity_missing_dipole_partial f cl wrap n pos na :
  n = (3 * (na + n_photon (ph_rep (photons f))))%nat -> apply_photon f = true -> evaluate_photon f = true -> dipole_surface f = true ->
  let ex := rp_ex (cl (3 * na)%nat (wrap pos)) in
  ((exists r, queue f cl wrap n pos = Ok r) <-> dipole_ok na ex) /\
  (~ dipole_ok na ex -> dipole ex <> None -> dipole_derivative ex <> None -> queue f cl wrap n pos = Stop).
Proof.
  intros N A V D ex. assert (E : dim_atoms (ph_rep (photons f)) n = (3 * na)%nat) by (unfold dim_atoms, n_photon_3; lia).
  unfold queue. rewrite A, V, E. cbv zeta. cbn [socket_reply rp_ex]. fold ex. unfold dipole_of. rewrite D.
  unfold dipole_ok. destruct (dipole ex) as [d|].
  2:{ split; [|intros _ H; now destruct H]. split; [intros (r & H); discriminate H|intros (d & der & H & _); discriminate H]. }
  destruct (Nat.eqb_spec (length d) 3) as [L|L].
  2:{ split; [|easy]. split; [intros (r & H); discriminate H|]. intros (d' & der & H & _ & H2 & _). injection H as <-. easy. }
  destruct (dipole_derivative ex) as [der|].
  2:{ split; [|intros _ _ H; now destruct H]. split; [intros (r & H); discriminate H|intros (d' & der & _ & H & _); discriminate H]. }
  destruct (Nat.eqb_spec (length der) ((n - n_photon (ph_rep (photons f)) * 3) * 3)) as [L2|L2].
  - split.
    + split; [intros _|intros _; eexists; reflexivity]. exists d, der. repeat split; [exact L|lia].
    + intros H. exfalso. apply H. exists d, der. repeat split; [exact L|lia].
  - split; [|easy]. split; [intros (r & H); discriminate H|]. intros (d' & der' & _ & H & _ & H2). injection H as <-. lia.
Qed.

(** ** C163: several forcefields, one of which evaluates the photons *)
Definition results (ffs : list (cavff * client)) wrap n pos (rs : list reply) : Prop :=
  Forall2 (fun fc r => queue (fst fc) (snd fc) wrap n pos = Ok r) ffs rs.
Definition bystander (p : photon) (fc : cavff * client) : Prop :=
  photons (fst fc) = p /\ apply_photon (fst fc) = true /\ evaluate_photon (fst fc) = false /\ offset (fst fc) = 0.
Lemma Ok_inj a b : Ok a = Ok b -> a = b.
Proof. congruence. Qed.
Lemma bystander_sum p ffs wrap n pos rs :
  Forall (bystander p) ffs -> results ffs wrap n pos rs ->
  Rsuml (map rp_u rs) = Rsuml (map (fun fc => nuc_pot (fst fc) (snd fc) wrap n pos) ffs) /\
  (forall k, Rsuml (map (fun r => rp_f r k) rs)
     = if (k <? dim_atoms (ph_rep p) n)%nat then Rsuml (map (fun fc => rp_f (snd fc (dim_atoms (ph_rep p) n) (wrap pos)) k) ffs) else 0).
Proof.
  intros B H. induction H as [|[f cl] r ffs rs Q H IH]; [split; [easy|]; intros k; cbn [map Rsuml]; now destruct (Nat.ltb _ _)|].
  inversion B as [|? ? [Ph [A [V O]]] B2]; subst. cbn [fst snd] in *. destruct (IH B2) as [IU IF].
  unfold queue in Q. rewrite A, V in Q. injection Q as <-. cbn [map Rsuml rp_u rp_f socket_reply fst snd]. split.
  - rewrite IU, O. unfold nuc_pot. ring.
  - intros k. rewrite IF. destruct (k <? dim_atoms (ph_rep (photons f)) n)%nat; ring.
Qed.
Theorem cavity_counted_once f cl l1 l2 wrap n pos rs :
  apply_photon f = true -> evaluate_photon f = true -> dipole_surface f = false -> offset f = 0 ->
  omega_c (photons f) <> 0 -> n = (3 * (length (charges f) + n_photon (ph_rep (photons f))))%nat ->
  Forall (bystander (photons f)) l1 -> Forall (bystander (photons f)) l2 ->
  results (l1 ++ (f, cl) :: l2) wrap n pos rs ->
  let mu := mu_charges (charges f) pos in
  let ph := pos_ph (ph_rep (photons f)) n pos in
  Rsuml (map rp_u rs)
  = Rsuml (map (fun fc => nuc_pot (fst fc) (snd fc) wrap n pos) (l1 ++ (f, cl) :: l2)) + pauli_fierz (photons f) ph (mu 0%nat) (mu 1%nat) /\
  (forall k, (k < n_photon_3 (ph_rep (photons f)))%nat ->
     Rsuml (map (fun r => rp_f r (3 * length (charges f) + k)%nat) rs) = get_ph_forces (photons f) ph (mu 0%nat) (mu 1%nat) k).
Proof.
  intros A V D O W N B1 B2 H mu ph. unfold results in H. apply Forall2_app_inv_l in H. destruct H as (r1 & r2 & H1 & H2 & ->).
  inversion H2 as [|? r ? r3 Q H3]; subst. cbn [fst snd] in Q.
  destruct (bystander_sum _ _ _ _ _ _ B1 H1) as [U1 F1]. destruct (bystander_sum _ _ _ _ _ _ B2 H3) as [U2 F2].
  set (nn := (3 * (length (charges f) + n_photon (ph_rep (photons f))))%nat) in *.
  assert (E : dim_atoms (ph_rep (photons f)) nn = (3 * length (charges f))%nat) by (unfold dim_atoms, n_photon_3, nn; lia).
  unfold queue in Q. rewrite A, V, E in Q. cbv zeta in Q. cbn [socket_reply rp_ex] in Q. unfold dipole_of in Q. rewrite D in Q.
  destruct (Nat.eqb _ _); [|discriminate Q]. destruct (Nat.eqb _ _); [|discriminate Q].
  apply Ok_inj in Q. subst r.
  rewrite !map_app. cbn [map]. split.
  - rewrite !Rsuml_app. cbn [Rsuml rp_u socket_reply fst snd]. rewrite U1, U2, O, pf_energy, !dip_mu by exact W.
    assert (X : nuc_pot f cl wrap nn pos = rp_u (cl (3 * length (charges f))%nat (wrap pos))) by (unfold nuc_pot; now rewrite E).
    rewrite X. unfold mu, ph. ring.
  - intros k K. rewrite map_app, Rsuml_app. cbn [map Rsuml rp_f]. rewrite F1, F2, E.
    rewrite (proj2 (Nat.ltb_ge (3 * length (charges f) + k) (3 * length (charges f)))) by lia.
    rewrite !dip_mu. replace (3 * length (charges f) + k - 3 * length (charges f))%nat with k by lia. unfold mu, ph. cbv beta iota. ring.
Qed.

(** ** C164: one forcefield shared by the threads of several systems *)
Section Thread.
Context {P : Type}.
(** An answer is right if the photons used are those of the position. *)
Definition right (o : list (P * P)) : Prop := Forall (fun a => snd a = fst a) o.

Definition inv1 (todo0 : list P) (s : @shared P) : Prop :=
  (forall j, j <> 0%nat -> s_thr s j = mkT AtSplit [] [] /\ s_queued s j = false) /\
  let t := s_thr s 0 in
  right (t_out t) /\ map fst (t_out t) ++ t_todo t = todo0 /\
  match t_pc t with
  | AtSplit => s_queued s 0 = false
  | AtFor => (exists x l, t_todo t = x :: l /\ s_ph s = Some x)
  | AtWait => (exists x l, t_todo t = x :: l /\ s_ph s = Some x) /\ s_req s = Some 0%nat
  | AtRelease => (exists x l, t_todo t = x :: l /\ s_ph s = Some x) /\ s_req s = Some 0%nat /\ s_done s 0 = true
  | AtRead | AtCompute => (exists x l, t_todo t = x :: l /\ s_ph s = Some x) /\ s_done s 0 = true /\ s_queued s 0 = false
  | Dead => False
  end.
Lemma inv1_step t0 s e : inv1 t0 s -> inv1 t0 (estep s e).
Proof.
  intros [O I]. destruct e as [i|i]; cbn [estep].
  - destruct i as [|i].
    2:{ unfold tstep. destruct (O (S i) ltac:(lia)) as [-> _]. cbn. now split. }
    unfold tstep. destruct I as (R & M & C). destruct (s_thr s 0) as [c td o] eqn:T. cbn [t_pc t_todo t_out] in *.
    assert (O2 : forall t j, j <> 0%nat -> set_t s 0 t j = mkT AtSplit [] [] /\ s_queued s j = false).
    { intros t j J. unfold set_t. rewrite (proj2 (Nat.eqb_neq j 0) J). now apply O. }
    destruct c.
    + destruct td as [|x td]; [split; [exact O|]; rewrite T; exact (conj R (conj M C))|].
      split; cbn [s_thr s_queued]; [|cbn; repeat split; eauto].
      intros j J. split; [now apply O2|]. unfold setb. rewrite (proj2 (Nat.eqb_neq j 0) J). now apply O.
    + destruct td as [|x td]; [destruct C as (y & l & C & _); discriminate C|].
      split; cbn [s_thr s_queued]; [intros j J; now apply O2|]. cbn. repeat split; assumption.
    + destruct C as [C Rq]. rewrite Rq. destruct (s_done s 0) eqn:Dn; [|split; [exact O|]; rewrite T; exact (conj R (conj M (conj C Rq)))].
      split; cbn [s_thr s_queued]; [intros j J; now apply O2|]. cbn. destruct td; repeat split; assumption.
    + destruct C as (C & -> & Dn). split; cbn [s_thr s_queued].
      * intros j J. split; [now apply O2|]. unfold setb. rewrite (proj2 (Nat.eqb_neq j 0) J). now apply O.
      * cbn. repeat split; assumption.
    + destruct C as (C & Dn & Qf). rewrite Dn. split; cbn [s_thr s_queued]; [intros j J; now apply O2|]. cbn. repeat split; assumption.
    + destruct C as ((x & l & -> & Hp) & Dn & Qf). rewrite Hp. split; cbn [s_thr s_queued]; [intros j J; now apply O2|]. cbn.
      repeat split; [|rewrite map_app, <- app_assoc; exact M|exact Qf].
      apply Forall_app. split; [exact R|]. now constructor.
    + destruct C.
  - unfold finish. destruct (s_queued s i) eqn:Q; [|now split].
    destruct (Nat.eq_dec i 0) as [->|J]; [|destruct (O i J) as [_ Q2]; congruence].
    split; cbn [s_thr s_queued]; [exact O|]. destruct I as (R & M & C). split; [exact R|]. split; [exact M|].
    destruct (t_pc (s_thr s 0)); cbn [s_done s_ph s_req s_queued]; unfold setb; cbn; intuition congruence.
Qed.
(** With one thread, whatever the interleaving with the polling thread: no
    exception, each answer uses its own photons, in order, and at most one
    request is in the queue at a time: the beads are not sent in parallel. *)
Theorem cavity_one_thread_partial (todo : list P) (l : list ev) :
  let s := run l (start (fun i => match i with 0%nat => todo | _ => [] end)) in
  t_pc (s_thr s 0) <> Dead /\ right (t_out (s_thr s 0)) /\ map fst (t_out (s_thr s 0)) ++ t_todo (s_thr s 0) = todo /\
  (forall j, s_queued s j = true -> j = 0%nat).
Proof.
  intros s. assert (I : inv1 todo s).
  { unfold s, run. rewrite <- fold_left_rev_right. induction (rev l) as [|e r IH]; cbn [fold_right].
    - split; cbn; [intros j J; destruct j; [easy|now split]|]. repeat split. constructor.
    - now apply inv1_step. }
  destruct I as (O & R & M & C). split; [intros D; now rewrite D in C|]. split; [exact R|]. split; [exact M|].
  intros j Q. destruct (Nat.eq_dec j 0); [easy|]. destruct (O j) as [_ Q2]; [easy|congruence].
Qed.
Lemma run_app l l' (s : @shared P) : run (l ++ l') s = run l' (run l s).
Proof. apply fold_left_app. Qed.
Definition one : list ev := [T 0; T 0; F 0; T 0; T 0; T 0; T 0].
Lemma run_one (s : @shared P) x td o : s_thr s 0 = mkT AtSplit (x :: td) o ->
  s_thr (run one s) 0 = mkT AtSplit td (o ++ [(x, x)]).
Proof.
  intros H. unfold one, run. cbn [fold_left estep].
  assert (A1 : tstep s 0 = mkS (Some x) (s_req s) (setb (s_done s) 0 false) (setb (s_queued s) 0 true) (set_t s 0 (mkT AtFor (x :: td) o)))
    by (unfold tstep; now rewrite H).
  rewrite A1. clear. unfold set_t, setb. generalize (s_req s) (s_done s) (s_queued s) (s_thr s). intros. vm_compute. reflexivity.
Qed.
(** The calls end. *)
Theorem cavity_one_thread_ends (todo : list P) : exists l,
  t_out (s_thr (run l (start (fun i => match i with 0%nat => todo | _ => [] end))) 0) = map (fun x => (x, x)) todo.
Proof.
  assert (G : forall todo o (s : @shared P), s_thr s 0 = mkT AtSplit todo o ->
     exists l, t_out (s_thr (run l s) 0) = o ++ map (fun x : P => (x, x)) todo).
  { clear todo. induction todo as [|x td IH]; intros o s H.
    - exists []. cbn. rewrite H. cbn. now rewrite app_nil_r.
    - destruct (IH (o ++ [(x, x)]) (run one s)) as [l L].
      + now apply run_one.
      + exists (one ++ l). rewrite run_app, L, <- app_assoc. reflexivity. }
  destruct (G todo [] (start (fun i => match i with 0%nat => todo | _ => [] end)) eq_refl) as [l L]. now exists l.
Qed.
End Thread.
(** Two systems: the photons of the other system are used; the call dies on
    [None["status"]]; the call reads a result that is not there. *)
Definition two (i : nat) : list nat := match i with 0%nat => [10%nat] | 1%nat => [20%nat] | _ => [] end.
Theorem cavity_two_threads_refuted :
  (exists l, t_out (s_thr (run l (start two)) 0) = [(10, 20)%nat]) /\
  (exists l, t_pc (s_thr (run l (start two)) 0) = Dead /\ s_done (run l (start two)) 0 = true) /\
  (exists l, t_pc (s_thr (run l (start two)) 0) = Dead /\ s_done (run l (start two)) 0 = false /\ s_queued (run l (start two)) 1 = false).
Proof.
  split; [|split].
  - now exists [T 0; T 0; T 1; F 0; T 0; T 0; T 0; T 0].
  - now exists [T 0; T 0; T 1; T 1; F 0; F 1; T 1; T 1; T 0].
  - now exists [T 0; T 0; T 1; T 1; F 1; T 0; T 0; T 0].
Qed.

(** ** C165: the extras of the baths *)
Section Ex.
Context {K V A : Type} (keqb : K -> K -> bool) (raw : K) (vstr : V -> V) (vempty : V) (asarr : V -> option A) (same : A -> A -> bool).
Lemma asarrs_nth l r : asarrs asarr l = Some r -> length r = length l /\
  forall i v, nth_error l i = Some v -> exists w a, v = Some w /\ asarr w = Some a /\ nth_error r i = Some a.
Proof.
  revert r. induction l as [|[v|] l IH]; intros r H; cbn in H; try discriminate H.
  - injection H as <-. split; [easy|]. intros [|i] v H; discriminate H.
  - destruct (asarr v) as [a|] eqn:E; [|discriminate H]. destruct (asarrs asarr l) as [r'|] eqn:E2; [|discriminate H].
    injection H as <-. destruct (IH _ eq_refl) as [L N]. split; [cbn; lia|].
    intros [|i] w Hw; cbn in *; [injection Hw as <-; eauto|]. now apply N.
Qed.
(** The entry of bath [i] is at place [i], as it is or as an array. *)
Theorem extras_in_order (es : list (@dict K V)) k : (2 <= length es)%nat -> keqb k raw = false -> existsb (fun e => has keqb e k) es = true ->
  exists c, combine_bath_extras keqb raw vstr vempty asarr same es k = Some c /\
  forall i e, nth_error es i = Some e ->
    match c with
    | COne _ => False
    | CList l => nth_error l i = Some (get keqb e k)
    | CArr l => exists v a, get keqb e k = Some v /\ asarr v = Some a /\ nth_error l i = Some a
    end.
Proof.
  intros L R H. destruct es as [|e1 [|e2 es]]; cbn [length] in L; try lia. set (all := e1 :: e2 :: es) in *.
  exists (combine_key keqb raw vstr vempty asarr same all k). split; [unfold combine_bath_extras, all; fold all; now rewrite H|].
  intros i e I. unfold combine_key. rewrite R.
  assert (G : nth_error (map (fun e => get keqb e k) all) i = Some (get keqb e k)) by exact (map_nth_error (fun e => get keqb e k) i all I).
  clear H. destruct (existsb _ _); [exact G|]. destruct (asarrs asarr _) as [[|a0 r]|] eqn:E; [exact G| |exact G].
  destruct (forallb _ _); [|exact G]. destruct (asarrs_nth _ _ E) as [_ N]. destruct (N i _ G) as (w & a & X & Y & Z). eauto.
Qed.
(** The texts of the baths, in order, empty where there is none. *)
Theorem extras_raw (es : list (@dict K V)) : keqb raw raw = true -> (2 <= length es)%nat ->
  combine_bath_extras keqb raw vstr vempty asarr same es raw
  = Some (CList (map (fun e => Some (match get keqb e raw with Some v => vstr v | None => vempty end)) es)).
Proof.
  intros R L. destruct es as [|e1 [|e2 es]]; cbn [length] in L; try lia. set (all := e1 :: e2 :: es) in *.
  unfold combine_bath_extras, all; fold all. destruct (existsb (fun e => has keqb e raw) all) eqn:H; rewrite ?R.
  - unfold combine_key. rewrite R, map_map. reflexivity.
  - do 2 f_equal. apply map_ext_in. intros e I.
    assert (F : has keqb e raw = false).
    { destruct (has keqb e raw) eqn:F; [|easy]. rewrite <- H. symmetry. apply existsb_exists. now exists e. }
    unfold has in F. now destruct (get keqb e raw).
Qed.
(** Nothing is made up, and there is always a "raw". *)
Theorem extras_keys (es : list (@dict K V)) k : combine_bath_extras keqb raw vstr vempty asarr same es k <> None <->
  (keqb k raw = true \/ existsb (fun e => has keqb e k) es = true).
Proof.
  unfold combine_bath_extras. destruct es as [|e1 [|e2 es]].
  - cbn. destruct (keqb k raw); intuition easy.
  - cbn. unfold has. destruct (get keqb e1 k), (keqb k raw); cbn; intuition easy.
  - destruct (existsb _ _), (keqb k raw); intuition easy.
Qed.
(** One bath: its extras as they are. *)
Theorem extras_single (e : @dict K V) k : keqb k raw = false ->
  combine_bath_extras keqb raw vstr vempty asarr same [e] k = option_map COne (get keqb e k).
Proof. intros R. cbn. rewrite R. now destruct (get keqb e k). Qed.
End Ex.

(** ** Concrete cases *)
(** Two opposite charges and the two photon atoms of the loose form, on a
    harmonic client. *)
Definition ex_cl : client := fun n q => mkReply (Rsum n (fun k => / 2 * q k ^ 2)) (fun k => - q k) (fun _ _ => 0)
  (mkExtras (Some [q 0%nat; q 1%nat; q 2%nat]) (Some [1; 0; 0; 0; 1; 0; 0; 0; 1])).
Definition ex_ff (r : rep) (s : bool) : cavff := mkCav (mkPhoton 1 2 r) true true s [1; -1] 0.
Lemma ex_client_grad f n pos : let na3 := dim_atoms (ph_rep (photons f)) n in
  (forall j, (j < na3)%nat -> derivable_pt_lim (fun t => nuc_pot f ex_cl (fun x => x) n (upd pos j t)) (pos j) (- rp_f (ex_cl na3 pos) j)) /\
  (forall pos', (forall k, (k < na3)%nat -> pos' k = pos k) -> nuc_pot f ex_cl (fun x => x) n pos' = nuc_pot f ex_cl (fun x => x) n pos).
Proof.
  intros na3. unfold nuc_pot. fold na3. cbn [ex_cl rp_u rp_f]. split.
  - intros j J. eapply derivable_eq; [|apply (derivable_Rsum na3 (fun k t => / 2 * upd pos j t k ^ 2) (fun k => pos k * (if Nat.eqb k j then 1 else 0)))].
    + rewrite (Rsum_delta _ j); [rewrite Nat.eqb_refl; ring|exact J|].
      intros i _ I. rewrite (proj2 (Nat.eqb_neq i j) I). ring.
    + intros k. intros. apply (derivable_ext (fun t => / 2 * 1 * upd pos j t k ^ 2)); [intros; ring|].
      eapply derivable_eq; [|apply (d_half_sq 1 (fun t => upd pos j t k)), upd_d]. rewrite upd_same. ring.
  - intros pos' H. apply Rsum_ext. intros k K. now rewrite H.
Qed.
Example cavity_charges_case pos : exists r, queue (ex_ff Loose false) ex_cl (fun x => x) 12 pos = Ok r /\
  rp_u r = whole_pot (ex_ff Loose false) ex_cl (fun x => x) 12 (mu_charges [1; -1]) pos - 2 * 0 /\
  (forall j, (j < 12)%nat -> derivable_pt_lim (fun t => whole_pot (ex_ff Loose false) ex_cl (fun x => x) 12 (mu_charges [1; -1]) (upd pos j t)) (pos j) (- rp_f r j)).
Proof.
  destruct (ex_client_grad (ex_ff Loose false) 12 pos) as [G L].
  destruct (cavity_charges (ex_ff Loose false) ex_cl (fun x => x) 12 pos eq_refl eq_refl eq_refl ltac:(cbn; lra) eq_refl G L) as (r & A & B & _ & C).
  exists r. now split; [|split].
Qed.
Example cavity_dipole_case pos : exists r, queue (ex_ff Dense true) ex_cl (fun x => x) 6 pos = Ok r /\
  rp_u r = whole_pot (ex_ff Dense true) ex_cl (fun x => x) 6 (fun q a => q a) pos - 2 * 0.
Proof.
  destruct (ex_client_grad (ex_ff Dense true) 6 pos) as [G L].
  destruct (cavity_dipole_surface (ex_ff Dense true) ex_cl (fun x => x) 6 1 pos (fun q a => q a) [1; 0; 0; 0; 1; 0; 0; 0; 1]
              eq_refl eq_refl eq_refl ltac:(cbn; lra) eq_refl eq_refl eq_refl) as (r & A & B & _); [| |exact G|exact L|now exists r].
  - intros i a b I Ha Hb. assert (i = 0)%nat as -> by lia.
    destruct a as [|[|[|]]]; try lia; destruct b as [|[|[|]]]; try lia; cbn; first [apply derivable_pt_lim_id|apply derivable_pt_lim_const].
  - intros pos' a Ha H. apply H. cbn. lia.
Qed.
Example cavity_missing_case : queue (ex_ff Loose true) ex_cl (fun x => x) 12 (fun _ => 0) = Stop.
Proof. reflexivity. Qed.
Example cavity_once_case : exists rs,
  results [(mkCav (mkPhoton 1 2 Dense) true false false [] 0, ex_cl); (ex_ff Dense false, ex_cl)] (fun x => x) 9 (fun _ => 1) rs.
Proof. eexists. repeat constructor; reflexivity. Qed.
Example cavity_net_case : Rsum 2 (fun i => nth i [1; -1] 0) = 0.
Proof. cbn. lra. Qed.
Example cavity_thread_case :
  t_out (s_thr (run [T 0; F 0; T 0; T 0; T 0; T 0; T 0; T 0] (start (fun i => match i with 0%nat => [7; 8]%nat | _ => [] end))) 0) = [(7, 7)%nat].
Proof. reflexivity. Qed.
Example extras_case :
  combine_bath_extras Nat.eqb 0%nat (fun v => v) 0%nat (fun v => Some v) (fun _ _ => true) [[(1, 5)]; [(1, 6)]]%nat 1%nat = Some (CArr [5; 6]%nat) /\
  combine_bath_extras Nat.eqb 0%nat (fun v => v) 0%nat (fun v => @Some nat v) (fun _ _ => true) [[(1, 5)]; [(2, 6)]]%nat 1%nat = Some (CList [Some 5; None]%nat).
Proof. now split. Qed.

Print Assumptions cavity_charges.
Print Assumptions cavity_dipole_surface.
Print Assumptions cavity_energy_bound.
Print Assumptions cavity_uncoupled.
Print Assumptions cavity_net_force.
Print Assumptions cavity_offset_refuted.
Print Assumptions cavity_offset_partial.
Print Assumptions cavity_missing_dipole_refuted.
Print Assumptions cavity_missing_dipole_partial.
Print Assumptions cavity_counted_once.
Print Assumptions cavity_one_thread_partial.
Print Assumptions cavity_one_thread_ends.
Print Assumptions cavity_two_threads_refuted.
Print Assumptions extras_in_order.
Print Assumptions extras_raw.
Print Assumptions extras_keys.
Print Assumptions extras_single.
