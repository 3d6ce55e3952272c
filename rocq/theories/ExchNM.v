(** * Spring energy and forces of the normal modes when some atoms are bosons
    (ipi/engine/normalmodes.py:407-435 and 731-796, ipi/utils/exchange.py:30-70) *)
Require Import Reals List Arith Lia Lra.
From Verif Require Import RSum NMModel Ortho NMProofs NMProps SpringModel SpringProofs SpringProps.
From Verif Require ExchModel ExchProofs ExchProps.
Import ListNotations.
Local Open Scope R_scope.

(** ** Model *)
(** 407-435 resolve_bosons for a list of indices: [None] is the ValueError.  The
    indices are naturals, so only the upper bound can be violated. *)
Definition resolve_bosons (natoms : nat) (l : list nat) : option (list nat) :=
  if existsb (fun j => Nat.leb natoms j) l then None else Some l.
(** resolve_bosons for labels: every label has to be the name of some atom. *)
Definition resolve_labels (natoms : nat) (name : nat -> nat) (l : list nat) : option (list nat) :=
  if forallb (fun a => existsb (fun i => Nat.eqb (name i) a) (seq 0 natoms)) l
  then resolve_bosons natoms (filter (fun i => existsb (Nat.eqb (name i)) l) (seq 0 natoms)) else None.

(** exchange.py:62-70 qbosons: the slice of the positions *)
Definition qbosons (bosons : list nat) (q : mat) : ExchModel.config := fun b l k => q b (3 * nth l bosons 0%nat + k)%nat.
(** exchange.py:30-58: number of bosons and beads, mass, frequency and temperature *)
Definition expot_of (r : ring) (bosons : list nat) (beta : R) : ExchModel.expot :=
  ExchModel.mkexpot (length bosons) (nbeads r) (mass r (hd 0%nat bosons)) (wn r ^ 2) beta.

(** 731-796 get_vspring_and_fspring: the energy *)
Definition boson_corr (r : ring) (qnm : mat) (j : nat) : R :=
  Rsum (nbeads r) (fun k => mass r j * omegak (wn r) (nbeads r) k ^ 2
    * (qnm k (3 * j)%nat ^ 2 + qnm k (3 * j + 1)%nat ^ 2 + qnm k (3 * j + 2)%nat ^ 2)).
Definition open_corr (r : ring) (qnm : mat) (j : nat) : R :=
  Rsum (nbeads r) (fun k => mass r j * (o_omegak (wn r) (nbeads r) k ^ 2 - omegak (wn r) (nbeads r) k ^ 2)
    * (qnm k (3 * j)%nat ^ 2 + qnm k (3 * j + 1)%nat ^ 2 + qnm k (3 * j + 2)%nat ^ 2)).
Definition harmonic_part (r : ring) (bosons : list nat) (qnm : mat) : R :=
  if (length bosons <? natoms r)%nat then
    let v0 := 0 + Rsum (nbeads r) (fun k => omegak (wn r) (nbeads r) k ^ 2 * Rsum (3 * natoms r) (fun c => (qnm k c * sqrt (m3 r c)) ^ 2)) in
    let v1 := fold_left (fun v j => v + open_corr r qnm j) (openp r) v0 in
    let v2 := if (0 <? length bosons)%nat then fold_left (fun v j => v - boson_corr r qnm j) bosons v1 else v1 in
    v2 * (1 / 2)
  else 0.
Definition total_vspring (r : ring) (bosons : list nat) (beta : R) (q : mat) : R :=
  if (nbeads r =? 1)%nat then 0 else
  harmonic_part r bosons (nm_trans_b2nm (nbeads r) (openp r) q)
  + (if (0 <? length bosons)%nat then ExchModel.get_vspring (expot_of r bosons beta) (qbosons bosons q) else 0).
(** ... and the forces: numpy's indexed assignment writes the rows of the
    bosons one after the other. *)
Fixpoint overwrite (F : mat) (G : ExchModel.config) (l : nat) (bosons : list nat) : mat :=
  match bosons with
  | [] => F
  | j :: bs => overwrite (fun b c => if (c / 3 =? j)%nat then G b l (c mod 3)%nat else F b c) G (S l) bs
  end.
Definition total_fspring (r : ring) (bosons : list nat) (beta : R) (q : mat) : mat :=
  if (nbeads r =? 1)%nat then fun _ _ => 0 else
  let F := if (length bosons <? natoms r)%nat then fspring r q else fun _ _ => 0 in
  if (0 <? length bosons)%nat
  then overwrite F (ExchModel.get_fspring (expot_of r bosons beta) (qbosons bosons q)) 0 bosons else F.

(** ** Specification *)
Definition is_boson (bosons : list nat) (c : nat) : bool := existsb (Nat.eqb (c / 3)) bosons.
(** Springs between the neighbouring beads of the atoms that are not bosons. *)
Definition distinguishable_springs (r : ring) (bosons : list nat) (q : mat) : R :=
  Rsum (3 * natoms r) (fun c => if is_boson bosons c then 0 else Rsum (nbeads r) (fun b => / 2 * m3 r c * wn r ^ 2 *
    (match b with
     | 0%nat => if is_open (openp r) c then 0 else q 0%nat c - q (nbeads r - 1)%nat c
     | S b' => q b c - q b' c
     end) ^ 2)).
(** Bosons that the assembly can deal with. *)
Record sound_bosons (r : ring) (bosons : list nat) : Prop := {
  sb_nodup : NoDup bosons; sb_in : forall j, In j bosons -> (j < natoms r)%nat;
  sb_closed : forall j, In j bosons -> ~ In j (openp r) }.

(** ** Proofs *)
Lemma fold_plus {A} (h : A -> R) l v : fold_left (fun v j => v + h j) l v = v + Rsuml (map h l).
Proof. revert v. induction l as [|a l IH]; intros v; cbn [fold_left map Rsuml]; [ring|]. rewrite IH. ring. Qed.
Lemma fold_minus {A} (h : A -> R) l v : fold_left (fun v j => v - h j) l v = v - Rsuml (map h l).
Proof. revert v. induction l as [|a l IH]; intros v; cbn [fold_left map Rsuml]; [ring|]. rewrite IH. ring. Qed.
Lemma harmonic_form r bosons qnm : nbeads r <> 1%nat -> (length bosons < natoms r)%nat ->
  harmonic_part r bosons qnm = vspring r qnm - Rsuml (map (boson_corr r qnm) bosons) * (1 / 2).
Proof.
  intros Hn Hl. unfold harmonic_part, vspring. rewrite (proj2 (Nat.ltb_lt _ _) Hl), (proj2 (Nat.eqb_neq _ _) Hn). cbv zeta.
  rewrite fold_plus. fold (open_corr r qnm). change (fun k => ?a) with (fun k => a).
  destruct bosons as [|j bs].
  - cbn [length Nat.ltb Nat.leb map Rsuml]. change (fun j => Rsum (nbeads r) _) with (open_corr r qnm). ring.
  - replace (0 <? length (j :: bs))%nat with true by reflexivity. rewrite fold_minus.
    change (fun j => Rsum (nbeads r) _) with (open_corr r qnm). ring.
Qed.
(** Setting the coordinates of the bosons to zero removes their springs. *)
Definition mask (bosons : list nat) (q : mat) : mat := fun b c => if is_boson bosons c then 0 else q b c.
Lemma springs_mask r bosons q : bead_springs r (mask bosons q) = distinguishable_springs r bosons q.
Proof.
  unfold bead_springs, distinguishable_springs, mask. apply Rsum_ext. intros c _. destruct (is_boson bosons c); [|easy].
  apply Rsum_0. intros b _. destruct b; [destruct (is_open _ _)|]; ring.
Qed.
Lemma b2nm_mask r bosons q k c : nm_trans_b2nm (nbeads r) (openp r) (mask bosons q) k c =
  if is_boson bosons c then 0 else nm_trans_b2nm (nbeads r) (openp r) q k c.
Proof.
  rewrite !b2nm_cmat. unfold mask, app. destruct (is_boson bosons c); [|easy]. apply Rsum_0. intros; ring.
Qed.
Lemma boson_corr_columns r bosons qnm : NoDup bosons -> (forall j, In j bosons -> (j < natoms r)%nat) ->
  Rsuml (map (boson_corr r qnm) bosons) = Rsum (3 * natoms r) (fun c => if is_boson bosons c
    then Rsum (nbeads r) (fun k => m3 r c * omegak (wn r) (nbeads r) k ^ 2 * qnm k c ^ 2) else 0).
Proof.
  intros Hd Hb. rewrite (sum_members (natoms r)) by easy. rewrite Rsum_three. apply Rsum_ext. intros j Hj.
  unfold is_boson, m3, boson_corr. rewrite !third, third0 by lia. destruct (existsb (Nat.eqb j) bosons); [|ring].
  rewrite <- !Rsum_plus. apply Rsum_ext. intros. ring.
Qed.
(** All bosons, each once: every coordinate belongs to a boson. *)
Lemma full_bosons n bosons : NoDup bosons -> (forall j, In j bosons -> (j < n)%nat) -> (n <= length bosons)%nat ->
  forall j, (j < n)%nat -> In j bosons.
Proof.
  intros Hd Hb Hl j Hj. apply (NoDup_length_incl Hd (l' := seq 0 n)).
  - now rewrite seq_length.
  - intros i Hi. apply in_seq. specialize (Hb i Hi). lia.
  - apply in_seq. lia.
Qed.
Lemma is_boson_in bosons c : is_boson bosons c = true <-> In (c / 3)%nat bosons.
Proof.
  unfold is_boson. rewrite existsb_exists. split; [intros (y & Hy & E); apply Nat.eqb_eq in E; now subst | intros H; eexists; split; [exact H|apply Nat.eqb_refl]].
Qed.
Lemma column_atom r c : (c < 3 * natoms r)%nat -> (c / 3 < natoms r)%nat.
Proof. intros H. apply Nat.div_lt_upper_bound; lia. Qed.

(** The total is the springs of the distinguishable atoms plus the exchange potential. *)
Theorem total_is_springs_plus_exchange r bosons beta q : sound r -> sound_bosons r bosons -> nbeads r <> 1%nat ->
  total_vspring r bosons beta q = distinguishable_springs r bosons q
    + (match bosons with [] => 0 | _ => ExchModel.get_vspring (expot_of r bosons beta) (qbosons bosons q) end).
Proof.
  intros Hs Hb Hn. unfold total_vspring. rewrite (proj2 (Nat.eqb_neq _ _) Hn). f_equal; [|now destruct bosons].
  destruct (Nat.lt_ge_cases (length bosons) (natoms r)) as [Hl|Hl].
  - rewrite harmonic_form by easy. rewrite <- springs_mask, <- spring_energy_is_bead_springs by easy.
    rewrite boson_corr_columns by apply Hb. rewrite !vspring_columns by (try easy; apply Hs).
    rewrite <- Rsum_scal_r, <- Rsum_minus. apply Rsum_ext. intros c Hc.
    destruct (is_boson bosons c) eqn:E.
    + apply is_boson_in in E. assert (Ho : is_open (openp r) c = false).
      { unfold is_open. destruct (existsb _ _) eqn:X; [|easy]. apply existsb_exists in X. destruct X as (y & Hy & Ey). apply Nat.eqb_eq in Ey. subst y.
        now apply (sb_closed _ _ Hb) in E. }
      rewrite Ho. transitivity 0.
      * rewrite <- Rsum_scal_r, <- Rsum_minus. apply Rsum_0. intros k _. unfold omegak, eva. field.
      * symmetry. apply Rsum_0. intros k _. rewrite b2nm_mask. apply is_boson_in in E. rewrite E. ring.
    + rewrite Rmult_0_l, Rminus_0_r. apply Rsum_ext. intros k _. rewrite b2nm_mask, E. easy.
  - unfold harmonic_part. replace (length bosons <? natoms r)%nat with false by (symmetry; now apply Nat.ltb_ge).
    symmetry. apply Rsum_0. intros c Hc. assert (E : is_boson bosons c = true).
    { apply is_boson_in. apply (full_bosons (natoms r)); try easy; [apply Hb | apply Hb | now apply column_atom]. }
    now rewrite E.
Qed.

(** *** Forces *)
Lemma overwrite_other F G l bosons b c : is_boson bosons c = false -> overwrite F G l bosons b c = F b c.
Proof.
  revert F l. induction bosons as [|j bs IH]; intros F l H; [easy|]. cbn [overwrite]. unfold is_boson in H. cbn [existsb] in H.
  apply Bool.orb_false_iff in H. destruct H as [H1 H2]. rewrite IH by exact H2. now rewrite H1.
Qed.
Lemma overwrite_at F G l bosons i b c : NoDup bosons -> (i < length bosons)%nat -> (c / 3 = nth i bosons 0)%nat ->
  overwrite F G l bosons b c = G b (l + i)%nat (c mod 3)%nat.
Proof.
  revert F l i. induction bosons as [|j bs IH]; intros F l i Hd Hi Hc; [cbn in Hi; lia|]. cbn [overwrite]. inversion Hd as [|? ? Hn Hd']; subst.
  destruct i as [|i]; cbn [nth] in Hc.
  - rewrite overwrite_other.
    + rewrite Hc, Nat.eqb_refl, Nat.add_0_r. easy.
    + destruct (is_boson bs c) eqn:E; [|easy]. apply is_boson_in in E. rewrite Hc in E. easy.
  - cbn [length] in Hi. rewrite (IH _ (S l) i) by (try easy; lia). f_equal. lia.
Qed.
Lemma fspring_mask r bosons q b c : is_boson bosons c = false -> fspring r (mask bosons q) b c = fspring r q b c.
Proof.
  intros E. unfold fspring. destruct (nbeads r =? 1)%nat; [easy|].
  change (nm_trans_nm2b ?n ?o ?y b c) with (app n (transpose (cmat (is_open o c) n)) (fun j => y j c) b).
  unfold app. apply Rsum_ext. intros k _. unfold fspring_nm. rewrite b2nm_mask, E. easy.
Qed.
(** A sum over the coordinates of the bosons is a sum over the list. *)
Lemma sum_bosons r bosons (h : nat -> R) : NoDup bosons -> (forall j, In j bosons -> (j < natoms r)%nat) ->
  Rsum (3 * natoms r) (fun c => if is_boson bosons c then h c else 0)
  = Rsum (length bosons) (fun l => Rsum 3 (fun k => h (3 * nth l bosons 0 + k)%nat)).
Proof.
  intros Hd Hb. rewrite Rsum_three.
  transitivity (Rsum (natoms r) (fun j => if existsb (Nat.eqb j) bosons then h (3 * j)%nat + h (3 * j + 1)%nat + h (3 * j + 2)%nat else 0)).
  { apply Rsum_ext. intros j _. unfold is_boson. rewrite !third, third0 by lia. destruct (existsb _ _); ring. }
  rewrite <- (sum_members (natoms r) bosons (fun j => h (3 * j)%nat + h (3 * j + 1)%nat + h (3 * j + 2)%nat)) by easy.
  clear. induction bosons as [|j bs IH]; [easy|]. cbn [map Rsuml length]. rewrite Rsum_first, IH. cbn [nth]. f_equal.
  cbn [Rsum]. rewrite Nat.add_0_r. ring.
Qed.

(** The total force is minus the gradient of the total energy. *)
Theorem total_force_is_gradient r bosons beta q d : sound r -> sound_bosons r bosons -> 0 < beta ->
  derivable_pt_lim (fun t => total_vspring r bosons beta (fun b c => q b c + t * d b c)) 0
    (- Rsum (nbeads r) (fun b => Rsum (3 * natoms r) (fun c => total_fspring r bosons beta q b c * d b c))).
Proof.
  intros Hs Hb Hbeta. destruct (Nat.eq_dec (nbeads r) 1) as [E1|Hn].
  { unfold total_vspring, total_fspring. rewrite E1. cbn [Nat.eqb].
    eapply derivable_eq; [|apply (derivable_pt_lim_const 0)]. rewrite Rsum_0; [ring|]. intros b _. apply Rsum_0. intros; ring. }
  set (x := expot_of r bosons beta). set (G := ExchModel.get_fspring x (qbosons bosons q)).
  set (bos := match bosons with [] => false | _ => true end).
  apply (derivable_ext (fun t => vspring r (nm_trans_b2nm (nbeads r) (openp r) (fun b c => mask bosons q b c + t * mask bosons d b c))
           + (if bos then ExchModel.get_vspring x (qbosons bosons (fun b c => q b c + t * d b c)) else 0))).
  { intros t. rewrite total_is_springs_plus_exchange by easy. f_equal; [|now destruct bosons].
    rewrite <- springs_mask, <- spring_energy_is_bead_springs by easy. f_equal.
    enough (Hx : forall k c, nm_trans_b2nm (nbeads r) (openp r) (fun b c => mask bosons q b c + t * mask bosons d b c) k c
      = nm_trans_b2nm (nbeads r) (openp r) (mask bosons (fun b c => q b c + t * d b c)) k c).
    { apply FunctionalExtensionality.functional_extensionality. intros k. apply FunctionalExtensionality.functional_extensionality. intros c. apply Hx. }
    intros k c. rewrite !b2nm_cmat. unfold app. apply Rsum_ext. intros j _. unfold mask. destruct (is_boson bosons c); ring. }
  (* the derivative *)
  eapply derivable_eq; [|apply derivable_pt_lim_plus; [apply (spring_force_is_gradient r (mask bosons q) (mask bosons d) Hs)|]].
  2:{ instantiate (1 := if bos then - Rsum (nbeads r) (fun b => Rsum (length bosons) (fun l => Rsum 3 (fun k => G b l k * qbosons bosons d b l k))) else 0).
    destruct bos eqn:Eb; [|apply derivable_pt_lim_const].
    assert (Sx : ExchProps.sound x).
    { unfold x, expot_of, ExchProps.sound. cbn [ExchModel.nbosons ExchModel.nbeads ExchModel.betaP ExchModel.boson_m ExchModel.omegan2].
      destruct bosons as [|j bs]; [easy|]. cbn [length]. pose proof (s_n r Hs). pose proof (s_w r Hs). repeat split; try lia; try easy; [apply Hs | nra]. }
    pose proof (ExchProps.force_is_gradient x (fun t => qbosons bosons (fun b c => q b c + t * d b c)) (qbosons bosons d) 0 Sx) as D.
    assert (Hq : forall j l k, derivable_pt_lim (fun s => qbosons bosons (fun b c => q b c + s * d b c) j l k) 0 (qbosons bosons d j l k)).
    { intros j l k. unfold qbosons. eapply derivable_eq; [|apply (derivable_pt_lim_plus (fun _ => q j _) (fun t => t * d j _));
        [apply derivable_pt_lim_const | apply (derivable_pt_lim_mult id (fun _ => d j _)); [apply derivable_pt_lim_id | apply derivable_pt_lim_const]]].
      unfold id. ring. }
    specialize (D Hq). eapply derivable_eq; [|exact D]. f_equal. apply Rsum_ext. intros j _. apply Rsum_ext. intros l _. apply Rsum_ext. intros k _.
    f_equal. unfold G. f_equal. apply FunctionalExtensionality.functional_extensionality. intros a. apply FunctionalExtensionality.functional_extensionality. intros a1. apply FunctionalExtensionality.functional_extensionality. intros a2.
    unfold qbosons. ring. }
  (* the sums *)
  assert (T : forall b, (b < nbeads r)%nat -> Rsum (3 * natoms r) (fun c => total_fspring r bosons beta q b c * d b c)
    = Rsum (3 * natoms r) (fun c => fspring r (mask bosons q) b c * mask bosons d b c)
      + (if bos then Rsum (length bosons) (fun l => Rsum 3 (fun k => G b l k * qbosons bosons d b l k)) else 0)).
  { intros b Hbb. assert (Full : (natoms r <= length bosons)%nat -> forall c, (c < 3 * natoms r)%nat -> is_boson bosons c = true).
    { intros Hl c Hc. apply is_boson_in. apply (full_bosons (natoms r)); try easy; [apply Hb | apply Hb | now apply column_atom]. }
    unfold total_fspring. rewrite (proj2 (Nat.eqb_neq _ _) Hn). cbv zeta. fold x. fold G.
    replace (0 <? length bosons)%nat with bos by (unfold bos; now destruct bosons).
    transitivity (Rsum (3 * natoms r) (fun c => fspring r (mask bosons q) b c * mask bosons d b c
      + (if is_boson bosons c then overwrite (fspring r q) G 0 bosons b c * d b c else 0))).
    - apply Rsum_ext. intros c Hc. unfold mask at 2. destruct (is_boson bosons c) eqn:E.
      + rewrite Rmult_0_r, Rplus_0_l. f_equal. assert (bos = true) as -> by (unfold bos; destruct bosons; easy).
        apply is_boson_in in E. destruct (In_nth _ _ 0%nat E) as (i & Hi & Ei).
        now rewrite !(overwrite_at _ G 0 bosons i) by (try easy; apply Hb).
      + rewrite Rplus_0_r. f_equal. rewrite fspring_mask by easy.
        assert (Hl : (length bosons < natoms r)%nat).
        { destruct (Nat.lt_ge_cases (length bosons) (natoms r)) as [|Hl]; [easy|]. rewrite (Full Hl c Hc) in E. easy. }
        rewrite (proj2 (Nat.ltb_lt _ _) Hl). destruct bos; [|easy]. now rewrite overwrite_other.
    - rewrite Rsum_plus. f_equal. destruct bos eqn:Eb.
      + rewrite (sum_bosons r bosons (fun c => overwrite (fspring r q) G 0 bosons b c * d b c)) by apply Hb.
        apply Rsum_ext. intros l Hl. apply Rsum_ext. intros k Hk. unfold qbosons. f_equal.
        rewrite (overwrite_at _ G 0 bosons l) by (try apply Hb; try easy; now rewrite third). cbn [Nat.add]. f_equal.
        rewrite Nat.add_comm, Nat.mul_comm, Nat.mod_add, Nat.mod_small by easy. easy.
      + apply Rsum_0. intros c _. unfold bos in Eb. now destruct bosons. }
  rewrite (Rsum_ext (nbeads r) _ _ T), Rsum_plus. destruct bos; [ring|]. rewrite (Rsum_0 _ (fun _ => 0)) by easy. ring.
Qed.

(** *** Indices *)
(** Index lists are accepted exactly when every index names an atom. *)
Theorem resolve_in_range n l l' : resolve_bosons n l = Some l' <-> l' = l /\ forall j, In j l -> (j < n)%nat.
Proof.
  unfold resolve_bosons. destruct (existsb _ l) eqn:E.
  - split; [easy|]. intros [_ H]. apply existsb_exists in E. destruct E as (j & Hj & Hle). apply Nat.leb_le in Hle. specialize (H j Hj). lia.
  - split.
    + intros H. injection H as <-. split; [easy|]. intros j Hj. destruct (Nat.lt_ge_cases j n) as [|Hle]; [easy|].
      assert (existsb (fun j => (n <=? j)%nat) l = true) as X; [|now rewrite X in E]. apply existsb_exists. exists j. split; [easy|now apply Nat.leb_le].
    + now intros [-> _].
Qed.
(** Labels: the bosons are exactly the atoms with one of the labels, each once, in order;
    refused exactly when a label belongs to no atom. *)
Theorem resolve_labels_spec n name l :
  match resolve_labels n name l with
  | Some b => (forall i, In i b <-> (i < n)%nat /\ In (name i) l) /\ NoDup b
  | None => exists a, In a l /\ forall i, (i < n)%nat -> name i <> a
  end.
Proof.
  unfold resolve_labels. destruct (forallb _ l) eqn:F.
  - set (b := filter _ _). assert (Hi : forall i, In i b <-> (i < n)%nat /\ In (name i) l).
    { intros i. unfold b. rewrite filter_In, in_seq, existsb_exists. split.
      - intros [H (y & Hy & E)]. apply Nat.eqb_eq in E. subst. split; [lia|easy].
      - intros [H1 H2]. split; [lia|]. exists (name i). split; [easy|apply Nat.eqb_refl]. }
    destruct (resolve_bosons n b) as [b'|] eqn:E.
    + apply resolve_in_range in E. destruct E as [-> _]. split; [easy|]. apply NoDup_filter, seq_NoDup.
    + exfalso. assert (X : resolve_bosons n b = Some b) by (apply resolve_in_range; split; [easy|]; intros j Hj; now apply Hi in Hj). now rewrite X in E.
  - assert (X : exists a, In a l /\ existsb (fun i => Nat.eqb (name i) a) (seq 0 n) = false).
    { clear -F. induction l as [|a l IH]; [easy|]. cbn [forallb] in F. apply Bool.andb_false_iff in F. destruct F as [F|F].
      - exists a. split; [now left|easy].
      - destruct (IH F) as (a' & Ha & E). exists a'. split; [now right|easy]. }
    destruct X as (a & Ha & E). exists a. split; [easy|]. intros i Hi Hc. 
    assert (Y : existsb (fun i => Nat.eqb (name i) a) (seq 0 n) = true); [|now rewrite Y in E].
    apply existsb_exists. exists i. split; [apply in_seq; lia|]. apply Nat.eqb_eq. easy.
Qed.

(** ** What the assembly cannot deal with *)
(** One atom stretched by two along x, two beads. *)
Definition q_stretched : mat := fun b c => if (c =? 0)%nat then (if (b =? 0)%nat then 1 else -1) else 0.
Lemma stretched_modes op : let y := nm_trans_b2nm 2 op q_stretched in
  y 1%nat 0%nat ^ 2 = 2 /\ y 0%nat 0%nat = 0 /\ forall k c, (1 <= c)%nat -> y k c = 0.
Proof.
  intros y. assert (P2 : 0 < sqrt 2) by (apply sqrt_lt_R0; lra).
  assert (Y : forall k c, (1 <= c)%nat -> y k c = 0).
  { intros k c Hc. unfold y, nm_trans_b2nm, app, q_stretched. destruct c; [lia|]. destruct (is_open _ _); apply Rsum_0; intros; cbn [Nat.eqb]; ring. }
  split; [|split; [|exact Y]].
  - pose proof (nm_mid_row 2 0 ltac:(lia) eq_refl) as M0. pose proof (nm_mid_row 2 1 ltac:(lia) eq_refl) as M1. cbn [Nat.div Nat.divmod fst] in M0, M1.
    unfold y, nm_trans_b2nm, app, q_stretched. cbn [Nat.eqb Rsum].
    destruct (is_open op 0); rewrite ?two_bead_matrices by lia; rewrite M0, M1; cbn [INR]; replace (PI * 0) with 0 by ring; rewrite (Rmult_1_r PI), cos_0, cos_PI;
    replace (1 + 1) with 2 by ring; (transitivity (4 / (sqrt 2 * sqrt 2)); [field; lra | rewrite sq2; field]).
  - unfold y, nm_trans_b2nm, app, q_stretched. cbn [Nat.eqb Rsum].
    destruct (is_open op 0); rewrite ?two_bead_matrices by lia; rewrite !nm_row0 by lia; ring.
Qed.
Lemma stretched_corr r y : nbeads r = 2%nat -> mass r 0%nat = 1 -> wn r = 1 ->
  y 1%nat 0%nat ^ 2 = 2 -> y 0%nat 0%nat = 0 -> (forall k c, (1 <= c)%nat -> y k c = 0) -> boson_corr r y 0 = 8.
Proof.
  intros Hn Hm Hw Y1 Y0 Y. destruct eva_2 as (E1 & E2 & E3 & E4). unfold boson_corr, omegak. rewrite Hn, Hm, Hw. cbn [Rsum Nat.mul Nat.add].
  rewrite !(Y _ 1%nat), !(Y _ 2%nat) by lia. rewrite Y0, Y1, ?E1, ?E2, ?E3, ?E4. ring.
Qed.
Lemma stretched_rest r bosons : natoms r <> 0%nat -> In 0%nat bosons -> distinguishable_springs r bosons q_stretched = 0.
Proof.
  intros _ H. apply Rsum_0. intros c _. destruct (is_boson bosons c) eqn:E; [easy|].
  assert (c <> 0)%nat. { intros ->. unfold is_boson in E. rewrite <- Bool.not_true_iff_false, existsb_exists in E. apply E. exists 0%nat. easy. }
  apply Rsum_0. intros b _. unfold q_stretched. destruct c as [|c]; [lia|]. cbn [Nat.eqb]. destruct b; [destruct (is_open _ _)|]; ring.
Qed.
Definition r_open : ring := mkRing 2 2 [0%nat] (fun _ => 1) 1 (fun _ => 1) (fun _ => 1).
Definition r_closed : ring := mkRing 2 3 [] (fun _ => 1) 1 (fun _ => 1) (fun _ => 1).
Lemma r_open_sound : sound r_open.
Proof. split; cbn; intros; try lra; try lia. repeat constructor; easy. Qed.
Lemma r_closed_sound : sound r_closed.
Proof. split; cbn; intros; try lra; try lia. repeat constructor; easy. Qed.

(** An open path that is also a boson: the closed springs are subtracted, but
    the open ones were counted. *)
Theorem open_boson_refuted : exists r bosons beta q, sound r /\ NoDup bosons /\ 0 < beta /\ nbeads r <> 1%nat /\
  resolve_bosons (natoms r) bosons = Some bosons /\
  total_vspring r bosons beta q < distinguishable_springs r bosons q
    + ExchModel.get_vspring (expot_of r bosons beta) (qbosons bosons q).
Proof.
  exists r_open, [0%nat], 1, q_stretched. split; [apply r_open_sound|]. split; [repeat constructor; easy|]. split; [lra|]. split; [easy|]. split; [easy|].
  unfold total_vspring. cbn [r_open nbeads Nat.eqb length Nat.ltb Nat.leb]. apply Rplus_lt_compat_r.
  rewrite stretched_rest by (cbn; auto).
  change 2%nat with (nbeads r_open) at 1. change (openp (mkRing _ _ _ _ _ _ _)) with (openp r_open).
  rewrite harmonic_form by (cbn; lia). rewrite spring_energy_is_bead_springs by apply r_open_sound.
  destruct (stretched_modes (openp r_open)) as (Y1 & Y0 & Y).
  cbn [map Rsuml]. rewrite (stretched_corr r_open) by easy.
  assert (bead_springs r_open q_stretched = 2) as ->; [|lra].
  unfold bead_springs, q_stretched, m3. cbn. field.
Qed.
(** A boson listed twice passes the check of the indices and is subtracted twice. *)
Theorem duplicate_boson_refuted : exists r bosons beta q, sound r /\ 0 < beta /\ nbeads r <> 1%nat /\
  resolve_bosons (natoms r) bosons = Some bosons /\ (forall j, In j bosons -> ~ In j (openp r)) /\
  total_vspring r bosons beta q < distinguishable_springs r bosons q
    + ExchModel.get_vspring (expot_of r bosons beta) (qbosons bosons q).
Proof.
  exists r_closed, [0%nat; 0%nat], 1, q_stretched. split; [apply r_closed_sound|]. split; [lra|]. split; [easy|]. split; [easy|]. split; [easy|].
  unfold total_vspring. cbn [r_closed nbeads Nat.eqb length Nat.ltb Nat.leb]. apply Rplus_lt_compat_r.
  rewrite stretched_rest by (cbn; auto).
  change 2%nat with (nbeads r_closed) at 1. change (openp (mkRing _ _ _ _ _ _ _)) with (openp r_closed).
  rewrite harmonic_form by (cbn; lia). rewrite spring_energy_is_bead_springs by apply r_closed_sound.
  destruct (stretched_modes (openp r_closed)) as (Y1 & Y0 & Y).
  cbn [map Rsuml]. rewrite (stretched_corr r_closed) by easy.
  assert (bead_springs r_closed q_stretched = 4) as ->; [|lra].
  unfold bead_springs, q_stretched, m3. cbn. field.
Qed.

(** ** A concrete case: four atoms, the second open, the last two bosons *)
Definition r_four : ring := mkRing 4 4 [1%nat] (fun j => if (j <? 2)%nat then 2 else 1) (1 / 10) (fun _ => 1) (fun _ => 1).
Example ex_four : sound r_four /\ sound_bosons r_four [2; 3]%nat /\ resolve_bosons (natoms r_four) [2; 3]%nat = Some [2; 3]%nat.
Proof.
  split; [|split; [|easy]].
  - split; cbn [r_four nbeads natoms openp mass wn nmf o_nmf]; intros; try lra; try lia.
    + destruct (j <? 2)%nat; lra.
    + repeat constructor; easy.
    + destruct H as [<-|[]]; lia.
  - split; cbn [r_four natoms openp].
    + repeat constructor; cbn; lia.
    + intros j H. cbn in H. lia.
    + intros j H H'. cbn in H, H'. lia.
Qed.
Example ex_labels : resolve_labels 4 (fun i => if (i <? 2)%nat then 8%nat else 1%nat) [1%nat] = Some [2; 3]%nat
  /\ resolve_labels 4 (fun i => if (i <? 2)%nat then 8%nat else 1%nat) [1; 7]%nat = None.
Proof. split; reflexivity. Qed.

Print Assumptions total_is_springs_plus_exchange.
Print Assumptions total_force_is_gradient.
Print Assumptions resolve_in_range.
Print Assumptions resolve_labels_spec.
Print Assumptions open_boson_refuted.
Print Assumptions duplicate_boson_refuted.
