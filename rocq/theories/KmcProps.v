(** * Kinetic Monte Carlo of vacancies: rates, selection, time, positions *)
From Coq Require Import List Arith Bool Reals Lra Lia ZArith Permutation.
From Verif Require Import RSum PairModel CellModel CellProps KmcModel KmcLattice KmcIndex.
Import ListNotations.
Open Scope R_scope.

(** ** The selection rule, lines 631-635 *)
Definition prefix (l : list R) (i : nat) : R := Rsuml (firstn i l).
Lemma crates_nth acc l i : (i < length l)%nat -> nth i (crates acc l) 0 = acc + prefix l (S i).
Proof.
  revert acc i. induction l as [|r l IH]; intros acc i L; [cbn in L; lia|]. destruct i as [|i]; [cbn; ring|]. cbn [crates nth]. rewrite IH by (cbn in L; lia). unfold prefix. cbn [firstn Rsuml]. ring.
Qed.
Lemma select_iff f cr i : select f cr = Some i <-> (i < length cr)%nat /\ (forall j, (j < i)%nat -> nth j cr 0 < f) /\ f <= nth i cr 0.
Proof.
  revert i. induction cr as [|c cr IH]; intros i; cbn [select length].
  - split; [discriminate|lia].
  - destruct (Rlt_dec c f) as [H|H].
    + destruct i as [|i].
      * split; [destruct (select f cr); discriminate|]. cbn. intros (_ & _ & K). lra.
      * specialize (IH i). split.
        -- intros E. destruct (select f cr) as [j|]; [|discriminate]. injection E as ->. destruct IH as [IH _]. destruct (IH eq_refl) as (A & B & C). split; [lia|]. split; [|exact C].
           intros [|j] L; [exact H|]. cbn. apply B. lia.
        -- intros (A & B & C). destruct IH as [_ IH]. rewrite IH; [reflexivity|]. split; [lia|]. split; [|exact C]. intros j L. apply (B (S j)). lia.
    + split.
      * intros E. injection E as <-. split; [lia|]. split; [lia|]. cbn. lra.
      * intros (A & B & C). destruct i as [|i]; [reflexivity|]. exfalso. apply H. apply (B 0%nat). lia.
Qed.
Lemma cdf_sum l : cdf l = Rsuml l.
Proof.
  unfold cdf. assert (G : forall a, fold_left Rplus l a = a + Rsuml l); [|rewrite G; ring].
  induction l as [|r l IH]; intros a; cbn; [ring|]. rewrite IH. ring.
Qed.
Lemma prefix_S l i : (i < length l)%nat -> prefix l (S i) = prefix l i + nth i l 0.
Proof.
  unfold prefix. revert i. induction l as [|r l IH]; intros i L; [cbn in L; lia|]. destruct i as [|i]; [cbn; ring|]. cbn [firstn Rsuml nth]. rewrite <- Rplus_assoc || idtac. cbn in L.
  specialize (IH i ltac:(lia)). cbn [firstn Rsuml] in IH. destruct l as [|x l]; [cbn in L; lia|]. cbn [firstn Rsuml] in *. lra.
Qed.
Lemma prefix_all l : prefix l (length l) = Rsuml l.
Proof. unfold prefix. now rewrite firstn_all. Qed.
Lemma sum_pos l : (forall r, In r l -> 0 < r) -> l <> [] -> 0 < Rsuml l.
Proof.
  intros P NE. destruct l as [|r t]; [contradiction|]. cbn [Rsuml]. assert (0 < r) by (apply P; now left). assert (G : forall t', incl t' t -> 0 <= Rsuml t').
  { induction t' as [|x t' IH]; intros I; [cbn; lra|]. cbn [Rsuml]. assert (0 < x) by (apply P; right; apply I; now left). assert (0 <= Rsuml t') by (apply IH; intros z Z; apply I; now right). lra. }
  specialize (G t (incl_refl t)). lra.
Qed.
Section Select.
Variable l : list R.
Hypothesis P : forall r, In r l -> 0 < r.
Lemma prefix_le i j : (i <= j)%nat -> (j <= length l)%nat -> prefix l i <= prefix l j.
Proof.
  intros H L. induction H as [|j H IH]; [lra|]. rewrite prefix_S by lia. assert (0 < nth j l 0) by (apply P; apply nth_In; lia). specialize (IH ltac:(lia)). lra.
Qed.
(** Event [i] is selected for the random numbers between the two partial sums, an interval whose
    length is its share of the total rate; zero selects the first event. *)
Theorem selection_rule u i : 0 <= u < 1 -> l <> [] ->
  (select (u * cdf l) (crates 0 l) = Some i <-> (i < length l)%nat /\ (i = 0%nat \/ prefix l i / Rsuml l < u) /\ u <= prefix l (S i) / Rsuml l).
Proof.
  intros U NE. assert (T : 0 < Rsuml l).
  { now apply sum_pos. }
  rewrite select_iff, crates_length, cdf_sum. split.
  - intros (L & B & C). rewrite crates_nth in C by exact L. split; [exact L|]. split.
    + destruct i as [|i]; [now left|]. right. specialize (B i ltac:(lia)). rewrite crates_nth in B by lia. apply (Rmult_lt_reg_r (Rsuml l)); [exact T|]. field_simplify; lra.
    + apply (Rmult_le_reg_r (Rsuml l)); [exact T|]. field_simplify; lra.
  - intros (L & B & C). split; [exact L|]. split.
    + intros j J. rewrite crates_nth by lia. destruct B as [->|B]; [lia|]. apply (Rmult_lt_compat_r _ _ _ T) in B. replace (prefix l i / Rsuml l * Rsuml l) with (prefix l i) in B by (field; lra).
      pose proof (prefix_le (S j) i J ltac:(lia)). lra.
    + rewrite crates_nth by exact L. apply (Rmult_le_compat_r _ _ _ (Rlt_le _ _ T)) in C. replace (prefix l (S i) / Rsuml l * Rsuml l) with (prefix l (S i)) in C by (field; lra). lra.
Qed.
Theorem selection_share i : (i < length l)%nat -> prefix l (S i) / Rsuml l - prefix l i / Rsuml l = nth i l 0 / Rsuml l.
Proof. intros L. rewrite prefix_S by exact L. unfold Rdiv. ring. Qed.
(** Some event is selected. *)
Theorem selection_total u : 0 <= u < 1 -> l <> [] -> exists i, select (u * cdf l) (crates 0 l) = Some i.
Proof.
  intros U NE. destruct (select (u * cdf l) (crates 0 l)) as [i|] eqn:E; [now exists i|]. exfalso.
  assert (G : forall f cr, select f cr = None -> forall j, (j < length cr)%nat -> nth j cr 0 < f).
  { intros f cr. induction cr as [|c cr IH]; intros H j L; [cbn in L; lia|]. cbn in H. destruct (Rlt_dec c f) as [K|K]; [|discriminate]. destruct j as [|j]; [exact K|]. cbn in L |- *. apply IH; [|lia]. destruct (select f cr); [discriminate|reflexivity]. }
  assert (L0 : (0 < length l)%nat) by (destruct l; [contradiction|cbn; lia]).
  specialize (G _ _ E (length l - 1)%nat). rewrite crates_length in G. specialize (G ltac:(lia)). rewrite crates_nth in G by lia.
  replace (S (length l - 1)) with (length l) in G by lia. rewrite prefix_all, cdf_sum in G.
  assert (0 <= Rsuml l) by (rewrite <- prefix_all; change 0 with (prefix l 0); apply prefix_le; lia). nra.
Qed.
End Select.
Example selection_case : select (0.5 * cdf [1; 3]) (crates 0 [1; 3]) = Some 1%nat /\ select (0.25 * cdf [1; 3]) (crates 0 [1; 3]) = Some 0%nat.
Proof.
  split; (apply selection_rule; [intros r [<-|[<-|[]]]; lra|lra|discriminate|]); unfold prefix; cbn; (split; [lia|]); [split; [right|]; lra|split; [now left|lra]].
Qed.

(** ** The residence time, line 636 *)
Theorem residence_nonneg k u : 0 < k -> 0 <= u < 1 -> 0 <= residence k u.
Proof.
  intros K U. unfold residence. assert (L : ln (1 - u) <= 0) by (destruct (Req_dec u 0) as [->|D]; [rewrite Rminus_0_r, ln_1; lra|]; rewrite <- ln_1; left; apply ln_increasing; lra).
  replace (-1 / k * ln (1 - u)) with (/ k * - ln (1 - u)) by (field; lra). apply Rmult_le_pos; [left; now apply Rinv_0_lt_compat|lra].
Qed.
(** It is exponential: at most [t] for the random numbers up to 1 - exp(-k t). *)
Theorem residence_exponential k u t : 0 < k -> 0 <= u < 1 -> (residence k u <= t <-> u <= 1 - exp (- k * t)).
Proof.
  intros K U. unfold residence. assert (E : ln (1 - u) = - k * (-1 / k * ln (1 - u))) by (field; lra). set (r := -1 / k * ln (1 - u)) in *. split.
  - intros H. assert (- k * t <= - k * r) by nra. rewrite <- E in H0. assert (exp (- k * t) <= 1 - u); [|lra]. rewrite <- (exp_ln (1 - u)) by lra. destruct H0 as [H0|H0]; [left; now apply exp_increasing|right; now rewrite H0].
  - intros H. assert (X : exp (- k * t) <= 1 - u) by lra. rewrite <- (exp_ln (1 - u)) in X by lra. rewrite E in X. destruct (Rle_dec r t) as [|D]; [assumption|]. exfalso. assert (- k * r < - k * t) by nra. apply exp_increasing in H0. lra.
Qed.
Example residence_case : 0 <= residence 2 0.5 /\ residence 2 0.5 <= 1.
Proof.
  split; [apply residence_nonneg; lra|]. apply residence_exponential; [lra|lra|]. assert (E : exp (- (2)) < 0.5); [|replace (- (2) * 1) with (- (2)) by ring; lra].
  rewrite exp_Ropp. pose proof (exp_ineq1 2 ltac:(lra)). apply (Rmult_lt_reg_r (exp 2)); [lra|]. rewrite Rinv_l by lra. lra.
Qed.

Section Kmc.
Variable y : params.
Notation N := (nsites y).
Hypothesis F : fits y.
Variable geop : (nat -> vec) -> R * (nat -> vec).

(** ** The energy of a state is that of its string (so that it may be kept in the cache) *)
Theorem energy_key s s' : key y s = key y s' -> start y s = start y s' /\ energy y geop s = energy y geop s' /\ relaxed y geop s = relaxed y geop s'.
Proof. intros K. unfold energy, relaxed, start. rewrite (unique_idx_key y s s' K). repeat split. Qed.
Definition positive : Prop := 0 < pref_al y.
Lemma rate_pos s e : positive -> 0 < event_rate y geop s e.
Proof.
  intros P. unfold event_rate, rate. cbv zeta. apply Rmult_lt_0_compat; [|apply exp_pos]. unfold prefactor, given. destruct (s (snd e)); try exact P; destruct (Rlt_dec _ _); assumption.
Qed.
(** ** Detailed balance *)
Definition boltzmann (s : nat -> species) : R := exp (- energy y geop s / kT y).
Lemma rate_balance E E' c : rate y E E' c * exp (- E / kT y) = rate y E' E c * exp (- E' / kT y).
Proof. unfold rate. cbv zeta. rewrite !Rmult_assoc, <- !exp_plus. f_equal. f_equal. unfold Rdiv. ring. Qed.
(** An event and the one that takes it back. *)
Theorem event_balance s a b : s a = Vac -> event_rate y geop s (a, b) * boltzmann s = event_rate y geop (target s (a, b)) (b, a) * boltzmann (target s (a, b)).
Proof.
  intros V. unfold event_rate, boltzmann. cbn [snd]. assert (K : key y (target (target s (a, b)) (b, a)) = key y s) by (apply key_ext; intros k _; unfold target; cbn [fst snd]; apply swap_swap).
  destruct (energy_key _ _ K) as (_ & -> & _). unfold target at 3. cbn [fst snd]. rewrite swap_l. apply rate_balance.
Qed.
Lemma leqb (a b : list species) : {a = b} + {a <> b}.
Proof. apply list_eq_dec, sdec. Qed.
(** The rate from a state to the state with string [t], all events taken together. *)
Definition W (s : nat -> species) (ev : list (nat * nat)) (t : list species) : R :=
  Rsuml (map (event_rate y geop s) (filter (fun e => if leqb (key y (target s e)) t then true else false) ev)).
Lemma filter_unique {A B} (f : A -> B) (d : forall a b : B, {a = b} + {a <> b}) l e : NoDup (map f l) -> In e l -> filter (fun x => if d (f x) (f e) then true else false) l = [e].
Proof.
  induction l as [|a l IH]; intros ND I; [destruct I|]. cbn [map filter] in *. inversion ND as [|? ? X Y]; subst. destruct I as [->|I].
  - destruct (d (f e) (f e)) as [_|]; [|contradiction]. f_equal. assert (G : forall l', incl l' l -> filter (fun x => if d (f x) (f e) then true else false) l' = []).
    { induction l' as [|b l' IH']; intros J; [reflexivity|]. cbn. destruct (d (f b) (f e)) as [E|]; [exfalso; apply X; rewrite <- E; apply in_map, J; now left|]. apply IH'. intros z Z. apply J. now right. }
    apply G, incl_refl.
  - destruct (d (f a) (f e)) as [E|_]; [exfalso; apply X; rewrite E; now apply in_map|]. now apply IH.
Qed.
Lemma filter_nil {A B} (f : A -> B) (d : forall a b : B, {a = b} + {a <> b}) l t : (forall e, In e l -> f e <> t) -> filter (fun x => if d (f x) t then true else false) l = [].
Proof. induction l as [|a l IH]; intros H; [reflexivity|]. cbn. destruct (d (f a) t) as [E|_]; [now apply H in E; [|now left]|]. apply IH. intros e I. apply H. now right. Qed.
Variable neigh : nat -> list nat.
Hypothesis GR : good_rows y neigh.
Notation consistent := (consistent y).
(** The event back is there. *)
Theorem event_back k k' ev' a b : consistent k -> consistent k' -> (a < N)%nat -> (b < N)%nat -> st k a = Vac -> st k b <> Vac -> In b (neigh a) ->
  key y (target (st k) (a, b)) = key y (st k') -> events y neigh k' = Some ev' -> In (b, a) ev' /\ key y (target (st k') (b, a)) = key y (st k).
Proof.
  intros C C' La Lb Sa Sb I K E'. pose proof (key_inj y _ _ K) as X. split.
  - destruct (events_spec y F neigh GR k' C') as (ev2 & E2 & _ & H). rewrite E' in E2. injection E2 as <-. apply H. destruct (GR a La) as (_ & G & _). destruct (G b I) as [_ G2].
    rewrite <- (X b Lb), <- (X a La). unfold target. cbn [fst snd]. rewrite swap_l, swap_r. repeat split; assumption.
  - apply key_ext. intros s L. unfold target. cbn [fst snd]. rewrite <- (swap_swap (st k) a b s). unfold swap at 1 3. unfold upd. unfold target in X. cbn [fst snd] in X. rewrite <- (X a La), <- (X b Lb), <- (X s L). reflexivity.
Qed.
Theorem detailed_balance k k' ev ev' : consistent k -> consistent k' -> events y neigh k = Some ev -> events y neigh k' = Some ev' ->
  W (st k) ev (key y (st k')) * boltzmann (st k) = W (st k') ev' (key y (st k)) * boltzmann (st k').
Proof.
  assert (G : forall k k' ev ev', consistent k -> consistent k' -> events y neigh k = Some ev -> events y neigh k' = Some ev' ->
    (exists e, In e ev /\ key y (target (st k) e) = key y (st k')) -> W (st k) ev (key y (st k')) * boltzmann (st k) = W (st k') ev' (key y (st k)) * boltzmann (st k') /\
    (exists e, In e ev' /\ key y (target (st k') e) = key y (st k))).
  { clear k k' ev ev'. intros k k' ev ev' C C' E E' ([a b] & I & K). destruct (events_spec y F neigh GR k C) as (ev1 & E1 & _ & H). rewrite E in E1. injection E1 as <-.
    pose proof (proj1 (H a b) I) as (La & Lb & Sa & Sb & J). destruct (event_back k k' ev' a b C C' La Lb Sa Sb J K E') as [I' K']. split; [|now exists (b, a)].
    unfold W. rewrite <- K, <- K'. rewrite (filter_unique (fun e => key y (target (st k) e)) leqb ev (a, b) (targets_distinct y F neigh GR k ev C E) I).
    rewrite (filter_unique (fun e => key y (target (st k') e)) leqb ev' (b, a) (targets_distinct y F neigh GR k' ev' C' E') I'). cbn [map Rsuml]. rewrite !Rplus_0_r, (event_balance (st k) a b Sa).
    assert (Q : energy y geop (target (st k) (a, b)) = energy y geop (st k')) by (apply energy_key; exact K).
    assert (Q2 : energy y geop (target (target (st k) (a, b)) (b, a)) = energy y geop (target (st k') (b, a))).
    { apply energy_key. rewrite K'. apply key_ext. intros s _. unfold target. cbn [fst snd]. apply swap_swap. }
    unfold boltzmann, event_rate. rewrite Q, Q2. cbn [snd]. now rewrite (key_inj y _ _ K a La). }
  intros C C' E E'. destruct (in_dec leqb (key y (st k')) (map (fun e => key y (target (st k) e)) ev)) as [I|I].
  - apply in_map_iff in I. destruct I as (e & K & I). apply (G k k' ev ev'); eauto.
  - destruct (in_dec leqb (key y (st k)) (map (fun e => key y (target (st k') e)) ev')) as [I'|I'].
    + apply in_map_iff in I'. destruct I' as (e & K & I'). symmetry. apply (G k' k ev' ev); eauto.
    + unfold W. rewrite !(filter_nil _ leqb); [cbn; ring|intros e J Q; apply I'; apply in_map_iff; now exists e|intros e J Q; apply I; apply in_map_iff; now exists e].
Qed.
(** So the Boltzmann weights are stationary: what flows into a state flows out of it. *)
Theorem boltzmann_stationary k0 ev0 l : consistent k0 -> events y neigh k0 = Some ev0 -> (forall x, In x l -> consistent (fst x) /\ events y neigh (fst x) = Some (snd x)) ->
  Rsuml (map (fun x => boltzmann (st (fst x)) * W (st (fst x)) (snd x) (key y (st k0))) l) = boltzmann (st k0) * Rsuml (map (fun x => W (st k0) ev0 (key y (st (fst x)))) l).
Proof.
  intros C0 E0 H. rewrite <- Rsuml_map_scal. apply Rsuml_map_ext. intros [k ev] I. cbn [fst snd]. destruct (H _ I) as [C E]. cbn [fst snd] in C, E.
  rewrite (Rmult_comm (boltzmann (st k))), (Rmult_comm (boltzmann (st k0))). apply detailed_balance; assumption.
Qed.

(** ** Positions, lines 657-678 *)
(** Every atom moves to an image of the relaxed position of an atom of its kind on its new
    site, by less than half a cell; no two atoms to the same one. *)
Hypothesis N1 : (1 <= ncell y)%nat.
Hypothesis A0 : 0 < a0 y.
Theorem positions_moved u1 u2 k k' : consistent k -> step y geop neigh u1 u2 k = Some k' ->
  (forall i, (i < N)%nat -> exists j, (j < N)%nat /\ unique_idx y (st k') j = idx k' i /\ names y j = names y i /\ images (dcell y) (relaxed y geop (st k') j) (pos k' i) /\
    forall c, (c < 3)%nat -> Rabs (mvec (invert_ut3x3 (dcell y)) (fun c => pos k' i c - pos k i c) c) <= / 2).
Proof.
  intros C H i L. pose proof (step_consistent y F neigh GR geop _ _ _ _ C H) as C'. pose proof (consistent_composition y F k' C') as Cm.
  destruct (step_inv y F neigh GR geop _ _ _ _ C H) as (ev & isel & a & b & _ & _ & _ & _ & E). set (s' := swap a b (st k)) in E. set (ix := swap (ridx k a) (ridx k b) (idx k)) in E.
  assert (S' : st k' = s') by now rewrite E. assert (I' : idx k' = ix) by now rewrite E. rewrite S' in *. rewrite I'.
  assert (Li : (ix i < N)%nat) by (rewrite <- I'; apply (inverse_bij _ _ _ (c_inv _ _ C')); exact L).
  pose proof (unique_idx_inverse y F s' Cm) as U. pose proof (scatter_inverse N (unique_idx y s') (fun _ => 0%nat) (inverse_bij _ _ _ U)) as [_ R]. destruct (R _ Li) as [Lj Ej].
  set (j := scatter N (unique_idx y s') (fun i => i) (fun _ => 0%nat) (ix i)) in *. exists j. split; [exact Lj|]. split; [exact Ej|]. split.
  { destruct (unique_idx_names y F s' j Cm Lj) as [_ <-]. rewrite Ej, <- I', <- S'. now apply (c_names _ _ C'). }
  assert (P : pos k' i = fun c => pos k i c + apply_pbc (dcell y) (fun c => relaxed y geop s' j c - pos k i c) c) by now rewrite E.
  pose proof (dcell_ut y N1 A0) as D. split.
  - destruct (wrapped_is_image (dcell y) (fun c => relaxed y geop s' j c - pos k i c) D) as (n & Hn). exists n. intros c Lc. rewrite P. rewrite Hn by exact Lc. ring.
  - intros c Lc. assert (X : mvec (invert_ut3x3 (dcell y)) (fun c => pos k' i c - pos k i c) c = mvec (invert_ut3x3 (dcell y)) (apply_pbc (dcell y) (fun c => relaxed y geop s' j c - pos k i c)) c).
    { unfold mvec. apply Rsum_ext. intros d Ld. f_equal. rewrite P. ring. }
    rewrite X. now apply wrapped_in_cell.
Qed.
(** ** Time *)
Theorem time_increases k k' : positive -> consistent k -> run y neigh geop k k' -> time k <= time k'.
Proof.
  intros P C R. induction R as [|k k1 k2 u1 u2 R IH U1 U2 S]; [lra|]. specialize (IH C). destruct (run_consistent y F neigh GR geop _ _ C R) as (C1 & _ & _).
  destruct (step_inv y F neigh GR geop _ _ _ _ C1 S) as (ev & isel & a & b & _ & Q & _ & _ & ->). cbn [time]. set (l := map (event_rate y geop (st k1)) ev).
  assert (T : 0 < cdf l).
  { rewrite cdf_sum. assert (NE : (isel < length l)%nat) by (unfold l; rewrite map_length; apply nth_error_Some; now rewrite Q).
    assert (PL : forall r, In r l -> 0 < r) by (intros r I; apply in_map_iff in I; destruct I as (e & <- & _); now apply rate_pos).
    apply sum_pos; [exact PL|]. intros Z. rewrite Z in NE. cbn in NE. lia. }
  pose proof (residence_nonneg _ _ T U2). lra.
Qed.

(** ** unique_idx_match *)
Lemma last_such_unique p n i : (i < n)%nat -> p i = true -> (forall j, (j < n)%nat -> p j = true -> j = i) -> last_such p n = Some i.
Proof.
  unfold last_such. intros L Pi U. induction n as [|n IH]; [lia|]. rewrite seq_S, fold_left_app. cbn [fold_left Nat.add]. destruct (p n) eqn:E; [f_equal; apply U; [lia|exact E]|].
  apply IH; [|intros j Lj; apply U; lia]. destruct (Nat.eq_dec i n) as [->|]; [congruence|lia].
Qed.
(** The matching sends every atom of the first state to the one on the same site of the second, and
    the atom that jumps to the one on the site of the vacancy. *)
Theorem match_follows s a b : composition y s -> (a < N)%nat -> (b < N)%nat -> s a = Vac -> s b <> Vac -> composition y (target s (a, b)) /\
  exists m, unique_idx_match y s (target s (a, b)) = Some m /\ forall i, (i < natoms y)%nat -> (m i < natoms y)%nat /\ names y (m i) = names y i /\
    unique_idx y (target s (a, b)) (m i) = if Nat.eq_dec (unique_idx y s i) b then a else unique_idx y s i.
Proof.
  intros Cm La Lb Sa Sb. set (t := target s (a, b)). assert (NE : a <> b) by congruence.
  assert (T : forall k, t k = swap a b s k) by reflexivity.
  assert (Ct : composition y t).
  { intros c. rewrite <- (Cm c), !cnt_occ. apply Permutation_count_occ. set (f := swap a b (fun i => i)).
    assert (B : bij N f).
    { split.
      - intros i L. unfold f, swap, upd. destruct (Nat.eqb i b), (Nat.eqb i a); assumption.
      - intros i j Li Lj. unfold f, swap, upd. destruct (Nat.eqb_spec i b), (Nat.eqb_spec i a), (Nat.eqb_spec j b), (Nat.eqb_spec j a); congruence. }
    rewrite <- (Permutation_map s (bij_perm _ _ B)), map_map. apply eq_ind_r with (P := fun l => Permutation l _) (x := map (fun i => s (f i)) (seq 0 N)); [reflexivity|].
    apply map_ext. intros i. rewrite T. unfold f, swap, upd. now destruct (Nat.eqb i b), (Nat.eqb i a). }
  split; [exact Ct|]. pose proof (unique_idx_inverse y F s Cm) as Us. pose proof (unique_idx_inverse y F t Ct) as Ut.
  pose proof (scatter_inverse N (unique_idx y s) (fun _ => 0%nat) (inverse_bij _ _ _ Us)) as Rs. pose proof (scatter_inverse N (unique_idx y t) (fun _ => 0%nat) (inverse_bij _ _ _ Ut)) as Rt.
  unfold unique_idx_match. fold t. cbv zeta. set (us := unique_idx y s) in *. set (ut := unique_idx y t) in *. set (rs := scatter N us (fun i => i) (fun _ => 0%nat)) in *. set (rt := scatter N ut (fun i => i) (fun _ => 0%nat)) in *.
  pose proof (natoms_vac y F) as NV.
  assert (Vs : forall k, (k < N)%nat -> (natoms y <= rs k)%nat <-> s k = Vac).
  { intros k L. destruct Rs as [_ R]. destruct (R k L) as [X Y]. rewrite <- (names_vac y F (rs k) X). destruct (unique_idx_names y F s (rs k) Cm X) as [_ Z]. fold us in Z. rewrite Y in Z. now rewrite Z. }
  assert (Vt : forall k, (k < N)%nat -> (natoms y <= rt k)%nat <-> t k = Vac).
  { intros k L. destruct Rt as [_ R]. destruct (R k L) as [X Y]. rewrite <- (names_vac y F (rt k) X). destruct (unique_idx_names y F t (rt k) Ct X) as [_ Z]. fold ut in Z. rewrite Y in Z. now rewrite Z. }
  destruct Rs as [Rs1 Rs2]. destruct Rt as [Rt1 Rt2].
  destruct (Rs2 b Lb) as [Xb Yb]. destruct (Rt2 a La) as [Xa Ya].
  assert (Ab : (rs b < natoms y)%nat) by (destruct (Nat.lt_ge_cases (rs b) (natoms y)) as [|H]; [assumption|apply Vs in H; [contradiction|exact Lb]]).
  assert (Ta : t a <> Vac) by (rewrite T, swap_l; exact Sb). assert (Tb : t b = Vac) by (rewrite T, swap_r; exact Sa).
  assert (Aa : (rt a < natoms y)%nat) by (destruct (Nat.lt_ge_cases (rt a) (natoms y)) as [|H]; [assumption|apply Vt in H; [contradiction|exact La]]).
  (* the atoms of the second state on sites that were not vacant, and the other way round *)
  rewrite (last_such_unique _ (natoms y) (rs b)); [|exact Ab| |].
  2: { apply Nat.leb_le. rewrite Yb. apply Vt; assumption. }
  2: { intros j Lj H. apply Nat.leb_le in H. destruct (Rs1 j ltac:(lia)) as [P Q]. apply Vt in H; [|exact P]. rewrite T in H. assert (Sj : s (us j) <> Vac) by (rewrite <- (Vs _ P), Q; lia).
       destruct (Nat.eq_dec (us j) b) as [E|D]; [now rewrite <- E, Q|]. exfalso. destruct (Nat.eq_dec (us j) a) as [E|D2]; [congruence|]. rewrite swap_o in H by assumption. contradiction. }
  rewrite (last_such_unique _ (natoms y) (rt a)); [|exact Aa| |].
  2: { apply Nat.leb_le. rewrite Ya. apply Vs; assumption. }
  2: { intros j Lj H. apply Nat.leb_le in H. destruct (Rt1 j ltac:(lia)) as [P Q]. apply Vs in H; [|exact P]. assert (Tj : t (ut j) <> Vac) by (rewrite <- (Vt _ P), Q; lia).
       destruct (Nat.eq_dec (ut j) a) as [E|D]; [now rewrite <- E, Q|]. exfalso. destruct (Nat.eq_dec (ut j) b) as [E|D2]; [congruence|]. apply Tj. rewrite T, swap_o by assumption. exact H. }
  eexists. split; [reflexivity|]. intros i Li. destruct (Rs1 i ltac:(lia)) as [P Q]. unfold upd. destruct (Nat.eqb_spec i (rs b)) as [E|D].
  - assert (Eb : us i = b) by now rewrite E. destruct (Nat.eq_dec (us i) b) as [_|]; [|contradiction]. split; [exact Aa|]. split; [|exact Ya].
    destruct (unique_idx_names y F t (rt a) Ct Xa) as [_ <-]. fold ut. rewrite Ya, T, swap_l, <- Eb. now apply unique_idx_names; [| |lia].
  - assert (Db : us i <> b) by (intros E; apply D; now rewrite <- E). destruct (Nat.eq_dec (us i) b) as [|_]; [contradiction|]. destruct (Rt2 (us i) P) as [P2 Q2].
    assert (Sj : s (us i) <> Vac) by (rewrite <- (Vs _ P), Q; lia). assert (Da : us i <> a) by congruence. assert (Tj : t (us i) = s (us i)) by (rewrite T; now apply swap_o).
    split; [|split; [|exact Q2]].
    + destruct (Nat.lt_ge_cases (rt (us i)) (natoms y)) as [|H]; [assumption|]. apply Vt in H; [|exact P]. congruence.
    + destruct (unique_idx_names y F t (rt (us i)) Ct P2) as [_ <-]. fold ut. rewrite Q2, Tj. now apply unique_idx_names; [| |lia].
Qed.
End Kmc.

(** ** The lattice of the code *)
Lemma fcc_rows y l : (3 <= ncell y)%nat -> 0 < a0 y -> connectivity y = Some l -> good_rows y (fun k => padded (l k)).
Proof.
  intros N3 A0 E. destruct (connectivity_fcc y N3 A0) as (l' & E' & H). rewrite E in E'. injection E' as <-. intros k L. destruct (H k L) as (P & _ & ND & I). rewrite P. split; [exact ND|]. split.
  - intros j J. apply I in J. destruct J as [Lj J]. split; [exact Lj|]. destruct (H j Lj) as (Pj & _ & _ & Ij). rewrite Pj. apply Ij. split; [exact L|]. now apply neighbours_sym.
  - intros J. apply I in J. destruct J as [_ J]. revert J. apply neighbours_irrefl; lia.
Qed.
(** The lattice is connected. *)
Lemma cyc n (Q : nat -> Prop) : (forall a, (a < n)%nat -> Q a -> Q ((a + 1) mod n)%nat) -> forall a b, (a < n)%nat -> (b < n)%nat -> Q a -> Q b.
Proof.
  intros H a b La Lb Qa. assert (G : forall m, Q ((a + m) mod n)%nat).
  { induction m as [|m IH]; [now rewrite Nat.add_0_r, Nat.mod_small|]. apply H in IH; [|apply Nat.mod_upper_bound; lia]. rewrite Nat.add_mod_idemp_l in IH by lia. now replace (a + S m)%nat with (a + m + 1)%nat by lia. }
  specialize (G (n - a + b)%nat). replace (a + (n - a + b))%nat with (b + 1 * n)%nat in G by lia. rewrite Nat.mod_add, Nat.mod_small in G by lia. exact G.
Qed.
Lemma connected y (P : nat -> Prop) : (3 <= ncell y)%nat -> (forall i j, (i < nsites y)%nat -> (j < nsites y)%nat -> P i -> neighbours y i j -> P j) ->
  forall i j, (i < nsites y)%nat -> (j < nsites y)%nat -> P i -> P j.
Proof.
  intros N3 H i j Li Lj Pi. set (n := ncell y). assert (N1 : (1 <= ncell y)%nat) by lia.
  assert (M : forall a, exists m, (Z.of_nat ((a + 1) mod n) = Z.of_nat a + 1 + m * Z.of_nat n)%Z).
  { intros a. exists (- Z.of_nat ((a + 1) / n))%Z. pose proof (Nat.div_mod (a + 1) n ltac:(unfold n; lia)) as E. apply (f_equal Z.of_nat) in E. rewrite !Nat2Z.inj_add, Nat2Z.inj_mul in E. lia. }
  assert (MU : forall a, ((a + 1) mod n < n)%nat) by (intros a; apply Nat.mod_upper_bound; unfold n; lia).
  assert (S1 : forall a b c, (a < n)%nat -> (b < n)%nat -> (c < n)%nat -> P (site_of y a b c) -> P (site_of y ((a + 1) mod n) b c)).
  { intros a b c La Lb Lc. destruct (coord_of y N1 a b c La Lb Lc) as (L & E0 & E1 & E2). destruct (coord_of y N1 ((a + 1) mod n) b c (MU a) Lb Lc) as (L' & E0' & E1' & E2'). intros Q. apply (H _ _ L L' Q).
    exists (1, 0, 0)%Z. split; [cbn; tauto|]. intros k Lk. unfold zc. destruct k as [|[|[|k]]]; [| | |lia]; cbn [comp fst snd].
    - rewrite E0, E0'. apply M. - rewrite E1, E1'. exists 0%Z. lia. - rewrite E2, E2'. exists 0%Z. lia. }
  assert (S2 : forall a b c, (a < n)%nat -> (b < n)%nat -> (c < n)%nat -> P (site_of y a b c) -> P (site_of y a ((b + 1) mod n) c)).
  { intros a b c La Lb Lc. destruct (coord_of y N1 a b c La Lb Lc) as (L & E0 & E1 & E2). destruct (coord_of y N1 a ((b + 1) mod n) c La (MU b) Lc) as (L' & E0' & E1' & E2'). intros Q. apply (H _ _ L L' Q).
    exists (0, 1, 0)%Z. split; [cbn; tauto|]. intros k Lk. unfold zc. destruct k as [|[|[|k]]]; [| | |lia]; cbn [comp fst snd].
    - rewrite E0, E0'. exists 0%Z. lia. - rewrite E1, E1'. apply M. - rewrite E2, E2'. exists 0%Z. lia. }
  assert (S3 : forall a b c, (a < n)%nat -> (b < n)%nat -> (c < n)%nat -> P (site_of y a b c) -> P (site_of y a b ((c + 1) mod n))).
  { intros a b c La Lb Lc. destruct (coord_of y N1 a b c La Lb Lc) as (L & E0 & E1 & E2). destruct (coord_of y N1 a b ((c + 1) mod n) La Lb (MU c)) as (L' & E0' & E1' & E2'). intros Q. apply (H _ _ L L' Q).
    exists (0, 0, 1)%Z. split; [cbn; tauto|]. intros k Lk. unfold zc. destruct k as [|[|[|k]]]; [| | |lia]; cbn [comp fst snd].
    - rewrite E0, E0'. exists 0%Z. lia. - rewrite E1, E1'. exists 0%Z. lia. - rewrite E2, E2'. apply M. }
  rewrite (site_coord y N1 j Lj). rewrite (site_coord y N1 i Li) in Pi. fold n in Pi |- *.
  pose proof (coord_lt y N1 i) as CI. pose proof (coord_lt y N1 j) as CJ. fold n in CI, CJ.
  change (P (site_of y (coord y i 0) (coord y i 1) (coord y i 2))) in Pi. change (P (site_of y (coord y j 0) (coord y j 1) (coord y j 2))).
  apply (cyc n (fun a => P (site_of y a (coord y j 1) (coord y j 2))) (fun a La => S1 _ _ _ La (CJ 1%nat Lj) (CJ 2%nat Lj)) (coord y i 0)); [now apply CI|now apply CJ|].
  apply (cyc n (fun b => P (site_of y (coord y i 0) b (coord y j 2))) (fun b Lb => S2 _ _ _ (CI 0%nat Li) Lb (CJ 2%nat Lj)) (coord y i 1)); [now apply CI|now apply CJ|].
  apply (cyc n (fun c => P (site_of y (coord y i 0) (coord y i 1) c)) (fun c Lc => S3 _ _ _ (CI 0%nat Li) (CI 1%nat Li) Lc) (coord y i 2)); [now apply CI|now apply CJ|exact Pi].
Qed.
(** ** Every run from a proper start: the arrays stay consistent, and it can always go on *)
Theorem kmc_runs y geop l ix q t k : (3 <= ncell y)%nat -> 0 < a0 y -> fits y -> (1 <= nvac y < nsites y)%nat -> positive y -> connectivity y = Some l -> bij (nsites y) ix ->
  run y (fun s => padded (l s)) geop (bind y ix q t) k ->
  consistent y k /\ composition y (st k) /\ t <= time k /\ forall u1 u2, 0 <= u1 < 1 -> exists k', step y geop (fun s => padded (l s)) u1 u2 k = Some k'.
Proof.
  intros N3 A0 F V P E B R. pose proof (fcc_rows y l N3 A0 E) as GR. pose proof (bind_consistent y ix q t B) as C0. destruct (run_consistent y F _ GR geop _ _ C0 R) as (C & Cm & _).
  split; [exact C|]. split; [exact Cm|]. split; [change t with (time (bind y ix q t)); eapply time_increases; eauto; lia|]. intros u1 u2 U.
  destruct (events_spec y F _ GR k C) as (ev & Ev & _ & H). unfold step. rewrite Ev.
  assert (NE : ev <> []).
  { intros Z. subst ev. pose proof (natoms_vac y F) as NV. destruct (c_inv _ _ C) as [A _]. destruct (A 0%nat ltac:(lia)) as [L0 _]. destruct (A (natoms y) ltac:(lia)) as [Lv _].
    assert (Sv : st k (idx k (natoms y)) = Vac) by (rewrite (c_names _ _ C) by lia; apply (names_vac y F); lia).
    assert (S0 : st k (idx k 0) <> Vac) by (rewrite (c_names _ _ C) by lia; rewrite (names_vac y F) by lia; lia).
    apply S0. apply (connected y (fun s => st k s = Vac) N3) with (i := idx k (natoms y)); auto. intros a b La Lb Sa Nb. destruct (seqb (st k b) Vac) eqn:Q; [now apply seqb_eq|]. apply seqb_neq in Q.
    destruct (H a b) as [_ X]. destruct X. repeat split; auto. destruct (connectivity_fcc y N3 A0) as (l' & E' & HH). rewrite E in E'. injection E' as <-. destruct (HH a La) as (-> & _ & _ & I). apply I. now split. }
  destruct (selection_total (map (event_rate y geop (st k)) ev)) with (u := u1) as [i Hi].
  - intros r I. apply in_map_iff in I. destruct I as (e & <- & _). now apply rate_pos.
  - exact U.
  - intros Z. apply map_eq_nil in Z. contradiction.
  - rewrite Hi. eauto.
Qed.
(** The vacancy at the end of a lattice of 5 x 5 x 5 cells jumps, and can jump back. *)
Definition flat (q : nat -> vec) : R * (nat -> vec) := (q 0%nat 0%nat, q).
Example kmc_case : exists l k k' ev ev' e, connectivity (small 5) = Some l /\ consistent (small 5) k /\ step (small 5) flat (fun s => padded (l s)) 0.5 0.5 k = Some k' /\ consistent (small 5) k' /\
  events (small 5) (fun s => padded (l s)) k = Some ev /\ events (small 5) (fun s => padded (l s)) k' = Some ev' /\ In e ev /\ key (small 5) (target (st k) e) = key (small 5) (st k').
Proof.
  assert (N3 : (3 <= ncell (small 5))%nat) by (cbn; lia). assert (A0 : 0 < a0 (small 5)) by (cbn; lra). assert (F : fits (small 5)) by (split; cbn; lia).
  destruct (connectivity_fcc (small 5) N3 A0) as (l & E & _). assert (GR := fcc_rows (small 5) l N3 A0 E). set (k := bind (small 5) (fun i => i) None 0).
  assert (B : bij (nsites (small 5)) (fun i => i)) by (split; auto). assert (C : consistent (small 5) k) by now apply bind_consistent.
  assert (V : (1 <= nvac (small 5) < nsites (small 5))%nat) by (change (nvac (small 5)) with 1%nat; change (nsites (small 5)) with 125%nat; lia). assert (P : positive (small 5)) by (unfold positive; cbn; lra).
  destruct (kmc_runs (small 5) flat l (fun i => i) None 0 k N3 A0 F V P E B (run_refl _ _ _ _)) as (_ & _ & _ & S). destruct (S 0.5 0.5 ltac:(lra)) as [k' Hk]. clear S.
  pose proof (step_consistent (small 5) F _ GR flat _ _ _ _ C Hk) as C'. destruct (step_inv (small 5) F _ GR flat _ _ _ _ C Hk) as (ev & i & a & b & Ev & Z & _ & _ & Ek).
  destruct (events_spec (small 5) F _ GR k' C') as (ev' & Ev' & _). exists l, k, k', ev, ev', (a, b). repeat (split; [assumption|]). split; [apply (nth_error_In _ _ Z)|]. now rewrite Ek.
Qed.
Example match_case : composition (small 5) (names (small 5)) /\ names (small 5) 124 = Vac /\ names (small 5) 3 <> Vac.
Proof. split; [apply names_composition; split; cbn; lia|split; [reflexivity|discriminate]]. Qed.

(** ** What is not checked *)
(** An index array with a site twice is taken as it is, and an atom of Si is lost (251-262). *)
Theorem bind_duplicate_refuted : exists y ix, fits y /\ (forall i, (i < nsites y)%nat -> (ix i < nsites y)%nat) /\ cnt (st (bind y ix None 0)) Si (nsites y) <> nsi y.
Proof.
  exists (Params 3 1 1 0 1 1 1 1 0 0 0 0), (fun i => if Nat.eqb i 5 then 0%nat else i). split; [split; cbn; lia|]. split; [|discriminate].
  intros i L. destruct (Nat.eqb i 5); [cbn; lia|exact L].
Qed.
(** Without atoms the step ends with an IndexError. *)
Theorem no_atoms_refuted : exists y k, fits y /\ consistent y k /\ forall geop neigh u1 u2, step y geop neigh u1 u2 k = None.
Proof.
  exists (Params 1 1 0 0 1 1 1 1 0 0 0 0), (bind (Params 1 1 0 0 1 1 1 1 0 0 0 0) (fun i => i) None 0). assert (F : fits (Params 1 1 0 0 1 1 1 1 0 0 0 0)) by (split; cbn; lia).
  split; [exact F|]. split; [apply bind_consistent; split; auto|]. intros geop neigh u1 u2. unfold step. set (y := Params 1 1 0 0 1 1 1 1 0 0 0 0). set (k := bind y _ _ _).
  assert (S : forall n, st k n = Vac) by (intros [|n]; reflexivity).
  assert (G : forall l, filter (fun n => negb (seqb (st k n) Vac)) l = []) by (induction l as [|x l IH]; [reflexivity|]; cbn [filter]; rewrite S; exact IH).
  unfold events. change (seq (natoms y) (nvac y)) with [0%nat]. cbn [all_events]. unfold events_of. rewrite S, G. reflexivity.
Qed.
Print Assumptions selection_rule.
Print Assumptions residence_exponential.
Print Assumptions detailed_balance.
Print Assumptions boltzmann_stationary.
Print Assumptions positions_moved.
Print Assumptions match_follows.
Print Assumptions kmc_runs.
Print Assumptions bind_duplicate_refuted.
