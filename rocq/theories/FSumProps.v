(** * Theorems of record: sums of force components and multiple-time-step levels (C25) *)
From Coq Require Import List Reals Lra Lia Arith Bool.
From Verif Require Import RSum NMModel RPCProofs NMProps BeadModel FSumModel.
Import ListNotations.
Open Scope R_scope.

(** ** Specification *)
(** The linear combination of the components declared in the input: weight times sum of the
    level weights times the component expanded to the full ring. *)
Definition declared (cs : list comp) (x : comp -> R) : R :=
  Rsuml (map (fun c => weight c * Rsuml (mts_weights c) * x c) cs).
(** Total over the levels [0..n-1] of one entry of the level arrays. *)
Definition total (levels : list mat) (b k : nat) : R := Rsuml (map (fun m => m b k) levels).

(** ** Lemmas *)
Lemma nz_true x : nz x = true <-> x <> 0.
Proof. unfold nz. destruct (Req_EM_T x 0); intuition congruence. Qed.
Lemma nz_false x : nz x = false <-> x = 0.
Proof. unfold nz. destruct (Req_EM_T x 0); intuition congruence. Qed.

Lemma combine_acc ex cs b k : forall acc,
  fold_left (combine_step ex) cs acc b k = acc b k + declared cs (fun c => ex c b k).
Proof.
  unfold declared. induction cs as [|c cs IH]; intros acc; cbn [fold_left map Rsuml]; [ring|].
  rewrite IH. unfold combine_step. destruct (nz (weight c)) eqn:E.
  - unfold addto. ring.
  - apply nz_false in E. rewrite E. ring.
Qed.

Lemma nmts_same cs nm : get_nmtslevels cs = Ok nm -> forall c, In c cs -> length (mts_weights c) = nm.
Proof.
  unfold get_nmtslevels. destruct cs as [|c0 cs]; [discriminate|].
  destruct (forallb _ _) eqn:E; [|discriminate]. intros [= <-] c Hc.
  rewrite forallb_forall in E. now apply Nat.eqb_eq, E.
Qed.

Definition level_coeff (c : comp) (l : nat) : R := weight c * nth l (mts_weights c) 0.

Lemma forces_mts_acc n open l cs b k : (forall c, In c cs -> (l < length (mts_weights c))%nat) -> forall acc,
  exists m, fold_left (mts_step_f n open l) cs (Ok acc) = Ok m /\
    m b k = acc b k + Rsuml (map (fun c => level_coeff c l * expand_f n open c b k) cs).
Proof.
  induction cs as [|c cs IH]; intros H acc; cbn [fold_left map Rsuml].
  { exists acc. split; [easy|ring]. }
  assert (Hl : (l < length (mts_weights c))%nat) by (apply H; now left).
  assert (IH' := IH ltac:(intros; apply H; now right)). clear IH.
  destruct (nth_error (mts_weights c) l) as [w|] eqn:E; [|apply nth_error_None in E; lia].
  assert (Ew : nth l (mts_weights c) 0 = w) by now apply nth_error_nth.
  unfold mts_step_f at 2, at_level, bind. rewrite E.
  destruct (length (mts_weights c) =? 0)%nat eqn:E0; [apply Nat.eqb_eq in E0; lia|]. cbn [andb orb].
  destruct (nz w && nz (weight c)) eqn:En.
  - destruct (IH' (addto acc (weight c * w) (expand_f n open c))) as (m & Hm & Em).
    exists m. split; [exact Hm|]. rewrite Em. unfold addto, level_coeff. rewrite Ew. ring.
  - destruct (IH' acc) as (m & Hm & Em). exists m. split; [exact Hm|]. rewrite Em. unfold level_coeff. rewrite Ew.
    apply andb_false_iff in En. destruct En as [En|En]; apply nz_false in En; rewrite En; ring.
Qed.

(** The result does not depend on the entry looked at. *)
Lemma forces_mts_total n open l cs : (forall c, In c cs -> (l < length (mts_weights c))%nat) ->
  exists m, get_forces_mts n open cs l = Ok m /\
    forall b k, m b k = Rsuml (map (fun c => level_coeff c l * expand_f n open c b k) cs).
Proof.
  intros H. destruct (forces_mts_acc n open l cs 0 0 H zeros) as (m & Hm & _). exists m. split; [exact Hm|].
  intros b k. destruct (forces_mts_acc n open l cs b k H zeros) as (m' & Hm' & E).
  assert (m = m') as -> by congruence. rewrite E. unfold zeros. ring.
Qed.

Lemma virs_mts_acc n open l cs b k : forall acc,
  fold_left (mts_step_v n open l) cs acc b k = acc b k + Rsuml (map (fun c => level_coeff c l * expand_v n open c b k) cs).
Proof.
  induction cs as [|c cs IH]; intros acc; cbn [fold_left map Rsuml]; [ring|]. rewrite IH.
  unfold mts_step_v, at_level, level_coeff. destruct (nth_error (mts_weights c) l) as [w|] eqn:E.
  - rewrite (nth_error_nth _ _ 0 E). destruct (nz w && nz (weight c)) eqn:En; [unfold addto; ring|].
    apply andb_false_iff in En. destruct En as [En|En]; apply nz_false in En; rewrite En; ring.
  - rewrite (nth_overflow _ 0); [ring|]. now apply nth_error_None.
Qed.

Lemma Rsum_nth l : Rsum (length l) (fun i => nth i l 0) = Rsuml l.
Proof.
  induction l as [|x l IH]; [easy|]. cbn [length]. rewrite Rsum_first. cbn [nth Rsuml]. f_equal. exact IH.
Qed.
(** Swapping the sums over levels and components. *)
Lemma sum_levels nm cs (x : comp -> R) : (forall c, In c cs -> length (mts_weights c) = nm) ->
  Rsum nm (fun l => Rsuml (map (fun c => level_coeff c l * x c) cs)) = declared cs x.
Proof.
  unfold declared. induction cs as [|c cs IH]; intros H; cbn [map Rsuml]; [now apply Rsum_0|].
  rewrite Rsum_plus, IH by (intros; apply H; now right). f_equal.
  rewrite Rsum_scal_r. f_equal. unfold level_coeff. rewrite Rsum_scal. f_equal.
  rewrite <- (H c) by now left. apply Rsum_nth.
Qed.

Lemma all_levels_loop n open cs ls : (forall l, In l ls -> exists m, get_forces_mts n open cs l = Ok m) -> forall acc,
  exists ms, fold_left (fun acc l => bind acc (fun ms => bind (get_forces_mts n open cs l) (fun m => Ok (ms ++ [m])))) ls (Ok acc) = Ok (acc ++ ms)
    /\ Forall2 (fun l m => get_forces_mts n open cs l = Ok m) ls ms.
Proof.
  induction ls as [|l ls IH]; intros H acc; cbn [fold_left].
  - exists []. now rewrite app_nil_r.
  - destruct (H l ltac:(now left)) as (m & Hm). cbn [bind]. rewrite Hm. cbn [bind].
    destruct (IH ltac:(intros; apply H; now right) (acc ++ [m])) as (ms & E & F).
    exists (m :: ms). rewrite E, <- app_assoc. split; [easy|now constructor].
Qed.

(** ** Theorems *)
(** The total force, the bead potentials and the virials are the declared combination. *)
Theorem total_force_is_declared n open cs b k :
  f_combine n open cs b k = declared cs (fun c => expand_f n open c b k).
Proof. unfold f_combine, combine. rewrite combine_acc. unfold zeros. ring. Qed.
Theorem total_potential_is_declared n open cs b :
  pot_combine n open cs b = declared cs (fun c => expand_p n open c b 0%nat).
Proof. unfold pot_combine, combine. rewrite combine_acc. unfold zeros. ring. Qed.
Theorem total_virial_is_declared n open cs b k :
  vir_combine n open cs b k = declared cs (fun c => expand_v n open c b k).
Proof. unfold vir_combine, combine. rewrite combine_acc. unfold zeros. ring. Qed.

(** When the numbers of levels agree (otherwise the simulation is refused), every level can be
    evaluated and the levels add up to the total force. *)
Theorem levels_add_up n open cs nm : get_nmtslevels cs = Ok nm ->
  exists levels, all_levels n open cs = Ok levels /\ length levels = nm /\
    forall b k, total levels b k = f_combine n open cs b k.
Proof.
  intros Hn. pose proof (nmts_same _ _ Hn) as Hsame. unfold all_levels. rewrite Hn. cbn [bind].
  destruct (all_levels_loop n open cs (seq 0 nm)) with (acc := @nil mat) as (ms & E & F).
  { intros l Hl. apply in_seq in Hl. destruct (forces_mts_total n open l cs) as (m & Hm & _); [|now exists m].
    intros c Hc. rewrite (Hsame c Hc). lia. }
  exists ms. split; [exact E|]. assert (HL : length ms = nm).
  { rewrite <- (seq_length nm 0). clear -F. induction F; cbn; congruence. }
  split; [easy|].
  intros b k. rewrite total_force_is_declared, <- (sum_levels nm cs (fun c => expand_f n open c b k) Hsame).
  unfold total.
  assert (G : forall nm s ms, (forall l, (s <= l < s + nm)%nat -> forall c, In c cs -> (l < length (mts_weights c))%nat) ->
      Forall2 (fun l m => get_forces_mts n open cs l = Ok m) (seq s nm) ms ->
      Rsuml (map (fun m => m b k) ms) = Rsum nm (fun l => Rsuml (map (fun c => level_coeff c (s + l) * expand_f n open c b k) cs))).
  { clear. induction nm as [|nm IH]; intros s ms H F; inversion F as [|l m ls ms' Hm F']; subst; [easy|].
    cbn [map Rsuml]. rewrite Rsum_first. f_equal.
    - destruct (forces_mts_total n open s cs) as (m' & Hm' & Em); [apply H; lia|].
      assert (m = m') as -> by congruence. rewrite Em. now rewrite Nat.add_0_r.
    - rewrite (IH (Datatypes.S s) ms'); [|intros; now apply H; [lia|]|easy]. apply Rsum_ext. intros i _.
      now replace (Datatypes.S s + i)%nat with (s + Datatypes.S i)%nat by lia. }
  rewrite (G nm 0%nat ms); [easy| |easy]. intros l Hl c Hc. rewrite (Hsame c Hc). lia.
Qed.
(** The same for the virials of the beads and the total virial. *)
Theorem virial_levels_add_up n open cs nm : get_nmtslevels cs = Ok nm ->
  (forall b k, Rsum nm (fun l => get_virs_mts n open cs l b k) = vir_combine n open cs b k) /\
  (forall k, Rsum nm (fun l => get_vir_mts n open cs l k) = vir n open cs k).
Proof.
  intros Hn. pose proof (nmts_same _ _ Hn) as Hsame.
  assert (A : forall b k, Rsum nm (fun l => get_virs_mts n open cs l b k) = vir_combine n open cs b k).
  { intros b k. rewrite total_virial_is_declared, <- (sum_levels nm cs (fun c => expand_v n open c b k) Hsame).
    apply Rsum_ext. intros l _. unfold get_virs_mts. rewrite virs_mts_acc. unfold zeros. ring. }
  split; [exact A|]. intros k. unfold get_vir_mts, vir. rewrite Rsum_swap. apply Rsum_ext. intros b _. apply A.
Qed.
(** Lists of level weights of different length are refused. *)
Theorem unequal_levels_refused cs c c' : In c cs -> In c' cs ->
  length (mts_weights c) <> length (mts_weights c') -> get_nmtslevels cs = ValueError.
Proof.
  intros H H' Hne. destruct (get_nmtslevels cs) as [nm| |] eqn:E; [| |easy].
  - pose proof (nmts_same _ _ E c H). pose proof (nmts_same _ _ E c' H'). congruence.
  - destruct cs; [contradiction|]. cbn in E. destruct (_ && _); discriminate.
Qed.

(** Components of weight zero do not contribute: replacing all their arrays changes nothing. *)
Definition same_but_idle (c c' : comp) : Prop :=
  weight c = weight c' /\ mts_weights c = mts_weights c' /\ (weight c <> 0 -> c = c').
Theorem idle_components_do_not_contribute n open cs cs' : Forall2 same_but_idle cs cs' ->
  (forall b k, f_combine n open cs b k = f_combine n open cs' b k) /\
  (forall b, pot_combine n open cs b = pot_combine n open cs' b) /\
  (forall b k, vir_combine n open cs b k = vir_combine n open cs' b k).
Proof.
  intros H.
  assert (D : forall x, declared cs x = declared cs' x).
  { intros x. unfold declared. induction H as [|c c' cs cs' (Hw & Hm & Heq) H IH]; [easy|].
    cbn [map Rsuml]. rewrite IH. f_equal. destruct (Req_EM_T (weight c) 0) as [E|E].
    - rewrite <- Hw, E. ring.
    - now rewrite (Heq E). }
  split; [|split]; intros; rewrite ?total_force_is_declared, ?total_potential_is_declared, ?total_virial_is_declared; apply D.
Qed.

(** The force is minus the gradient of the potential energy reported for the ring. A force
    field gives potential and force of one structure. *)
Record ffield := mkFF { f_w : R; f_mts : list R; f_nb : nat; f_V : (nat -> R) -> R; f_F : (nat -> R) -> nat -> R; f_virs : mat }.
Definition at_ (n : nat) (open : list nat) (q : mat) (f : ffield) : comp :=
  let qc := rescale_b1tob2 n (f_nb f) open true q in
  mkC (f_w f) (f_mts f) (f_nb f) (fun b => f_F f (qc b)) (fun b => f_V f (qc b)) (f_virs f).
Definition conservative (ncol : nat) (f : ffield) : Prop :=
  (forall x y, (forall c, x c = y c) -> f_V f x = f_V f y) /\
  forall x dir, derivable_pt_lim (fun t => f_V f (fun c => x c + t * dir c)) 0 (- Rsum ncol (fun c => f_F f x c * dir c)).

Lemma derivable_list {A} (l : list A) (f : A -> R -> R) (d : A -> R) x :
  (forall a, In a l -> derivable_pt_lim (f a) x (d a)) ->
  derivable_pt_lim (fun t => Rsuml (map (fun a => f a t) l)) x (Rsuml (map d l)).
Proof.
  induction l as [|a l IH]; intros H; cbn [map Rsuml].
  - apply derivable_pt_lim_const.
  - apply derivable_pt_lim_plus; [apply H; now left | apply IH; intros; apply H; now right].
Qed.

Lemma pot_declared n open cs : pot n open cs = declared cs (fun c => Rsum n (fun b => expand_p n open c b 0%nat)).
Proof.
  unfold pot. erewrite Rsum_ext; [|intros; apply total_potential_is_declared]. unfold declared.
  rewrite <- Rsuml_map_Rsum. apply Rsuml_map_ext. intros c _. now rewrite Rsum_scal.
Qed.

Theorem total_force_is_gradient n ncol open fs q d : (0 < n)%nat ->
  (forall c, (c < ncol)%nat -> consistent open true c) ->
  (forall f, In f fs -> (0 < f_nb f)%nat /\ conservative ncol f) ->
  derivable_pt_lim (fun t => pot n open (map (at_ n open (fun b c => q b c + t * d b c)) fs)) 0
    (- Rsum n (fun b => Rsum ncol (fun c => f_combine n open (map (at_ n open q) fs) b c * d b c))).
Proof.
  intros Hn Hc Hf.
  apply (derivable_ext (fun t => Rsuml (map (fun f => f_w f * Rsuml (f_mts f) *
     Rsum n (fun b => expand_p n open (at_ n open (fun b c => q b c + t * d b c) f) b 0%nat)) fs))).
  { intros t. rewrite pot_declared. unfold declared. now rewrite map_map. }
  eapply derivable_eq; [|apply derivable_list with (d := fun f => f_w f * Rsuml (f_mts f) *
     - Rsum n (fun b => Rsum ncol (fun c => expand_f n open (at_ n open q f) b c * d b c)))].
  - transitivity (- Rsuml (map (fun f => f_w f * Rsuml (f_mts f) * Rsum n (fun b => Rsum ncol (fun c => expand_f n open (at_ n open q f) b c * d b c))) fs)).
    + match goal with |- _ = - Rsuml (map ?g fs) => transitivity ((-1) * Rsuml (map g fs)); [|ring] end.
      rewrite <- Rsuml_map_scal. apply Rsuml_map_ext. intros; ring.
    + f_equal. symmetry.
      erewrite Rsum_ext; [|intros b _; apply Rsum_ext; intros c _; rewrite total_force_is_declared; unfold declared; rewrite map_map; cbn [weight mts_weights at_]; reflexivity].
      induction fs as [|f fs IH]; cbn [map Rsuml].
      * apply Rsum_0. intros. apply Rsum_0. intros. ring.
      * rewrite <- IH by (intros; apply Hf; now right). rewrite <- Rsum_scal, <- Rsum_plus. apply Rsum_ext. intros b _.
        rewrite <- Rsum_scal, <- Rsum_plus. apply Rsum_ext. intros c _. ring.
  - intros f Hin. destruct (Hf f Hin) as (Hnb & Hext & Hgr).
    apply (derivable_pt_lim_scal (fun t => Rsum n (fun b => expand_p n open (at_ n open (fun b c => q b c + t * d b c) f) b 0%nat))).
    apply (contracted_force_is_gradient n (f_nb f) ncol open (f_V f) (fun b => f_F f (rescale_b1tob2 n (f_nb f) open true q b)) q d); try easy.
Qed.

(** Components of weight zero are neither run nor read, whatever mixture of total forces,
    level forces and level virials is requested while the positions change. *)
Section Idle.
Context {X Y : Type}.
Variable ff : nat -> X -> Y.
Variable ws : list (@comp_w R).
Inductive request := GetF | GetFm (l : nat) | GetVm (l : nat) | Move (x : X).
Definition traffic (r : request) : @op X :=
  match r with GetF => get_f nz ws | GetFm l => get_f_mts nz ws l | GetVm l => get_v_mts nz ws l | Move x => Set_ x end.

Lemma comps_queue_other i j (s : @st X Y) : i <> j -> comps (queue i s) j = comps s j /\ trace (queue i s) = trace s.
Proof.
  intros H. unfold queue. destruct (req _); [easy|]. destruct (tainted _); [|easy]. split; [|easy]. cbn. unfold BeadModel.upd.
  destruct (Nat.eqb_spec j i); [congruence|easy].
Qed.
Lemma comps_read_other i j (s : @st X Y) : i <> j -> comps (read ff i s) j = comps s j /\
  forall e, In e (trace (read ff i s)) -> s_comp e = j -> In e (trace s).
Proof.
  intros H. unfold read. destruct (tainted _).
  - cbn. unfold BeadModel.upd. destruct (Nat.eqb_spec j i); [congruence|]. split; [apply (comps_queue_other i j s H)|].
    intros e He Hj. rewrite (proj2 (comps_queue_other i j s H)) in He. apply in_app_iff in He. destruct He as [He|[<-|[]]]; [easy|cbn in Hj; congruence].
  - cbn. split; [easy|]. intros e He Hj. apply in_app_iff in He. destruct He as [He|[<-|[]]]; [easy|cbn in Hj; congruence].
Qed.
Definition untouched (i : nat) (s : @st X Y) : Prop :=
  req (comps s i) = None /\ cached (comps s i) = None /\ forall e, In e (trace s) -> s_comp e <> i.
Lemma untouched_queues i qs s : ~ In i qs -> untouched i s -> untouched i (fold_left (fun s i => queue i s) qs s).
Proof.
  revert s. induction qs as [|j qs IH]; intros s H U; [easy|]. cbn. apply IH; [intros G; apply H; now right|].
  assert (Hj : j <> i) by (intros ->; apply H; now left). destruct (comps_queue_other j i s Hj) as [E1 E2].
  unfold untouched. rewrite E1, E2. exact U.
Qed.
Lemma untouched_reads i rs s : ~ In i rs -> untouched i s -> untouched i (fold_left (fun s i => read ff i s) rs s).
Proof.
  revert s. induction rs as [|j rs IH]; intros s H U; [easy|]. cbn. apply IH; [intros G; apply H; now right|].
  assert (Hj : j <> i) by (intros ->; apply H; now left). destruct (comps_read_other j i s Hj) as [E1 E2].
  unfold untouched. rewrite E1. split; [apply U|]. split; [apply U|]. intros e He Hi. apply (proj2 (proj2 U) e); [|easy]. now apply E2.
Qed.
Lemma pick_not f i c : nth_error ws i = Some c -> f c = false -> ~ In i (pick f ws).
Proof. intros H Hf Hin. unfold pick in Hin. apply filter_In in Hin. rewrite H, Hf in Hin. easy. Qed.

Theorem idle_components_never_run i c x0 rs : nth_error ws i = Some c -> BeadModel.weight c = 0 -> mtsw c <> [] ->
  untouched i (run ff (map traffic rs) (init x0)).
Proof.
  intros Hi Hw Hm.
  assert (Z : nz (BeadModel.weight c) = false) by now apply nz_false.
  assert (Q : forall l, queues nz c l = false).
  { intros l. unfold queues. rewrite Z, andb_false_r, orb_false_r. destruct (mtsw c); [easy|easy]. }
  assert (V : forall l, reads_v nz c l = false) by (intros l; unfold reads_v; now rewrite Z, andb_false_r).
  unfold run. assert (G : forall s, untouched i s -> untouched i (fold_left (exec ff) (map traffic rs) s)).
  { induction rs as [|r rs IH]; intros s U; [easy|]. cbn [map fold_left]. apply IH. destruct r as [|l|l|x]; cbn [traffic exec].
    - unfold get_f, gather. cbn [exec]. apply untouched_reads; [now apply (pick_not _ i c)|]. apply untouched_queues; [now apply (pick_not _ i c)|easy].
    - unfold get_f_mts, gather. cbn [exec]. apply untouched_reads; [now apply (pick_not _ i c)|]. apply untouched_queues; [now apply (pick_not _ i c)|easy].
    - unfold get_v_mts, gather. cbn [exec]. apply untouched_reads; [now apply (pick_not _ i c)|]. apply untouched_queues; [now apply (pick_not _ i c)|easy].
    - exact U. }
  apply G. split; [easy|]. split; [easy|]. intros e [].
Qed.
End Idle.

(** ** False statements *)
(** With an empty list of level weights the component is lost: there are no levels and the
    total force is zero although the weight is one (the comment in the code says that such forces
    are applied at the outer level; that branch is reachable for no bound system). *)
Definition plain (f : R) (m : list R) : comp := mkC 1 m 1 (fun _ _ => f) (fun _ => f) (fun _ _ => f).
Theorem forces_without_levels_applied_refuted : exists c, weight c = 1 /\ cf c 0%nat 0%nat = 5 /\
  get_nmtslevels [c] = Ok 0%nat /\ all_levels 1 [] [c] = Ok [] /\ f_combine 1 [] [c] 0%nat 0%nat = 0 /\
  get_forces_mts 1 [] [c] 0 = IndexError.
Proof.
  exists (plain 5 []). repeat split. rewrite total_force_is_declared. unfold declared, plain. cbn. ring.
Qed.
(** The per-component outputs leave the level weights out, so that they do not add up to the
    total ... *)
Theorem component_outputs_add_up_refuted : exists cs,
  f_combine 1 [] cs 0%nat 0%nat <> Rsuml (map (fun c => forces_component true 1 [] c 0%nat 0%nat) cs) /\
  pot 1 [] cs <> Rsuml (map (fun c => Rsum 1 (pots_component true 1 [] c)) cs) /\
  get_nmtslevels cs = Ok 2%nat.
Proof.
  exists [plain 5 [1; 1]].
  assert (E : expand_f 1 [] (plain 5 [1; 1]) 0%nat 0%nat = 5) by (unfold expand_f, rescale_b2tob1; now cbn).
  assert (N : nz 1 = true) by (apply nz_true; lra).
  split; [|split; [|reflexivity]].
  - rewrite total_force_is_declared. unfold declared, forces_component, component. cbn [map Rsuml weight plain mts_weights].
    rewrite N. cbn [andb negb]. fold (plain 5 [1;1]). rewrite E. lra.
  - rewrite pot_declared. unfold declared, pots_component, component. cbn [map Rsuml weight plain mts_weights Rsum].
    rewrite N. cbn [andb negb]. unfold expand_p, rescale_b2tob1. cbn. lra.
Qed.
(** Asked for without the weight they are the component's own values, even if its weight is zero;
    with it they are multiplied by the weight. *)
Theorem component_outputs_raw n open c b k :
  forces_component false n open c b k = expand_f n open c b k /\
  pots_component false n open c b = expand_p n open c b 0%nat /\
  virs_component false n open c b k = expand_v n open c b k /\
  forces_component true n open c b k = weight c * expand_f n open c b k /\
  pots_component true n open c b = weight c * expand_p n open c b 0%nat /\
  virs_component true n open c b k = weight c * expand_v n open c b k.
Proof.
  unfold forces_component, pots_component, virs_component, component. cbn [andb].
  repeat split; try ring; destruct (nz (weight c)) eqn:E; cbn [negb]; try ring; apply nz_false in E; rewrite E; unfold zeros; ring.
Qed.
(** ... unless the level weights of every component add up to one. *)
Theorem component_outputs_add_up_partial n open cs : (forall c, In c cs -> Rsuml (mts_weights c) = 1) ->
  (forall b k, f_combine n open cs b k = Rsuml (map (fun c => forces_component true n open c b k) cs)) /\
  pot n open cs = Rsuml (map (fun c => Rsum n (pots_component true n open c)) cs) /\
  (forall b k, vir_combine n open cs b k = Rsuml (map (fun c => virs_component true n open c b k) cs)).
Proof.
  intros H.
  assert (G : forall (ex : comp -> mat) b k, declared cs (fun c => ex c b k) = Rsuml (map (fun c => component true c (ex c) b k) cs)).
  { intros ex b k. unfold declared. apply Rsuml_map_ext. intros c Hc. rewrite (H c Hc). unfold component. cbn [andb].
    destruct (nz (weight c)) eqn:E; cbn [negb]; [ring|]. apply nz_false in E. unfold zeros. rewrite E. ring. }
  split; [|split].
  - intros b k. rewrite total_force_is_declared. apply (G (expand_f n open)).
  - unfold pot. erewrite Rsum_ext; [|intros b _; rewrite total_potential_is_declared; apply (G (expand_p n open))].
    now rewrite Rsuml_map_Rsum.
  - intros b k. rewrite total_virial_is_declared. apply (G (expand_v n open)).
Qed.

Print Assumptions total_force_is_declared.
Print Assumptions total_potential_is_declared.
Print Assumptions total_virial_is_declared.
Print Assumptions levels_add_up.
Print Assumptions virial_levels_add_up.
Print Assumptions unequal_levels_refused.
Print Assumptions idle_components_do_not_contribute.
Print Assumptions total_force_is_gradient.
Print Assumptions idle_components_never_run.
Print Assumptions forces_without_levels_applied_refuted.
Print Assumptions component_outputs_add_up_refuted.
Print Assumptions component_outputs_add_up_partial.
Print Assumptions component_outputs_raw.

(** ** Cases *)
(** Two levels, three components, one of them idle, on a
    ring of two beads: the outer level gets 2*1*3 = 6, the inner one 2*(1/2)*3 + (1/2)*4*8 = 19. *)
Definition demo : list comp :=
  [mkC 2 [1; / 2] 2 (fun _ _ => 3) (fun _ => 1) (fun _ _ => 7);
   mkC 0 [1; 1] 2 (fun _ _ => 100) (fun _ => 100) (fun _ _ => 100);
   mkC (/ 2) [0; 4] 2 (fun _ _ => 8) (fun _ => 2) (fun _ _ => 1)].
Example demo_levels : get_nmtslevels demo = Ok 2%nat /\
  (exists m0 m1, get_forces_mts 2 [] demo 0 = Ok m0 /\ get_forces_mts 2 [] demo 1 = Ok m1 /\
    m0 1%nat 0%nat = 6 /\ m1 1%nat 0%nat = 19) /\
  f_combine 2 [] demo 1%nat 0%nat = 25 /\ pot 2 [] demo = 14.
Proof.
  split; [reflexivity|]. split.
  - destruct (forces_mts_total 2 [] 0 demo) as (m0 & H0 & E0); [intros c [<-|[<-|[<-|[]]]]; cbn; lia|].
    destruct (forces_mts_total 2 [] 1 demo) as (m1 & H1 & E1); [intros c [<-|[<-|[<-|[]]]]; cbn; lia|].
    exists m0, m1. split; [exact H0|]. split; [exact H1|]. rewrite E0, E1. unfold level_coeff, expand_f, rescale_b2tob1. cbn. split; field.
  - split; [rewrite total_force_is_declared|rewrite pot_declared]; unfold declared, expand_f, expand_p, rescale_b2tob1; cbn; field.
Qed.
(** A harmonic force field with one coordinate is conservative, on any number of beads. *)
Example harmonic_case k nb : conservative 1 (mkFF 2 [1; / 2] nb (fun x => k / 2 * (x 0%nat * x 0%nat)) (fun x c => - k * x 0%nat) (fun _ _ => 0)).
Proof.
  split; cbn; [intros x y H; now rewrite (H 0%nat)|]. intros x dir.
  eapply derivable_eq; [|apply (derivable_pt_lim_scal (fun t => (x 0%nat + t * dir 0%nat) * (x 0%nat + t * dir 0%nat)) (k / 2) 0
     ((1 * dir 0%nat) * (x 0%nat + 0 * dir 0%nat) + (x 0%nat + 0 * dir 0%nat) * (1 * dir 0%nat)))].
  - field.
  - assert (L : derivable_pt_lim (fun t => x 0%nat + t * dir 0%nat) 0 (1 * dir 0%nat)).
    { eapply derivable_eq; [|apply (derivable_pt_lim_plus (fun _ => x 0%nat) (fun t => t * dir 0%nat) 0 0 (1 * dir 0%nat + 0 * 0))]; [ring|apply derivable_pt_lim_const|].
      apply (derivable_pt_lim_mult id (fun _ => dir 0%nat)); [apply derivable_pt_lim_id|apply derivable_pt_lim_const]. }
    apply (derivable_pt_lim_mult _ _ 0 _ _ L L).
Qed.
(** An idle component between two active ones; positions change while forces are read. *)
Example idle_case : let ws := [mkW 1 [1; 1]; mkW 0 [1; 0]; mkW 2 [0; 1]] in
  nth_error ws 1 = Some (mkW 0 [1; 0]) /\ untouched 1 (run (fun i (x : nat) => (i + x)%nat) (map (traffic ws) [GetF; Move 5%nat; GetFm 0; GetVm 1; Move 7%nat; GetF]) (init 3%nat)).
Proof.
  cbv zeta. split; [reflexivity|]. apply (idle_components_never_run _ _ 1 (mkW 0 [1; 0])); [reflexivity|reflexivity|discriminate].
Qed.
