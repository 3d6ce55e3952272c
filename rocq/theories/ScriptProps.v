(** Properties of the scripting interface (C244-C248). *)
Require Import String List Arith Bool Lia Reals Lra Ascii DecimalString.
From Verif Require Import ScriptModel.
Import ListNotations.
Local Open Scope nat_scope.
Local Open Scope list_scope.

(** * C244: stepping from a script *)
Section Run.
Variable D : Type.
Variable adv : nat -> D -> D.
Variable fin : nat -> D -> bool.
Variable stop : nat -> bool.
Variable safe : nat.
Variable outs : list nat.
Notation isim := (isim D).
Notation run := (run D adv fin stop safe outs).
Notation loop := (loop D adv fin stop safe outs).
Notation sim_run := (sim_run D adv fin stop safe outs).

(** the trajectory: [n] steps from step [k] *)
Fixpoint evolve (k n : nat) (d : D) : D :=
  match n with 0 => d | S n => evolve (S k) n (adv k d) end.
Lemma evolve_add a : forall b k d, evolve k (a + b) d = evolve (k + a) b (evolve k a d).
Proof.
  induction a as [|a IH]; intros b k d; cbn [evolve Nat.add]; [now rewrite Nat.add_0_r|].
  rewrite IH. now replace (S k + a) with (k + S a) by lia.
Qed.

(** the frames of the outputs for the steps k+1 .. k+n *)
Definition frames (k n : nat) (d : D) : list (nat * nat * D) :=
  flat_map (fun j => frame_at D outs (k + j) (evolve k j d)) (seq 1 n).
Lemma frames_succ k n d : frames k (S n) d = frame_at D outs (S k) (adv k d) ++ frames (S k) n (adv k d).
Proof.
  unfold frames. cbn [seq flat_map]. f_equal; [now rewrite Nat.add_1_r|].
  rewrite <- seq_shift, !flat_map_concat_map, map_map. f_equal. apply map_ext. intros j.
  cbn [evolve]. now replace (k + S j) with (S k + j) by lia.
Qed.

(** ** without finished motions or exit *)
Section Quiet.
Hypothesis nofin : forall k d, fin k d = false.
Hypothesis nostop : forall k, stop k = false.
Lemma loop_quiet wo n : forall k s, finished s = false -> 0 < n ->
  step (loop wo n k s) = k + n - 1 /\ data (loop wo n k s) = evolve k n (data s) /\ finished (loop wo n k s) = false /\
  restart (loop wo n k s) = restart s /\ log (loop wo n k s) = log s ++ (if wo then frames k n (data s) else []).
Proof.
  induction n as [|n IH]; intros k s F N; [lia|]. cbn [ScriptModel.loop].
  cbn [at_step finished]. rewrite F.
  set (t := if k mod safe =? 0 then store D (at_step D s k) else at_step D s k).
  assert (T : step t = k /\ data t = data s /\ finished t = false /\ restart t = restart s /\ log t = log s).
  { subst t. destruct (k mod safe =? 0); cbn; auto. }
  destruct T as (T1 & T2 & T3 & T4 & T5).
  unfold run_step. rewrite T1, T2, T4, T5, nofin. cbn [finished]. rewrite nostop.
  destruct n as [|n].
  - cbn [ScriptModel.loop]. destruct wo; cbn; repeat split; try lia.
    + unfold frames. cbn. now rewrite app_nil_r, Nat.add_1_r.
    + now rewrite app_nil_r.
  - set (u := if wo then _ else _).
    assert (U : finished u = false /\ data u = adv k (data s) /\ restart u = restart s /\ log u = log s ++ (if wo then frame_at D outs (S k) (adv k (data s)) else [])).
    { subst u. destruct wo; cbn; rewrite ?app_nil_r; auto. }
    destruct U as (U1 & U2 & U3 & U4). specialize (IH (S k) u U1 (Nat.lt_0_succ n)).
    destruct IH as (I1 & I2 & I3 & I4 & I5). rewrite I1, I2, I3, I4, I5, U2, U3, U4.
    repeat split; [lia|]. rewrite <- app_assoc. f_equal. destruct wo; [|reflexivity]. now rewrite (frames_succ k (S n)).
Qed.
Definition first (wo : bool) (s : isim) : list (nat * nat * D) :=
  if (step s =? 0) && wo then frame_at D outs 0 (data s) else [].
(** [n] steps are made, all frames of the outputs due are written once, and the
    RESTART file has the state after the last of them. *)
Theorem interactive_run n wo s : finished s = false -> 0 < n ->
  run n wo s = mkis (step s + n) (evolve (step s) n (data s)) false (step s + n, evolve (step s) n (data s))
    (log s ++ first wo s ++ (if wo then frames (step s) n (data s) else []))
    (Some (step s + n, evolve (step s) n (data s))).
Proof.
  intros F N. unfold ScriptModel.run, ScriptModel.sim_run, checkpoint, at_step. cbn [step data finished chk log restart].
  set (t := if (step s =? 0) && wo then write D outs s 0 else s).
  assert (T : step t = step s /\ data t = data s /\ finished t = false /\ log t = log s ++ first wo s).
  { subst t. unfold first. destruct ((step s =? 0) && wo); cbn; rewrite ?app_nil_r; auto. }
  destruct T as (T1 & T2 & T3 & T4).
  destruct (loop_quiet wo n (step t) t T3 N) as (L1 & L2 & L3 & L4 & L5).
  rewrite L1, L2, L3, L5, T1, T2, T4. replace (S (step s + n - 1)) with (step s + n) by lia.
  now rewrite <- app_assoc.
Qed.
(** Stopping to look at the simulation changes nothing. *)
Theorem interactive_split a b wo s : finished s = false -> 0 < a -> 0 < b -> run b wo (run a wo s) = run (a + b) wo s.
Proof.
  intros F A B. rewrite (interactive_run (a + b) wo s F) by lia. rewrite (interactive_run a wo s F A).
  rewrite interactive_run by (auto; lia). cbn [step data log].
  rewrite evolve_add, Nat.add_assoc. f_equal. rewrite <- !app_assoc. f_equal. f_equal.
  unfold first. cbn [step]. replace (step s + a =? 0) with false by (symmetry; apply Nat.eqb_neq; lia). cbn [andb app].
  destruct wo; [|reflexivity]. unfold frames. rewrite seq_app, flat_map_app. f_equal.
  rewrite !flat_map_concat_map. f_equal.
  replace (seq (1 + a) b) with (map (fun j => a + j) (seq 1 b)).
  2:{ clear. revert a. induction b as [|b IH] using nat_ind; intros a; [reflexivity|].
      rewrite !seq_S, map_app, IH. cbn [map]. f_equal. f_equal. lia. }
  rewrite map_map. apply map_ext. intros j. rewrite Nat.add_assoc. now rewrite evolve_add.
Qed.
Theorem interactive_script l wo : forall s, finished s = false -> l <> [] -> Forall (fun n => 0 < n) l ->
  fold_left (fun s n => run n wo s) l s = run (list_sum l) wo s.
Proof.
  induction l as [|a l IH]; intros s F L P; [congruence|]. inversion P as [|? ? A Q]; subst. cbn [fold_left list_sum fold_right].
  destruct l as [|b l]; [cbn; now rewrite Nat.add_0_r|].
  assert (S0 : 0 < list_sum (b :: l)) by (inversion Q; subst; cbn; lia).
  rewrite IH; [now apply interactive_split| |discriminate|exact Q].
  now rewrite (interactive_run a wo s F A).
Qed.
End Quiet.

(** ** whatever happens *)
Lemma loop_any wo n : forall k s, finished s = false -> 0 < n ->
  exists m, 1 <= m <= n /\ step (loop wo n k s) = k + m - 1 /\ data (loop wo n k s) = evolve k m (data s).
Proof.
  induction n as [|n IH]; intros k s F N; [lia|]. cbn [ScriptModel.loop]. cbn [at_step finished]. rewrite F.
  set (t := if k mod safe =? 0 then store D (at_step D s k) else at_step D s k).
  assert (T : step t = k /\ data t = data s) by (subst t; destruct (k mod safe =? 0); cbn; auto).
  destruct T as (T1 & T2). unfold run_step. rewrite T1, T2. cbn [finished].
  destruct (fin k (adv k (data s))) eqn:Fi. { exists 1. cbn. repeat split; lia. }
  set (u := if wo then _ else _).
  assert (U : finished u = false /\ data u = adv k (data s) /\ step u = k) by (subst u; destruct wo; cbn; auto).
  destruct U as (U1 & U2 & U3).
  destruct (stop k). { exists 1. cbn [evolve]. rewrite U2, U3. repeat split; lia. }
  destruct n as [|n]. { cbn [ScriptModel.loop]. exists 1. cbn [evolve]. rewrite U2, U3. repeat split; lia. }
  destruct (IH (S k) u U1 (Nat.lt_0_succ n)) as (m & M1 & M2 & M3). exists (S m). rewrite M2, M3, U2. cbn [evolve].
  repeat split; lia.
Qed.
(** Unless the simulation had finished before, the step counter counts the steps made and
    the RESTART file is the state after them, even if the run ends early. *)
Theorem interactive_count n wo s : finished s = false -> 0 < n ->
  exists m, 1 <= m <= n /\ step (run n wo s) = step s + m /\ data (run n wo s) = evolve (step s) m (data s) /\
    restart (run n wo s) = Some (step s + m, evolve (step s) m (data s)).
Proof.
  intros F N. unfold ScriptModel.run, ScriptModel.sim_run, checkpoint, at_step. cbn [step data finished chk log restart].
  set (t := if (step s =? 0) && wo then write D outs s 0 else s).
  assert (T : step t = step s /\ data t = data s /\ finished t = false).
  { subst t. destruct ((step s =? 0) && wo); cbn; auto. }
  destruct T as (T1 & T2 & T3). destruct (loop_any wo n (step t) t T3 N) as (m & M1 & M2 & M3).
  exists m. rewrite M2, M3, T1, T2. replace (S (step s + m - 1)) with (step s + m) by lia. auto.
Qed.

(** a soft exit at any time of a script: what it writes is on the trajectory *)
Definition good (k0 : nat) (d0 : D) (s : isim) : Prop :=
  k0 <= step s /\ data s = evolve k0 (step s - k0) d0 /\ k0 <= fst (chk s) /\ snd (chk s) = evolve k0 (fst (chk s) - k0) d0.
Lemma loop_chk wo k0 d0 n : forall k s, k0 <= k -> data s = evolve k0 (k - k0) d0 -> k0 <= fst (chk s) -> snd (chk s) = evolve k0 (fst (chk s) - k0) d0 ->
  k0 <= fst (chk (loop wo n k s)) /\ snd (chk (loop wo n k s)) = evolve k0 (fst (chk (loop wo n k s)) - k0) d0.
Proof.
  induction n as [|n IH]; intros k s K E C1 C2; cbn [ScriptModel.loop]; [auto|]. cbn [at_step finished].
  destruct (finished s); [cbn; auto|].
  set (t := if k mod safe =? 0 then store D (at_step D s k) else at_step D s k).
  assert (T : step t = k /\ data t = data s /\ k0 <= fst (chk t) /\ snd (chk t) = evolve k0 (fst (chk t) - k0) d0).
  { subst t. destruct (k mod safe =? 0); cbn; auto. }
  destruct T as (T1 & T2 & T3 & T4). unfold run_step. rewrite T1, T2. cbn [finished].
  destruct (fin k (adv k (data s))); [cbn; auto|].
  set (u := if wo then _ else _).
  assert (U : chk u = chk t /\ data u = adv k (data s)) by (subst u; destruct wo; cbn; auto).
  destruct U as (U1 & U2). destruct (stop k); [rewrite U1; auto|].
  apply IH; rewrite ?U1; auto. rewrite U2, E. replace (S k - k0) with ((k - k0) + 1) by lia. rewrite evolve_add. cbn [evolve].
  f_equal. lia.
Qed.
Lemma good_run n wo s k0 d0 : finished s = false -> 0 < n -> good k0 d0 s -> good k0 d0 (run n wo s).
Proof.
  intros F N (G1 & G2 & _ & _). destruct (interactive_count n wo s F N) as (m & M1 & M2 & M3 & M4).
  assert (C : chk (run n wo s) = (step (run n wo s), data (run n wo s))) by reflexivity.
  unfold good. rewrite C. cbn [fst snd]. rewrite M2, M3, G2.
  assert (Q : evolve (step s) m (evolve k0 (step s - k0) d0) = evolve k0 (step s + m - k0) d0).
  { replace (step s + m - k0) with ((step s - k0) + m) by lia. rewrite evolve_add. f_equal. lia. }
  rewrite Q. repeat split; lia.
Qed.
(** in the course of a run, [n] iterations after its start *)
Theorem interactive_exit n wo s k0 d0 : good k0 d0 s ->
  exists k, k0 <= k /\ restart (softexit D (sim_run n wo s)) = Some (k, evolve k0 (k - k0) d0).
Proof.
  intros (G1 & G2 & G3 & G4). unfold ScriptModel.sim_run, softexit. cbn [restart].
  set (t := if (step s =? 0) && wo then write D outs s 0 else s).
  assert (T : step t = step s /\ data t = data s /\ chk t = chk s) by (subst t; destruct ((step s =? 0) && wo); cbn; auto).
  destruct T as (T1 & T2 & T3).
  destruct (loop_chk wo k0 d0 n (step t) t) as (A & B); rewrite ?T1, ?T2, ?T3; auto.
  exists (fst (chk (loop wo n (step t) t))). rewrite T1 in *. split; [exact A|]. rewrite <- B. apply f_equal, surjective_pairing.
Qed.
Theorem interactive_exits (l : list nat) n wo k0 d0 : (forall k d, fin k d = false) -> Forall (fun n => 0 < n) l ->
  exists k, k0 <= k /\ restart (softexit D (sim_run n wo (fold_left (fun s n => run n wo s) l (new D k0 d0)))) = Some (k, evolve k0 (k - k0) d0).
Proof.
  intros NF P. apply interactive_exit.
  assert (G : good k0 d0 (new D k0 d0)) by (unfold good, new; cbn; rewrite Nat.sub_diag; auto).
  assert (F : finished (new D k0 d0) = false) by reflexivity.
  revert G F. generalize (new D k0 d0). induction P as [|a l A _ IH]; intros s G F; cbn [fold_left]; [exact G|].
  apply IH; [now apply good_run|]. clear - NF F A.
  unfold ScriptModel.run, ScriptModel.sim_run, checkpoint, at_step. cbn [finished].
  set (t := if (step s =? 0) && wo then write D outs s 0 else s).
  assert (T : finished t = false) by (subst t; destruct ((step s =? 0) && wo); auto).
  assert (L : forall k t, finished t = false -> finished (loop wo a k t) = false); [|now apply L].
  clear - NF. induction a as [|a IH]; intros k t T; cbn [ScriptModel.loop]; [auto|].
  cbn [at_step finished]. rewrite T. unfold run_step. cbn [finished]. rewrite NF.
  destruct (stop k); [destruct wo; reflexivity|]. apply IH. now destruct wo.
Qed.
End Run.

(** a simulation that counts its steps, one output at every step *)
Definition srun := run nat (fun _ => S) (fun _ _ => false) (fun _ => false) 1 [1].
Example script_case : srun 2 true (srun 3 true (new nat 0 0)) = mkis 5 5 false (5, 5)
  [(0, 0, 0); (0, 1, 1); (0, 2, 2); (0, 3, 3); (0, 4, 4); (0, 5, 5)] (Some (5, 5)).
Proof. reflexivity. Qed.
Example script_exit_case : restart (softexit nat (sim_run nat (fun _ => S) (fun _ _ => false) (fun _ => false) 4 [1] 3 true (srun 3 true (new nat 0 0)))) = Some (4, 4).
Proof. reflexivity. Qed.
(** run(0) makes no step but the counter and the RESTART file go on by one; the
    next frames are all late by one. *)
Theorem interactive_zero_refuted : exists s, finished s = false /\ step s = data s /\ step (srun 0 true s) = 1 /\ data (srun 0 true s) = 0 /\
  restart (srun 0 true s) = Some (1, 0) /\ log (srun 1 true (srun 0 true s)) = [(0, 0, 0); (0, 2, 1)].
Proof. exists (new nat 0 0). repeat split. Qed.
(** After a motion has finished every further run counts one step more. *)
Theorem interactive_finished_refuted : exists fin,
  let r := run nat (fun _ => S) fin (fun _ => false) 1 [] in
  let s := r 5 true (new nat 0 0) in
  (step s, data s) = (2, 2) /\ (step (r 5 true s), data (r 5 true s)) = (3, 2) /\ restart (r 5 true (r 5 true s)) = Some (4, 2).
Proof. exists (fun k _ => 1 <=? k). repeat split. Qed.
(** The initial frame is lost if the first run is made without outputs. *)
Theorem interactive_silent_refuted : exists a b, log (srun b true (srun a false (new nat 0 0))) = [(0, 2, 2)] /\ log (srun b true (new nat 0 0)) = [(0, 0, 0); (0, 1, 1)].
Proof. exists 1, 1. split; reflexivity. Qed.

(** * C245: properties *)
Section PropsOf.
Local Open Scope R_scope.
Local Open Scope string_scope.
Variable ase : string -> R.
Lemma all_some_map {A B} (f : A -> option B) (g : A -> B) l : (forall x, In x l -> f x = Some (g x)) -> all_some (map f l) = Some (map g l).
Proof.
  induction l as [|x l IH]; intros H; [reflexivity|]. cbn [map all_some]. rewrite (H x (or_introl eq_refl)).
  rewrite IH; [reflexivity|]. intros y Y. apply H. now right.
Qed.
(** Values come in ASE units, system by system; a single one is not put in a list. *)
Theorem interactive_properties l : (forall v d u, In (v, d, u) l -> d <> "number" /\ In d ase_families) ->
  properties ase l = Some (flat (map (fun x => map (fun y => y / ase (snd (fst x))) (fst (fst x))) l)).
Proof.
  intros H. unfold properties. rewrite (all_some_map _ (fun x => map (fun y => y / ase (snd (fst x))) (fst (fst x)))); [reflexivity|].
  intros [[v d] u] I. cbn [fst snd]. destruct (H v d u I) as (N & F). unfold to_ase.
  rewrite (proj2 (String.eqb_neq d "number") N).
  assert (E : existsb (String.eqb d) ase_families = true) by (apply existsb_exists; exists d; split; [exact F|apply String.eqb_refl]).
  rewrite E. f_equal. apply map_ext. intros y. unfold Rdiv. ring.
Qed.
(** The unit asked for is not used. *)
Theorem interactive_unit_refuted : exists l l', map (fun x => snd x) l <> map (fun x => snd x) l' /\ properties ase l = properties ase l' /\
  properties ase l = Some (One [3 / ase "length"]).
Proof.
  exists [([3], "length", "angstrom")], [([3], "length", "meter")]. split; [cbn; congruence|]. split; [reflexivity|].
  cbn. f_equal. f_equal. f_equal. unfold Rdiv. ring.
Qed.
(** Properties declared with an empty dimension (hweights_component, bweights_component,
    properties.py) cannot be fetched, though they can be written to a file. *)
Theorem interactive_dimension_refuted v u : properties ase [(v, "", u)] = None.
Proof. reflexivity. Qed.
Example properties_case : properties ase [([3], "energy", ""); ([5], "energy", "kelvin")] = Some (Many [[3 / ase "energy"]; [5 / ase "energy"]]).
Proof.
  rewrite interactive_properties; [reflexivity|]. intros v d u [E|[E|[]]]; inversion E; subst; split; try congruence; cbn; auto.
Qed.
End PropsOf.

(** * C246: structures *)
Section StructOf.
Local Open Scope R_scope.
Variable ul um : R.
Hypothesis Hl : ul <> 0.
Hypothesis Hm : um <> 0.
Lemma int_user u l : u <> 0 -> to_int u (to_user u l) = l.
Proof.
  intros U. unfold to_int, to_user. rewrite map_map. rewrite <- (map_id l) at 2. apply map_ext. intros x. field. exact U.
Qed.
Lemma user_int u l : u <> 0 -> to_user u (to_int u l) = l.
Proof.
  intros U. unfold to_int, to_user. rewrite map_map. rewrite <- (map_id l) at 2. apply map_ext. intros x. field. exact U.
Qed.
Lemma transp_transp h : length h = 9%nat -> transp (transp h) = h.
Proof. do 10 (destruct h as [|? h]; try discriminate). reflexivity. Qed.
Lemma transp_to_user u h : length h = 9%nat -> transp (to_user u h) = to_user u (transp h).
Proof. do 10 (destruct h as [|? h]; try discriminate). reflexivity. Qed.
Lemma cell_back h : length h = 9%nat -> to_int ul (transp (to_user ul (transp h))) = h.
Proof.
  intros L. rewrite <- transp_to_user by exact L. rewrite transp_transp by (unfold to_user; now rewrite map_length). now apply int_user.
Qed.
Lemma set_beads_get s : length (cell s) = 9%nat -> forall l n, skipn n (beads s) = l -> (n <= length (beads s))%nat ->
  set_beads ul um n s (map (fun b => Leaf (get_bead ul um (cell s) b)) l) = Some s.
Proof.
  intros C l. induction l as [|b l IH]; intros n E N; [reflexivity|]. cbn [map set_beads].
  assert (L : (n < length (beads s))%nat).
  { destruct (Nat.lt_ge_cases n (length (beads s))) as [A|A]; [exact A|]. rewrite skipn_all2 in E by exact A. discriminate. }
  rewrite (proj2 (Nat.ltb_lt _ _) L). cbn [get_bead pos mom scell].
  rewrite !int_user by assumption. rewrite cell_back by exact C.
  assert (S1 : skipn (S n) (beads s) = l).
  { clear - E. revert n E. induction (beads s) as [|x r IHr]; intros n E; [now rewrite skipn_nil in E|]. destruct n as [|n]; cbn in *; [now inversion E|now apply IHr]. }
  assert (Q : firstn n (beads s) ++ (fst b, snd b) :: skipn (S n) (beads s) = beads s).
  { rewrite S1, <- surjective_pairing, <- E. apply firstn_skipn. }
  rewrite Q. destruct s as [bs h]. cbn [beads cell] in *. apply IH; [exact S1|lia].
Qed.
Lemma set_systems_get sys : Forall (fun s => beads s <> [] /\ length (cell s) = 9%nat) sys ->
  set_systems ul um sys (map (fun s => flatten (map (fun b => Leaf (get_bead ul um (cell s) b)) (beads s))) sys) = Some sys.
Proof.
  induction 1 as [|s sys (B & C) _ IH]; [reflexivity|]. cbn [map set_systems]. rewrite IH.
  assert (Q := set_beads_get s C (beads s) 0 eq_refl (Nat.le_0_l _)).
  destruct (beads s) as [|b [|b' r]] eqn:E; [congruence| |]; cbn [length Nat.eqb map flatten] in *; now rewrite Q.
Qed.
(** Setting what has just been read changes nothing, for any number of systems and beads. *)
Theorem structures_round_trip sys : Forall (fun s => beads s <> [] /\ length (cell s) = 9%nat) sys ->
  set_structures ul um sys (get_structures ul um sys) = Some sys.
Proof.
  intros H. assert (Q := set_systems_get sys H). unfold set_structures, get_structures.
  destruct sys as [|s [|s' r]]; [reflexivity| |]; cbn [length Nat.eqb map flatten] in *; exact Q.
Qed.

(** What is set is what is read afterwards, when all the structures of a system
    have the same cell. *)
Definition struc_ok (h : list R) (p : struc) : Prop := (exists m, mom p = Some m) /\ scell p = h /\ length h = 9%nat.
Definition bead_of (p : struc) : list R * list R := (to_int ul (pos p), match mom p with Some m => to_int um m | None => [] end).
Lemma set_beads_all h l : Forall (struc_ok h) l -> forall n s, (n + length l = length (beads s))%nat -> (n = 0%nat \/ cell s = to_int ul (transp h)) -> l <> [] ->
  set_beads ul um n s (map Leaf l) = Some (mksy (firstn n (beads s) ++ map bead_of l) (to_int ul (transp h))).
Proof.
  induction 1 as [|t l (M & E & H9) _ IH]; intros n s L N C; [congruence|]. cbn [map set_beads length] in *.
  rewrite (proj2 (Nat.ltb_lt n (length (beads s)))) by lia. destruct M as (m & M). rewrite M, E.
  set (bs := firstn n (beads s) ++ (to_int ul (pos t), to_int um m) :: skipn (S n) (beads s)).
  assert (Lb : length bs = length (beads s)).
  { unfold bs. rewrite app_length, firstn_length. cbn [length]. rewrite skipn_length. lia. }
  assert (Fb : firstn (S n) bs = firstn n (beads s) ++ [bead_of t]).
  { unfold bs, bead_of. rewrite M, firstn_app, firstn_length. replace (S n - Nat.min n (length (beads s)))%nat with 1%nat by lia.
    rewrite firstn_firstn. replace (Nat.min (S n) n) with n by lia. reflexivity. }
  destruct l as [|t' l].
  - cbn [map set_beads]. f_equal. f_equal. rewrite <- Fb. symmetry. apply firstn_all2. cbn [length] in L. lia.
  - rewrite IH; [|cbn [beads]; rewrite Lb; lia|now right|discriminate]. cbn [beads]. rewrite Fb, <- app_assoc. reflexivity.
Qed.
Theorem structures_set s l h : Forall (struc_ok h) l -> length l = length (beads s) -> l <> [] ->
  exists s', set_structures ul um [s] (flatten (map Leaf l)) = Some [s'] /\ get_structures ul um [s'] = flatten (map Leaf l).
Proof.
  intros F L N. assert (Q := set_beads_all h l F 0 s L (or_introl eq_refl) N). cbn [firstn app] in Q.
  exists (mksy (map bead_of l) (to_int ul (transp h))). split.
  - unfold set_structures. cbn [length Nat.eqb set_systems]. rewrite <- L.
    destruct l as [|t [|t' r]]; [congruence| |]; cbn [length Nat.eqb map flatten] in *; now rewrite Q.
  - unfold get_structures. cbn [map flatten beads cell]. f_equal. rewrite map_map. apply map_ext_in. intros t I. f_equal.
    rewrite Forall_forall in F. destruct (F t I) as ((m & M) & E & H9). unfold get_bead, bead_of. cbn [fst snd]. rewrite M.
    rewrite !user_int by assumption. destruct t as [q p c]. cbn [pos mom scell] in *. subst p c. f_equal.
    assert (T : transp (to_int ul (transp h)) = to_int ul h).
    { clear - H9. do 10 (destruct h as [|? h]; try discriminate). reflexivity. }
    rewrite T. now apply user_int.
Qed.
(** With different cells the last one stands for all beads. *)
Theorem structures_cell_refuted : exists s t1 t2 s', scell t1 <> scell t2 /\ set_structures ul um [s] (Node [Leaf t1; Leaf t2]) = Some [s'] /\
  cell s' = to_int ul (transp (scell t2)) /\ get_structures ul um [s'] <> Node [Leaf t1; Leaf t2].
Proof.
  pose (h1 := [1; 0; 0; 0; 1; 0; 0; 0; 1]). pose (h2 := [2; 0; 0; 0; 2; 0; 0; 0; 2]).
  exists (mksy [([], []); ([], [])] h1), (mkst [] (Some []) h1), (mkst [] (Some []) h2), (mksy [([], []); ([], [])] (to_int ul (transp h2))).
  assert (D : h1 <> h2) by (intros A; inversion A; lra).
  split; [exact D|]. split; [reflexivity|]. split; [reflexivity|].
  intros A. cbn in A. injection A. intros. lra.
Qed.
(** Fewer structures than beads are accepted; the other beads keep what they had. *)
Theorem structures_short_refuted : exists s t s', length (beads s) = 3%nat /\ set_structures ul um [s] (Node [Leaf t]) = Some [s'] /\
  nth 1 (beads s') ([], []) = nth 1 (beads s) ([], []) /\ nth 1 (beads s) ([], []) = ([7], [8]).
Proof.
  exists (mksy [([1], [2]); ([7], [8]); ([7], [8])] [1; 0; 0; 0; 1; 0; 0; 0; 1]), (mkst [5] None [1; 0; 0; 0; 1; 0; 0; 0; 1]).
  eexists. split; [reflexivity|]. split; [reflexivity|]. split; reflexivity.
Qed.
Example structures_case : let I3 := [1; 0; 0; 0; 1; 0; 0; 0; 1] in let sys := [mksy [([1], [2])] I3; mksy [([3], [4]); ([5], [6])] I3] in
  set_structures ul um sys (get_structures ul um sys) = Some sys.
Proof. cbv zeta. apply structures_round_trip. repeat constructor; discriminate. Qed.
Example structures_set_case : exists s', let h := [1; 2; 3; 0; 4; 5; 0; 0; 6] in let l := [mkst [1] (Some [2]) h; mkst [3] (Some [4]) h] in
  set_structures ul um [mksy [([], []); ([], [])] []] (flatten (map Leaf l)) = Some [s'] /\ get_structures ul um [s'] = flatten (map Leaf l).
Proof.
  cbv zeta. apply structures_set with (h := [1; 2; 3; 0; 4; 5; 0; 0; 6]); [|reflexivity|discriminate].
  repeat constructor; eexists; reflexivity.
Qed.
End StructOf.

(** * C247: thermalizing keeps the conserved quantity *)
Section ThermOf.
Local Open Scope R_scope.
Lemma kin_less v m : forall p, Forall (fun a => a <> 0) m -> length p = length m -> kin m (less v m p) = kin m p - v * rsum p + v * v * rsum m / 2.
Proof.
  induction m as [|a m IH]; intros [|x p] F L; try discriminate; cbn [kin less rsum]; [field|]. inversion F as [|? ? A B]; subst.
  rewrite IH by (auto; cbn in L; lia). field. exact A.
Qed.
Lemma pconstraints_conserved fixcom m p e : Forall (fun a => a <> 0) m -> rsum m <> 0 -> length p = length m ->
  snd (pconstraints fixcom m p e) + kin m (fst (pconstraints fixcom m p e)) = e + kin m p.
Proof.
  intros F M L. unfold pconstraints. destruct fixcom; cbn [fst snd]; [|reflexivity]. rewrite kin_less by assumption. unfold vcom. field. exact M.
Qed.
Lemma gauss_length f m : forall g, length g = length m -> length (gauss f m g) = length m.
Proof. induction m as [|a m IH]; intros [|x g] L; try discriminate; cbn in *; auto. Qed.
(** Drawing new momenta, also with the center of mass fixed, leaves eens plus kinetic energy. *)
Theorem thermalize_conserved fixcom m p g nb T kb e : Forall (fun a => a <> 0) m -> rsum m <> 0 -> length g = length m ->
  let r := thermalize fixcom m p g nb T kb e in snd r + kin m (fst r) = e + kin m p.
Proof.
  intros F M L. cbv zeta. unfold thermalize. rewrite pconstraints_conserved; auto; [ring|]. now rewrite gauss_length.
Qed.
Theorem thermalize_com m p g nb T kb e : rsum m <> 0 -> length g = length m -> rsum (fst (thermalize true m p g nb T kb e)) = 0.
Proof.
  intros M L. unfold thermalize, pconstraints. cbn [fst]. set (q := gauss _ m g).
  assert (Q : length q = length m) by now apply gauss_length.
  assert (S1 : forall v m p, length p = length m -> rsum (less v m p) = rsum p - v * rsum m).
  { clear. intros v m. induction m as [|a m IH]; intros [|x p] L; try discriminate; cbn [less rsum]; [ring|]. rewrite IH by (cbn in L; lia). ring. }
  rewrite S1 by exact Q. unfold vcom. field. exact M.
Qed.
(** each momentum squared is the gaussian number squared times mass and P T k_B *)
Theorem thermalize_scale m p g nb T kb e i : Forall (fun a => 0 < a) m -> 0 <= nb * T * kb -> length g = length m ->
  let q := nth i (fst (thermalize false m p g nb T kb e)) 0 in (i < length m)%nat ->
  q * q = nth i g 0 * nth i g 0 * nth i m 0 * (nb * T * kb).
Proof.
  intros F P L q I. subst q. unfold thermalize, pconstraints. cbn [fst].
  revert g i L I. induction F as [|a m A _ IH]; intros [|x g] [|i] L I; try discriminate; try (cbn in I; lia); cbn [gauss nth].
  - replace (x * sqrt a * sqrt (nb * T * kb) * (x * sqrt a * sqrt (nb * T * kb)))
      with (x * x * (sqrt a * sqrt a) * (sqrt (nb * T * kb) * sqrt (nb * T * kb))) by ring.
    rewrite !sqrt_sqrt by lra. ring.
  - apply IH; cbn in L, I; lia.
Qed.
Example thermalize_case : let r := thermalize true [1; 3] [1; 3] [1; -1] 2 1 1 0 in snd r + kin [1; 3] (fst r) = 2.
Proof.
  assert (H := thermalize_conserved true [1; 3] [1; 3] [1; -1] 2 1 1 0). cbv zeta in *. rewrite H.
  - cbn. field.
  - repeat constructor; lra.
  - cbn. lra.
  - reflexivity.
Qed.
End ThermOf.

(** * C248: reading outputs back *)
Section ReadOf.
Variable V : Type.
Lemma dget_dset (d : dict V) k v k' : dget V (dset V d k v) k' = if String.eqb k k' then Some v else dget V d k'.
Proof.
  induction d as [|[a w] d IH]; cbn [dset dget]; [reflexivity|]. destruct (String.eqb_spec a k) as [E|E]; cbn [dget].
  - subst a. destruct (String.eqb k k'); reflexivity.
  - rewrite IH. destruct (String.eqb_spec a k') as [E'|E']; [|reflexivity]. subst a. now rewrite (proj2 (String.eqb_neq k k')) by congruence.
Qed.
(** all pieces of one line that go to a name *)
Definition pieces (hd : list (nat * nat * string)) (vs : list V) (k : string) : list (list V) :=
  map (fun h => slice V (fst (fst h)) (snd (fst h)) vs) (filter (fun h : nat * nat * string => String.eqb (snd h) k) hd).
Lemma read_line_get hd vs k : forall d, dget V (read_line V hd d vs) k =
  match dget V d k, pieces hd vs k with
  | Some l, p => Some (l ++ p)
  | None, [] => None
  | None, p => Some p
  end.
Proof.
  unfold read_line, pieces. induction hd as [|[[a b] n] hd IH]; intros d; cbn [fold_left filter map snd fst].
  - destruct (dget V d k); [now rewrite app_nil_r|reflexivity].
  - rewrite IH. unfold dappend. rewrite dget_dset. destruct (String.eqb_spec n k) as [E|E]; [|reflexivity].
    subst n. cbn [map fst snd]. destruct (dget V d k) as [l|]; [now rewrite <- app_assoc|reflexivity].
Qed.
Lemma init_get hd k : forall d, dget V (fold_left (fun (d : dict V) (h : nat * nat * string) => dset V d (snd h) []) hd d) k =
  if existsb (fun h : nat * nat * string => String.eqb (snd h) k) hd then Some [] else dget V d k.
Proof.
  induction hd as [|[[a b] n] hd IH]; intros d; cbn [fold_left existsb snd]; [reflexivity|]. rewrite IH, dget_dset.
  destruct (existsb _ hd), (String.eqb n k); reflexivity.
Qed.
Lemma read_output_get hd rows k : dget V (read_output V hd rows) k =
  if existsb (fun h : nat * nat * string => String.eqb (snd h) k) hd then Some (flat_map (fun vs => pieces hd vs k) rows) else None.
Proof.
  unfold read_output.
  assert (G : forall d, dget V (fold_left (read_line V hd) rows d) k =
    match dget V d k with Some l => Some (l ++ flat_map (fun vs => pieces hd vs k) rows)
    | None => match flat_map (fun vs => pieces hd vs k) rows with [] => None | p => Some p end end).
  { induction rows as [|vs rows IH]; intros d; cbn [fold_left flat_map].
    - destruct (dget V d k); [now rewrite app_nil_r|reflexivity].
    - rewrite IH, read_line_get. destruct (dget V d k) as [l|]; destruct (pieces hd vs k) as [|x r]; cbn [app]; rewrite <- ?app_assoc, ?app_nil_r; reflexivity. }
  rewrite G, init_get. cbn [dget]. destruct (existsb _ hd) eqn:E; [reflexivity|].
  assert (P : forall vs, pieces hd vs k = []).
  { intros vs. unfold pieces. clear - E. induction hd as [|h hd IH]; [reflexivity|]. cbn in *. apply orb_false_iff in E. destruct E as (A & B). rewrite A. auto. }
  replace (flat_map (fun vs => pieces hd vs k) rows) with (@nil (list V)); [reflexivity|].
  symmetry. clear - P. induction rows as [|vs rows IH]; [reflexivity|]. cbn. now rewrite P, IH.
Qed.
(** the columns of the i-th property *)
Lemma header_pieces ps : Forall (fun p => help p = true /\ 0 < size p) ps -> forall vals before i p, 
  Forall2 (fun v p => length v = size p) vals ps -> nth_error ps i = Some p -> NoDup (map key ps) ->
  pieces (header (S (length before)) ps) (before ++ line V vals) (key p) = match nth_error vals i with Some v => [v] | None => [] end.
Proof.
  induction 1 as [|p0 ps (Hh & Hs) _ IH]; intros vals before i p F2 N ND; [destruct i; discriminate|].
  inversion F2 as [|v ? vals' ? Lv F2']; subst. cbn [header]. rewrite Hh. unfold pieces. cbn [app filter snd].
  inversion ND as [|? ? NI ND']; subst.
  assert (Z : pieces (header (S (length before) + size p0) ps) (before ++ line V (v :: vals')) (key p0) = []).
  { unfold pieces. replace (filter _ _) with (@nil (nat * nat * string)); [reflexivity|]. symmetry.
    generalize (S (length before) + size p0). clear - NI. induction ps as [|q ps IH]; intros c; [reflexivity|]. cbn [header].
    cbn [map In] in NI. assert (Q : String.eqb (key q) (key p0) = false) by (apply String.eqb_neq; intros A; apply NI; now left).
    destruct (help q); cbn [app filter snd]; rewrite ?Q; apply IH; intros A; apply NI; now right. }
  destruct i as [|i]; cbn [nth_error] in *.
  - injection N as <-. rewrite String.eqb_refl. cbn [map fst snd].
    unfold pieces in Z. rewrite Z. f_equal. unfold slice. cbn [line concat].
    replace (S (length before) - 1) with (length before) by lia. rewrite skipn_app, skipn_all2, Nat.sub_diag by lia. cbn [app skipn].
    rewrite firstn_app. replace (S (length before) + size p0 - 1 - length before) with (length v) by lia.
    rewrite firstn_all, Nat.sub_diag. cbn [firstn]. apply app_nil_r.
  - rewrite (proj2 (String.eqb_neq (key p0) (key p))).
    2:{ intros A. apply NI. rewrite A. apply in_map. eapply nth_error_In, N. }
    specialize (IH vals' (before ++ v) i p F2' N ND'). rewrite app_length, Lv in IH.
    replace (S (length before) + size p0) with (S (length before + size p0)) by lia.
    unfold pieces, line in IH. cbn [line concat]. unfold line. cbn [concat]. rewrite app_assoc. exact IH.
Qed.
(** Reading the file of a property output: under each name there are the values of that
    property, line by line, and nothing else is in the dictionary. *)
Theorem read_output_values ps rows i p : Forall (fun p => help p = true /\ 0 < size p) ps -> NoDup (map key ps) ->
  Forall (fun vals => Forall2 (fun v p => length v = size p) vals ps) rows -> nth_error ps i = Some p ->
  dget V (read_output V (header 1 ps) (map (line V) rows)) (key p) = Some (map (fun vals => nth i vals []) rows).
Proof.
  intros F ND R N. rewrite read_output_get.
  assert (E : existsb (fun h : nat * nat * string => String.eqb (snd h) (key p)) (header 1 ps) = true).
  { generalize 1. clear - F N. revert i N. induction F as [|q ps (Hh & Hs) _ IH]; intros [|i] N c; try discriminate; cbn [header] in *; rewrite Hh; cbn [app existsb snd].
    - injection N as <-. now rewrite String.eqb_refl.
    - cbn in N. rewrite (IH i N). apply orb_true_r. }
  rewrite E. f_equal. induction R as [|vals rows R1 _ IH]; [reflexivity|]. cbn [map flat_map]. rewrite IH.
  assert (H := header_pieces ps F vals [] i p R1 N ND). cbn [length app] in H. rewrite H.
  assert (L : length vals = length ps) by (clear - R1; induction R1; cbn; auto).
  destruct (nth_error vals i) as [v|] eqn:Ev.
  - rewrite (nth_error_nth vals i [] Ev). reflexivity.
  - apply nth_error_None in Ev. assert (i < length ps) by (apply nth_error_Some; congruence). lia.
Qed.
Theorem read_output_names ps rows k : Forall (fun p => help p = true /\ 0 < size p) ps ->
  dget V (read_output V (header 1 ps) rows) k = None <-> ~ In k (map key ps).
Proof.
  intros F. rewrite read_output_get.
  assert (E : forall c, existsb (fun h : nat * nat * string => String.eqb (snd h) k) (header c ps) = true <-> In k (map key ps)).
  { induction F as [|q ps (Hh & Hs) _ IH]; intros c; cbn [header map In]; [split; [discriminate|contradiction]|].
    rewrite Hh. cbn [app existsb snd]. rewrite orb_true_iff, String.eqb_eq, IH. reflexivity. }
  specialize (E 1). destruct (existsb _ _).
  - split; [discriminate|]. intros A. exfalso. apply A, E. reflexivity.
  - split; [|reflexivity]. intros _ A. apply E in A. discriminate.
Qed.
End ReadOf.
Example read_output_case : dget nat (read_output nat (header 1 [mkpr "step" 1 true; mkpr "cell_h" 3 true; mkpr "time" 1 true])
  (map (line nat) [[[0]; [1; 2; 3]; [4]]; [[5]; [6; 7; 8]; [9]]])) "cell_h" = Some [[1; 2; 3]; [6; 7; 8]].
Proof. reflexivity. Qed.
(** The same property in two units, as potential and potential{electronvolt}: the
    units are not part of the name, and the values of both columns are mixed. *)
Theorem read_output_twice_refuted : exists ps vals, Forall2 (fun v p => length v = size p) vals ps /\
  dget nat (read_output nat (header 1 ps) (map (line nat) [vals; vals])) "potential" = Some [[1]; [27]; [1]; [27]].
Proof.
  exists [mkpr "potential" 1 true; mkpr "potential" 1 true], [[1]; [27]]. split; [repeat constructor|reflexivity].
Qed.

Lemma digits_small n : n < 10 -> digit (match digits n with String c _ => c | _ => zero end) = Some n.
Proof. intros H. do 10 (destruct n as [|n]; [reflexivity|]). lia. Qed.
Lemma digit_small c d : digit c = Some d -> d < 10.
Proof.
  unfold digit. destruct (_ && _) eqn:E; [|discriminate]. intros A. injection A as <-. apply andb_true_iff in E. destruct E as (A & B).
  apply Nat.leb_le in A, B. lia.
Qed.
(** The step number attached to a frame is right only for steps below ten. *)
Theorem trajectory_step n : read_step [digits n] = Some n <-> n < 10.
Proof.
  unfold read_step. cbn [rev app]. split.
  - destruct (digits n) as [|c r]; [discriminate|]. apply digit_small.
  - intros H. assert (E := digits_small n H). destruct (digits n) as [|c r] eqn:D; [|exact E].
    exfalso. clear E. do 10 (destruct n as [|n]; [discriminate|]). lia.
Qed.
Theorem trajectory_step_refuted : exists n m, n <> m /\ read_step [digits n] = read_step [digits m] /\ read_step [digits n] = Some 1.
Proof. exists 10, 1500. repeat split. discriminate. Qed.

(** the lines of the frames of an extras file *)
Definition extras_file (nm : string) (fr : list (nat * list string)) : list eline :=
  flat_map (fun f => Head nm (fst f) :: map Data (snd f)) fr.
Lemma fold_data l : forall s, fold_left eread (map Data l) (Some s) = Some (mkes (steps s) (datas s) (cur s ++ l) (pname s)).
Proof.
  induction l as [|x l IH]; intros [a b c d]; cbn [map fold_left eread]; [now rewrite app_nil_r|]. rewrite IH. cbn. now rewrite <- app_assoc.
Qed.
Lemma close_spec s : cur s <> [] -> close s = mkes (steps s) (datas s ++ [cur s]) [] (pname s).
Proof. unfold close. destruct (cur s); [congruence|reflexivity]. Qed.
Theorem read_extras_frames nm fr : nm <> ""%string -> fr <> [] -> Forall (fun f => snd f <> []) fr ->
  read_extras (extras_file nm fr) = Some (mkes (map fst fr) (map snd fr) [] nm).
Proof.
  intros NE N F. unfold read_extras.
  assert (G : forall s, close s = s \/ cur s <> [] -> pname s = nm \/ pname s = ""%string -> fr <> [] ->
     exists t, fold_left eread (extras_file nm fr) (Some s) = Some t /\ cur t <> [] /\
       close t = mkes (steps (close s) ++ map fst fr) (datas (close s) ++ map snd fr) [] nm).
  { clear N. induction F as [|[n l] fr L _ IH]; intros s C P N; [congruence|]. cbn [snd] in L.
    unfold extras_file. cbn [flat_map fold_left app fst snd]. fold (extras_file nm fr). rewrite fold_left_app.
    assert (Z : cur (close s) = []) by (unfold close; destruct (cur s) eqn:E; [exact E|reflexivity]).
    assert (Q : eread (Some s) (Head nm n) = Some (mkes (steps (close s) ++ [n]) (datas (close s)) [] nm)).
    { cbn [eread]. assert (Pc : pname (close s) = pname s) by (unfold close; destruct (cur s); reflexivity). rewrite Pc, Z.
      destruct P as [P|P]; rewrite P; [|reflexivity]. rewrite (proj2 (String.eqb_neq nm "") NE), String.eqb_refl. reflexivity. }
    rewrite Q, fold_data. cbn [steps datas cur pname app].
    set (t := mkes _ _ l nm). assert (Ct : close t = mkes (steps (close s) ++ [n]) (datas (close s) ++ [l]) [] nm) by (apply close_spec; exact L).
    destruct fr as [|f fr].
    - exists t. cbn [extras_file flat_map fold_left]. split; [reflexivity|]. split; [exact L|]. rewrite Ct. reflexivity.
    - destruct (IH t (or_intror L) (or_introl eq_refl) ltac:(discriminate)) as (u & U1 & U2 & U3). exists u. split; [exact U1|]. split; [exact U2|].
      rewrite U3, Ct. cbn [steps datas map fst snd]. rewrite <- !app_assoc. reflexivity. }
  destruct (G (mkes [] [] [] "") (or_introl eq_refl) (or_intror eq_refl) N) as (t & T1 & T2 & T3). rewrite T1, T3. reflexivity.
Qed.
Theorem read_extras_mixed nm nm' n l rest : nm <> ""%string -> nm <> nm' -> read_extras (Head nm n :: map Data l ++ Head nm' n :: rest) = None.
Proof.
  intros E N. unfold read_extras. cbn [fold_left eread close cur pname]. change (String.eqb "" "") with true. cbn iota.
  rewrite fold_left_app, fold_data. cbn [steps datas cur pname app fold_left eread].
  set (t := close _). assert (P : pname t = nm) by (unfold t, close; destruct (cur _); reflexivity). rewrite P.
  rewrite (proj2 (String.eqb_neq nm "") E), (proj2 (String.eqb_neq nm nm') N).
  assert (Z : forall l, fold_left eread l None = None) by (clear; intros l; induction l; auto). now rewrite Z.
Qed.
(** A text of one line comes back as it is, of more lines with an empty line after each but the last. *)
Theorem extras_text x : raw (frame_lines [x]) = String.append x nl.
Proof. reflexivity. Qed.
Theorem extras_text_refuted : exists l, raw (frame_lines l) <> String.concat "" (frame_lines l) /\
  raw (frame_lines l) = raw ["a"; ""; "b"; ""]%string.
Proof. exists ["a"; "b"]%string. split; [discriminate|reflexivity]. Qed.
Example extras_case : read_extras (extras_file "friction" [(0, ["1 2"]); (10, ["3 4"; "5 6"])]%string) = Some (mkes [0; 10] [["1 2"]; ["3 4"; "5 6"]]%string [] "friction").
Proof. reflexivity. Qed.

(** The last of several matches in the comment is the one used. *)
Theorem trajectory_step_last ms n : n < 10 -> read_step (ms ++ [digits n]) = Some n.
Proof.
  intros H. replace (read_step (ms ++ [digits n])) with (read_step [digits n]); [now apply trajectory_step|].
  unfold read_step. now rewrite rev_app_distr.
Qed.
Example trajectory_step_last_ex : read_step ["7"; "3"]%string = Some 3.
Proof. reflexivity. Qed.
(** The outputs written for a step are exactly those whose stride divides the step. *)
Theorem frame_strides (D : Type) outs l (d : D) i l' d' :
  In (i, l', d') (frame_at D outs l d) <-> l' = l /\ d' = d /\ exists stride, nth_error outs i = Some stride /\ l mod stride = 0.
Proof.
  unfold frame_at. rewrite in_map_iff. split.
  - intros ((j, stride) & E & H). apply filter_In in H as (H & M). injection E as -> -> ->. split; [easy|]. split; [easy|].
    exists stride. apply Nat.eqb_eq in M. split; [|easy].
    clear M. revert H. change (In (i, stride) (combine (seq 0 (length outs)) outs) -> nth_error outs i = Some stride).
    assert (G : forall k, In (i, stride) (combine (seq k (length outs)) outs) -> k <= i /\ nth_error outs (i - k) = Some stride).
    { induction outs as [|o outs IH]; intros k; cbn; [easy|]. intros [E|H].
      - injection E as -> ->. now rewrite Nat.sub_diag.
      - apply IH in H as (H & N). split; [lia|]. replace (i - k) with (S (i - S k)) by lia. exact N. }
    intros H. apply G in H as (_ & H). now rewrite Nat.sub_0_r in H.
  - intros (-> & -> & stride & N & M). exists (i, stride). split; [easy|]. apply filter_In. split; [|now apply Nat.eqb_eq].
    assert (G : forall k i, nth_error outs i = Some stride -> In (k + i, stride) (combine (seq k (length outs)) outs)).
    { clear. induction outs as [|o outs IH]; intros k [|i]; cbn; try easy.
      - injection 1 as ->. left. now rewrite Nat.add_0_r.
      - intros N. right. apply (IH (S k)) in N. now rewrite <- plus_n_Sm. }
    exact (G 0 i N).
Qed.
Example frame_strides_ex : frame_at nat [2; 3; 1] 4 9 = [(0, 4, 9); (2, 4, 9)].
Proof. reflexivity. Qed.
Print Assumptions interactive_split.
Print Assumptions interactive_script.
Print Assumptions interactive_count.
Print Assumptions interactive_exits.
Print Assumptions interactive_properties.
Print Assumptions structures_round_trip.
Print Assumptions structures_set.
Print Assumptions thermalize_conserved.
Print Assumptions thermalize_scale.
Print Assumptions read_output_values.
Print Assumptions read_output_names.
Print Assumptions trajectory_step.
Print Assumptions read_extras_frames.
Print Assumptions trajectory_step_last.
Print Assumptions frame_strides.
