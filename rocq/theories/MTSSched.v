(** * Theorems of record: the multiple-time-step schedule (C31) *)
From Coq Require Import List Reals Lra Lia Arith Bool.
From Verif Require Import RSum NMModel SpringModel MTSModel.
Import ListNotations.
Open Scope R_scope.

(** ** Specification *)
(** Nested velocity Verlet (r-RESPA), without the constraints: level [idx] repeats its block
    [k] times; the innermost block is a drift of two half steps. *)
Fixpoint respa (idx : nat) (ns : list nat) : list op :=
  match ns with
  | [] => [A; A]
  | k :: rest => concat (repeat ([P idx] ++ respa (S idx) rest ++ [P idx]) k)
  end.
(** Every change of the momenta is followed by the constraints. *)
Definition guard (o : op) : list op := match o with A => [A] | o => [o; Con] end.
Definition guarded (l : list op) : list op := flat_map guard l.

Definition op_eq (a b : op) : bool :=
  match a, b with P l, P l' => (l =? l')%nat | Con, Con => true | A, A => true | T, T => true | S4, S4 => true | _, _ => false end.
Definition count (o : op) (l : list op) : nat := length (filter (op_eq o) l).
(** Number of drifts before each kick of level [l]. *)
Fixpoint times (l : nat) (t : nat) (ops : list op) : list nat :=
  match ops with
  | [] => []
  | A :: r => times l (S t) r
  | P l' :: r => if (l =? l')%nat then t :: times l t r else times l t r
  | _ :: r => times l t r
  end.
Definition prodn (ns : list nat) : nat := fold_right Nat.mul 1%nat ns.

(** ** Lemmas *)
Lemma guarded_app l l' : guarded (l ++ l') = guarded l ++ guarded l'.
Proof. apply flat_map_app. Qed.
Lemma guarded_concat ls : guarded (concat ls) = concat (map guarded ls).
Proof. induction ls as [|l ls IH]; [easy|]. cbn [concat map]. now rewrite guarded_app, IH. Qed.
Lemma map_repeat {X Y} (f : X -> Y) x k : map f (repeat x k) = repeat (f x) k.
Proof. induction k; cbn; congruence. Qed.
Lemma repeat_snoc {X} (x : X) k : repeat x k ++ [x] = x :: repeat x k.
Proof. induction k as [|k IH]; [easy|]. cbn. now rewrite IH. Qed.
Lemma rev_concat_repeat {X} (l : list X) k : rev (concat (repeat l k)) = concat (repeat (rev l) k).
Proof.
  induction k as [|k IH]; [easy|]. cbn [repeat concat]. rewrite rev_app_distr, IH.
  transitivity (concat (repeat (rev l) k ++ [rev l])); [rewrite concat_app; cbn; now rewrite app_nil_r|].
  now rewrite repeat_snoc.
Qed.
Lemma halves k : (k / 2 + (if (k mod 2 =? 1)%nat then 1 else 0) + k / 2 = k)%nat.
Proof.
  pose proof (Nat.div_mod k 2). pose proof (Nat.mod_upper_bound k 2). destruct (Nat.eqb_spec (k mod 2) 1); lia.
Qed.
Lemma concat_repeat_app {X} (l : list X) a b : concat (repeat l (a + b)) = concat (repeat l a) ++ concat (repeat l b).
Proof. now rewrite repeat_app, concat_app. Qed.

Lemma mts_respa ns : forall idx, ns <> [] -> mtsprop idx ns = guarded (respa idx ns).
Proof.
  induction ns as [|k rest IH]; [easy|]. intros idx _. unfold mtsprop in *. cbn [mtsprop_ba mtsprop_ab].
  set (ba := mtsprop_ba (S idx) rest) in *. set (ab := mtsprop_ab (S idx) rest) in *.
  set (inner := match rest with [] => [A; A] | _ => ba ++ ab end).
  assert (Ei : inner = guarded (respa (S idx) rest)).
  { subst inner. destruct rest as [|k' rest']; [reflexivity|]. apply IH. discriminate. }
  set (blk := [P idx; Con] ++ inner ++ [P idx; Con]).
  assert (Eb : blk = guarded ([P idx] ++ respa (S idx) rest ++ [P idx])) by (unfold blk; rewrite !guarded_app, Ei; reflexivity).
  set (h1 := match rest with [] => [A] | _ => ba end). set (h2 := match rest with [] => [A] | _ => ab end).
  assert (Eh : h1 ++ h2 = inner) by (subst h1 h2 inner; destruct rest; reflexivity).
  cbn [respa]. rewrite guarded_concat, map_repeat, <- Eb.
  rewrite <- (halves k) at 5. rewrite !concat_repeat_app.
  destruct (k mod 2 =? 1)%nat; cbn [repeat concat]; rewrite ?app_nil_r; [|reflexivity].
  rewrite <- !app_assoc. f_equal. unfold blk at 2. rewrite <- Eh, <- !app_assoc. reflexivity.
Qed.
(** The first half reversed is the second half. *)
Fixpoint half_ba (idx : nat) (ns : list nat) : list op :=
  match ns with
  | [] => [A]
  | k :: rest => concat (repeat ([P idx] ++ respa (S idx) rest ++ [P idx]) (k / 2))
      ++ (if (k mod 2 =? 1)%nat then [P idx] ++ half_ba (S idx) rest else [])
  end.
Lemma respa_rev ns : forall idx, rev (respa idx ns) = respa idx ns.
Proof.
  induction ns as [|k rest IH]; intros idx; [reflexivity|]. cbn [respa].
  rewrite rev_concat_repeat. rewrite !rev_app_distr, IH. cbn [rev List.app]. reflexivity.
Qed.
Lemma ba_half ns : forall idx, ns <> [] -> mtsprop_ba idx ns = guarded (half_ba idx ns) /\ mtsprop_ab idx ns = guarded (rev (half_ba idx ns)).
Proof.
  induction ns as [|k rest IH]; [easy|]. intros idx _. cbn [mtsprop_ba mtsprop_ab half_ba].
  assert (Eb : [P idx; Con] ++ match rest with [] => [A; A] | _ => mtsprop_ba (S idx) rest ++ mtsprop_ab (S idx) rest end ++ [P idx; Con]
     = guarded ([P idx] ++ respa (S idx) rest ++ [P idx])).
  { rewrite !guarded_app. destruct rest as [|k' rest']; [reflexivity|].
    fold (mtsprop (S idx) (k' :: rest')). rewrite mts_respa by discriminate. reflexivity. }
  rewrite !Eb. clear Eb.
  assert (Er : rev ([P idx] ++ respa (S idx) rest ++ [P idx]) = [P idx] ++ respa (S idx) rest ++ [P idx]).
  { rewrite !rev_app_distr, respa_rev. cbn [rev List.app]. reflexivity. }
  set (X := [P idx] ++ respa (S idx) rest ++ [P idx]) in *. clearbody X.
  rewrite rev_app_distr, !guarded_app, rev_concat_repeat, Er, !guarded_concat, !map_repeat.
  destruct (k mod 2 =? 1)%nat; [|split; reflexivity].
  rewrite rev_app_distr, !guarded_app.
  destruct rest as [|k' rest']; [split; reflexivity|]. destruct (IH (S idx) ltac:(discriminate)) as [-> ->]. split; reflexivity.
Qed.

Lemma count_app o l l' : count o (l ++ l') = (count o l + count o l')%nat.
Proof. unfold count. now rewrite filter_app, app_length. Qed.
Lemma count_rev o l : count o (rev l) = count o l.
Proof. induction l as [|x l IH]; [easy|]. cbn [rev]. rewrite count_app, IH. unfold count. cbn. destruct (op_eq o x); cbn; lia. Qed.
Lemma count_repeat o l k : count o (concat (repeat l k)) = (k * count o l)%nat.
Proof. induction k as [|k IH]; [easy|]. cbn [repeat concat]. rewrite count_app, IH. cbn. lia. Qed.
Lemma count_guarded o l : o <> Con -> count o (guarded l) = count o l.
Proof.
  intros H. induction l as [|x l IH]; [easy|]. change (guarded (x :: l)) with (guard x ++ guarded l). rewrite count_app, IH.
  change (x :: l) with ([x] ++ l). rewrite count_app. f_equal.
  destruct x; unfold count; cbn; destruct o; try easy; cbn; destruct (_ =? _)%nat; easy.
Qed.
Lemma count_A_respa ns : forall idx, count A (respa idx ns) = (2 * prodn ns)%nat.
Proof.
  induction ns as [|k rest IH]; intros idx; [reflexivity|]. cbn [respa]. rewrite count_repeat, !count_app, IH. cbn. fold (prodn rest). lia.
Qed.
Lemma count_P_low ns : forall idx l, (l < idx)%nat -> count (P l) (respa idx ns) = 0%nat.
Proof.
  induction ns as [|k rest IH]; intros idx l H; [reflexivity|]. cbn [respa]. rewrite count_repeat, !count_app, IH by lia.
  assert (E : count (P l) [P idx] = 0%nat) by (unfold count; cbn; destruct (Nat.eqb_spec l idx); [lia|easy]). rewrite E. lia.
Qed.
Lemma count_P_respa ns : forall idx l, (l < length ns)%nat -> count (P (idx + l)) (respa idx ns) = (2 * prodn (firstn (S l) ns))%nat.
Proof.
  induction ns as [|k rest IH]; intros idx l H; [cbn in H; lia|]. cbn [respa]. rewrite count_repeat, !count_app.
  destruct l as [|l].
  - rewrite Nat.add_0_r, count_P_low by lia. unfold count. cbn. rewrite Nat.eqb_refl. cbn. lia.
  - replace (idx + S l)%nat with (S idx + l)%nat by lia. cbn [length] in H. rewrite IH by lia.
    assert (E : count (P (S idx + l)) [P idx] = 0%nat) by (unfold count; cbn [filter op_eq]; destruct (Nat.eqb_spec (S idx + l) idx); [lia|easy]).
    rewrite E. cbn [firstn prodn fold_right]. fold (prodn (firstn (S l) rest)). cbn [firstn] in *. lia.
Qed.
Lemma times_app l ops : forall ops' t, times l t (ops ++ ops') = times l t ops ++ times l (t + count A ops) ops'.
Proof.
  induction ops as [|o ops IH]; intros ops' t; cbn [List.app times].
  - now rewrite Nat.add_0_r.
  - destruct o as [l'| | | |]; try (rewrite IH; reflexivity).
    + rewrite IH. destruct (l =? l')%nat; reflexivity.
    + rewrite IH. unfold count. cbn. now rewrite Nat.add_succ_r.
Qed.
Lemma times_guarded l ops : forall t, times l t (guarded ops) = times l t ops.
Proof.
  induction ops as [|o ops IH]; intros t; [easy|]. change (guarded (o :: ops)) with (guard o ++ guarded ops).
  destruct o as [l'| | | |]; cbn; rewrite IH; reflexivity.
Qed.
Lemma times_low ns : forall idx l t, (l < idx)%nat -> times l t (respa idx ns) = [].
Proof.
  induction ns as [|k rest IH]; intros idx l t H; [reflexivity|]. cbn [respa]. revert t.
  induction k as [|k IHk]; intros t; [reflexivity|]. cbn [repeat concat]. rewrite times_app.
  rewrite IHk, app_nil_r. rewrite !times_app, IH by lia. cbn. destruct (Nat.eqb_spec l idx); [lia|easy].
Qed.
Definition pairs (w t N : nat) : list nat := flat_map (fun j => [t + j * w; t + (j + 1) * w]%nat) (seq 0 N).
Lemma pairs_app w t N M : pairs w t (N + M) = pairs w t N ++ pairs w (t + N * w) M.
Proof.
  unfold pairs. rewrite seq_app, flat_map_app. f_equal.
  assert (G : forall z, flat_map (fun j => [t + j * w; t + (j + 1) * w]%nat) (seq (N + z) M)
     = flat_map (fun j => [t + N * w + j * w; t + N * w + (j + 1) * w]%nat) (seq z M)).
  { induction M as [|M IH]; intros z; [easy|]. cbn [seq flat_map]. rewrite <- Nat.add_succ_r, IH.
    replace (t + (N + z) * w)%nat with (t + N * w + z * w)%nat by nia. now replace (t + (N + z + 1) * w)%nat with (t + N * w + (z + 1) * w)%nat by nia. }
  rewrite <- (G 0%nat). f_equal. now rewrite Nat.add_0_r.
Qed.
Lemma times_respa ns : forall idx l t, (l < length ns)%nat ->
  times (idx + l) t (respa idx ns) = pairs (2 * prodn (skipn (S l) ns)) t (prodn (firstn (S l) ns)).
Proof.
  induction ns as [|k rest IH]; intros idx l t H; [cbn in H; lia|]. cbn [respa].
  assert (G : forall k t, times (idx + l) t (concat (repeat ([P idx] ++ respa (S idx) rest ++ [P idx]) k))
     = pairs (2 * prodn (skipn (S l) (k :: rest))) t (prodn (firstn (S l) (k :: rest)))).
  { assert (L : (l <= length rest)%nat) by (cbn [length] in H; lia). clear k H t. intros k.
    destruct l as [|l].
    - cbn [skipn firstn]. replace (prodn [k]) with k by (cbn; lia). rewrite Nat.add_0_r.
      induction k as [|k IHk]; intros t; [reflexivity|]. cbn [repeat concat]. rewrite times_app, IHk.
      replace (S k) with (1 + k)%nat by lia. rewrite pairs_app. f_equal.
      + rewrite !times_app, times_low by lia. cbn [times count]. rewrite Nat.eqb_refl. unfold pairs. cbn [seq flat_map List.app].
        rewrite count_A_respa. unfold count. cbn. rewrite !Nat.add_0_r; reflexivity.
      + f_equal. rewrite !count_app, count_A_respa. unfold count. cbn. lia.
    - assert (Hl : (l < length rest)%nat) by lia.
        change (skipn (S (S l)) (k :: rest)) with (skipn (S l) rest). change (prodn (firstn (S (S l)) (k :: rest))) with (k * prodn (firstn (S l) rest))%nat.
        induction k as [|k IHk]; intros t; [reflexivity|]. cbn [repeat concat]. rewrite times_app, IHk.
        replace (S k * prodn (firstn (S l) rest))%nat with (prodn (firstn (S l) rest) + k * prodn (firstn (S l) rest))%nat by lia.
        rewrite pairs_app. f_equal.
        * rewrite !times_app. replace (idx + S l)%nat with (S idx + l)%nat by lia. rewrite IH by easy.
          cbn [times]. destruct (Nat.eqb_spec (S idx + l) idx); [lia|]. rewrite app_nil_r. cbn. now rewrite Nat.add_0_r.
        * f_equal. rewrite !count_app, count_A_respa.
          assert (E : prodn rest = (prodn (firstn (S l) rest) * prodn (skipn (S l) rest))%nat).
          { rewrite <- (firstn_skipn (S l) rest) at 1. unfold prodn. rewrite fold_right_app.
            generalize (firstn (S l) rest) as a. generalize (skipn (S l) rest) as b. clear. intros b a.
            induction a as [|x a IHa]; cbn; [lia|]. rewrite IHa. lia. }
          rewrite E. unfold count. cbn [filter op_eq length]. nia. }
  apply G.
Qed.

(** ** Theorems *)
Definition factors (ns : list nat) : Prop := ns <> [] /\ forall k, In k ns -> (0 < k)%nat.

(** The sequence of calls is nested velocity Verlet, each kick followed by the constraints. *)
Theorem schedule_is_respa ns : factors ns -> nve_step ns = guarded (respa 0 ns).
Proof. intros [H _]. now apply mts_respa. Qed.

(** It is a palindrome (up to the constraints, which follow the kicks in both directions), and
    so are the thermostatted steps in both splittings. *)
Definition palindrome (ops : list op) : Prop := exists core, rev core = core /\ ops = guarded core.
Theorem nve_schedule_symmetric ns : factors ns -> palindrome (nve_step ns).
Proof. intros H. exists (respa 0 ns). split; [apply respa_rev|now apply schedule_is_respa]. Qed.
Theorem nvt_schedule_symmetric sp ns : factors ns -> palindrome (nvt_step sp ns).
Proof.
  intros [H _]. destruct sp; cbn [nvt_step].
  - exists ([T] ++ respa 0 ns ++ [T]). split; [rewrite !rev_app_distr, respa_rev; reflexivity|].
    rewrite !guarded_app, mts_respa by easy. reflexivity.
  - exists (half_ba 0 ns ++ [T] ++ rev (half_ba 0 ns)). destruct (ba_half ns 0 H) as [-> ->].
    split; [rewrite !rev_app_distr, rev_involutive; cbn; now rewrite <- app_assoc|]. rewrite !guarded_app. reflexivity.
Qed.
(** In BAOAB the two halves are mirror images, with the thermostat between them. *)
Theorem baoab_halves_mirror ns : factors ns ->
  exists half, mtsprop_ba 0 ns = guarded half /\ mtsprop_ab 0 ns = guarded (rev half).
Proof. intros [H _]. exists (half_ba 0 ns). now apply ba_half. Qed.

Lemma prodn_pos ns : (forall k, In k ns -> (0 < k)%nat) -> (0 < prodn ns)%nat.
Proof.
  intros H. induction ns as [|k ns IH]; cbn; [lia|]. pose proof (H k ltac:(now left)). assert (0 < prodn ns)%nat by (apply IH; intros; apply H; now right).
  unfold prodn in *. nia.
Qed.
Lemma pdt_nth ns : forall prev l, (l < length ns)%nat -> (forall k, In k ns -> (0 < k)%nat) ->
  nth l (pdt_loop prev ns) 0 = prev / INR (prodn (firstn (S l) ns)).
Proof.
  induction ns as [|k ns IH]; intros prev l H Hk; [cbn in H; lia|].
  assert (Pk : 0 < INR k) by (apply lt_0_INR, Hk; now left). cbn [pdt_loop]. destruct l as [|l].
  - cbn [nth firstn prodn fold_right]. rewrite Nat.mul_1_r. field. lra.
  - cbn [nth length] in *. rewrite IH by (try lia; intros; apply Hk; now right).
    change (firstn (S (S l)) (k :: ns)) with (k :: firstn (S l) ns). cbn [prodn fold_right]. fold (prodn (firstn (S l) ns)).
    assert (0 < INR (prodn (firstn (S l) ns))).
    { apply lt_0_INR, prodn_pos. intros x Hx. apply Hk. right. rewrite <- (firstn_skipn (S l) ns). apply in_or_app. now left. }
    rewrite mult_INR. field. lra.
Qed.

(** In one step the drifts add up to dt and the kicks of every level add up to dt. *)
Theorem schedule_covers_step dt ns : factors ns ->
  INR (count A (nve_step ns)) * get_qdt dt ns = dt /\
  forall l, (l < length ns)%nat -> INR (count (P l) (nve_step ns)) * nth l (get_pdt dt ns) 0 = dt.
Proof.
  intros [H Hp]. unfold nve_step. rewrite mts_respa by easy. rewrite !count_guarded by discriminate. split.
  - rewrite count_A_respa. unfold get_qdt, inmts. fold (prodn ns). assert (0 < INR (prodn ns)) by now apply lt_0_INR, prodn_pos.
    rewrite mult_INR. cbn [INR]. field. lra.
  - intros l Hl. rewrite count_guarded by discriminate. pose proof (count_P_respa ns 0 l Hl) as E. cbn [Nat.add] in E. rewrite E. clear E. unfold get_pdt.
    rewrite (nth_indep _ 0 (0 * (dt * (1 / 2)))) by (rewrite map_length; clear -Hl; revert l Hl; generalize 1; induction ns; intros r l Hl; cbn in *; [lia|]; destruct l; [lia|]; specialize (IHns (r * (1 / INR a)) l ltac:(lia)); lia).
    rewrite (map_nth (fun x => x * (dt * (1 / 2)))), pdt_nth by easy.
    assert (0 < INR (prodn (firstn (S l) ns))).
    { apply lt_0_INR, prodn_pos. intros x Hx. apply Hp. rewrite <- (firstn_skipn (S l) ns). apply in_or_app. now left. }
    rewrite mult_INR. cbn [INR]. field. lra.
Qed.
(** The drifts before and after the thermostat of BAOAB are half a step each. *)
Theorem baoab_thermostat_in_the_middle dt ns : factors ns ->
  INR (count A (mtsprop_ba 0 ns)) * get_qdt dt ns = dt / 2 /\ INR (count A (mtsprop_ab 0 ns)) * get_qdt dt ns = dt / 2.
Proof.
  intros H. destruct (schedule_covers_step dt ns H) as [E _]. destruct (baoab_halves_mirror ns H) as (h & E1 & E2).
  unfold nve_step, mtsprop in E. rewrite count_app, plus_INR in E. rewrite E1, E2 in *.
  rewrite !count_guarded, count_rev in * by discriminate. lra.
Qed.
(** Time (in half inner steps) of every kick: level [l] kicks in pairs that enclose intervals of
    dt / (n_0 ... n_l), which tile the step without gap. *)
Theorem kick_times dt ns l : factors ns -> (l < length ns)%nat ->
  times l 0 (nve_step ns) = flat_map (fun j => [j * (2 * prodn (skipn (S l) ns)); (j + 1) * (2 * prodn (skipn (S l) ns))]%nat) (seq 0 (prodn (firstn (S l) ns)))
  /\ INR (2 * prodn (skipn (S l) ns)) * get_qdt dt ns = dt / INR (prodn (firstn (S l) ns)).
Proof.
  intros [H Hp] Hl. unfold nve_step. rewrite mts_respa, times_guarded by easy. split.
  - exact (times_respa ns 0 l 0 Hl).
  - unfold get_qdt, inmts. fold (prodn ns).
    assert (E : prodn ns = (prodn (firstn (S l) ns) * prodn (skipn (S l) ns))%nat).
    { rewrite <- (firstn_skipn (S l) ns) at 1. unfold prodn. rewrite fold_right_app.
      generalize (firstn (S l) ns) as a. generalize (skipn (S l) ns) as b. clear. intros b a.
      induction a as [|x a IHa]; cbn; [lia|]. rewrite IHa. lia. }
    pose proof (prodn_pos ns Hp) as Q. rewrite E in *.
    assert (0 < INR (prodn (firstn (S l) ns))) by (apply lt_0_INR; nia). assert (0 < INR (prodn (skipn (S l) ns))) by (apply lt_0_INR; nia).
    rewrite !mult_INR. cbn [INR]. field. lra.
Qed.
(** The thermostat acts for dt in total, the fourth-order force as well. *)
Lemma count_none o ns : forall idx, o = T \/ o = S4 -> count o (respa idx ns) = 0%nat.
Proof.
  induction ns as [|k rest IH]; intros idx H; [destruct H as [-> | ->]; reflexivity|]. cbn [respa].
  rewrite count_repeat, !count_app, IH by easy. destruct H as [-> | ->]; unfold count; cbn; lia.
Qed.
Theorem thermostat_covers_step dt sp ns : factors ns -> INR (count T (nvt_step sp ns)) * get_tdt dt sp = dt.
Proof.
  intros [H _]. assert (E : count T (mtsprop 0 ns) = 0%nat) by (rewrite mts_respa, count_guarded, count_none by (try easy; now left); easy).
  unfold mtsprop in E. rewrite count_app in E.
  destruct sp; cbn [nvt_step get_tdt]; unfold mtsprop; rewrite !count_app.
  - replace (count T [T; Con] + (count T (mtsprop_ba 0 ns) + count T (mtsprop_ab 0 ns) + count T [T; Con]))%nat with 2%nat by (unfold count in *; cbn in *; lia). cbn. lra.
  - replace (count T (mtsprop_ba 0 ns) + (count T [T; Con] + count T (mtsprop_ab 0 ns)))%nat with 1%nat by (unfold count in *; cbn in *; lia). cbn. lra.
Qed.
(** The Suzuki-Chin steps are symmetric as well, apart from the constraints. *)
Definition strip (ops : list op) : list op := filter (fun o => negb (op_eq o Con)) ops.
Lemma strip_app l l' : strip (l ++ l') = strip l ++ strip l'.
Proof. apply filter_app. Qed.
Lemma strip_guarded l : (forall o, In o l -> o <> Con) -> strip (guarded l) = l.
Proof.
  induction l as [|o l IH]; intros H; [easy|]. change (guarded (o :: l)) with (guard o ++ guarded l). rewrite strip_app, IH by (intros; apply H; now right).
  pose proof (H o ltac:(now left)). destruct o; easy.
Qed.
Lemma respa_no_con ns : forall idx o, In o (respa idx ns) -> o <> Con.
Proof.
  induction ns as [|k rest IH]; intros idx o Ho; cbn [respa] in Ho.
  - destruct Ho as [<-|[<-|[]]]; discriminate.
  - apply in_concat in Ho as (l & Hl & Ho). apply repeat_spec in Hl. subst l. apply in_app_or in Ho as [[<-|[]]|Ho]; [discriminate|].
    apply in_app_or in Ho as [Ho|[<-|[]]]; [now apply (IH (S idx))|discriminate].
Qed.
Lemma half_no_con ns : forall idx o, In o (half_ba idx ns) -> o <> Con.
Proof.
  induction ns as [|k rest IH]; intros idx o Ho; cbn [half_ba] in Ho.
  - destruct Ho as [<-|[]]; discriminate.
  - apply in_app_or in Ho as [Ho|Ho].
    + apply in_concat in Ho as (l & Hl & Ho). apply repeat_spec in Hl. subst l. apply in_app_or in Ho as [[<-|[]]|Ho]; [discriminate|].
      apply in_app_or in Ho as [Ho|[<-|[]]]; [now apply (respa_no_con rest (S idx))|discriminate].
    + destruct (k mod 2 =? 1)%nat; [|easy]. apply in_app_or in Ho as [[<-|[]]|Ho]; [discriminate|now apply (IH (S idx))].
Qed.
Theorem sc_schedule_symmetric sp ns : factors ns -> rev (strip (sc_step sp ns)) = strip (sc_step sp ns) /\ count S4 (sc_step sp ns) = 2%nat.
Proof.
  intros [H _]. assert (E : count S4 (mtsprop 0 ns) = 0%nat) by (rewrite mts_respa, count_guarded, count_none by (try easy; now right); easy).
  destruct sp; cbn [sc_step].
  - split; [|rewrite !count_app, E; reflexivity]. rewrite !strip_app, mts_respa, strip_guarded by (try easy; apply respa_no_con).
    rewrite !rev_app_distr, respa_rev. cbn. now rewrite <- !app_assoc.
  - unfold mtsprop in E. rewrite count_app in E. split; [|rewrite !count_app; unfold count in *; cbn in *; lia].
    destruct (ba_half ns 0 H) as [-> ->]. rewrite !strip_app, !strip_guarded.
    + rewrite !rev_app_distr, rev_involutive. cbn. now rewrite <- !app_assoc.
    + intros o Ho. apply in_rev in Ho. now apply (half_no_con ns 0).
    + apply half_no_con.
Qed.

(** Cases: two levels with factors 3 and 2; one level. *)
Example schedule_3_2 : factors [3; 2]%nat /\
  nve_step [1; 2]%nat = [P 0; Con; P 1; Con; A; A; P 1; Con; P 1; Con; A; A; P 1; Con; P 0; Con] /\
  times 1 0 (nve_step [3; 2]%nat) = [0; 2; 2; 4; 4; 6; 6; 8; 8; 10; 10; 12]%nat /\
  times 0 0 (nve_step [3; 2]%nat) = [0; 4; 4; 8; 8; 12]%nat.
Proof. split; [split; [discriminate|intros k [<-|[<-|[]]]; lia]|]. split; [reflexivity|]. split; reflexivity. Qed.
Example baoab_3 : nvt_step Baoab [3]%nat = [P 0; Con; A; A; P 0; Con; P 0; Con; A; T; Con; A; P 0; Con; P 0; Con; A; A; P 0; Con].
Proof. reflexivity. Qed.

Print Assumptions schedule_is_respa.
Print Assumptions nve_schedule_symmetric.
Print Assumptions nvt_schedule_symmetric.
Print Assumptions baoab_halves_mirror.
Print Assumptions schedule_covers_step.
Print Assumptions baoab_thermostat_in_the_middle.
Print Assumptions kick_times.
Print Assumptions thermostat_covers_step.
Print Assumptions sc_schedule_symmetric.
