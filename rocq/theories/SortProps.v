(** Theorems of record about sorting and cutting the outputs (C241-C243). *)
From Coq Require Import String Ascii List Arith ZArith Lia Bool Permutation.
From Verif Require Import FileModel SortModel.
Import ListNotations.
Local Open Scope string_scope.
Local Open Scope nat_scope.
Local Open Scope list_scope.

(** ** Lists of files indexed by the systems *)
Lemma update_seq {A} (g : A -> A) (f : nat -> A) n : forall a i, i < n ->
  update i g (map f (seq a n)) = map (fun j => if j =? a + i then g (f j) else f j) (seq a n).
Proof.
  induction n as [|n IH]; intros a i H; [lia|]. cbn [seq map]. destruct i as [|i]; cbn [update].
  - rewrite Nat.add_0_r, Nat.eqb_refl. f_equal. apply map_ext_in. intros j Hj. apply in_seq in Hj. destruct (Nat.eqb_spec j a); [lia|easy].
  - destruct (Nat.eqb_spec a (a + S i)); [lia|]. f_equal. rewrite IH by lia. replace (S a + i) with (a + S i) by lia. easy.
Qed.
Lemma nth_error_seq {A} (f : nat -> A) n i : i < n -> nth_error (map f (seq 0 n)) i = Some (f i).
Proof. intros H. rewrite nth_error_map. rewrite (nth_error_nth' _ 0) by (rewrite seq_length; lia). rewrite seq_nth by lia. easy. Qed.
Lemma map_seq_ext {A} (f g : nat -> A) a n : (forall i, a <= i < a + n -> f i = g i) -> map f (seq a n) = map g (seq a n).
Proof. intros H. apply map_ext_in. intros i Hi. apply in_seq in Hi. now apply H. Qed.
Lemma flat_map_seq_ext {A} (f g : nat -> list A) a n : (forall i, a <= i < a + n -> f i = g i) -> flat_map f (seq a n) = flat_map g (seq a n).
Proof. intros H. rewrite !flat_map_concat_map. f_equal. now apply map_seq_ext. Qed.

Section Sort.
Variable int_of : string -> option Z.

(** A frame that is read as a whole, whatever comes after it. *)
Definition whole (checked : bool) (k : kind) (fr : file) : Prop := forall rest, read int_of checked k (fr ++ rest) = (fr, rest, Fine).

(** The data of one output: the frame of a system at a step; a step has one when it is a multiple of the stride. *)
Record data := Data { d_kind : kind; d_stride : nat; d_frame : nat -> nat -> file }.
Definition at_step (d : data) (i s : nat) : file := if s mod d_stride d =? 0 then d_frame d i s else [].
(** the file written by system i in the steps from a on *)
Definition record_from (d : data) (i a m : nat) : file := flat_map (at_step d i) (seq a m).
Definition streams_of (n a m : nat) (outs : data -> nat -> file) (d : data) : stream :=
  Stream (d_kind d) (d_stride d) (map (fun i => record_from d i a m) (seq 0 n)) (map (outs d) (seq 0 n)).

(** ** One step *)
Lemma passes_frames checked n (irep : nat -> nat) k stride fr rest outs : (forall i, i < n -> irep i < n) -> (forall i, i < n -> whole checked k (fr i)) ->
  forall m a, a + m <= n ->
  passes int_of checked (map irep (seq 0 n)) (seq a m)
    (Stream k stride (map (fun i => if i <? a then rest i else fr i ++ rest i) (seq 0 n)) (map outs (seq 0 n))) =
  (Stream k stride (map (fun i => if i <? a + m then rest i else fr i ++ rest i) (seq 0 n))
     (map (fun j => outs j ++ flat_map (fun i => if irep i =? j then fr i else []) (seq a m)) (seq 0 n)), Fine).
Proof.
  intros Hr W m. revert outs. induction m as [|m IH]; intros outs a Ha.
  - cbn [seq passes flat_map]. rewrite Nat.add_0_r. f_equal. f_equal. apply map_seq_ext. intros. now rewrite app_nil_r.
  - cbn [seq passes]. unfold pass at 1. cbn [s_in s_kind s_stride s_out]. rewrite nth_error_seq by lia.
    destruct (Nat.ltb_spec a a) as [|_]; [lia|]. rewrite (W a ltac:(lia) (rest a)). rewrite nth_error_seq by lia.
    rewrite map_length, seq_length. destruct (Nat.ltb_spec (irep a) n) as [_|Q]; [|specialize (Hr a ltac:(lia)); lia].
    cbn [s_in]. rewrite (update_seq _ _ n 0 a) by lia. rewrite (update_seq _ _ n 0 (irep a)) by (apply Hr; lia). cbn [Nat.add].
    rewrite (map_seq_ext _ (fun i => if i <? S a then rest i else fr i ++ rest i) 0 n).
    2:{ intros i _. destruct (Nat.eqb_spec i a) as [E|E], (Nat.ltb_spec i (S a)), (Nat.ltb_spec i a); try lia; [now rewrite E|easy|easy]. }
    rewrite IH by lia. replace (S a + m) with (a + S m) by lia. f_equal. f_equal. apply map_seq_ext. intros j Hj. cbn [flat_map].
    rewrite (Nat.eqb_sym j). destruct (Nat.eqb_spec (irep a) j); [now rewrite app_assoc|easy].
Qed.
(** The file of replica j gets the frames of the systems that hold it. *)
Definition held (irep : nat -> nat) (n : nat) (d : data) (s j : nat) : file := flat_map (fun i => if irep i =? j then at_step d i s else []) (seq 0 n).
Definition sound (checked : bool) (n N : nat) (d : data) : Prop :=
  forall i s, i < n -> s <= N -> s mod d_stride d = 0 -> whole checked (d_kind d) (d_frame d i s).
Lemma frames_step checked n (irep : nat -> nat) N s m ds outs : (forall i, i < n -> irep i < n) -> s <= N -> Forall (sound checked n N) ds ->
  frames int_of checked n (map irep (seq 0 n)) s (map (streams_of n s (S m) outs) ds) =
  (map (streams_of n (S s) m (fun d j => outs d j ++ held irep n d s j)) ds, Fine).
Proof.
  intros Hr Hs. induction ds as [|d ds IH]; intros Hd; [easy|]. inversion_clear Hd as [|? ? W Wd]. cbn [map frames].
  unfold streams_of at 1 2. cbn [s_stride].
  destruct (Nat.eqb_spec (s mod d_stride d) 0) as [E|E].
  - assert (X : Stream (d_kind d) (d_stride d) (map (fun i => record_from d i s (S m)) (seq 0 n)) (map (outs d) (seq 0 n)) =
      Stream (d_kind d) (d_stride d) (map (fun i => if i <? 0 then record_from d i (S s) m else d_frame d i s ++ record_from d i (S s) m) (seq 0 n)) (map (outs d) (seq 0 n))).
    { f_equal. apply map_seq_ext. intros i _. unfold record_from. cbn [seq flat_map Nat.ltb Nat.leb]. unfold at_step at 1. rewrite E. easy. }
    rewrite X. rewrite passes_frames; [|exact Hr|intros i Hi; apply W; easy|lia]. rewrite (IH Wd). unfold streams_of at 2. f_equal. f_equal. f_equal.
    + apply map_seq_ext. intros i Hi. destruct (Nat.ltb_spec i (0 + n)); [easy|lia].
    + apply map_seq_ext. intros j _. f_equal. unfold held. apply flat_map_seq_ext. intros i _. unfold at_step. rewrite E. easy.
  - rewrite (IH Wd). f_equal. f_equal. unfold streams_of. f_equal.
    + apply map_seq_ext. intros i _. unfold record_from. cbn [seq flat_map]. unfold at_step at 1. destruct (Nat.eqb_spec (s mod d_stride d) 0); easy.
    + apply map_seq_ext. intros j _. unfold held. rewrite (flat_map_seq_ext _ (fun _ => [])).
      * clear. generalize 0 at 1. induction n as [|n IH]; intros a; cbn [seq flat_map]; [now rewrite app_nil_r|apply IH].
      * intros i _. unfold at_step. destruct (Nat.eqb_spec (s mod d_stride d) 0); [easy|]. now destruct (irep i =? j).
Qed.
Lemma streams_ext n a m f g ds : (forall d j, In d ds -> j < n -> f d j = g d j) -> map (streams_of n a m f) ds = map (streams_of n a m g) ds.
Proof. intros H. apply map_ext_in. intros d Hd. unfold streams_of. f_equal. apply map_seq_ext. intros j Hj. apply H; [easy|lia]. Qed.

(** ** remdsort *)
(** The swap file of a run: a line for a step when the replicas have been moved by it. *)
Definition swap_record (n : nat) (R : nat -> nat -> nat) (moved : nat -> bool) (a m : nat) : swaps :=
  flat_map (fun s => if moved s then [(s, map (R (S s)) (seq 0 n))] else []) (seq a m).
Lemma swap_later n R moved a m s r : In (s, r) (swap_record n R moved a m) -> a <= s < a + m.
Proof.
  unfold swap_record. intros H. apply in_flat_map in H as (x & Hx & H). apply in_seq in Hx. destruct (moved x); [|easy].
  destruct H as [H|[]]. injection H as <- _. lia.
Qed.
Lemma follow_record n R moved a m : (moved a = false -> forall i, i < n -> R (S a) i = R a i) ->
  follow a (map (R a) (seq 0 n)) (swap_record n R moved a (S m)) = (map (R (S a)) (seq 0 n), swap_record n R moved (S a) m).
Proof.
  intros H. unfold swap_record at 1. cbn [seq flat_map]. fold (swap_record n R moved (S a) m). destruct (moved a) eqn:E.
  - cbn [app follow]. now rewrite Nat.eqb_refl.
  - cbn [app]. assert (M : map (R a) (seq 0 n) = map (R (S a)) (seq 0 n)) by (apply map_seq_ext; intros i Hi; symmetry; apply H; [easy|lia]).
    rewrite M. unfold follow. destruct (swap_record n R moved (S a) m) as [|[s r] t] eqn:Q; [easy|].
    assert (L : S a <= s < S a + m). { apply (swap_later n R moved _ _ _ r). rewrite Q. now left. }
    destruct (Nat.eqb_spec s a); [lia|easy].
Qed.
Lemma turns_record n R moved N M ds : N < M -> (forall s i, s <= N -> i < n -> R s i < n) -> (forall s, moved s = false -> forall i, i < n -> R (S s) i = R s i) ->
  Forall (sound true n N) ds -> forall m a outs, a + m <= S N ->
  turns int_of n m a (map (R a) (seq 0 n)) (swap_record n R moved a (M - a)) (map (streams_of n a (S N - a) outs) ds) =
  (map (streams_of n (a + m) (S N - (a + m)) (fun d j => outs d j ++ flat_map (fun s => held (R s) n d s j) (seq a m))) ds, Fine).
Proof.
  intros HM Hr Hm Hd. induction m as [|m IH]; intros a outs Ha.
  - cbn [turns seq flat_map]. rewrite Nat.add_0_r. f_equal. apply streams_ext. intros. now rewrite app_nil_r.
  - cbn [turns]. replace (S N - a) with (S (S N - S a)) by lia. rewrite (frames_step true n (R a) N); [|intros; apply Hr; lia|lia|exact Hd].
    replace (M - a) with (S (M - S a)) by lia. rewrite follow_record by apply Hm. rewrite IH by lia. replace (S a + m) with (a + S m) by lia.
    f_equal. apply streams_ext. intros d j _ _. cbn [seq flat_map]. now rewrite app_assoc.
Qed.
Lemma held_one irep n d s j i : i < n -> irep i = j -> (forall x y, x < n -> y < n -> irep x = irep y -> x = y) -> held irep n d s j = at_step d i s.
Proof.
  intros Hi E Inj. unfold held.
  assert (G : forall m a, a + m <= n -> flat_map (fun x => if irep x =? j then at_step d x s else []) (seq a m) = if (a <=? i) && (i <? a + m) then at_step d i s else []).
  { induction m as [|m IH]; intros a Ha; cbn [seq flat_map].
    - destruct (Nat.leb_spec a i), (Nat.ltb_spec i (a + 0)); try easy; lia.
    - rewrite IH by lia. destruct (Nat.eqb_spec (irep a) j) as [Q|Q].
      + assert (a = i) as -> by (apply Inj; lia || congruence). destruct (Nat.leb_spec (S i) i); [lia|]. cbn [andb]. rewrite app_nil_r.
        destruct (Nat.leb_spec i i), (Nat.ltb_spec i (i + S m)); try easy; lia.
      + assert (a <> i) by congruence. cbn [app]. destruct (Nat.leb_spec (S a) i), (Nat.leb_spec a i), (Nat.ltb_spec i (S a + m)), (Nat.ltb_spec i (a + S m)); try easy; lia. }
  rewrite G by lia. cbn [Nat.leb Nat.add andb]. destruct (Nat.ltb_spec i n); [easy|lia].
Qed.

(** A run of N steps: R s i is the replica index of system i at the output of step s, starting from the identity;
    M lines or more of the swap file may come from steps beyond the outputs. Whatever the outputs, after N steps the
    file of replica k holds, at every step with an output, the frame of the system that held replica k. *)
Theorem remdsort_sorted n N M R moved (holder : nat -> nat -> nat) ds : N < M ->
  (forall i, i < n -> R 0 i = i) ->
  (forall s i, s <= N -> i < n -> R s i < n) ->
  (forall s x y, s <= N -> x < n -> y < n -> R s x = R s y -> x = y) ->
  (forall s, moved s = false -> forall i, i < n -> R (S s) i = R s i) ->
  (forall s k, s <= N -> k < n -> holder s k < n /\ R s (holder s k) = k) ->
  Forall (sound true n N) ds ->
  remdsort int_of n (S N) (swap_record n R moved 0 M) (map (streams_of n 0 (S N) (fun _ _ => [])) ds) =
  (map (fun d => Stream (d_kind d) (d_stride d) (map (fun _ => []) (seq 0 n))
          (map (fun k => flat_map (fun s => at_step d (holder s k) s) (seq 0 (S N))) (seq 0 n))) ds, Fine).
Proof.
  intros HM R0 Hr Inj Hm Hh Hd. unfold remdsort.
  replace (seq 0 n) with (map (R 0) (seq 0 n)) at 1.
  2:{ rewrite (map_seq_ext _ (fun i => i)); [apply map_id|]. intros i Hi. apply R0. lia. }
  pose proof (turns_record n R moved N M ds HM Hr Hm Hd (S N) 0 (fun _ _ => []) ltac:(lia)) as T.
  rewrite !Nat.sub_0_r in T. rewrite T. f_equal. cbn [Nat.add]. rewrite Nat.sub_diag. apply map_ext_in. intros d _. unfold streams_of. f_equal.
  apply map_seq_ext. intros k Hk. cbn [app]. apply flat_map_seq_ext. intros s Hs. destruct (Hh s k) as [A B]; [lia|lia|].
  apply held_one; [easy|easy|]. intros x y. apply Inj. lia.
Qed.

(** *** How the loop ends *)
Lemma frames_idle checked n irep s l : Forall (fun st => s mod s_stride st <> 0) l -> frames int_of checked n irep s l = (l, Fine).
Proof. induction 1 as [|st l H _ IH]; [easy|]. cbn [frames]. apply Nat.eqb_neq in H. now rewrite H, IH. Qed.
Lemma frames_end n irep s l1 p l2 : 0 < n -> Forall (fun st => s mod s_stride st <> 0) l1 -> s mod s_stride p = 0 -> s_kind p = KProp ->
  s_in p = map (fun _ => []) (seq 0 n) -> frames int_of true n irep s (l1 ++ p :: l2) = (l1 ++ p :: l2, EndOfFile).
Proof.
  intros Hn H E K I. induction H as [|st l H _ IH].
  - cbn [app frames]. rewrite E. cbn [Nat.eqb]. destruct n as [|n]; [lia|]. cbn [seq passes]. unfold pass at 1. rewrite I, nth_error_seq by lia.
    rewrite K. cbn [read read_prop]. rewrite update_seq by lia. f_equal. f_equal. destruct p as [k st i o]. cbn [s_in s_kind s_stride s_out] in *. subst k i. f_equal.
    apply map_seq_ext. intros j _. now destruct (j =? 0 + 0).
  - cbn [app frames]. apply Nat.eqb_neq in H. now rewrite H, IH.
Qed.
Lemma turns_idle n l : forall m a irep sw, (forall s, a <= s < a + m -> Forall (fun st => s mod s_stride st <> 0) l) ->
  turns int_of n m a irep sw l = (l, Fine).
Proof.
  induction m as [|m IH]; intros a irep sw H; [easy|]. cbn [turns]. rewrite frames_idle by (apply H; lia). destruct (follow a irep sw) as [ir1 sw1]. apply IH. intros s Hs. apply H. lia.
Qed.
Lemma turns_more n m2 : forall m1 a irep sw l l', turns int_of n m1 a irep sw l = (l', Fine) ->
  exists irep' sw', turns int_of n (m1 + m2) a irep sw l = turns int_of n m2 (a + m1) irep' sw' l'.
Proof.
  induction m1 as [|m1 IH]; intros a irep sw l l' H.
  - cbn [turns] in H. injection H as <-. exists irep, sw. now rewrite Nat.add_0_r.
  - cbn [turns Nat.add] in *. destruct (frames int_of true n irep a l) as [l1 [| |]]; try discriminate. destruct (follow a irep sw) as [ir sw1].
    destruct (IH _ _ _ _ _ H) as (ir' & sw' & E). exists ir', sw'. rewrite E. now replace (S a + m1) with (a + S m1) by lia.
Qed.
(** If the first output after the last step N that comes up is one of the properties, at step T, then the tool ends there
    and leaves the files as they were after step N. *)
Theorem remdsort_ends n N M R moved (holder : nat -> nat -> nat) ds1 p ds2 T fuel : N < M -> 0 < n ->
  (forall i, i < n -> R 0 i = i) ->
  (forall s i, s <= N -> i < n -> R s i < n) ->
  (forall s x y, s <= N -> x < n -> y < n -> R s x = R s y -> x = y) ->
  (forall s, moved s = false -> forall i, i < n -> R (S s) i = R s i) ->
  (forall s k, s <= N -> k < n -> holder s k < n /\ R s (holder s k) = k) ->
  Forall (sound true n N) (ds1 ++ p :: ds2) ->
  N < T -> T < fuel -> (forall s d, N < s < T -> In d (ds1 ++ p :: ds2) -> s mod d_stride d <> 0) ->
  Forall (fun d => T mod d_stride d <> 0) ds1 -> T mod d_stride p = 0 -> d_kind p = KProp ->
  remdsort int_of n fuel (swap_record n R moved 0 M) (map (streams_of n 0 (S N) (fun _ _ => [])) (ds1 ++ p :: ds2)) =
  (map (fun d => Stream (d_kind d) (d_stride d) (map (fun _ => []) (seq 0 n))
          (map (fun k => flat_map (fun s => at_step d (holder s k) s) (seq 0 (S N))) (seq 0 n))) (ds1 ++ p :: ds2), EndOfFile).
Proof.
  intros HM Hn R0 Hr Inj Hm Hh Hd HT HF Hidle H1 Hp Kp.
  pose proof (remdsort_sorted n N M R moved holder _ HM R0 Hr Inj Hm Hh Hd) as E. unfold remdsort in *.
  destruct (turns_more n (T - S N) _ _ _ _ _ _ E) as (ir & sw & E2). change (0 + S N) with (S N) in E2.
  match type of E2 with _ = turns _ _ _ _ _ _ (map ?f _) => set (g := f) in * end.
  rewrite (turns_idle n _ (T - S N) (S N)) in E2.
  2:{ intros s Hs. apply Forall_forall. intros st Hst. apply in_map_iff in Hst as (d & <- & Hd'). apply Hidle; [lia|easy]. }
  replace (S N + (T - S N)) with T in E2 by lia.
  destruct (turns_more n (S (fuel - S T)) _ _ _ _ _ _ E2) as (ir' & sw' & E3). replace (T + S (fuel - S T)) with fuel in E3 by lia.
  rewrite E3. cbn [turns Nat.add]. rewrite map_app. cbn [map]. rewrite frames_end; try easy.
  apply Forall_map. exact H1.
Qed.

(** ** Frames that are read as a whole *)
Theorem property_whole checked header l : Forall (fun c => is_comment c = true) header -> is_comment l = false -> whole checked KProp (header ++ [l]).
Proof.
  intros Hc Hl rest. cbn [read]. unfold read_prop. rewrite <- app_assoc.
  assert (G : comments (header ++ [l] ++ rest) = (header ++ [l], rest, Fine)).
  { induction Hc as [|c h Hc _ IH]; cbn [app comments]; [now rewrite Hl|]. cbn [app] in IH. now rewrite Hc, IH. }
  rewrite G. destruct header; easy.
Qed.
Theorem extras_whole checked a b : whole checked (KTraj None) [a; b].
Proof. easy. Qed.
Lemma take_all {A} (a b : list A) : firstn (List.length a) (a ++ b) = a /\ skipn (List.length a) (a ++ b) = b.
Proof. split; [now rewrite firstn_app, Nat.sub_diag, firstn_all, firstn_O, app_nil_r|now rewrite skipn_app, Nat.sub_diag, skipn_all]. Qed.
Theorem xyz_whole checked format l title atoms : (format = "xyz" \/ format = "ase")%string -> int_of l = Some (Z.of_nat (List.length atoms)) ->
  whole checked (KTraj (Some format)) (l :: title :: atoms).
Proof.
  intros F E rest. cbn [read read_traj app]. replace (String.eqb format "xyz" || String.eqb format "ase") with true by now destruct F as [-> | ->].
  rewrite E, Nat2Z.id. cbn [firstn skipn]. destruct (take_all atoms rest) as [-> ->]. easy.
Qed.
Theorem pdb_whole checked lines l : Forall (fun x => pdb_end x = false) lines -> pdb_end l = true -> whole checked (KTraj (Some "pdb"%string)) (lines ++ [l]).
Proof.
  intros H E rest. cbn [read read_traj]. cbn [String.eqb Ascii.eqb Bool.eqb orb].
  assert (G : read_pdb ((lines ++ [l]) ++ rest) = (lines ++ [l], rest)).
  { rewrite <- app_assoc. induction H as [|x lines Hx _ IH]; cbn [app read_pdb]; [now rewrite E|]. cbn [app] in IH. now rewrite Hx, IH. }
  now rewrite G.
Qed.

(** ** trimsim *)
Lemma held_id n d s j : j < n -> held (fun i => i) n d s j = at_step d j s.
Proof. intros H. now apply held_one. Qed.
Lemma trims_record n N ds : Forall (sound false n N) ds -> forall m a outs, a + m <= S N ->
  trims int_of n m a (map (streams_of n a (S N - a) outs) ds) =
  (map (streams_of n (a + m) (S N - (a + m)) (fun d j => outs d j ++ record_from d j a m)) ds, Fine).
Proof.
  intros Hd. induction m as [|m IH]; intros a outs Ha.
  - cbn [trims]. rewrite Nat.add_0_r. f_equal. apply streams_ext. intros. unfold record_from. cbn [seq flat_map]. now rewrite app_nil_r.
  - cbn [trims]. replace (S N - a) with (S (S N - S a)) by lia. replace (seq 0 n) with (map (fun i => i) (seq 0 n)) by apply map_id.
    rewrite (frames_step false n _ N); [|easy|lia|exact Hd]. rewrite IH by lia. replace (S a + m) with (a + S m) by lia.
    f_equal. apply streams_ext. intros d j _ Hj. unfold record_from. cbn [seq flat_map]. rewrite held_id by easy. now rewrite app_assoc.
Qed.
(** The files of a run of N steps cut at step T are the files of a run of T steps... *)
Theorem trimsim_cuts n N T ds : T <= N -> Forall (sound false n N) ds ->
  trimsim int_of n T (map (streams_of n 0 (S N) (fun _ _ => [])) ds) =
  (map (streams_of n (S T) (N - T) (fun d j => record_from d j 0 (S T))) ds, Fine).
Proof.
  intros HT Hd. unfold trimsim. pose proof (trims_record n N ds Hd (S T) 0 (fun _ _ => []) ltac:(lia)) as E.
  rewrite Nat.sub_0_r in E. rewrite E. f_equal.
Qed.
(** ... and so is the swap file... *)
Theorem trimsim_swaps n R moved N T : T <= N -> trim_swaps T (swap_record n R moved 0 N) = swap_record n R moved 0 T.
Proof.
  intros H. assert (G : forall m a, a <= T -> trim_swaps T (swap_record n R moved a (T - a + m)) = swap_record n R moved a (T - a)).
  { intros m. assert (K : forall k a, a + k = T -> trim_swaps T (swap_record n R moved a (k + m)) = swap_record n R moved a k).
    - induction k as [|k IH]; intros a Ha.
      + cbn [Nat.add]. unfold swap_record at 2. cbn [seq flat_map]. destruct (swap_record n R moved a m) as [|[s r] t] eqn:Q; [easy|].
        assert (a <= s < a + m) by (apply (swap_later n R moved _ _ _ r); rewrite Q; now left). cbn [trim_swaps]. destruct (Nat.ltb_spec s T); [lia|easy].
      + unfold swap_record. cbn [Nat.add seq flat_map]. fold (swap_record n R moved (S a) (k + m)). fold (swap_record n R moved (S a) k).
        destruct (moved a); cbn [app]; [|apply IH; lia]. cbn [trim_swaps]. destruct (Nat.ltb_spec a T); [|lia]. f_equal. apply IH. lia.
    - intros a Ha. apply K. lia. }
  specialize (G (N - T) 0 ltac:(lia)). rewrite Nat.sub_0_r in G. now replace (T + (N - T)) with N in G by lia.
Qed.
(** ... so that what a run restarted at step T appends makes the files of an uninterrupted run. *)
Theorem trimsim_continues d j T N : T <= N -> record_from d j 0 (S T) ++ record_from d j (S T) (N - T) = record_from d j 0 (S N).
Proof. intros H. unfold record_from. rewrite <- flat_map_app, <- seq_app. now replace (S T + (N - T)) with (S N) by lia. Qed.
Theorem trimsim_continues_swaps n R moved T N : T <= N -> swap_record n R moved 0 T ++ swap_record n R moved T (N - T) = swap_record n R moved 0 N.
Proof. intros H. unfold swap_record. rewrite <- flat_map_app. replace (seq T (N - T)) with (seq (0 + T) (N - T)) by easy. rewrite <- seq_app. now replace (T + (N - T)) with N by lia. Qed.
(** Without the cut the lines of the swap file after the restart are ignored: a line of an earlier step blocks the reading. *)
Theorem stale_line_blocks n l : forall m a irep s r t, s < a ->
  turns int_of n m a irep ((s, r) :: t) l = turns int_of n m a irep [] l.
Proof.
  intros m. revert l. induction m as [|m IH]; intros l a irep s r t H; [easy|]. cbn [turns]. destruct (frames int_of true n irep a l) as [l' [| |]]; try easy.
  cbn [follow]. destruct (Nat.eqb_spec s a); [lia|]. apply IH. lia.
Qed.
End Sort.

(** ** Witnesses *)
Definition ex_int (l : string) : option Z := if String.eqb l "1" then Some 1%Z else None.
Definition ex_name (i s : nat) : string := "sys" ++ dec i ++ "step" ++ dec s.
(** properties at every step with a header, positions at every second step *)
Definition ex_props : data := Data KProp 1 (fun i s => if s =? 0 then ["# column 1"%string; ex_name i s] else [ex_name i s]).
Definition ex_xyz : data := Data (KTraj (Some "xyz"%string)) 2 (fun i s => ["1"%string; "title"%string; ex_name i s]).
(** two replicas exchanged by step 1 and moved back by step 2 *)
Definition ex_R (s i : nat) : nat := if s =? 2 then 1 - i else i.
Definition ex_moved (s : nat) : bool := (s =? 1) || (s =? 2).
Lemma ex_sound : Forall (sound ex_int true 2 3) [ex_props; ex_xyz].
Proof.
  constructor; [|constructor; [|constructor]]; intros i s Hi Hs E.
  - cbn [ex_props d_frame d_kind]. assert (C : is_comment (ex_name i s) = false) by easy. destruct (s =? 0).
    + apply (property_whole ex_int true ["# column 1"%string]); [repeat constructor|exact C].
    + apply (property_whole ex_int true []); [constructor|exact C].
  - cbn [ex_xyz d_frame d_kind]. apply xyz_whole; [now left|easy].
Qed.
Example remdsort_ex : remdsort ex_int 2 10 (swap_record 2 ex_R ex_moved 0 4) (map (streams_of 2 0 4 (fun _ _ => [])) [ex_props; ex_xyz]) =
  ([Stream KProp 1 [[]; []] [["# column 1"; "sys0step0"; "sys0step1"; "sys1step2"; "sys0step3"]; ["# column 1"; "sys1step0"; "sys1step1"; "sys0step2"; "sys1step3"]];
    Stream (KTraj (Some "xyz"%string)) 2 [[]; []] [["1"; "title"; "sys0step0"; "1"; "title"; "sys1step2"]; ["1"; "title"; "sys1step0"; "1"; "title"; "sys0step2"]]], EndOfFile)%string.
Proof. vm_compute. reflexivity. Qed.
Example remdsort_ends_ex : exists holder, remdsort ex_int 2 10 (swap_record 2 ex_R ex_moved 0 4) (map (streams_of 2 0 4 (fun _ _ => [])) ([] ++ ex_props :: [ex_xyz])) =
  (map (fun d => Stream (d_kind d) (d_stride d) (map (fun _ => []) (seq 0 2))
          (map (fun k => flat_map (fun s => at_step d (holder s k) s) (seq 0 4)) (seq 0 2))) ([] ++ ex_props :: [ex_xyz]), EndOfFile).
Proof.
  exists ex_R. unfold ex_R, ex_moved. apply remdsort_ends with (T := 4); try lia; try easy; try apply ex_sound.
  - intros s i _ Hi. destruct (s =? 2); lia.
  - intros s x y _ Hx Hy. destruct (s =? 2); lia.
  - intros s E i Hi. destruct (Nat.eqb_spec s 1), (Nat.eqb_spec s 2); try discriminate. destruct (Nat.eqb_spec (S s) 2); [lia|easy].
  - intros s k _ Hk. destruct (s =? 2); lia.
Qed.
(** A run started with another replica index (as an input file can give it) is sorted as if it were the identity. *)
Theorem remdsort_start_refuted : exists n N R moved ds k i, k < n /\ i < n /\ R 0 i = k /\
  (forall s x, x < n -> R s x < n) /\ (forall s x y, x < n -> y < n -> R s x = R s y -> x = y) /\
  (forall s, moved s = false -> forall x, x < n -> R (S s) x = R s x) /\ Forall (sound ex_int true n N) ds /\
  exists st, nth_error (fst (remdsort ex_int n (S N) (swap_record n R moved 0 (S N)) (map (streams_of n 0 (S N) (fun _ _ => [])) ds))) 0 = Some st /\
  exists f d, nth_error (s_out st) k = Some f /\ nth_error ds 0 = Some d /\ at_step d i 0 <> firstn (List.length (at_step d i 0)) f.
Proof.
  exists 2, 0, (fun _ i => 1 - i), (fun _ => false), [ex_props], 0, 1. repeat split; try lia.
  - constructor; [|constructor]. intros i s Hi Hs E. pose proof ex_sound as Q. inversion Q as [|a b Q1 Q2]. apply Q1; lia.
  - eexists. split; [vm_compute; reflexivity|]. do 2 eexists. split; [vm_compute; reflexivity|]. split; [reflexivity|]. vm_compute. discriminate.
Qed.
(** With no properties among the outputs the tool fails, or never ends. *)
Theorem remdsort_ends_refuted : exists d d', sound ex_int true 1 0 d /\ sound ex_int true 1 0 d' /\
  snd (remdsort ex_int 1 2 [] (map (streams_of 1 0 1 (fun _ _ => [])) [d])) = Crash /\
  forall fuel, snd (remdsort ex_int 1 fuel [] (map (streams_of 1 0 1 (fun _ _ => [])) [d'])) = Fine.
Proof.
  exists (Data (KTraj (Some "xyz"%string)) 1 (fun i s => ["1"%string; "title"%string; "H"%string])), (Data (KTraj None) 1 (fun i s => ["# step"%string; "{}"%string])).
  split; [intros i s _ _ _; apply xyz_whole; [now left|easy]|]. split; [intros i s _ _ _; apply extras_whole|]. split; [vm_compute; reflexivity|].
  assert (G : forall m a, turns ex_int 1 m a [0] [] [Stream (KTraj None) 1 [[]] [["# step"%string; "{}"%string]]] = ([Stream (KTraj None) 1 [[]] [["# step"%string; "{}"%string]]], Fine)).
  { induction m as [|m IH]; intros a; [easy|]. cbn [turns frames s_stride]. rewrite Nat.mod_1_r. cbn. apply IH. }
  intros [|fuel]; [easy|]. unfold remdsort. cbn [turns]. cbn -[turns]. rewrite G. easy.
Qed.
(** A trajectory in another format is not copied at all, and the lines of an extras frame that is not two lines long are taken apart. *)
Theorem remdsort_format_refuted : exists f lines, lines <> [] /\
  remdsort ex_int 1 5 [] [Stream (KTraj (Some f)) 1 [lines] [[]]] = ([Stream (KTraj (Some f)) 1 [lines] [[]]], Fine).
Proof. exists "json"%string, ["{}"%string]. split; [discriminate|reflexivity]. Qed.
Theorem remdsort_extras_refuted : exists (frame : nat -> nat -> file) R moved,
  (forall s x, x < 2 -> R s x < 2) /\ (forall i, i < 2 -> R 0 i = i) /\ (forall s, moved s = false -> forall x, x < 2 -> R (S s) x = R s x) /\
  exists st f line, nth_error (fst (remdsort ex_int 2 2 (swap_record 2 R moved 0 2) [streams_of 2 0 2 (fun _ _ => []) (Data (KTraj None) 1 frame)])) 0 = Some st /\
  nth_error (s_out st) 1 = Some f /\ In line f /\ In line (frame 0 0) /\ R 0 0 = 0.
Proof.
  exists (fun i s => ["# step"%string; ex_name i s; "second line of " ++ ex_name i s]%string), (fun s i => if s =? 0 then i else 1 - i), (fun s => s =? 0).
  split; [intros s x Hx; destruct (s =? 0); lia|]. split; [easy|]. split; [intros [|s] E x Hx; [discriminate|easy]|].
  eexists. exists ["# step"; "sys1step0"; "second line of sys0step0"; "# step"]%string, "second line of sys0step0"%string. split; [vm_compute; reflexivity|].
  split; [reflexivity|]. split; [right; right; now left|]. split; [right; right; now left|easy].
Qed.
(** Files that stop before the step of the cut make it fail. *)
Theorem trimsim_short_refuted : exists d N T, N < T /\ sound ex_int false 1 N d /\
  snd (trimsim ex_int 1 T (map (streams_of 1 0 (S N) (fun _ _ => [])) [d])) = Crash.
Proof.
  exists ex_props, 1, 2. split; [lia|]. split; [|vm_compute; reflexivity]. intros i s Hi Hs E. cbn [ex_props d_frame d_kind]. destruct (s =? 0).
  - apply (property_whole ex_int false ["# column 1"%string]); [repeat constructor|easy].
  - apply (property_whole ex_int false []); [constructor|easy].
Qed.
Example trimsim_ex : trimsim ex_int 2 1 (map (streams_of 2 0 4 (fun _ _ => [])) [ex_props; ex_xyz]) =
  ([Stream KProp 1 [["sys0step2"; "sys0step3"]; ["sys1step2"; "sys1step3"]] [["# column 1"; "sys0step0"; "sys0step1"]; ["# column 1"; "sys1step0"; "sys1step1"]];
    Stream (KTraj (Some "xyz"%string)) 2 [["1"; "title"; "sys0step2"]; ["1"; "title"; "sys1step2"]] [["1"; "title"; "sys0step0"]; ["1"; "title"; "sys1step0"]]], Fine)%string
  /\ trim_swaps 2 (swap_record 2 ex_R ex_moved 0 4) = [(1, [1; 0])].
Proof. split; vm_compute; reflexivity. Qed.
(** Restarted from step 1 without a cut: the swap of step 0 is written twice, and the one of step 1 is not seen. *)
Example stale_line_ex : remdsort ex_int 2 9 [(0, [1; 0]); (0, [1; 0]); (1, [0; 1])] (map (streams_of 2 0 4 (fun _ _ => [])) [ex_props]) =
  remdsort ex_int 2 9 [(0, [1; 0])] (map (streams_of 2 0 4 (fun _ _ => [])) [ex_props]).
Proof. vm_compute. reflexivity. Qed.
Example pdb_ex : whole ex_int true (KTraj (Some "pdb"%string)) ["REMARK"; "ATOM"; " END "]%string.
Proof. apply (pdb_whole ex_int true ["REMARK"; "ATOM"]%string); [repeat constructor|reflexivity]. Qed.

(** ** Names of the files *)
Lemma append_empty (a : string) : (a ++ "")%string = a.
Proof. induction a as [|c a IH]; [easy|]. cbn. now rewrite IH. Qed.
Lemma filter_bead ibead l : (-1 <= ibead)%Z ->
  filter (fun b => ((ibead <? 0)%Z && (Z.of_nat b mod (- ibead) =? 0)%Z) || (ibead =? Z.of_nat b)%Z) l =
  filter (fun b => (ibead <? 0)%Z || (ibead =? Z.of_nat b)%Z) l.
Proof.
  intros H. apply filter_ext. intros b. destruct (Z.ltb_spec ibead 0) as [L|L]; [|easy]. replace ibead with (-1)%Z by lia. rewrite Z.mod_1_r. easy.
Qed.
Lemma mem_In k l : mem k l = true -> In k l.
Proof. unfold mem. rewrite existsb_exists. intros (x & Hx & E). apply String.eqb_eq in E. now subst. Qed.
(** remdsort looks for the files that the simulation writes for positions, velocities, forces, extras and for what has one
    file per system... *)
Theorem remd_names w nb key format ibead f : (-1 <= ibead)%Z ->
  mem key remd_keys = true \/ (mem key bead_keys = false /\ is_extras key = false) ->
  remd_files w nb key format ibead f = written w nb key format ibead f.
Proof.
  intros Hb [H|[H E]].
  - unfold remd_files, written. rewrite H. assert (K : mem key bead_keys = true). { apply mem_In in H. cbn in H. repeat destruct H as [<-|H]; easy. }
    rewrite K, filter_bead by easy. apply map_ext. intros b. apply mem_In in H. cbn in H. repeat destruct H as [<-|H]; try easy; cbn; now rewrite append_empty.
  - unfold remd_files, written. rewrite H, E. destruct (mem key remd_keys) eqn:K; [|easy].
    apply mem_In in K. cbn in K. exfalso. repeat destruct K as [<-|K]; easy.
Qed.
(** ... and trimsim for positions, velocities, forces, extras and the rest when not in the ase format. *)
Theorem trim_names w nb key format ibead f : (-1 <= ibead)%Z ->
  mem key trim_keys = true \/ (mem key bead_keys = false /\ is_extras key = false /\ format <> "ase"%string) ->
  trim_files w nb key format ibead f = written w nb key format ibead f.
Proof.
  intros Hb [H|(H & E & N)].
  - unfold trim_files, written. rewrite H. assert (K : mem key bead_keys = true). { apply mem_In in H. cbn in H. repeat destruct H as [<-|H]; easy. }
    rewrite K, filter_bead by easy. apply map_ext. intros b. apply mem_In in H. cbn in H. repeat destruct H as [<-|H]; try easy; cbn; now rewrite append_empty.
  - unfold trim_files, written. rewrite H, E. destruct (mem key trim_keys) eqn:K.
    + apply mem_In in K. cbn in K. exfalso. repeat destruct K as [<-|K]; easy.
    + unfold extension. apply String.eqb_neq in N. now rewrite N.
Qed.
(** The keys are those one would expect: *)
Theorem remd_trim_keys w nb key format ibead f : (-1 <= ibead)%Z ->
  (In key ["positions"; "velocities"; "forces"; "extras"; "extras_bias"]%string -> remd_files w nb key format ibead f = written w nb key format ibead f) /\
  (In key ["positions"; "velocities"; "forces"; "extras"]%string -> trim_files w nb key format ibead f = written w nb key format ibead f).
Proof.
  intros Hb. split; intros H.
  - apply remd_names; [easy|]. left. cbn in H. repeat destruct H as [<-|H]; easy.
  - apply trim_names; [easy|]. left. cbn in H. repeat destruct H as [<-|H]; easy.
Qed.
Theorem swapfile_name pre swapfile : (pre <> "")%string -> remd_swapfile pre swapfile = with_prefix pre swapfile.
Proof. intros H. unfold with_prefix. apply String.eqb_neq in H. now rewrite H. Qed.
(** The momenta and the other forces also have one file per bead, every second bead can be asked for (-2), the raw extras of a
    component have no extension, and without a prefix the swap file has no dot; trimsim also misses extras_bias and ase. *)
Theorem remd_names_refuted : 
  (forall key, In key ["forces_spring"; "Eforces"; "forces_sc"; "momenta"; "becx"; "becy"; "becz"]%string -> ~ In (hd "" (remd_files 1 1 key "xyz" (-1) "s"))%string (written 1 1 key "xyz" (-1) "s")) /\
  ~ In (hd "" (remd_files 1 1 "extras_component_raw" "xyz" (-1) "s"))%string (written 1 1 "extras_component_raw" "xyz" (-1) "s") /\
  ~ In (nth 1 (remd_files 1 2 "positions" "xyz" (-2) "s") "")%string (written 1 2 "positions" "xyz" (-2) "s") /\
  remd_swapfile "" "remd_idx" <> with_prefix "" "remd_idx".
Proof.
  split; [|split; [|split]].
  - intros key H. cbn in H. repeat destruct H as [<-|H]; try easy; vm_compute; intuition discriminate.
  - vm_compute. intuition discriminate.
  - vm_compute. intuition discriminate.
  - vm_compute. discriminate.
Qed.
Theorem trim_names_refuted :
  ~ In (hd "" (trim_files 1 1 "x_centroid" "ase" (-1) "s"))%string (written 1 1 "x_centroid" "ase" (-1) "s") /\
  ~ In (hd "" (trim_files 1 1 "extras_bias" "xyz" (-1) "s"))%string (written 1 1 "extras_bias" "xyz" (-1) "s").
Proof. split; vm_compute; intuition discriminate. Qed.
Example names_ex : remd_files 2 12 "positions" "ase" 7 "s.pos" = ["s.pos_07.extxyz"%string] /\ written 2 12 "positions" "ase" 7 "s.pos" = ["s.pos_07.extxyz"%string] /\
  written 1 4 "velocities" "pdb" (-2) "v" = ["v_0.pdb"; "v_2.pdb"]%string /\ remd_files 1 1 "x_centroid" "xyz" 0 "c" = ["c.xyz"%string].
Proof. repeat split; vm_compute; reflexivity. Qed.

Print Assumptions remdsort_sorted. Print Assumptions remdsort_ends. Print Assumptions trimsim_cuts. Print Assumptions trimsim_swaps.
Print Assumptions remd_names.
Print Assumptions remd_trim_keys. Print Assumptions trim_names. Print Assumptions remd_names_refuted. Print Assumptions remdsort_extras_refuted.
