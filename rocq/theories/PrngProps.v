(* Random numbers (C54). *)
From Coq Require Import List Arith Bool Lia.
From Verif Require Import PrngModel.
Import ListNotations.

Section Props.
Variable stream num : Type.
Variable normal : stream -> num * stream.
Variable spawned : nat -> nat -> stream.

Notation random := (random stream).
Notation rng := (rng stream).
Notation n_threads := (n_threads stream).

(* ---------------- what is meant ---------------- *)

(* the stream after k draws and the k-th number *)
Fixpoint after (k : nat) (s : stream) : stream :=
  match k with O => s | S k => after k (snd (normal s)) end.
Definition drawn (k : nat) (s : stream) : num := fst (normal (after k s)).

Lemma after_S k s : after (S k) s = snd (normal (after k s)).
Proof. revert s. induction k; intros s; [reflexivity|]. cbn [after] in *. now rewrite IHk. Qed.

Lemma fill_spec s out : fill stream num normal s out =
  (after (length out) s, map (fun k => drawn k s) (seq 0 (length out))).
Proof.
  revert s. induction out as [|x out IH]; intros s; [reflexivity|]. cbn [fill length after].
  destruct (normal s) as [y s1] eqn:E. rewrite IH. cbn [snd].
  f_equal. cbn [seq map]. f_equal; [unfold drawn; cbn [after]; now rewrite E|].
  rewrite <- seq_shift, map_map. apply map_ext. intros k. unfold drawn. cbn [after]. now rewrite E.
Qed.

(* every object has one stream per thread *)
Definition sound (r : random) : Prop := length (rng r) = n_threads r /\ 1 <= n_threads r.

Lemma init_sound clock seed state n : 1 <= n -> sound (init stream spawned clock seed state n).
Proof.
  intros H. unfold init. set (s := match seed with Some s => s | None => clock end).
  destruct state as [v|]; unfold sound; cbn [PrngModel.rng PrngModel.n_threads set_state].
  - rewrite app_length, firstn_length, skipn_length, !map_length, !seq_length. lia.
  - rewrite map_length, seq_length. lia.
Qed.

Lemma threads_length sz i ss flat : length (fst (threads stream num normal sz i ss flat)) = length ss.
Proof.
  revert i. induction ss as [|s ss IH]; intros i; [reflexivity|]. cbn [threads].
  destruct (fill _ _ _ _ _) as [s' l]. specialize (IH (S i)). destruct (threads _ _ _ _ _ _ _) as [a b]. cbn in *. lia.
Qed.

Lemma serve_sound r q r' a : sound r -> serve stream num normal r q = Some (r', a) -> sound r' /\ n_threads r' = n_threads r.
Proof.
  intros [L N] H. unfold sound. destruct r as [[|s rest] n]; cbn in L, N; [lia|]. destruct q as [f|m]; cbn [serve] in H.
  - unfold draw0 in H. cbn [PrngModel.rng PrngModel.n_threads] in H. destruct (f s) as [x s']. injection H as <- _. cbn in *. lia.
  - unfold gvec, gfill, gfill_threaded in H. cbn [PrngModel.n_threads PrngModel.rng] in H.
    assert (G : gfill_serial stream num normal (Random stream (s :: rest) n) m = Some (r', a) ->
                (length (rng r') = n_threads r' /\ 1 <= n_threads r') /\ n_threads r' = n).
    { unfold gfill_serial. cbn [PrngModel.n_threads PrngModel.rng]. destruct (fill _ _ _ s m) as [s' l].
      intros E. injection E as <- _. cbn in *. lia. }
    destruct (n =? 1); [now apply G|]. destruct (_ <? min_step); [now apply G|].
    pose proof (threads_length (step_size (length m) n) 0 (s :: rest) m) as T.
    destruct (threads _ _ _ _ _ _ _) as [ss l]. injection H as <- _. cbn in *. lia.
Qed.

Lemma served_sound r qs r' l : sound r -> serve_all stream num normal r qs = Some (r', l) -> sound r' /\ n_threads r' = n_threads r.
Proof.
  revert r r' l. induction qs as [|q qs IH]; intros r r' l S H; cbn [serve_all] in H.
  - injection H as <- <-. auto.
  - destruct (serve _ _ _ r q) as [[r1 a]|] eqn:E; [|easy].
    destruct (serve_all _ _ _ r1 qs) as [[r2 l2]|] eqn:E2; [|easy]. injection H as <- <-.
    destruct (serve_sound _ _ _ _ S E) as [S1 N1]. destruct (IH _ _ _ S1 E2) as [S2 N2]. split; [easy|congruence].
Qed.

(* ---------------- theorems ---------------- *)

(* A generator stored in a checkpoint comes back as it was, whatever the
   clock says. *)
Theorem stored_comes_back clock r : sound r -> fetch stream spawned clock (store stream r) = r.
Proof.
  intros [L N]. destruct r as [l n]. cbn [PrngModel.rng PrngModel.n_threads] in L. subst n.
  unfold fetch, store, init, set_state, get_state. cbn [s_state s_threads PrngModel.rng PrngModel.n_threads].
  rewrite map_length, seq_length, firstn_all, skipn_all2, app_nil_r; [reflexivity|].
  rewrite map_length, seq_length. lia.
Qed.

(* C54: whatever was drawn before, a run continued from a checkpoint draws
   the same numbers as the run that wrote it. *)
Theorem reproducible clock clock' seed state n before l r later : 1 <= n ->
  serve_all stream num normal (init stream spawned clock seed state n) before = Some (r, l) ->
  serve_all stream num normal (fetch stream spawned clock' (store stream r)) later = serve_all stream num normal r later.
Proof.
  intros N H. f_equal. apply stored_comes_back.
  eapply served_sound in H; [apply H|]. now apply init_sound.
Qed.

(* With a seed in the input the clock does not matter, and the numbers
   drawn from the first stream do not depend on the number of threads. *)
Theorem seeded clock clock' seed n :
  init stream spawned clock (Some seed) None n = init stream spawned clock' (Some seed) None n.
Proof. reflexivity. Qed.
Theorem first_stream_same clock seed n n' : 1 <= n -> 1 <= n' ->
  hd_error (rng (init stream spawned clock seed None n)) = hd_error (rng (init stream spawned clock seed None n')).
Proof. destruct n, n'; try lia. reflexivity. Qed.

(* The serial fill writes every element from the stream. *)
Theorem serial_fills s rest n memory :
  gfill_serial stream num normal (Random stream (s :: rest) n) memory =
  Some (Random stream (after (length memory) s :: rest) n, map (fun k => drawn k s) (seq 0 (length memory))).
Proof. unfold gfill_serial. cbn [PrngModel.rng]. now rewrite fill_spec. Qed.

Theorem one_thread_fills s memory :
  gvec stream num normal (Random stream [s] 1) memory =
  Some (Random stream [after (length memory) s] 1, map (fun k => drawn k s) (seq 0 (length memory))).
Proof. unfold gvec, gfill. cbn [PrngModel.n_threads Nat.eqb]. apply serial_fills. Qed.

Theorem small_arrays_filled_partial s rest n memory :
  step_size (length memory) n < min_step ->
  gvec stream num normal (Random stream (s :: rest) n) memory =
  Some (Random stream (after (length memory) s :: rest) n, map (fun k => drawn k s) (seq 0 (length memory))).
Proof.
  intros H. unfold gvec, gfill, gfill_threaded. cbn [PrngModel.n_threads].
  destruct (n =? 1); [apply serial_fills|]. apply Nat.ltb_lt in H. rewrite H. apply serial_fills.
Qed.

(* With threads, a long array is returned as it was. *)
Theorem long_arrays_untouched r memory : n_threads r <> 1 ->
  min_step <= step_size (length memory) (n_threads r) ->
  exists r', gvec stream num normal r memory = Some (r', memory).
Proof.
  intros N H. unfold gvec, gfill, gfill_threaded. destruct (Nat.eqb_spec (n_threads r) 1); [easy|].
  destruct (Nat.ltb_spec (step_size (length memory) (n_threads r)) min_step); [lia|].
  destruct (threads _ _ _ _ _ _ _) as [ss l]. eauto.
Qed.

(* The copy that is filled gets a number in every element, each from the
   stream of its part, and the streams advance by the sizes of the parts. *)
Definition part (sz len i : nat) : nat := part_end sz len i - sz * i.

Lemma slice_length {A} sz i (l : list A) : length (slice (sz * i) (sz * (i + 1)) l) = part sz (length l) i.
Proof. unfold slice, part, part_end. rewrite firstn_length, skipn_length. lia. Qed.

Theorem threads_spec sz ss flat i0 :
  threads stream num normal sz i0 ss flat =
  (map (fun iz => after (part sz (length flat) (i0 + fst iz)) (snd iz)) (combine (seq 0 (length ss)) ss),
   concat (map (fun iz => map (fun k => drawn k (snd iz)) (seq 0 (part sz (length flat) (i0 + fst iz))))
               (combine (seq 0 (length ss)) ss))).
Proof.
  revert i0. induction ss as [|s ss IH]; intros i0; [reflexivity|]. cbn [threads length seq combine map concat fst snd].
  rewrite fill_spec, slice_length, Nat.add_0_r, IH. f_equal; f_equal.
  - rewrite <- seq_shift. clear. revert i0. generalize (seq 0 (length ss)) as l. induction ss as [|s ss IH]; intros [|a l] i0; try reflexivity.
    cbn [map combine fst snd]. f_equal; [f_equal; f_equal; lia|]. apply IH.
  - rewrite <- seq_shift. f_equal. clear. revert i0. generalize (seq 0 (length ss)) as l. induction ss as [|s ss IH]; intros [|a l] i0; try reflexivity.
    cbn [map combine fst snd]. f_equal; [f_equal; f_equal; f_equal; lia|]. apply IH.
Qed.

(* After a threaded fill every stream has advanced by the size of its part. *)
Theorem threaded_streams_advance r memory : n_threads r <> 1 ->
  min_step <= step_size (length memory) (n_threads r) ->
  exists r', gvec stream num normal r memory = Some (r', memory) /\ n_threads r' = n_threads r /\
    rng r' = map (fun iz => after (part (step_size (length memory) (n_threads r)) (length memory) (fst iz)) (snd iz))
                 (combine (seq 0 (length (rng r))) (rng r)).
Proof.
  intros N H. unfold gvec, gfill, gfill_threaded. destruct (Nat.eqb_spec (n_threads r) 1); [easy|].
  destruct (Nat.ltb_spec (step_size (length memory) (n_threads r)) min_step); [lia|].
  rewrite threads_spec. eexists. split; [reflexivity|]. split; reflexivity.
Qed.

(* the parts cover the array *)
Theorem parts_cover len n k : 1 <= n -> k < len -> let sz := step_size len n in
  exists! i, i < n /\ sz * i <= k < part_end sz len i.
Proof.
  intros N K sz. unfold sz, step_size, part_end in *. set (z := (len + n - 1) / n).
  assert (Z : len <= n * z). { unfold z. pose proof (Nat.div_mod (len + n - 1) n ltac:(lia)). pose proof (Nat.mod_upper_bound (len + n - 1) n ltac:(lia)). lia. }
  assert (Z1 : z <> 0) by (intros E; rewrite E in Z; lia).
  exists (k / z). pose proof (Nat.div_mod k z Z1) as D. pose proof (Nat.mod_upper_bound k z Z1) as M.
  split.
  - split; [apply Nat.div_lt_upper_bound; lia|]. split; [nia|]. apply Nat.min_glb_lt; nia.
  - intros i [I [L U]]. apply Nat.min_glb_lt_iff in U as [U _].
    symmetry. apply Nat.div_unique with (r := k - z * i); lia.
Qed.

(* The order in which the threads run does not matter: when all of them
   are done, the array and the streams are those of the sequential model. *)
Definition start (s : nat -> stream) : par stream num := Par stream num (fun _ => None) s (fun _ => 0).
Definition finished (sz len n : nat) (p : par stream num) : Prop :=
  forall i, i < n -> pos _ _ p i = part sz len i.

Lemma ticks_inv sz len n s0 sched : (forall i, In i sched -> i < n) -> sz <> 0 ->
  let p := fold_left (tick stream num normal sz len) sched (start s0) in
  (forall i, pos _ _ p i <= part sz len i) /\
  (forall i, ps _ _ p i = after (pos _ _ p i) (s0 i)) /\
  (forall i k, k < pos _ _ p i -> arr _ _ p (sz * i + k) = Some (drawn k (s0 i))).
Proof.
  intros B Z. cbv zeta.
  assert (G : forall p, ((forall i, pos _ _ p i <= part sz len i) /\
     (forall i, ps _ _ p i = after (pos _ _ p i) (s0 i)) /\
     (forall i k, k < pos _ _ p i -> arr _ _ p (sz * i + k) = Some (drawn k (s0 i)))) ->
     let p := fold_left (tick stream num normal sz len) sched p in
     ((forall i, pos _ _ p i <= part sz len i) /\
     (forall i, ps _ _ p i = after (pos _ _ p i) (s0 i)) /\
     (forall i k, k < pos _ _ p i -> arr _ _ p (sz * i + k) = Some (drawn k (s0 i))))).
  { clear B. induction sched as [|t sched IH]; intros p H; [exact H|]. cbn [fold_left]. apply IH.
    destruct H as (H1 & H2 & H3). unfold tick.
    destruct (Nat.ltb_spec (sz * t + pos _ _ p t) (part_end sz len t)) as [L|L]; [|auto].
    cbn [pos ps arr]. unfold upd. split; [|split].
    - intros i. destruct (Nat.eqb_spec i t) as [->|]; [unfold part; lia|auto].
    - intros i. destruct (Nat.eqb_spec i t) as [->|]; [|auto]. now rewrite H2, <- after_S.
    - intros i k K. destruct (Nat.eqb_spec i t) as [->|NE].
      + destruct (Nat.eqb_spec (sz * t + k) (sz * t + pos _ _ p t)) as [E|E].
        * replace k with (pos _ _ p t) by lia. now rewrite H2.
        * apply H3. lia.
      + destruct (Nat.eqb_spec (sz * i + k) (sz * t + pos _ _ p t)) as [E|E]; [exfalso|auto].
        specialize (H1 i). unfold part, part_end in *.
        assert (k < sz) by lia. assert (pos _ _ p t < sz) by lia.
        apply NE. rewrite (Nat.div_unique (sz * i + k) sz i k), (Nat.div_unique (sz * i + k) sz t (pos _ _ p t)); lia. }
  apply G. cbn [start pos ps arr]. repeat split; intros; try lia.
Qed.

Theorem order_does_not_matter ss len sched :
  let n := length ss in let sz := step_size len n in
  1 <= n -> 1 <= sz -> (forall i, In i sched -> i < n) ->
  forall d, let p := fold_left (tick stream num normal sz len) sched (start (fun i => nth i ss d)) in
  finished sz len n p ->
  (forall i, i < n -> ps _ _ p i = after (part sz len i) (nth i ss d)) /\
  (forall i k, i < n -> k < part sz len i -> arr _ _ p (sz * i + k) = Some (drawn k (nth i ss d))).
Proof.
  intros n sz N Z B d p F. destruct (ticks_inv sz len n (fun i => nth i ss d) sched B ltac:(lia)) as (H1 & H2 & H3).
  fold p in H1, H2, H3. split.
  - intros i I. now rewrite H2, (F i I).
  - intros i k I K. apply H3. now rewrite (F i I).
Qed.

(* With another number of threads the first stream is still the saved
   one; streams that were not saved are made from the clock. *)
Theorem other_number_of_threads clock st n : 1 <= n -> st <> [] ->
  hd_error (rng (init stream spawned clock None (Some st) n)) = hd_error st.
Proof.
  intros N S. destruct st as [|s st]; [easy|]. destruct n; [lia|]. reflexivity.
Qed.
End Props.

Print Assumptions stored_comes_back.
Print Assumptions reproducible.
Print Assumptions seeded.
Print Assumptions first_stream_same.
Print Assumptions serial_fills.
Print Assumptions one_thread_fills.
Print Assumptions small_arrays_filled_partial.
Print Assumptions long_arrays_untouched.
Print Assumptions threads_spec.
Print Assumptions parts_cover.
Print Assumptions order_does_not_matter.
Print Assumptions other_number_of_threads.

(* ---------------- concrete cases ---------------- *)

(* counters as streams *)
Definition counter (s : nat) : nat * nat := (s, S s).
Definition seeds (seed i : nat) : nat := 100 * seed + 30 * i.

Example reproducible_case :
  let r0 := init nat seeds 5 None None 2 in
  exists r l, serve_all nat nat counter r0 [Vec _ _ [0; 0]; Draw _ _ (fun s => ([s], s + 7))] = Some (r, l) /\
    l = [[500; 501]; [502]] /\
    serve_all nat nat counter (fetch nat seeds 9 (store nat r)) [Vec _ _ [0]] = Some (Random nat [510; 530] 2, [[509]]).
Proof. do 2 eexists. vm_compute. repeat split. Qed.

Example order_case :
  let p := fold_left (tick nat nat counter 2 3) [1; 0; 1; 0; 1] (start nat nat (fun i => 10 * i)) in
  finished nat nat 2 3 2 p /\ map (arr _ _ p) [0; 1; 2; 3] = [Some 0; Some 1; Some 10; None] /\ map (ps _ _ p) [0; 1] = [2; 11].
Proof.
  cbv zeta. split; [|vm_compute; split; reflexivity].
  intros i I. destruct i as [|[|i]]; [vm_compute; reflexivity|vm_compute; reflexivity|lia].
Qed.

(* C54 is false of the code: with two threads an array of 200 numbers
   comes back as the memory that was there, whatever the streams. *)
Theorem threaded_fill_refuted :
  exists r (memory1 memory2 : list nat), sound nat r /\ length memory1 = length memory2 /\
    forall r1 r2 v1 v2, gvec nat nat counter r memory1 = Some (r1, v1) -> gvec nat nat counter r memory2 = Some (r2, v2) ->
      v1 = memory1 /\ v2 = memory2 /\ v1 <> v2.
Proof.
  exists (Random nat [1; 2] 2), (repeat 0 200), (repeat 7 200). split; [split; cbn; lia|]. split; [reflexivity|].
  intros r1 r2 v1 v2 H1 H2.
  destruct (long_arrays_untouched nat nat counter (Random nat [1; 2] 2) (repeat 0 200)) as [r1' E1]; [cbn; lia|apply Nat.leb_le; vm_compute; reflexivity|].
  destruct (long_arrays_untouched nat nat counter (Random nat [1; 2] 2) (repeat 7 200)) as [r2' E2]; [cbn; lia|apply Nat.leb_le; vm_compute; reflexivity|].
  rewrite E1 in H1. rewrite E2 in H2. injection H1 as <- <-. injection H2 as <- <-. repeat split. discriminate.
Qed.
Print Assumptions threaded_fill_refuted.

(* ... and a checkpoint of one stream continued with two threads depends
   on the clock. *)
Theorem more_threads_refuted :
  exists st clock clock', rng nat (init nat seeds clock None (Some st) 2) <> rng nat (init nat seeds clock' None (Some st) 2).
Proof. exists [3], 1, 2. vm_compute. congruence. Qed.
Print Assumptions more_threads_refuted.
