(** Theorems of record about sorting the outputs of a replica exchange by ensembles (C241). *)
From Coq Require Import String Reals List Arith ZArith Lia Bool Permutation Lra.
From Verif Require Import RSum RemdModel RemdProps FileModel SortModel SortProps.
Import ListNotations.
Local Open Scope list_scope.
Local Open Scope nat_scope.

Section Run.
Variable int_of : string -> option Z.
Variables lpens eham : nat -> sys -> R.
Variable rk : bool.
Variables (n : nat) (stride : R) (rnd : nat -> nat -> R).
(** A run: the state before the exchange of every step and after it (simulation.py run_step: the motions come first, then the
    exchange, then the outputs of the next step). *)
Variables (before after : nat -> st).
Definition exchanges : Prop := forall s, RemdModel.step lpens eham rk n stride (rnd s) (before s) = Some (after s).
(** the motions change neither the replica index nor the ensembles *)
Definition motions_keep : Prop := forall s i, i < n -> repindex (before (S s)) i = repindex (after s) i /\ en (systems (before (S s)) i) = en (systems (after s) i).
(** the state seen by the outputs of a step *)
Definition seen (s : nat) : st := match s with O => before 0 | S t => after t end.
(** remd.py:215-219: the swap file *)
Definition swapfile (m : nat) : swaps := flat_map (fun s => match swap_line n (after s) with Some r => [(s, r)] | None => [] end) (seq 0 m).

Variable E : nat -> ens.
Hypothesis E_pos : forall k, k < n -> (0 < temp (E k))%R.
Hypothesis E_distinct : distinct_stresses n E.
Hypothesis stride_pos : (0 < stride)%R.
Hypothesis steps : exchanges.
Hypothesis keeps : motions_keep.
Hypothesis start : forall k, k < n -> repindex (before 0) k = k /\ en (systems (before 0) k) = E k.

Definition tracked (x : st) : Prop := Permutation (map (repindex x) (seq 0 n)) (seq 0 n) /\ forall k, k < n -> en (systems x k) = E (repindex x k).
Lemma tracked_in x k : tracked x -> k < n -> repindex x k < n.
Proof.
  intros [P _] H. assert (I : In (repindex x k) (seq 0 n)) by (apply (Permutation_in _ P); apply in_map; apply in_seq; lia). apply in_seq in I. lia.
Qed.
Lemma after_tracked s : tracked (before s) -> tracked (after s).
Proof.
  intros [P T]. pose proof (step_is_history lpens eham rk n stride (rnd s) _ _ (steps s)) as H. split.
  - exact (Permutation_trans (repindex_permutation lpens eham rk n _ _ H) P).
  - assert (V : valid n (before s)). { intros k Hk. rewrite T by easy. apply E_pos. apply tracked_in; [now split|easy]. }
    intros k Hk. apply (repindex_tracks_partial lpens eham rk n (before s) (after s) E V H E_distinct); [|easy].
    intros j Hj. split; [apply tracked_in; [now split|easy]|now apply T].
Qed.
Lemma before_tracked s : tracked (before s).
Proof.
  induction s as [|s IH].
  - split; [|intros k Hk; destruct (start k Hk) as [-> ->]; easy].
    rewrite (map_seq_ext _ (fun i => i)); [now rewrite map_id|]. intros i Hi. apply start. lia.
  - apply after_tracked in IH as [P T]. split.
    + rewrite (map_seq_ext _ (repindex (after s))); [exact P|]. intros i Hi. apply keeps. lia.
    + intros k Hk. destruct (keeps s k Hk) as [-> ->]. now apply T.
Qed.
Lemma seen_tracked s : tracked (seen s).
Proof. destruct s as [|s]; [apply before_tracked|]. apply after_tracked, before_tracked. Qed.

Definition R_of (s i : nat) : nat := repindex (seen s) i.
Definition moved (s : nat) : bool := match swap_line n (after s) with Some _ => true | None => false end.
Lemma seen_before s i : i < n -> R_of s i = repindex (before s) i.
Proof. intros H. destruct s as [|s]; [easy|]. unfold R_of, seen. symmetry. now apply keeps. Qed.
Lemma index_NoDup x : tracked x -> NoDup (map (repindex x) (seq 0 n)).
Proof. intros [P _]. apply (Permutation_NoDup (Permutation_sym P)), seq_NoDup. Qed.
Lemma swapfile_record m : swapfile m = swap_record n R_of moved 0 m.
Proof.
  unfold swapfile, swap_record. apply flat_map_seq_ext. intros s _. unfold moved.
  pose proof (swap_file_lines lpens eham rk n stride (rnd s) _ _ stride_pos (index_NoDup _ (before_tracked s)) (steps s)) as L.
  destruct (swap_line n (after s)) as [l|]; [|easy]. destruct L as [-> _]. easy.
Qed.
Lemma R_same s : moved s = false -> forall i, i < n -> R_of (S s) i = R_of s i.
Proof.
  unfold moved. pose proof (swap_file_lines lpens eham rk n stride (rnd s) _ _ stride_pos (index_NoDup _ (before_tracked s)) (steps s)) as L.
  destruct (swap_line n (after s)) as [l|]; [discriminate|]. intros _ i Hi. rewrite (seen_before s) by easy. unfold R_of. cbn [seen].
  assert (Q := f_equal (fun l => nth_error l i) L). cbn beta in Q. rewrite !nth_error_seq in Q by easy. now injection Q.
Qed.
Lemma R_inj s x y : x < n -> y < n -> R_of s x = R_of s y -> x = y.
Proof.
  intros Hx Hy H. pose proof (index_NoDup _ (seen_tracked s)) as N. apply (NoDup_nth_error (map (repindex (seen s)) (seq 0 n))); [exact N|rewrite map_length, seq_length; lia|].
  rewrite !nth_error_seq by easy. f_equal. exact H.
Qed.
(** the system that has an ensemble *)
Definition owner (s k : nat) : nat := match find (fun i => R_of s i =? k) (seq 0 n) with Some i => i | None => 0 end.
Lemma owner_spec s k : k < n -> owner s k < n /\ R_of s (owner s k) = k.
Proof.
  intros H. unfold owner. destruct (find _ _) as [i|] eqn:F.
  - apply find_some in F as [I Q]. apply in_seq in I. apply Nat.eqb_eq in Q. split; [lia|easy].
  - exfalso. assert (I : In k (map (repindex (seen s)) (seq 0 n))).
    { destruct (seen_tracked s) as [P _]. apply (Permutation_in _ (Permutation_sym P)). apply in_seq. lia. }
    apply in_map_iff in I as (i & Q & I). pose proof (find_none _ _ F i I) as X. cbn beta in X. apply Nat.eqb_neq in X. now apply X.
Qed.

(** Sorting the outputs of a replica exchange: whatever the exchanges and the outputs, the frame of every step in the
    k-th sorted file is the frame of the one system that had the k-th ensemble at that step. *)
Theorem remdsort_ensembles N M ds : N < M -> Forall (sound int_of true n N) ds ->
  exists holder, (forall s k, s <= N -> k < n -> holder s k < n /\ en (systems (seen s) (holder s k)) = E k) /\
  (forall s i k, s <= N -> i < n -> k < n -> repindex (seen s) i = k -> i = holder s k) /\
  remdsort int_of n (S N) (swapfile M) (map (streams_of n 0 (S N) (fun _ _ => [])) ds) =
  (map (fun d => Stream (d_kind d) (d_stride d) (map (fun _ => []) (seq 0 n))
          (map (fun k => flat_map (fun s => at_step d (holder s k) s) (seq 0 (S N))) (seq 0 n))) ds, Fine).
Proof.
  intros HM Hd. exists owner. split; [|split].
  - intros s k _ Hk. destruct (owner_spec s k Hk) as [A B]. split; [easy|]. destruct (seen_tracked s) as [_ T]. rewrite T by easy. f_equal. exact B.
  - intros s i k _ Hi Hk Q. destruct (owner_spec s k Hk) as [A B]. apply (R_inj s); [easy|easy|]. rewrite B. exact Q.
  - rewrite swapfile_record. apply remdsort_sorted; try easy.
    + intros i Hi. now apply start.
    + intros s i _ Hi. apply (tracked_in _ i (seen_tracked s) Hi).
    + intros s x y _. apply R_inj.
    + intros s. apply R_same.
    + intros s k _. apply owner_spec.
Qed.
End Run.

(** *** An exchange at every step between two temperatures *)
Definition ex_ens (k : nat) : ens := mkens (INR (S k)) 0 [] [] [].
Definition zero (_ : nat) (_ : sys) : R := 0%R.
Definition ex_step (x : st) : option st := RemdModel.step zero zero false 2 1 (fun _ => 0%R) x.
Fixpoint ex_run (t : nat) : st :=
  match t with
  | O => mkst (fun i => mksys (ex_ens i) [] None None [] 0) (fun i => i) 0 false
  | S t => match ex_step (ex_run t) with Some x => x | None => ex_run t end
  end.
Definition plain (x : st) : Prop := forall i, i < 2 -> bweights (en (systems x i)) = [] /\ hweights (en (systems x i)) = [].
Lemma ex_step_swaps x : plain x -> exists y, ex_step x = Some y /\ plain y /\ fxc y = true /\ repindex y 0 = repindex x 1 /\ repindex y 1 = repindex x 0.
Proof.
  intros H. destruct (H 0 ltac:(lia)) as [B0 W0]. destruct (H 1 ltac:(lia)) as [B1 W1].
  assert (C : comparable (en (systems x 1)) (en (systems x 0))) by (split; congruence).
  destruct (acceptance zero zero false 0 1 0 (systems x 1) (systems x 0) C) as (a & b & acc & A & Q).
  assert (acc = true) as -> by (apply Q; apply exp_pos).
  unfold ex_step, RemdModel.step. destruct Rle_dec as [|_]; [exfalso; lra|]. unfold RemdModel.turns, pairs. cbn [seq flat_map map app fold_left turn].
  cbn [systems used repindex fxc]. destruct Rlt_dec as [|_]; [exfalso; lra|]. rewrite A. eexists. split; [reflexivity|].
  split; [|repeat split]. apply accepted_swaps in A as (E1 & E0 & _). intros i Hi. cbn [systems]. unfold RemdModel.put.
  destruct i as [|[|i]]; [| |lia]; cbn [Nat.eqb]; [rewrite E0|rewrite E1]; unfold takes; cbn [bweights hweights]; easy.
Qed.
Lemma ex_plain t : plain (ex_run t).
Proof.
  induction t as [|t IH]; [intros i _; easy|]. destruct (ex_step_swaps _ IH) as (y & E & P & _). cbn [ex_run]. now rewrite E.
Qed.
Example remdsort_ensembles_ex : swapfile 2 (fun s => ex_run (S s)) 2 = [(0, [1; 0]); (1, [0; 1])] /\
  exists holder, (forall s k, s <= 1 -> k < 2 -> holder s k < 2 /\ en (systems (seen ex_run (fun s => ex_run (S s)) s) (holder s k)) = ex_ens k) /\
  fst (remdsort ex_int 2 2 (swapfile 2 (fun s => ex_run (S s)) 2) (map (streams_of 2 0 2 (fun _ _ => [])) [ex_props])) =
  [Stream KProp 1 [[]; []] (map (fun k => flat_map (fun s => at_step ex_props (holder s k) s) (seq 0 2)) (seq 0 2))].
Proof.
  assert (St : forall s, ex_step (ex_run s) = Some (ex_run (S s))).
  { intros s. cbn [ex_run]. destruct (ex_step_swaps _ (ex_plain s)) as (y & E & _). now rewrite E. }
  assert (Sw : forall s, fxc (ex_run (S s)) = true /\ repindex (ex_run (S s)) 0 = repindex (ex_run s) 1 /\ repindex (ex_run (S s)) 1 = repindex (ex_run s) 0).
  { intros s. destruct (ex_step_swaps _ (ex_plain s)) as (y & E & _ & X). rewrite St in E. assert (Q : y = ex_run (S s)) by congruence. rewrite Q in X. exact X. }
  split.
  - destruct (Sw 0) as (F0 & A0 & B0). destruct (Sw 1) as (F1 & A1 & B1). unfold swapfile, swap_line. cbn [seq flat_map map]. rewrite F0, F1, A1, B1, A0, B0. reflexivity.
  - destruct (remdsort_ensembles ex_int zero zero false 2 1 (fun _ _ => 0%R) ex_run (fun s => ex_run (S s)) ex_ens) with (N := 1) (M := 2) (ds := [ex_props]) as (h & H & _ & E).
    + intros k _. unfold ex_ens. cbn [temp]. apply lt_0_INR. lia.
    + intros a b _ _. now left.
    + lra.
    + intros s. apply St.
    + intros s i _. easy.
    + intros k _. easy.
    + lia.
    + constructor; [|constructor]. intros i s Hi Hs Q. pose proof ex_sound as X. inversion X as [|a b X1 X2]. apply X1; lia.
    + exists h. split; [exact H|]. rewrite E. reflexivity.
Qed.
Print Assumptions remdsort_ensembles.
