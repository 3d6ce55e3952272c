(** * The threads and the cache give the energies that the rates are made of *)
From Coq Require Import List Arith Bool Reals Lra Lia.
From Verif Require Import RSum PairModel CellModel KmcModel KmcLattice KmcIndex KmcProps.
From Verif Require KmcThreads KmcCache.
Import ListNotations.
Local Open Scope nat_scope.

(** A state is known by its string; the optimisation gives energy and positions, and leaves the
    evaluator with the latter (325-343). *)
Definition of_key (l : list species) : nat -> species := fun s => nth s l Vac.
Definition key_start (y : params) (l : list species) : nat -> vec := start y (of_key l).
Definition job_geop (geop : (nat -> vec) -> R * (nat -> vec)) (q : nat -> vec) : (R * (nat -> vec)) * (nat -> vec) := (geop q, snd (geop q)).
Lemma key_of y s : key y (of_key (key y s)) = key y s.
Proof.
  apply key_ext. intros k L. unfold of_key, key. rewrite (nth_indep _ _ (s 0)) by (now rewrite map_length, seq_length). rewrite map_nth, seq_nth by exact L. reflexivity.
Qed.
Lemma value_key y geop s : KmcThreads.value (key_start y) (job_geop geop) (key y s) = (energy y geop s, relaxed y geop s).
Proof.
  unfold KmcThreads.value, job_geop, key_start. cbn [fst]. destruct (energy_key y geop _ _ (key_of y s)) as (-> & _ & _). unfold energy, relaxed. now destruct (geop (start y s)).
Qed.
(** Whatever the interleaving of the threads, when the loop is over each event has the energy and
    the positions of its target. *)
Theorem step_energies y geop neigh k ev neval maxlen c b t : fits y -> good_rows y neigh -> consistent y k -> events y neigh k = Some ev -> 1 <= maxlen ->
  let jobs := map (fun e => key y (target (st k) e)) ev in
  KmcCache.good leqb (key_start y) (job_geop geop) maxlen c (length c) ->
  KmcThreads.ops leqb (key_start y) (job_geop geop) neval maxlen (KmcThreads.initial jobs c b) t -> KmcThreads.md t = KmcThreads.Done ->
  forall i e, nth_error ev i = Some e -> KmcThreads.res t i = Some (energy y geop (target (st k) e), relaxed y geop (target (st k) e)).
Proof.
  intros F GR C E M jobs G O D i e H. rewrite <- value_key.
  apply (KmcCache.events_evaluated leqb (key_start y) (job_geop geop) neval maxlen jobs (targets_distinct y F neigh GR k ev C E) M c b t G O D).
  unfold jobs. now apply (map_nth_error (fun e => key y (target (st k) e))).
Qed.
(** A cache of two states meets the hypothesis. *)
Example step_energies_case y geop s s' : key y s <> key y s' ->
  KmcCache.good leqb (key_start y) (job_geop geop) 10 [(key y s, (energy y geop s, relaxed y geop s)); (key y s', (energy y geop s', relaxed y geop s'))] 2.
Proof.
  intros D. split; [|repeat constructor; cbn; intuition congruence|reflexivity|cbn; lia]. intros l v. cbn [KmcThreads.lookup]. destruct (leqb l (key y s)) as [->|]; [intros X; injection X as <-; symmetry; exact (value_key _ _ _)|].
  destruct (leqb l (key y s')) as [->|]; [intros X; injection X as <-; symmetry; exact (value_key _ _ _)|discriminate].
Qed.
Print Assumptions step_energies.
