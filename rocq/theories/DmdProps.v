(** Properties of the driven dynamics (C252). *)
Require Import String List Arith Bool Lia.
From Verif Require Import DmdModel.
Import ListNotations.

Lemma find_update f k : forall j, find (update f k) j = if String.eqb k j then option_map (option_map S) (find f j) else find f j.
Proof.
  induction f as [|[n c] f IH]; intros j; cbn [update find]; [destruct (String.eqb k j); reflexivity|].
  destruct (String.eqb_spec n k) as [E|E]; cbn [find].
  - subst n. destruct (String.eqb k j); reflexivity.
  - rewrite IH. destruct (String.eqb_spec n j) as [E'|E']; [|reflexivity]. subst n. now rewrite (proj2 (String.eqb_neq k j)) by congruence.
Qed.
Lemma fold_none dmdff l : fold_left (one dmdff) l None = None.
Proof. induction l; auto. Qed.
(** how often a force field is among the bias components of the systems *)
Definition uses (systems : list (list string)) (k : string) : nat := length (filter (String.eqb k) (concat systems)).
Lemma fold_count dmdff l : forall f g k c, fold_left (one dmdff) l (Some f) = Some g -> find f k = Some (Some c) ->
  find g k = Some (Some (if existsb (String.eqb k) dmdff then length (filter (String.eqb k) l) + c else c)).
Proof.
  induction l as [|n l IH]; intros f g k c E H; cbn [fold_left] in E.
  - injection E as <-. rewrite H. destruct (existsb _ _); reflexivity.
  - unfold one at 2 in E. destruct (existsb (String.eqb n) dmdff) eqn:M.
    + destruct (find f n) as [[c'|]|] eqn:Fn; rewrite ?fold_none in E; try discriminate.
      cbn [filter]. destruct (String.eqb_spec k n) as [K|K].
      * subst n. rewrite (IH _ _ k (S c) E) by now rewrite find_update, String.eqb_refl, H.
        rewrite M. cbn [length]. do 2 f_equal. lia.
      * apply (IH _ _ k c E). rewrite find_update. rewrite (proj2 (String.eqb_neq n k)) by congruence. exact H.
    + cbn [filter]. rewrite (IH _ _ k c E H). destruct (String.eqb_spec k n) as [K|K]; [|reflexivity]. subst n. now rewrite M.
Qed.
(** One step moves the time of a force field of the list by the number of bias
    components that use it, and no other. *)
Theorem dmd_counts dmdff systems f g k c : dmd_step dmdff systems f = Some g -> find f k = Some (Some c) ->
  find g k = Some (Some (if existsb (String.eqb k) dmdff then uses systems k + c else c)).
Proof. apply fold_count. Qed.
Fixpoint dmd_run (dmdff : list string) (systems : list (list string)) (n : nat) (f : ffs) : option ffs :=
  match n with 0 => Some f | S n => match dmd_step dmdff systems f with Some g => dmd_run dmdff systems n g | None => None end end.
Theorem dmd_time dmdff systems n : forall f g k c, dmd_run dmdff systems n f = Some g -> find f k = Some (Some c) -> In k dmdff -> uses systems k = 1 ->
  find g k = Some (Some (n + c)).
Proof.
  induction n as [|n IH]; intros f g k c E H I U; cbn [dmd_run] in E; [injection E as <-; exact H|].
  destruct (dmd_step dmdff systems f) as [h|] eqn:S1; [|discriminate].
  assert (Q := dmd_counts _ _ _ _ k c S1 H). assert (X : existsb (String.eqb k) dmdff = true) by (apply existsb_exists; exists k; split; [exact I|apply String.eqb_refl]).
  rewrite X, U in Q. rewrite (IH h g k _ E Q I U). do 2 f_equal. lia.
Qed.
(** A force field that cannot be driven is refused. *)
Theorem dmd_refuses dmdff systems f k : In k dmdff -> In k (concat systems) -> find f k = Some None -> dmd_step dmdff systems f = None.
Proof.
  intros I J H. unfold dmd_step. assert (X : existsb (String.eqb k) dmdff = true) by (apply existsb_exists; exists k; split; [exact I|apply String.eqb_refl]).
  revert f H. induction (concat systems) as [|n l IH]; intros f H; [contradiction|]. cbn [fold_left]. unfold one at 2.
  destruct (String.eqb_spec n k) as [E|E].
  - subst n. rewrite X, H. apply fold_none.
  - destruct J as [J|J]; [congruence|]. destruct (existsb (String.eqb n) dmdff); [|now apply IH].
    destruct (find f n) as [[c|]|]; try apply fold_none. apply (IH J). rewrite find_update. now rewrite (proj2 (String.eqb_neq n k) E).
Qed.
Example dmd_case : dmd_run ["d"]%string [["p"; "d"]]%string 3 [("p", None); ("d", Some 4)]%string = Some [("p", None); ("d", Some 7)]%string.
Proof. reflexivity. Qed.
(** With two systems the time runs twice as fast. *)
Theorem dmd_systems_refuted : exists systems, length systems = 2 /\ dmd_run ["d"]%string systems 3 [("d", Some 0)]%string = Some [("d", Some 6)]%string.
Proof. exists [["d"]; ["d"]]%string. split; reflexivity. Qed.

(** the time of the forces in a run *)
Section Run.
Variable X Fc : Type.
Variable kick_move kick : Fc -> X -> X.
Variable force : X -> nat -> Fc.
Notation dstep := (dstep X Fc kick_move kick force).
Notation dsteps := (dsteps X Fc kick_move kick force).
Notation dstart := (dstart X Fc force).
Lemma dsteps_succ n : forall s, dsteps (S n) s = dstep (dsteps n s).
Proof. induction n as [|n IH]; intros s; [reflexivity|]. change (dsteps (S (S n)) s) with (dsteps (S n) (dstep s)). now rewrite IH. Qed.
(** The force kept after [n+1] steps has been computed with the counter [n] after the start: the
    first two configurations of a run see the same potential. *)
Theorem dmd_force_time n x0 t0 : t (dsteps n (dstart x0 t0)) = t0 + n /\
  exists y, f (dsteps (S n) (dstart x0 t0)) = force y (t0 + n) /\ x (dsteps (S n) (dstart x0 t0)) = kick (force y (t0 + n)) y.
Proof.
  assert (T : t (dsteps n (dstart x0 t0)) = t0 + n).
  { induction n as [|n IH]; [cbn; lia|]. rewrite dsteps_succ. cbn [DmdModel.dstep t]. lia. }
  split; [exact T|]. rewrite dsteps_succ. unfold DmdModel.dstep. cbn [f x]. rewrite T. eexists. split; reflexivity.
Qed.
(** If the potential did not change, a restart would continue the run. *)
Theorem dmd_restart_steady n m x0 t0 : (forall g y u, force (kick g y) u = force y u) -> (forall y u u', force y u = force y u') ->
  dsteps m (dstart (x (dsteps n (dstart x0 t0))) (t (dsteps n (dstart x0 t0)))) = dsteps m (dsteps n (dstart x0 t0)).
Proof.
  intros K C. f_equal. destruct n as [|n]; [reflexivity|]. rewrite dsteps_succ. unfold DmdModel.dstep, DmdModel.dstart. cbn [x t]. f_equal.
  rewrite K. apply C.
Qed.
End Run.
(** Position and momentum, unit mass and time step two, a force that is the counter: after a restart
    the first force is that of the next time. *)
Definition mv (g : nat) (y : nat * nat) : nat * nat := (fst y + 2 * (snd y + g), snd y + g).
Definition kk (g : nat) (y : nat * nat) : nat * nat := (fst y, snd y + g).
Theorem dmd_restart_refuted : exists n m, let run := dsteps (nat * nat) nat mv kk (fun _ u => u) in let start := dstart (nat * nat) nat (fun _ u => u) in
  x (run m (start (x (run n (start (0, 0) 0))) (t (run n (start (0, 0) 0))))) <> x (run (n + m) (start (0, 0) 0)).
Proof. exists 1, 1. cbn. discriminate. Qed.
Example dmd_force_case : let run := dsteps (nat * nat) nat mv kk (fun _ u => u) in f (run 3 (dstart (nat * nat) nat (fun _ u => u) (0, 0) 0)) = 2.
Proof. reflexivity. Qed.

Print Assumptions dmd_time.
Print Assumptions dmd_refuses.
Print Assumptions dmd_force_time.
Print Assumptions dmd_restart_steady.
Print Assumptions dmd_restart_refuted.
