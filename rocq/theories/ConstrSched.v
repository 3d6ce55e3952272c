(** * Constrained dynamics follows the schedule of multiple time stepping (C113) *)
From Coq Require Import List Arith Bool Reals Lra Lia FunctionalExtensionality.
From Verif Require Import RSum MTSModel MinModel ConstrModel.
Import ListNotations.
Open Scope R_scope.

Section sched.
Variable solve : nat -> mat -> vec -> vec.
Variable nrm : nat -> vec -> R.
Variable m3 : vec.
Variable tol : R.
Variable maxit : nat.
Variable Gs : list group.
Variable force : nat -> vec -> vec.
Variable pdt : nat -> R.
Variable qdt : R.
Variable ngeo : nat.
Variable natoms3 : nat.
Variable th : nat -> vec -> vec.
Variable no : nat.
(** What each call of the schedule does here, to the state and eens; pconstraints is left out. *)
Definition call (o : op) (x : option (state * R)) : option (state * R) :=
  match x with
  | None => None
  | Some (s, e) =>
      match o with
      | P l => Some (do_cot solve m3 Gs (step_B force pdt l s), e)
      | A => match step_Ag solve nrm m3 tol maxit Gs qdt ngeo s with Some s' => Some (s', e) | None => None end
      | T => Some (step_Oc solve m3 Gs natoms3 th no s e)
      | Con | S4 => Some (s, e)
      end
  end.
Definition calls (ops : list op) (x : option (state * R)) : option (state * R) := fold_left (fun x o => call o x) ops x.
Definition lift (f : state -> option state) (x : option (state * R)) : option (state * R) :=
  match x with None => None | Some (s, e) => match f s with Some s' => Some (s', e) | None => None end end.
Lemma calls_app a b x : calls (a ++ b) x = calls b (calls a x).
Proof. apply fold_left_app. Qed.
Lemma lift_then f g x : lift (and_then f g) x = lift g (lift f x).
Proof. destruct x as [[s e]|]; [|reflexivity]. cbn. unfold and_then. destruct (f s); reflexivity. Qed.
Lemma lift_id x : lift (fun s => Some s) x = x.
Proof. destruct x as [[s e]|]; reflexivity. Qed.
Lemma call_P l x : call (P l) x = lift (step_Bc solve m3 Gs force pdt l) x.
Proof. destruct x as [[s e]|]; reflexivity. Qed.
Lemma call_A x : call A x = lift (step_Ag solve nrm m3 tol maxit Gs qdt ngeo) x.
Proof. destruct x as [[s e]|]; reflexivity. Qed.
Lemma call_Con x : call Con x = x.
Proof. destruct x as [[s e]|]; reflexivity. Qed.
Lemma lift_times f ops : (forall x, calls ops x = lift f x) -> forall n x, calls (concat (repeat ops n)) x = lift (times n f) x.
Proof.
  intros H n. induction n as [|n IH]; intros x; [symmetry; apply lift_id|]. cbn [repeat concat times]. now rewrite calls_app, lift_then, H, IH.
Qed.
Notation hv := (halves solve nrm m3 tol maxit Gs force pdt qdt ngeo).
Lemma odd_mod n : Nat.odd n = (n mod 2 =? 1)%nat.
Proof. rewrite <- Nat.bit0_odd, Nat.bit0_eqb. reflexivity. Qed.
Lemma halves_calls ns : forall idx x, calls (mtsprop_ba idx ns) x = lift (fst (hv idx ns)) x /\ calls (mtsprop_ab idx ns) x = lift (snd (hv idx ns)) x.
Proof.
  induction ns as [|n l IH]; intros idx x; [split; symmetry; apply lift_id|].
  specialize (IH (S idx)). cbn [mtsprop_ba mtsprop_ab halves]. destruct (hv (S idx) l) as [ba ab]. cbn [fst snd] in *.
  set (Ag := step_Ag solve nrm m3 tol maxit Gs qdt ngeo). set (Bc := step_Bc solve m3 Gs force pdt idx).
  set (twice := match l with [] => and_then Ag Ag | _ => and_then ba ab end).
  assert (PC : forall x, calls [P idx; Con] x = lift Bc x) by (intros y; cbn [calls fold_left]; now rewrite call_P, call_Con).
  assert (TW : forall x, calls (match l with [] => [A; A] | _ => mtsprop_ba (S idx) l ++ mtsprop_ab (S idx) l end) x = lift twice x).
  { intros y. unfold twice. destruct l; rewrite lift_then; [cbn [calls fold_left]; now rewrite !call_A|]. rewrite calls_app, (proj2 (IH _)), (proj1 (IH _)). reflexivity. }
  assert (FU : forall x, calls ([P idx; Con] ++ match l with [] => [A; A] | _ => mtsprop_ba (S idx) l ++ mtsprop_ab (S idx) l end ++ [P idx; Con]) x = lift (and_then Bc (and_then twice Bc)) x).
  { intros y. now rewrite !calls_app, !PC, TW, !lift_then. }
  rewrite !lift_then, !calls_app, odd_mod. split.
  - rewrite (lift_times _ _ FU). destruct (n mod 2 =? 1)%nat; [|symmetry; apply lift_id].
    rewrite calls_app, PC, lift_then. destruct l; [cbn [calls fold_left]; now rewrite call_A|]. apply IH.
  - rewrite (lift_times _ _ FU). destruct (n mod 2 =? 1)%nat; [|cbn [calls fold_left]; now rewrite lift_id].
    rewrite calls_app, PC, lift_then. destruct l; [cbn [calls fold_left]; now rewrite call_A|]. now rewrite (proj2 (IH _)).
Qed.
(** A step is the run of the calls of the unconstrained schedule (C31), with the constrained parts. *)
Theorem constrained_nve_schedule ns s e :
  calls (MTSModel.nve_step ns) (Some (s, e)) = lift (ConstrModel.nve_step solve nrm m3 tol maxit Gs force pdt qdt ngeo ns) (Some (s, e)).
Proof.
  unfold MTSModel.nve_step, mtsprop, ConstrModel.nve_step. rewrite calls_app, lift_then.
  now rewrite (proj2 (halves_calls ns 0 _)), (proj1 (halves_calls ns 0 _)).
Qed.
Definition same_splitting (sp : MTSModel.splitting) : ConstrModel.splitting :=
  match sp with MTSModel.Obabo => ConstrModel.Obabo | MTSModel.Baoab => ConstrModel.Baoab end.
Theorem constrained_nvt_schedule sp ns s e :
  calls (MTSModel.nvt_step sp ns) (Some (s, e)) =
  ConstrModel.nvt_step solve nrm m3 tol maxit Gs force pdt qdt ngeo natoms3 (same_splitting sp) th th no ns s e.
Proof.
  destruct sp; cbn [MTSModel.nvt_step same_splitting ConstrModel.nvt_step].
  - rewrite !calls_app. change (mtsprop 0 ns) with (MTSModel.nve_step ns). cbn [calls fold_left call].
    destruct (step_Oc solve m3 Gs natoms3 th no s e) as [s1 e1]. change (fold_left (fun x o => call o x) (MTSModel.nve_step ns) (Some (s1, e1))) with (calls (MTSModel.nve_step ns) (Some (s1, e1))).
    rewrite constrained_nve_schedule. cbn [lift]. destruct (ConstrModel.nve_step _ _ _ _ _ _ _ _ _ _ ns s1) as [s2|]; [|reflexivity].
    cbn [call]. destruct (step_Oc solve m3 Gs natoms3 th no s2 e1) as [s3 e3]. reflexivity.
  - rewrite !calls_app. rewrite (proj1 (halves_calls ns 0 _)). cbn [lift]. destruct (fst (hv 0 ns) s) as [s1|].
    + cbn [calls fold_left call]. destruct (step_Oc solve m3 Gs natoms3 th no s1 e) as [s2 e2].
      change (fold_left (fun x o => call o x) (mtsprop_ab 0 ns) (Some (s2, e2))) with (calls (mtsprop_ab 0 ns) (Some (s2, e2))).
      rewrite (proj2 (halves_calls ns 0 _)). cbn [lift]. destruct (snd (hv 0 ns) s2); reflexivity.
    + change (calls [T; Con] None) with (@None (state * R)). rewrite (proj2 (halves_calls ns 0 _)). reflexivity.
Qed.
End sched.
(** For instance a step with two levels: two outer kicks around three inner steps. *)
Example constrained_schedule_case solve nrm m3 tol maxit Gs force pdt qdt ngeo s e :
  lift (ConstrModel.nve_step solve nrm m3 tol maxit Gs force pdt qdt ngeo [1; 1]%nat) (Some (s, e)) =
  calls solve nrm m3 tol maxit Gs force pdt qdt ngeo 0 (fun _ p => p) 0 [P 0; P 1; A; A; P 1; P 0] (Some (s, e)).
Proof.
  rewrite <- (constrained_nve_schedule solve nrm m3 tol maxit Gs force pdt qdt ngeo 0 (fun _ p => p) 0).
  change (MTSModel.nve_step [1; 1]%nat) with [P 0; Con; P 1; Con; A; A; P 1; Con; P 0; Con]. unfold calls. cbn [fold_left]. now rewrite !call_Con.
Qed.
Print Assumptions constrained_nve_schedule.
Print Assumptions constrained_nvt_schedule.
