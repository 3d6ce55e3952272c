(** * Model of the tool for free energies of self consistent phonons

    tools/py/get_Ascp.py:20-192.  An iteration is what the files of one iteration hold: the matrices and positions enter as the
    exponents and harmonic energies of the samples.  Real numbers; nan_to_num is left out, it only acts on overflows and on
    batches without weight. *)
From Coq Require Import List Arith Lia Bool String Reals.
Import ListNotations.
Open Scope R_scope.
Open Scope list_scope.

Definition total (l : list R) : R := fold_right Rplus 0 l.
(** Lines 49-55, 79: modes that are skipped. None is the UnboundLocalError. *)
Definition skipped (asr : string) : option nat :=
  if String.eqb asr "crystal" then Some 3%nat else if String.eqb asr "poly" then Some 6%nat else None.
(** Lines 99-100 *)
Definition vH (beta : R) (hw : list R) : R := total (map (fun w => w * cosh (beta * w / 2) / sinh (beta * w / 2) * (1 / 4)) hw).
Definition AH (kbT beta : R) (hw : list R) : R := total (map (fun w => w * (1 / 2) + kbT * ln (1 - exp (- (beta * w)))) hw).

(** A sample: x^T iD x / 2 for the trial Hamiltonian it is used for and the one it is drawn from, its potential and harmonic energy (lines 146-155). *)
Record sample := Sample { here : R; drawn : R; pot : R; harm : R }.
Definition weight (s : sample) : R := exp (- here s + drawn s).
Definition mean (l : list R) : R := total l / INR (List.length l).
(** np.var *)
Definition var (l : list R) : R := mean (map (fun x => (x - mean l) ^ 2) l).
(** Lines 156-167 *)
Definition batch_avg (b : list sample) : R := total (map (fun s => weight s * (pot s - harm s)) b) / total (map weight b).
Definition batch_err (b : list sample) : R :=
  let V1 := total (map weight b) in let V2 := total (map (fun s => weight s ^ 2) b) in
  total (map (fun s => weight s * (pot s - harm s - batch_avg b) ^ 2) b) / (V1 - V2 / V1).
(** The exponent is a natural number here. *)
Definition batch_weight (e : nat) (b : list sample) : R := exp (- var (map (fun s => ln (weight s)) b)) ^ e.
(** Lines 125-176: over the batches up to the present one. *)
Definition avg_dv (e : nat) (bs : list (list sample)) : R :=
  total (map (fun b => batch_weight e b * batch_avg b) bs) / total (map (batch_weight e) bs).
Definition err_dv (e : nat) (bs : list (list sample)) : R :=
  total (map (fun b => batch_weight e b ^ 2 * batch_err b) bs) / total (map (batch_weight e) bs) ^ 2 / INR (List.length (last bs [])).
(** Lines 178-192 *)
Record line := Line { step : nat; A_scp : R; A_corr : R; A_err : R; E_scp : R; E_corr : R; E_err : R }.
(** An iteration: frequencies without the zero modes, lowest potential, batches up to this one. *)
Record iteration := Iteration { hw : list R; V0 : R; batches : list (list sample) }.
Definition row (kbT : R) (e : nat) (first : iteration) (i : nat) (it : iteration) : line :=
  let beta := 1 / kbT in
  let A := AH kbT beta (hw it) + avg_dv e (batches it) in
  let E := 2 * vH beta (hw it) + avg_dv e (batches it) in
  let d := sqrt (err_dv e (batches it)) in
  Line i A (A - AH kbT beta (hw first) - V0 first) d E (E - 2 * vH beta (hw first) - V0 first) d.
(** Lines 65-103: reading stops at the first file that is missing, but lists without an entry are not what the second loop expects. *)
Inductive ending := Done | IndexError | UnboundLocalError.
Fixpoint report (kbT : R) (e : nat) (first : option iteration) (i fuel : nat) (its : list iteration) : list line * ending :=
  match fuel with
  | 0%nat => ([], Done)
  | S fuel' =>
    match its with
    | [] => ([], IndexError)
    | it :: r => let f := match first with Some f => f | None => it end in
                 let (ls, x) := report kbT e (Some f) (S i) fuel' r in (row kbT e f i it :: ls, x)
    end
  end.
(** its are the iterations with files, at most max_iter of which are read.  Without a rule for the zero modes the first set of frequencies that is there fails. *)
Definition get_A (asr : string) (kbT : R) (e max_iter : nat) (its : list iteration) : list line * ending :=
  match skipped asr, max_iter, its with
  | None, S _, _ :: _ => ([], UnboundLocalError)
  | _, _, _ => report kbT e None 0 max_iter its
  end.
