(** * Committee of force fields

    /repo/ipi/engine/forcefields.py:1353-1654 (FFCommittee.__init__ and gather).

    Real numbers for floats. A vector (forces, virial) is a list of reals; the
    virial is flattened. Members are combined component by component.

    Not modelled: writing structures for active learning (1641-1649), the
    requests (area Race), keys of the extras other than those below. *)

From Coq Require Import String List Reals Bool Arith.
From Verif Require Import RSum.
Import ListNotations.
Open Scope R_scope.

Inductive res (A : Type) := Ok (a : A) | ValueError | UnboundLocalError.
Arguments Ok {A} _.
Arguments ValueError {A}.
Arguments UnboundLocalError {A}.

(** The committee part of the extras of one member, already parsed:
    "committee_pot", "committee_force", "committee_virial". Each entry of the last
    two is what one element of the JSON list is: a vector. *)
Record json := mkJson { j_pot : list R; j_frc : option (list (list R)); j_vir : option (list (list R)) }.
(** The result of one force field; [m_name] its name. *)
Record member := mkM { m_name : string; m_pot : R; m_frc : list R; m_vir : list R; m_json : option json }.

(** [np.mean(l, axis=0)] of numbers and of vectors with [n] components. *)
Definition mean (l : list R) : R := Rsuml l / INR (length l).
Definition comp (k : nat) (l : list (list R)) : list R := map (fun v => nth k v 0) l.
Definition meanv (n : nat) (l : list (list R)) : list R := map (fun k => mean (comp k l)) (seq 0 n).
(** [np.var(l, ddof=1)]. *)
Definition var1 (l : list R) : R :=
  Rsuml (map (fun x => (x - mean l) * (x - mean l)) l) / (INR (length l) - 1).

(** The parameters: [ffweights] is checked in the constructor and not used. *)
Record pars := mkP {
  alpha : R; baseline_name : string; baseline_uncertainty : R; ffweights : list R; parse_json : bool }.

(** forcefields.py:1394-1406; [<] on reals as a parameter of the caller. *)
Definition check_weights (neg pos : bool) (nff nw : nat) (noname : bool) : bool :=
  let nw' := if (nw =? 0)%nat && neg then nff else if (nw =? 0)%nat && pos then (nff - 1)%nat else nw in
  negb (negb (nw' =? nff)%nat && neg) &&
  negb (negb (nw' =? nff - 1)%nat && pos) &&
  Bool.eqb noname neg.

(** forcefields.py:1462-1473: the first member with the name of the baseline is
    taken out. *)
Fixpoint split_baseline (name : string) (l : list member) : option (member * list member) :=
  match l with
  | [] => None
  | m :: l' => if String.eqb (m_name m) name then Some (m, l')
               else match split_baseline name l' with
                    | Some (b, r) => Some (b, m :: r)
                    | None => None
                    end
  end.

(** forcefields.py:1484-1509: pots, frcs, virs, all_have_frc, all_have_vir. *)
Record coll := mkColl { pots : list R; frcs : list (list R); virs : list (list R); hf : bool; hv : bool }.
Definition collect1 (pj : bool) (c : coll) (m : member) : coll :=
  match (if pj then m_json m else None) with
  | Some j =>
      mkColl (pots c ++ j_pot j)
             (frcs c ++ match j_frc j with Some f => f | None => [m_frc m] end)
             (virs c ++ match j_vir j with Some v => v | None => [m_vir m] end)
             (hf c && match j_frc j with Some _ => true | None => false end)
             (hv c && match j_vir j with Some _ => true | None => false end)
  | None => mkColl (pots c ++ [m_pot m]) (frcs c ++ [m_frc m]) (virs c ++ [m_vir m]) (hf c) (hv c)
  end.
Definition collect (pj : bool) (ms : list member) : coll :=
  fold_left (collect1 pj) ms (mkColl [] [] [] true true).

(** forcefields.py:1532-1540. *)
Definition rescale (a m : R) (l : list R) : list R := map (fun x => m + a * (x - m)) l.
Definition rescalev (n : nat) (a : R) (m : list R) (l : list (list R)) : list (list R) :=
  map (fun v => map (fun k => nth k m 0 + a * (nth k v 0 - nth k m 0)) (seq 0 n)) l.

(** forcefields.py:1561-1583: one component of uncertain_frc, uncertain_vir. *)
Definition uncertain (a : R) (ps fs : list R) : R :=
  a * a * Rsuml (map (fun pf => (fst pf - mean ps) * (snd pf - mean fs)) (combine ps fs))
  / (INR (length ps) - 1).

(** forcefields.py:1586-1596, one component of the force or virial. *)
Definition final_frc (s2 : R) (var b mp : R) (a : R) (ps fs : list R) : R :=
  b + mean fs * s2 / (s2 + var)
  - 2 * mp * s2 / ((s2 + var) * (s2 + var)) * uncertain a ps fs.

Record result := mkRes {
  r_pot : R; r_frc : list R; r_vir : list R;
  committee_pot : list R; committee_var : R;
  committee_force : option (list (list R)); committee_virial : option (list (list R)) }.

(** forcefields.py:1449-1620; [n] components of the force. [committee_uncertainty]
    is the square root of [committee_var]. *)
Definition gather (p : pars) (n : nat) (ms : list member) : res result :=
  let usebase := negb (String.eqb (baseline_name p) "") in
  let bc := if usebase then split_baseline (baseline_name p) ms else None in
  let com := match bc with Some (_, r) => r | None => ms end in
  let c := collect (parse_json p) com in
  if negb (length (pots c) =? length (frcs c))%nat && (1 <? length (frcs c))%nat then ValueError
  else if negb (length (pots c) =? length (virs c))%nat && (1 <? length (virs c))%nat then ValueError
  else
    let mp := mean (pots c) in
    let mf := meanv n (frcs c) in
    let mv := meanv 9 (virs c) in
    let rp := rescale (alpha p) mp (pots c) in
    let var := var1 rp in
    let out pot frc vir :=
      mkRes pot frc vir rp var
        (if hf c then Some (rescalev n (alpha p) mf (frcs c)) else None)
        (if hv c then Some (rescalev 9 (alpha p) mv (virs c)) else None) in
    if usebase then
      if hf c && hv c then
        match bc with
        | None => UnboundLocalError
        | Some (b, _) =>
            let s2 := baseline_uncertainty p * baseline_uncertainty p in
            let fin d bv vs := map (fun k => final_frc s2 var (nth k bv 0) mp (alpha p) (pots c) (comp k vs)) (seq 0 d) in
            Ok (out (m_pot b + mp * s2 / (s2 + var)) (fin n (m_frc b) (frcs c)) (fin 9%nat (m_vir b) (virs c)))
        end
      else ValueError
    else Ok (out mp mf mv).

(** forcefields.py:1524, 1630-1639: which extras are collected: those of the
    handle left in the loop variable, the last one of the committee. *)
Definition collected_extras {A} (ms : list (member * A)) (d : A) : list A := [last (map snd ms) d].
