(** Model of replica exchange (ipi/engine/smotion/remd.py) and of the swap of
    two ensembles (ipi/engine/ensembles.py).  Reals stand for floats; arrays are
    lists; random numbers are a stream. *)
Require Import Reals List Arith Lia.
From Verif Require Import RSum.
Import ListNotations.
Local Open Scope R_scope.

(** The part of an Ensemble that is swapped (ensembles.py:90-147). *)
Record ens := mkens { temp : R; pext : R; stressext : list R; bweights : list R; hweights : list R }.

(** np.linalg.norm of the difference *)
Definition dist (a b : list R) : R := sqrt (Rsuml (map (fun p => (fst p - snd p) ^ 2) (combine a b))).
Definition leqb (a b : list R) : bool := if list_eq_dec Req_EM_T a b then true else false.

(** ensemble_swap (ensembles.py:29-58); None is the ValueError.  Parts that are
    equal, or for the stress closer than 1e-10, are left alone. *)
Definition swap_temp (e1 e2 : ens) : ens * ens :=
  if Req_EM_T (temp e1) (temp e2) then (e1, e2)
  else (mkens (temp e2) (pext e1) (stressext e1) (bweights e1) (hweights e1),
        mkens (temp e1) (pext e2) (stressext e2) (bweights e2) (hweights e2)).
Definition swap_pext (e : ens * ens) : ens * ens :=
  let '(e1, e2) := e in
  if Req_EM_T (pext e1) (pext e2) then (e1, e2)
  else (mkens (temp e1) (pext e2) (stressext e1) (bweights e1) (hweights e1),
        mkens (temp e2) (pext e1) (stressext e2) (bweights e2) (hweights e2)).
Definition swap_stress (e : ens * ens) : ens * ens :=
  let '(e1, e2) := e in
  if Rlt_dec (/ 10 ^ 10) (dist (stressext e1) (stressext e2))
  then (mkens (temp e1) (pext e1) (stressext e2) (bweights e1) (hweights e1),
        mkens (temp e2) (pext e2) (stressext e1) (bweights e2) (hweights e2))
  else (e1, e2).
Definition swap_bweights (e : ens * ens) : ens * ens :=
  let '(e1, e2) := e in
  if leqb (bweights e1) (bweights e2) then (e1, e2)
  else (mkens (temp e1) (pext e1) (stressext e1) (bweights e2) (hweights e1),
        mkens (temp e2) (pext e2) (stressext e2) (bweights e1) (hweights e2)).
Definition swap_hweights (e : ens * ens) : ens * ens :=
  let '(e1, e2) := e in
  if leqb (hweights e1) (hweights e2) then (e1, e2)
  else (mkens (temp e1) (pext e1) (stressext e1) (bweights e1) (hweights e2),
        mkens (temp e2) (pext e2) (stressext e2) (bweights e2) (hweights e1)).
Definition ensemble_swap (e1 e2 : ens) : option (ens * ens) :=
  let e := swap_stress (swap_pext (swap_temp e1 e2)) in
  if negb (Nat.eqb (length (bweights (fst e))) (length (bweights (snd e)))) then None
  else if negb (Nat.eqb (length (hweights (fst e))) (length (hweights (snd e)))) then None
  else Some (swap_hweights (swap_bweights e)).

(** What an exchange touches of a system: its ensemble, bead momenta, the
    momentum and the reference cell of the barostat (None if the motion has no
    such attribute), the extra momenta of the GLE thermostats (all of them, one
    after the other), and the energy correction eens. *)
Record sys := mksys { en : ens; mom : list R; bp : option (list R); h0 : option (list R); gle : list R; eens : R }.
Definition with_en (s : sys) (e : ens) := mksys e (mom s) (bp s) (h0 s) (gle s) (eens s).
Definition with_mom (s : sys) (p : list R) := mksys (en s) p (bp s) (h0 s) (gle s) (eens s).
Definition with_bp (s : sys) (p : option (list R)) := mksys (en s) (mom s) p (h0 s) (gle s) (eens s).
Definition with_h0 (s : sys) (h : option (list R)) := mksys (en s) (mom s) (bp s) h (gle s) (eens s).
Definition with_gle (s : sys) (g : list R) := mksys (en s) (mom s) (bp s) (h0 s) g (eens s).
Definition with_eens (s : sys) (x : R) := mksys (en s) (mom s) (bp s) (h0 s) (gle s) x.

Definition scale (c : R) (l : list R) : list R := map (fun x => x * c) l.

(** remd.py:131-142 (and 188-196 with i and j the other way round): momenta and,
    in a try block, barostat momenta.  An AttributeError for system i leaves both
    alone, one for system j comes after system i has been scaled. *)
Definition rescale (ti tj : R) (si sj : sys) : sys * sys :=
  let si := with_mom si (scale (sqrt (tj / ti)) (mom si)) in
  let sj := with_mom sj (scale (sqrt (ti / tj)) (mom sj)) in
  match bp si with
  | None => (si, sj)
  | Some pi => (with_bp si (Some (scale (tj / ti) pi)),
                match bp sj with None => sj | Some pj => with_bp sj (Some (scale (ti / tj) pj)) end)
  end.
(** remd.py:144-152 (and 197-203): reference cells, in a try block *)
Definition swap_h0 (si sj : sys) : sys * sys :=
  match h0 sj, h0 si with
  | Some hj, Some hi => (with_h0 si (Some hj), with_h0 sj (Some hi))
  | _, _ => (si, sj)
  end.

Section Step.
(** the logarithm of the ensemble probability (get_lpens) and the energy that is
    conserved, without eens (get_econs), of system number k *)
Variable lpens : nat -> sys -> R.
Variable eham : nat -> sys -> R.
Variable rescalekin : bool.
Definition econs (k : nat) (s : sys) : R := eham k s + eens s.

(** remd.py:114-206, one attempt for the pair of systems numbered i and j, with
    the random number u; the flag tells whether it was accepted *)
Definition attempt (u : R) (i j : nat) (si sj : sys) : option (sys * sys * bool) :=
  let ti := temp (en si) in let tj := temp (en sj) in
  let eci := econs i si in let ecj := econs j sj in
  let pensi := lpens i si in let pensj := lpens j sj in
  match ensemble_swap (en si) (en sj) with
  | None => None
  | Some (ei, ej) =>
      let '(si1, sj1) := (with_en si ei, with_en sj ej) in
      let '(si2, sj2) := if rescalekin then rescale ti tj si1 sj1 else (si1, sj1) in
      let '(si3, sj3) := swap_h0 si2 sj2 in
      let pxc := exp ((lpens i si3 + lpens j sj3) - (pensi + pensj)) in
      if Rlt_dec u pxc
      then
        let si4 := with_gle si3 (scale (tj / ti) (gle si3)) in
        let sj4 := with_gle sj3 (scale (ti / tj) (gle sj3)) in
        Some (with_eens si4 (eens si4 + (eci - econs i si4)), with_eens sj4 (eens sj4 + (ecj - econs j sj4)), true)
      else
        match ensemble_swap (en si3) (en sj3) with
        | None => None
        | Some (ei', ej') =>
            let '(si4, sj4) := (with_en si3 ei', with_en sj3 ej') in
            let '(si5, sj5) := if rescalekin then rescale tj ti si4 sj4 else (si4, sj4) in
            Some (swap_h0 si5 sj5, false)
        end
  end.

(** state of the exchange: systems, replica index, number of random numbers used, fxc *)
Record st := mkst { systems : nat -> sys; repindex : nat -> nat; used : nat; fxc : bool }.
Definition put {A} (f : nat -> A) (i : nat) (a : A) : nat -> A := fun k => if Nat.eqb k i then a else f k.
(** remd.py:108-178, one turn of the inner loop *)
Definition turn (stride : R) (rnd : nat -> R) (s : st) (ij : nat * nat) : option st :=
  let '(i, j) := ij in
  if Rlt_dec (1 / stride) (rnd (used s)) then Some (mkst (systems s) (repindex s) (used s + 1) (fxc s))
  else match attempt (rnd (used s + 1)%nat) i j (systems s i) (systems s j) with
       | None => None
       | Some (si, sj, acc) =>
           Some (mkst (put (put (systems s) i si) j sj)
                      (if acc then put (put (repindex s) i (repindex s j)) j (repindex s i) else repindex s)
                      (used s + 2) (fxc s || acc))
       end.
(** the pairs in the order of the two loops (remd.py:108-109) *)
Definition pairs (n : nat) : list (nat * nat) := flat_map (fun i => map (fun j => (i, j)) (seq 0 i)) (seq 0 n).
Definition turns (stride : R) (rnd : nat -> R) (l : list (nat * nat)) (s : option st) : option st :=
  fold_left (fun s ij => match s with None => None | Some s => turn stride rnd s ij end) l s.
(** ReplicaExchange.step (94-226); the line of the swap file is the replica index when fxc is set *)
Definition step (n : nat) (stride : R) (rnd : nat -> R) (s : st) : option st :=
  if Rle_dec stride 0 then Some s
  else turns stride rnd (pairs n) (Some (mkst (systems s) (repindex s) (used s) false)).
Definition swap_line (n : nat) (s : st) : option (list nat) :=
  if fxc s then Some (map (repindex s) (seq 0 n)) else None.
End Step.

(** get_lpens (ensembles.py:268-282) with its parts: the physical and bias
    potential, the spring energy (which depends on the temperature through the
    frequencies), the kinetic energy, and the terms of an extended Lagrangian. *)
Definition get_lpens (kb : R) (nbeads : nat) (pot bias kin vspring : sys -> R) (xlpot xlkin : list (sys -> R)) (s : sys) : R :=
  (fold_left (fun l k => l + k s) xlkin (fold_left (fun l p => l + p s) xlpot (pot s + bias s + kin s + vspring s)))
  * (- 1 / (kb * temp (en s) * INR nbeads)).

(** ** Hamiltonian weights (ensembles.py:185-216)

    [hw] is the plain attribute hweights of the Ensemble object (it is not in the
    list given to dproperties, 285-298); [cache] holds the scalings that the
    ScaledForceComponents have computed from it, None while tainted: their only
    dependency is the depend_array _hweights, which nothing writes after bind. *)
Record hens := mkhens { hw : list R; cache : option (list R) }.
Definition bind_hens (w : list R) : hens := mkhens w None.
(** reading the scalings: lambda i=ic: self.hweights[i] - 1, once *)
Definition scalings (h : hens) : list R * hens :=
  match cache h with
  | Some c => (c, h)
  | None => let c := map (fun w => w - 1) (hw h) in (c, mkhens (hw h) (Some c))
  end.
(** ensemble_swap's assignment to the attribute (ensembles.py:53-58) *)
Definition assign_hw (h : hens) (w : list R) : hens := mkhens w (cache h).
Definition swap_hens (h1 h2 : hens) : hens * hens :=
  if leqb (hw h1) (hw h2) then (h1, h2) else (assign_hw h1 (hw h2), assign_hw h2 (hw h1)).
(** the part of bias.pot that comes from the scaled components: sum of
    weight * scaling * pot *)
Definition hbias (comps : list R) (h : hens) : R * hens :=
  let '(c, h) := scalings h in (Rsuml (map (fun p => fst p * snd p) (combine c comps)), h).

(** has_bias (ensembles.py:190-198) *)
Definition meansq (w : list R) : R := Rsuml (map (fun x => (x - 1) ^ 2) w) / INR (length w).
Definition has_bias (nbcomp : nat) (w : list R) : bool :=
  andb (Nat.ltb 0 nbcomp) (if Rlt_dec (meansq w) (/ 10 ^ 20) then true else false).
(** the force that pstep applies in the outer loop (dynamics.py:423-439) for one
    coordinate: [f] from the forces, [bias] from the bias *)
Definition outer_force (nbcomp : nat) (w : list R) (f bias : R) : R := if has_bias nbcomp w then f + bias else f.
