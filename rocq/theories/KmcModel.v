(** * Model of the kinetic Monte Carlo of vacancies (ipi/engine/motion/al6xxx_kmc.py)

    Floating point numbers are real numbers. Arrays over sites and atoms are functions of the index;
    the string naming a state is the list of its letters.  The vacancies are atoms of the beads
    as well (demos/al6xxx-kmc), after all the others. *)
From Coq Require Import List Arith Bool Reals Lra Lia.
From Verif Require Import RSum PairModel CellModel.
Import ListNotations.
Open Scope R_scope.

Inductive species := Si | Mg | Al | Vac.
Definition seqb (a b : species) : bool :=
  match a, b with Si, Si | Mg, Mg | Al, Al | Vac, Vac => true | _, _ => false end.
(** Options of the input; barriers and prefactors of Al first, then of Mg and Si as given. *)
Record params : Type := Params
  { ncell : nat; nvac : nat; nsi : nat; nmg : nat; a0 : R; kT : R;
    barr_al : R; pref_al : R; barr_mg : R; pref_mg : R; barr_si : R; pref_si : R }.

(** ** Arrays *)
Definition upd {A} (f : nat -> A) (k : nat) (v : A) : nat -> A := fun i => if Nat.eqb i k then v else f i.
(** a[idx] = vals, for an index array of length [n] *)
Definition scatter {A} (n : nat) (idx : nat -> nat) (vals a : nat -> A) : nat -> A :=
  fold_left (fun a i => upd a (idx i) (vals i)) (seq 0 n) a.
(** a[i], a[j] = a[j], a[i] *)
Definition swap {A} (i j : nat) (a : nat -> A) : nat -> A := upd (upd a i (a j)) j (a i).

Section Kmc.
Variable y : params.
Definition nsites : nat := (ncell y * ncell y * ncell y)%nat.
Definition natoms : nat := (nsites - nvac y)%nat.

(** ** __init__, lines 47-208 *)
(** 93-123 *)
Definition given (x al : R) : R := if Rlt_dec 0 x then x else al.
Definition barrier (s : species) : R :=
  match s with Mg => given (barr_mg y) (barr_al y) | Si => given (barr_si y) (barr_al y) | _ => barr_al y end.
Definition prefactor (s : species) : R :=
  match s with Mg => given (pref_mg y) (pref_al y) | Si => given (pref_si y) (pref_al y) | _ => pref_al y end.
(** 125-146: the cell, and the sites in the order of meshgrid *)
Definition scell : mat3 := fun i j => a0 y *
  rows3 0.7071067811865475 0.35355339059327373 0.35355339059327373
        0 0.6123724356957945 0.20412414523193154
        0 0 0.5773502691896258 i j.
Definition dcell : mat3 := fun i j => scell i j * INR (ncell y).
Definition coord (s k : nat) : nat :=
  match k with
  | 0%nat => (s / (ncell y * ncell y))%nat
  | 1%nat => ((s / ncell y) mod ncell y)%nat
  | _ => (s mod ncell y)%nat
  end.
Definition site (s : nat) : vec := mvec scell (fun k => INR (coord s k)).
(** 148-167: neighbours *)
Definition near (i j : nat) : bool :=
  let r := apply_pbc dcell (fun k => site j k - site i k) in
  if Rlt_dec (dot3 r r) (1.01 * 0.5 * a0 y ^ 2) then true else false.
(** An entry is appended to the row of a site; the row has 12 places, a thirteenth is an
    IndexError ([None]). *)
Definition put (i j : nat) (o : option (nat -> list nat)) : option (nat -> list nat) :=
  match o with
  | None => None
  | Some l => if (length (l i) <? 12)%nat then Some (upd l i (l i ++ [j])) else None
  end.
Definition connect (o : option (nat -> list nat)) (ij : nat * nat) : option (nat -> list nat) :=
  let '(i, j) := ij in if near i j then put j i (put i j o) else o.
Definition pairs (n : nat) : list (nat * nat) := flat_map (fun i => map (fun j => (i, j)) (seq 0 i)) (seq 0 n).
Definition connectivity : option (nat -> list nat) := fold_left connect (pairs nsites) (Some (fun _ => [])).
(** The array starts with zeros. *)
Definition padded (l : list nat) : list nat := l ++ repeat 0%nat (12 - length l).

(** ** bind, lines 210-319 *)
(** 250-258: the letters in the order of the atoms *)
Definition names (i : nat) : species :=
  if (i <? nsi y)%nat then Si else if (i <? nsi y + nmg y)%nat then Mg else if (i <? natoms)%nat then Al else Vac.
(** State of the simulation: [idx] gives the site of an atom, [ridx] the atom on a site. *)
Record kmc : Type := Kmc { idx : nat -> nat; ridx : nat -> nat; st : nat -> species; pos : nat -> vec; time : R }.
(** 236-266; the positions are those of the sites if there was no [idx] in the input (282-285). *)
Definition bind (ix : nat -> nat) (restart : option (nat -> vec)) (t : R) : kmc :=
  Kmc ix (scatter nsites ix (fun i => i) (fun _ => 0%nat)) (scatter nsites ix names names)
      (match restart with Some q => q | None => fun i => site (ix i) end) t.

(** ** unique_idx, lines 443-468 *)
Record counters : Type := Counters { ksi : nat; kmg : nat; kal : nat; kvac : nat; uix : nat -> nat }.
Definition unique_step (s : nat -> species) (c : counters) (k : nat) : counters :=
  match s k with
  | Si => Counters (S (ksi c)) (kmg c) (kal c) (kvac c) (upd (uix c) (ksi c) k)
  | Mg => Counters (ksi c) (S (kmg c)) (kal c) (kvac c) (upd (uix c) (kmg c) k)
  | Al => Counters (ksi c) (kmg c) (S (kal c)) (kvac c) (upd (uix c) (kal c) k)
  | Vac => Counters (ksi c) (kmg c) (kal c) (S (kvac c)) (upd (uix c) (kvac c) k)
  end.
Definition unique_idx (s : nat -> species) : nat -> nat :=
  uix (fold_left (unique_step s) (seq 0 nsites) (Counters 0 (nsi y) (nsi y + nmg y) natoms (fun _ => 0%nat))).
(** unique_idx_match, lines 470-500. [None]: the loop found no swapped vacancy (NameError). *)
Definition last_such (p : nat -> bool) (n : nat) : option nat :=
  fold_left (fun o i => if p i then Some i else o) (seq 0 n) None.
Definition unique_idx_match (s1 s2 : nat -> species) : option (nat -> nat) :=
  let u1 := unique_idx s1 in
  let r1 := scatter nsites u1 (fun i => i) (fun _ => 0%nat) in
  let u2 := unique_idx s2 in
  let r2 := scatter nsites u2 (fun i => i) (fun _ => 0%nat) in
  let iu12 := fun i => r2 (u1 i) in
  let iu21 := fun i => r1 (u2 i) in
  match last_such (fun i => (natoms <=? iu12 i)%nat) natoms, last_such (fun i => (natoms <=? iu21 i)%nat) natoms with
  | Some i1, Some i2 => Some (upd iu12 i1 i2)
  | _, _ => None
  end.

(** ** step, lines 502-678 *)
Definition key (s : nat -> species) : list species := map s (seq 0 nsites).
(** 519-602: the events, or [None] for one of the two IndexErrors. The second check is made
    here for all events and not only for those whose energy has to be computed. *)
Definition events_of (neigh : nat -> list nat) (k : kmc) (ivac : nat) : option (list (nat * nat)) :=
  let svac := idx k ivac in
  if negb (seqb (st k svac) Vac) then None
  else
    let l := filter (fun n => negb (seqb (st k n) Vac)) (neigh svac) in
    match l with
    | [] => Some []
    | _ => if Nat.eqb (ridx k svac) ivac then Some (map (fun n => (svac, n)) l) else None
    end.
Fixpoint all_events (neigh : nat -> list nat) (k : kmc) (vacs : list nat) : option (list (nat * nat)) :=
  match vacs with
  | [] => Some []
  | v :: r =>
      match events_of neigh k v, all_events neigh k r with Some a, Some b => Some (a ++ b) | _, _ => None end
  end.
Definition events (neigh : nat -> list nat) (k : kmc) : option (list (nat * nat)) :=
  all_events neigh k (seq natoms (nvac y)).
Definition target (s : nat -> species) (e : nat * nat) : nat -> species := swap (fst e) (snd e) s.
(** The optimisation starts from the sites in the order of unique_idx, and gives energy and
    relaxed positions (509-512, 555-558). How the energies come from the cache and the threads is
    in KmcThreads; here they are those of the optimisation. *)
Definition start (s : nat -> species) : nat -> vec := fun i => site (unique_idx s i).
Variable geop : (nat -> vec) -> R * (nat -> vec).
Definition energy (s : nat -> species) : R := fst (geop (start s)).
Definition relaxed (s : nat -> species) : nat -> vec := snd (geop (start s)).
(** 616-629 *)
Definition rate (ecurr enew : R) (s : species) : R :=
  let ets := 0.5 * (ecurr + enew) + barrier s in prefactor s * exp (- (ets - ecurr) / kT y).
Definition event_rate (s : nat -> species) (e : nat * nat) : R := rate (energy s) (energy (target s e)) (s (snd e)).
Fixpoint crates (acc : R) (l : list R) : list R :=
  match l with [] => [] | r :: t => (acc + r) :: crates (acc + r) t end.
Definition cdf (l : list R) : R := fold_left Rplus l 0.
(** 631-635: [None] is the IndexError after the last event. *)
Fixpoint select (fpick : R) (cr : list R) : option nat :=
  match cr with [] => None | c :: t => if Rlt_dec c fpick then option_map S (select fpick t) else Some 0%nat end.
Definition residence (total u : R) : R := - 1 / total * ln (1 - u).
(** 657-678 *)
Definition moved (k : kmc) (s' : nat -> species) (idx' : nat -> nat) (q : nat -> vec) : nat -> vec :=
  let ru := scatter nsites (unique_idx s') (fun i => i) (fun _ => 0%nat) in
  fun i => let d := apply_pbc dcell (fun c => q (ru (idx' i)) c - pos k i c) in fun c => pos k i c + d c.
Definition step (neigh : nat -> list nat) (u1 u2 : R) (k : kmc) : option kmc :=
  match events neigh k with
  | None => None
  | Some ev =>
      let rates := map (event_rate (st k)) ev in
      match select (u1 * cdf rates) (crates 0 rates) with
      | None => None
      | Some isel =>
          let e := nth isel ev (0%nat, 0%nat) in
          let ivac := ridx k (fst e) in let ineigh := ridx k (snd e) in
          let s' := swap (fst e) (snd e) (st k) in
          let idx' := swap ivac ineigh (idx k) in
          Some (Kmc idx' (swap (fst e) (snd e) (ridx k)) s' (moved k s' idx' (relaxed s'))
                    (time k + residence (cdf rates) u2))
      end
  end.
End Kmc.
