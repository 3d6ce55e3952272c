(** * Estimators of the thermodynamic properties

    /repo/ipi/engine/properties.py: get_atom_ids 1085-1114, get_temp 1116-1179, get_kincv 1181-1237,
    get_scpottd 1239-1249, get_fqvirial 1304-1320, get_sckintd 1322-1394, get_kintd 1396-1435,
    _atom_property_distinguishability_well_defined 1437-1458, _kinetic_td_distinguishables 1460-1497,
    get_sckinpr 1499-1521, get_kinmd 1585-1699, get_ktens 1710-1749, get_kij 1769-1835, get_rg 1837-1881,
    kstress_cv 1912-1939, get_chin_correction 2806-2827, get_ti_correction 2829-2847,
    get_ti_term 2849-2896; Trajectories.get_akcv 3164-3176, get_akcv_od 3178-3198, get_rg 3200-3216.

    Real numbers instead of floats.  Every bead of an atom has the same mass (beads.m3 repeats beads.m).
    [None]: an exception.  The warnings that no atom was found are left out (the value is zero).
    int(atom) is [read_int] of ValModel: blanks are stripped, a sign and decimal digits. *)

From Coq Require Import String Ascii List Reals Arith Bool ZArith.
From Verif Require Import RSum NMModel SCModel TextLib ValModel.
Import ListNotations.
Open Scope R_scope.

(** The part of a System that the estimators read. *)
Record sys := mkSys {
  nb : nat; na : nat;                         (* beads.nbeads, beads.natoms *)
  lab : nat -> text;                          (* beads.names *)
  ms : nat -> R;                              (* beads.m *)
  qq : mat; ff : mat;                         (* beads.q, forces.f: bead, coordinate *)
  pot1 : nat -> R;                            (* forces.pots *)
  kb : R; temp : R;                           (* Constants.kb, ensemble.temp *)
  om2 : R;                                    (* nm.omegan2 *)
  bosons : list nat;                          (* nm.bosons *)
  exkin : R                                   (* nm.exchange_potential.kinetic_td *)
}.
Definition kT (s : sys) : R := kb s * temp s.
(** beads.qc *)
Definition qc (s : sys) (c : nat) : R := Rsum (nb s) (fun b => qq s b c) / INR (nb s).
Definition dev (s : sys) (b c : nat) : R := qq s b c - qc s c.
(** the loop over j in range(3 * i, 3 * (i + 1)) *)
Definition sum3 (i : nat) (x : nat -> R) : R := x (3 * i)%nat + x (3 * i + 1)%nat + x (3 * i + 2)%nat.

(** ** The argument 'atom' *)
Definition teq (a b : text) : bool := if list_eq_dec ascii_dec a b then true else false.

(** 1189-1202 (and every other estimator): an index, or a label with iatom = -1. *)
Definition resolve (n : nat) (atom : text) : option (Z * text) :=
  match read_int atom with
  | Some z => if (Z.of_nat n <=? z)%Z then None else Some (z, [])
  | None => Some ((-1)%Z, atom)
  end.
(** the condition of "continue" (1221) *)
Definition skip (s : sys) (atom : text) (w : Z * text) (i : nat) : bool :=
  negb (teq atom []) && negb (Z.eqb (fst w) (Z.of_nat i)) && negb (teq (snd w) (lab s i)).
Definition sum_over (s : sys) (atom : text) (w : Z * text) (x : nat -> R) : R :=
  Rsum (na s) (fun i => if skip s atom w i then 0 else x i).
Definition count_over (s : sys) (atom : text) (w : Z * text) : R := sum_over s atom w (fun _ => 1).

(** get_atom_ids (1085-1114) *)
Definition get_atom_ids (s : sys) (atom : text) : option (list nat) :=
  if teq atom [] then Some (seq 0 (na s)) else
  match resolve (na s) atom with
  | None => None
  | Some (z, t) => Some (filter (fun i => Z.eqb (Z.of_nat i) z || teq (lab s i) t) (seq 0 (na s)))
  end.

(** _atom_property_distinguishability_well_defined (1437-1458): the bosons of the selection; [None] when
    it holds some but not all of them. *)
Definition included (s : sys) (w : Z * text) (i : nat) : bool :=
  if negb (Z.eqb (fst w) (-1)) then Z.eqb (fst w) (Z.of_nat i)
  else if negb (teq (snd w) []) then teq (snd w) (lab s i) else (i <? na s)%nat.
Definition bosons_included (s : sys) (w : Z * text) : option (list nat) :=
  let inc := filter (included s w) (bosons s) in
  match inc with
  | [] => Some []
  | _ => if forallb (included s w) (bosons s) then Some inc else None
  end.

(** ** Kinetic energy *)

(** get_kincv (1181-1237): the deviations of the other atoms are set to zero, then one scalar product. *)
Definition get_kincv (s : sys) (atom : text) : option R :=
  match resolve (na s) atom with
  | None => None
  | Some w =>
    match bosons_included s w with
    | Some [] =>
      let q b c := if skip s atom w (c / 3) then 0 else dev s b c in
      Some (Rsum (nb s) (fun b => Rsum (3 * na s) (fun c => q b c * ff s b c)) * (- (1 / 2) / INR (nb s))
            + count_over s atom w * (3 / 2) * kb s * temp s)
    | _ => None
    end
  end.

(** the squared lengths of the bonds of atom i (1480-1486, 2375-2380, 2462-2467) *)
Definition ring2 (s : sys) (i : nat) : R :=
  Rsum (nb s - 1) (fun b => sum3 i (fun j => (qq s (S b) j - qq s b j) ^ 2))
  + sum3 i (fun j => (qq s (nb s - 1)%nat j - qq s 0%nat j) ^ 2).

(** _kinetic_td_distinguishables (1460-1497) *)
Definition ktd1 (s : sys) (i : nat) : R :=
  ring2 s i * (- (1 / 2) * ms s i * om2 s / INR (nb s)) + 3 / 2 * kb s * temp s * INR (nb s).
Definition kinetic_td_dist (s : sys) (atom : text) (w : Z * text) (skipped : list nat) : R :=
  sum_over s atom w (fun i => if existsb (Nat.eqb i) skipped then 0 else ktd1 s i).
(** get_kintd (1396-1435) *)
Definition get_kintd (s : sys) (atom : text) : option R :=
  match resolve (na s) atom with
  | None => None
  | Some w =>
    match bosons_included s w with
    | None => None
    | Some [] => Some (kinetic_td_dist s atom w (bosons s))
    | Some _ => Some (kinetic_td_dist s atom w (bosons s) + exkin s)
    end
  end.

(** get_fqvirial with the default reference (1304-1320) *)
Definition get_fqvirial (s : sys) : R :=
  Rsum (nb s) (fun b => Rsum (3 * na s) (fun c => ff s b c * (qq s b c - 0))) * (1 / 2) / INR (nb s).

(** get_kij (1769-1835) for two indices in range *)
Definition kij1 (s : sys) (i j a c : nat) : R :=
  Rsum (nb s) (fun b => ms s i * dev s b (3 * i + a)%nat * ff s b (3 * j + c)%nat
                      + ms s j * dev s b (3 * j + c)%nat * ff s b (3 * i + a)%nat)
  * (- (1 / 2) / (INR (nb s) * 2 * sqrt (ms s i * ms s j))).
Definition get_kij (s : sys) (i j : nat) : list R :=
  let d := if (i =? j)%nat then 1 / 2 * kb s * temp s else 0 in
  [kij1 s i j 0 0 + d; kij1 s i j 1 1 + d; kij1 s i j 2 2 + d; kij1 s i j 0 1; kij1 s i j 0 2; kij1 s i j 1 2].
(** get_ktens (1710-1749), component by component *)
Definition get_ktens (s : sys) (atom : text) : option (nat -> R) :=
  match resolve (na s) atom with
  | None => None
  | Some w => Some (fun k => sum_over s atom w (fun i => nth k (get_kij s i i) 0))
  end.
(** Trajectories.get_akcv (3164-3176), get_akcv_od (3178-3198) *)
Definition get_akcv (s : sys) (c : nat) : R :=
  Rsum (nb s) (fun b => (qq s b c - qc s c) * ff s b c) * (- (1 / 2) / INR (nb s)) + 1 / 2 * kb s * temp s.
Definition get_akcv_od (s : sys) (c : nat) : R :=
  let i := (c / 3)%nat in
  let '(a, a') := match (c mod 3)%nat with 0%nat => (0, 1)%nat | 1%nat => (0, 2)%nat | _ => (1, 2)%nat end in
  Rsum (nb s) (fun b => dev s b (3 * i + a)%nat * ff s b (3 * i + a')%nat
                      + dev s b (3 * i + a')%nat * ff s b (3 * i + a)%nat) * (1 / 2) * (- (1 / 2) / INR (nb s)).

(** get_rg (1837-1881): the average over the selection; [None] without atoms.  Trajectories.get_rg (3200-3216) *)
Definition rg1 (s : sys) (i : nat) : R :=
  sqrt (Rsum (nb s) (fun b => sum3 i (fun c => dev s b c * dev s b c)) / INR (nb s)).
Definition get_rg (s : sys) (atom : text) : option R :=
  match resolve (na s) atom with
  | None => None
  | Some w => if Req_EM_T (count_over s atom w) 0 then None
              else Some (sum_over s atom w (rg1 s) / count_over s atom w)
  end.
Definition traj_rg (s : sys) (c : nat) : R := sqrt (Rsum (nb s) (fun b => dev s b c * dev s b c) / INR (nb s)).

(** kstress_cv (1912-1939); [pc]: beads.pc *)
Definition kstress_cv (s : sys) (pc : nat -> R) (a c : nat) : R :=
  (if (a <=? c)%nat then - Rsum (nb s) (fun b => Rsum (na s) (fun i => dev s b (3 * i + a)%nat * ff s b (3 * i + c)%nat)) else 0)
  + (if (a =? c)%nat then INR (nb s) * Rsum (na s) (fun i => pc (3 * i + a)%nat * (pc (3 * i + a)%nat / ms s i)) else 0).

(** ** Fourth order *)
(** sum of f^2/m of one bead *)
Definition f2m (s : sys) (b : nat) : R := Rsum (3 * na s) (fun c => ff s b c / ms s (c / 3) * ff s b c).
(** forces.potssc (forces.py 1573-1584) *)
Definition potssc (s : sys) (alpha : R) (b : nat) : R :=
  coeffsc_part_1 b * pot1 s b + coeffsc_part_2 alpha (om2 s) b * f2m s b.
(** get_scpottd (1239-1249) *)
Definition get_scpottd (s : sys) (alpha : R) : R :=
  Rsum (nb s) (fun b => if even_b b
     then 2 * pot1 s b / 3 + 2 * (potssc s alpha b + pot1 s b / 3)
     else 4 * pot1 s b / 3 + 2 * (potssc s alpha b - pot1 s b / 3)) / INR (nb s).
(** get_sckinpr (1499-1521); [vspring]: nm.vspring *)
Definition get_sckinpr (s : sys) (alpha vspring : R) : R :=
  3 / 2 * kb s * temp s * INR (nb s) * INR (na s) - vspring / INR (nb s)
  + Rsum (nb s) (fun b => if even_b b then potssc s alpha b + pot1 s b / 3 else potssc s alpha b - pot1 s b / 3) / INR (nb s).
(** get_sckintd (1322-1394); [fsc]: forces.fsc *)
Definition get_sckintd (s : sys) (alpha : R) (fsc : mat) (atom : text) : option R :=
  match resolve (na s) atom with
  | None => None
  | Some w => Some (sum_over s atom w (fun i =>
      Rsum (nb s) (fun b => sum3 i (fun c => dev s b c * (ff s b c + fsc b c))
        - (if even_b b then 2 * (alpha / om2 s / 9) else 2 * ((1 - alpha) / om2 s / 9))
          * sum3 i (fun c => ff s b c * ff s b c / ms s i)) * (- (1 / 2) / INR (nb s))
      + 3 / 2 * kb s * temp s))
  end.
(** get_chin_correction (2806-2827): the logarithm of the weight; pots[b + 1] is out of range for an odd
    number of beads. *)
Definition betaP (s : sys) : R := 1 / (INR (nb s) * kb s * temp s).
Definition get_chin_correction (s : sys) : option (R * R * R) :=
  if negb (even_b (nb s)) then None else
  let f2 := Rsum (3 * na s) (fun c => Rsum (nb s / 2) (fun k => ff s (2 * k + 1)%nat c ^ 2 / ms s (c / 3))) in
  let chin := (f2 * (4 / 3 * (1 / 12) / om2 s)
               + Rsum (nb s / 2) (fun k => (- pot1 s (2 * k)%nat + pot1 s (2 * k + 1)%nat) / 3)) * - betaP s in
  Some (chin, chin ^ 2, exp chin).
(** get_ti_correction (2829-2847) *)
Definition get_ti_correction (s : sys) : R * R * R :=
  let ti := Rsum (3 * na s) (fun c => Rsum (nb s) (fun b => ff s b c ^ 2 / ms s (c / 3))) * (1 / 24 / om2 s) * - betaP s in
  (ti, ti ^ 2, exp ti).
(** get_ti_term (2849-2896) *)
Definition get_ti_term (s : sys) (atom : text) : option R :=
  match resolve (na s) atom with
  | None => None
  | Some w => Some (sum_over s atom w (fun i => sum3 i (fun c => Rsum (nb s) (fun b => ff s b c ^ 2 / ms s i)))
                    * (1 / 24 / om2 s / INR (nb s)))
  end.

(** ** Temperature *)
(** The momenta: pnm and dynm3 by mode, p by bead; the motion: is there an attribute enstype and is it
    "nvt-cc", fixcom, fixatoms_dof. *)
Record mot := mkMot {
  pnm : mat; dm3 : mat; pp : mat;
  enstype : option bool; fixcom : bool; fixdof : list nat }.
(** int(bead) with the test of its range (1614-1636): -1 when not given *)
Definition number (n : nat) (t : text) : option Z :=
  if teq t [] then Some (-1)%Z else
  match read_int t with
  | None => None
  | Some z => if (Z.of_nat n <=? z)%Z then None else Some z
  end.
Definition all_same (n : nat) (x : nat -> R) : bool :=
  forallb (fun b => if Req_EM_T (x b) (x 0%nat) then true else false) (seq 0 n).
(** get_kinmd (1585-1699) *)
Definition get_kinmd (s : sys) (mo : mot) (atom bead nm : text) : option R :=
  if negb (teq bead []) && negb (teq nm []) then None else
  match resolve (na s) atom, number (nb s) bead, number (nb s) nm with
  | Some w, Some ib, Some im =>
    if (-1 <? ib)%Z then
      let b := Z.to_nat ib in
      if forallb (fun i => skip s atom w i || all_same (nb s) (fun b' => dm3 mo b' (3 * i)%nat)) (seq 0 (na s))
      then Some (sum_over s atom w (fun i => sum3 i (fun c => pp mo b c ^ 2) / (2 * ms s i)) / 1)
      else None
    else if (-1 <? im)%Z then
      let k := Z.to_nat im in
      Some (sum_over s atom w (fun i => sum3 i (fun c => pnm mo k c ^ 2) / (2 * dm3 mo k (3 * i)%nat)) / 1)
    else
      (* for all atoms the code reads nm.kin, which is this sum (normalmodes.py 920-943) *)
      Some (sum_over s atom w (fun i => Rsum (nb s) (fun k => sum3 i (fun c => pnm mo k c ^ 2) / (2 * dm3 mo k (3 * i)%nat)))
            / INR (nb s))
  | _, _, _ => None
  end.
Definition held_dof (mo : mot) (c : nat) : R := if existsb (Nat.eqb c) (fixdof mo) then 1 else 0.
(** get_temp (1116-1179) *)
Definition get_temp (s : sys) (mo : mot) (atom bead nm : text) : option R :=
  match get_kinmd s mo atom bead nm, get_atom_ids s atom with
  | Some kemd, Some ids =>
    let n := INR (length ids) in
    let cc := match enstype mo with Some true => true | _ => false end in
    let eff0 := if cc then n * 3
                else if fixcom mo then 3 * Rsuml (map (ms s) ids) / Rsum (na s) (ms s) else 0 in
    let eff1 := if teq nm [] then eff0 else
                match read_int nm with
                | Some z => if (z =? 0)%Z then eff0 * INR (nb s) else if (0 <? z)%Z then 0 else eff0
                | None => eff0
                end in
    let fixed := Rsuml (map (fun i => sum3 i (held_dof mo)) ids) in
    let out eff := Some (2 * (kemd + 1 / 2 * kb s * temp s * eff) / (kb s * 3 * n * INR (nb s))) in
    if Rlt_dec 0 (temp s) then
      match fixdof mo with
      | [] => out eff1
      | _ => match enstype mo with
             | None => None   (* self.motion.enstype: AttributeError *)
             | Some c => out (eff1 + fixed * (if c then INR (nb s) - 1 else INR (nb s)))
             end
      end
    else Some (2 * kemd / (kb s * 3 * n * INR (nb s)))
  | _, _ => None
  end.
