(** Model of the exchange potential of identical bosons (ipi/utils/exchange.py).
    Positions are functions of bead, boson and Cartesian direction; numpy's
    arrays are functions of their indices, assignments are updates and the
    vectorised loops are written with the scalar loops of the comments beside
    them.  Floating point numbers are idealised as reals. *)
Require Import Reals List Arith Lia.
From Verif Require Import RSum.
Import ListNotations.
Local Open Scope R_scope.

(** positions of the bosons, [q bead boson direction] (exchange.py:62-70) *)
Definition config := nat -> nat -> nat -> R.
(** nbosons, nbeads, boson_m, omegan2, betaP (30-58) *)
Record expot := mkexpot { nbosons : nat; nbeads : nat; boson_m : R; omegan2 : R; betaP : R }.

Definition set1 (V : nat -> R) (i : nat) (x : R) : nat -> R := fun a => if Nat.eqb a i then x else V a.
(** np.min of the values at 0, ..., n - 1 (n > 0) *)
Definition npmin (n : nat) (f : nat -> R) : R := fold_left (fun m i => Rmin m (f i)) (seq 1 (n - 1)) (f 0%nat).

(** get_boson_mass (158-168): [None] is the ValueError.  The set of the masses
    has more than one element when some mass differs from the first. *)
Definition get_boson_mass (masses : nat -> R) (bosons : list nat) : option R :=
  match bosons with
  | [] => None
  | b :: bs => if forallb (fun i => if Req_EM_T (masses i) (masses b) then true else false) bs
               then Some (masses b) else None
  end.

(** bead_diff_intra (73-78) and bead_diff_inter_first_last_bead (81-89) *)
Definition intra (q : config) : config := fun j l k => q (S j) l k - q j l k.
Definition inter (x : expot) (q : config) (l m k : nat) : R := q 0%nat l k - q (nbeads x - 1)%nat m k.
(** intra_spring_energies and spring_energy_first_last_bead_array (177-180) *)
Definition intra_energy (x : expot) (q : config) (l : nat) : R :=
  Rsum (nbeads x - 1) (fun j => Rsum 3 (fun k => intra q j l k ^ 2)).
Definition inter_energy (x : expot) (q : config) (l m : nat) : R := Rsum 3 (fun k => inter x q l m k ^ 2).
(** spring_potential_prefix (182) *)
Definition spring_pre (x : expot) : R := 1 / 2 * boson_m x * omegan2 x.

(** get_cycle_energies (170-208): the diagonal, then the rows from the last but
    one up to the first. *)
Definition cycle_diag (x : expot) (q : config) : nat -> nat -> R := fun u v =>
  if (Nat.eqb u v && Nat.ltb u (nbosons x))%bool then spring_pre x * (intra_energy x q u + inter_energy x q u u) else 0.
Definition cycle_row (x : expot) (q : config) (E : nat -> nat -> R) (s : nat) : nat -> nat -> R := fun u v =>
  if (Nat.eqb u s && Nat.leb (s + 1) v && Nat.ltb v (nbosons x))%bool
  then E (s + 1)%nat v + spring_pre x * (- inter_energy x q (s + 1) v + intra_energy x q s
         + inter_energy x q (s + 1) s + inter_energy x q s v)
  else E u v.
Definition get_cycle_energies (x : expot) (q : config) : nat -> nat -> R :=
  fold_left (cycle_row x q) (rev (seq 0 (nbosons x - 1))) (cycle_diag x q).

(** get_prefix_V (210-236).  The boolean records whether every assertion on
    [sig] held. *)
Definition prefix_step (x : expot) (E : nat -> nat -> R) (st : (nat -> R) * bool) (m : nat) : (nat -> R) * bool :=
  let '(V, ok) := st in
  let sub := fun u => V u + E u (m - 1)%nat in
  let Elong := npmin m sub in
  let sig := Rsum m (fun u => exp (- betaP x * (sub u - Elong))) in
  (set1 V m (Elong - ln (sig / INR m) / betaP x), if Req_EM_T sig 0 then false else ok).
Definition prefix_run (x : expot) (E : nat -> nat -> R) : (nat -> R) * bool :=
  fold_left (prefix_step x E) (seq 1 (nbosons x)) ((fun _ => 0), true).
Definition prefix_V (x : expot) (E : nat -> nat -> R) : nat -> R := fst (prefix_run x E).

(** get_suffix_V (238-269) *)
Definition suffix_step (x : expot) (E : nat -> nat -> R) (st : (nat -> R) * bool) (l : nat) : (nat -> R) * bool :=
  let '(RV, ok) := st in
  let sub := fun i => E l (l + i)%nat + RV (l + 1 + i)%nat in
  let Elong := npmin (nbosons x - l) sub in
  let sig := Rsum (nbosons x - l) (fun i => 1 / (INR l + 1 + INR i) * exp (- betaP x * (sub i - Elong))) in
  (set1 RV l (Elong - ln sig / betaP x), if Req_EM_T sig 0 then false else ok).
Definition suffix_run (x : expot) (E : nat -> nat -> R) : (nat -> R) * bool :=
  fold_left (suffix_step x E) (rev (seq 1 (nbosons x - 1))) ((fun _ => 0), true).
Definition suffix_V (x : expot) (E : nat -> nat -> R) : nat -> R :=
  set1 (fst (suffix_run x E)) 0 (prefix_V x E (nbosons x)).

(** connection_probs (299-341): the lower triangle, then the superdiagonal *)
Definition connection_probs (x : expot) (E : nat -> nat -> R) : nat -> nat -> R := fun l u =>
  let V := prefix_V x E in let RV := suffix_V x E in
  if (Nat.ltb l (nbosons x) && Nat.ltb u (nbosons x))%bool then
    if Nat.eqb u (l + 1) then 1 - exp (- betaP x * (V (l + 1)%nat + RV (l + 1)%nat - V (nbosons x)))
    else if Nat.leb u l then 1 / INR (l + 1) * exp (- betaP x * (V u + E u l + RV (l + 1)%nat - V (nbosons x)))
    else 0
  else 0.

(** np.roll by one along the beads, applied to an array with [n] rows *)
Definition roll (n : nat) (a : config) : config := fun j => a ((j + (n - 1)) mod n)%nat.
(** get_vspring_and_fspring (271-400): the assignments to F[1:-1], F[-1] and
    F[0], in this order, as updates of the rows. *)
Definition row_set (F : config) (j : nat) (v : nat -> nat -> R) : config := fun a l k => if Nat.eqb a j then v l k else F a l k.
Definition force_pre (x : expot) : R := -1 * boson_m x * omegan2 x.
Definition get_fspring (x : expot) (q : config) : config :=
  let N := nbosons x in let P := nbeads x in
  let E := get_cycle_energies x q in
  let conn := connection_probs x E in
  let F1 : config := fun j l k =>
    if (Nat.leb 1 j && Nat.ltb j (P - 1))%bool
    then force_pre x * (- intra q j l k + roll (P - 1) (intra q) j l k) else 0 in
  let F2 := row_set F1 (P - 1) (fun l k =>
    Rsum N (fun j => force_pre x * (- inter x q j l k + intra q (P - 2)%nat l k) * conn l j)) in
  row_set F2 0 (fun l k =>
    Rsum N (fun j => force_pre x * (inter x q l j k - intra q 0%nat l k) * conn j l)).
Definition get_vspring (x : expot) (q : config) : R := prefix_V x (get_cycle_energies x q) (nbosons x).

(** get_distinct_probability (402-415) and get_longest_probability (417-427) *)
Definition distinct_probability (x : expot) (E : nat -> nat -> R) : R :=
  exp (- betaP x * (Rsum (nbosons x) (fun i => E i i) - prefix_V x E (nbosons x)) - ln (INR (fact (nbosons x)))).
Definition longest_probability (x : expot) (E : nat -> nat -> R) : R :=
  exp (- betaP x * (E 0%nat (nbosons x - 1)%nat - prefix_V x E (nbosons x))).

(** get_kinetic_td (429-462).  [maxfloat] is sys.float_info.max. *)
Definition etilde (maxfloat : R) (m : nat) (f : nat -> R) : R :=
  fold_left (fun e k => Rmin e (f (m - k)%nat)) (rev (seq 1 m)) maxfloat.
Definition kin_step (maxfloat : R) (x : expot) (E : nat -> nat -> R) (est : nat -> R) (m : nat) : nat -> R :=
  let V := prefix_V x E in
  let et := etilde maxfloat m (fun u => E u (m - 1)%nat + V u) in
  let sig := fold_left (fun sig k => sig + (est (m - k)%nat - E (m - k)%nat (m - 1)%nat)
                 * exp (- betaP x * (E (m - k)%nat (m - 1)%nat + V (m - k)%nat - et))) (rev (seq 1 m)) 0 in
  set1 est m (sig / (INR m * exp (- betaP x * (V m - et)))).
Definition kin_est (maxfloat : R) (x : expot) (E : nat -> nat -> R) : nat -> R :=
  fold_left (kin_step maxfloat x E) (seq 1 (nbosons x)) (fun _ => 0).
Definition kinetic_td (maxfloat : R) (x : expot) (E : nat -> nat -> R) : R :=
  3 / 2 * INR (nbosons x) / betaP x + kin_est maxfloat x E (nbosons x) / INR (nbeads x).

(** _get_fermionic_potential_exp (474-495) and get_fermionic_sign (464-472).
    np.empty's cells after the first are all overwritten before they are read. *)
Definition fermi_step (x : expot) (E : nat -> nat -> R) (W : nat -> R) (m : nat) : nat -> R :=
  set1 W m (1 / INR m * Rsum m (fun u => (-1) ^ (m - u - 1) * W u * exp (- betaP x * E u (m - 1)%nat))).
Definition fermi_W (x : expot) (E : nat -> nat -> R) : nat -> R :=
  fold_left (fermi_step x E) (seq 1 (nbosons x)) (set1 (fun _ => 0) 0 1).
Definition fermionic_sign (x : expot) (E : nat -> nat -> R) : R :=
  fermi_W x E (nbosons x) / exp (- betaP x * prefix_V x E (nbosons x)).
