(* Model of the potentials bundled with the python driver.

   ipi/pes/dummy.py 15-57, gas.py, harmonic.py 26-77, morse.py 37-110,
   doublewell.py 35-79, doublewell_with_friction.py 43-113, bath.py 15-81,
   doublewell_with_bath.py 45-107, doubledoublewell.py 56-148,
   spherical_LJ.py 126-199, spline.py 60-100, tools.py 7-139.

   Numbers are reals; 0.5 is 1/2.  Positions are a function of the flat index
   (atom times three plus component) and a number of atoms.  What is
   returned as energy is an array in general, here the list of its
   elements: a number is a list of one.  All these potentials return a zero
   virial.  Division by zero has no meaning here; the theorems exclude it.
   In splines, the interpolation is any function. *)
From Coq Require Import String List Reals Arith Bool Lia.
From Verif Require Import RSum.
Import ListNotations.
Local Open Scope R_scope.

Definition vec := nat -> R.
Definition energy := list R.

(* ---------------- harmonic.py ---------------- *)

Inductive springs := Iso (k : R) | Aniso (k1 k2 k3 : R).
(* __init__ 26-35 *)
Definition harmonic_init (k1 : R) (k2 k3 : option R) : springs :=
  match k2, k3 with Some k2, Some k3 => Aniso k1 k2 k3 | _, _ => Iso k1 end.
Definition kth (k1 k2 k3 : R) (i : nat) : R := match i with 0%nat => k1 | 1%nat => k2 | _ => k3 end.

(* compute_structure 37-55; pos3[:, i] has n elements *)
Definition harmonic_one (s : springs) (n : nat) (pos : vec) : R * vec :=
  match s with
  | Iso k => (1 / 2 * k * Rsum (3 * n) (fun c => pos c ^ 2), fun c => - k * pos c)
  | Aniso k1 k2 k3 =>
      (Rsum 3 (fun i => 1 / 2 * kth k1 k2 k3 i * Rsum n (fun a => pos (3 * a + i)%nat ^ 2)),
       fun c => - kth k1 k2 k3 (c mod 3) * pos c)
  end.
(* compute 57-77, batched; np.stack wants one atom number and one structure
   at least *)
Definition harmonic_batch (s : springs) (cells : nat) (ps : list (nat * vec)) : option (list (R * vec)) :=
  if negb (Nat.eqb cells (length ps)) then None
  else match ps with
  | nil => None
  | (n, _) :: _ =>
      if negb (forallb (fun p => Nat.eqb (fst p) n) ps) then None
      else Some (map (fun p =>
        (match s with
         | Iso k => 1 / 2 * k * Rsum (3 * n) (fun c => snd p c ^ 2)
         | Aniso k1 k2 k3 => 1 / 2 * Rsum (3 * n) (fun c => kth k1 k2 k3 (c mod 3) * snd p c ^ 2)
         end,
         fun c => match s with Iso k => - k * snd p c | Aniso k1 k2 k3 => - kth k1 k2 k3 (c mod 3) * snd p c end)) ps)
  end.

(* dummy.py 39-52: one after the other; gas.py is the same with zeros *)
Definition serial (one : nat -> vec -> R * vec) (cells : nat) (ps : list (nat * vec)) : option (list (R * vec)) :=
  if negb (Nat.eqb cells (length ps)) then None else Some (map (fun p => one (fst p) (snd p)) ps).
Definition gas_one (n : nat) (pos : vec) : R * vec := (0, fun _ => 0).
(* np.asarray(pos[0]) fails for an empty batch *)
Definition gas_batch (cells : nat) (ps : list (nat * vec)) : option (list (R * vec)) :=
  if negb (Nat.eqb cells (length ps)) then None
  else match ps with nil => None | _ => Some (map (fun _ => (0, fun _ => 0)) ps) end.

(* ---------------- morse.py ---------------- *)

Record morse := Morse { De : R; ma : R; z0 : R; mk : R }.
(* 37-63; ev and ang are the two conversion factors *)
Definition morse_init (ev ang : R) (d a z k : option R) : morse :=
  match d, a, z, k with
  | Some d, Some a, Some z, Some k => Morse (d * ev) (a / ang) (z * ang) (k * ev / ang ^ 2)
  | _, _, _, _ => Morse (735 / 100000) (161 / 100) (21 / 10) (343 / 1000)
  end.
(* 89-103 *)
Definition morse_atom (m : morse) (x y z : R) : R :=
  let u := (z - z0 m) * ma m in
  De m * (u ^ 2 - u ^ 3 + 7 / 12 * u ^ 4) + mk m / 2 * (x ^ 2 + y ^ 2).
Definition morse_force (m : morse) (pos : vec) : vec := fun c =>
  if Nat.eqb (c mod 3) 2 then
    let u := (pos c - z0 m) * ma m in - De m * ma m * (2 * u - 3 * u ^ 2 + 7 / 3 * u ^ 3)
  else - mk m * pos c.
Definition morse_one (m : morse) (n : nat) (pos : vec) : R * vec :=
  (Rsum n (fun a => morse_atom m (pos (3 * a)%nat) (pos (3 * a + 1)%nat) (pos (3 * a + 2)%nat)), morse_force m pos).

(* ---------------- doublewell.py ---------------- *)

(* attributes of the object; those of the friction are unused by the plain
   double well *)
Record well := Well { delta : R; wk : R; wA : R; wB : R; eta0 : R; eps1 : R; eps2 : R; deltaQ : R }.
Definition kxy : R := 183736223469 / 100000000 * (3800 / 219323) ^ 2.
Definition barrier (w : well) (m wb v0 d : R) : well :=
  Well d kxy (- (1 / 2) * m * wb ^ 2) (m ^ 2 * wb ^ 4 / (16 * v0)) (eta0 w) (eps1 w) (eps2 w) (deltaQ w).
(* 35-56; cm and ang are conversion factors *)
Definition dw_init (cm ang : R) (self : well) (wb v0 m d : option R) : well :=
  match wb, v0, m, d with
  | Some wb, Some v0, Some m, Some d => barrier self m (wb * cm) (v0 * cm) (d * ang)
  | _, _, _, _ => barrier self (183736223469 / 100000000) (500 * cm) (2085 * cm) 0
  end.
(* 58-79: one number per atom, to which the harmonic energy of all is added *)
Definition dw_one (w : well) (n : nat) (pos : vec) : energy * vec :=
  (map (fun a => wA w * (pos (3 * a)%nat - delta w) ^ 2 + wB w * pos (3 * a)%nat ^ 4
                 + 1 / 2 * wk w * Rsum n (fun b => pos (3 * b + 1)%nat ^ 2)
                 + 1 / 2 * wk w * Rsum n (fun b => pos (3 * b + 2)%nat ^ 2)) (seq 0 n),
   fun c => if Nat.eqb (c mod 3) 0 then - 2 * wA w * (pos c - delta w) - 4 * wB w * pos c ^ 3 else - wk w * pos c).

(* doublewell_with_friction.py 43-72: the attributes are set, and then the
   constructor of the double well is called without them *)
Definition friction_init (cm ang : R) (self : well) (wb v0 m e0 e1 e2 d dQ : R) : well :=
  let self := barrier self m (wb * cm) (v0 * cm) (d * ang) in
  let self := Well (delta self) (wk self) (wA self) (wB self) e0 e1 e2 dQ in
  dw_init cm ang self None None None None.

(* bath.py 53-68 and doublewell_with_friction.py 79-92 *)
Definition SD (e1 e2 dQ q : R) : R := 1 + e1 * exp (- (1 / 2) * (q / dQ) ^ 2) + e2 * tanh (q / dQ).
Definition dSD_dq (e1 e2 dQ q : R) : R :=
  q * (e1 * exp (- (1 / 2) * (q / dQ) ^ 2) * (- (q / dQ) / dQ) + e2 * (1 - tanh (q / dQ) ^ 2) / dQ) + SD e1 e2 dQ q.
Definition coupling (e1 e2 dQ q : R) : R := q * SD e1 e2 dQ q.
(* get_friction_tensor 94-102 *)
Definition friction (w : well) (pos : vec) (i j : nat) : R :=
  if Nat.eqb i 0 && Nat.eqb j 0 then eta0 w * dSD_dq (eps1 w) (eps2 w) (deltaQ w) (pos 0%nat) ^ 2 else 0.

(* ---------------- bath.py ---------------- *)

Record bath := Bath { nbath : nat; bm : R; beta0 : R; be1 : R; be2 : R; bdQ : R; w_c : R }.
(* set_ci_and_wi 33-50, for w_c > 0 *)
Definition omega (b : bath) (i : nat) : R := - w_c b * ln ((INR i + 1 / 2) / INR (nbath b)).
Definition omega2 (b : bath) (i : nat) : R := omega b i ^ 2.
Definition coef (b : bath) (i : nat) : R := omega b i * sqrt (2 * beta0 b * bm b * w_c b / (INR (nbath b) * PI)).
(* compute_structure 70-81 *)
Definition aux (b : bath) (q : R) (x : vec) (i : nat) : R :=
  x i - coef b i * coupling (be1 b) (be2 b) (bdQ b) q / (bm b * omega2 b i).
Definition bath_one (b : bath) (q : R) (x : vec) : R * R * vec :=
  if Rlt_dec 0 (w_c b) then
    (Rsum (nbath b) (fun i => 1 / 2 * bm b * omega2 b i * aux b q x i ^ 2),
     Rsum (nbath b) (fun i => aux b q x i * coef b i * dSD_dq (be1 b) (be2 b) (bdQ b) q),
     fun i => - (bm b * omega2 b i * aux b q x i))
  else (0, 0, fun _ => 0).

(* the attributes of the class, and what calling an instance does *)
Definition bath_class : list string :=
  ["__init__"; "set_ci_and_wi"; "S"; "SD"; "dSD_dq"; "compute_structure"]%string.
Definition call (cls : list string) (b : bath) (q : R) (x : vec) : option (R * R * vec) :=
  if existsb (String.eqb "__call__"%string) cls then Some (bath_one b q x) else None.

(* doublewell_with_bath.py 83-107: the first degree of freedom and the others *)
Definition dw_bath_one (cls : list string) (w : well) (b : bath) (pos : vec) : option (R * vec) :=
  match call cls b (pos 0%nat) (fun i => pos (i + 1)%nat) with
  | None => None
  | Some (pot, fq, fx) =>
      let q := pos 0%nat in
      Some (pot + (wA w * (q - delta w) ^ 2 + wB w * q ^ 4),
            fun c => match c with
                     | O => fq + (- 2 * wA w * (q - delta w) - 4 * wB w * q ^ 3)
                     | Datatypes.S i => fx i
                     end)
  end.
(* doubledoublewell.py 107-148, where the two baths have been made (the
   constructor gets the dictionary as its second argument, and fails);
   the first bath starts at 2, the second at 2 + nbath *)
Definition ddw_one (cls : list string) (C : R) (w1 w2 : well) (b : bath) (pos : vec) : option (R * vec) :=
  let q1 := pos 0%nat in
  let q2 := pos 1%nat in
  let m := nbath b in
  match call cls b q1 (fun i => pos (i + 2)%nat), call cls b q2 (fun i => pos (i + (2 + m))%nat) with
  | Some (p1, f1, fx), Some (p2, f2, fy) =>
      Some (p1 + p2 + (wA w1 * (q1 - delta w1) ^ 2 + wB w1 * q1 ^ 4) + (wA w2 * (q2 - delta w1) ^ 2 + wB w2 * q2 ^ 4) + C * q1 * q2,
            fun c => match c with
                     | 0%nat => f1 + (- 2 * wA w1 * (q1 - delta w1) - 4 * wB w1 * q1 ^ 3) + - C * q2
                     | 1%nat => f2 + (- 2 * wA w2 * (q2 - delta w1) - 4 * wB w2 * q2 ^ 3) + - C * q1
                     | Datatypes.S (Datatypes.S i) => if (i <? m)%nat then fx i else fy (i - m)%nat
                     end)
  | _, _ => None
  end.
(* Harmonic_Bath_explicit(nbath, parameters): of the six arguments after the
   number of baths only the first is given *)
Definition bath_new (given : list string) : bool :=
  forallb (fun a => existsb (String.eqb a) given) ["nbath"; "m"; "eta0"; "eps1"; "eps2"; "deltaQ"; "w_c"]%string.

(* ---------------- spherical_LJ.py ---------------- *)

Record sphere := Sphere { ctr : nat -> R; radius : R; sigma : R; epsilon : R; p1 : nat; p2 : nat }.
Definition dist (s : sphere) (pos : vec) (a : nat) : R := sqrt (Rsum 3 (fun i => (pos (3 * a + i)%nat - ctr s i) ^ 2)).
Definition gap (s : sphere) (pos : vec) (a : nat) : R := radius s - dist s pos a.
Definition chosen (symbols sel : list string) (a : nat) : bool :=
  existsb (String.eqb (nth a symbols ""%string)) sel.
(* 126-199; the energy is summed over the chosen atoms *)
Definition slj_pot (s : sphere) (r : R) : R :=
  epsilon s * (2 / 15 * (sigma s / r) ^ p1 s - (sigma s / r) ^ p2 s).
Definition slj_dU (s : sphere) (r : R) : R :=
  - epsilon s * (- INR (p1 s) * (2 / 15) * sigma s ^ p1 s / r ^ (p1 s + 1) + INR (p2 s) * sigma s ^ p2 s / r ^ (p2 s + 1)).
Definition slj_one (s : sphere) (symbols sel : list string) (n : nat) (pos : vec) : option (R * vec) :=
  if negb (Nat.eqb n (length symbols)) then None
  else Some
    (Rsum n (fun a => if chosen symbols sel a then slj_pot s (gap s pos a) else 0),
     fun c => let a := (c / 3)%nat in
       if chosen symbols sel a then - slj_dU s (gap s pos a) * ((pos c - ctr s (c mod 3)) / dist s pos a) else 0).

(* ---------------- spline.py ---------------- *)

Definition factor_coord : R := 5.
(* 79-100; e is the interpolation of the energy, as a function of
   factor_coord times the first column; one atom *)
Definition spline_one (k : R) (e : R -> R) (pos : vec) : R * vec :=
  let x := factor_coord * pos 0%nat in
  let d := 1 / 1000 in
  (e x + 1 / 2 * k * (pos 1%nat ^ 2 + pos 2%nat ^ 2),
   fun c => match c with 0%nat => - (e (x + d) - e (x - d)) / (2 * d) | _ => - k * pos c end).

(* ---------------- positional arguments ---------------- *)

(* Dummy_driver.__init__ 15-21: the first argument is verbose, the others are
   self.args *)
Definition dummy_args {A} (args : list A) : list A := tl args.
(* driverdipole.py check_parameters 143-160: two file names *)
Definition dipole_files {A} (args : list A) : option (A * A) :=
  match dummy_args args with a :: b :: _ => Some (a, b) | _ => None end.

(* ---------------- tools.py ---------------- *)

(* np.split(value, ptr[1:])[:-1], with the rows of all structures *)
Fixpoint split {A} (natoms : list nat) (rows : list A) : list (list A) :=
  match natoms with
  | nil => []
  | n :: ns => firstn n rows :: split ns (skipn n rows)
  end.
(* StructureResults.store: reshape wants the right number of rows *)
Definition store {A} (natoms : list nat) (rows : list A) : option (list (list A)) :=
  let parts := split natoms rows in
  if forallb (fun p => Nat.eqb (length (snd p)) (fst p)) (combine natoms parts) then Some parts else None.
(* ModelResults.mean: one number per model, the same key of one structure *)
Definition mean (xs : list R) : option R :=
  match xs with nil => None | _ => Some (fold_left Rplus xs 0 / INR (length xs)) end.
