(** * Model of the fixed atoms of the instanton optimisers (ipi/utils/instools.py, class Fix)

    Arrays have a shape and real entries; [a.[i,j,...]] is [at_ a [i; j; ...]].  What numpy
    raises is part of the result. *)
From Coq Require Import List Arith Lia Reals Lra ZArith String Bool.
Import ListNotations.
Open Scope nat_scope.

Inductive res (A : Type) : Type := Val (a : A) | IndexError | ValueError | AttributeError | TypeError | Stop.
Arguments Val {A}. Arguments IndexError {A}. Arguments ValueError {A}.
Arguments AttributeError {A}. Arguments TypeError {A}. Arguments Stop {A}.
Definition bind {A B} (x : res A) (f : A -> res B) : res B :=
  match x with
  | Val a => f a | IndexError => IndexError | ValueError => ValueError
  | AttributeError => AttributeError | TypeError => TypeError | Stop => Stop
  end.
Record arr : Type := Arr { shape : list nat; at_ : list nat -> R }.

(** ** numpy *)
(** Position of an element in a list. *)
Fixpoint index_of (x : nat) (l : list nat) : option nat :=
  match l with [] => None | y :: l' => if x =? y then Some 0 else option_map S (index_of x l') end.
Fixpoint set_nth (n x : nat) (l : list nat) : list nat :=
  match l with [] => [] | y :: l' => match n with O => x :: l' | S n' => y :: set_nth n' x l' end end.
(** [a[:, ..., l]] with [l] at axis [ax]. *)
Definition take (ax : nat) (l : list nat) (a : arr) : res arr :=
  match nth_error (shape a) ax with
  | None => IndexError
  | Some d => if forallb (fun i => i <? d) l
              then Val (Arr (set_nth ax (List.length l) (shape a)) (fun idx => at_ a (set_nth ax (nth (nth ax idx 0) l 0) idx)))
              else IndexError
  end.
(** Broadcasting in an assignment: shapes and indices from the last axis to the first. *)
Fixpoint bc (src tgt : list nat) : bool :=
  match src, tgt with
  | [], _ => true
  | s :: src', t :: tgt' => ((s =? t) || (s =? 1)) && bc src' tgt'
  | s :: src', [] => (s =? 1) && bc src' []
  end.
Fixpoint bidx (src idx : list nat) : list nat :=
  match src, idx with
  | [], _ => []
  | s :: src', i :: idx' => (if s =? 1 then 0 else i) :: bidx src' idx'
  | s :: src', [] => 0 :: bidx src' []
  end.
Definition assignable (v : arr) (tgt : list nat) : bool := bc (rev (shape v)) (rev tgt).
Definition bget (v : arr) (idx : list nat) : R := at_ v (rev (bidx (rev (shape v)) (rev idx))).
(** [v[ii]]. *)
Definition row (v : arr) (ii : nat) : res arr :=
  match shape v with
  | [] => IndexError
  | d :: rest => if ii <? d then Val (Arr rest (fun idx => at_ v (ii :: idx))) else IndexError
  end.
(** [v[:, l0, l1, ...]]. *)
Fixpoint in_range (l sh : list nat) : bool :=
  match l, sh with [], _ => true | i :: l', d :: sh' => (i <? d) && in_range l' sh' | _ :: _, [] => false end.
Definition pick (v : arr) (l : list nat) : res arr :=
  match shape v with
  | [] => IndexError
  | n :: rest => if in_range l rest then Val (Arr (n :: skipn (List.length l) rest)
      (fun idx => match idx with [] => 0%R | b :: idx' => at_ v (b :: l ++ idx') end)) else IndexError
  end.
Fixpoint for_ {S} (l : list nat) (body : nat -> S -> res S) (s : S) : res S :=
  match l with [] => Val s | x :: l' => bind (body x s) (for_ l' body) end.

(** ** class Fix: __init__, lines 311-349 *)
Record fixing : Type := Fixing { natoms : nat; nbeads : nat; fixatoms : list nat;
  mask0 : list nat; mask1 : list nat; mask2 : list nat }.
Definition memb (x : nat) (l : list nat) : bool := existsb (Nat.eqb x) l.
Definition repeat_mask (m : list bool) (n : nat) : list bool := List.concat (repeat m n).
(** numpy's [arange(n)[mask]]. *)
Definition where_ (m : list bool) : list nat := map fst (filter snd (combine (seq 0 (List.length m)) m)).
(** [Stop]: the softexit of line 323.  Atoms out of range make numpy's delete of line 329 fail.
    The sorted distinct quotients of line 321 are read off the range of the atoms. *)
Definition fix_init (N P : nat) (dof : list nat) : res fixing :=
  let atoms := map (fun d => d / 3) dof in
  if negb (List.length dof mod 3 =? 0) then Stop
  else if negb (forallb (fun a => a <? N) atoms) then IndexError
  else
    let fixed := filter (fun a => memb a atoms) (seq 0 N) in
    let m0 := filter (fun a => negb (memb a fixed)) (seq 0 N) in
    let m1 := map (fun c => negb (memb (c / 3) fixed)) (seq 0 (3 * N)) in
    Val (Fixing N P fixed m0 (where_ m1) (where_ (repeat_mask m1 P))).
(** line 340: the number of atoms of fixbeads. *)
Definition fix_natoms (F : fixing) : nat := natoms F - List.length (fixatoms F).
Definition nothing_fixed (F : fixing) : bool := match fixatoms F with [] => true | _ => false end.

(** get_active_vector, lines 468-500 *)
Definition get_active_vector (F : fixing) (v : arr) (t : Z) : res arr :=
  if nothing_fixed F || (t =? -1)%Z then Val v
  else if (t =? 0)%Z then take 0 (mask0 F) v
  else if (t =? 1)%Z then take 1 (mask1 F) v
  else if (t =? 2)%Z then bind (take 0 (mask1 F) v) (take 1 (mask2 F))
  else if (t =? 3)%Z then take 1 (mask2 F) v
  else if (t =? 4)%Z then bind (take 1 (mask1 F) v) (fun a => bind (take 2 (mask1 F) a) (take 3 (mask1 F)))
  else if (t =? 5)%Z then bind (take 1 (mask1 F) v) (take 2 (mask1 F))
  else ValueError.

(** get_full_vector, lines 394-466 *)
(** lines 413-417 *)
Definition full1 (F : fixing) (v : arr) : res arr :=
  if assignable v [nbeads F; List.length (mask1 F)]
  then Val (Arr [nbeads F; 3 * natoms F]
         (fun idx => match idx with
                     | [b; c] => match index_of c (mask1 F) with Some k => bget v [b; k] | None => 0%R end
                     | _ => 0%R end))
  else ValueError.
(** lines 419-427 *)
Definition full2 (F : fixing) (v : arr) : res arr :=
  bind (for_ (mask1 F) (fun i s =>
          let '(ii, acc) := s in
          bind (row v ii) (fun r =>
          if assignable r [List.length (mask2 F)]
          then Val (S ii, fun i' c => if i' =? i then match index_of c (mask2 F) with Some k => bget r [k] | None => acc i' c end else acc i' c)
          else ValueError)) (0, fun _ _ => 0%R))
    (fun s => Val (Arr [3 * natoms F; 3 * natoms F * nbeads F] (fun idx => match idx with [i; c] => snd s i c | _ => 0%R end))).
(** Lines 444-446 and 458-460: one column is written. *)
Definition write (P : nat) (col : arr) (at_i : list nat) (acc : list nat -> R) : res (list nat -> R) :=
  if assignable col [P]
  then Val (fun idx => match idx with
                       | b :: rest => if list_eq_dec Nat.eq_dec rest at_i then bget col [b] else acc idx
                       | [] => acc idx end)
  else ValueError.
(** lines 434-450: the counters jj and kk are never set back. *)
Definition full4 (F : fixing) (v : arr) : res arr :=
  let m := mask1 F in
  bind (for_ m (fun i s =>
      let '(ii, jj, kk, acc) := s in
      bind (for_ m (fun j s =>
          let '(jj, kk, acc) := s in
          bind (for_ m (fun k s =>
              let '(kk, acc) := s in
              bind (pick v [ii; jj; kk]) (fun col => bind (write (nbeads F) col [i; j; k] acc) (fun acc => Val (S kk, acc)))) (kk, acc))
          (fun s => let '(kk, acc) := s in Val (S jj, kk, acc))) (jj, kk, acc))
      (fun s => let '(jj, kk, acc) := s in Val (S ii, jj, kk, acc))) (0, 0, 0, fun _ => 0%R))
    (fun s => Val (Arr [nbeads F; 3 * natoms F; 3 * natoms F; 3 * natoms F] (snd s))).
(** lines 452-463 *)
Definition full5 (F : fixing) (v : arr) : res arr :=
  let m := mask1 F in
  bind (for_ m (fun i s =>
      let '(ii, jj, acc) := s in
      bind (for_ m (fun j s =>
          let '(jj, acc) := s in
          bind (pick v [ii; jj]) (fun col => bind (write (nbeads F) col [i; j] acc) (fun acc => Val (S jj, acc)))) (jj, acc))
      (fun s => let '(jj, acc) := s in Val (S ii, jj, acc))) (0, 0, fun _ => 0%R))
    (fun s => Val (Arr [nbeads F; 3 * natoms F; 3 * natoms F] (snd s))).
(** line 431: the object has no attribute fix.  Type 0 falls to line 466. *)
Definition get_full_vector (F : fixing) (v : arr) (t : Z) : res arr :=
  if nothing_fixed F || (t =? -1)%Z then Val v
  else if (t =? 1)%Z then full1 F v
  else if (t =? 2)%Z then full2 F v
  else if (t =? 3)%Z then AttributeError
  else if (t =? 4)%Z then full4 F v
  else if (t =? 5)%Z then full5 F v
  else ValueError.

(** get_active_array, lines 363-392.  The comparison of line 379 is [key == "hessian" or "eta0"]:
    the second operand is a string, true unless empty. *)
Definition truth (s : string) : bool := negb (String.eqb s "").
Definition array_type (key : string) : res Z :=
  if (String.eqb key "old_u" || String.eqb key "big_step" || String.eqb key "delta" || String.eqb key "energy_shift" || String.eqb key "initial_hessian")%string
  then Val (-1)%Z
  else if (String.eqb key "old_x" || String.eqb key "old_f" || String.eqb key "d")%string then Val 1%Z
  else if (String.eqb key "hessian" || truth "eta0")%string then Val 2%Z
  else if (String.eqb key "qlist" || String.eqb key "glist")%string then Val 3%Z
  else if (String.eqb key "fric_hessian")%string then Val 4%Z
  else ValueError.
Definition get_active_array (F : fixing) (arrays : list (string * arr)) : res (list (string * arr)) :=
  (fix go (l : list (string * arr)) : res (list (string * arr)) :=
     match l with
     | [] => Val []
     | (key, a) :: l' => bind (array_type key) (fun t => bind (get_active_vector F a t) (fun a' => bind (go l') (fun r => Val ((key, a') :: r))))
     end) arrays.
(** ipi/engine/motion/instanton.py, lines 1886-1896: LBFGSOptimizer.post_step writes the arrays
    back. *)
Definition lbfgs_store (F : fixing) (ql gl d : arr) : res (arr * arr * arr) :=
  bind (get_full_vector F ql 3) (fun ql => bind (get_full_vector F gl 3) (fun gl => bind (get_full_vector F d 1) (fun d => Val (ql, gl, d)))).
(** HessianOptimizer.update_hessian, lines 1403-1439: [h] is what get_hessian returns
    (hesstools.py:202: all coordinates) or the active array updated in place. *)
Definition store_hessian (F : fixing) (h : arr) : res arr := get_full_vector F h 2.
