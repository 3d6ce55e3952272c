(** Model of the stabilised Cholesky decomposition (ipi/utils/mathtools.py).
    Matrices are functions of two indices; the assignments of the code are
    updates of such functions.  Floating point numbers are idealised as reals. *)
Require Import Reals List Arith Lia.
From Verif Require Import RSum.
Import ListNotations.
Local Open Scope R_scope.

Definition mat := nat -> nat -> R.
Definition upd (D : nat -> R) (i : nat) (v : R) : nat -> R := fun a => if Nat.eqb a i then v else D a.
Definition upd2 (L : mat) (i j : nat) (v : R) : mat := fun a b => if Nat.eqb a i then if Nat.eqb b j then v else L a b else L a b.

(** mathtools.py:117-120, the statement inside the loops over j and k:
    L[i, j] -= L[i, k] * L[j, k] * D[k] for k in range(m) *)
Definition chol_sub (D : nat -> R) (i j m : nat) (L : mat) : mat :=
  fold_left (fun L k => upd2 L i j (L i j - L i k * L j k * D k)) (seq 0 m) L.
(** mathtools.py:118-122, one turn of the loop over j *)
Definition chol_entry (M : mat) (D : nat -> R) (i : nat) (L : mat) (j : nat) : mat :=
  let L1 := upd2 L i j (M i j) in
  let L2 := chol_sub D i j j L1 in
  if Req_EM_T (D j) 0 then L2 else upd2 L2 i j (L2 i j / D j).
(** mathtools.py:123-125, D[i] = M[i, i] and the loop over k *)
Definition chol_pivot (M L : mat) (i m : nat) (D : nat -> R) : nat -> R :=
  fold_left (fun D k => upd D i (D i - L i k * L i k * D k)) (seq 0 m) (upd D i (M i i)).
(** mathtools.py:116-125, one turn of the loop over i *)
Definition chol_row (M : mat) (LD : mat * (nat -> R)) (i : nat) : mat * (nat -> R) :=
  let '(L, D) := LD in
  let L1 := upd2 L i i 1 in
  let L2 := fold_left (chol_entry M D i) (seq 0 i) L1 in
  (L2, chol_pivot M L2 i i D).
(** mathtools.py:113-125 *)
Definition chol_ld (n : nat) (M : mat) : mat * (nat -> R) :=
  fold_left (chol_row M) (seq 0 n) ((fun _ _ => 0), (fun _ => 0)).
(** mathtools.py:128-141, one turn of the second loop; the third component is
    negev, which only decides whether a warning is printed *)
Definition chol_sqrt (L : mat) (st : mat * (nat -> R) * bool) (i : nat) : mat * (nat -> R) * bool :=
  let '(SM, D, negev) := st in
  let '(D1, neg) := if Rlt_dec 0 (D i) then (upd D i (sqrt (D i)), negev) else (upd D i 0, true) in
  (fold_left (fun SM j => upd2 SM i j (SM i j + L i j * D1 j)) (seq 0 (i + 1)) SM, D1, neg).
(** stab_cholesky (94-150) *)
Definition stab_cholesky_full (n : nat) (M : mat) : mat * (nat -> R) * bool :=
  let '(L, D) := chol_ld n M in
  fold_left (chol_sqrt L) (seq 0 n) ((fun _ _ => 0), D, false).
Definition stab_cholesky (n : nat) (M : mat) : mat := fst (fst (stab_cholesky_full n M)).
Definition warned (n : nat) (M : mat) : bool := snd (stab_cholesky_full n M).
