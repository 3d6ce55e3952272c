(** * Adding up force components and multiple-time-step levels

    /repo/ipi/engine/forces.py: MTSForces 605-705 (get_forces_mts 660-682, get_vir_mts 684-686,
    get_virs_mts 688-705), Forces.get_vir 1191-1203, *_component 1205-1258, get_nmtslevels
    1447-1456, f_combine 1458-1473, pot_combine 1487-1501, vir_combine 1558-1573; binding of
    the levels 870-871.

    A component carries its weight, its weights per level, its number of (contracted) beads and
    the arrays its ForceComponent holds: forces (beads x 3 natoms), potentials (beads), virials
    (beads x 9, the 3x3 matrix flattened). Expansion to the full ring is [rescale_b2tob1] of area
    NM; [n]: beads of the full ring, [open]: open paths.

    Simplifications: real numbers instead of floating point; the arrays of the components are
    given (their freshness is area Bead). *)

From Coq Require Import List Reals Arith Bool.
From Verif Require Import RSum NMModel.
Import ListNotations.
Open Scope R_scope.

Inductive res (A : Type) := Ok (a : A) | IndexError | ValueError.
Arguments Ok {A} _. Arguments IndexError {A}. Arguments ValueError {A}.
Definition bind {A B} (x : res A) (f : A -> res B) : res B :=
  match x with Ok a => f a | IndexError => IndexError | ValueError => ValueError end.

Record comp := mkC { weight : R; mts_weights : list R; nb : nat; cf : mat; cpots : nat -> R; cvirs : mat }.

(** [x != 0] *)
Definition nz (x : R) : bool := if Req_EM_T x 0 then false else true.
Definition zeros : mat := fun _ _ => 0.
(** [acc += s * m] *)
Definition addto (acc : mat) (s : R) (m : mat) : mat := fun b k => acc b k + s * m b k.

(** mrpc[k].b2tob1 of the forces (a two-dimensional array) and of potentials and virials. *)
Definition expand_f (n : nat) (open : list nat) (c : comp) : mat := rescale_b2tob1 n (nb c) open true (cf c).
Definition expand_p (n : nat) (open : list nat) (c : comp) : mat := rescale_b2tob1 n (nb c) open false (fun b _ => cpots c b).
Definition expand_v (n : nat) (open : list nat) (c : comp) : mat := rescale_b2tob1 n (nb c) open false (cvirs c).

(** 1447-1456. *)
Definition get_nmtslevels (cs : list comp) : res nat :=
  match cs with
  | [] => IndexError
  | c0 :: _ => let nm := length (mts_weights c0) in
      if forallb (fun c => length (mts_weights c) =? nm)%nat cs then Ok nm else ValueError
  end.

(** The loop of f_combine (1463-1473), pot_combine (1491-1501) and vir_combine (1562-1573). *)
Definition combine_step (ex : comp -> mat) (acc : mat) (c : comp) : mat :=
  if nz (weight c) then addto acc (weight c * Rsuml (mts_weights c)) (ex c) else acc.
Definition combine (ex : comp -> mat) (cs : list comp) : mat := fold_left (combine_step ex) cs zeros.
Definition f_combine n open cs : mat := combine (expand_f n open) cs.
Definition pot_combine n open cs : nat -> R := fun b => combine (expand_p n open) cs b 0%nat.
Definition vir_combine n open cs : mat := combine (expand_v n open) cs.
(** 836 (pot), 1191-1203. *)
Definition pot n open cs : R := Rsum n (pot_combine n open cs).
Definition vir n open cs : nat -> R := fun k => Rsum n (fun b => vir_combine n open cs b k).

(** 668-681 with the test of 673-675. A missing entry of mts_weights is an IndexError; it can
    be reached only through the first alternative of the test. *)
Definition at_level (c : comp) (level : nat) : bool :=
  match nth_error (mts_weights c) level with Some w => nz w && nz (weight c) | None => false end.
Definition mts_step_f n open (level : nat) (acc : res mat) (c : comp) : res mat :=
  bind acc (fun acc =>
    if ((length (mts_weights c) =? 0)%nat && (level =? 0)%nat) || at_level c level
    then match nth_error (mts_weights c) level with
         | Some w => Ok (addto acc (weight c * w) (expand_f n open c))
         | None => IndexError
         end
    else Ok acc).
Definition get_forces_mts n open cs level : res mat := fold_left (mts_step_f n open level) cs (Ok zeros).
(** 694-704 *)
Definition mts_step_v n open (level : nat) (acc : mat) (c : comp) : mat :=
  if at_level c level
  then match nth_error (mts_weights c) level with
       | Some w => addto acc (weight c * w) (expand_v n open c)
       | None => acc
       end
  else acc.
Definition get_virs_mts n open cs level : mat := fold_left (mts_step_v n open level) cs zeros.
Definition get_vir_mts n open cs level : nat -> R := fun k => Rsum n (fun b => get_virs_mts n open cs level b k).
(** 870-871: range(self.nmtslevels) levels. *)
Definition all_levels n open cs : res (list mat) :=
  bind (get_nmtslevels cs) (fun nm =>
    fold_left (fun acc l => bind acc (fun ms => bind (get_forces_mts n open cs l) (fun m => Ok (ms ++ [m]))))
      (seq 0 nm) (Ok [])).

(** 1205-1258 with interpolate=True. *)
Definition component (weighted : bool) (c : comp) (ex : mat) : mat :=
  if weighted && negb (nz (weight c)) then zeros
  else fun b k => (if weighted then weight c else 1) * ex b k.
Definition forces_component (weighted : bool) n open (c : comp) : mat := component weighted c (expand_f n open c).
Definition pots_component (weighted : bool) n open (c : comp) : nat -> R := fun b => component weighted c (expand_p n open c) b 0%nat.
Definition virs_component (weighted : bool) n open (c : comp) : mat := component weighted c (expand_v n open c).
