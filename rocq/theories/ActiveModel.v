(** * Restricting a force field to some atoms

    /repo/ipi/engine/forcefields.py:166-199 (ForceField.queue) and
    /repo/ipi/interfaces/sockets.py:535, 553-560 (dispatch), 605-614, 645-658
    (dispatch_send/recv), 807-813, 839-852 (batches; the same per structure).

    Arrays are lists of values [V] (coordinates or force components); indices are
    integers with numpy's meaning of negative ones. Not modelled: folding into
    the cell (dopbc), the energy offset, the batch padding (area Sock). *)

From Coq Require Import List ZArith Lia Bool.
Import ListNotations.
Open Scope Z_scope.

Inductive res (A : Type) := Ok (a : A) | ValueError | IndexError.
Arguments Ok {A} _.
Arguments ValueError {A}.
Arguments IndexError {A}.
Definition bind {A B} (r : res A) (f : A -> res B) : res B :=
  match r with Ok a => f a | ValueError => ValueError | IndexError => IndexError end.

Section Active.
Context {V : Type}.
Variable zero : V.

(** numpy's normalisation of an index into an array of [len] elements. *)
Definition norm (len : nat) (i : Z) : option nat :=
  if (0 <=? i) && (i <? Z.of_nat len) then Some (Z.to_nat i)
  else if (- Z.of_nat len <=? i) && (i <? 0) then Some (Z.to_nat (i + Z.of_nat len))
  else None.

(** [a[idx]] for an integer array [idx]. *)
Fixpoint take (a : list V) (idx : list Z) : res (list V) :=
  match idx with
  | [] => Ok []
  | i :: idx' =>
      match norm (length a) i with
      | Some n => bind (take a idx') (fun l => Ok (nth n a zero :: l))
      | None => IndexError
      end
  end.
(** [a[idx] = vals] (equal lengths, else ValueError); later entries win. *)
Fixpoint setnth (n : nat) (v : V) (a : list V) : list V :=
  match a, n with
  | [], _ => []
  | _ :: a', O => v :: a'
  | x :: a', S n' => x :: setnth n' v a'
  end.
Fixpoint put (idx : list Z) (vals a : list V) : res (list V) :=
  match idx, vals with
  | [], [] => Ok a
  | i :: idx', v :: vals' =>
      match norm (length a) i with
      | Some n => put idx' vals' (setnth n v a)
      | None => IndexError
      end
  | _, _ => ValueError
  end.

(** forcefields.py:172-178. *)
Definition coord (n : Z) : list Z := [3 * n; 3 * n + 1; 3 * n + 2].
(** forcefields.py:170-184; [active[0]] of an empty array is an IndexError. *)
Definition activehere (active : list Z) (len : nat) : res (list Z) :=
  match active with
  | [] => IndexError
  | a0 :: _ =>
      let idx := if a0 =? -1 then map Z.of_nat (seq 0 len) else flat_map coord active in
      if (length idx =? 0)%nat then IndexError (* activehere[-1] *)
      else if (len <? length idx)%nat || (Z.of_nat len - 1 <? last idx 0) then ValueError
      else Ok idx
  end.

(** The force field: [iactive] is computed on the first call and kept. *)
Record fld := mkF { active : list Z; iactive : option (list Z) }.
Record request := mkR { pos : list V; act : list Z }.
(** forcefields.py:166-199. *)
Definition queue (f : fld) (p : list V) : res (request * fld) :=
  match iactive f with
  | Some idx => Ok (mkR p idx, f)
  | None => bind (activehere (active f) (length p))
                 (fun idx => Ok (mkR p idx, mkF (active f) (Some idx)))
  end.
(** sockets.py:605: what is sent. *)
Definition send (r : request) : res (list V) := take (pos r) (act r).
(** sockets.py:645-658: what becomes of the forces of the driver. *)
Definition recv (r : request) (fs : list V) : res (list V) :=
  if (length (act r) =? length (pos r))%nat then Ok fs
  else put (act r) fs (repeat zero (length (pos r))).

(** One evaluation with a driver [drv] acting on coordinate lists. *)
Definition evaluate (drv : list V -> list V) (f : fld) (p : list V) : res (list V * list V) :=
  bind (queue f p) (fun rf =>
    bind (send (fst rf)) (fun x =>
      bind (recv (fst rf) (drv x)) (fun fs => Ok (x, fs)))).
End Active.
