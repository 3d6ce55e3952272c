(** Element access to dependent arrays: depend_array.__setitem__ on the array itself and on
    a slice-view of it, and depend_array.reshape (ipi/utils/depend.py:438-508).

    Simplifications: an array is the flat list of its elements; a view is given by the
    position in the parent's buffer of the element that is written (numpy basic slices
    share memory with the parent, depend.py:477-485). *)
From Coq Require Import List Arith Lia Bool.
From Verif Require Import DependModel.
Import ListNotations.

(** [buffer[pos] = a] (the numpy store of depend.py:489). *)
Fixpoint setel {A : Type} (pos : nat) (a : A) (l : list A) : list A :=
  match l, pos with
  | [], _ => []
  | _ :: l', 0 => a :: l'
  | x :: l', S p => x :: setel p a l'
  end.

Section View.
Context {A : Type} (N : net (list A)).

(** depend_array.__setitem__ called on the array object, depend.py:487-494. No refresh
    takes place before the store. *)
Definition setitem (fuel i pos : nat) (a : A) (st : state (list A)) : @res (list A) (state (list A)) :=
  let st1 := put i (setel pos a (cache st i)) st in
  match kind_of N i with
  | Sync g _ =>
      match taint_synchro N fuel i g st1 with
      | None => OutOfFuel
      | Some st2 => match taint_st N fuel i false st2 with
                    | Some st3 => Ok st3 | None => OutOfFuel end
      end
  | Comp _ => NameError st1
  | Leaf => match taint_st N fuel i false st1 with
            | Some st2 => Ok st2 | None => OutOfFuel end
  end.

(** Loop body of _taint_synchro (depend.py:175-184) when [self] is a view: the registry
    [synced] holds the parent object, so [v is self] is never true. *)
Definition taint_peer_v (fuel : nat) (t : nat -> bool) (v : nat) : option (nat -> bool) :=
  if t v then Some t
  else foldo (fun (t : nat -> bool) (j : nat) => if t j then Some t else taint N fuel j true t)
             (dependants N v) (upd t v true).

(** depend_array.__setitem__ called on a slice-view of array [i] (depend.py:487-494 with the
    attributes given to views at 477-485: [_func] is None, [_synchro], [_tainted] and
    [_dependants] are the parent's). *)
Definition setitem_view (fuel i pos : nat) (a : A) (st : state (list A))
  : @res (list A) (state (list A)) :=
  let st1 := put i (setel pos a (cache st i)) st in
  let fin st2 := match taint_st N fuel i false st2 with
                 | Some st3 => Ok st3 | None => OutOfFuel end in
  match kind_of N i with
  | Sync g _ =>
      match foldo (taint_peer_v fuel) (peers N g) (tnt st1) with
      | None => OutOfFuel
      | Some t => fin (mkState (cache st1) t (upd (man st1) g i) (log st1))
      end
  | Comp _ | Leaf => fin st1
  end.

(** depend_array.reshape / flatten (depend.py:438-458): the new object shares the tainted flag
    and has no [_func], so the constructor (116-122) clears the flag if it was set. *)
Definition reshape (fuel i : nat) (st : state (list A)) : option (state (list A)) :=
  if tnt st i then taint_st N fuel i false st else Some st.

End View.
