(** Model of the dependency network of ipi/utils/depend.py.

    Simplifications, common to the whole file:
    - nodes are numbered; python object references become numbers;
    - one thread only: the re-entrant locks (depend.py:100,232,263,504) are dropped;
    - weak references never die (depend.py:159-160 and 180-182 skip dead ones);
    - node values are an abstract type [V]; python functions are programs that
      read other nodes and finally return a value. *)
From Coq Require Import List Arith Lia Bool.
Import ListNotations.

(** A python function stored in [_func] (depend.py:72-73): it may read other depend
    objects, one at a time, and what it reads next may depend on what it has read. *)
Inductive prog (V : Type) : Type :=
| Ret (v : V)
| Read (j : nat) (k : V -> prog V).
Arguments Ret {V} v.
Arguments Read {V} j k.

(** What kind of depend object a node is (depend.py:81-122):
    - [Leaf]: [_func is None], no synchronizer;
    - [Comp p]: [_func = p], no synchronizer;
    - [Sync g conv]: member of synchronizer [g]; [_func] is the dictionary [conv],
      keyed by the peer that was set manually (depend.py:189-197). *)
Inductive kind (V : Type) : Type :=
| Leaf
| Comp (p : prog V)
| Sync (g : nat) (conv : nat -> prog V).
Arguments Leaf {V}.
Arguments Comp {V} p.
Arguments Sync {V} g conv.

(** The static part of a network: [_dependants] (depend.py:101,114,150-151), kinds, and
    the registry [synchronizer.synced] (depend.py:62-64) of each synchronizer. *)
Record net (V : Type) : Type := mkNet {
  size : nat;
  kind_of : nat -> kind V;
  dependants : nat -> list nat;
  peers : nat -> list nat
}.
Arguments mkNet {V}.
Arguments size {V}.
Arguments kind_of {V}.
Arguments dependants {V}.
Arguments peers {V}.

(** The mutable part: [_value], [_tainted[0]], [synchronizer.manual]; [log] is a ghost
    list of the nodes whose function has been called, most recent first. *)
Record state (V : Type) : Type := mkState {
  cache : nat -> V;
  tnt : nat -> bool;
  man : nat -> nat;
  log : list nat
}.
Arguments mkState {V}.
Arguments cache {V}.
Arguments tnt {V}.
Arguments man {V}.
Arguments log {V}.

(** Function update, used for attribute assignment. *)
Definition upd {A : Type} (f : nat -> A) (i : nat) (a : A) : nat -> A :=
  fun j => if Nat.eqb j i then a else f j.

(** Iterate a partial function over a list (a python [for] loop that may fail only
    because the model ran out of fuel). *)
Fixpoint foldo {A B : Type} (f : A -> B -> option A) (l : list B) (a : A) : option A :=
  match l with
  | [] => Some a
  | b :: l' => match f a b with Some a' => foldo f l' a' | None => None end
  end.

Section Net.
Context {V : Type} (N : net V).

(** depend_base.taint, depend.py:155-163. Fuel bounds the recursion depth
    ([None] = out of fuel; never happens on acyclic networks, see DependProofs.v). *)
Fixpoint taint (fuel : nat) (i : nat) (taintme : bool) (t : nat -> bool)
  : option (nat -> bool) :=
  match fuel with
  | 0 => None
  | S f =>
      match foldo (fun (t : nat -> bool) (j : nat) => if t j then Some t else taint f j true t)
                  (dependants N i) t with
      | Some t' => Some (upd t' i taintme)
      | None => None
      end
  end.

(** Body of the loop of depend_base._taint_synchro for one peer [v], depend.py:175-184. *)
Definition taint_peer (fuel : nat) (self : nat) (t : nat -> bool) (v : nat)
  : option (nat -> bool) :=
  if Nat.eqb v self || t v then Some t
  else foldo (fun (t : nat -> bool) (j : nat) => if t j then Some t else taint fuel j true t)
             (dependants N v) (upd t v true).

(** depend_base._taint_synchro, depend.py:165-184. *)
Definition taint_synchro (fuel : nat) (self g : nat) (st : state V) : option (state V) :=
  match foldo (taint_peer fuel self) (peers N g) (tnt st) with
  | Some t => Some (mkState (cache st) t (upd (man st) g self) (log st))
  | None => None
  end.

(** [self.taint(taintme)] as a state change. *)
Definition taint_st (fuel i : nat) (me : bool) (st : state V) : option (state V) :=
  match taint fuel i me (tnt st) with
  | Some t => Some (mkState (cache st) t (man st) (log st))
  | None => None
  end.

(** The assignment [self._value = value] (depend.py:264, 505). *)
Definition put (i : nat) (v : V) (st : state V) : state V :=
  mkState (upd (cache st) i v) (tnt st) (man st) (log st).

(** depend_value.set / depend_array.set with [manual=False], as called by update_auto
    (depend.py:262-267, 496-508). *)
Definition set_auto (fuel i : nat) (v : V) (st : state V) : option (state V) :=
  taint_st fuel i false (put i v st).

(** Result of a python call: out of fuel (model artefact), NameError, or normal. *)
Inductive res (A : Type) : Type := OutOfFuel | NameError (st : state V) | Ok (a : A).
Arguments OutOfFuel {A}.
Arguments NameError {A} st.
Arguments Ok {A} a.

(** Manual set: depend_value.set (depend.py:262-267), depend_array.set (496-508); the
    value is written first, then update_man (209-220) may raise NameError, then taint. *)
Definition set_man (fuel i : nat) (v : V) (st : state V) : res (state V) :=
  let st1 := put i v st in
  match kind_of N i with
  | Sync g _ =>
      match taint_synchro fuel i g st1 with
      | None => OutOfFuel
      | Some st2 => match taint_st fuel i false st2 with
                    | Some st3 => Ok st3 | None => OutOfFuel end
      end
  | Comp _ => NameError st1
  | Leaf => match taint_st fuel i false st1 with
            | Some st2 => Ok st2 | None => OutOfFuel end
  end.

(** Running a function body given a way of reading nodes. *)
Fixpoint run (rd : nat -> state V -> option (V * state V)) (p : prog V) (st : state V)
  : option (V * state V) :=
  match p with
  | Ret v => Some (v, st)
  | Read j k => match rd j st with
                | Some (v, st') => run rd (k v) st'
                | None => None
                end
  end.

(** Record in the ghost log that the function of node [i] was called. *)
Definition tick (i : nat) (st : state V) : state V :=
  mkState (cache st) (tnt st) (man st) (i :: log st).

(** depend_value.__get__ / depend_array.get (depend.py:257-260, 510-513), with
    _refresh (228-235) and update_auto (189-207) inlined. [tf] is the fuel given to
    the taint walks. *)
Fixpoint get (tf : nat) (fuel : nat) (i : nat) (st : state V) : option (V * state V) :=
  match fuel with
  | 0 => None
  | S f =>
      if tnt st i then
        let after :=
          match kind_of N i with
          | Comp p =>
              match run (get tf f) p (tick i st) with
              | Some (v, st1) => set_auto tf i v st1
              | None => None
              end
          | Sync g conv =>
              if Nat.eqb i (man st g) then Some st
              else match run (get tf f) (conv (man st g)) (tick i st) with
                   | Some (v, st1) => set_auto tf i v st1
                   | None => None
                   end
          | Leaf => Some st
          end in
        match after with
        | Some st2 => match taint_st tf i false st2 with
                      | Some st3 => Some (cache st3 i, st3)
                      | None => None
                      end
        | None => None
        end
      else Some (cache st i, st)
  end.

(** A user-level history: reads and manual writes. *)
Inductive op := OGet (i : nat) | OSet (i : nat) (v : V).

(** One step of a history; a NameError is caught by the user and the run goes on. *)
Definition step (fuel : nat) (o : op) (st : state V) : option (state V) :=
  match o with
  | OGet i => match get fuel fuel i st with Some (_, st') => Some st' | None => None end
  | OSet i v => match set_man fuel i v st with
                | Ok st' => Some st'
                | NameError st' => Some st'
                | OutOfFuel => None
                end
  end.

(** A whole history. *)
Definition steps (fuel : nat) (ops : list op) (st : state V) : option (state V) :=
  foldo (fun st o => step fuel o st) ops st.

(** State after construction of the objects (depend.py:116-122): primitive values
    untainted, computed values tainted. For a synchronizer the last registered peer is
    [manual] (depend.py:143-145) and the peers with a [_func] start tainted. As in
    NormalModes/Beads the manual peer is a fully initialised array. *)
Definition init_state (v0 : nat -> V) (man0 : nat -> nat) : state V :=
  mkState v0
    (fun i => match kind_of N i with
              | Leaf => false
              | Comp _ => true
              | Sync g _ => negb (Nat.eqb i (man0 g))
              end)
    man0 [].

End Net.
Arguments OutOfFuel {V A}.
Arguments NameError {V A} st.
Arguments Ok {V A} a.
Arguments OGet {V} i.
Arguments OSet {V} i v.
