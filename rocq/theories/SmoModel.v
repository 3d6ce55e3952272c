(** * Model of the inputs of what acts on several systems

    ipi/inputs/smotion/smotion.py, remd.py, metad.py, dmd.py and the constructors and the binding in ipi/engine/smotion.
    Inputs are those of one mode; the fields of the other modes are not looked at. *)
From Coq Require Import List Arith Lia Bool String Reals.
Import ListNotations.
Open Scope list_scope.
Open Scope string_scope.

Inductive smotion := Idle | Exchange (stride : R) (index : list nat) (rescale : bool) (file : string) | Meta (ffs : list string) (energy : bool) | Driven (ffs : list string)
| Several (l : list smotion).
(** InputReplicaExchange 36-69, InputMetaDyn 38-58, InputDMD 39-48 *)
Record remd := Remd { stride : R; krescale : bool; swapfile : string; repindex : list nat }.
Record metad := Metad { metaff : list string; use_energy : bool }.
Record base := Base { mode : string; fremd : remd; fmetad : metad; fdmd : list string }.
Definition empty : base := Base "dummy" (Remd 1 true "remd_idx" []) (Metad [] false) [].
(** InputSmotionBase 49-58 and InputSmotion 118-120: the options are shared by both. *)
Definition options : list string := ["dummy"; "remd"; "metad"; "dmd"] ++ ["multi"].
(** InputSmotionBase.store, lines 74-96; None is ValueError. *)
Definition store_base (s : smotion) : option base :=
  match s with
  | Idle => Some empty
  | Exchange st ix rs f => Some (Base "remd" (Remd st rs f ix) (fmetad empty) [])
  | Meta ffs e => Some (Base "metad" (fremd empty) (Metad ffs e) [])
  | Driven ffs => Some (Base "dmd" (fremd empty) (fmetad empty) ffs)
  | Several _ => None
  end.
(** InputSmotionBase.fetch, lines 98-113, with remd.py 62-81, metad.py 22-32, dmd.py 29-38. *)
Definition fetch_base (i : base) : smotion :=
  if String.eqb (mode i) "remd" then Exchange (stride (fremd i)) (repindex (fremd i)) (krescale (fremd i)) (swapfile (fremd i))
  else if String.eqb (mode i) "metad" then Meta (metaff (fmetad i)) (use_energy (fmetad i))
  else if String.eqb (mode i) "dmd" then Driven (fdmd i)
  else Idle.
Fixpoint collect {A B} (f : A -> option B) (l : list A) : option (list B) :=
  match l with [] => Some [] | a :: r => match f a, collect f r with Some b, Some bs => Some (b :: bs) | _, _ => None end end.
(** InputSmotion, lines 115-154. *)
Definition store (s : smotion) : option (base * list base) :=
  match s with
  | Several l => match collect store_base l with Some is => Some (Base "multi" (fremd empty) (fmetad empty) [], is) | None => None end
  | _ => match store_base s with Some i => Some (i, []) | None => None end
  end.
Definition fetch (i : base * list base) : smotion :=
  if String.eqb (mode (fst i)) "multi" then Several (map fetch_base (snd i)) else fetch_base (fst i).

(** ** ReplicaExchange.bind, remd.py 83-92: the indices of [n] systems; None is ValueError. *)
Definition bind_index (n : nat) (ix : list nat) : option (list nat) :=
  if (List.length ix =? 0)%nat then Some (seq 0 n) else if (n =? List.length ix)%nat then Some ix else None.

(** ** MetaDyn.bind, metad.py 34-57, and DMD.step, dmd.py 40-54: the force fields of the biases of a system that are updated.
    [has] tells whether a force field has the interface; None is ValueError. *)
Fixpoint updated (named : list string) (has : string -> bool) (biases : list string) : option (list string) :=
  match biases with
  | [] => Some []
  | k :: r => if existsb (String.eqb k) named then (if has k then match updated named has r with Some u => Some (k :: u) | None => None end else None) else updated named has r
  end.
