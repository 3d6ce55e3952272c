(** Specification for the dependency network: what a value *should* be, defined without
    any caching. *)
From Coq Require Import List Arith Lia Bool.
From Verif Require Import DependModel.
Import ListNotations.

Section Spec.
Context {V : Type} (N : net V).

(** Value of a node recomputed from scratch from the values last assigned ([base]) and,
    for synchronised nodes, from the representation last assigned ([last]). *)
Inductive den (base : nat -> V) (last : nat -> nat) : nat -> V -> Prop :=
| den_leaf i : kind_of N i = Leaf -> den base last i (base i)
| den_comp i p v : kind_of N i = Comp p -> denp base last p v -> den base last i v
| den_sync_self i g conv : kind_of N i = Sync g conv -> last g = i ->
    den base last i (base i)
| den_sync_other i g conv v : kind_of N i = Sync g conv -> last g <> i ->
    denp base last (conv (last g)) v -> den base last i v
with denp (base : nat -> V) (last : nat -> nat) : prog V -> V -> Prop :=
| denp_ret v : denp base last (Ret v) v
| denp_read j k w v : den base last j w -> denp base last (k w) v ->
    denp base last (Read j k) v.

Scheme den_ind2 := Induction for den Sort Prop
  with denp_ind2 := Induction for denp Sort Prop.

(** The values last assigned by a history (rejected assignments do not count). *)
Fixpoint assigned (ops : list (@op V)) (base : nat -> V) : nat -> V :=
  match ops with
  | [] => base
  | OGet _ :: ops' => assigned ops' base
  | OSet i v :: ops' =>
      assigned ops' (match kind_of N i with Comp _ => base | _ => upd base i v end)
  end.

(** The representation last assigned in each synchronizer. *)
Fixpoint last_set (ops : list (@op V)) (last : nat -> nat) : nat -> nat :=
  match ops with
  | [] => last
  | OGet _ :: ops' => last_set ops' last
  | OSet i v :: ops' =>
      last_set ops' (match kind_of N i with Sync g _ => upd last g i | _ => last end)
  end.

(** [reach s d]: [d] is [s] or a declared dependency, through computed nodes only. *)
Inductive reach (deps : nat -> list nat) : nat -> nat -> Prop :=
| reach_self s : reach deps s s
| reach_dep s p d' d : kind_of N s = Comp p -> In d' (deps s) -> reach deps d' d ->
    reach deps s d.

(** Every execution path of [p] reads only nodes in [ds] (any order, repeats allowed), and
    skips none of them that could need recomputing: a declared node that is not read must
    be a primitive value or a dependency of a node that is read. [seen] are the nodes
    already read. *)
Inductive reads_cover (deps : nat -> list nat) (ds : list nat) : list nat -> prog V -> Prop :=
| re_ret seen v :
    (forall d, In d ds -> kind_of N d = Leaf \/ exists s, In s seen /\ reach deps s d) ->
    reads_cover deps ds seen (Ret v)
| re_read seen j k : In j ds -> (forall v, reads_cover deps ds (j :: seen) (k v)) ->
    reads_cover deps ds seen (Read j k).

(** A well-formed network: every computed node reads only nodes it declares as
    dependencies and covers them (see [reads_cover]), dependencies come earlier in the numbering (acyclic), and [dependants]
    is the inverse of the dependency relation. Synchronised nodes are converted from
    the peer that was last set. *)
Record wf (deps : nat -> list nat) : Prop := {
  wf_comp : forall i p, i < size N -> kind_of N i = Comp p -> reads_cover deps (deps i) [] p;
  wf_deps : forall i d, i < size N -> In d (deps i) -> d < i;
  wf_inv : forall i d, i < size N -> In d (deps i) -> In i (dependants N d);
  wf_dependants : forall d i, d < size N -> In i (dependants N d) ->
      d < i < size N /\ In d (deps i) /\ exists p, kind_of N i = Comp p;
  wf_sync : forall i g conv, i < size N -> kind_of N i = Sync g conv ->
      In i (peers N g) /\
      forall m, In m (peers N g) -> m <> i -> reads_cover deps [m] [] (conv m);
  wf_peers : forall g m, In m (peers N g) ->
      m < size N /\ exists conv, kind_of N m = Sync g conv
}.

(** Weaker reading discipline: [p] reads only nodes in [ds], but may skip some. *)
Inductive reads_only (ds : list nat) : prog V -> Prop :=
| ro_ret v : reads_only ds (Ret v)
| ro_read j k : In j ds -> (forall v, reads_only ds (k v)) -> reads_only ds (Read j k).

(** As [wf], with the weaker discipline for computed nodes. *)
Definition wf_only (deps : nat -> list nat) : Prop :=
  (forall i p, i < size N -> kind_of N i = Comp p -> reads_only (deps i) p) /\
  (forall i d, i < size N -> In d (deps i) -> d < i /\ In i (dependants N d)) /\
  (forall d i, d < size N -> In i (dependants N d) ->
      d < i < size N /\ In d (deps i) /\ exists p, kind_of N i = Comp p) /\
  (forall i g conv, i < size N -> kind_of N i = Sync g conv ->
      In i (peers N g) /\
      forall m, In m (peers N g) -> m <> i -> reads_cover deps [m] [] (conv m)) /\
  (forall g m, In m (peers N g) -> m < size N /\ exists conv, kind_of N m = Sync g conv).

(** [a] is reachable from [i] by following declared dependencies, or a synchronised peer
    of such a node: the nodes whose assignment may legitimately change [i]. *)
Inductive ancestor (deps : nat -> list nat) : nat -> nat -> Prop :=
| anc_self i : ancestor deps i i
| anc_dep i d a : In d (deps i) -> ancestor deps d a -> ancestor deps i a
| anc_peer i g conv a : kind_of N i = Sync g conv -> In a (peers N g) ->
    ancestor deps i a.

(** An operation the user may perform without getting an exception. *)
Definition accepted (o : @op V) : Prop :=
  match o with
  | OGet i => i < size N
  | OSet i _ => i < size N /\ forall p, kind_of N i <> Comp p
  end.

(** The initial manual peer of each synchronizer is one of its members. *)
Definition man_ok (man0 : nat -> nat) : Prop :=
  forall i g conv, i < size N -> kind_of N i = Sync g conv -> In (man0 g) (peers N g).

End Spec.
