(** Building a network the way objects are wired in i-PI: each node lists the
    [dependencies] it declares, and registers itself as their dependant. *)
From Coq Require Import List Arith Lia Bool.
From Verif Require Import DependModel DependSpec.
Import ListNotations.

(** Declared dependencies of node [i]. *)
Definition declared {V : Type} (nodes : list (kind V * list nat)) (i : nat) : list nat :=
  snd (nth i nodes (Leaf, [])).

(** The network obtained by constructing the nodes in order; [dependants] is filled by
    add_dependency (depend.py:107-108, 147-153): node [k] is appended to the list of each
    of its declared dependencies. [prs] gives the members of each synchronizer. *)
Definition net_of {V : Type} (nodes : list (kind V * list nat)) (prs : nat -> list nat) : net V :=
  mkNet (length nodes)
        (fun i => fst (nth i nodes (Leaf, [])))
        (fun d => filter (fun k => existsb (Nat.eqb d) (declared nodes k))
                         (seq 0 (length nodes)))
        prs.

Section Wf.
Context {V : Type} (nodes : list (kind V * list nat)) (prs : nat -> list nat).
Let N := net_of nodes prs.

Lemma net_of_wf :
  (forall i, i < length nodes -> declared nodes i <> [] -> exists p, kind_of N i = Comp p) ->
  (forall i d, i < length nodes -> In d (declared nodes i) -> d < i) ->
  (forall i p, i < length nodes -> kind_of N i = Comp p ->
     reads_cover N (declared nodes) (declared nodes i) [] p) ->
  (forall i g conv, i < length nodes -> kind_of N i = Sync g conv ->
     In i (prs g) /\
     forall m, In m (prs g) -> m <> i -> reads_cover N (declared nodes) [m] [] (conv m)) ->
  (forall g m, In m (prs g) -> m < length nodes /\ exists conv, kind_of N m = Sync g conv) ->
  wf N (declared nodes).
Proof.
  intros H1 H2 H3 H4 H5. constructor; cbn [N net_of size dependants peers] in *.
  - exact H3.
  - exact H2.
  - intros i d Hi Hd. apply filter_In. split; [apply in_seq; lia|].
    apply existsb_exists. exists d. split; [exact Hd|apply Nat.eqb_refl].
  - intros d i Hd Hi. apply filter_In in Hi as [Hs He]. apply in_seq in Hs.
    apply existsb_exists in He as (x & Hx & Ex). apply Nat.eqb_eq in Ex. subst x.
    pose proof (H2 i d ltac:(lia) Hx). split; [lia|]. split; [exact Hx|].
    apply H1; [lia|]. intro E. rewrite E in Hx. destruct Hx.
  - exact H4.
  - exact H5.
Qed.
End Wf.
