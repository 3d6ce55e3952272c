(** * The dependency network of the beads and atoms

    /repo/ipi/engine/beads.py: Beads.resize 70-166 (dependency lists), m3tosm3 187-190, mtom3
    192-205, get_qc 207-211, get_pc 213-217, kin_gather 219-226, get_kin 228-238, get_kstress 240-253,
    get_vpath 255-275, get_fpath 277-302, dproperties 349-365; /repo/ipi/engine/atoms.py: Atoms.__init__
    100-142, get_msum 220-223, mtom3 225-238, get_kin 240-244, get_kstress 246-264;
    /repo/ipi/utils/depend.py: dproperties 732-741.

    The beads (objects of class Atoms on slices of the arrays, area DependView) are one node per
    quantity; the numerical functions are parameters. *)
From Coq Require Import String List Arith Lia Bool ZArith.
From Verif Require Import DependModel DependSpec DependProofs NetBuild DependThms DependViewModel DependInstances.
Import ListNotations.
Local Open Scope nat_scope.

Section Net.
Context {V : Type}.
Variables (fm3 fsm3 fqc fpc fM : V -> V) (fvpath fkinb fksb : V -> V -> V) (fks : V -> V).
Definition y_m := 0. Definition y_q := 1. Definition y_p := 2. Definition y_m3 := 3. Definition y_sm3 := 4.
Definition y_qc := 5. Definition y_pc := 6. Definition y_vpath := 7. Definition y_bm3 := 8. Definition y_bM := 9.
Definition y_bkin := 10. Definition y_bks := 11. Definition y_ks := 12.

Definition one (i : nat) (f : V -> V) : kind V := Comp (Read i (fun x => Ret (f x))).
Definition two (i j : nat) (f : V -> V -> V) : kind V := Comp (Read i (fun x => Read j (fun y => Ret (f x y)))).
(** All quantities of Beads and of its beads but fpath (below), kins and kin (below). *)
Definition beads_nodes : list (kind V * list nat) :=
  [ (Leaf, []); (Leaf, []); (Leaf, []);
    (one y_m fm3, [y_m]);
    (one y_m3 fsm3, [y_m3]);
    (one y_q fqc, [y_q]);
    (one y_p fpc, [y_p]);
    (two y_q y_m3 fvpath, [y_q; y_m3]);
    (one y_m fm3, [y_m]);
    (one y_m fM, [y_m]);
    (two y_p y_bm3 fkinb, [y_p; y_bm3]);
    (two y_p y_m fksb, [y_p; y_m]);
    (one y_bks fks, [y_bks]) ].
Definition beads_net : net V := net_of beads_nodes (fun _ => []).

Ltac yu := unfold y_m, y_q, y_p, y_m3, y_sm3, y_qc, y_pc, y_vpath, y_bm3, y_bM, y_bkin, y_bks, y_ks in *.
Lemma beads_wf : wf beads_net (declared beads_nodes).
Proof.
  apply net_of_wf.
  - intros i Hi. simpl length in Hi. cases_lt Hi; cbn; intro H; first [now contradiction H | eexists; reflexivity].
  - intros i d Hi. simpl length in Hi. cases_lt Hi; cbn; yu; intuition lia.
  - intros i p Hi. simpl length in Hi. cases_lt Hi; cbn; intro H; try discriminate; injection H as <-;
    repeat (apply re_read; [cbn; tauto|intro]);
    apply re_ret; cbn; intros d Hd; repeat (destruct Hd as [<-|Hd]; [|]); try contradiction;
    try (left; reflexivity); right;
    (match goal with |- exists s, _ /\ reach _ _ s ?d => exists d end; split; [cbn; tauto|apply reach_self]).
  - intros i g conv Hi. simpl length in Hi. cases_lt Hi; cbn; discriminate.
  - intros g m [].
Qed.

Ltac dens := repeat first
  [ apply den_leaf; reflexivity
  | eapply den_comp; [reflexivity|]
  | eapply denp_read
  | apply denp_ret ].

(** After any sequence of assignments and reads, the mass arrays, centroids, total masses, kinetic
    energies and stresses of the beads and the spring potential are those of the masses,
    positions and momenta assigned last. *)
Theorem beads_follow v0 ops F : Forall (accepted beads_net) ops -> 15 <= F ->
  let b := assigned beads_net ops v0 in
  let R i := read_after beads_net v0 (fun _ => 0) F ops i in
  R y_m3 = Some (fm3 (b y_m)) /\ R y_sm3 = Some (fsm3 (fm3 (b y_m))) /\ R y_qc = Some (fqc (b y_q)) /\
  R y_pc = Some (fpc (b y_p)) /\ R y_vpath = Some (fvpath (b y_q) (fm3 (b y_m))) /\ R y_bm3 = Some (fm3 (b y_m)) /\
  R y_bM = Some (fM (b y_m)) /\ R y_bkin = Some (fkinb (b y_p) (fm3 (b y_m))) /\
  R y_bks = Some (fksb (b y_p) (b y_m)) /\ R y_ks = Some (fks (fksb (b y_p) (b y_m))).
Proof.
  intros Ha HF b.
  assert (HM : man_ok beads_net (fun _ => 0)).
  { intros i g conv Hi Hk. exfalso. simpl in Hi. do 13 (destruct i as [|i]; [discriminate Hk|]). lia. }
  assert (R : forall i v, i < 13 -> den beads_net b (last_set beads_net ops (fun _ => 0)) i v ->
              read_after beads_net v0 (fun _ => 0) F ops i = Some v).
  { intros i v Hi Hd. unfold read_after.
    destruct (read_fresh beads_net _ beads_wf v0 (fun _ => 0) F HM HF ops i Ha Hi) as (st & w & st' & E1 & E2 & _ & U).
    rewrite E1, E2. f_equal. symmetry. now apply U. }
  cbv zeta. repeat split; (apply R; [yu; lia|dens]).
Qed.
End Net.
Print Assumptions beads_follow.

Example beads_follow_case :
  let N := @beads_net Z (Z.mul 3) Z.opp Z.succ Z.pred Z.double Z.add Z.mul Z.sub (Z.mul 5) in
  let ops := [OSet y_m 2%Z; OGet y_vpath; OSet y_m 4%Z; OGet y_ks; OSet y_p 7%Z; OSet y_q 9%Z] in
  Forall (accepted N) ops /\
  read_after N (fun _ => 1%Z) (fun _ => 0) 15 ops y_vpath = Some 21%Z /\
  read_after N (fun _ => 1%Z) (fun _ => 0) 15 ops y_bkin = Some 84%Z /\
  read_after N (fun _ => 1%Z) (fun _ => 0) 15 ops y_ks = Some 15%Z.
Proof. split; [repeat constructor; cbn; try lia; discriminate|repeat split; vm_compute; reflexivity]. Qed.

(** ** The spring force

    get_fpath reads q and m3 (beads.py:289-290); _fpath declares q only (137-142), unlike _vpath
    (134-136). Nodes: 0 masses, 1 positions, 2 m3, 3 fpath, 4 the same with the dependencies of
    vpath. The force of two beads a distance [q] apart has the size [m q]. *)
Definition spring_nodes : list (kind Z * list nat) :=
  [ (Leaf, []); (Leaf, []);
    (one 0 (fun m => m), [0]);
    (two 1 2 (fun q m => (m * q)%Z), [1]);
    (two 1 2 (fun q m => (m * q)%Z), [1; 2]) ].
Definition spring_net : net Z := net_of spring_nodes (fun _ => []).
(** After a change of the masses fpath is still that of the masses before, until the positions
    change. *)
Theorem fpath_follows_masses_refuted :
  exists ops v w, Forall (accepted spring_net) ops /\
    read_after spring_net (fun _ => 1%Z) (fun _ => 0) 7 ops 3 = Some v /\
    read_after spring_net (fun _ => 1%Z) (fun _ => 0) 7 ops 4 = Some w /\
    den spring_net (assigned spring_net ops (fun _ => 1%Z)) (last_set spring_net ops (fun _ => 0)) 3 w /\ v <> w.
Proof.
  exists [OSet 1 3%Z; OSet 0 2%Z; OGet 3; OSet 0 5%Z], 6%Z, 15%Z.
  split; [repeat constructor; cbn; try lia; discriminate|]. split; [vm_compute; reflexivity|].
  split; [vm_compute; reflexivity|]. split; [|discriminate].
  eapply den_comp; [reflexivity|]. eapply denp_read with (w := 3%Z); [eapply den_leaf_eq; reflexivity|].
  eapply denp_read with (w := 5%Z); [|apply denp_ret].
  eapply den_comp; [reflexivity|]. eapply denp_read with (w := 5%Z); [eapply den_leaf_eq; reflexivity|apply denp_ret].
Qed.
Print Assumptions fpath_follows_masses_refuted.

(** ** Attributes read by the functions

    An object has the attributes assigned in its constructor, the methods of its class, and the
    properties added by dproperties (depend.py:732-741), which read the attribute with an
    underscore. Reading anything else is an AttributeError. *)
Local Open Scope string_scope.
Record cls := { assigned_attrs : list string; methods : list string; properties : list string }.
Definition mem (x : string) (l : list string) : bool := existsb (String.eqb x) l.
Definition has (c : cls) (a : string) : bool :=
  mem a (assigned_attrs c) || mem a (methods c) || (mem a (properties c) && mem ("_" ++ a) (assigned_attrs c)).
(** beads.py:87-166, 168-347, 349-365. *)
Definition beads_cls : cls :=
  {| assigned_attrs := ["natoms"; "nbeads"; "_names"; "_m"; "_m3"; "_sm3"; "_q"; "_p"; "_qc"; "_pc"; "_vpath"; "_fpath";
       "_blist"; "_kins"; "_kin"; "_kstress"];
     methods := ["resize"; "clone"; "m3tosm3"; "mtom3"; "get_qc"; "get_pc"; "kin_gather"; "get_kin"; "get_kstress"; "get_vpath";
       "get_fpath"; "__len__"; "__getitem__"; "__setitem__"];
     properties := ["p"; "q"; "pc"; "qc"; "m"; "m3"; "names"; "sm3"; "kin"; "kstress"; "vpath"; "fpath"] |}.
(** atoms.py:114-142, 144-264, 267. *)
Definition atoms_cls : cls :=
  {| assigned_attrs := ["natoms"; "_q"; "_p"; "_m"; "_names"; "_m3"; "_M"; "_kin"; "_kstress"];
     methods := ["clone"; "__len__"; "__iter__"; "__getitem__"; "__setitem__"; "get_msum"; "mtom3"; "get_kin"; "get_kstress"];
     properties := ["p"; "q"; "m"; "m3"; "names"; "M"; "kin"; "kstress"] |}.
(** What the function of each quantity reads from the object itself. *)
Definition beads_reads (prop : string) : list string :=
  if String.eqb prop "m3" then ["nbeads"; "natoms"; "m"]
  else if String.eqb prop "sm3" then ["m3"]
  else if String.eqb prop "qc" then ["q"; "nbeads"]
  else if String.eqb prop "pc" then ["p"; "nbeads"]
  else if String.eqb prop "kin" then ["kins"]
  else if String.eqb prop "kstress" then ["nbeads"; "__getitem__"; "_blist"]
  else if String.eqb prop "vpath" then ["q"; "m3"; "nbeads"]
  else if String.eqb prop "fpath" then ["nbeads"; "natoms"; "q"; "m3"]
  else [].
Definition atoms_reads (prop : string) : list string :=
  if String.eqb prop "m3" then ["natoms"; "m"]
  else if String.eqb prop "M" then ["m"]
  else if String.eqb prop "kin" then ["p"; "m3"]
  else if String.eqb prop "kstress" then ["p"; "m"]
  else [].
(** Reading a property (first time or after a change): present, and its function finds what it reads. *)
Definition readable (c : cls) (reads : string -> list string) (prop : string) : bool :=
  has c prop && forallb (has c) (reads prop).

(** Every property of a bead can be read, and all of Beads but its kinetic energy. *)
Theorem atoms_readable prop : In prop (properties atoms_cls) -> readable atoms_cls atoms_reads prop = true.
Proof. intros H. repeat (destruct H as [<-|H]; [reflexivity|]). destruct H. Qed.
Print Assumptions atoms_readable.
Theorem beads_readable prop : In prop (properties beads_cls) ->
  readable beads_cls beads_reads prop = true <-> prop <> "kin".
Proof.
  intros H. repeat (destruct H as [<-|H]; [vm_compute; split; congruence|]). destruct H.
Qed.
Print Assumptions beads_readable.
(** [beads.kin] is a property of every Beads object and reading it always fails: get_kin reads
    [self.kins], and dproperties was not given that name. *)
Theorem beads_kin_refuted : exists prop a, In prop (properties beads_cls) /\ In a (beads_reads prop) /\
  mem ("_" ++ a) (assigned_attrs beads_cls) = true /\ has beads_cls a = false.
Proof. exists "kin", "kins". repeat split; vm_compute; tauto. Qed.
Print Assumptions beads_kin_refuted.
