(** * The dependency network of the forces of one system

    /repo/ipi/engine/forces.py: ForceBead.bind 95-125, ForceComponent.bind 365-407, Forces.bind
    805-1000 (dependency lists), f_combine 1458-1473, pot_combine 1487-1501, vir_combine
    1558-1573, extra_combine 1503-1556, get_potssc 1575-1588, get_virssc_part_1 1600-1604,
    virsc 986-990, the weight dependencies 992-998.

    Two components with nonzero weights (a component of weight zero is not read at all, area
    FSum); the beads of a component are one node; [coeffsc_part_2] (which depends on alpha
    and omegan2 only) is part of the function of potssc. The numerical functions are
    parameters. *)
From Coq Require Import List Arith Lia Bool ZArith.
From Verif Require Import DependModel DependSpec DependProofs NetBuild DependThms DependViewModel DependInstances.
Import ListNotations.
Local Open Scope nat_scope.

Section Net.
Context {V : Type}.
(** Force field results of the components; their force, potential and virial parts; the
    weighted sum; sums over beads; the Suzuki-Chin functions. *)
Variables (ff1 ff2 : V -> V -> V) (fpart upart vpart : V -> V) (wsum : V -> V -> V -> V -> V)
          (bsum : V -> V) (fpotssc : V -> V -> V -> V -> V -> V) (fvirssc : V -> V).
Definition x_q := 0. Definition x_h := 1. Definition x_m := 2. Definition x_w1 := 3. Definition x_w2 := 4.
Definition x_alpha := 5. Definition x_omegan2 := 6. Definition x_u1 := 7. Definition x_u2 := 8.
Definition x_f1 := 9. Definition x_f2 := 10. Definition x_p1 := 11. Definition x_p2 := 12.
Definition x_v1 := 13. Definition x_v2 := 14. Definition x_f := 15. Definition x_pots := 16.
Definition x_virs := 17. Definition x_pot := 18. Definition x_vir := 19. Definition x_potssc := 20.
Definition x_potsc := 21. Definition x_virssc := 22.

Definition read1 (i : nat) (f : V -> V) : kind V := Comp (Read i (fun x => Ret (f x))).
Definition read2 (i j : nat) (f : V -> V -> V) : kind V := Comp (Read i (fun x => Read j (fun y => Ret (f x y)))).
Definition combine (a b : nat) : kind V :=
  Comp (Read x_w1 (fun w1 => Read a (fun x => Read x_w2 (fun w2 => Read b (fun y => Ret (wsum w1 x w2 y)))))).
Definition force_nodes : list (kind V * list nat) :=
  [ (Leaf, []); (Leaf, []); (Leaf, []); (Leaf, []); (Leaf, []); (Leaf, []); (Leaf, []);
    (read2 x_q x_h ff1, [x_q; x_h]);
    (read2 x_q x_h ff2, [x_q; x_h]);
    (read1 x_u1 fpart, [x_u1]); (read1 x_u2 fpart, [x_u2]);
    (read1 x_u1 upart, [x_u1]); (read1 x_u2 upart, [x_u2]);
    (read1 x_u1 vpart, [x_u1]); (read1 x_u2 vpart, [x_u2]);
    (combine x_f1 x_f2, [x_f1; x_f2; x_w1; x_w2]);
    (combine x_p1 x_p2, [x_p1; x_p2; x_w1; x_w2]);
    (combine x_v1 x_v2, [x_v1; x_v2; x_w1; x_w2]);
    (read1 x_pots bsum, [x_pots]);
    (read1 x_virs bsum, [x_virs]);
    (Comp (Read x_alpha (fun a => Read x_omegan2 (fun o => Read x_pots (fun p => Read x_f (fun f => Read x_m (fun m =>
       Ret (fpotssc a o p f m))))))), [x_m; x_f; x_pots; x_alpha; x_omegan2]);
    (read1 x_potssc bsum, [x_potssc]);
    (read1 x_virs fvirssc, [x_virs]) ].
Definition force_net : net V := net_of force_nodes (fun _ => []).

Ltac xu := unfold x_q, x_h, x_m, x_w1, x_w2, x_alpha, x_omegan2, x_u1, x_u2, x_f1, x_f2, x_p1, x_p2, x_v1, x_v2, x_f,
  x_pots, x_virs, x_pot, x_vir, x_potssc, x_potsc, x_virssc in *.
Lemma force_wf : wf force_net (declared force_nodes).
Proof.
  apply net_of_wf.
  - intros i Hi. simpl length in Hi. cases_lt Hi; cbn; intro H; first [now contradiction H | eexists; reflexivity].
  - intros i d Hi. simpl length in Hi. cases_lt Hi; cbn; xu; intuition lia.
  - intros i p Hi. simpl length in Hi. cases_lt Hi; cbn; intro H; try discriminate; injection H as <-;
    repeat (apply re_read; [cbn; tauto|intro]);
    apply re_ret; cbn; intros d Hd; repeat (destruct Hd as [<-|Hd]; [|]); try contradiction;
    try (left; reflexivity); right;
    (match goal with |- exists s, _ /\ reach _ _ s ?d => exists d end; split; [cbn; tauto|apply reach_self]).
  - intros i g conv Hi. simpl length in Hi. cases_lt Hi; cbn; discriminate.
  - intros g m [].
Qed.

Let NN := force_net.
(** The quantities as functions of the inputs [b]. *)
Definition of_parts (part : V -> V) (b : nat -> V) : V :=
  wsum (b x_w1) (part (ff1 (b x_q) (b x_h))) (b x_w2) (part (ff2 (b x_q) (b x_h))).
Definition potssc_of (b : nat -> V) : V :=
  fpotssc (b x_alpha) (b x_omegan2) (of_parts upart b) (of_parts fpart b) (b x_m).

Ltac dens := repeat first
  [ apply den_leaf; reflexivity
  | eapply den_comp; [reflexivity|]
  | eapply denp_read
  | apply denp_ret ].

(** Forces, potentials, virials, their totals and the Suzuki-Chin potential follow every
    change of positions, cell, masses, component weights, alpha and omegan2. *)
Theorem force_quantities_follow_inputs v0 ops F : Forall (accepted NN) ops -> 25 <= F ->
  let b := assigned NN ops v0 in
  let R i := read_after NN v0 (fun _ => 0) F ops i in
  R x_f = Some (of_parts fpart b) /\ R x_pots = Some (of_parts upart b) /\ R x_virs = Some (of_parts vpart b) /\
  R x_pot = Some (bsum (of_parts upart b)) /\ R x_vir = Some (bsum (of_parts vpart b)) /\
  R x_potssc = Some (potssc_of b) /\ R x_potsc = Some (bsum (potssc_of b)) /\
  R x_virssc = Some (fvirssc (of_parts vpart b)).
Proof.
  intros Ha HF b.
  assert (HM : man_ok NN (fun _ => 0)).
  { intros i g conv Hi Hk. exfalso. simpl in Hi. do 23 (destruct i as [|i]; [discriminate Hk|]). lia. }
  assert (R : forall i v, i < 23 -> den NN b (last_set NN ops (fun _ => 0)) i v ->
              read_after NN v0 (fun _ => 0) F ops i = Some v).
  { intros i v Hi Hd. unfold read_after.
    destruct (read_fresh NN _ force_wf v0 (fun _ => 0) F HM HF ops i Ha Hi) as (st & w & st' & E1 & E2 & _ & U).
    rewrite E1, E2. f_equal. symmetry. now apply U. }
  cbv zeta. unfold potssc_of, of_parts. repeat split; (apply R; [xu; lia|dens]).
Qed.
End Net.
Print Assumptions force_quantities_follow_inputs.

Example force_follow_case :
  let N := @force_net Z Z.add Z.mul Z.succ Z.opp Z.double (fun a x b y => a * x + b * y)%Z (Z.mul 3)
             (fun a o p f m => a + o + p + f * m)%Z (Z.mul 5) in
  let ops := [OSet x_q 7%Z; OGet x_potsc; OSet x_w1 2%Z; OGet x_virs; OSet x_h 3%Z; OSet x_alpha 10%Z] in
  Forall (accepted N) ops /\
  read_after N (fun _ => 1%Z) (fun _ => 0) 25 ops x_f = Some (2 * 11 + 22)%Z /\
  read_after N (fun _ => 1%Z) (fun _ => 0) 25 ops x_potsc = Some (3 * (10 + 1 - (2 * 10 + 21) + 44))%Z.
Proof. split; [repeat constructor; cbn; try lia; discriminate|split; vm_compute; reflexivity]. Qed.

(** ** The total Suzuki-Chin virial

    virsc (986-990) reads virssc but declares only potssc. Reading virsc leaves potssc tainted, and a
    tainted node does not pass on the taint, so the next change of positions does not reach
    virsc. Nodes: 0 positions, 1 component result, 2 pots, 3 virs, 4 potssc (of pots), 5
    virssc (of virs), 6 virsc. *)
Definition sc_nodes : list (kind Z * list nat) :=
  [ (Leaf, []);
    (read1 0 (fun x => x), [0]);
    (read1 1 (fun x => x), [1]);
    (read1 1 (fun x => x), [1]);
    (read1 2 (fun x => x), [2]);
    (read1 3 (fun x => x), [3]);
    (read1 5 (fun x => x), [4]) ].
Definition sc_net : net Z := net_of sc_nodes (fun _ => []).
Theorem virsc_follows_positions_refuted :
  exists ops v w, Forall (accepted sc_net) ops /\
    read_after sc_net (fun _ => 1%Z) (fun _ => 0) 9 ops 6 = Some v /\
    den sc_net (assigned sc_net ops (fun _ => 1%Z)) (last_set sc_net ops (fun _ => 0)) 6 w /\ v <> w.
Proof.
  exists [OSet 0 3%Z; OGet 6; OSet 0 7%Z], 3%Z, 7%Z.
  split; [repeat constructor; cbn; try lia; discriminate|]. split; [vm_compute; reflexivity|]. split; [|discriminate].
  do 4 (eapply den_comp; [reflexivity|]; eapply denp_read with (w := 7%Z); [|constructor]).
  eapply den_leaf_eq; reflexivity.
Qed.
Print Assumptions virsc_follows_positions_refuted.
(** It does follow when potssc has been read after the last read of virsc: the taint then goes
    through. (Case, not a theorem.) *)
Example virsc_after_potssc :
  read_after sc_net (fun _ => 1%Z) (fun _ => 0) 9 [OSet 0 3%Z; OGet 6; OGet 4; OSet 0 7%Z] 6 = Some 7%Z.
Proof. vm_compute. reflexivity. Qed.

(** ** Combined extras

    extra_combine reads the weights (1510, 1518); extras (828-833) declares the component
    extras only and, unlike f, pots and virs, gets no weight dependency (995-998). Nodes: 0 weight,
    1 extras of the only component, 2 combined extras (weight times the component, as for a
    key in interpolate_extras), 3 the force with the declared weight dependency. *)
Definition ex_nodes : list (kind Z * list nat) :=
  [ (Leaf, []); (Leaf, []);
    (Comp (Read 0 (fun w => Read 1 (fun x => Ret (w * x)%Z))), [1]);
    (Comp (Read 0 (fun w => Read 1 (fun x => Ret (w * x)%Z))), [1; 0]) ].
Definition ex_net : net Z := net_of ex_nodes (fun _ => []).
Theorem extras_follow_weight_refuted :
  exists ops v w, Forall (accepted ex_net) ops /\
    read_after ex_net (fun _ => 1%Z) (fun _ => 0) 6 ops 2 = Some v /\
    read_after ex_net (fun _ => 1%Z) (fun _ => 0) 6 ops 3 = Some w /\
    den ex_net (assigned ex_net ops (fun _ => 1%Z)) (last_set ex_net ops (fun _ => 0)) 2 w /\ v <> w.
Proof.
  exists [OSet 1 5%Z; OGet 2; OGet 3; OSet 0 2%Z], 5%Z, 10%Z.
  split; [repeat constructor; cbn; try lia; discriminate|]. split; [vm_compute; reflexivity|]. split; [vm_compute; reflexivity|].
  split; [|discriminate].
  eapply den_comp; [reflexivity|]. eapply denp_read with (w := 2%Z); [eapply den_leaf_eq; reflexivity|].
  eapply denp_read with (w := 5%Z); [eapply den_leaf_eq; reflexivity|]. constructor.
Qed.
Print Assumptions extras_follow_weight_refuted.
