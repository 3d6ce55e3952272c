(** Pieces of the actual wiring of i-PI as instances of the network model, used for
    the properties about stale derived quantities. *)
From Coq Require Import List Arith Lia Bool ZArith QArith.
From Verif Require Import DependModel DependSpec DependProofs NetBuild DependThms DependViewModel.
Import ListNotations.
Local Open Scope nat_scope.

(** Case analysis on a node number below the size. *)
Ltac cases_lt H :=
  repeat (match type of H with
          | ?i < 0 => exfalso; lia
          | ?i < S ?n => let E := fresh in
              destruct (Nat.eq_dec i n) as [->|E]; [|assert (i < n) as H' by lia; clear H E; rename H' into H]
          end).

(** ** Normal-mode quantities in RPMD mode with at least two beads
    NormalModes.bind, ipi/engine/normalmodes.py:255-326; DummyIntegrator.bind,
    ipi/engine/motion/dynamics.py:311-346. The numerical functions are parameters
    (get_omegan 437-444, get_omegak 451-459, get_nmm 584-594 in mode "rpmd",
    get_prop_pq 481-520, get_prop_pq_ms 522-531, get_dynm3 717-729 without open paths,
    get_dynwk 471-479, get_qdt dynamics.py:256-257). The m3 array is taken as primitive;
    [inmts] is primitive here (its own missing dependency is treated below). *)
Section NM.
Context {V : Type}.
Variables (f_omegan f_omegak : V -> V) (f_nmm f_dynm3 f_dynwk f_qdt f_ms : V -> V -> V)
          (f_prop : V -> V -> V -> V -> V).

(** Node numbers. *)
Definition n_temp := 0. Definition n_freqs := 1. Definition n_mode := 2.
Definition n_dt := 3. Definition n_inmts := 4. Definition n_prop := 5. Definition n_m3 := 6.
Definition n_omegan := 7. Definition n_omegak := 8. Definition n_factor := 9.
Definition n_qdt := 10. Definition n_nmdt := 11. Definition n_pq := 12. Definition n_pqms := 13.
Definition n_dynm3 := 14. Definition n_dynwk := 15.

(** The nodes with their declared dependencies, in the order and with the dependency
    lists of normalmodes.py:256-326 and dynamics.py:314-318, 335 (nm.dt is piped first to
    motion.dt, normalmodes.py:310-311, then to qdt: it keeps both dependencies). *)
Definition nm_nodes : list (kind V * list nat) :=
  [ (Leaf, []); (Leaf, []); (Leaf, []); (Leaf, []); (Leaf, []); (Leaf, []); (Leaf, []);
    (Comp (Read n_temp (fun t => Ret (f_omegan t))), [n_temp]);
    (Comp (Read n_omegan (fun w => Ret (f_omegak w))), [n_omegan]);
    (Comp (Read n_mode (fun m => Read n_freqs (fun f => Ret (f_nmm m f)))), [n_freqs; n_mode]);
    (Comp (Read n_dt (fun d => Read n_inmts (fun i => Ret (f_qdt d i)))), [n_dt; n_inmts]);
    (Comp (Read n_qdt (fun d => Ret d)), [n_dt; n_qdt]);
    (Comp (Read n_nmdt (fun d => Read n_prop (fun p => Read n_factor (fun nf =>
             Read n_omegak (fun w => Ret (f_prop d p nf w)))))),
       [n_omegak; n_factor; n_nmdt; n_prop]);
    (Comp (Read n_pq (fun q => Read n_m3 (fun m => Ret (f_ms q m)))), [n_pq; n_m3]);
    (Comp (Read n_m3 (fun m => Read n_factor (fun nf => Ret (f_dynm3 m nf)))), [n_factor; n_m3]);
    (Comp (Read n_omegak (fun w => Read n_factor (fun nf => Ret (f_dynwk w nf)))), [n_factor; n_omegak])
  ].

Definition nm_net : net V := net_of nm_nodes (fun _ => []).

Local Ltac nmu := unfold n_temp, n_freqs, n_mode, n_dt, n_inmts, n_prop, n_m3, n_omegan, n_omegak,
  n_factor, n_qdt, n_nmdt, n_pq, n_pqms, n_dynm3, n_dynwk in *.

Lemma nm_wf : wf nm_net (declared nm_nodes).
Proof.
  apply net_of_wf.
  - intros i Hi. simpl length in Hi. cases_lt Hi; cbn; intro H; [.. | idtac]; first [now contradiction H | eexists; reflexivity].
  - intros i d Hi. simpl length in Hi. cases_lt Hi; cbn; nmu; intuition lia.
  - intros i p Hi. simpl length in Hi. cases_lt Hi; cbn; intro H; try discriminate; injection H as <-;
    repeat (apply re_read; [cbn; tauto|intro]);
    apply re_ret; cbn; intros d Hd; repeat (destruct Hd as [<-|Hd]; [|]); try contradiction;
    try (left; reflexivity); right;
    (match goal with |- exists s, _ /\ reach _ _ s ?d => exists d end; split; [cbn; tauto|apply reach_self]).
  - intros i g conv Hi. simpl length in Hi. cases_lt Hi; cbn; discriminate.
  - intros g m [].
Qed.
End NM.

(** Value read for node [i] after history [ops]. *)
Definition read_after {V} (N : net V) (v0 : nat -> V) (man0 : nat -> nat) (F : nat)
  (ops : list (@op V)) (i : nat) : option V :=
  match steps N F ops (init_state N v0 man0) with
  | Some st => match get N F F i st with Some (v, _) => Some v | None => None end
  | None => None
  end.

Section NMden.
Context {V : Type}.
Variables (f_omegan f_omegak : V -> V) (f_nmm f_dynm3 f_dynwk f_qdt f_ms : V -> V -> V)
          (f_prop : V -> V -> V -> V -> V).
Let NN := nm_net f_omegan f_omegak f_nmm f_dynm3 f_dynwk f_qdt f_ms f_prop.

(** What the derived quantities should be, as closed formulas of the inputs [b]. *)
Definition omegak_of (b : nat -> V) : V := f_omegak (f_omegan (b n_temp)).
Definition factor_of (b : nat -> V) : V := f_nmm (b n_mode) (b n_freqs).
Definition pq_of (b : nat -> V) : V :=
  f_prop (f_qdt (b n_dt) (b n_inmts)) (b n_prop) (factor_of b) (omegak_of b).

Ltac dens := repeat first
  [ apply den_leaf; reflexivity
  | eapply den_comp; [reflexivity|]
  | eapply denp_read
  | apply denp_ret ].

Lemma nm_den_omegak b l : den NN b l n_omegak (omegak_of b).
Proof. unfold omegak_of. dens. Qed.
Lemma nm_den_dynm3 b l : den NN b l n_dynm3 (f_dynm3 (b n_m3) (factor_of b)).
Proof. unfold factor_of. dens. Qed.
Lemma nm_den_dynwk b l : den NN b l n_dynwk (f_dynwk (omegak_of b) (factor_of b)).
Proof. unfold factor_of, omegak_of. dens. Qed.
Lemma nm_den_pqms b l : den NN b l n_pqms (f_ms (pq_of b) (b n_m3)).
Proof. unfold pq_of, factor_of, omegak_of. dens. Qed.

Lemma nm_follow v0 ops F : Forall (accepted NN) ops -> 18 <= F ->
  let b := assigned NN ops v0 in
  read_after NN v0 (fun _ => 0) F ops n_omegak = Some (omegak_of b) /\
  read_after NN v0 (fun _ => 0) F ops n_dynm3 = Some (f_dynm3 (b n_m3) (factor_of b)) /\
  read_after NN v0 (fun _ => 0) F ops n_dynwk = Some (f_dynwk (omegak_of b) (factor_of b)) /\
  read_after NN v0 (fun _ => 0) F ops n_pqms = Some (f_ms (pq_of b) (b n_m3)).
Proof.
  intros Ha HF b.
  pose proof (nm_wf f_omegan f_omegak f_nmm f_dynm3 f_dynwk f_qdt f_ms f_prop) as W.
  assert (HM : man_ok NN (fun _ => 0)).
  { intros i g conv Hi Hk. exfalso. simpl in Hi.
    do 16 (destruct i as [|i]; [discriminate Hk|]). lia. }
  assert (R : forall i v, i < 16 -> den NN b (last_set NN ops (fun _ => 0)) i v ->
              read_after NN v0 (fun _ => 0) F ops i = Some v).
  { intros i v Hi Hd. unfold read_after.
    destruct (read_fresh NN _ W v0 (fun _ => 0) F HM HF ops i Ha Hi) as (st & w & st' & E1 & E2 & _ & U).
    rewrite E1, E2. f_equal. symmetry. now apply U. }
  repeat split; (apply R; [unfold n_omegak, n_dynm3, n_dynwk, n_pqms; lia|]).
  - apply nm_den_omegak. - apply nm_den_dynm3. - apply nm_den_dynwk. - apply nm_den_pqms.
Qed.
End NMden.

(** ** The same wiring in mode "manual": nm_factor reads omegak without declaring it
    normalmodes.py:284-289 (dependencies [nm_freqs, mode]) against 595-602 (reads omegak).
    Two beads, units with kb = hbar = 1: omegan = 2 T (437-444),
    omegak[1] = 2 sin(pi/2) omegan = 2 omegan (451-459; nmtransform.nm_eva). Nodes: temp,
    nm_freqs[0], mode, omegan, omegak[1], nm_factor[1]. *)
Definition manual_nodes : list (kind Q * list nat) :=
  [ (Leaf, []); (Leaf, []); (Leaf, []);
    (Comp (Read 0 (fun t => Ret (t * 2)%Q)), [0]);
    (Comp (Read 3 (fun w => Ret (w * 2)%Q)), [3]);
    (Comp (Read 2 (fun _ => Read 1 (fun f => Read 4 (fun w => Ret ((w / f) * (w / f))%Q)))), [1; 2]) ].
Definition manual_net : net Q := net_of manual_nodes (fun _ => []).

(** ** Integrator time steps: DummyIntegrator.bind, dynamics.py:310-323. [inmts] and
    [qdt_on_m] are built without dependencies. Nodes: dt, nmts (one level), m3 (one
    atom), inmts, qdt = dt * 0.5 / inmts (256-257), qdt_on_m = qdt / m3. *)
Definition dt_nodes : list (kind Q * list nat) :=
  [ (Leaf, []); (Leaf, []); (Leaf, []);
    (Comp (Read 1 (fun n => Ret n)), []);
    (Comp (Read 0 (fun d => Read 3 (fun n => Ret (d * (1#2) / n)%Q))), [0; 3]);
    (Comp (Read 4 (fun q => Read 2 (fun m => Ret (q / m)%Q))), []) ].
Definition dt_net : net Q := net_of dt_nodes (fun _ => []).

(** ** Conserved energy: Ensemble.get_econs, ipi/engine/ensembles.py:254-266, reads
    nm.vspring first and forces.pot after; get_vspring_and_fspring (normalmodes.py:731-795)
    reads qnm and omegak but also declares beads.q (370-381), which it does not read.
    Nodes: 0 qnm, 1 beads.q (synchronised, one-bead-like identity transform), 2 temp,
    3 omegak, 4 vspring_and_fspring, 5 vspring, 6 forces.pot, 7 econs. Numbers are small
    stand-ins: omegak = temp, vspring = omegak^2 q^2, pot = q; the kinetic, bias and
    thermostat terms, which do not change in the history used, are left out. *)
Definition econs_nodes : list (kind Z * list nat) :=
  [ (Sync 0 (fun m => Read m (fun x => Ret x)), []);
    (Sync 0 (fun m => Read m (fun x => Ret x)), []);
    (Leaf, []);
    (Comp (Read 2 (fun t => Ret t)), [2]);
    (Comp (Read 0 (fun q => Read 3 (fun w => Ret (w * w * (q * q))%Z))), [0; 3; 1]);
    (Comp (Read 4 (fun v => Ret v)), [4]);
    (Comp (Read 1 (fun q => Ret q)), [1]);
    (Comp (Read 5 (fun v => Read 6 (fun u => Ret (v + u)%Z))), [6; 5]) ].
Definition econs_net : net Z := net_of econs_nodes (fun g => match g with 0 => [0; 1] | _ => [] end).

(** ** A single computed value y = x + 1, and an array version of it. *)
Definition plus_nodes : list (kind Z * list nat) :=
  [ (Leaf, []); (Comp (Read 0 (fun x => Ret (x + 1)%Z)), [0]) ].
Definition plus_net : net Z := net_of plus_nodes (fun _ => []).
Definition plus_arr_nodes : list (kind (list Z) * list nat) :=
  [ (Leaf, []); (Comp (Read 0 (fun x => Ret (map (fun e => e + 1)%Z x))), [0]) ].
Definition plus_arr : net (list Z) := net_of plus_arr_nodes (fun _ => []).

(** ** Two synchronised arrays with identity conversion and a value computed from each:
    0 q, 1 qnm, 2 = sum of q, 3 = sum of qnm. *)
Definition sync_nodes : list (kind (list Z) * list nat) :=
  [ (Sync 0 (fun m => Read m (fun x => Ret (map Z.opp x))), []);
    (Sync 0 (fun m => Read m (fun x => Ret (map Z.opp x))), []);
    (Comp (Read 0 (fun x => Ret [fold_right Z.add 0%Z x])), [0]);
    (Comp (Read 1 (fun x => Ret [fold_right Z.add 0%Z x])), [1]) ].
Definition sync_arr : net (list Z) := net_of sync_nodes (fun g => match g with 0 => [0; 1] | _ => [] end).

Lemma sync_arr_wf : wf sync_arr (declared sync_nodes).
Proof.
  apply net_of_wf.
  - intros i Hi. simpl length in Hi. cases_lt Hi; cbn; intro H; [.. | idtac];
      first [now contradiction H | eexists; reflexivity].
  - intros i d Hi. simpl length in Hi. cases_lt Hi; cbn; intuition lia.
  - intros i p Hi. simpl length in Hi. cases_lt Hi; cbn; intro H; try discriminate; injection H as <-;
    repeat (apply re_read; [cbn; tauto|intro]);
    apply re_ret; cbn; intros d Hd; repeat (destruct Hd as [<-|Hd]; [|]); try contradiction;
    right;
    (match goal with |- exists s, _ /\ reach _ _ s ?d => exists d end; split; [cbn; tauto|apply reach_self]).
  - intros i g conv Hi. simpl length in Hi. cases_lt Hi; cbn; try discriminate;
    intro H; injection H as <- <-; (split; [cbn; tauto|]);
    intros m Hm Hne; (apply re_read; [now left|]); intro v; apply re_ret; intros d [<-|[]];
    right; exists m; (split; [now left|constructor]).
  - intros [|g] m Hm; [|destruct Hm]. destruct Hm as [<-|[<-|[]]]; cbn; (split; [lia|]); eexists; reflexivity.
Qed.

Lemma plus_arr_wf : wf plus_arr (declared plus_arr_nodes).
Proof.
  apply net_of_wf.
  - intros i Hi. simpl length in Hi. cases_lt Hi; cbn; intro H; [.. | idtac];
      first [now contradiction H | eexists; reflexivity].
  - intros i d Hi. simpl length in Hi. cases_lt Hi; cbn; intuition lia.
  - intros i p Hi. simpl length in Hi. cases_lt Hi; cbn; intro H; try discriminate; injection H as <-.
    apply re_read; [cbn; tauto|intro]. apply re_ret; cbn; intros d [<-|[]].
    right. exists 0. split; [cbn; tauto|apply reach_self].
  - intros i g conv Hi. simpl length in Hi. cases_lt Hi; cbn; discriminate.
  - intros g m [].
Qed.

Lemma plus_wf : wf plus_net (declared plus_nodes).
Proof.
  apply net_of_wf.
  - intros i Hi. simpl length in Hi. cases_lt Hi; cbn; intro H; [.. | idtac];
      first [now contradiction H | eexists; reflexivity].
  - intros i d Hi. simpl length in Hi. cases_lt Hi; cbn; intuition lia.
  - intros i p Hi. simpl length in Hi. cases_lt Hi; cbn; intro H; try discriminate; injection H as <-.
    apply re_read; [cbn; tauto|intro]. apply re_ret; cbn; intros d [<-|[]].
    right. exists 0. split; [cbn; tauto|apply reach_self].
  - intros i g conv Hi. simpl length in Hi. cases_lt Hi; cbn; discriminate.
  - intros g m [].
Qed.

Lemma econs_wf_only : wf_only econs_net (declared econs_nodes).
Proof.
  split; [|split; [|split; [|split]]].
  - intros i p Hi. simpl in Hi. cases_lt Hi; cbn; intro H; try discriminate; injection H as <-;
    repeat (apply ro_read; [cbn; tauto|intro]); apply ro_ret.
  - intros i d Hi. simpl in Hi. cases_lt Hi; cbn; intro Hd; repeat (destruct Hd as [<-|Hd]; [cbn; split; [lia|tauto]|]);
    contradiction.
  - intros d i Hd. simpl in Hd. cases_lt Hd; cbn; intro Hi; repeat (destruct Hi as [<-|Hi]; [cbn; split; [lia|]; split; [tauto|]; eexists; reflexivity|]);
    contradiction.
  - intros i g conv Hi. simpl in Hi. cases_lt Hi; cbn; try discriminate;
    intro H; injection H as <- <-; (split; [cbn; tauto|]);
    intros m Hm Hne; (apply re_read; [now left|]); intro v; apply re_ret; intros d [<-|[]];
    right; exists m; (split; [now left|constructor]).
  - intros [|g] m Hm; [|destruct Hm]. destruct Hm as [<-|[<-|[]]]; cbn; (split; [lia|]); eexists; reflexivity.
Qed.

Lemma econs_man : man_ok econs_net (fun _ => 1).
Proof.
  intros i g conv Hi Hk. simpl in Hi. cases_lt Hi; cbn in Hk; try discriminate; injection Hk as <- <-; cbn; tauto.
Qed.

Lemma den_leaf_eq {V} (N : net V) b l i v : kind_of N i = Leaf -> b i = v -> den N b l i v.
Proof. intros H <-. now apply den_leaf. Qed.
Lemma den_self_eq {V} (N : net V) b l i g conv v : kind_of N i = Sync g conv -> l g = i ->
  b i = v -> den N b l i v.
Proof. intros H H' <-. now apply den_sync_self with g conv. Qed.
