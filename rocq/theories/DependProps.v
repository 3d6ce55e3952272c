(** Theorems of record for the dependency machinery (C01-C06, C61-C63). *)
From Coq Require Import List Arith Lia Bool ZArith QArith.
From Verif Require Import DependModel DependSpec DependProofs DependViewModel DependViewProofs
  NetBuild DependThms DependInstances.
Import ListNotations.
Local Open Scope nat_scope.

(** ** C01 *)
(** After any history of reads and accepted writes, reading any node succeeds and returns
    the (unique) value recomputed from scratch from what the user last assigned. *)
Theorem depend_read_is_fresh :
  forall (V : Type) (N : net V) (deps : nat -> list nat), wf N deps ->
  forall (v0 : nat -> V) (man0 : nat -> nat) (F : nat), man_ok N man0 -> size N + 2 <= F ->
  forall (ops : list (@op V)) (i : nat), Forall (accepted N) ops -> i < size N ->
  exists st v st', steps N F ops (init_state N v0 man0) = Some st /\
    get N F F i st = Some (v, st') /\
    den N (assigned N ops v0) (last_set N ops man0) i v /\
    (forall w, den N (assigned N ops v0) (last_set N ops man0) i w -> w = v).
Proof. intros V N deps W v0 man0 F HM HF ops i. exact (read_fresh N deps W v0 man0 F HM HF ops i). Qed.
Print Assumptions depend_read_is_fresh.

(** The hypotheses are met by a network with two synchronised arrays and values computed
    from each; the history below interleaves writes to both with reads. *)
Definition demo_ops : list (@op (list Z)) :=
  [OSet 0 [1; 2]%Z; OGet 3; OSet 1 [5; 7]%Z; OGet 2; OGet 2; OSet 0 [4; 4]%Z].
Example depend_read_is_fresh_case :
  wf sync_arr (declared sync_nodes) /\ man_ok sync_arr (fun _ => 1) /\
  Forall (accepted sync_arr) demo_ops /\
  read_after sync_arr (fun _ => []) (fun _ => 1) 6 demo_ops 3 = Some [(-8)%Z].
Proof.
  split; [exact sync_arr_wf|]. split.
  { intros i g conv Hi Hk. simpl in Hi. cases_lt Hi; cbn in Hk; try discriminate; injection Hk as <- <-; cbn; tauto. }
  split; [|vm_compute; reflexivity].
  repeat constructor; cbn; try lia; discriminate.
Qed.

(** ** C61: a function that does not read a dependency it declares *)
(** The wiring of the conserved energy: after [qnm := 2; read econs; temp := 3] the next
    read of econs still returns the value for the old temperature. *)
Theorem skipped_dependency_stale_refuted :
  exists (N : net Z) (deps : nat -> list nat) ops v w,
    wf_only N deps /\ man_ok N (fun _ => 1) /\
    Forall (accepted N) ops /\
    read_after N (fun _ => 1%Z) (fun _ => 1) (size N + 2) ops 7 = Some v /\
    den N (assigned N ops (fun _ => 1%Z)) (last_set N ops (fun _ => 1)) 7 w /\ v <> w.
Proof.
  exists econs_net, (declared econs_nodes), [OSet 0 2%Z; OGet 7; OSet 2 3%Z], 6%Z, 38%Z.
  split; [exact econs_wf_only|]. split; [exact econs_man|].
  split; [repeat constructor; cbn; try lia; discriminate|].
  split; [vm_compute; reflexivity|]. split; [|discriminate].
  assert (E : 38%Z = (3 * 3 * (2 * 2) + 2)%Z) by reflexivity. rewrite E.
  eapply den_comp; [reflexivity|]. eapply denp_read with (w := (3 * 3 * (2 * 2))%Z).
  { eapply den_comp; [reflexivity|]. eapply denp_read; [|constructor].
    eapply den_comp; [reflexivity|]. eapply denp_read with (w := 2%Z).
    { eapply den_self_eq; reflexivity. }
    eapply denp_read with (w := 3%Z); [|constructor].
    eapply den_comp; [reflexivity|]. eapply denp_read; [|constructor].
    eapply den_leaf_eq; reflexivity. }
  eapply denp_read with (w := 2%Z); [|constructor].
  eapply den_comp; [reflexivity|]. eapply denp_read; [|constructor].
  eapply den_sync_other; [reflexivity|discriminate|]. eapply denp_read; [|constructor].
  eapply den_self_eq; reflexivity.
Qed.
Print Assumptions skipped_dependency_stale_refuted.

(** ** C02 *)
(** A read evaluates each function at most once, and only functions the value (transitively)
    depends on. *)
Theorem read_evaluates_at_most_once :
  forall (V : Type) (N : net V) (deps : nat -> list nat), wf N deps ->
  forall (v0 : nat -> V) (man0 : nat -> nat) (F : nat), man_ok N man0 -> size N + 2 <= F ->
  forall ops i st v st', Forall (accepted N) ops -> i < size N ->
  steps N F ops (init_state N v0 man0) = Some st -> get N F F i st = Some (v, st') ->
  exists new, log st' = new ++ log st /\ NoDup new /\ forall j, In j new -> ancestor N deps i j.
Proof. intros V N deps W v0 man0 F HM HF. exact (read_log N deps W v0 man0 F HM HF). Qed.
Print Assumptions read_evaluates_at_most_once.

(** A second read returns the same and changes nothing at all. *)
Theorem second_read_is_free :
  forall (V : Type) (N : net V) (deps : nat -> list nat), wf N deps ->
  forall (v0 : nat -> V) (man0 : nat -> nat) (F : nat), man_ok N man0 -> size N + 2 <= F ->
  forall ops i st v st', Forall (accepted N) ops -> i < size N ->
  steps N F ops (init_state N v0 man0) = Some st -> get N F F i st = Some (v, st') ->
  get N F F i st' = Some (v, st').
Proof. intros V N deps W v0 man0 F HM HF. exact (read_twice N deps W v0 man0 F HM HF). Qed.
Print Assumptions second_read_is_free.

(** Once read, a value is not evaluated again by any later history that assigns none of the
    values it depends on. *)
Theorem no_reevaluation_without_change :
  forall (V : Type) (N : net V) (deps : nat -> list nat), wf N deps ->
  forall (v0 : nat -> V) (man0 : nat -> nat) (F : nat), man_ok N man0 -> size N + 2 <= F ->
  forall ops1 j ops2 st1 st2,
  Forall (accepted N) (ops1 ++ OGet j :: ops2) ->
  steps N F (ops1 ++ [OGet j]) (init_state N v0 man0) = Some st1 ->
  steps N F (ops1 ++ OGet j :: ops2) (init_state N v0 man0) = Some st2 ->
  (forall i v, In (OSet i v) ops2 -> ~ ancestor N deps j i) ->
  count_occ Nat.eq_dec (log st2) j = count_occ Nat.eq_dec (log st1) j.
Proof. intros V N deps W v0 man0 F HM HF. exact (no_needless_eval N deps W v0 man0 F HM HF). Qed.
Print Assumptions no_reevaluation_without_change.

(** An assignment evaluates nothing. *)
Theorem assignment_evaluates_nothing :
  forall (V : Type) (N : net V) F i v st st',
  set_man N F i v st = Ok st' \/ set_man N F i v st = NameError st' -> log st' = log st.
Proof. intros V N. exact (set_no_eval N). Qed.
Print Assumptions assignment_evaluates_nothing.

(** Case for the C02 theorems: in [demo_ops] node 2 is evaluated once though read twice, and
    a write to a leaf of another network leaves it alone. *)
Example c02_case :
  exists st, steps sync_arr 6 demo_ops (init_state sync_arr (fun _ => []) (fun _ => 1)) = Some st /\
    log st = [0; 2; 1; 3] /\
    (exists v st', get sync_arr 6 6 3 st = Some (v, st') /\ log st' = [1; 3; 0; 2; 1; 3]) /\
    ~ ancestor plus_arr (declared plus_arr_nodes) 0 1.
Proof.
  eexists. split; [vm_compute; reflexivity|]. split; [reflexivity|].
  split; [eexists _, _; split; vm_compute; reflexivity|].
  intro H. inversion H as [|? ? ? Hd|? ? ? ? Hk]; subst; [cbn in Hd; tauto|discriminate Hk].
Qed.

(** ** C03 *)
(** Write representation [i] of a synchronised quantity, then do anything except writing a
    member of the same group: [i] reads as written and every other member [j] reads as the
    conversion of what was written. *)
Theorem synchronised_representations_agree :
  forall (V : Type) (N : net V) (deps : nat -> list nat), wf N deps ->
  forall (v0 : nat -> V) (man0 : nat -> nat) (F : nat), man_ok N man0 -> size N + 2 <= F ->
  forall ops1 i v ops2 g conv_i,
  Forall (accepted N) (ops1 ++ OSet i v :: ops2) ->
  kind_of N i = Sync g conv_i ->
  (forall k w, In (OSet k w) ops2 -> forall c, kind_of N k <> Sync g c) ->
  exists st, steps N F (ops1 ++ OSet i v :: ops2) (init_state N v0 man0) = Some st /\
    (exists st', get N F F i st = Some (v, st')) /\
    forall j conv_j f, j < size N -> j <> i -> kind_of N j = Sync g conv_j ->
      conv_j i = Read i (fun w => Ret (f w)) ->
      exists st', get N F F j st = Some (f v, st').
Proof. intros V N deps W v0 man0 F HM HF. exact (sync_agree N deps W v0 man0 F HM HF). Qed.
Print Assumptions synchronised_representations_agree.

Example synchronised_case :
  let ops2 := [OGet 2; OGet 1; OGet 3] in
  Forall (accepted sync_arr) (demo_ops ++ OSet 1 [9; 8]%Z :: ops2) /\
  (forall k w, In (@OSet (list Z) k w) ops2 -> forall c, kind_of sync_arr k <> Sync 0 c) /\
  read_after sync_arr (fun _ => []) (fun _ => 1) 6 (demo_ops ++ OSet 1 [9; 8]%Z :: ops2) 0
    = Some [-9; -8]%Z.
Proof.
  split; [repeat constructor; cbn; try lia; discriminate|].
  split; [intros k w [H|[H|[H|[]]]]; discriminate|vm_compute; reflexivity].
Qed.

(** ** C04 *)
(** Assigning to a computed value raises NameError, but the rejected value stays: a later
    read returns it. *)
Theorem rejected_assignment_has_no_effect_refuted :
  exists ops st st1 v v' s2 s3,
    Forall (accepted plus_net) ops /\
    steps plus_net 4 ops (init_state plus_net (fun _ => 0%Z) (fun _ => 0)) = Some st /\
    set_man plus_net 4 1 99%Z st = NameError st1 /\
    get plus_net 4 4 1 st = Some (v, s2) /\ get plus_net 4 4 1 st1 = Some (v', s3) /\ v <> v'.
Proof.
  exists [OSet 0 5%Z; OGet 1]. eexists _, _, 6%Z, 99%Z, _, _.
  split; [repeat constructor; cbn; try lia; discriminate|].
  repeat (split; [vm_compute; reflexivity|]). discriminate.
Qed.
Print Assumptions rejected_assignment_has_no_effect_refuted.

(** What does hold: if the computed value was waiting to be recomputed when the assignment was
    rejected, every read returns what it would have returned anyway. *)
Theorem rejected_assignment_has_no_effect_partial :
  forall (V : Type) (N : net V) (deps : nat -> list nat), wf N deps ->
  forall (v0 : nat -> V) (man0 : nat -> nat) (F : nat), man_ok N man0 -> size N + 2 <= F ->
  forall ops i w st j, Forall (accepted N) ops -> i < size N -> j < size N ->
  (exists p, kind_of N i = Comp p) ->
  steps N F ops (init_state N v0 man0) = Some st -> tnt st i = true ->
  exists st1 v s2 s3, set_man N F i w st = NameError st1 /\
    get N F F j st1 = Some (v, s2) /\ get N F F j st = Some (v, s3).
Proof. intros V N deps W v0 man0 F HM HF. exact (rejected_set_tainted_reads N deps W v0 man0 F HM HF). Qed.
Print Assumptions rejected_assignment_has_no_effect_partial.

Example rejected_assignment_partial_case :
  exists st, steps plus_net 4 [OGet 1; OSet 0 5%Z] (init_state plus_net (fun _ => 0%Z) (fun _ => 0)) = Some st
    /\ tnt st 1 = true /\ (exists p, kind_of plus_net 1 = Comp p).
Proof. eexists. split; [vm_compute; reflexivity|]. split; [reflexivity|]. eexists. reflexivity. Qed.

(** ** C05 *)
(** Writing an element through a slice-view leaves exactly the same state (values, stale
    flags, representation last set) as writing it on the array, for primitive and
    synchronised arrays, in every state. *)
Theorem view_write_is_parent_write :
  forall (A : Type) (N : net (list A)) (deps : nat -> list nat), wf N deps ->
  forall fuel i pos a st,
  i < size N -> size N < fuel -> (forall p, kind_of N i <> Comp p) ->
  exists s1 s2, setitem N fuel i pos a st = Ok s1 /\ setitem_view N fuel i pos a st = Ok s2 /\
    same s1 s2.
Proof. intros A N deps W. exact (view_write_same N deps W). Qed.
Print Assumptions view_write_is_parent_write.

Example view_write_case :
  exists st s2, steps sync_arr 6 demo_ops (init_state sync_arr (fun _ => []) (fun _ => 1)) = Some st /\
   setitem_view sync_arr 6 0 1 9%Z st = Ok s2 /\ cache s2 0 = [4; 9]%Z /\
   map (tnt st) [0;1;2;3] = [false; true; true; true] /\ map (tnt s2) [0;1;2;3] = [false; true; true; true].
Proof. eexists _, _. split; [vm_compute; reflexivity|]. repeat split; vm_compute; reflexivity. Qed.

(** A view of a computed array does not refuse writes as the array does; the bogus element
    is then what everyone reads. *)
Theorem view_of_computed_refuses_writes_refuted :
  exists ops st e st2 v s3,
    Forall (accepted plus_arr) ops /\
    steps plus_arr 4 ops (init_state plus_arr (fun _ => []) (fun _ => 0)) = Some st /\
    setitem plus_arr 4 1 0 99%Z st = NameError e /\
    setitem_view plus_arr 4 1 0 99%Z st = Ok st2 /\
    get plus_arr 4 4 1 st2 = Some (v, s3) /\ v = [99; 8]%Z /\ cache st2 0 = [5; 7]%Z.
Proof.
  exists [OSet 0 [5; 7]%Z; OGet 1]. eexists _, _, _, _, _.
  split; [repeat constructor; cbn; try lia; discriminate|].
  repeat (split; [vm_compute; reflexivity|]). split; vm_compute; reflexivity.
Qed.
Print Assumptions view_of_computed_refuses_writes_refuted.

(** ** C62: element write through a reference that was kept *)
(** Writing one element of [q] while [q] is stale (its peer was written since) keeps the
    old other elements: neither representation then agrees with the history. *)
Theorem element_write_on_stale_array_refuted :
  exists ops st s1 v s2,
    Forall (accepted sync_arr) ops /\
    steps sync_arr 6 ops (init_state sync_arr (fun _ => []) (fun _ => 1)) = Some st /\
    (exists s, get sync_arr 6 6 0 st = Some ([-5; -6]%Z, s)) /\
    setitem sync_arr 6 0 0 7%Z st = Ok s1 /\
    get sync_arr 6 6 0 s1 = Some (v, s2) /\ v = [7; 2]%Z.
Proof.
  exists [OSet 0 [1; 2]%Z; OSet 1 [5; 6]%Z]. eexists _, _, _, _.
  split; [repeat constructor; cbn; try lia; discriminate|].
  split; [vm_compute; reflexivity|]. split; [eexists; vm_compute; reflexivity|].
  repeat (split; [vm_compute; reflexivity|]). vm_compute. reflexivity.
Qed.
Print Assumptions element_write_on_stale_array_refuted.

(** ** C63: reshape of a stale computed array *)
(** Taking a reshaped view of a computed array that needs recomputing marks it as up to
    date: the next read returns the old contents. *)
Theorem reshape_keeps_freshness_refuted :
  exists ops st s1 v s2,
    Forall (accepted plus_arr) ops /\
    steps plus_arr 4 ops (init_state plus_arr (fun _ => []) (fun _ => 0)) = Some st /\
    reshape plus_arr 4 1 st = Some s1 /\
    get plus_arr 4 4 1 s1 = Some (v, s2) /\ v = [2; 3]%Z /\
    read_after plus_arr (fun _ => []) (fun _ => 0) 4 ops 1 = Some [6; 8]%Z.
Proof.
  exists [OSet 0 [1; 2]%Z; OGet 1; OSet 0 [5; 7]%Z]. eexists _, _, _, _.
  split; [repeat constructor; cbn; try lia; discriminate|].
  repeat (split; [vm_compute; reflexivity|]). vm_compute. reflexivity.
Qed.
Print Assumptions reshape_keeps_freshness_refuted.

(** ** C06 *)
(** In RPMD mode the mode frequencies, dynamical masses, dynamical frequencies and the free
    ring-polymer propagator follow every change of temperature, time step, masses,
    propagator and frequencies. Missing: the other path modes and the quantities of the next
    theorems. *)
Theorem nm_quantities_follow_inputs_partial :
  forall (V : Type) f_omegan f_omegak f_nmm f_dynm3 f_dynwk f_qdt f_ms f_prop v0 ops F,
  let N := @nm_net V f_omegan f_omegak f_nmm f_dynm3 f_dynwk f_qdt f_ms f_prop in
  Forall (accepted N) ops -> 18 <= F ->
  let b := assigned N ops v0 in
  read_after N v0 (fun _ => 0) F ops n_omegak = Some (omegak_of f_omegan f_omegak b) /\
  read_after N v0 (fun _ => 0) F ops n_dynm3 = Some (f_dynm3 (b n_m3) (factor_of f_nmm b)) /\
  read_after N v0 (fun _ => 0) F ops n_dynwk =
    Some (f_dynwk (omegak_of f_omegan f_omegak b) (factor_of f_nmm b)) /\
  read_after N v0 (fun _ => 0) F ops n_pqms =
    Some (f_ms (pq_of f_omegan f_omegak f_nmm f_qdt f_prop b) (b n_m3)).
Proof. intros V a b c d e f g h v0 ops F. exact (nm_follow a b c d e f g h v0 ops F). Qed.
Print Assumptions nm_quantities_follow_inputs_partial.

Example nm_follow_case :
  let N := @nm_net Z (Z.mul 2) Z.succ Z.add Z.mul Z.sub Z.mul Z.add (fun a b c d => a + b + c + d)%Z in
  let ops := [OSet n_temp 7%Z; OGet n_pqms; OSet n_dt 3%Z; OSet n_temp 9%Z; OGet n_dynwk] in
  Forall (accepted N) ops /\
  read_after N (fun _ => 1%Z) (fun _ => 0) 18 ops n_pqms = Some 26%Z.
Proof. split; [repeat constructor; cbn; try lia; discriminate|vm_compute; reflexivity]. Qed.

(** In mode "manual" the mass factors do not follow the temperature. *)
Theorem nm_factor_follows_temperature_refuted :
  exists ops v w, Forall (accepted manual_net) ops /\
    read_after manual_net (fun _ => 1%Q) (fun _ => 0) 8 ops 5 = Some v /\
    den manual_net (assigned manual_net ops (fun _ => 1%Q)) (last_set manual_net ops (fun _ => 0)) 5 w /\
    ~ (v == w)%Q.
Proof.
  exists [OSet 0 1%Q; OSet 1 2%Q; OGet 5; OSet 0 2%Q].
  eexists _, ((2 * 2 * 2 / 2) * (2 * 2 * 2 / 2))%Q.
  split; [repeat constructor; cbn; try lia; discriminate|].
  split; [vm_compute; reflexivity|]. split; [|intro H; vm_compute in H; discriminate].
  eapply den_comp; [reflexivity|].
  eapply denp_read; [apply den_leaf; reflexivity|].
  eapply denp_read with (w := 2%Q).
  { eapply den_leaf_eq; reflexivity. }
  eapply denp_read with (w := (2 * 2 * 2)%Q); [|constructor].
  eapply den_comp; [reflexivity|]. eapply denp_read with (w := (2 * 2)%Q); [|constructor].
  eapply den_comp; [reflexivity|]. eapply denp_read with (w := 2%Q); [|constructor].
  eapply den_leaf_eq; reflexivity.
Qed.
Print Assumptions nm_factor_follows_temperature_refuted.

(** The centroid step factor qdt_on_m follows neither the time step nor the masses, and the
    position time step does not follow the MTS schedule. [dt_val d n m] is what qdt_on_m
    should be. *)
Theorem time_step_factors_follow_refuted :
  let R ops i := read_after dt_net (fun _ => 1%Q) (fun _ => 0) 8 ops i in
  (exists v, R [OGet 5; OSet 0 4%Q] 5 = Some v /\ R [OSet 0 4%Q] 5 <> Some v /\ ~ (v == 4 * (1#2) / 1 / 1)%Q) /\
  (exists v, R [OGet 5; OSet 2 4%Q] 5 = Some v /\ R [OSet 2 4%Q] 5 <> Some v /\ ~ (v == 1 * (1#2) / 1 / 4)%Q) /\
  (exists v, R [OGet 4; OSet 1 4%Q] 4 = Some v /\ R [OSet 1 4%Q] 4 <> Some v /\ ~ (v == 1 * (1#2) / 4)%Q).
Proof.
  cbv zeta. repeat split; eexists; (split; [vm_compute; reflexivity|]);
  (split; [vm_compute; discriminate|intro H; vm_compute in H; discriminate]).
Qed.
Print Assumptions time_step_factors_follow_refuted.
