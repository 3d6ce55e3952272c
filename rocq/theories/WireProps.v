(** * Theorems of record about the wire protocol (C11, C12, C13, C65) *)
From Coq Require Import Ascii String List ZArith Lia Bool Arith.
From Verif Require Import WireModel WireSpec WireProofs WireReject WireDriver.
Import ListNotations.
Open Scope nat_scope.
Open Scope list_scope.

Definition deliverable (n : net) : Prop := alive n /\ stalls n <= 20.

Lemma reads_received {A} (R : bytes -> net -> res A) a m buf n rest :
  reads R a m -> deliverable n -> data n = m ++ rest ->
  received (R buf n) = Some a /\ left_over (R buf n) = Some rest.
Proof.
  intros HR Hf Hd. destruct (HR buf n) as [H _].
  destruct (H rest Hd) as [[_ Hn]|(b & n' & -> & Hr & _)]; [now destruct Hn|]. cbn. now rewrite Hr.
Qed.

Lemma reads_never_wrong {A} (R : bytes -> net -> res A) a m buf n rest :
  reads R a m -> data n = m ++ rest ->
  R buf n = Lost \/ (received (R buf n) = Some a /\ left_over (R buf n) = Some rest).
Proof.
  intros HR Hd. destruct (HR buf n) as [H _].
  destruct (H rest Hd) as [[H1 _]|(b & n' & -> & Hr & _)]; [now left|]. right. cbn. now rewrite Hr.
Qed.

(** C12. A read of [k] bytes returns the next [k] bytes of the stream and leaves
    the others, however the stream is cut and whatever the scratch buffer holds;
    with more than 20 stalls it may give up but never returns anything else. *)
Theorem read_any_fragmentation k x buf n rest :
  length x = k -> data n = x ++ rest ->
  (deliverable n -> received (recvall k buf n) = Some x /\ left_over (recvall k buf n) = Some rest) /\
  (recvall k buf n = Lost \/
   received (recvall k buf n) = Some x /\ left_over (recvall k buf n) = Some rest).
Proof.
  intros Hx Hd. split.
  - intros Hf. apply (reads_received _ _ x); [now apply recvall_reads | easy | easy].
  - apply (reads_never_wrong _ _ x); [now apply recvall_reads | easy].
Qed.

(** C12, C13. Every force message is decoded to what was encoded, for any
    fragmentation, and no byte of what follows is consumed. *)
Theorem force_message_decodes nat_ r buf n rest :
  small nat_ -> proper nat_ r -> data n = force_message nat_ r ++ rest ->
  (deliverable n -> received (recv_forces_bulk nat_ buf n) = Some r /\
                    left_over (recv_forces_bulk nat_ buf n) = Some rest) /\
  (recv_forces_bulk nat_ buf n = Lost \/
   received (recv_forces_bulk nat_ buf n) = Some r /\
   left_over (recv_forces_bulk nat_ buf n) = Some rest).
Proof.
  intros Hn Hp Hd. split.
  - intros Hf. apply (reads_received _ _ (force_message nat_ r)); [now apply bulk_reads | easy | easy].
  - apply (reads_never_wrong _ _ (force_message nat_ r)); [now apply bulk_reads | easy].
Qed.

(** C11, C12, C13. The same for a batch; the first [n_real] results are kept. *)
Theorem batch_message_decodes nat_ (l : list reply) n_real buf n rest :
  small nat_ -> (forall r, In r l -> proper nat_ r) ->
  data n = batch_message nat_ l ++ rest ->
  let R := recv_forces_bulk_batch (length l) nat_ n_real buf n in
  (deliverable n -> received R = Some (firstn n_real l) /\ left_over R = Some rest) /\
  (R = Lost \/ received R = Some (firstn n_real l) /\ left_over R = Some rest).
Proof.
  intros Hn Hp Hd R. split.
  - intros Hf. apply (reads_received (recv_forces_bulk_batch (length l) nat_ n_real) _ (batch_message nat_ l));
      [now apply batch_reads | easy | easy].
  - apply (reads_never_wrong (recv_forces_bulk_batch (length l) nat_ n_real) _ (batch_message nat_ l));
      [now apply batch_reads | easy].
Qed.

(** C13. A message cut short by the end of the connection is never delivered. *)
Theorem truncated_message_disconnects nat_ r buf n :
  small nat_ -> proper nat_ r -> truncated (data n) (force_message nat_ r) ->
  recv_forces_bulk nat_ buf n = Lost.
Proof. intros Hn Hp Ht. now apply (bulk_reads nat_ r Hn Hp). Qed.

Theorem truncated_batch_disconnects nat_ (l : list reply) n_real buf n :
  small nat_ -> (forall r, In r l -> proper nat_ r) -> truncated (data n) (batch_message nat_ l) ->
  recv_forces_bulk_batch (length l) nat_ n_real buf n = Lost.
Proof. intros Hn Hp Ht. now apply (batch_reads nat_ n_real l Hn Hp). Qed.

(** C13, C64. A reply whose header is not FORCEREADY, or that announces another
    number of atoms, is never delivered, whatever follows. *)
Theorem malformed_reply_not_delivered nat_ nb n_real buf n :
  (forall h rest, length h = 12 -> h <> Message "forceready" -> data n = h ++ rest ->
     received (recv_forces_bulk nat_ buf n) = None /\
     received (recv_forces_bulk_batch nb nat_ n_real buf n) = None) /\
  (forall pot k rest, length pot = 8 -> small k -> k <> nat_ ->
     data n = Message "forceready" ++ pot ++ le4 (Z.of_nat k) ++ rest ->
     received (recv_forces_bulk nat_ buf n) = None) /\
  (forall pots k rest, length pots = 8 * nb -> small k -> k <> nat_ ->
     data n = Message "forceready" ++ pots ++ le4 (Z.of_nat k) ++ rest ->
     received (recv_forces_bulk_batch nb nat_ n_real buf n) = None).
Proof.
  split; [|split].
  - intros h rest Hl Hh Hd.
    now rewrite (bulk_bad_header nat_ h rest), (batch_bad_header nb nat_ n_real h rest).
  - intros pot k rest Hp Hk Hne Hd.
    destruct (bulk_bad_size nat_ pot (le4 (Z.of_nat k)) rest buf n) as [->| ->]; try easy.
    rewrite int32_le4 by (unfold small in Hk; lia). lia.
  - intros pots k rest Hp Hk Hne Hd.
    destruct (batch_bad_size nb nat_ n_real pots (le4 (Z.of_nat k)) rest buf n) as [->| ->]; try easy.
    rewrite int32_le4 by (unfold small in Hk; lia). lia.
Qed.

(** Legacy mode, after the header. *)
Theorem legacy_payload_decodes nat_ r buf n rest :
  small nat_ -> proper nat_ r ->
  (data n = skipn 12 (force_message nat_ r) ++ rest -> deliverable n ->
     received (recv_force_data buf n) = Some r /\ left_over (recv_force_data buf n) = Some rest) /\
  (truncated (data n) (skipn 12 (force_message nat_ r)) -> recv_force_data buf n = Lost).
Proof.
  intros Hn Hp. split.
  - intros Hd Hf. apply (reads_received _ _ (skipn HDRLEN (force_message nat_ r))); [|easy|easy].
    now apply force_data_reads.
  - intros Ht. now apply (force_data_reads nat_ r Hn Hp).
Qed.

(** C65. One round with the reference driver: the server sends a structure and
    asks for forces; the driver evaluates exactly that structure; the server
    receives the driver's result. The streams may be cut anywhere except inside
    a header. [bk] is the return stream. *)
Theorem driver_round_trip pes parse_batch d s nat_ n buf :
  d_batch d <= 1 -> d_npos d = 0 \/ d_npos d = nat_ ->
  small nat_ -> proper_struct nat_ s ->
  proper nat_ (pes (s_h s) (s_pos s)) -> ascii (r_extra (pes (s_h s) (s_pos s))) ->
  alive n -> stalls n = 0 -> data n = dispatch_send_bytes s ->
  whole 0 12 n -> whole (length (posdata s)) 12 n ->
  exists d1 n1 d2 out n2,
    driver_turn pes parse_batch d n = DGo d1 [] n1 /\
    driver_turn pes parse_batch d1 n1 = DGo d2 out n2 /\ data n2 = [] /\
    d_data d2 = false /\ d_npos d2 = nat_ /\
    forall bk rest, deliverable bk -> data bk = out ++ rest ->
      received (recv_forces_bulk nat_ buf bk) = Some (pes (s_h s) (s_pos s)) /\
      left_over (recv_forces_bulk nat_ buf bk) = Some rest.
Proof.
  intros Hb Hnp Hn Hs Hp Ha Hal Hst Hd W0 W1.
  assert (Hc : calm n) by now split.
  destruct (turn_posdata pes parse_batch d s n (Message "getforce") nat_ Hc W0 Hb Hn Hs Hnp Hd)
    as (n1 & T1 & D1 & C1 & S1).
  assert (W1' : whole 0 12 n1).
  { apply (shift_whole _ 0 12 n n1 S1). now rewrite Nat.add_0_r. }
  rewrite <- (app_nil_r (Message "getforce")) in D1.
  destruct (turn_getforce pes parse_batch
     (mkDriver (d_init d) true (d_batch d) nat_ (Z.of_nat nat_) [pes (s_h s) (s_pos s)])
     n1 [] (pes (s_h s) (s_pos s)) [] C1 W1')
    as (n2 & T2 & D2 & C2); [easy | easy | | | exact D1 |].
  { cbn [d_npos]. apply Hp. }
  { destruct Hp as (_ & _ & [Hv _] & _). exact Hv. }
  do 2 eexists. do 2 eexists. exists n2. split; [exact T1|]. split; [exact T2|].
  split; [exact D2|]. split; [reflexivity|]. split; [reflexivity|].
  intros bk rest Hf Hbk. cbn [d_nat] in Hbk. rewrite send_single_ascii in Hbk by easy.
  now apply (proj1 (force_message_decodes nat_ _ buf bk rest Hn Hp Hbk)).
Qed.

(** C11, C65. The same with batching: request [k] gets the driver's result for
    structure [k], the padding is dropped. *)
Theorem driver_round_trip_batch pes parse_batch d bs (l : list struct) nat_ n buf :
  1 < bs -> d_batch d = bs -> l <> [] -> length l <= bs ->
  small nat_ -> (forall s, In s l -> proper_struct nat_ s) ->
  (forall s, In s l -> proper nat_ (pes (s_h s) (s_pos s)) /\ ascii (r_extra (pes (s_h s) (s_pos s)))) ->
  alive n -> stalls n = 0 -> data n = dispatch_send_batch_bytes bs l ->
  whole 0 12 n -> whole (length (dispatch_send_batch_bytes bs l) - 12) 12 n ->
  exists d1 n1 d2 out n2,
    driver_turn pes parse_batch d n = DGo d1 [] n1 /\
    driver_turn pes parse_batch d1 n1 = DGo d2 out n2 /\ data n2 = [] /\ d_data d2 = false /\
    forall bk rest, deliverable bk -> data bk = out ++ rest ->
      received (recv_forces_bulk_batch bs nat_ (length l) buf bk)
        = Some (map (fun s => pes (s_h s) (s_pos s)) l) /\
      left_over (recv_forces_bulk_batch bs nat_ (length l) buf bk) = Some rest.
Proof.
  intros Hb Hdb Hl Hlb Hn Hs Hp Hal Hst Hd W0 W1.
  assert (Hc : calm n) by now split.
  rewrite (send_batch_bytes_eq bs l nat_ Hl Hs) in Hd, W1.
  rewrite app_length in W1.
  replace (length (posdata_batch nat_ (padded bs l)) + length (Message "getforce") - 12)
    with (length (posdata_batch nat_ (padded bs l))) in W1
    by (change (length (Message "getforce")) with 12; lia).
  assert (Hpl : length (padded bs l) = bs) by now apply padded_length.
  destruct (turn_posdata_batch pes parse_batch d (padded bs l) n (Message "getforce") nat_)
    as (n1 & T1 & D1 & C1 & S1); try easy; try lia.
  { intros s Hi. apply Hs. eapply padded_in; eauto. }
  assert (W1' : whole 0 12 n1).
  { apply (shift_whole _ 0 12 n n1 S1). now rewrite Nat.add_0_r. }
  rewrite <- (app_nil_r (Message "getforce")) in D1.
  set (out := map (fun s => pes (s_h s) (s_pos s)) (padded bs l)) in *.
  destruct (turn_getforce_batch pes parse_batch
     (mkDriver (d_init d) true (d_batch d) (d_npos d) (Z.of_nat nat_) out) n1 [] C1 W1')
    as (n2 & T2 & D2 & C2); [cbn; lia | exact D1 |].
  do 2 eexists. do 2 eexists. exists n2. split; [exact T1|]. split; [exact T2|].
  split; [exact D2|]. split; [reflexivity|].
  intros bk rest Hf Hbk. cbn [d_nat d_out] in Hbk.
  assert (Hout : forall r, In r out -> proper nat_ r /\ ascii (r_extra r)).
  { intros r Hr. apply in_map_iff in Hr. destruct Hr as (s & <- & Hi). apply Hp.
    eapply padded_in; eauto. }
  rewrite send_batch_ascii in Hbk by (intros r Hr; now apply Hout).
  assert (Hlo : length out = bs) by (unfold out; now rewrite map_length).
  pose proof (batch_message_decodes nat_ out (length l) buf bk rest Hn
                (fun r Hr => proj1 (Hout r Hr)) Hbk) as H.
  rewrite Hlo in H. destruct H as [H _].
  assert (He : firstn (length l) out = map (fun s => pes (s_h s) (s_pos s)) l).
  { unfold out. rewrite firstn_map, padded_firstn. reflexivity. }
  rewrite He in H. now apply H.
Qed.

(** C65. A status enquiry answered by the reference driver is understood. *)
Theorem status_round_trip pes parse_batch d n :
  alive n -> stalls n = 0 -> whole 0 12 n -> data n = Message "status" ->
  exists out n', driver_turn pes parse_batch d n = DGo d out n' /\
    forall bk, alive bk -> stalls bk = 0 -> whole 0 12 bk -> data bk = out ->
      fst (getstatus_reply bk) = (if negb (d_init d) then WInit else if d_data d then WData else WReady).
Proof.
  intros Ha Hs Hw Hd. rewrite <- (app_nil_r (Message "status")) in Hd.
  destruct (turn_status pes parse_batch d n [] (conj Ha Hs) Hw Hd) as (n' & T & _).
  do 2 eexists. split; [exact T|].
  intros bk Hab Hsb Hwb Hdb. match type of Hdb with data bk = ?o => rewrite <- (app_nil_r o) in Hdb end.
  destruct (recv_hdr _ bk _ (conj Hab Hsb) Hdb) as (n2 & R & _); [|easy|].
  { now destruct (d_init d), (d_data d). }
  unfold getstatus_reply. rewrite R. destruct (d_init d), (d_data d); reflexivity.
Qed.

(** C12 is false of the status enquiry: the same 12 bytes in two pieces make the
    server drop the client. *)
Theorem split_status_reply_refuted :
  exists n1 n2, alive n1 /\ alive n2 /\ data n1 = Message "ready" /\ data n2 = Message "ready" /\
    fst (getstatus_reply n1) = WReady /\ fst (getstatus_reply n2) = WDisc.
Proof.
  exists [NChunk (Message "ready")], [NChunk (firstn 5 (Message "ready")); NChunk (skipn 5 (Message "ready"))].
  split; [|split; [|repeat split]]; intros l H; repeat destruct H as [H|H]; try easy; injection H as <-; easy.
Qed.

(** C12 is false of the legacy mode: a header split in two is never recognised
    and the thread loops for ever; so it does when the connection is closed. *)
Lemma closed_loops fuel : recv_forceready fuel [] = None.
Proof. induction fuel as [|fuel IH]; [reflexivity | exact IH]. Qed.

Theorem split_legacy_header_refuted :
  exists n1 n2, alive n1 /\ alive n2 /\
    data n1 = Message "forceready" /\ data n2 = Message "forceready" /\
    (exists fuel, recv_forceready fuel n1 <> None) /\
    (forall fuel, recv_forceready fuel n2 = None).
Proof.
  exists [NChunk (Message "forceready")],
    [NChunk (firstn 5 (Message "forceready")); NChunk (skipn 5 (Message "forceready"))].
  split; [|split; [|split; [|split; [|split]]]];
    try (intros l H; repeat destruct H as [H|H]; try easy; injection H as <-; easy); try reflexivity.
  - exists 1. now vm_compute.
  - intros [|[|fuel]]; try reflexivity.
    transitivity (recv_forceready fuel []); [reflexivity | apply closed_loops].
Qed.

(** C65 is false for a driver whose extra string has a character outside ASCII:
    the length announced counts characters, the string is sent as bytes. The
    server stops in the middle of the character. *)
Definition zero8 : f64 := repeat 0%Z 8.
Definition accented : reply := mkReply zero8 [zero8; zero8; zero8] (repeat zero8 9) [197%Z].
Theorem non_ascii_extra_refuted :
  exists r, proper 1 r /\ unicode (r_extra r) /\
    recv_forces_bulk 1 [] [NChunk (send_single 1 r)] = Crash.
Proof.
  exists accented. split; [|split; [|vm_compute; reflexivity]].
  - split; [reflexivity|]. split; [|split; [|split]].
    + split; [reflexivity|]. intros x Hx. repeat destruct Hx as [<-|Hx]; easy.
    + split; [reflexivity|]. intros x Hx. repeat destruct Hx as [<-|Hx]; easy.
    + intros c [<-|[]]. lia.
    + vm_compute. reflexivity.
  - intros c [<-|[]]. lia.
Qed.
(** With an ASCII character after it the server even delivers a wrong string and
    leaves a byte for the next reader. *)
Theorem non_ascii_extra_leaves_bytes_refuted :
  exists r, unicode (r_extra r) /\
    received (recv_forces_bulk 1 [] [NChunk (send_single 1 r)]) <> Some r /\
    left_over (recv_forces_bulk 1 [] [NChunk (send_single 1 r)]) = Some [98%Z].
Proof.
  exists (mkReply zero8 [zero8; zero8; zero8] (repeat zero8 9) [97; 197; 97; 98]%Z).
  split; [|split].
  - intros c Hc. repeat destruct Hc as [<-|Hc]; try easy; lia.
  - vm_compute. discriminate.
  - vm_compute. reflexivity.
Qed.

(** ** The hypotheses are met *)
Definition f8 (z : Z) : f64 := [z; 0; 0; 0; 0; 0; 240; 63]%Z.
Definition water : reply := mkReply (f8 7) (map f8 [1; 2; 3; 4; 5; 6]%Z) (map f8 [1;2;3;4;5;6;7;8;9]%Z) [123; 125; 8364]%Z.
(** The message for two atoms, with a stall and cut in odd places. *)
Definition jumpy : net :=
  let m := force_message 2 water in
  [NChunk (firstn 5 m); NTimeout; NChunk (firstn 40 (skipn 5 m)); NChunk (skipn 45 m ++ Message "ready")].
Example water_proper : proper 2 water.
Proof.
  split; [reflexivity|]. split; [|split; [|split]].
  - split; [reflexivity|]. intros x Hx. repeat destruct Hx as [<-|Hx]; easy.
  - split; [reflexivity|]. intros x Hx. repeat destruct Hx as [<-|Hx]; easy.
  - intros c Hc. repeat destruct Hc as [<-|Hc]; try easy; lia.
  - vm_compute. reflexivity.
Qed.
Example jumpy_fine : deliverable jumpy /\ data jumpy = force_message 2 water ++ Message "ready".
Proof.
  split; [split|].
  - intros l H. repeat destruct H as [H|H]; try easy; injection H as <-; vm_compute; discriminate.
  - vm_compute. lia.
  - vm_compute. reflexivity.
Qed.
Example jumpy_result : received (recv_forces_bulk 2 [1%Z; 2%Z] jumpy) = Some water.
Proof. vm_compute. reflexivity. Qed.
Example truncated_case : truncated (data [NChunk (firstn 100 (force_message 2 water))]) (force_message 2 water).
Proof. exists (skipn 100 (force_message 2 water)). split; [vm_compute; discriminate | vm_compute; reflexivity]. Qed.

(** A potential that copies some of its input into the result, two structures
    padded to three, cut inside the positions. *)
Definition copy_pes (h pos : list f64) : reply := mkReply (hd zero8 pos) pos h [111; 107]%Z.
Definition st1 := mkStruct (map f8 [1;2;3;4;5;6;7;8;9]%Z) (repeat zero8 9) (map f8 [21; 22; 23]%Z).
Definition st2 := mkStruct (map f8 [9;2;3;4;5;6;7;8;1]%Z) (repeat zero8 9) (map f8 [31; 32; 33]%Z).
Definition chopped (m : bytes) : net := [NChunk (firstn 20 m); NChunk (firstn 100 (skipn 20 m)); NChunk (skipn 120 m)].
Example batch_case :
  let n := chopped (dispatch_send_batch_bytes 3 [st1; st2]) in
  proper_struct 1 st1 /\ proper_struct 1 st2 /\
  proper 1 (copy_pes (s_h st1) (s_pos st1)) /\ ascii (r_extra (copy_pes (s_h st1) (s_pos st1))) /\
  alive n /\ stalls n = 0 /\ data n = dispatch_send_batch_bytes 3 [st1; st2] /\
  whole 0 12 n /\ whole (length (dispatch_send_batch_bytes 3 [st1; st2]) - 12) 12 n.
Proof.
  cbv zeta.
  repeat match goal with |- _ /\ _ => split end; try (vm_compute; reflexivity).
  - repeat split; intros x Hx; repeat destruct Hx as [<-|Hx]; easy.
  - repeat split; intros x Hx; repeat destruct Hx as [<-|Hx]; easy.
  - split; [reflexivity|]. split; [|split; [|split]].
    + split; [reflexivity|]. intros x Hx. repeat destruct Hx as [<-|Hx]; easy.
    + split; [reflexivity|]. intros x Hx. repeat destruct Hx as [<-|Hx]; easy.
    + intros c Hc. repeat destruct Hc as [<-|Hc]; try easy; lia.
    + vm_compute. reflexivity.
  - intros c Hc. repeat destruct Hc as [<-|Hc]; try easy; lia.
  - intros l H. repeat destruct H as [H|H]; try easy; injection H as <-; vm_compute; discriminate.
  - intros c Hc. revert Hc. vm_compute. intros Hc. repeat destruct Hc as [<-|Hc]; try easy; lia.
  - intros c Hc. revert Hc.
    replace (length (dispatch_send_batch_bytes 3 [st1; st2]) - 12) with 520 by (vm_compute; reflexivity).
    vm_compute. intros Hc. repeat destruct Hc as [<-|Hc]; try easy; lia.
Qed.
Example single_case :
  let n := chopped (dispatch_send_bytes st1) in
  alive n /\ stalls n = 0 /\ data n = dispatch_send_bytes st1 /\
  whole 0 12 n /\ whole (length (posdata st1)) 12 n.
Proof.
  cbv zeta. repeat match goal with |- _ /\ _ => split end; try (vm_compute; reflexivity).
  - intros l H. repeat destruct H as [H|H]; try easy; injection H as <-; vm_compute; discriminate.
  - intros c Hc. revert Hc. vm_compute. intros Hc. repeat destruct Hc as [<-|Hc]; try easy; lia.
  - intros c Hc. revert Hc. replace (length (posdata st1)) with 184 by (vm_compute; reflexivity).
    vm_compute. intros Hc. repeat destruct Hc as [<-|Hc]; try easy; lia.
Qed.

(** A refused reply: two atoms announced where one was asked for. *)
Example malformed_case :
  let n := [NChunk (Message "forceready" ++ repeat 0%Z 8 ++ le4 2 ++ repeat 0%Z 124)] in
  data n = Message "forceready" ++ repeat 0%Z 8 ++ le4 (Z.of_nat 2) ++ repeat 0%Z 124 /\
  recv_forces_bulk 1 [] n = BadSize /\ small 2 /\ 2 <> 1.
Proof. split; [reflexivity|]. split; [vm_compute; reflexivity|]. split; [unfold small|]; lia. Qed.

Print Assumptions malformed_reply_not_delivered.
Print Assumptions read_any_fragmentation.
Print Assumptions force_message_decodes.
Print Assumptions batch_message_decodes.
Print Assumptions truncated_message_disconnects.
Print Assumptions truncated_batch_disconnects.
Print Assumptions legacy_payload_decodes.
Print Assumptions driver_round_trip.
Print Assumptions driver_round_trip_batch.
Print Assumptions status_round_trip.
Print Assumptions split_status_reply_refuted.
Print Assumptions split_legacy_header_refuted.
Print Assumptions non_ascii_extra_refuted.
Print Assumptions non_ascii_extra_leaves_bytes_refuted.
