(** * Replies that must not be delivered *)
From Coq Require Import Ascii String List ZArith Lia Bool Arith.
From Verif Require Import WireModel WireSpec WireProofs.
Import ListNotations.
Open Scope nat_scope.
Open Scope list_scope.

(** Whatever the stream, a fill either fails or puts its first [k] bytes in the
    buffer. *)
Lemma fill_prefix k buf n :
  fill k 0 0 (grow k buf) n = Lost \/
  exists u buf' n', fill k 0 0 (grow k buf) n = Got u buf' n' /\ firstn k buf' = firstn k (data n) /\
    k <= length (data n) /\ data n' = skipn k (data n).
Proof.
  destruct (Nat.le_gt_cases k (length (data n))) as [Hk|Hk].
  - assert (Hl : length (firstn k (data n)) = k) by (rewrite firstn_length; lia).
    destruct (fill_reads k (firstn k (data n)) buf n Hl) as [F _].
    destruct (F (skipn k (data n))) as [[H _]|(u & b & n' & H1 & H2 & H3 & _)].
    + now rewrite firstn_skipn.
    + now left.
    + right. exists u, b, n'. repeat split; try easy.
  - left. apply fill_short; [lia | apply grow_length | lia].
Qed.

Lemma recvall_prefix k buf n :
  recvall k buf n = Lost \/
  exists buf' n', recvall k buf n = Got (firstn k (data n)) buf' n' /\ k <= length (data n) /\
                  data n' = skipn k (data n).
Proof.
  unfold recvall. destruct (fill_prefix k buf n) as [->|(u & b & n' & -> & Hf & Hk & Hd)]; [now left|].
  right. exists b, n'. now rewrite Hf.
Qed.

(** The bytes [a, a+k) of a prefix are those of the whole. *)
Lemma firstn_sub {A} (x y : list A) a k m :
  firstn m x = firstn m y -> a + k <= m -> firstn k (skipn a x) = firstn k (skipn a y).
Proof.
  intros H Hm.
  assert (Hg : forall z : list A, firstn k (skipn a z) = firstn k (skipn a (firstn m z))).
  { intros z. rewrite !firstn_skipn_comm. rewrite firstn_firstn. now rewrite Nat.min_l by lia. }
  now rewrite (Hg x), (Hg y), H.
Qed.

Lemma bulk_bad_header nat_ h rest buf n :
  length h = HDRLEN -> h <> Message "forceready" -> data n = h ++ rest ->
  recv_forces_bulk nat_ buf n = Lost.
Proof.
  intros Hl Hh Hd. unfold recv_forces_bulk. cbv zeta.
  set (full := HDRLEN + 8 + 4 + 24 * nat_ + 72 + 4).
  destruct (fill_prefix full buf n) as [->|(u & b & n' & -> & Hf & _ & _)]; [easy|].
  pose proof (firstn_sub _ _ 0 HDRLEN full Hf ltac:(unfold full; lia)) as Hx. cbn [skipn] in Hx.
  rewrite Hx, Hd, firstn_exact by easy.
  destruct (bytes_eqb h (Message "forceready")) eqn:Eb; [|easy].
  apply bytes_eqb_eq in Eb. contradiction.
Qed.

Lemma bulk_bad_size nat_ pot ml rest buf n :
  length pot = 8 -> length ml = 4 -> int32 ml <> Z.of_nat nat_ ->
  data n = Message "forceready" ++ pot ++ ml ++ rest ->
  recv_forces_bulk nat_ buf n = Lost \/ recv_forces_bulk nat_ buf n = BadSize.
Proof.
  intros Hp Hml Hne Hd. unfold recv_forces_bulk. cbv zeta.
  set (full := HDRLEN + 8 + 4 + 24 * nat_ + 72 + 4).
  destruct (fill_prefix full buf n) as [->|(u & b & n' & -> & Hf & _ & _)]; [now left|].
  destruct (negb _); [now left|]. right.
  rewrite (firstn_sub _ _ (HDRLEN + 8) 4 full Hf) by (unfold full; lia).
  rewrite Hd, skipn_plus, (skipn_exact (Message "forceready")) by reflexivity.
  rewrite (skipn_exact pot) by easy. rewrite firstn_exact by easy.
  destruct (Z.eqb_spec (int32 ml) (Z.of_nat nat_)); [contradiction | reflexivity].
Qed.

Lemma batch_bad_header nb nat_ nr h rest buf n :
  length h = HDRLEN -> h <> Message "forceready" -> data n = h ++ rest ->
  recv_forces_bulk_batch nb nat_ nr buf n = Lost.
Proof.
  intros Hl Hh Hd. unfold recv_forces_bulk_batch.
  destruct (recvall_prefix HDRLEN buf n) as [->|(b & n' & -> & _)]; [easy|]. cbn [bind].
  rewrite Hd, firstn_exact by easy.
  destruct (bytes_eqb h (Message "forceready")) eqn:Eb; [|easy].
  apply bytes_eqb_eq in Eb. contradiction.
Qed.

Lemma batch_bad_size nb nat_ nr pots ml rest buf n :
  length pots = 8 * nb -> length ml = 4 -> int32 ml <> Z.of_nat nat_ ->
  data n = Message "forceready" ++ pots ++ ml ++ rest ->
  recv_forces_bulk_batch nb nat_ nr buf n = Lost \/
  recv_forces_bulk_batch nb nat_ nr buf n = BadSize.
Proof.
  intros Hp Hml Hne Hd. unfold recv_forces_bulk_batch.
  destruct (recvall_prefix HDRLEN buf n) as [->|(b & n1 & -> & _ & D1)]; [now left|]. cbn [bind].
  destruct (negb _); [now left|].
  rewrite Hd, (skipn_exact (Message "forceready")) in D1 by reflexivity.
  destruct (recvall_prefix (8 * nb) b n1) as [->|(b2 & n2 & -> & _ & D2)]; [now left|]. cbn [bind].
  rewrite D1, (skipn_exact pots) in D2 by easy.
  destruct (recvall_prefix 4 b2 n2) as [->|(b3 & n3 & -> & _ & D3)]; [now left|]. cbn [bind].
  rewrite D2, firstn_exact by easy.
  destruct (Z.eqb_spec (int32 ml) (Z.of_nat nat_)); [contradiction | now right].
Qed.
