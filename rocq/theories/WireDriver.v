(** * The reference driver reads what the server sends *)
From Coq Require Import Ascii String List ZArith Lia Bool Arith.
From Verif Require Import WireModel WireSpec WireProofs.
Import ListNotations.
Open Scope nat_scope.
Open Scope list_scope.

(** The driver's socket is blocking: no timeouts. *)
Definition calm (n : net) : Prop := alive n /\ stalls n = 0.
Definition shift (k : nat) (n n' : net) : Prop := forall c, In c (cuts n') -> In (k + c) (cuts n).

Lemma shift_trans a b n n1 n2 : shift a n n1 -> shift b n1 n2 -> shift (a + b) n n2.
Proof. intros H1 H2 c Hc. rewrite <- Nat.add_assoc. now apply H1, H2. Qed.
Lemma shift_whole k a l n n' : shift k n n' -> whole (k + a) l n -> whole a l n'.
Proof. intros H1 H2 c Hc. apply H1, H2 in Hc. lia. Qed.

Lemma d_fill_fill n : stalls n = 0 -> forall blen bpos nto buf,
  fill blen bpos nto buf n =
  match d_fill blen bpos buf n with Some (b, n') => Got tt b n' | None => Lost end.
Proof.
  induction n as [|[l|] n IH]; intros Hs blen bpos nto buf; cbn [fill d_fill].
  - now destruct (blen <=? bpos).
  - destruct (blen <=? bpos); [easy|]. destruct l as [|x l]; [easy|].
    destruct (length (x :: l) <=? blen - bpos); [|easy]. now apply IH.
  - discriminate.
Qed.

Lemma recv_data_ok k x n rest :
  calm n -> data n = x ++ rest -> length x = k ->
  exists n', recv_data k n = Some (x, n') /\ data n' = rest /\ calm n' /\ shift k n n'.
Proof.
  intros [Ha Hs] Hd Hk. unfold recv_data.
  assert (Hl : k <= length (repeat 0%Z k)) by (rewrite repeat_length; lia).
  pose proof (fill_any n k 0 0 (repeat 0%Z k) (Nat.le_0_l _) Hl) as H.
  assert (Hlive : fill k 0 0 (repeat 0%Z k) n <> Lost).
  { apply fill_live; [easy | lia|]. rewrite Hd, app_length. lia. }
  rewrite (d_fill_fill n Hs) in H, Hlive.
  destruct (d_fill k 0 (repeat 0%Z k) n) as [[b n']|]; [|easy].
  cbn [fill_post] in H. rewrite Nat.sub_0_r in H.
  destruct H as (H1 & H2 & H3 & H4 & H5 & H6 & H7).
  exists n'. rewrite H2, H3, Hd, firstn_exact, skipn_exact by easy.
  split; [reflexivity|]. split; [reflexivity|]. split; [split; [now apply H5 | lia] | exact H7].
Qed.

Lemma recv_hdr h n rest :
  calm n -> data n = h ++ rest -> length h = HDRLEN -> whole 0 HDRLEN n ->
  exists n', recv HDRLEN n = (Some h, n') /\ data n' = rest /\ calm n' /\ shift HDRLEN n n'.
Proof.
  intros [Ha Hs] Hd Hh Hw. destruct n as [|[l|] n]; [destruct h; [discriminate | easy] | | discriminate].
  assert (Hlen : HDRLEN <= length l).
  { assert (Hne : l <> []) by (apply Ha; now left).
    assert (~ (0 < length l < 0 + HDRLEN)) by (apply Hw; now left).
    destruct l; [easy|]. cbn [length] in *. lia. }
  cbn [recv data] in *. destruct (Nat.leb_spec (length l) HDRLEN) as [Hle|Hle].
  - exists n. assert (Hll : length l = length h) by lia.
    assert (l = h).
    { apply (f_equal (firstn (length l))) in Hd. rewrite firstn_exact in Hd by easy.
      now rewrite Hll, firstn_exact in Hd. }
    subst l. apply app_inv_head in Hd. split; [easy|]. split; [easy|].
    split; [split; [eapply alive_tl; eauto | easy]|].
    intros c Hc. cbn [cuts]. right. apply in_map_iff. exists c. split; [lia | easy].
  - exists (NChunk (skipn HDRLEN l) :: n).
    assert (Hf : firstn HDRLEN l = h).
    { apply (f_equal (firstn HDRLEN)) in Hd. rewrite (firstn_exact h) in Hd by easy.
      rewrite firstn_app in Hd. replace (HDRLEN - length l) with 0 in Hd by lia.
      cbn [firstn] in Hd. now rewrite app_nil_r in Hd. }
    split; [now rewrite Hf|]. split; [|split; [split|]].
    + cbn [data]. apply (f_equal (skipn HDRLEN)) in Hd. rewrite (skipn_exact h) in Hd by easy.
      rewrite skipn_app in Hd. replace (HDRLEN - length l) with 0 in Hd by lia. exact Hd.
    + apply alive_cut; [easy | lia].
    + exact Hs.
    + intros c Hc. cbn [cuts] in *. rewrite skipn_length in Hc. destruct Hc as [<-|Hc].
      * left. lia.
      * right. apply in_map_iff in Hc. destruct Hc as (c0 & <- & Hc0). apply in_map_iff.
        exists c0. split; [lia | easy].
Qed.

(** A structure with [nat_] atoms. *)
Definition proper_struct (nat_ : nat) (s : struct) : Prop :=
  f64s 9 (s_h s) /\ f64s 9 (s_ih s) /\ f64s (3 * nat_) (s_pos s).

Lemma struct_natoms nat_ s : proper_struct nat_ s -> length (s_pos s) / 3 = nat_.
Proof. intros (_ & _ & [H _]). rewrite H, Nat.mul_comm. now apply Nat.div_mul. Qed.

Section Turns.
Variable pes : list f64 -> list f64 -> reply.
Variable pb : list Z -> option nat.

Ltac hdr H := rewrite H; cbv beta iota.
Ltac nothdr := match goal with |- context [bytes_eqb ?a ?b] =>
   replace (bytes_eqb a b) with false by (vm_compute; reflexivity) end.
Ltac ishdr := match goal with |- context [bytes_eqb ?a ?b] =>
   replace (bytes_eqb a b) with true by (vm_compute; reflexivity) end.

Lemma turn_posdata d s n rest nat_ :
  calm n -> whole 0 HDRLEN n -> d_batch d <= 1 -> small nat_ -> proper_struct nat_ s ->
  d_npos d = 0 \/ d_npos d = nat_ ->
  data n = posdata s ++ rest ->
  exists n', driver_turn pes pb d n =
    DGo (mkDriver (d_init d) true (d_batch d) nat_ (Z.of_nat nat_) [pes (s_h s) (s_pos s)]) [] n' /\
    data n' = rest /\ calm n' /\ shift (length (posdata s)) n n'.
Proof.
  intros Hc Hw Hb Hn Hs Hnp Hd. destruct Hs as (S1 & S2 & S3).
  assert (Hs : proper_struct nat_ s) by easy.
  unfold posdata in Hd. rewrite (struct_natoms nat_ s Hs), <- !app_assoc in Hd.
  destruct (recv_hdr _ n _ Hc Hd eq_refl Hw) as (n0 & R0 & D0 & C0 & T0).
  unfold driver_turn. hdr R0. do 2 nothdr. ishdr. cbv iota.
  destruct (Nat.ltb_spec 1 (d_batch d)); [lia|].
  unfold tobytes in D0.
  destruct (recv_data_ok 72 _ n0 _ C0 D0 (f64s_length 9 _ S1)) as (n1 & R1 & D1 & C1 & T1).
  rewrite R1. cbn [obind].
  destruct (recv_data_ok 72 _ n1 _ C1 D1 (f64s_length 9 _ S2)) as (n2 & R2 & D2 & C2 & T2).
  rewrite R2. cbn [obind].
  destruct (recv_data_ok 4 _ n2 _ C2 D2 (le4_length _)) as (n3 & R3 & D3 & C3 & T3).
  rewrite R3. cbn [obind].
  rewrite int32_le4 by (unfold small in Hn; lia).
  destruct (Z.ltb_spec (Z.of_nat nat_) 0); [lia|].
  assert (Hnp' : (if d_npos d =? 0 then Z.to_nat (Z.of_nat nat_) else d_npos d) = nat_).
  { rewrite Nat2Z.id. destruct (Nat.eqb_spec (d_npos d) 0); lia. }
  rewrite Hnp', Z.eqb_refl. cbn [negb].
  destruct (recv_data_ok _ _ n3 _ C3 D3 (f64s_length _ _ S3)) as (n4 & R4 & D4 & C4 & T4).
  rewrite R4. cbn [obind].
  exists n4. split.
  - rewrite <- (app_nil_r (concat (s_h s))), chop_concat by easy.
    rewrite <- (app_nil_r (concat (s_pos s))), chop_concat by easy. reflexivity.
  - split; [easy|]. split; [easy|].
    replace (length (posdata s)) with (HDRLEN + (72 + (72 + (4 + 8 * (3 * nat_))))).
    + apply (shift_trans _ _ n n0); [easy|]. apply (shift_trans _ _ n0 n1); [easy|].
      apply (shift_trans _ _ n1 n2); [easy|]. now apply (shift_trans _ _ n2 n3).
    + unfold posdata, tobytes. rewrite !app_length, le4_length.
      rewrite (f64s_length _ _ S1), (f64s_length _ _ S2), (f64s_length _ _ S3). reflexivity.
Qed.

Lemma d_structs_ok nat3 (l : list struct) :
  (forall s, In s l -> f64s 9 (s_h s) /\ f64s 9 (s_ih s) /\ f64s nat3 (s_pos s)) ->
  d_structs (length l) nat3 (flat_map (fun s => concat (s_h s) ++ concat (s_ih s)) l)
            (flat_map (fun s => concat (s_pos s)) l)
  = map (fun s => (s_h s, s_pos s)) l.
Proof.
  induction l as [|s l IH]; intros H; [reflexivity|]. cbn [length d_structs flat_map map].
  destruct (H s (or_introl eq_refl)) as (S1 & S2 & S3).
  rewrite <- app_assoc, chop_concat by easy. rewrite chop_concat by easy.
  rewrite app_assoc, skipn_exact.
  2:{ rewrite app_length, (f64s_length _ _ S1), (f64s_length _ _ S2). reflexivity. }
  rewrite skipn_exact by (now apply f64s_length). f_equal. apply IH.
  intros x Hx. apply H. now right.
Qed.

Definition posdata_batch (nat_ : nat) (p : list struct) : bytes :=
  Message "posdata" ++ le4 (Z.of_nat nat_)
  ++ flat_map (fun s => tobytes (s_h s) ++ tobytes (s_ih s)) p
  ++ flat_map (fun s => tobytes (s_pos s)) p.

Lemma turn_posdata_batch d (l : list struct) n rest nat_ :
  calm n -> whole 0 HDRLEN n -> 1 < d_batch d -> d_batch d = length l -> small nat_ ->
  (forall s, In s l -> proper_struct nat_ s) ->
  data n = posdata_batch nat_ l ++ rest ->
  exists n', driver_turn pes pb d n =
    DGo (mkDriver (d_init d) true (d_batch d) (d_npos d) (Z.of_nat nat_)
           (map (fun s => pes (s_h s) (s_pos s)) l)) [] n' /\
    data n' = rest /\ calm n' /\ shift (length (posdata_batch nat_ l)) n n'.
Proof.
  intros Hc Hw Hb Hbl Hn Hs Hd. unfold posdata_batch in Hd. rewrite <- !app_assoc in Hd.
  destruct (recv_hdr _ n _ Hc Hd eq_refl Hw) as (n0 & R0 & D0 & C0 & T0).
  unfold driver_turn. hdr R0. do 2 nothdr. ishdr. cbv iota.
  destruct (Nat.ltb_spec 1 (d_batch d)); [|lia]. unfold tobytes in D0.
  destruct (recv_data_ok 4 _ n0 _ C0 D0 (le4_length _)) as (n1 & R1 & D1 & C1 & T1).
  rewrite R1. cbn [obind]. cbv zeta.
  rewrite int32_le4 by (unfold small in Hn; lia).
  destruct (Z.ltb_spec (Z.of_nat nat_) 0); [lia|]. rewrite Nat2Z.id.
  assert (L1 : length (flat_map (fun s => concat (s_h s) ++ concat (s_ih s)) l) = d_batch d * 144).
  { rewrite (flat_length _ 144), Hbl; [easy|]. intros s Hi. destruct (Hs s Hi) as (S1 & S2 & S3).
    rewrite app_length, (f64s_length _ _ S1), (f64s_length _ _ S2). reflexivity. }
  assert (L2 : length (flat_map (fun s => concat (s_pos s)) l) = d_batch d * (8 * (3 * nat_))).
  { rewrite (flat_length _ (8 * (3 * nat_))), Hbl; [easy|]. intros s Hi.
    destruct (Hs s Hi) as (S1 & S2 & S3). now apply f64s_length. }
  destruct (recv_data_ok _ _ n1 _ C1 D1 L1) as (n2 & R2 & D2 & C2 & T2).
  rewrite R2. cbn [obind].
  destruct (recv_data_ok _ _ n2 _ C2 D2 L2) as (n3 & R3 & D3 & C3 & T3).
  rewrite R3. cbn [obind].
  exists n3. split.
  - rewrite Hbl, d_structs_ok by (intros s Hi; apply (Hs s Hi)). rewrite map_map. reflexivity.
  - split; [easy|]. split; [easy|].
    replace (length (posdata_batch nat_ l))
      with (HDRLEN + (4 + (d_batch d * 144 + d_batch d * (8 * (3 * nat_))))).
    + apply (shift_trans _ _ n n0); [easy|]. apply (shift_trans _ _ n0 n1); [easy|].
      now apply (shift_trans _ _ n1 n2).
    + unfold posdata_batch, tobytes. rewrite !app_length, le4_length, L1, L2. reflexivity.
Qed.

Lemma turn_getforce d n rest r rs :
  calm n -> whole 0 HDRLEN n -> d_batch d <= 1 -> d_out d = r :: rs ->
  length (r_for r) = 3 * d_npos d -> length (r_vir r) = 9 ->
  data n = Message "getforce" ++ rest ->
  exists n', driver_turn pes pb d n =
    DGo (mkDriver (d_init d) false (d_batch d) (d_npos d) (d_nat d) (d_out d)) (send_single (d_nat d) r) n' /\
    data n' = rest /\ calm n'.
Proof.
  intros Hc Hw Hb Ho H1 H2 Hd.
  destruct (recv_hdr _ n _ Hc Hd eq_refl Hw) as (n0 & R0 & D0 & C0 & T0).
  unfold driver_turn. hdr R0. do 3 nothdr. ishdr. cbv iota.
  destruct (Nat.ltb_spec 1 (d_batch d)); [lia|]. rewrite Ho, H1, H2, !Nat.eqb_refl. cbn [andb].
  exists n0. easy.
Qed.

Lemma turn_getforce_batch d n rest :
  calm n -> whole 0 HDRLEN n -> 1 < d_batch d ->
  data n = Message "getforce" ++ rest ->
  exists n', driver_turn pes pb d n =
    DGo (mkDriver (d_init d) false (d_batch d) (d_npos d) (d_nat d) (d_out d)) (send_batch (d_nat d) (d_out d)) n' /\
    data n' = rest /\ calm n'.
Proof.
  intros Hc Hw Hb Hd.
  destruct (recv_hdr _ n _ Hc Hd eq_refl Hw) as (n0 & R0 & D0 & C0 & T0).
  unfold driver_turn. hdr R0. do 3 nothdr. ishdr. cbv iota.
  destruct (Nat.ltb_spec 1 (d_batch d)); [|lia]. exists n0. easy.
Qed.

Lemma turn_status d n rest :
  calm n -> whole 0 HDRLEN n -> data n = Message "status" ++ rest ->
  exists n', driver_turn pes pb d n =
    DGo d (if negb (d_init d) then Message "NEEDINIT"
           else if d_data d then Message "HAVEDATA" else Message "READY") n' /\
    data n' = rest /\ calm n'.
Proof.
  intros Hc Hw Hd.
  destruct (recv_hdr _ n _ Hc Hd eq_refl Hw) as (n0 & R0 & D0 & C0 & T0).
  unfold driver_turn. hdr R0. ishdr. cbv iota. exists n0. easy.
Qed.

End Turns.

(** With ASCII extras the driver sends the protocol's message. *)
Lemma send_single_ascii nat_ r : ascii (r_extra r) ->
  send_single (Z.of_nat nat_) r = force_message nat_ r.
Proof.
  intros H. unfold send_single, force_message, tobytes. rewrite (ascii_utf8 _ H). reflexivity.
Qed.
Lemma send_batch_ascii nat_ l : (forall r, In r l -> ascii (r_extra r)) ->
  send_batch (Z.of_nat nat_) l = batch_message nat_ l.
Proof.
  intros H. unfold send_batch, batch_message, tobytes.
  assert (He : flat_map (fun r => le4 (Z.of_nat (length (r_extra r))) ++ utf8 (r_extra r)) l =
               flat_map (fun r => le4 (Z.of_nat (length (utf8 (r_extra r)))) ++ utf8 (r_extra r)) l).
  { induction l as [|r l IH]; [reflexivity|]. cbn [flat_map].
    rewrite IH by (intros; apply H; now right). now rewrite (ascii_utf8 (r_extra r)) by (apply H; now left). }
  rewrite He. reflexivity.
Qed.

Lemma padded_length bs l : l <> [] -> length l <= bs -> length (padded bs l) = bs.
Proof.
  intros Hl H. destruct l as [|s l]; [easy|]. unfold padded. rewrite app_length, repeat_length. lia.
Qed.
Lemma padded_firstn bs l : firstn (length l) (padded bs l) = l.
Proof. destruct l as [|s l]; [reflexivity|]. unfold padded. now apply firstn_exact. Qed.
Lemma padded_in bs l s : In s (padded bs l) -> In s l.
Proof.
  destruct l as [|s0 l]; [easy|]. unfold padded. intros H. apply in_app_or in H. destruct H as [H|H]; [easy|].
  apply repeat_spec in H. subst s. clear. revert s0. induction l as [|x l IH]; intros s0; [now left|].
  right. change (last (s0 :: x :: l) s0) with (last (x :: l) s0).
  assert (He : forall a b, last (x :: l) a = last (x :: l) b).
  { clear. revert x. induction l as [|y l IH]; intros x a b; [reflexivity|].
    change (last (y :: l) a = last (y :: l) b). apply IH. }
  rewrite (He s0 x). apply IH.
Qed.

Lemma send_batch_bytes_eq bs l nat_ :
  l <> [] -> (forall s, In s l -> proper_struct nat_ s) ->
  dispatch_send_batch_bytes bs l = posdata_batch nat_ (padded bs l) ++ Message "getforce".
Proof.
  intros Hl Hs. unfold dispatch_send_batch_bytes, posdata_batch. cbv zeta.
  destruct (padded bs l) as [|s p] eqn:Ep.
  { exfalso. destruct l; [easy|]. discriminate. }
  rewrite (struct_natoms nat_ s).
  - now rewrite <- !app_assoc.
  - apply Hs. apply (padded_in bs). rewrite Ep. now left.
Qed.
