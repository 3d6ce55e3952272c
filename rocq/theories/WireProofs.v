(** * Lemmas about the wire model *)
From Coq Require Import Ascii String List ZArith Lia Bool Arith.
From Verif Require Import WireModel WireSpec.
Import ListNotations.
Open Scope nat_scope.
Open Scope list_scope.

(** ** Lists *)
Lemma firstn_exact {A} (a b : list A) k : length a = k -> firstn k (a ++ b) = a.
Proof. intros <-. rewrite firstn_app, Nat.sub_diag, firstn_all. cbn. apply app_nil_r. Qed.
Lemma skipn_exact {A} (a b : list A) k : length a = k -> skipn k (a ++ b) = b.
Proof. intros <-. rewrite skipn_app, Nat.sub_diag, skipn_all. reflexivity. Qed.
Lemma skipn_plus {A} (l : list A) : forall a b, skipn (a + b) l = skipn b (skipn a l).
Proof.
  induction l as [|x l IH]; intros a b; [now rewrite !skipn_nil|].
  destruct a; [reflexivity|]. cbn. apply IH.
Qed.
Lemma app_split {A} (p s m1 m2 : list A) :
  p ++ s = m1 ++ m2 -> length m1 <= length p -> exists q, p = m1 ++ q /\ m2 = q ++ s.
Proof.
  revert p. induction m1 as [|x m1 IH]; intros p H Hl; cbn in *.
  - exists p. now rewrite H.
  - destruct p as [|y p]; cbn in *; [lia|]. injection H as -> H.
    destruct (IH p H) as (q & -> & ->); [lia|]. now exists q.
Qed.

(** ** Filling the buffer *)
Lemma write_length pos l buf : pos + length l <= length buf -> length (write pos l buf) = length buf.
Proof. intros H. unfold write. rewrite !app_length, firstn_length, skipn_length. lia. Qed.
Lemma write_firstn pos l buf : pos + length l <= length buf ->
  firstn (pos + length l) (write pos l buf) = firstn pos buf ++ l.
Proof.
  intros H. unfold write. rewrite app_assoc. apply firstn_exact.
  rewrite app_length, firstn_length. lia.
Qed.

Definition fine (n : net) : Prop := alive n /\ stalls n <= NTIMEOUT.

Lemma alive_tl e n : alive (e :: n) -> alive n.
Proof. intros H l Hl. apply H. now right. Qed.
Lemma alive_cut l k n : alive (NChunk l :: n) -> k < length l -> alive (NChunk (skipn k l) :: n).
Proof.
  intros H Hk l' [Hl|Hl].
  - injection Hl as <-. intros He. apply (f_equal (@length _)) in He. rewrite skipn_length in He.
    cbn in He. lia.
  - apply H. now right.
Qed.

Definition fill_post (blen bpos : nat) (buf : bytes) (n : net) (r : res unit) : Prop :=
  match r with
  | Got _ buf' n' =>
      blen - bpos <= length (data n) /\
      firstn blen buf' = firstn bpos buf ++ firstn (blen - bpos) (data n) /\
      data n' = skipn (blen - bpos) (data n) /\ length buf' = length buf /\
      (alive n -> alive n') /\ stalls n' <= stalls n /\
      (forall c, In c (cuts n') -> In (blen - bpos + c) (cuts n))
  | Lost => True
  | _ => False
  end.

Lemma fill_any n : forall blen bpos nto buf,
  bpos <= blen -> blen <= length buf -> fill_post blen bpos buf n (fill blen bpos nto buf n).
Proof.
  induction n as [|e n IH]; intros blen bpos nto buf Hb Hl; cbn [fill].
  - destruct (Nat.leb_spec blen bpos); [|exact I].
    assert (blen = bpos) by lia. subst. unfold fill_post. rewrite Nat.sub_diag. cbn.
    rewrite app_nil_r. repeat split; try easy; lia.
  - destruct (Nat.leb_spec blen bpos) as [Hd|Hd].
    { assert (blen = bpos) by lia. subst. unfold fill_post. rewrite Nat.sub_diag. cbn [firstn skipn].
      rewrite app_nil_r. repeat split; try easy; lia. }
    destruct e as [l|].
    + destruct l as [|x l]; [exact I|]. set (L := x :: l) in *.
      destruct (Nat.leb_spec (length L) (blen - bpos)) as [Hc|Hc].
      * assert (HL : bpos + length L <= blen) by lia.
        specialize (IH blen (bpos + length L) nto (write bpos L buf) HL).
        rewrite write_length in IH by lia. specialize (IH Hl).
        destruct (fill blen (bpos + length L) nto (write bpos L buf) n) as [u b' n'| | |]; try easy.
        destruct IH as (I1 & I2 & I3 & I4 & I5 & I6 & I7). cbn [fill_post data].
        assert (Hs : blen - bpos = length L + (blen - (bpos + length L))) by lia.
        split; [rewrite app_length; lia|]. split; [|split; [|split; [|split; [|split]]]].
        -- rewrite I2, write_firstn by lia. rewrite <- app_assoc. f_equal.
           rewrite Hs at 1. now rewrite firstn_app_2.
        -- rewrite I3. rewrite Hs at 1. rewrite skipn_plus, skipn_exact by reflexivity. reflexivity.
        -- rewrite I4. apply write_length. lia.
        -- intros Ha. apply I5. eapply alive_tl; eauto.
        -- exact I6.
        -- intros c Hc'. cbn [cuts]. right. apply in_map_iff.
           exists (blen - (bpos + length L) + c). split; [lia | now apply I7].
      * cbn [fill_post data cuts]. set (k := blen - bpos) in *.
        assert (Hk : length (firstn k L) = k) by (rewrite firstn_length; lia).
        split; [rewrite app_length; lia|]. split; [|split; [|split; [|split; [|split]]]].
        -- replace blen with (bpos + length (firstn k L)) at 1 by lia.
           rewrite write_firstn by lia. f_equal.
           rewrite firstn_app. replace (k - length L) with 0 by lia. cbn [firstn].
           now rewrite app_nil_r.
        -- rewrite skipn_app. replace (k - length L) with 0 by lia. reflexivity.
        -- apply write_length. lia.
        -- intros Ha. now apply alive_cut.
        -- easy.
        -- rewrite skipn_length. intros c [<-|Hc'].
           ++ left. lia.
           ++ right. apply in_map_iff in Hc'. destruct Hc' as (c0 & <- & Hc0).
              apply in_map_iff. exists c0. split; [lia | easy].
    + destruct (NTIMEOUT <? S nto); [exact I|].
      specialize (IH blen bpos (S nto) buf Hb Hl).
      destruct (fill blen bpos (S nto) buf n); try easy. cbn [fill_post data cuts stalls] in *.
      destruct IH as (I1 & I2 & I3 & I4 & I5 & I6 & I7).
      repeat split; try easy; try lia. intros Ha. apply I5. eapply alive_tl; eauto.
Qed.

Lemma fill_live n : forall blen bpos nto buf,
  alive n -> nto + stalls n <= NTIMEOUT -> blen - bpos <= length (data n) ->
  fill blen bpos nto buf n <> Lost.
Proof.
  induction n as [|e n IH]; intros blen bpos nto buf Ha Hs Hd; cbn [fill].
  - destruct (Nat.leb_spec blen bpos); [easy|]. cbn in Hd. lia.
  - destruct (Nat.leb_spec blen bpos) as [Hc|Hc]; [easy|]. destruct e as [l|].
    + destruct l as [|x l]; [exfalso; now apply (Ha []); [left|]|]. set (L := x :: l) in *.
      destruct (Nat.leb_spec (length L) (blen - bpos)) as [Hl|Hl]; [|easy].
      apply IH; [eapply alive_tl; eauto | exact Hs|].
      cbn [data] in Hd. rewrite app_length in Hd. lia.
    + cbn [stalls] in Hs. destruct (Nat.ltb_spec NTIMEOUT (S nto)); [lia|].
      apply IH; [eapply alive_tl; eauto | lia | exact Hd].
Qed.

Lemma fill_short n blen bpos nto buf :
  bpos <= blen -> blen <= length buf -> length (data n) < blen - bpos ->
  fill blen bpos nto buf n = Lost.
Proof.
  intros H1 H2 H3. pose proof (fill_any n blen bpos nto buf H1 H2) as H.
  destruct (fill blen bpos nto buf n); cbn in H; try easy. lia.
Qed.

Lemma grow_length blen buf : blen <= length (grow blen buf).
Proof. unfold grow. destruct (Nat.ltb_spec (length buf) blen); [rewrite repeat_length|]; lia. Qed.

(** ** Readers *)

(** Reader [R] accepts exactly the message [m] and gives [a]. *)
Definition reads {A} (R : bytes -> net -> res A) (a : A) (m : bytes) : Prop :=
  forall buf n,
  (forall rest, data n = m ++ rest ->
     (R buf n = Lost /\ ~ fine n) \/
     exists buf' n', R buf n = Got a buf' n' /\ data n' = rest /\ (fine n -> fine n')) /\
  (truncated (data n) m -> R buf n = Lost).

Lemma truncated_length p m : truncated p m -> length p < length m.
Proof. intros (s & Hs & ->). rewrite app_length. destruct s; [easy | cbn; lia]. Qed.

Lemma fill_reads k m buf n : length m = k ->
  (forall rest, data n = m ++ rest ->
     (fill k 0 0 (grow k buf) n = Lost /\ ~ fine n) \/
     exists u buf' n', fill k 0 0 (grow k buf) n = Got u buf' n' /\ firstn k buf' = m /\
        data n' = rest /\ (fine n -> fine n')) /\
  (truncated (data n) m -> fill k 0 0 (grow k buf) n = Lost).
Proof.
  intros Hm. split.
  - intros rest Hd.
    pose proof (fill_any n k 0 0 (grow k buf) (Nat.le_0_l _) (grow_length _ _)) as H.
    assert (Hlive : fine n -> fill k 0 0 (grow k buf) n <> Lost).
    { intros [Ha Hs]. apply fill_live; [easy | exact Hs|]. rewrite Hd, app_length. lia. }
    destruct (fill k 0 0 (grow k buf) n) as [u b' n'| | |]; cbn in H; try easy.
    + right. exists u, b', n'. destruct H as (H1 & H2 & H3 & H4 & H5 & H6 & H7).
      rewrite Nat.sub_0_r in *. split; [easy|]. split; [|split].
      * rewrite H2, Hd. now apply firstn_exact.
      * rewrite H3, Hd. now apply skipn_exact.
      * intros [Ha Hs]. split; [now apply H5 | lia].
    + left. split; [easy|]. intros Hf. now apply Hlive.
  - intros Ht. apply truncated_length in Ht. apply fill_short; [lia | apply grow_length | lia].
Qed.

Lemma recvall_reads k m : length m = k -> reads (recvall k) m m.
Proof.
  intros Hm buf n. unfold recvall.
  destruct (fill_reads k m buf n Hm) as [F1 F2]. split.
  - intros rest Hd. destruct (F1 rest Hd) as [[-> Hn]|(u & b' & n' & -> & Hf & Hd' & Hfi)].
    + now left.
    + right. exists b', n'. now rewrite Hf.
  - intros Ht. now rewrite (F2 Ht).
Qed.

Lemma bind_reads {A B} (R : bytes -> net -> res A) (K : A -> bytes -> net -> res B) a b m1 m2 :
  reads R a m1 -> reads (K a) b m2 ->
  reads (fun buf n => bind (R buf n) K) b (m1 ++ m2).
Proof.
  intros HR HK buf n. destruct (HR buf n) as [R1 R2]. split.
  - intros rest Hd. rewrite <- app_assoc in Hd.
    destruct (R1 _ Hd) as [[-> Hn]|(b1 & n1 & -> & Hd1 & Hf1)]; [now left|]. cbn [bind].
    destruct (HK b1 n1) as [K1 _].
    destruct (K1 _ Hd1) as [[-> Hn]|(b2 & n2 & -> & Hd2 & Hf2)].
    + left. split; [easy|]. tauto.
    + right. exists b2, n2. tauto.
  - intros (s & Hs & Hd).
    destruct (le_lt_dec (length m1) (length (data n))) as [Hl|Hl].
    + destruct (app_split (data n) s m1 m2 (eq_sym Hd) Hl) as (q & Hq & Hm2).
      destruct (R1 _ Hq) as [[-> Hn]|(b1 & n1 & -> & Hd1 & Hf1)]; [easy|]. cbn [bind].
      apply (HK b1 n1). rewrite Hd1. now exists s.
    + rewrite R2; [easy|]. symmetry in Hd.
      destruct (app_split m1 m2 (data n) s (eq_sym Hd)) as (q & -> & _); [lia|].
      exists q. split; [|easy]. intros ->. rewrite app_nil_r in Hl. lia.
Qed.

Lemma reads_nil {A} (R : bytes -> net -> res A) a m : reads R a (m ++ []) -> reads R a m.
Proof. now rewrite app_nil_r. Qed.

Lemma got_reads {A} (a : A) : reads (fun b n => Got a b n) a [].
Proof.
  intros buf n. split.
  - intros rest Hd. right. now exists buf, n.
  - intros Ht. apply truncated_length in Ht. cbn in Ht. lia.
Qed.

Lemma reads_ext {A} (R R' : bytes -> net -> res A) a m :
  (forall b n, R b n = R' b n) -> reads R a m -> reads R' a m.
Proof. intros He H buf n. rewrite <- He. apply H. Qed.

(** ** Numbers *)
Lemma le4_length z : length (le4 z) = 4.
Proof. reflexivity. Qed.
Lemma int32_le4 z : (0 <= z < 2147483648)%Z -> int32 (le4 z) = z.
Proof.
  intros H. unfold int32, le4. cbn [nth].
  assert (Hz : (z mod 256 + 256 * (z / 256 mod 256) + 65536 * (z / 65536 mod 256)
                + 16777216 * (z / 16777216 mod 256) = z)%Z).
  { pose proof (Z.div_mod z 256 ltac:(lia)).
    pose proof (Z.div_mod (z / 256) 256 ltac:(lia)).
    pose proof (Z.div_mod (z / 256 / 256) 256 ltac:(lia)).
    replace (z / 65536)%Z with (z / 256 / 256)%Z by (rewrite Z.div_div by lia; reflexivity).
    replace (z / 16777216)%Z with (z / 256 / 256 / 256)%Z by (rewrite !Z.div_div by lia; reflexivity).
    rewrite (Z.mod_small (z / 256 / 256 / 256)); [lia|].
    rewrite !Z.div_div by lia. split; [apply Z.div_pos; lia|].
    apply Z.div_lt_upper_bound; lia. }
  rewrite Hz. destruct (Z.ltb_spec z 2147483648); lia.
Qed.

Lemma f64s_cons k x a : f64s (S k) (x :: a) <-> length x = 8 /\ f64s k a.
Proof.
  unfold f64s. cbn. split.
  - intros [H1 H2]. repeat split; [now apply H2; left | lia | intros; apply H2; now right].
  - intros (H1 & H2 & H3). split; [lia|]. intros y [<-|Hy]; auto.
Qed.

Lemma f64s_length k : forall a, f64s k a -> length (concat a) = 8 * k.
Proof.
  induction k as [|k IH]; intros a Ha.
  - destruct Ha as [Ha _]. destruct a; [reflexivity | discriminate].
  - destruct a as [|x a]; [destruct Ha; discriminate|]. apply f64s_cons in Ha.
    cbn [concat]. rewrite app_length, (IH a) by easy. destruct Ha as [-> _]. lia.
Qed.

Lemma chop_concat k : forall a rest, f64s k a -> chop k (concat a ++ rest) = a.
Proof.
  induction k as [|k IH]; intros a rest Ha.
  - destruct Ha as [Ha _]. destruct a; [reflexivity | discriminate].
  - destruct a as [|x a]; [destruct Ha; discriminate|]. apply f64s_cons in Ha.
    destruct Ha as [Hx Ha]. cbn [concat chop]. rewrite <- app_assoc.
    rewrite firstn_exact, skipn_exact by easy. now rewrite IH.
Qed.

Lemma chop_flat k (l : list reply) rest :
  length l = k -> (forall r, In r l -> length (r_pot r) = 8) ->
  chop k (flat_map r_pot l ++ rest) = map r_pot l.
Proof.
  intros <-. induction l as [|r l IH]; intros H; [reflexivity|].
  cbn [flat_map length chop map]. rewrite <- app_assoc, firstn_exact, skipn_exact.
  - f_equal. apply IH. intros; apply H. now right.
  - apply H. now left.
  - apply H. now left.
Qed.

Lemma rows_flat m (f : reply -> list f64) (l : list reply) : forall rest,
  (forall r, In r l -> f64s m (f r)) ->
  rows (length l) m (flat_map (fun r => concat (f r)) l ++ rest) = map f l.
Proof.
  induction l as [|r l IH]; intros rest H; [reflexivity|].
  cbn [flat_map length rows map]. rewrite <- app_assoc.
  rewrite chop_concat by (apply H; now left).
  rewrite skipn_exact by (apply f64s_length, H; now left).
  f_equal. apply IH. intros; apply H. now right.
Qed.

Lemma zip4_map (l : list reply) : zip4 (map r_pot l) (map r_for l) (map r_vir l) (map r_extra l) = l.
Proof. induction l as [|[p f v x] l IH]; cbn; [reflexivity | now rewrite IH]. Qed.

Lemma flat_length {A} (f : A -> bytes) k (l : list A) :
  (forall r, In r l -> length (f r) = k) -> length (flat_map f l) = length l * k.
Proof.
  induction l as [|r l IH]; intros H; [reflexivity|]. cbn.
  rewrite app_length, IH, H; [reflexivity | now left | intros; apply H; now right].
Qed.

(** ** Strings *)
Lemma utf8_1_length c : 1 <= length (utf8_1 c).
Proof. unfold utf8_1. repeat destruct (_ <? _)%Z; cbn; lia. Qed.

Lemma unutf8_1 fuel c r :
  (0 <= c < 1114112)%Z -> ~ (55296 <= c < 57344)%Z ->
  unutf8 (S fuel) (utf8_1 c ++ r) =
  match unutf8 fuel r with Some s => Some (c :: s) | None => None end.
Proof.
  intros H1 H2. unfold utf8_1.
  destruct (Z.ltb_spec c 128) as [Ha|Ha].
  { cbn -[Z.ltb Z.leb]. destruct (Z.ltb_spec c 128); [reflexivity | lia]. }
  assert (M : forall x, (0 <= x mod 64 < 64)%Z) by (intros; apply Z.mod_pos_bound; lia).
  assert (Dc : c = (64 * (c / 64) + c mod 64)%Z) by (apply Z.div_mod; lia).
  assert (Dc2 : (c / 64 = 64 * (c / 4096) + (c / 64) mod 64)%Z).
  { replace (c / 4096)%Z with (c / 64 / 64)%Z by (rewrite Z.div_div by lia; reflexivity).
    apply Z.div_mod; lia. }
  assert (Dc3 : (c / 4096 = 64 * (c / 262144) + (c / 4096) mod 64)%Z).
  { replace (c / 262144)%Z with (c / 4096 / 64)%Z by (rewrite Z.div_div by lia; reflexivity).
    apply Z.div_mod; lia. }
  assert (Ct : forall x, cont (128 + x mod 64) = true).
  { intros x. unfold cont. specialize (M x). apply andb_true_iff. split;
    [apply Z.leb_le | apply Z.ltb_lt]; lia. }
  pose proof (M c) as Mc. pose proof (M (c / 64)%Z) as Mc1. pose proof (M (c / 4096)%Z) as Mc2.
  destruct (Z.ltb_spec c 2048) as [Hb|Hb].
  { cbn [app unutf8].
    destruct (Z.ltb_spec (192 + c / 64) 128); [lia|].
    destruct (Z.ltb_spec (192 + c / 64) 192); [lia|].
    destruct (Z.ltb_spec (192 + c / 64) 224); [|lia].
    rewrite Ct. replace ((192 + c / 64 - 192) * 64 + (128 + c mod 64 - 128))%Z with c by lia.
    destruct (Z.leb_spec 128 c); [reflexivity | lia]. }
  destruct (Z.ltb_spec c 65536) as [Hd|Hd].
  { cbn [app unutf8].
    destruct (Z.ltb_spec (224 + c / 4096) 128); [lia|].
    destruct (Z.ltb_spec (224 + c / 4096) 192); [lia|].
    destruct (Z.ltb_spec (224 + c / 4096) 224); [lia|].
    destruct (Z.ltb_spec (224 + c / 4096) 240); [|lia].
    rewrite !Ct.
    replace ((224 + c / 4096 - 224) * 4096 + (128 + (c / 64) mod 64 - 128) * 64 + (128 + c mod 64 - 128))%Z
      with c by lia.
    destruct (Z.leb_spec 2048 c); [|lia].
    destruct (Z.leb_spec 55296 c), (Z.ltb_spec c 57344); try reflexivity. exfalso. lia. }
  cbn [app unutf8].
  destruct (Z.ltb_spec (240 + c / 262144) 128); [lia|].
  destruct (Z.ltb_spec (240 + c / 262144) 192); [lia|].
  destruct (Z.ltb_spec (240 + c / 262144) 224); [lia|].
  destruct (Z.ltb_spec (240 + c / 262144) 240); [lia|].
  destruct (Z.ltb_spec (240 + c / 262144) 248); [|lia].
  rewrite !Ct.
  replace ((240 + c / 262144 - 240) * 262144 + (128 + (c / 4096) mod 64 - 128) * 4096
           + (128 + (c / 64) mod 64 - 128) * 64 + (128 + c mod 64 - 128))%Z with c by lia.
  destruct (Z.leb_spec 65536 c); [|lia]. destruct (Z.ltb_spec c 1114112); [reflexivity | lia].
Qed.

Lemma unutf8_utf8 s : unicode s -> forall fuel, length (utf8 s) <= fuel -> unutf8 fuel (utf8 s) = Some s.
Proof.
  induction s as [|c s IH]; intros Hu fuel Hf; [now destruct fuel|].
  cbn [utf8 flat_map] in *. rewrite app_length in Hf. pose proof (utf8_1_length c).
  destruct fuel; [lia|]. destruct (Hu c (or_introl eq_refl)).
  rewrite unutf8_1 by easy. change (flat_map utf8_1 s) with (utf8 s) in *.
  rewrite IH; [reflexivity | intros x Hx; apply Hu; now right | lia].
Qed.

Lemma decode_utf8_utf8 s : unicode s -> decode_utf8 (utf8 s) = Some s.
Proof. intros H. now apply unutf8_utf8. Qed.

Lemma utf8_nil s : length (utf8 s) = 0 -> s = [].
Proof.
  destruct s as [|c s]; [easy|]. cbn. rewrite app_length. pose proof (utf8_1_length c). lia.
Qed.

Lemma ascii_utf8 s : ascii s -> utf8 s = s.
Proof.
  induction s as [|c s IH]; intros H; [reflexivity|]. cbn [utf8 flat_map].
  change (flat_map utf8_1 s) with (utf8 s). rewrite IH by (intros x Hx; apply H; now right).
  unfold utf8_1. destruct (H c (or_introl eq_refl)). destruct (Z.ltb_spec c 128); [reflexivity | lia].
Qed.
Lemma ascii_unicode s : ascii s -> unicode s.
Proof. intros H c Hc. apply H in Hc. lia. Qed.

(** ** The three receivers *)
Lemma bytes_eqb_refl b : bytes_eqb b b = true.
Proof. unfold bytes_eqb. now destruct (list_eq_dec Z.eq_dec b b). Qed.
Lemma bytes_eqb_eq a b : bytes_eqb a b = true <-> a = b.
Proof. unfold bytes_eqb. destruct (list_eq_dec Z.eq_dec a b); split; congruence || easy. Qed.

Definition extra_bytes (s : list Z) : bytes := le4 (Z.of_nat (length (utf8 s))) ++ utf8 s.

Lemma recv_extra_reads s : unicode s -> small (length (utf8 s)) ->
  reads recv_extra s (extra_bytes s).
Proof.
  intros Hu Hs. unfold recv_extra, extra_bytes.
  eapply (bind_reads (recvall 4)); [now apply recvall_reads|].
  rewrite int32_le4 by (unfold small in Hs; lia).
  destruct (Z.ltb_spec 0 (Z.of_nat (length (utf8 s)))) as [Hp|Hp].
  - rewrite Nat2Z.id. apply reads_nil.
    eapply (bind_reads (recvall (length (utf8 s)))); [now apply recvall_reads|].
    rewrite decode_utf8_utf8 by easy. apply got_reads.
  - assert (H0 : length (utf8 s) = 0) by lia. apply utf8_nil in H0. subst s. apply got_reads.
Qed.

Lemma recv_extras_reads (l : list (list Z)) :
  (forall s, In s l -> unicode s /\ small (length (utf8 s))) ->
  reads (recv_extras (length l)) l (flat_map extra_bytes l).
Proof.
  induction l as [|s l IH]; intros H; [apply got_reads|].
  cbn [length recv_extras flat_map].
  eapply (bind_reads recv_extra).
  - destruct (H s (or_introl eq_refl)). now apply recv_extra_reads.
  - rewrite <- (app_nil_r (flat_map extra_bytes l)).
    eapply (bind_reads (recv_extras (length l))); [apply IH; intros; apply H; now right|].
    apply got_reads.
Qed.

Lemma header_length : length (Message "forceready") = HDRLEN.
Proof. reflexivity. Qed.

Lemma batch_reads nat_ n_real (l : list reply) :
  small nat_ -> (forall r, In r l -> proper nat_ r) ->
  reads (recv_forces_bulk_batch (length l) nat_ n_real) (firstn n_real l) (batch_message nat_ l).
Proof.
  intros Hn Hp. unfold recv_forces_bulk_batch, batch_message.
  eapply (bind_reads (recvall HDRLEN)); [apply recvall_reads, header_length|].
  rewrite bytes_eqb_refl. cbn [negb].
  eapply (bind_reads (recvall (8 * length l))).
  { apply recvall_reads. rewrite (flat_length _ 8); [lia|]. intros r Hr.
    destruct (Hp r Hr) as [H _]. exact H. }
  eapply (bind_reads (recvall 4)); [now apply recvall_reads|].
  rewrite int32_le4 by (unfold small in Hn; lia). rewrite Z.eqb_refl. cbn [negb].
  eapply (bind_reads (recvall (length l * (8 * (3 * nat_))))).
  { apply recvall_reads. apply flat_length. intros r Hr. apply f64s_length.
    destruct (Hp r Hr) as (_ & H & _). exact H. }
  eapply (bind_reads (recvall (length l * (8 * 9)))).
  { apply recvall_reads. apply flat_length. intros r Hr. apply (f64s_length 9).
    destruct (Hp r Hr) as (_ & _ & H & _). exact H. }
  replace (flat_map (fun r => le4 (Z.of_nat (length (utf8 (r_extra r)))) ++ utf8 (r_extra r)) l)
    with (flat_map extra_bytes (map r_extra l) ++ []).
  2:{ rewrite app_nil_r. clear. induction l as [|r l IH]; [reflexivity|]. cbn [map flat_map].
      now rewrite IH. }
  eapply (bind_reads (recv_extras (length l))).
  { rewrite <- (map_length r_extra l). apply recv_extras_reads. intros s Hs.
    apply in_map_iff in Hs. destruct Hs as (r & <- & Hr).
    destruct (Hp r Hr) as (_ & _ & _ & Hu & Hsm). now split. }
  rewrite <- (app_nil_r (flat_map r_pot l)).
  rewrite chop_flat by (easy || (intros r Hr; destruct (Hp r Hr); easy)).
  rewrite <- (app_nil_r (flat_map (fun r => concat (r_for r)) l)).
  rewrite (rows_flat (3 * nat_) r_for) by (intros r Hr; destruct (Hp r Hr) as (_ & ? & ? & _); easy).
  rewrite <- (app_nil_r (flat_map (fun r => concat (r_vir r)) l)).
  rewrite (rows_flat 9 r_vir) by (intros r Hr; destruct (Hp r Hr) as (_ & ? & ? & _); easy).
  rewrite zip4_map. apply got_reads.
Qed.

Lemma force_data_reads nat_ r :
  small nat_ -> proper nat_ r ->
  reads recv_force_data r (skipn HDRLEN (force_message nat_ r)).
Proof.
  intros Hn (H1 & H2 & H3 & H4 & H5). unfold force_message.
  rewrite skipn_exact by reflexivity. unfold recv_force_data.
  eapply (bind_reads (recvall 8)); [now apply recvall_reads|].
  eapply (bind_reads (recvall 4)); [now apply recvall_reads|].
  rewrite int32_le4 by (unfold small in Hn; lia).
  destruct (Z.ltb_spec (Z.of_nat nat_) 0); [lia|]. rewrite Nat2Z.id.
  eapply (bind_reads (recvall (8 * (3 * nat_)))); [apply recvall_reads; now apply f64s_length|].
  eapply (bind_reads (recvall 72)).
  { apply recvall_reads. apply (f64s_length 9). easy. }
  match goal with |- context [reads _ _ ?m] => change m with (extra_bytes (r_extra r)) end.
  rewrite <- (app_nil_r (extra_bytes _)).
  eapply (bind_reads recv_extra); [now apply recv_extra_reads|].
  rewrite <- (app_nil_r (concat (r_for r))), chop_concat by easy.
  rewrite <- (app_nil_r (concat (r_vir r))), chop_concat by easy.
  destruct r. apply got_reads.
Qed.

(** The single-request receiver reads the fixed part in one go. *)
Definition fixed_part (nat_ : nat) (r : reply) : bytes :=
  Message "forceready" ++ r_pot r ++ le4 (Z.of_nat nat_) ++ concat (r_for r) ++ concat (r_vir r)
  ++ le4 (Z.of_nat (length (utf8 (r_extra r)))).

Lemma force_message_split nat_ r : force_message nat_ r = fixed_part nat_ r ++ utf8 (r_extra r).
Proof. unfold force_message, fixed_part. now rewrite <- !app_assoc. Qed.

Lemma fixed_part_length nat_ r : proper nat_ r ->
  length (fixed_part nat_ r) = HDRLEN + 8 + 4 + 24 * nat_ + 72 + 4.
Proof.
  intros (H1 & H2 & H3 & _). unfold fixed_part. rewrite !app_length, !le4_length, H1.
  rewrite (f64s_length _ _ H2), (f64s_length _ _ H3), header_length. unfold HDRLEN. lia.
Qed.

Lemma fixed_pot nat_ r t : proper nat_ r ->
  firstn 8 (skipn HDRLEN (fixed_part nat_ r ++ t)) = r_pot r.
Proof.
  intros (H1 & _). unfold fixed_part. rewrite <- !app_assoc, skipn_exact by reflexivity.
  now apply firstn_exact.
Qed.
Lemma fixed_nat nat_ r t : proper nat_ r ->
  firstn 4 (skipn (HDRLEN + 8) (fixed_part nat_ r ++ t)) = le4 (Z.of_nat nat_).
Proof.
  intros (H1 & _). unfold fixed_part. rewrite <- !app_assoc, skipn_plus.
  rewrite skipn_exact by reflexivity. rewrite skipn_exact by easy. now apply firstn_exact.
Qed.
Lemma fixed_for nat_ r t : proper nat_ r ->
  chop (3 * nat_) (skipn (HDRLEN + 8 + 4) (fixed_part nat_ r ++ t)) = r_for r.
Proof.
  intros (H1 & H2 & _). unfold fixed_part. rewrite <- !app_assoc, !skipn_plus.
  rewrite skipn_exact by reflexivity. rewrite skipn_exact by easy. rewrite skipn_exact by reflexivity.
  now apply chop_concat.
Qed.
Lemma fixed_vir nat_ r t : proper nat_ r ->
  chop 9 (skipn (HDRLEN + 8 + 4 + 24 * nat_) (fixed_part nat_ r ++ t)) = r_vir r.
Proof.
  intros (H1 & H2 & H3 & _). unfold fixed_part. rewrite <- !app_assoc, !skipn_plus.
  rewrite skipn_exact by reflexivity. rewrite skipn_exact by easy. rewrite skipn_exact by reflexivity.
  rewrite skipn_exact by (rewrite (f64s_length _ _ H2); lia). now apply chop_concat.
Qed.
Lemma fixed_len nat_ r t : proper nat_ r ->
  firstn 4 (skipn (HDRLEN + 8 + 4 + 24 * nat_ + 72) (fixed_part nat_ r ++ t))
  = le4 (Z.of_nat (length (utf8 (r_extra r)))).
Proof.
  intros (H1 & H2 & H3 & _). unfold fixed_part. rewrite <- !app_assoc, !skipn_plus.
  rewrite skipn_exact by reflexivity. rewrite skipn_exact by easy. rewrite skipn_exact by reflexivity.
  rewrite skipn_exact by (rewrite (f64s_length _ _ H2); lia).
  rewrite skipn_exact by (rewrite (f64s_length _ _ H3); lia). now apply firstn_exact.
Qed.

Lemma bulk_reads nat_ r : small nat_ -> proper nat_ r ->
  reads (recv_forces_bulk nat_) r (force_message nat_ r).
Proof.
  intros Hn Hp buf n. rewrite force_message_split.
  unfold recv_forces_bulk. set (F := HDRLEN + 8 + 4 + 24 * nat_ + 72 + 4).
  pose proof (fixed_part_length nat_ r Hp) as HF. fold F in HF.
  destruct (fill_reads F (fixed_part nat_ r) buf n HF) as [F1 F2].
  set (parse := fun (b : bytes) (n1 : net) =>
      if negb (bytes_eqb (firstn HDRLEN b) (Message "forceready")) then Lost else
      if negb (int32 (firstn 4 (skipn (HDRLEN + 8) b)) =? Z.of_nat nat_)%Z then BadSize else
      if (0 <? int32 (firstn 4 (skipn (HDRLEN + 8 + 4 + 24 * nat_ + 72) b)))%Z then
        let el := Z.to_nat (int32 (firstn 4 (skipn (HDRLEN + 8 + 4 + 24 * nat_ + 72) b))) in
        match fill el 0 0 (grow el b) n1 with
        | Got _ b2 n2 =>
            match decode_utf8 (firstn el b2) with
            | Some s => Got (mkReply (firstn 8 (skipn HDRLEN b)) (chop (3 * nat_) (skipn (HDRLEN + 8 + 4) b))
                               (chop 9 (skipn (HDRLEN + 8 + 4 + 24 * nat_) b)) s) b2 n2
            | None => Crash
            end
        | Lost => Lost | BadSize => BadSize | Crash => Crash
        end
      else Got (mkReply (firstn 8 (skipn HDRLEN b)) (chop (3 * nat_) (skipn (HDRLEN + 8 + 4) b))
                        (chop 9 (skipn (HDRLEN + 8 + 4 + 24 * nat_) b)) []) b n1).
  assert (Hparse : forall b n1, firstn F b = fixed_part nat_ r ->
    (forall rest, data n1 = utf8 (r_extra r) ++ rest ->
      (parse b n1 = Lost /\ ~ fine n1) \/
      exists b2 n2, parse b n1 = Got r b2 n2 /\ data n2 = rest /\ (fine n1 -> fine n2)) /\
    (truncated (data n1) (utf8 (r_extra r)) -> parse b n1 = Lost)).
  { intros b n1 Hb. unfold parse.
    rewrite <- (firstn_skipn F b), Hb.
    replace (firstn HDRLEN (fixed_part nat_ r ++ skipn F b)) with (Message "forceready")
      by (unfold fixed_part; rewrite <- !app_assoc; symmetry; now apply firstn_exact).
    rewrite bytes_eqb_refl. cbn [negb].
    rewrite fixed_nat, int32_le4, Z.eqb_refl by (easy || (unfold small in Hn; lia)). cbn [negb].
    destruct Hp as (P1 & P2 & P3 & P4 & P5). assert (Hp : proper nat_ r) by easy.
    rewrite fixed_len, int32_le4 by (easy || (unfold small in P5; lia)).
    rewrite fixed_pot, fixed_for, fixed_vir by easy.
    set (bb := fixed_part nat_ r ++ skipn F b).
    destruct (Z.ltb_spec 0 (Z.of_nat (length (utf8 (r_extra r))))) as [Hpos|Hpos].
    - cbv zeta. rewrite Nat2Z.id.
      destruct (fill_reads (length (utf8 (r_extra r))) (utf8 (r_extra r)) bb n1 eq_refl) as [G1 G2].
      split.
      + intros rest Hd. destruct (G1 rest Hd) as [[-> Hnf]|(u & b2 & n2 & -> & Hf & Hd2 & Hfi)]; [now left|].
        rewrite Hf, decode_utf8_utf8 by easy. right. exists b2, n2. destruct r. now split.
      + intros Ht. now rewrite (G2 Ht).
    - assert (H0 : length (utf8 (r_extra r)) = 0) by lia. rewrite (utf8_nil _ H0) in *.
      split.
      + intros rest Hd. right. exists bb, n1. split; [|split; easy].
        destruct r as [p f v x]. cbn in *. now rewrite (utf8_nil _ H0).
      + intros Ht. apply truncated_length in Ht. cbn in Ht. lia. }
  split.
  - intros rest Hd. rewrite <- app_assoc in Hd.
    destruct (F1 _ Hd) as [[-> Hnf]|(u & b' & n' & -> & Hf & Hd' & Hfi)]; [now left|].
    destruct (Hparse b' n' Hf) as [H1 _]. specialize (H1 rest Hd').
    change ((parse b' n' = Lost /\ ~ fine n) \/
      exists buf' n'0, parse b' n' = Got r buf' n'0 /\ data n'0 = rest /\ (fine n -> fine n'0)).
    destruct H1 as [[H1 H2]|(b2 & n2 & H1 & H2 & H3)]; [left; tauto | right; exists b2, n2; tauto].
  - intros (s & Hs & Hd).
    destruct (le_lt_dec (length (fixed_part nat_ r)) (length (data n))) as [Hl|Hl].
    + destruct (app_split (data n) s _ _ (eq_sym Hd) Hl) as (q & Hq & Hm2).
      destruct (F1 _ Hq) as [[-> Hnf]|(u & b' & n' & -> & Hf & Hd' & Hfi)]; [easy|].
      destruct (Hparse b' n' Hf) as [_ H2]. change (parse b' n' = Lost). apply H2.
      rewrite Hd'. now exists s.
    + rewrite F2; [easy|]. symmetry in Hd.
      destruct (app_split (fixed_part nat_ r) (utf8 (r_extra r)) (data n) s (eq_sym Hd)) as (q & Hq & _); [lia|].
      exists q. split; [|exact Hq]. intros ->. rewrite app_nil_r in Hq. rewrite Hq in Hl. lia.
Qed.
