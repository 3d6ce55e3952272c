(* Properties of input values and output keys (C51, C53). *)
From Coq Require Import String Ascii List Arith Bool ZArith DecimalString DecimalZ Lia.
From Verif Require Import TextLib ValModel.
Import ListNotations.
Local Open Scope string_scope.
Local Open Scope list_scope.

(* ---------------- positions and slices ---------------- *)

Lemma index_app c x y : has c x = false -> index c (x ++ c :: y) = Some (length x).
Proof.
  induction x; cbn; intros H.
  - now rewrite Ascii.eqb_refl.
  - apply orb_false_iff in H as [E H]. rewrite E, IHx by easy. easy.
Qed.

Lemma index_none c x : index c x = None <-> has c x = false.
Proof.
  induction x; cbn; [easy|]. destruct (Ascii.eqb c a) eqn:E; cbn; [easy|].
  rewrite <- IHx. destruct (index c x); cbn; intuition congruence.
Qed.

Lemma index_some c l n : index c l = Some n ->
  exists x y, l = x ++ c :: y /\ has c x = false /\ length x = n.
Proof.
  revert n. induction l as [|a l IH]; cbn; intros n H; [easy|].
  destruct (Ascii.eqb c a) eqn:E.
  - injection H as <-. apply Ascii.eqb_eq in E as <-. now exists [], l.
  - destruct (index c l) as [m|]; [|easy]. injection H as <-.
    destruct (IH m eq_refl) as (x & y & -> & F & L).
    exists (a :: x), y. cbn. rewrite E, F, L. easy.
Qed.

Lemma slice_mid x y z : slice (length x) (length x + length y) (x ++ y ++ z) = y.
Proof.
  unfold slice. rewrite skipn_app, skipn_all, Nat.sub_diag. cbn [app skipn].
  replace (length x + length y - length x)%nat with (length y) by lia.
  rewrite firstn_app, firstn_all, Nat.sub_diag. cbn. apply app_nil_r.
Qed.

Lemma slice_after d x z e : e = S (length x) -> slice 1 e (d :: x ++ z) = x.
Proof.
  intros ->. change (d :: x ++ z) with ([d] ++ x ++ z).
  change 1%nat with (length [d]). change (S (length x)) with (length [d] + length x)%nat.
  apply slice_mid.
Qed.

Lemma rstrip_keep f x c t : f c = false -> rstrip f (x ++ c :: t) = x ++ c :: rstrip f t.
Proof.
  intros H. unfold rstrip. rewrite rev_app_distr. cbn [rev].
  assert (E : dropw f ((rev t ++ [c]) ++ rev x) = dropw f (rev t) ++ c :: rev x).
  { rewrite <- app_assoc. cbn [app].
    induction (rev t) as [|a l IH]; cbn; [now rewrite H|].
    destruct (f a); [exact IH|easy]. }
  rewrite E, rev_app_distr. cbn [rev]. rewrite rev_involutive, <- app_assoc. reflexivity.
Qed.

Lemma strip_nil f : strip f [] = [].
Proof. reflexivity. Qed.

(* ---------------- reading what was joined ---------------- *)

Lemma split_join sep b f ws :
  sep <> b -> f b = true -> ws <> [] -> Forall (fun w => has sep w = false) ws ->
  map (strip f) (split_on sep (join [sep; b] ws)) = map (strip f) ws.
Proof.
  intros NE FB N F. induction F as [|w ws Hw F IH]; [easy|].
  destruct ws as [|v ws].
  - cbn [join]. rewrite split_on_none by easy. easy.
  - change (join [sep; b] (w :: v :: ws)) with (w ++ sep :: b :: join [sep; b] (v :: ws)).
    rewrite split_on_app by easy. cbn [map]. f_equal.
    specialize (IH ltac:(easy)).
    cbn [split_on]. rewrite (proj2 (Ascii.eqb_neq sep b)) by easy.
    destruct (split_on sep (join [sep; b] (v :: ws))) as [|u us] eqn:E.
    + now apply split_on_nil_not in E.
    + cbn [map] in *. rewrite <- IH. f_equal.
      unfold strip, lstrip. cbn [dropw]. now rewrite FB.
Qed.

Lemma concat_join sep ws w :
  concat (map (fun v => v ++ sep) (ws ++ [w])) = join sep (ws ++ [w]) ++ sep.
Proof.
  induction ws as [|a ws IH]; cbn.
  - now rewrite app_nil_r.
  - rewrite IH. destruct (ws ++ [w]) eqn:E; [now destruct ws|].
    cbn. now rewrite <- !app_assoc.
Qed.

Lemma join_cons sep a ws : ws <> [] -> join sep (a :: ws) = a ++ sep ++ join sep ws.
Proof. now destruct ws. Qed.

Lemma join_last sep ws : exists x, forall v, join sep (ws ++ [v]) = x ++ v.
Proof.
  induction ws as [|a ws [x IH]].
  - exists []. easy.
  - exists (a ++ sep ++ x). intros v. cbn [app]. rewrite join_cons by now destruct ws.
    rewrite IH. now rewrite <- !app_assoc.
Qed.

Lemma has_join c sep ws : has c sep = false -> Forall (fun w => has c w = false) ws ->
  has c (join sep ws) = false.
Proof.
  intros S F. induction F as [|w ws Hw F IH]; [easy|].
  destruct ws; [easy|]. rewrite join_cons by easy.
  now rewrite !has_app, Hw, S, IH.
Qed.

Lemma rstrip_split f w : exists y, w = rstrip f w ++ y /\ Forall (fun c => f c = true) y.
Proof.
  unfold rstrip. assert (H : forall l, exists y, l = y ++ dropw f l /\ Forall (fun c => f c = true) y).
  { induction l as [|a l [y [E F]]]; [now exists []|]. cbn. destruct (f a) eqn:A.
    - exists (a :: y). split; [cbn; congruence|]. constructor; auto.
    - exists []. easy. }
  destruct (H (rev w)) as [y [E F]]. exists (rev y). split.
  - rewrite <- rev_app_distr, <- E, rev_involutive. easy.
  - now apply Forall_rev'.
Qed.

Lemma rstrip_last f w l a : rstrip f w = l ++ [a] -> f a = false.
Proof.
  unfold rstrip. intros E. apply (f_equal (@rev _)) in E. rewrite rev_involutive, rev_app_distr in E.
  cbn in E. revert E. generalize (rev w). induction l0; cbn; [easy|].
  destruct (f a0) eqn:F; auto. intros [= -> _]. easy.
Qed.

(* what write_list leaves: the items joined, the last one stripped *)
Lemma rstrip_items d0 ws w :
  comma_blank d0 = false ->
  rstrip comma_blank w <> [] ->
  rstrip comma_blank (d0 :: concat (map (fun v => v ++ tx ", ") (ws ++ [w]))) =
  d0 :: join (tx ", ") (ws ++ [rstrip comma_blank w]).
Proof.
  intros D N. rewrite concat_join.
  change (d0 :: join (tx ", ") (ws ++ [w]) ++ tx ", ")
    with ((d0 :: join (tx ", ") (ws ++ [w])) ++ tx ", ").
  rewrite rstrip_app by (repeat constructor).
  destruct (join_last (tx ", ") ws) as [x J]. rewrite !J.
  destruct (rstrip_split comma_blank w) as [y [W F]].
  rewrite W at 1. rewrite app_assoc.
  change (d0 :: (x ++ rstrip comma_blank w) ++ y) with ((d0 :: x ++ rstrip comma_blank w) ++ y).
  rewrite rstrip_app by easy.
  destruct (rstrip comma_blank w) as [|a l _] eqn:R using rev_ind; [easy|].
  apply rstrip_last in R. rewrite app_assoc.
  change (d0 :: (x ++ l) ++ [a]) with ((d0 :: x ++ l) ++ [a]).
  rewrite rstrip_keep by easy. reflexivity.
Qed.

Lemma read_written d0 d1 sep f ws :
  d0 <> d1 -> ws <> [] -> f " "%char = true -> sep <> " "%char -> sep <> d1 -> d1 <> " "%char ->
  Forall (fun w => has sep w = false /\ has d1 w = false) ws ->
  ~ (length ws = 1%nat /\ strip f (hd [] ws) = []) ->
  read_list d0 d1 sep f ((d0 :: join [sep; " "%char] ws) ++ [d1]) = Some (map (strip f) ws).
Proof.
  intros ND N FB NS ND1 NB F NE. unfold read_list.
  cbn [app index]. rewrite Ascii.eqb_refl.
  rewrite (proj2 (Ascii.eqb_neq d1 d0)) by congruence.
  rewrite index_app.
  2:{ apply has_join; [|eapply Forall_impl; [|exact F]; intros a [_ H]; exact H].
      cbn. rewrite (proj2 (Ascii.eqb_neq d1 sep)), (proj2 (Ascii.eqb_neq d1 " ")) by congruence. easy. }
  cbn [option_map].
  rewrite slice_after by reflexivity. rewrite split_join; auto.
  2:{ eapply Forall_impl; [|exact F]. now intros a [H _]. }
  rewrite map_length.
  destruct ((length ws =? 1)%nat && eqt (hd [] (map (strip f) ws)) []) eqn:E; [exfalso|easy].
  apply andb_true_iff in E as [E1 E2]. apply Nat.eqb_eq in E1. apply eqt_spec in E2.
  apply NE. split; auto. destruct ws; [easy|]. exact E2.
Qed.

(* ------------------------------------------------------------------ *)
(* C51: lists.  An item has no comma and no closing bracket and does not
   begin or end with a blank or a quote; the last one is not empty. *)

Definition item (d1 : ascii) (w : text) : Prop :=
  has "," w = false /\ has d1 w = false /\ trim set_list w = true.

Lemma not_comma_blank a : set_list a = false -> a <> ","%char -> comma_blank a = false.
Proof.
  intros H N. destruct a as [[] [] [] [] [] [] [] []]; try reflexivity; try discriminate H.
  now destruct N.
Qed.

Lemma item_rstrip d1 w : item d1 w -> rstrip comma_blank w = w.
Proof.
  intros (C & _ & T). destruct w as [|a l _] using rev_ind; [easy|].
  rewrite rstrip_keep; [reflexivity|].
  apply trim_last in T. rewrite has_app in C. apply orb_false_iff in C as [_ C].
  apply not_comma_blank; auto. intros ->. discriminate C.
Qed.

Theorem list_round_trip d0 d1 ws :
  (d0, d1) = ("["%char, "]"%char) \/ (d0, d1) = ("("%char, ")"%char) ->
  Forall (item d1) ws -> last ws [","%char] <> [] ->
  read_list d0 d1 "," set_list (write_list d0 d1 ws) = Some ws.
Proof.
  intros D F L. destruct ws as [|w ws _] using rev_ind.
  { destruct D as [D|D]; injection D as -> ->; reflexivity. }
  rewrite last_last in L. unfold write_list.
  assert (W : rstrip comma_blank w = w).
  { apply Forall_app in F as [_ F]. inversion F; subst. eapply item_rstrip; eauto. }
  rewrite rstrip_items; [|destruct D as [D|D]; injection D as -> ->; reflexivity|now rewrite W].
  rewrite W. change (tx ", ") with [","%char; " "%char].
  assert (S : map (strip set_list) (ws ++ [w]) = ws ++ [w]).
  { rewrite <- (map_id (ws ++ [w])) at 2. apply map_ext_in. intros a I.
    rewrite Forall_forall in F. apply strip_trim. now apply F. }
  rewrite read_written; [f_equal; exact S|..].
  - destruct D as [D|D]; injection D as -> ->; easy.
  - now destruct ws.
  - reflexivity.
  - easy.
  - destruct D as [D|D]; injection D as -> ->; easy.
  - destruct D as [D|D]; injection D as -> ->; easy.
  - eapply Forall_impl; [|exact F]. intros a (A & B & _). easy.
  - intros [E1 E2]. destruct ws as [|v ws].
    + apply L. cbn [app hd] in E2. cbn [app map] in S. injection S as S. rewrite <- S. exact E2.
    + rewrite app_length in E1. cbn in E1. lia.
Qed.
Print Assumptions list_round_trip.

Example list_round_trip_example :
  write_list "[" "]" [tx "a [b"; []; tx "c d"] = tx "[a [b, , c d]" /\
  read_list "[" "]" "," set_list (tx "[a [b, , c d]") = Some [tx "a [b"; []; tx "c d"].
Proof. vm_compute. auto. Qed.

(* False of the code without the condition on the last item: a trailing
   empty item disappears, and a list of one empty item becomes empty. *)
Theorem list_empty_item_refuted :
  exists ws, Forall (item "]") ws /\
    read_list "[" "]" "," set_list (write_list "[" "]" ws) <> Some ws.
Proof.
  exists [tx "a"; []]. split; [repeat constructor|]. vm_compute. congruence.
Qed.
Print Assumptions list_empty_item_refuted.

(* False of the code: quotes around an item are not kept. *)
Theorem list_quotes_refuted :
  exists ws, read_list "[" "]" "," set_list (write_list "[" "]" ws) <> Some ws /\
    Forall (fun w => has "," w = false /\ has "]" w = false /\ trim blank w = true /\ w <> []) ws.
Proof.
  exists [tx "'a'"]. split; [vm_compute; congruence|]. repeat constructor. easy.
Qed.
Print Assumptions list_quotes_refuted.

(* ---------------- integers ---------------- *)

Lemma int_string z : NilZero.int_of_string (NilZero.string_of_int (Z.to_int z)) = Some (Z.to_int z).
Proof.
  apply NilZero.isi.
  - intros E. assert (H := DecimalZ.of_to z). rewrite E in H. cbn in H. subst z. discriminate E.
  - intros E. assert (H := DecimalZ.of_to z). rewrite E in H. cbn in H. subst z. discriminate E.
Qed.

(* the characters of a numeral *)
Definition numeral (a : ascii) : bool := among (tx "0123456789-") a.

Lemma numeral_uint u : Forall (fun a => numeral a = true) (tx (NilEmpty.string_of_uint u)).
Proof. induction u; cbn; repeat constructor; auto. Qed.

Lemma numeral_int z : Forall (fun a => numeral a = true) (show_z z).
Proof.
  unfold show_z. destruct (Z.to_int z) as [u|u]; cbn.
  - destruct u; try apply numeral_uint. repeat constructor.
  - constructor; [reflexivity|]. destruct u; try apply numeral_uint. repeat constructor.
Qed.

Lemma numeral_has c l : Forall (fun a => numeral a = true) l -> numeral c = false -> has c l = false.
Proof.
  intros F N. apply has_not. intros I. rewrite Forall_forall in F. apply F in I. congruence.
Qed.

Lemma numeral_trim f l : Forall (fun a => numeral a = true) l ->
  (forall a, numeral a = true -> f a = false) -> trim f l = true.
Proof.
  intros F H. unfold trim. apply andb_true_iff. split.
  - destruct F; [easy|]. now rewrite H.
  - assert (G := Forall_rev' F). destruct G; [easy|]. now rewrite H.
Qed.

Lemma numeral_not_blank a : numeral a = true -> blank a = false /\ set_list a = false /\ set_dict a = false.
Proof.
  destruct a as [[] [] [] [] [] [] [] []]; vm_compute; intros H; try discriminate; auto.
Qed.

Lemma show_z_not_nil z : show_z z <> [].
Proof.
  unfold show_z. destruct (Z.to_int z) as [u|u]; [|easy]. destruct u; easy.
Qed.

Lemma read_show z : read_int (show_z z) = Some z.
Proof.
  unfold read_int. rewrite strip_trim.
  2:{ eapply numeral_trim; [apply numeral_int|]. intros a H. now apply numeral_not_blank in H. }
  unfold show_z. unfold tx. rewrite string_of_list_ascii_of_string, int_string.
  cbn. now rewrite DecimalZ.of_to.
Qed.

(* C51: tuples of integers *)
Theorem tuple_round_trip zs : read_tuple (write_tuple zs) = Some zs.
Proof.
  unfold read_tuple, write_tuple. rewrite list_round_trip.
  - rewrite map_map. induction zs as [|z zs IH]; [reflexivity|].
    cbn [map all_some]. rewrite read_show, IH. reflexivity.
  - now right.
  - apply Forall_map, Forall_forall. intros z _. assert (N := numeral_int z).
    repeat split; try (apply numeral_has with (1 := N); reflexivity).
    eapply numeral_trim; [exact N|]. intros a H. now apply numeral_not_blank in H.
  - destruct zs as [|z zs _] using rev_ind; [easy|]. rewrite map_app. cbn [map]. rewrite last_last.
    apply show_z_not_nil.
Qed.
Print Assumptions tuple_round_trip.

Example tuple_round_trip_example : write_tuple [0; -12; 345]%Z = tx "(0, -12, 345)".
Proof. vm_compute. reflexivity. Qed.

(* C51: booleans *)
Theorem bool_round_trip b : read_bool (write_bool b) = Some b.
Proof. destruct b; vm_compute; reflexivity. Qed.
Print Assumptions bool_round_trip.

(* anything else is refused *)
Theorem bool_read data b :
  read_bool data = Some b -> upper (strip blank data) = tx (if b then "TRUE" else "FALSE").
Proof.
  unfold read_bool. destruct (eqt _ (tx "TRUE")) eqn:E.
  - intros [= <-]. now apply eqt_spec.
  - destruct (eqt _ (tx "FALSE")) eqn:E2; [|easy]. intros [= <-]. now apply eqt_spec.
Qed.
Print Assumptions bool_read.

Example bool_read_example : read_bool (tx " tRue ") = Some true /\ read_bool (tx "yes") = None.
Proof. vm_compute. auto. Qed.

(* ------------------------------------------------------------------ *)
(* C51: dictionaries, whatever the texts of floats are, as long as True
   and False are none of them. *)

Definition plain (w : text) : Prop :=
  has "," w = false /\ has "}" w = false /\ trim blank w = true.

Definition storable (is_float : text -> bool) (v : value) : Prop :=
  match v with
  | VInt _ | VBool _ => True
  | VFloat t => plain t /\ is_float t = true /\ read_int t = None
  | VStr t => plain t /\ is_float t = false /\ read_int t = None /\
              lower t <> tx "true" /\ lower t <> tx "false"
  end.

Definition key (k : text) : Prop :=
  has "," k = false /\ has "}" k = false /\ has ":" k = false /\ trim set_dict k = true.

Lemma show_plain is_float v : storable is_float v -> plain (show v).
Proof.
  destruct v; cbn; try tauto.
  - intros _. assert (N := numeral_int z).
    repeat split; try (apply numeral_has with (1 := N); reflexivity).
    eapply numeral_trim; [exact N|]. intros a H. now apply numeral_not_blank in H.
  - intros _. destruct b; repeat split.
Qed.

Lemma read_value_show is_float v :
  is_float (tx "True") = false -> is_float (tx "False") = false ->
  storable is_float v -> read_value is_float (show v) = v.
Proof.
  intros HT HF H. assert (P := show_plain _ _ H). unfold read_value.
  rewrite strip_trim by apply P. destruct v; cbn [storable show] in *.
  - now rewrite read_show.
  - destruct H as (_ & E & ->). now rewrite E.
  - destruct b.
    + rewrite HT. reflexivity.
    + rewrite HF. reflexivity.
  - destruct H as (_ & E & -> & N1 & N2). rewrite E.
    now rewrite (eqt_neq N1), (eqt_neq N2).
Qed.

Lemma strip_strip_value w : trim blank w = true ->
  strip blank (strip set_dict (rstrip set_dict (" "%char :: w))) = w.
Proof.
  intros T. assert (S : trim set_dict w = true).
  { unfold trim in *. apply andb_true_iff in T as [T1 T2]. apply andb_true_iff. split.
    - destruct w; [easy|]. apply negb_true_iff in T1. apply negb_true_iff.
      destruct a as [[] [] [] [] [] [] [] []]; try reflexivity; discriminate T1.
    - destruct (rev w); [easy|]. apply negb_true_iff in T2. apply negb_true_iff.
      destruct a as [[] [] [] [] [] [] [] []]; try reflexivity; discriminate T2. }
  destruct w as [|a w _] using rev_ind; [reflexivity|].
  change (" "%char :: w ++ [a]) with ((" "%char :: w) ++ [a]).
  rewrite rstrip_keep by (now apply trim_last in S). change (rstrip set_dict []) with (@nil ascii).
  change ((" "%char :: w) ++ [a]) with ([" "%char] ++ w ++ [a]).
  replace ([" "%char] ++ w ++ [a]) with ([" "%char] ++ (w ++ [a]) ++ []) by now rewrite app_nil_r.
  rewrite strip_pad by (auto; repeat constructor). now apply strip_trim.
Qed.

(* the text of one entry *)
Definition entry (kv : text * value) : text := fst kv ++ tx ": " ++ show (snd kv).

Lemma entry_strip is_float kv :
  key (fst kv) -> storable is_float (snd kv) ->
  strip set_dict (entry kv) = fst kv ++ ":"%char :: rstrip set_dict (" "%char :: show (snd kv)).
Proof.
  intros (_ & _ & _ & T) _. unfold entry. change (tx ": ") with [":"%char; " "%char]. cbn [app].
  unfold strip. replace (lstrip set_dict (fst kv ++ ":"%char :: " "%char :: show (snd kv)))
    with (fst kv ++ ":"%char :: " "%char :: show (snd kv)).
  - apply rstrip_keep. reflexivity.
  - destruct (fst kv) as [|a k]; [reflexivity|]. unfold lstrip. cbn [app].
    rewrite dropw_head; [easy|]. now apply trim_head in T.
Qed.

Lemma set_key_new A k (v : A) d : ~ In k (map fst d) -> set_key k v d = d ++ [(k, v)].
Proof.
  induction d as [|[k' v'] d IH]; cbn; intros N; [easy|].
  rewrite eqt_neq by intuition. now rewrite IH by intuition.
Qed.

Lemma read_items_entries is_float kvs :
  is_float (tx "True") = false -> is_float (tx "False") = false ->
  Forall (fun kv => key (fst kv) /\ storable is_float (snd kv)) kvs ->
  forall d, NoDup (map fst (d ++ kvs)) ->
  read_items is_float (map (fun kv => strip set_dict (entry kv)) kvs) d = Some (d ++ kvs).
Proof.
  intros HT HF F. induction F as [|[k v] kvs [K V] F IH]; intros d N; cbn [map read_items].
  - now rewrite app_nil_r.
  - cbn [fst snd] in *.
    rewrite (entry_strip is_float) by easy. cbn [fst snd].
    rewrite cut_app by apply K. rewrite strip_trim by apply K.
    assert (P := show_plain _ _ V).
    replace (read_value is_float (strip set_dict (rstrip set_dict (" "%char :: show v)))) with v.
    2:{ unfold read_value. rewrite strip_strip_value by apply P.
        rewrite <- (read_value_show is_float v) at 1 by easy. unfold read_value.
        now rewrite (strip_trim blank (show v)) by apply P. }
    rewrite set_key_new.
    + rewrite IH; rewrite <- app_assoc; easy.
    + rewrite map_app in N. apply NoDup_remove_2 in N. rewrite in_app_iff in N. tauto.
Qed.

Lemma rstrip_idem_entry is_float kv :
  key (fst kv) -> storable is_float (snd kv) ->
  has "," (show (snd kv)) = false ->
  rstrip comma_blank (entry kv) <> [] /\
  strip set_dict (rstrip comma_blank (entry kv)) = strip set_dict (entry kv).
Proof.
  intros K V C. assert (P := show_plain _ _ V). unfold entry.
  change (tx ": ") with [":"%char; " "%char]. cbn [app].
  rewrite rstrip_keep by reflexivity. split; [now destruct (fst kv)|].
  destruct (show (snd kv)) as [|a w _] eqn:E using rev_ind.
  - change (rstrip comma_blank [" "%char]) with (@nil ascii).
    change (fst kv ++ [":"%char; " "%char]) with (fst kv ++ [":"%char] ++ [" "%char]).
    rewrite (app_assoc (fst kv) [":"%char]). unfold strip.
    assert (L : forall t, lstrip set_dict (fst kv ++ ":"%char :: t) = fst kv ++ ":"%char :: t).
    { intros t. destruct (fst kv) as [|b k]; [reflexivity|]. unfold lstrip. cbn [app].
      rewrite dropw_head; [easy|]. eapply trim_head. apply K. }
    rewrite L. rewrite <- app_assoc. cbn [app]. rewrite L.
    rewrite !rstrip_keep by reflexivity. reflexivity.
  - change (" "%char :: w ++ [a]) with ((" "%char :: w) ++ [a]).
    rewrite rstrip_keep; [reflexivity|].
    assert (T : trim blank (w ++ [a]) = true) by apply P.
    apply trim_last in T. rewrite has_app in C. apply orb_false_iff in C as [_ C].
    destruct a as [[] [] [] [] [] [] [] []]; try reflexivity; try discriminate T; discriminate C.
Qed.

Theorem dict_round_trip is_float kvs :
  is_float (tx "True") = false -> is_float (tx "False") = false ->
  Forall (fun kv => key (fst kv) /\ storable is_float (snd kv)) kvs ->
  NoDup (map fst kvs) ->
  read_dict is_float (write_dict kvs) = Some kvs.
Proof.
  intros HT HF F N. destruct kvs as [|kv kvs _] using rev_ind; [reflexivity|].
  assert (W : write_dict (kvs ++ [kv]) =
    rstrip comma_blank ("{"%char :: concat (map (fun v => v ++ tx ", ") (map entry (kvs ++ [kv])))) ++ tx "}").
  { unfold write_dict, strip. cbn [lstrip dropw]. change (comma_blank "{"%char) with false. cbv iota.
    do 3 f_equal. rewrite map_map. f_equal. apply map_ext. intros x. unfold entry. now rewrite <- !app_assoc. }
  rewrite W, map_app. cbn [map].
  assert (G := F). apply Forall_app in G as [_ G]. inversion G as [|? ? [K V] _]; subst.
  assert (P := show_plain _ _ V).
  destruct (rstrip_idem_entry is_float kv K V (proj1 P)) as [NE SE].
  rewrite rstrip_items by easy.
  unfold read_dict. change (tx ", ") with [","%char; " "%char]. change (tx "}") with ["}"%char].
  rewrite read_written; try easy.
  - rewrite map_app. cbn [map]. rewrite SE.
    change [strip set_dict (entry kv)] with (map (strip set_dict) [entry kv]).
    rewrite <- map_app. change [entry kv] with (map entry [kv]). rewrite <- map_app, map_map.
    rewrite (read_items_entries is_float _ HT HF F []) by easy. reflexivity.
  - now destruct (map entry kvs).
  - apply Forall_app. split.
    + apply Forall_map, Forall_forall. intros x I. apply Forall_app in F as [F _].
      rewrite Forall_forall in F. destruct (F x I) as [Kx Vx]. assert (Px := show_plain _ _ Vx).
      unfold entry. rewrite !has_app. destruct Kx as (-> & -> & _). destruct Px as (-> & -> & _). easy.
    + constructor; [|constructor]. destruct (rstrip_split comma_blank (entry kv)) as [y [E _]].
      assert (H : has "," (entry kv) = false /\ has "}" (entry kv) = false).
      { unfold entry. rewrite !has_app. destruct K as (-> & -> & _). destruct P as (-> & -> & _). easy. }
      rewrite E in H. rewrite !has_app in H. destruct H as [H1 H2].
      apply orb_false_iff in H1 as [H1 _]. apply orb_false_iff in H2 as [H2 _]. easy.
  - intros [E1 E2]. destruct kvs; [|rewrite app_length, map_length in E1; cbn in E1; lia].
    cbn [map app hd] in E2. rewrite SE, (entry_strip is_float) in E2 by easy.
    now destruct (fst kv).
Qed.
Print Assumptions dict_round_trip.

Definition no_float (t : text) : bool := false.

Example dict_round_trip_example :
  read_dict no_float (write_dict [(tx "a", VInt (-3)); (tx "file", VStr (tx "c:/x y")); (tx "on", VBool true); (tx "e", VStr [])])
  = Some [(tx "a", VInt (-3)); (tx "file", VStr (tx "c:/x y")); (tx "on", VBool true); (tx "e", VStr [])].
Proof. vm_compute. reflexivity. Qed.

(* False of the code for all strings: a string that looks like a number
   or a boolean comes back as one. *)
Theorem dict_string_type_refuted :
  exists kvs, Forall (fun kv => key (fst kv) /\ plain (show (snd kv))) kvs /\ NoDup (map fst kvs) /\
    forall is_float, read_dict is_float (write_dict kvs) <> Some kvs.
Proof.
  exists [(tx "label", VStr (tx "12"))]. split; [|split].
  - repeat constructor.
  - repeat constructor. intros [].
  - intros is_float. assert (E : read_dict is_float (write_dict [(tx "label", VStr (tx "12"))]) =
      Some [(tx "label", VInt 12)]) by (vm_compute; reflexivity).
    rewrite E. congruence.
Qed.
Print Assumptions dict_string_type_refuted.

(* ------------------------------------------------------------------ *)
(* C53: output keys.  The written form of a key. *)

Definition free_of (cs : string) (t : text) : Prop := Forall (fun c => has c t = false) (tx cs).

(* name(arg;arg){unit} or name{unit}(arg;arg), any part may be absent *)
Definition args_part (args : list text) : text := "("%char :: join [";"%char] args ++ [")"%char].
Definition unit_part (unit : text) : text := "{"%char :: unit ++ ["}"%char].

(* an argument, with the blanks around it that reading removes *)
Definition argument (a : text) : Prop := free_of "(){};" a /\ trim set_list a = true.

(* the positional and the keyword arguments of a list *)
Definition positional (args : list text) : list text := filter (fun a => negb (has "=" a)) args.
Definition keywords (args : list text) : list (text * text) :=
  fold_left (fun d a => match cut "=" a with
                        | Some (k, v) => set_key (strip blank k) (strip blank v) d
                        | None => d end) args [].

Lemma filter_filter A (f g : A -> bool) l :
  (forall x, f x = true -> g x = true) -> filter f (filter g l) = filter f l.
Proof.
  intros H. induction l as [|a l IH]; [easy|]. cbn. destruct (g a) eqn:E; cbn.
  - now rewrite IH.
  - destruct (f a) eqn:F; [apply H in F; congruence|easy].
Qed.

Lemma split_args_spec todo : forall args kw,
  (forall a, In a args -> has "=" a = true -> In a todo) ->
  split_args todo args kw =
  (positional args,
   fold_left (fun d a => match cut "=" a with
                        | Some (k, v) => set_key (strip blank k) (strip blank v) d
                        | None => d end) todo kw).
Proof.
  induction todo as [|t todo IH]; intros args kw H; cbn [split_args fold_left].
  - f_equal. unfold positional. symmetry.
    rewrite <- (filter_ext_in (fun _ => true)).
    + now induction args as [|a args IHa]; cbn; [|rewrite IHa; [|firstorder]].
    + intros a I. destruct (has "=" a) eqn:E; [|easy]. destruct (H a I E).
  - destruct (cut "=" t) as [[k v]|] eqn:C.
    + rewrite IH.
      * f_equal. unfold positional. apply filter_filter. intros x X.
        apply negb_true_iff in X. apply negb_true_iff. apply eqt_neq. intros ->.
        apply cut_none in X. congruence.
      * intros a I E. apply filter_In in I as [I NE]. destruct (H a I E) as [-> |]; auto.
        now rewrite eqt_refl in NE.
    + rewrite IH; auto. intros a I E. destruct (H a I E) as [-> |]; auto.
      apply cut_none in C. congruence.
Qed.

Lemma split_strip f sep ws : ws <> [] -> Forall (fun w => has sep w = false /\ trim f w = true) ws ->
  map (strip f) (split_on sep (join [sep] ws)) = ws.
Proof.
  intros N F. rewrite split_on_join; auto.
  - rewrite <- (map_id ws) at 2. apply map_ext_in. intros a I. rewrite Forall_forall in F.
    apply strip_trim. now apply F.
  - eapply Forall_impl; [|exact F]. now intros a [].
Qed.

Lemma free_has cs c t : free_of cs t -> In c (tx cs) -> has c t = false.
Proof. unfold free_of. rewrite Forall_forall. auto. Qed.

Ltac fr := match goal with
  | H : free_of ?cs ?t |- has ?c ?t = false => apply (free_has cs c t H); cbn; tauto
  end.

Lemma read_args args :
  Forall argument args -> args <> [[]] ->
  read_list "(" ")" ";" set_list (args_part args) = Some args.
Proof.
  intros F N. unfold read_list, args_part. cbn [index]. 
  change (Ascii.eqb "(" "(") with true. change (Ascii.eqb ")" "(") with false. cbv iota.
  rewrite index_app.
  2:{ apply has_join; [reflexivity|]. eapply Forall_impl; [|exact F]. intros a [H _]. fr. }
  cbn [option_map]. rewrite slice_after by reflexivity.
  destruct args as [|a args]; [reflexivity|].
  rewrite split_strip.
  - destruct args; [|reflexivity]. cbn. rewrite eqt_neq; [easy|]. intros ->. now destruct N.
  - easy.
  - eapply Forall_impl; [|exact F]. intros x [H T]. split; [fr|easy].
Qed.

Lemma has_args c args : Ascii.eqb c "(" = false -> Ascii.eqb c ")" = false -> Ascii.eqb c ";" = false ->
  Forall (fun w => has c w = false) args -> has c (args_part args) = false.
Proof.
  intros E1 E2 E3 F. unfold args_part. cbn [has]. rewrite E1, has_app. cbn [has]. rewrite E2.
  rewrite has_join; auto. cbn. now rewrite E3.
Qed.

Lemma firstn_len A (x y : list A) : firstn (length x) (x ++ y) = x.
Proof. rewrite firstn_app, Nat.sub_diag, firstn_all. cbn. apply app_nil_r. Qed.

Lemma skipn_len A (x y : list A) : skipn (length x) (x ++ y) = y.
Proof. rewrite skipn_app, Nat.sub_diag, skipn_all. easy. Qed.

(* name{unit} found at the place where it is *)
Lemma find_unit x unit y :
  has "{" x = false -> has "}" unit = false ->
  get_unit (x ++ unit_part unit ++ y) = Some (unit, Some (length x)).
Proof.
  intros HX HU. unfold get_unit, unit_part.
  replace (has "}" (x ++ ("{"%char :: unit ++ ["}"%char]) ++ y)) with true.
  2:{ rewrite !has_app. cbn [has]. rewrite has_app. cbn.
      now rewrite !orb_true_r. }
  cbn [app]. rewrite index_app by easy. unfold find_from. rewrite skipn_len. cbn [index].
  change (Ascii.eqb "}" "{") with false. cbv iota. rewrite <- app_assoc. cbn [app].
  rewrite index_app by easy. cbn [option_map].
  change (x ++ "{"%char :: unit ++ "}"%char :: y) with (x ++ ["{"%char] ++ unit ++ ("}"%char :: y)).
  rewrite (app_assoc x ["{"%char]).
  replace (S (length x)) with (length (x ++ ["{"%char])) by (rewrite app_length; cbn; lia).
  replace (length x + S (length unit))%nat with (length (x ++ ["{"%char]) + length unit)%nat
    by (rewrite app_length; cbn; lia).
  now rewrite slice_mid.
Qed.

Lemma find_args x args y :
  has "(" x = false -> Forall argument args -> args <> [[]] ->
  (if has "(" (x ++ args_part args ++ y) then
     match index "(" (x ++ args_part args ++ y) with
     | Some st =>
       match find_from ")" st (x ++ args_part args ++ y) with
       | Some e =>
         match read_list "(" ")" ";" set_list (slice st (S e) (x ++ args_part args ++ y)) with
         | Some l => Some (split_args l l [], st)
         | None => None
         end
       | None => None
       end
     | None => None
     end
   else Some (([], []), len (x ++ args_part args ++ y))) =
  Some ((positional args, keywords args), length x).
Proof.
  intros HX F N.
  replace (has "(" (x ++ args_part args ++ y)) with true.
  2:{ rewrite !has_app. cbn [args_part has]. change (Ascii.eqb "(" "(") with true.
      now rewrite !orb_true_r. }
  assert (I : index "(" (x ++ args_part args ++ y) = Some (length x)).
  { unfold args_part. cbn [app]. now apply index_app. }
  rewrite I. unfold find_from. rewrite skipn_len.
  assert (J : index ")" (args_part args ++ y) = Some (S (length (join [";"%char] args)))).
  { unfold args_part. cbn [app index]. change (Ascii.eqb ")" "(") with false. cbv iota.
    rewrite <- app_assoc. cbn [app]. rewrite index_app; [reflexivity|].
    apply has_join; [reflexivity|]. eapply Forall_impl; [|exact F]. intros a [H _]. fr. }
  rewrite J. cbn [option_map].
  replace (S (length x + S (length (join [";"%char] args))))%nat
    with (length x + length (args_part args))%nat
    by (unfold args_part; cbn [length]; rewrite app_length; cbn; lia).
  rewrite slice_mid, read_args by easy.
  rewrite split_args_spec by auto. reflexivity.
Qed.

Lemma no_unit s : has "}" s = false -> get_unit s = Some ([], Some (len s)).
Proof. intros H. unfold get_unit. now rewrite H. Qed.

(* A key: a name, perhaps arguments, perhaps a unit, in either order. *)
Definition name (n : text) : Prop := free_of "(){};" n /\ trim blank n = true.
Definition unit_name (u : text) : Prop := free_of "(){};" u.

Lemma args_free c args : Forall argument args -> In c (tx "{}") -> has c (args_part args) = false.
Proof.
  intros F I. apply has_args.
  - destruct I as [<-|[<-|[]]]; reflexivity.
  - destruct I as [<-|[<-|[]]]; reflexivity.
  - destruct I as [<-|[<-|[]]]; reflexivity.
  - eapply Forall_impl; [|exact F]. intros a [H _]. apply (free_has _ _ _ H). cbn in *. tauto.
Qed.

Theorem key_args_unit n args u :
  name n -> unit_name u -> Forall argument args -> args <> [[]] ->
  getall (n ++ args_part args ++ unit_part u) = Some (n, u, positional args, keywords args).
Proof.
  intros [HN TN] HU F N. unfold unit_name in HU. unfold getall.
  rewrite app_assoc. rewrite <- (app_nil_r (unit_part u)).
  rewrite find_unit; [|rewrite has_app, (free_has _ _ _ HN), args_free; cbn; tauto|fr].
  rewrite <- app_assoc, app_nil_r.
  rewrite (find_args n args (unit_part u)) by (auto; fr).
  rewrite app_length, Nat.min_r by lia. rewrite firstn_len, strip_trim; auto.
Qed.
Print Assumptions key_args_unit.

Theorem key_unit_args n args u :
  name n -> unit_name u -> Forall argument args -> args <> [[]] ->
  getall (n ++ unit_part u ++ args_part args) = Some (n, u, positional args, keywords args).
Proof.
  intros [HN TN] HU F N. unfold unit_name in HU. unfold getall.
  rewrite find_unit by fr.
  rewrite (app_assoc n), <- (app_nil_r (args_part args)).
  rewrite (find_args (n ++ unit_part u) args []).
  - rewrite <- app_assoc, app_length, Nat.min_l by lia. rewrite firstn_len, strip_trim; auto.
  - unfold unit_part. rewrite has_app. cbn [has]. rewrite has_app.
    rewrite (free_has _ _ _ HN), (free_has _ _ _ HU); cbn; tauto.
  - easy.
  - easy.
Qed.
Print Assumptions key_unit_args.

Theorem key_args n args :
  name n -> Forall argument args -> args <> [[]] ->
  getall (n ++ args_part args) = Some (n, [], positional args, keywords args).
Proof.
  intros [HN TN] F N. unfold getall. rewrite no_unit.
  2:{ rewrite has_app, (free_has _ _ _ HN), args_free; cbn; tauto. }
  rewrite <- (app_nil_r (args_part args)). rewrite find_args by (auto; fr).
  rewrite app_nil_r. unfold len. rewrite app_length, Nat.min_r by lia.
  rewrite firstn_len, strip_trim; auto.
Qed.
Print Assumptions key_args.

Theorem key_unit n u :
  name n -> unit_name u -> getall (n ++ unit_part u) = Some (n, u, [], []).
Proof.
  intros [HN TN] HU. unfold unit_name in HU. unfold getall. rewrite <- (app_nil_r (unit_part u)).
  rewrite find_unit by fr. rewrite app_nil_r.
  replace (has "(" (n ++ unit_part u)) with false.
  2:{ unfold unit_part. rewrite has_app. cbn [has]. rewrite has_app.
      rewrite (free_has _ _ _ HN), (free_has _ _ _ HU); cbn; tauto. }
  unfold len. rewrite app_length, Nat.min_l by lia. rewrite firstn_len, strip_trim; auto.
Qed.
Print Assumptions key_unit.

Theorem key_bare n : name n -> getall n = Some (n, [], [], []).
Proof.
  intros [HN TN]. unfold getall. rewrite no_unit by fr.
  replace (has "(" n) with false by (symmetry; fr).
  unfold len. rewrite Nat.min_id, firstn_all, strip_trim; auto.
Qed.
Print Assumptions key_bare.

Example key_example :
  getall (tx "atom_f(atom=H;3){ev/ang}") =
  Some (tx "atom_f", tx "ev/ang", [tx "3"], [(tx "atom", tx "H")]).
Proof. vm_compute. reflexivity. Qed.

Example key_example_hyps :
  name (tx "atom_f") /\ unit_name (tx "ev/ang") /\ Forall argument [tx "atom=H"; tx "3"] /\
  positional [tx "atom=H"; tx "3"] = [tx "3"] /\ keywords [tx "atom=H"; tx "3"] = [(tx "atom", tx "H")].
Proof. repeat split; repeat constructor. Qed.

(* The two functions agree on the name of every key whose braces come in
   pairs, well formed or not. *)
Theorem getkey_agrees s n u args kw :
  getall s = Some (n, u, args, kw) -> (has "{" s = has "}" s) -> getkey s = n.
Proof.
  unfold getall, getkey, get_unit. intros H B.
  destruct (has "}" s) eqn:R.
  - destruct (index "{" s) as [st|] eqn:I; [|apply index_none in I; congruence].
    destruct (find_from "}" st s); [|easy].
    destruct (has "(" s) eqn:P.
    + destruct (index "(" s) as [pa|] eqn:IP; [|easy].
      destruct (find_from ")" pa s); [|easy].
      destruct (read_list _ _ _ _ _) as [l|]; [|easy].
      destruct (split_args l l []) as [a k]. injection H as <- _ _ _. now rewrite Nat.min_comm.
    + injection H as <- _ _ _. apply index_none in P. rewrite P. now rewrite Nat.min_comm.
  - apply index_none in B. rewrite B.
    destruct (has "(" s) eqn:P.
    + destruct (index "(" s) as [pa|] eqn:IP; [|easy].
      destruct (find_from ")" pa s); [|easy].
      destruct (read_list _ _ _ _ _) as [l|]; [|easy].
      destruct (split_args l l []) as [a k]. injection H as <- _ _ _. now rewrite Nat.min_comm.
    + injection H as <- _ _ _. apply index_none in P. rewrite P. first [reflexivity | now rewrite Nat.min_comm].
Qed.
Print Assumptions getkey_agrees.

Example getkey_example : getkey (tx " x_centroid {angstrom}(0)") = tx "x_centroid".
Proof. vm_compute. reflexivity. Qed.

(* False of the code: a key with a closing brace and no opening one is
   not an error, the name itself is taken as the unit. *)
Theorem stray_brace_refuted :
  exists s, has "{" s = false /\ has "}" s = true /\
    getall s = Some (tx "potential", tx "potential", [], []).
Proof. exists (tx "potential}"). vm_compute. auto. Qed.
Print Assumptions stray_brace_refuted.

(* False of the code: an opening brace that is not closed is not an
   error either, it becomes part of the name. *)
Theorem open_brace_refuted :
  exists s n u args kw, getall s = Some (n, u, args, kw) /\ has "{" n = true /\ getkey s <> n.
Proof.
  exists (tx "potential{ev"), (tx "potential{ev"), [], [], []. vm_compute. repeat split. congruence.
Qed.
Print Assumptions open_brace_refuted.

(* ---------------- dictionaries in general ---------------- *)

Fixpoint value_of (k : text) (d : list (text * value)) : option value :=
  match d with
  | [] => None
  | (k', v) :: r => if eqt k k' then Some v else value_of k r
  end.

Lemma value_set k v d k' : value_of k' (set_key k v d) = if eqt k' k then Some v else value_of k' d.
Proof.
  induction d as [|[a b] d IH]; cbn [set_key value_of]; [reflexivity|].
  destruct (eqt k a) eqn:E.
  - apply eqt_spec in E as ->. cbn [value_of]. destruct (eqt k' a); reflexivity.
  - cbn [value_of]. rewrite IH. destruct (eqt k' a) eqn:E'; [|reflexivity].
    apply eqt_spec in E' as ->. destruct (eqt a k) eqn:F; [|reflexivity].
    apply eqt_spec in F as ->. now rewrite eqt_refl in E.
Qed.

(* what the items say about a key: the last one counts *)
Fixpoint said (is_float : text -> bool) (k : text) (items : list (text * text)) (before : option value) : option value :=
  match items with
  | [] => before
  | (a, b) :: r => said is_float k r (if eqt k (strip set_dict a) then Some (read_value is_float (strip set_dict b)) else before)
  end.

Theorem dict_last_item_counts is_float items d :
  Forall (fun ab => has ":" (fst ab) = false) items ->
  exists r, read_items is_float (map (fun ab => fst ab ++ ":"%char :: snd ab) items) d = Some r /\
    forall k, value_of k r = said is_float k items (value_of k d).
Proof.
  intros F. revert d. induction F as [|[a b] items A F IH]; intros d.
  - now exists d.
  - cbn [map fst snd read_items]. cbn [fst] in A. rewrite cut_app by easy.
    destruct (IH (set_key (strip set_dict a) (read_value is_float (strip set_dict b)) d)) as (r & R & V).
    exists r. split; [exact R|]. intros k. rewrite V, value_set. reflexivity.
Qed.
Print Assumptions dict_last_item_counts.

Example dict_twice : read_dict (fun _ => false) (tx "{ a : 1, b:yes, a: 2 }") =
  Some [(tx "a", VInt 2); (tx "b", VStr (tx "yes"))].
Proof. vm_compute. reflexivity. Qed.

(* an item without a colon is refused *)
Theorem dict_colon_needed is_float l d :
  read_items is_float l d = None <-> exists s, In s l /\ has ":" s = false.
Proof.
  revert d. induction l as [|s l IH]; intros d; cbn [read_items].
  - split; [easy|]. now intros (s & [] & _).
  - destruct (cut ":" s) as [[k v]|] eqn:C.
    + rewrite IH. split.
      * intros (t & I & H). exists t. split; [now right|easy].
      * intros (t & [<-|I] & H); [|now exists t]. apply cut_none in H. congruence.
    + split; [|easy]. intros _. exists s. split; [now left|]. now apply cut_none.
Qed.
Print Assumptions dict_colon_needed.

Example dict_no_colon : read_dict (fun _ => false) (tx "{a: 1, b}") = None.
Proof. vm_compute. reflexivity. Qed.
