(* The text of an array is read back. *)
From Coq Require Import String Ascii List Arith Bool ZArith Lia.
From Verif Require Import TextLib XmlModel ValModel ValProps InpModel.
Import ListNotations.
Local Open Scope list_scope.
Local Open Scope nat_scope.

Definition space (a : ascii) : bool := Ascii.eqb a " ".
Definition spaces (w : text) : Prop := Forall (fun a => space a = true) w.

Lemma spaces_has w c : spaces w -> c <> " "%char -> has c w = false.
Proof.
  intros H N. induction H as [|a w Ha _ IH]; auto. cbn [has]. rewrite IH, orb_false_r.
  unfold space in Ha. apply Ascii.eqb_eq in Ha. subst. now apply Ascii.eqb_neq.
Qed.

Lemma spaces_app x y : spaces x -> spaces y -> spaces (x ++ y).
Proof. intros; apply Forall_app; auto. Qed.

Lemma space_set a : space a = true -> set_list a = true /\ blank a = true /\ white a = true.
Proof. unfold space. intros H. apply Ascii.eqb_eq in H. subst. auto. Qed.

(* a bracketed list with something before and something after it *)
Lemma read_list_padded pad c rest sep f :
  has "[" pad = false -> has "]" pad = false -> has "]" c = false ->
  read_list "[" "]" sep f (pad ++ "["%char :: c ++ "]"%char :: rest)
  = let rlist := map (strip f) (split_on sep c) in
    Some (if (length rlist =? 1) && eqt (hd [] rlist) [] then [] else rlist).
Proof.
  intros P1 P2 C. unfold read_list.
  rewrite index_app by auto.
  assert (E : index "]" (pad ++ "["%char :: c ++ "]"%char :: rest) = Some (length pad + S (length c))).
  { replace (pad ++ "["%char :: c ++ "]"%char :: rest) with ((pad ++ "["%char :: c) ++ "]"%char :: rest)
      by now rewrite <- app_assoc.
    rewrite index_app.
    - f_equal. rewrite app_length. reflexivity.
    - rewrite has_app, P2. cbn [has orb]. exact C. }
  rewrite E. cbv zeta.
  replace (slice (S (length pad)) (length pad + S (length c)) (pad ++ "["%char :: c ++ "]"%char :: rest)) with c;
    [reflexivity|].
  replace (pad ++ "["%char :: c ++ "]"%char :: rest) with ((pad ++ ["["%char]) ++ c ++ "]"%char :: rest)
    by now rewrite <- app_assoc.
  replace (S (length pad)) with (length (pad ++ ["["%char])) by (rewrite app_length; cbn; lia).
  replace (length pad + S (length c)) with (length (pad ++ ["["%char]) + length c) by (rewrite app_length; cbn; lia).
  now rewrite slice_mid.
Qed.

Lemma strip_front f x w : Forall (fun a => f a = true) x -> strip f (x ++ w) = strip f w.
Proof.
  intros H. unfold strip, lstrip. now rewrite dropw_app_all.
Qed.

Lemma strip_back f w y : Forall (fun a => f a = true) y -> strip f (w ++ y) = strip f w.
Proof.
  intros H. unfold strip, lstrip. induction w as [|a w IH].
  - cbn [app dropw]. rewrite dropw_all by auto. reflexivity.
  - cbn [app dropw]. destruct (f a) eqn:A; [exact IH|].
    change (a :: w ++ y) with ((a :: w) ++ y). now rewrite rstrip_app.
Qed.

Lemma strip_rstrip f g w : (forall a, g a = true -> has a w = true -> f a = true) ->
  strip f (rstrip g w) = strip f w.
Proof.
  intros H. destruct (rstrip_split g w) as (y & E & Y).
  rewrite E at 2. rewrite strip_back; auto.
  rewrite Forall_forall in *. intros a I. apply H; auto. apply has_in. rewrite E. apply in_or_app. now right.
Qed.

Section Array.
Variable F : Type.
Variable fwr : F -> text.
Notation wr := (wr F fwr).
Notation array_items := (array_items F fwr).
Notation array_text := (array_text F fwr).

Definition array_sep (big : bool) (indent : text) (i : nat) : text :=
  if big && (0 <? i) && (i mod ELPERLINE =? 0) then [nl] ++ indent ++ tx "   " else [].

Fixpoint array_words (d : dtype) (big : bool) (indent : text) (i : nat) (l : list (val F)) : list text :=
  match l with
  | [] => []
  | v :: r => (array_sep big indent i ++ wr d v) :: array_words d big indent (S i) r
  end.

Lemma array_items_words d big indent l : forall i,
  array_items d big indent i l = concat (map (fun v => v ++ tx ", ") (array_words d big indent i l)).
Proof.
  induction l as [|v l IH]; intros i; [reflexivity|].
  cbn [InpModel.array_items array_words map concat]. rewrite IH. unfold array_sep.
  now rewrite <- !app_assoc.
Qed.

Definition item_ok (w : text) : Prop :=
  has "," w = false /\ has "]" w = false /\ strip set_list w <> [].

Lemma sep_blank big indent i : spaces indent ->
  Forall (fun a => set_list a = true) (array_sep big indent i)
  /\ (forall c, c <> " "%char -> c <> nl -> has c (array_sep big indent i) = false).
Proof.
  intros H. unfold array_sep. destruct (big && (0 <? i) && (i mod ELPERLINE =? 0)).
  - split.
    + apply Forall_app. split; [repeat constructor|]. apply Forall_app. split; [|repeat constructor].
      eapply Forall_impl; [|exact H]. intros a Ha. now apply space_set in Ha.
    + intros c N1 N2. rewrite !has_app. rewrite (spaces_has indent c) by auto.
      cbn [has tx list_ascii_of_string].
      rewrite (proj2 (Ascii.eqb_neq c nl)), (proj2 (Ascii.eqb_neq c " ")) by auto. reflexivity.
  - split; [constructor|]. reflexivity.
Qed.

Lemma words_ok d big indent l : spaces indent -> Forall (fun v => item_ok (wr d v)) l ->
  forall i, Forall item_ok (array_words d big indent i l)
    /\ map (strip set_list) (array_words d big indent i l) = map (fun v => strip set_list (wr d v)) l.
Proof.
  intros S H. induction H as [|v l (A & B & C) H IH]; intros i; [split; constructor|].
  cbn [array_words map]. destruct (IH (Datatypes.S i)) as [IH1 IH2].
  destruct (sep_blank big indent i S) as [K1 K2].
  assert (E : strip set_list (array_sep big indent i ++ wr d v) = strip set_list (wr d v))
    by now apply strip_front.
  split.
  - constructor; auto. repeat split; rewrite ?has_app, ?E; auto.
    + rewrite K2, A; auto; discriminate.
    + rewrite K2, B; auto; discriminate.
  - now rewrite E, IH2.
Qed.

Lemma strip_nonempty_rstrip w : has "," w = false -> strip set_list w <> [] -> rstrip comma_blank w <> [].
Proof.
  intros H N E. apply N. rewrite <- (strip_rstrip set_list comma_blank w).
  - now rewrite E.
  - intros a Ha I. unfold comma_blank, among in Ha. cbn [has tx list_ascii_of_string] in Ha.
    destruct (Ascii.eqb a ",") eqn:E1.
    + apply Ascii.eqb_eq in E1. subst. congruence.
    + destruct (Ascii.eqb a " ") eqn:E2; [|discriminate]. apply Ascii.eqb_eq in E2. now subst.
Qed.

Theorem array_read d l indent w :
  spaces indent -> Forall (fun v => item_ok (wr d v)) l ->
  read_list "[" "]" "," set_list (array_text d l indent ++ w)
  = Some (map (fun v => strip set_list (wr d v)) l).
Proof.
  intros S H. unfold InpModel.array_text. set (big := ELPERLINE <? length l).
  assert (PR : exists pad, (if big then [nl] ++ indent ++ tx " [ " else tx " [ ") = pad ++ "["%char :: tx " "
             /\ has "[" pad = false /\ has "]" pad = false).
  { destruct big.
    - exists ([nl] ++ indent ++ tx " "). split; [rewrite <- !app_assoc; reflexivity|].
      rewrite !has_app, !(spaces_has indent) by (auto; discriminate). split; reflexivity.
    - exists (tx " "). repeat split. }
  destruct PR as (pad & PE & P1 & P2). rewrite PE.
  assert (TL : exists rest, (if big then tx " ]" ++ [nl] else tx " ] ") = tx " " ++ "]"%char :: rest).
  { destruct big; [exists [nl]|exists (tx " ")]; reflexivity. }
  destruct TL as (rest & TE). rewrite TE.
  rewrite array_items_words.
  replace ((pad ++ "["%char :: tx " ") ++ concat (map (fun v => v ++ tx ", ") (array_words d big indent 0 l)))
    with (pad ++ "["%char :: tx " " ++ concat (map (fun v => v ++ tx ", ") (array_words d big indent 0 l)))
    by now rewrite <- app_assoc.
  destruct (words_ok d big indent l S H 0) as [W1 W2].
  rewrite rstrip_keep by reflexivity.
  destruct (array_words d big indent 0 l) as [|u us] eqn:EW.
  { assert (l = []) by (destruct l; [reflexivity|discriminate EW]). subst l.
    change (rstrip comma_blank (tx " " ++ concat (map (fun v => v ++ tx ", ") []))) with (@nil ascii).
    replace (((pad ++ ["["%char]) ++ tx " " ++ "]"%char :: rest) ++ w)
      with (pad ++ "["%char :: tx " " ++ "]"%char :: (rest ++ w)) by (rewrite <- !app_assoc; reflexivity).
    rewrite read_list_padded by auto. reflexivity. }
  assert (EX : exists ws x, u :: us = ws ++ [x]).
  { destruct (exists_last (l := u :: us)) as (ws & x & E); [discriminate|]. eauto. }
  destruct EX as (ws & x & EX).
  (* the first word takes the blank after the bracket *)
  set (items := (tx " " ++ u) :: us).
  assert (IE : tx " " ++ concat (map (fun v => v ++ tx ", ") (u :: us))
               = concat (map (fun v => v ++ tx ", ") items)).
  { unfold items. cbn [map concat]. now rewrite <- !app_assoc. }
  rewrite IE.
  assert (I1 : Forall item_ok items /\ map (strip set_list) items = map (strip set_list) (u :: us)).
  { unfold items. inversion W1 as [|? ? (A & B & C) W1']; subst.
    assert (E : strip set_list (tx " " ++ u) = strip set_list u) by (apply strip_front; repeat constructor).
    split; [|cbn [map]; now rewrite E].
    constructor; auto. repeat split; rewrite ?has_app, ?E; auto. }
  destruct I1 as [I1 I2]. clearbody items.
  destruct items as [|x0 ir _] using rev_ind; [discriminate I2|].
  apply Forall_app in I1 as [IA IB]. inversion IB as [|? ? (A & B & C) _]; subst.
  assert (RE : rstrip comma_blank (concat (map (fun v => v ++ tx ", ") (ir ++ [x0])))
               = join (tx ", ") (ir ++ [rstrip comma_blank x0])).
  { pose proof (rstrip_items "[" ir x0 eq_refl (strip_nonempty_rstrip _ A C)) as R.
    change ("["%char :: concat (map (fun v => v ++ tx ", ") (ir ++ [x0])))
      with ([] ++ "["%char :: concat (map (fun v => v ++ tx ", ") (ir ++ [x0]))) in R.
    rewrite rstrip_keep in R by reflexivity. cbn [app] in R. now injection R as R. }
  rewrite RE.
  set (x' := rstrip comma_blank x0 ++ tx " ").
  assert (JE : join (tx ", ") (ir ++ [rstrip comma_blank x0]) ++ tx " " = join (tx ", ") (ir ++ [x'])).
  { destruct (join_last (tx ", ") ir) as [y J]. rewrite !J. unfold x'. now rewrite app_assoc. }
  replace (((pad ++ "["%char :: join (tx ", ") (ir ++ [rstrip comma_blank x0])) ++ tx " " ++ "]"%char :: rest) ++ w)
    with (pad ++ "["%char :: join (tx ", ") (ir ++ [x']) ++ "]"%char :: (rest ++ w)).
  2:{ rewrite <- JE, <- !app_assoc. cbn [app]. try rewrite <- !app_assoc. reflexivity. }
  destruct (rstrip_split comma_blank x0) as (y & XE & Y).
  assert (HX : forall c, has c x0 = false -> c <> " "%char -> has c x' = false).
  { intros c Hc N. unfold x'. rewrite has_app. rewrite XE, has_app in Hc.
    apply orb_false_iff in Hc as [-> _]. cbn. now rewrite (proj2 (Ascii.eqb_neq c " ")). }
  assert (SX : strip set_list x' = strip set_list x0).
  { unfold x'. rewrite strip_back by repeat constructor. apply strip_rstrip.
    intros a Ha I. unfold comma_blank, among in Ha. cbn [has tx list_ascii_of_string] in Ha.
    destruct (Ascii.eqb a ",") eqn:E1; [apply Ascii.eqb_eq in E1; subst; congruence|].
    destruct (Ascii.eqb a " ") eqn:E2; [|discriminate]. apply Ascii.eqb_eq in E2. now subst. }
  assert (FA : Forall (fun w => has "," w = false) (ir ++ [x'])).
  { apply Forall_app. split.
    - eapply Forall_impl; [|exact IA]. now intros a (Q & _).
    - repeat constructor. apply HX; auto; discriminate. }
  rewrite read_list_padded; auto.
  2:{ apply has_join; [reflexivity|]. apply Forall_app. split.
      - eapply Forall_impl; [|exact IA]. now intros a (_ & Q & _).
      - repeat constructor. apply HX; auto; discriminate. }
  cbv zeta. change (tx ", ") with [","%char; " "%char].
  rewrite split_join; auto; try discriminate; try reflexivity.
  2:{ now destruct ir. }
  assert (ME : map (strip set_list) (ir ++ [x']) = map (fun v => strip set_list (wr d v)) l).
  { rewrite map_app. cbn [map]. rewrite SX. rewrite <- W2, <- I2, map_app. reflexivity. }
  rewrite ME. destruct ((length (map (fun v => strip set_list (wr d v)) l) =? 1)
     && eqt (hd [] (map (fun v => strip set_list (wr d v)) l)) []) eqn:E; [exfalso|reflexivity].
  apply andb_true_iff in E as [_ E]. apply eqt_spec in E.
  destruct l as [|v l]; [discriminate EW|]. cbn [map hd] in E.
  inversion H as [|? ? (_ & _ & Q) _]; subst. auto.
Qed.
End Array.
