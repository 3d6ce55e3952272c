(* Properties of the reading and writing of XML trees. *)
From Coq Require Import String Ascii List Arith Bool Lia.
From Verif Require Import TextLib XmlModel.
Import ListNotations.
Local Open Scope list_scope.
Local Open Scope nat_scope.

(* ---- induction over trees ---- *)

Fixpoint node_ind' (P : node -> Prop)
  (H : forall nm ats fs, (forall x, In (FNode x) fs -> P x) -> P (Node nm ats fs)) (n : node) : P n.
Proof.
  destruct n as [nm ats fs]. apply H.
  induction fs as [|f fs IH]; intros x Hx.
  - destruct Hx.
  - destruct Hx as [E | Hx]; [|exact (IH x Hx)].
    destruct f as [t|y]; [discriminate E|].
    assert (Hy : P y) by (apply node_ind'; exact H).
    injection E as <-. exact Hy.
Defined.

(* ---- what a document says ---- *)

(* a document tree is a node whose texts stand where they are in the document;
   its calls *)
Fixpoint events (d : node) : list event :=
  let 'Node nm ats fs := d in
  Start nm ats :: flat_map (fun f => match f with FText t => [Chars t] | FNode x => events x end) fs ++ [End nm].

(* the text of an element without that of its children *)
Definition texts (fs : list field) : text :=
  concat (map (fun f => match f with FText t => t | FNode _ => [] end) fs).

(* what is to be kept of a document: the children in order, then the text *)
Fixpoint collected (d : node) : node :=
  let 'Node nm ats fs := d in
  Node nm ats (flat_map (fun f => match f with FText _ => [] | FNode x => [FNode (collected x)] end) fs
               ++ [FText (texts fs)]).

Definition kids (fs : list field) : list field :=
  flat_map (fun f => match f with FText _ => [] | FNode x => [FNode (collected x)] end) fs.

Lemma handle_all_app x y st : handle_all (x ++ y) st = handle_all y (handle_all x st).
Proof. apply fold_left_app. Qed.

Lemma handle_fields fs :
  (forall x, In (FNode x) fs -> forall f st,
     handle_all (events x) (f :: st)
     = mkframe (fr_name f) (fr_attrs f) (fr_fields f ++ [FNode (collected x)]) (fr_buf f) :: st) ->
  forall f st, exists b,
    handle_all (flat_map (fun f => match f with FText t => [Chars t] | FNode x => events x end) fs) (f :: st)
    = mkframe (fr_name f) (fr_attrs f) (fr_fields f ++ kids fs) b :: st
    /\ concat b = concat (fr_buf f) ++ texts fs.
Proof.
  induction fs as [|g fs IH]; intros H f st.
  - exists (fr_buf f). destruct f. cbn. unfold kids, texts. cbn. rewrite !app_nil_r. auto.
  - assert (H' : forall x, In (FNode x) fs -> forall f st,
     handle_all (events x) (f :: st)
     = mkframe (fr_name f) (fr_attrs f) (fr_fields f ++ [FNode (collected x)]) (fr_buf f) :: st)
     by (intros; apply H; now right).
    cbn [flat_map]. rewrite handle_all_app. destruct g as [t|x].
    + cbn [handle_all fold_left handle].
      destruct (IH H' (mkframe (fr_name f) (fr_attrs f) (fr_fields f) (fr_buf f ++ [t])) st) as (b & E & C).
      exists b. split; [exact E|]. rewrite C. cbn [fr_buf]. rewrite concat_app. cbn.
      unfold texts. cbn. now rewrite app_nil_r, app_assoc.
    + rewrite H by now left.
      destruct (IH H' (mkframe (fr_name f) (fr_attrs f) (fr_fields f ++ [FNode (collected x)]) (fr_buf f)) st)
        as (b & E & C).
      exists b. split.
      * unfold handle_all in *. rewrite E. cbn. unfold kids. cbn. now rewrite <- app_assoc.
      * rewrite C. reflexivity.
Qed.

(* C133: whatever the document and however its text comes in pieces, the
   handler keeps the children in order and the whole text of each element *)
Theorem handler_collects d : forall f st,
  handle_all (events d) (f :: st)
  = mkframe (fr_name f) (fr_attrs f) (fr_fields f ++ [FNode (collected d)]) (fr_buf f) :: st.
Proof.
  induction d as [nm ats fs IH] using node_ind'. intros f st.
  cbn [events]. unfold handle_all. cbn [fold_left handle].
  change (fold_left handle ?l ?s) with (handle_all l s).
  rewrite handle_all_app.
  destruct (handle_fields fs IH (mkframe nm ats [] [[]]) (f :: st)) as (b & E & C).
  unfold handle_all in *. rewrite E. cbn. cbn in C. rewrite C. reflexivity.
Qed.

Theorem root_collects d :
  root_of (handle_all (events d) handler0) = Node (tx "root") [] [FNode (collected d)].
Proof. unfold handler0. now rewrite handler_collects. Qed.

Example handler_case :
  let d := Node (tx "a") [(tx "k", tx "1")]
             [FText (tx "x"); FNode (Node (tx "b") [] [FText (tx "y")]); FText (tx "z"); FText (tx "w")] in
  root_of (handle_all (events d) handler0)
  = Node (tx "root") []
      [FNode (Node (tx "a") [(tx "k", tx "1")]
        [FNode (Node (tx "b") [] [FText (tx "y")]); FText (tx "xzw")])].
Proof. reflexivity. Qed.

(* ---- documents and their texts ---- *)

Fixpoint print (d : node) : text :=
  let 'Node nm ats fs := d in
  tx "<" ++ nm ++ attr_texts ats ++ tx ">"
  ++ flat_map (fun f => match f with FText t => t | FNode x => print x end) fs
  ++ tx "</" ++ nm ++ tx ">".

Definition xname (nm : text) : Prop :=
  match nm with [] => False | a :: r => letter a = true /\ Forall (fun c => namechar c = true) r end.

(* texts that stand for themselves *)
Definition free (cs : text) (t : text) : Prop := Forall (fun c => has c t = false) cs.
Definition plain_text (t : text) : Prop := free [lt; amp] t.
Definition plain_attr (t : text) : Prop := free [lt; amp; quote; nl; tab] t.

Definition plain_attrs (ats : list (text * text)) : Prop :=
  Forall (fun p => xname (fst p) /\ plain_attr (snd p)) ats /\ NoDup (map fst ats).

Fixpoint tidy (d : node) : Prop :=
  let 'Node nm ats fs := d in
  xname nm /\ plain_attrs ats
  /\ (fix all (fs : list field) : Prop :=
        match fs with
        | [] => True
        | FText t :: r => plain_text t /\ all r
        | FNode x :: r => tidy x /\ all r
        end) fs.

Definition tidy_fields (fs : list field) : Prop :=
  Forall (fun f => match f with FText t => plain_text t | FNode x => tidy x end) fs.

Lemma tidy_eq nm ats fs : tidy (Node nm ats fs) <-> xname nm /\ plain_attrs ats /\ tidy_fields fs.
Proof.
  cbn [tidy]. unfold tidy_fields.
  assert (E : forall fs, (fix all (fs : list field) : Prop :=
        match fs with
        | [] => True
        | FText t :: r => plain_text t /\ all r
        | FNode x :: r => tidy x /\ all r
        end) fs <-> Forall (fun f => match f with FText t => plain_text t | FNode x => tidy x end) fs).
  { clear. induction fs as [|[t|x] r IH]; [split; auto| |]; rewrite IH; split; intros H;
      try (constructor; tauto); inversion H; subst; auto. }
  now rewrite E.
Qed.

Lemma read_all_app x y r : read_all (x ++ y) r = read_all y (read_all x r).
Proof. apply fold_left_app. Qed.

Lemma read_all_cons a y r : read_all (a :: y) r = read_all y (read1 r a).
Proof. reflexivity. Qed.

Lemma decode_plain t : forall k, length t <= k -> has amp t = false -> decode k t = Some t.
Proof.
  induction t as [|a t IH]; intros k Hk H; destruct k; cbn [length] in Hk; try lia; auto.
  cbn [has] in H. cbn [decode].
  apply orb_false_iff in H as [Ha H]. rewrite Ascii.eqb_sym in Ha. rewrite Ha.
  rewrite IH; auto; lia.
Qed.

Lemma flat_plain t : has nl t = false -> has tab t = false -> flat t = t.
Proof.
  induction t as [|a t IH]; cbn [has flat map]; intros H1 H2; auto.
  apply orb_false_iff in H1 as [E1 H1], H2 as [E2 H2].
  unfold flat in IH. rewrite IH; auto. f_equal.
  unfold white, among. cbn [has]. rewrite (Ascii.eqb_sym a nl), (Ascii.eqb_sym a tab), E1, E2.
  destruct (Ascii.eqb a " ") eqn:E; cbn; auto.
  now apply Ascii.eqb_eq in E.
Qed.

(* text *)
Lemma read_text t : forall r acc, rd_mode r = MText acc -> has lt t = false ->
  read_all t r = rgo r (MText (acc ++ t)).
Proof.
  induction t as [|a t IH]; intros r acc M H.
  - rewrite app_nil_r. destruct r; cbn in *. unfold rgo. cbn. now rewrite M.
  - rewrite read_all_cons. cbn [has] in H. apply orb_false_iff in H as [Ha H].
    unfold read1. rewrite M. rewrite Ascii.eqb_sym in Ha. rewrite Ha.
    rewrite (IH _ (acc ++ [a])); auto. unfold rgo; cbn. now rewrite <- app_assoc.
Qed.

Lemma letter_namechar a : letter a = true -> namechar a = true.
Proof. unfold namechar. now intros ->. Qed.

(* a name that is being read *)
Lemma read_name t : forall r acc, rd_mode r = MName acc -> Forall (fun c => namechar c = true) t ->
  read_all t r = rgo r (MName (acc ++ t)).
Proof.
  induction t as [|a t IH]; intros r acc M H.
  - rewrite app_nil_r. destruct r; cbn in *. unfold rgo. cbn. now rewrite M.
  - rewrite read_all_cons. inversion H; subst. unfold read1. rewrite M, H2.
    rewrite (IH _ (acc ++ [a])); auto. unfold rgo; cbn. now rewrite <- app_assoc.
Qed.

Lemma read_attr_name t : forall r nm ats acc, rd_mode r = MAttr nm ats acc ->
  Forall (fun c => namechar c = true) t ->
  read_all t r = rgo r (MAttr nm ats (acc ++ t)).
Proof.
  induction t as [|a t IH]; intros r nm ats acc M H.
  - rewrite app_nil_r. destruct r; cbn in *. unfold rgo. cbn. now rewrite M.
  - rewrite read_all_cons. inversion H; subst. unfold read1. rewrite M, H2.
    rewrite (IH _ nm ats (acc ++ [a])); auto. unfold rgo; cbn. now rewrite <- app_assoc.
Qed.

Lemma read_close t : forall r acc, rd_mode r = MClose acc -> Forall (fun c => namechar c = true) t ->
  read_all t r = rgo r (MClose (acc ++ t)).
Proof.
  induction t as [|a t IH]; intros r acc M H.
  - rewrite app_nil_r. destruct r; cbn in *. unfold rgo. cbn. now rewrite M.
  - rewrite read_all_cons. inversion H; subst. unfold read1. rewrite M, H2.
    rewrite (IH _ (acc ++ [a])); auto. unfold rgo; cbn. now rewrite <- app_assoc.
Qed.

Lemma read_value t : forall r nm ats a acc, rd_mode r = MVal nm ats a quote acc ->
  has lt t = false -> has quote t = false ->
  read_all t r = rgo r (MVal nm ats a quote (acc ++ t)).
Proof.
  induction t as [|c t IH]; intros r nm ats a acc M H1 H2.
  - rewrite app_nil_r. destruct r; cbn in *. unfold rgo. cbn. now rewrite M.
  - rewrite read_all_cons. cbn [has] in *.
    apply orb_false_iff in H1 as [E1 H1], H2 as [E2 H2].
    unfold read1. rewrite M. rewrite (Ascii.eqb_sym c quote), E2, (Ascii.eqb_sym c lt), E1.
    rewrite (IH _ nm ats a (acc ++ [c])); auto. unfold rgo; cbn. now rewrite <- app_assoc.
Qed.

Lemma known_app a x y : known a (x ++ y) = known a x || known a y.
Proof. apply existsb_app. Qed.

Lemma known_not a ats : known a ats = false <-> ~ In a (map fst ats).
Proof.
  unfold known. induction ats as [|[k v] ats IH]; cbn; [tauto|].
  rewrite orb_false_iff, IH. split.
  - intros [E N] [->|H]; [now rewrite eqt_refl in E|auto].
  - intros N. split; [apply eqt_neq; intros ->; apply N; auto|auto].
Qed.

Lemma read_attrs new : forall r nm ats sep,
  rd_mode r = MAttrs nm ats sep ->
  Forall (fun p => xname (fst p) /\ plain_attr (snd p)) new ->
  NoDup (map fst (ats ++ new)) ->
  read_all (attr_texts new) r = rgo r (MAttrs nm (ats ++ new) (match new with [] => sep | _ => false end)).
Proof.
  induction new as [|[a v] new IH]; intros r nm ats sep M H D.
  - rewrite app_nil_r. destruct r; cbn in *. unfold rgo. cbn. now rewrite M.
  - inversion H as [|? ? [N V] H']; subst. cbn [fst snd] in *.
    unfold attr_texts. cbn [map concat fst snd]. fold (attr_texts new).
    rewrite <- !app_assoc.
    destruct a as [|a0 ar]; [destruct N|]. destruct N as [L N].
    unfold plain_attr, free in V. inversion V as [|? ? V1 V']; subst.
    inversion V' as [|? ? V2 V'']; subst. inversion V'' as [|? ? V3 W]; subst.
    inversion W as [|? ? V4 W']; subst. inversion W' as [|? ? V5 _]; subst.
    cbn [tx list_ascii_of_string app].
    rewrite read_all_cons. unfold read1 at 1. rewrite M. cbn [white].
    change (white " ") with true. cbn match.
    rewrite read_all_cons. unfold read1 at 1. cbn [rgo rd_mode].
    assert (Hw : white a0 = false).
    { destruct (white a0) eqn:E; auto. unfold white, among in E. cbn [has] in E.
      destruct (Ascii.eqb a0 " ") eqn:E1; [apply Ascii.eqb_eq in E1; subst; discriminate L|].
      destruct (Ascii.eqb a0 nl) eqn:E2; [apply Ascii.eqb_eq in E2; subst; discriminate L|].
      destruct (Ascii.eqb a0 tab) eqn:E3; [apply Ascii.eqb_eq in E3; subst; discriminate L|].
      discriminate E. }
    rewrite Hw.
    assert (Hg : Ascii.eqb a0 gt = false)
      by (destruct (Ascii.eqb a0 gt) eqn:E; auto; apply Ascii.eqb_eq in E; subst; discriminate L).
    assert (Hs : Ascii.eqb a0 slash = false)
      by (destruct (Ascii.eqb a0 slash) eqn:E; auto; apply Ascii.eqb_eq in E; subst; discriminate L).
    rewrite Hg, Hs, L. cbn [andb].
    rewrite read_all_app, (read_attr_name ar _ nm ats [a0]); auto.
    rewrite read_all_cons. unfold read1 at 1. cbn [rgo rd_mode].
    change (namechar "=") with false. change (Ascii.eqb "=" equal) with true. cbn match.
    rewrite read_all_cons. unfold read1 at 1. cbn [rgo rd_mode].
    change (Ascii.eqb "'" quote) with true. cbn [orb].
    rewrite read_all_app, (read_value v _ nm ats (a0 :: ar) []); auto.
    rewrite read_all_cons. unfold read1 at 1. cbn [rgo rd_mode app].
    change (Ascii.eqb "'" quote) with true. cbn match.
    rewrite flat_plain, decode_plain by auto.
    assert (K : known (a0 :: ar) ats = false).
    { apply known_not. rewrite map_app in D. cbn [map fst] in D.
      apply NoDup_remove_2 in D. intros I. apply D. apply in_or_app. now left. }
    rewrite K.
    rewrite (IH _ nm (ats ++ [(a0 :: ar, v)]) false); auto.
    + unfold rgo; cbn. rewrite <- app_assoc. cbn. f_equal. f_equal. now destruct new.
    + rewrite <- app_assoc. exact D.
Qed.

(* a start tag *)
Lemma read_start nm ats r :
  xname nm -> plain_attrs ats -> rd_mode r = MOpen ->
  read_all (nm ++ attr_texts ats ++ tx ">") r = opened nm ats r.
Proof.
  intros N [A D] M. destruct nm as [|a0 ar]; [destruct N|]. destruct N as [L N].
  cbn [app]. rewrite read_all_cons. unfold read1 at 1. rewrite M.
  assert (Hs : Ascii.eqb a0 slash = false)
    by (destruct (Ascii.eqb a0 slash) eqn:E; auto; apply Ascii.eqb_eq in E; subst; discriminate L).
  rewrite Hs, L. rewrite read_all_app, (read_name ar _ [a0]); auto. cbn [app].
  destruct ats as [|[a v] new].
  - reflexivity.
  - inversion A as [|? ? [Na V] A']; subst. cbn [fst snd] in *.
    (* the first blank ends the name; from there on as between attributes *)
    assert (E : forall rest, read_all (attr_texts ((a, v) :: new) ++ rest)
                 (rgo r (MName (a0 :: ar)))
               = read_all (attr_texts ((a, v) :: new) ++ rest) (rgo r (MAttrs (a0 :: ar) [] true))).
    { intros rest. unfold attr_texts. cbn [map concat fst snd tx list_ascii_of_string app].
      rewrite !read_all_cons. reflexivity. }
    replace (rgo (rgo r (MName [a0])) (MName (a0 :: ar))) with (rgo r (MName (a0 :: ar))) by reflexivity.
    rewrite E, read_all_app.
    rewrite (read_attrs ((a, v) :: new) _ (a0 :: ar) [] true); auto.
Qed.

Definition open_frames (r : reader) : handler := handle_all (rd_evs r) handler0.

Lemma read_fields fs :
  (forall x, In (FNode x) fs -> tidy x -> forall r acc r1 f st,
     rd_mode r = MText acc -> flush acc r = Some r1 ->
     (rd_open r = [] -> rd_seen r = false) -> open_frames r1 = f :: st ->
     exists r', read_all (print x) r = r' /\ rd_mode r' = MText [] /\ rd_open r' = rd_open r
       /\ rd_seen r' = true
       /\ open_frames r' = mkframe (fr_name f) (fr_attrs f) (fr_fields f ++ [FNode (collected x)]) (fr_buf f) :: st) ->
  tidy_fields fs ->
  forall r acc f st, rd_mode r = MText acc -> has amp acc = false -> rd_open r <> [] -> rd_seen r = true ->
  open_frames r = f :: st ->
  exists r' acc' b, read_all (flat_map (fun f => match f with FText t => t | FNode x => print x end) fs) r = r'
    /\ rd_mode r' = MText acc' /\ has amp acc' = false /\ rd_open r' = rd_open r /\ rd_seen r' = true
    /\ open_frames r' = mkframe (fr_name f) (fr_attrs f) (fr_fields f ++ kids fs) b :: st
    /\ concat b ++ acc' = concat (fr_buf f) ++ acc ++ texts fs.
Proof.
  induction fs as [|g fs IH]; intros H T r acc f st M A O S F.
  - exists r, acc, (fr_buf f). cbn. unfold kids, texts. cbn. rewrite !app_nil_r.
    destruct f; cbn. repeat split; auto.
  - inversion T as [|? ? Tg T']; subst.
    assert (H' : forall x, In (FNode x) fs -> tidy x -> forall r acc r1 f st,
     rd_mode r = MText acc -> flush acc r = Some r1 ->
     (rd_open r = [] -> rd_seen r = false) -> open_frames r1 = f :: st ->
     exists r', read_all (print x) r = r' /\ rd_mode r' = MText [] /\ rd_open r' = rd_open r
       /\ rd_seen r' = true
       /\ open_frames r' = mkframe (fr_name f) (fr_attrs f) (fr_fields f ++ [FNode (collected x)]) (fr_buf f) :: st)
      by (intros x Hx; apply H; now right).
    cbn [flat_map]. rewrite read_all_app. destruct g as [t|x].
    + unfold plain_text, free in Tg. inversion Tg as [|? ? T1 T2]; subst. inversion T2 as [|? ? T3 _]; subst.
      rewrite (read_text t _ acc) by auto.
      destruct (IH H' T' (rgo r (MText (acc ++ t))) (acc ++ t) f st) as (r' & acc' & b & E & M' & A' & O' & S' & F' & C);
        auto.
      { rewrite has_app, A, T3. reflexivity. }
      exists r', acc', b. repeat split; auto.
      unfold texts. cbn. rewrite C. unfold texts. now rewrite <- !app_assoc.
    + pose proof (H x (or_introl eq_refl) Tg r acc) as Hx.
      assert (FL : flush acc r = Some (mkreader (rd_mode r) (rd_open r) (rd_seen r) (rd_evs r ++ [Chars acc]))).
      { unfold flush. destruct (rd_open r) eqn:E; [congruence|]. now rewrite decode_plain. }
      destruct (Hx _ (mkframe (fr_name f) (fr_attrs f) (fr_fields f) (fr_buf f ++ [acc])) st M FL)
        as (r1 & E1 & M1 & O1 & S1 & F1).
      { intros E. congruence. }
      { unfold open_frames in *. cbn [rd_evs]. rewrite handle_all_app, F. reflexivity. }
      rewrite E1.
      destruct (IH H' T' r1 [] _ st M1 eq_refl ltac:(congruence) S1 F1)
        as (r' & acc' & b & E & M' & A' & O' & S' & F' & C).
      exists r', acc', b. repeat split; auto.
      * congruence.
      * rewrite F'. cbn [fr_name fr_attrs fr_fields]. unfold kids. cbn. now rewrite <- app_assoc.
      * rewrite C. cbn [fr_buf]. rewrite concat_app. cbn. rewrite app_nil_r.
        unfold texts. cbn. now rewrite <- app_assoc.
Qed.

Lemma read_node d : tidy d -> forall r acc r1 f st,
  rd_mode r = MText acc -> flush acc r = Some r1 ->
  (rd_open r = [] -> rd_seen r = false) -> open_frames r1 = f :: st ->
  exists r', read_all (print d) r = r' /\ rd_mode r' = MText [] /\ rd_open r' = rd_open r
    /\ rd_seen r' = true
    /\ open_frames r' = mkframe (fr_name f) (fr_attrs f) (fr_fields f ++ [FNode (collected d)]) (fr_buf f) :: st.
Proof.
  induction d as [nm ats fs IH] using node_ind'. intros T r acc r1 f st M FL O F.
  apply tidy_eq in T as (N & A & T).
  cbn [print].
  assert (O1 : rd_open r1 = rd_open r /\ rd_seen r1 = rd_seen r /\ rd_mode r1 = rd_mode r).
  { unfold flush in FL. destruct (rd_open r) eqn:EO.
    - destruct (forallb white acc); [injection FL as <-; auto|discriminate].
    - destruct (decode (length acc) acc); [injection FL as <-; auto|discriminate]. }
  destruct O1 as (O1 & S1 & M1).
  change (tx "<") with [lt]. cbn [app]. rewrite read_all_cons. unfold read1 at 1. rewrite M.
  change (Ascii.eqb lt lt) with true. cbn match. rewrite FL.
  replace (nm ++ attr_texts ats ++ tx ">" ++ flat_map (fun f => match f with FText t => t | FNode x => print x end) fs
            ++ tx "</" ++ nm ++ tx ">")
    with ((nm ++ attr_texts ats ++ tx ">") ++ flat_map (fun f => match f with FText t => t | FNode x => print x end) fs
            ++ tx "</" ++ nm ++ tx ">") by (rewrite <- !app_assoc; reflexivity).
  rewrite read_all_app, read_start by auto.
  set (r2 := opened nm ats (rgo r1 MOpen)).
  assert (E2 : r2 = mkreader (MText []) (nm :: rd_open r) true (rd_evs r1 ++ [Start nm ats])).
  { unfold r2, opened, rgo. cbn [rd_open rd_seen rd_evs]. rewrite O1, S1.
    destruct (rd_open r) eqn:E; [rewrite (O eq_refl)|]; reflexivity. }
  rewrite read_all_app.
  destruct (read_fields fs IH T r2 [] (mkframe nm ats [] [[]]) (f :: st))
    as (r3 & acc' & b & E3 & M3 & A3 & O3 & S3 & F3 & C3).
  { now rewrite E2. } { reflexivity. } { rewrite E2; discriminate. } { now rewrite E2. }
  { rewrite E2. unfold open_frames in *. cbn [rd_evs]. rewrite handle_all_app, F. reflexivity. }
  rewrite E3.
  (* the end tag *)
  change (tx "</" ++ nm ++ tx ">") with (lt :: slash :: nm ++ tx ">").
  rewrite read_all_cons. unfold read1 at 1. rewrite M3.
  change (Ascii.eqb lt lt) with true. cbn match.
  assert (FL3 : flush acc' r3 = Some (mkreader (rd_mode r3) (rd_open r3) (rd_seen r3) (rd_evs r3 ++ [Chars acc']))).
  { unfold flush. rewrite O3, E2. cbn [rd_open]. now rewrite decode_plain. }
  rewrite FL3. rewrite read_all_cons. unfold read1 at 1. cbn [rgo rd_mode].
  change (Ascii.eqb slash slash) with true. cbn match.
  assert (Nc : Forall (fun c => namechar c = true) nm).
  { destruct nm as [|a0 ar]; [constructor|]. destruct N as [L N]. constructor; auto. now apply letter_namechar. }
  rewrite read_all_app, (read_close nm _ []) by auto. cbn [app].
  change (tx ">") with [gt]. rewrite read_all_cons. unfold read1 at 1. cbn [rgo rd_mode].
  change (namechar gt) with false. change (white gt) with false. change (Ascii.eqb gt gt) with true. cbn match.
  unfold closed. cbn [rgo rd_open]. rewrite O3, E2. cbn [rd_open]. rewrite eqt_refl.
  cbn [read_all fold_left].
  eexists. split; [reflexivity|]. cbn [rd_mode rd_open rd_seen]. repeat split; auto.
  unfold open_frames in *. cbn [rgo rd_evs]. rewrite !handle_all_app, F3. cbn. repeat f_equal.
  cbn in C3. rewrite concat_app. cbn [concat]. rewrite app_nil_r. exact C3.
Qed.

(* C134: a document whose texts stand for themselves is read back: nothing is
   lost and nothing added *)
Theorem print_read d w1 w2 :
  tidy d -> forallb white w1 = true -> forallb white w2 = true ->
  xml_parse_string (w1 ++ print d ++ w2) = Some (Node (tx "root") [] [FNode (collected d)]).
Proof.
  intros T W1 W2. unfold xml_parse_string, events_of.
  assert (L : forall w, forallb white w = true -> has lt w = false).
  { induction w as [|a w IH]; intros H; auto. cbn in H. apply andb_prop in H as [Ha H].
    cbn. rewrite (IH H), orb_false_r. destruct (Ascii.eqb lt a) eqn:E; auto.
    apply Ascii.eqb_eq in E. subst. discriminate Ha. }
  rewrite read_all_app, (read_text w1 reader0 []) by auto. cbn [app].
  rewrite read_all_app.
  destruct (read_node d T (rgo reader0 (MText w1)) w1 (rgo reader0 (MText w1)) (mkframe (tx "root") [] [] [[]]) [])
    as (r' & E & M & O & S & F); auto.
  { unfold flush. cbn [rgo rd_open reader0]. now rewrite W1. }
  rewrite E, (read_text w2 r' []) by auto.
  cbn [rgo rd_mode rd_open rd_seen rd_evs app]. rewrite O, S. cbn [rgo reader0 rd_open]. rewrite W2.
  cbn [option_map]. f_equal. unfold open_frames in F. rewrite F. reflexivity.
Qed.

Example print_read_case :
  let d := Node (tx "cell") [(tx "units", tx "angstrom"); (tx "shape", tx "(3, 3)")]
             [FText (tx " [ 1, 0 ]"); FNode (Node (tx "b") [] []); FText [nl]] in
  tidy d /\ print d = tx "<cell units='angstrom' shape='(3, 3)'> [ 1, 0 ]<b></b>" ++ [nl] ++ tx "</cell>".
Proof.
  split; [|reflexivity]. apply tidy_eq. split; [|split].
  - repeat first [reflexivity | split | constructor].
  - split; [repeat first [reflexivity | split | constructor]|].
    repeat constructor; cbn; intuition discriminate.
  - repeat first [reflexivity | split | constructor].
Qed.
