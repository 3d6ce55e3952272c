(* A tree that is written by xml_write is read back, and reading an object from
   it does not depend on the layout. *)
From Coq Require Import String Ascii List Arith Bool ZArith Lia.
From Verif Require Import TextLib XmlModel XmlProps ValModel ValProps InpModel InpText InpProofs InpProps.
Import ListNotations.
Local Open Scope list_scope.
Local Open Scope nat_scope.

(* the tree with its texts stripped *)
Fixpoint stripped (x : node) : node :=
  let 'Node nm ats fs := x in
  Node nm ats (map (fun f => match f with FText t => FText (strip blank t) | FNode y => FNode (stripped y) end) fs).

(* the tree with its layout *)
Fixpoint laid (x : node) (indent : text) : node :=
  let 'Node nm ats fs := x in
  Node nm ats
    (flat_map (fun f => match f with
                        | FText t => [FText (strip blank t)]
                        | FNode y => [FText ([nl] ++ tx "  " ++ indent); FNode (laid y (tx "  " ++ indent))]
                        end) fs
     ++ [FText (if existsb (fun f => match f with FText t => negb (eqt (strip blank t) []) | FNode _ => false end) fs
                then [] else [nl] ++ indent)]).


Definition lay1 (indent : text) (f : field) : list field :=
  match f with
  | FText t => [FText (strip blank t)]
  | FNode y => [FText ([nl] ++ tx "  " ++ indent); FNode (laid y (tx "  " ++ indent))]
  end.
Definition written (f : field) : bool := match f with FText t => negb (eqt (strip blank t) []) | FNode _ => false end.
Definition lay_end (fs : list field) (indent : text) : text := if existsb written fs then [] else [nl] ++ indent.

Lemma laid_eq nm ats fs indent :
  laid (Node nm ats fs) indent = Node nm ats (flat_map (lay1 indent) fs ++ [FText (lay_end fs indent)]).
Proof. reflexivity. Qed.

Lemma tidy_in nm ats fs y : tidy (Node nm ats fs) -> In (FNode y) fs -> tidy y.
Proof.
  intros T I. apply tidy_eq in T as (_ & _ & T). unfold tidy_fields in T. rewrite Forall_forall in T. exact (T _ I).
Qed.
Lemma tidy_text nm ats fs t : tidy (Node nm ats fs) -> In (FText t) fs -> plain_text t.
Proof.
  intros T I. apply tidy_eq in T as (_ & _ & T). unfold tidy_fields in T. rewrite Forall_forall in T. exact (T _ I).
Qed.
Lemma tidy_name x : tidy x -> xname (node_name x).
Proof. destruct x. intros T. now apply tidy_eq in T as (X & _). Qed.

Lemma write_laid x : tidy x -> forall indent,
  xml_write x (node_name x) indent [nl] = indent ++ print (laid x indent).
Proof.
  induction x as [nm ats fs IH] using node_ind'. intros T indent.
  assert (NE : eqt nm [] = false) by (apply eqt_neq; intros ->; now apply tidy_name in T).
  cbn [xml_write node_name]. rewrite NE. cbn [negb].
  match goal with |- context[fst (?g fs)] => set (G := g) end.
  assert (G1 : forall t l, G (FText t :: l)
      = let '(b, i) := G l in (strip blank t ++ b, negb (eqt (strip blank t) []) || i)) by reflexivity.
  assert (G2 : forall y l, G (FNode y :: l)
      = let '(b, i) := G l in ([nl] ++ xml_write y (node_name y) (tx "  " ++ indent) [nl] ++ b, i)) by reflexivity.
  assert (E : forall l, incl l fs ->
    G l = (flat_map (fun f => match f with FText t => t | FNode x => print x end) (flat_map (lay1 indent) l),
           existsb written l)).
  { induction l as [|[t|y] l IHl]; intros I; [reflexivity| |].
    - rewrite G1, (IHl (fun z Hz => I z (or_intror Hz))). reflexivity.
    - assert (Iy : In (FNode y) fs) by (apply I; now left).
      rewrite G2, (IHl (fun z Hz => I z (or_intror Hz))).
      rewrite (IH y Iy (tidy_in _ _ _ _ T Iy)).
      cbn [flat_map lay1 existsb written orb]. rewrite !flat_map_app. cbn [flat_map].
      f_equal. rewrite ?app_nil_r. rewrite <- !app_assoc. reflexivity. }
  rewrite E by apply incl_refl. cbn [fst snd]. change (strip blank [nl]) with (@nil ascii).
  rewrite laid_eq. cbn [print]. rewrite flat_map_app. cbn [flat_map app]. rewrite app_nil_r.
  unfold lay_end. destruct (existsb written fs); cbn [app]; rewrite <- ?app_assoc; reflexivity.
Qed.

Lemma has_dropw f c w : has c w = false -> has c (dropw f w) = false.
Proof.
  induction w as [|a w IH]; intros H; [reflexivity|]. cbn [dropw]. destruct (f a); auto.
  apply IH. cbn [has] in H. now apply orb_false_elim in H.
Qed.
Lemma has_strip f c w : has c w = false -> has c (strip f w) = false.
Proof. intros H. unfold strip, lstrip. now apply has_rstrip, has_dropw. Qed.
Lemma plain_strip t : plain_text t -> plain_text (strip blank t).
Proof. unfold plain_text, free. intros H. eapply Forall_impl; [|exact H]. intros c. apply has_strip. Qed.
Lemma plain_spaces w : spaces w -> plain_text ([nl] ++ w).
Proof.
  intros H. repeat constructor; cbn [has app]; rewrite (spaces_has w) by (auto; discriminate); reflexivity.
Qed.

Lemma tidy_laid x : tidy x -> forall indent, spaces indent -> tidy (laid x indent).
Proof.
  induction x as [nm ats fs IH] using node_ind'. intros T indent S. rewrite laid_eq.
  assert (T' := T). apply tidy_eq in T' as (X & A & _). apply tidy_eq. split; [auto|split; [auto|]].
  apply Forall_app. split.
  - apply Forall_flat_map, Forall_forall. intros [t|y] I; cbn [lay1].
    + constructor; auto. apply plain_strip. exact (tidy_text _ _ _ _ T I).
    + assert (S' : spaces (tx "  " ++ indent)) by (apply spaces_app; auto; repeat constructor).
      constructor; [now apply plain_spaces|]. constructor; auto. apply IH; auto. exact (tidy_in _ _ _ _ T I).
  - constructor; auto. unfold lay_end. destruct (existsb written fs); [repeat constructor|now apply plain_spaces].
Qed.

Lemma kids_flat fs : kids fs = map (fun f => match f with FText t => FText t | FNode x => FNode (collected x) end)
                                   (filter (fun f => match f with FText _ => false | FNode _ => true end) fs).
Proof. induction fs as [|[t|x] fs IH]; cbn; auto. now rewrite <- IH. Qed.

Definition strip1 (f : field) : field := match f with FText t => FText (strip blank t) | FNode y => FNode (stripped y) end.
Lemma stripped_eq nm ats fs : stripped (Node nm ats fs) = Node nm ats (map strip1 fs).
Proof. reflexivity. Qed.

Lemma nl_blank w : spaces w -> Forall (fun a => blank a = true) ([nl] ++ w).
Proof. intros H. constructor; [reflexivity|]. now apply blank_spaces. Qed.

(* a written tree is read back, up to the layout *)
Lemma laid_stripped d : forall indent, spaces indent ->
  stripped (collected (laid (collected d) indent)) = stripped (collected d).
Proof.
  induction d as [nm ats fs IH] using node_ind'. intros indent S.
  rewrite !collected_eq, laid_eq, collected_eq, !stripped_eq. f_equal.
  rewrite map_app. cbn [map strip1].
  assert (S' : spaces (tx "  " ++ indent)) by (apply spaces_app; auto; repeat constructor).
  assert (G : forall l, incl l fs ->
     map strip1 (kids (flat_map (lay1 indent) (kids l))) = map strip1 (kids l)
     /\ exists w, texts (flat_map (lay1 indent) (kids l)) = w /\ Forall (fun a => blank a = true) w).
  { induction l as [|[t|y] l IHl]; intros I.
    - split; [reflexivity|]. exists []. auto.
    - apply IHl. intros z Hz. apply I. now right.
    - assert (Iy : In (FNode y) fs) by (apply I; now left).
      destruct (IHl (fun z Hz => I z (or_intror Hz))) as (E1 & w & E2 & W).
      change (kids (FNode y :: l)) with (FNode (collected y) :: kids l).
      change (flat_map (lay1 indent) (FNode (collected y) :: kids l)) with
        (FText ([nl] ++ tx "  " ++ indent) :: FNode (laid (collected y) (tx "  " ++ indent)) :: flat_map (lay1 indent) (kids l)).
      split.
      + cbn [kids flat_map]. change (flat_map _ (flat_map (lay1 indent) (kids l))) with (kids (flat_map (lay1 indent) (kids l))).
        cbn [app map strip1]. rewrite E1. f_equal. f_equal. now apply IH.
      + exists (([nl] ++ tx "  " ++ indent) ++ w). split.
        * unfold texts. cbn [map concat]. unfold texts in E2. now rewrite E2.
        * apply Forall_app. split; auto. now apply nl_blank. }
  destruct (G fs (incl_refl _)) as (E1 & w & E2 & W).
  rewrite !kids_app, !map_app. rewrite flat_map_app, kids_app, map_app. cbn [flat_map lay1 app kids map strip1].
  rewrite !app_nil_r, E1. f_equal. f_equal. f_equal.
  unfold texts. rewrite !map_app, !concat_app. cbn [map concat]. rewrite !app_nil_r.
  unfold texts in E2. rewrite E2. rewrite <- app_assoc.
  rewrite strip_front by auto. rewrite strip_back.
  - apply strip_idem.
  - unfold lay_end. destruct (existsb written _); [constructor|now apply nl_blank].
Qed.

Lemma tidy_collected d : tidy d -> tidy (collected d).
Proof.
  induction d as [nm ats fs IH] using node_ind'. intros T. rewrite collected_eq.
  assert (T' := T). apply tidy_eq in T' as (X & A & TF). apply tidy_eq. split; [auto|split; [auto|]].
  apply Forall_app. split.
  - apply Forall_forall. intros [t|y] I; unfold kids in I; apply in_flat_map in I as ([u|z] & J & I);
      cbn in I; try tauto; destruct I as [I|[]]; [discriminate|]. injection I as <-.
    apply IH; auto. exact (tidy_in _ _ _ _ T J).
  - constructor; auto. clear IH T X A. unfold texts. induction TF as [|f fs Hf _ IHf]; [repeat constructor|].
    cbn [map concat]. destruct f as [t|y]; [|exact IHf].
    unfold plain_text, free in *. rewrite Forall_forall in *. intros c Hc.
    now rewrite has_app, (Hf c Hc), (IHf c Hc).
Qed.

(* C141: a tree that was read is written by xml_write in a form that is read as
   the same tree, up to the blanks around the texts *)
Theorem xml_write_read d indent w1 w2 :
  tidy d -> spaces indent -> forallb white w1 = true -> forallb white w2 = true ->
  exists y,
    xml_parse_string (w1 ++ xml_write (collected d) (node_name d) indent [nl] ++ w2)
    = Some (Node (tx "root") [] [FNode y])
    /\ stripped y = stripped (collected d).
Proof.
  intros T S W1 W2. assert (TC := tidy_collected d T).
  rewrite <- (collected_name d), write_laid by auto.
  exists (collected (laid (collected d) indent)). split; [|now apply laid_stripped].
  rewrite <- !app_assoc, app_assoc. apply print_read; auto.
  - now apply tidy_laid.
  - rewrite forallb_app, W1. clear - S. cbn [andb]. apply forallb_forall. intros a I.
    unfold spaces in S. rewrite Forall_forall in S. now apply space_set, S.
Qed.
Print Assumptions xml_write_read.

(* ---- reading an object does not depend on the layout ---- *)

Lemma index_front c w x : has c w = false -> index c (w ++ x) = option_map (fun i => length w + i) (index c x).
Proof.
  induction w as [|a w IH]; intros H; [cbn [app]; now destruct (index c x)|]. cbn [has] in H. apply orb_false_elim in H as [H1 H2].
  cbn [app index]. rewrite H1, IH by auto. now destruct (index c x).
Qed.
Lemma index_has c x : has c x = false <-> index c x = None.
Proof.
  induction x as [|a x IH]; cbn [has index]; [tauto|]. destruct (Ascii.eqb c a); cbn [orb].
  - split; discriminate.
  - rewrite IH. destruct (index c x); cbn; split; congruence.
Qed.

Lemma read_list_front d0 d1 sep f w x : has d0 w = false -> has d1 w = false ->
  read_list d0 d1 sep f (w ++ x) = read_list d0 d1 sep f x.
Proof.
  intros H0 H1. unfold read_list. rewrite !index_front by auto.
  destruct (index d0 x) as [b|]; [|reflexivity]. destruct (index d1 x) as [e|]; [|reflexivity].
  cbn [option_map].
  replace (slice (S (length w + b)) (length w + e) (w ++ x)) with (slice (S b) e x); auto.
  unfold slice. rewrite skipn_app. rewrite (skipn_all2 w) by lia.
  replace (S (length w + b) - length w) with (S b) by lia.
  replace (length w + e - S (length w + b)) with (e - S b) by lia. reflexivity.
Qed.
Lemma read_list_back d0 d1 sep f w x : has d0 w = false -> has d1 w = false ->
  read_list d0 d1 sep f (x ++ w) = read_list d0 d1 sep f x.
Proof.
  intros H0 H1. destruct (read_list d0 d1 sep f x) as [l|] eqn:E; [now apply read_list_more|].
  unfold read_list in *.
  assert (N : forall c, has c w = false -> index c (x ++ w) = index c x).
  { intros c Hc. destruct (index c x) as [i|] eqn:I; [now apply (index_more c x w)|].
    apply index_has. rewrite has_app, Hc, orb_false_r. now apply index_has. }
  rewrite !N by auto. destruct (index d0 x); [|reflexivity]. destruct (index d1 x); [discriminate|reflexivity].
Qed.

Lemma lstrip_split f t : exists w, t = w ++ lstrip f t /\ Forall (fun a => f a = true) w.
Proof.
  unfold lstrip. induction t as [|a t IH]; [now exists []|]. cbn [dropw]. destruct (f a) eqn:E.
  - destruct IH as (w & E1 & W). exists (a :: w). split; [cbn; congruence|auto].
  - exists []. auto.
Qed.

Lemma blank_has w c : Forall (fun a => blank a = true) w -> blank c = false -> has c w = false.
Proof.
  intros H N. apply has_not. intros I. rewrite Forall_forall in H. specialize (H c I). congruence.
Qed.

Lemma read_list_strip d0 d1 sep f t : blank d0 = false -> blank d1 = false ->
  read_list d0 d1 sep f (strip blank t) = read_list d0 d1 sep f t.
Proof.
  intros B0 B1. destruct (lstrip_split blank t) as (w & E & W).
  destruct (rstrip_split blank (lstrip blank t)) as (y & E2 & Y).
  rewrite E at 2. rewrite read_list_front by (apply blank_has; auto).
  rewrite E2. unfold strip. rewrite read_list_back by (apply blank_has; auto). reflexivity.
Qed.

Section Layout.
Variable F : Type.
Variable frd : text -> option F.
Variable is_float : text -> bool.
Variable loadtxt : dtype -> text -> option (list (val F)).
Variable to_user : text -> text -> val F -> val F.
(* float() ignores the blanks around a number *)
Hypothesis frd_strip : forall t, frd (strip blank t) = frd t.

Notation rd := (InpModel.rd F frd is_float).
Notation parse := (InpModel.parse F frd is_float loadtxt to_user).
Notation ploop := (InpProofs.ploop F frd is_float loadtxt to_user).

Lemma rd_strip d t : rd d (strip blank t) = rd d t.
Proof.
  destruct d; cbn [InpModel.rd].
  - unfold read_int. now rewrite strip_idem.
  - now rewrite frd_strip.
  - unfold read_bool. now rewrite strip_idem.
  - now rewrite strip_idem.
  - unfold read_tuple. now rewrite read_list_strip.
  - unfold read_dict. now rewrite read_list_strip.
Qed.

Lemma rd_array_strip d t : rd_array F frd is_float d (strip blank t) = rd_array F frd is_float d t.
Proof. unfold rd_array. now rewrite read_list_strip. Qed.

Lemma finish_strip c t ats fs ex :
  finish_array F frd is_float loadtxt c (strip blank t) ats fs ex = finish_array F frd is_float loadtxt c t ats fs ex.
Proof. unfold finish_array. now rewrite rd_array_strip, strip_idem. Qed.

Lemma last_text_strip fs : last_text (map strip1 fs) = strip blank (last_text fs).
Proof.
  unfold last_text. change (@nil ascii) with (strip blank []) at 1. generalize (@nil ascii).
  induction fs as [|[t|y] fs IH]; intros acc; [reflexivity| |]; cbn [map fold_left strip1]; apply IH.
Qed.

Lemma stripped_name x : node_name (stripped x) = node_name x.
Proof. now destruct x. Qed.

Lemma parse_stripped1 c : forall o x, parse c o (stripped x) = parse c o x.
Proof.
  induction c as [c IA IF ID] using cls_ind'. intros o [nm ats fs]. rewrite stripped_eq, !parse_eq.
  cbn [node_attribs node_fields].
  assert (E : forall l fs1 ex1, ploop (c_fields F c) (c_dynamic F c) (map strip1 l) fs1 ex1
                                = ploop (c_fields F c) (c_dynamic F c) l fs1 ex1).
  { induction l as [|[t|y] l IHl]; intros fs1 ex1; [reflexivity|apply IHl|].
    cbn [map strip1]. rewrite !ploop_node, stripped_name.
    destruct (find (node_name y) (c_fields F c)) as [c'|] eqn:Ff.
    - rewrite (IF _ _ (find_some _ _ _ _ Ff)). destruct (parse c' _ y); [apply IHl|reflexivity].
    - destruct (eqt (node_name y) (tx "_text")); [reflexivity|].
      destruct (find (node_name y) (c_dynamic F c)) as [c'|] eqn:Fd; [|reflexivity].
      rewrite (ID _ _ (find_some _ _ _ _ Fd)). destruct (parse c' _ y); [apply IHl|reflexivity]. }
  rewrite E, last_text_strip. destruct (InpModel.parse_attrs _ _ _ _ _ _ _); [|reflexivity].
  destruct (ploop _ _ _ _ _) as [[fs1 ex1]|]; [|reflexivity].
  rewrite finish_strip, rd_strip. reflexivity.
Qed.

(* C141: trees that differ by the blanks around their texts are read as the
   same object *)
Theorem parse_layout c o x y : stripped x = stripped y -> parse c o x = parse c o y.
Proof. intros E. now rewrite <- (parse_stripped1 c o x), E, parse_stripped1. Qed.

(* C142: the text kept for a template (inputvalue.py 1163-1175), when it has one
   tag and nothing else, stands for that tag: reading it (inputs/system.py
   93-98) gives what reading the tag gives *)
Theorem template_same c o d ats nm blanks :
  tidy d -> strip blank blanks = [] ->
  let raw := xml_write (Node nm ats [FNode (collected d); FText blanks]) [] [] [] in
  exists y, xml_parse_string raw = Some (Node (tx "root") [] [FNode y])
            /\ parse c o y = parse c o (collected d).
Proof.
  intros T B raw.
  destruct (xml_write_read d (tx "  ") [nl] []) as (y & E & S); auto.
  { repeat constructor. }
  exists y. split; [|now apply parse_layout].
  rewrite <- E. unfold raw. cbn [xml_write eqt negb]. change (eqt [] []) with true. cbn [negb fst snd].
  rewrite B, collected_name. cbn [app]. change (strip blank []) with (@nil ascii). cbn [app fst]. now rewrite !app_nil_r.
Qed.
End Layout.
Print Assumptions parse_layout.
Print Assumptions template_same.

Example template_case :
  let d := Node (tx "system") [] [FText [nl]; FNode (Node (tx "prefix") [(tx "units", tx "")] [FText (tx " run ")]); FText [nl]] in
  tidy d /\ xml_write (Node (tx "template") [] [FNode (collected d); FText [nl; nl]]) [] [] []
            = [nl] ++ tx "  <system>" ++ [nl] ++ tx "    <prefix units=''>run</prefix>" ++ [nl] ++ tx "  </system>".
Proof. split; [|vm_compute; reflexivity].
  repeat first [reflexivity | exact (fun H => H) | split | constructor].
Qed.

(* C142, false of the code: entities are decoded when the file is read and not
   written again, so that a template that contains one cannot be used *)
Theorem template_entity_refuted :
  exists doc x, xml_parse_string doc = Some (Node (tx "root") [] [FNode x])
    /\ xml_parse_string (xml_write x [] [] []) = None.
Proof.
  exists (tx "<template><system><prefix>a&lt;b</prefix></system></template>").
  eexists. split; vm_compute; reflexivity.
Qed.
Print Assumptions template_entity_refuted.

(* ---------------- substitution of labels ---------------- *)

(* str.replace for a label that is not empty *)
Fixpoint starts (p t : text) : bool :=
  match p, t with
  | [], _ => true
  | a :: p', b :: t' => Ascii.eqb a b && starts p' t'
  | _, [] => false
  end.
Fixpoint replace_from (fuel : nat) (old new t : text) : text :=
  match fuel, t with
  | S k, a :: r => if starts old t then new ++ replace_from k old new (skipn (length old) t)
                   else a :: replace_from k old new r
  | _, _ => t
  end.
Definition replace (old new t : text) : text := replace_from (length t) old new t.

(* the order of strings *)
Fixpoint lex (x y : text) : comparison :=
  match x, y with
  | [], [] => Eq
  | [], _ => Lt
  | _, [] => Gt
  | a :: x', b :: y' => match Nat.compare (nat_of_ascii a) (nat_of_ascii b) with Eq => lex x' y' | c => c end
  end.
(* the order of pairs *)
Definition lex2 (p q : text * text) : comparison :=
  match lex (fst p) (fst q) with Eq => lex (snd p) (snd q) | c => c end.

(* sorted(..., reverse=True), by insertion *)
Fixpoint insert (p : text * text) (l : list (text * text)) : list (text * text) :=
  match l with
  | [] => [p]
  | q :: r => match lex2 p q with Lt => q :: insert p r | _ => p :: l end
  end.
Definition rsorted (l : list (text * text)) : list (text * text) := fold_right insert [] l.

(* inputs/system.py 84-93; None where the lengths differ *)
Definition instance (template : text) (labels ins : list text) : option text :=
  if negb (length labels =? length ins) then None
  else Some (fold_left (fun s p => replace (fst p) (snd p) s) (rsorted (combine labels ins)) template).

Lemma insert_in p q l : In q (insert p l) <-> q = p \/ In q l.
Proof.
  induction l as [|r l IH]; cbn [insert In]; [split; intros [H|H]; auto; destruct H|].
  destruct (lex2 p r); cbn [In]; rewrite ?IH; intuition congruence.
Qed.
Lemma rsorted_in q l : In q (rsorted l) <-> In q l.
Proof.
  induction l as [|p l IH]; cbn [rsorted fold_right In]; [tauto|]. rewrite insert_in. fold (rsorted l). rewrite IH.
  intuition congruence.
Qed.

Lemma lex_refl x : lex x x = Eq.
Proof. induction x as [|a x IH]; cbn; auto. now rewrite Nat.compare_refl. Qed.
Lemma lex_flip x : forall y, lex y x = CompOpp (lex x y).
Proof.
  induction x as [|a x IH]; intros [|b y]; cbn; auto.
  rewrite (Nat.compare_antisym (nat_of_ascii a) (nat_of_ascii b)).
  destruct (Nat.compare (nat_of_ascii a) (nat_of_ascii b)); cbn; auto.
Qed.
Lemma lex_le_trans x : forall y z, lex x y <> Gt -> lex y z <> Gt -> lex x z <> Gt /\ (lex x z = Eq -> lex x y = Eq /\ lex y z = Eq).
Proof.
  induction x as [|a x IH]; intros [|b y] [|c z]; cbn [lex]; intros H G; try (split; [congruence|intros; split; congruence]).
  destruct (Nat.compare_spec (nat_of_ascii a) (nat_of_ascii b)) as [E|E|E]; try congruence;
  destruct (Nat.compare_spec (nat_of_ascii b) (nat_of_ascii c)) as [E'|E'|E']; try congruence;
  destruct (Nat.compare_spec (nat_of_ascii a) (nat_of_ascii c)) as [E''|E''|E'']; try lia; try (split; [congruence|intros; split; congruence]).
  now apply IH.
Qed.
Lemma lex2_flip p q : lex2 q p = CompOpp (lex2 p q).
Proof.
  unfold lex2. rewrite (lex_flip (fst p) (fst q)), (lex_flip (snd p) (snd q)).
  destruct (lex (fst p) (fst q)); reflexivity.
Qed.
Lemma lex_trans_eq x y z : lex x y = Eq -> lex x z = lex y z.
Proof.
  revert y z. induction x as [|a x IH]; intros [|b y] [|c z]; cbn [lex]; try discriminate; try (intros; reflexivity).
  destruct (Nat.compare_spec (nat_of_ascii a) (nat_of_ascii b)) as [E|E|E]; try congruence. rewrite E. intros H.
    destruct (Nat.compare (nat_of_ascii b) (nat_of_ascii c)); auto.
Qed.
Lemma lex2_trans p q r : lex2 p q <> Gt -> lex2 q r <> Gt -> lex2 p r <> Gt.
Proof.
  unfold lex2. destruct (lex (fst p) (fst q)) eqn:A; [| |congruence].
  - rewrite (lex_trans_eq _ _ (fst r) A). destruct (lex (fst q) (fst r)); try congruence.
    intros H G. now apply (lex_le_trans (snd p) (snd q) (snd r)).
  - intros _ H. destruct (lex (fst q) (fst r)) eqn:B; try congruence;
      destruct (lex_le_trans (fst p) (fst q) (fst r)) as [N E]; try congruence;
      destruct (lex (fst p) (fst r)) eqn:Cm; try congruence; destruct (E eq_refl); congruence.
Qed.

Inductive down : list (text * text) -> Prop :=
| down_nil : down []
| down_cons p l : (forall q, In q l -> lex2 q p <> Gt) -> down l -> down (p :: l).

Lemma insert_down p l : down l -> down (insert p l).
Proof.
  induction 1 as [|q l H D IH]; cbn [insert]; [constructor; [intros q []|constructor]|].
  destruct (lex2 p q) eqn:E.
  - constructor; [|constructor; auto]. intros r [<-|I]; [rewrite lex2_flip, E; discriminate|].
    apply lex2_trans with q; auto. rewrite lex2_flip, E. discriminate.
  - constructor; auto. intros r I. apply insert_in in I as [->|I]; auto. congruence.
  - constructor; [|constructor; auto]. intros r [<-|I]; [rewrite lex2_flip, E; discriminate|].
    apply lex2_trans with q; auto. rewrite lex2_flip, E. discriminate.
Qed.
Lemma rsorted_down l : down (rsorted l).
Proof. induction l as [|p l IH]; cbn; [constructor|]. now apply insert_down. Qed.

Lemma prefix_lt x y : y <> [] -> lex x (x ++ y) = Lt.
Proof.
  intros N. induction x as [|a x IH]; cbn.
  - destruct y; [congruence|reflexivity].
  - now rewrite Nat.compare_refl.
Qed.

(* C143: a label that continues another one is substituted before it *)
Theorem longer_label_first l x y a b before after :
  y <> [] -> rsorted l = before ++ (x, a) :: after -> In (x ++ y, b) l -> In (x ++ y, b) before.
Proof.
  intros N E I. apply rsorted_in in I. rewrite E in I. apply in_app_or in I as [I|[I|I]]; auto.
  - injection I as I _. assert (L := prefix_lt x y N). rewrite <- I, lex_refl in L. discriminate.
  - exfalso. assert (D := rsorted_down l). rewrite E in D. clear E.
    induction before as [|p before IH]; cbn [app] in D; inversion D as [|? ? H D']; subst.
    + specialize (H _ I). apply H. unfold lex2. cbn [fst snd]. rewrite lex_flip, prefix_lt by auto. reflexivity.
    + now apply IH.
Qed.
Print Assumptions longer_label_first.

Example longer_label_case :
  rsorted [(tx "string", tx "a"); (tx "string1", tx "b")] = [(tx "string1", tx "b"); (tx "string", tx "a")]
  /\ instance (tx "string1 string") [tx "string"; tx "string1"] [tx "a"; tx "b"] = Some (tx "b a").
Proof. split; vm_compute; reflexivity. Qed.

(* C143, false of the code: the comment says that longer labels come first.  A
   label that ends with another one is destroyed, and what has been put in the
   place of a label is searched for the labels that follow *)
Theorem label_order_refuted :
  instance (tx "XTEMP TEMP") [tx "XTEMP"; tx "TEMP"] [tx "1"; tx "2"] = Some (tx "1 2")
  /\ instance (tx "ATEMP TEMP") [tx "ATEMP"; tx "TEMP"] [tx "1"; tx "2"] = Some (tx "A2 2")
  /\ instance (tx "b") [tx "b"; tx "a"] [tx "a"; tx "1"] = Some (tx "1").
Proof. repeat split; vm_compute; reflexivity. Qed.
Print Assumptions label_order_refuted.

(* ---------------- editing ---------------- *)

(* the names of the nodes below a node *)
Fixpoint below (x : node) : list text :=
  let 'Node _ _ fs := x in
  flat_map (fun f => match f with FText _ => [] | FNode y => node_name y :: below y end) fs.

(* the nodes at the end of a path *)
Fixpoint reached (path : list text) (x : node) : list node :=
  match path with
  | [] => [x]
  | p :: ps => flat_map (fun f => match f with
                                  | FNode y => if eqt (node_name y) p then reached ps y else []
                                  | FText _ => []
                                  end) (node_fields x)
  end.

Definition edit1 (path : list text) (nd : node) (full : bool) (how : edit) : list field -> option (list field * nat) :=
  fix go (fs : list field) : option (list field * nat) :=
    match fs with
    | [] => Some ([], 0)
    | f :: r =>
      match go r with
      | None => None
      | Some (r', k) =>
        match f with
        | FText _ => Some (f :: r', k)
        | FNode x =>
          match path with
          | [] => None
          | p :: ps =>
            if eqt (node_name x) p then
              match ps with
              | [] =>
                match how with
                | EAdd => let 'Node xn xa xf := x in Some (FNode (Node xn xa (xf ++ [FNode nd])) :: r', S k)
                | ERemove => Some (r', S k)
                | EReplace => Some (FNode nd :: r', S k)
                | EOther => None
                end
              | _ => match xml_edit x ps nd full how with
                     | Some (x', j) => Some (FNode x' :: r', j + k)
                     | None => None
                     end
              end
            else if negb full then
              match xml_edit x path nd full how with
              | Some (x', j) => Some (FNode x' :: r', j + k)
              | None => None
              end
            else Some (f :: r', k)
          end
        end
      end
    end.

Lemma xml_edit_eq nm ats fs path nd full how :
  xml_edit (Node nm ats fs) path nd full how
  = match edit1 path nd full how fs with Some (fs', k) => Some (Node nm ats fs', k) | None => None end.
Proof. reflexivity. Qed.

(* C144: a name that is removed is not found any more at any depth, the name of
   the root aside, and the tree keeps the rest of its names *)
Theorem edit_remove p nd x :
  exists x' k, xml_edit x [p] nd false ERemove = Some (x', k) /\ ~ In p (below x')
    /\ node_name x' = node_name x /\ node_attribs x' = node_attribs x
    /\ (~ In p (below x) <-> k = 0) /\ (k = 0 -> x' = x).
Proof.
  induction x as [nm ats fs IH] using node_ind'. rewrite xml_edit_eq.
  assert (G : exists fs' k, edit1 [p] nd false ERemove fs = Some (fs', k)
     /\ ~ In p (below (Node nm ats fs')) /\ (~ In p (below (Node nm ats fs)) <-> k = 0) /\ (k = 0 -> fs' = fs)).
  { induction fs as [|[t|y] fs IHf].
    - exists [], 0. repeat split; auto.
    - destruct IHf as (fs' & k & E & A & B & C).
      { intros z Hz. apply IH. now right. }
      cbn [edit1]. rewrite E. exists (FText t :: fs'), k. repeat split; auto; try apply B. intros H. now rewrite C.
    - destruct IHf as (fs' & k & E & A & B & C).
      { intros z Hz. apply IH. now right. }
      cbn [edit1]. rewrite E. destruct (eqt (node_name y) p) eqn:Ep.
      + apply eqt_spec in Ep. exists fs', (S k). split; [reflexivity|]. split; [exact A|]. split.
        * split; [|discriminate]. intros N. destruct N. cbn [below flat_map]. apply in_or_app. left. left. exact Ep.
        * discriminate.
      + cbn [negb]. destruct (IH y (or_introl eq_refl)) as (y' & j & Ey & Ay & Ny & _ & By & Cy).
        rewrite Ey. exists (FNode y' :: fs'), (j + k). split; [reflexivity|].
        assert (Np : node_name y <> p) by (intros Q; rewrite Q, eqt_refl in Ep; discriminate).
        split; [|split].
        * cbn [below flat_map]. intros I. apply in_app_or in I as [[I|I]|I]; [congruence|contradiction|now apply A].
        * cbn [below flat_map]. split.
          -- intros N. assert (j = 0) by (apply By; intros I; apply N, in_or_app; left; now right).
             assert (k = 0) by (apply B; intros I; apply N, in_or_app; now right). lia.
          -- intros Z I. apply in_app_or in I as [[I|I]|I]; [congruence| |].
             ++ assert (Q : j = 0) by lia. apply By in Q. contradiction.
             ++ assert (Q : k = 0) by lia. apply B in Q. contradiction.
        * intros Z. rewrite Cy, C by lia. reflexivity. }
  destruct G as (fs' & k & E & A & B & C). rewrite E. exists (Node nm ats fs'), k.
  repeat split; auto; try apply B. intros Z. now rewrite C.
Qed.
Print Assumptions edit_remove.

(* C144: with a full path the edits are as many as the nodes at its end *)
Theorem edit_full_count x : forall path nd how,
  path <> [] -> how <> EOther ->
  exists x', xml_edit x path nd true how = Some (x', length (reached path x)).
Proof.
  induction x as [nm ats fs IH] using node_ind'. intros [|p ps] nd how NP NO; [congruence|]. rewrite xml_edit_eq.
  cbn [reached node_fields].
  assert (G : exists fs', edit1 (p :: ps) nd true how fs = Some (fs', length
     (flat_map (fun f => match f with
                         | FNode y => if eqt (node_name y) p then reached ps y else []
                         | FText _ => []
                         end) fs))).
  { clear nm ats. induction fs as [|[t|y] fs IHf].
    - exists []. reflexivity.
    - destruct IHf as (fs' & E).
      { intros z Hz. apply IH. now right. }
      cbn [edit1]. rewrite E. eexists. reflexivity.
    - destruct IHf as (fs' & E).
      { intros z Hz. apply IH. now right. }
      cbn [edit1]. rewrite E. cbn [flat_map]. rewrite app_length.
      destruct (eqt (node_name y) p); [|cbn [negb]; eexists; reflexivity].
      destruct ps as [|q ps].
      + cbn [reached length]. destruct how; try congruence; destruct y; eexists; reflexivity.
      + destruct (IH y (or_introl eq_refl) (q :: ps) nd how) as (y' & Ey); [discriminate|auto|]. rewrite Ey.
        eexists. reflexivity. }
  destruct G as (fs' & E). rewrite E. eexists. reflexivity.
Qed.
Print Assumptions edit_full_count.

Example edit_case :
  let leaf (n : string) := FNode (Node (tx n) [] []) in
  let x := Node (tx "root") [] [FNode (Node (tx "a") [] [leaf "b"%string; leaf "c"%string]); leaf "b"%string; FText (tx "t")] in
  xml_edit x [tx "b"] (Node [] [] []) false ERemove = Some (Node (tx "root") [] [FNode (Node (tx "a") [] [leaf "c"%string]); FText (tx "t")], 2)
  /\ xml_edit x [tx "a"; tx "b"] (Node (tx "d") [] []) true EReplace
     = Some (Node (tx "root") [] [FNode (Node (tx "a") [] [leaf "d"%string; leaf "c"%string]); leaf "b"%string; FText (tx "t")], 1).
Proof. split; vm_compute; reflexivity. Qed.
