(** * Inputs in JSON format: what is kept exactly *)
From Coq Require Import String Ascii List Bool Arith Lia.
From Verif Require Import TextLib JsonModel JsonProps.
Import ListNotations.
Local Open Scope string_scope.
Local Open Scope list_scope.

Definition txt (t : text) : list field := match t with [] => [] | _ => [Text t] end.
Definition named_list (k : string) (l : list node) : list field := map (Child k) l.
(** One text without blanks around it comes first, and the children of one name are together, at all levels. *)
Inductive normal : node -> Prop :=
| Normal a t gs : strip blank t = t -> NoDup (map fst gs) -> (forall g, In g gs -> reserved (fst g) = false /\ snd g <> []) ->
    (forall g c, In g gs -> In c (snd g) -> normal c) -> normal (Node a (txt t ++ flat_map (fun g => named_list (fst g) (snd g)) gs)).

Lemma set_fresh A k (v : A) d : ~ In k (map fst d) -> set k v d = d ++ [(k, v)].
Proof. induction d as [|[x w] d IH]; cbn [map In set app]; intros N; [reflexivity|]. destruct (String.eqb_spec x k) as [->|]; [exfalso; apply N; now left|]. now rewrite IH by tauto. Qed.
Lemma set_last A k (v w : A) d : ~ In k (map fst d) -> set k v (d ++ [(k, w)]) = d ++ [(k, v)].
Proof. induction d as [|[x u] d IH]; cbn [map In set app]; intros N; [now rewrite String.eqb_refl|]. destruct (String.eqb_spec x k) as [->|]; [exfalso; apply N; now left|]. now rewrite IH by tauto. Qed.
Lemma get_last A k (w : A) d : ~ In k (map fst d) -> get k (d ++ [(k, w)]) = Some w.
Proof. induction d as [|[x u] d IH]; cbn [map In get app]; intros N; [now rewrite String.eqb_refl|]. destruct (String.eqb_spec x k) as [->|]; [exfalso; apply N; now left|]. now rewrite IH by tauto. Qed.
Definition entry (l : list node) : json := match l with [c] => to_json c | _ => Lst (map to_json l) end.
Lemma fill_more k l cs d : 2 <= List.length l -> ~ In k (map fst d) -> fill (named_list k cs) (d ++ [(k, Lst (map to_json l))]) = d ++ [(k, Lst (map to_json (l ++ cs)))].
Proof.
  revert l. induction cs as [|c cs IH]; intros l L N; cbn [named_list map fill]; [now rewrite app_nil_r|]. fold (named_list k cs). unfold add_child. rewrite get_last by exact N. rewrite set_last by exact N.
  change [to_json c] with (map to_json [c]). rewrite <- map_app, IH, <- app_assoc; [reflexivity|rewrite app_length; lia|exact N].
Qed.
Lemma fill_group k l d : l <> [] -> (forall c, In c l -> not_list (to_json c)) -> ~ In k (map fst d) -> fill (named_list k l) d = d ++ [(k, entry l)].
Proof.
  intros L F N. destruct l as [|c [|c' l]]; [contradiction| |].
  - cbn [named_list map fill]. unfold add_child. rewrite get_none by exact N. apply set_fresh, N.
  - cbn [named_list map fill]. fold (named_list k l). unfold add_child at 2. rewrite (get_none _ k d N), (set_fresh _ k _ d N). unfold add_child. rewrite get_last by exact N.
    assert (C : not_list (to_json c)) by (apply F; now left). assert (S : set k (match to_json c with Lst m => Lst (m ++ [to_json c']) | x => Lst [x; to_json c'] end) (d ++ [(k, to_json c)]) = d ++ [(k, Lst (map to_json [c; c']))]).
    { rewrite set_last by exact N. cbn [map]. destruct (to_json c); try contradiction; reflexivity. }
    assert (E : fill (named_list k l) (d ++ [(k, Lst (map to_json [c; c']))]) = d ++ [(k, entry (c :: c' :: l))]) by (rewrite fill_more; [reflexivity|cbn; lia|exact N]).
    rewrite <- E. f_equal. rewrite <- S. destruct (to_json c); try contradiction; reflexivity.
Qed.
Lemma fill_groups gs d : NoDup (map fst gs) -> (forall g, In g gs -> snd g <> [] /\ ~ In (fst g) (map fst d) /\ forall c, In c (snd g) -> not_list (to_json c)) ->
  fill (flat_map (fun g => named_list (fst g) (snd g)) gs) d = d ++ map (fun g => (fst g, entry (snd g))) gs.
Proof.
  revert d. induction gs as [|[k l] gs IH]; intros d N H; cbn [flat_map map fst snd]; [now rewrite app_nil_r|]. cbn [map fst] in N. inversion N as [|? ? N1 N2]; subst. rewrite fill_app. destruct (H (k, l) (or_introl eq_refl)) as (A & B & C). cbn [fst snd] in *.
  rewrite fill_group by assumption. rewrite IH, <- app_assoc; [reflexivity|exact N2|]. intros g G. destruct (H g (or_intror G)) as (A' & B' & C'). split; [exact A'|]. split; [|exact C']. rewrite map_app, in_app_iff. cbn [map fst In]. intros [X|[X|[]]]; [contradiction|]. apply N1. rewrite X. now apply in_map.
Qed.
Lemma normal_named n : normal n -> named n.
Proof.
  induction 1 as [a t gs T N R I IH]. apply named_fields. intros k c X. apply in_app_or in X as [X|X]; [destruct t; [destruct X|destruct X as [X|[]]; discriminate]|]. apply in_flat_map in X as (g & G & X). apply in_map_iff in X as (c' & E & X). injection E as <- <-. split; [apply (R g G)|now apply (IH g c')].
Qed.
(** ** Texts without blanks around them *)
Lemma dropw_head_or f l : match dropw f l with [] => True | a :: _ => f a = false end.
Proof. induction l as [|a l IH]; cbn; [exact I|]. destruct (f a) eqn:E; [exact IH|exact E]. Qed.
Lemma dropw_suffix f l : exists x, l = x ++ dropw f l.
Proof. induction l as [|a l [x IH]]; cbn; [now exists []|]. destruct (f a); [exists (a :: x); cbn; now rewrite <- IH|now exists []]. Qed.
Lemma trim_strip f l : trim f (strip f l) = true.
Proof.
  unfold strip, lstrip, trim. apply andb_true_iff. split.
  - unfold rstrip. pose proof (dropw_head_or f l) as H. destruct (dropw_suffix f (rev (dropw f l))) as [x E]. set (r := dropw f (rev (dropw f l))) in *.
    assert (Q : dropw f l = rev r ++ rev x) by (rewrite <- rev_app_distr, <- E; now rewrite rev_involutive). rewrite Q in H. destruct (rev r) as [|b m]; [reflexivity|]. cbn in H. now rewrite H.
  - unfold rstrip. rewrite rev_involutive. pose proof (dropw_head_or f (rev (dropw f l))) as H. destruct (dropw f (rev (dropw f l))); [reflexivity|]. now rewrite H.
Qed.
Lemma trim_app f x y : trim f x = true -> trim f y = true -> trim f (x ++ y) = true.
Proof.
  unfold trim. rewrite !andb_true_iff, rev_app_distr. intros [A B] [C D]. split; [destruct x; [exact C|exact A]|]. destruct (rev y); [exact B|exact D].
Qed.
Lemma trim_texts fs : trim blank (texts fs) = true.
Proof. unfold texts. induction fs as [|[t|k c] fs IH]; [reflexivity|cbn [flat_map]; apply trim_app; [apply trim_strip|exact IH]|exact IH]. Qed.
Lemma get_in A k (v : A) d : NoDup (map fst d) -> In (k, v) d -> get k d = Some v.
Proof.
  induction d as [|[x w] d IH]; cbn [map fst get]; intros N I; [destruct I|]. inversion N as [|? ? N1 N2]; subst. destruct I as [I|I]; [injection I as <- <-; now rewrite String.eqb_refl|].
  destruct (String.eqb_spec x k) as [->|]; [|now apply IH]. exfalso. apply N1. change k with (fst (k, v)). now apply in_map.
Qed.
Section Str.
Variable render : json -> text.
Lemma entry_items l : l <> [] -> (forall c, In c l -> not_list (to_json c)) -> items (entry l) = map to_json l.
Proof. intros N F. destruct l as [|c [|c' l]]; [contradiction| |reflexivity]. cbn [entry map]. assert (C : not_list (to_json c)) by (apply F; now left). destruct (to_json c); try contradiction; reflexivity. Qed.
Lemma kids_app d e : kids render (d ++ e) = kids render d ++ kids render e.
Proof. apply flat_map_app. Qed.
Lemma kids_one k v : reserved k = false -> kids render [(k, v)] = named_list k (map (to_node render) (items v)).
Proof. intros R. unfold kids. cbn [flat_map]. rewrite R, app_nil_r. destruct v as [s|l|o]; try reflexivity. unfold items, named_list. now rewrite map_map. Qed.
(** Such inputs come back as they were. *)
Theorem normal_same n : normal n -> back render n = n.
Proof.
  induction 1 as [a t gs T N R I IH]. unfold back. rewrite to_json_fill, fill_app.
  assert (NL : forall g c, In g gs -> In c (snd g) -> not_list (to_json c)) by (intros g c G C; apply json_not_list, normal_named, (I g c G C)).
  assert (D0 : fill (txt t) (with_attribs a) = with_attribs a ++ match t with [] => [] | _ => [("value", Prim t)] end).
  { destruct t as [|x t]; [cbn [txt fill]; now rewrite app_nil_r|]. cbn [txt fill]. unfold add_text. rewrite T. destruct a; reflexivity. }
  rewrite D0. set (d0 := with_attribs a ++ match t with [] => [] | _ => [("value", Prim t)] end).
  assert (K0 : forall k, In k (map fst d0) -> reserved k = true). { unfold d0. intros k. rewrite map_app, in_app_iff. destruct a, t; cbn; intuition; subst; reflexivity. }
  rewrite fill_groups; [|exact N|].
  2:{ intros g G. split; [apply (R g G)|]. split; [intros X; apply K0 in X; destruct (R g G); congruence|]. intros c C. apply (NL g c G C). }
  set (es := map (fun g => (fst g, entry (snd g))) gs).
  assert (KE : forall k, reserved k = true -> get k es = None). { intros k K. apply get_none. unfold es. rewrite map_map. cbn [fst]. intros X. apply in_map_iff in X as (g & <- & G). destruct (R g G). congruence. }
  assert (GV : get "value" (d0 ++ es) = match t with [] => None | _ => Some (Prim t) end). { unfold d0. destruct a, t; cbn [with_attribs app]; try (apply KE; reflexivity); try reflexivity; cbn [get]; try (apply KE; reflexivity). }
  assert (GA : get "attributes" (d0 ++ es) = match a with [] => None | _ => Some (Obj (map (fun p => (fst p, Prim (snd p))) a)) end). { unfold d0. destruct a, t; cbn [with_attribs app]; try (apply KE; reflexivity); try reflexivity; cbn [get]; try (apply KE; reflexivity). }
  rewrite collapse_node by (intros v E; rewrite GV in E; destruct t; [discriminate|injection E as <-; eauto]).
  change (to_node render (Obj (d0 ++ es))) with (Node (match get "attributes" (d0 ++ es) with Some (Obj a) => map (fun p => (fst p, str render (snd p))) a | _ => [] end) ((match get "value" (d0 ++ es) with Some v => [Text (str render v)] | None => [] end) ++ kids render (d0 ++ es))).
  rewrite GV, GA. f_equal.
  - destruct a as [|p a]; [reflexivity|]. rewrite map_map. cbn [fst snd str]. generalize (p :: a). intros l. induction l as [|[x y] l IHl]; cbn; [reflexivity|]. now rewrite IHl.
  - f_equal; [now destruct t|]. rewrite kids_app. assert (Z : kids render d0 = []) by (unfold d0; destruct a, t; reflexivity). rewrite Z. cbn [app]. unfold es. clear - R IH NL.
    induction gs as [|g gs IHg]; [reflexivity|]. cbn [map flat_map]. change ((fst g, entry (snd g)) :: map (fun g => (fst g, entry (snd g))) gs) with ([(fst g, entry (snd g))] ++ map (fun g => (fst g, entry (snd g))) gs).
    rewrite kids_app, kids_one by (apply (R g); now left). rewrite IHg by (intros; first [apply R|eapply IH|eapply NL]; eauto; now right). f_equal.
    rewrite entry_items; [|apply (R g); now left|intros c C; apply (NL g c); [now left|exact C]]. rewrite map_map. unfold named_list. f_equal.
    rewrite <- (map_id (snd g)) at 2. apply map_ext_in. intros c C. apply (IH g c); [now left|exact C].
Qed.
Definition groups (d : list (string * json)) : list (string * list node) := map (fun p => (fst p, map (to_node render) (items (snd p)))) (filter (fun p => negb (reserved (fst p))) d).
Lemma kids_groups d : kids render d = flat_map (fun g => named_list (fst g) (snd g)) (groups d).
Proof.
  induction d as [|[k v] d IH]; [reflexivity|]. change ((k, v) :: d) with ([(k, v)] ++ d). rewrite kids_app, IH. unfold groups. cbn [app filter fst]. destruct (reserved k) eqn:R; cbn [negb map flat_map fst snd].
  - unfold kids. cbn [flat_map]. now rewrite R.
  - now rewrite (kids_one k v R).
Qed.
Lemma groups_nodup d : NoDup (map fst d) -> NoDup (map fst (groups d)).
Proof.
  unfold groups. rewrite map_map. cbn [fst]. induction d as [|[k v] d IH]; cbn [map filter fst]; intros N; [constructor|]. inversion N as [|? ? N1 N2]; subst. destruct (reserved k); cbn [negb map fst]; [now apply IH|]. constructor; [|now apply IH].
  intros X. apply N1. apply in_map_iff in X as (p & <- & X). apply filter_In in X as [X _]. now apply in_map.
Qed.
(** What is read from a converted input is of this kind, *)
Theorem back_normal n : named n -> normal (back render n).
Proof.
  induction n as [a fs IH] using node_induction. intros H. rewrite named_fields in H. unfold back. rewrite to_json_fill.
  assert (NL : forall k c, In (Child k c) fs -> not_list (to_json c)) by (intros k c I; apply json_not_list, (H k c I)).
  destruct (fill_spec a fs) as (D & A & V & C); [intros k c I; apply (H k c I)|exact NL|]. set (d := fill fs (with_attribs a)) in *.
  rewrite collapse_node by (intros v E; rewrite V in E; destruct (texts fs) as [|x t]; [discriminate|]; injection E as <-; eauto).
  change (to_node render (Obj d)) with (Node (match get "attributes" d with Some (Obj a) => map (fun p => (fst p, str render (snd p))) a | _ => [] end) ((match get "value" d with Some v => [Text (str render v)] | None => [] end) ++ kids render d)).
  rewrite kids_groups. replace (match get "value" d with Some v => [Text (str render v)] | None => [] end) with (txt (texts fs)) by (rewrite V; now destruct (texts fs)).
  assert (G : forall g, In g (groups d) -> reserved (fst g) = false /\ children (fst g) fs <> [] /\ snd g = map (back render) (children (fst g) fs)).
  { intros g X. unfold groups in X. apply in_map_iff in X as ([k v] & <- & X). apply filter_In in X as [X R]. cbn [fst snd] in *. apply negb_true_iff in R. pose proof (get_in _ k v d D X) as Q. rewrite (C k R) in Q. split; [exact R|].
    assert (F : forall c, In c (children k fs) -> not_list (to_json c)). { intros c J. unfold children in J. apply in_flat_map in J as ([t|k' c'] & I1 & I2); [destruct I2|]. destruct (String.eqb k' k); [|destruct I2]. destruct I2 as [<-|[]]. apply (NL k' c' I1). }
    destruct (children k fs) as [|c [|c' l]]; [discriminate| |]; (split; [discriminate|]); cbn [map group] in Q; injection Q as <-.
    - assert (L : not_list (to_json c)) by (apply F; now left). unfold back. cbn [map]. destruct (to_json c); try contradiction; reflexivity.
    - cbn [items]. unfold back. rewrite <- (map_map to_json (to_node render)). reflexivity. }
  apply Normal; [apply strip_trim, trim_texts|apply groups_nodup, D| |].
  - intros g X. destruct (G g X) as (R & N & E). split; [exact R|]. rewrite E. intros Z. apply map_eq_nil in Z. contradiction.
  - intros g c X I. destruct (G g X) as (R & N & E). rewrite E in I. apply in_map_iff in I as (c' & <- & I). unfold children in I. apply in_flat_map in I as ([t|k' c''] & I1 & I2); [destruct I2|]. destruct (String.eqb k' (fst g)); [|destruct I2]. destruct I2 as [<-|[]]. apply (IH k' c'' I1), (H k' c'' I1).
Qed.
(** so that converting it again changes nothing. *)
Theorem back_twice n : named n -> back render (back render n) = back render n.
Proof. intros H. now apply normal_same, back_normal. Qed.
End Str.
Print Assumptions normal_same.
Print Assumptions back_normal.
Print Assumptions back_twice.
(** An input with attributes, texts and two children of one name. *)
Example normal_case : normal (Node [("verbosity", tx "low")] [Child "ffsocket" (Node [("name", tx "a")] [Text (tx "x")]); Child "ffsocket" (Node [] []); Child "total_steps" (Node [] [Text (tx "10")])]).
Proof.
  assert (L : forall a s, strip blank s = s -> normal (Node a (txt s))). { intros a s S. rewrite <- (app_nil_r (txt s)). apply (Normal a s []); auto; [constructor|intros ? []|intros ? ? []]. }
  apply (Normal [("verbosity", tx "low")] [] [("ffsocket", [Node [("name", tx "a")] [Text (tx "x")]; Node [] []]); ("total_steps", [Node [] [Text (tx "10")]])]).
  - reflexivity.
  - repeat constructor; cbn; intuition discriminate.
  - intros g [<-|[<-|[]]]; split; try reflexivity; discriminate.
  - intros g c [<-|[<-|[]]].
    + intros [<-|[<-|[]]]; [exact (L _ (tx "x") eq_refl)|exact (L _ [] eq_refl)].
    + intros [<-|[]]. exact (L _ (tx "10") eq_refl).
Qed.
