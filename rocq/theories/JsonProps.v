(** * Inputs in JSON format: theorems of record *)
From Coq Require Import String Ascii List Bool Arith Lia.
From Verif Require Import TextLib JsonModel.
Import ListNotations.
Local Open Scope string_scope.
Local Open Scope list_scope.

(** What a node holds: texts without the blanks around them, put together, and the children of a name in their order. *)
Definition attribs_of (n : node) : list (string * text) := let (a, _) := n in a.
Definition fields_of (n : node) : list field := let (_, fs) := n in fs.
Definition texts (fs : list field) : text := flat_map (fun f => match f with Text t => strip blank t | _ => [] end) fs.
Definition children (k : string) (fs : list field) : list node := flat_map (fun f => match f with Child x c => if String.eqb x k then [c] else [] | _ => [] end) fs.

(** ** Dictionaries *)
Lemma get_set A k k' (v : A) d : get k (set k' v d) = if String.eqb k' k then Some v else get k d.
Proof.
  induction d as [|[x w] d IH]; cbn; [reflexivity|]. destruct (String.eqb_spec x k') as [->|N]; cbn.
  - destruct (String.eqb k' k); reflexivity.
  - rewrite IH. destruct (String.eqb_spec x k) as [->|M]; [|reflexivity]. destruct (String.eqb_spec k' k) as [->|]; [contradiction|reflexivity].
Qed.
Lemma set_keys A k (v : A) d x : In x (map fst (set k v d)) <-> x = k \/ In x (map fst d).
Proof.
  induction d as [|[y w] d IH]; cbn; [intuition|]. destruct (String.eqb_spec y k) as [->|N]; cbn; [intuition|]. rewrite IH. intuition.
Qed.
Lemma set_nodup A k (v : A) d : NoDup (map fst d) -> NoDup (map fst (set k v d)).
Proof.
  induction d as [|[y w] d IH]; cbn; intros N; [constructor; [intros []|constructor]|]. inversion N as [|? ? N1 N2]; subst. destruct (String.eqb_spec y k) as [->|M]; cbn; [now constructor|].
  constructor; [|now apply IH]. rewrite set_keys. intros [X|X]; [contradiction|contradiction].
Qed.
Lemma get_none A k (d : list (string * A)) : ~ In k (map fst d) -> get k d = None.
Proof. induction d as [|[y w] d IH]; cbn; intros N; [reflexivity|]. destruct (String.eqb_spec y k) as [->|]; [exfalso; apply N; now left|]. apply IH. tauto. Qed.

(** ** From nodes to JSON *)
Fixpoint fill (fs : list field) (d : list (string * json)) : list (string * json) :=
  match fs with [] => d | Text t :: r => fill r (add_text t d) | Child k c :: r => fill r (add_child k (to_json c) d) end.
Lemma to_json_fill a fs : to_json (Node a fs) = collapse (fill fs (with_attribs a)).
Proof. reflexivity. Qed.
Definition not_list (j : json) : Prop := match j with Lst _ => False | _ => True end.
Definition plain (fs : list field) : Prop := forall k c, In (Child k c) fs -> reserved k = false.
Definition group (l : list json) : option json := match l with [] => None | [x] => Some x | _ => Some (Lst l) end.
Lemma group_snoc l c x : Forall not_list l -> group l = Some x -> group (l ++ [c]) = Some (Lst (match x with Lst m => m ++ [c] | _ => [x; c] end)).
Proof.
  intros F. destruct l as [|y [|z l]]; cbn; intros E; [discriminate| |].
  - injection E as <-. inversion F as [|? ? Y]. destruct y; try contradiction; reflexivity.
  - injection E as <-. reflexivity.
Qed.
Lemma fields_snoc_ind (P : list field -> Prop) : P [] -> (forall fs f, P fs -> P (fs ++ [f])) -> forall fs, P fs.
Proof. intros A B fs. induction fs using rev_ind; auto. Qed.
Lemma fill_app fs gs d : fill (fs ++ gs) d = fill gs (fill fs d).
Proof. revert d. induction fs as [|[t|k c] fs IH]; intros d; cbn; auto. Qed.
(** What is in the dictionary. *)
Lemma fill_spec (a : list (string * text)) fs : plain fs -> (forall k c, In (Child k c) fs -> not_list (to_json c)) -> let d := fill fs (with_attribs a) in
  NoDup (map fst d) /\ get "attributes" d = match a with [] => None | _ => Some (Obj (map (fun p => (fst p, Prim (snd p))) a)) end /\
  get "value" d = match texts fs with [] => None | t => Some (Prim t) end /\
  forall k, reserved k = false -> get k d = group (map to_json (children k fs)).
Proof.
  induction fs as [|fs f IH] using fields_snoc_ind; intros P N.
  - cbv zeta. cbn [fill texts children flat_map map group]. destruct a as [|p a]; cbn [with_attribs get map fst snd]; (split; [|split; [|split]]); try reflexivity; try (match goal with |- NoDup _ => repeat constructor; intros [] end).
    intros k R. unfold reserved in R. apply orb_false_iff in R as [R _]. rewrite String.eqb_sym, R. reflexivity.
  - cbv zeta in IH |- *. rewrite fill_app. assert (P' : plain fs) by (intros k c I; apply (P k c); apply in_or_app; now left).
    destruct IH as (D & A & V & C); [exact P'|intros k c I; apply (N k c); apply in_or_app; now left|]. set (d := fill fs (with_attribs a)) in *.
    unfold texts, children. setoid_rewrite flat_map_app. fold (texts fs). cbn [flat_map fill]. destruct f as [t|k c]; cbn [fill].
    + rewrite app_nil_r. unfold add_text. destruct (strip blank t) as [|x s] eqn:S.
      * rewrite app_nil_r. split; [exact D|]. split; [exact A|]. split; [exact V|]. intros k R. rewrite app_nil_r. now apply C.
      * assert (E : exists v, (match get "value" d with None => set "value" (Prim (x :: s)) d | Some (Prim w) => set "value" (Prim (w ++ x :: s)) d | Some _ => d end) = set "value" (Prim v) d /\ v = texts fs ++ x :: s).
        { rewrite V. destruct (texts fs) as [|y r]; eexists; split; reflexivity. }
        destruct E as (v & -> & ->). split; [now apply set_nodup|]. split; [rewrite get_set; exact A|]. split; [rewrite get_set; cbn; destruct (texts fs ++ x :: s) eqn:Q; [now destruct (texts fs)|reflexivity]|].
        intros k R. rewrite get_set, app_nil_r. pose proof R as R'. unfold reserved in R'. apply orb_false_iff in R' as [_ R']. rewrite String.eqb_sym, R'. now apply C.
    + assert (R0 : reserved k = false) by (apply (P k c); apply in_or_app; right; now left). assert (L0 : not_list (to_json c)) by (apply (N k c); apply in_or_app; right; now left).
      assert (FL : Forall not_list (map to_json (children k fs))).
      { apply Forall_forall. intros j J. apply in_map_iff in J as (c' & <- & J). unfold children in J. apply in_flat_map in J as ([t|k' c''] & J1 & J2); [destruct J2|]. destruct (String.eqb k' k); [|destruct J2]. destruct J2 as [<-|[]]. apply (N k' c''). apply in_or_app. now left. }
      assert (E : add_child k (to_json c) d = set k (match group (map to_json (children k fs ++ [c])) with Some v => v | None => Prim [] end) d).
      { unfold add_child. rewrite (C k R0), map_app. cbn [map]. destruct (group (map to_json (children k fs))) as [x|] eqn:G.
        - rewrite (group_snoc _ _ x FL G).
          destruct x; reflexivity.
        - destruct (children k fs) as [|y [|z l]]; cbn in G; try discriminate. reflexivity. }
      rewrite E. pose proof R0 as R1. unfold reserved in R1. apply orb_false_iff in R1 as [R1 R2].
      split; [now apply set_nodup|]. split; [rewrite get_set, R1; exact A|]. split; [rewrite get_set, R2, !app_nil_r; exact V|].
      intros k' R. rewrite get_set. fold (children k' fs). destruct (String.eqb_spec k k') as [<-|M]; [|rewrite app_nil_r; now apply C]. cbn [app].
      destruct (group (map to_json (children k fs ++ [c]))) eqn:G; [reflexivity|]. destruct (children k fs) as [|y [|z l]]; cbn in G; discriminate.
Qed.

(** Names of children, all the way down. *)
Fixpoint named (n : node) : Prop :=
  match n with Node _ fs => (fix go fs := match fs with [] => True | Text _ :: r => go r | Child k c :: r => reserved k = false /\ named c /\ go r end) fs end.
Lemma named_fields a fs : named (Node a fs) <-> forall k c, In (Child k c) fs -> reserved k = false /\ named c.
Proof.
  cbn. induction fs as [|[t|k c] fs IH]; [split; [intros _ ? ? []|auto]| |].
  - rewrite IH. split; intros H k c; [intros [X|X]; [discriminate|now apply H]|intros X; apply H; now right].
  - rewrite IH. split; [intros (A & B & C) k' c' [X|X]; [injection X as <- <-; auto|now apply C]|intros H; split; [|split]; try (apply (H k c); now left); intros k' c' X; apply H; now right].
Qed.
Lemma node_induction (P : node -> Prop) : (forall a fs, (forall k c, In (Child k c) fs -> P c) -> P (Node a fs)) -> forall n, P n.
Proof.
  intros H. fix F 1. intros [a fs]. apply H. revert fs. fix G 1. intros [|[t|k0 c0] r] k c I; [destruct I| |].
  - destruct I as [I|I]; [discriminate I|exact (G r k c I)].
  - destruct I as [I|I]; [injection I as _ <-; exact (F c0)|exact (G r k c I)].
Qed.
Lemma collapse_not_list d : (forall v, get "value" d = Some v -> not_list v) -> not_list (collapse d).
Proof. unfold collapse. destruct d as [|[k v] [|y l]]; cbn; auto. destruct (String.eqb_spec k "value") as [->|]; cbn; auto. Qed.
Lemma json_not_list n : named n -> not_list (to_json n).
Proof.
  induction n as [a fs IH] using node_induction. intros H. rewrite named_fields in H. rewrite to_json_fill. apply collapse_not_list. intros v E.
  destruct (fill_spec a fs) as (_ & _ & V & _); [intros k c I; apply (H k c I)|intros k c I; apply (IH k c I), (H k c I)|]. rewrite E in V. destruct (texts fs); [discriminate|]. injection V as ->. exact I.
Qed.

(** ** From JSON to nodes *)
Section Str.
Variable render : json -> text.
Definition back (n : node) : node := to_node render (to_json n).
Lemma node_of_value s : to_node render (Prim s) = to_node render (Obj [("value", Prim s)]).
Proof. reflexivity. Qed.
Lemma texts_children l : texts (map (fun p => Child (fst p) (snd p)) l) = [].
Proof. induction l as [|p l IH]; cbn; [reflexivity|exact IH]. Qed.
Definition kids (d : list (string * json)) : list field :=
  flat_map (fun p : string * json => let (k, v) := p in if reserved k then @nil field else match v with Lst l => map (fun i => Child k (to_node render i)) l | _ => [Child k (to_node render v)] end) d.
Lemma kids_texts d : texts (kids d) = [].
Proof.
  induction d as [|[k v] d IH]; [reflexivity|]. unfold kids, texts. cbn [flat_map]. rewrite flat_map_app. fold (kids d). fold (texts (kids d)). rewrite IH, app_nil_r. destruct (reserved k); [reflexivity|]. destruct v as [s|l|o]; try reflexivity.
  induction l as [|x l IHl]; cbn; [reflexivity|exact IHl].
Qed.
Definition items (j : json) : list json := match j with Lst l => l | _ => [j] end.
Lemma children_map k k' l : children k (map (fun i => Child k' (to_node render i)) l) = if String.eqb k' k then map (to_node render) l else [].
Proof. induction l as [|x l IH]; cbn; [now destruct (String.eqb k' k)|]. unfold children in IH. rewrite IH. destruct (String.eqb k' k); reflexivity. Qed.
Lemma kids_children d k : NoDup (map fst d) -> reserved k = false -> children k (kids d) = match get k d with Some v => map (to_node render) (items v) | None => [] end.
Proof.
  intros N R. induction d as [|[x v] d IH]; [reflexivity|]. cbn in N. inversion N as [|? ? N1 N2]; subst. unfold kids, children. cbn [flat_map]. rewrite flat_map_app. fold (kids d). fold (children k (kids d)). rewrite (IH N2). cbn [get].
  assert (E : flat_map (fun f => match f with Child x0 c => if String.eqb x0 k then [c] else [] | _ => [] end) (if reserved x then @nil field else match v with Lst l => map (fun i => Child x (to_node render i)) l | _ => [Child x (to_node render v)] end) = if String.eqb x k then map (to_node render) (items v) else []).
  { destruct (reserved x) eqn:RX. - destruct (String.eqb_spec x k) as [->|]; [congruence|reflexivity]. - destruct v as [s|l|o]; try (cbn; destruct (String.eqb x k); reflexivity). apply children_map. }
  rewrite E. destruct (String.eqb_spec x k) as [->|]; [|reflexivity]. rewrite (get_none _ k d N1). apply app_nil_r.
Qed.
Lemma collapse_node d : (forall v, get "value" d = Some v -> exists s, v = Prim s) -> to_node render (collapse d) = to_node render (Obj d).
Proof. intros H. unfold collapse. destruct d as [|[k v] [|y l]]; try reflexivity. destruct (String.eqb_spec k "value") as [->|]; [|reflexivity]. destruct (H v) as (s & ->); [reflexivity|]. reflexivity. Qed.

(** Converting a node to JSON and back keeps its attributes, its text without blanks around, and all children of a name in their order. *)
Theorem json_round_trip n : named n -> attribs_of (back n) = attribs_of n /\
  (fields_of (back n) = (match texts (fields_of n) with [] => [] | t => [Text t] end) ++ filter (fun f => match f with Child _ _ => true | Text _ => false end) (fields_of (back n))) /\
  forall k, children k (fields_of (back n)) = map back (children k (fields_of n)).
Proof.
  destruct n as [a fs]. intros H. unfold back at 1 2 3 4. rewrite to_json_fill. rewrite named_fields in H.
  destruct (fill_spec a fs) as (D & A & V & C); [intros k c I; apply (H k c I)|intros k c I; apply json_not_list, (H k c I)|]. set (d := fill fs (with_attribs a)) in *.
  rewrite collapse_node by (intros v E; rewrite V in E; destruct (texts fs) as [|x t]; [discriminate|]; injection E as <-; eauto).
  change (to_node render (Obj d)) with (Node (match get "attributes" d with Some (Obj a) => map (fun p => (fst p, str render (snd p))) a | _ => [] end) ((match get "value" d with Some v => [Text (str render v)] | None => [] end) ++ kids d)).
  cbn [attribs_of fields_of]. split; [|split].
  - rewrite A. destruct a as [|p a]; [reflexivity|]. rewrite map_map. cbn [fst snd str]. clear. generalize (p :: a). intros l. induction l as [|[x y] l IH]; cbn; [reflexivity|]. now rewrite IH.
  - assert (K : filter (fun f => match f with Child _ _ => true | Text _ => false end) (kids d) = kids d).
    { clear. induction d as [|[k v] d IH]; [reflexivity|]. unfold kids. cbn [flat_map]. fold (kids d). rewrite filter_app, IH. f_equal. destruct (reserved k); [reflexivity|]. destruct v as [s|l|o]; try reflexivity. induction l as [|x l IHl]; cbn; [reflexivity|now rewrite IHl]. }
    rewrite V. rewrite filter_app, K. destruct (texts fs); reflexivity.
  - intros k. unfold children at 1. rewrite flat_map_app. fold (children k (kids d)). destruct (reserved k) eqn:R.
    + assert (X : children k fs = []). { destruct (children k fs) as [|c l] eqn:E; [reflexivity|]. exfalso. assert (I : In c (children k fs)) by (rewrite E; now left). unfold children in I. apply in_flat_map in I as ([t|k' c'] & I1 & I2); [destruct I2|]. destruct (String.eqb_spec k' k) as [->|]; [|destruct I2]. destruct (H k c' I1). congruence. }
      rewrite X. cbn [map]. assert (Y : children k (kids d) = []).
      { clear - R. induction d as [|[x v] d IH]; [reflexivity|]. unfold kids, children. cbn [flat_map]. rewrite flat_map_app. fold (kids d). fold (children k (kids d)). rewrite IH, app_nil_r. destruct (reserved x) eqn:RX; [reflexivity|]. assert (E : String.eqb x k = false) by (apply String.eqb_neq; congruence).
        destruct v as [s|l|o]; try (cbn; now rewrite E). change (children k (map (fun i => Child x (to_node render i)) l) = []). now rewrite children_map, E. }
      rewrite Y, app_nil_r. destruct (get "value" d); reflexivity.
    + rewrite (kids_children d k D R), (C k R). replace (flat_map _ match get "value" d with Some v => [Text (str render v)] | None => [] end) with (@nil node) by (now destruct (get "value" d)). cbn [app].
      assert (F : Forall not_list (map to_json (children k fs))). { apply Forall_forall. intros j J. apply in_map_iff in J as (c & <- & J). unfold children in J. apply in_flat_map in J as ([t|k' c'] & I1 & I2); [destruct I2|]. destruct (String.eqb k' k); [|destruct I2]. destruct I2 as [<-|[]]. apply json_not_list, (H k' c' I1). }
      unfold back. rewrite <- (map_map to_json (to_node render)). destruct (map to_json (children k fs)) as [|x [|y l]]; [reflexivity| |reflexivity]. cbn [group]. inversion F as [|? ? L]. destruct x; try contradiction; reflexivity.
Qed.
(** A whole input, and the content of its simulation alone, are read as the same input. *)
Theorem parse_whole sim : named sim -> parse render (to_json (Node [] [Child "simulation" sim])) = Node [] [Child "simulation" (back sim)].
Proof.
  intros H. unfold parse. rewrite to_json_fill. cbn [fill with_attribs]. unfold add_child. cbn [get set]. unfold collapse. cbn -[to_json]. pose proof (json_not_list sim H) as L. unfold back. destruct (to_json sim); [reflexivity|contradiction|reflexivity].
Qed.
Theorem parse_content sim : named sim -> (forall c, back sim <> Node [] [Child "simulation" c]) -> parse render (to_json sim) = Node [] [Child "simulation" (back sim)].
Proof.
  intros H N. unfold parse. fold (back sim). unfold process. destruct (back sim) as [[|p a] [|[t|k c] [|f fs]]]; try reflexivity. destruct (String.eqb_spec k "simulation") as [->|]; [|reflexivity]. exfalso. now apply (N c).
Qed.
(** The order of children with different names is not kept. *)
Theorem order_refuted : exists n, named n /\ attribs_of n = [] /\ texts (fields_of n) = [] /\ List.length (fields_of (back n)) = 3 /\ List.length (fields_of n) = 3 /\
  map (fun f => match f with Child k _ => k | _ => "" end) (fields_of n) = ["properties"; "trajectory"; "properties"] /\ map (fun f => match f with Child k _ => k | _ => "" end) (fields_of (back n)) = ["properties"; "properties"; "trajectory"].
Proof. exists (Node [] [Child "properties" (Node [] []); Child "trajectory" (Node [] []); Child "properties" (Node [] [])]). repeat split. Qed.
(** A child called value becomes the text of its parent. *)
Theorem value_refuted : exists n, texts (fields_of n) = [] /\ children "value" (fields_of n) <> [] /\ back n = Node [] [Text (tx "5")].
Proof. exists (Node [] [Child "value" (Node [] [Text (tx "5")])]). repeat split. discriminate. Qed.
End Str.
Print Assumptions json_round_trip.
Print Assumptions parse_whole.
Print Assumptions parse_content.
Print Assumptions order_refuted.
Print Assumptions value_refuted.
Example round_case : let n := Node [("mode", tx "nvt")] [Text (tx " "); Child "timestep" (Node [("units", tx "femtosecond")] [Text (tx " 0.5 ")]); Child "port" (Node [] [Text (tx " 31415 ")])] in
  named n /\ back (fun _ => []) n = Node [("mode", tx "nvt")] [Child "timestep" (Node [("units", tx "femtosecond")] [Text (tx "0.5")]); Child "port" (Node [] [Text (tx "31415")])].
Proof. split; [cbn; tauto|reflexivity]. Qed.
Example content_case : let n := Node [("verbosity", tx "low")] [Child "total_steps" (Node [] [Text (tx "10")])] in parse (fun _ => []) (to_json n) = parse (fun _ => []) (to_json (Node [] [Child "simulation" n])).
Proof. reflexivity. Qed.
