(* What is written for an input object is read back. *)
From Coq Require Import String Ascii List Arith Bool ZArith Lia.
From Verif Require Import TextLib XmlModel XmlProps ValModel ValProps InpModel InpText.
Import ListNotations.
Local Open Scope list_scope.
Local Open Scope nat_scope.

Section Inp.
Variable F : Type.
Variable fwr : F -> text.
Variable frd : text -> option F.
Variable is_float : text -> bool.
Variable loadtxt : dtype -> text -> option (list (val F)).
Variable to_user : text -> text -> val F -> val F.

Notation obj := (InpModel.obj F).
Notation cls := (InpModel.cls F).
Notation wr := (InpModel.wr F fwr).
Notation rd := (InpModel.rd F frd is_float).
Notation rd_array := (InpModel.rd_array F frd is_float).
Notation set_default := (InpModel.set_default F to_user).
Notation init := (InpModel.init F to_user).
Notation write := (InpModel.write F fwr to_user).
Notation parse := (InpModel.parse F frd is_float loadtxt to_user).
Notation parse_attr := (InpModel.parse_attr F frd is_float to_user).
Notation parse_attrs := (InpModel.parse_attrs F frd is_float to_user).
Notation finish_array := (InpModel.finish_array F frd is_float loadtxt).
Notation array_text := (InpModel.array_text F fwr).
Notation get := (InpModel.get F).
Notation vals := (InpModel.vals F).
Notation val1 := (InpModel.val1 F).
Notation optional := (InpModel.optional F).
Notation missing := (InpModel.missing F).
Notation c_kind := (InpModel.c_kind F).
Notation c_dtype := (InpModel.c_dtype F).
Notation c_default := (InpModel.c_default F).
Notation c_attribs := (InpModel.c_attribs F).
Notation c_fields := (InpModel.c_fields F).
Notation c_dynamic := (InpModel.c_dynamic F).
Notation c_opts := (InpModel.c_opts F).
Notation o_value := (InpModel.o_value F).
Notation o_explicit := (InpModel.o_explicit F).
Notation o_attribs := (InpModel.o_attribs F).
Notation o_fields := (InpModel.o_fields F).
Notation o_extra := (InpModel.o_extra F).
Notation Obj := (InpModel.Obj F).
Notation Cls := (InpModel.Cls F).

(* ---- dictionaries ---- *)

Lemma find_in A (l : list (text * A)) k v : NoDup (map fst l) -> In (k, v) l -> find k l = Some v.
Proof.
  induction l as [|[k' v'] l IH]; cbn [map fst In find]; intros D H; [easy|].
  inversion D; subst. destruct H as [[= -> ->]|H].
  - now rewrite eqt_refl.
  - rewrite eqt_neq; auto. intros ->. apply H2. now apply (in_map fst) in H.
Qed.

Lemma find_some A (l : list (text * A)) k v : find k l = Some v -> In (k, v) l.
Proof.
  induction l as [|[k' v'] l IH]; cbn [find]; [easy|].
  destruct (eqt k k') eqn:E; [|right; auto]. apply eqt_spec in E as ->. intros [= ->]. now left.
Qed.

Lemma find_none A (l : list (text * A)) k : find k l = None <-> ~ In k (map fst l).
Proof.
  induction l as [|[k' v'] l IH]; cbn [find map fst In]; [tauto|].
  destruct (eqt k k') eqn:E.
  - apply eqt_spec in E as ->. split; [easy|]. intros N. destruct N. now left.
  - rewrite IH. split; [|tauto]. intros N [->|H]; [now rewrite eqt_refl in E|auto].
Qed.

Lemma put_keys A (l : list (text * A)) k v : map fst (put k v l) = map fst l.
Proof.
  induction l as [|[k' v'] l IH]; cbn [put map fst]; auto.
  destruct (eqt k k'); cbn [map fst]; congruence.
Qed.

Lemma find_put A (l : list (text * A)) k v k' :
  find k' (put k v l) = if eqt k' k then match find k l with Some _ => Some v | None => None end else find k' l.
Proof.
  induction l as [|[j w] l IH]; cbn [put find].
  - destruct (eqt k' k); auto.
  - destruct (eqt k j) eqn:E.
    + apply eqt_spec in E as ->. cbn [find]. destruct (eqt k' j); auto.
    + cbn [find]. rewrite IH. destruct (eqt k' k) eqn:E2; auto.
      apply eqt_spec in E2 as ->. now rewrite E.
Qed.

Lemma get_put_same l k v : In k (map fst l) -> get k (put k v l) = v.
Proof.
  intros H. unfold InpModel.get. rewrite find_put, eqt_refl.
  destruct (find k l) eqn:E; auto. apply find_none in E. contradiction.
Qed.

Lemma get_put_other l k v k' : k' <> k -> get k' (put k v l) = get k' l.
Proof. intros H. unfold InpModel.get. now rewrite find_put, eqt_neq. Qed.

Lemma get_map (cs : list (text * cls)) (g : text * cls -> obj) a c :
  NoDup (map fst cs) -> In (a, c) cs -> get a (map (fun p => (fst p, g p)) cs) = g (a, c).
Proof.
  intros D H. unfold InpModel.get. rewrite (find_in _ _ a (g (a, c))); auto.
  - rewrite map_map. cbn. exact D.
  - apply in_map_iff. exists (a, c). auto.
Qed.

(* ---- induction over classes ---- *)

Fixpoint cls_ind' (P : cls -> Prop)
  (H : forall c, (forall a c', In (a, c') (c_attribs c) -> P c') ->
                 (forall a c', In (a, c') (c_fields c) -> P c') ->
                 (forall a c', In (a, c') (c_dynamic c) -> P c') -> P c) (c : cls) : P c.
Proof.
  assert (G : forall l : list (text * cls),
    (fix all (l : list (text * cls)) : Prop := match l with [] => True | p :: r => P (snd p) /\ all r end) l ->
    forall a c', In (a, c') l -> P c').
  { induction l as [|[k x] l IH]; intros A a c' I; [destruct I|].
    destruct A as [A1 A2]. destruct I as [E|I]; [|exact (IH A2 a c' I)].
    injection E as _ <-. exact A1. }
  destruct c as [k d o m df ats fs dyn]. apply H; cbn.
  - apply G. induction ats as [|[n x] l IH]; cbn; [trivial|]. split; [apply cls_ind'; exact H|exact IH].
  - apply G. induction fs as [|[n x] l IH]; cbn; [trivial|]. split; [apply cls_ind'; exact H|exact IH].
  - apply G. induction dyn as [|[n x] l IH]; cbn; [trivial|]. split; [apply cls_ind'; exact H|exact IH].
Defined.

(* ---- the functions by their tables ---- *)

Definition defwrite (c : cls) (a : text) : text := if optional c then write c (init c) a [] else [].

Definition body_text (c : cls) (o : obj) (indent : text) : text :=
  match c_kind c with
  | KValue => wr (c_dtype c) (val1 o)
  | KArray => array_text (c_dtype c) (vals o) indent
  | _ => [nl]
  end.

Definition attr_part (o : obj) (p : text * cls) : text :=
  let out := write (snd p) (get (fst p) (o_attribs o)) (fst p) [] in
  if eqt out (defwrite (snd p) (fst p)) then [] else tx " " ++ out.
Definition field_part (o : obj) (indent : text) (p : text * cls) : text :=
  if eqt (defwrite (snd p) (fst p)) (write (snd p) (get (fst p) (o_fields o)) (fst p) [])
  then [] else write (snd p) (get (fst p) (o_fields o)) (fst p) (tx "   " ++ indent).
Definition extra_part (dyn : list (text * cls)) (indent : text) (q : text * obj) : text :=
  match find (fst q) dyn with
  | Some c' => write c' (snd q) (fst q) (tx "   " ++ indent)
  | None => []
  end.

Lemma write_attr c o name indent : c_kind c = KAttr ->
  write c o name indent = name ++ tx "='" ++ wr (c_dtype c) (val1 o) ++ tx "'".
Proof. destruct c as [k d op m df ats fs dyn]. cbn. now intros ->. Qed.

Lemma write_eq c o name indent : c_kind c <> KAttr ->
  write c o name indent
  = indent ++ tx "<" ++ name ++ concat (map (attr_part o) (c_attribs c)) ++ tx ">" ++ body_text c o indent
    ++ concat (map (field_part o indent) (c_fields c))
    ++ concat (map (extra_part (c_dynamic c) indent) (o_extra o))
    ++ (if has nl (body_text c o indent) then indent else []) ++ tx "</" ++ name ++ tx ">" ++ [nl].
Proof.
  destruct c as [k d op m df ats fs dyn]. intros K.
  assert (E : forall q, (fix look (l : list (text * cls)) : text :=
                                  match l with
                                  | [] => []
                                  | (n, c') :: r => if eqt (fst q) n
                                                    then write c' (snd q) (fst q) (tx "   " ++ indent) else look r
                                  end) dyn = extra_part dyn indent q).
  { intros q. unfold extra_part. clear. induction dyn as [|[n c'] r IH]; cbn [find]; auto.
    destruct (eqt (fst q) n); auto. }
  unfold body_text. cbn [InpModel.c_attribs InpModel.c_fields InpModel.c_dynamic InpModel.c_kind InpModel.c_dtype] in *.
  rewrite <- (map_ext _ _ E).
  destruct k; [congruence|..]; reflexivity.
Qed.

(* the loop over the nodes of a tag *)
Fixpoint ploop (fs dyn : list (text * cls)) (l : list field) (fs1 ex1 : list (text * obj))
  : res (list (text * obj) * list (text * obj)) :=
  match l with
  | [] => Ok (fs1, ex1)
  | FText _ :: r => ploop fs dyn r fs1 ex1
  | FNode y :: r =>
    match find (node_name y) fs with
    | Some c' => match parse c' (get (node_name y) fs1) y with
                 | Ok o' => ploop fs dyn r (put (node_name y) o' fs1) ex1
                 | Err e => Err e
                 end
    | None =>
      if eqt (node_name y) (tx "_text") then Err BadValue
      else match find (node_name y) dyn with
           | Some c' => match parse c' (init c') y with
                        | Ok o' => ploop fs dyn r fs1 (ex1 ++ [(node_name y, o')])
                        | Err e => Err e
                        end
           | None => Err (BadTag (node_name y))
           end
    end
  end.

Definition attribs0 (c : cls) (o : obj) :=
  map (fun p => (fst p, set_default (snd p) (get (fst p) (o_attribs o)))) (c_attribs c).
Definition fields0 (c : cls) (o : obj) :=
  map (fun p => (fst p, set_default (snd p) (get (fst p) (o_fields o)))) (c_fields c).

Lemma ploop_node fs dyn y r fs1 ex1 :
  ploop fs dyn (FNode y :: r) fs1 ex1 =
    match find (node_name y) fs with
    | Some c' => match parse c' (get (node_name y) fs1) y with
                 | Ok o' => ploop fs dyn r (put (node_name y) o' fs1) ex1
                 | Err e => Err e
                 end
    | None =>
      if eqt (node_name y) (tx "_text") then Err BadValue
      else match find (node_name y) dyn with
           | Some c' => match parse c' (init c') y with
                        | Ok o' => ploop fs dyn r fs1 (ex1 ++ [(node_name y, o')])
                        | Err e => Err e
                        end
           | None => Err (BadTag (node_name y))
           end
    end.
Proof. reflexivity. Qed.

Lemma parse_eq c o x :
  parse c o x =
  match parse_attrs (c_attribs c) (node_attribs x) (attribs0 c o) with
  | Err e => Err e
  | Ok ats1 =>
    match ploop (c_fields c) (c_dynamic c) (node_fields x) (fields0 c o) [] with
    | Err e => Err e
    | Ok (fs1, ex1) =>
      match missing (c_attribs c) ats1 with
      | Some a => Err (NoAttr a)
      | None =>
        match missing (c_fields c) fs1 with
        | Some f => Err (NoField f)
        | None =>
          match c_kind c with
          | KNode => Ok (Obj (o_value o) true ats1 fs1 ex1)
          | KArray => finish_array c (last_text (node_fields x)) ats1 fs1 ex1
          | _ => match rd (c_dtype c) (last_text (node_fields x)) with
                 | Some v => Ok (Obj (Some [v]) true ats1 fs1 ex1)
                 | None => Err BadValue
                 end
          end
        end
      end
    end
  end.
Proof.
  destruct c as [k d op m df ats fs dyn]. cbn [InpModel.parse].
  cbn [InpModel.c_attribs InpModel.c_fields InpModel.c_dynamic InpModel.c_kind InpModel.c_dtype].
  unfold attribs0, fields0. cbn [InpModel.c_attribs InpModel.c_fields].
  destruct (parse_attrs ats (node_attribs x) _) as [ats1|e]; [|reflexivity].
  match goal with |- match ?g (node_fields x) ?a ?b with _ => _ end = _ =>
    assert (E : forall l fs1 ex1, g l fs1 ex1 = ploop fs dyn l fs1 ex1) end.
  { induction l as [|[t|y] r IH]; intros fs1 ex1; [reflexivity| |].
    - transitivity (ploop fs dyn r fs1 ex1); [|reflexivity]. rewrite <- IH. reflexivity.
    - rewrite ploop_node.
      lazymatch type of IH with forall a b, ?g r a b = _ => set (G := g) in *; clearbody G end.
      assert (EX : forall dl, (fix look (dl : list (text * cls)) : res (list (text * obj) * list (text * obj)) :=
            match dl with
            | [] => Err (BadTag (node_name y))
            | (n, c') :: dl' =>
              if eqt (node_name y) n then
                match parse c' (init c') y with
                | Ok o' => G r fs1 (ex1 ++ [(node_name y, o')])
                | Err e => Err e
                end
              else look dl'
            end) dl = match find (node_name y) dl with
           | Some c' => match parse c' (init c') y with
                        | Ok o' => ploop fs dyn r fs1 (ex1 ++ [(node_name y, o')])
                        | Err e => Err e
                        end
           | None => Err (BadTag (node_name y))
           end).
      { induction dl as [|[n c'] dl IHd]; cbn [find]; auto. destruct (eqt (node_name y) n); auto.
        destruct (parse c' (init c') y); auto. }
      rewrite EX.
      lazymatch goal with |- ?lk fs = _ => 
        assert (FX : forall fl, lk fl = match find (node_name y) fl with
    | Some c' => match parse c' (get (node_name y) fs1) y with
                 | Ok o' => ploop fs dyn r (put (node_name y) o' fs1) ex1
                 | Err e => Err e
                 end
    | None => lk [] end) end.
      { induction fl as [|[n c'] fl IHf]; [reflexivity|]. cbn [find]. destruct (eqt (node_name y) n); auto.
        destruct (parse c' (get (node_name y) fs1) y); auto. }
      rewrite FX. reflexivity. }
  rewrite E. reflexivity.
Qed.

(* ---- two objects with the same written values ---- *)

Inductive same : cls -> obj -> obj -> Prop :=
| Same c o o' :
    (c_kind c <> KNode -> map (wr (c_dtype c)) (vals o) = map (wr (c_dtype c)) (vals o')) ->
    (forall a c', In (a, c') (c_attribs c) -> same c' (get a (o_attribs o)) (get a (o_attribs o'))) ->
    (forall f c', In (f, c') (c_fields c) -> same c' (get f (o_fields o)) (get f (o_fields o'))) ->
    (c_kind c <> KAttr -> map fst (o_extra o) = map fst (o_extra o')) ->
    (forall i n c' x x', c_kind c <> KAttr -> nth_error (o_extra o) i = Some (n, x) -> nth_error (o_extra o') i = Some (n, x') ->
       find n (c_dynamic c) = Some c' -> same c' x x') ->
    same c o o'.

Lemma same_sym c : forall o o', same c o o' -> same c o' o.
Proof.
  induction c as [c IA IF ID] using cls_ind'. intros o o' H. inversion H as [? ? ? H1 H2 H3 H4 H5]; subst.
  constructor; auto.
  - intros K. symmetry. auto.
  - intros a c' I. apply (IA _ _ I). auto.
  - intros a c' I. apply (IF _ _ I). auto.
  - intros K. symmetry. auto.
  - intros i n c' x x' K E E' Fd. apply (ID n c'); [now apply find_some|]. eauto.
Qed.

Lemma same_trans c : forall o o' o'', same c o o' -> same c o' o'' -> same c o o''.
Proof.
  induction c as [c IA IF ID] using cls_ind'. intros o o' o'' H G.
  inversion H as [? ? ? H1 H2 H3 H4 H5]; subst. inversion G as [? ? ? G1 G2 G3 G4 G5]; subst.
  constructor.
  - intros K. rewrite H1; auto.
  - intros a c' I. apply (IA _ _ I) with (o' := get a (o_attribs o')); auto.
  - intros a c' I. apply (IF _ _ I) with (o' := get a (o_fields o')); auto.
  - intros K. rewrite H4; auto.
  - intros i n c' x x' K E E' Fd.
    assert (M : nth_error (map fst (o_extra o')) i = Some n) by (rewrite <- H4 by auto; now rewrite nth_error_map, E).
    rewrite nth_error_map in M. destruct (nth_error (o_extra o') i) as [[m y]|] eqn:E2; [|discriminate].
    cbn in M. injection M as ->.
    apply (ID n c') with (o' := y); [now apply find_some| |]; eauto.
Qed.

Lemma same_refl c : forall o, same c o o.
Proof.
  induction c as [c IA IF ID] using cls_ind'. intros o. constructor; auto.
  - intros a c' I. exact (IA _ _ I _).
  - intros a c' I. exact (IF _ _ I _).
  - intros i n c' x x' K E E' Fd. rewrite E in E'. injection E' as <-.
    apply (ID n c'). now apply find_some.
Qed.

Lemma same_val1 d o o' : map (wr d) (vals o) = map (wr d) (vals o') -> wr d (val1 o) = wr d (val1 o').
Proof.
  unfold InpModel.vals, InpModel.val1. destruct (o_value o) as [[|v l]|], (o_value o') as [[|v' l']|]; cbn; congruence.
Qed.

Lemma array_items_ext d big indent l : forall l' i, map (wr d) l = map (wr d) l' ->
  array_items F fwr d big indent i l = array_items F fwr d big indent i l'.
Proof.
  induction l as [|v l IH]; intros [|v' l'] i H; cbn [map] in H; try discriminate; auto.
  injection H as H1 H2. cbn [array_items]. rewrite H1, (IH l'); auto.
Qed.

Lemma array_text_ext d l l' indent : map (wr d) l = map (wr d) l' -> array_text d l indent = array_text d l' indent.
Proof.
  intros H. unfold InpModel.array_text.
  assert (L : length l = length l') by (rewrite <- (map_length (wr d) l), H; apply map_length).
  rewrite <- L. now rewrite (array_items_ext d _ indent l l').
Qed.

Lemma concat_map_ext A (f g : A -> text) l : (forall x, In x l -> f x = g x) -> concat (map f l) = concat (map g l).
Proof. intros H. now rewrite (map_ext_in _ _ _ H). Qed.

Theorem same_write c : forall o o' name indent, same c o o' -> write c o name indent = write c o' name indent.
Proof.
  induction c as [c IA IF ID] using cls_ind'. intros o o' name indent H.
  inversion H as [? ? ? H1 H2 H3 H4 H5]; subst.
  assert (K : c_kind c = KAttr \/ c_kind c <> KAttr) by (destruct (c_kind c); auto; right; discriminate).
  destruct K as [K|K].
  { rewrite !write_attr by auto. rewrite (same_val1 (c_dtype c) o o'); auto. apply H1. congruence. }
  assert (B : body_text c o indent = body_text c o' indent).
  { unfold body_text. destruct (c_kind c) eqn:E; auto.
    - apply same_val1, H1. discriminate.
    - apply array_text_ext, H1. discriminate. }
  specialize (H4 K). assert (H5' := fun i n c' x x' => H5 i n c' x x' K). clear H5. rename H5' into H5.
  rewrite !write_eq, <- B by auto.
  rewrite (concat_map_ext _ (attr_part o) (attr_part o')).
  2:{ intros [a c'] I. unfold attr_part. cbn [fst snd]. rewrite (IA a c' I _ _ a [] (H2 a c' I)). auto. }
  rewrite (concat_map_ext _ (field_part o indent) (field_part o' indent)).
  2:{ intros [a c'] I. unfold field_part. cbn [fst snd].
      rewrite (IF a c' I _ _ a [] (H3 a c' I)), (IF a c' I _ _ a (tx "   " ++ indent) (H3 a c' I)). auto. }
  replace (map (extra_part (c_dynamic c) indent) (o_extra o')) with (map (extra_part (c_dynamic c) indent) (o_extra o));
    auto.
  clear - ID H4 H5. revert H4 H5. generalize (o_extra o) as l, (o_extra o') as l'.
  induction l as [|[n x] l IH]; intros [|[n' x'] l'] H4 H5; cbn [map fst] in *; try discriminate; auto.
  injection H4 as <- H4. f_equal.
  - unfold extra_part. cbn [fst snd]. destruct (find n (c_dynamic c)) as [c'|] eqn:Fd; auto.
    apply (ID n c'); [now apply find_some|]. now apply (H5 0 n c').
  - apply IH; auto. intros i. apply (H5 (S i)).
Qed.

(* ---- values that can be written ---- *)

(* what is written is read back, also with the indentation of the end tag *)
Definition stable (d : dtype) (v : val F) : Prop :=
  forall w, spaces w -> exists v', rd d (wr d v ++ w) = Some v' /\ wr d v' = wr d v.
Definition elem_ok (d : dtype) (v : val F) : Prop :=
  plain_text (wr d v) /\ item_ok (wr d v)
  /\ exists v', rd d (strip set_list (wr d v)) = Some v' /\ wr d v' = wr d v.

Definition leaf_ok (c : cls) (o : obj) : Prop :=
  match c_kind c with
  | KAttr => exists v, o_value o = Some [v] /\ plain_attr (wr (c_dtype c) v) /\ stable (c_dtype c) v
  | KValue => exists v, o_value o = Some [v] /\ plain_text (wr (c_dtype c) v) /\ stable (c_dtype c) v /\ o_extra o = []
  | KArray => exists l sh, o_value o = Some l /\ Forall (elem_ok (c_dtype c)) l /\ o_extra o = []
               /\ val1 (get (tx "shape") (o_attribs o)) = TupV F sh /\ (sh = [0%Z] -> l = [])
               /\ val1 (get (tx "mode") (o_attribs o)) = StrV F (tx "manual")
  | KNode => True
  end.

Inductive fits : cls -> obj -> Prop :=
| Fits c o :
    leaf_ok c o ->
    (forall a c', In (a, c') (c_attribs c) -> fits c' (get a (o_attribs o))) ->
    (forall f c', In (f, c') (c_fields c) -> fits c' (get f (o_fields o))) ->
    (forall n x, In (n, x) (o_extra o) -> exists c', find n (c_dynamic c) = Some c') ->
    (forall n x c', In (n, x) (o_extra o) -> find n (c_dynamic c) = Some c' -> fits c' x) ->
    fits c o.

(* an object that set_default takes back to the default, at all levels *)
Inductive fresh : cls -> obj -> Prop :=
| Fresh c o :
    (optional c = true -> same c (init c) (set_default c o)) ->
    (forall f c', In (f, c') (c_fields c) -> fresh c' (get f (o_fields (set_default c o)))) ->
    fresh c o.

Definition base (c : cls) : obj :=
  Obj None false (map (fun p => (fst p, init (snd p))) (c_attribs c)) (map (fun p => (fst p, init (snd p))) (c_fields c)) [].
Lemma init_eq c : init c = set_default c (base c).
Proof. destruct c. reflexivity. Qed.

Definition name_ok (a : text) : Prop := xname a /\ a <> tx "_text".

Definition shape_cls : cls := Cls KAttr TTuple None undefined (Some (DVal F (TupV F [0%Z]))) [] [] [].
Definition mode_cls : cls :=
  Cls KAttr TStr (Some [StrV F (tx "manual"); StrV F (tx "file")]) undefined (Some (DVal F (StrV F (tx "manual")))) [] [] [].

Inductive wf : cls -> Prop :=
| Wf c :
    (c_kind c = KAttr -> c_attribs c = [] /\ c_fields c = [] /\ c_dynamic c = []
                         /\ (c_default c = None \/ exists v, c_default c = Some (DVal F v))) ->
    (c_kind c <> KNode -> c_fields c = [] /\ c_dynamic c = []) ->
    (c_kind c = KArray -> find (tx "shape") (c_attribs c) = Some shape_cls
                          /\ find (tx "mode") (c_attribs c) = Some mode_cls) ->
    NoDup (map fst (c_attribs c)) -> NoDup (map fst (c_fields c)) ->
    (forall n, In n (map fst (c_dynamic c)) -> name_ok n /\ ~ In n (map fst (c_fields c))) ->
    (forall a c', In (a, c') (c_attribs c) -> name_ok a /\ c_kind c' = KAttr /\ wf c') ->
    (forall f c', In (f, c') (c_fields c) -> name_ok f /\ c_kind c' <> KAttr /\ wf c') ->
    (forall f c', In (f, c') (c_dynamic c) -> c_kind c' <> KAttr /\ wf c') ->
    (optional c = true -> fits c (init c)) ->
    fresh c (base c) ->
    wf c.

(* ---- the attributes ---- *)

Lemma default_attr c ob : wf c -> c_kind c = KAttr -> optional c = true ->
  same c (init c) (set_default c ob) /\ vals (set_default c ob) = vals (init c).
Proof.
  intros W K O. inversion W as [? W1]; subst. destruct (W1 K) as (A & B & C & D).
  assert (V : vals (set_default c ob) = vals (init c)).
  { rewrite init_eq. unfold InpModel.optional in O. destruct D as [D|[v D]].
    - rewrite D in O. discriminate.
    - unfold InpModel.set_default. rewrite D, K. reflexivity. }
  split; auto. constructor; rewrite ?A, ?B, ?V; intros; try easy; congruence.
Qed.

Lemma fits_attr c o : c_kind c = KAttr -> fits c o ->
  exists v, o_value o = Some [v] /\ plain_attr (wr (c_dtype c) v) /\ stable (c_dtype c) v.
Proof.
  intros K H. inversion H as [? ? L]; subst. unfold leaf_ok in L. now rewrite K in L.
Qed.

Lemma same_attr c o o' : wf c -> c_kind c = KAttr -> map (wr (c_dtype c)) (vals o) = map (wr (c_dtype c)) (vals o') ->
  same c o o'.
Proof.
  intros W K V. inversion W as [? W1]; subst. destruct (W1 K) as (A & B & C & D).
  constructor; rewrite ?A, ?B, ?V; intros; try easy; congruence.
Qed.

Lemma attr_texts_app x y : attr_texts (x ++ y) = attr_texts x ++ attr_texts y.
Proof. unfold attr_texts. now rewrite map_app, concat_app. Qed.

Lemma parse_attrs_app cs x y : forall ats,
  parse_attrs cs (x ++ y) ats = match parse_attrs cs x ats with Ok ats1 => parse_attrs cs y ats1 | Err e => Err e end.
Proof.
  induction x as [|[a v] x IH]; intros ats; [reflexivity|]. cbn [app InpModel.parse_attrs].
  destruct (find a cs) as [c|].
  - destruct (parse_attr c (get a ats) v); auto.
  - destruct (eqt a (tx "_text")); auto.
Qed.

Definition attr_done (o : obj) (ats1 : list (text * obj)) (p : text * cls) : Prop :=
  let '(a, c) := p in
  same c (get a (o_attribs o)) (get a ats1)
  /\ (o_explicit (get a ats1) || optional c = true)
  /\ ((optional c = true /\ val1 (get a ats1) = val1 (init c))
      \/ exists t, rd (c_dtype c) t = Some (val1 (get a ats1))).

Lemma attrs_part o cs l :
  NoDup (map fst l) -> NoDup (map fst cs) -> incl l cs ->
  (forall a c, In (a, c) l -> name_ok a /\ c_kind c = KAttr /\ wf c) ->
  (forall a c, In (a, c) l -> fits c (get a (o_attribs o))) ->
  exists av,
    concat (map (attr_part o) l) = attr_texts av
    /\ Forall (fun p => xname (fst p) /\ plain_attr (snd p)) av
    /\ NoDup (map fst av) /\ incl (map fst av) (map fst l)
    /\ forall ats, (forall a c, In (a, c) l -> In a (map fst ats) /\ exists ob, get a ats = set_default c ob) ->
       exists ats1, parse_attrs cs av ats = Ok ats1 /\ map fst ats1 = map fst ats
         /\ (forall a, ~ In a (map fst l) -> get a ats1 = get a ats)
         /\ Forall (attr_done o ats1) l.
Proof.
  intros D DC. induction l as [|[a c] l IH]; intros I W Fi.
  { exists []. repeat split; try constructor.
    - intros x [].
    - intros ats _. exists ats. repeat split; auto. }
  cbn [map fst] in D. inversion D as [|? ? D1 D2]; subst.
  destruct IH as (av & E & P & N & S & IH); auto.
  { intros x Hx. apply I. now right. }
  { intros b c' Hb. apply W. now right. }
  { intros b c' Hb. apply Fi. now right. }
  destruct (W a c (or_introl eq_refl)) as ((Xa & Ta) & K & Wc).
  assert (Fa := Fi a c (or_introl eq_refl)).
  destruct (fits_attr c _ K Fa) as (v & V & PA & ST).
  assert (V1 : val1 (get a (o_attribs o)) = v) by (unfold InpModel.val1; now rewrite V).
  assert (VS : vals (get a (o_attribs o)) = [v]) by (unfold InpModel.vals; now rewrite V).
  cbn [map concat]. unfold attr_part at 1. cbn [fst snd].
  destruct (eqt (write c (get a (o_attribs o)) a []) (defwrite c a)) eqn:Q.
  - (* left out *)
    exists av. cbn [app]. split; [exact E|]. split; [exact P|]. split; [exact N|].
    split. { intros x Hx. right. auto. }
    intros ats Hats. destruct (IH ats) as (ats1 & A1 & A2 & A3 & A4).
    { intros b c' Hb. apply Hats. now right. }
    exists ats1. split; [auto|split; [auto|split]].
    + intros b Hb. apply A3. intros Hb'. apply Hb. now right.
    + constructor; auto. cbn [attr_done]. rewrite A3 by auto.
      destruct (Hats a c (or_introl eq_refl)) as (Ka & ob & G). rewrite G.
      apply eqt_spec in Q. unfold defwrite in Q. rewrite write_attr in Q by auto.
      destruct (optional c) eqn:O.
      2:{ destruct a; [destruct Xa|discriminate]. }
      rewrite write_attr in Q by auto. apply app_inv_head in Q. apply (app_inv_head (tx "='")) in Q.
      apply app_inv_tail in Q. rewrite V1 in Q.
      destruct (default_attr c ob Wc K O) as [SD VD].
      assert (FI : fits c (init c)) by (inversion Wc; auto).
      destruct (fits_attr c _ K FI) as (v0 & V0 & _).
      assert (V01 : val1 (init c) = v0) by (unfold InpModel.val1; now rewrite V0).
      assert (V0S : vals (init c) = [v0]) by (unfold InpModel.vals; now rewrite V0).
      split; [|split].
      * apply same_attr; auto. rewrite VD, VS, V0S. cbn. congruence.
      * apply orb_true_r.
      * left. split; auto. unfold InpModel.val1. rewrite V0. unfold InpModel.vals in VD.
        rewrite V0 in VD. destruct (o_value (set_default c ob)) as [[|? ?]|]; try discriminate. now injection VD as ->.
  - (* written *)
    rewrite write_attr by auto. rewrite V1.
    exists ((a, wr (c_dtype c) v) :: av).
    split. { unfold attr_texts. cbn [map concat fst snd]. rewrite E. unfold attr_texts. now rewrite <- !app_assoc. }
    split. { constructor; auto. }
    split. { cbn [map fst]. constructor; auto. }
    split. { intros x [<-|Hx]; [now left|right; auto]. }
    intros ats Hats. cbn [InpModel.parse_attrs].
    rewrite (find_in _ cs a c) by (auto; apply I; now left).
    unfold InpModel.parse_attr.
    destruct (ST [] (Forall_nil _)) as (v' & R & RW). rewrite app_nil_r in R. rewrite R.
    set (o' := Obj (Some [v']) true _ _ []).
    destruct (Hats a c (or_introl eq_refl)) as (Ka & ob & G).
    destruct (IH (put a o' ats)) as (ats1 & A1 & A2 & A3 & A4).
    { intros b c' Hb. rewrite put_keys. destruct (Hats b c' (or_intror Hb)) as (Kb & ob' & Gb). split; auto.
      exists ob'. rewrite get_put_other; auto. intros ->. apply D1. now apply (in_map fst) in Hb. }
    exists ats1. split; [auto|split; [|split]].
    + rewrite A2. apply put_keys.
    + intros b Hb. rewrite A3 by (intros Hb'; apply Hb; now right).
      apply get_put_other. intros ->. apply Hb. now left.
    + constructor; auto. cbn [attr_done]. rewrite A3, get_put_same by auto. split; [|split].
      * apply same_attr; auto. rewrite VS. cbn. now rewrite RW.
      * reflexivity.
      * right. exists (wr (c_dtype c) v). exact R.
Qed.

Lemma missing_none cs os : (forall a c, In (a, c) cs -> o_explicit (get a os) || optional c = true) -> missing cs os = None.
Proof.
  induction cs as [|[a c] cs IH]; intros H; [reflexivity|]. cbn [InpModel.missing].
  rewrite (H a c (or_introl eq_refl)). apply IH. intros b c' I. apply H. now right.
Qed.

(* ---- the fields ---- *)

Definition print1 (f : field) : text := match f with FText t => t | FNode x => print x end.

Definition round_ok (c : cls) : Prop :=
  forall o name indent, fits c o -> xname name -> spaces indent ->
  exists V, write c o name indent = indent ++ print V ++ [nl] /\ tidy V /\ node_name V = name
    /\ forall o0, fresh c o0 -> exists o', parse c (set_default c o0) (collected V) = Ok o'
                                         /\ same c o o' /\ o_explicit o' = true.

Lemma kids_app x y : kids (x ++ y) = kids x ++ kids y.
Proof. unfold kids. apply flat_map_app. Qed.

Lemma collected_eq nm ats fs : collected (Node nm ats fs) = Node nm ats (kids fs ++ [FText (texts fs)]).
Proof. reflexivity. Qed.

Lemma collected_name x : node_name (collected x) = node_name x.
Proof. now destruct x. Qed.

(* text is determined by what is collected from it *)
Lemma print_inj x y : tidy x -> tidy y -> print x = print y -> collected x = collected y.
Proof.
  intros Tx Ty E. assert (A := print_read x [] [] Tx eq_refl eq_refl). assert (B := print_read y [] [] Ty eq_refl eq_refl).
  rewrite E in A. rewrite A in B. now injection B.
Qed.

Lemma omitted_same c o name : wf c -> round_ok c -> fits c o -> xname name -> optional c = true -> fresh c (base c) ->
  write c (init c) name [] = write c o name [] -> same c o (init c).
Proof.
  intros W R Fo X O Fr E.
  assert (FI : fits c (init c)) by (inversion W; auto).
  destruct (R o name [] Fo X (Forall_nil _)) as (V & E1 & T1 & N1 & P1).
  destruct (R (init c) name [] FI X (Forall_nil _)) as (V' & E2 & T2 & N2 & P2).
  rewrite E1, E2 in E. cbn [app] in E. apply app_inv_tail in E.
  apply print_inj in E; auto.
  destruct (P1 _ Fr) as (o1 & Q1 & S1 & _). destruct (P2 _ Fr) as (o2 & Q2 & S2 & _).
  rewrite E in Q2. rewrite Q1 in Q2. injection Q2 as <-.
  eapply same_trans; [exact S1|]. now apply same_sym.
Qed.

Definition field_done (o : obj) (fs1 : list (text * obj)) (p : text * cls) : Prop :=
  same (snd p) (get (fst p) (o_fields o)) (get (fst p) fs1)
  /\ (o_explicit (get (fst p) fs1) || optional (snd p) = true).

Lemma fields_part o indent cs dyn l :
  spaces indent ->
  NoDup (map fst l) -> NoDup (map fst cs) -> incl l cs ->
  (forall a c, In (a, c) l -> name_ok a /\ c_kind c <> KAttr /\ wf c /\ round_ok c) ->
  (forall a c, In (a, c) l -> fits c (get a (o_fields o))) ->
  exists fV,
    concat (map (field_part o indent) l) = flat_map print1 fV /\ tidy_fields fV
    /\ (l = [] -> fV = [])
    /\ forall fs1 ex1 rest,
       (forall a c, In (a, c) l -> In a (map fst fs1) /\ exists ob, get a fs1 = set_default c ob /\ fresh c ob) ->
       exists fs2, ploop cs dyn (kids fV ++ rest) fs1 ex1 = ploop cs dyn rest fs2 ex1
         /\ map fst fs2 = map fst fs1
         /\ (forall a, ~ In a (map fst l) -> get a fs2 = get a fs1)
         /\ Forall (field_done o fs2) l.
Proof.
  intros SI D DC. induction l as [|[a c] l IH]; intros I W Fi.
  { exists []. repeat split; try constructor; auto. intros fs1 ex1 rest _. exists fs1. repeat split; auto. }
  cbn [map fst] in D. inversion D as [|? ? D1 D2]; subst.
  destruct IH as (fV & E & P & N & IH); auto.
  { intros x Hx. apply I. now right. }
  { intros b c' Hb. apply W. now right. }
  { intros b c' Hb. apply Fi. now right. }
  destruct (W a c (or_introl eq_refl)) as ((Xa & Ta) & K & Wc & Rc).
  assert (Fa := Fi a c (or_introl eq_refl)).
  cbn [map concat]. unfold field_part at 1. cbn [fst snd].
  destruct (eqt (defwrite c a) (write c (get a (o_fields o)) a [])) eqn:Q.
  - exists fV. cbn [app]. split; [exact E|]. split; [exact P|]. split; [discriminate|].
    intros fs1 ex1 rest H. destruct (IH fs1 ex1 rest) as (fs2 & A1 & A2 & A3 & A4).
    { intros b c' Hb. apply H. now right. }
    exists fs2. split; [auto|split; [auto|split]].
    + intros b Hb. apply A3. intros Hb'. apply Hb. now right.
    + constructor; auto. unfold field_done. cbn [fst snd]. rewrite A3 by auto.
      destruct (H a c (or_introl eq_refl)) as (Ka & ob & G & Fr). rewrite G.
      apply eqt_spec in Q. unfold defwrite in Q.
      destruct (optional c) eqn:O.
      2:{ rewrite write_eq in Q by auto. destruct a; discriminate. }
      split; [|apply orb_true_r].
      apply same_trans with (o' := init c).
      * apply (omitted_same c _ a); auto. inversion Wc; auto.
      * inversion Fr; auto.
  - assert (SI' : spaces (tx "   " ++ indent)).
    { apply spaces_app; auto. repeat constructor. }
    destruct (Rc (get a (o_fields o)) a (tx "   " ++ indent) Fa Xa SI') as (V & E1 & T1 & N1 & P1).
    exists (FText (tx "   " ++ indent) :: FNode V :: FText [nl] :: fV).
    split. { rewrite E1, E. cbn [flat_map print1]. now rewrite <- !app_assoc. }
    split. { repeat (constructor; auto); apply (spaces_has _ _ SI'); discriminate. }
    split; [discriminate|].
    intros fs1 ex1 rest H. destruct (H a c (or_introl eq_refl)) as (Ka & ob & G & Fr).
    change (kids (FText (tx "   " ++ indent) :: FNode V :: FText [nl] :: fV) ++ rest)
      with (FNode (collected V) :: kids fV ++ rest).
    rewrite ploop_node, collected_name, N1. rewrite (find_in _ cs a c) by (auto; apply I; now left).
    destruct (P1 ob Fr) as (o' & Q1 & Q2 & Q3). rewrite G, Q1.
    destruct (IH (put a o' fs1) ex1 rest) as (fs2 & A1 & A2 & A3 & A4).
    { intros b c' Hb. rewrite put_keys. destruct (H b c' (or_intror Hb)) as (Kb & ob' & Gb & Fb). split; auto.
      exists ob'. rewrite get_put_other; auto. intros ->. apply D1. now apply (in_map fst) in Hb. }
    exists fs2. split; [auto|split; [|split]].
    + rewrite A2. apply put_keys.
    + intros b Hb. rewrite A3 by (intros Hb'; apply Hb; now right).
      apply get_put_other. intros ->. apply Hb. now left.
    + constructor; auto. unfold field_done. cbn [fst snd]. rewrite A3, get_put_same by auto. rewrite Q3. auto.
Qed.

Lemma extras_part indent cs dyn l :
  spaces indent ->
  (forall n, In n (map fst dyn) -> name_ok n /\ ~ In n (map fst cs)) ->
  (forall n c, In (n, c) dyn -> c_kind c <> KAttr /\ wf c /\ round_ok c) ->
  (forall n x, In (n, x) l -> exists c, find n dyn = Some c) ->
  (forall n x c, In (n, x) l -> find n dyn = Some c -> fits c x) ->
  exists eV,
    concat (map (extra_part dyn indent) l) = flat_map print1 eV /\ tidy_fields eV
    /\ (l = [] -> eV = [])
    /\ forall fs1 ex1 rest,
       exists l', ploop cs dyn (kids eV ++ rest) fs1 ex1 = ploop cs dyn rest fs1 (ex1 ++ l')
         /\ map fst l = map fst l'
         /\ forall i n c x x', nth_error l i = Some (n, x) -> nth_error l' i = Some (n, x') ->
              find n dyn = Some c -> same c x x'.
Proof.
  intros SI DN W. induction l as [|[n x] l IH]; intros Ex Fi.
  { exists []. repeat split; try constructor; auto. intros fs1 ex1 rest. exists []. rewrite app_nil_r.
    split; [auto|split; [auto|]]. intros [|i]; discriminate. }
  destruct IH as (eV & E & P & N & IH).
  { intros m y H. apply (Ex m y). now right. }
  { intros m y c H. apply (Fi m y). now right. }
  destruct (Ex n x (or_introl eq_refl)) as (c & Fd).
  assert (Fx := Fi n x c (or_introl eq_refl) Fd).
  destruct (W n c (find_some _ _ _ _ Fd)) as (K & Wc & Rc).
  destruct (DN n) as ((Xn & Tn) & NF). { apply find_some in Fd. now apply (in_map fst) in Fd. }
  assert (SI' : spaces (tx "   " ++ indent)).
  { apply spaces_app; auto. repeat constructor. }
  destruct (Rc x n (tx "   " ++ indent) Fx Xn SI') as (V & E1 & T1 & N1 & P1).
  exists (FText (tx "   " ++ indent) :: FNode V :: FText [nl] :: eV).
  cbn [map concat]. unfold extra_part at 1. cbn [fst snd]. rewrite Fd.
  split. { rewrite E1, E. cbn [flat_map print1]. now rewrite <- !app_assoc. }
  split. { repeat (constructor; auto); apply (spaces_has _ _ SI'); discriminate. }
  split; [discriminate|].
  intros fs1 ex1 rest.
  change (kids (FText (tx "   " ++ indent) :: FNode V :: FText [nl] :: eV) ++ rest)
    with (FNode (collected V) :: kids eV ++ rest).
  rewrite ploop_node, collected_name, N1, (proj2 (find_none _ cs n) NF), (eqt_neq Tn), Fd.
  assert (Fr : fresh c (base c)) by (inversion Wc; auto).
  destruct (P1 _ Fr) as (o' & Q1 & Q2 & Q3). rewrite init_eq, Q1.
  destruct (IH fs1 (ex1 ++ [(n, o')]) rest) as (l' & A1 & A2 & A3).
  exists ((n, o') :: l'). rewrite A1, <- app_assoc. split; [auto|split].
  - cbn. now rewrite A2.
  - intros [|i] m c' y y' H H' Fm.
    + injection H as <- <-. injection H' as <-. congruence.
    + eapply A3; eauto.
Qed.

(* ---- arrays ---- *)

Lemma has_rstrip f c w : has c w = false -> has c (rstrip f w) = false.
Proof.
  intros H. destruct (rstrip_split f w) as (y & E & _). rewrite E, has_app in H. now apply orb_false_elim in H.
Qed.

Lemma has_array d l indent c : spaces indent -> Forall (fun v => has c (wr d v) = false) l ->
  has c (tx " [],") = false -> c <> nl -> has c (array_text d l indent) = false.
Proof.
  intros SI H HC N. cbn [has tx list_ascii_of_string] in HC.
  apply orb_false_elim in HC as [C1 HC]. apply orb_false_elim in HC as [C2 HC]. apply orb_false_elim in HC as [C3 HC].
  apply orb_false_elim in HC as [C4 _].
  assert (CN : Ascii.eqb c nl = false) by now apply Ascii.eqb_neq.
  assert (SN : has c indent = false) by (apply spaces_has; auto; now apply Ascii.eqb_neq).
  unfold InpModel.array_text. cbv zeta. rewrite has_app.
  assert (T : has c (if ELPERLINE <? length l then tx " ]" ++ [nl] else tx " ] ") = false).
  { destruct (ELPERLINE <? length l); cbn [has tx list_ascii_of_string app]; rewrite ?C1, ?C2, ?C3, ?C4, ?CN; reflexivity. }
  apply orb_false_intro; [clear T|exact T]. apply has_rstrip. rewrite has_app.
  assert (A : forall big i, has c (array_items F fwr d big indent i l) = false).
  { intros big. induction H as [|v l Hv H IH]; intros i; [reflexivity|]. cbn [array_items].
    rewrite !has_app, Hv, IH.
    destruct (big && (0 <? i) && (i mod ELPERLINE =? 0)); rewrite ?has_app, ?SN;
      cbn [has tx list_ascii_of_string app]; rewrite ?C1, ?C2, ?C3, ?C4, ?CN; reflexivity. }
  { rewrite A. destruct (ELPERLINE <? length l); rewrite ?has_app, ?SN; cbn [has tx list_ascii_of_string app];
      rewrite ?C1, ?C2, ?C3, ?C4, ?CN; reflexivity. }
Qed.

Lemma plain_array d l indent : spaces indent -> Forall (elem_ok d) l -> plain_text (array_text d l indent).
Proof.
  intros SI H.
  assert (G : forall c, In c [lt; amp] -> Forall (fun v => has c (wr d v) = false) l).
  { intros c Hc. eapply Forall_impl; [|exact H]. intros v (P & _). unfold plain_text, free in P.
    rewrite Forall_forall in P. auto. }
  repeat constructor; apply has_array; auto; try reflexivity; try discriminate; apply G; cbn; auto.
Qed.

Lemma read_elems d l : Forall (elem_ok d) l ->
  exists l', all_some (map (rd d) (map (fun v => strip set_list (wr d v)) l)) = Some l' /\ map (wr d) l = map (wr d) l'.
Proof.
  induction 1 as [|v l (P & I & v' & R & E) H IH]; [now exists []|].
  destruct IH as (l' & A & B). exists (v' :: l'). cbn [map all_some]. rewrite R, A. split; [reflexivity|].
  cbn. now rewrite E, B.
Qed.

Lemma read_array d l indent w : spaces indent -> Forall (elem_ok d) l ->
  exists l', rd_array d (array_text d l indent ++ w) = Some l' /\ map (wr d) l = map (wr d) l'.
Proof.
  intros SI H. unfold InpModel.rd_array. rewrite array_read; auto.
  - now apply read_elems.
  - eapply Forall_impl; [|exact H]. now intros v (_ & I & _).
Qed.

Lemma dropw_idem f w : dropw f (dropw f w) = dropw f w.
Proof.
  induction w as [|a w IH]; [reflexivity|]. cbn [dropw]. destruct (f a) eqn:E; auto. cbn [dropw]. now rewrite E.
Qed.

Lemma strip_idem f w : strip f (strip f w) = strip f w.
Proof.
  unfold strip at 2. rewrite strip_rstrip by auto. unfold strip, lstrip. now rewrite dropw_idem.
Qed.

Lemma tuple_inj x y : write_tuple x = write_tuple y -> x = y.
Proof. intros H. assert (A := tuple_round_trip x). rewrite H, tuple_round_trip in A. congruence. Qed.

Lemma done_of o ats1 l a c : Forall (attr_done o ats1) l -> In (a, c) l -> attr_done o ats1 (a, c).
Proof. intros H I. rewrite Forall_forall in H. exact (H _ I). Qed.

Lemma last_text_end fs t : last_text (fs ++ [FText t]) = t.
Proof. unfold last_text. now rewrite fold_left_app. Qed.

Lemma texts_only fs : kids fs = [] -> texts fs = flat_map print1 fs.
Proof.
  unfold kids, texts. induction fs as [|[t|x] fs IH]; intros H; [reflexivity| |].
  - cbn [map concat flat_map print1]. now rewrite IH.
  - discriminate.
Qed.

Lemma shape_mode (c : cls) o ats1 sh :
  wf c -> c_kind c = KArray -> Forall (attr_done o ats1) (c_attribs c) ->
  val1 (get (tx "shape") (o_attribs o)) = TupV F sh -> val1 (get (tx "mode") (o_attribs o)) = StrV F (tx "manual") ->
  o_value (get (tx "shape") (o_attribs o)) <> None ->
  fetch_attr F (attr_of F c (tx "shape")) (get (tx "shape") ats1) = Ok (TupV F sh)
  /\ fetch_attr F (attr_of F c (tx "mode")) (get (tx "mode") ats1) = Ok (StrV F (tx "manual")).
Proof.
  intros W K D V M NV. inversion W as [? ? ? W3 ? ? ? WA ? ? ? ?]; subst. destruct (W3 K) as [FS FM].
  unfold attr_of. rewrite FS, FM.
  assert (DS := done_of _ _ _ _ _ D (find_some _ _ _ _ FS)). assert (DM := done_of _ _ _ _ _ D (find_some _ _ _ _ FM)).
  cbn [attr_done] in DS, DM. destruct DS as (S1 & S2 & S3), DM as (M1 & M2 & M3).
  split.
  - unfold fetch_attr, check. rewrite S2. cbn [negb]. cbn [c_opts shape_cls InpModel.c_opts]. f_equal.
    inversion S1 as [? ? ? E _ _ _ _]; subst.
    assert (E' := E ltac:(discriminate)). clear E. rename E' into E. apply same_val1 in E. rewrite V in E.
    assert (X : exists l0, val1 (get (tx "shape") ats1) = TupV F l0).
    { destruct S3 as [[_ Q]|[t Q]].
      - rewrite Q. now exists [0%Z].
      - cbn in Q. destruct (read_tuple t) as [l0|]; [|discriminate]. exists l0. now injection Q. }
    destruct X as (l0 & X). rewrite X in *. cbn in E. apply tuple_inj in E. now subst.
  - unfold fetch_attr, check. rewrite M2. cbn [negb].
    assert (X : val1 (get (tx "mode") ats1) = StrV F (tx "manual")).
    { destruct M3 as [[_ Q]|[t Q]].
      - rewrite Q. reflexivity.
      - assert (Q' : StrV F (strip blank t) = val1 (get (tx "mode") ats1)) by (now injection Q). clear Q. rename Q' into Q.
        inversion M1 as [? ? ? E _ _ _ _]; subst.
        assert (E' := E ltac:(discriminate)). clear E. rename E' into E. apply same_val1 in E. rewrite M, <- Q in E.
        change (strip blank (tx "manual") = strip blank (strip blank t)) in E. rewrite strip_idem in E.
        rewrite <- Q. now rewrite <- E. }
    rewrite X. reflexivity.
Qed.

Lemma fields_fresh c o0 : wf c -> fresh c o0 ->
  forall a c', In (a, c') (c_fields c) -> In a (map fst (fields0 c (set_default c o0)))
    /\ exists ob, get a (fields0 c (set_default c o0)) = set_default c' ob /\ fresh c' ob.
Proof.
  intros W Fr a c' I. inversion W as [? ? ? ? ? ? DF ? ? ? ? ?]; subst. split.
  - unfold fields0. rewrite map_map. cbn. now apply (in_map fst) in I.
  - exists (get a (o_fields (set_default c o0))). unfold fields0. split.
    + rewrite (get_map (c_fields c) (fun p => set_default (snd p) (get (fst p) (o_fields (set_default c o0)))) a c'); auto.
    + inversion Fr; auto.
Qed.

Theorem round_trip_cls c : wf c -> c_kind c <> KAttr -> round_ok c.
Proof.
  induction c as [c IA IF ID] using cls_ind'. intros W K o name indent Fo X SI.
  assert (W' := W). inversion W' as [? W1 W2 W3 DA DF DD WA WF WD WO WB]; subst.
  assert (Fo' := Fo). inversion Fo' as [? ? L FA FF FE FX]; subst.
  destruct (attrs_part o (c_attribs c) (c_attribs c)) as (av & E1 & P1 & N1 & _ & G1); auto using incl_refl.
  destruct (fields_part o indent (c_fields c) (c_dynamic c) (c_fields c)) as (fV & E2 & P2 & N2 & G2);
    auto using incl_refl.
  { intros a c' I. destruct (WF a c' I) as (Q1 & Q2 & Q3). repeat (split; auto). now apply (IF a). }
  destruct (extras_part indent (c_fields c) (c_dynamic c) (o_extra o)) as (eV & E3 & P3 & N3 & G3); auto.
  { intros a c' I. destruct (WD a c' I) as (Q1 & Q2). repeat (split; auto). now apply (ID a). }
  set (tail := if has nl (body_text c o indent) then indent else []).
  assert (ST : spaces tail) by (unfold tail; destruct (has _ _); [auto|constructor]).
  set (fs := FText (body_text c o indent) :: fV ++ eV ++ [FText tail]).
  exists (Node name av fs).
  assert (PB : plain_text (body_text c o indent)).
  { unfold body_text. unfold leaf_ok in L. destruct (c_kind c); try (repeat constructor; fail).
    - destruct L as (v & V & PV & _). unfold InpModel.val1. now rewrite V.
    - destruct L as (l & sh & V & PV & _). unfold InpModel.vals. rewrite V. now apply plain_array. }
  assert (PT : plain_text tail) by (repeat constructor; apply (spaces_has tail); auto; discriminate).
  split.
  { rewrite write_eq by auto. rewrite E1, E2, E3. fold tail. cbn [print]. unfold fs. cbn [flat_map].
    change (fun f : field => match f with FText t => t | FNode x => print x end) with print1.
    rewrite !flat_map_app. cbn [flat_map print1]. now rewrite app_nil_r, <- !app_assoc. }
  split.
  { apply tidy_eq. repeat split; auto. unfold fs. constructor; auto. apply Forall_app. split; auto.
    apply Forall_app. split; auto. }
  split; [reflexivity|].
  intros o0 Fr. rewrite collected_eq, parse_eq. cbn [node_attribs node_fields].
  destruct (G1 (attribs0 c (set_default c o0))) as (ats1 & A1 & A2 & A3 & A4).
  { intros a c' I. unfold attribs0. split.
    - rewrite map_map. cbn. now apply (in_map fst) in I.
    - exists (get a (o_attribs (set_default c o0))).
      now rewrite (get_map (c_attribs c) (fun p => set_default (snd p) (get (fst p) (o_attribs (set_default c o0)))) a c'). }
  rewrite A1.
  destruct (G2 (fields0 c (set_default c o0)) [] (kids (eV ++ [FText tail]) ++ [FText (texts fs)]))
    as (fs2 & B1 & B2 & B3 & B4).
  { now apply fields_fresh. }
  destruct (G3 fs2 [] [FText (texts fs)]) as (ex & C1 & C2 & C3).
  assert (EL : ploop (c_fields c) (c_dynamic c) (kids fs ++ [FText (texts fs)]) (fields0 c (set_default c o0)) []
               = Ok (fs2, ex)).
  { unfold fs at 1. change (kids (FText (body_text c o indent) :: fV ++ eV ++ [FText tail]))
      with (kids (fV ++ eV ++ [FText tail])). rewrite kids_app, <- app_assoc, B1.
    rewrite kids_app. cbn [kids flat_map]. rewrite app_nil_r, C1. reflexivity. }
  rewrite EL, missing_none, missing_none.
  2:{ intros a c' I. rewrite Forall_forall in B4. exact (proj2 (B4 _ I)). }
  2:{ intros a c' I. destruct (done_of _ _ _ _ _ A4 I) as (_ & Q & _). exact Q. }
  rewrite last_text_end.
  assert (SE : forall v ats, (c_kind c <> KNode -> map (wr (c_dtype c)) (vals o) = map (wr (c_dtype c)) (vals (Obj v true ats fs2 ex))) ->
               (forall a c', In (a, c') (c_attribs c) -> same c' (get a (o_attribs o)) (get a ats)) ->
               same c o (Obj v true ats fs2 ex)).
  { intros v ats H1 H2. constructor; auto.
    - intros a c' I. rewrite Forall_forall in B4. exact (proj1 (B4 _ I)).
    - intros i n c' x x' _ H H'. now apply (C3 i). }
  assert (TX : c_kind c <> KNode -> texts fs = body_text c o indent ++ tail).
  { intros KN. destruct (W2 KN) as [Q1 Q2]. unfold fs. rewrite N2 by auto.
    assert (EX : o_extra o = []).
    { destruct (o_extra o) as [|[n x] r] eqn:Q; auto. destruct (FE n x) as (c' & Fd); [now left|]. rewrite Q2 in Fd. discriminate. }
    rewrite N3 by auto. cbn. now rewrite app_nil_r. }
  assert (AT : forall a c', In (a, c') (c_attribs c) -> same c' (get a (o_attribs o)) (get a ats1)).
  { intros a c' I. now destruct (done_of _ _ _ _ _ A4 I) as (Q & _ & _). }
  unfold leaf_ok in L. unfold body_text in TX.
  destruct (c_kind c) eqn:KD; [congruence| | |].
  - destruct L as (v & V & PV & SV & _). rewrite TX by discriminate.
    unfold InpModel.val1. rewrite V. destruct (SV tail ST) as (v' & R & RW). rewrite R.
    eexists. split; [reflexivity|]. split; [|reflexivity]. apply SE; auto.
    intros _. unfold InpModel.vals. rewrite V. cbn. now rewrite RW.
  - destruct L as (l & sh & V & PV & _ & VS & VZ & VM). rewrite TX by discriminate.
    destruct (shape_mode c o ats1 sh) as [FS FM]; auto.
    { destruct (W3 eq_refl) as [Q _]. assert (Fs := FA _ _ (find_some _ _ _ _ Q)).
      destruct (fits_attr shape_cls _ eq_refl Fs) as (vv & Vv & _). rewrite Vv. discriminate. }
    assert (VL : vals o = l) by (unfold InpModel.vals; now rewrite V).
    rewrite VL.
    destruct (read_array (c_dtype c) l indent tail SI PV) as (l' & R & RW).
    unfold InpModel.finish_array. rewrite FM. cbn [eqt]. change (eqt (tx "manual") (tx "manual")) with true.
    cbv iota. rewrite R, FS.
    eexists. split; [reflexivity|]. split; [|reflexivity].
    apply SE. { intros _. now rewrite VL. }
    destruct (match sh with [0%Z] => true | _ => false end) eqn:ZZ.
    2:{ exact AT. }
    assert (ZS : sh = [0%Z]).
    { destruct sh as [|z [|? ?]]; try discriminate; destruct z; try discriminate; auto. }
    specialize (VZ ZS). rewrite VZ in RW. destruct l' as [|? ?]; [|discriminate].
    intros a c' I. destruct (W3 eq_refl) as [QS _].
    destruct (eqt a (tx "shape")) eqn:Ea.
    + apply eqt_spec in Ea. subst a.
      assert (c' = shape_cls) as ->. { rewrite (find_in _ _ _ _ DA I) in QS. congruence. }
      rewrite get_put_same.
      2:{ rewrite A2. unfold attribs0. rewrite map_map. cbn. now apply (in_map fst) in I. }
      apply same_attr; [|reflexivity|].
      { now destruct (WA _ _ I) as (_ & _ & ?). }
      destruct (fits_attr shape_cls _ eq_refl (FA _ _ I)) as (vv & Vv & _).
      unfold InpModel.val1 in VS. rewrite Vv in VS. subst vv. unfold InpModel.vals. rewrite Vv. cbn. now rewrite ZS.
    + rewrite get_put_other; auto. intros ->. now rewrite eqt_refl in Ea.
  - eexists. split; [reflexivity|]. split; [|reflexivity].
    apply SE; auto. congruence.
Qed.

(* ---- what is accepted ---- *)

Definition mode_of (x : node) : text :=
  match find (tx "mode") (node_attribs x) with Some t => strip blank t | None => tx "manual" end.

Definition array_readable (d : dtype) (x : node) : Prop :=
  (mode_of x = tx "manual" /\ rd_array d (last_text (node_fields x)) <> None)
  \/ (mode_of x = tx "file" /\ loadtxt d (strip blank (last_text (node_fields x))) <> None).

Inductive acceptable : cls -> node -> Prop :=
| Acceptable c x :
    (forall a v, In (a, v) (node_attribs x) -> exists c', In (a, c') (c_attribs c) /\ rd (c_dtype c') v <> None) ->
    (forall y, In (FNode y) (node_fields x) ->
       exists c', (In (node_name y, c') (c_fields c) \/ In (node_name y, c') (c_dynamic c)) /\ acceptable c' y) ->
    (forall a c', In (a, c') (c_attribs c) -> c_default c' = None -> In a (map fst (node_attribs x))) ->
    (forall f c', In (f, c') (c_fields c) -> c_default c' = None ->
       exists y, In (FNode y) (node_fields x) /\ node_name y = f) ->
    match c_kind c with
    | KNode => True
    | KArray => array_readable (c_dtype c) x
    | _ => rd (c_dtype c) (last_text (node_fields x)) <> None
    end ->
    acceptable c x.

(* the tables of a class, without its defaults *)
Inductive tables : cls -> Prop :=
| Tables c :
    (c_kind c = KArray -> find (tx "shape") (c_attribs c) = Some shape_cls
                          /\ find (tx "mode") (c_attribs c) = Some mode_cls) ->
    NoDup (map fst (c_attribs c)) -> NoDup (map fst (c_fields c)) -> NoDup (map fst (c_dynamic c)) ->
    (forall n, In n (map fst (c_dynamic c)) -> n <> tx "_text" /\ ~ In n (map fst (c_fields c))) ->
    (forall a c', In (a, c') (c_attribs c) -> a <> tx "_text") ->
    (forall f c', In (f, c') (c_fields c) -> f <> tx "_text" /\ tables c') ->
    (forall f c', In (f, c') (c_dynamic c) -> tables c') ->
    tables c.

(* the tags and attributes of the document are not called _text *)
Fixpoint named (x : node) : Prop :=
  let 'Node nm ats fs := x in
  nm <> tx "_text" /\ NoDup (map fst ats) /\ ~ In (tx "_text") (map fst ats)
  /\ (fix all (fs : list field) : Prop :=
        match fs with [] => True | FText _ :: r => all r | FNode y :: r => named y /\ all r end) fs.

Lemma named_in x y : named x -> In (FNode y) (node_fields x) -> named y.
Proof.
  destruct x as [nm ats fs]. cbn [named node_fields]. intros (_ & _ & _ & H).
  induction fs as [|[t|z] fs IH]; intros I; [destruct I| |].
  - destruct I as [E|I]; [discriminate|auto].
  - destruct H as [H1 H2]. destruct I as [[= <-]|I]; auto.
Qed.

Lemma default_explicit c o : o_explicit (set_default c o) = false.
Proof. reflexivity. Qed.

Lemma parse_explicit c o x o' : parse c o x = Ok o' -> o_explicit o' = true.
Proof.
  rewrite parse_eq. destruct (parse_attrs _ _ _); [|discriminate].
  destruct (ploop _ _ _ _ _) as [[fs1 ex1]|]; [|discriminate].
  destruct (missing _ a); [discriminate|]. destruct (missing _ fs1); [discriminate|].
  assert (G : match rd (c_dtype c) (last_text (node_fields x)) with
         | Some v => Ok (Obj (Some [v]) true a fs1 ex1) | None => Err BadValue end = Ok o' -> o_explicit o' = true).
  { destruct (rd _ _); [|discriminate]. now intros [= <-]. }
  destruct (c_kind c); auto.
  - unfold InpModel.finish_array. destruct (fetch_attr _ _ (get (tx "mode") a)) as [[]|]; try discriminate.
    match goal with |- match ?g with _ => _ end = _ -> _ => destruct g; [|discriminate] end.
    destruct (fetch_attr _ _ _); [|discriminate]. now intros [= <-].
  - now intros [= <-].
Qed.

Lemma parse_attrs_ok cs l : NoDup (map fst l) -> ~ In (tx "_text") (map fst l) ->
  forall ats, map fst ats = map fst cs ->
  ((exists ats1, parse_attrs cs l ats = Ok ats1)
   <-> (forall a v, In (a, v) l -> exists c, find a cs = Some c /\ rd (c_dtype c) v <> None))
  /\ (forall ats1, parse_attrs cs l ats = Ok ats1 ->
        map fst ats1 = map fst cs
        /\ (forall a, ~ In a (map fst l) -> get a ats1 = get a ats)
        /\ forall a v c, In (a, v) l -> find a cs = Some c ->
             o_explicit (get a ats1) = true /\ rd (c_dtype c) v = Some (val1 (get a ats1))).
Proof.
  induction l as [|[a v] l IH]; intros D NT ats K.
  { split; [split; [intros _ a v []|intros _; now exists ats]|].
    intros ats1 [= <-]. split; auto. split; auto. intros a v c []. }
  cbn [map fst] in D, NT. inversion D as [|? ? D1 D2]; subst. cbn [InpModel.parse_attrs].
  destruct (find a cs) as [c|] eqn:Fa.
  2:{ rewrite eqt_neq by (intros ->; apply NT; now left). split.
      - split; [intros [? H]; discriminate|]. intros H. destruct (H a v (or_introl eq_refl)) as (c & E & _). congruence.
      - discriminate. }
  unfold InpModel.parse_attr. destruct (rd (c_dtype c) v) as [w|] eqn:R.
  2:{ split; [|discriminate]. split; [intros [? H]; discriminate|].
      intros H. destruct (H a v (or_introl eq_refl)) as (c' & E & N). congruence. }
  set (o := Obj (Some [w]) true _ _ []).
  destruct (IH D2 (fun H => NT (or_intror H)) (put a o ats)) as [IH1 IH2]; [now rewrite put_keys|].
  split.
  - rewrite IH1. split.
    + intros H b u [[= <- <-]|I]; [|auto]. exists c. split; auto. congruence.
    + intros H b u I. apply (H b u). now right.
  - intros ats1 E. destruct (IH2 ats1 E) as (A1 & A2 & A3). split; auto. split.
    + intros b N. rewrite A2 by (intros N'; apply N; now right). apply get_put_other. intros ->. apply N. now left.
    + intros b u c' [[= <- <-]|I] Fb; [|eauto].
      rewrite A2, get_put_same by (auto; rewrite K; apply find_some in Fa; now apply (in_map fst) in Fa).
      split; [reflexivity|]. rewrite Fa in Fb. injection Fb as <-. exact R.
Qed.

Lemma missing_iff cs os : missing cs os = None <-> forall a c, In (a, c) cs -> o_explicit (get a os) || optional c = true.
Proof.
  split; [|apply missing_none]. induction cs as [|[b c'] cs IH]; intros H a c I; [destruct I|].
  cbn [InpModel.missing] in H. destruct (o_explicit (get b os) || optional c') eqn:E; [|discriminate].
  destruct I as [[= <- <-]|I]; auto.
Qed.

Lemma ploop_ok cs dyn l :
  NoDup (map fst cs) -> NoDup (map fst dyn) ->
  (forall n, In n (map fst dyn) -> n <> tx "_text" /\ ~ In n (map fst cs)) ->
  (forall y, In (FNode y) l -> node_name y <> tx "_text") ->
  (forall y c, In (FNode y) l -> In (node_name y, c) cs \/ In (node_name y, c) dyn ->
     forall o, (exists o', parse c o y = Ok o') <-> acceptable c y) ->
  forall fs1 ex1, map fst fs1 = map fst cs ->
  ((exists r, ploop cs dyn l fs1 ex1 = Ok r)
   <-> (forall y, In (FNode y) l -> exists c, (In (node_name y, c) cs \/ In (node_name y, c) dyn) /\ acceptable c y))
  /\ forall fs2 ex2, ploop cs dyn l fs1 ex1 = Ok (fs2, ex2) ->
     map fst fs2 = map fst cs
     /\ forall f, In f (map fst cs) ->
        (o_explicit (get f fs2) = true <-> o_explicit (get f fs1) = true \/ exists y, In (FNode y) l /\ node_name y = f).
Proof.
  intros DC DD DT. induction l as [|[t|y] l IH]; intros NT HA fs1 ex1 K.
  { split; [split; [intros _ y []|intros _; now eexists]|].
    intros fs2 ex2 [= <- <-]. split; auto. intros f _. split; [auto|]. intros [H|(y & [] & _)]; auto. }
  { destruct (IH (fun y I => NT y (or_intror I)) (fun y c I => HA y c (or_intror I)) fs1 ex1 K) as [I1 I2].
    cbn [ploop]. split.
    - rewrite I1. split; intros H y I; [destruct I as [I|I]; [discriminate|auto]|apply H; now right].
    - intros fs2 ex2 E. destruct (I2 _ _ E) as [Q1 Q2]. split; auto. intros f Hf. rewrite (Q2 f Hf).
      split; (intros [H|(y & I & N)]; [now left|right; exists y; split; auto]); [now right|].
      destruct I as [I|I]; [discriminate|auto]. }
  assert (IH' := IH (fun y I => NT y (or_intror I)) (fun y c I => HA y c (or_intror I))). clear IH.
  rewrite ploop_node. destruct (find (node_name y) cs) as [c|] eqn:Fc.
  - assert (Ic := find_some _ _ _ _ Fc).
    assert (Hy := HA y c (or_introl eq_refl) (or_introl Ic) (get (node_name y) fs1)).
    assert (U : forall c', In (node_name y, c') cs \/ In (node_name y, c') dyn -> c' = c).
    { intros c' [I|I].
      - rewrite (find_in _ cs _ c' DC I) in Fc. congruence.
      - apply (in_map fst) in I. destruct (DT _ I) as [_ N]. destruct N. now apply (in_map fst) in Ic. }
    destruct (parse c (get (node_name y) fs1) y) as [o'|e] eqn:P.
    + destruct (IH' (put (node_name y) o' fs1) ex1) as [I1 I2]; [now rewrite put_keys|]. split.
      * rewrite I1. split; intros H z I; [|apply H; now right].
        destruct I as [[= <-]|I]; [|auto]. exists c. split; [now left|]. apply Hy. eauto.
      * intros fs2 ex2 E. destruct (I2 _ _ E) as [Q1 Q2]. split; auto. intros f Hf. rewrite (Q2 f Hf).
        destruct (eqt f (node_name y)) eqn:Ef.
        -- apply eqt_spec in Ef. subst f. rewrite get_put_same by (rewrite K; now apply (in_map fst) in Ic).
           rewrite (parse_explicit _ _ _ _ P). split; intros _; [right; exists y; split; auto; now left|now left].
        -- rewrite get_put_other by (intros ->; now rewrite eqt_refl in Ef).
           split; (intros [H|(z & I & N)]; [now left|right; exists z; split; auto]); [now right|].
           destruct I as [[= <-]|I]; auto. subst f. now rewrite eqt_refl in Ef.
    + split; [|discriminate]. split; [intros [r H]; discriminate|].
      intros H. destruct (H y (or_introl eq_refl)) as (c' & I & A). rewrite (U c' I) in A.
      apply Hy in A as [o' A]. discriminate.
  - rewrite eqt_neq by (apply NT; now left).
    assert (NC : ~ In (node_name y) (map fst cs)) by now apply find_none.
    destruct (find (node_name y) dyn) as [c|] eqn:Fd.
    + assert (Ic := find_some _ _ _ _ Fd).
      assert (Hy := HA y c (or_introl eq_refl) (or_intror Ic) (init c)).
      assert (U : forall c', In (node_name y, c') cs \/ In (node_name y, c') dyn -> c' = c).
      { intros c' [I|I].
        - destruct NC. now apply (in_map fst) in I.
        - rewrite (find_in _ dyn _ c' DD I) in Fd. congruence. }
      destruct (parse c (init c) y) as [o'|e] eqn:P.
      * destruct (IH' fs1 (ex1 ++ [(node_name y, o')]) K) as [I1 I2]. split.
        -- rewrite I1. split; intros H z I; [|apply H; now right].
           destruct I as [[= <-]|I]; [|auto]. exists c. split; [now right|]. apply Hy. eauto.
        -- intros fs2 ex2 E. destruct (I2 _ _ E) as [Q1 Q2]. split; auto. intros f Hf. rewrite (Q2 f Hf).
           split; (intros [H|(z & I & N)]; [now left|right; exists z; split; auto]); [now right|].
           destruct I as [[= <-]|I]; auto. subst f. contradiction.
      * split; [|discriminate]. split; [intros [r H]; discriminate|].
        intros H. destruct (H y (or_introl eq_refl)) as (c' & I & A). rewrite (U c' I) in A.
        apply Hy in A as [o' A]. discriminate.
    + split; [|discriminate]. split; [intros [r H]; discriminate|].
      intros H. destruct (H y (or_introl eq_refl)) as (c' & [I|I] & A).
      * destruct NC. now apply (in_map fst) in I.
      * rewrite (find_in _ dyn _ c' DD I) in Fd. discriminate.
Qed.

Lemma get_none_keys os a : ~ In a (map fst os) -> get a os = no_obj F.
Proof. intros H. unfold InpModel.get. now rewrite (proj2 (find_none _ os a) H). Qed.

Lemma fetch_shape o : fetch_attr F shape_cls o = Ok (val1 o).
Proof. unfold fetch_attr, check. change (optional shape_cls) with true. now rewrite orb_true_r. Qed.

Lemma fetch_mode o m : val1 o = StrV F m ->
  fetch_attr F mode_cls o = if eqt m (tx "manual") || eqt m (tx "file") then Ok (StrV F m) else Err BadOption.
Proof.
  intros H. unfold fetch_attr, check. change (optional mode_cls) with true. rewrite orb_true_r, H.
  cbn [negb mode_cls InpModel.c_opts existsb eqv]. rewrite orb_false_r. now destruct (_ || _).
Qed.

Theorem parse_iff c : tables c -> forall x o, named x -> (exists o', parse c o x = Ok o') <-> acceptable c x.
Proof.
  induction c as [c IA IF ID] using cls_ind'. intros T x o N.
  inversion T as [? T1 DA DF DD DT TA TF TD]; subst.
  destruct x as [nm xa xf]. assert (N' := N). cbn [named] in N'. destruct N' as (_ & ND & NT & _).
  rewrite parse_eq. cbn [node_attribs node_fields].
  destruct (parse_attrs_ok (c_attribs c) xa ND NT (attribs0 c o)) as [A1 A2].
  { unfold attribs0. rewrite map_map. reflexivity. }
  assert (HA : forall y c', In (FNode y) xf -> In (node_name y, c') (c_fields c) \/ In (node_name y, c') (c_dynamic c) ->
     forall ob, (exists o', parse c' ob y = Ok o') <-> acceptable c' y).
  { intros y c' I [J|J] ob.
    - apply (IF _ _ J); [now destruct (TF _ _ J)|]. apply (named_in (Node nm xa xf)); auto.
    - apply (ID _ _ J); [now apply (TD (node_name y))|]. apply (named_in (Node nm xa xf)); auto. }
  destruct (ploop_ok (c_fields c) (c_dynamic c) xf DF DD DT) with (fs1 := fields0 c o) (ex1 := @nil (text * obj)) as [L1 L2]; auto.
  { intros y I. assert (Ny := named_in _ _ N I). destruct y as [ny ay fy]. exact (proj1 Ny). }
  { unfold fields0. rewrite map_map. reflexivity. }
  assert (MA : forall ats1, parse_attrs (c_attribs c) xa (attribs0 c o) = Ok ats1 ->
    (missing (c_attribs c) ats1 = None <->
     forall a c', In (a, c') (c_attribs c) -> c_default c' = None -> In a (map fst xa))).
  { intros ats1 E. destruct (A2 _ E) as (Q1 & Q2 & Q3). rewrite missing_iff. split; intros H a c' I.
    - intros Dn. assert (O := H a c' I). unfold InpModel.optional in O. rewrite Dn, orb_false_r in O.
      destruct (in_dec (list_eq_dec ascii_dec) a (map fst xa)) as [J|J]; auto.
      rewrite Q2 in O by auto. unfold attribs0 in O.
      rewrite (get_map (c_attribs c) (fun p => set_default (snd p) (get (fst p) (o_attribs o))) a c') in O; auto.
      now rewrite default_explicit in O.
    - unfold InpModel.optional. destruct (c_default c') eqn:Dn; [apply orb_true_r|]. rewrite orb_false_r.
      assert (J := H a c' I Dn). apply in_map_iff in J as ([a' v] & Ea & J). cbn in Ea. subst a'.
      apply (Q3 a v c' J). now apply find_in. }
  assert (MF : forall fs1 ex1, ploop (c_fields c) (c_dynamic c) xf (fields0 c o) [] = Ok (fs1, ex1) ->
    (missing (c_fields c) fs1 = None <->
     forall f c', In (f, c') (c_fields c) -> c_default c' = None -> exists y, In (FNode y) xf /\ node_name y = f)).
  { intros fs1 ex1 E. destruct (L2 _ _ E) as (Q1 & Q2). rewrite missing_iff.
    assert (Z : forall f c', In (f, c') (c_fields c) -> o_explicit (get f (fields0 c o)) = false).
    { intros f c' I. unfold fields0.
      rewrite (get_map (c_fields c) (fun p => set_default (snd p) (get (fst p) (o_fields o))) f c'); auto. }
    split; intros H f c' I.
    - intros Dn. assert (O := H f c' I). unfold InpModel.optional in O. rewrite Dn, orb_false_r in O.
      apply Q2 in O; [|now apply (in_map fst) in I]. destruct O as [O|O]; auto. rewrite (Z f c' I) in O. discriminate.
    - unfold InpModel.optional. destruct (c_default c') eqn:Dn; [apply orb_true_r|]. rewrite orb_false_r.
      apply Q2; [now apply (in_map fst) in I|]. right. eauto. }
  assert (AC : forall B : Prop, (B <-> match c_kind c with KNode => True | KArray => array_readable (c_dtype c) (Node nm xa xf)
       | _ => rd (c_dtype c) (last_text xf) <> None end) ->
     ((exists ats1, parse_attrs (c_attribs c) xa (attribs0 c o) = Ok ats1) /\
      (exists r, ploop (c_fields c) (c_dynamic c) xf (fields0 c o) [] = Ok r) /\
      (forall a c', In (a, c') (c_attribs c) -> c_default c' = None -> In a (map fst xa)) /\
      (forall f c', In (f, c') (c_fields c) -> c_default c' = None -> exists y, In (FNode y) xf /\ node_name y = f) /\ B)
     <-> acceptable c (Node nm xa xf)).
  { intros B HB. rewrite A1, L1, HB. split.
    - intros (H1 & H2 & H3 & H4 & H5). constructor; auto.
      intros a v I. destruct (H1 a v I) as (c' & Fc & R). exists c'. split; auto. now apply find_some.
    - intros H. inversion H as [? ? H1 H2 H3 H4 H5]; subst. cbn [node_attribs node_fields] in *.
      repeat (split; auto). intros a v I. destruct (H1 a v I) as (c' & Fc & R). exists c'. split; auto. now apply find_in. }
  destruct (parse_attrs (c_attribs c) xa (attribs0 c o)) as [ats1|e] eqn:PA.
  2:{ rewrite <- (AC (match c_kind c with KNode => True | KArray => array_readable (c_dtype c) (Node nm xa xf)
       | _ => rd (c_dtype c) (last_text xf) <> None end)) by reflexivity.
      split; [intros [? Q]; discriminate|]. intros ([? Q] & _). discriminate. }
  specialize (MA _ eq_refl).
  destruct (ploop (c_fields c) (c_dynamic c) xf (fields0 c o) []) as [[fs1 ex1]|e] eqn:PL.
  2:{ rewrite <- (AC (match c_kind c with KNode => True | KArray => array_readable (c_dtype c) (Node nm xa xf)
       | _ => rd (c_dtype c) (last_text xf) <> None end)) by reflexivity.
      split; [intros [? Q]; discriminate|]. intros (_ & [? Q] & _). discriminate. }
  specialize (MF _ _ eq_refl).
  destruct (missing (c_attribs c) ats1) as [a|] eqn:M1.
  { split; [intros [? Q]; discriminate|]. rewrite <- (AC (match c_kind c with KNode => True | KArray => array_readable (c_dtype c) (Node nm xa xf)
       | _ => rd (c_dtype c) (last_text xf) <> None end)) by reflexivity.
    intros (_ & _ & Q & _). apply MA in Q. discriminate. }
  destruct (missing (c_fields c) fs1) as [a|] eqn:M2.
  { split; [intros [? Q]; discriminate|]. rewrite <- (AC (match c_kind c with KNode => True | KArray => array_readable (c_dtype c) (Node nm xa xf)
       | _ => rd (c_dtype c) (last_text xf) <> None end)) by reflexivity.
    intros (_ & _ & _ & Q & _). apply MF in Q. discriminate. }
  match goal with |- ?B <-> _ => rewrite <- (AC B) end.
  { split; [|tauto]. intros Q. split; [eauto|]. split; [eauto|]. split; [now apply MA|]. split; [now apply MF|]. exact Q. }
  clear AC. destruct (A2 _ eq_refl) as (Q1 & Q2 & Q3). destruct (c_kind c) eqn:KD.
  - destruct (rd (c_dtype c) (last_text xf)); split; intros; try discriminate; eauto. destruct H; discriminate. congruence.
  - destruct (rd (c_dtype c) (last_text xf)); split; intros; try discriminate; eauto. destruct H; discriminate. congruence.
  - destruct (T1 eq_refl) as [FS FM]. unfold InpModel.finish_array, attr_of. rewrite FS, FM.
    assert (MO : exists m, val1 (get (tx "mode") ats1) = StrV F m /\ m = mode_of (Node nm xa xf)).
    { unfold mode_of. cbn [node_attribs]. destruct (find (tx "mode") xa) as [t|] eqn:Fm.
      - destruct (Q3 _ t mode_cls (find_some _ _ _ _ Fm) FM) as [_ R]. change (Some (StrV F (strip blank t)) = Some (val1 (get (tx "mode") ats1))) in R.
        exists (strip blank t). split; congruence.
      - exists (tx "manual"). split; auto. rewrite Q2 by now apply find_none. unfold attribs0.
        rewrite (get_map (c_attribs c) (fun p => set_default (snd p) (get (fst p) (o_attribs o))) _ mode_cls); auto.
        now apply find_some. }
    destruct MO as (m & MV & Em). rewrite (fetch_mode _ m MV), fetch_shape.
    unfold array_readable. rewrite <- Em.
    destruct (eqt m (tx "manual")) eqn:E1; cbn [orb]; cbv iota.
    + rewrite E1. apply eqt_spec in E1. cbn [node_fields].
      destruct (rd_array (c_dtype c) (last_text xf)) as [l|]; split.
      * intros _. left. split; auto. discriminate.
      * intros _. eexists. reflexivity.
      * intros [? Q]; discriminate.
      * intros [[_ Q]|[Q _]]; [congruence|]. rewrite E1 in Q. discriminate.
    + destruct (eqt m (tx "file")) eqn:E2; cbv iota.
      * rewrite E1, E2. apply eqt_spec in E2. cbn [node_fields]. destruct (loadtxt _ _) as [l|]; split.
        -- intros _. right. split; auto. discriminate.
        -- intros _. eexists. reflexivity.
        -- intros [? Q]; discriminate.
        -- intros [[Q _]|[_ Q]]; [rewrite E2 in Q; discriminate|congruence].
      * split; [intros [? Q]; discriminate|].
        intros [[Q _]|[Q _]]; rewrite Q in *; discriminate.
  - split; [auto|]. intros _. eexists. reflexivity.
Qed.
End Inp.
