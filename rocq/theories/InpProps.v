(* Properties of the input objects: a checkpoint is read back, what is
   accepted, and what goes wrong. *)
From Coq Require Import String Ascii List Arith Bool ZArith Lia.
From Verif Require Import TextLib XmlModel XmlProps ValModel ValProps InpModel InpText InpProofs.
Import ListNotations.
Local Open Scope list_scope.
Local Open Scope nat_scope.

Section Record.
Variable F : Type.
Variable fwr : F -> text.
Variable frd : text -> option F.
Variable is_float : text -> bool.
Variable loadtxt : dtype -> text -> option (list (val F)).
Variable to_user : text -> text -> val F -> val F.

Notation write := (InpModel.write F fwr to_user).
Notation parse := (InpModel.parse F frd is_float loadtxt to_user).
Notation init := (InpModel.init F to_user).
Notation wf := (InpProofs.wf F fwr frd is_float to_user).
Notation fits := (InpProofs.fits F fwr frd is_float).
Notation same := (InpProofs.same F fwr).
Notation acceptable := (InpProofs.acceptable F frd is_float loadtxt).

(* C135: the text that is written for an object is a document with one element;
   reading it from the initial state gives an object with the same values at
   all levels, and this one is written as the same text *)
Theorem checkpoint_restart c o name w1 w2 :
  wf c -> c_kind F c <> KAttr -> fits c o -> xname name ->
  forallb white w1 = true -> forallb white w2 = true ->
  exists x o',
    xml_parse_string (w1 ++ write c o name [] ++ w2) = Some (Node (tx "root") [] [FNode x])
    /\ node_name x = name
    /\ parse c (init c) x = Ok o' /\ same c o o'
    /\ forall name' indent, write c o' name' indent = write c o name' indent.
Proof.
  intros W K Fo X W1 W2.
  destruct (round_trip_cls F fwr frd is_float loadtxt to_user c W K o name [] Fo X (Forall_nil _))
    as (V & E & T & N & P).
  assert (Fr : fresh F fwr to_user c (base F to_user c)) by (inversion W; auto).
  destruct (P _ Fr) as (o' & Q & S & _). rewrite <- init_eq in Q.
  exists (collected V), o'. split; [|split; [|split; [|split]]]; auto.
  - rewrite E. cbn [app]. rewrite <- app_assoc. apply print_read; auto.
  - now rewrite collected_name.
  - intros name' indent. symmetry. now apply same_write.
Qed.

(* C136: what is accepted does not depend on what was read before, and is told
   by the tables of the classes *)
Theorem parse_accepts c x o :
  tables F c -> named x -> (exists o', parse c o x = Ok o') <-> acceptable c x.
Proof. intros T N. now apply parse_iff. Qed.

(* C137: the written text decides the values *)
Theorem write_decides c o1 o2 name :
  wf c -> c_kind F c <> KAttr -> fits c o1 -> fits c o2 -> xname name ->
  (write c o1 name [] = write c o2 name [] <-> same c o1 o2).
Proof.
  intros W K F1 F2 X. split; [|now apply same_write].
  intros E.
  destruct (round_trip_cls F fwr frd is_float loadtxt to_user c W K o1 name [] F1 X (Forall_nil _)) as (V & E1 & T1 & N1 & P1).
  destruct (round_trip_cls F fwr frd is_float loadtxt to_user c W K o2 name [] F2 X (Forall_nil _)) as (V' & E2 & T2 & N2 & P2).
  rewrite E1, E2 in E. cbn [app] in E. apply app_inv_tail in E. apply print_inj in E; auto.
  assert (Fr : fresh F fwr to_user c (base F to_user c)) by (inversion W; auto).
  destruct (P1 _ Fr) as (a & Q1 & S1 & _). destruct (P2 _ Fr) as (b & Q2 & S2 & _).
  rewrite E in Q1. rewrite Q1 in Q2. injection Q2 as <-.
  eapply same_trans; [exact S1|]. now apply same_sym.
Qed.

(* ---- which values fit ---- *)

Lemma index_more c x y i : index c x = Some i -> index c (x ++ y) = Some i /\ i < length x.
Proof.
  revert i. induction x as [|a x IH]; intros i H; [discriminate|]. cbn [index app length] in *.
  destruct (Ascii.eqb c a); [injection H as <-; split; [auto|lia]|].
  destruct (index c x) as [j|]; [|discriminate]. injection H as <-.
  destruct (IH j eq_refl) as [-> L]. split; [auto|lia].
Qed.

Lemma read_list_more d0 d1 sep f x y l : read_list d0 d1 sep f x = Some l -> read_list d0 d1 sep f (x ++ y) = Some l.
Proof.
  unfold read_list. destruct (index d0 x) as [b|] eqn:B; [|discriminate].
  destruct (index d1 x) as [e|] eqn:E; [|discriminate].
  destruct (index_more _ _ y _ B) as [-> LB]. destruct (index_more _ _ y _ E) as [-> LE].
  replace (slice (S b) e (x ++ y)) with (slice (S b) e x); auto.
  unfold slice. rewrite skipn_app, firstn_app. replace (e - S b - length (skipn (S b) x)) with 0.
  - now rewrite app_nil_r.
  - rewrite skipn_length. lia.
Qed.

Notation stable := (InpProofs.stable F fwr frd is_float).
Notation elem_ok := (InpProofs.elem_ok F fwr frd is_float).

Lemma blank_spaces w : spaces w -> Forall (fun a => blank a = true) w.
Proof. intros H. eapply Forall_impl; [|exact H]. intros a Ha. now apply space_set in Ha. Qed.

(* C138: integers, booleans, strings and tuples of integers are always read back *)
Theorem plain_values_stable :
  (forall z, stable TInt (IntV F z)) /\ (forall b, stable TBool (BoolV F b))
  /\ (forall t, stable TStr (StrV F t)) /\ (forall l, stable TTuple (TupV F l)).
Proof.
  repeat split; intros v w H; cbn [InpModel.wr InpModel.rd].
  - exists (IntV F v). split; auto. assert (R := read_show v). unfold read_int in *.
    rewrite strip_back by now apply blank_spaces. now rewrite R.
  - exists (BoolV F v). split; auto. unfold read_bool. rewrite strip_back by now apply blank_spaces.
    destruct v; reflexivity.
  - exists (StrV F (strip blank v)). rewrite strip_back, strip_idem by now apply blank_spaces.
    split; auto.
  - exists (TupV F v). split; auto. assert (R := tuple_round_trip v). unfold read_tuple in *.
    destruct (read_list _ _ _ _ (write_tuple v)) as [l|] eqn:E; [|discriminate].
    rewrite (read_list_more _ _ _ _ _ w _ E). now rewrite R.
Qed.

(* C138: floats whenever float(repr(x)) = x and neither minds the padding *)
Theorem floats_stable f :
  (forall w, spaces w -> frd (fwr f ++ w) = Some f) -> stable TFloat (FloatV F f).
Proof. intros H w S. exists (FloatV F f). cbn. rewrite H; auto. Qed.

Lemma show_z_nonempty z : show_z z <> [].
Proof.
  intros E. assert (R := read_show z). rewrite E in R. discriminate.
Qed.

(* C138: arrays of integers can be written whatever they contain *)
Theorem int_elem z : elem_ok TInt (IntV F z).
Proof.
  unfold InpProofs.elem_ok. assert (N := numeral_int z). cbn [InpModel.wr].
  assert (T : strip set_list (show_z z) = show_z z).
  { apply strip_trim. eapply numeral_trim; [exact N|]. intros a H. now apply numeral_not_blank in H. }
  split; [|split].
  - repeat constructor; (apply numeral_has with (1 := N); reflexivity).
  - repeat split; try (apply numeral_has with (1 := N); reflexivity). rewrite T. apply show_z_nonempty.
  - exists (IntV F z). cbn [InpModel.wr InpModel.rd]. rewrite T, read_show. auto.
Qed.
End Record.

Print Assumptions handler_collects.
Print Assumptions print_read.
Print Assumptions array_read.
Print Assumptions checkpoint_restart.
Print Assumptions parse_accepts.
Print Assumptions write_decides.
Print Assumptions plain_values_stable.
Print Assumptions floats_stable.
Print Assumptions int_elem.

(* ---------------- cases ---------------- *)

(* floats that are integers; a file holds two numbers; kelvin are thirds *)
Definition no_float (t : text) := false.
Definition two_numbers (d : dtype) (t : text) : option (list (val Z)) := Some [FloatV Z 1%Z; FloatV Z 2%Z].
Definition user (dim units : text) (v : val Z) : val Z := v.
Definition internal (dim units : text) (v : val Z) : val Z :=
  match v with
  | FloatV _ f => if eqt units (tx "kelvin") then FloatV Z (f * 3)%Z else v
  | _ => v
  end.

Notation zwrite := (write Z show_z user).
Notation zparse := (parse Z read_int no_float two_numbers user).
Notation zinit := (init Z user).
Notation zwf := (wf Z show_z read_int no_float user).
Notation zfits := (fits Z show_z read_int no_float).
Notation zfresh := (fresh Z show_z user).
Notation zsame := (same Z show_z).

Definition units_cls : cls Z := Cls Z KAttr TStr None undefined (Some (DVal Z (StrV Z []))) [] [] [].
Definition value_cls (d : dtype) (dim : text) (df : option (dflt Z)) : cls Z :=
  Cls Z KValue d None dim df [(tx "units", units_cls)] [] [].
Definition array_cls (d : dtype) (dim : text) (df : option (dflt Z)) : cls Z :=
  Cls Z KArray d None dim df [(tx "units", units_cls); (tx "shape", shape_cls Z); (tx "mode", mode_cls Z)] [] [].

(* a part of inputs/ensembles.py 41-106 *)
Definition temp_cls := value_cls TFloat (tx "temperature") (Some (DVal Z (FloatV Z (-1)%Z))).
Definition weights_cls := array_cls TFloat undefined (Some (DArr Z [] [0%Z])).
Definition ens_state : obj Z :=
  Obj Z None true [] [(tx "temperature", zinit temp_cls); (tx "bias_weights", zinit weights_cls)] [].
Definition ens_cls : cls Z :=
  Cls Z KNode TStr None undefined (Some (DState Z ens_state)) []
    [(tx "temperature", temp_cls); (tx "bias_weights", weights_cls)] [].
(* and of inputs/system.py, with a mandatory field and a dynamic one *)
Definition prefix_cls := value_cls TStr undefined None.
Definition step_cls := array_cls TInt undefined None.
Definition sys_cls : cls Z :=
  Cls Z KNode TStr None undefined None
    [(tx "copies", Cls Z KAttr TInt None undefined (Some (DVal Z (IntV Z 1%Z))) [] [] [])]
    [(tx "ensemble", ens_cls); (tx "prefix", prefix_cls)] [(tx "steps", step_cls)].

Definition mkattr (v : val Z) : obj Z := Obj Z (Some [v]) true [] [] [].
Definition mkvalue (v : val Z) (u : text) : obj Z := Obj Z (Some [v]) true [(tx "units", mkattr (StrV Z u))] [] [].
Definition mkarray (l : list (val Z)) (sh : list Z) : obj Z :=
  Obj Z (Some l) true [(tx "units", mkattr (StrV Z [])); (tx "shape", mkattr (TupV Z sh));
                       (tx "mode", mkattr (StrV Z (tx "manual")))] [] [].
Definition sys_obj : obj Z :=
  Obj Z None true [(tx "copies", mkattr (IntV Z 4%Z))]
    [(tx "ensemble", Obj Z None true [] [(tx "temperature", mkvalue (FloatV Z 300%Z) (tx "kelvin"));
                                         (tx "bias_weights", zinit weights_cls)] []);
     (tx "prefix", mkvalue (StrV Z (tx "run")) [])]
    [(tx "steps", mkarray (map (IntV Z) [1; -2; 3; 4; 5; 6]%Z) [2; 3]%Z)].

Ltac ins := repeat match goal with
  | H : In _ [] |- _ => destruct H
  | H : In _ (_ :: _) |- _ => destruct H as [H|H]
  | H : (_, _) = (_, _) |- _ => injection H as <- <-
  | H : _ \/ _ |- _ => destruct H as [H|H]
  | H : False |- _ => destruct H
  end.

Lemma zfloat z : InpProofs.stable Z show_z read_int no_float TFloat (FloatV Z z).
Proof.
  apply floats_stable. intros w H. assert (R := read_show z). unfold read_int in *.
  rewrite strip_back by now apply blank_spaces. exact R.
Qed.
Lemma zint z : InpProofs.stable Z show_z read_int no_float TInt (IntV Z z).
Proof. apply plain_values_stable. Qed.
Lemma zstr t : InpProofs.stable Z show_z read_int no_float TStr (StrV Z t).
Proof. apply plain_values_stable. Qed.
Lemma ztup t : InpProofs.stable Z show_z read_int no_float TTuple (TupV Z t).
Proof. apply plain_values_stable. Qed.

Ltac stab := first [apply zfloat | apply zint | apply zstr | apply ztup].
Ltac leaf := first
  [ exact I
  | eexists; split; [reflexivity|]; split; [repeat constructor|]; stab
  | eexists; split; [reflexivity|]; split; [repeat constructor|]; split; [stab|reflexivity]
  | eexists; eexists; split; [reflexivity|]; split; [|split; [reflexivity|split; [reflexivity|split; [|reflexivity]]]];
    [repeat (constructor; [apply int_elem|]); constructor | first [discriminate | reflexivity]] ].
Ltac fitz := constructor; [leaf
  | let a := fresh "a" in let c := fresh "c" in let H := fresh "H" in intros a c H; cbn in H; ins; fitz
  | let a := fresh "a" in let c := fresh "c" in let H := fresh "H" in intros a c H; cbn in H; ins; fitz
  | let a := fresh "a" in let c := fresh "c" in let H := fresh "H" in
    intros a c H; cbn in H; ins; eexists; reflexivity
  | let a := fresh "a" in let c := fresh "c" in let k := fresh "k" in let H := fresh "H" in let E := fresh "E" in
    intros a c k H E; cbn in H; ins; cbn in E; try discriminate; injection E as <-; fitz ].

Lemma sys_fits : zfits sys_cls sys_obj.
Proof. fitz. Qed.

Ltac samez := constructor;
  [ first [reflexivity | intros _; reflexivity]
  | let a := fresh "a" in let c := fresh "c" in let H := fresh "H" in intros a c H; cbn in H; ins; samez
  | let a := fresh "a" in let c := fresh "c" in let H := fresh "H" in intros a c H; cbn in H; ins; samez
  | intros _; reflexivity
  | let i := fresh "i" in intros i; intros; destruct i; discriminate ].
Ltac freshz := constructor;
  [ first [discriminate | intros _; samez]
  | let a := fresh "a" in let c := fresh "c" in let H := fresh "H" in intros a c H; cbn in H; ins; freshz ].

Ltac names := repeat constructor; cbn; intuition discriminate.
Ltac wfz := constructor;
  [ first [discriminate | intros _; split; [reflexivity|split; [reflexivity|split; [reflexivity|right; eexists; reflexivity]]]]
  | first [intros _; split; reflexivity | let H := fresh "H" in intros H; destruct H; reflexivity]
  | first [discriminate | intros _; split; reflexivity]
  | names | names
  | let n := fresh "n" in let H := fresh "H" in intros n H; cbn in H; ins; subst;
      (split; [split; [split; [reflexivity|repeat constructor]|discriminate]|cbn; intuition discriminate])
  | let a := fresh "a" in let c := fresh "c" in let H := fresh "H" in intros a c H; cbn in H; ins;
      (split; [split; [split; [reflexivity|repeat constructor]|discriminate]|split; [reflexivity|wfz]])
  | let a := fresh "a" in let c := fresh "c" in let H := fresh "H" in intros a c H; cbn in H; ins;
      (split; [split; [split; [reflexivity|repeat constructor]|discriminate]|split; [discriminate|wfz]])
  | let a := fresh "a" in let c := fresh "c" in let H := fresh "H" in intros a c H; cbn in H; ins;
      (split; [discriminate|wfz])
  | first [discriminate | intros _; fitz]
  | freshz ].

Lemma sys_wf : zwf sys_cls.
Proof. wfz. Qed.

Example checkpoint_case :
  zwf sys_cls /\ zfits sys_cls sys_obj
  /\ zwrite sys_cls sys_obj (tx "system") []
     = tx "<system copies='4'>" ++ [nl] ++ tx "   <ensemble>" ++ [nl]
       ++ tx "      <temperature units='kelvin'>300</temperature>" ++ [nl] ++ tx "   </ensemble>" ++ [nl]
       ++ tx "   <prefix>run</prefix>" ++ [nl] ++ tx "   <steps shape='(2, 3)'>" ++ [nl]
       ++ tx "    [ 1, -2, 3, 4, 5, " ++ [nl] ++ tx "      6 ]" ++ [nl] ++ tx "   </steps>" ++ [nl] ++ tx "</system>" ++ [nl]
  /\ match xml_parse_string (zwrite sys_cls sys_obj (tx "system") []) with
     | Some (Node _ _ [FNode x]) =>
       match zparse sys_cls (zinit sys_cls) x with
       | Ok o => vals Z (get Z (tx "steps") (o_extra Z o)) = map (IntV Z) [1; -2; 3; 4; 5; 6]%Z
                 /\ zwrite sys_cls o (tx "system") [] = zwrite sys_cls sys_obj (tx "system") []
       | Err _ => False
       end
     | _ => False
     end.
Proof.
  split; [exact sys_wf|]. split; [exact sys_fits|]. split; [vm_compute; reflexivity|].
  vm_compute. split; reflexivity.
Qed.

(* the first of a document, read with a class *)
Definition read_doc (c : cls Z) (doc : text) : option (res (obj Z)) :=
  match xml_parse_string doc with
  | Some (Node _ _ [FNode x]) => Some (zparse c (zinit c) x)
  | _ => None
  end.

(* documents that are refused, each for a different reason *)
Example accepts_case :
  tables Z sys_cls
  /\ read_doc sys_cls (tx "<system><prefix>a</prefix></system>") <> None
  /\ read_doc sys_cls (tx "<system></system>") = Some (Err (NoField (tx "prefix")))
  /\ read_doc sys_cls (tx "<system copies='x'><prefix>a</prefix></system>") = Some (Err BadValue)
  /\ read_doc sys_cls (tx "<system mode='x'><prefix>a</prefix></system>") = Some (Err (BadAttr (tx "mode")))
  /\ read_doc sys_cls (tx "<system><prefix>a</prefix><cell></cell></system>") = Some (Err (BadTag (tx "cell")))
  /\ read_doc sys_cls (tx "<system><prefix>a</prefix><steps> [1, b] </steps></system>") = Some (Err BadValue)
  /\ read_doc sys_cls (tx "<system><prefix>a</prefix><steps mode='x'> [1] </steps></system>") = Some (Err BadOption).
Proof.
  split; [|repeat split; vm_compute; congruence].
  Ltac tab := constructor;
    [ first [discriminate | intros _; split; reflexivity] | names | names | names
    | let n := fresh "n" in let H := fresh "H" in intros n H; cbn in H; ins; subst;
      (split; [discriminate|cbn; intuition discriminate])
    | let a := fresh "a" in let c := fresh "c" in let H := fresh "H" in intros a c H; cbn in H; ins; discriminate
    | let a := fresh "a" in let c := fresh "c" in let H := fresh "H" in intros a c H; cbn in H; ins;
      (split; [discriminate|tab])
    | let a := fresh "a" in let c := fresh "c" in let H := fresh "H" in intros a c H; cbn in H; ins; tab ].
  tab.
Qed.

(* ---------------- what does not hold ---------------- *)

(* the temperature that is fetched from a document *)
Definition top_cls : cls Z := Cls Z KNode TStr None undefined None [] [(tx "ensemble", ens_cls)] [].
Definition temperature_of (doc : text) : option (res (list (val Z))) :=
  match read_doc top_cls doc with
  | Some (Ok o) => Some (fetch_value Z internal temp_cls
                           (get Z (tx "temperature") (o_fields Z (get Z (tx "ensemble") (o_fields Z o)))))
  | _ => None
  end.

(* C139, false of the code: of a tag that is given twice the second one counts
   alone.  The units of a field that it leaves out stay those of the first *)
Theorem repeated_tag_refuted :
  exists first second : text,
    temperature_of (tx "<system>" ++ second ++ tx "</system>") = Some (Ok [FloatV Z (-1)%Z])
    /\ temperature_of (tx "<system>" ++ first ++ second ++ tx "</system>") = Some (Ok [FloatV Z (-3)%Z]).
Proof.
  exists (tx "<ensemble><temperature units='kelvin'>300</temperature></ensemble>"), (tx "<ensemble></ensemble>").
  split; vm_compute; reflexivity.
Qed.
Print Assumptions repeated_tag_refuted.

(* inputs/prng.py 35-69 *)
Definition prng_cls : cls Z :=
  Cls Z KNode TStr None undefined None [(tx "n_threads", value_cls TInt undefined (Some (DVal Z (IntV Z 1%Z))))]
    [(tx "seed", value_cls TInt undefined (Some (DVal Z (IntV Z (-1)%Z))));
     (tx "state", value_cls TStr undefined (Some (DVal Z (StrV Z []))))] [].
Definition prng_obj (threads seed : Z) : obj Z :=
  Obj Z None true [(tx "n_threads", mkvalue (IntV Z threads) [])]
    [(tx "seed", mkvalue (IntV Z seed) []); (tx "state", mkvalue (StrV Z []) [])] [].

(* C135, false of this class: n_threads is among the attributes but is not
   written as one, so that a checkpoint with more than one thread cannot be
   read *)
Theorem prng_checkpoint_refuted :
  read_doc prng_cls (zwrite prng_cls (prng_obj 1 7) (tx "prng") []) <> None
  /\ read_doc prng_cls (zwrite prng_cls (prng_obj 4 7) (tx "prng") []) = None
  /\ zwrite prng_cls (prng_obj 4 7) (tx "prng") []
     = tx "<prng <n_threads>4</n_threads>" ++ [nl] ++ tx ">" ++ [nl] ++ tx "   <seed>7</seed>" ++ [nl] ++ tx "</prng>" ++ [nl].
Proof. split; [vm_compute; discriminate|]. split; vm_compute; reflexivity. Qed.
Print Assumptions prng_checkpoint_refuted.

(* C140, false of the code: strings are written as they are *)
Theorem text_not_escaped_refuted :
  read_doc prefix_cls (zwrite prefix_cls (mkvalue (StrV Z (tx "a<b")) []) (tx "prefix") []) = None
  /\ match read_doc prefix_cls (zwrite prefix_cls (mkvalue (StrV Z (tx "a&lt;b")) []) (tx "prefix") []) with
     | Some (Ok o) => val1 Z o = StrV Z (tx "a<b")
     | _ => False
     end.
Proof. split; vm_compute; reflexivity. Qed.
Print Assumptions text_not_escaped_refuted.

(* C140, false of the code: an array of strings that contain commas or that
   ends with an empty one *)
Definition words_cls := array_cls TStr undefined None.
Definition words_back (l : list text) : option (list (val Z)) :=
  match read_doc words_cls (zwrite words_cls (mkarray (map (StrV Z) l) [Z.of_nat (length l)]) (tx "labels") []) with
  | Some (Ok o) => Some (vals Z o)
  | _ => None
  end.
Theorem string_array_refuted :
  words_back [tx "H"; tx "O"] = Some [StrV Z (tx "H"); StrV Z (tx "O")]
  /\ words_back [tx "a,b"] = Some [StrV Z (tx "a"); StrV Z (tx "b")]
  /\ words_back [tx "a"; []] = Some [StrV Z (tx "a")]
  /\ words_back [[]] = Some [].
Proof. repeat split; vm_compute; reflexivity. Qed.
Print Assumptions string_array_refuted.
