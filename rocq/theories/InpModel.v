(* Model of the input objects: how a class of input tags is read from XML,
   stored, fetched and written.

   ipi/utils/inputvalue.py: Input 81-397 (init 136-192, set_default 194-203,
   store 205-209, check 217-225, extend 227-246, write 248-304, parse 306-390),
   InputAttribute 943-1042, InputValue 1045-1160, InputArray 1181-1319;
   ipi/utils/io/inputs/io_xml.py: read_type 289-305, read_array 400-422,
   readtype_funcs 490-499, write_type 502-520, writetype_funcs 624-632.

   An object is described by its class and its state.  The classes of the
   repository differ in their tables of attributes, fields and dynamic fields
   and in what store and fetch do with the domain objects: the tables are the
   argument [cls], and for the classes with fields the state that store
   leaves for the default is an argument of the table (the state of a fresh
   object after set_default).  The values are integers, floats, booleans,
   strings, tuples of integers and dictionaries; the text format of floats and
   the conversion of units are parameters.  Help texts and labels are left
   out.  The marker "%%NAME%%" of the default texts is the name itself in the
   model.  A value of the wrong type is written as the empty text. *)
From Coq Require Import String Ascii List Arith Bool ZArith.
From Verif Require Import TextLib XmlModel ValModel.
Import ListNotations.
Local Open Scope list_scope.
Local Open Scope nat_scope.

Section Inp.
Variable F : Type.
(* "%16.8e" % x, float(s), and whether float(s) succeeds inside dictionaries *)
Variable fwr : F -> text.
Variable frd : text -> option F.
Variable is_float : text -> bool.
Inductive dtype := TInt | TFloat | TBool | TStr | TTuple | TDict.
Inductive val := IntV (z : Z) | FloatV (f : F) | BoolV (b : bool) | StrV (t : text)
               | TupV (l : list Z) | DictV (d : list (text * value)).
(* np.loadtxt of a file name *)
Variable loadtxt : dtype -> text -> option (list val).
(* v * unit_to_user(dim, units, 1.0) and v * unit_to_internal(dim, units, 1.0) *)
Variable to_user to_internal : text -> text -> val -> val.

(* io_xml.py 502-520, 624-632 *)
Definition wr (d : dtype) (v : val) : text :=
  match d, v with
  | TInt, IntV z => show_z z
  | TFloat, FloatV f => fwr f
  | TBool, BoolV b => write_bool b
  | TStr, StrV t => strip blank t
  | TTuple, TupV l => write_tuple l
  | TDict, DictV l => write_dict l
  | _, _ => []
  end.

(* io_xml.py 289-305, 490-499 *)
Definition rd (d : dtype) (t : text) : option val :=
  match d with
  | TInt => option_map IntV (read_int t)
  | TFloat => option_map FloatV (frd t)
  | TBool => option_map BoolV (read_bool t)
  | TStr => Some (StrV (strip blank t))
  | TTuple => option_map TupV (read_tuple t)
  | TDict => option_map DictV (read_dict is_float t)
  end.

(* io_xml.py 400-422 *)
Definition rd_array (d : dtype) (t : text) : option (list val) :=
  match read_list "[" "]" "," set_list t with
  | Some l => all_some (map (rd d) l)
  | None => None
  end.

(* ---- objects and classes ---- *)

(* the value (a list for arrays, one element for the others), _explicit, and
   the objects held for attributes, fields and dynamic fields *)
Inductive obj := Obj (value : option (list val)) (explicit : bool)
                     (attribs fields extra : list (text * obj)).

Definition o_value (o : obj) := let 'Obj v _ _ _ _ := o in v.
Definition o_explicit (o : obj) := let 'Obj _ e _ _ _ := o in e.
Definition o_attribs (o : obj) := let 'Obj _ _ a _ _ := o in a.
Definition o_fields (o : obj) := let 'Obj _ _ _ f _ := o in f.
Definition o_extra (o : obj) := let 'Obj _ _ _ _ x := o in x.

(* InputAttribute, InputValue, InputArray and the classes with fields *)
Inductive kind := KAttr | KValue | KArray | KNode.

(* the default: a value for the first two kinds, the flat values with a shape
   for arrays, and the state after store for the others *)
Inductive dflt := DVal (v : val) | DArr (l : list val) (shape : list Z) | DState (o : obj).

Inductive cls := Cls (k : kind) (d : dtype) (opts : option (list val)) (dim : text)
                     (default : option dflt) (attribs fields dynamic : list (text * cls)).

Definition c_kind (c : cls) := let 'Cls k _ _ _ _ _ _ _ := c in k.
Definition c_dtype (c : cls) := let 'Cls _ d _ _ _ _ _ _ := c in d.
Definition c_opts (c : cls) := let 'Cls _ _ o _ _ _ _ _ := c in o.
Definition c_dim (c : cls) := let 'Cls _ _ _ d _ _ _ _ := c in d.
Definition c_default (c : cls) := let 'Cls _ _ _ _ d _ _ _ := c in d.
Definition c_attribs (c : cls) := let 'Cls _ _ _ _ _ a _ _ := c in a.
Definition c_fields (c : cls) := let 'Cls _ _ _ _ _ _ f _ := c in f.
Definition c_dynamic (c : cls) := let 'Cls _ _ _ _ _ _ _ y := c in y.

(* dictionaries with texts as keys *)
Fixpoint find {A} (k : text) (l : list (text * A)) : option A :=
  match l with [] => None | (k', v) :: r => if eqt k k' then Some v else find k r end.
Fixpoint put {A} (k : text) (v : A) (l : list (text * A)) : list (text * A) :=
  match l with [] => [] | (k', w) :: r => if eqt k k' then (k', v) :: r else (k', w) :: put k v r end.

Definition no_obj : obj := Obj None false [] [] [].
Definition get (k : text) (l : list (text * obj)) : obj := match find k l with Some o => o | None => no_obj end.

(* inputvalue.py 994-1001: InputAttribute.store *)
Definition store_attr (v : val) (o : obj) : obj := Obj (Some [v]) true (o_attribs o) (o_fields o) (o_extra o).

Definition undefined : text := tx "undefined".

(* inputvalue.py 1096-1115: InputValue.store; units="" when they are not given *)
Definition store_value (c : cls) (vs : list val) (units : text) (o : obj) : obj :=
  let ats := if eqt units [] then o_attribs o
             else put (tx "units") (store_attr (StrV units) (get (tx "units") (o_attribs o))) (o_attribs o) in
  let vs' := if eqt (c_dim c) undefined then vs else map (to_user (c_dim c) units) vs in
  Obj (Some vs') true ats (o_fields o) (o_extra o).

(* inputvalue.py 1225-1248: InputArray.store *)
Definition store_array (c : cls) (vs : list val) (shape : list Z) (units : text) (o : obj) : obj :=
  let o1 := store_value c vs units o in
  let sh := if match shape with [0%Z] => true | _ => false end then [Z.of_nat (length vs)] else shape in
  let ats := put (tx "shape") (store_attr (TupV sh) (get (tx "shape") (o_attribs o1))) (o_attribs o1) in
  let ats := put (tx "mode") (store_attr (StrV (tx "manual")) (get (tx "mode") ats)) ats in
  Obj (o_value o1) true ats (o_fields o1) (o_extra o1).

(* inputvalue.py 194-203: set_default *)
Definition set_default (c : cls) (o : obj) : obj :=
  let o' := match c_default c with
            | None => o
            | Some (DVal v) => match c_kind c with
                               | KAttr => store_attr v o
                               | _ => store_value c [v] [] o
                               end
            | Some (DArr l sh) => store_array c l sh [] o
            | Some (DState s) => s
            end in
  Obj (o_value o') false (o_attribs o') (o_fields o') (o_extra o').

(* inputvalue.py 136-183: __init__ *)
Fixpoint init (c : cls) : obj :=
  match c with
  | Cls _ _ _ _ _ ats fs _ =>
    set_default c (Obj None false (map (fun p => (fst p, init (snd p))) ats)
                                  (map (fun p => (fst p, init (snd p))) fs) [])
  end.

Definition optional (c : cls) : bool := match c_default c with Some _ => true | None => false end.

(* ---- writing ---- *)

Definition ELPERLINE := 5.

Definition val1 (o : obj) : val := match o_value o with Some (v :: _) => v | _ => StrV [] end.
Definition vals (o : obj) : list val := match o_value o with Some l => l | None => [] end.

(* inputvalue.py 1276-1292 *)
Fixpoint array_items (d : dtype) (big : bool) (indent : text) (i : nat) (l : list val) : text :=
  match l with
  | [] => []
  | v :: r => (if big && (0 <? i) && (i mod ELPERLINE =? 0) then [nl] ++ indent ++ tx "   " else [])
              ++ wr d v ++ tx ", " ++ array_items d big indent (S i) r
  end.
Definition array_text (d : dtype) (l : list val) (indent : text) : text :=
  let big := ELPERLINE <? length l in
  rstrip comma_blank ((if big then [nl] ++ indent ++ tx " [ " else tx " [ ") ++ array_items d big indent 0 l)
  ++ (if big then tx " ]" ++ [nl] else tx " ] ").

(* inputvalue.py 248-304 (Input.write), 1029-1042, 1132-1148, 1263-1294 *)
Fixpoint write (c : cls) (o : obj) (name indent : text) {struct c} : text :=
  match c with
  | Cls k d _ _ _ ats fs dyn =>
    match k with
    | KAttr => name ++ tx "='" ++ wr d (val1 o) ++ tx "'"
    | _ =>
      let txt := match k with
                 | KValue => wr d (val1 o)
                 | KArray => array_text d (vals o) indent
                 | _ => [nl]
                 end in
      indent ++ tx "<" ++ name
      ++ concat (map (fun p => let out := write (snd p) (get (fst p) (o_attribs o)) (fst p) [] in
                               if eqt out (if optional (snd p) then write (snd p) (init (snd p)) (fst p) [] else [])
                               then [] else tx " " ++ out) ats)
      ++ tx ">" ++ txt
      ++ concat (map (fun p => if eqt (if optional (snd p) then write (snd p) (init (snd p)) (fst p) [] else [])
                                      (write (snd p) (get (fst p) (o_fields o)) (fst p) [])
                               then [] else write (snd p) (get (fst p) (o_fields o)) (fst p) (tx "   " ++ indent)) fs)
      ++ concat (map (fun q => (fix look (l : list (text * cls)) : text :=
                                  match l with
                                  | [] => []
                                  | (n, c') :: r => if eqt (fst q) n
                                                    then write c' (snd q) (fst q) (tx "   " ++ indent) else look r
                                  end) dyn) (o_extra o))
      ++ (if has nl txt then indent else []) ++ tx "</" ++ name ++ tx ">" ++ [nl]
    end
  end.

(* ---- reading ---- *)

Inductive err := BadAttr (a : text) | BadTag (t : text) | NoAttr (a : text) | NoField (f : text)
               | BadValue | BadOption.
Inductive res A := Ok (a : A) | Err (e : err).
Arguments Ok {A} a.
Arguments Err {A} e.

(* equality of values, for the membership in the options *)
Definition eqv (x y : val) : bool :=
  match x, y with
  | IntV a, IntV b => Z.eqb a b
  | StrV a, StrV b => eqt a b
  | BoolV a, BoolV b => Bool.eqb a b
  | _, _ => false
  end.

(* inputvalue.py 217-225, 1010-1026: check *)
Definition check (c : cls) (o : obj) : res unit :=
  if negb (o_explicit o || optional c) then Err BadValue
  else match c_opts c with
       | Some l => if existsb (eqv (val1 o)) l then Ok tt else Err BadOption
       | None => Ok tt
       end.

(* inputvalue.py 1003-1007: InputAttribute.fetch *)
Definition fetch_attr (c : cls) (o : obj) : res val :=
  match check c o with Ok _ => Ok (val1 o) | Err e => Err e end.

Definition attr_of (c : cls) (a : text) : cls :=
  match find a (c_attribs c) with Some c' => c' | None => Cls KAttr TStr None [] None [] [] [] end.

(* inputvalue.py 1117-1130: InputValue.fetch *)
Definition fetch_value (c : cls) (o : obj) : res (list val) :=
  match check c o with
  | Err e => Err e
  | Ok _ =>
    if eqt (c_dim c) undefined then Ok (vals o)
    else match fetch_attr (attr_of c (tx "units")) (get (tx "units") (o_attribs o)) with
         | Ok (StrV u) => Ok (map (to_internal (c_dim c) u) (vals o))
         | Ok _ => Err BadValue
         | Err e => Err e
         end
  end.

(* inputvalue.py 1250-1261: InputArray.fetch, the flat values and the shape
   that they are given *)
Definition fetch_array (c : cls) (o : obj) : res (list val * list Z) :=
  match fetch_value c o with
  | Err e => Err e
  | Ok l =>
    match fetch_attr (attr_of c (tx "shape")) (get (tx "shape") (o_attribs o)) with
    | Ok (TupV [0%Z]) => Ok ([], [0%Z])
    | Ok (TupV sh) => if (fold_right Z.mul 1 sh =? Z.of_nat (length l))%Z then Ok (l, sh) else Err BadValue
    | Ok _ => Err BadValue
    | Err e => Err e
    end
  end.

(* inputvalue.py 984-992 (InputAttribute.parse) and 1150-1160 with xml=None *)
Definition parse_attr (c : cls) (o : obj) (t : text) : res obj :=
  match rd (c_dtype c) t with
  | Some v => Ok (Obj (Some [v]) true (map (fun p => (fst p, set_default (attr_of c (fst p)) (snd p))) (o_attribs o))
                      (o_fields o) [])
  | None => Err BadValue
  end.

(* inputvalue.py 336-348: the attributes of the tag *)
Fixpoint parse_attrs (cs : list (text * cls)) (l : list (text * text)) (ats : list (text * obj))
  : res (list (text * obj)) :=
  match l with
  | [] => Ok ats
  | (a, v) :: r =>
    match find a cs with
    | Some c => match parse_attr c (get a ats) v with
                | Ok o => parse_attrs cs r (put a o ats)
                | Err e => Err e
                end
    | None => if eqt a (tx "_text") then parse_attrs cs r ats else Err (BadAttr a)
    end
  end.

(* inputvalue.py 367-390: mandatory attributes and fields *)
Fixpoint missing (cs : list (text * cls)) (os : list (text * obj)) : option text :=
  match cs with
  | [] => None
  | (a, c) :: r => if o_explicit (get a os) || optional c then missing r os else Some a
  end.

(* inputvalue.py 1296-1319: the value of an array *)
Definition finish_array (c : cls) (t : text) (ats : list (text * obj)) (fs ex : list (text * obj)) : res obj :=
  match fetch_attr (attr_of c (tx "mode")) (get (tx "mode") ats) with
  | Ok (StrV m) =>
    match (if eqt m (tx "manual") then rd_array (c_dtype c) t
           else if eqt m (tx "file") then loadtxt (c_dtype c) (strip blank t) else None) with
    | Some l =>
      match fetch_attr (attr_of c (tx "shape")) (get (tx "shape") ats) with
      | Ok sh =>
        let ats' := if match sh with TupV [0%Z] => true | _ => false end
                    then put (tx "shape") (store_attr (TupV [Z.of_nat (length l)]) (get (tx "shape") ats)) ats
                    else ats in
        Ok (Obj (Some l) true ats' fs ex)
      | Err e => Err e
      end
    | None => Err BadValue
    end
  | Ok _ => Err BadValue
  | Err e => Err e
  end.

Definition last_text (fs : list field) : text :=
  fold_left (fun acc f => match f with FText t => t | FNode _ => acc end) fs [].

(* inputvalue.py 306-390 (Input.parse), 1150-1160, 1296-1319 *)
Fixpoint parse (c : cls) (o : obj) (x : node) {struct c} : res obj :=
  match c with
  | Cls k d _ _ _ ats fs dyn =>
    let ats0 := map (fun p => (fst p, set_default (snd p) (get (fst p) (o_attribs o)))) ats in
    let fs0 := map (fun p => (fst p, set_default (snd p) (get (fst p) (o_fields o)))) fs in
    match parse_attrs ats (node_attribs x) ats0 with
    | Err e => Err e
    | Ok ats1 =>
      let loop := (fix loop (l : list field) (fs1 ex1 : list (text * obj)) : res (list (text * obj) * list (text * obj)) :=
        match l with
        | [] => Ok (fs1, ex1)
        | FText _ :: r => loop r fs1 ex1
        | FNode y :: r =>
          let f := node_name y in
          let extend := (fix look (dl : list (text * cls)) : res (list (text * obj) * list (text * obj)) :=
            match dl with
            | [] => Err (BadTag f)
            | (n, c') :: dl' =>
              if eqt f n then
                match parse c' (init c') y with
                | Ok o' => loop r fs1 (ex1 ++ [(f, o')])
                | Err e => Err e
                end
              else look dl'
            end) dyn in
          (fix look (fl : list (text * cls)) : res (list (text * obj) * list (text * obj)) :=
            match fl with
            | [] => if eqt f (tx "_text") then Err BadValue else extend
            | (n, c') :: fl' =>
              if eqt f n then
                match parse c' (get f fs1) y with
                | Ok o' => loop r (put f o' fs1) ex1
                | Err e => Err e
                end
              else look fl'
            end) fs
        end) in
      match loop (node_fields x) fs0 [] with
      | Err e => Err e
      | Ok (fs1, ex1) =>
        match missing ats ats1 with
        | Some a => Err (NoAttr a)
        | None =>
          match missing fs fs1 with
          | Some f => Err (NoField f)
          | None =>
            match k with
            | KNode => Ok (Obj (o_value o) true ats1 fs1 ex1)
            | KArray => finish_array c (last_text (node_fields x)) ats1 fs1 ex1
            | _ => match rd d (last_text (node_fields x)) with
                   | Some v => Ok (Obj (Some [v]) true ats1 fs1 ex1)
                   | None => Err BadValue
                   end
            end
          end
        end
      end
    end
  end.
End Inp.
Arguments Ok {A} a.
Arguments Err {A} e.
