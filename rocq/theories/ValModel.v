(* Model of the reading and writing of input values and output keys.

   ipi/utils/io/inputs/io_xml.py: read_bool 333-354, read_list 357-397,
   read_tuple 425-450, read_dict 453-488, write_list 523-546,
   write_tuple 549-563, write_bool 584-597, write_dict 600-621.
   ipi/utils/io/inputs/__init__.py: read_value 13-25.
   ipi/engine/properties.py: getkey 23-40, getall 43-87.

   Texts are lists of 8-bit characters.  Integers are read as an optional
   sign and digits; the underscores and the plus sign that int() also
   accepts are left out.  Whether a text is the text of a float is a
   parameter. *)
From Coq Require Import String Ascii List Arith Bool ZArith DecimalString.
From Verif Require Import TextLib.
Import ListNotations.
Local Open Scope string_scope.
Local Open Scope list_scope.

(* str.index / str.find of one character *)
Fixpoint index (c : ascii) (l : text) : option nat :=
  match l with
  | [] => None
  | a :: r => if Ascii.eqb c a then Some O else option_map S (index c r)
  end.

(* s[a:b] for indices that are not negative *)
Definition slice (a b : nat) (l : text) : text := firstn (b - a) (skipn a l).

(* io_xml.py 357-397 *)
Definition read_list (d0 d1 sep : ascii) (set : ascii -> bool) (data : text) : option (list text) :=
  match index d0 data, index d1 data with
  | Some b, Some e =>
    let rlist := map (strip set) (split_on sep (slice (S b) e data)) in
    Some (if (length rlist =? 1)%nat && eqt (hd [] rlist) [] then [] else rlist)
  | _, _ => None
  end.

(* strip=" \n\t'" and strip=" \n\t" *)
Definition set_list : ascii -> bool := among (" "%char :: nl :: tab :: "'"%char :: []).
Definition set_dict : ascii -> bool := among (" "%char :: nl :: tab :: []).
Definition comma_blank : ascii -> bool := among (tx ", ").

(* io_xml.py 523-546 *)
Definition write_list (d0 d1 : ascii) (data : list text) : text :=
  rstrip comma_blank (d0 :: concat (map (fun v => v ++ tx ", ") data)) ++ [d1].

(* str(z) and int(s) *)
Definition show_z (z : Z) : text := tx (NilZero.string_of_int (Z.to_int z)).
Definition read_int (s : text) : option Z :=
  option_map Z.of_int (NilZero.int_of_string (string_of_list_ascii (strip blank s))).

(* io_xml.py 549-563 and 425-450 with arg_type=int *)
Definition write_tuple (data : list Z) : text := write_list "(" ")" (map show_z data).

Fixpoint all_some {A} (l : list (option A)) : option (list A) :=
  match l with
  | [] => Some []
  | Some a :: r => option_map (cons a) (all_some r)
  | None :: _ => None
  end.

Definition read_tuple (data : text) : option (list Z) :=
  match read_list "(" ")" "," set_list data with
  | Some l => all_some (map read_int l)
  | None => None
  end.

(* io_xml.py 584-597: "%5.5s" % str(b) *)
Definition write_bool (b : bool) : text := if b then tx " True" else tx "False".

(* io_xml.py 333-354 *)
Definition read_bool (data : text) : option bool :=
  let d := upper (strip blank data) in
  if eqt d (tx "TRUE") then Some true
  else if eqt d (tx "FALSE") then Some false else None.

(* the values of a dictionary *)
Inductive value := VInt (z : Z) | VFloat (t : text) | VBool (b : bool) | VStr (t : text).

Definition show (v : value) : text :=
  match v with
  | VInt z => show_z z
  | VFloat t => t
  | VBool b => if b then tx "True" else tx "False"
  | VStr t => t
  end.

Section Float.
(* texts that float() accepts *)
Variable is_float : text -> bool.

(* inputs/__init__.py 13-25 *)
Definition read_value (s : text) : value :=
  let s := strip blank s in
  match read_int s with
  | Some z => VInt z
  | None => if is_float s then VFloat s
            else if eqt (lower s) (tx "false") then VBool false
            else if eqt (lower s) (tx "true") then VBool true
            else VStr s
  end.

(* rdict[k] = v, keeping the place of a key that is there already *)
Fixpoint set_key {A} (k : text) (v : A) (d : list (text * A)) : list (text * A) :=
  match d with
  | [] => [(k, v)]
  | (k', v') :: r => if eqt k k' then (k, v) :: r else (k', v') :: set_key k v r
  end.

(* io_xml.py 480-488 *)
Fixpoint read_items (l : list text) (d : list (text * value)) : option (list (text * value)) :=
  match l with
  | [] => Some d
  | s :: r => match cut ":" s with
              | Some (k, v) => read_items r (set_key (strip set_dict k) (read_value (strip set_dict v)) d)
              | None => None
              end
  end.

(* io_xml.py 453-488 *)
Definition read_dict (data : text) : option (list (text * value)) :=
  match read_list "{" "}" "," set_dict data with
  | Some l => read_items l []
  | None => None
  end.
End Float.

(* io_xml.py 600-621 *)
Definition write_dict (data : list (text * value)) : text :=
  strip comma_blank
    ("{"%char :: concat (map (fun kv => fst kv ++ tx ": " ++ show (snd kv) ++ tx ", ") data)) ++ tx "}".

(* ---------------- output keys ---------------- *)

Definition len := @length ascii.

(* properties.py 23-40 *)
Definition getkey (s : text) : text :=
  let pa := match index "(" s with Some i => i | None => len s end in
  let pu := match index "{" s with Some i => i | None => len s end in
  strip blank (firstn (min pa pu) s).

(* s.find(c, a) for an a that is not negative *)
Definition find_from (c : ascii) (a : nat) (s : text) : option nat :=
  option_map (fun i => a + i)%nat (index c (skipn a s)).

(* the keyword arguments: properties.py 77-82 *)
Fixpoint split_args (todo args : list text) (kw : list (text * text)) : list text * list (text * text) :=
  match todo with
  | [] => (args, kw)
  | a :: r => match cut "=" a with
              | Some (k, v) => split_args r (filter (fun x => negb (eqt x a)) args)
                                 (set_key (strip blank k) (strip blank v) kw)
              | None => split_args r args kw
              end
  end.

(* properties.py 60-66: the unit and the place where it starts; a place
   that is -1 is None and stands for the last character *)
Definition get_unit (s : text) : option (text * option nat) :=
  if has "}" s then
    match index "{" s with
    | Some st => match find_from "}" st s with
                 | Some e => Some (slice (S st) e s, Some st)
                 | None => None
                 end
    | None => (* find("}", -1) looks at the last character only; the unit
                 is s[0:len-1] *)
      match rev s with
      | c :: _ => if Ascii.eqb "}" c then Some (firstn (len s - 1) s, None) else None
      | [] => None
      end
    end
  else Some ([], Some (len s)).

(* properties.py 43-87; None is a ValueError *)
Definition getall (s : text) : option (text * text * list text * list (text * text)) :=
  match get_unit s with
  | None => None
  | Some (unit, unstart) =>
    match (if has "(" s then
             match index "(" s with
             | Some st =>
               match find_from ")" st s with
               | Some e =>
                 match read_list "(" ")" ";" set_list (slice st (S e) s) with
                 | Some l => Some (split_args l l [], st)
                 | None => None
                 end
               | None => None
               end
             | None => None
             end
           else Some (([], []), len s)) with
    | None => None
    | Some ((args, kw), argstart) =>
      let stop := match unstart with
                  | Some u => min u argstart
                  | None => len s - 1   (* s[0:-1] *)
                  end in
      Some (strip blank (firstn stop s), unit, args, kw)
    end
  end.
