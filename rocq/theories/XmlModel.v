(* Model of the XML trees that input and checkpoint files are read into.

   ipi/utils/io/inputs/io_xml.py: xml_node 41-72, xml_handler 75-167,
   xml_parse_string 170-182, xml_write 200-252, xml_edit 255-286.

   Texts are lists of 8-bit characters.  The parser of the standard library
   (xml.sax, expat) is not part of the repository: [reader] below states what
   is assumed of it, for documents made of elements, attributes, character
   data and references to the five predefined entities.  Comments, CDATA
   sections, processing instructions, document types, numeric references and
   carriage returns are left out: the reader refuses them. *)
From Coq Require Import String Ascii List Arith Bool.
From Verif Require Import TextLib.
Import ListNotations.
Local Open Scope list_scope.
Local Open Scope nat_scope.

(* io_xml.py 41-72: a node has a name, attributes and a list of fields.  The
   fields are pairs of a key and a value: the key is "_text" for text and the
   name of the node otherwise. *)
Inductive node := Node (name : text) (attribs : list (text * text)) (fields : list field)
with field := FText (t : text) | FNode (n : node).

Definition node_name (n : node) := let 'Node nm _ _ := n in nm.
Definition node_attribs (n : node) := let 'Node _ ats _ := n in ats.
Definition node_fields (n : node) := let 'Node _ _ fs := n in fs.

(* the calls that the parser makes *)
Inductive event :=
| Start (name : text) (attrs : list (text * text))
| Chars (data : text)
| End (name : text).

(* io_xml.py 92-107: one entry of self.open with its entry of self.buffer.
   The code appends a node to the fields of its parent when the node is
   opened and fills it later; the model appends it when it is closed, which
   gives the same list since nothing else is appended in between. *)
Record frame := mkframe {
  fr_name : text;
  fr_attrs : list (text * text);
  fr_fields : list field;
  fr_buf : list text
}.

(* innermost first *)
Definition handler := list frame.
Definition handler0 : handler := [mkframe (tx "root") [] [] [[]]].

(* io_xml.py 109-133, 135-146, 148-167 *)
Definition handle (st : handler) (e : event) : handler :=
  match e with
  | Start nm ats => mkframe nm ats [] [[]] :: st
  | Chars d =>
    match st with
    | f :: r => mkframe (fr_name f) (fr_attrs f) (fr_fields f) (fr_buf f ++ [d]) :: r
    | [] => []
    end
  | End _ =>
    match st with
    | f :: p :: r =>
      let n := Node (fr_name f) (fr_attrs f) (fr_fields f ++ [FText (concat (fr_buf f))]) in
      mkframe (fr_name p) (fr_attrs p) (fr_fields p ++ [FNode n]) (fr_buf p) :: r
    | _ => st
    end
  end.

Definition handle_all (evs : list event) (st : handler) : handler := fold_left handle evs st.

(* myhandle.root *)
Definition root_of (st : handler) : node :=
  match rev st with
  | f :: _ => Node (fr_name f) (fr_attrs f) (fr_fields f)
  | [] => Node [] [] []
  end.

(* ---- the parser of the standard library ---- *)

Definition lt := "<"%char.
Definition gt := ">"%char.
Definition amp := "&"%char.
Definition quote := "'"%char.
Definition dquote := """"%char.
Definition slash := "/"%char.
Definition equal := "="%char.

(* the characters of a name: letters, digits and . - _ : *)
Definition letter (a : ascii) : bool :=
  let n := nat_of_ascii a in
  ((65 <=? n) && (n <=? 90)) || ((97 <=? n) && (n <=? 122)) || (n =? 95) || (n =? 58) || (128 <=? n).
Definition namechar (a : ascii) : bool :=
  let n := nat_of_ascii a in letter a || ((48 <=? n) && (n <=? 57)) || (n =? 45) || (n =? 46).

(* white space of XML *)
Definition white (a : ascii) : bool := among (" "%char :: nl :: tab :: []) a.

(* references to entities *)
Fixpoint decode (fuel : nat) (l : text) : option text :=
  match fuel with
  | O => match l with [] => Some [] | _ => None end
  | S k =>
    match l with
    | [] => Some []
    | a :: r =>
      if Ascii.eqb a amp then
        match pre (tx "lt;") r with Some r' => option_map (cons lt) (decode k r') | None =>
        match pre (tx "gt;") r with Some r' => option_map (cons gt) (decode k r') | None =>
        match pre (tx "amp;") r with Some r' => option_map (cons amp) (decode k r') | None =>
        match pre (tx "apos;") r with Some r' => option_map (cons quote) (decode k r') | None =>
        match pre (tx "quot;") r with Some r' => option_map (cons dquote) (decode k r') | None =>
        None end end end end end
      else option_map (cons a) (decode k r)
    end
  end.

(* white space in the value of an attribute becomes blanks *)
Definition flat (l : text) : text := map (fun a => if white a then " "%char else a) l.

Inductive mode :=
| MText (acc : text)
| MOpen
| MName (acc : text)
| MAttrs (nm : text) (ats : list (text * text)) (sep : bool)
| MAttr (nm : text) (ats : list (text * text)) (acc : text)
| MQuote (nm : text) (ats : list (text * text)) (a : text)
| MVal (nm : text) (ats : list (text * text)) (a : text) (q : ascii) (acc : text)
| MSlash (nm : text) (ats : list (text * text))
| MClose (acc : text)
| MAfter (acc : text)
| MErr.

(* what is being read, the names of the elements that are open, whether the
   document element has been seen, and the calls made so far *)
Record reader := mkreader { rd_mode : mode; rd_open : list text; rd_seen : bool; rd_evs : list event }.

Definition reader0 := mkreader (MText []) [] false [].

Definition rerr (r : reader) := mkreader MErr (rd_open r) (rd_seen r) (rd_evs r).
Definition rgo (r : reader) (m : mode) := mkreader m (rd_open r) (rd_seen r) (rd_evs r).

(* the end of a run of character data: outside the document element it must
   be white *)
Definition flush (acc : text) (r : reader) : option reader :=
  match rd_open r with
  | [] => if forallb white acc then Some r else None
  | _ => match decode (length acc) acc with
         | Some t => Some (mkreader (rd_mode r) (rd_open r) (rd_seen r) (rd_evs r ++ [Chars t]))
         | None => None
         end
  end.

Definition known (a : text) (ats : list (text * text)) : bool := existsb (fun p => eqt (fst p) a) ats.

(* a start tag is complete *)
Definition opened (nm : text) (ats : list (text * text)) (r : reader) : reader :=
  if match rd_open r with [] => rd_seen r | _ => false end then rerr r
  else mkreader (MText []) (nm :: rd_open r) true (rd_evs r ++ [Start nm ats]).

Definition closed (nm : text) (r : reader) : reader :=
  match rd_open r with
  | o :: rest => if eqt o nm then mkreader (MText []) rest (rd_seen r) (rd_evs r ++ [End nm]) else rerr r
  | [] => rerr r
  end.

Definition read1 (r : reader) (c : ascii) : reader :=
  match rd_mode r with
  | MErr => r
  | MText acc =>
    if Ascii.eqb c lt then
      match flush acc r with Some r' => rgo r' MOpen | None => rerr r end
    else rgo r (MText (acc ++ [c]))
  | MOpen =>
    if Ascii.eqb c slash then rgo r (MClose [])
    else if letter c then rgo r (MName [c]) else rerr r
  | MName acc =>
    if namechar c then rgo r (MName (acc ++ [c]))
    else if white c then rgo r (MAttrs acc [] true)
    else if Ascii.eqb c gt then opened acc [] r
    else if Ascii.eqb c slash then rgo r (MSlash acc [])
    else rerr r
  | MAttrs nm ats sep =>
    if white c then rgo r (MAttrs nm ats true)
    else if Ascii.eqb c gt then opened nm ats r
    else if Ascii.eqb c slash then rgo r (MSlash nm ats)
    else if sep && letter c then rgo r (MAttr nm ats [c])
    else rerr r
  | MAttr nm ats acc =>
    if namechar c then rgo r (MAttr nm ats (acc ++ [c]))
    else if Ascii.eqb c equal then rgo r (MQuote nm ats acc)
    else rerr r
  | MQuote nm ats a =>
    if Ascii.eqb c quote || Ascii.eqb c dquote then rgo r (MVal nm ats a c []) else rerr r
  | MVal nm ats a q acc =>
    if Ascii.eqb c q then
      match decode (length acc) (flat acc) with
      | Some v => if known a ats then rerr r else rgo r (MAttrs nm (ats ++ [(a, v)]) false)
      | None => rerr r
      end
    else if Ascii.eqb c lt then rerr r
    else rgo r (MVal nm ats a q (acc ++ [c]))
  | MSlash nm ats => if Ascii.eqb c gt then closed nm (opened nm ats r) else rerr r
  | MClose acc =>
    if namechar c then rgo r (MClose (acc ++ [c]))
    else if white c then rgo r (MAfter acc)
    else if Ascii.eqb c gt then closed acc r else rerr r
  | MAfter acc =>
    if white c then r else if Ascii.eqb c gt then closed acc r else rerr r
  end.

Definition read_all (l : text) (r : reader) : reader := fold_left read1 l r.

(* the calls that a document leads to, or None if it is refused *)
Definition events_of (l : text) : option (list event) :=
  let r := read_all l reader0 in
  match rd_mode r, rd_open r, rd_seen r with
  | MText acc, [], true => if forallb white acc then Some (rd_evs r) else None
  | _, _, _ => None
  end.

(* io_xml.py 170-182, 185-197 *)
Definition xml_parse_string (buf : text) : option node :=
  option_map (fun evs => root_of (handle_all evs handler0)) (events_of buf).

(* io_xml.py 200-252.  With an empty name only the fields are written. *)
Definition attr_texts (ats : list (text * text)) : text :=
  concat (map (fun p => tx " " ++ fst p ++ tx "='" ++ snd p ++ tx "'") ats).

Fixpoint xml_write (x : node) (name indent txt : text) {struct x} : text :=
  let 'Node _ ats fs := x in
  let named := negb (eqt name []) in
  let body := (fix go (fs : list field) : text * bool :=
    match fs with
    | [] => ([], false)
    | FText v :: r => let '(b, i) := go r in (strip blank v ++ b, negb (eqt (strip blank v) []) || i)
    | FNode v :: r => let '(b, i) := go r in
                      ([nl] ++ xml_write v (node_name v) (tx "  " ++ indent) [nl] ++ b, i)
    end) fs in
  (if named then indent ++ tx "<" ++ name ++ attr_texts ats ++ tx ">" else [])
  ++ strip blank txt ++ fst body
  ++ (if named then
        if snd body then tx "</" ++ name ++ tx ">" else [nl] ++ indent ++ tx "</" ++ name ++ tx ">"
      else []).

(* io_xml.py 255-286.  The edited tree and the number of edits; None for an
   invalid mode that is reached.  path is not empty.  The list is edited in
   place from the end, and an edit at one index does not move the entries
   that come later in the loop. *)
Inductive edit := EAdd | ERemove | EReplace | EOther.

Fixpoint xml_edit (root : node) (path : list text) (nd : node) (full : bool) (how : edit) {struct root}
  : option (node * nat) :=
  let 'Node nm ats fs := root in
  let go := (fix go (fs : list field) : option (list field * nat) :=
    match fs with
    | [] => Some ([], 0)
    | f :: r =>
      match go r with
      | None => None
      | Some (r', k) =>
        match f with
        | FText _ => Some (f :: r', k)
        | FNode x =>
          match path with
          | [] => None
          | p :: ps =>
            if eqt (node_name x) p then
              match ps with
              | [] =>
                match how with
                | EAdd => let 'Node xn xa xf := x in Some (FNode (Node xn xa (xf ++ [FNode nd])) :: r', S k)
                | ERemove => Some (r', S k)
                | EReplace => Some (FNode nd :: r', S k)
                | EOther => None
                end
              | _ => match xml_edit x ps nd full how with
                     | Some (x', j) => Some (FNode x' :: r', j + k)
                     | None => None
                     end
              end
            else if negb full then
              match xml_edit x path nd full how with
              | Some (x', j) => Some (FNode x' :: r', j + k)
              | None => None
              end
            else Some (f :: r', k)
          end
        end
      end
    end) in
  match go fs with Some (fs', k) => Some (Node nm ats fs', k) | None => None end.
