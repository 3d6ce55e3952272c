(** * Model of the levels of messages and of the identification of a run

    ipi/utils/messages.py; the restart of the level in ipi/inputs/simulation.py; the comment at the head of
    checkpoint files in ipi/engine/outputs.py.  Texts are lists of characters.  Line ends other than the newline
    are not told apart by splitlines here. *)
From Coq Require Import String Ascii List Arith Bool Lia.
From Verif Require Import TextLib.
Import ListNotations.
Open Scope list_scope.

(** ** Levels *)
(** lines 24-29 and the comparisons of lines 84-95 *)
Definition level_of (name : text) : option nat :=
  if eqt name (tx "quiet") then Some 0 else if eqt name (tx "low") then Some 1 else if eqt name (tx "medium") then Some 2
  else if eqt name (tx "high") then Some 3 else if eqt name (tx "debug") then Some 4 else if eqt name (tx "trace") then Some 5 else None.
Record verb := Verb { lock : bool; level : nat }.
(** lines 39-40 *)
Definition verb0 : verb := Verb false 1.
(** __setattr__, lines 69-103: None stands for ValueError. *)
Definition set_level (v : verb) (name : text) : option verb :=
  if lock v then Some v else match level_of name with Some l => Some (Verb (lock v) l) | None => None end.
Definition set_lock (v : verb) (b : bool) : verb := Verb b (level v).
(** __getattr__, lines 42-67: None stands for AttributeError. *)
Definition shows (v : verb) (name : text) : option bool :=
  match level_of name with Some l => Some (l <=? level v) | None => None end.
(** InputSimulation.store, ipi/inputs/simulation.py 229-242. *)
Definition stored_level (v : verb) : text :=
  if 4 <=? level v then tx "debug" else if 3 <=? level v then tx "high" else if 2 <=? level v then tx "medium"
  else if 1 <=? level v then tx "low" else tx "quiet".

(** ** Where the code comes from *)
(** A file: its text, missing, or one that cannot be read as a text. *)
Inductive file := File (t : text) | Missing | Unreadable.
(** read_git_file, lines 130-136: None stands for an error, Some None for the value None. *)
Definition read_git_file (f : file) : option (option text) :=
  match f with File t => Some (Some (strip blank t)) | Missing => Some None | Unreadable => None end.
(** os.path.basename *)
Definition basename (p : text) : text := last (split_on "/" p) [].
Definition unknown : text := tx "unknown".
(** lines 147-158: branch and commit.  The commit may be None.  [ref] are the files below the directory .git. *)
Definition head_info (ref : text -> file) (head : text) : text * option text :=
  match pre (tx "ref:") head with
  | Some _ =>
    match nth_error (split_on " " head) 1 with
    | None => (unknown, Some unknown)
    | Some r => match read_git_file (ref r) with None => (basename r, Some unknown) | Some c => (basename r, c) end
    end
  | None => (tx "DETACHED", Some head)
  end.
(** lines 160-172: the address. *)
Fixpoint remote (lines : list text) : text :=
  match lines with
  | [] => unknown
  | l :: rest => match pre (tx "url =") (strip blank l) with
                 | Some _ => strip blank (nth 1 (split_on "=" l) [])
                 | None => remote rest
                 end
  end.
Definition remote_url (config : file) : text := match config with File t => remote (split_on nl t) | _ => unknown end.
Record git := Git { version : text; branch : text; commit : option text; url : text }.
(** get_git_info, lines 109-181: the outer None stands for an error, the inner one for the value None. *)
Definition git_info (vers : text) (isdir : bool) (ref : text -> file) : option (option git) :=
  if negb isdir then Some None
  else match read_git_file (ref (tx "HEAD")) with
       | None => None
       | Some None => Some None
       | Some (Some []) => Some None
       | Some (Some head) => let '(b, c) := head_info ref head in Some (Some (Git vers b c (remote_url (ref (tx "config")))))
       end.
(** f"{x:<24}" *)
Definition pad (x : text) : text := x ++ repeat " "%char (24 - List.length x).
(** get_identification_info, lines 217-268; None: the value None cannot be formatted with a width (TypeError). *)
Definition git_lines (g : option git) : option text :=
  match g with
  | None => Some (tx "# Unable to retrieve Git information." ++ [nl])
  | Some g =>
    match commit g with
    | None => None
    | Some c => Some (tx "# Git information:" ++ [nl] ++ tx "#    i-PI version: " ++ version g ++ [nl] ++ tx "#      Remote URL: " ++ pad (url g) ++ [nl]
                      ++ tx "#          Branch: " ++ pad (branch g) ++ [nl] ++ tx "#     Last Commit: " ++ pad c ++ [nl])
    end
  end.
Definition system_lines (machine dir date : text) : text :=
  tx "# Simulation information:" ++ [nl] ++ tx "#           Machine Name: " ++ machine ++ [nl] ++ tx "#      Working Directory: " ++ dir ++ [nl]
  ++ tx "#          Date and Time: " ++ date ++ [nl].
Definition identification (g : option git) (machine dir date : text) : option text :=
  match git_lines g with None => None | Some t => Some (t ++ tx "#" ++ [nl] ++ system_lines machine dir date) end.
(** get_identification_info_xml, ipi/engine/outputs.py 38-72: the text between the marks of the comment. *)
Definition splitlines (t : text) : list text := let l := split_on nl t in match last l [nl] with [] => removelast l | _ => l end.
Definition comment_body (info : text) : text :=
  [nl] ++ join [nl] (map (filter (fun a => negb (Ascii.eqb a "#"))) (splitlines info)) ++ [nl].
