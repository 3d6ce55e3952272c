(** Model of output files on disk: backups, checkpoints and names of files
    (ipi/utils/io/__init__.py:431-470, ipi/engine/outputs.py:93-140, 380-436,
    640-785, ipi/engine/simulation.py:256-290). *)
Require Import String Ascii List Arith Bool Decimal DecimalNat DecimalString.
Import ListNotations.
Open Scope string_scope.

(** A directory tree as a list of path names; one directory entry per name. *)
Inductive node := File (content : string) | Dir.
Definition fs := list (string * node).
Fixpoint lookup (d : fs) (n : string) : option node :=
  match d with [] => None | (m, x) :: d => if String.eqb m n then Some x else lookup d n end.
Definition del (d : fs) (n : string) : fs := filter (fun e => negb (String.eqb (fst e) n)) d.
Definition set (d : fs) (n : string) (x : node) : fs := (n, x) :: del d n.
(** os.path.isfile *)
Definition isfile (d : fs) (n : string) : bool := match lookup d n with Some (File _) => true | _ => false end.
(** part of the path before the last slash; None without a slash *)
Fixpoint parent (n : string) : option string :=
  match n with
  | EmptyString => None
  | String c r => match parent r with
                  | Some p => Some (String c p)
                  | None => if Ascii.eqb c "/" then Some EmptyString else None
                  end
  end.
(** a file can be put there *)
Definition place_ok (d : fs) (n : string) : bool :=
  match parent n with None => true | Some p => match lookup d p with Some Dir => true | _ => false end end &&
  match lookup d n with Some Dir => false | _ => true end.
(** os.rename of a file; None is an OSError *)
Definition rename (d : fs) (a b : string) : option fs :=
  match lookup d a with
  | Some x => if place_ok d b then Some (set (del d a) b x) else None
  | None => None
  end.
(** open(name, "w") *)
Definition open_w (d : fs) (n : string) : option fs := if place_ok d n then Some (set d n (File "")) else None.
(** data written through the handle *)
Definition put (d : fs) (n c : string) : fs := set d n (File c).

(** "%i" % i and "{0:0wd}".format(i) *)
Definition dec (i : nat) : string := NilEmpty.string_of_uint (Nat.to_uint i).
Fixpoint zeros (k : nat) (u : uint) : uint := match k with O => u | S k => D0 (zeros k u) end.
Definition pad (w i : nat) : string := NilEmpty.string_of_uint (zeros (w - nb_digits (Nat.to_uint i)) (Nat.to_uint i)).
(** io/__init__.py:453 *)
Definition bk (f : string) (i : nat) : string := "#" ++ f ++ "#" ++ dec i ++ "#".
(** the loop 450-454 *)
Fixpoint search (fuel : nat) (d : fs) (f cand : string) (i : nat) : option string :=
  if isfile d cand then match fuel with O => None | S k => search k d f (bk f i) (S i) end else Some cand.
(** the name of the backup, the name itself if there is nothing to save *)
Definition find_backup (d : fs) (f : string) : option string := search (S (List.length d)) d f f 0.
(** open_backup with mode "w" (446-470) *)
Definition open_backup (d : fs) (f : string) : option fs :=
  match find_backup d f with
  | None => None
  | Some cand => match (if String.eqb cand f then Some d else rename d f cand) with Some d => open_w d f | None => None end
  end.
(** Open a file and write its content. *)
Definition save (d : fs) (fc : string * string) : option fs :=
  match open_backup d (fst fc) with Some d => Some (put d (fst fc) (snd fc)) | None => None end.
Fixpoint saves (d : fs) (l : list (string * string)) : option fs :=
  match l with [] => Some d | x :: l => match save d x with Some d => saves d l | None => None end end.

(** Two processes opening the same file: the search, the renaming and the opening are separate actions. *)
Inductive proc := PSearch | PMove (cand : string) | POpen | PDone.
Definition pstep (f : string) (d : fs) (p : proc) : option (fs * proc) :=
  match p with
  | PSearch => match find_backup d f with None => None | Some cand => Some (d, if String.eqb cand f then POpen else PMove cand) end
  | PMove cand => match rename d f cand with Some d => Some (d, POpen) | None => None end
  | POpen => match open_w d f with Some d => Some (d, PDone) | None => None end
  | PDone => None
  end.
Fixpoint race (f : string) (d : fs) (p q : proc) (l : list bool) : option (fs * proc * proc) :=
  match l with
  | [] => Some (d, p, q)
  | b :: l => if b then match pstep f d p with Some (d, p) => race f d p q l | None => None end
              else match pstep f d q with Some (d, q) => race f d p q l | None => None end
  end.

(** *** Checkpoints *)
Record ckpt := mkck { cname : string; overwrite : bool; cstep : nat; continued : bool }.
(** name and function to open it (outputs.py:757-765) *)
Definition ck_file (k : ckpt) : string := if overwrite k then cname k else cname k ++ "_" ++ dec (cstep k).
Definition ck_open (k : ckpt) (d : fs) : option fs := if overwrite k && continued k then open_w d (ck_file k) else open_backup d (ck_file k).
Definition ck_next (k : ckpt) : ckpt := mkck (cname k) (overwrite k) (S (cstep k)) true.
(** CheckpointOutput.write that runs to its end (757-781) *)
Definition ck_write (k : ckpt) (d : fs) (c : string) : option (fs * ckpt) :=
  match ck_open k d with Some d => Some (put d (ck_file k) c, ck_next k) | None => None end.
Fixpoint ck_writes (k : ckpt) (d : fs) (l : list string) : option (fs * ckpt) :=
  match l with [] => Some (d, k) | c :: l => match ck_write k d c with Some (d, k) => ck_writes k d l | None => None end end.
(** What can be on disk when the process is killed during such a write: after the
    renaming, or after the opening with any prefix of the content written. *)
Inductive ck_killed (k : ckpt) (d : fs) (c : string) : fs -> Prop :=
| kill_before : ck_killed k d c d
| kill_renamed cand d' : overwrite k && continued k = false -> find_backup d (ck_file k) = Some cand -> cand <> ck_file k -> rename d (ck_file k) cand = Some d' -> ck_killed k d c d'
| kill_writing d' n : ck_open k d = Some d' -> ck_killed k d c (put d' (ck_file k) (substring 0 n c)).

(** *** Names of the output files *)
Inductive out := Props (f : string) | Traj (f fmt : string) (perbead extras : bool) (ibead : option nat) | Chk (f : string).
Definition oname (o : out) : string := match o with Props f => f | Traj f _ _ _ _ => f | Chk f => f end.
(** name of the copy for one system (simulation.py:266-284) *)
Definition with_prefix (pre f : string) : string := if String.eqb pre "" then f else pre ++ "." ++ f.
Definition with_sys (s f : string) : string := if String.eqb s "" then f else s ++ "_" ++ f.
(** 395-400; ase trajectories are written as extxyz *)
Definition suffix (fmt : string) (extras : bool) : string := if extras then "" else "." ++ (if String.eqb fmt "ase" then "extxyz" else fmt).
(** open_stream (outputs.py:126-132, 380-436): names opened by one output of a system with [nb] beads;
    the width [w] of the number is any function of the number of beads (the code computes
    it from a quotient of logarithms, 384-388).
    A negative bead number -1 prints all beads. *)
Definition bead_files (w nb : nat) (f sfx : string) (ibead : option nat) : list string :=
  map (fun b => f ++ "_" ++ pad w b ++ sfx) (filter (fun b => match ibead with None => true | Some j => Nat.eqb b j end) (seq 0 nb)).
Definition opened (w nb : nat) (f : string) (o : out) : list string :=
  match o with
  | Props _ | Chk _ => [f]
  | Traj _ fmt true ex ib => bead_files w nb f (suffix fmt ex) ib
  | Traj _ fmt false ex _ => [f ++ suffix fmt ex]
  end.
(** bind (simulation.py:256-290): None when the names of the templates are not unique *)
Definition sys_files (w : nat -> nat) (pre : string) (o : out) (s : string * nat) : list string := opened (w (snd s)) (snd s) (with_sys (fst s) (with_prefix pre (oname o))) o.
Definition out_files (w : nat -> nat) (pre : string) (systems : list (string * nat)) (o : out) : list string :=
  match o with
  | Chk f => [with_prefix pre f]
  | _ => flat_map (sys_files w pre o) systems
  end.
Fixpoint distinct (l : list string) : bool := match l with [] => true | x :: l => negb (existsb (String.eqb x) l) && distinct l end.
Definition all_files (w : nat -> nat) (pre : string) (systems : list (string * nat)) (outs : list out) : option (list string) :=
  if distinct (map oname outs) then Some (flat_map (out_files w pre systems) outs) else None.
