(* Model of composite motions.

   ipi/engine/motion/motion.py: Motion.__init__ 36-58, finish 60-67;
   ipi/engine/motion/multi.py: MultiMotion.__init__ 16-46, get_totdt 48-52,
   step 54-62.

   A motion is either a simple one or a list of motions (which may be lists
   again).  A simple motion is known by a number, its time step, the
   degrees of freedom it holds fixed and whether it holds the centre of
   mass; what it does in a step is a function of the step and of the world
   (everything outside the motions), which tells the new world and whether
   it called finish, with which status and message.  Time steps are reals.
   Whether each motion has finished, and how, is kept aside under its
   place in the tree (the path from the root), because a list keeps its own flag. *)
From Coq Require Import List Bool Arith Lia Reals String.
Import ListNotations.
Local Open Scope R_scope.

Definition status := string.
Definition exit := (option status * string)%type.   (* exit_status, exit_message *)

Record simple := Simple { number : nat; dt : R; fixed : list nat; com : bool }.

Inductive motion := One (s : simple) | Multi (l : list motion).

(* motion.py 63-64 *)
Definition known (s : status) : bool :=
  (String.eqb s "success" || String.eqb s "restartable" || String.eqb s "bad")%bool.

(* the members of set(a) & set(b), in some order *)
Definition inter (a b : list nat) : list nat := filter (fun x => existsb (Nat.eqb x) b) a.

(* __init__ 28-46 and get_totdt 48-52, for a tree; None is the IndexError of
   mlist[0] for an empty list *)
Fixpoint totdt (m : motion) : R :=
  match m with
  | One s => dt s
  | Multi l => fold_left Rplus (map totdt l) 0
  end.
Fixpoint allcom (m : motion) : bool :=
  match m with
  | One s => com s
  | Multi l => fold_left andb (map allcom l) true
  end.
Fixpoint allfixed (m : motion) : option (list nat) :=
  match m with
  | One s => Some (fixed s)
  | Multi l =>
      (fix go (acc : list nat) (xs : list motion) : option (list nat) :=
         match xs with
         | nil => Some acc
         | x :: xs => match allfixed x with Some f => go (inter acc f) xs | None => None end
         end)
        (match l with
         | x :: _ => match allfixed x with Some f => nodup Nat.eq_dec f | None => nil end
         | nil => nil
         end) l
  end.
(* no list in the tree is empty *)
Fixpoint nonempty (m : motion) : bool :=
  match m with
  | One _ => true
  | Multi nil => false
  | Multi l => forallb nonempty l
  end.
Definition fixed_of (m : motion) : option (list nat) := if nonempty m then allfixed m else None.

(* ---------------- step ---------------- *)

Section Step.
Variable W : Type.
Variable act : nat -> option nat -> W -> W * option exit.   (* a simple motion's step *)

(* finished / exit_status / exit_message of every node, by its path *)
Definition place := list nat.
Definition flags := place -> option exit.
Definition set (f : flags) (p : place) (e : exit) : flags :=
  fun q => if list_eq_dec Nat.eq_dec p q then Some e else f q.

(* finish 60-67: a status that is not known is an error *)
Definition finish (f : flags) (p : place) (e : exit) : option flags :=
  match fst e with
  | Some s => if known s then Some (set f p e) else None
  | None => None
  end.
(* m.exit_status or "success" (step 59); the empty string counts as false *)
Definition or_success (s : option status) : status :=
  match s with Some s => if String.eqb s "" then "success"%string else s | None => "success"%string end.

(* step: the trace lists the simple motions executed, last first *)
Definition run := (W * flags * list nat)%type.
Fixpoint step (m : motion) (p : place) (k : option nat) (r : run) : option run :=
  match m with
  | One s =>
      let '(w, f, t) := r in
      let (w', e) := act (number s) k w in
      match e with
      | Some e => match finish f p e with Some f' => Some (w', f', number s :: t) | None => None end
      | None => Some (w', f, number s :: t)
      end
  | Multi l =>
      (fix go (i : nat) (xs : list motion) (r : run) : option run :=
         match xs with
         | nil => Some r
         | x :: xs =>
             match step x (p ++ [i]) k r with
             | None => None
             | Some (w, f, t) =>
                 match f (p ++ [i]) with
                 | Some (s, msg) =>
                     match finish f p (Some (or_success s), msg) with
                     | Some f' => Some (w, f', t)
                     | None => None
                     end
                 | None => go (S i) xs (w, f, t)
                 end
             end
         end) 0%nat l r
  end.
End Step.
