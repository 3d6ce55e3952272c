(* Model of the Monte Carlo exchange of atoms.

   ipi/engine/motion/alchemy.py: AXlist 71-80, step 82-157 (names and masses
   of two atoms are exchanged); ipi/engine/motion/atomswap.py: AXlist
   70-79, step 81-133 (positions of two atoms are exchanged).

   The state of an atom is its name, its mass, its momentum (the list of
   its components over all beads) and its path (positions over all beads).
   Energies are reals.  Random numbers are given: for every try the index
   i, the list of the indices drawn for j (the first one, and those of the
   while loop), and the uniform number u.  The potential is a function of
   the names and positions of all atoms, and the spring energy of an atom
   is its mass times a function of its path. *)
From Coq Require Import List Bool Arith Reals String.
Import ListNotations.
Local Open Scope R_scope.

Section Swap.
Variable Path : Type.

Record atom := Atom { name : string; mass : R; mom : list R; path : Path }.
Definition system := list atom.

Fixpoint upd (l : system) (i : nat) (f : atom -> atom) : system :=
  match l, i with
  | nil, _ => nil
  | a :: l, O => f a :: l
  | a :: l, Datatypes.S i => a :: upd l i f
  end.

Definition get {A} (d : A) (g : atom -> A) (l : system) (i : nat) : A :=
  match nth_error l i with Some a => g a | None => d end.
Definition name_at := get ""%string name.
Definition mass_at := get 0 mass.

(* AXlist: the atoms whose name is in the list *)
Definition ax (sel : list string) (l : system) : list nat :=
  filter (fun i => existsb (String.eqb (name_at l i)) sel) (seq 0 (List.length l)).

(* one try: i, the indices drawn for j in order, and u *)
Record try := Try { i_of : nat; js : list nat; u_of : R }.

(* while names[axlist[i]] == names[axlist[j]]: j = integers(0, lenlist); None:
   the loop has not been left after these draws *)
Fixpoint pick (l : system) (axl : list nat) (i : nat) (draws : list nat) : option nat :=
  match draws with
  | nil => None
  | j :: draws =>
      if String.eqb (name_at l (nth i axl O)) (name_at l (nth j axl O)) then pick l axl i draws else Some j
  end.

(* ---------------- alchemy ---------------- *)

Variable spr : Path -> R.           (* 100-109: the massless spring energy of an atom *)
Variable beta : R.                  (* betaP *)

Definition rename (n : string) (a : atom) := Atom n (mass a) (mom a) (path a).
Definition weigh (f : R -> R) (a : atom) := Atom (name a) (f (mass a)) (mom a) (path a).
Definition push (f : R -> R) (a : atom) := Atom (name a) (mass a) (map f (mom a)) (path a).

(* 97-112: computed once for all tries of a step *)
Variable none : Path.
Definition springs (axl : list nat) (l : system) : list R := map (fun k => spr (get none path l k)) axl.

(* 121-157; None: the while loop goes on *)
Definition alchemy_try (axl : list nat) (sprs : list R) (t : try) (s : system * R) : option (system * R) :=
  let (l, ealc) := s in
  match pick l axl (i_of t) (js t) with
  | None => None
  | Some j =>
      let i := i_of t in
      let a := nth i axl O in
      let b := nth j axl O in
      let dif := (nth i sprs 0 - nth j sprs 0) * (mass_at l b - mass_at l a) in
      if Rlt_dec (u_of t) (exp (- beta * dif)) then
        let na := name_at l a in
        let l := upd l a (rename (name_at l b)) in
        let l := upd l b (rename na) in
        let ratio := mass_at l a / mass_at l b in
        let l := upd l a (weigh (fun m => m / ratio)) in
        let l := upd l b (weigh (fun m => m * ratio)) in
        let l := upd l a (push (fun p => p / sqrt ratio)) in
        let l := upd l b (push (fun p => p * sqrt ratio)) in
        Some (l, ealc + - dif)
      else Some (l, ealc)
  end.

Fixpoint alchemy_tries (axl : list nat) (sprs : list R) (ts : list try) (s : system * R) : option (system * R) :=
  match ts with
  | nil => Some s
  | t :: ts => match alchemy_try axl sprs t s with Some s => alchemy_tries axl sprs ts s | None => None end
  end.
(* step 82-157: the number of tries is the length of the list.  None: an
   empty exchange list (ValueError), or a loop that goes on *)
Definition alchemy_step (sel : list string) (ts : list try) (s : system * R) : option (system * R) :=
  match ts with
  | nil => Some s
  | _ => match ax sel (fst s) with
         | nil => None
         | axl => alchemy_tries axl (springs axl (fst s)) ts s
         end
  end.

(* ---------------- atom swap ---------------- *)

Variable pot : list (string * Path) -> R.   (* forces.pot *)
Definition potential (l : system) : R := pot (map (fun a => (name a, path a)) l).
Definition move (q : Path) (a : atom) := Atom (name a) (mass a) (mom a) q.

(* 102-133 *)
Definition swap_try (axl : list nat) (t : try) (s : system * R) : option (system * R) :=
  let (l, ealc) := s in
  match pick l axl (i_of t) (js t) with
  | None => None
  | Some j =>
      let a := nth (i_of t) axl O in
      let b := nth j axl O in
      let old := potential l in
      let l' := upd l a (move (get none path l b)) in
      let l' := upd l' b (move (get none path l a)) in
      let new := potential l' in
      if Rlt_dec (u_of t) (exp (- beta * (new - old))) then Some (l', ealc + - (new - old)) else Some (l, ealc)
  end.
Fixpoint swap_tries (axl : list nat) (ts : list try) (s : system * R) : option (system * R) :=
  match ts with
  | nil => Some s
  | t :: ts => match swap_try axl t s with Some s => swap_tries axl ts s | None => None end
  end.
Definition swap_step (sel : list string) (ts : list try) (s : system * R) : option (system * R) :=
  match ts with
  | nil => Some s
  | _ => match ax sel (fst s) with nil => None | axl => swap_tries axl ts s end
  end.
End Swap.

Arguments Atom {Path}. Arguments name {Path}. Arguments mass {Path}. Arguments mom {Path}. Arguments path {Path}.
Arguments upd {Path}. Arguments get {Path A}. Arguments name_at {Path}. Arguments mass_at {Path}.
Arguments ax {Path}. Arguments pick {Path}. Arguments springs {Path}.
