(* Model of the pseudo-random number generator.

   ipi/utils/prng.py: Random.__init__ 43-74, get_state/set_state 76-91,
   u/g/gamma/... 93-173 (draws from the first stream), gfill_serial
   175-182, gfill_threaded 184-206, gvec 208-237; ipi/inputs/prng.py:
   store 70-81, fetch 83-98.

   A stream is what bit_generator.state returns; drawing one number is a
   function of it (numpy is not modelled).  Writing the state as json and
   reading it back is taken to be the identity.  An array is the list of
   its elements in memory order, and np.empty is whatever the memory held
   before. *)
From Coq Require Import List Arith Bool Lia.
Import ListNotations.

Section Prng.
Variable stream num : Type.
Variable normal : stream -> num * stream.       (* standard_normal() *)
Variable spawned : nat -> nat -> stream.        (* SeedSequence(seed).spawn(n)[i] as MT19937 *)

Record random := Random { rng : list stream; n_threads : nat }.

(* __init__ 43-74; [clock] is int(time.time() * 1000), used when no seed
   is given *)
Definition set_state (r : random) (value : list stream) : random :=
  (* zip: the shorter list decides *)
  Random (firstn (length (rng r)) value ++ skipn (length value) (rng r)) (n_threads r).
Definition get_state (r : random) : list stream := rng r.
Definition init (clock : nat) (seed : option nat) (state : option (list stream)) (n : nat) : random :=
  let s := match seed with Some s => s | None => clock end in
  let r := Random (map (spawned s) (seq 0 n)) n in
  match state with Some v => set_state r v | None => r end.

(* standard_normal(out=...): the elements in order *)
Fixpoint fill (s : stream) (out : list num) : stream * list num :=
  match out with
  | [] => (s, [])
  | _ :: rest => let (x, s1) := normal s in
                 let (s2, l) := fill s1 rest in (s2, x :: l)
  end.

(* a draw of one or several numbers from rng[0]: any function of the
   stream (93-173) *)
Definition draw0 {A} (f : stream -> A * stream) (r : random) : option (A * random) :=
  match rng r with
  | s :: rest => let (a, s') := f s in Some (a, Random (s' :: rest) (n_threads r))
  | [] => None
  end.

(* gfill_serial 175-182 *)
Definition gfill_serial (r : random) (out : list num) : option (random * list num) :=
  match rng r with
  | s :: rest => let (s', l) := fill s out in Some (Random (s' :: rest) (n_threads r), l)
  | [] => None
  end.

Definition min_step := 100.
(* np.ceil(len / n) *)
Definition step_size (len n : nat) : nat := (len + n - 1) / n.

Definition slice {A} (a b : nat) (l : list A) : list A := firstn (b - a) (skipn a l).

(* the streams after the threads of 197-206 are done; each thread works on
   its own stream and its own part of the copy, see PrngProps for the
   order *)
Fixpoint threads (sz i : nat) (streams : list stream) (flat : list num) : list stream * list num :=
  match streams with
  | [] => ([], [])
  | s :: rest => let (s', l) := fill s (slice (sz * i) (sz * (i + 1)) flat) in
                 let (ss, ls) := threads sz (S i) rest flat in (s' :: ss, l ++ ls)
  end.

(* gfill_threaded 184-206: out.flatten() is a copy, so the numbers never
   get into out *)
Definition gfill_threaded (r : random) (out : list num) : option (random * list num) :=
  let sz := step_size (length out) (n_threads r) in
  if sz <? min_step then gfill_serial r out
  else let (ss, _) := threads sz 0 (rng r) out in Some (Random ss (n_threads r), out).

(* gfill 64-71, gvec 208-237; [memory] is what np.empty finds *)
Definition gfill (r : random) (out : list num) : option (random * list num) :=
  if n_threads r =? 1 then gfill_serial r out else gfill_threaded r out.
Definition gvec (r : random) (memory : list num) : option (random * list num) := gfill r memory.

(* inputs/prng.py: what a checkpoint holds and what comes back; the seed
   is not handed over with a state, and the default seed is the clock *)
Record saved := Saved { s_state : list stream; s_threads : nat }.
Definition store (r : random) : saved := Saved (get_state r) (n_threads r).
Definition fetch (clock : nat) (c : saved) : random := init clock None (Some (s_state c)) (s_threads c).

(* a request to the generator *)
Inductive req := Draw (f : stream -> list num * stream) | Vec (memory : list num).
Definition serve (r : random) (q : req) : option (random * list num) :=
  match q with
  | Draw f => match draw0 f r with Some (a, r') => Some (r', a) | None => None end
  | Vec m => gvec r m
  end.
Fixpoint serve_all (r : random) (qs : list req) : option (random * list (list num)) :=
  match qs with
  | [] => Some (r, [])
  | q :: rest => match serve r q with
                 | Some (r', a) => match serve_all r' rest with
                                   | Some (r'', l) => Some (r'', a :: l)
                                   | None => None
                                   end
                 | None => None
                 end
  end.

(* one thread writing its next element; order of 197-206 *)
Record par := Par { arr : nat -> option num; ps : nat -> stream; pos : nat -> nat }.
Definition upd {A} (f : nat -> A) (k : nat) (a : A) : nat -> A := fun x => if x =? k then a else f x.
Definition part_end (sz len i : nat) : nat := min (sz * (i + 1)) len.
Definition tick (sz len : nat) (p : par) (i : nat) : par :=
  if sz * i + pos p i <? part_end sz len i then
    Par (upd (arr p) (sz * i + pos p i) (Some (fst (normal (ps p i)))))
        (upd (ps p) i (snd (normal (ps p i)))) (upd (pos p) i (S (pos p i)))
  else p.

End Prng.
