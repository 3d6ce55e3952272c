(** * Energies from threads and the cache (al6xxx_kmc.py 322-357, 425-441, 519-608)

    The main thread goes through the events; for each it looks whether the state is in the cache,
    and takes the energy from there or starts a thread on a free evaluator. Threads and main
    thread may be interleaved in any way between the operations below. The lock makes an
    operation of the bookkeeping of a thread (334-345) one operation here; the main thread looks into
    the cache and reads from it without the lock, in two operations. The two caches of energies and
    positions are changed together under the lock, and are one here. *)
From Coq Require Import List Arith Bool Lia.
Import ListNotations.

Section Threads.
Context {Key Conf Val : Type}.
Variable key_eq : forall a b : Key, {a = b} + {a <> b}.
(** Where an optimisation starts from for a state, and what it makes of positions. *)
Variable start : Key -> Conf.
Variable geop : Conf -> Val * Conf.
Variable neval maxlen : nat.

(** ** OrderedDict, oldest entry first *)
Definition cache := list (Key * Val).
Fixpoint lookup (k : Key) (c : cache) : option Val :=
  match c with [] => None | (k', v) :: r => if key_eq k k' then Some v else lookup k r end.
Fixpoint store (k : Key) (v : Val) (c : cache) : cache :=
  match c with [] => [(k, v)] | (k', v') :: r => if key_eq k k' then (k, v) :: r else (k', v') :: store k v r end.
(** 334-341: store, then drop the oldest entry if the count has reached the limit. The entry is read
    back (342): [None] is a KeyError. *)
Definition commit (k : Key) (v : Val) (c : cache) (n : nat) : cache * nat * option Val :=
  let c1 := store k v c in
  let '(c2, n2) := if Nat.eqb n maxlen then (tl c1, n) else (c1, S n) in
  (c2, n2, lookup k c2).

Inductive phase := Running | Committed | Freed | Dead | Crashed.
Record worker : Type := Worker { ev : nat; job : nat; wkey : Key; ph : phase }.
(** Where the main thread is; an event is its place in the list and its state. *)
Inductive mode :=
| Next                              (* top of the loop over events *)
| Hit (i : nat) (k : Key)           (* found in the cache, not yet read *)
| Seek (i : nat) (k : Key)          (* in find_eval, 425-441 *)
| Load (i : nat) (k : Key) (e : nat) (* evaluator taken, positions not yet set *)
| Launch (i : nat) (k : Key) (e : nat) (* positions set, thread not yet started *)
| Wait | Done | Error.
Record state : Type := State
  { todo : list (nat * Key); md : mode; ca : cache; nc : nat; feval : nat -> bool; buf : nat -> Conf;
    ws : list worker; eth : nat -> option nat; res : nat -> option Val }.
Definition upd {A} (f : nat -> A) (k : nat) (v : A) : nat -> A := fun i => if Nat.eqb i k then v else f i.
Definition set_ph (w : worker) (p : phase) : worker := Worker (ev w) (job w) (wkey w) p.
Fixpoint set_nth {A} (l : list A) (n : nat) (x : A) : list A :=
  match l, n with [], _ => [] | _ :: r, O => x :: r | a :: r, S n => a :: set_nth r n x end.
Definition alive (p : phase) : bool := match p with Dead | Crashed => false | _ => true end.

Inductive op (s : state) : state -> Prop :=
| op_hit i k r v : md s = Next -> todo s = (i, k) :: r -> lookup k (ca s) = Some v ->
    op s (State r (Hit i k) (ca s) (nc s) (feval s) (buf s) (ws s) (eth s) (res s))
| op_miss i k r : md s = Next -> todo s = (i, k) :: r -> lookup k (ca s) = None ->
    op s (State r (Seek i k) (ca s) (nc s) (feval s) (buf s) (ws s) (eth s) (res s))
| op_get i k v : md s = Hit i k -> lookup k (ca s) = Some v ->
    op s (State (todo s) Next (ca s) (nc s) (feval s) (buf s) (ws s) (eth s) (upd (res s) i (Some v)))
| op_keyerror i k : md s = Hit i k -> lookup k (ca s) = None ->
    op s (State (todo s) Error (ca s) (nc s) (feval s) (buf s) (ws s) (eth s) (res s))
| op_claim i k e : md s = Seek i k -> e < neval -> feval s e = true -> (forall e', e' < e -> feval s e' = false) ->
    op s (State (todo s) (Load i k e) (ca s) (nc s) (upd (feval s) e false) (buf s) (ws s) (eth s) (res s))
| op_load i k e : md s = Load i k e ->
    op s (State (todo s) (Launch i k e) (ca s) (nc s) (feval s) (upd (buf s) e (start k)) (ws s) (eth s) (res s))
| op_launch i k e : md s = Launch i k e ->
    op s (State (todo s) Next (ca s) (nc s) (feval s) (buf s) (ws s ++ [Worker e i k Running]) (upd (eth s) e (Some (length (ws s)))) (res s))
| op_commit n w c' n' v : nth_error (ws s) n = Some w -> ph w = Running ->
    commit (wkey w) (fst (geop (buf s (ev w)))) (ca s) (nc s) = (c', n', Some v) ->
    op s (State (todo s) (md s) c' n' (feval s) (upd (buf s) (ev w) (snd (geop (buf s (ev w))))) (set_nth (ws s) n (set_ph w Committed)) (eth s) (upd (res s) (job w) (Some v)))
| op_crash n w c' n' : nth_error (ws s) n = Some w -> ph w = Running ->
    commit (wkey w) (fst (geop (buf s (ev w)))) (ca s) (nc s) = (c', n', None) ->
    op s (State (todo s) (md s) c' n' (feval s) (upd (buf s) (ev w) (snd (geop (buf s (ev w))))) (set_nth (ws s) n (set_ph w Crashed)) (eth s) (res s))
| op_free n w : nth_error (ws s) n = Some w -> ph w = Committed ->
    op s (State (todo s) (md s) (ca s) (nc s) (upd (feval s) (ev w) true) (buf s) (set_nth (ws s) n (set_ph w Freed)) (eth s) (res s))
| op_exit n w : nth_error (ws s) n = Some w -> ph w = Freed ->
    op s (State (todo s) (md s) (ca s) (nc s) (feval s) (buf s) (set_nth (ws s) n (set_ph w Dead)) (eth s) (res s))
| op_wait : md s = Next -> todo s = [] ->
    op s (State [] Wait (ca s) (nc s) (feval s) (buf s) (ws s) (eth s) (res s))
| op_done : md s = Wait -> (forall e n w, e < neval -> eth s e = Some n -> nth_error (ws s) n = Some w -> alive (ph w) = false) ->
    op s (State (todo s) Done (ca s) (nc s) (feval s) (buf s) (ws s) (eth s) (res s)).
Inductive ops : state -> state -> Prop :=
| ops_refl s : ops s s
| ops_step s t u : ops s t -> op t u -> ops s u.
(** At the start of the loop: all evaluators free, no threads of this step. *)
Definition initial (jobs : list Key) (c : cache) (b : nat -> Conf) : state :=
  State (combine (seq 0 (length jobs)) jobs) Next c (length c) (fun _ => true) b [] (fun _ => None) (fun _ => None).
Definition value (k : Key) : Val := fst (geop (start k)).
Definition sound (c : cache) : Prop := forall k v, lookup k c = Some v -> v = value k.
End Threads.
Arguments State {Key Conf Val}.
Arguments state : clear implicits.
