(** * Extras of beads and of force components

    /repo/ipi/engine/forces.py: ForceComponent.extra_gather 435-475, Forces.extra_combine
    1503-1556.

    Python dictionaries are association lists (insertion order). Objects shared between a
    component and the combined dictionary matter: [re["raw"] = v] stores the component's own
    list, which a later [re["raw"][ib] += v[ib]] changes. An entry of the combined
    dictionary is therefore either the object of component k ([Alias k]) or an array created by the
    combination ([Own m]).

    Simplifications: [B] is what a bead reports under a key, [cat] is [+=] on it (strings);
    the conversion to numpy of the keys in interpolate_extras is [num] (None: not numerical); a key that is
    promoted by one component and kept as a list by another gives [TypeError] here (python
    would extend the list). *)

From Coq Require Import String List Reals Arith Bool.
From Verif Require Import RSum NMModel FSumModel.
Import ListNotations.
Open Scope R_scope.

Inductive eres (A : Type) := EOk (a : A) | KeyError | EIndexError | TypeError.
Arguments EOk {A} _. Arguments KeyError {A}. Arguments EIndexError {A}. Arguments TypeError {A}.
Definition ebind {A C} (x : eres A) (f : A -> eres C) : eres C :=
  match x with EOk a => f a | KeyError => KeyError | EIndexError => EIndexError | TypeError => TypeError end.

Definition dict (A : Type) := list (string * A).
Fixpoint lookup {A} (e : string) (d : dict A) : option A :=
  match d with [] => None | (k, a) :: d' => if String.eqb k e then Some a else lookup e d' end.
(** [d[e] = a] *)
Fixpoint put {A} (e : string) (a : A) (d : dict A) : dict A :=
  match d with
  | [] => [(e, a)]
  | (k, x) :: d' => if String.eqb k e then (k, a) :: d' else (k, x) :: put e a d'
  end.

Section Extra.
Context {B : Type}.
Variable cat : B -> B -> B.
Variable num : B -> option (nat -> R).

(** What a component holds under a key: one entry per bead, or a numerical array (beads x
    anything). *)
Inductive val := Lst (l : list B) | Arr (m : mat).

(** ** extra_gather 445-453 *)
Definition gather_bead (acc : eres (dict (list B))) (b : dict B) : eres (dict (list B)) :=
  fold_left (fun acc ev => ebind acc (fun d =>
      match lookup (fst ev) d with
      | None => KeyError
      | Some l => EOk (put (fst ev) (l ++ [snd ev]) d)
      end)) b acc.
Definition gather (beads : list (dict B)) : eres (dict (list B)) :=
  match beads with
  | [] => EIndexError
  | b0 :: _ => fold_left gather_bead beads (EOk (map (fun ev => (fst ev, [])) b0))
  end.
(** 457-474 *)
Fixpoint nums (l : list B) : option (list (nat -> R)) :=
  match l with
  | [] => Some []
  | x :: l' => match num x, nums l' with Some r, Some rs => Some (r :: rs) | _, _ => None end
  end.
Definition promote (interp : list string) (d : dict (list B)) : eres (dict val) :=
  fold_left (fun acc e => ebind acc (fun d =>
      match lookup e d with
      | None => KeyError
      | Some (Arr m) => EOk d
      | Some (Lst l) => match nums l with
                        | Some rows => EOk (put e (Arr (fun b => nth b rows (fun _ => 0))) d)
                        | None => TypeError
                        end
      end)) interp (EOk (map (fun ev => (fst ev, Lst (snd ev))) d)).
Definition extra_gather (interp : list string) (beads : list (dict B)) : eres (dict val) :=
  ebind (gather beads) (promote interp).

(** ** extra_combine *)
Record ecomp := mkE { ew : R; emts : list R; enb : nat; interp : list string; ext : dict val }.
Inductive entry := Alias (k : nat) | Own (m : mat).
Record est := mkEst { store : list ecomp; re : dict entry }.

(** [for ib in range(n): l[ib] += v[ib]] *)
Fixpoint addl (n : nat) (l v : list B) : option (list B) :=
  match n with
  | O => Some l
  | S n' => match l, v with
            | a :: l', b :: v' => option_map (cons (cat a b)) (addl n' l' v')
            | _, _ => None
            end
  end.
Fixpoint set_nth {A} (k : nat) (a : A) (l : list A) : list A :=
  match l, k with [], _ => [] | _ :: l', O => a :: l' | x :: l', S k' => x :: set_nth k' a l' end.
Definition set_ext (c : ecomp) (d : dict val) : ecomp := mkE (ew c) (emts c) (enb c) (interp c) d.
Definition memb (e : string) (l : list string) : bool := existsb (String.eqb e) l.

(** 1514-1555: one item [e, v] of component k. *)
Definition item (n : nat) (open : list nat) (k : nat) (c : ecomp) (s : est) (ev : string * val) : eres est :=
  let (e, v) := ev in
  if memb e (interp c) then
    match v with
    | Lst _ => TypeError
    | Arr m =>
        let x : mat := fun b i => ew c * Rsuml (emts c) * rescale_b2tob1 n (enb c) open false m b i in
        match lookup e (re s) with
        | None => EOk (mkEst (store s) (put e (Own x) (re s)))
        | Some (Own y) => EOk (mkEst (store s) (put e (Own (fun b i => y b i + x b i)) (re s)))
        | Some (Alias _) => TypeError
        end
    end
  else if negb (n =? enb c)%nat then EOk s
  else if String.eqb e "raw" then
    match lookup e (re s) with
    | None => EOk (mkEst (store s) (put e (Alias k) (re s)))
    | Some (Own _) => TypeError
    | Some (Alias j) =>
        match nth_error (store s) j with
        | Some cj => match lookup e (ext cj), v with
            | Some (Lst l), Lst lv =>
                match addl n l lv with
                | Some l' => EOk (mkEst (set_nth j (set_ext cj (put e (Lst l') (ext cj))) (store s)) (re s))
                | None => EIndexError
                end
            | _, _ => TypeError
            end
        | None => TypeError
        end
    end
  else EOk (mkEst (store s) (put e (Alias k) (re s))).
(** 1508-1513: the loops over components (skipping weight zero) and over their items. *)
Definition one_comp (n : nat) (open : list nat) (s : eres est) (kc : nat * ecomp) : eres est :=
  if nz (ew (snd kc)) then fold_left (fun s ev => ebind s (fun s => item n open (fst kc) (snd kc) s ev)) (ext (snd kc)) s
  else s.
Definition number {A} (l : list A) : list (nat * A) := List.combine (seq 0 (List.length l)) l.
Definition extra_combine (n : nat) (open : list nat) (cs : list ecomp) : eres est :=
  fold_left (one_comp n open) (number cs) (EOk (mkEst cs [])).

(** What the reader of the combined dictionary finds under a key. *)
Definition value (s : est) (e : string) : option val :=
  match lookup e (re s) with
  | None => None
  | Some (Own m) => Some (Arr m)
  | Some (Alias k) => match nth_error (store s) k with Some c => lookup e (ext c) | None => None end
  end.
End Extra.
