(** Model of TrajectoryOutput (ipi/engine/outputs.py:380-660: choice of the beads,
    contents of a frame, extras, flushing) and of the centroids of the even and odd beads
    (ipi/engine/properties.py:3008-3051). *)
Require Import String List Arith Bool ZArith Lia Reals.
From Verif Require Import ScriptModel.
Import ListNotations.
Local Open Scope nat_scope.
Local Open Scope list_scope.

(** * Which file gets what *)
Section Write.
(** [B]: the data of a bead, [W]: data that are not resolved by bead *)
Variable B W : Type.
(** open_stream (402-421): whether there is a file for bead [b] *)
Definition is_open (ibead : Z) (b : nat) : bool :=
  ((ibead <? 0)%Z && (Z.of_nat b mod (- ibead) =? 0)%Z) || (ibead =? Z.of_nat b)%Z.
Definition opened (ibead : Z) (nbeads : nat) : list bool := map (is_open ibead) (seq 0 nbeads).
(** what is written: number of the file, title (step and bead), contents *)
Inductive contents := Row (r : B) | Whole (w : W).
Definition frame := (nat * (nat * nat) * contents)%type.
(** write (453-517) of a trajectory with one file per bead; None: ValueError *)
Definition write_beads (step : nat) (ibead : Z) (data : list B) : option (list frame) :=
  let nb := length data in
  if (ibead <? 0)%Z
  then Some (flat_map (fun bd => if is_open ibead (fst bd) then [(fst bd, (S step, fst bd), Row (snd bd))] else []) (combine (seq 0 nb) data))
  else if (Z.to_nat ibead <? nb)
       then match nth_error data (Z.to_nat ibead) with
            | Some r => Some [(Z.to_nat ibead, (S step, Z.to_nat ibead), Row r)]
            | None => None
            end
       else None.
(** the same for what is not resolved by bead: one file (506-517) *)
Definition write_whole (step : nat) (w : W) : list frame := [(0, (S step, 0), Whole w)].
End Write.
Arguments Row {B W}. Arguments Whole {B W}.

(** * Extras (546-611) *)
Section Extras.
Variable F : Type.
(** a field of the extras of one bead: numbers, rows of numbers, or text *)
Inductive field := Arr1 (l : list F) | Arr2 (l : list (list F)) | Txt (s : string).
(** a line of the file *)
Inductive oline := LHead (kind : string) (step : nat) | LEmpty | LText (s : string) | LNums (l : list F) | LDict (d : list (string * list field)).
(** the dictionary of the extras: name and one field for each bead *)
Definition extras := list (string * list field).
Fixpoint lookup (d : extras) (k : string) : option (list field) :=
  match d with
  | [] => None
  | (n, v) :: d => if String.eqb n k then Some v else lookup d k
  end.
(** np.hstack: of rows of numbers one after the other, of tables side by side *)
Fixpoint hstack2 (l : list (list (list F))) : option (list (list F)) :=
  match l with
  | [] => None
  | [t] => Some t
  | t :: l => match hstack2 l with
              | Some u => if length t =? length u then Some (map (fun p => fst p ++ snd p) (combine t u)) else None
              | None => None
              end
  end.
Definition is1 (f : field) : bool := match f with Arr1 _ => true | _ => false end.
Definition is2 (f : field) : bool := match f with Arr2 _ => true | _ => false end.
Definition hstack (l : list field) : option (list (list F)) :=
  if forallb is1 l then Some [flat_map (fun f => match f with Arr1 x => x | _ => [] end) l]
  else if forallb is2 l then hstack2 (map (fun f => match f with Arr2 x => x | _ => [] end) l)
  else None.
(** the fields asked for, for bead [b] (563-588): numbers are kept, text is written at once *)
Fixpoint collect (d : extras) (b : nat) (names : list string) : option (list oline * list field) :=
  match names with
  | [] => Some ([], [])
  | n :: names =>
      match lookup d n with
      | None => None
      | Some v =>
          match nth_error v b, collect d b names with
          | Some (Txt s), Some (ls, fs) => Some (LEmpty :: LText s :: ls, fs)
          | Some f, Some (ls, fs) => Some (ls, f :: fs)
          | _, _ => None
          end
      end
  end.
(** a frame of extras in the file of bead [b] (546-611); raw: the whole dictionary *)
Definition write_extras (kind : string) (raw : bool) (names : list string) (step : nat) (d : extras) (b : nat) : option (list oline) :=
  if raw then Some [LHead kind (S step); LDict d]
  else match collect d b names with
       | None => None
       | Some (ls, []) => Some (LHead kind (S step) :: ls)
       | Some (ls, fs) => match hstack fs with Some rows => Some (LHead kind (S step) :: ls ++ map LNums rows) | None => None end
       end.
End Extras.
Arguments Arr1 {F}. Arguments Arr2 {F}. Arguments Txt {F}.
Arguments LHead {F}. Arguments LEmpty {F}. Arguments LText {F}. Arguments LNums {F}. Arguments LDict {F}.

(** * Flushing (462-466, 658-660) *)
(** [nout] and the number of frames written but not yet flushed *)
Definition fstate := (nat * nat)%type.
Definition fwrite (flush : Z) (s : fstate) : fstate :=
  let n := S (fst s) in
  if (0 <? flush)%Z && (flush <=? Z.of_nat n)%Z then (0, 0) else (n, S (snd s)).

(** * Centroids of the even and the odd beads (properties.py:3008-3051) *)
Section Even.
Local Open Scope R_scope.
Fixpoint rsum (l : list R) : R := match l with [] => 0 | x :: l => x + rsum l end.
(** q[::2] *)
Fixpoint evens {A} (l : list A) : list A :=
  match l with
  | a :: _ :: l => a :: evens l
  | [a] => [a]
  | [] => []
  end.
(** q[1::2] *)
Definition odds {A} (l : list A) : list A := match l with [] => [] | _ :: l => evens l end.
Definition centroid (q : list R) : R := rsum q / INR (length q).
Definition x_centroid_even (q : list R) : R := 2 * rsum (evens q) / INR (length q).
Definition x_centroid_odd (q : list R) : R := 2 * rsum (odds q) / INR (length q).
(** v_centroid_even: sums of p / m *)
Definition v_centroid_even (m : R) (p : list R) : R := 2 * rsum (evens (map (fun x => x / m) p)) / INR (length p).
End Even.
