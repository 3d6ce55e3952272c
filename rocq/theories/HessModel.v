(** * Model of the Hessian tools (ipi/utils/hesstools.py)

    [get_dynmat], [clean_hessian] and [get_hessian] with its temporary files.  Floating point
    numbers are real numbers.  The gradient mapper is a function of the positions of the beads,
    [x bead coordinate]; [ii] is the number of coordinates of one bead. *)
From Coq Require Import List Arith Lia Reals Lra String.
From Verif Require Import RSum MinModel PhonModel.
Import ListNotations.
Open Scope R_scope.

(** ** get_dynmat, lines 12-30: [h] has the columns of all beads one after another *)
Definition get_dynmat (ii : nat) (h : mat) (m3 : nat -> vec) : mat :=
  let ismT := fun i => / sqrt (m3 O i) in
  let ism := fun c => / sqrt (m3 (c / ii)%nat (c mod ii)%nat) in
  fun i c => ismT i * (h i c * ism c).

(** ** clean_hessian, lines 33-175 *)
(** lines 51-120: masses repeated for each bead, dynamical matrix, sum rules (those of
    PhonModel, applied to all beads as if they were atoms), symmetrised. [None]: the name hm is
    not defined. *)
Definition clean_matrix (natoms nbeads : nat) (h : mat) (q m m3 : vec) (eig : mat -> vec * mat) (asr : string) : option mat :=
  let ii := (natoms * nbeads)%nat in
  let mm := fun a => m (a mod natoms)%nat in
  let ism := fun i => / sqrt (m3 i) in
  let dynmat := fun i j => ism j * (h i j * ism i) in
  match apply_asr ii mm q ism eig asr dynmat with
  | None => None
  | Some hm => Some (fun i j => (hm j i + hm i j) / 2)
  end.
(** lines 124-127: frequencies in inverse centimetres, with the sign of the eigenvalue. *)
Definition conv : R := 2 * PI * (3 * 10 ^ 10) * (24188843 / 10 ^ 24).
Definition freq (d : R) : R := (if Rlt_dec d 0 then - 1 else if Rlt_dec 0 d then 1 else 0) * sqrt (Rabs d) / conv.
(** lines 129-132 and 144-147: what counts as zero and as negative. *)
Definition is_zero (d : R) : bool := if Rlt_dec (Rabs (freq d)) (1 / 100) then true else false.
Definition is_neg (d : R) : bool := if Rlt_dec (freq d) (- 4) then true else false.
Definition count {A} (p : A -> bool) (l : list A) : nat := List.length (filter p l).
(** lines 152-167: eigenvalues come with their eigenvectors, in increasing order; numpy's delete
    of a range of positions. *)
Definition delete_range {A} (a n : nat) (l : list A) : list A := firstn a l ++ skipn (a + n) l.
Definition clean {A} (l : list (R * A)) : list (R * A) :=
  let nzero := count (fun e => is_zero (fst e)) l in
  let nneg := count (fun e => is_neg (fst e)) l in
  if (0 <? nzero)%nat then delete_range nneg nzero l else l.

(** ** get_hessian, lines 178-301 *)
Definition pos := nat -> vec.
Definition tensor := nat -> nat -> nat -> nat -> R.
(** lines 258-268: all beads displaced along coordinate [j]. *)
Definition displace (x0 : pos) (j : nat) (d : R) : pos := fun b k => if Nat.eqb k j then x0 b k + d else x0 b k.
(** line 273-274: one row, the columns of all beads one after another. *)
Definition h_row (ii : nat) (gm : pos -> pos) (x0 : pos) (d : R) (j : nat) : vec := fun c =>
  (gm (displace x0 j d) (c / ii)%nat (c mod ii)%nat - gm (displace x0 j (- d)) (c / ii)%nat (c mod ii)%nat) / (2 * d).
(** line 280: the derivative of the friction along [j]. *)
Definition e_slice (eta : pos -> nat -> nat -> nat -> R) (x0 : pos) (d : R) (j : nat) (b k l : nat) : R :=
  (eta (displace x0 j d) b k l - eta (displace x0 j (- d)) b k l) / (2 * d).
Definition set_slice (e : tensor) (j : nat) (s : nat -> nat -> nat -> R) : tensor :=
  fun b k l c => if Nat.eqb c j then s b k l else e b k l c.
(** Temporary files hessian_<i>.tmp and hessianEta_<i>.tmp. A file that was not written to its
    end does not have the shape of the array: lines 216 and 232 raise an exception. (A file cut
    within its last number has the right shape and is not told apart from a whole one; not
    modelled.) *)
Inductive content (A : Type) : Type := Whole (a : A) | Cut.
Arguments Whole {A}. Arguments Cut {A}.
Record disk : Type := Disk { hfile : nat -> option (content mat); efile : nat -> option (content tensor) }.
Definition no_files : disk := Disk (fun _ => None) (fun _ => None).
(** lines 203-224: files are looked for from the last to the first; the first that is found is
    used. The result is the matrix and [i0 + 1]. *)
Fixpoint load_h (f : nat -> option (content mat)) (i : nat) : option (mat * nat) :=
  match f i with
  | Some (Whole b) => Some (b, S i)
  | Some Cut => None
  | None => match i with O => Some ((fun _ _ => 0), O) | S i' => load_h f i' end
  end.
(** lines 225-246: the array read is flat, and compared with the shape of eta_h: never equal, so
    that the loop goes on to the first file. *)
Fixpoint load_e (f : nat -> option (content tensor)) (i : nat) (acc : tensor * nat) : option (tensor * nat) :=
  match f i with
  | Some Cut => None
  | o =>
      let acc := match o with Some (Whole b) => (b, S i) | _ => acc end in
      match i with O => Some acc | S i' => load_e f i' acc end
  end.
(** What is done to the files. *)
Inductive action : Type := WriteH (j : nat) (h : mat) | WriteE (j : nat) (e : tensor) | RemoveE (i : nat) | RemoveH (i : nat).
Definition upd {A} (f : nat -> A) (i : nat) (a : A) : nat -> A := fun k => if Nat.eqb k i then a else f k.
Definition act (D : disk) (a : action) : disk :=
  match a with
  | WriteH j h => Disk (upd (hfile D) j (Some (Whole h))) (efile D)
  | WriteE j e => Disk (hfile D) (upd (efile D) j (Some (Whole e)))
  | RemoveE i => Disk (hfile D) (upd (efile D) i None)
  | RemoveH i => Disk (upd (hfile D) i None) (efile D)
  end.
(** A write that stops half way. *)
Definition act_cut (D : disk) (a : action) : disk :=
  match a with
  | WriteH j _ => Disk (upd (hfile D) j (Some Cut)) (efile D)
  | WriteE j _ => Disk (hfile D) (upd (efile D) j (Some Cut))
  | _ => D
  end.
(** lines 248-283: coordinates [js] in turn. *)
Fixpoint calc (friction : bool) (fixed : list nat) (row : nat -> vec) (slice : nat -> nat -> nat -> nat -> R) (js : list nat) (h : mat) (e : tensor)
    : list action * mat * tensor :=
  match js with
  | [] => ([], h, e)
  | j :: js' =>
      if memb j fixed then calc friction fixed row slice js' h e
      else
        let h := set_row h j (row j) in
        let e' := if friction then set_slice e j (slice j) else e in
        let '(acts, h', e'') := calc friction fixed row slice js' h e' in
        ((WriteH j h :: if friction then [WriteE j e'] else []) ++ acts, h', e'')
  end.
(** lines 287-296: clearing up. *)
Definition clear (ii : nat) : list action := flat_map (fun i => [RemoveE i; RemoveH i]) (seq 0 ii).
(** One call. [None]: an exception while reading the files. *)
Definition session (friction : bool) (ii : nat) (fixed : list nat) (row : nat -> vec) (slice : nat -> nat -> nat -> nat -> R) (D : disk)
    : option (list action * mat * tensor) :=
  match load_h (hfile D) ii with
  | None => None
  | Some (h, start) =>
      match (if friction then load_e (efile D) ii ((fun _ _ _ _ => 0), start) else Some ((fun _ _ _ _ => 0), start)) with
      | None => None
      | Some (e, start) =>
          let '(acts, h', e') := calc friction fixed row slice (seq start (ii - start)) h e in
          Some (acts ++ clear ii, h', e')
      end
  end.
Definition get_hessian (ii : nat) (gm : pos -> pos) (x0 : pos) (d : R) (fixed : list nat) (D : disk) : option mat :=
  match session false ii fixed (h_row ii gm x0 d) (fun _ _ _ _ => 0) D with Some (_, h, _) => Some h | None => None end.
Definition get_hessian_eta (ii : nat) (gm : pos -> pos) (eta : pos -> nat -> nat -> nat -> R) (x0 : pos) (d : R) (fixed : list nat) (D : disk)
    : option (mat * tensor) :=
  match session true ii fixed (h_row ii gm x0 d) (e_slice eta x0 d) D with Some (_, h, e) => Some (h, e) | None => None end.
