(** * Model of the planetary frequency matrix (ipi/engine/motion/planetary.py), of the sparse matrices
    (ipi/utils/sparse.py) and of the netstrings they are stored in (ipi/utils/io/__init__.py)

    Floating point numbers are real numbers; rounding to half precision is not modelled. *)
From Coq Require Import List Arith Lia Reals Lra Bool String Ascii Decimal DecimalString.
From Verif Require Import RSum NMModel SpringModel PairModel CellModel.
Import ListNotations.
Open Scope list_scope.
Open Scope R_scope.

(** ** Planetary.bind, planetary.py:91-163 *)
(** 121-131: the frequencies of the constrained-centroid dynamics; [om1] is nm.omegak[1], missing
    with one bead. *)
Definition dnm_freqs (P nb : nat) (om1 : R) : option (list R) :=
  if (P <=? 1)%nat then None
  else Some (repeat (om1 * INR nb * sin (PI / INR nb) / (INR P * sin (PI / INR P))) (nb - 1)).
(** 135-137 and 218-222: the starting modes are the first modes of the path; numpy needs as many rows
    as there are beads (one row is repeated). *)
Definition start_modes (P nb : nat) (qnm : mat) : option mat :=
  if (nb <=? P)%nat then Some (fun k c => qnm k c * sqrt (INR nb) / sqrt (INR P))
  else if (P =? 1)%nat then Some (fun k c => qnm 0%nat c * sqrt (INR nb) / sqrt (INR P)) else None.

(** ** increment, 165-179 *)
Definition sample : Type := mat * mat.
Definition increment (nb : nat) (sm3 om : nat -> R) (w : mat) (x : sample) : mat :=
  let '(qnm, fnm) := x in
  let fms k c := if (k =? 0)%nat then 0 else fnm k c / sm3 c in
  let qms k c := (if (k =? 0)%nat then 0 else qnm k c * sm3 c) * om k ^ 2 in
  let w1 i j := w i j + Rsum nb (fun k => fms k i * fms k j) in
  let qffq i j := Rsum nb (fun k => fms k i * qms k j) in
  fun i j => w1 i j - (qffq i j + qffq j i) * (1 / 2).

(** ** matrix_screen, 181-203 *)
(** Arrays with two indices; reshape(-1).reshape(-1, w) reads them row after row. *)
Record arr : Type := Arr { nr : nat; nc : nat; ent : nat -> nat -> R }.
Definition cat0 (a b : arr) : arr := Arr (nr a + nr b) (nc a) (fun i j => if (i <? nr a)%nat then ent a i j else ent b (i - nr a) j).
Definition cat1 (a b : arr) : arr := Arr (nr a) (nc a + nc b) (fun i j => if (j <? nc a)%nat then ent a i j else ent b i (j - nc a)).
Definition tr (a : arr) : arr := Arr (nc a) (nr a) (fun i j => ent a j i).
Definition reshape (w : nat) (a : arr) : arr :=
  Arr (nr a * nc a / w) w (fun i j => ent a ((i * w + j) / nc a)%nat ((i * w + j) mod nc a)%nat).
Definition expand3 (N : nat) (s : arr) : arr :=
  let s := cat0 (cat0 s s) s in
  let s := cat1 (cat1 s s) s in
  let s := tr (reshape N s) in
  tr (reshape (3 * N) s).
(** 186-196: the squared distances of the first bead; the transposes give the separation with the
    atoms exchanged. *)
Definition dist2 (h ih : nat -> nat -> R) (q : nat -> R) (i j : nat) : R :=
  let d c := q (3 * j + c)%nat - q (3 * i + c)%nat in
  let s k := mvec ih d k - rint (mvec ih d k) in
  Rsum 3 (fun c => mvec h s c * mvec h s c).
Definition matrix_screen (N : nat) (screen : R) (h ih : nat -> nat -> R) (q : nat -> R) : arr :=
  expand3 N (Arr N N (fun i j => if Rlt_dec (dist2 h ih q i j) (screen ^ 2) then 1 else 0)).

(** ** step, 212-281 *)
(** [samples]: the starting configuration and the ones after each step of the constrained
    dynamics.  [None]: a division by zero, which gives NaN. *)
Definition normalise (nb : nat) (temp : R) (nsamples : nat) (w : mat) : option mat :=
  let d := INR nb * temp * INR (nsamples + 1) * INR (nb - 1) in
  if Req_EM_T d 0 then None else Some (fun i j => w i j / d).
Definition tril (w : mat) : mat := fun i j => if (j <=? i)%nat then w i j else 0.
Definition symmetrise (w : mat) : mat := fun i j => (1 / 2) * (w i j + w j i).
Definition omega2 (nb : nat) (sm3 om : nat -> R) (temp : R) (scr : option arr) (samples : list sample) : option mat :=
  let w := fold_left (increment nb sm3 om) samples (fun _ _ => 0) in
  match normalise nb temp (List.length samples - 1) w with
  | None => None
  | Some w => let w := match scr with Some s => fun i j => w i j * ent s i j | None => w end in
              Some (tril (symmetrise w))
  end.
(** 213-214: whether a step of the simulation does anything. *)
Definition triggered (step : option nat) (stride : nat) : bool := match step with None => true | Some s => (s mod stride =? 0)%nat end.
(** 228-234: the momenta. *)
Definition start_momenta (nb : nat) (temp kb : R) (dynm3 xi : mat) : mat :=
  fun k c => if (k =? 0)%nat then 0 else xi k c * sqrt (dynm3 k c) * sqrt (temp * INR nb * kb).

(** ** sparse.py *)
Section Sparse.
Variable A : Type.
Variable zero : A.
(** [nz]: the test "!= 0" of numpy; it is true of NaN. *)
Variable nz : A -> bool.
Record sparse : Type := Sparse { kind : string; a_ : list A; ia : list nat; ja : list nat; m_ : nat; n_ : nat }.
(** np.where, row after row *)
Definition where_nz (m n : nat) (M : nat -> nat -> A) : list (nat * nat) :=
  filter (fun x => nz (M (fst x) (snd x))) (list_prod (seq 0 m) (seq 0 n)).
(** the loop "for row in nonzeroids[0]: ia[row + 1] += 1" and the cumulative sum *)
Definition bump (l : list nat) (i : nat) : list nat := firstn i l ++ match skipn i l with [] => [] | x :: t => S x :: t end.
Fixpoint cumsum (acc : nat) (l : list nat) : list nat := match l with [] => [] | x :: t => (acc + x)%nat :: cumsum (acc + x) t end.
Definition pointers (m : nat) (rows : list nat) : list nat := cumsum 0 (fold_left (fun l r => bump l (r + 1)) rows (repeat 0%nat (m + 1))).
(** csr_matrix.__init__ 92-113, csc_matrix.__init__ 129-150 *)
Definition csr_of (m n : nat) (M : nat -> nat -> A) : sparse :=
  let ids := where_nz m n M in
  Sparse "csr" (map (fun x => M (fst x) (snd x)) ids) (pointers m (map fst ids)) (map snd ids) m n.
Definition csc_of (m n : nat) (M : nat -> nat -> A) : sparse :=
  let Mt i j := M j i in
  let ids := where_nz n m Mt in
  Sparse "csc" (map (fun x => Mt (fst x) (snd x)) ids) (pointers n (map fst ids)) (map snd ids) m n.
(** toarray, 116-122 and 153-159 *)
Definition slice {B} (l : list B) (s e : nat) : list B := firstn (e - s) (skipn s l).
Fixpoint assign (row : nat -> A) (js : list nat) (vs : list A) : nat -> A :=
  match js, vs with j :: js, v :: vs => assign (fun c => if (c =? j)%nat then v else row c) js vs | _, _ => row end.
Definition row_of (x : sparse) (r : nat) : nat -> A :=
  assign (fun _ => zero) (slice (ja x) (nth r (ia x) 0%nat) (nth (r + 1) (ia x) 0%nat)) (slice (a_ x) (nth r (ia x) 0%nat) (nth (r + 1) (ia x) 0%nat)).
Definition csr_toarray (x : sparse) : nat -> nat -> A := fun r c => if (r <? m_ x)%nat then row_of x r c else zero.
Definition csc_toarray (x : sparse) : nat -> nat -> A := fun r c => if (c <? n_ x)%nat then row_of x c r else zero.
Definition toarray (x : sparse) : nat -> nat -> A := if String.eqb (kind x) "csr" then csr_toarray x else csc_toarray x.
(** save_npz 37-50, load_npz 17-29: the fields of the file, then the class by the kind. *)
Record npz : Type := Npz { f_a : list A; f_ia : list nat; f_ja : list nat; f_m : nat; f_n : nat; f_kind : string }.
Definition save_npz (x : sparse) : npz := Npz (a_ x) (ia x) (ja x) (m_ x) (n_ x) (kind x).
Definition load_npz (d : npz) : sparse := Sparse (if String.eqb (f_kind d) "csr" then "csr" else "csc") (f_a d) (f_ia d) (f_ja d) (f_m d) (f_n d).
(** __add__, __sub__, __mul__, 59-72 *)
Definition elementwise (op : A -> A -> A) (x y : sparse) : sparse := csr_of (m_ x) (n_ x) (fun i j => op (toarray x i j) (toarray y i j)).
End Sparse.
Arguments Sparse {A}.
Arguments a_ {A}. Arguments ia {A}. Arguments ja {A}. Arguments m_ {A}. Arguments n_ {A}. Arguments kind {A}.

(** ** Netstrings, io/__init__.py:476-508 *)
(** What the buffer accepts: io.StringIO takes characters only, numpy writes bytes. *)
Inductive buffer := Text | Bytes.
Inductive oserr := TypeError | ValueError.
Definition numpy_savez (b : buffer) (content : string) : string + oserr := match b with Text => inr TypeError | Bytes => inl content end.
Definition str_len (c : string) : string := NilZero.string_of_uint (Nat.to_uint (String.length c)).
Definition frame (content : string) : string := (str_len content ++ ":" ++ content ++ ",")%string.
Definition netstring_savez (b : buffer) (content : string) : string + oserr :=
  match numpy_savez b content with inl c => inl (frame c) | inr e => inr e end.
(** The function of the code: the buffer is a StringIO. *)
Definition netstring_encoded_savez (content : string) : string + oserr := netstring_savez Text content.
(** netstring_encoded_loadz, 488-502, of the text that is still unread: the content and the rest. *)
Definition is_digit (c : ascii) : bool := existsb (Ascii.eqb c) ["0"; "1"; "2"; "3"; "4"; "5"; "6"; "7"; "8"; "9"]%char.
Fixpoint read_digits (s : string) : string * string :=
  match s with
  | EmptyString => (EmptyString, EmptyString)
  | String c t => if is_digit c then let '(d, r) := read_digits t in (String c d, r) else (EmptyString, s)
  end.
Definition to_int (s : string) : option nat := match NilEmpty.uint_of_string s with Some Decimal.Nil => None | Some d => Some (Nat.of_uint d) | None => None end.
Fixpoint take (n : nat) (s : string) : string * string :=
  match n, s with
  | S n', String c t => let '(a, r) := take n' t in (String c a, r)
  | _, _ => (EmptyString, s)
  end.
Definition netstring_read (s : string) : (string * string) + oserr :=
  match s with
  | String c _ => if Ascii.eqb c "0" then inr ValueError else
      let '(d, r) := read_digits s in
      match r with
      | String k r1 => if Ascii.eqb k ":" then
            match to_int d with
            | None => inr ValueError
            | Some n => let '(content, r2) := take n r1 in
                match r2 with String k2 r3 => if Ascii.eqb k2 "," then inl (content, r3) else inr ValueError | EmptyString => inr ValueError end
            end
          else inr ValueError
      | EmptyString => inr ValueError
      end
  | EmptyString => inr ValueError
  end.
Fixpoint read_all (k : nat) (s : string) : (list string * string) + oserr :=
  match k with
  | O => inl ([], s)
  | S k' => match netstring_read s with
            | inr e => inr e
            | inl (c, r) => match read_all k' r with inl (l, r') => inl (c :: l, r') | inr e => inr e end
            end
  end.
