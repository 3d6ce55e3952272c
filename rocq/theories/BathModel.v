(** * Model of the inputs of thermostats and barostats

    ipi/inputs/thermostats.py and ipi/inputs/barostats.py.  Arrays are lists of numbers, a cell
    is the list of its entries.  Units and the reading of fields are areas Val and Inp. *)
From Coq Require Import List Arith Lia Bool String Reals.
Import ListNotations.
Open Scope list_scope.
Open Scope string_scope.

Notation arr := (list R).
Inductive err := TypeError | KeyError | ValueError.
Inductive res (A : Type) := Val (a : A) | Raise (e : err).
Arguments Val {A}. Arguments Raise {A}.

(** ** Thermostats (ipi/engine/thermostats.py).  [C] is None if it follows the temperature (lines 710-714, 860-863). *)
Inductive sort :=
| Plain | Langevin (tau : R) | SVR (tau : R) | PILE_L (tau scale ct : R) | PILE_G (tau scale ct : R)
| GLE (A : arr) (C : option arr) (s : arr) | NMGLE (A : arr) (C : option arr) (s : arr) | NMGLEG (A : arr) (C : option arr) (tau : R) (s : arr)
| CL (tau intau idtau apat : R) | FFL (tau : R) (flip : string).
(** A thermostat and its ethermo; MultiThermo holds thermostats. *)
Inductive thermo := One (k : sort) (e : R) | Multi (l : list thermo) (e : R).

(** InputThermoBase, lines 47-168. *)
Record tin := Tin { mode : string; ethermo : R; tau : R; lambda : R; centroid_t : R; mA : arr; mC : arr; ms : arr; intau : R; idtau : R; apat : R; flip : string }.
Definition blank : tin := Tin "" 0 0 1 0 [] [] [] 0 0 0 "rescale".
(** lines 49-67 and 346: the list of options is shared with InputThermo, since the copy of the attributes is
    shallow, so that the base class allows multi as well. *)
Definition options : list string := [""; "langevin"; "svr"; "pile_l"; "pile_g"; "gle"; "nm_gle"; "nm_gle_g"; "cl"; "ffl"] ++ ["multi"].
Definition keep (old : arr) (C : option arr) : arr := match C with Some c => c | None => old end.
(** InputThermoBase.store, lines 175-236, into an input [i]: what is not stored stays. *)
Definition store_one (i : tin) (k : sort) (e : R) : tin :=
  let '(Tin _ _ t l c A C s it dt ap f) := i in
  match k with
  | Langevin t' => Tin "langevin" e t' l c A C s it dt ap f
  | SVR t' => Tin "svr" e t' l c A C s it dt ap f
  | PILE_L t' l' c' => Tin "pile_l" e t' l' c' A C s it dt ap f
  | PILE_G t' l' c' => Tin "pile_g" e t' l' c' A C s it dt ap f
  | GLE A' C' s' => Tin "gle" e t l c A' (keep C C') s' it dt ap f
  | NMGLE A' C' s' => Tin "nm_gle" e t l c A' (keep C C') s' it dt ap f
  | NMGLEG A' C' t' s' => Tin "nm_gle_g" e t' l c A' (keep C C') s' it dt ap f
  | CL t' it' dt' ap' => Tin "cl" e t' l c A C s it' dt' ap' f
  | FFL t' f' => Tin "ffl" e t' l c A C s it dt ap f'
  | Plain => Tin "" e t l c A C s it dt ap f
  end.
Definition store_base (i : tin) (t : thermo) : res tin := match t with One k e => Val (store_one i k e) | Multi _ _ => Raise TypeError end.
(** lines 268-270 *)
Definition rC (i : tin) : option arr := if (List.length (mC i) =? 0)%nat then None else Some (mC i).
Definition flips : list string := ["soft"; "hard"; "rescale"; "none"].
Definition member (s : string) (l : list string) : bool := existsb (String.eqb s) l.
(** InputThermoBase.fetch, lines 238-304; ThermoFFL, engine lines 1229-1239. *)
Definition fetch_base (i : tin) : res thermo :=
  let is m := String.eqb (mode i) m in
  let out k := Val (One k (ethermo i)) in
  if is "langevin" then out (Langevin (tau i))
  else if is "svr" then out (SVR (tau i))
  else if is "pile_l" then out (PILE_L (tau i) (lambda i) (centroid_t i))
  else if is "pile_g" then out (PILE_G (tau i) (lambda i) (centroid_t i))
  else if is "gle" then out (GLE (mA i) (rC i) (ms i))
  else if is "nm_gle" then out (NMGLE (mA i) (rC i) (ms i))
  else if is "nm_gle_g" then out (NMGLEG (mA i) (rC i) (tau i) (ms i))
  else if is "cl" then out (CL (tau i) (intau i) (idtau i) (apat i))
  else if is "ffl" then (if member (flip i) flips then out (FFL (tau i) (flip i)) else Raise KeyError)
  else if is "" then out Plain
  else Raise TypeError.
Definition le0 (x : R) : bool := if Rle_dec x 0 then true else false.
Definition lt0 (x : R) : bool := if Rlt_dec x 0 then true else false.
(** InputThermoBase.check, lines 306-338. *)
Definition check_base (i : tin) : bool :=
  if member (mode i) ["langevin"; "svr"; "pile_l"; "pile_g"; "nm_gle_g"; "ffl"] && le0 (tau i) then false
  else if String.eqb (mode i) "cl" && (lt0 (tau i) || lt0 (intau i) || lt0 (idtau i) || lt0 (apat i)) then false
  else true.
Fixpoint collect {A B} (f : A -> res B) (l : list A) : res (list B) :=
  match l with
  | [] => Val []
  | a :: r => match f a with Val b => match collect f r with Val bs => Val (b :: bs) | Raise e => Raise e end | Raise e => Raise e end
  end.
(** InputThermo, lines 341-386: its own fields and the thermostats inside. *)
Definition store (t : thermo) : res (tin * list tin) :=
  match t with
  | Multi l e =>
    match collect (store_base blank) l with Val ts => Val (Tin "multi" e 0 1 0 [] [] [] 0 0 0 "rescale", ts) | Raise er => Raise er end
  | _ => match store_base blank t with Val i => Val (i, []) | Raise er => Raise er end
  end.
Definition fetch (i : tin * list tin) : res thermo :=
  if String.eqb (mode (fst i)) "multi" then match collect fetch_base (snd i) with Val l => Val (Multi l (ethermo (fst i))) | Raise er => Raise er end
  else fetch_base (fst i).

(** ** Barostats (ipi/inputs/barostats.py) *)
Inductive baro := Dummy (tau : R) | BZP (tau : R) (p : arr) | SCBZP (tau : R) (p : arr)
| MTK (tau : R) (p : arr) (hfix : list string) (vol : bool) | RGB (tau : R) (p : arr) (hfix : list string) (h0 : arr).
(** p and h0 are None if not given. *)
Record bin := Bin { bmode : string; btau : R; bp : option arr; bh0 : option arr; bhfix : list string; bvol : bool }.
(** InputBaro.store, lines 110-141; the thermostat is stored and fetched as above. *)
Definition store_baro (b : baro) : bin :=
  match b with
  | BZP t p => Bin "isotropic" t (Some p) None [] false
  | SCBZP t p => Bin "sc-isotropic" t (Some p) None [] false
  | MTK t p h v => Bin "flexible" t (Some p) None h v
  | RGB t p h h0 => Bin "anisotropic" t (Some p) (Some h0) h false
  | Dummy t => Bin "dummy" t None None [] false
  end.
Definition or_zeros (n : nat) (p : option arr) : arr := match p with Some p => p | None => repeat 0%R n end.
(** ipi/engine/barostats.py 30-49: the names that mask_from_fix knows. *)
Definition entries : list string := ["xx"; "xy"; "xz"; "yx"; "yy"; "yz"; "zx"; "zy"; "zz"; "offdiagonal"].
Definition known (h : list string) : bool := forallb (fun f => member f entries) h.
(** InputBaro.fetch, lines 143-208; the p of a barostat that is not given is zero, of one entry or of nine. *)
Definition fetch_baro (i : bin) : res baro :=
  let is m := String.eqb (bmode i) m in
  if bvol i && negb (is "flexible") then Raise ValueError
  else if bvol i && existsb (fun x => member x (bhfix i)) ["xx"; "yy"; "zz"] then Raise ValueError
  else if is "isotropic" then (if (0 <? List.length (bhfix i))%nat then Raise ValueError else Val (BZP (btau i) (or_zeros 1 (bp i))))
  else if is "sc-isotropic" then (if (0 <? List.length (bhfix i))%nat then Raise ValueError else Val (SCBZP (btau i) (or_zeros 1 (bp i))))
  else if is "flexible" then (if known (bhfix i) then Val (MTK (btau i) (or_zeros 9 (bp i)) (bhfix i) (bvol i)) else Raise KeyError)
  else if is "anisotropic" then
    (if known (bhfix i) then match bh0 i with Some h0 => Val (RGB (btau i) (or_zeros 9 (bp i)) (bhfix i) h0) | None => Raise ValueError end else Raise KeyError)
  else if is "dummy" then Val (Dummy (btau i))
  else Raise ValueError.
