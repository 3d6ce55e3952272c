(** * Estimators that move the beads: scaled coordinates, displaced paths, isotopes

    /repo/ipi/engine/properties.py: opening 1941-1949, get_linlin 1951-2005, get_scop_estimators 2007-2051,
    get_yama_estimators 2053-2129, get_scyama_estimators 2131-2206, get_isotope_yama 2208-2315,
    get_isotope_thermo 2317-2423, get_isotope_zetatd 2425-2498, get_isotope_zetasc 2500-2570,
    get_isotope_zetatd_4th 2572-2691, get_isotope_zetasc_4th 2693-2804; Trajectories.get_isotope_zetatd
    3218-3270, get_isotope_zetasc 3272-3327.

    Properties.bind (966-995) makes one copy of the beads and of the cell (dbeads, dcell) and of the forces
    (dforces) for these estimators: [dq] and [dh] are their contents between calls.
    float(alpha) and float(ux) have been done; get_linlin has hbar as a parameter (Constants.hbar). *)

From Coq Require Import String Ascii List Reals Arith Bool ZArith.
From Verif Require Import RSum NMModel SCModel TextLib ValModel CellModel EstModel.
Import ListNotations.
Open Scope R_scope.

Section Disp.
(** [V]: forces.pot, [pots]: forces.pots, [F]: forces.f at given positions and cell;
    [Vsc]: forces.potsc with the parameters alpha and omegan2 of the simulation. *)
Variables (Cell : Type) (V : mat -> Cell -> R) (pots : mat -> Cell -> nat -> R) (F : mat -> Cell -> mat) (Vsc : mat -> Cell -> R).

Record aux := mkAux { dq : mat; dh : Cell }.

Definition selected (s : sys) (atom : text) (w : Z * text) : list nat := filter (fun i => negb (skip s atom w i)) (seq 0 (na s)).
Definition mean (x : nat -> R) (l : list nat) : R := Rsuml (map x l) / INR (length l).

(** ** Scaled coordinates (2053-2206) *)
Definition scale_all (s : sys) (x : R) : mat := fun b c => qc s c * (1 - x) + x * qq s b c.
(** numpy: 0/0 is nan, which is not greater than anything; x/0 is infinite *)
Definition too_far (vp vm v0 err : R) : bool :=
  if Req_EM_T (vp - vm) 0 then (if Req_EM_T (vp + vm - 2 * v0) 0 then false else true)
  else if Rlt_dec err (Rabs ((vp + vm - 2 * v0) / (vp - vm))) then true else false.
Definition fderror : R := / 10 ^ 5.
Definition minfid : R := / 10 ^ 8.
(** [E]: the energy that is scaled, V or V + Vsc.  The recursion is the loop "while True": [None] when it
    needs more rounds than [fuel]. *)
Fixpoint yama_loop (fuel : nat) (E : mat -> Cell -> R) (s : sys) (h : Cell) (fd dbeta : R) : option (R * R) :=
  match fuel with
  | O => None
  | S fuel' =>
    let P := INR (nb s) in
    let beta := 1 / (kb s * temp s) in
    let v0 := E (qq s) h / P in
    let vp := E (scale_all s (sqrt (1 + dbeta))) h / P in
    let vm := E (scale_all s (sqrt (1 - dbeta))) h / P in
    if (if Rlt_dec fd 0 then too_far vp vm v0 fderror else false) then
      if Rlt_dec minfid dbeta then yama_loop fuel' E s h fd (dbeta * (1 / 2)) else Some (0, 0)
    else
      Some (((1 + dbeta) * vp - (1 - dbeta) * vm) / (2 * dbeta) + 1 / 2 * (3 * INR (na s)) / beta,
            ((1 + dbeta) * vp + (1 - dbeta) * vm - 2 * v0) / (dbeta ^ 2 * beta) - 1 / 2 * (3 * INR (na s)) / beta ^ 2)
  end.
(** get_yama_estimators, get_scyama_estimators: the cell of the copies is set first, so that the loop sees
    the cell of the simulation whatever [a] was. *)
Definition get_yama (fuel : nat) (s : sys) (h : Cell) (a : aux) (fd : R) : option (R * R) :=
  let a := mkAux (dq a) h in yama_loop fuel V s (dh a) fd (Rabs fd).
Definition get_scyama (fuel : nat) (s : sys) (h : Cell) (a : aux) (fd : R) : option (R * R) :=
  let a := mkAux (dq a) h in yama_loop fuel (fun q h => V q h + Vsc q h) s (dh a) fd (Rabs fd).

(** get_scop_estimators (2007-2051): only the even beads of the copy are set. *)
Definition scop_q (s : sys) (a : aux) (eps : R) : mat := fun b c => if even_b b then qq s b c + eps * dev s b c else dq a b c.
Definition evens (s : sys) (x : nat -> R) : R := Rsum (nb s) (fun b => if even_b b then x b else 0).
Definition get_scop (s : sys) (h : Cell) (a : aux) (fd : R) : R * R :=
  let eps := Rabs fd in
  let beta := 1 / (kb s * temp s) in
  let f := F (qq s) h in
  let f' := F (scop_q s a eps) h in
  let vir1 := evens s (fun b => Rsum (3 * na s) (fun c => dev s b c * f b c)) / INR (nb s) * 2 in
  let vir2 := evens s (fun b => Rsum (3 * na s) (fun c => dev s b c * ((f' b c - f b c) / eps))) / INR (nb s) * 2 in
  let meanpots := evens s (pots (qq s) h) / evens s (fun _ => 1) in
  (3 / 2 * INR (na s) / beta - 1 / 2 * vir1 + meanpots,
   3 / 2 * INR (na s) / beta ^ 2 + 1 / 2 / beta * vir1 * (3 / 2) + 1 / 2 / beta * vir2 * (1 / 2)).

(** ** Displaced paths (1941-2005) *)
Definition opening (s : sys) (b : nat) : R := INR b / INR (nb s) + 1 / 2 * (1 / INR (nb s) - 1).
Definition open_q (s : sys) (u : nat -> R) (i : nat) : mat :=
  fun b c => if (c / 3 =? i)%nat then qq s b c + opening s b * u (c mod 3)%nat else qq s b c.
Definition get_linlin (s : sys) (hbar : R) (h : Cell) (a : aux) (u : nat -> R) (atom : text) : option R :=
  match resolve (na s) atom with
  | None => None
  | Some w =>
    let beta := 1 / (temp s * kb s) in
    let u2 := Rsum 3 (fun k => u k * u k) in
    match selected s atom w with
    | [] => None
    | l => Some (mean (fun i => exp (- ms s i * u2 / (2 * beta * hbar ^ 2))
                                * exp (- (V (open_q s u i) (dh a) - V (qq s) h) * beta / INR (nb s))) l)
    end
  end.

(** ** Isotopes *)
(** the beads of atom i scaled about their centroid (2252-2262, 2539-2544) *)
Definition scale_atom (s : sys) (x : R) (i : nat) : mat :=
  fun b c => if (c / 3 =? i)%nat then qc s c * (1 - x) + x * qq s b c else qq s b c.
Definition scale_atom' (s : sys) (alpha : R) (i : nat) : mat :=
  fun b c => if (c / 3 =? i)%nat then qc s c + sqrt (1 / alpha) * (qq s b c - qc s c) else qq s b c.
(** centroid virial of atom i at positions [q] with forces [f] (2264-2274) *)
Definition tcv_of (s : sys) (q f : mat) (i : nat) : R :=
  Rsum (nb s) (fun b => sum3 i (fun c => (q b c - Rsum (nb s) (fun b' => q b' c) / INR (nb s)) * f b c)) * (- (1 / 2) / INR (nb s))
  + 3 / 2 * kb s * temp s.
(** np.sign *)
Definition sgn (x : R) : R := if Rlt_dec 0 x then 1 else if Rlt_dec x 0 then -1 else 0.
(** the logarithmic sums (2293-2307) *)
Definition log_weights (logr : nat -> R) (l : list nat) : R :=
  match l with
  | [] => 0
  | i :: l' => fold_left (fun law j => fst (logsumlog (law, 1) (- logr j, 1))) l' (- logr i)
  end.
Definition log_ke (logr tcv : nat -> R) (l : list nat) : R * R :=
  match l with
  | [] => (0, 1)
  | i :: l' => fold_left (fun x j => logsumlog x (- logr j + ln (Rabs (tcv j)), sgn (tcv j))) l'
                 (- logr i + ln (Rabs (tcv i)), sgn (tcv i))
  end.
Definition seven (logr tcv : nat -> R) (l : list nat) : option (list R) :=
  match l with
  | [] => None
  | _ => Some [mean logr l; mean (fun i => logr i * logr i) l; mean tcv l; mean (fun i => tcv i * tcv i) l;
               log_weights logr l; fst (log_ke logr tcv l); snd (log_ke logr tcv l)]
  end.
(** get_isotope_yama (2208-2315) *)
Definition get_isotope_yama (s : sys) (h : Cell) (a : aux) (alpha : R) (atom : text) : option (list R) :=
  match resolve (na s) atom with
  | None => None
  | Some w =>
    let q i := scale_atom' s alpha i in
    seven (fun i => (V (q i) (dh a) - V (qq s) h) / (kb s * temp s * INR (nb s)))
          (fun i => tcv_of s (q i) (F (q i) (dh a)) i) (selected s atom w)
  end.
(** get_isotope_thermo (2317-2423) *)
Definition get_isotope_thermo (s : sys) (alpha : R) (atom : text) : option (list R) :=
  match resolve (na s) atom with
  | None => None
  | Some w =>
    seven (fun i => (alpha - 1) * (ring2 s i * (1 / 2 * ms s i * om2 s)) / (kb s * temp s * INR (nb s)))
          (fun i => tcv_of s (qq s) (ff s) i) (selected s atom w)
  end.
(** get_isotope_zetatd (2425-2498).  [pw]: alpha ** (1.5 * (nbeads - 1)) *)
Definition spr (s : sys) (alpha : R) (i : nat) : R := ring2 s i * (1 / 2 * (alpha - 1) * ms s i * om2 s).
Definition betaP' (s : sys) : R := 1 / (kb s * temp s * INR (nb s)).
Definition free_factor (s : sys) (alpha : R) : R := Rpower alpha (3 / 2 * (INR (nb s) - 1)).
Definition get_isotope_zetatd (s : sys) (alpha : R) (atom : text) : option (list R) :=
  match resolve (na s) atom with
  | None => None
  | Some w => match selected s atom w with
    | [] => None
    | l => Some [mean (spr s alpha) l; mean (fun i => spr s alpha i * spr s alpha i) l;
                 mean (fun i => exp (- betaP' s * spr s alpha i)) l * free_factor s alpha]
    end
  end.
(** get_isotope_zetasc (2500-2570) *)
Definition scdiff (s : sys) (h h' : Cell) (alpha : R) (i : nat) : R := V (scale_atom s (1 / sqrt alpha) i) h' - V (qq s) h.
Definition get_isotope_zetasc (s : sys) (h : Cell) (a : aux) (alpha : R) (atom : text) : option (list R) :=
  match resolve (na s) atom with
  | None => None
  | Some w => match selected s atom w with
    | [] => None
    | l => let sc := scdiff s h (dh a) alpha in
           Some [mean sc l; mean (fun i => sc i * sc i) l; mean (fun i => exp (- betaP' s * sc i)) l]
    end
  end.
(** the fourth-order terms of atom i (2630-2659, 2756-2779): [f2] of the isotope minus the original *)
Definition odd_f2 (s : sys) (f : mat) (i : nat) : R := Rsum (nb s / 2) (fun k => sum3 i (fun c => f (2 * k + 1)%nat c ^ 2)).
Definition all_f2 (s : sys) (f : mat) (i : nat) : R := Rsum (nb s) (fun b => sum3 i (fun c => f b c ^ 2)).
Definition get_isotope_zetatd_4th (s : sys) (alpha : R) (atom : text) : option (list R) :=
  match resolve (na s) atom with
  | None => None
  | Some w => match selected s atom w with
    | [] => None
    | l =>
      let chin i := odd_f2 s (ff s) i * ((1 / alpha - 1) * 1 / ms s i * (4 / 3) * (1 / 12) / om2 s) in
      let ti i := all_f2 s (ff s) i * ((1 / alpha - 1) * 1 / ms s i * (1 / 24) / om2 s) in
      let bP := betaP s in
      Some [mean (spr s alpha) l; mean (fun i => spr s alpha i * spr s alpha i) l;
            mean (fun i => exp (- bP * spr s alpha i)) l * free_factor s alpha;
            mean (fun i => exp (- bP * (spr s alpha i + ti i))) l * free_factor s alpha;
            mean (fun i => exp (- bP * (spr s alpha i + chin i))) l * free_factor s alpha]
    end
  end.
(** for an odd number of beads pots[b + 1] is out of range *)
Definition get_isotope_zetasc_4th (s : sys) (h : Cell) (a : aux) (alpha : R) (atom : text) : option (list R) :=
  match resolve (na s) atom with
  | None => None
  | Some w => match selected s atom w with
    | [] => None
    | l => if negb (even_b (nb s)) then None else
      let q i := scale_atom s (1 / sqrt alpha) i in
      let df i := F (q i) (dh a) in
      let f := F (qq s) h in
      let dp i := pots (q i) (dh a) in
      let p := pots (qq s) h in
      let sc := scdiff s h (dh a) alpha in
      let chin i := Rsum (nb s / 2) (fun k => sum3 i (fun c => df i (2 * k + 1)%nat c ^ 2 / alpha - f (2 * k + 1)%nat c ^ 2))
                      * (1 / ms s i * (4 / 3) * (1 / 12) / om2 s)
                    + Rsum (nb s / 2) (fun k => ((- dp i (2 * k)%nat + dp i (2 * k + 1)%nat) - (- p (2 * k)%nat + p (2 * k + 1)%nat)) / 3) in
      let ti i := Rsum (nb s) (fun b => sum3 i (fun c => df i b c ^ 2 / alpha - f b c ^ 2)) * (1 / ms s i * (1 / 24) / om2 s) in
      let bP := betaP' s in
      Some [mean sc l; mean (fun i => sc i * sc i) l; mean (fun i => exp (- bP * sc i)) l;
            mean (fun i => exp (- bP * (sc i + ti i))) l; mean (fun i => exp (- bP * (sc i + chin i))) l]
    end
  end.
(** Trajectories (3218-3327): three numbers per atom *)
Definition traj_zetatd (s : sys) (alpha : R) (atom : text) : option (nat -> R * R * R) :=
  match resolve (na s) atom with
  | None => None
  | Some w => Some (fun i => let x := if skip s atom w i then 0 else spr s alpha i in
                             (x, x ^ 2, exp (- (1) / (kb s * temp s * INR (nb s)) * x)))
  end.
Definition traj_zetasc (s : sys) (h : Cell) (a : aux) (alpha : R) (atom : text) : option (nat -> R * R * R) :=
  match resolve (na s) atom with
  | None => None
  | Some w => Some (fun i =>
      let x := if skip s atom w i then 0 else V (scale_atom s (1 / sqrt alpha) i) (dh a) / INR (nb s) - V (qq s) h / INR (nb s) in
      (x, x ^ 2, exp (- (1) * (1 / (kb s * temp s)) * x)))
  end.

(** ** The copies between calls

    What happens to the system and to the copies: the simulation moves the beads and changes the cell; a
    scaled-coordinates estimator sets the cell of the copies, the others do not. *)
Inductive event := Move (q : mat) | Resize (h : Cell) | Scaled (q : mat) | Displaced (q : mat).
Record run := mkRun { rq : mat; rh : Cell; ra : aux }.
Definition bind (q : mat) (h : Cell) : run := mkRun q h (mkAux q h).
Definition happen (r : run) (e : event) : run :=
  match e with
  | Move q => mkRun q (rh r) (ra r)
  | Resize h => mkRun (rq r) h (ra r)
  | Scaled q => mkRun (rq r) (rh r) (mkAux q (rh r))
  | Displaced q => mkRun (rq r) (rh r) (mkAux q (dh (ra r)))
  end.
End Disp.
