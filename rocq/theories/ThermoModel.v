(** Model of the thermostats of ipi/engine/thermostats.py.  Floats are
    idealised as reals.  Random numbers are arguments: every function takes
    the numbers that the generator returned, so that a theorem about all
    arguments is a theorem about all outcomes.  Momenta and masses are
    functions of the index, with an explicit length. *)
Require Import Reals List ZArith Lia Lra.
From Verif Require Import RSum Ortho.
Import ListNotations.
Local Open Scope R_scope.

(** Constants.kb (ipi/utils/units.py:32). *)
Definition kb : R := 1.

(** ** Langevin (thermostats.py:165-252) *)

(** ThermoLangevin.get_T (177-180). *)
Definition lang_T (dt tau : R) : R := exp (- dt / tau).
(** ThermoLangevin.get_S (182-184). *)
Definition lang_S (temp T : R) : R := sqrt (kb * temp * (1 - T ^ 2)).
(** np.dot of a vector with itself. *)
Definition dot2 (n : nat) (v : nat -> R) : R := Rsum n (fun i => v i * v i).
(** ThermoLangevin.step (230-251); [T_on_sm] is T / sqrt(m) (186-188), [sm] is
    Thermostat.get_sm (146-154).  The result is the new momentum and ethermo. *)
Definition lang_step (n : nat) (dt tau temp : R) (m xi p : nat -> R) (eth : R) : (nat -> R) * R :=
  let T := lang_T dt tau in
  let p1 := fun i => p i * (T / sqrt (m i)) in
  let deltah := dot2 n p1 / T ^ 2 in
  let p2 := fun i => p1 i + lang_S temp T * xi i in
  let deltah' := deltah - dot2 n p2 in
  ((fun i => p2 i * sqrt (m i)), eth + deltah' * (1 / 2)).

(** ** Stochastic velocity rescaling (460-532) *)

(** The draws of one step: the Gaussian r1, the outcome of gamma(k) for the
    shape k that the step asks for, and the second Gaussian. *)
Record draws := { dr_1 : R; dr_gamma : R -> R; dr_2 : R }.

(** ThermoSVR.get_et (472-475), get_K (477-479). *)
Definition svr_et (dt tau : R) : R := exp (- dt / tau).
Definition svr_K (temp : R) : R := kb * temp * (1 / 2).
(** the sum of squared Gaussians (513-517); ndof is a float holding an integer (135-138) *)
Definition svr_rg (ndof : Z) (d : draws) : R :=
  if Z.even (ndof - 1) then 2 * dr_gamma d (IZR (ndof - 1) / 2)
  else 2 * dr_gamma d (IZR (ndof - 2) / 2) + dr_2 d ^ 2.
(** alpha2 (519-523) *)
Definition svr_alpha2 (et Kbar K r1 rg : R) : R :=
  et + Kbar / K * (1 - et) * (r1 ^ 2 + rg) + 2 * r1 * sqrt (Kbar / K * et * (1 - et)).
(** alpha with its sign (524-526) *)
Definition svr_alpha (et Kbar K r1 rg : R) : R :=
  let alpha := sqrt (svr_alpha2 et Kbar K r1 rg) in
  if Rlt_dec (r1 + sqrt (2 * K / Kbar * et / (1 - et))) 0 then alpha * -1 else alpha.
(** ThermoSVR.step (500-529) *)
Definition svr_step (n : nat) (ndof : Z) (dt tau temp : R) (m : nat -> R) (d : draws)
    (p : nat -> R) (eth : R) : (nat -> R) * R :=
  let K := Rsum n (fun i => p i * (p i / m i)) * (1 / 2) in
  if Req_EM_T K 0 then (p, eth)
  else
    let et := svr_et dt tau in
    let Kbar := svr_K temp in
    let rg := svr_rg ndof d in
    let alpha2 := svr_alpha2 et Kbar K (dr_1 d) rg in
    let alpha := svr_alpha et Kbar K (dr_1 d) rg in
    ((fun i => p i * alpha), eth + K * (1 - alpha2)).

(** Thermostat.bind, the number of degrees of freedom (133-138). *)
Definition bind_ndof (n : nat) (fixdof : option Z) : Z :=
  match fixdof with None => Z.of_nat n | Some f => Z.of_nat n - f end.

(** ** Generalised Langevin (631-798) *)

Definition mmul (n : nat) (A B : mat) : mat := fun i j => Rsum n (fun k => A i k * B k j).
Definition tr (A : mat) : mat := fun i j => A j i.
(** The matrix whose root is the noise matrix (ThermoGLE.get_S, 670-674), for
    [q] = ns + 1 extended momenta. *)
Definition gle_SST (q : nat) (T C : mat) : mat := fun i j => kb * (C i j - mmul q T (mmul q C (tr T)) i j).
(** ThermoGLE.get_C (678-682). *)
Definition gle_C (temp : R) : mat := fun i j => delta i j * temp.
(** ThermoGLE.step (784-796).  [s] is the (ns+1) x n array of extended momenta,
    [T] and [Sm] are the matrices of get_T and get_S. *)
Definition gle_step (q n : nat) (T Sm : mat) (m : nat -> R) (xi : mat) (st : (nat -> R) * mat) (eth : R) :
    ((nat -> R) * mat) * R :=
  let '(p, s) := st in
  let s1 : mat := fun a i => match a with O => p i / sqrt (m i) | Datatypes.S _ => s a i end in
  let e1 := eth + dot2 n (s1 0%nat) * (1 / 2) in
  let s2 : mat := fun a i => mmul q T s1 a i + mmul q Sm xi a i in
  let e2 := e1 - dot2 n (s2 0%nat) * (1 / 2) in
  (((fun i => s2 0%nat i * sqrt (m i)), s2), e2).

(** utils/mathtools.py root_herm (376-411), given the eigenvalues and the matrix
    of eigenvectors (its columns) that numpy.linalg.eigh returns. *)
Definition clipped (x : R) : R := if Rle_dec 0 x then sqrt x else 0.
Definition root_herm (n : nat) (w : nat -> R) (V : mat) : mat :=
  mmul n V (mmul n (fun i j => delta i j * clipped (w i)) (tr V)).

(** ** Thermostats made of several (257-457, 535-628, 801-1060, 1293-1342) *)

(** A sub-thermostat acts on the momenta of one normal mode: it takes them with
    its own ethermo and returns the new values.  [mode] is the row of nm.pnm it
    is bound to (385, 614, 955, 1047). *)
Record sub := { mode : nat; act : (nat -> R) -> R -> (nat -> R) * R }.
(** One sub-thermostat steps (453-454, 982-983): its mode and ethermo change. *)
Definition sub_step (t : sub) (pnm : nat -> nat -> R) (e : R) : (nat -> nat -> R) * R :=
  let '(p', e') := act t (pnm (mode t)) e in
  ((fun k => if Nat.eqb k (mode t) then p' else pnm k), e').
(** ThermoPILE_L.step / ThermoNMGLE.step (449-454, 977-983): all in turn; the
    list pairs each sub-thermostat with its ethermo. *)
Fixpoint subs_step (l : list (sub * R)) (pnm : nat -> nat -> R) : list (sub * R) * (nat -> nat -> R) :=
  match l with
  | [] => ([], pnm)
  | (t, e) :: l' =>
      let '(pnm', e') := sub_step t pnm e in
      let '(l'', pnm'') := subs_step l' pnm' in
      ((t, e') :: l'', pnm'')
  end.
(** ThermoPILE_L.get_ethermo, ThermoNMGLE.get_ethermo (435-443, 985-993). *)
Definition get_ethermo (l : list (sub * R)) : R := fold_left (fun et t => et + snd t) l 0.
(** The split of the stored ethermo when binding (411-413, 625-627, 970-971). *)
Definition split_ethermo (prev : R) (ts : list sub) : list (sub * R) :=
  map (fun t => (t, prev / INR (length ts))) ts.
(** ThermoNMGLEG.bind (1043-1057): the split is over the generalised Langevin
    thermostats; the rescaling thermostat is appended with its own zero. *)
Definition split_ethermo_g (prev : R) (ts : list sub) (t : sub) : list (sub * R) :=
  split_ethermo prev ts ++ [(t, 0)].
(** ThermoPILE_L.get_tauk (419-433), the value for mode k. *)
Definition tauk (pilescale : R) (dynomegak : nat -> R) (k : nat) : R :=
  1 / (2 * pilescale * dynomegak k).
(** ThermoPILE_L.bind (352-404): Langevin on every mode, the centroid with tau
    and, if pilect > 0, with its own temperature nbeads * pilect (445-447); the other modes with tauk
    and the full temperature. *)
Definition pile_temp (nb : nat) (temp pilect : R) (k : nat) : R :=
  match k with
  | O => if Rlt_dec 0 pilect then INR nb * pilect else temp
  | _ => temp
  end.
Definition pile_tau (tau pilescale : R) (om : nat -> R) (k : nat) : R :=
  match k with O => tau | _ => tauk pilescale om k end.
Definition pile_l (nb n : nat) (dt tau temp pilescale pilect : R) (om : nat -> R) (dynm3 xi : nat -> nat -> R) : list sub :=
  map (fun k => {| mode := k;
                   act := lang_step n dt (pile_tau tau pilescale om k) (pile_temp nb temp pilect k) (dynm3 k) (xi k) |})
      (seq 0 nb).
(** Dynamics.get_fixdof (ipi/engine/motion/dynamics.py:122-130). *)
Definition get_fixdof (nfix nb : Z) (fixcom : bool) : Z :=
  let fixdof := (nfix * nb)%Z in if fixcom then (fixdof + 3)%Z else fixdof.
(** ThermoPILE_G.bind (600-628): the number of constraints on the centroid. *)
Definition pile_g_fixdof0 (fixdof nb : Z) (fixcom : bool) : Z :=
  let ncom := if fixcom then 3%Z else 0%Z in ((fixdof - ncom) / nb + ncom)%Z.
Definition pile_g (nb n : nat) (nfix : Z) (fixcom : bool) (dt tau temp pilescale pilect : R) (om : nat -> R)
    (dynm3 xi : nat -> nat -> R) (d : draws) : list sub :=
  {| mode := 0;
     act := svr_step n (bind_ndof n (Some (pile_g_fixdof0 (get_fixdof nfix (Z.of_nat nb) fixcom) (Z.of_nat nb) fixcom)))
              dt tau (pile_temp nb temp pilect 0) (dynm3 0%nat) d |}
  :: tl (pile_l nb n dt tau temp pilescale pilect om dynm3 xi).
(** ThermoNMGLEG.bind (1045-1049): the rescaling thermostat is bound without
    the number of constraints. *)
Definition nmgleg_svr_ndof (n : nat) (fixdof : Z) : Z := bind_ndof n None.
(** MultiThermo.bind (1330-1333) passes fixdof on but not fixcom, whose default
    is None; a PILE_G in the list therefore counts *)
Definition multi_pile_g_fixdof0 (fixdof nb : Z) (fixcom : bool) : Z := pile_g_fixdof0 fixdof nb false.

(** ** Correlated noise and fast-forward Langevin (1063-1290) *)

(** ThermoCL.get_lgT, get_inT, get_idT (1091-1113). *)
Definition cl_damp (dt tau : R) : R := if Rlt_dec 0 tau then exp (- (1 / 2) * dt / tau) else 1.
(** ThermoCL.get_T, get_S (1115-1123). *)
Definition cl_T (dt tau intau : R) : R := cl_damp dt tau * cl_damp dt intau.
Definition cl_S (dt tau idtau temp : R) : R := sqrt (kb * temp * (1 - (cl_damp dt tau * cl_damp dt idtau) ^ 2)).
(** ThermoCL.step, first part (1163-1181); the adjustment of intau / idtau is
    [cl_adjust]. *)
Definition cl_step (n : nat) (dt tau intau idtau temp : R) (m xi p : nat -> R) (eth : R) : (nat -> R) * R :=
  let p0 := fun i => p i / sqrt (m i) in
  let e1 := eth + dot2 n p0 * (1 / 2) in
  let p2 := fun i => p0 i * cl_T dt tau intau + cl_S dt tau idtau temp * xi i in
  let e2 := e1 - dot2 n p2 * (1 / 2) in
  ((fun i => p2 i * sqrt (m i)), e2).
(** ThermoCL.step, second part (1183-1196): the new (intau, idtau). *)
Definition cl_adjust (n : nat) (ndof dt apat temp : R) (idstep : bool) (m p : nat -> R) (intau idtau : R) : R * R :=
  let on x := if Req_EM_T x 0 then false else true in
  if ((if Rlt_dec 0 apat then true else false) && idstep && xorb (on intau) (on idtau))%bool then
    let mytemp := Rsum n (fun i => p i * (p i / m i)) * (1 / 2) / kb / ndof * 2 in
    if on intau
    then ((if on mytemp then intau / Rpower (mytemp / temp) (dt / apat) else intau), idtau)
    else (intau, idtau * Rpower (mytemp / temp) (dt / apat))
  else (intau, idtau).

Inductive flip := Soft | Hard | Rescale | NoFlip.
(** np.sign *)
Definition sgn (x : R) : R := if Rlt_dec x 0 then -1 else if Rlt_dec 0 x then 1 else 0.
(** hfunc (1345-1346) *)
Definition hfunc (x : R) : R := (sgn x - 1) * x.
(** The three components of the atom that holds component i (np.reshape(-1, 3)). *)
Definition adot (u v : nat -> R) (i : nat) : R :=
  let a := (3 * (i / 3))%nat in u a * v a + u (a + 1)%nat * v (a + 1)%nat + u (a + 2)%nat * v (a + 2)%nat.
(** The flip of ThermoFFL.step (1261-1280).  A division by zero, which gives nan
    or inf in numpy, is [None]. *)
Definition ffl_flip (f : flip) (n : nat) (old new : nat -> R) : option (nat -> R) :=
  let at_rest := existsb (fun i => if Req_EM_T (adot old old i) 0 then true else false) (seq 0 n) in
  match f with
  | Soft => if at_rest then None else Some (fun i => new i + hfunc (adot old new i / adot old old i) * old i)
  | Hard => Some (fun i => new i * sgn (new i * old i))
  | Rescale => if at_rest then None
               else Some (fun i => sqrt (adot new new i) / sqrt (adot old old i) * old i)
  | NoFlip => Some new
  end.
(** ThermoFFL.step (1241-1287). *)
Definition ffl_step (f : flip) (n : nat) (dt tau temp : R) (m xi p : nat -> R) (eth : R) : option ((nat -> R) * R) :=
  let p0 := fun i => p i / sqrt (m i) in
  let e1 := eth + dot2 n p0 * (1 / 2) in
  let T := lang_T dt tau in
  let p1 := fun i => p0 i * T + lang_S temp T * xi i in
  match ffl_flip f n p0 p1 with
  | None => None
  | Some p2 => Some ((fun i => p2 i * sqrt (m i)), e1 - dot2 n p2 * (1 / 2))
  end.
