(** * Model of the self-consistent phonons (ipi/engine/motion/scphonons.py)

    Floating point numbers are real numbers. [n] is the number of degrees of freedom ([dof], three
    times the number of atoms), [ms] the number of configurations of one iteration ([max_steps]),
    [np] the number of them computed at a time ([nparallel]), [mi] the largest number of iterations
    ([max_iter]). A batch is the set of configurations of one iteration: [x k] is configuration
    [k], [f k] the force there. numpy's [eigh] is an argument. Reading and writing of files is
    reduced to whether the configurations of an iteration are on disk. *)
From Coq Require Import List Arith Lia Bool Reals Lra String.
From Verif Require Import RSum MinModel PhonModel.
Import ListNotations.
Open Scope R_scope.

(** ** Drawing configurations: SCPhononator.reset, lines 341-358 *)
(** Line 343: the row of the random numbers used in iteration [isc] at the counter [imc]. *)
Definition irng (isc ms imc : nat) : nat := (isc * ms / 2 + (imc + 1) / 2)%nat.
(** The [while] loop: [dev r] is the displacement made from row [r] of the random numbers (lines
    344-351); each passage stores the configurations [imc - 1] and [imc]. A store after the
    end of the array is an IndexError, [None]. [fuel] bounds the passages. *)
Definition put {A} (ms k : nat) (v : A) (l : list A) : option (list A) :=
  if Nat.ltb k ms then if Nat.eqb k (List.length l) then Some (l ++ [v])%list else None else None.
Fixpoint draw (fuel isc ms : nat) (q : vec) (dev : nat -> vec) (imc : nat) (l : list vec) : option (list vec) :=
  match fuel with
  | O => Some l
  | S fuel =>
    if Nat.leb imc ms then
      let x := dev (irng isc ms imc) in
      match put ms (imc - 1) (vadd q x) l with
      | None => None
      | Some l1 =>
        match put ms imc (vadd q (fun i => - x i)) l1 with
        | None => None
        | Some l2 => draw fuel isc ms q dev (imc + 2) l2
        end
      end
    else Some l
  end.
(** Lines 342-358 start with imc = 1 (line 270). *)
Definition samples (isc ms : nat) (q : vec) (dev : nat -> vec) : option (list vec) := draw (S ms) isc ms q dev 1 [].
(** Rows of the table of random numbers, lines 169-181 (from a file: as many as it has). *)
Definition rows_pseudo (ms mi : nat) : nat := (ms * mi)%nat.
Definition rows_sobol (ms mi : nat) : nat := (ms * mi + 1)%nat.

(** ** The sequence of steps: SCPhononsMover.step 186-199, bind 105-118 *)
Section Schedule.
(** [D] are distributions (a mean position with a correlation matrix). *)
Context {D : Type}.
Record sched := Sched
  { isc : nat; imc : nat;
    cur : D;                      (* beads.q with dynmatrix *)
    recd : nat -> D;              (* self.q and self.iD, lines 267-268 *)
    prov : nat -> D;              (* what the configurations self.x were really drawn from *)
    done : list (nat * nat) }.    (* configurations whose forces were computed, with their iteration *)
Inductive result := Running (s : sched) | Stopped (s : sched) | Failed_index.
Variables (ms np mi : nat).
(** the configurations of an iteration found on disk, and what they had been drawn from. *)
Variable file : nat -> option D.
(** what reset does to the matrix before recording it (lines 264-266), and displace (450-710). *)
Variables (prep : D -> D) (move : nat -> D -> D).
Definition upd {A} (f : nat -> A) (i : nat) (v : A) : nat -> A := fun j => if Nat.eqb j i then v else f j.
(** bind, lines 108-118. *)
Definition bind_ok (nbeads : nat) : bool := Nat.eqb (ms mod np) 0 && negb (Nat.ltb 1 nbeads).
(** reset, lines 254-365. *)
Definition reset (s : sched) : result :=
  let c := prep (cur s) in
  match file (isc s) with
  | Some d => Running (Sched (isc s) 1 c (upd (recd s) (isc s) c) (upd (prov s) (isc s) d) (done s))
  | None => if Nat.even ms then Running (Sched (isc s) 1 c (upd (recd s) (isc s) c) (upd (prov s) (isc s) c) (done s))
            else Failed_index
  end.
(** step, lines 367-411: all forces from disk, or those of the next [np] configurations. *)
Definition mc_step (s : sched) : result :=
  match file (isc s) with
  | Some _ => Running (Sched (isc s) (imc s + ms) (cur s) (recd s) (prov s) (done s))
  | None => Running (Sched (isc s) (imc s + np) (cur s) (recd s) (prov s)
                      (done s ++ map (fun k => (isc s, k)) (seq (imc s - 1) np)))
  end.
(** SCPhononsMover.step, with print_energetics 447-448. *)
Definition scp_step (s : sched) : result :=
  if Nat.eqb (isc s) mi then Stopped s
  else if Nat.eqb (imc s) 0 then reset s
  else if Nat.leb (imc s) ms then mc_step s
  else Running (Sched (S (isc s)) 0 (move (S (isc s)) (cur s)) (recd s) (prov s) (done s)).
Fixpoint scp_run (k : nat) (s : sched) : result :=
  match k with
  | O => Running s
  | S k => match scp_step s with Running s' => scp_run k s' | r => r end
  end.
(** bind, lines 154-156. *)
Definition start (d : D) : sched := Sched 0 0 d (fun _ => d) (fun _ => d) [].
End Schedule.
Arguments sched : clear implicits.
Arguments result : clear implicits.

(** ** Weights: calculate_weights 782-815 *)
Definition quad (n : nat) (A : mat) (u : vec) : R := dot n (mv n A u) u.
(** Lines 799-802. *)
Definition expo (n : nat) (iDp : mat) (qp : vec) (iD0 : mat) (q0 x : vec) : R :=
  - (1 / 2 * quad n iDp (vsub qp x)) + 1 / 2 * quad n iD0 (vsub x q0).
Definition rweight n iDp qp iD0 q0 x : R := exp (expo n iDp qp iD0 q0 x).
Definition tiny : R := / 10 ^ 24.
(** Lines 804-807. *)
Definition nweight (ms : nat) (rw : nat -> R) (k : nat) : R :=
  if Rlt_dec (Rsum ms rw) tiny then 0 else rw k / Rsum ms rw.
(** np.mean, np.var. *)
Definition mean (ms : nat) (g : nat -> R) : R := Rsum ms g / INR ms.
Definition var (ms : nat) (g : nat -> R) : R := Rsum ms (fun k => (g k - mean ms g) ^ 2) / INR ms.
(** Line 813: the logarithm of zero weights gives nan, which nan_to_num makes zero. *)
Definition bweight (ms e : nat) (rw : nat -> R) : R :=
  (if Rlt_dec (Rsum ms rw) tiny then 0 else exp (- var ms (fun k => ln (nweight ms rw k)))) ^ e.

(** ** Averages: weighted_force 712-746, weighted_hessian 748-780 *)
(** One batch: configurations, forces, and what it was drawn from (as recorded). *)
Record batch := Batch { bx : nat -> vec; bf : nat -> vec; bq : vec; biD : mat }.
(** Lines 731, 766: the force of the trial harmonic potential. *)
Definition fharm (n : nat) (K : mat) (qp x : vec) : vec := fun j => - Rsum n (fun i => (x i - qp i) * K i j).
Definition brw (n : nat) (iDp : mat) (qp : vec) (b : batch) : nat -> R :=
  fun k => rweight n iDp qp (biD b) (bq b) (bx b k).
(** Lines 738-741. *)
Definition avg_batch (ms : nat) (rw : nat -> R) (g : nat -> R) : R := Rsum ms (fun k => rw k * g k) / Rsum ms rw.
Definition var_batch (ms : nat) (rw : nat -> R) (g : nat -> R) : R :=
  let V1 := Rsum ms rw in let V2 := Rsum ms (fun k => rw k ^ 2) in
  Rsum ms (fun k => rw k * (g k - avg_batch ms rw g) ^ 2) / (V1 - V2 / V1).
Definition resid (n : nat) (K : mat) (qp : vec) (b : batch) (j : nat) : nat -> R :=
  fun k => bf b k j - fharm n K qp (bx b k) j.
Section Averages.
Variables (n ms e : nat) (qp : vec) (K iD : mat) (bs : list batch).
Definition sw (b : batch) : R := bweight ms e (brw n iD qp b).
Definition total : R := Rsuml (map sw bs).
(** Lines 742-746. *)
Definition force : vec := fun j => Rsuml (map (fun b => sw b * avg_batch ms (brw n iD qp b) (resid n K qp b j)) bs) / total.
Definition force_err : vec := fun j =>
  sqrt (Rsuml (map (fun b => sw b ^ 2 * var_batch ms (brw n iD qp b) (resid n K qp b j)) bs) / total ^ 2 / INR ms).
(** Lines 771-776. *)
Definition dK (b : batch) : mat := fun i j =>
  - Rsum n (fun c => iD i c * Rsum ms (fun k => resid n K qp b j k * brw n iD qp b k * (bx b k c - qp c))) / Rsum ms (brw n iD qp b).
Definition K_batch (b : batch) : mat := fun i j => K i j + 1 / 2 * (dK b i j + dK b j i).
Definition hessian : mat := fun i j => Rsuml (map (fun b => sw b * K_batch b i j) bs) / total.
End Averages.

(** ** Frequencies: apply_hpf 887-907 *)
(** Eigenvalues, eigenvectors (columns), the modes taken as zero, and the three arrays that are
    written for the other modes only; the matrix is the one with absolute eigenvalues. *)
Record hpf := Hpf { h_dyn : mat; h_w2 : vec; h_U : mat; h_z : nat -> bool; h_w : vec; h_iw2 : vec; h_iw : vec }.
Definition spectral (n : nat) (c : vec) (U : mat) : mat := fun i j => Rsum n (fun k => c k * U i k * U j k).
Definition apply_hpf (n : nat) (eigh : mat -> vec * mat) (atol : R) (w iw2 iw : vec) (A : mat) : hpf :=
  let e := eigh A in
  let A1 := spectral n (fun k => Rabs (fst e k)) (snd e) in
  let e1 := eigh A1 in
  let z := fun k => if Rlt_dec (fst e1 k) atol then true else false in
  Hpf A1 (fun k => if z k then 0 else fst e1 k) (snd e1) z
    (fun k => if z k then w k else sqrt (fst e1 k))
    (fun k => if z k then iw2 k else 1 / fst e1 k)
    (fun k => if z k then iw k else sqrt (1 / fst e1 k)).

(** ** Correlations: get_KnD 817-885 *)
Inductive stat := Qn | Cl.
(** Lines 829-847: mean square displacement of a mode. *)
Definition td (st : stat) (T : R) (h : hpf) (k : nat) : R :=
  if h_z h k then 0
  else match st with
       | Qn => 1 / 2 * h_iw h k / tanh (1 / 2 * h_w h k / T)
       | Cl => h_iw h k ^ 2 * T
       end.
(** Lines 849-857. *)
Definition itd st T h k : R := if h_z h k then 0 else 1 / td st T h k.
Definition sqtd st T h k : R := if h_z h k then 0 else sqrt (td st T h k).
(** Lines 859-878: sums over the modes that are not zero. *)
Definition over_modes (n : nat) (h : hpf) (c : vec) : mat := fun i j =>
  Rsum n (fun k => if h_z h k then 0 else c k * (h_U h i k * h_U h j k)).
(** Products with the diagonal matrices of masses, on both sides. *)
Definition scaled (s : vec) (A : mat) : mat := fun i j => s i * (A i j * s j).
(** Lines 880-885; [sq i] is the square root of the mass of coordinate [i], [isq i] its inverse. *)
Definition get_K (sq : vec) (h : hpf) : mat := scaled sq (h_dyn h).
Definition get_iD n (sq : vec) st T h : mat := scaled sq (over_modes n h (itd st T h)).
Definition get_D n (isq : vec) st T h : mat := scaled isq (over_modes n h (td st T h)).
Definition get_iK n (isq : vec) h : mat := scaled isq (over_modes n h (h_iw2 h)).
Definition get_sqtD n st T h : mat := over_modes n h (sqtd st T h).
(** Line 894: V. *)
Definition get_V (isq : vec) (h : hpf) : mat := fun i k => isq i * h_U h i k.
(** Line 351: a displacement made of normal random numbers [g]. *)
Definition deviate n (isq : vec) st T h (g : vec) : vec := fun i => isq i * mv n (get_sqtD n st T h) g i.

(** ** Moving the mean position: displace 450-710 *)
(** Lines 465-469, 571-573: force and error along the modes. *)
Definition fmode (n : nat) (V : mat) (z : nat -> bool) (f : vec) : vec := fun k =>
  if z k then 0 else Rsum n (fun i => V i k * f i).
Definition fmode_err (n : nat) (V : mat) (fe : vec) : vec := fun k => sqrt (Rsum n (fun i => V i k ^ 2 * fe i ^ 2)).
(** Line 471: all components below their errors. *)
Definition insignificant (n : nat) (fnm err : vec) : bool :=
  forallb (fun k => if Rlt_dec (Rabs (fnm k)) (err k) then true else false) (seq 0 n).
(** Line 522. *)
Definition move_ik (n : nat) (iK : mat) (q f : vec) : vec := vadd q (mv n iK f).
(** Line 491. *)
Definition move_sd (n : nat) (D : mat) (tau : R) (q f : vec) : vec := vadd q (fun i => mv n D f i * tau).
(** Lines 575-581, and 653-657 with the factor [c]. *)
Definition nm_disp (c : R) (iw2 fnm err : vec) (z : nat -> bool) : vec := fun k =>
  if z k then 0 else if Rlt_dec (Rabs (fnm k)) (err k) then 0 else iw2 k * fnm k * c.
Definition move_nm (n : nat) (V : mat) (q d : vec) : vec := fun i => q i + Rsum n (fun k => V i k * d k).
(** Which of the branches are executed, lines 461-602. *)
Local Open Scope string_scope.
Definition branches (precheck insig : bool) (mode : string) : list string :=
  if precheck && insig then []
  else (if negb precheck && String.eqb mode "sd" then ["sd"] else []) ++
       (if String.eqb mode "ik" then ["ik"]
        else if String.eqb mode "nmik" then ["nmik"]
        else if String.eqb mode "rnmik" then ["rnmik"] else []).
(** inputs/motion/scphonons.py 75-83, 122-129. *)
Definition displace_options : list string := ["ik"; "sd"; "nmik"; "rnmik"].
Definition precheck_default : bool := true.

(** The inner loop of rnmik, lines 606-669: [look q] is what weighted_force gives at the mean
    position [q] (force, error, weights of the batches, the last one last). The state is the
    position, the factor of the displacement and the last weight. *)
Local Open Scope R_scope.
Definition rmax (l : list R) : R := fold_right Rmax 0 l.
Record inner := Inner { i_q : vec; i_scale : R; i_w : R }.
Section Inner.
Variables (n : nat) (V : mat) (z : nat -> bool) (iw2 : vec) (wthr : R) (look : vec -> vec * vec * list R).
(** Lines 619-623. *)
Definition rescale (c w w_old : R) : R :=
  if Rlt_dec (Rabs (w - w_old)) (/ 10000) then c * (11 / 10)
  else if Rlt_dec (5 / 100) (Rabs (w - w_old)) then c / (11 / 10) else c.
(** [inr s]: another passage; [inl s]: the loop is left (line 640 or 648). *)
Definition inner_pass (s : inner) : inner + inner :=
  let '(f, fe, bw) := look (i_q s) in
  let w := List.last bw 0 in
  let c := rescale (i_scale s) w (i_w s) in
  let fnm := fmode n V z f in
  let err := fmode_err n V fe in
  if insignificant n fnm err then inl (Inner (i_q s) c w)
  else if Rlt_dec (rmax bw) wthr then inl (Inner (i_q s) c w)
  else inr (Inner (move_nm n V (i_q s) (nm_disp (c / INR n) iw2 fnm err z)) c w).
(** [None]: still in the loop after [fuel] passages. *)
Fixpoint inner_loop (fuel : nat) (s : inner) : option inner :=
  match fuel with
  | O => None
  | S fuel => match inner_pass s with inl s' => Some s' | inr s' => inner_loop fuel s' end
  end.
End Inner.
