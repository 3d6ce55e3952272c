(** * Model of the instanton optimisers: springs, weights, Hessians, friction, reduced path

    ipi/engine/motion/instanton.py and ipi/utils/instools.py.  Floating point numbers are real
    numbers.  [dof] is the number of coordinates of a bead (3 natoms), [n] the number of beads;
    [q b c] is coordinate [c] of bead [b]; in a flat matrix the coordinate of bead [b] is
    [b * dof + c].  [coef] is the list of the discretisation coefficients. *)
From Coq Require Import List Arith Lia Reals Lra Bool String.
From Verif Require Import RSum NMModel SpringModel InstFix.
Import ListNotations.
Open Scope list_scope.
Open Scope R_scope.

Definition vec := nat -> R.
Definition cf (coef : list R) (i : nat) : R := nth i coef 0.

(** ** PesMapper.evaluate, instanton.py:403-414 *)
Definition weight (coef : list R) (b : nat) : R := (cf coef (b + 1) + cf coef b) / 2.
Definition pes_evaluate (coef : list R) (pot : vec) (f : mat) : vec * mat :=
  let e := pot in
  let g := fun b c => - f b c in
  (fun b => e b * (cf coef (b + 1) + cf coef b) / 2, fun b c => g b c * (cf coef (b + 1) + cf coef b) / 2).

(** ** SpringMapper, instanton.py:690-871 *)
(** bind, lines 711-712: rp_factor is 2 for rates and 1 for splittings. *)
Definition sp_omegak (rp wn : R) (n k : nat) : R := rp * o_omegak wn n k.
Definition sp_omegan (rp wn : R) : R := rp * wn.
(** __call__, lines 737-807: the coefficients are chosen, and not used. *)
Definition spring_call (n dof : nat) (m : vec) (rp wn : R) (coef : list R) (q : mat) : R * mat :=
  if (n =? 1)%nat then (0, fun _ _ => 0)
  else
    let C := mk_o_nm_matrix n in
    let gq_k := fun k c => app n C (fun b => q b c) k in
    let e := / 2 * Rsum n (fun k => Rsum dof (fun c => sp_omegak rp wn n k ^ 2 * (m c * gq_k k c ^ 2))) in
    let g := fun b c => m c * app n (transpose C) (fun k => gq_k k c * sp_omegak rp wn n k ^ 2) b in
    (e, g).
(** Second argument of __call__: lines 740-745 with the truth of python's values.  The first test
    of an array of several numbers raises ValueError. *)
Inductive disc : Type := DTrue | DFalse | DStr (s : string) | DArray (l : list R).
Definition truth_disc (d : disc) : res bool :=
  match d with DTrue => Val true | DFalse => Val false | DStr s => Val (truth s)
  | DArray [x] => Val (if Req_EM_T x 0 then false else true) | DArray _ => ValueError end.
Definition chosen_coef (coef : list R) (d : disc) : res (list R) :=
  bind (truth_disc d) (fun b =>
  if b then Val coef
  else match d with
       | DStr s => if String.eqb s "one" then Val (map (fun _ => 1) coef) else AttributeError
       | DArray l => if (List.length l =? List.length coef)%nat then Val l else ValueError
       | _ => AttributeError end).
(** The same call with its parameters (x, ret, new_disc); [None] is python's None. *)
Definition sm_call (n dof : nat) (m : vec) (rp wn : R) (coef : list R) (q : mat) (ret new_disc : disc) : res (option (R * mat)) :=
  bind (chosen_coef coef new_disc) (fun coef => bind (truth_disc ret) (fun r => Val (if r then Some (spring_call n dof m rp wn coef q) else None))).
(** Mapper.__call__, lines 934-941, mode "all" or "springs": [self.sm(x, new_disc)] gives new_disc
    as the parameter ret; unpacking None raises TypeError. *)
Definition mapper_springs (n dof : nat) (m : vec) (rp wn : R) (coef : list R) (q : mat) (new_disc : disc) : res (R * mat) :=
  bind (sm_call n dof m rp wn coef q new_disc DTrue) (fun o => match o with Some r => Val r | None => TypeError end).

(** spring_hessian, lines 810-871.  Blocks are added one after another. *)
Definition add_block (dof : nat) (i j : nat) (B : mat) (h : mat) : mat := fun r s =>
  h r s + (if ((r / dof =? i) && (s / dof =? j))%nat then B (r mod dof)%nat (s mod dof)%nat else 0).
Definition diag (v : vec) : mat := fun r s => if (r =? s)%nat then v r else 0.
Definition scale_mat (x : R) (B : mat) : mat := fun r s => B r s * x.
Definition spring_hessian (dof n : nat) (m : vec) (omega2 : R) (mode : string) (coef : list R) : res mat :=
  if negb (List.length coef =? n + 1)%nat then Stop
  else if (n =? 1)%nat then Val (fun _ _ => 0)
  else
    let h_sp := fun c => m c * omega2 in
    let diag1 := diag h_sp in
    let both := fun i h => add_block dof i i (scale_mat (1 / cf coef i + 1 / cf coef (i + 1)) diag1) h in
    let d :=
      if String.eqb mode "half" then
        let h := add_block dof 0 0 (scale_mat (/ cf coef 1) diag1) (fun _ _ => 0) in
        let h := add_block dof (n - 1) (n - 1) (scale_mat (/ cf coef (n - 1)) diag1) h in
        Val (fold_left (fun h i => both i h) (seq 1 (n - 2)) h)
      else if (String.eqb mode "splitting" || String.eqb mode "full")%bool then
        Val (fold_left (fun h i => both i h) (seq 0 n) (fun _ _ => 0))
      else ValueError in
    let ndiag := diag (fun c => - h_sp c) in
    bind d (fun h =>
    let h := fold_left (fun h i => add_block dof (i + 1) i (scale_mat (1 / cf coef (i + 1)) ndiag)
                                     (add_block dof i (i + 1) (scale_mat (1 / cf coef (i + 1)) ndiag) h)) (seq 0 (n - 1)) h in
    if String.eqb mode "full"
    then Val (add_block dof (n - 1) 0 (scale_mat (/ cf coef 0) ndiag) (add_block dof 0 (n - 1) (scale_mat (/ cf coef 0) ndiag) h))
    else Val h).

(** red2comp, instools.py:156-171: [h] is the Hessian in the reduced form. *)
Definition red2comp (dof n : nat) (coef : list R) (h : mat) : mat := fun r s =>
  if ((r / dof =? s / dof) && (r / dof <? n))%nat
  then h (r mod dof)%nat s * (cf coef (r / dof) + cf coef (r / dof + 1)) / 2 else 0.
(** What NicholsOptimizer.step adds up, instanton.py:1505-1513. *)
Definition full_hessian (dof n : nat) (m : vec) (omega2 : R) (coef : list R) (h : mat) : res mat :=
  bind (spring_hessian dof n m omega2 "half" coef) (fun hs => Val (fun r s => hs r s + red2comp dof n coef h r s)).

(** banded_hessian, instools.py:57-98 (what is made of href, lines 24-55, is not used).  Row [u] is
    the diagonal, row [0] the upper diagonal at distance [u = dof].  Concatenations are lists of
    blocks; adding a list of blocks of the wrong number raises ValueError. *)
Definition band_phys (dof n : nat) (coef : list R) (h : mat) : mat := fun j col =>
  (* lines 61-69: columns (u - j) + i dof to (i + 1) dof of row j, for j >= 1 *)
  let i := (col / dof)%nat in
  let k := (dof - j)%nat in
  if ((1 <=? j) && (j <=? dof) && (i <? n) && (k <=? col mod dof))%nat
  then h (col mod dof - k)%nat col * (cf coef i + cf coef (i + 1)) / 2
  else 0.
Definition blocks_at (dof : nat) (l : list vec) (col : nat) : R := nth (col / dof) l (fun _ => 0) (col mod dof)%nat.
Definition banded_hessian (dof n : nat) (m : vec) (omega2 : R) (masses : bool) (shift : R) (coef : list R) (h : mat) : res mat :=
  let hnew := band_phys dof n coef h in
  bind (if (1 <? n)%nat then
          let d_corner := if masses then fun c => m c * omega2 else fun _ => 1 * omega2 in
          let d_init := fun c => d_corner c / cf coef 1 in
          let d_fin := fun c => d_corner c / cf coef (List.length coef - 2) in
          let mid := fun i => fun c => d_corner c * (1 / cf coef i + 1 / cf coef (i + 1)) in
          let diag_sp := [d_init] ++ ([mid 1%nat] ++ map mid (seq 2 (n - 3))) ++ [d_fin] in
          let out := fun i => fun c => - d_corner c * (1 / cf coef i) in
          let row0 := [(fun _ => 0) : vec] ++ [out 1%nat] ++ map out (seq 2 (n - 2)) in
          if (List.length diag_sp =? n)%nat
          then if (List.length row0 =? n)%nat
               then Val (fun j col => if (j =? 0)%nat then blocks_at dof row0 col
                                      else if (j =? dof)%nat then hnew j col + blocks_at dof diag_sp col else hnew j col)
               else ValueError
          else ValueError
        else Val hnew)
    (fun hnew => Val (fun j col => if (j =? dof)%nat then hnew j col + shift else hnew j col)).
(** sym_band, instools.py:101-110; [junk] is what np.empty holds. [u + 1] rows, [M] columns. *)
Definition sym_band (u M : nat) (junk A : mat) : mat := fun r col =>
  if (r <=? u)%nat then A r col
  else let i := (r - u)%nat in if (col <? M - i)%nat then A (u - i)%nat (col + i)%nat else junk r col.
(** The matrix solved by scipy's solve_banded((u, u), ab, .): entry [i, j] at [ab[u + i - j, j]]. *)
Definition of_band (u : nat) (ab : mat) : mat := fun i j =>
  if ((j <=? i + u) && (i <=? j + u))%nat then ab (u + i - j)%nat j else 0.
(** get_dynmat (hesstools.py:12-30), for a reduced Hessian. *)
Definition dynmat (dof : nat) (m : vec) (h : mat) : mat := fun i c => / sqrt (m i) * (h i c * / sqrt (m (c mod dof)%nat)).
(** Newton-Raphson step, instanton.py:1612-1641, and the step of the Lanczos optimiser, lines
    1661-1763, as relations: solve_banded gives [y] with [A y = alpha M^(-1/2) f], the step is
    [M^(-1/2) y]. *)
Definition is_step (dof n : nat) (m : vec) (junk band : mat) (alpha : R) (f d_x : vec) : Prop :=
  exists y : vec,
    (forall r, (r < dof * n)%nat -> Rsum (dof * n) (fun s => of_band dof (sym_band dof (dof * n) junk band) r s * y s) = / sqrt (m (r mod dof)%nat) * f r) /\
    (forall r, (r < dof * n)%nat -> d_x r = alpha * y r * / sqrt (m (r mod dof)%nat)).
(** lines 1758-1759 *)
Definition shift_band (dof : nat) (lamb : R) (band : mat) : mat := fun j col => if (j =? dof)%nat then band j col + - 1 * lamb else band j col.
(** Rescaling, lines 1587-1592, 1633-1638 and 1767-1772. *)
Fixpoint amax (n : nat) (v : vec) : R := match n with O => 0 | S n' => Rmax (amax n' v) (Rabs (v n')) end.
Definition rescale (n : nat) (big_step : R) (d_x : vec) : vec :=
  if Rlt_dec big_step (amax n d_x) then fun i => d_x i * (big_step / amax n d_x) else d_x.

(** ** get_hessian of the weighted gradient (hesstools.py:248-275): the mapper called with
    new_disc = False still gives the weighted gradient of [pes_evaluate]. *)
Definition mapper_gradient (coef : list R) (force : mat -> mat) (x : mat) : mat :=
  snd (pes_evaluate coef (fun _ => 0) (force x)).
Definition displace (j : nat) (d : R) (x : mat) : mat := fun b c => if (c =? j)%nat then x b c + d else x b c.
Definition get_hessian (dof : nat) (d : R) (gm : mat -> mat) (x0 : mat) : mat := fun j s =>
  (gm (displace j d x0) (s / dof)%nat (s mod dof)%nat - gm (displace j (- d) x0) (s / dof)%nat (s mod dof)%nat) / (2 * d).

(** ** FrictionMapper, instanton.py:417-687 *)
(** compute_friction_terms, lines 589-617; [dgdq b] is the root of the friction of bead [b], [gq]
    what obtain_g gives, [LT] is fric_LTwk. *)
Definition friction_terms (n dof : nat) (LT : vec) (dgdq : nat -> mat) (gq : mat) : R * mat :=
  let C := mk_o_nm_matrix n in
  let gq_k := fun k c => app n C (fun b => gq b c) k in
  let e := / 2 * Rsum n (fun k => Rsum dof (fun c => LT k * gq_k k c ^ 2)) in
  let f := fun b c => app n (transpose C) (fun k => LT k * gq_k k c) b in
  (e, fun b c => app dof (dgdq b) (f b) c).
(** evaluate, lines 671-687: the energy is added to the array of the potentials. *)
Definition friction_evaluate (coef : list R) (n dof : nat) (LT : vec) (dgdq : nat -> mat) (gq : mat) (pot : vec) (f : mat) : vec * mat :=
  let '(e_friction, g_friction) := friction_terms n dof LT dgdq gq in
  let e := fun b => pot b + e_friction in
  let g := fun b c => - f b c + g_friction b c in
  (fun b => e b * (cf coef (b + 1) + cf coef b) / 2, fun b c => g b c * (cf coef (b + 1) + cf coef b) / 2).
(** lines 505-506: fric_LTwk. *)
Definition fric_LTwk (rp wn : R) (n : nat) (spec : vec) : vec := fun k => sp_omegak rp wn n k * spec k.
(** check_eta, lines 457-471: [sym b] and [pos b] tell whether the friction of bead [b] is
    symmetric and has a real root. The second test is outside the loop. *)
Definition check_eta (n : nat) (sym pos : nat -> bool) : res unit :=
  if negb (forallb sym (seq 0 n)) then TypeError (* AssertionError *)
  else match n with O => AttributeError (* UnboundLocalError *) | S n' => if pos n' then Val tt else ValueError end.
(** get_fric_rp_hessian, lines 509-557. *)
Definition set_entry (h : mat) (r s : nat) (x : R) : mat := fun r' s' => if ((r' =? r) && (s' =? s))%nat then x else h r' s'.
Definition for2 (a b : nat) (f : nat -> nat -> mat -> mat) (h : mat) : mat :=
  fold_left (fun h i => fold_left (fun h j => f i j h) (seq 0 b) h) (seq 0 a) h.
Definition sd_term (n nphys : nat) (LT : vec) (dgdq : nat -> mat) (gq : mat) (fh : nat -> nat -> nat -> nat -> R) (b j k : nat) : R :=
  let C := mk_o_nm_matrix n in
  let prefactor := fun b c => app n (transpose C) (fun k => LT k * app n C (fun b => gq b c) k) b in
  Rsum nphys (fun i => if Req_EM_T (dgdq b i j) 0 then 0 else / 2 * prefactor b i * fh b i j k / dgdq b i j).
Definition cross_term (n nphys : nat) (LT : vec) (dgdq : nat -> mat) (nl ne j k : nat) : R :=
  let C := mk_o_nm_matrix n in
  Rsum n (fun alpha => C alpha nl * C alpha ne * LT alpha) * Rsum nphys (fun i => dgdq nl i j * dgdq ne i k).
Definition fric_rp_hessian (n nphys : nat) (LT : vec) (dgdq : nat -> mat) (gq : mat) (fh : nat -> nat -> nat -> nat -> R) (SD : bool) : mat :=
  let h := fun _ _ => 0 in
  let h := if SD then fold_left (fun h b => for2 nphys nphys (fun j k h => set_entry h (nphys * b + j) (nphys * b + k) (sd_term n nphys LT dgdq gq fh b j k)) h) (seq 0 n) h else h in
  for2 n n (fun nl ne h => for2 nphys nphys (fun j k h => set_entry h (nphys * nl + j) (nphys * ne + k) (cross_term n nphys LT dgdq nl ne j k)) h) h.

(** ** The reduced path *)
(** ms_pathway, instools.py:297-306 *)
Definition ms_step (dof : nat) (m : vec) (q : mat) (i : nat) : R :=
  sqrt (Rsum dof (fun c => ((q i c - q (i - 1)%nat c) * sqrt (m c)) ^ 2)).
Definition ms_pathway (dof n : nat) (m : vec) (q : mat) : vec := fun i =>
  if ((1 <=? i) && (i <? n))%nat then Rsuml (firstn i (map (ms_step dof m q) (seq 1 i))) else 0.
(** interpolation, instanton.py:329-360; line 341-347. *)
Definition far (max_ms max_e : R) (path pot : vec) (i old : nat) : bool :=
  if Rlt_dec max_ms (path i - path old) then true else if Rlt_dec max_e (Rabs (pot i - pot old)) then true else false.
Fixpoint select (max_ms max_e : R) (path pot : vec) (is : list nat) (old : nat) (acc : list nat) : list nat :=
  match is with
  | [] => acc
  | i :: is' => if far max_ms max_e path pot i old then select max_ms max_e path pot is' i (acc ++ [i]) else select max_ms max_e path pot is' old acc
  end.
Definition indexes (spline : bool) (max_ms max_e : R) (n : nat) (path pot : vec) : res (list nat) :=
  if spline then
    let l := select max_ms max_e path pot (seq 1 (n - 1)) 0 [0%nat] in
    let l := if memb (n - 1) l then l else l ++ [(n - 1)%nat] in
    if (List.length l <=? 2)%nat then ValueError else Val l
  else Val (seq 0 n).
(** bind, lines 299-314: whether to interpolate, and the thresholds. *)
Definition thresholds (max_ms max_e : R) : option (R * R) :=
  if Rlt_dec 0 max_ms then Some (max_ms, if Rlt_dec 0 max_e then max_e else 10000000)
  else if Rlt_dec 0 max_e then Some (1000000, max_e) else None.

(** ** initial_geo, instanton.py:1059-1083: [v] is the full vector of the unstable mode. *)
Definition initial_geo (n : nat) (delta : R) (v : vec) (q : mat) : mat := fun i c =>
  q i c + delta * cos (INR i * PI / INR (n - 1)) * v c.

(** ** exitstep, lines 1116-1130: whether the run ends. *)
Record tolerances : Type := Tol { tol_energy : R; tol_force : R; tol_position : R }.
Definition exits (T : tolerances) (natoms : R) (d_u fmax df_norm d_x_max : R) : bool :=
  let le a b := if Rle_dec a b then true else false in
  (le (Rabs (d_u / natoms)) (tol_energy T) && (le fmax (tol_force T) || le df_norm (1 / 100000000)) && le d_x_max (tol_position T))%bool.
