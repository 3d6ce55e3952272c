(** * Model of the minimisers (ipi/utils/mintools.py)

    The quasi-Newton methods of geometry optimisation: line search by backtracking, BFGS,
    the trust radius method, L-BFGS, damped BFGS, FIRE, the mode following step and Powell's
    update.  Arrays are flattened: a vector is a function of the index, of which the first [n]
    entries count; floating point numbers are real numbers.  The function that is minimised
    ([fdf], a GradientMapper of ipi/engine/motion/geop.py 232-264) returns energy and gradient;
    since it moves a copy of the beads, the position at which it was called last is kept where
    the caller reads it back. *)
From Coq Require Import List Arith Lia Reals Lra.
From Verif Require Import RSum.
Import ListNotations.
Open Scope R_scope.

Definition vec := nat -> R.
Definition mat := nat -> nat -> R.
(** numpy's dot of two vectors, of a matrix and a vector, outer, norm and the arithmetic used. *)
Definition dot (n : nat) (u v : vec) : R := Rsum n (fun i => u i * v i).
Definition mv (n : nat) (A : mat) (v : vec) : vec := fun i => Rsum n (fun j => A i j * v j).
Definition outer (u v : vec) : mat := fun i j => u i * v j.
Definition norm (n : nat) (v : vec) : R := sqrt (dot n v v).
Definition vadd (u v : vec) : vec := fun i => u i + v i.
Definition vsub (u v : vec) : vec := fun i => u i - v i.
Definition vscal (c : R) (v : vec) : vec := fun i => c * v i.
Definition eye : mat := fun i j => delta i j.
(** numpy's amax of numbers that are not negative. *)
Fixpoint amax (n : nat) (f : nat -> R) : R :=
  match n with O => 0 | S n' => Rmax (amax n' f) (f n') end.

(** ** Line search by backtracking: min_approx, lines 408-537 *)
Definition alf : R := 1 / 10000.
(** lines 438-440: too long a step is scaled down. *)
Definition ls_dir (n : nat) (big_step : R) (d0 : vec) : vec :=
  if Rlt_dec big_step (norm n d0) then vscal (big_step / norm n d0) d0 else d0.
(** lines 447-454: the factor below which positions count as converged. *)
Definition ls_test (n : nat) (x0 d : vec) : R := amax n (fun i => Rabs (d i) / Rmax (Rabs (x0 i)) 1).
(** lines 489-521: the next factor; [alam2] and [f2] are those of the last but one try. *)
Definition ls_tmplam (f0 slope alam fx alam2 f2 : R) : R :=
  if Req_EM_T alam 1 then - slope / (2 * (fx - f0 - slope))
  else
    let rhs1 := fx - f0 - alam * slope in
    let rhs2 := f2 - f0 - alam2 * slope in
    let a := (rhs1 / (alam * alam) - rhs2 / (alam2 * alam2)) / (alam - alam2) in
    let b := (- alam2 * rhs1 / (alam * alam) + alam * rhs2 / (alam2 * alam2)) / (alam - alam2) in
    if Req_EM_T a 0 then - slope / (2 * b)
    else
      let disc := b * b - 3 * a * slope in
      let t := if Rlt_dec disc 0 then (1 / 2) * alam
               else if Rle_dec b 0 then (- b + sqrt disc) / (3 * a)
               else - slope / (b + sqrt disc) in
      if Rlt_dec ((1 / 2) * alam) t then (1 / 2) * alam else t.
(** What a search returns (x, fx, dfx), and where the function was evaluated last. *)
Record ls_out : Type := LsOut { ls_x : vec; ls_f : R; ls_g : vec; ls_pos : vec; ls_lam : R }.
(** lines 459-537: [left] iterations are left; [last] is what the names x, fx and dfx hold. *)
Fixpoint ls_loop (fdf : vec -> R * vec) (x0 d : vec) (f0 slope alamin : R)
    (left : nat) (alam alam2 f2 : R) (last : option ls_out) : option ls_out :=
  match left with
  | O => last
  | S left' =>
      let x := vadd x0 (vscal alam d) in
      let '(fx, dfx) := fdf x in
      if Rlt_dec alam alamin then Some (LsOut x0 fx dfx x alam)
      else if Rle_dec fx (f0 + alf * alam * slope) then Some (LsOut x fx dfx x alam)
      else ls_loop fdf x0 d f0 slope alamin left' (Rmax (ls_tmplam f0 slope alam fx alam2 f2) (1 / 10 * alam))
             alam fx (Some (LsOut x fx dfx x alam))
  end.
(** [None]: no iteration at all, and the name fx is not defined (line 536). *)
Definition min_approx (n : nat) (fdf : vec -> R * vec) (x0 : vec) (fdf0 : R * vec) (d0 : vec)
    (big_step tol : R) (itmax : nat) : option ls_out :=
  let '(f0, df0) := fdf0 in
  let d := ls_dir n big_step d0 in
  let slope := dot n df0 d in
  ls_loop fdf x0 d f0 slope (tol / ls_test n x0 d) (itmax - 1) 1 0 0 None.

(** ** BFGS, lines 543-598 *)
(** line 563: the largest step. *)
Definition bfgs_big (n : nat) (x0 : vec) (big_step : R) : R := big_step * Rmax (sqrt (dot n x0 x0)) (INR n).
(** lines 567-588: the inverse Hessian after a step [d_x] that changed the gradient by [d_g]. *)
Definition bfgs_update (n : nat) (H : mat) (d_x d_g : vec) : mat :=
  let hdg := mv n H d_g in
  let fac := dot n d_g d_x in
  let fae := dot n d_g hdg in
  let sumdg := dot n d_g d_g in
  let sumxi := dot n d_x d_x in
  if Rlt_dec (sqrt (1 / 10 ^ 13 * sumdg * sumxi)) fac then
    let dg := fun i => 1 / fac * d_x i - 1 / fae * hdg i in
    fun i j => H i j + (outer d_x d_x i j * (1 / fac) - outer hdg hdg i j * (1 / fae) + outer dg dg i j * fae)
  else H.
(** One step: the beads, their energy and gradient, the direction and the inverse Hessian
    (BFGSOptimizer.step, geop.py 419-501, the branch without fixed atoms). *)
Record bfgs_state : Type := BfgsS { b_x : vec; b_f : R; b_g : vec; b_d : vec; b_h : mat }.
Definition bfgs_step (n : nat) (fdf : vec -> R * vec) (big_step tol : R) (itmax : nat) (s : bfgs_state)
  : option bfgs_state :=
  match min_approx n fdf (b_x s) (b_f s, b_g s) (b_d s) (bfgs_big n (b_x s) big_step) tol itmax with
  | None => None
  | Some o =>
      let d_x := vsub (ls_x o) (b_x s) in
      let d_g := vsub (ls_g o) (b_g s) in
      let H := bfgs_update n (b_h s) d_x d_g in
      let d := mv n H (fun i => - ls_g o i) in
      (* geop.py 494-497: the beads go where the mapper was evaluated last *)
      Some (BfgsS (ls_pos o) (ls_f o) (ls_g o) d H)
  end.
(** lines 427-432 of geop.py: the first direction is the force, normalised. *)
Definition bfgs_init (n : nat) (fdf : vec -> R * vec) (x : vec) : bfgs_state :=
  let '(u, g) := fdf x in
  BfgsS x u g (fun i => - g i / sqrt (dot n (fun k => - g k) (fun k => - g k))) eye.
Fixpoint bfgs_run (n : nat) (fdf : vec -> R * vec) (big_step tol : R) (itmax k : nat) (s : bfgs_state)
  : option bfgs_state :=
  match k with
  | O => Some s
  | S k' => match bfgs_step n fdf big_step tol itmax s with
            | None => None
            | Some s' => bfgs_run n fdf big_step tol itmax k' s'
            end
  end.

(** ** Trust radius method *)
(** TRM_UPDATE, lines 657-677. *)
Definition trm_update (n : nat) (dx df : vec) (h : mat) : mat :=
  let dg := fun i => - df i in
  let h1 := fun i j => dg i * dg j / dot n dg dx in
  let h2a := mv n h dx in
  let h2b := fun j => Rsum n (fun i => dx i * h i j) in
  let h2 := fun i j => h2a i * h2b j / dot n dx h2a in
  fun i j => h i j + (h1 i j - h2 i j).
(** min_trm, lines 680-768; [d] and [w] are what numpy.linalg.eigh returned for the Hessian.
    The force in the basis of the eigenvectors, without zero modes (lines 710-720: the
    eigenvalues come in ascending order, so the modes from neg to neg + zero are those between
    the two thresholds). *)
Definition trm_gE (n : nat) (f : vec) (d : vec) (w : mat) : vec := fun i =>
  if Rlt_dec (d i) (- (1 / 10 ^ 7)) then Rsum n (fun k => f k * w k i)
  else if Rlt_dec (d i) (1 / 10 ^ 7) then 0
  else Rsum n (fun k => f k * w k i).
(** lines 723-727: the Newton step. *)
Definition trm_newton (gE d : vec) : vec := fun i =>
  if Rlt_dec (1 / 10 ^ 5) (Rabs (d i)) then gE i / d i else 0.
(** line 729. *)
Fixpoint amin (n : nat) (f : nat -> R) : R :=
  match n with O => f O | S O => f O | S n' => Rmin (amin n' f) (f n') end.
(** lines 740-763: the search for the shift; returns the last DXE. *)
Definition trm_step (gE d : vec) (lamb : R) : vec := fun i => gE i / (d i + lamb).
Fixpoint trm_loop (n : nat) (gE d : vec) (tr : R) (left : nat) (lmin lmax lamb : R) (last : vec) : vec :=
  match left with
  | O => last
  | S left' =>
      let DXE := trm_step gE d lamb in
      let y := Rsum n (fun i => DXE i ^ 2) - tr ^ 2 in
      let dy := -2 * Rsum n (fun i => DXE i ^ 2 / (d i + lamb)) in
      if Rlt_dec (Rabs (y / dy)) (1 / 10 ^ 5) then DXE
      else if Rlt_dec (Rabs y) (1 / 10 ^ 13) then DXE
      else
        let lmax' := if Rlt_dec y 0 then Rmin lamb lmax else lmax in
        let lmin' := if Rlt_dec y 0 then lmin else Rmax lamb lmin in
        let l' := lamb - y / dy in
        let l'' := if Rle_dec l' lmin' then 1 / 2 * (lmin' + lmax')
                   else if Rle_dec lmax' l' then 1 / 2 * (lmin' + lmax') else l' in
        trm_loop n gE d tr left' lmin' lmax' l'' DXE
  end.
Definition trm_dxe (n : nat) (gE d : vec) (tr : R) : vec :=
  let DXE := trm_newton gE d in
  let min_d := amin n d in
  let iter :=
    let lmin := Rmax 0 (- min_d) in
    let lmax := 10 ^ 30 in
    trm_loop n gE d tr 100 lmin lmax (Rmin (lmin + 1 / 2) (1 / 2 * (lmin + lmax))) DXE in
  if Rlt_dec 0 min_d then (if Rlt_dec (norm n DXE) tr then DXE else iter) else iter.
Definition min_trm (n : nat) (f d : vec) (w : mat) (tr : R) : vec :=
  mv n w (trm_dxe n (trm_gE n f d w) d tr).
(** BFGSTRM, lines 602-651; [step] is min_trm for the current Hessian.  One try: the quality of
    the step, and the trust radius after it. *)
Definition trm_quality (n : nat) (u0 : R) (f0 : vec) (h0 : mat) (dx : vec) (u : R) (f : vec) : R :=
  let true_gain := u - u0 in
  let expected := - dot n f0 dx + 1 / 2 * dot n dx (mv n h0 dx) in
  let harmonic := - (1 / 2) * dot n dx (vadd f0 f) in
  if Rlt_dec (5 / 100) (norm n dx) then true_gain / expected else harmonic / expected.
Definition trm_radius (n : nat) (big_step tr quality : R) (dx : vec) : R :=
  if Rlt_dec quality (1 / 4) then 1 / 2 * norm n dx
  else if Rlt_dec (3 / 4) quality then
    if Rlt_dec (9 / 10 * tr) (norm n dx) then
      (if Rlt_dec big_step (2 * tr) then big_step else 2 * tr) else tr
  else tr.
(** The loop: [None] when [fuel] tries did not bring an accepted step. *)
Fixpoint trm_try (n : nat) (fdf : vec -> R * vec) (step : R -> vec) (x0 : vec) (u0 : R) (f0 : vec) (h0 : mat)
    (big_step : R) (fuel : nat) (tr : R) : option (vec * R * vec * vec * R) :=
  match fuel with
  | O => None
  | S fuel' =>
      let dx := step tr in
      let x := vadd x0 dx in
      let '(u, g) := fdf x in
      let f := fun i => - g i in
      let q := trm_quality n u0 f0 h0 dx u f in
      let tr' := trm_radius n big_step tr q dx in
      if Rlt_dec (1 / 10) q then Some (x, u, f, dx, tr') else trm_try n fdf step x0 u0 f0 h0 big_step fuel' tr'
  end.

(** ** L-BFGS, lines 774-888 *)
(** lines 804-807: an uphill direction is replaced; the flag tells that the caller's array is
    not the one that is used and changed from there on. *)
Definition lb_reset (n : nat) (g0 d0 : vec) : vec * bool :=
  if Rlt_dec 0 (dot n g0 d0) then ((fun i => g0 i / sqrt (dot n g0 g0)), true) else (d0, false).
(** lines 816-830: the lists of [m] steps (or changes of gradient), in which a new one is stored. *)
Definition lb_store (m k : nat) (q : list vec) (v : vec) : list vec :=
  if k <? m then firstn k q ++ v :: skipn (S k) q
  else match q with
       | [] => []
       | a :: q' => firstn (m - 1) (q' ++ [a]) ++ v :: skipn m (q' ++ [a])
       end.
(** lines 853-856: from the newest to the oldest; returns the coefficients alpha, oldest first. *)
Fixpoint lb_first (n : nat) (newest_first : list (vec * vec)) (q : vec) (alphas : list R) : vec * list R :=
  match newest_first with
  | [] => (q, alphas)
  | (s, y) :: l =>
      let a := 1 / dot n y s * dot n s q in
      lb_first n l (fun i => q i - a * y i) (a :: alphas)
  end.
(** lines 872-874: from the oldest to the newest. *)
Fixpoint lb_second (n : nat) (oldest_first : list (vec * vec)) (alphas : list R) (d : vec) : vec :=
  match oldest_first, alphas with
  | (s, y) :: l, a :: al =>
      let b := 1 / dot n y s * dot n y d in
      lb_second n l al (fun i => d i + s i * (a - b))
  | _, _ => d
  end.
(** lines 860-867: the initial inverse Hessian. *)
Definition lb_hk (n : nat) (scale : nat) (pairs : list (vec * vec)) : R :=
  match scale with
  | O => 1
  | 1%nat => match pairs with [] => 1 | (s, y) :: _ => dot n y s / dot n y y end
  | _ => match rev pairs with [] => 1 | (s, y) :: _ => dot n y s / dot n y y end
  end.
(** lines 842-874: H g for the stored pairs (oldest first). *)
Definition lb_two_loop (n : nat) (hk : R) (pairs : list (vec * vec)) (g : vec) : vec :=
  let '(q, alphas) := lb_first n (rev pairs) g [] in
  lb_second n pairs alphas (vscal hk q).
(** lines 834-839: how many of the stored pairs are used. *)
Definition lb_count (m k : nat) : nat := if k <? m - 1 then S k else m.
Definition lb_direction (n : nat) (scale m k : nat) (ql gl : list vec) (g d_x d_g : vec) : vec :=
  let fac := dot n d_g d_x in
  if Rlt_dec (sqrt (1 / 10 ^ 10 * dot n d_g d_g * dot n d_x d_x)) fac then
    let pairs := combine (firstn (lb_count m k) ql) (firstn (lb_count m k) gl) in
    let d := lb_two_loop n (lb_hk n scale pairs) pairs g in
    fun i => - d i
  else fun i => - d_x i.
Record lb_state : Type := LbS { l_x : vec; l_f : R; l_g : vec; l_d : vec; l_q : list vec; l_y : list vec }.
Definition lb_step (n : nat) (fdf : vec -> R * vec) (big_step tol : R) (itmax m scale k : nat) (s : lb_state)
  : option lb_state :=
  let '(d0, fresh) := lb_reset n (l_g s) (l_d s) in
  match min_approx n fdf (l_x s) (l_f s, l_g s) d0 (bfgs_big n (l_x s) big_step) tol itmax with
  | None => None
  | Some o =>
      let d_x := vsub (ls_x o) (l_x s) in
      let d_g := vsub (ls_g o) (l_g s) in
      let ql := lb_store m k (l_q s) d_x in
      let gl := lb_store m k (l_y s) d_g in
      let d := lb_direction n scale m k ql gl (ls_g o) d_x d_g in
      Some (LbS (ls_pos o) (ls_f o) (ls_g o) (if fresh then l_d s else d) ql gl)
  end.

(** ** Damped BFGS, lines 892-1010; [sk] is what numpy.linalg.solve(B, -g0) returned. *)
(** lines 949-956: the largest displacement of an atom, and the step scaled down to it. *)
Definition db_maxdispl (n : nat) (sk : vec) : R :=
  amax (n / 3) (fun a => sqrt (sk (3 * a)%nat ^ 2 + sk (3 * a + 1)%nat ^ 2 + sk (3 * a + 2)%nat ^ 2)).
Definition db_scaled (n : nat) (big_step : R) (sk : vec) : vec :=
  if Rlt_dec big_step (db_maxdispl n sk) then vscal (big_step / db_maxdispl n sk) sk else sk.
(** lines 969-999: the update for a step [sk] with change of gradient [yk]. *)
Definition db_yk (n : nat) (B : mat) (sk yk : vec) : vec :=
  let Bsk := mv n B sk in
  let sBs := dot n sk Bsk in
  let skyk := dot n sk yk in
  if Rlt_dec skyk (2 / 10 * sBs) then
    let theta := 8 / 10 * sBs / (sBs - skyk) in
    fun i => theta * yk i + (1 - theta) * Bsk i
  else yk.
Definition db_update (n : nat) (B : mat) (sk yk : vec) : mat :=
  let y := db_yk n B sk yk in
  let Bsk := mv n B sk in
  fun i j => B i j + (outer y y i j * (1 / dot n sk y) - outer Bsk Bsk i j / dot n sk Bsk).
(** lines 1001-1008; [low] tells that an eigenvalue below 0.1 was found. *)
Definition db_stabilise (low : bool) (B : mat) : mat :=
  if low then fun i j => B i j + 1 / 100 * eye i j else B.
(** line 945. *)
Definition db_quality (n : nat) (sk g0 : vec) : R :=
  - dot n (fun i => sk i / norm n sk) (fun i => g0 i / norm n g0).

(** ** FIRE, lines 1013-1106 *)
Record fire_state : Type := FireS { fi_v : vec; fi_a : R; fi_dn : nat; fi_up : nat; fi_dt : R }.
Record fire_par : Type :=
  FireP { maxstep : R; dtmax : R; dtmin : R; ndelay : nat; finc : R; fdec : R; astart : R; fa : R }.
(** The velocity after the step, the position and the rest. *)
Definition fire (n : nat) (P : fire_par) (x0 g0 : vec) (st : fire_state) : vec * fire_state :=
  let force := fun i => - g0 i in
  let p := dot n force (fi_v st) in
  if Rlt_dec 0 p then
    let dn := S (fi_dn st) in
    let '(dt, a) := if ndelay P <? dn then (Rmin (fi_dt st * finc P) (dtmax P), fi_a st * fa P) else (fi_dt st, fi_a st) in
    let v1 := fun i => fi_v st i + dt * force i in
    let v2 := fun i => (1 - a) * v1 i + a * norm n v1 * (force i / norm n force) in
    let dx := fun i => dt * v2 i in
    let dx' := if Rlt_dec (maxstep P) (norm n dx) then fun i => maxstep P * dx i / norm n dx else dx in
    (vadd x0 dx', FireS v2 a dn 0 dt)
  else
    let up := S (fi_up st) in
    let dt := Rmax (fi_dt st * fdec P) (dtmin P) in
    let x1 := fun i => x0 i - 1 / 2 * dt * fi_v st i in
    let v2 := fun i => 0 + dt * force i in
    let dx := fun i => dt * v2 i in
    let dx' := if Rlt_dec (maxstep P) (norm n dx) then fun i => maxstep P * dx i / norm n dx else dx in
    (vadd x1 dx', FireS v2 (astart P) 0 up dt).

(** ** Mode following: nichols, lines 1533-1612, in the basis of the modes *)
(** lines 1566-1575; mode 0: minimisation. *)
Definition nichols_min (n : nat) (gE d : vec) (big_step : R) : vec :=
  let d_x := fun j => 1 * gE j / (0 - d j) in
  let retry := let lamb := d O - Rabs (gE O / big_step) in fun j => 1 * gE j / (lamb - d j) in
  if Rlt_dec (d O) 0 then retry
  else if Rlt_dec (big_step ^ 2) (dot n d_x d_x) then retry else d_x.
(** lines 1577-1605; mode 1: search of a saddle point: alpha and lambda from the two lowest. *)
Definition nichols_par (d0 d1 : R) : R * R :=
  if Rlt_dec 0 d0 then
    if Rlt_dec d0 (d1 / 2) then (1, (2 * d0 + d1) / 4) else ((d1 - d0) / d1, (3 * d0 + d1) / 4)
  else if Rlt_dec d1 0 then
    if Rle_dec (d0 / 2) d1 then (1, (d0 + 2 * d1) / 4) else ((d0 - d1) / d1, (d0 + 3 * d1) / 4)
  else (1, (d0 + d1) / 4).
Definition nichols_ts (gE d : vec) : vec :=
  let '(alpha, lamb) := nichols_par (d O) (d 1%nat) in fun j => alpha * gE j / (lamb - d j).

(** ** Powell's update, lines 1615-1626 *)
Definition powell (n : nat) (d Dg : vec) (H : mat) : mat :=
  let ddi := 1 / dot n d d in
  let y := fun i => Dg i - mv n H d i in
  fun i j => H i j + ddi * (outer y d i j + outer d y i j - dot n y d * outer d d i j * ddi).
