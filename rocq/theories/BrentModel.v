(** * Model of the one-dimensional minimisation (ipi/utils/mintools.py 70-402)

    The bracketing of a minimum and Brent's method with derivatives, as used by steepest descent
    and conjugate gradients (SDOptimizer and CGOptimizer, ipi/engine/motion/geop.py 807-980).
    The function [fdf] returns energy and derivative along the line (LineMapper, geop.py 181-229);
    floating point numbers are real numbers. *)
From Coq Require Import Reals.
Open Scope R_scope.

Definition gold : R := 1618034 / 1000000.
Definition glimit : R := 100.
Definition tiny : R := 1 / 10 ^ 20.
(** math.copysign *)
Definition copysign (x y : R) : R := if Rlt_dec y 0 then - Rabs x else Rabs x.

(** ** bracket, lines 70-217 *)
Record brk : Type := Brk { ax : R; bx : R; cx : R; fa : R; fb : R; fc : R; dfb : R; dfc : R }.
(** lines 88-112: the first three points. *)
Definition brk_init (fdf : R -> R * R) (fdf0 : R * R) (x0 step : R) : brk :=
  let '(f0, df0) := fdf0 in
  let b0 := x0 + step in
  let '(f1, df1) := fdf b0 in
  if Rlt_dec f0 f1 then
    let c := x0 + gold * (x0 - b0) in
    let '(fc, dfc) := fdf c in Brk b0 x0 c f1 f0 fc df0 dfc
  else
    let c := b0 + gold * (b0 - x0) in
    let '(fc, dfc) := fdf c in Brk x0 b0 c f0 f1 fc df1 dfc.
(** lines 123-130 *)
Definition brk_u (s : brk) : R :=
  let r := (bx s - ax s) * (fb s - fc s) in
  let q := (bx s - cx s) * (fb s - fa s) in
  bx s - ((bx s - cx s) * q - (bx s - ax s) * r) / (2 * copysign (Rmax (Rabs (q - r)) tiny) (q - r)).
Definition brk_ulim (s : brk) : R := bx s + glimit * (cx s - bx s).
(** lines 199-208: the points move on. *)
Definition brk_shift (fdf : R -> R * R) (s : brk) (u : R) : brk :=
  let '(fu, dfu) := fdf u in Brk (bx s) (cx s) u (fb s) (fc s) fu (dfc s) dfu.
(** lines 122-208: one iteration; [inl] is the return from inside the loop. *)
Definition brk_iter (fdf : R -> R * R) (s : brk) : brk + brk :=
  let u := brk_u s in
  let ulim := brk_ulim s in
  let golden := cx s + gold * (cx s - bx s) in
  if Rlt_dec 0 ((bx s - u) * (u - cx s)) then
    let '(fu, dfu) := fdf u in
    if Rlt_dec fu (fc s) then inl (Brk (bx s) u (cx s) (fb s) fu (fc s) dfu (dfc s))
    else if Rlt_dec (fb s) fu then inl (Brk (ax s) (bx s) u (fa s) (fb s) fu (dfb s) dfu)
    else inr (brk_shift fdf s golden)
  else if Rlt_dec 0 ((cx s - u) * (u - ulim)) then
    let '(fu, dfu) := fdf u in
    if Rlt_dec fu (fc s) then
      let s' := Brk (ax s) (cx s) u (fa s) (fc s) fu (dfc s) dfu in
      inr (brk_shift fdf s' (cx s' + gold * (cx s' - bx s')))
    else inr (brk_shift fdf s u)
  else if Rle_dec 0 ((u - ulim) * (ulim - cx s)) then inr (brk_shift fdf s ulim)
  else inr (brk_shift fdf s golden).
(** The loop; [None] when [fuel] iterations are not enough. *)
Fixpoint brk_loop (fdf : R -> R * R) (fuel : nat) (s : brk) : option brk :=
  if Rlt_dec (fc s) (fb s) then
    match fuel with
    | O => None
    | S fuel' => match brk_iter fdf s with inl s' => Some s' | inr s' => brk_loop fdf fuel' s' end
    end
  else Some s.
Definition bracket (fdf : R -> R * R) (fdf0 : R * R) (x0 step : R) (fuel : nat) : option brk :=
  brk_loop fdf fuel (brk_init fdf fdf0 x0 step).

(** ** min_brent, lines 222-402 *)
Definition zeps : R := 1 / 10 ^ 10.
Record brent : Type := Brent { lo : R; hi : R; x : R; w : R; v : R; fx : R; fw : R; fv : R;
                               dfx : R; dfw : R; dfv : R; e : R }.
(** lines 243-261 *)
Definition brent_init (b : brk) : brent :=
  Brent (if Rlt_dec (ax b) (cx b) then ax b else cx b) (if Rlt_dec (cx b) (ax b) then ax b else cx b)
    (bx b) (bx b) (bx b) (fb b) (fb b) (fb b) (dfb b) (dfb b) (dfb b) 0.
(** bisection: lines 319-325, 328-333 and 335-341 *)
Definition bisect (s : brent) : R * R :=
  let e := if Rle_dec 0 (dfx s) then lo s - x s else hi s - x s in (1 / 2 * e, e).
(** lines 279-341: the step [d] and the new [e]. *)
Definition secant (s : brent) (y fy dfy : R) : R :=
  if Req_EM_T dfy (dfx s) then 2 * (hi s - lo s) else (y - x s) * dfx s / (dfx s - dfy).
Definition secant_ok (s : brent) (d : R) : bool :=
  if Rlt_dec 0 ((lo s - (x s + d)) * (x s + d - hi s)) then if Rle_dec (dfx s * d) 0 then true else false else false.
Definition brent_step (s : brent) (tol1 : R) : R * R :=
  let tol2 := 2 * tol1 in
  let xm := 1 / 2 * (lo s + hi s) in
  if Rlt_dec tol1 (Rabs (e s)) then
    let d1 := secant s (w s) (fw s) (dfw s) in
    let d2 := secant s (v s) (fv s) (dfv s) in
    let olde := e s in
    (* d is 0 when e takes its value *)
    let pick := match secant_ok s d1, secant_ok s d2 with
                | true, true => Some (if Rlt_dec (Rabs d1) (Rabs d2) then d1 else d2)
                | true, false => Some d1
                | false, true => Some d2
                | false, false => None
                end in
    match pick with
    | None => bisect s
    | Some d =>
        if Rle_dec (Rabs d) (Rabs (1 / 2 * olde)) then
          let u := x s + d in
          if Rlt_dec (u - lo s) tol2 then (copysign tol1 (xm - x s), 0)
          else if Rlt_dec (hi s - u) tol2 then (copysign tol1 (xm - x s), 0)
          else bisect s
        else (d, 0)
    end
  else bisect s.
(** lines 360-392: the new bracket and the three best points. *)
Definition brent_update (s : brent) (en u fu dfu : R) : brent :=
  if Rle_dec fu (fx s) then
    Brent (if Rle_dec (x s) u then x s else lo s) (if Rle_dec (x s) u then hi s else x s)
      u (x s) (w s) fu (fx s) (fw s) dfu (dfx s) (dfw s) en
  else
    let lo' := if Rlt_dec u (x s) then u else lo s in
    let hi' := if Rlt_dec u (x s) then hi s else u in
    if Rle_dec fu (fw s) then Brent lo' hi' (x s) u (w s) (fx s) fu (fw s) (dfx s) dfu (dfw s) en
    else if Req_EM_T (w s) (x s) then Brent lo' hi' (x s) u (w s) (fx s) fu (fw s) (dfx s) dfu (dfw s) en
    else if Rlt_dec fu (fv s) then Brent lo' hi' (x s) (w s) u (fx s) (fw s) fu (dfx s) (dfw s) dfu en
    else if Req_EM_T (v s) (x s) then Brent lo' hi' (x s) (w s) u (fx s) (fw s) fu (dfx s) (dfw s) dfu en
    else if Req_EM_T (v s) (w s) then Brent lo' hi' (x s) (w s) u (fx s) (fw s) fu (dfx s) (dfw s) dfu en
    else Brent lo' hi' (x s) (w s) (v s) (fx s) (fw s) (fv s) (dfx s) (dfw s) (dfv s) en.
(** lines 264-402: the loop; what is returned here is the final state, where the function was
    evaluated last (there the beads are left; with no iteration allowed this is simplified to the outer point of the bracket), and whether the search converged. *)
Fixpoint brent_loop (fdf : R -> R * R) (tol : R) (left : nat) (s : brent) (pos : R) : brent * R * bool :=
  match left with
  | O => (s, pos, false)
  | S left' =>
      let xm := 1 / 2 * (lo s + hi s) in
      let tol1 := tol * Rabs (x s) + zeps in
      let tol2 := 2 * tol1 in
      if Rle_dec (Rabs (x s - xm)) (tol2 - 1 / 2 * (hi s - lo s)) then (s, x s, true)
      else
        let '(d, en) := brent_step s tol1 in
        if Rle_dec tol1 (Rabs d) then
          let u := x s + d in let '(fu, dfu) := fdf u in
          brent_loop fdf tol left' (brent_update s en u fu dfu) u
        else
          let u := x s + copysign tol1 d in let '(fu, dfu) := fdf u in
          if Rlt_dec (fx s) fu then (s, x s, true)
          else brent_loop fdf tol left' (brent_update s en u fu dfu) u
  end.
Definition min_brent (fdf : R -> R * R) (fdf0 : R * R) (x0 tol : R) (itmax : nat) (step : R) (fuel : nat)
  : option (brent * R * bool) :=
  match bracket fdf fdf0 x0 step fuel with
  | None => None
  | Some b => Some (brent_loop fdf tol itmax (brent_init b) (cx b))
  end.
(** ** Steepest descent, geop.py 820-883: what is given as value and derivative at the start:
    the energy, and the force along the direction (line 851), where the mapper returns minus the
    force along it (geop.py 225-227). *)
Definition sd_fdf0 (fdf : R -> R * R) : R * R := (fst (fdf 0), - snd (fdf 0)).
Definition sd_step (fdf : R -> R * R) (tol : R) (itmax : nat) (step : R) (fuel : nat) : option (brent * R * bool) :=
  min_brent fdf (sd_fdf0 fdf) 0 tol itmax step fuel.
(** geop.py 875-878: the first step of the next search, for a step of length [x]. *)
Definition sd_adapt (adaptive step x : R) : R := 1 / 10 * x * adaptive + (1 - adaptive) * step.
