(* Model of the temperature and pressure ramps.

   ipi/engine/motion/ramp.py: TemperatureRamp.step 48-64, PressureRamp.step
   99-115 (the same code for ensemble.temp and ensemble.pext);
   ipi/inputs/motion/ramp.py: store and fetch of the five fields.

   Numbers are reals.  A negative base raised to a power that is not an
   integer is a complex number in python, which the ensemble cannot hold:
   it is None here, as are divisions by zero. *)
From Coq Require Import Reals ZArith.
Local Open Scope R_scope.

Record ramp := Ramp { from : R; to : R; total : Z; current : Z; logscale : bool }.

(* a / b *)
Definition py_div (a b : R) : option R := if Req_EM_T b 0 then None else Some (a / b).
(* b ** x for 0 < x < 1 *)
Definition py_pow (b x : R) : option R :=
  if Rlt_dec 0 b then Some (Rpower b x) else if Req_EM_T b 0 then Some 0 else None.

(* the value set by step; None is an error *)
Definition value (r : ramp) : option R :=
  if (total r <=? current r)%Z then Some (to r)
  else if logscale r then
    match py_div (to r) (from r), py_div (IZR (current r) * 1) (IZR (total r)) with
    | Some q, Some x => match py_pow q x with Some p => Some (from r * p) | None => None end
    | _, _ => None
    end
  else match py_div (IZR (current r) * (to r - from r)) (IZR (total r)) with
       | Some d => Some (from r + d)
       | None => None
       end.

(* step 48-64: the counter, then the ensemble *)
Definition advance (r : ramp) : ramp := Ramp (from r) (to r) (total r) (current r + 1) (logscale r).
Definition step (r : ramp) : ramp * option R := let r' := advance r in (r', value r').

(* inputs/motion/ramp.py: the five fields of a checkpoint *)
Definition store (r : ramp) : R * R * Z * Z * bool := (from r, to r, total r, current r, logscale r).
Definition fetch (c : R * R * Z * Z * bool) : ramp :=
  let '(a, b, n, k, l) := c in Ramp a b n k l.

(* n steps: what was set at the last of them *)
Fixpoint steps (n : nat) (r : ramp) : ramp := match n with O => r | S n => steps n (fst (step r)) end.
