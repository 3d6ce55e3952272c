(** * Multiple-time-step integrators and momentum constraints

    /repo/ipi/engine/motion/dynamics.py: get_qdt 256-257, get_pdt 259-264, get_tdt 266-274,
    pconstraints 364-397, NVEIntegrator.pstep 423-439, qcstep 441-444, mtsprop_ba 449-479, mtsprop_ab
    481-509, mtsprop 511-514, step 516-519, NVTIntegrator.step 538-558, SCIntegrator.step 731-757.

    The schedule is the list of calls; the calls act on momenta and positions of the beads
    (functions of bead and coordinate) and on the accumulated ensemble energy. *)

From Coq Require Import List Reals Arith Bool.
From Verif Require Import RSum NMModel SpringModel.
Import ListNotations.
Open Scope R_scope.

(** ** Schedule *)
(** pstep(level); pconstraints(); qcstep() followed by nm.free_qstep() (always called together);
    tstep(); the kick with fsc_part_2. *)
Inductive op := P (l : nat) | Con | A | T | S4.

(** [ns]: nmts from the level [idx] on. Positive factors: int(n / 2) is n / 2. *)
Fixpoint mtsprop_ba (idx : nat) (ns : list nat) : list op :=
  match ns with
  | [] => []
  | k :: rest =>
      concat (repeat ([P idx; Con]
        ++ match rest with [] => [A; A] | _ => mtsprop_ba (S idx) rest ++ mtsprop_ab (S idx) rest end
        ++ [P idx; Con]) (k / 2))
      ++ (if (k mod 2 =? 1)%nat then [P idx; Con] ++ match rest with [] => [A] | _ => mtsprop_ba (S idx) rest end else [])
  end
with mtsprop_ab (idx : nat) (ns : list nat) : list op :=
  match ns with
  | [] => []
  | k :: rest =>
      (if (k mod 2 =? 1)%nat then match rest with [] => [A] | _ => mtsprop_ab (S idx) rest end ++ [P idx; Con] else [])
      ++ concat (repeat ([P idx; Con]
        ++ match rest with [] => [A; A] | _ => mtsprop_ba (S idx) rest ++ mtsprop_ab (S idx) rest end
        ++ [P idx; Con]) (k / 2))
  end.
Definition mtsprop (idx : nat) (ns : list nat) : list op := mtsprop_ba idx ns ++ mtsprop_ab idx ns.
Inductive splitting := Obabo | Baoab.
Definition nve_step (ns : list nat) : list op := mtsprop 0 ns.
Definition nvt_step (sp : splitting) (ns : list nat) : list op :=
  match sp with
  | Obabo => [T; Con] ++ mtsprop 0 ns ++ [T; Con]
  | Baoab => mtsprop_ba 0 ns ++ [T; Con] ++ mtsprop_ab 0 ns
  end.
Definition sc_step (sp : splitting) (ns : list nat) : list op :=
  match sp with
  | Obabo => [T; Con] ++ [S4] ++ mtsprop 0 ns ++ [S4] ++ [T; Con]
  | Baoab => [S4] ++ mtsprop_ba 0 ns ++ [T; Con] ++ mtsprop_ab 0 ns ++ [S4]
  end.

(** Time steps. [inmts] is the product of all factors (309). *)
Definition inmts (ns : list nat) : nat := fold_right Nat.mul 1%nat ns.
Definition get_qdt (dt : R) (ns : list nat) : R := dt * (1 / 2) / INR (inmts ns).
(** The loop: dtl[i] *= dtl[i-1], starting from 1 / nmts; then times dt / 2. *)
Fixpoint pdt_loop (prev : R) (ns : list nat) : list R :=
  match ns with [] => [] | k :: rest => prev * (1 / INR k) :: pdt_loop (prev * (1 / INR k)) rest end.
Definition get_pdt (dt : R) (ns : list nat) : list R := map (fun x => x * (dt * (1 / 2))) (pdt_loop 1 ns).
Definition get_tdt (dt : R) (sp : splitting) : R := match sp with Obabo => dt * (1 / 2) | Baoab => dt end.

(** ** Effect of the calls *)
Inductive propagator := Exact | Cayley | Bab (nmts : nat).
Record st := mkSt { sp : mat; sq : mat; eens : R }.
(** [sc]: the fourth-order force fsc_part_2 when the Suzuki-Chin integrator is used. *)
Record sys := mkSys { ringp : ring; prop : propagator; fixcom : bool; frozen : list nat;
                      mts_f : nat -> mat -> mat; bias_f : option (mat -> mat); nmts : list nat; tstep_dt : R;
                      sc : option (mat -> mat) }.

Section Exec.
Variable y : sys.
Let r := ringp y.
Let n := nbeads r.
Definition to_nm (m : mat) : mat := nm_trans_b2nm n (openp r) m.
Definition to_beads (m : mat) : mat := nm_trans_nm2b n (openp r) m.
Definition is_frozen (c : nat) : bool := existsb (Nat.eqb c) (frozen y).

(** 423-439: kicks the coordinates that are not frozen; the bias at the outer level. *)
Definition kick (f : mat) (h : R) (p : mat) : mat := fun b c => if is_frozen c then p b c else p b c + f b c * h.
Definition coeffsc_part_1 (b : nat) : R := if (b mod 2 =? 0)%nat then - 1 / 3 else 1 / 3.
(** SCIntegrator.pstep 718-729 kicks every coordinate. *)
Definition sc_pstep (l : nat) (s : st) : st :=
  let h := nth l (get_pdt (tstep_dt y) (nmts y)) 0 in
  let p1 : mat := match bias_f y with Some f => if (l =? 0)%nat then fun b c => sp s b c + f (sq s) b c * h else sp s | None => sp s end in
  mkSt (fun b c => p1 b c + mts_f y l (sq s) b c * (1 + coeffsc_part_1 b) * h) (sq s) (eens s).
Definition sc_kick (g : mat -> mat) (s : st) : st :=
  mkSt (fun b c => sp s b c + g (sq s) b c * tstep_dt y * (1 / 2)) (sq s) (eens s).
Definition pstep (l : nat) (s : st) : st :=
  let h := nth l (get_pdt (tstep_dt y) (nmts y)) 0 in
  let p1 := kick (mts_f y l (sq s)) h (sp s) in
  let p2 := match bias_f y with Some f => if (l =? 0)%nat then kick (f (sq s)) h p1 else p1 | None => p1 end in
  mkSt p2 (sq s) (eens s).

(** 441-444 and free_qstep (area Spring), through the synchronised mode arrays. *)
Definition drift (s : st) : st :=
  let h := get_qdt (tstep_dt y) (nmts y) in
  let c := qcstep r h (to_nm (sp s), to_nm (sq s)) in
  match prop y with
  | Bab k => let e := free_babstep r k h (to_beads (fst c), to_beads (snd c)) in mkSt (fst e) (snd e) (eens s)
  | pr => let e := free_qstep r (match pr with Cayley => true | _ => false end) h c in
      mkSt (to_beads (fst e)) (to_beads (snd e)) (eens s)
  end.

(** 364-397 *)
Definition Mnb : R := Rsum (natoms r) (mass r) * INR n.
Definition vcom (p : mat) (k : nat) : R := Rsum n (fun b => Rsum (natoms r) (fun i => p b (3 * i + k)%nat)) / Mnb.
Definition remove_com (s : st) : st :=
  mkSt (fun b c => sp s b c - m3 r c * vcom (sp s) (c mod 3)) (sq s)
       (eens s + Rsum 3 (fun k => vcom (sp s) k ^ 2) * (1 / 2) * Mnb).
Definition freeze (s : st) : st :=
  let pnm := to_nm (sp s) in
  mkSt (to_beads (fun k c => if is_frozen c then 0 else pnm k c)) (sq s)
       (eens s + 1 / 2 * Rsum n (fun k => Rsuml (map (fun c => pnm k c ^ 2 / get_dynm3 r k c) (frozen y)))).
Definition pconstraints (s : st) : st :=
  let s1 := if fixcom y then remove_com s else s in
  match frozen y with [] => s1 | _ => freeze s1 end.

Definition exec1 (s : st) (o : op) : st :=
  match o with
  | P l => match sc y with None => pstep l s | Some _ => sc_pstep l s end
  | Con => pconstraints s
  | A => drift s
  | T => s
  | S4 => match sc y with Some g => sc_kick g s | None => s end
  end.
(** The thermostat is left out (area Thermo); it does not occur in the NVE schedule. *)
Definition exec (ops : list op) (s : st) : st := fold_left exec1 ops s.
End Exec.
