(** * Free ring polymers: frequencies, mode masses, propagators, spring energy

    /repo/ipi/engine/normalmodes.py and the spring functions of engine/beads.py. Arrays are
    functions of the mode (or bead) and of the coordinate [c < 3 natoms]; real numbers for
    floats. No bosons (see Exchange). *)
From Coq Require Import List Reals Arith Bool.
From Verif Require Import RSum Ortho NMModel.
Import ListNotations.
Open Scope R_scope.

(** normalmodes.py:441-469 get_omegan, get_omegak, get_o_omegak; [wn] is temp * nbeads * kb / hbar *)
Definition omegak (wn : R) (n k : nat) : R := wn * nm_eva n k.
Definition o_omegak (wn : R) (n k : nat) : R := wn * o_nm_eva n k.

(** 584-648 get_nmm; 651-715 get_o_nmm is the same function of the open frequencies.
    The frequencies are read as in the code (nm_freqs[b-1]). None: ValueError. *)
Inductive path_mode := Rpmd | Manual | PaCmd | WmaxCmd.
Definition get_nmm (mode : path_mode) (nm_freqs : list R) (n : nat) (om : nat -> R) : option (nat -> R) :=
  let ones b v := if (b =? 0)%nat then 1 else v in
  match mode with
  | Rpmd => Some (fun _ => 1)
  | Manual =>
      if (length nm_freqs =? n - 1)%nat then
        Some (fun b => ones b ((om b / nth (b - 1) nm_freqs 0) ^ 2)) else None
  | PaCmd =>
      match nm_freqs with
      | [] => None
      | w :: _ => Some (fun b => ones b ((om b / w) ^ 2))
      end
  | WmaxCmd =>
      match nm_freqs with
      | wmax :: wt :: _ =>
          Some (fun b => ones b ((1 / sqrt (wt ^ 2 * (1 + (wmax / om 1%nat) ^ 2) / (wmax ^ 2 + om b ^ 2))) ^ 2))
      | _ => None
      end
  end.
(** 470-478 get_dynwk *)
Definition dynomegak (om nmf : nat -> R) (k : nat) : R := om k / sqrt (nmf k).

(** 480-519 get_prop_pq, one mode: row 0 gives the new momentum, row 1 the new position.
    534-571 get_o_prop_pq is the same function of the open frequencies and factors. *)
Record pq := mkPQ { p00 : R; p01 : R; p10 : R; p11 : R }.
Definition prop_exact (om nmf dt : R) : pq :=
  let sk := sqrt nmf in
  let dtomegak := om * dt / sk in
  let c := cos dtomegak in
  let s := sin dtomegak in
  mkPQ c (- s * om * sk) (s / (om * sk)) c.
Definition prop_cayley (om nmf dt : R) : pq :=
  let sk := sqrt nmf in
  let square := (om * dt / 2) ^ 2 in
  mkPQ ((1 - square) / (1 + square)) (- (4 * square / dt * sk) / (1 + square))
       (dt / sk / (1 + square)) ((1 - square) / (1 + square)).
Definition get_prop_pq (cayley : bool) (om nmf : nat -> R) (dt : R) (k : nat) : pq :=
  if (k =? 0)%nat then mkPQ 1 0 dt 1
  else if cayley then prop_cayley (om k) (nmf k) dt else prop_exact (om k) (nmf k) dt.
(** 521-530 get_prop_pq_ms, 573-582 get_o_prop_pq_ms *)
Definition mass_scale (m : R) (x : pq) : pq := mkPQ (p00 x) (p01 x * m) (p10 x / m) (p11 x).
Definition apply_pq (x : pq) (p q : R) : R * R := (p * p00 x + q * p01 x, p * p10 x + q * p11 x).

(** Parameters of the ring polymers: beads, open atoms, masses per coordinate (m3[0]), base
    frequency, dynamical factors for closed and open paths. *)
Record ring := mkRing { nbeads : nat; natoms : nat; openp : list nat; mass : nat -> R; wn : R;
                        nmf : nat -> R; o_nmf : nat -> R }.
Definition m3 (r : ring) (c : nat) : R := mass r (c / 3)%nat.

(** 717-729 get_dynm3 *)
Definition get_dynm3 (r : ring) (b c : nat) : R :=
  if is_open (openp r) c && negb (b =? 0)%nat then m3 r c * o_nmf r b else m3 r c * nmf r b.

(** 825-918 free_qstep with the exact or Cayley propagator (nbeads > 1); the centroid is not
    touched. *)
Definition free_qstep (r : ring) (cayley : bool) (dt : R) (s : mat * mat) : mat * mat :=
  if (nbeads r =? 1)%nat then s else
  let step k c :=
    let x := if is_open (openp r) c
             then get_prop_pq cayley (o_omegak (wn r) (nbeads r)) (o_nmf r) dt k
             else get_prop_pq cayley (omegak (wn r) (nbeads r)) (nmf r) dt k in
    apply_pq (mass_scale (m3 r c) x) (fst s k c) (snd s k c) in
  (fun k c => if (k =? 0)%nat then fst s k c else fst (step k c),
   fun k c => if (k =? 0)%nat then snd s k c else snd (step k c)).
(** dynamics.py:441-448 NVEIntegrator.qcstep: position of the centroid mode. *)
Definition qcstep (r : ring) (dt : R) (s : mat * mat) : mat * mat :=
  (fst s, fun k c => if (k =? 0)%nat then snd s k c + fst s 0%nat c / m3 r c * dt else snd s k c).

(** 920-943 get_kins, get_kin *)
Definition get_kins (r : ring) (pnm : mat) (k : nat) : R :=
  / 2 * Rsum (3 * natoms r) (fun c => (pnm k c / sqrt (m3 r c)) ^ 2) / nmf r k.
Definition get_kin (r : ring) (pnm : mat) : R := Rsum (nbeads r) (get_kins r pnm).

(** 731-795 get_vspring_and_fspring without bosons; the energy from the closed frequencies plus a
    correction for every entry of open_paths. *)
Definition vspring (r : ring) (qnm : mat) : R :=
  if (nbeads r =? 1)%nat then 0 else
  let n := nbeads r in
  let closed := Rsum n (fun k => omegak (wn r) n k ^ 2 * Rsum (3 * natoms r) (fun c => (qnm k c * sqrt (m3 r c)) ^ 2)) in
  let corr j := Rsum n (fun k => mass r j * (o_omegak (wn r) n k ^ 2 - omegak (wn r) n k ^ 2)
                  * (qnm k (3 * j)%nat ^ 2 + qnm k (3 * j + 1)%nat ^ 2 + qnm k (3 * j + 2)%nat ^ 2)) in
  (closed + Rsuml (map corr (openp r))) * (1 / 2).
Definition fspring_nm (r : ring) (qnm : mat) : mat := fun k c =>
  - m3 r c * (if is_open (openp r) c then o_omegak (wn r) (nbeads r) k else omegak (wn r) (nbeads r) k) ^ 2 * qnm k c.
Definition fspring (r : ring) (q : mat) : mat :=
  if (nbeads r =? 1)%nat then fun _ _ => 0 else
  nm_trans_nm2b (nbeads r) (openp r) (fspring_nm r (nm_trans_b2nm (nbeads r) (openp r) q)).

(** beads.py:255-303 get_vpath, get_fpath: the ring in bead coordinates, divided by wn^2.
    [fpath] is the array after the loop over beads. *)
Definition vpath (r : ring) (q : mat) : R :=
  let n := nbeads r in
  Rsum n (fun b => Rsum (3 * natoms r) (fun c =>
    let dq := if (0 <? b)%nat then q b c - q (b - 1)%nat c else q b c - q (n - 1)%nat c in
    dq * (m3 r c * dq))) * / 2.
Definition fpath_dq (r : ring) (q : mat) (b c : nat) : R :=
  (if (0 <? b)%nat then q b c - q (b - 1)%nat c else q b c - q (nbeads r - 1)%nat c) * m3 r c.
Definition fpath_step (r : ring) (q f : mat) (b : nat) : mat :=
  let f1 : mat := fun i c => if (i =? b)%nat then f i c - fpath_dq r q b c else f i c in
  fun i c => if (i =? (if (0 <? b)%nat then b - 1 else nbeads r - 1))%nat then f1 i c + fpath_dq r q b c else f1 i c.
Definition fpath (r : ring) (q : mat) : mat := fold_left (fpath_step r q) (seq 0 (nbeads r)) (fun _ _ => 0).

(** 797-823 free_babstep in bead coordinates: undo the centroid step, then nmts velocity-Verlet
    steps with the spring force. *)
Definition vv_step (r : ring) (dt : R) (s : mat * mat) : mat * mat :=
  let '(p, q) := s in
  let p1 : mat := fun b c => p b c + 1 / 2 * dt * fspring r q b c in
  let q1 : mat := fun b c => q b c + dt * p1 b c / m3 r c in
  (fun b c => p1 b c + 1 / 2 * dt * fspring r q1 b c, q1).
Definition uncentroid (r : ring) (dt : R) (s : mat * mat) : mat * mat :=
  let n := nbeads r in
  let pnm := nm_trans_b2nm n (openp r) (fst s) in
  let qnm := nm_trans_b2nm n (openp r) (snd s) in
  (fst s, nm_trans_nm2b n (openp r) (fun k c => if (k =? 0)%nat then qnm 0%nat c - pnm 0%nat c / m3 r c * dt else qnm k c)).
Definition free_babstep (r : ring) (nmts : nat) (dt : R) (s : mat * mat) : mat * mat :=
  if (nbeads r =? 1)%nat then s
  else Nat.iter nmts (vv_step r (dt / INR nmts)) (uncentroid r dt s).
