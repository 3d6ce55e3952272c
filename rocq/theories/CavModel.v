(** * Cavity photons: PhotonDriver and FFCavPhSocket

    /repo/ipi/engine/forcefields.py:1875-2081 (PhotonDriver) and 2084-2487
    (FFCavPhSocket), with the energy offset of sockets.py:551, 1721 and the
    threads of simulation.py:433-447.

    Floats are reals. An array is a function of its index with its length kept
    apart. The number of independent baths is 1, as set at line 2143. A client is
    a function of the positions sent to it. [softexit.trigger] ends the call
    (outcome [Stop]); a failed lookup of a dictionary is [KeyErr]. *)

From Coq Require Import List Arith Lia Bool Reals.
From Verif Require Import RSum.
Import ListNotations.
Open Scope R_scope.

(** ** PhotonDriver *)

(** forcefields.py:1880 [ph_rep]. *)
Inductive rep := Loose | Dense.
(** forcefields.py:1913-1918, with n_mode = 1. *)
Definition n_photon (r : rep) : nat := match r with Loose => 2 | Dense => 1 end.
Definition n_photon_3 (r : rep) : nat := n_photon r * 3.

Record photon := mkPhoton { E0 : R; omega_c : R; ph_rep : rep }.

(** forcefields.py:1921-1928: the frequencies of the modes, each three times. *)
Definition omega_klambda (p : photon) : list R :=
  match ph_rep p with Loose => [omega_c p; omega_c p] | Dense => [omega_c p] end.
Definition omega_klambda3 (p : photon) (k : nat) : R :=
  nth k (concat (map (fun x => [x; x; x]) (omega_klambda p))) 0.

(** forcefields.py:1945-1962: the slices [pos[: -n]] and [pos[-n :]]; python cuts
    them at the start of the array as natural subtraction does. *)
Definition dim_atoms (r : rep) (n : nat) : nat := n - n_photon_3 r.
Definition pos_ph (r : rep) (n : nat) (pos : nat -> R) (k : nat) : R := pos (dim_atoms r n + k)%nat.

(** The indices of the slice [start : stop : 3]. *)
Definition slice3 (start stop : nat) : list nat :=
  filter (fun k => (start <=? k)%nat && ((k - start) mod 3 =? 0)%nat) (seq 0 stop).
(** forcefields.py:1985-1995, 2026-2031, 2056-2061: the entries of the photons
    coupled to the dipole along x and along y. *)
Definition slice_x (r : rep) : list nat :=
  match r with Loose => slice3 0 (1 * 3) | Dense => slice3 0 (n_photon_3 r) end.
Definition slice_y (r : rep) : list nat :=
  match r with Loose => slice3 (1 + 1 * 3) (n_photon_3 r) | Dense => slice3 1 (n_photon_3 r) end.

(** forcefields.py:1964-2004 (get_ph_energy); the mode functions are 1, the
    dipole arrays have one entry. *)
Definition get_ph_energy (p : photon) (ph : nat -> R) (dx dy : R) : R :=
  let e_ph := Rsum (n_photon_3 (ph_rep p)) (fun k => / 2 * omega_klambda3 p k ^ 2 * ph k ^ 2) in
  let e_int_x := Rsuml (map (fun k => E0 p * dx * ph k) (slice_x (ph_rep p))) in
  let e_int_y := Rsuml (map (fun k => E0 p * dy * ph k) (slice_y (ph_rep p))) in
  let dse := (E0 p ^ 2 / 2 / omega_c p ^ 2) * (dx ^ 2 + dy ^ 2) in
  e_ph + e_int_x + e_int_y + dse.

Definition memb (k : nat) (l : list nat) : bool := existsb (Nat.eqb k) l.
(** forcefields.py:2006-2032 (get_ph_forces). *)
Definition get_ph_forces (p : photon) (ph : nat -> R) (dx dy : R) (k : nat) : R :=
  - omega_klambda3 p k ^ 2 * ph k
  - (if memb k (slice_x (ph_rep p)) then E0 p * dx else 0)
  - (if memb k (slice_y (ph_rep p)) then E0 p * dy else 0).

(** forcefields.py:2051-2066: the product of the fields with the mode function;
    both have one entry. *)
Definition coeff (p : photon) (ph : nat -> R) (sl : list nat) (d : R) : R :=
  Rsuml (map (fun k => E0 p * ph k + E0 p ^ 2 / omega_c p ^ 2 * d) sl).
(** forcefields.py:2034-2081: forces on the nuclei, from charges or from the
    derivative of the dipole; entry [k] of the flattened array. *)
Inductive coupling := Charges (q : nat -> R) | DipoleDer (der : nat -> R).
Definition get_nuc_cav_forces (p : photon) (ph : nat -> R) (dx dy : R) (c : coupling) (k : nat) : R :=
  let cx := coeff p ph (slice_x (ph_rep p)) dx in
  let cy := coeff p ph (slice_y (ph_rep p)) dy in
  let i := (k / 3)%nat in
  match c with
  | Charges q => match k mod 3 with
                 | 0%nat => - (cx * q i)
                 | 1%nat => - (cy * q i)
                 | _ => 0
                 end
  | DipoleDer der => match k mod 3 with
                     | 0%nat => - (cx * der (9 * i)%nat) - cy * der (3 + 9 * i)%nat
                     | 1%nat => - (cx * der (1 + 9 * i)%nat) - cy * der (4 + 9 * i)%nat
                     | _ => - (cx * der (2 + 9 * i)%nat) - cy * der (5 + 9 * i)%nat
                     end
  end.

(** ** FFCavPhSocket *)

Record extras := mkExtras { dipole : option (list R); dipole_derivative : option (list R) }.
Record reply := mkReply { rp_u : R; rp_f : nat -> R; rp_vir : nat -> nat -> R; rp_ex : extras }.
(** A client: number of coordinates sent, coordinates sent. *)
Definition client := nat -> (nat -> R) -> reply.

Record cavff := mkCav {
  photons : photon; apply_photon : bool; evaluate_photon : bool; dipole_surface : bool;
  charges : list R; offset : R }.

Inductive outcome := Ok (r : reply) | Stop | KeyErr.

(** forcefields.py:2160-2194 (calc_dipole_xyz_mm), one bath: the component [c]. *)
Definition dip (na : nat) (q : list R) (pos : nat -> R) (c : nat) : R :=
  Rsum na (fun i => pos (3 * i + c)%nat * nth i q 0).

(** sockets.py:1721, 551: the interface subtracts the offset of the forcefield
    from the potential sent by the client. [wrap] is [cell.array_pbc] when
    [dopbc] is set (forcefields.py:2317-2318), the identity otherwise. *)
Definition socket_reply (f : cavff) (cl : client) (wrap : (nat -> R) -> nat -> R) (n : nat) (pos : nat -> R) : reply :=
  let r := cl n (wrap pos) in mkReply (rp_u r - offset f) (rp_f r) (rp_vir r) (rp_ex r).

(** forcefields.py:2397-2437: the dipole and its derivative with the checks
    before them. *)
Definition dipole_of (f : cavff) (n : nat) (pos : nat -> R) (ex : extras) : option (option (R * R * coupling)) :=
  let r := ph_rep (photons f) in
  if dipole_surface f then
    (* line 2402: [check_dipole_der] is evaluated whatever [has_dipole_der] is *)
    match dipole ex with
    | None => None
    | Some d =>
        if (length d =? 3)%nat then
          match dipole_derivative ex with
          | None => None
          | Some der =>
              if (length der =? (n - n_photon r * 3) * 3)%nat
              then Some (Some (nth 0 d 0, nth 1 d 0, DipoleDer (fun k => nth k der 0)))
              else Some None
          end
        else (* the second operand of [and] is not evaluated; trigger *) Some None
    end
  else
    if (n_photon r + 1 * length (charges f) =? n / 3)%nat then
      let na := length (charges f) in
      if (dim_atoms r n / 3 =? na)%nat then
        Some (Some (dip na (charges f) pos 0, dip na (charges f) pos 1, Charges (fun i => nth i (charges f) 0)))
      else Some None
    else Some None.

(** forcefields.py:2249-2487 (queue): [n] coordinates [pos]. *)
Definition queue (f : cavff) (cl : client) (wrap : (nat -> R) -> nat -> R) (n : nat) (pos : nat -> R) : outcome :=
  let p := photons f in
  let na3 := if apply_photon f then dim_atoms (ph_rep p) n else n in
  let r := socket_reply f cl wrap na3 pos in
  let f0 := fun k => if (k <? na3)%nat then rp_f r k else 0 in
  if apply_photon f then
    let ph := pos_ph (ph_rep p) n pos in
    if evaluate_photon f then
      match dipole_of f n pos (rp_ex r) with
      | None => KeyErr
      | Some None => Stop
      | Some (Some (dx, dy, c)) =>
          let e := get_ph_energy p ph dx dy in
          let fn := fun k => if (k <? na3)%nat then f0 k + get_nuc_cav_forces p ph dx dy c k
                             else get_ph_forces p ph dx dy (k - na3) in
          Ok (mkReply (rp_u r + e - offset f) fn (rp_vir r) (rp_ex r))
      end
    else Ok (mkReply (rp_u r + 0 - offset f) (fun k => if (k <? na3)%nat then f0 k + 0 else 0) (rp_vir r) (rp_ex r))
  else Ok (mkReply (rp_u r - offset f) f0 (rp_vir r) (rp_ex r)).

(** ** combine_bath_extras, forcefields.py:2196-2246 *)
Section Extras.
Context {K V A : Type}.
Variable keqb : K -> K -> bool.
Variable raw : K.
Variable vstr : V -> V.                      (* str() *)
Variable vempty : V.                         (* "" *)
Variable asarr : V -> option A.              (* np.asarray(value, dtype=float), None if it raises *)
Variable same : A -> A -> bool.              (* equal shapes *)
Definition dict := list (K * V).
Definition get (d : dict) (k : K) : option V :=
  match find (fun e => keqb k (fst e)) d with Some (_, v) => Some v | None => None end.
(** A combined entry: one value, a list with holes, or an array. *)
Inductive centry := COne (v : V) | CList (l : list (option V)) | CArr (l : list A).
Fixpoint asarrs (l : list (option V)) : option (list A) :=
  match l with
  | [] => Some []
  | None :: _ => None
  | Some v :: l' => match asarr v, asarrs l' with Some a, Some r => Some (a :: r) | _, _ => None end
  end.
Definition combine_key (es : list dict) (k : K) : centry :=
  let values := map (fun e => get e k) es in
  if keqb k raw then CList (map (fun v => Some (match v with None => vempty | Some v => vstr v end)) values)
  else if existsb (fun v => match v with None => true | _ => false end) values then CList values
  else match asarrs values with
       | Some (a0 :: r) => if forallb (fun a => same a a0) (a0 :: r) then CArr (a0 :: r) else CList values
       | _ => CList values
       end.
Definition has (d : dict) (k : K) : bool := match get d k with Some _ => true | None => false end.
(** [combined.get(k)]: the keys are those of all the baths and "raw". *)
Definition combine_bath_extras (es : list dict) (k : K) : option centry :=
  match es with
  | [] => if keqb k raw then Some (COne vempty) else None
  | [e] => match get e k with
           | Some v => Some (COne v)
           | None => if keqb k raw then Some (COne vempty) else None
           end
  | _ => if existsb (fun e => has e k) es then Some (combine_key es k)
         else if keqb k raw then Some (CList (map (fun _ => Some vempty) es)) else None
  end.
End Extras.

(** ** The shared state of a forcefield called from several threads

    simulation.py:433-447: the systems are stepped by threads of an executor; a
    forcefield is shared. [self.ph.pos_ph] (line 1958) and [self.request] (the
    loop variable of line 2345) are attributes of the forcefield. A thread
    evaluates a list of positions one after the other (forces.py:420-421: the
    beads); python statements are atomic. *)
Section Threads.
Context {P : Type}.
Inductive pc :=
| AtSplit        (* line 2306: split_atom_ph_coord, then append the request *)
| AtFor          (* line 2345: self.request = newreq *)
| AtWait         (* line 2346: self.request["status"] *)
| AtRelease      (* lines 2370-2371: release, self.request = None *)
| AtRead         (* line 2379: u, f, vir, extra = newreq["result"] *)
| AtCompute      (* lines 2440-2453: photonic energies and forces with self.ph.pos_ph *)
| Dead.          (* an exception *)
Record thread := mkT { t_pc : pc; t_todo : list P; t_out : list (P * P) }.
(** [done i]: the request of thread [i] has been evaluated. [queued i]: it is in
    the list of requests. *)
Record shared := mkS { s_ph : option P; s_req : option nat; s_done : nat -> bool; s_queued : nat -> bool;
                       s_thr : nat -> thread }.
Definition set_t (s : shared) (i : nat) (t : thread) : nat -> thread := fun j => if Nat.eqb j i then t else s_thr s j.
Definition setb (f : nat -> bool) (i : nat) (b : bool) : nat -> bool := fun j => if Nat.eqb j i then b else f j.
Definition tstep (s : shared) (i : nat) : shared :=
  let t := s_thr s i in
  match t_pc t, t_todo t with
  | AtSplit, x :: _ =>
      mkS (Some x) (s_req s) (setb (s_done s) i false) (setb (s_queued s) i true) (set_t s i (mkT AtFor (t_todo t) (t_out t)))
  | AtFor, _ => mkS (s_ph s) (Some i) (s_done s) (s_queued s) (set_t s i (mkT AtWait (t_todo t) (t_out t)))
  | AtWait, _ =>
      match s_req s with
      | None => mkS (s_ph s) None (s_done s) (s_queued s) (set_t s i (mkT Dead (t_todo t) (t_out t)))
      | Some j => if s_done s j
                  then mkS (s_ph s) (s_req s) (s_done s) (s_queued s) (set_t s i (mkT AtRelease (t_todo t) (t_out t)))
                  else s
      end
  | AtRelease, _ =>
      mkS (s_ph s) None (s_done s) (match s_req s with Some j => setb (s_queued s) j false | None => s_queued s end)
          (set_t s i (mkT AtRead (t_todo t) (t_out t)))
  | AtRead, _ =>
      if s_done s i then mkS (s_ph s) (s_req s) (s_done s) (s_queued s) (set_t s i (mkT AtCompute (t_todo t) (t_out t)))
      else mkS (s_ph s) (s_req s) (s_done s) (s_queued s) (set_t s i (mkT Dead (t_todo t) (t_out t)))
  | AtCompute, x :: l =>
      match s_ph s with
      | Some y => mkS (s_ph s) (s_req s) (s_done s) (s_queued s) (set_t s i (mkT AtSplit l (t_out t ++ [(x, y)])))
      | None => s
      end
  | _, _ => s
  end.
(** The polling thread and a client finish a queued request. *)
Definition finish (s : shared) (i : nat) : shared :=
  if s_queued s i then mkS (s_ph s) (s_req s) (setb (s_done s) i true) (s_queued s) (s_thr s) else s.
Inductive ev := T (i : nat) | F (i : nat).
Definition estep (s : shared) (e : ev) : shared := match e with T i => tstep s i | F i => finish s i end.
Definition run (l : list ev) (s : shared) : shared := fold_left estep l s.
Definition start (todo : nat -> list P) : shared :=
  mkS None None (fun _ => false) (fun _ => false) (fun i => mkT AtSplit (todo i) []).
End Threads.
