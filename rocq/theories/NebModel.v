(** * Model of the nudged elastic band (ipi/engine/motion/neb.py)

    An image is a vector of the 3N coordinates; arrays reduced by the mask of moving coordinates are
    addressed by the full index, so that sums over moving coordinates are sums in which the others are
    zero (the reduction itself is modelled in InstFix).  Floating point numbers are real numbers; a
    division of zero by zero, which gives NaN, is [None].  The optimisers (area Min) are any functions. *)
From Coq Require Import List Arith Lia Reals Lra Bool.
From Verif Require Import RSum MinModel.
Import ListNotations.
Open Scope list_scope.
Open Scope R_scope.

(** ** Tangents, neb.py:112-146 *)
Definition unit_of (n : nat) (v : vec) : option vec :=
  if Req_EM_T (norm n v) 0 then None else Some (fun i => v i / norm n v).
(** 118-121 *)
Definition tangent_plain (n : nat) (d1 d2 : vec) : option vec :=
  match unit_of n d1, unit_of n d2 with
  | Some a, Some b => unit_of n (fun i => a i + b i)
  | _, _ => None
  end.
(** 128-143: energies of the image before, of the image and of the image behind *)
Definition improved_raw (bm b bp : R) (d1 d2 : vec) : vec :=
  if Rlt_dec bp b then
    if Rlt_dec b bm then d1
    else
      let maxpot := Rmax (Rabs (bp - b)) (Rabs (bm - b)) in
      let minpot := Rmin (Rabs (bp - b)) (Rabs (bm - b)) in
      if Rle_dec bm bp then fun i => d2 i * maxpot + d1 i * minpot else fun i => d2 i * minpot + d1 i * maxpot
  else if Rle_dec bm b then d2
  else
    let maxpot := Rmax (Rabs (bp - b)) (Rabs (bm - b)) in
    let minpot := Rmin (Rabs (bp - b)) (Rabs (bm - b)) in
    if Rle_dec bm bp then fun i => d2 i * maxpot + d1 i * minpot else fun i => d2 i * minpot + d1 i * maxpot.
Definition tangent_improved (n : nat) (bm b bp : R) (d1 d2 : vec) : option vec := unit_of n (improved_raw bm b bp d1 d2).
Inductive tkind := Plain | Improved.
Definition tangent (n : nat) (k : tkind) (bm b bp : R) (d1 d2 : vec) : option vec :=
  match k with Plain => tangent_plain n d1 d2 | Improved => tangent_improved n bm b bp d1 d2 end.

(** ** NEBGradientMapper.__call__, 66-216 *)
(** 177-179 and 189-203 *)
Definition neb_force (n : nat) (kappa : R) (tau f d1 d2 : vec) : vec :=
  fun i => (f i - dot n f tau * tau i) + kappa * (norm n d2 - norm n d1) * tau i.
(** The gradient of image [ii]; [be] are the energies, [q] the positions and [f] the forces of the images. *)
Definition neb_grad (n : nat) (k : tkind) (kappa : R) (be : nat -> R) (q f : nat -> vec) (ii : nat) : option vec :=
  let d1 i := q ii i - q (ii - 1)%nat i in
  let d2 i := q (ii + 1)%nat i - q ii i in
  match tangent n k (be (ii - 1)%nat) (be ii) (be (ii + 1)%nat) d1 d2 with
  | None => None
  | Some tau => Some (fun i => - neb_force n kappa tau (f ii) d1 d2 i)
  end.
(** ** NEBClimbGrMapper.__call__, 245-282 *)
Definition climb_force (n : nat) (tau f : vec) : vec := fun i => f i - 2 * dot n f tau * tau i.
Definition climb_grad (n : nat) (f x qprev qnext : vec) : option vec :=
  match tangent_plain n (fun i => x i - qprev i) (fun i => qnext i - x i) with
  | None => None
  | Some tau => Some (fun i => - climb_force n tau f i)
  end.

(** ** NEBMover *)
(** adjust_big_step, 534-558; a quality that is NaN takes the last branch. *)
Definition adjust_big_step (big : R) (quality : option R) : R :=
  let bad := let b := big * (1 / 2) in if Rle_dec b (1 / 100) then 2 / 100 else b in
  match quality with
  | None => bad
  | Some ql => if Rlt_dec (8 / 10) ql then big * (13 / 10) else if Rlt_dec (6 / 10) ql then big * (11 / 10) else bad
  end.
Inductive stage := Endpoints | Neb | Climb | Converged.
Inductive status := Success | Bad.
Inductive nmode := DampedBfgs | Fire | OtherMode.
(** bind, 405-479: what becomes of a Hessian of [size] entries; [nact] moving coordinates of [nfull],
    [nb] images.  The masks of the mappers exist only after they are bound (474-475). *)
Inductive hres := Kept | Unity | ValueErr | AttributeErr.
Definition bind_hessian (m : nmode) (s : stage) (nact nfull nb size : nat) : hres :=
  match m, s with
  | DampedBfgs, Neb =>
      if (size =? (nact * (nb - 2)) ^ 2)%nat then Kept
      else if (size =? (nb * nfull) * (nb * nfull))%nat then AttributeErr
      else if (size =? 0)%nat then Unity else ValueErr
  | DampedBfgs, Climb =>
      if (size =? nact * nact)%nat then if (size =? 0)%nat then Unity else ValueErr
      else if (size =? nfull * nfull)%nat then AttributeErr
      else if (size =? 0)%nat then Unity else ValueErr
  | _, _ => Kept
  end.
(** init_climb, 487: numpy's argmax is the first of the largest *)
Fixpoint argmax_from (f : nat -> R) (best i k : nat) : nat :=
  match k with O => best | S k' => argmax_from f (if Rlt_dec (f best) (f i) then i else best) (i + 1) k' end.
Definition argmax (n : nat) (f : nat -> R) : nat := argmax_from f 0 1 (n - 1).

(** Parameters: [pn] coordinates, [pmask] those that move, [pnimg] images, the potential and the force. *)
Record par : Type := Par {
  pn : nat; pmask : nat -> bool; pnimg : nat; pnat : nat; pkappa : R; pkind : tkind; pmode : nmode;
  puse_climb : bool; poptimize : bool; pvarsprings : bool; tol_e : R; tol_f : R; tol_x : R;
  ppot : vec -> R; pforce : vec -> vec; pweight : R }.
Definition masked (P : par) (v : vec) : vec := fun i => if pmask P i then v i else 0.
(** The gradients of the band and of the climbing image, of the moving coordinates. *)
Definition band_grad (P : par) (q : nat -> vec) (ii : nat) : option vec :=
  neb_grad (pn P) (pkind P) (pkappa P) (fun b => ppot P (q b)) (fun b => masked P (q b)) (fun b => masked P (pforce P (q b))) ii.
Definition image_grad (P : par) (x qprev qnext : vec) : option vec :=
  climb_grad (pn P) (masked P (pforce P x)) (masked P x) qprev qnext.
(** The state: positions of the images, neighbours of the climbing image (zero before init_climb, 237-238),
    forces given to the outside, and how it finished. *)
Record st : Type := St { stg : stage; pos : nat -> vec; qprev : vec; qnext : vec; cl : nat; rep : nat -> vec; fin : option status }.
(** What the optimiser of one step chose; any function of positions. *)
Record opt : Type := Opt { o_band : (nat -> vec) -> nat -> vec; o_image : vec -> vec }.
Definition inner (P : par) (b : nat) : bool := ((1 <=? b) && (b <? pnimg P - 1))%nat%bool.
(** 76-78 and 722: only moving coordinates of the images between the endpoints *)
Definition place (P : par) (q x : nat -> vec) : nat -> vec := fun b i => if (inner P b && pmask P i)%bool then x b i else q b i.
(** 257-258 and 880 *)
Definition place_image (P : par) (c : nat) (q : nat -> vec) (x : vec) : nat -> vec := fun b i => if ((b =? c)%nat && pmask P i)%bool then x i else q b i.
(** amax of the moving coordinates of the inner images; of NaN it is NaN, and no comparison holds *)
Definition amax_band (P : par) (g : nat -> vec) : R := amax (pnimg P) (fun b => if inner P b then amax (pn P) (fun i => Rabs (masked P (g b) i)) else 0).
Fixpoint all_some {A} (l : list (option A)) : option (list A) :=
  match l with [] => Some [] | Some a :: t => option_map (cons a) (all_some t) | None :: _ => None end.
Definition band_grads (P : par) (q : nat -> vec) : option (nat -> vec) :=
  match all_some (map (band_grad P q) (seq 1 (pnimg P - 2))) with
  | None => None
  | Some l => Some (fun b => nth (b - 1) l (fun _ => 0))
  end.
Inductive outcome := Next (s : st) | NotImplemented.
Definition lebR (a b : R) : bool := if Rle_dec a b then true else false.
(** step, 564-984 *)
Definition zeros (P : par) (v : vec) : bool := forallb (fun i => if pmask P i then if Req_EM_T (v i) 0 then true else false else true) (seq 0 (pn P)).
Definition band_step (P : par) (o : opt) (s : st) : st :=
  let q' := place P (pos s) (o_band o (pos s)) in
  let dx := amax_band P (fun b i => q' b i - pos s b i) in
  let de := Rabs (Rsum (pnimg P) (fun b => ppot P (q' b)) - Rsum (pnimg P) (fun b => ppot P (pos s b))) / (INR (pnimg P) * INR (pnat P)) in
  let rep' b i := pweight P * (if inner P b then pforce P (q' b) i else rep s b i) in
  let conv := match band_grads P q' with
              | None => false
              | Some g => (lebR de (tol_e P) && lebR (amax_band P g) (tol_f P) && lebR dx (tol_x P))%bool
              end in
  let stg' := if conv then if puse_climb P then Climb else Converged else Neb in
  let fin' := if (conv && negb (puse_climb P))%bool then Some Success else fin s in
  St stg' q' (qprev s) (qnext s) (cl s) rep' fin'.
Definition climb_init (P : par) (s : st) : st :=
  if (zeros P (qprev s) || zeros P (qnext s))%bool then
    let c := argmax (pnimg P) (fun b => ppot P (pos s b)) in
    if ((c =? 0) || (c =? pnimg P - 1))%nat%bool then St (stg s) (pos s) (qprev s) (qnext s) c (rep s) (Some Bad)
    else St Climb (pos s) (masked P (pos s (c - 1)%nat)) (masked P (pos s (c + 1)%nat)) c (rep s) (fin s)
  else s.
Definition climb_move (P : par) (o : opt) (s : st) : st :=
  let c := cl s in
  let q' := place_image P c (pos s) (o_image o (pos s c)) in
  let dx := amax (pn P) (fun i => Rabs (masked P (fun i => q' c i - pos s c i) i)) in
  let de := Rabs (ppot P (q' c) - ppot P (pos s c)) / INR (pnat P) in
  let g := image_grad P (q' c) (qprev s) (qnext s) in
  let grad i := match g with Some v => v i | None => 0 end in
  (* 895-912: what is stored as the force of the climbing image *)
  let rep' b i := pweight P * (if ((b =? c)%nat && pmask P i)%bool then grad i else rep s b i) in
  let conv := match g with
              | None => false
              | Some v => (lebR de (tol_e P) && lebR (amax (pn P) (fun i => Rabs (masked P v i))) (tol_f P) && lebR dx (tol_x P))%bool
              end in
  St (if conv then Converged else Climb) q' (qprev s) (qnext s) c rep' (if conv then Some Success else fin s).
Definition step (P : par) (o : opt) (s : st) : outcome :=
  match stg s with
  | Converged => Next (St Converged (pos s) (qprev s) (qnext s) (cl s) (rep s) (Some Success))
  | Endpoints => if poptimize P then NotImplemented else Next s
  | Neb =>
      if pvarsprings P then NotImplemented
      else match pmode P with OtherMode => NotImplemented | _ => Next (band_step P o s) end
  | Climb =>
      let s1 := climb_init P s in
      match fin s1 with
      | Some _ => Next s1
      | None => match pmode P with OtherMode => Next (St Climb (pos s1) (qprev s1) (qnext s1) (cl s1) (rep s1) (Some Bad)) | _ => Next (climb_move P o s1) end
      end
  end.
(** The run: the simulation ends when it is finished. *)
Fixpoint run (P : par) (os : list opt) (s : st) : outcome :=
  match os with
  | [] => Next s
  | o :: t => match fin s with
              | Some _ => Next s
              | None => match step P o s with Next s' => run P t s' | e => e end
              end
  end.

(** ** transfer_forces_manual with one force component, forces.py:1118-1157: what the total is afterwards *)
Definition transferred (w : R) (f : vec) : vec := fun i => w * f i.
(** 83-98: the first call computes the forces of all images (w times those of the component), and gives the
    total to the component of the reduced images. *)
Definition first_force (w : R) (raw : vec) : vec := transferred w (fun i => w * raw i).
