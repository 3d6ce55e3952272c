(* Theorems about the replay of trajectories: C59. *)
From Coq Require Import String Ascii List Bool Arith Lia ZArith Sorting.Sorted Permutation QArith Qreals Reals Lra.
From Verif Require Import TextLib UnitModel AutoModel UnitProps AutoProps ReplayModel.
Import ListNotations.
Local Open Scope nat_scope.

(* ---------------- specification ---------------- *)

Fixpoint all {A} (l : list (option A)) : option (list A) :=
  match l with
  | nil => Some []
  | None :: _ => None
  | Some x :: l => match all l with Some r => Some (x :: r) | None => None end
  end.

Section Spec.
Variables X C : Type.
Variable positive : C -> bool.
Variable conv : X -> X.
Variable convc : C -> C.
Notation frame := (frame X C).
Notation state := (state X C).
Notation step := (step X C positive conv convc).
Notation once := (once X C positive conv convc).
Notation load := (load X C conv convc).

(* block k of a trajectory for n beads: frame k of every file, or frames
   k*n, ..., k*n+n-1 of the only file *)
Definition block (wild : bool) (n : nat) (fs : list (list frame)) (k : nat) : option (list frame) :=
  if wild then all (map (fun f => nth_error f k) fs)
  else let b := firstn n (skipn (k * n) (hd [] fs)) in if Nat.eqb (length b) n then Some b else None.

(* the cell after k blocks: that of the last frame of the last block with a
   positive volume, or else the one of the beginning *)
Fixpoint cell_after (wild : bool) (n : nat) (fs : list (list frame)) (c : C) (k : nat) : C :=
  match k with
  | 0 => c
  | S k =>
      match block wild n fs k with
      | Some b => match rev b with
                  | f :: _ => if positive (convc (box f)) then convc (box f) else cell_after wild n fs c k
                  | [] => cell_after wild n fs c k
                  end
      | None => cell_after wild n fs c k
      end
  end.
(* what is left after k blocks *)
Definition rest (wild : bool) (n : nat) (fs : list (list frame)) (k : nat) : list (list frame) :=
  if wild then map (skipn k) fs else match fs with [] => [] | f :: r => skipn (k * n) f :: r end.

(* the files suit the beads *)
Definition suits (wild : bool) (n : nat) (fs : list (list frame)) : Prop :=
  1 <= n /\ if wild then length fs = n else length fs = 1.

(* the state in which blocks 0, ..., k-1 have been read *)
Definition seen wild (fs : list (list frame)) (q : list X) (c : C) (k : nat) (s : state) : Prop :=
  rstep s = k /\ files s = rest wild (length q) fs k /\ length (beads s) = length q /\
  cell s = cell_after wild (length q) fs c k /\ finished s = false /\
  match k with
  | 0 => beads s = q
  | S j => exists b, block wild (length q) fs j = Some b /\ beads s = map (fun f => conv (pos f)) b
  end.

(* ---------------- reading one block ---------------- *)

Lemma all_length {A} (l : list (option A)) r : all l = Some r -> length r = length l.
Proof.
  revert r. induction l as [|[x|] l IH]; cbn; intros r E; [now injection E as <-| |discriminate].
  destruct (all l); [|discriminate]. injection E as <-. cbn. f_equal. auto.
Qed.
Lemma block_length wild n fs k b : suits wild n fs -> block wild n fs k = Some b -> length b = n.
Proof.
  intros [N S] E. unfold block in E. destruct wild.
  - apply all_length in E. now rewrite map_length in E; congruence.
  - destruct (Nat.eqb_spec (length (firstn n (skipn (k * n) (hd [] fs)))) n) as [L|L]; [|discriminate]. now injection E as <-.
Qed.

Definition final (l : list frame) (d : option C) : option C :=
  match rev l with f :: _ => Some (convc (box f)) | [] => d end.
Lemma final_cons x l d : final l (Some (convc (box x))) = final (x :: l) d.
Proof. unfold final. cbn. destruct (rev l); reflexivity. Qed.

Lemma load_one old : forall b f r last,
  load false b old (f :: r) last =
  (if length old <=? length f
   then (map (fun x => conv (pos x)) (firstn (length old) f), skipn (length old) f :: r, final (firstn (length old) f) last, true)
   else ((map (fun x => conv (pos x)) f ++ skipn (length f) old)%list, [] :: r, final f last, false)).
Proof.
  induction old as [|x old IH]; intros b f r last; [reflexivity|]. cbn [ReplayModel.load].
  destruct f as [|y f]; [reflexivity|]. cbn [pull]. rewrite IH. cbn [length].
  destruct (length old <=? length f) eqn:L.
  - rewrite (proj2 (Nat.leb_le (S (length old)) (S (length f)))) by (apply Nat.leb_le in L; lia). cbn [firstn skipn map].
    now rewrite <- final_cons with (d := last).
  - rewrite (proj2 (Nat.leb_gt (S (length old)) (S (length f)))) by (apply Nat.leb_gt in L; lia). cbn [skipn map app].
    now rewrite <- final_cons with (d := last).
Qed.

Lemma pull_at (pre : list (list frame)) f fs : pull (length pre) (pre ++ f :: fs) =
  match f with [] => None | x :: f => Some (x, (pre ++ f :: fs)%list) end.
Proof.
  induction pre as [|p pre IH]; cbn; [now destruct f|]. rewrite IH. destruct f; now destruct p.
Qed.
Lemma load_many fs : forall old pre last, length old = length fs ->
  match all (map (fun f => nth_error f 0) fs) with
  | Some b => load true (length pre) old (pre ++ fs) last
              = (map (fun x => conv (pos x)) b, (pre ++ map (skipn 1) fs)%list, final b last, true)
  | None => snd (load true (length pre) old (pre ++ fs) last) = false /\
      length (fst (fst (fst (load true (length pre) old (pre ++ fs) last)))) = length old
  end.
Proof.
  induction fs as [|f fs IH]; intros old pre last L; cbn [map all].
  - destruct old; [|discriminate]. cbn. now rewrite app_nil_r.
  - destruct old as [|x old]; [discriminate|]. cbn in L. cbn [ReplayModel.load]. rewrite pull_at.
    destruct f as [|y f]; [now split|]. change (nth_error (y :: f) 0) with (Some y). cbv beta iota.
    specialize (IH old (pre ++ [f])%list (Some (convc (box y))) ltac:(lia)).
    rewrite app_length, Nat.add_1_r in IH. rewrite <- app_assoc in IH. cbn [app] in IH.
    destruct (all (map (fun f => nth_error f 0) fs)) as [b|].
    + rewrite IH. cbn [map]. change (skipn 1 (y :: f)) with f. rewrite <- app_assoc. cbn [app]. now rewrite <- final_cons with (d := last).
    + destruct (load true (S (length pre)) old (pre ++ f :: fs) (Some (convc (box y)))) as [[[a b] d] e].
      cbn in *. destruct IH as [-> ->]. auto.
Qed.

Lemma nth_skip {A} (f : list A) k : nth_error (skipn k f) 0 = nth_error f k.
Proof. revert f. induction k as [|k IH]; intros [|x f]; try reflexivity. apply IH. Qed.
Lemma block_rest wild n fs k : suits wild n fs -> block wild n (rest wild n fs k) 0 = block wild n fs k.
Proof.
  intros [N S]. unfold block, rest. destruct wild.
  - f_equal. rewrite map_map. apply map_ext. intros f. apply nth_skip.
  - destruct fs as [|f [|]]; try discriminate. reflexivity.
Qed.
Lemma skip_skip {A} a b (l : list A) : skipn a (skipn b l) = skipn (b + a) l.
Proof. revert l. induction b; intros l; cbn; [reflexivity|]. destruct l; [now rewrite skipn_nil|apply IHb]. Qed.
Lemma rest_rest wild n fs k : suits wild n fs -> rest wild n (rest wild n fs k) 1 = rest wild n fs (S k).
Proof.
  intros [N S]. unfold rest. destruct wild.
  - rewrite map_map. apply map_ext. intros f. rewrite skip_skip. f_equal. lia.
  - destruct fs as [|f r]; [reflexivity|]. rewrite skip_skip. f_equal. f_equal. lia.
Qed.
Lemma suits_rest wild n fs k : suits wild n fs -> suits wild n (rest wild n fs k).
Proof. intros [N S]. split; [exact N|]. unfold rest. destruct wild; [now rewrite map_length|]. destruct fs as [|f [|]]; auto. Qed.

Lemma once_spec wild s : suits wild (length (beads s)) (files s) ->
  match block wild (length (beads s)) (files s) 0 with
  | Some b => once wild s = State (S (rstep s)) (rest wild (length (beads s)) (files s) 1)
                (map (fun f => conv (pos f)) b)
                (match final b None with Some c => if positive c then c else cell s | None => cell s end) (finished s)
  | None => finished (once wild s) = true /\ cell (once wild s) = cell s /\ length (beads (once wild s)) = length (beads s)
  end.
Proof.
  intros [N S]. unfold once, ReplayModel.once. destruct wild.
  - pose proof (load_many (files s) (beads s) [] None ltac:(auto)) as L. unfold block. cbn [app length] in L.
    destruct (all (map (fun f => nth_error f 0) (files s))) as [b|].
    + rewrite L. reflexivity.
    + destruct (load true 0 (beads s) (files s) None) as [[[a b] d] e]. cbn in L. destruct L as [-> L]. cbn. auto.
  - destruct (files s) as [|f [|]] eqn:F; try discriminate. rewrite load_one. unfold block. cbn [hd Nat.mul skipn].
    rewrite firstn_length. destruct (Nat.leb_spec (length (beads s)) (length f)) as [L|L].
    + rewrite (proj2 (Nat.eqb_eq _ _)) by lia. unfold rest. now rewrite Nat.mul_1_l.
    + destruct (Nat.eqb_spec (Nat.min (length (beads s)) (length f)) (length (beads s))); [lia|].
      cbn. rewrite app_length, map_length, skipn_length. split; [reflexivity|]. split; [reflexivity|]. lia.
Qed.

Lemma once_seen wild fs q c k s b : suits wild (length q) fs -> seen wild fs q c k s ->
  block wild (length q) fs k = Some b -> seen wild fs q c (S k) (once wild s).
Proof.
  intros S (R & F & L & E & D & _) B.
  assert (S' : suits wild (length (beads s)) (files s)) by (rewrite L, F; now apply suits_rest).
  pose proof (once_spec wild s S') as O. rewrite L, F, block_rest, B in O by exact S. rewrite O.
  unfold seen. cbn [rstep files beads cell finished cell_after]. rewrite B, R.
  split; [reflexivity|]. split; [now apply rest_rest|]. split; [rewrite map_length; eapply block_length; eauto|].
  split; [|split; [exact D|exists b; auto]].
  unfold final. rewrite <- E. now destruct (rev b).
Qed.

(* ---------------- theorems ---------------- *)

Lemma rounds_seen wild fs q c m : forall j s, suits wild (length q) fs -> seen wild fs q c j s ->
  (forall i, i <= j + m -> block wild (length q) fs i <> None) ->
  seen wild fs q c (S (j + m)) (rounds X C positive conv convc m wild s).
Proof.
  induction m as [|m IH]; intros j s S H B; cbn [rounds].
  - destruct (block wild (length q) fs j) as [b|] eqn:E; [|now apply B in E; [|lia]].
    assert (K := once_seen _ _ _ _ _ _ _ S H E). rewrite Nat.add_0_r.
    assert (F : finished (once wild s) = false) by apply K. now rewrite F.
  - destruct (block wild (length q) fs j) as [b|] eqn:E; [|now apply B in E; [|lia]].
    assert (K := once_seen _ _ _ _ _ _ _ S H E).
    assert (F : finished (once wild s) = false) by apply K. rewrite F.
    replace (j + Datatypes.S m) with (Datatypes.S j + m) by lia. apply IH; auto. intros i I. apply B. lia.
Qed.

(* C59: a step loads the block of its own number, whichever blocks were
   read before it; the cell is the last valid one up to that block. *)
Theorem replay_frame wild fs q c j k s : suits wild (length q) fs -> seen wild fs q c j s -> j <= k ->
  (forall i, i <= k -> block wild (length q) fs i <> None) ->
  exists s', step wild (Some k) s = Some s' /\ seen wild fs q c (S k) s'.
Proof.
  intros S H J B. unfold step, ReplayModel.step.
  assert (F : files s = rest wild (length q) fs j) by apply H. assert (L : length (beads s) = length q) by apply H.
  assert (R : rstep s = j) by apply H.
  assert (W : wild && negb (length (files s) =? length (beads s)) = false).
  { destruct wild; [|reflexivity]. rewrite F, L. unfold rest. rewrite map_length. destruct S as [_ ->]. now rewrite Nat.eqb_refl. }
  rewrite W. eexists. split; [reflexivity|]. rewrite R.
  replace (Datatypes.S k) with (Datatypes.S (j + (k - j))) by lia. apply rounds_seen; auto.
  intros i I. apply B. lia.
Qed.

Theorem opened wild fs q c : seen wild fs q c 0 (open_files fs q c).
Proof.
  repeat split. cbn. unfold rest. destruct wild.
  - rewrite map_ext with (g := fun f : list frame => f) by reflexivity. symmetry. apply map_id.
  - now destruct fs.
Qed.

(* Whether or not the run is restarted: after block j the program is ended
   and started again on the same file, with the positions and the cell of
   its checkpoint.  It then continues as if it had not been. *)
Lemma cell_again wild n fs c j k : j <= k -> cell_after wild n fs (cell_after wild n fs c j) k = cell_after wild n fs c k.
Proof.
  intros H. induction k as [|k IH].
  - replace j with 0 by lia. reflexivity.
  - destruct (Nat.eq_dec j (S k)) as [->|].
    + (* reading again what gave the cell *)
      clear IH H. set (d := cell_after wild n fs c (S k)).
      assert (G : forall i, i <= S k -> cell_after wild n fs d i = cell_after wild n fs c i \/
                    (cell_after wild n fs d i = d /\ cell_after wild n fs c i = c)).
      { induction i as [|i IHi]; intros I; [right; auto|]. cbn [cell_after].
        destruct (block wild n fs i) as [b|]; [|apply IHi; lia]. destruct (rev b) as [|f r]; [apply IHi; lia|].
        destruct (positive (convc (box f))); [now left|apply IHi; lia]. }
      destruct (G (S k) (le_n _)) as [E|[E1 E2]]; [exact E|]. rewrite E1. reflexivity.
    + cbn [cell_after]. destruct (block wild n fs k) as [b|]; [|apply IH; lia].
      destruct (rev b); [apply IH; lia|]. destruct (positive (convc (box f))); [reflexivity|apply IH; lia].
Qed.
Theorem replay_restart wild fs q c j k s s1 s2 : suits wild (length q) fs -> seen wild fs q c j s -> j <= k ->
  (forall i, i <= k -> block wild (length q) fs i <> None) ->
  step wild (Some k) s = Some s1 ->
  step wild (Some k) (open_files fs (beads s) (cell s)) = Some s2 -> s1 = s2.
Proof.
  intros S H J B E1 E2.
  assert (L : length (beads s) = length q) by apply H.
  assert (Ec : cell s = cell_after wild (length q) fs c j) by apply H.
  destruct (replay_frame wild fs q c j k s S H J B) as (t1 & T1 & K1). rewrite E1 in T1. injection T1 as <-.
  destruct (replay_frame wild fs (beads s) (cell s) 0 k (open_files fs (beads s) (cell s))) as (t2 & T2 & K2).
  { now rewrite L. } { apply opened. } { lia. } { now rewrite L. }
  rewrite E2 in T2. injection T2 as <-.
  destruct K1 as (A1 & A2 & A3 & A4 & A5 & b1 & A6 & A7). destruct K2 as (C1 & C2 & C3 & C4 & C5 & b2 & C6 & C7).
  rewrite L in *. rewrite A6 in C6. injection C6 as <-.
  destruct s1, s2; cbn in *. subst. f_equal. rewrite Ec. pose proof (cell_again wild (length q) fs c j (Datatypes.S k) ltac:(lia)) as G. cbn [cell_after] in G. first [exact G | symmetry; exact G].
Qed.

(* When the trajectory has no block k, the replay ends. *)
Theorem replay_ends wild fs q c j s : suits wild (length q) fs -> seen wild fs q c j s ->
  block wild (length q) fs j = None ->
  exists s', step wild (Some j) s = Some s' /\ finished s' = true /\ cell s' = cell s.
Proof.
  intros S H B. unfold step, ReplayModel.step.
  assert (F : files s = rest wild (length q) fs j) by apply H. assert (L : length (beads s) = length q) by apply H.
  assert (R : rstep s = j) by apply H.
  assert (W : wild && negb (length (files s) =? length (beads s)) = false).
  { destruct wild; [|reflexivity]. rewrite F, L. unfold rest. rewrite map_length. destruct S as [_ ->]. now rewrite Nat.eqb_refl. }
  rewrite W, R, Nat.sub_diag. eexists. split; [reflexivity|]. cbn [rounds].
  assert (S' : suits wild (length (beads s)) (files s)) by (rewrite L, F; now apply suits_rest).
  pose proof (once_spec wild s S') as O. rewrite L, F, block_rest, B in O by exact S.
  destruct O as (O1 & O2 & O3). rewrite O1. auto.
Qed.
(* With one file of complete blocks the beads stay where they were. *)
Theorem replay_ends_clean fs q c j s : suits false (length q) fs -> seen false fs q c j s ->
  length (hd [] fs) = j * length q ->
  exists s', step false (Some j) s = Some s' /\ finished s' = true /\ beads s' = beads s.
Proof.
  intros [N S] H E. unfold step, ReplayModel.step.
  assert (F : files s = rest false (length q) fs j) by apply H. assert (L : length (beads s) = length q) by apply H.
  assert (R : rstep s = j) by apply H. cbn [andb].
  rewrite R, Nat.sub_diag. eexists. split; [reflexivity|]. cbn [rounds]. unfold once, ReplayModel.once.
  destruct fs as [|f [|]]; try discriminate. cbn in F, E. rewrite F, load_one.
  rewrite skipn_all2 by lia. cbn [length]. rewrite L. destruct (Nat.leb_spec (length q) 0); [lia|]. cbn. auto.
Qed.
End Spec.

(* Files given by a pattern are put in the order of their beads. *)
Section Order.
Variable F : Type.
Lemma insert_perm x (l : list (F * Z)) : Permutation (insert F x l) (x :: l).
Proof.
  induction l as [|g l IH]; cbn; [reflexivity|]. destruct (Z.leb (snd x) (snd g)); [reflexivity|].
  rewrite IH. apply perm_swap.
Qed.
Lemma sort_perm l : Permutation (sort F l) l.
Proof. induction l as [|x l IH]; cbn; [reflexivity|]. now rewrite insert_perm, IH. Qed.
Definition le (a b : F * Z) : Prop := (snd a <= snd b)%Z.
Lemma insert_sorted x l : StronglySorted le l -> StronglySorted le (insert F x l).
Proof.
  induction l as [|g l IH]; intros S; cbn; [repeat constructor|]. inversion S as [|? ? S' A]; subst.
  destruct (Z.leb_spec (snd x) (snd g)) as [L|L].
  - constructor; [exact S|]. constructor; [exact L|]. eapply Forall_impl; [|exact A]. unfold le. intros; lia.
  - constructor; [auto|]. eapply Permutation_Forall; [symmetry; apply insert_perm|]. constructor; [unfold le; lia|exact A].
Qed.
Lemma sort_sorted l : StronglySorted le (sort F l).
Proof. induction l; cbn; [constructor|now apply insert_sorted]. Qed.

Theorem files_by_bead (l : list (F * Z)) :
  exists s, by_bead F (map (fun x => (fst x, [snd x])) l) = map fst s /\ Permutation s l /\
    StronglySorted (fun a b => (snd a <= snd b)%Z) s.
Proof.
  exists (sort F l). split; [|split; [apply sort_perm|apply sort_sorted]].
  unfold by_bead. rewrite !map_map. cbn [fst snd]. f_equal. f_equal.
  induction l as [|[f z] l IH]; cbn; [reflexivity|]. now rewrite IH.
Qed.
End Order.
(* ... but not if one of them does not tell its bead: the numbers are then
   taken for those of other files. *)
Theorem files_by_bead_refuted : exists l : list (string * list Z),
  In ("b.xyz"%string, [0%Z]) l /\ by_bead _ l = ["a.xyz"%string].
Proof. exists [("a.xyz"%string, []); ("b.xyz"%string, [0%Z])]. split; [right; now left|reflexivity]. Qed.

(* C59 is false at the end of a trajectory with an incomplete block: the
   beads hold frames of two different blocks. *)
Theorem incomplete_block_refuted :
  exists s : state nat nat, exists s',
    step nat nat (fun _ => true) (fun x => x) (fun x => x) false (Some 0) s = Some s' /\ beads s' = [10;11] /\
    exists s'', step nat nat (fun _ => true) (fun x => x) (fun x => x) false (Some 1) s' = Some s'' /\
      finished s'' = true /\ beads s'' = [12;11].
Proof.
  exists (open_files [[Frame 10 0; Frame 11 0; Frame 12 0]] [0;0] 5).
  eexists. split; [reflexivity|]. split; [reflexivity|]. eexists. repeat split; reflexivity.
Qed.

(* ---------------- units ---------------- *)

Local Open Scope string_scope.

Lemma no_units comment u x y : In u ["automatic"%string; ""%string; "atomic_unit"%string] ->
  declared comment (tx u) x y = read comment x y.
Proof.
  intros I. unfold declared. destruct (read comment x y) as [[x' y']|]; [|reflexivity].
  assert (E : unit_to_internal (tx "length") (tx u) 1 = Ok (1 * Q2R (1 * 1))%R) by
   (destruct I as [<-|[<-|[<-|[]]]]; reflexivity).
  rewrite E. replace (Q2R (1 * 1)) with 1%R by (unfold Q2R; cbn; lra). f_equal. f_equal; ring.
Qed.

(* Without declared units, numbers are those of the file. *)
Theorem replay_automatic head k dim units cell x y c x' y' u :
  has "{"%char head = false -> In (k, Some dim) traj_dict -> worded units -> worded cell ->
  write (head ++ [" "%char])%list (tx k) (tx dim) units cell x y = Some (c, x', y') ->
  In u ["automatic"%string; ""%string; "atomic_unit"%string] ->
  declared c (tx u) x' y' = Some (x, y).
Proof.
  intros H I U W E Iu. rewrite no_units by exact Iu. exact (written_units_read_back_partial _ _ _ _ _ _ _ _ _ _ H I U W E).
Qed.

(* With declared units the conversion is applied twice to a file that says
   what its units are. *)
Theorem replay_units_twice head k dim units cell x y c x' y' u f :
  has "{"%char head = false -> In (k, Some dim) traj_dict -> worded units -> worded cell ->
  write (head ++ [" "%char])%list (tx k) (tx dim) units cell x y = Some (c, x', y') ->
  factor (tx "length") u = Ok f ->
  declared c u x' y' = Some (x * Q2R f, y * Q2R f)%R.
Proof.
  intros H I U W E F. unfold declared. rewrite (written_units_read_back_partial _ _ _ _ _ _ _ _ _ _ H I U W E).
  unfold unit_to_internal. rewrite F. f_equal. f_equal; ring.
Qed.
Theorem replay_units_refuted : exists head x y c x' y' r,
  write (head ++ [" "%char])%list (tx "positions") (tx "length") (tx "angstrom") (tx "angstrom") x y = Some (c, x', y') /\
  declared c (tx "angstrom") x' y' = Some (r, r) /\ x = 1%R /\ y = 1%R /\ (r > 1.8)%R.
Proof.
  exists (tx "# Step:  1"), 1%R, 1%R.
  assert (W : exists c x' y', write (tx "# Step:  1" ++ [" "%char])%list (tx "positions") (tx "length") (tx "angstrom") (tx "angstrom") 1 1 = Some (c, x', y'))
    by (do 3 eexists; vm_compute; reflexivity).
  destruct W as (c & x' & y' & W). exists c, x', y', (1 * Q2R (1.8897261 * 1))%R. split; [exact W|].
  split; [|split; [reflexivity|split; [reflexivity|unfold Q2R; cbn; lra]]].
  eapply replay_units_twice with (units := tx "angstrom") (cell := tx "angstrom"); [| | | |exact W|reflexivity].
  - reflexivity.
  - left; reflexivity.
  - repeat constructor.
  - repeat constructor.
Qed.

Local Close Scope string_scope.
Example replay_case :
  let s := step nat nat (fun c => 0 <? c) (fun x => x) (fun x => x) false (Some 1)
             (open_files [[Frame 10 0; Frame 11 3; Frame 12 0; Frame 13 0; Frame 14 0]] [0;0] 5) in
  suits nat nat false 2 [[Frame 10 0; Frame 11 3; Frame 12 0; Frame 13 0; Frame 14 0]] /\
  s = Some (State 2 [[Frame 14 0]] [12;13] 3 false).
Proof. cbv zeta. split; [split; [lia|reflexivity]|reflexivity]. Qed.
Example replay_case_wild :
  step nat nat (fun c => 0 <? c) (fun x => x) (fun x => x) true (Some 1)
             (open_files [[Frame 10 0; Frame 11 3]; [Frame 20 4; Frame 21 0; Frame 22 0]] [0;0] 5)
  = Some (State 2 [[]; [Frame 22 0]] [11;21] 4 false).
Proof. reflexivity. Qed.

Print Assumptions replay_frame.
Print Assumptions replay_restart.
Print Assumptions replay_ends.
Print Assumptions replay_ends_clean.
Print Assumptions files_by_bead.
Print Assumptions files_by_bead_refuted.
Print Assumptions incomplete_block_refuted.
Print Assumptions replay_automatic.
Print Assumptions replay_units_twice.
Print Assumptions replay_units_refuted.
