(** * Theorems about the post-processing tools *)
From Coq Require Import String Ascii List Reals Lra Lia Arith Bool QArith Qreals.
From Verif Require Import RSum NMModel NMProps TextLib UnitModel UnitProps AutoModel AutoProps EstModel ToolModel.
Import ListNotations.
Open Scope R_scope.

(** ** C257 contraction of a trajectory *)
Lemma conv_inv fam u x y : unit_to_internal fam u 1 = Ok x -> unit_to_user fam u 1 = Ok y -> x * y = 1.
Proof.
  unfold unit_to_user, unit_to_internal. destruct (factor fam u) as [f| | |] eqn:F; try easy. intros E1 E2.
  injection E1 as <-. injection E2 as <-. apply factor_positive, Qlt_Rlt in F. rewrite RMicromega.Q2R_0 in F. field. lra.
Qed.
Lemma rescale_scal n n' q u b c : rescale_b1tob2 n n' [] true (fun b c => q b c * u) b c = rescale_b1tob2 n n' [] true q b c * u.
Proof.
  unfold rescale_b1tob2. destruct (n =? n')%nat; [reflexivity|]. cbn [nonempty]. unfold app. rewrite <- Rsum_scal_r. apply Rsum_ext. intros. ring.
Qed.
(** The numbers written are the ring polymer contraction of the numbers read, whatever their units; with one bead, their mean. *)
Theorem contract_numbers comment n n_new q h c q' h' dim units cell : auto_units comment = Some (dim, units, cell) ->
  units <> tx "automatic" -> contract_frame comment n n_new q h = Some (c, q', h') ->
  forall b k, q' b k = rescale_b1tob2 n n_new [] true q b k.
Proof.
  intros A U E b k. unfold contract_frame in E. rewrite A in E.
  assert (Ch : chosen units = units).
  { unfold chosen, eqt. destruct (list_eq_dec ascii_dec units (tx "automatic")); easy. }
  rewrite Ch in E. destruct (unit_to_internal dim units 1) as [u| | |] eqn:E1; try easy.
  destruct (unit_to_user (tx "length") (chosen cell) 1) as [cc| | |] eqn:E2; try easy.
  destruct (unit_to_user dim units 1) as [ac| | |] eqn:E3; try easy. injection E as <- <- <-.
  rewrite rescale_scal, Rmult_assoc, (conv_inv _ _ _ _ E1 E3). ring.
Qed.
Theorem contract_centroid comment n q h c q' h' dim units cell : (0 < n)%nat -> auto_units comment = Some (dim, units, cell) ->
  units <> tx "automatic" -> contract_frame comment n 1 q h = Some (c, q', h') ->
  forall k, q' 0%nat k = Rsum n (fun b => q b k) / INR n.
Proof.
  intros Hn A U E k. rewrite (contract_numbers _ _ _ _ _ _ _ _ _ _ _ A U E).
  pose proof (proj1 (contraction_centroid n 1 [] true q k Hn ltac:(lia))) as P. unfold mean in P. cbn [Rsum INR] in P. rewrite <- P. field.
Qed.
(** A cell in atomic units is written as it was read; *)
Theorem contract_cell comment n n_new q h c q' h' dim units : auto_units comment = Some (dim, units, tx "atomic_unit") ->
  contract_frame comment n n_new q h = Some (c, q', h') -> h' = h.
Proof.
  intros A E. unfold contract_frame in E. rewrite A in E.
  destruct (unit_to_internal dim units 1) as [u| | |]; try easy.
  assert (L : unit_to_user (tx "length") (chosen (tx "atomic_unit")) 1 = Ok (1 / (1 * Q2R (1 * 1)))) by (vm_compute; reflexivity).
  rewrite L in E. destruct (unit_to_user dim (chosen units) 1) as [ac| | |]; try easy. injection E as _ _ <-.
  replace (Q2R (1 * 1)) with 1 by (unfold Q2R; cbn; lra). field.
Qed.
(** one in angstrom is not: it comes out shorter by the number of bohr in an angstrom. The positions lose their label as well, so
    that reading the new file takes angstrom for bohr. *)
Definition ang : R := Q2R (1.8897261 * 1).
Definition case_comment : text := tx "# CELL(abcABC): 10.0 positions{angstrom}  cell{angstrom}".
Lemma case_units : auto_units case_comment = Some (tx "length", tx "angstrom", tx "angstrom").
Proof. vm_compute. reflexivity. Qed.
Lemma case_out q h : exists q' h' , contract_frame case_comment 1 1 q h = Some (label [] (tx "angstrom") (tx "angstrom"), q', h') /\
  (forall b k, q' b k = q b k) /\ h' = h * (1 / (1 * ang)).
Proof.
  assert (F : factor (tx "length") (tx "angstrom") = Ok (1.8897261 * 1)%Q) by (vm_compute; reflexivity).
  assert (U : unit_to_internal (tx "length") (tx "angstrom") 1 = Ok (1 * ang)) by (unfold unit_to_internal; now rewrite F).
  assert (V : unit_to_user (tx "length") (tx "angstrom") 1 = Ok (1 / (1 * ang))) by (unfold unit_to_user; now rewrite U).
  assert (C : chosen (tx "angstrom") = tx "angstrom") by (vm_compute; reflexivity).
  exists (fun b c => q b c * (1 * ang) * (1 / (1 * ang))), (h * (1 / (1 * ang))). split; [|split; [|reflexivity]].
  - unfold contract_frame. rewrite case_units, C, U, V. reflexivity.
  - intros b k. unfold ang, Q2R. cbn. field.
Qed.
Lemma ang_val : 1.88 < ang < 1.89.
Proof. unfold ang, Q2R. cbn. lra. Qed.
Theorem contract_cell_refuted : exists comment n n_new q h c q' h' dim units cell,
  auto_units comment = Some (dim, units, cell) /\ contract_frame comment n n_new q h = Some (c, q', h') /\
  (exists d u, auto_units c = Some (d, u, cell)) /\ 0 < h /\ h' < h * (6 / 10).
Proof.
  destruct (case_out (fun _ _ => 1) 10) as (q' & h' & E & _ & H).
  exists case_comment, 1%nat, 1%nat, (fun _ _ => 1), 10, (label [] (tx "angstrom") (tx "angstrom")), q', h', (tx "length"), (tx "angstrom"), (tx "angstrom").
  split; [exact case_units|]. split; [exact E|]. split; [exists (tx "undefined"), (tx "atomic_unit"); vm_compute; reflexivity|].
  split; [lra|]. rewrite H. pose proof ang_val. apply Rmult_lt_reg_r with ang; [lra|].
  replace (10 * (1 / (1 * ang)) * ang) with 10 by (field; lra). lra.
Qed.
Theorem contract_units_refuted : exists comment q h c q' h' x y x' y',
  contract_frame comment 1 1 q h = Some (c, q', h') /\ read comment (q 0%nat 0%nat) h = Some (x, y) /\
  read c (q' 0%nat 0%nat) h' = Some (x', y') /\ 0 < x' < x * (6 / 10).
Proof.
  destruct (case_out (fun _ _ => 1) 10) as (q' & h' & E & Q & H).
  exists case_comment, (fun _ _ => 1), 10, (label [] (tx "angstrom") (tx "angstrom")), q', h', (1 * (1 * ang)), (10 * (1 * ang)), 1, (h' * (1 * ang)).
  assert (F : factor (tx "length") (tx "angstrom") = Ok (1.8897261 * 1)%Q) by (vm_compute; reflexivity).
  assert (V : factor (tx "undefined") (tx "atomic_unit") = Ok (1 * 1)%Q) by (vm_compute; reflexivity).
  assert (L : auto_units (label [] (tx "angstrom") (tx "angstrom")) = Some (tx "undefined", tx "atomic_unit", tx "angstrom")) by (vm_compute; reflexivity).
  split; [exact E|]. split; [|split].
  - unfold read. rewrite case_units. unfold unit_to_internal. rewrite F. reflexivity.
  - unfold read. rewrite L. unfold unit_to_internal. rewrite F, V, Q. replace (Q2R (1 * 1)) with 1 by (unfold Q2R; cbn; lra).
    replace (1 * (1 * 1)) with 1 by ring. reflexivity.
  - pose proof ang_val. lra.
Qed.

(** ** C258 multiplexing of trajectories *)
Section Mux.
Variable F : Type.
Lemma round_full out (heads : list F) (tails : list (list F)) : List.length heads = List.length tails ->
  mux_round F out (map (fun p => fst p :: snd p) (combine heads tails)) = (if out then heads else [], Some tails).
Proof.
  revert tails. induction heads as [|x heads IH]; intros [|t tails] H; try discriminate; [destruct out; reflexivity|].
  injection H as H. cbn [combine map mux_round fst snd]. rewrite IH by easy. destruct out; reflexivity.
Qed.
Lemma round_empty out (trjs : list (list F)) : trjs <> [] -> (forall t, In t trjs -> t = []) -> mux_round F out trjs = ([], None).
Proof. destruct trjs as [|t trjs]; [easy|]. intros _ H. rewrite (H t (or_introl eq_refl)). reflexivity. Qed.
(** which frames are asked for *)
Definition wanted (first : nat) (last : option nat) (stride i : nat) : bool :=
  Nat.leb first i && Nat.eqb (i mod stride) 0 && match last with Some e => Nat.ltb i e | None => true end.
Lemma wanted_after first e stride i n : (e <= i)%nat ->
  filter (wanted first (Some e) stride) (seq i n) = [].
Proof.
  revert i. induction n as [|n IH]; intros i H; [reflexivity|]. cbn [seq filter]. unfold wanted at 1.
  replace (Nat.ltb i e) with false by (symmetry; apply Nat.ltb_ge; lia). rewrite andb_false_r. apply IH. lia.
Qed.
(** [step i]: the frames number [i] of all files. If the files have the same number of frames, the output holds, for every frame
    asked for, this frame of every file in the order of the files. *)
Theorem mux_frames nb (fr : nat -> nat -> F) first last stride n : forall i fuel, (0 < nb)%nat -> (n < fuel)%nat ->
  mux F fuel i first last stride (map (fun b => map (fr b) (seq i n)) (seq 0 nb)) =
  concat (map (fun k => map (fun b => fr b k) (seq 0 nb)) (filter (wanted first last stride) (seq i n))).
Proof.
  intros i fuel Hb. revert i fuel. induction n as [|n IH]; intros i fuel Hf; (destruct fuel as [|fuel]; [lia|]); cbn [mux].
  - destruct (match last with Some e => Nat.leb e i | None => false end); [reflexivity|]. rewrite round_empty; [reflexivity| |].
    + destruct nb; [lia|easy].
    + intros t I. apply in_map_iff in I. destruct I as (b & <- & _). reflexivity.
  - destruct (match last with Some e => Nat.leb e i | None => false end) eqn:E.
    { destruct last as [e|]; [|discriminate]. apply Nat.leb_le in E. rewrite wanted_after by lia. reflexivity. }
    replace (map (fun b => map (fr b) (seq i (S n))) (seq 0 nb)) with
      (map (fun p => fst p :: snd p) (combine (map (fun b => fr b i) (seq 0 nb)) (map (fun b => map (fr b) (seq (S i) n)) (seq 0 nb)))).
    2:{ generalize (seq 0 nb). induction l as [|b l IHl]; [reflexivity|]. cbn [map combine fst snd]. rewrite IHl. reflexivity. }
    rewrite round_full by now rewrite !map_length. rewrite IH by lia. cbn [seq filter]. unfold wanted at 2.
    replace (match last with Some e => Nat.ltb i e | None => true end) with true.
    2:{ destruct last as [e|]; [|reflexivity]. apply Nat.leb_gt in E. symmetry. now apply Nat.ltb_lt. }
    rewrite andb_true_r. destruct (Nat.leb first i && Nat.eqb (i mod stride) 0); reflexivity.
Qed.
End Mux.
(** When a later file is shorter, the frames of the files before it are written all the same: the output then no longer has the
    same number of frames for every bead. *)
Theorem mux_short_refuted : exists trjs : list (list nat), List.length trjs = 2%nat /\
  List.length (mux nat 5 0 0 None 1 trjs) = 3%nat.
Proof. exists [[10; 11]; [20]]%nat. split; reflexivity. Qed.
Example mux_case : mux nat 9 0 1 (Some 4%nat) 2 [[10; 11; 12; 13; 14]; [20; 21; 22; 23; 24]]%nat = [12; 22]%nat.
Proof. reflexivity. Qed.
(** The options to wrap and to unwrap cannot be used. *)
Theorem mux_wrap_refuted {A} (frame last : A) : wrap_positions frame = None /\ unwrap_positions frame (Some last) = None /\
  unwrap_positions frame None = Some frame.
Proof. repeat split. Qed.

(** ** C259 kinetic energy from positions and forces *)
(** What the tool writes is what the trajectories kinetic_cv and kinetic_od of the run would have held. *)
Theorem tool_kinetic s i a : (a < 3)%nat ->
  tool_kcv (nb s) (kb s) (temp s) (qq s) (ff s) i a = get_akcv s (3 * i + a) /\
  tool_kcv (nb s) (kb s) (temp s) (qq s) (ff s) i (3 + a) = get_akcv_od s (3 * i + a).
Proof.
  intros Ha. unfold get_akcv_od.
  replace ((3 * i + a) / 3)%nat with i by (rewrite Nat.add_comm, Nat.mul_comm, Nat.div_add, Nat.div_small by lia; lia).
  replace ((3 * i + a) mod 3)%nat with a by (rewrite Nat.add_comm, Nat.mul_comm, Nat.mod_add, Nat.mod_small by lia; easy).
  destruct a as [|[|[|a]]]; [| | |lia]; unfold tool_kcv, get_akcv, dev, qc, centroid; cbn [Nat.add]; split; ring.
Qed.

(** ** C260 moving average of the kinetic energy tensor *)
(** When the mean is taken, the buffer holds the last 2 lag + 1 frames. *)
Theorem tag_buffer {A} cbuf (buf k : nat -> A) n j : (0 < cbuf)%nat -> (j < cbuf)%nat -> (j <= n)%nat ->
  tag_fill cbuf buf k (S n) ((n - j) mod cbuf)%nat = k (n - j)%nat.
Proof.
  intros Hc. revert n. induction j as [|j IH]; intros n Hj Hn.
  - rewrite Nat.sub_0_r. cbn [tag_fill]. unfold tag_store. now rewrite Nat.eqb_refl.
  - destruct n as [|n]; [lia|]. change (tag_fill cbuf buf k (S (S n))) with (tag_store cbuf (tag_fill cbuf buf k (S n)) (S n) (k (S n))).
    unfold tag_store. replace (S n - S j)%nat with (n - j)%nat by lia.
    destruct (Nat.eqb_spec ((n - j) mod cbuf) (S n mod cbuf)) as [E|_]; [|apply IH; lia]. exfalso.
    pose proof (Nat.div_mod (n - j) cbuf ltac:(lia)) as D1. pose proof (Nat.div_mod (S n) cbuf ltac:(lia)) as D2. rewrite E in D1.
    set (r := (S n mod cbuf)%nat) in *. set (u := ((n - j) / cbuf)%nat) in *. set (v := (S n / cbuf)%nat) in *.
    assert (X : (cbuf * v - cbuf * u = S j)%nat) by lia. rewrite <- Nat.mul_sub_distr_l in X.
    destruct (v - u)%nat as [|w] eqn:W; [lia|]. assert (cbuf * S w >= cbuf)%nat by nia. lia.
Qed.
Lemma tag_w_left lag j : (0 < lag)%nat -> (j <= lag)%nat -> tag_w lag j = INR j / INR lag.
Proof. intros H J. unfold tag_w. pose proof (lt_0_INR lag H). apply le_INR in J. rewrite Rabs_left1 by lra. field. lra. Qed.
Lemma tag_w_right lag d : (0 < lag)%nat -> tag_w lag (lag + d) = 1 - INR d / INR lag.
Proof. intros H. unfold tag_w. rewrite plus_INR. pose proof (pos_INR d). rewrite Rabs_right by lra. f_equal. f_equal. ring. Qed.
Lemma tag_total lag : (0 < lag)%nat -> Rsum (2 * lag + 1) (tag_w lag) = INR lag.
Proof.
  intros H. pose proof (lt_0_INR lag H). replace (2 * lag + 1)%nat with (lag + S lag)%nat by lia. rewrite Rsum_split.
  rewrite (Rsum_ext lag (tag_w lag) (fun j => INR j / INR lag)) by (intros; apply tag_w_left; lia).
  rewrite (Rsum_ext (S lag) _ (fun d => 1 - INR d / INR lag)) by (intros; now apply tag_w_right).
  rewrite Rsum_minus, Rsum_const. cbn [Rsum]. rewrite S_INR. field. lra.
Qed.
(** The mean written for the frame n - lag has a triangular window around it: weight 1 - d / lag, over lag, at a distance d. *)
Theorem tag_window lag buf k n : (0 < lag)%nat -> (2 * lag <= n)%nat ->
  tag_mean lag (tag_fill (2 * lag + 1) buf k (S n)) n =
  (k (n - lag)%nat + Rsum lag (fun d => (1 - INR (S d) / INR lag) * (k (n - lag + S d)%nat + k (n - lag - S d)%nat))) / INR lag.
Proof.
  intros H N. pose proof (lt_0_INR lag H) as HL. unfold tag_mean. rewrite tag_total by easy.
  rewrite (Rsum_ext _ _ (fun j => tag_w lag j * k (n - j)%nat)). 2:{ intros j Hj. now rewrite tag_buffer by lia. }
  replace (2 * lag + 1)%nat with (lag + S lag)%nat by lia. rewrite Rsum_split. rewrite (Rsum_first lag).
  rewrite Nat.add_0_r. replace (tag_w lag lag) with 1. 2:{ rewrite tag_w_left by lia. field. lra. }
  rewrite <- (Rsum_rev lag (fun j => tag_w lag j * _)).
  rewrite (Rsum_ext lag (fun i => tag_w lag (lag - 1 - i) * _) (fun d => (1 - INR (S d) / INR lag) * k (n - lag + S d)%nat)).
  2:{ intros d Hd. rewrite tag_w_left by lia. replace (n - (lag - 1 - d))%nat with (n - lag + S d)%nat by lia. f_equal.
      replace (lag - 1 - d)%nat with (lag - S d)%nat by lia. rewrite minus_INR by lia. field. lra. }
  rewrite (Rsum_ext lag (fun i => tag_w lag (lag + S i) * _) (fun d => (1 - INR (S d) / INR lag) * k (n - lag - S d)%nat)).
  2:{ intros d Hd. rewrite tag_w_right by easy. do 2 f_equal. lia. }
  rewrite (Rsum_ext lag (fun d => (1 - INR (S d) / INR lag) * (_ + _)) (fun d => (1 - INR (S d) / INR lag) * k (n - lag + S d)%nat + (1 - INR (S d) / INR lag) * k (n - lag - S d)%nat)) by (intros; ring).
  rewrite Rsum_plus. field. lra.
Qed.
(** so that a constant is its own mean. *)
Theorem tag_constant lag buf x n : (0 < lag)%nat -> (2 * lag <= n)%nat -> tag_mean lag (tag_fill (2 * lag + 1) buf (fun _ => x) (S n)) n = x.
Proof.
  intros H N. unfold tag_mean. rewrite tag_total by easy. rewrite (Rsum_ext _ _ (fun j => tag_w lag j * x)).
  - rewrite Rsum_scal_r. replace (Rsum (2 * lag + 1) (fun i => tag_w lag i)) with (Rsum (2 * lag + 1) (tag_w lag)) by easy.
    rewrite tag_total by easy. pose proof (lt_0_INR lag H). field. lra.
  - intros j Hj. now rewrite (tag_buffer _ _ (fun _ => x)) by lia.
Qed.
(** The tool does not get there: it fails when it makes room for the first frame. *)
Theorem tag_refuted : forall len, tag_arrays len = None.
Proof. reflexivity. Qed.

(** ** C261 centre of mass of the centroids *)
(** Every frame is treated on its own; *)
Theorem fixcom_frames nb na l : fixcom nb na l = map (fun fr => snd (fix_frame nb na (fun _ => 0, fun _ => 0) fr)) l.
Proof. unfold fixcom. induction l as [|[q m] l IH]; [reflexivity|]. cbn [fix_run fix_frame map snd]. f_equal. exact IH. Qed.
(** the centre of mass of the centroids is moved to the origin, *)
Theorem fixcom_centre nb na q m k : (0 < nb)%nat -> (k < 3)%nat -> Rsum na (fun i => Rsum nb (fun b => m b i)) <> 0 ->
  let o := snd (fix_frame nb na (fun _ => 0, fun _ => 0) (q, m)) in
  Rsum na (fun i => Rsum nb (fun b => m b i) / INR nb * (Rsum nb (fun b => o b (3 * i + k)%nat) / INR nb)) = 0.
Proof.
  intros Hb Hk Hm o. pose proof (lt_0_INR nb Hb) as HB. unfold o. cbn [fix_frame snd].
  set (cm := fun i => (0 + Rsum nb (fun b => m b i)) / INR nb). set (cq := fun c => (0 + Rsum nb (fun b => q b c)) / INR nb).
  set (com := fun k => Rsum na (fun i => cm i * cq (3 * i + k)%nat) / Rsum na cm).
  assert (HC : Rsum na cm <> 0).
  { unfold cm. rewrite Rsum_div. rewrite (Rsum_ext na _ (fun i => Rsum nb (fun b => m b i))) by (intros; ring).
    intros Z. apply Hm. apply Rmult_eq_reg_r with (/ INR nb); [|apply Rinv_neq_0_compat; lra]. unfold Rdiv in Z. rewrite Z. ring. }
  rewrite (Rsum_ext na _ (fun i => cm i * cq (3 * i + k)%nat - com k * cm i)).
  - rewrite Rsum_minus, Rsum_scal. replace (Rsum na (fun i => cm i)) with (Rsum na cm) by easy. unfold com. field. exact HC.
  - intros i _. replace ((3 * i + k) mod 3)%nat with k by (rewrite Nat.add_comm, Nat.mul_comm, Nat.mod_add, Nat.mod_small by lia; easy).
    rewrite (Rsum_ext nb (fun b => q b (3 * i + k)%nat - _) (fun b => q b (3 * i + k)%nat - com k)) by easy.
    rewrite Rsum_minus, Rsum_const. unfold cm, cq. field. lra.
Qed.
(** and the distances within and between the beads do not change. *)
Theorem fixcom_rigid nb na fr a b b' i i' k : (k < 3)%nat ->
  let o := snd (fix_frame nb na a fr) in
  o b (3 * i + k)%nat - o b' (3 * i' + k)%nat = fst fr b (3 * i + k)%nat - fst fr b' (3 * i' + k)%nat.
Proof.
  intros Hk. destruct a as [aq am], fr as [q m]. cbn [fix_frame snd fst].
  replace ((3 * i + k) mod 3)%nat with k by (rewrite Nat.add_comm, Nat.mul_comm, Nat.mod_add, Nat.mod_small by lia; easy).
  replace ((3 * i' + k) mod 3)%nat with k by (rewrite Nat.add_comm, Nat.mul_comm, Nat.mod_add, Nat.mod_small by lia; easy). ring.
Qed.
Example fixcom_case : let o := snd (fix_frame 1 2 (fun _ => 0, fun _ => 0) ((fun _ c => INR c), (fun _ i => INR (S i)))) in
  o 0%nat 0%nat = -2 /\ o 0%nat 3%nat = 1.
Proof. cbn [fix_frame snd]. cbn [Rsum Nat.modulo Nat.divmod Nat.sub Nat.mul Nat.add fst snd]. cbn [INR]. split; field. Qed.

(** ** C262 effective temperatures *)
Section Eff.
Variables (hbar kb T : R) (nb : nat) (m : nat -> R).
Hypotheses (HT : 0 < T) (Hkb : 0 < kb) (Hnb : (0 < nb)%nat) (Hm : forall i, 0 < m i).
Lemma eff_sum_nonneg skip l c : 0 <= eff_sum nb m skip l c.
Proof.
  unfold eff_sum. induction (skipn skip l) as [|f r IH]; cbn [map Rsuml]; [lra|].
  assert (0 <= eff_f2 nb m f c); [|lra]. apply Rsum_nonneg. intros j _. unfold Rdiv. apply Rmult_le_pos; [apply pow2_ge_0|].
  left. apply Rinv_0_lt_compat, Hm.
Qed.
(** It is not below the temperature of the simulation, once there are frames after the ones skipped; *)
Theorem eff_above skip l c : (skip < List.length l)%nat -> T <= eff_T hbar kb T nb m skip l c.
Proof.
  intros H. unfold eff_T, eff_dT. apply lt_INR in H. pose proof (eff_sum_nonneg skip l c). pose proof (lt_0_INR nb Hnb).
  assert (0 <= eff_const hbar kb T nb).
  { unfold eff_const, Rdiv. apply Rmult_le_pos; [apply pow2_ge_0|]. left. apply Rinv_0_lt_compat. apply Rmult_lt_0_compat; [lra|].
    apply pow_lt. repeat apply Rmult_lt_0_compat; easy. }
  assert (0 <= eff_const hbar kb T nb * eff_sum nb m skip l c / (INR (List.length l) - INR skip)).
  { unfold Rdiv. apply Rmult_le_pos; [now apply Rmult_le_pos|]. left. apply Rinv_0_lt_compat. lra. }
  assert (T * 1 <= T * (1 + eff_const hbar kb T nb * eff_sum nb m skip l c / (INR (List.length l) - INR skip))) by (apply Rmult_le_compat_l; lra). lra.
Qed.
End Eff.
(** the last column is the mean of the three others, *)
Theorem eff_mean hbar kb T nb m skip l i :
  eff_avg hbar kb T nb m skip l i = (eff_T hbar kb T nb m skip l (3 * i) + eff_T hbar kb T nb m skip l (3 * i + 1) + eff_T hbar kb T nb m skip l (3 * i + 2)) / 3.
Proof. unfold eff_avg, eff_T. field. Qed.
(** and the frames skipped have no part in it. *)
Theorem eff_skip hbar kb T nb m a a' l c : List.length a = List.length a' ->
  eff_T hbar kb T nb m (List.length a) (a ++ l) c = eff_T hbar kb T nb m (List.length a') (a' ++ l) c.
Proof.
  intros E. assert (K : forall x : list (nat -> nat -> R), skipn (List.length x) (x ++ l) = l).
  { intros x. now rewrite skipn_app, skipn_all, Nat.sub_diag. }
  unfold eff_T, eff_dT, eff_sum. rewrite !K, !app_length, E. reflexivity.
Qed.
(** With fewer frames than are to be skipped the temperature of the simulation is reported, whatever the forces. *)
Theorem eff_few_refuted hbar kb T nb m skip l c : (List.length l < skip)%nat -> eff_T hbar kb T nb m skip l c = T.
Proof. intros H. unfold eff_T, eff_dT, eff_sum. rewrite skipn_all2 by lia. cbn [map Rsuml]. unfold Rdiv. ring. Qed.
Example eff_case : eff_T 1 1 1 1 (fun _ => 1) 1 [(fun _ _ => 7); (fun _ _ => 6)] 0 = 4.
Proof. unfold eff_T, eff_dT, eff_sum, eff_f2, eff_const. cbn. field. Qed.

(** ** C263 choice of a column by name *)
Definition spaces (n : nat) : text := repeat sp n.
(** a header of PropertyOutput (outputs.py 246-258): one column, or a range *)
Definition one_column (a b : nat) (ds rest : text) : text := tx "# column" ++ spaces (S a) ++ ds ++ spaces (S b) ++ tx "--> " ++ rest.
Definition columns (a b : nat) (ds ds' rest : text) : text :=
  tx "# cols." ++ spaces (S a) ++ ds ++ tx "-" ++ ds' ++ spaces (S b) ++ tx "--> " ++ rest.
Definition is_pre (p l : text) : bool := match pre p l with Some _ => true | None => false end.
Lemma dropw_spaces n c l : Ascii.eqb sp c = false -> dropw (Ascii.eqb sp) (spaces n ++ c :: l) = c :: l.
Proof. intros H. induction n as [|n IH]; cbn [spaces repeat List.app dropw]; [now rewrite H|exact IH]. Qed.
Lemma dropw_digits ds c l : Forall (fun a => digit a = true) ds -> digit c = false -> dropw digit (ds ++ c :: l) = c :: l.
Proof. intros D H. induction D as [|a ds Ha D IH]; cbn [List.app dropw]; [now rewrite H|]. now rewrite Ha. Qed.
Lemma takew_digits ds c l : Forall (fun a => digit a = true) ds -> digit c = false -> takew digit (ds ++ c :: l) = ds.
Proof. intros D H. induction D as [|a ds Ha D IH]; cbn [List.app takew]; [now rewrite H|]. rewrite Ha. now f_equal. Qed.
Lemma dropw_has f g l : has g (dropw f l) = true -> has g l = true.
Proof. induction l as [|a l IH]; [easy|]. cbn [dropw]. destruct (f a); [|easy]. intros H. cbn [has]. rewrite (IH H). now destruct (Ascii.eqb g a) || apply orb_true_r. Qed.
Lemma has_cons g a l : has g (a :: l) = Ascii.eqb g a || has g l.
Proof. cbn [has]. destruct (Ascii.eqb g a); reflexivity. Qed.
Lemma search_none name s : has ">" s = false -> search_prop name s = None.
Proof.
  induction s as [|a s IH]; intros H; [reflexivity|]. rewrite has_cons in H. apply orb_false_iff in H. destruct H as [H1 H2].
  cbn [search_prop]. rewrite IH by easy. unfold match_at. destruct (Ascii.eqb a sp); [|reflexivity].
  set (r := dropw (Ascii.eqb sp) (dropw digit s)).
  assert (N : has ">" r = false). { destruct (has ">" r) eqn:E; [|reflexivity]. unfold r in E. do 2 apply dropw_has in E. congruence. }
  clearbody r. destruct r as [|c1 [|c2 [|c3 r]]]; cbn [tx list_ascii_of_string List.app pre]; try reflexivity.
  - destruct (Ascii.eqb "-" c1); reflexivity.
  - destruct (Ascii.eqb "-" c1); [|reflexivity]. destruct (Ascii.eqb "-" c2); reflexivity.
  - destruct (Ascii.eqb "-" c1); [|reflexivity]. destruct (Ascii.eqb "-" c2); [|reflexivity].
    rewrite !has_cons in N. apply orb_false_iff in N. destruct N as [_ N]. apply orb_false_iff in N. destruct N as [_ N].
    apply orb_false_iff in N. destruct N as [N _]. rewrite N. reflexivity.
Qed.
Lemma search_skip name c s : Ascii.eqb c sp = false -> search_prop name (c :: s) = search_prop name s.
Proof. intros H. cbn [search_prop]. unfold match_at. now rewrite H. Qed.
Lemma search_skips name w s : Forall (fun c => Ascii.eqb c sp = false) w -> search_prop name (w ++ s) = search_prop name s.
Proof. induction 1 as [|c w Hc W IH]; [reflexivity|]. cbn [List.app]. now rewrite search_skip. Qed.
Lemma search_space name s : search_prop name (sp :: s) =
  if is_pre (tx "--> " ++ name) (dropw (Ascii.eqb sp) (dropw digit s)) then Some (takew digit s) else search_prop name s.
Proof. cbn [search_prop]. unfold match_at, is_pre. change (Ascii.eqb sp sp) with true. cbv iota. destruct (pre _ _); reflexivity. Qed.
Lemma arrow_pre name rest : is_pre (tx "--> " ++ name) (tx "--> " ++ rest) = is_pre name rest.
Proof. reflexivity. Qed.
Lemma search_arrow name b rest : has ">" rest = false ->
  search_prop name (spaces (S b) ++ tx "--> " ++ rest) = if is_pre name rest then Some [] else None.
Proof.
  intros R. induction b as [|b IH].
  - cbn [spaces repeat List.app]. rewrite search_space. change (tx "--> " ++ rest) with ("-"%char :: "-"%char :: ">"%char :: " "%char :: rest).
    cbn [dropw digit takew]. change (digit "-") with false. cbv iota. cbn [dropw]. change (Ascii.eqb sp "-") with false. cbv iota.
    change ("-"%char :: "-"%char :: ">"%char :: " "%char :: rest) with (tx "--> " ++ rest). rewrite arrow_pre.
    destruct (is_pre name rest); [reflexivity|]. change (tx "--> " ++ rest) with (tx "-->" ++ (sp :: rest)). rewrite search_skips by (repeat constructor).
    apply search_none. rewrite has_cons. exact R.
  - change (spaces (S (S b)) ++ tx "--> " ++ rest) with (sp :: spaces (S b) ++ tx "--> " ++ rest). rewrite search_space, IH.
    change (dropw digit (spaces (S b) ++ tx "--> " ++ rest)) with (spaces (S b) ++ tx "--> " ++ rest).
    change (takew digit (spaces (S b) ++ tx "--> " ++ rest)) with (@nil ascii).
    change (tx "--> " ++ rest) with ("-"%char :: "-"%char :: ">"%char :: " "%char :: rest). rewrite dropw_spaces by reflexivity.
    change ("-"%char :: "-"%char :: ">"%char :: " "%char :: rest) with (tx "--> " ++ rest). rewrite arrow_pre. now destruct (is_pre name rest).
Qed.
Lemma digit_not_space a : digit a = true -> Ascii.eqb a sp = false.
Proof. intros H. destruct (Ascii.eqb_spec a sp) as [->|]; [discriminate H|reflexivity]. Qed.
Lemma digit_not_space' a : digit a = true -> Ascii.eqb sp a = false.
Proof. intros H. destruct (Ascii.eqb_spec sp a) as [<-|]; [discriminate H|reflexivity]. Qed.
(** blanks before the digits of a column match nothing but the last one *)
Lemma search_pad name a d ds tail : Forall (fun x => digit x = true) (d :: ds) ->
  search_prop name (spaces (S a) ++ (d :: ds) ++ tail) = search_prop name (sp :: (d :: ds) ++ tail).
Proof.
  intros D. induction a as [|a IH]; [reflexivity|].
  change (spaces (S (S a)) ++ (d :: ds) ++ tail) with (sp :: spaces (S a) ++ (d :: ds) ++ tail). rewrite search_space, IH.
  change (dropw digit (spaces (S a) ++ (d :: ds) ++ tail)) with (spaces (S a) ++ d :: ds ++ tail).
  inversion D as [|? ? Hd Hds]; subst. rewrite dropw_spaces by now apply digit_not_space'.
  unfold is_pre. cbn [tx list_ascii_of_string List.app pre]. destruct (Ascii.eqb_spec "-" d) as [<-|]; [discriminate Hd|]. reflexivity.
Qed.
(** The header of a column is recognised by the beginning of the name, and gives its number. *)
Theorem header_found name a b ds rest : ds <> [] -> Forall (fun x => digit x = true) ds -> has ">" rest = false ->
  search_prop name (one_column a b ds rest) = if is_pre name rest then Some ds else None.
Proof.
  intros N D R. unfold one_column. destruct ds as [|d ds]; [easy|].
  change (tx "# column" ++ spaces (S a) ++ (d :: ds) ++ spaces (S b) ++ tx "--> " ++ rest) with
    ("#"%char :: sp :: tx "column" ++ spaces (S a) ++ (d :: ds) ++ spaces (S b) ++ tx "--> " ++ rest).
  rewrite search_skip by reflexivity. rewrite search_space. cbn [tx list_ascii_of_string List.app dropw]. change (digit "c") with false. cbv iota.
  cbn [dropw]. change (Ascii.eqb sp "c") with false. cbv iota. unfold is_pre at 1. cbn [pre]. change (Ascii.eqb "-" "c") with false. cbv iota.
  change ("c"%char :: "o"%char :: "l"%char :: "u"%char :: "m"%char :: "n"%char :: spaces (S a) ++ d :: ds ++ spaces (S b) ++ "-"%char :: "-"%char :: ">"%char :: " "%char :: rest)
    with (tx "column" ++ (spaces (S a) ++ (d :: ds) ++ (spaces (S b) ++ tx "--> " ++ rest))).
  rewrite search_skips by (repeat constructor). rewrite search_pad by easy. rewrite search_space.
  change (spaces (S b) ++ tx "--> " ++ rest) with (sp :: (spaces b ++ tx "--> " ++ rest)).
  rewrite dropw_digits, takew_digits by easy. change (dropw (Ascii.eqb sp) (sp :: spaces b ++ tx "--> " ++ rest)) with (dropw (Ascii.eqb sp) (spaces b ++ tx "--> " ++ rest)).
  change (tx "--> " ++ rest) with ("-"%char :: "-"%char :: ">"%char :: " "%char :: rest). rewrite dropw_spaces by reflexivity.
  change ("-"%char :: "-"%char :: ">"%char :: " "%char :: rest) with (tx "--> " ++ rest). rewrite arrow_pre. destruct (is_pre name rest) eqn:P; [reflexivity|].
  rewrite search_skips by (revert D; apply Forall_impl, digit_not_space).
  change (sp :: spaces b ++ tx "--> " ++ rest) with (spaces (S b) ++ tx "--> " ++ rest). rewrite search_arrow by easy. now rewrite P.
Qed.
(** A property with several columns is found with no number at all, and the tool stops with an error. *)
Theorem header_range name a b ds ds' rest : ds <> [] -> Forall (fun x => digit x = true) ds -> Forall (fun x => digit x = true) ds' ->
  has ">" rest = false -> is_pre name rest = true -> search_prop name (columns a b ds ds' rest) = Some [].
Proof.
  intros N D D' R P. unfold columns. destruct ds as [|d ds]; [easy|].
  change (tx "# cols." ++ spaces (S a) ++ (d :: ds) ++ tx "-" ++ ds' ++ spaces (S b) ++ tx "--> " ++ rest) with
    ("#"%char :: sp :: tx "cols." ++ spaces (S a) ++ (d :: ds) ++ tx "-" ++ ds' ++ spaces (S b) ++ tx "--> " ++ rest).
  rewrite search_skip by reflexivity. rewrite search_space. cbn [tx list_ascii_of_string List.app dropw]. change (digit "c") with false. cbv iota.
  cbn [dropw]. change (Ascii.eqb sp "c") with false. cbv iota. unfold is_pre at 1. cbn [pre]. change (Ascii.eqb "-" "c") with false. cbv iota.
  change ("c"%char :: "o"%char :: "l"%char :: "s"%char :: "."%char :: spaces (S a) ++ d :: ds ++ "-"%char :: ds' ++ spaces (S b) ++ "-"%char :: "-"%char :: ">"%char :: " "%char :: rest)
    with (tx "cols." ++ (spaces (S a) ++ (d :: ds) ++ ("-"%char :: ds' ++ spaces (S b) ++ tx "--> " ++ rest))).
  rewrite search_skips by (repeat constructor). rewrite search_pad by easy. rewrite search_space.
  rewrite dropw_digits by easy. cbn [dropw]. change (Ascii.eqb sp "-") with false. cbv iota.
  assert (Q : is_pre (tx "--> " ++ name) ("-"%char :: ds' ++ spaces (S b) ++ tx "--> " ++ rest) = false).
  { unfold is_pre. cbn [tx list_ascii_of_string List.app pre]. change (Ascii.eqb "-" "-") with true. cbv iota.
    destruct D' as [|x ds' Hx D']; cbn [spaces repeat List.app]; [reflexivity|].
    destruct (Ascii.eqb_spec "-" x) as [<-|]; [discriminate Hx|reflexivity]. }
  rewrite Q. rewrite search_skips by (revert D; apply Forall_impl, digit_not_space). rewrite search_skip by reflexivity.
  rewrite search_skips by (revert D'; apply Forall_impl, digit_not_space). rewrite search_arrow by easy. now rewrite P.
Qed.
(** With one header that matches, followed by the data, the tool prints its column of every line from number [skip] on. *)
Lemma get_data name skip k rows : (forall r, In r rows -> (k < List.length r)%nat) -> forall step,
  get_prop name skip (Some k) step (map Data rows) = (map (fun r => nth k r []) (skipn (skip - step) rows), Finished).
Proof.
  induction rows as [|r rows IH]; intros H step; [rewrite skipn_nil; reflexivity|]. cbn [map get_prop].
  destruct (Nat.leb_spec skip step).
  - replace (skip - step)%nat with 0%nat by lia. cbn [skipn map]. destruct (nth_error r k) as [x|] eqn:E.
    + rewrite IH by (intros; apply H; now right). replace (skip - S step)%nat with 0%nat by lia. cbn [skipn]. now rewrite (nth_error_nth _ _ [] E).
    + apply nth_error_None in E. pose proof (H r (or_introl eq_refl)). lia.
  - rewrite IH by (intros; apply H; now right). replace (skip - step)%nat with (S (skip - S step)) by lia. reflexivity.
Qed.
Lemma get_headers name skip hs tail : (forall t, In t hs -> search_prop name t = None) -> forall icol,
  get_prop name skip icol 0 (map Comment hs ++ tail) = get_prop name skip icol 0 tail.
Proof. induction hs as [|t hs IH]; intros H icol; [reflexivity|]. cbn [map List.app get_prop]. rewrite (H t (or_introl eq_refl)). apply IH. intros; apply H; now right. Qed.
Theorem get_column name skip before a b ds rest after k rows :
  (forall t, In t (before ++ after) -> search_prop name t = None) -> ds <> [] -> Forall (fun x => digit x = true) ds ->
  has ">" rest = false -> is_pre name rest = true -> value ds = Some (S k) -> (forall r, In r rows -> (k < List.length r)%nat) ->
  get_prop name skip None 0 (map Comment (before ++ one_column a b ds rest :: after) ++ map Data rows) =
  (map (fun r => nth k r []) (skipn skip rows), Finished).
Proof.
  intros H N D R P V K. rewrite map_app, <- app_assoc, get_headers by (intros; apply H, in_or_app; now left). cbn [map List.app get_prop].
  rewrite header_found by easy. rewrite P, V, get_headers by (intros; apply H, in_or_app; now right). rewrite get_data by easy. now rewrite Nat.sub_0_r.
Qed.
Example get_case : get_prop (tx "potential") 1 None 0 [Comment (tx "# column   1     --> step : x"); Comment (tx "# column   2     --> potential{electronvolt} : y");
    Data [tx "0"; tx "5.0"]; Data [tx "1"; tx "6.0"]] = ([tx "6.0"], Finished).
Proof. reflexivity. Qed.
Theorem get_range_refuted : exists l, get_prop (tx "stress_md") 0 None 0 l = ([], Crashed) /\
  In (Comment (tx "# cols.    2-10  --> stress_md ")) l /\ In (Data (map tx ["0"; "1"; "2"; "3"; "4"; "5"; "6"; "7"; "8"; "9"]%string)) l.
Proof.
  exists [Comment (tx "# column   1     --> step "); Comment (tx "# cols.    2-10  --> stress_md "); Data (map tx ["0"; "1"; "2"; "3"; "4"; "5"; "6"; "7"; "8"; "9"]%string)].
  split; [reflexivity|]. split; [right; left; reflexivity|right; right; left; reflexivity].
Qed.
(** Asked for a property that the file does not have, it may print another one whose name begins in the same way, *)
Theorem get_prefix_refuted : exists l, (forall t, In (Comment t) l -> t = tx "# column   1     --> pot_component_raw ") /\
  get_prop (tx "pot_component") 0 None 0 l = ([tx "7"], Finished).
Proof. exists [Comment (tx "# column   1     --> pot_component_raw "); Data [tx "7"]]. split; [intros t [E|[E|[]]]; now inversion E|reflexivity]. Qed.
(** and with both of them it prints nothing. *)
Theorem get_both_refuted : exists l, In (Comment (tx "# column   1     --> pot_component ")) l /\ In (Data [tx "7"; tx "8"]) l /\
  get_prop (tx "pot_component") 0 None 0 l = ([], Multiple).
Proof.
  exists [Comment (tx "# column   1     --> pot_component "); Comment (tx "# column   2     --> pot_component_raw "); Data [tx "7"; tx "8"]].
  split; [left; reflexivity|]. split; [right; right; left; reflexivity|reflexivity].
Qed.

Print Assumptions contract_numbers.
Print Assumptions contract_centroid.
Print Assumptions contract_cell.
Print Assumptions contract_cell_refuted.
Print Assumptions contract_units_refuted.
Print Assumptions mux_frames.
Print Assumptions mux_short_refuted.
Print Assumptions mux_wrap_refuted.
Print Assumptions tool_kinetic.
Print Assumptions tag_buffer.
Print Assumptions tag_window.
Print Assumptions tag_constant.
Print Assumptions tag_refuted.
Print Assumptions fixcom_frames.
Print Assumptions fixcom_centre.
Print Assumptions fixcom_rigid.
Print Assumptions eff_above.
Print Assumptions eff_mean.
Print Assumptions eff_skip.
Print Assumptions eff_few_refuted.
Print Assumptions header_found.
Print Assumptions header_range.
Print Assumptions get_column.
Print Assumptions get_range_refuted.
Print Assumptions get_prefix_refuted.
Print Assumptions get_both_refuted.
