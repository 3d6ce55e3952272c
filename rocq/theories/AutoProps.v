(* Units in trajectory files (C95). *)
From Coq Require Import String Ascii List Arith Bool QArith Qreals Reals Lra Lia.
From Verif Require Import TextLib UnitModel UnitProps AutoModel.
Import ListNotations.
Local Open Scope string_scope.
Local Open Scope list_scope.

(* the key ends the text *)
Fixpoint ends (k x : text) : bool :=
  eqt k x || match x with [] => false | _ :: r => ends k r end.

Lemma ends_spec k x : ends k x = true <-> exists y, x = y ++ k.
Proof.
  induction x as [|a x IH]; cbn [ends].
  - rewrite orb_false_r. split.
    + intros E. apply eqt_spec in E as ->. now exists [].
    + intros [y E]. apply eqt_spec. symmetry in E. now apply app_eq_nil in E.
  - rewrite orb_true_iff, IH, eqt_spec. split.
    + intros [-> | [y ->]]; [now exists []|]. now exists (a :: y).
    + intros [[|b y] E]; [left; easy|]. right. cbn in E. injection E as -> ->. now exists y.
Qed.

Lemma pre_brace k x r : has "{" k = false -> has "{" x = false ->
  pre (k ++ ["{"%char]) (x ++ "{"%char :: r) = if eqt k x then Some r else None.
Proof.
  revert x. induction k as [|a k IH]; intros x K X; destruct x as [|b x].
  - reflexivity.
  - cbn [has] in X. apply orb_false_iff in X as [X _]. cbn [app pre]. rewrite X. now rewrite eqt_neq.
  - cbn [has] in K. apply orb_false_iff in K as [K _]. cbn [app pre].
    rewrite Ascii.eqb_sym, K. now rewrite eqt_neq.
  - cbn [has] in X, K. apply orb_false_iff in X as [_ X]. apply orb_false_iff in K as [_ K].
    cbn [app pre]. destruct (Ascii.eqb_spec a b) as [-> | N].
    + rewrite IH by easy. unfold eqt.
      destruct (list_eq_dec ascii_dec k x), (list_eq_dec ascii_dec (b :: k) (b :: x)); congruence.
    + rewrite eqt_neq; congruence.
Qed.

Lemma search_step k s a : pre (k ++ ["{"%char]) (a :: s) = None -> search k (a :: s) = search k s.
Proof. intros E. cbn [search]. now rewrite E. Qed.

(* searching over a stretch without a brace *)
Lemma search_brace k x r : has "{" k = false -> k <> [] -> has "{" x = false ->
  search k (x ++ "{"%char :: r) =
  if ends k x then match unit_of r with Some u => Some u | None => search k r end else search k r.
Proof.
  intros K N. induction x as [|a x IH]; intros X.
  - cbn [app ends]. rewrite eqt_neq by easy. cbn [orb]. apply search_step.
    destruct k as [|b k]; [easy|]. cbn [has] in K. apply orb_false_iff in K as [K _].
    cbn [app pre]. now rewrite Ascii.eqb_sym, K.
  - pose proof (pre_brace k (a :: x) r K X) as P. cbn [app] in *. cbn [ends].
    cbn [has] in X. apply orb_false_iff in X as [_ X]. specialize (IH X).
    destruct (eqt k (a :: x)) eqn:E.
    + cbn [search]. rewrite P. cbn [orb]. destruct (unit_of r) as [u|] eqn:U; [easy|].
      rewrite IH. destruct (ends k x); easy.
    + rewrite search_step by easy. rewrite IH. reflexivity.
Qed.

Lemma search_none k x : has "{" x = false -> search k x = None.
Proof.
  induction x as [|a x IH]; intros X.
  - cbn [search]. destruct (pre (k ++ ["{"%char]) []) eqn:E; [|easy].
    apply pre_some in E. now destruct k.
  - assert (P : pre (k ++ ["{"%char]) (a :: x) = None).
    { destruct (pre (k ++ ["{"%char]) (a :: x)) eqn:E; [exfalso|easy]. apply pre_some in E.
      rewrite E, !has_app in X. cbn in X. now rewrite orb_true_r in X. }
    rewrite search_step by easy. apply IH. cbn [has] in X. now apply orb_false_iff in X.
Qed.

(* a key without blank cannot reach over a blank *)
Lemma ends_blank k y z c : has c k = false -> ends k (y ++ c :: z) = ends k z.
Proof.
  intros K. destruct (ends k z) eqn:E.
  - apply ends_spec in E as [w ->]. apply ends_spec. exists (y ++ c :: w). now rewrite <- app_assoc.
  - destruct (ends k (y ++ c :: z)) eqn:F; [exfalso|easy]. apply ends_spec in F as [w F].
    assert (L : ends k z = true); [|congruence]. apply ends_spec. clear E.
    revert w F. induction y as [|a y IH]; intros w F.
    + destruct w as [|b w].
      * cbn in F. subst k. cbn [has] in K. now rewrite Ascii.eqb_refl in K.
      * cbn in F. injection F as -> ->. now exists w.
    + destruct w as [|b w].
      * cbn in F. subst k. cbn [has] in K. apply orb_false_iff in K as [_ K].
        rewrite has_app in K. cbn [has] in K. rewrite Ascii.eqb_refl in K. now rewrite orb_true_r in K.
      * cbn in F. injection F as -> F. eauto.
Qed.

Lemma unit_of_word u r : Forall (fun a => letter a = true) u -> unit_of (u ++ "}"%char :: r) = Some u.
Proof.
  induction 1 as [|a u A F IH]; [reflexivity|]. cbn [app unit_of].
  destruct (Ascii.eqb_spec "}" a) as [<-|]; [discriminate A|]. now rewrite A, IH.
Qed.

Lemma unit_of_bad u r : has "}" u = false -> existsb (fun a => negb (letter a)) u = true -> unit_of (u ++ r) = None.
Proof.
  induction u as [|a u IH]; intros H E; [easy|]. cbn [has] in H. apply orb_false_iff in H as [H1 H2].
  cbn [existsb] in E. cbn [app unit_of]. rewrite H1. destruct (letter a) eqn:L; [|easy].
  cbn in E. now rewrite IH.
Qed.

(* the names of the dictionary *)
Definition tkeys : list text := map (fun d => tx (fst d)) traj_dict ++ [tx "cell"].

Lemma tkeys_ok k : In k tkeys ->
  has "{" k = false /\ has "}" k = false /\ has " " k = false /\ k <> [].
Proof.
  intros I.
  assert (F : forallb (fun k => negb (has "{" k) && negb (has "}" k) && negb (has " " k) && negb (eqt k []))
                      tkeys = true) by (vm_compute; reflexivity).
  rewrite forallb_forall in F. specialize (F k I).
  rewrite !andb_true_iff, !negb_true_iff in F. destruct F as [[[F1 F2] F3] F4].
  repeat split; auto. intros ->. discriminate F4.
Qed.

(* a comment line with the label at its end: the title before it ends in
   a blank and has no brace *)
Section Comment.
Variable head key units cell : text.
Hypothesis H_head : has "{" head = false.
Hypothesis H_key : has "{" key = false.
Hypothesis H_units : has "{" units = false /\ has "}" units = false.
Hypothesis H_cell : has "{" cell = false /\ has "}" cell = false.

Let comment := (head ++ [" "%char]) ++ label key units cell.

Lemma comment_shape : comment = (head ++ " "%char :: key) ++ "{"%char :: units ++ tx "}  cell{" ++ cell ++ tx "}".
Proof. unfold comment, label. rewrite <- !app_assoc. cbn [app]. rewrite <- ?app_assoc. reflexivity. Qed.

Lemma rest_search k : In k tkeys ->
  search k (units ++ tx "}  cell{" ++ cell ++ tx "}") =
  if ends k (tx "cell") then unit_of (cell ++ tx "}") else None.
Proof.
  intros I. destruct (tkeys_ok k I) as (K1 & K2 & K3 & K4).
  change (tx "}  cell{" ++ cell ++ tx "}") with (tx "}  cell" ++ "{"%char :: cell ++ tx "}").
  rewrite app_assoc, search_brace; auto.
  2:{ rewrite has_app. destruct H_units as [-> _]. reflexivity. }
  change (tx "}  cell") with (tx "} " ++ " "%char :: tx "cell").
  rewrite app_assoc, ends_blank by easy. 
  assert (S : search k (cell ++ tx "}") = None).
  { apply search_none. rewrite has_app. destruct H_cell as [-> _]. reflexivity. }
  rewrite S. destruct (ends k (tx "cell")); [|easy]. now destruct (unit_of (cell ++ tx "}")).
Qed.

Lemma comment_search k : In k tkeys ->
  search k comment =
  if ends k key then match unit_of (units ++ tx "}  cell{" ++ cell ++ tx "}") with
                     | Some u => Some u
                     | None => if ends k (tx "cell") then unit_of (cell ++ tx "}") else None end
  else if ends k (tx "cell") then unit_of (cell ++ tx "}") else None.
Proof.
  intros I. destruct (tkeys_ok k I) as (K1 & K2 & K3 & K4).
  rewrite comment_shape, search_brace; auto.
  2:{ rewrite has_app. cbn [has]. now rewrite H_head, H_key. }
  rewrite ends_blank by easy. now rewrite rest_search.
Qed.
End Comment.

Lemma tkeys_cell k : In k tkeys -> ends k (tx "cell") = eqt k (tx "cell").
Proof.
  intros I.
  assert (F : forallb (fun k => Bool.eqb (ends k (tx "cell")) (eqt k (tx "cell"))) tkeys = true)
    by (vm_compute; reflexivity).
  rewrite forallb_forall in F. specialize (F k I). now apply eqb_prop.
Qed.

(* the first name of the dictionary that ends a given name has the same
   dimension *)
Fixpoint first_end (d : list (string * option string)) (key : text) : option (option string) :=
  match d with
  | [] => None
  | (k, dim) :: r => if ends (tx k) key then Some dim else first_end r key
  end.

Lemma first_end_dim k dim : In (k, dim) traj_dict -> first_end traj_dict (tx k) = Some dim.
Proof.
  intros I.
  assert (F : forallb (fun d => match first_end traj_dict (tx (fst d)), snd d with
                                | Some (Some a), Some b => String.eqb a b
                                | Some None, None => true
                                | _, _ => false end) traj_dict = true) by (vm_compute; reflexivity).
  rewrite forallb_forall in F. specialize (F _ I). cbn [fst snd] in F.
  destruct (first_end traj_dict (tx k)) as [[a|]|], dim as [b|]; try easy.
  apply String.eqb_eq in F. now subst.
Qed.

Lemma key_no_brace k dim : In (k, dim) traj_dict -> has "{" (tx k) = false /\ ends (tx "cell") (tx k) = false.
Proof.
  intros I.
  assert (F : forallb (fun d => negb (has "{" (tx (fst d))) && negb (ends (tx "cell") (tx (fst d)))) traj_dict = true)
    by (vm_compute; reflexivity).
  rewrite forallb_forall in F. specialize (F _ I). cbn [fst] in F.
  rewrite andb_true_iff, !negb_true_iff in F. exact F.
Qed.

Lemma word_no_brace u : Forall (fun a => letter a = true) u -> has "{" u = false /\ has "}" u = false.
Proof.
  intros F. rewrite Forall_forall in F. split; apply has_not; intros I; apply F in I; discriminate I.
Qed.

Definition worded (u : text) : Prop := Forall (fun a => letter a = true) u.

Theorem label_recovered head k dim units cell :
  has "{" head = false -> In (k, Some dim) traj_dict -> worded units -> worded cell ->
  auto_units ((head ++ [" "%char]) ++ label (tx k) units cell) = Some (tx dim, units, cell).
Proof.
  intros H I U C. destruct (key_no_brace _ _ I) as [HK HC].
  assert (S : forall k', In k' tkeys ->
    search k' ((head ++ [" "%char]) ++ label (tx k) units cell) =
    if ends k' (tx k) then Some units else if ends k' (tx "cell") then Some cell else None).
  { intros k' I'. rewrite comment_search; auto using word_no_brace.
    change (tx "}  cell{") with ("}"%char :: tx "  cell{"). cbn [app].
    rewrite unit_of_word by easy. change (tx "}") with ["}"%char]. rewrite unit_of_word by easy. reflexivity. }
  unfold auto_units. rewrite S by (unfold tkeys; apply in_or_app; right; now left).
  rewrite HC. change (ends (tx "cell") (tx "cell")) with true. cbv iota.
  assert (F : first_found traj_dict ((head ++ [" "%char]) ++ label (tx k) units cell) = Some (Some dim, units)).
  { assert (G : forall d, incl d traj_dict -> forall r, first_end d (tx k) = Some r ->
      first_found d ((head ++ [" "%char]) ++ label (tx k) units cell) = Some (r, units)).
    { induction d as [|[k' dim'] d IH]; intros Inc r E; [easy|]. cbn [first_found first_end] in *.
      assert (In' : In (tx k') tkeys).
      { unfold tkeys. apply in_or_app. left. apply in_map_iff. exists (k', dim'). split; auto.
        apply Inc. now left. }
      rewrite S by easy. destruct (ends (tx k') (tx k)) eqn:E'.
      - injection E as <-. reflexivity.
      - rewrite tkeys_cell by easy.
        assert (NC : eqt (tx k') (tx "cell") = false).
        { assert (T : forallb (fun d => negb (eqt (tx (fst d)) (tx "cell"))) traj_dict = true)
            by (vm_compute; reflexivity).
          rewrite forallb_forall in T. assert (In'' : In (k', dim') traj_dict) by (apply Inc; now left).
          specialize (T _ In''). now apply negb_true_iff in T. }
        rewrite NC. apply IH; auto. intros x X. apply Inc. now right. }
    apply G; [apply incl_refl|]. now apply first_end_dim. }
  rewrite F. reflexivity.
Qed.
Print Assumptions label_recovered.

Example label_example :
  auto_units (tx "# CELL(abcABC): 10.0 Step:  3  Bead:  0 Eforces{piconewton}  cell{nanometer}") =
  Some (tx "force", tx "piconewton", tx "nanometer").
Proof. vm_compute. reflexivity. Qed.

(* C95: values and cell lengths written in units whose names are made of
   letters and underscores come back when the file is read with automatic
   units. *)
Theorem written_units_read_back_partial head k dim units cell x y c x' y' :
  has "{" head = false -> In (k, Some dim) traj_dict -> worded units -> worded cell ->
  write (head ++ [" "%char]) (tx k) (tx dim) units cell x y = Some (c, x', y') ->
  read c x' y' = Some (x, y).
Proof.
  intros H I U C W. unfold write in W.
  destruct (unit_to_user (tx "length") (chosen cell) 1) as [cc| | |] eqn:E1; try easy.
  destruct (unit_to_user (tx dim) (chosen units) 1) as [ac| | |] eqn:E2; try easy.
  injection W as <- <- <-. unfold read.
  assert (WA : worded (tx "atomic_unit")) by (repeat constructor).
  assert (WU : worded (chosen units)) by (unfold chosen; destruct (eqt units _); auto).
  assert (WC : worded (chosen cell)) by (unfold chosen; destruct (eqt cell _); auto).
  rewrite label_recovered with (dim := dim) by auto.
  unfold unit_to_user, unit_to_internal in *.
  destruct (factor (tx "length") (chosen cell)) as [qc| | |] eqn:F1; try easy.
  destruct (factor (tx dim) (chosen units)) as [qa| | |] eqn:F2; try easy.
  injection E1 as <-. injection E2 as <-. f_equal.
  apply factor_positive in F1, F2. apply Qlt_Rlt in F1, F2. rewrite RMicromega.Q2R_0 in F1, F2.
  f_equal; field; lra.
Qed.
Print Assumptions written_units_read_back_partial.

Example written_example :
  exists c x', write (tx "# Step:  1 ") (tx "positions") (tx "length") (tx "angstrom") (tx "automatic") 3 2 = Some (c, x', 2%R)
    /\ read c x' 2 = Some (3%R, 2%R).
Proof.
  assert (E : exists c x' y', write (tx "# Step:  1" ++ [" "%char]) (tx "positions") (tx "length") (tx "angstrom") (tx "automatic") 3 2 = Some (c, x', y') /\ y' = 2%R).
  { do 3 eexists. split; [vm_compute; reflexivity|]. unfold IZR, IPR, IPR_2. field. }
  destruct E as (c & x' & y' & W & ->). exists c, x'. split; [exact W|].
  eapply written_units_read_back_partial; try exact W.
  - reflexivity.
  - now left.
  - repeat constructor.
  - repeat constructor.
Qed.

(* False of the code for the other units: a unit with any other
   character, such as the only two that the table has for forces and
   velocities besides newton, is not recognised, and the numbers are taken
   for atomic units without any message. *)
Theorem other_units_not_recovered head k dim units cell :
  has "{" head = false -> In (k, dim) traj_dict ->
  has "{" units = false -> has "}" units = false ->
  existsb (fun a => negb (letter a)) units = true -> worded cell ->
  auto_units ((head ++ [" "%char]) ++ label (tx k) units cell) =
  Some (tx "undefined", tx "atomic_unit", cell).
Proof.
  intros H I U1 U2 B C. destruct (key_no_brace _ _ I) as [HK HC].
  assert (S : forall k', In k' tkeys ->
    search k' ((head ++ [" "%char]) ++ label (tx k) units cell) =
    if ends k' (tx "cell") then Some cell else None).
  { intros k' I'. rewrite comment_search; auto using word_no_brace.
    rewrite unit_of_bad by easy. change (tx "}") with ["}"%char]. rewrite unit_of_word by easy.
    now destruct (ends k' (tx k)). }
  unfold auto_units. rewrite S by (unfold tkeys; apply in_or_app; right; now left).
  change (ends (tx "cell") (tx "cell")) with true. cbv iota.
  assert (F : forall d, incl d traj_dict ->
    first_found d ((head ++ [" "%char]) ++ label (tx k) units cell) = None).
  { induction d as [|[k' dim'] d IH]; intros Inc; [easy|]. cbn [first_found].
    assert (In'' : In (k', dim') traj_dict) by (apply Inc; now left).
    assert (In' : In (tx k') tkeys).
    { unfold tkeys. apply in_or_app. left. apply in_map_iff. now exists (k', dim'). }
    rewrite S, tkeys_cell by easy.
    assert (T : forallb (fun d => negb (eqt (tx (fst d)) (tx "cell"))) traj_dict = true)
      by (vm_compute; reflexivity).
    rewrite forallb_forall in T. specialize (T _ In''). apply negb_true_iff in T. cbn [fst] in T.
    rewrite T. apply IH. intros z Z. apply Inc. now right. }
  rewrite F by apply incl_refl. reflexivity.
Qed.
Print Assumptions other_units_not_recovered.

Theorem written_units_refuted :
  exists head k dim units x y c x',
    has "{" head = false /\ In (k, Some dim) traj_dict /\
    write (head ++ [" "%char]) (tx k) (tx dim) units (tx "automatic") x y = Some (c, x', y) /\
    read c x' y = Some (x', y) /\ (x' > 51 * x)%R.
Proof.
  exists (tx "# Step:  1"), "forces", "force", (tx "ev/ang"), 1%R, 1%R.
  assert (E : exists c ac cc, write (tx "# Step:  1" ++ [" "%char]) (tx "forces") (tx "force") (tx "ev/ang") (tx "automatic") 1 1
            = Some (c, (1 * ac)%R, (1 * cc)%R) /\ c = (tx "# Step:  1" ++ [" "%char]) ++ label (tx "forces") (tx "ev/ang") (tx "atomic_unit")
            /\ ac = (1 / (1 * Q2R (0.019446904 * 1)))%R /\ cc = (1 / (1 * Q2R (1 * 1)))%R).
  { do 3 eexists. split; [|repeat split]. vm_compute. reflexivity. }
  destruct E as (c & ac & cc & W & -> & -> & ->).
  eexists. exists (1 * (1 / (1 * Q2R (0.019446904 * 1))))%R.
  split; [reflexivity|]. split; [vm_compute; tauto|].
  assert (O : (1 * (1 / (1 * Q2R (1 * 1))) = 1)%R).
  { replace (Q2R (1 * 1)) with 1%R by (unfold Q2R; cbn; lra). field. }
  rewrite O in W. split; [exact W|]. split.
  - unfold read. rewrite other_units_not_recovered with (dim := Some "force"); try reflexivity.
    + assert (L : factor (tx "length") (tx "atomic_unit") = Ok (1 * 1)%Q) by (vm_compute; reflexivity).
      assert (V : factor (tx "undefined") (tx "atomic_unit") = Ok (1 * 1)%Q) by (vm_compute; reflexivity).
      unfold unit_to_internal. rewrite L, V.
      replace (Q2R (1 * 1)) with 1%R by (unfold Q2R; cbn; lra). f_equal. f_equal; ring.
    + vm_compute; tauto.
    + repeat constructor.
  - replace (Q2R (0.019446904 * 1)) with (19446904 / 1000000000)%R by (unfold Q2R; cbn; lra).
    replace (1 * (1 / (1 * (19446904 / 1000000000))))%R with (1000000000 / 19446904)%R by (field; lra).
    lra.
Qed.
Print Assumptions written_units_refuted.

(* which units those are *)
Theorem worded_alphabet u : worded u <->
  Forall (fun a => In a (tx "ABCDEFGHIJKLMNOPQRSTUVWXYZ_abcdefghijklmnopqrstuvwxyz")) u.
Proof.
  unfold worded.
  assert (L : forall a, letter a = true <-> In a (tx "ABCDEFGHIJKLMNOPQRSTUVWXYZ_abcdefghijklmnopqrstuvwxyz")).
  { intros a. rewrite <- has_in. destruct a as [[] [] [] [] [] [] [] []]; vm_compute; split; congruence. }
  split; apply Forall_impl; intros a; apply L.
Qed.
Print Assumptions worded_alphabet.
