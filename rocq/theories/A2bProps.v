(** * Converting trajectories: theorems of record *)
From Coq Require Import String Ascii List Arith Bool QArith Qreals Reals Lra.
From Verif Require Import TextLib UnitModel UnitProps AutoModel AutoProps A2bModel.
Import ListNotations.
Local Open Scope string_scope.
Local Open Scope list_scope.

Lemma first_key_found d s : first_found d s = match first_key d s with Some (_, dim, u) => Some (dim, u) | None => None end.
Proof. induction d as [|[k dim] d IH]; cbn; [reflexivity|]. destruct (search (tx k) s); [reflexivity|exact IH]. Qed.

Fixpoint first_end_key (d : list (string * option string)) (key : text) : option (string * option string) :=
  match d with
  | [] => None
  | (k, dim) :: r => if ends (tx k) key then Some (k, dim) else first_end_key r key
  end.
(** The only name that ends in another one. *)
Lemma first_end_same k dim : In (k, dim) traj_dict -> first_end_key traj_dict (tx k) = Some (if String.eqb k "Eforces" then "forces" else k, dim).
Proof.
  intros I. unfold traj_dict in I. cbn [In] in I.
  repeat (destruct I as [I|I]; [injection I as <- <-; vm_compute; reflexivity|]). contradiction.
Qed.

Section Written.
Variable head units cell : text.
Hypothesis H : has "{" head = false.
Hypothesis U : worded units.
Hypothesis C : worded cell.
Let comment k := (head ++ [" "%char]) ++ label (tx k) units cell.
Lemma label_search k dim : In (k, dim) traj_dict -> forall k', In k' tkeys -> search k' (comment k) = if ends k' (tx k) then Some units else if ends k' (tx "cell") then Some cell else None.
Proof.
  intros I. destruct (key_no_brace _ _ I) as [HK HC]. intros k' I'. unfold comment. rewrite comment_search; auto using word_no_brace.
  change (tx "}  cell{") with ("}"%char :: tx "  cell{"). cbn [app]. rewrite unit_of_word by easy. change (tx "}") with ["}"%char]. rewrite unit_of_word by easy. reflexivity.
Qed.
Lemma label_key k dim : In (k, dim) traj_dict -> first_key traj_dict (comment k) = Some (if String.eqb k "Eforces" then "forces" else k, dim, units).
Proof.
  intros I. assert (G : forall d, incl d traj_dict -> forall r, first_end_key d (tx k) = Some r -> first_key d (comment k) = Some (r, units)).
  { induction d as [|[k' dim'] d IH]; intros Inc r E; [easy|]. cbn [first_key first_end_key] in *.
    assert (I2 : In (k', dim') traj_dict) by (apply Inc; now left).
    assert (I1 : In (tx k') tkeys). { unfold tkeys. apply in_or_app. left. apply in_map_iff. now exists (k', dim'). }
    rewrite (label_search k dim I) by easy. destruct (ends (tx k') (tx k)); [injection E as <-; reflexivity|]. rewrite tkeys_cell by easy.
    assert (T : forallb (fun d => negb (eqt (tx (fst d)) (tx "cell"))) traj_dict = true) by (vm_compute; reflexivity). rewrite forallb_forall in T. specialize (T _ I2). apply negb_true_iff in T. cbn [fst] in T.
    rewrite T. apply IH; auto. intros z Z. apply Inc. now right. }
  apply (G traj_dict (incl_refl _) (if String.eqb k "Eforces" then "forces" else k, dim)). now apply first_end_same.
Qed.
End Written.

(** What is found in the comment that i-PI writes. *)
Theorem key_recovered head k dim units cell mode : has "{" head = false -> In (k, Some dim) traj_dict -> worded units -> worded cell -> k <> "Eforces" -> (mode = tx "pdb" -> dim = "length") ->
  let comment := (head ++ [" "%char]) ++ label (tx k) units cell in
  get_key_dim_units comment mode = Returned (tx k, tx dim, units) /\ get_cell_units comment mode = cell.
Proof.
  intros H I U C E M comment. split.
  - unfold get_key_dim_units, comment. rewrite (label_key head units cell H U C k (Some dim) I). destruct (String.eqb_spec k "Eforces"); [contradiction|].
    destruct (eqt mode (tx "pdb")) eqn:P; [|reflexivity]. assert (P' : mode = tx "pdb") by (apply eqt_spec; exact P). now rewrite (M P').
  - unfold get_cell_units, comment. rewrite (label_search head units cell H U C k (Some dim) I) by (unfold tkeys; apply in_or_app; right; now left).
    destruct (key_no_brace _ _ I) as [_ ->]. reflexivity.
Qed.
(** The field derived from an electric field is called forces from then on. *)
Theorem eforces_refuted : exists head units cell, has "{" head = false /\ worded units /\ worded cell /\
  get_key_dim_units ((head ++ [" "%char]) ++ label (tx "Eforces") units cell) (tx "xyz") = Returned (tx "forces", tx "force", units).
Proof. exists (tx "# Step:  1"), (tx "piconewton"), (tx "angstrom"). repeat split; [repeat constructor|repeat constructor]. Qed.
(** Numbers and label of a frame written by i-PI are those of its conversion. *)
Theorem convert_same head head' k dim units cell x y fu fc : has "{" head = false -> In (k, Some dim) traj_dict -> worded units -> worded cell -> k <> "Eforces" ->
  units <> tx "automatic" -> cell <> tx "automatic" -> unit_to_internal (tx dim) units 1 = Ok fu -> unit_to_internal (tx "length") cell 1 = Ok fc ->
  convert head' ((head ++ [" "%char]) ++ label (tx k) units cell) x y = Returned (Some (head' ++ label (tx k) units cell, x, y)).
Proof.
  intros H I U C E NU NC FU FC. unfold convert. destruct (key_recovered head k dim units cell (tx "xyz") H I U C E) as [-> ->]; [intros X; discriminate X|].
  unfold read. rewrite (label_recovered head k dim units cell H I U C), FC, FU. unfold write, chosen.
  assert (N : forall u, u <> tx "automatic" -> eqt u (tx "automatic") = false). { intros u Q. destruct (eqt u (tx "automatic")) eqn:Z; [|reflexivity]. exfalso. apply Q, eqt_spec, Z. }
  rewrite (N units NU), (N cell NC). unfold unit_to_user, unit_to_internal in *.
  destruct (factor (tx "length") cell) as [qc| | |] eqn:F1; try easy. destruct (factor (tx dim) units) as [qa| | |] eqn:F2; try easy. injection FU as <-. injection FC as <-.
  apply factor_positive in F1, F2. apply Qlt_Rlt in F1, F2. rewrite RMicromega.Q2R_0 in F1, F2. repeat f_equal; field; lra.
Qed.
(** Comments without any label, such as those of other programs, end in an error in every format. *)
Theorem no_label_error comment mode : (get_key_dim_units comment mode = UnboundLocalError <-> forall k dim, In (k, dim) traj_dict -> search (tx k) comment = None).
Proof.
  assert (G : forall d, first_key d comment = None <-> forall k dim, In (k, dim) d -> search (tx k) comment = None).
  { induction d as [|[k dim] d IH]; cbn; [split; [intros _ ? ? []|reflexivity]|]. destruct (search (tx k) comment) eqn:S.
    - split; [discriminate|]. intros Q. specialize (Q k dim (or_introl eq_refl)). congruence.
    - rewrite IH. split; [intros Q k' dim' [X|X]; [injection X as <- <-; exact S|now apply (Q k' dim')]|intros Q k' dim' X; apply (Q k' dim'); now right]. }
  rewrite <- (G traj_dict). unfold get_key_dim_units. destruct (first_key traj_dict comment) as [[[k [dim|]] u]|]; [|split; discriminate|split; reflexivity].
  destruct (eqt mode (tx "pdb") && negb (eqt (tx dim) (tx "length"))); split; discriminate.
Qed.
Theorem plain_file_refuted : exists head comment, (forall mode, get_key_dim_units comment mode = UnboundLocalError) /\ (forall x y, convert head comment x y = UnboundLocalError) /\ auto_units comment = Some (tx "undefined", tx "atomic_unit", tx "atomic_unit").
Proof. exists (tx "# "), (tx "water"). split; [|split]; reflexivity. Qed.
(** So do trajectories that i-PI wrote in units with other characters, like ev/ang. *)
Theorem other_units_error head k dim units cell mode : has "{" head = false -> In (k, dim) traj_dict -> has "{" units = false -> has "}" units = false -> existsb (fun a => negb (letter a)) units = true -> worded cell ->
  get_key_dim_units ((head ++ [" "%char]) ++ label (tx k) units cell) mode = UnboundLocalError.
Proof.
  intros H I U1 U2 B C. pose proof (other_units_not_recovered head k dim units cell H I U1 U2 B C) as A. apply no_label_error. intros k' dim' I'.
  assert (In' : In (tx k') tkeys). { unfold tkeys. apply in_or_app. left. apply in_map_iff. now exists (k', dim'). }
  destruct (key_no_brace _ _ I) as [HK _]. rewrite comment_search; auto using word_no_brace. rewrite unit_of_bad by easy. rewrite tkeys_cell by easy.
  assert (T : forallb (fun d => negb (eqt (tx (fst d)) (tx "cell"))) traj_dict = true) by (vm_compute; reflexivity). rewrite forallb_forall in T. specialize (T _ I'). apply negb_true_iff in T. cbn [fst] in T.
  rewrite T. now destruct (ends (tx k') (tx k)).
Qed.
(** Anything but lengths in a pdb file is refused. *)
Theorem pdb_lengths comment k dim u : get_key_dim_units comment (tx "pdb") = Returned (k, dim, u) -> dim = tx "length".
Proof.
  unfold get_key_dim_units. change (eqt (tx "pdb") (tx "pdb")) with true. destruct (first_key traj_dict comment) as [[[k' [d|]] u']|]; try discriminate. cbn [andb].
  destruct (eqt (tx d) (tx "length")) eqn:E; [|discriminate]. intros X. injection X as <- <- <-. now apply eqt_spec.
Qed.
Theorem pdb_default comment : search (tx "cell") comment = None -> get_cell_units comment (tx "pdb") = tx "angstrom" /\ get_cell_units comment (tx "xyz") = tx "atomic_unit".
Proof. intros E. unfold get_cell_units. rewrite E. split; reflexivity. Qed.
Print Assumptions key_recovered.
Print Assumptions eforces_refuted.
Print Assumptions convert_same.
Print Assumptions no_label_error.
Print Assumptions plain_file_refuted.
Print Assumptions other_units_error.
Print Assumptions pdb_lengths.
Print Assumptions pdb_default.
Example convert_case : convert (tx "# CELL ") (tx "# CELL(abcABC): 10.0 Step:  3 " ++ label (tx "positions") (tx "angstrom") (tx "nanometer")) 3 2 = Returned (Some (tx "# CELL " ++ label (tx "positions") (tx "angstrom") (tx "nanometer"), 3%R, 2%R)).
Proof.
  eapply (convert_same (tx "# CELL(abcABC): 10.0 Step:  3") (tx "# CELL ") "positions" "length").
  - reflexivity.
  - now left.
  - repeat constructor.
  - repeat constructor.
  - discriminate.
  - discriminate.
  - discriminate.
  - vm_compute. reflexivity.
  - vm_compute. reflexivity.
Qed.
Example other_units_case : get_key_dim_units (tx "# Step:  3 " ++ label (tx "forces") (tx "ev/ang") (tx "angstrom")) (tx "xyz") = UnboundLocalError.
Proof. reflexivity. Qed.
Example pdb_case : get_key_dim_units (tx "# Step:  3 " ++ label (tx "x_centroid") (tx "angstrom") (tx "angstrom")) (tx "pdb") = Returned (tx "x_centroid", tx "length", tx "angstrom") /\
  get_key_dim_units (tx "# Step:  3 " ++ label (tx "forces") (tx "newton") (tx "angstrom")) (tx "pdb") = ValueError.
Proof. split; reflexivity. Qed.
