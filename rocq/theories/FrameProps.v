(** * Theorems of record: JSON and binary frames, choice of the format *)
From Coq Require Import List Arith NArith Lia Bool Reals Lra.
From Verif Require Import RSum CellModel CellProps FrameModel.
Import ListNotations.

(** ** JSON (C238) *)
Section Json.
Variable line : Type.
Variable dumps : data -> line.
Variable loads : line -> option data.
(** json.loads reads what json.dumps wrote. *)
Hypothesis JSON : forall d, loads (dumps d) = Some d.
Open Scope R_scope.
(** What is to be printed. *)
Record shot := Shot { s_h : mat3; s_q : list R; s_names : list text; s_title : text }.
Definition good (cc : R) (s : shot) : Prop := std_cell (s_h s) /\ 0 < cc /\ (forall x, In x (s_names s) -> (List.length x <= 4)%nat).
Definition recovered (cc ac : R) (s : shot) (f : frame mat3 (list R)) : Prop :=
  f_title f = s_title s /\ f_q f = map (fun x => x * ac) (s_q s) /\ f_names f = s_names s /\
  (forall i j, (i < 3)%nat -> (j < 3)%nat -> f_cell f i j = s_h s i j * cc).
Definition printed (cc ac : R) (s : shot) : line := print_json line dumps (s_h s) (s_q s) (s_names s) (s_title s) cc ac.
Lemma firstn_short (x : text) : (List.length x <= 4)%nat -> firstn 4 x = x.
Proof. intros L. now apply firstn_all2. Qed.
Lemma degrees_back h : radians (h2abc_deg h) = h2abc h.
Proof.
  unfold radians, h2abc_deg. cbn [len_a len_b len_c ang_alpha ang_beta ang_gamma].
  assert (A : forall x, x * 180 / PI * (PI / 180) = x) by (intros x; field; apply PI_neq0). rewrite !A. reflexivity.
Qed.
(** A trajectory of any length is read back, frame by frame. *)
Theorem json_roundtrip cc ac l : Forall (good cc) l -> Forall2 (recovered cc ac) l (iter_json line loads (map (printed cc ac) l)).
Proof.
  intros G. induction G as [|s l (ST & CP & NM) G IH]; [constructor|]. cbn [map iter_json]. unfold printed at 1, print_json. rewrite JSON.
  constructor; [|exact IH]. unfold recovered, of_data. cbn [d_title d_q d_labels d_cell f_title f_q f_names f_cell].
  split; [reflexivity|]. split; [reflexivity|]. split.
  - rewrite <- (map_id (s_names s)) at 2. apply map_ext_in. intros x X. apply firstn_short. auto.
  - intros i j I J. rewrite degrees_back. apply cell_roundtrip; [|exact I|exact J].
    destruct ST as (A & B & C & D & E & F). unfold scaled. repeat split; try (rewrite ?A, ?B, ?C; ring); now apply Rmult_lt_0_compat.
Qed.
(** A line that is not JSON ends the trajectory without an error, whatever comes after it. *)
Theorem json_stops l bad l' : loads bad = None -> iter_json line loads (l ++ bad :: l') = iter_json line loads l.
Proof.
  intros B. induction l as [|x l IH]; cbn [app iter_json]; [now rewrite B|]. destruct (loads x); [now rewrite IH|reflexivity].
Qed.
(** Names are cut to four characters. *)
Theorem json_names d : f_names (of_data d) = map (firstn 4) (d_labels d).
Proof. reflexivity. Qed.
End Json.
Print Assumptions json_roundtrip.
Print Assumptions json_stops.
Print Assumptions json_names.
(** So a trajectory with a damaged line loses all frames after it, and longer names are changed. *)
Definition case_loads (l : option data) : option data := l.
Definition case_shot : shot := Shot (rows3 1 0 0 0 1 0 0 0 1) [0; 1; 2]%R [[72]]%N [116]%N.
Example json_case : good 2 case_shot /\ Forall2 (recovered 2 3) [case_shot; case_shot] (iter_json _ case_loads (map (printed _ Some 2 3) [case_shot; case_shot])).
Proof.
  assert (G : good 2 case_shot).
  { split; [unfold std_cell, case_shot, rows3; cbn; repeat split; lra|]. split; [lra|]. intros x [<-|[]]. cbn. lia. }
  split; [exact G|]. apply json_roundtrip; [reflexivity|]. apply Forall_cons; [exact G|]. apply Forall_cons; [exact G|apply Forall_nil].
Qed.
Theorem json_lost_refuted : exists l, List.length l = 3%nat /\
  List.length (filter (fun x => match case_loads x with Some _ => true | None => false end) l) = 2%nat /\ List.length (iter_json _ case_loads l) = 1%nat.
Proof. exists [printed _ Some 1 1 case_shot; None; printed _ Some 1 1 case_shot]. now repeat split. Qed.
Theorem json_names_refuted : exists s, let d := print_json _ Some (s_h s) (s_q s) (s_names s) (s_title s) 1 1 in
  exists f, iter_json _ case_loads [d] = [f] /\ f_names f <> s_names s.
Proof. exists (Shot (rows3 1 0 0 0 1 0 0 0 1) [] [[72; 49; 50; 51; 52]]%N []). eexists. split; [reflexivity|]. cbn. congruence. Qed.
Print Assumptions json_lost_refuted.
Print Assumptions json_names_refuted.

(** ** Binary (C239) *)
Section Binary.
Variable Fl : Type.
Variable enc : Fl -> N * N.
Variable dec : N -> N -> Fl.
Hypothesis CODE : forall x, dec (fst (enc x)) (snd (enc x)) = x.
Notation doubles := (doubles Fl dec).
Notation print_binary := (print_binary Fl enc).
Notation read_binary := (read_binary Fl dec).
Lemma doubles_wide l w : doubles (List.length l) (flat_map (wide Fl enc) l ++ w) = (l, w).
Proof.
  induction l as [|x l IH]; [reflexivity|]. cbn [List.length flat_map]. unfold wide at 1. specialize (CODE x). destruct (enc x) as [a b]. cbn [app FrameModel.doubles].
  rewrite IH. cbn [fst snd] in CODE. now rewrite CODE.
Qed.
Lemma integer_int64 n w : integer (int64 n ++ w) = Some (n, w).
Proof. cbn [int64 app integer]. do 2 f_equal. rewrite N.add_comm, N.mul_comm. symmetry. now apply N.div_mod. Qed.
Definition plain (s : text) : Prop := forall c, In c s -> c <> 0%N.
Lemma letters_plain s : plain s -> letters s = s.
Proof.
  intros P. unfold letters. induction s as [|c s IH]; [reflexivity|]. cbn [filter]. rewrite (proj2 (N.eqb_neq c 0)) by (apply P; now left). cbn [negb].
  f_equal. apply IH. intros x X. apply P. now right.
Qed.
Lemma letters_chars s : plain s -> letters (chars s) = s.
Proof. intros P. destruct s as [|c s]; [reflexivity|]. unfold chars. now apply letters_plain. Qed.
Definition barless (s : text) : Prop := ~ In bar s.
Lemma split_app s r : barless s -> split (s ++ bar :: r) = s :: split r.
Proof.
  induction s as [|c s IH]; intros B; [reflexivity|]. cbn [app split].
  rewrite (proj2 (N.eqb_neq c bar)) by (intros ->; apply B; now left). rewrite IH by (intros I; apply B; now right). reflexivity.
Qed.
Lemma split_one s : barless s -> split s = [s].
Proof.
  induction s as [|c s IH]; intros B; [reflexivity|]. cbn [split]. rewrite (proj2 (N.eqb_neq c bar)) by (intros ->; apply B; now left).
  now rewrite IH by (intros I; apply B; now right).
Qed.
Lemma split_join l : l <> [] -> Forall barless l -> split (join l) = l.
Proof.
  intros N F. induction F as [|s l B F IH]; [easy|]. destruct l as [|s' l]; [now apply split_one|].
  change (join (s :: s' :: l)) with (s ++ bar :: join (s' :: l)). rewrite split_app by exact B. f_equal. now apply IH.
Qed.
Lemma join_plain l : Forall plain l -> plain (join l).
Proof.
  intros F. induction F as [|s l P F IH]; [intros c []|]. destruct l as [|s' l]; [exact P|]. change (join (s :: s' :: l)) with (s ++ bar :: join (s' :: l)).
  intros c I. apply in_app_or in I. destruct I as [I|[<-|I]]; [now apply P|discriminate|now apply IH].
Qed.
Lemma join_nil l : join l = [] -> l = [] \/ l = [[]].
Proof. destruct l as [|s [|s' l]]; [now left|cbn; intros ->; now right|]. change (join (s :: s' :: l)) with (s ++ bar :: join (s' :: l)). now destruct s. Qed.
(** A file with one frame is read back. *)
Theorem binary_roundtrip cell natoms q names title : List.length cell = 9%nat -> List.length q = N.to_nat (3 * natoms) ->
  join names <> [] -> Forall barless names -> Forall plain names -> plain title ->
  read_binary (print_binary cell natoms q names title) = Got Fl (Frame title cell q names (map (fun _ => 0%R) names)) [].
Proof.
  intros C Q N B P T. unfold FrameModel.read_binary, FrameModel.print_binary. rewrite <- C at 1. rewrite doubles_wide, C. cbn [Nat.eqb negb].
  rewrite integer_int64, <- Q, doubles_wide, integer_int64. rewrite Nat2N.id.
  assert (E : chars (join names) = join names) by (unfold chars; now destruct (join names)). rewrite E.
  rewrite firstn_app, Nat.sub_diag, firstn_all. cbn [firstn]. rewrite app_nil_r. rewrite (letters_plain (join names)) by now apply join_plain.
  rewrite split_join; [|intros ->; now apply N|exact B]. rewrite skipn_app, Nat.sub_diag, skipn_all. cbn [skipn app]. now rewrite letters_chars.
Qed.
(** A file cut within the cell ends the trajectory; one cut just after it, or after the positions, is an error. *)
Theorem binary_cut cell natoms q k : List.length cell = 9%nat -> List.length q = N.to_nat (3 * natoms) ->
  read_binary (firstn k (flat_map (wide Fl enc) cell)) = (if Nat.ltb k 18 then Eof Fl else Index_err Fl) /\
  read_binary (flat_map (wide Fl enc) cell ++ int64 natoms ++ flat_map (wide Fl enc) q) = Index_err Fl.
Proof.
  intros C Q.
  assert (LW : List.length (flat_map (wide Fl enc) cell) = 18%nat).
  { do 9 (destruct cell as [|? cell]; [discriminate|]). destruct cell; [|discriminate]. cbn [flat_map]. unfold wide.
    repeat match goal with |- context [enc ?x] => destruct (enc x) end. reflexivity. }
  split.
  - unfold FrameModel.read_binary. destruct (Nat.ltb k 18) eqn:L.
    + apply Nat.ltb_lt in L. assert (G : forall n w, (List.length w < 2 * n)%nat -> (List.length (fst (doubles n w)) < n)%nat).
      { induction n as [|n IH]; intros w H; [lia|]. destruct w as [|a [|b w]]; cbn [FrameModel.doubles]; [cbn; lia|cbn; lia|].
        cbn [List.length] in H. specialize (IH w ltac:(lia)). destruct (doubles n w) as [l r]. cbn [fst List.length] in *. lia. }
      specialize (G 9%nat (firstn k (flat_map (wide Fl enc) cell))). rewrite firstn_length, LW in G. specialize (G ltac:(lia)).
      destruct (doubles 9 _) as [l r]. cbn [fst] in G. now rewrite (proj2 (Nat.eqb_neq (List.length l) 9)) by lia.
    + apply Nat.ltb_ge in L. rewrite firstn_all2 by lia. rewrite <- (app_nil_r (flat_map _ cell)), <- C, doubles_wide, C. reflexivity.
  - unfold FrameModel.read_binary. rewrite <- C at 1. rewrite doubles_wide, C. cbn [Nat.eqb negb]. rewrite integer_int64, <- Q.
    rewrite <- (app_nil_r (flat_map _ q)), doubles_wide. reflexivity.
Qed.
(** Two frames: what is read is one frame, whose title has all characters of the second frame after its own. *)
Theorem binary_two cell natoms q names title w : List.length cell = 9%nat -> List.length q = N.to_nat (3 * natoms) ->
  join names <> [] -> Forall barless names -> Forall plain names -> plain title ->
  read_binary (print_binary cell natoms q names title ++ w) = Got Fl (Frame (title ++ letters w) cell q names (map (fun _ => 0%R) names)) [].
Proof.
  intros C Q N B P T. unfold FrameModel.read_binary, FrameModel.print_binary. rewrite <- !app_assoc. rewrite <- C at 1. rewrite doubles_wide, C. cbn [Nat.eqb negb].
  rewrite integer_int64, <- Q, doubles_wide, integer_int64. rewrite Nat2N.id.
  assert (E : chars (join names) = join names) by (unfold chars; now destruct (join names)). rewrite E.
  rewrite firstn_app, Nat.sub_diag, firstn_all. cbn [firstn]. rewrite app_nil_r. rewrite (letters_plain (join names)) by now apply join_plain.
  rewrite split_join; [|intros ->; now apply N|exact B]. rewrite skipn_app, Nat.sub_diag, skipn_all. cbn [skipn app].
  unfold letters at 1. rewrite filter_app. fold (letters (chars title)) (letters w). now rewrite letters_chars.
Qed.
(** Whatever the file holds, one frame at most is read. *)
Theorem binary_one_frame fuel w : (List.length (fst (iter_binary Fl dec fuel w)) <= 1)%nat.
Proof.
  assert (NIL : forall fuel, fst (iter_binary Fl dec fuel []) = []) by (intros [|f]; reflexivity).
  destruct fuel as [|fuel]; [cbn; lia|]. cbn [iter_binary]. destruct (read_binary w) as [f r| |] eqn:E; [|cbn; lia|cbn; lia].
  assert (r = []).
  { unfold FrameModel.read_binary in E. destruct (doubles 9 w) as [c w1]. destruct (negb _); [discriminate|]. destruct (integer w1) as [[n w2]|]; [|discriminate].
    destruct (doubles _ w2) as [q w3]. destruct (integer w3) as [[k w4]|]; [|discriminate]. now injection E as _ <-. }
  subst r. specialize (NIL fuel). destruct (iter_binary Fl dec fuel []) as [l b]. cbn [fst] in *. subst l. cbn. lia.
Qed.
End Binary.
Print Assumptions binary_roundtrip.
Print Assumptions binary_cut.
Print Assumptions binary_two.
Print Assumptions binary_one_frame.
(** A case with numbers for floats. *)
Definition case_enc (x : N) : N * N := (x, 0%N).
Definition case_dec (a b : N) : N := a.
Definition case_file (title : text) : list N := print_binary N case_enc (repeat 1%N 9) 2 (repeat 5%N 6) [[72]; [79; 49]]%N title.
Example binary_case : read_binary N case_dec (case_file [104; 105]%N) = Got N (Frame [104; 105]%N (repeat 1%N 9) (repeat 5%N 6) [[72]; [79; 49]]%N [0%R; 0%R]) [].
Proof. reflexivity. Qed.
(** A trajectory of two frames loses the second and changes the title of the first. *)
Theorem binary_refuted : exists w f, w = case_file [104]%N ++ case_file [105]%N /\ iter_binary N case_dec 5 w = ([f], true) /\ f_title f <> [104]%N.
Proof. eexists. eexists. split; [reflexivity|]. split; [vm_compute; reflexivity|]. vm_compute. congruence. Qed.
(** Without atoms there is one name, empty; names with a bar are cut in two. *)
Theorem binary_names_refuted :
  (exists f, read_binary N case_dec (print_binary N case_enc (repeat 1%N 9) 0 [] [] []) = Got N f [] /\ f_names f = [[]]) /\
  (exists f, read_binary N case_dec (print_binary N case_enc (repeat 1%N 9) 1 [1; 2; 3]%N [[72; bar; 79]%N] []) = Got N f [] /\ f_names f = [[72]; [79]]%N).
Proof. split; eexists; split; reflexivity. Qed.
(** A file cut after the cell ends the iteration with an IndexError, not as the end of the file. *)
Theorem binary_cut_error fuel : iter_binary N case_dec (S fuel) (firstn 18 (case_file [104]%N)) = ([], false) /\ iter_binary N case_dec (S fuel) (firstn 17 (case_file [104]%N)) = ([], true).
Proof. split; reflexivity. Qed.
Print Assumptions binary_refuted.
Print Assumptions binary_names_refuted.

(** ** Choice of the format (C240) *)
(** The extension with its dot chooses the reader of the format without it; *)
Theorem backend_extension ext : after_dot ext = None -> backend (dot_ :: ext) = backend ext.
Proof. intros N. unfold backend. cbn [after_dot]. change (N.eqb dot_ dot_) with true. cbn iota. now rewrite N. Qed.
(** "bin" is the binary format, every other one is itself. *)
Theorem backend_names m : after_dot m = None -> backend m = if list_eq_dec N.eq_dec m txt_bin then txt_binary else m.
Proof. intros N. unfold backend, same. rewrite N. destruct (list_eq_dec N.eq_dec m txt_bin); reflexivity. Qed.
(** the units for files without a comment are those of the format except for pdb and ase. *)
Theorem units_extension ext : after_dot ext = None -> ext <> txt_pdb -> ext <> txt_ase -> read_file_name ext = read_file ext.
Proof.
  intros N P A. unfold read_file_name, read_file. rewrite backend_extension by exact N. f_equal. unfold default_unit, same.
  destruct (list_eq_dec N.eq_dec ext txt_pdb); [easy|]. destruct (list_eq_dec N.eq_dec ext txt_ase); [easy|].
  destruct (list_eq_dec N.eq_dec (dot_ :: ext) txt_pdb) as [E|_]; [discriminate|]. destruct (list_eq_dec N.eq_dec (dot_ :: ext) txt_ase) as [E|_]; [discriminate|]. reflexivity.
Qed.
(** A pdb file read by its name is taken to be in atomic units. *)
Theorem units_extension_refuted : read_file txt_pdb = (txt_pdb, Angstrom) /\ read_file_name txt_pdb = (txt_pdb, Atomic).
Proof. now split. Qed.
Print Assumptions backend_extension.
Print Assumptions units_extension.
Print Assumptions units_extension_refuted.
