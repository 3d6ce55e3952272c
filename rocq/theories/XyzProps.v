(* Properties of xyz files (C49). *)
From Coq Require Import String Ascii List Arith Bool ZArith Lia.
From Verif Require Import TextLib ValModel ValProps XyzModel.
Import ListNotations.
Local Open Scope string_scope.
Local Open Scope list_scope.

(* a word: not empty, without blanks *)
Definition word (w : text) : Prop := w <> [] /\ Forall (fun a => blank a = false) w.

Section Float.
Variable is_float : text -> bool.

(* what a structure may hold: labels of at most four characters and
   numbers that can be read *)
Definition good_atom (a : atom) : Prop :=
  word (label a) /\ length (label a) <= 4 /\
  (word (ax a) /\ is_float (ax a) = true) /\
  (word (ay a) /\ is_float (ay a) = true) /\
  (word (az a) /\ is_float (az a) = true).

Definition good (f : frame) : Prop := atoms f <> [] /\ Forall good_atom (atoms f).

Lemma words_rjust n w r : words (rjust n w ++ r) = words (w ++ r).
Proof.
  unfold rjust. rewrite <- app_assoc. apply words_blank. generalize (n - length w). intros k.
  induction k; constructor; auto.
Qed.

Lemma read_print_atom a : good_atom a -> read_atom is_float (print_atom a) = Some (Some a).
Proof.
  intros ([L1 L2] & LL & [[X1 X2] FX] & [[Y1 Y2] FY] & [[Z1 Z2] FZ]).
  unfold read_atom, print_atom. rewrite words_rjust. cbn [app].
  rewrite words_cons by (easy || reflexivity). rewrite words_rjust.
  rewrite words_cons by (easy || reflexivity). rewrite words_rjust.
  rewrite words_cons by (easy || reflexivity).
  rewrite <- (app_nil_r (rjust 12 (az a))), words_rjust, app_nil_r.
  rewrite words_last by easy. rewrite FX, FY, FZ. cbn [andb].
  rewrite firstn_all2 by lia. now destruct a.
Qed.

Lemma read_atoms_printed l : forall acc more, Forall good_atom l -> l <> [] ->
  read_atoms is_float (length l) (map print_atom l ++ more) acc = inl (rev acc ++ l, more).
Proof.
  induction l as [|a l IH]; intros acc more F N; [easy|].
  inversion F as [|? ? A F']; subst. cbn [length map app read_atoms].
  rewrite read_print_atom by easy. destruct l as [|b l].
  - reflexivity.
  - cbn [length]. change (S (length l)) with (length (b :: l)).
    rewrite IH by easy. cbn [rev]. now rewrite <- app_assoc.
Qed.

Lemma read_printed f more : good f -> read_xyz is_float (print_xyz f ++ more) = Read f more.
Proof.
  intros [N F]. unfold read_xyz, print_xyz. cbn [app]. rewrite read_show.
  destruct (Z.of_nat (length (atoms f)) <? 0)%Z eqn:E; [apply Z.ltb_lt in E; lia|].
  rewrite Nat2Z.id, read_atoms_printed by easy. cbn [rev app].
  rewrite Z.eqb_refl. now destruct f.
Qed.

Lemma iter_printed fs : forall fuel, Forall good fs -> length fs < fuel ->
  iter_file is_float fuel (concat (map print_xyz fs)) = (fs, true).
Proof.
  induction fs as [|f fs IH]; intros fuel F L.
  - destruct fuel; [lia|]. reflexivity.
  - inversion F; subst. destruct fuel; [cbn in L; lia|]. cbn [map concat iter_file].
    rewrite read_printed by easy. rewrite IH; [reflexivity|easy|cbn in L; lia].
Qed.

Lemma lines_many fs : length fs <= length (concat (map print_xyz fs)).
Proof.
  induction fs as [|f fs IH]; [easy|]. cbn [map concat]. rewrite app_length.
  unfold print_xyz at 1. cbn [length]. lia.
Qed.

(* C49: every trajectory of well-formed frames that is written is read
   back, frame by frame, whatever is in the comment lines. *)
Theorem xyz_round_trip fs :
  Forall good fs -> read_all is_float (concat (map print_xyz fs)) = (fs, true).
Proof.
  intros F. unfold read_all. apply iter_printed; auto.
  pose proof (lines_many fs). lia.
Qed.

(* Each frame alone, with anything after it: exactly its lines are used. *)
Theorem xyz_frame_round_trip f more :
  good f -> read_xyz is_float (print_xyz f ++ more) = Read f more.
Proof. apply read_printed. Qed.

Lemma read_atoms_short l n : forall acc, Forall good_atom l -> (0 < n)%nat ->
  read_atoms is_float (length l + n) (map print_atom l) acc =
  inl (rev acc ++ l ++ repeat zero_atom n, []).
Proof.
  induction l as [|a l IH]; intros acc F N.
  - cbn [length Nat.add map read_atoms app]. reflexivity.
  - inversion F; subst. cbn [length Nat.add map read_atoms].
    rewrite read_print_atom by easy. destruct (length l + n)%nat as [|k] eqn:E; [lia|].
    rewrite IH by easy. cbn [rev]. rewrite <- app_assoc. reflexivity.
Qed.

(* False of the code: a frame that ends before its last atom is never
   reported.  Wherever the file is cut after the comment line, the frame
   is completed with atoms without a name at the origin. *)
Theorem truncated_never_reported f j :
  good f -> j < length (atoms f) ->
  read_xyz is_float (firstn (2 + j) (print_xyz f)) =
  Read (Frame (comment f) (firstn j (atoms f) ++ repeat zero_atom (length (atoms f) - j))) [].
Proof.
  intros [N F] L. unfold print_xyz. cbn [Nat.add firstn]. rewrite firstn_map.
  unfold read_xyz. rewrite read_show.
  destruct (Z.of_nat (length (atoms f)) <? 0)%Z eqn:E; [apply Z.ltb_lt in E; lia|].
  rewrite Nat2Z.id.
  replace (length (atoms f)) with (length (firstn j (atoms f)) + (length (atoms f) - j))%nat at 1
    by (rewrite firstn_length; lia).
  rewrite read_atoms_short.
  - cbn [rev app]. rewrite app_length, repeat_length, firstn_length.
    replace (Nat.min j (length (atoms f)) + (length (atoms f) - j))%nat with (length (atoms f)) by lia.
    now rewrite Z.eqb_refl.
  - apply Forall_forall. intros a I. rewrite Forall_forall in F. apply F.
    rewrite <- (firstn_skipn j (atoms f)). apply in_or_app. now left.
  - lia.
Qed.

(* The test for the number of atoms in the code can never fail. *)
Lemma read_atoms_length lines : forall n acc l rest,
  read_atoms is_float n lines acc = inl (l, rest) -> length l = (length acc + n)%nat.
Proof.
  induction lines as [|h t IH]; intros n acc l rest H; cbn in H.
  - injection H as <- _. rewrite app_length, rev_length, repeat_length. reflexivity.
  - destruct n as [|n]; [easy|]. destruct (read_atom is_float h) as [[a|]|]; [|easy|easy].
    destruct n as [|n].
    + injection H as <- _. rewrite app_length, rev_length. reflexivity.
    + apply IH in H. cbn in H. lia.
Qed.

(* the reading of a frame never depends on that test *)
Theorem count_check_useless lines c n l rest :
  read_atoms is_float (Z.to_nat n) lines [] = inl (l, rest) -> (0 <= n)%Z ->
  read_xyz is_float (show_z n :: c :: lines) = Read (Frame c l) rest.
Proof.
  intros H N. unfold read_xyz. rewrite read_show.
  destruct (n <? 0)%Z eqn:E; [apply Z.ltb_lt in E; lia|]. rewrite H.
  apply read_atoms_length in H. cbn in H.
  rewrite H, Z2Nat.id, Z.eqb_refl by lia. reflexivity.
Qed.

(* What is reported: a line with too few fields, or with a field that is
   not a number, before the last atom. *)
Theorem bad_line_reported f j line more :
  good f -> j < length (atoms f) ->
  (forall a, read_atom is_float line <> Some (Some a)) ->
  read_xyz is_float (firstn (2 + j) (print_xyz f) ++ line :: more) = IndexError \/
  read_xyz is_float (firstn (2 + j) (print_xyz f) ++ line :: more) = ValueError.
Proof.
  intros [N F] L B. unfold print_xyz. cbn [Nat.add firstn app]. rewrite firstn_map.
  unfold read_xyz. rewrite read_show.
  destruct (Z.of_nat (length (atoms f)) <? 0)%Z eqn:E; [apply Z.ltb_lt in E; lia|].
  rewrite Nat2Z.id. clear E.
  assert (G : forall l n acc, Forall good_atom l -> (0 < n)%nat ->
    exists b, read_atoms is_float (length l + n) (map print_atom l ++ line :: more) acc = inr b).
  { induction l as [|a l IH]; intros n acc Fl Pn.
    - cbn [length Nat.add map app read_atoms]. destruct n; [lia|].
      destruct (read_atom is_float line) as [[a|]|] eqn:R; eauto. now destruct (B a).
    - inversion Fl; subst. cbn [length Nat.add map app read_atoms].
      rewrite read_print_atom by easy. destruct (length l + n)%nat as [|k] eqn:E; [lia|].
      rewrite <- E. auto. }
  destruct (G (firstn j (atoms f)) (length (atoms f) - j)%nat []) as [b E].
  - apply Forall_forall. intros a I. rewrite Forall_forall in F. apply F.
    rewrite <- (firstn_skipn j (atoms f)). apply in_or_app. now left.
  - lia.
  - rewrite firstn_length, Nat.min_l in E by lia.
    replace (j + (length (atoms f) - j))%nat with (length (atoms f)) in E by lia.
    rewrite E. destruct b; auto.
Qed.

(* The end of a truncated trajectory: complete frames are kept. *)
Theorem truncated_trajectory fs f j :
  Forall good fs -> good f -> j < length (atoms f) ->
  read_all is_float (concat (map print_xyz fs) ++ firstn (2 + j) (print_xyz f)) =
  (fs ++ [Frame (comment f) (firstn j (atoms f) ++ repeat zero_atom (length (atoms f) - j))], true).
Proof.
  intros F G L. unfold read_all.
  assert (H : forall fuel, length fs + 1 < fuel ->
    iter_file is_float fuel (concat (map print_xyz fs) ++ firstn (2 + j) (print_xyz f)) =
    (fs ++ [Frame (comment f) (firstn j (atoms f) ++ repeat zero_atom (length (atoms f) - j))], true)).
  { induction F as [|g fs Gg F IH]; intros fuel Lf.
    - destruct fuel as [|[|fuel]]; [cbn in Lf; lia|cbn in Lf; lia|].
      cbn [map concat app]. cbn [iter_file]. rewrite truncated_never_reported by easy. reflexivity.
    - destruct fuel as [|fuel]; [lia|]. cbn [map concat]. rewrite <- app_assoc. cbn [iter_file].
      rewrite read_printed by easy. rewrite IH; [reflexivity|cbn in Lf; lia]. }
  apply H. rewrite app_length.
  pose proof (lines_many fs). unfold print_xyz at 2. cbn [Nat.add firstn length]. lia.
Qed.
End Float.
Print Assumptions xyz_round_trip.
Print Assumptions xyz_frame_round_trip.
Print Assumptions truncated_never_reported.
Print Assumptions count_check_useless.
Print Assumptions bad_line_reported.
Print Assumptions truncated_trajectory.

(* the texts made of digits, signs, points and e *)
Definition simple_float (t : text) : bool :=
  forallb (fun a => has a (tx "0123456789.-+e")) t.

Definition water : frame :=
  Frame (tx "# CELL(abcABC): 10.0 10.0 10.0 90.0 90.0 90.0 positions{angstrom}")
        [Atom (tx "O") (tx "0.00000e+00") (tx "0.00000e+00") (tx "1.10000e-01");
         Atom (tx "H") (tx "7.60000e-01") (tx "0.00000e+00") (tx "-4.70000e-01");
         Atom (tx "H") (tx "-7.60000e-01") (tx "0.00000e+00") (tx "-4.70000e-01")].

Example water_good : good simple_float water.
Proof. split; [easy|]. repeat constructor; cbn; try easy; lia. Qed.

Example water_round_trip :
  read_all simple_float (print_xyz water ++ print_xyz water) = ([water; water], true) /\
  nth 2 (print_xyz water) [] = tx "       O  0.00000e+00  0.00000e+00  1.10000e-01".
Proof. vm_compute. auto. Qed.

(* C49 refuted: a concrete cut. *)
Theorem truncated_refuted :
  exists f lines g, good simple_float f /\ length lines < length (print_xyz f) /\
    lines = firstn (length lines) (print_xyz f) /\
    read_xyz simple_float lines = Read g [] /\ length (atoms g) = length (atoms f) /\ g <> f.
Proof.
  exists water, (firstn 3 (print_xyz water)).
  exists (Frame (comment water) (firstn 1 (atoms water) ++ repeat zero_atom 2)).
  split; [apply water_good|]. split; [vm_compute; lia|]. split; [reflexivity|].
  split; [vm_compute; reflexivity|]. split; [reflexivity|]. vm_compute. congruence.
Qed.
Print Assumptions truncated_refuted.

(* A blank line, or any line that is not a number, where the next frame
   should begin silently ends the trajectory: the frames after it are
   dropped without an error. *)
Theorem frames_dropped is_float fs line more :
  Forall (good is_float) fs -> read_int line = None ->
  read_all is_float (concat (map print_xyz fs) ++ line :: more) = (fs, true).
Proof.
  intros F R. unfold read_all.
  assert (H : forall fuel, length fs < fuel ->
    iter_file is_float fuel (concat (map print_xyz fs) ++ line :: more) = (fs, true)).
  { induction F as [|g fs Gg F IH]; intros fuel Lf.
    - destruct fuel as [|fuel]; [lia|]. cbn [map concat app iter_file read_xyz]. rewrite R. reflexivity.
    - destruct fuel as [|fuel]; [lia|]. cbn [map concat]. rewrite <- app_assoc. cbn [iter_file].
      rewrite xyz_frame_round_trip by easy. rewrite IH; [reflexivity|cbn in Lf; lia]. }
  apply H. rewrite app_length. pose proof (lines_many fs). cbn [length]. lia.
Qed.
Print Assumptions frames_dropped.

Theorem frames_dropped_refuted :
  exists f lines, good simple_float f /\
    lines = print_xyz f ++ [] :: print_xyz f ++ print_xyz f /\
    read_all simple_float lines = ([f], true).
Proof.
  exists water. eexists. split; [apply water_good|]. split; [reflexivity|]. vm_compute. reflexivity.
Qed.
Print Assumptions frames_dropped_refuted.

(* Labels have up to six characters in the program (dtype |U6); five or
   six are cut to four by reading. *)
Theorem long_label_refuted :
  exists f g, length (label (hd zero_atom (atoms f))) = 5 /\
    read_xyz simple_float (print_xyz f) = Read g [] /\ g <> f.
Proof.
  exists (Frame [] [Atom (tx "C_sp3") (tx "1.0") (tx "2.0") (tx "3.0")]).
  exists (Frame [] [Atom (tx "C_sp") (tx "1.0") (tx "2.0") (tx "3.0")]).
  vm_compute. repeat split. congruence.
Qed.
Print Assumptions long_label_refuted.

(* A frame without atoms followed by another frame stops the reading with
   an error although it was written by the program. *)
Theorem empty_frame_refuted :
  exists f g, atoms f = [] /\ good simple_float g /\
    read_xyz simple_float (print_xyz f ++ print_xyz g) = IndexError.
Proof.
  exists (Frame [] []), water. split; [easy|]. split; [apply water_good|]. vm_compute. reflexivity.
Qed.
Print Assumptions empty_frame_refuted.
