(** * Ring polymers in pdb files: theorems of record *)
From Coq Require Import List Arith Lia String Reals Lra Permutation.
From Verif Require Import PolyModel.
Import ListNotations.
Open Scope list_scope.

Lemma map_flat_map A B C (g : B -> C) (f : A -> list B) l : map g (flat_map f l) = flat_map (fun x => map g (f x)) l.
Proof. induction l as [|a l IH]; cbn; [reflexivity|]. now rewrite map_app, IH. Qed.
Lemma map_seq f a n c : (forall i, a <= i < a + n -> f i = i + c) -> map f (seq a n) = seq (a + c) n.
Proof.
  revert a. induction n as [|n IH]; intros a H; cbn; [reflexivity|]. rewrite (H a) by lia. f_equal. rewrite IH by (intros; apply H; lia). reflexivity.
Qed.
Lemma rows n a k c : flat_map (fun j => map (fun i => (j + c) * n + i + 1) (seq 0 n)) (seq a k) = seq ((a + c) * n + 1) (k * n).
Proof.
  revert a. induction k as [|k IH]; intros a; cbn [seq flat_map]; [reflexivity|]. rewrite IH. rewrite (map_seq _ 0 n ((a + c) * n + 1)) by (intros; lia).
  replace (S k * n) with (n + k * n) by lia. rewrite seq_app. f_equal. f_equal. lia.
Qed.

(** ** Records *)
(** Atoms are numbered from one without gaps. *)
Theorem atom_numbers A natoms nbeads lab (qs : nat -> nat -> A) : map (fun r => fst (fst r)) (atom_records natoms nbeads lab qs) = seq 1 (nbeads * natoms).
Proof.
  unfold atom_records. rewrite map_flat_map. erewrite flat_map_ext; [apply (rows natoms 0 nbeads 0)|]. intros j. cbn beta. rewrite map_map. apply map_ext. intros i. unfold serial. cbn. lia.
Qed.
(** Each atom of each bead has one record, with its name and position. *)
Theorem atom_record A natoms nbeads lab (qs : nat -> nat -> A) s n p : In (s, n, p) (atom_records natoms nbeads lab qs) <->
  exists j i, j < nbeads /\ i < natoms /\ s = serial natoms j i /\ n = lab i /\ p = (qs j (3 * i), qs j (3 * i + 1), qs j (3 * i + 2)).
Proof.
  unfold atom_records. rewrite in_flat_map. split.
  - intros (j & J & I). apply in_map_iff in I as (i & E & I). apply in_seq in J, I. injection E as <- <- <-. exists j, i. repeat split; lia.
  - intros (j & i & J & I & -> & -> & ->). exists j. split; [apply in_seq; lia|]. apply in_map_iff. exists i. split; [reflexivity|apply in_seq; lia].
Qed.
(** Bonds are between neighbouring beads of one atom, and close the ring. *)
Theorem bonds natoms nbeads x y : In (x, y) (conect natoms nbeads) <->
  1 < nbeads /\ exists i, i < natoms /\ ((x = serial natoms 0 i /\ y = serial natoms (nbeads - 1) i) \/ exists j, j + 1 < nbeads /\ x = serial natoms j i /\ y = serial natoms (j + 1) i).
Proof.
  unfold conect. destruct (Nat.ltb_spec 1 nbeads) as [P|P]; [|split; [intros []|lia]]. rewrite in_app_iff, in_map_iff, in_flat_map. split.
  - intros [(i & E & I)|(j & J & I)].
    + apply in_seq in I. injection E as <- <-. split; [exact P|]. exists i. split; [lia|]. left. unfold serial. split; lia.
    + apply in_map_iff in I as (i & E & I). apply in_seq in I, J. injection E as <- <-. split; [exact P|]. exists i. split; [lia|]. right. exists j. unfold serial. repeat split; lia.
  - intros (_ & i & I & [[-> ->]|(j & J & -> & ->)]).
    + left. exists i. split; [unfold serial; f_equal; lia|apply in_seq; lia].
    + right. exists j. split; [apply in_seq; lia|]. apply in_map_iff. exists i. split; [reflexivity|apply in_seq; lia].
Qed.
(** Every atom record has two bonds. *)
Theorem two_bonds natoms nbeads : 1 < nbeads -> let c := conect natoms nbeads in Permutation (map fst c ++ map snd c) (seq 1 (nbeads * natoms) ++ seq 1 (nbeads * natoms)).
Proof.
  intros P c. unfold c, conect. destruct (Nat.ltb_spec 1 nbeads) as [_|X]; [|lia]. rewrite !map_app, !map_map, !map_flat_map. cbn [fst snd].
  rewrite (map_seq _ 0 natoms 1) by (intros; lia). rewrite (map_seq _ 0 natoms ((nbeads - 1) * natoms + 1)) by (intros; lia).
  assert (A : flat_map (fun j => map fst (map (fun i => (j * natoms + i + 1, (j + 1) * natoms + i + 1)) (seq 0 natoms))) (seq 0 (nbeads - 1)) = seq 1 ((nbeads - 1) * natoms)).
  { erewrite flat_map_ext; [apply (rows natoms 0 (nbeads - 1) 0)|]. intros j. cbn beta. rewrite map_map. apply map_ext. intros i. cbn. lia. }
  assert (B : flat_map (fun j => map snd (map (fun i => (j * natoms + i + 1, (j + 1) * natoms + i + 1)) (seq 0 natoms))) (seq 0 (nbeads - 1)) = seq (natoms + 1) ((nbeads - 1) * natoms)).
  { erewrite flat_map_ext; [rewrite (rows natoms 0 (nbeads - 1) 1); f_equal; lia|]. intros j. cbn beta. rewrite map_map. apply map_ext. intros i. cbn. lia. }
  rewrite A, B. cbn [plus].
  assert (F : seq 1 (nbeads * natoms) = seq 1 natoms ++ seq (natoms + 1) ((nbeads - 1) * natoms)). { replace (nbeads * natoms) with (natoms + (nbeads - 1) * natoms) by nia. rewrite seq_app. do 2 f_equal. lia. }
  assert (G : seq 1 (nbeads * natoms) = seq 1 ((nbeads - 1) * natoms) ++ seq ((nbeads - 1) * natoms + 1) natoms). { replace (nbeads * natoms) with ((nbeads - 1) * natoms + natoms) by nia. rewrite seq_app. do 2 f_equal. lia. }
  rewrite F at 1. rewrite G. rewrite <- !app_assoc. apply Permutation_app_head. rewrite (app_assoc (seq 1 ((nbeads - 1) * natoms))). apply Permutation_app_comm.
Qed.
(** There are as many bonds as atoms, and none for a single bead. *)
Theorem number_of_bonds natoms nbeads : List.length (conect natoms nbeads) = if 1 <? nbeads then nbeads * natoms else 0.
Proof.
  destruct (Nat.ltb_spec 1 nbeads) as [P|P].
  - pose proof (Permutation_length (two_bonds natoms nbeads P)) as L. rewrite !app_length, !map_length, !seq_length in L. lia.
  - unfold conect. destruct (Nat.ltb_spec 1 nbeads); [lia|reflexivity].
Qed.
(** With two beads every bond is there twice. *)
Theorem two_beads_refuted : exists natoms nbeads, 1 < nbeads /\ 0 < natoms /\ ~ NoDup (conect natoms nbeads).
Proof. exists 1, 2. repeat split; try lia. intros N. cbv in N. inversion N as [|? ? X]. apply X. now left. Qed.

(** ** Merged files *)
Lemma heads_none files : heads files = None <-> In [] files.
Proof.
  induction files as [|[|f r] fs IH]; cbn; [split; [discriminate|tauto]|split; auto|]. destruct (heads fs) as [[a b]|] eqn:E.
  - split; [discriminate|]. intros [X|X]; [discriminate|]. apply IH in X. discriminate.
  - split; [right; now apply IH|reflexivity].
Qed.
Lemma heads_some files fs rest : heads files = Some (fs, rest) -> files = map (fun p => fst p :: snd p) (combine fs rest) /\ List.length fs = List.length files /\ List.length rest = List.length files.
Proof.
  revert fs rest. induction files as [|[|f r] l IH]; cbn; intros fs rest E; [injection E as <- <-; now repeat split|discriminate|].
  destruct (heads l) as [[a b]|] eqn:H; [|discriminate]. injection E as <- <-. destruct (IH a b eq_refl) as (A & B & C). cbn. repeat split; [now f_equal|lia|lia].
Qed.
Lemma loop_nth fuel u ang files k : files <> [] -> (forall f, In f files -> k < List.length f) -> k < fuel ->
  nth_error (loop fuel u ang files) k = Some (merge u ang (map (fun f => nth k f (Frame [] [] [])) files)).
Proof.
  revert files k. induction fuel as [|n IH]; intros files k N H K; [lia|]. cbn [loop]. destruct (heads files) as [[fs rest]|] eqn:E.
  - destruct (heads_some _ _ _ E) as (F & L1 & L2). destruct k as [|k].
    + cbn. do 2 f_equal. rewrite F, map_map. cbn. clear - L1 L2. assert (L : List.length fs = List.length rest) by lia. clear L1 L2. revert rest L. induction fs as [|f fs IH]; intros [|r rest] L; cbn in *; try lia; [reflexivity|]. f_equal. apply IH. lia.
    + cbn [nth_error]. assert (R : forall f, In f rest -> k < List.length f).
      { intros r I. apply In_nth with (d := []) in I as (m & M & <-). assert (Q : In (nth m fs (Frame [] [] []) :: nth m rest []) files).
        { rewrite F. apply in_map_iff. exists (nth m fs (Frame [] [] []), nth m rest []). split; [reflexivity|]. rewrite <- combine_nth by lia. apply nth_In. rewrite combine_length. lia. }
        apply H in Q. cbn in Q. lia. }
      rewrite IH; [|intros ->; cbn in L2; destruct files; [contradiction|discriminate]|exact R|lia]. do 2 f_equal. rewrite F, map_map. cbn.
      assert (L : List.length fs = List.length rest) by lia. clear - L. revert rest L. induction fs as [|f fs IH]; intros [|r rest] L; cbn in *; try lia; [reflexivity|]. f_equal. apply IH. lia.
  - apply heads_none in E. apply H in E. cbn in E. lia.
Qed.
Lemma loop_length fuel u ang files k : In k (map (@List.length frame) files) -> List.length (loop fuel u ang files) <= k.
Proof.
  revert files k. induction fuel as [|n IH]; intros files k I; cbn [loop]; [cbn; lia|]. destruct (heads files) as [[fs rest]|] eqn:E; [|cbn; lia].
  destruct (heads_some _ _ _ E) as (F & L1 & L2). apply in_map_iff in I as (f & <- & I). rewrite F in I. apply in_map_iff in I as ([a r] & <- & I). apply in_combine_r in I.
  cbn. apply le_n_S, IH. apply in_map. exact I.
Qed.
(** Frame k is made of frames k of the files, as long as all of them have one; then the tool ends. *)
Theorem merged_frames u ang files k : files <> [] ->
  nth_error (fst (main u ang files)) k = (if forallb (fun f => k <? List.length f) files then Some (merge u ang (map (fun f => nth k f (Frame [] [] [])) files)) else None) /\ snd (main u ang files) = Exit0.
Proof.
  intros N. destruct files as [|f0 r]; [contradiction|]. unfold main. cbn [fst snd]. split; [|reflexivity]. set (files := f0 :: r) in *. destruct (forallb (fun f => k <? List.length f) files) eqn:A.
  - rewrite forallb_forall in A. assert (B : forall f, In f files -> k < List.length f) by (intros f I; apply Nat.ltb_lt, A, I). apply loop_nth; [exact N|exact B|]. specialize (B f0 (or_introl eq_refl)). lia.
  - apply nth_error_None. assert (X : exists f, In f files /\ List.length f <= k).
    { clear - A. induction files as [|f l IH]; [discriminate|]. cbn [forallb] in A. destruct (Nat.ltb_spec k (List.length f)); [cbn [andb] in A; destruct (IH A) as (g & G & H'); exists g; split; [now right|exact H']|exists f; split; [now left|lia]]. }
    destruct X as (f & I & L). apply Nat.le_trans with (List.length f); [|exact L]. apply loop_length, in_map, I.
Qed.
(** Bead j has the positions of file j; the labels and the cell are those of the last file, which are printed in angstrom. *)
Theorem merged_values u ang fs j i d : let m := merge u ang fs in j < List.length fs ->
  List.length (beads m) = List.length fs /\ List.length (nth j (beads m) []) = List.length (q (nth j fs d)) /\ (i < List.length (q (nth j fs d)) -> nth i (nth j (beads m) []) 0%R = (nth i (q (nth j fs d)) 0 * u * ang)%R) /\
  labels m = names (nth (List.length fs - 1) fs d) /\ (forall a, nth a (cell m) 0%R = (nth a (h (nth (List.length fs - 1) fs d)) 0 * u * ang)%R).
Proof.
  intros m J. assert (S : forall l a, nth a (scale ang (scale u l)) 0%R = (nth a l 0 * u * ang)%R).
  { intros l. unfold scale. induction l as [|x l IH]; intros [|a]; cbn; try reflexivity; try (ring); apply IH. }
  assert (L : last fs (Frame [] [] []) = nth (List.length fs - 1) fs d).
  { clear - J. destruct fs as [|f l]; [cbn in J; lia|]. clear J. revert f. induction l as [|g l IH]; intros f; [reflexivity|]. change (last (f :: g :: l) (Frame [] [] [])) with (last (g :: l) (Frame [] [] [])). rewrite IH. cbn [List.length]. replace (S (S (List.length l)) - 1) with (S (S (List.length l) - 1)) by lia. reflexivity. }
  assert (B : nth j (beads m) [] = scale ang (scale u (q (nth j fs d)))).
  { unfold m, merge. cbn. rewrite (nth_indep _ [] (scale ang (scale u (q d)))) by (now rewrite map_length). apply (map_nth (fun f => scale ang (scale u (q f)))). }
  split; [unfold m, merge; cbn; apply map_length|]. split; [rewrite B; unfold scale; now rewrite !map_length|]. split; [intros _; rewrite B; apply S|]. split; [unfold m, merge; cbn; now rewrite L|]. intros a. unfold m, merge. cbn [cell]. rewrite L. apply S.
Qed.
Theorem no_files_refuted u ang : main u ang [] = ([], UnboundLocalError).
Proof. reflexivity. Qed.
Print Assumptions atom_numbers.
Print Assumptions atom_record.
Print Assumptions bonds.
Print Assumptions two_bonds.
Print Assumptions number_of_bonds.
Print Assumptions two_beads_refuted.
Print Assumptions merged_frames.
Print Assumptions merged_values.
Print Assumptions no_files_refuted.
Example ring_case : conect 2 3 = [(1, 5); (2, 6); (1, 3); (2, 4); (3, 5); (4, 6)].
Proof. reflexivity. Qed.
Example merged_case : let f n := Frame ["H"%string] [INR n; 0; 0]%R [9; 9; 9]%R in List.length (fst (main 1 1 [[f 1; f 2; f 3]; [f 4; f 5]])) = 2 /\ forallb (fun l => 1 <? List.length l) [[f 1; f 2; f 3]; [f 4; f 5]] = true.
Proof. split; reflexivity. Qed.
