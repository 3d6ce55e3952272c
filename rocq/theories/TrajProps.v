(** Properties of trajectory outputs (C249-C251). *)
Require Import String List Arith Bool ZArith Lia Reals Lra.
From Verif Require Import ScriptModel ScriptProps TrajModel.
Import ListNotations.
Local Open Scope nat_scope.
Local Open Scope list_scope.

(** * C249: which bead goes where *)
Section Write.
Variable B W : Type.
Notation write_beads := (write_beads B W).
(** selected beads: all that are multiples of -ibead, or the one asked for *)
Definition selected (ibead : Z) (b : nat) : Prop :=
  (ibead < 0 /\ (- ibead | Z.of_nat b))%Z \/ ibead = Z.of_nat b.
Lemma is_open_spec ibead b : is_open ibead b = true <-> selected ibead b.
Proof.
  unfold is_open, selected. rewrite orb_true_iff, andb_true_iff, Z.ltb_lt, !Z.eqb_eq. split.
  - intros [(N & M)|E]; [|now right]. left. split; [exact N|]. apply Z.mod_divide; [lia|exact M].
  - intros [(N & M)|E]; [|now right]. left. split; [exact N|]. apply Z.mod_divide; [lia|exact M].
Qed.
Lemma combine_nth (l : list B) : forall a b r, In (b, r) (combine (seq a (length l)) l) <-> a <= b /\ nth_error l (b - a) = Some r.
Proof.
  induction l as [|x l IH]; intros a b r; cbn [length seq combine In].
  - split; [contradiction|]. intros (_ & E). destruct (b - a); discriminate.
  - rewrite IH. split.
    + intros [E|(L & E)].
      * injection E as <- <-. split; [lia|]. now rewrite Nat.sub_diag.
      * split; [lia|]. replace (b - a) with (S (b - S a)) by lia. exact E.
    + intros (L & E). destruct (Nat.eq_dec a b) as [A|A].
      * subst b. rewrite Nat.sub_diag in E. injection E as <-. now left.
      * right. split; [lia|]. replace (b - a) with (S (b - S a)) in E by lia. exact E.
Qed.
(** Without a bead asked for, each file that has been opened gets the data of its bead,
    with the number of the step and of the bead, and nothing else is written. *)
Theorem beads_in_their_files step ibead data : (ibead < 0)%Z -> exists l, write_beads step ibead data = Some l /\
  (forall f s b c, In (f, (s, b), c) l <-> f = b /\ s = S step /\ selected ibead b /\ exists r, nth_error data b = Some r /\ c = Row r) /\
  map (fun x => fst (fst x)) l = filter (is_open ibead) (seq 0 (length data)).
Proof.
  intros N. unfold TrajModel.write_beads. rewrite (proj2 (Z.ltb_lt _ _) N). eexists. split; [reflexivity|]. split.
  - intros f s b c. rewrite in_flat_map. split.
    + intros ((b' & r) & I & J). cbn [fst snd] in J. apply combine_nth in I. rewrite Nat.sub_0_r in I.
      destruct (is_open ibead b') eqn:O; [|contradiction]. destruct J as [J|[]]. injection J as <- <- <- <-.
      apply is_open_spec in O. repeat split; auto. exists r. tauto.
    + intros (-> & -> & S1 & r & E & ->). exists (b, r). split; [apply combine_nth; rewrite Nat.sub_0_r; split; [lia|exact E]|].
      cbn [fst snd]. apply is_open_spec in S1. rewrite S1. now left.
  - generalize 0. induction data as [|x data IH]; intros a; cbn [length seq combine flat_map filter fst snd]; [reflexivity|].
    destruct (is_open ibead a); cbn [map app fst]; now rewrite <- IH.
Qed.
Theorem one_bead step ibead data r : nth_error data ibead = Some r ->
  write_beads step (Z.of_nat ibead) data = Some [(ibead, (S step, ibead), Row r)] /\
  forall b, is_open (Z.of_nat ibead) b = true <-> b = ibead.
Proof.
  intros E. split.
  - unfold TrajModel.write_beads. replace (Z.of_nat ibead <? 0)%Z with false by (symmetry; apply Z.ltb_ge; lia).
    rewrite Nat2Z.id, E. assert (L : ibead < length data) by (apply nth_error_Some; congruence).
    now rewrite (proj2 (Nat.ltb_lt _ _) L).
  - intros b. rewrite is_open_spec. unfold selected. split; [intros [(A & _)|A]; lia|intros ->; now right].
Qed.
(** A bead that does not exist: no file is opened, and the run fails at the first output. *)
Theorem missing_bead_refuted : exists (ibead : Z) (data : list nat), length data = 2 /\
  opened ibead (length data) = [false; false] /\ TrajModel.write_beads nat W 0 ibead data = None.
Proof. exists 5%Z, [1; 2]. repeat split. Qed.
End Write.
Example beads_case : TrajModel.write_beads nat unit 9 (-2) [10; 11; 12] = Some [(0, (10, 0), Row 10); (2, (10, 2), Row 12)].
Proof. reflexivity. Qed.
Example one_bead_case : TrajModel.write_beads nat unit 9 1 [10; 11; 12] = Some [(1, (10, 1), Row 11)].
Proof. reflexivity. Qed.

(** ** flushing: never as many as [flush] frames are lost *)
Theorem flush_bound k n : (0 < k)%Z -> snd (Nat.iter n (fwrite k) (0, 0)) = n mod Z.to_nat k /\ snd (Nat.iter n (fwrite k) (0, 0)) < Z.to_nat k.
Proof.
  intros K. assert (P : 0 < Z.to_nat k) by lia.
  assert (Q : Nat.iter n (fwrite k) (0, 0) = (n mod Z.to_nat k, n mod Z.to_nat k)).
  { induction n as [|n IH]; [rewrite Nat.mod_0_l by lia; reflexivity|]. change (Nat.iter (S n) (fwrite k) (0, 0)) with (fwrite k (Nat.iter n (fwrite k) (0, 0))).
    rewrite IH. unfold fwrite. cbn [fst snd]. rewrite (proj2 (Z.ltb_lt 0 k) K). cbn [andb].
    assert (D := Nat.div_mod n (Z.to_nat k) ltac:(lia)). assert (M := Nat.mod_upper_bound n (Z.to_nat k) ltac:(lia)).
    set (m := n mod Z.to_nat k) in *. destruct (Z.leb_spec k (Z.of_nat (S m))) as [L|L].
    - replace (S n mod Z.to_nat k) with 0; [reflexivity|]. apply (Nat.mod_unique _ _ (S (n / Z.to_nat k))); [lia|].
      assert (S m = Z.to_nat k) by lia. rewrite Nat.mul_succ_r. lia.
    - replace (S n mod Z.to_nat k) with (S m); [reflexivity|]. apply (Nat.mod_unique _ _ (n / Z.to_nat k)); lia. }
  rewrite Q. cbn [snd]. split; [reflexivity|]. apply Nat.mod_upper_bound. lia.
Qed.
Theorem no_flush k n : (k <= 0)%Z -> snd (Nat.iter n (fwrite k) (0, 0)) = n.
Proof.
  intros K. induction n as [|n IH]; [reflexivity|]. change (Nat.iter (S n) (fwrite k) (0, 0)) with (fwrite k (Nat.iter n (fwrite k) (0, 0))).
  remember (Nat.iter n (fwrite k) (0, 0)) as u. unfold fwrite. rewrite (proj2 (Z.ltb_ge 0 k) K). cbn [andb snd]. now rewrite IH.
Qed.
Example flush_case : map (fun n => snd (Nat.iter n (fwrite 3) (0, 0))) [0; 1; 2; 3; 4; 5; 6] = [0; 1; 2; 0; 1; 2; 0].
Proof. reflexivity. Qed.

(** * C250: extras *)
Section Extras.
Variable F : Type.
(** the fields asked for are there for bead [b] *)
Definition has (d : extras F) (b : nat) (n : string) (f : field F) : Prop := exists v, lookup F d n = Some v /\ nth_error v b = Some f.
Lemma collect1 d b names ls : Forall2 (fun n l => has d b n (Arr1 l)) names ls -> collect F d b names = Some ([], map Arr1 ls).
Proof.
  induction 1 as [|n l names ls (v & A & E) _ IH]; [reflexivity|]. cbn [collect map]. now rewrite A, E, IH.
Qed.
Lemma collect2 d b names ts : Forall2 (fun n t => has d b n (Arr2 t)) names ts -> collect F d b names = Some ([], map Arr2 ts).
Proof.
  induction 1 as [|n l names ls (v & A & E) _ IH]; [reflexivity|]. cbn [collect map]. now rewrite A, E, IH.
Qed.
(** Numbers: one line, the fields in the order asked for. *)
Theorem extras_numbers kind names step d b ls : names <> [] -> Forall2 (fun n l => has d b n (Arr1 l)) names ls ->
  write_extras F kind false names step d b = Some [LHead kind (S step); LNums (concat ls)].
Proof.
  intros N H. unfold write_extras. rewrite (collect1 _ _ _ _ H). inversion H as [|n l ns l' A B]; subst; [congruence|].
  cbn [map]. unfold hstack. 
  assert (T : forallb (is1 F) (Arr1 l :: map Arr1 l') = true).
  { cbn. clear. induction l'; auto. }
  rewrite T. cbn [app map]. f_equal. f_equal. f_equal. f_equal. cbn [flat_map concat]. f_equal.
  clear. induction l' as [|a l' IH]; [reflexivity|]. cbn. now rewrite IH.
Qed.
(** Tables: row by row, the fields side by side. *)
Fixpoint sideways (ts : list (list (list F))) (i : nat) : list F := match ts with [] => [] | t :: ts => nth i t [] ++ sideways ts i end.
Lemma hstack2_rows n ts : ts <> [] -> Forall (fun t => length t = n) ts -> hstack2 F ts = Some (map (sideways ts) (seq 0 n)).
Proof.
  intros N H. induction H as [|t ts L H IH]; [congruence|]. cbn [hstack2]. destruct ts as [|u ts].
  - f_equal. cbn [sideways]. rewrite <- L. clear.
    assert (G : forall (t : list (list F)) a, t = map (fun i => nth (i - a) t [] ++ []) (seq a (length t))).
    { clear. induction t as [|x t IH]; intros a; cbn [length seq map]; [reflexivity|]. rewrite Nat.sub_diag, app_nil_r. f_equal.
      rewrite (IH (S a)) at 1. apply map_ext_in. intros i I. apply in_seq in I. replace (i - a) with (S (i - S a)) by lia. reflexivity. }
    rewrite (G t 0) at 1. apply map_ext. intros i. now rewrite Nat.sub_0_r.
  - rewrite IH by discriminate. rewrite map_length, seq_length, L, Nat.eqb_refl. f_equal.
    clear IH N H.
    assert (G : forall (h : nat -> list F) t a n, length t = n -> map (fun p => fst p ++ snd p) (combine t (map h (seq a n))) = map (fun i => nth (i - a) t [] ++ h i) (seq a n)).
    { clear. intros h. induction t as [|x t IH]; intros a n L; subst n; cbn [length seq map combine]; [reflexivity|].
      cbn [fst snd]. rewrite Nat.sub_diag. f_equal. rewrite (IH (S a) _ eq_refl). apply map_ext_in. intros i I. apply in_seq in I.
      replace (i - a) with (S (i - S a)) by lia. reflexivity. }
    rewrite (G _ t 0 n L). apply map_ext. intros i. rewrite Nat.sub_0_r. reflexivity.
Qed.
Theorem extras_tables kind names step d b ts n : names <> [] -> Forall2 (fun n t => has d b n (Arr2 t)) names ts -> Forall (fun t => length t = n) ts ->
  write_extras F kind false names step d b = Some (LHead kind (S step) :: map (fun i => LNums (sideways ts i)) (seq 0 n)).
Proof.
  intros N H L. unfold write_extras. rewrite (collect2 _ _ _ _ H). inversion H as [|m t ns t' A B]; subst; [congruence|].
  cbn [map]. unfold hstack. cbn [forallb is1 is2 andb].
  assert (T : forallb (is2 F) (map Arr2 t') = true) by (clear; induction t'; auto). rewrite T. cbn [map].
  rewrite map_map. rewrite (map_id t'). rewrite (hstack2_rows n (t :: t')); [|discriminate|exact L]. cbn [app]. now rewrite map_map.
Qed.
(** Asked for by name, the file of a bead has only what belongs to that bead. *)
Theorem extras_own kind names step d d' b : (forall n, In n names -> match lookup F d n with Some v => nth_error v b | None => None end = match lookup F d' n with Some v => nth_error v b | None => None end) ->
  write_extras F kind false names step d b = write_extras F kind false names step d' b.
Proof.
  intros H. unfold write_extras. replace (collect F d b names) with (collect F d' b names); [reflexivity|].
  induction names as [|n names IH]; [reflexivity|]. cbn [collect]. rewrite IH by (intros; apply H; now right).
  specialize (H n (or_introl eq_refl)). destruct (lookup F d n) as [v|], (lookup F d' n) as [v'|]; rewrite ?H; auto; rewrite <- ?H; auto.
Qed.
Theorem extras_unknown kind names step d b n : In n names -> lookup F d n = None -> write_extras F kind false names step d b = None.
Proof.
  intros I L. unfold write_extras. replace (collect F d b names) with (@None (list (oline F) * list (field F))); [reflexivity|].
  symmetry. induction names as [|m names IH]; [contradiction|]. cbn [collect]. destruct I as [->|I]; [now rewrite L|].
  destruct (lookup F d m) as [v|]; [|reflexivity]. rewrite (IH I). destruct (nth_error v b) as [[| |]|]; reflexivity.
Qed.
End Extras.
(** The raw extras are those of all beads, in each of the files. *)
Theorem extras_raw_refuted : exists d d' : extras nat, nth_error (snd (hd (""%string, []) d)) 0 = nth_error (snd (hd (""%string, []) d')) 0 /\
  write_extras nat "raw" true [] 0 d 0 <> write_extras nat "raw" true [] 0 d' 0 /\
  write_extras nat "raw" true [] 0 d 0 = write_extras nat "raw" true [] 0 d 1.
Proof.
  exists [("raw", [Txt "a"; Txt "b"])]%string, [("raw", [Txt "a"; Txt "c"])]%string. split; [reflexivity|]. split; [|reflexivity]. discriminate.
Qed.
(** Text comes before the numbers, whatever the order asked for. *)
Theorem extras_order_refuted : exists d : extras nat, write_extras nat "n,t" false ["n"; "t"]%string 0 d 0 = Some [LHead "n,t" 1; LEmpty; LText "x"; LNums [7]] /\
  write_extras nat "t,n" false ["t"; "n"]%string 0 d 0 = Some [LHead "t,n" 1; LEmpty; LText "x"; LNums [7]].
Proof. exists [("n", [Arr1 [7]]); ("t", [Txt "x"])]%string. split; reflexivity. Qed.
Example extras_write_case : write_extras nat "a,b" false ["a"; "b"]%string 4 [("b", [Arr1 [1]; Arr1 [2; 3]]); ("a", [Arr1 [4]; Arr1 [5]])]%string 1 = Some [LHead "a,b" 5; LNums [5; 2; 3]].
Proof. reflexivity. Qed.
Example extras_tables_case : write_extras nat "a,b" false ["a"; "b"]%string 4 [("b", [Arr2 [[1]; [2]]]); ("a", [Arr2 [[4; 5]; [6; 7]]])]%string 0 = Some [LHead "a,b" 5; LNums [4; 5; 1]; LNums [6; 7; 2]].
Proof. reflexivity. Qed.

(** ** what read_trajectory finds in such a file *)
Section Back.
Variable F : Type.
(** text of a line that is not a header *)
Variable fmt : oline F -> string.
Definition render (l : oline F) : eline := match l with LHead k n => Head k n | _ => Data (fmt l) end.
Fixpoint file (kind : string) (names : list string) (b : nat) (run : list (nat * extras F)) : option (list eline) :=
  match run with
  | [] => Some []
  | (s, d) :: run => match write_extras F kind false names s d b, file kind names b run with
                     | Some l, Some r => Some (map render l ++ r)
                     | _, _ => None
                     end
  end.
Theorem extras_read_back kind names b run vals : kind <> ""%string -> names <> [] -> run <> [] ->
  Forall2 (fun sd ls => Forall2 (fun n l => has F (snd sd) b n (Arr1 l)) names ls) run vals ->
  exists l, file kind names b run = Some l /\
    read_extras l = Some (mkes (map (fun sd => S (fst sd)) run) (map (fun ls => [fmt (LNums (concat ls))]) vals) [] kind).
Proof.
  intros K N R H. exists (extras_file kind (combine (map (fun sd => S (fst sd)) run) (map (fun ls => [fmt (LNums (concat ls))]) vals))). split.
  - clear R. induction H as [|[s d] ls run vals A H IH]; [reflexivity|]. cbn [file fst snd] in *. rewrite IH.
    rewrite (extras_numbers F kind names s d b ls N A). reflexivity.
  - assert (L : length run = length vals) by (clear - H; induction H; cbn; auto).
    rewrite read_extras_frames; auto.
    + f_equal. f_equal; clear - L; revert vals L; induction run as [|x run IH]; intros [|v vals] L; try discriminate; cbn; f_equal; apply IH; cbn in L; lia.
    + destruct run, vals; try discriminate; congruence.
    + apply Forall_forall. intros [n l] I. apply in_combine_r in I. apply in_map_iff in I. destruct I as (ls & <- & _). discriminate.
Qed.
End Back.

(** * C251: centroids of even and odd beads *)
Section Even.
Local Open Scope R_scope.
Lemma evens_odds_sum : forall n q, (length q <= n)%nat -> TrajModel.rsum (evens q) + TrajModel.rsum (odds q) = TrajModel.rsum q.
Proof.
  induction n as [|n IH]; intros q L. { destruct q; [cbn; lra|cbn in L; lia]. }
  destruct q as [|a [|b q]]; [cbn; lra|cbn; lra|]. change (evens (a :: b :: q)) with (a :: evens q). change (odds (a :: b :: q)) with (evens (b :: q)). cbn [TrajModel.rsum].
  assert (E : TrajModel.rsum (evens (b :: q)) = b + TrajModel.rsum (odds q)) by (destruct q; cbn; lra).
  rewrite E. assert (I := IH q ltac:(cbn in L; lia)). lra.
Qed.
Lemma evens_length : forall n (q : list R), length q = (2 * n)%nat -> length (evens q) = n /\ length (odds q) = n.
Proof.
  induction n as [|n IH]; intros q L. { destruct q; [auto|discriminate]. }
  destruct q as [|a [|b q]]; try (cbn in L; lia). change (evens (a :: b :: q)) with (a :: evens q). change (odds (a :: b :: q)) with (evens (b :: q)). cbn [length]. destruct (IH q ltac:(cbn in L; lia)) as (A & B).
  assert (E : length (evens (b :: q)) = S (length (odds q))) by (destruct q; reflexivity). rewrite E. lia.
Qed.
(** With an even number of beads: the mean of each half; their mean is the centroid. *)
Theorem centroid_halves n q : length q = (2 * n)%nat -> (0 < n)%nat ->
  x_centroid_even q = centroid (evens q) /\ x_centroid_odd q = centroid (odds q) /\ (x_centroid_even q + x_centroid_odd q) / 2 = centroid q.
Proof.
  intros L N. destruct (evens_length n q L) as (A & B). assert (S1 := evens_odds_sum _ q (Nat.le_refl _)).
  unfold x_centroid_even, x_centroid_odd, centroid. rewrite A, B, L, mult_INR. change (INR 2) with 2.
  assert (P : INR n <> 0) by (apply not_0_INR; lia). repeat split; try (field; exact P).
  rewrite <- S1. field. exact P.
Qed.
Theorem centroid_halves_refuted : exists q, (length q = 1%nat /\ x_centroid_even q <> centroid (evens q)) /\ x_centroid_even q = 2 * centroid q.
Proof. exists [1]. cbn. unfold x_centroid_even, centroid. cbn. repeat split; lra. Qed.
Theorem v_centroid_half m p n : length p = (2 * n)%nat -> (0 < n)%nat -> v_centroid_even m p = centroid (evens (map (fun x => x / m) p)).
Proof.
  intros L N. unfold v_centroid_even. rewrite <- (map_length (fun x => x / m) p). change (x_centroid_even (map (fun x => x / m) p) = centroid (evens (map (fun x => x / m) p))).
  apply (centroid_halves n); [now rewrite map_length|exact N].
Qed.
Example centroid_case : x_centroid_even [1; 10; 3; 20] = 2 /\ x_centroid_odd [1; 10; 3; 20] = 15.
Proof. unfold x_centroid_even, x_centroid_odd. cbn. split; lra. Qed.
End Even.

Print Assumptions beads_in_their_files.
Print Assumptions flush_bound.
Print Assumptions extras_numbers.
Print Assumptions extras_tables.
Print Assumptions extras_own.
Print Assumptions extras_read_back.
Print Assumptions centroid_halves.
