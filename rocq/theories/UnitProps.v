(* Properties of the unit conversions (C52, C94). *)
From Coq Require Import String Ascii List Arith Bool QArith Qreals Reals Lra Lia.
From Verif Require Import TextLib UnitModel.
Import ListNotations.
Local Open Scope string_scope.
Local Open Scope list_scope.

(* ------------------------------------------------------------------ *)
(* What a unit text means, without the expression used to take it apart:
   blanks, then a metric prefix, then a name of the family in any case.
   Nothing may follow but a new line. *)

Definition new_line (r : text) : Prop := r = [] \/ exists r', r = nl :: r'.

Definition means (family unit : text) (b p : Q) : Prop :=
  exists bases n pref base rest,
    unit = repeat " "%char n ++ pref ++ base ++ rest /\ new_line rest /\
    In (string_of_list_ascii pref, p) unit_prefix /\
    In (string_of_list_ascii family, bases) unit_map /\
    In (string_of_list_ascii (lower base), b) bases.

(* ------------------------------------------------------------------ *)

Lemma tx_str s : string_of_list_ascii (tx s) = s.
Proof. apply string_of_list_ascii_of_string. Qed.

Lemma str_tx l : tx (string_of_list_ascii l) = l.
Proof. apply list_ascii_of_string_of_list_ascii. Qed.

Definition keys {A} (d : list (string * A)) := map fst d.

Lemma lookup_some A (d : list (string * A)) k v :
  lookup k d = Some v -> In (string_of_list_ascii k, v) d.
Proof.
  induction d as [|[k' v'] d IH]; cbn; [easy|].
  destruct (eqt k (tx k')) eqn:E.
  - intros [= <-]. apply eqt_spec in E as ->. rewrite tx_str. now left.
  - intros H. right. auto.
Qed.

Lemma lookup_in A (d : list (string * A)) k v :
  NoDup (keys d) -> In (string_of_list_ascii k, v) d -> lookup k d = Some v.
Proof.
  induction d as [|[k' v'] d IH]; cbn; [easy|]. intros N [H|H].
  - injection H as -> ->. now rewrite str_tx, eqt_refl.
  - inversion N as [|? ? N1 N2]; subst. destruct (eqt k (tx k')) eqn:E.
    + apply eqt_spec in E as ->. rewrite tx_str in H. destruct N1.
      change k' with (fst (k', v)). now apply in_map.
    + auto.
Qed.

Fixpoint nodupb (l : list string) : bool :=
  match l with
  | [] => true
  | a :: r => negb (existsb (String.eqb a) r) && nodupb r
  end.

Lemma nodupb_spec l : nodupb l = true -> NoDup l.
Proof.
  induction l; cbn; intros H; [constructor|].
  apply andb_true_iff in H as [H1 H2]. constructor; auto.
  intros I. apply negb_true_iff in H1. rewrite <- not_true_iff_false in H1.
  apply H1. apply existsb_exists. exists a. split; auto. apply String.eqb_refl.
Qed.

Lemma families_nodup : NoDup (keys unit_map).
Proof. apply nodupb_spec. vm_compute. reflexivity. Qed.

Lemma prefixes_nodup : NoDup (keys unit_prefix).
Proof. apply nodupb_spec. vm_compute. reflexivity. Qed.

Lemma bases_nodup f bases : In (f, bases) unit_map -> NoDup (keys bases).
Proof.
  intros H. apply nodupb_spec.
  assert (F : forallb (fun d => nodupb (keys (snd d))) unit_map = true)
    by (vm_compute; reflexivity).
  rewrite forallb_forall in F. apply (F _ H).
Qed.

Lemma map_lookup_base f bases b v :
  In (f, bases) unit_map -> In (b, v) bases ->
  In b (flat_map (fun d => keys (snd d)) unit_map).
Proof.
  intros H I. apply in_flat_map. exists (f, bases). split; auto.
  change b with (fst (b, v)). now apply in_map.
Qed.

(* the prefixes other than the empty one *)
Definition proper : list text := map (fun p => tx (fst p)) (tl unit_prefix).

Lemma alternatives_eq : alternatives = proper ++ [[]].
Proof. reflexivity. Qed.

Definition all_bases : list string := flat_map (fun d => keys (snd d)) unit_map.

(* one text is a prefix of the other *)
Definition comparable (x y : text) : bool :=
  match pre x y, pre y x with None, None => false | _, _ => true end.

Lemma comparable_app x y r : pre x (y ++ r) <> None -> comparable x y = true.
Proof.
  unfold comparable. revert y. induction x as [|a x IH]; intros y H; cbn; [now destruct (pre y [])|].
  destruct y as [|b y]; cbn in *; [easy|].
  destruct (Ascii.eqb_spec a b) as [-> | N]; [|easy].
  rewrite Ascii.eqb_refl. now apply IH.
Qed.

Lemma prefixes_apart p q : In p proper -> In q proper -> comparable p q = true -> p = q.
Proof.
  intros P Q C.
  assert (F : forallb (fun p => forallb (fun q => negb (comparable p q) || eqt p q) proper) proper = true)
    by (vm_compute; reflexivity).
  rewrite forallb_forall in F. specialize (F _ P). rewrite forallb_forall in F.
  specialize (F _ Q). rewrite C in F. cbn in F. now apply eqt_spec.
Qed.

Lemma bases_apart p b : In p proper -> In b all_bases -> pre p (tx b) = None.
Proof.
  intros P B.
  assert (F : forallb (fun p => forallb (fun b => match pre p (tx b) with None => true | _ => false end)
                                        all_bases) proper = true) by (vm_compute; reflexivity).
  rewrite forallb_forall in F. specialize (F _ P). rewrite forallb_forall in F.
  specialize (F _ B). cbn in F. now destruct (pre p (tx b)).
Qed.

Lemma bases_blank b r : In b all_bases -> tx b <> " "%char :: r.
Proof.
  intros B E.
  assert (F : forallb (fun b => match tx b with a :: _ => negb (Ascii.eqb " " a) | _ => true end)
                      all_bases = true) by (vm_compute; reflexivity).
  rewrite forallb_forall in F. specialize (F _ B). cbn in F. rewrite E in F. easy.
Qed.

Lemma bases_line b : In b all_bases -> has nl (tx b) = false.
Proof.
  intros B.
  assert (F : forallb (fun b => negb (has nl (tx b))) all_bases = true) by (vm_compute; reflexivity).
  rewrite forallb_forall in F. specialize (F _ B). cbn in F. now apply negb_true_iff.
Qed.

Lemma proper_line p : In p proper -> has nl p = false /\ lower p = p /\ exists a r, p = a :: r /\ a <> " "%char.
Proof.
  intros P.
  assert (F : forallb (fun p => negb (has nl p) && eqt (lower p) p &&
                match p with a :: _ => negb (Ascii.eqb " " a) | _ => false end) proper = true)
    by (vm_compute; reflexivity).
  rewrite forallb_forall in F. specialize (F _ P). cbn in F.
  apply andb_true_iff in F as [F F3]. apply andb_true_iff in F as [F1 F2].
  apply negb_true_iff in F1. apply eqt_spec in F2. repeat split; auto.
  destruct p as [|a r]; [easy|]. exists a, r. split; auto. intros ->. easy.
Qed.

Lemma first_prefix_none ps u :
  (forall p, In p ps -> pre p u = None) -> first_prefix (ps ++ [[]]) u = Some ([], u).
Proof.
  induction ps as [|p ps IH]; cbn; intros H; [easy|].
  rewrite (H p) by now left. apply IH. auto.
Qed.

Lemma first_prefix_one ps u p r :
  In p ps -> (forall q, In q ps -> q <> p -> pre q u = None) -> pre p u = Some r ->
  first_prefix (ps ++ [[]]) u = Some (p, r).
Proof.
  induction ps as [|q ps IH]; cbn; intros I H E; [easy|].
  destruct (list_eq_dec ascii_dec q p) as [-> | N].
  - now rewrite E.
  - rewrite (H q) by auto. apply IH; auto. destruct I; [congruence|auto].
Qed.

Lemma pre_lower p l r : pre p l = Some r -> pre (lower p) (lower l) = Some (lower r).
Proof.
  intros H. apply pre_some in H as ->. unfold lower. rewrite map_app. apply pre_app.
Qed.

Lemma first_prefix_spec pref base rest p b :
  In (string_of_list_ascii pref, p) unit_prefix -> In b all_bases ->
  tx b = lower base -> new_line rest ->
  first_prefix alternatives (pref ++ base ++ rest) = Some (pref, base ++ rest).
Proof.
  intros P B L N. rewrite alternatives_eq.
  assert (D : pref = [] \/ In pref proper).
  { destruct P as [P|P].
    - left. injection P as E _. destruct pref; easy.
    - right. unfold proper. apply in_map_iff. exists (string_of_list_ascii pref, p).
      split; [apply str_tx|exact P]. }
  destruct D as [-> | D].
  - cbn [app]. apply first_prefix_none. intros q Q.
    destruct (pre q (base ++ rest)) as [r|] eqn:E; [exfalso|easy].
    assert (pre q base <> None).
    { apply pre_some in E. destruct (proper_line q Q) as [NQ _].
      destruct N as [-> | [r' ->]].
      - rewrite app_nil_r in E. rewrite E, pre_app. easy.
      - clear - E NQ. revert q E NQ. induction base as [|a base IH]; intros q E NQ.
        + destruct q; cbn; [easy|]. cbn in E. injection E as <- _.
          cbn in NQ. easy.
        + destruct q as [|c q]; cbn; [easy|]. cbn in E. injection E as -> E.
          rewrite Ascii.eqb_refl. apply IH; auto.
          cbn [has] in NQ. now apply orb_false_iff in NQ. }
    destruct (pre q base) as [r2|] eqn:E2; [|easy].
    apply pre_lower in E2. destruct (proper_line q Q) as [_ [LQ _]].
    rewrite LQ, <- L, bases_apart in E2; easy.
  - apply first_prefix_one; auto.
    + intros q Q NE. destruct (pre q (pref ++ base ++ rest)) eqn:E; [exfalso|easy].
      apply NE. apply prefixes_apart; auto. eapply comparable_app. rewrite E. easy.
    + apply pre_app.
Qed.

Lemma dropw_repeat n l : dropw (Ascii.eqb " ") (repeat " "%char n ++ l) = dropw (Ascii.eqb " ") l.
Proof. induction n; cbn; auto. Qed.

Lemma lower1_space a : lower1 a = " "%char -> a = " "%char.
Proof.
  intros H. destruct a as [[] [] [] [] [] [] [] []]; vm_compute in H; try discriminate; reflexivity.
Qed.

Lemma lower1_nl a : lower1 a = nl -> a = nl.
Proof.
  intros H. destruct a as [[] [] [] [] [] [] [] []]; vm_compute in H; try discriminate; reflexivity.
Qed.

Lemma lower_line l : has nl l = true -> has nl (lower l) = true.
Proof. rewrite !has_in. intros H. apply (in_map lower1) in H. exact H. Qed.

Lemma takew_line base rest :
  has nl base = false -> new_line rest ->
  takew (fun a => negb (Ascii.eqb nl a)) (base ++ rest) = base.
Proof.
  intros H N. induction base as [|a base IH].
  - destruct N as [-> | [r ->]]; reflexivity.
  - cbn [has] in H. apply orb_false_iff in H as [E H]. cbn [app takew].
    rewrite E. cbn [negb]. now rewrite IH.
Qed.

Lemma takew_split l : exists rest,
  l = takew (fun a => negb (Ascii.eqb nl a)) l ++ rest /\ new_line rest.
Proof.
  induction l as [|a l [rest [E N]]].
  - exists []. split; [easy|now left].
  - cbn [takew]. destruct (Ascii.eqb nl a) eqn:C; cbn [negb].
    + apply Ascii.eqb_eq in C as <-. exists (nl :: l). split; [easy|right; now exists l].
    + exists rest. split; [|easy]. cbn [app]. congruence.
Qed.

Lemma dropw_split l : exists n, l = repeat " "%char n ++ dropw (Ascii.eqb " ") l.
Proof.
  induction l as [|a l [n E]]; [now exists 0%nat|].
  cbn [dropw]. destruct (Ascii.eqb " " a) eqn:C.
  - apply Ascii.eqb_eq in C as <-. exists (S n). cbn. congruence.
  - exists 0%nat. easy.
Qed.

Lemma unit_match_spec n pref base rest p b :
  In (string_of_list_ascii pref, p) unit_prefix -> In b all_bases ->
  tx b = lower base -> new_line rest ->
  unit_match (repeat " "%char n ++ pref ++ base ++ rest) = Some (pref, base).
Proof.
  intros P B L N. unfold unit_match. rewrite dropw_repeat.
  assert (D : dropw (Ascii.eqb " ") (pref ++ base ++ rest) = pref ++ base ++ rest).
  { assert (D : pref = [] \/ In pref proper).
    { destruct P as [P|P].
      - left. injection P as E _. destruct pref; easy.
      - right. unfold proper. apply in_map_iff. exists (string_of_list_ascii pref, p).
        split; [apply str_tx|exact P]. }
    destruct D as [-> | D].
    - cbn [app]. destruct base as [|a base].
      + destruct N as [-> | [r ->]]; reflexivity.
      + cbn [app dropw]. destruct (Ascii.eqb " " a) eqn:E; [exfalso|easy].
        apply Ascii.eqb_eq in E as <-. cbn in L. exact (bases_blank b _ B L).
    - destruct (proper_line pref D) as [_ [_ [a [r [-> NE]]]]]. cbn [app dropw].
      destruct (Ascii.eqb " " a) eqn:E; [|easy]. apply Ascii.eqb_eq in E as <-. easy. }
  rewrite D, (first_prefix_spec pref base rest p b) by easy.
  rewrite takew_line; auto.
  destruct (has nl base) eqn:E; [|easy]. apply lower_line in E.
  rewrite <- L, bases_line in E; easy.
Qed.

Lemma map_family f bases b v :
  In (f, bases) unit_map -> In (b, v) bases -> In b all_bases.
Proof. apply map_lookup_base. Qed.

(* C52: a unit is accepted exactly when it is written as prefix and name
   of its family, and its factor is the product of the two. *)
Theorem unit_accepted_iff family unit q :
  family <> tx "number" ->
  factor family unit = Ok q <-> exists b p, means family unit b p /\ q = (b * p)%Q.
Proof.
  intros NF. unfold factor. rewrite (eqt_neq NF). split.
  - destruct (lookup family unit_map) as [bases|] eqn:F; [|easy].
    apply lookup_some in F.
    destruct (if eqt unit [] then _ else _) as [[pref base]|] eqn:M; [|easy].
    destruct (lookup pref unit_prefix) as [p|] eqn:P; [|easy].
    destruct (lookup (lower base) bases) as [b|] eqn:B; [|easy].
    intros [= <-]. exists b, p. split; [|easy].
    apply lookup_some in P. apply lookup_some in B.
    destruct (eqt unit []) eqn:E.
    + apply eqt_spec in E as ->. injection M as <- <-.
      exists bases, 0%nat, [], [], []. repeat split; auto. now left.
    + unfold unit_match in M. destruct (dropw_split unit) as [n U].
      destruct (first_prefix alternatives (dropw (Ascii.eqb " ") unit)) as [[p' r]|] eqn:FP; [|easy].
      injection M as -> <-.
      assert (W : dropw (Ascii.eqb " ") unit = pref ++ r).
      { clear - FP. induction alternatives as [|q ps IH]; [easy|]. cbn in FP.
        destruct (pre q (dropw (Ascii.eqb " ") unit)) eqn:E.
        - injection FP as -> ->. now apply pre_some.
        - auto. }
      destruct (takew_split r) as [rest [R N]].
      exists bases, n, pref, (takew (fun a => negb (Ascii.eqb nl a)) r), rest.
      repeat split; auto. rewrite U, W, <- R. reflexivity.
  - intros (b & p & (bases & n & pref & base & rest & -> & N & P & F & B) & ->).
    rewrite (lookup_in _ _ _ _ families_nodup F).
    assert (BA : In (string_of_list_ascii (lower base)) all_bases)
      by (eapply map_family; eauto).
    destruct (eqt (repeat " "%char n ++ pref ++ base ++ rest) []) eqn:E.
    + apply eqt_spec in E. destruct n; [|easy]. destruct pref; [|easy]. destruct base; [|easy].
      rewrite (lookup_in _ _ [] _ prefixes_nodup P).
      rewrite (lookup_in _ _ (lower []) _ (bases_nodup _ _ F) B). reflexivity.
    + rewrite (unit_match_spec n pref base rest p _ P BA (str_tx _) N).
      rewrite (lookup_in _ _ _ _ prefixes_nodup P).
      rewrite (lookup_in _ _ _ _ (bases_nodup _ _ F) B). reflexivity.
Qed.
Print Assumptions unit_accepted_iff.

(* A non-trivial unit: a prefix, mixed case and leading blanks. *)
Example unit_example :
  factor (tx "energy") (tx "  kiloElectronVolt") = Ok (0.036749326 * 1e3)%Q.
Proof. vm_compute. reflexivity. Qed.

(* A metric prefix multiplies the factor by its power of ten. *)
Theorem prefix_multiplies family base b pref p :
  family <> tx "number" -> pref <> "" ->
  In (pref, p) unit_prefix ->
  In (string_of_list_ascii base) all_bases ->
  factor family base = Ok b ->
  exists q, factor family (tx pref ++ base) = Ok q /\ q == b * p.
Proof.
  intros NF NP P BA H. apply unit_accepted_iff in H; auto.
  destruct H as (b' & p' & (bases & n & pref' & base' & rest & E & N & P' & F & B) & ->).
  (* the base has no prefix itself *)
  assert (A : In (string_of_list_ascii (lower base')) all_bases) by (eapply map_family; eauto).
  assert (LB : lower base = base).
  { assert (G : forallb (fun b => eqt (lower (tx b)) (tx b)) all_bases = true) by (vm_compute; reflexivity).
    rewrite forallb_forall in G. specialize (G _ BA). cbv beta in G.
    rewrite str_tx in G. now apply eqt_spec. }
  assert (MB : (if eqt base [] then Some ([], []) else unit_match base) = Some ([], base)).
  { destruct (eqt base []) eqn:EB.
    - apply eqt_spec in EB as ->. reflexivity.
    - pose proof (unit_match_spec 0 [] base [] 1 _ (or_introl eq_refl) BA) as U.
      cbn [repeat app] in U. rewrite app_nil_r in U. apply U; [|now left].
      rewrite str_tx. now rewrite LB. }
  assert (ME : (if eqt base [] then Some ([], []) else unit_match base) = Some (pref', base')).
  { destruct (eqt base []) eqn:EB.
    - apply eqt_spec in EB. rewrite EB in E. destruct n; [|easy]. destruct pref'; [|easy].
      destruct base'; easy.
    - rewrite E. eapply unit_match_spec; eauto. now rewrite str_tx. }
  rewrite ME in MB. injection MB as -> ->.
  assert (P1 : p' = 1%Q).
  { pose proof (lookup_in _ _ [] _ prefixes_nodup P') as L. vm_compute in L. congruence. }
  subst p'. exists (b' * p)%Q. split; [|ring].
  apply unit_accepted_iff; auto. exists b', p. split; [|easy].
  exists bases, 0%nat, (tx pref), base, []. rewrite tx_str. repeat split; auto.
  - cbn [repeat app]. now rewrite app_nil_r.
  - now left.
Qed.
Print Assumptions prefix_multiplies.

Example prefix_multiplies_example :
  exists q, factor (tx "time") (tx "femto" ++ tx "second") = Ok q /\ q == 41.341373.
Proof.
  destruct (prefix_multiplies (tx "time") (tx "second") 4.1341373e16 "femto" 1e-15) as [q [E H]].
  - intros H. apply (f_equal string_of_list_ascii) in H. vm_compute in H. discriminate.
  - easy.
  - vm_compute. tauto.
  - vm_compute. tauto.
  - vm_compute. reflexivity.
  - exists q. split; [exact E|]. rewrite H. vm_compute. reflexivity.
Qed.

(* every factor is positive *)
Lemma factor_positive family unit q : factor family unit = Ok q -> (0 < q)%Q.
Proof.
  unfold factor. destruct (eqt family (tx "number")); [intros [= <-]; reflexivity|].
  destruct (lookup family unit_map) as [bases|] eqn:F; [|easy].
  destruct (if eqt unit [] then _ else _) as [[pref base]|]; [|easy].
  destruct (lookup pref unit_prefix) as [p|] eqn:P; [|easy].
  destruct (lookup (lower base) bases) as [b|] eqn:B; [|easy].
  intros [= <-]. apply lookup_some in F, P, B.
  assert (GP : forallb (fun d => Qle_bool (snd d) 0) unit_prefix = false) by reflexivity.
  assert (G1 : forallb (fun d => negb (Qle_bool (snd d) 0)) unit_prefix = true) by (vm_compute; reflexivity).
  assert (G2 : forallb (fun d => forallb (fun e => negb (Qle_bool (snd e) 0)) (snd d)) unit_map = true)
    by (vm_compute; reflexivity).
  rewrite forallb_forall in G1, G2. specialize (G1 _ P). specialize (G2 _ F). cbn in G1, G2.
  rewrite forallb_forall in G2. specialize (G2 _ B). cbn in G2.
  apply negb_true_iff in G1, G2. rewrite <- not_true_iff_false, Qle_bool_iff in G1, G2.
  apply Qnot_le_lt in G1, G2. now apply Qmult_lt_0_compat.
Qed.

(* C52: converting to internal units and back, in both orders, is the
   identity, for every unit that is accepted. *)
Theorem unit_round_trip family unit x y :
  unit_to_internal family unit x = Ok y -> unit_to_user family unit y = Ok x.
Proof.
  unfold unit_to_user, unit_to_internal.
  destruct (factor family unit) as [q| | |] eqn:F; try easy.
  intros [= <-]. f_equal. apply factor_positive in F. apply Qlt_Rlt in F.
  rewrite RMicromega.Q2R_0 in F. field. lra.
Qed.
Print Assumptions unit_round_trip.

Theorem unit_round_trip_back family unit x y :
  unit_to_user family unit x = Ok y -> unit_to_internal family unit y = Ok x.
Proof.
  unfold unit_to_user, unit_to_internal.
  destruct (factor family unit) as [q| | |] eqn:F; try easy.
  intros [= <-]. f_equal. apply factor_positive in F. apply Qlt_Rlt in F.
  rewrite RMicromega.Q2R_0 in F. field. lra.
Qed.
Print Assumptions unit_round_trip_back.

Example unit_round_trip_example :
  exists y, unit_to_internal (tx "force") (tx "piconewton") 3%R = Ok y /\
            unit_to_user (tx "force") (tx "piconewton") y = Ok 3%R.
Proof.
  eexists. split; [reflexivity|]. apply unit_round_trip. reflexivity.
Qed.

(* A unit that is not written that way is rejected with an error. *)
Theorem unknown_unit_rejected family unit x :
  family <> tx "number" ->
  (forall b p, ~ means family unit b p) ->
  unit_to_internal family unit x = IndexErr \/ unit_to_internal family unit x = ValueErr \/
  unit_to_internal family unit x = TypeErr.
Proof.
  intros NF N. unfold unit_to_internal. destruct (factor family unit) as [q| | |] eqn:F; auto.
  apply unit_accepted_iff in F; auto. destruct F as (b & p & M & _). destruct (N _ _ M).
Qed.
Print Assumptions unknown_unit_rejected.

Example unknown_unit_example : factor (tx "energy") (tx "kilometer") = TypeErr.
Proof. vm_compute. reflexivity. Qed.

(* False of the code: for plain numbers any unit is accepted. *)
Theorem number_unit_refuted :
  exists unit x, (forall f b p, ~ means f unit b p) /\
                 unit_to_internal (tx "number") unit x = Ok x.
Proof.
  exists (tx "parsec"), 2%R. split.
  - intros f b p M.
    destruct (list_eq_dec ascii_dec f (tx "number")) as [-> | N].
    + destruct M as (bases & n & pref & base & rest & _ & _ & _ & F & _).
      rewrite tx_str in F. vm_compute in F. repeat (destruct F as [F|F]; [discriminate|]). easy.
    + assert (A : factor f (tx "parsec") = Ok (b * p)%Q) by (apply unit_accepted_iff; eauto).
      destruct M as (bases & _ & _ & _ & _ & _ & _ & _ & F & _).
      rewrite <- (str_tx f) in A.
      assert (G : forallb (fun d => match factor (tx (fst d)) (tx "parsec") with Ok _ => false | _ => true end)
                          unit_map = true) by (vm_compute; reflexivity).
      rewrite forallb_forall in G. specialize (G _ F). cbn [fst] in G. rewrite A in G. easy.
  - unfold unit_to_internal.
    change (factor (tx "number") (tx "parsec")) with (Ok 1%Q). cbv beta iota.
    rewrite RMicromega.Q2R_1, Rmult_1_r. reflexivity.
Qed.
Print Assumptions number_unit_refuted.

(* False of the code: the expression ends in " *", but the name before it
   takes the blanks, so a unit followed by a blank is not recognised. *)
Theorem trailing_blank_refuted :
  exists family unit q, factor family unit = Ok q /\ factor family (unit ++ [" "%char]) = TypeErr.
Proof. exists (tx "length"), (tx "angstrom"), 1.8897261%Q. vm_compute. auto. Qed.
Print Assumptions trailing_blank_refuted.

(* ------------------------------------------------------------------ *)
(* C94: the factors agree with each other: a composed unit is the
   corresponding product of simpler ones, within a relative error. *)

Definition close (eps x y : Q) : bool :=
  Qle_bool (x - y) (eps * y) && Qle_bool (y - x) (eps * y).

Lemma close_spec eps x y :
  close eps x y = true <-> (x - y <= eps * y /\ y - x <= eps * y)%Q.
Proof. unfold close. now rewrite andb_true_iff, !Qle_bool_iff. Qed.

(* SI constants of the definition of the units *)
Definition avogadro : Q := 6.02214076e23.
Definition gas_constant : Q := 8.314462618.
Definition elementary_charge : Q := 1.602176634e-19.
Definition light_cm : Q := 29979245800.
Definition two_pi : Q := 6.283185307179586.

Definition val (family unit : string) : Q :=
  match factor (tx family) (tx unit) with Ok q => q | _ => 0 end.

Definition joule : Q := val "energy" "j/mol" * avogadro.

(* the composed unit and what it should be *)
Definition relations : list (Q * Q) :=
  [(val "force" "ev/ang", val "energy" "electronvolt" / val "length" "angstrom");
   (val "electric-field" "v/ang", val "energy" "electronvolt" / val "length" "angstrom");
   (val "hessian" "ev/ang^2", val "energy" "electronvolt" / (val "length" "angstrom" * val "length" "angstrom"));
   (val "volume" "angstrom3", val "length" "angstrom" * val "length" "angstrom" * val "length" "angstrom");
   (val "pressure" "ev/ang3", val "energy" "electronvolt" / val "volume" "angstrom3");
   (val "electric-dipole" "eang", val "length" "angstrom");
   (val "length" "angstrom", 1e-10 * val "length" "meter");
   (val "force" "newton", joule / val "length" "meter");
   (val "action" "joule*second", joule * val "time" "second");
   (val "velocity" "m/s", val "length" "meter" / val "time" "second");
   (val "energy" "electronvolt", joule * elementary_charge);
   (val "energy" "kelvin", val "energy" "j/mol" * gas_constant);
   (val "temperature" "kelvin", val "energy" "kelvin");
   (val "frequency" "hertz*rad", 1 / val "time" "second");
   (val "frequency" "hertz", two_pi * val "frequency" "hertz*rad");
   (val "frequency" "hz", val "frequency" "hertz");
   (val "frequency" "thz", val "frequency" "terahertz");
   (val "frequency" "inversecm", val "frequency" "hertz" * light_cm);
   (val "density" "g/cm3", val "mass" "dalton" * avogadro /
        (0.01 * val "length" "meter") /
        (0.01 * val "length" "meter") / (0.01 * val "length" "meter"));
   (val "mass" "dalton", 1.66053906660e-27 * joule * val "time" "second" * val "time" "second" /
        val "length" "meter" / val "length" "meter");
   (val "length" "degree", two_pi / 360);
   (val "pressure" "bar", 1e5 * val "pressure" "pascal");
   (val "pressure" "atmosphere", 101325 * val "pressure" "pascal")]%Q.

(* every composed unit but the pascal and the calorie, to two millionths *)
Theorem units_coherent_partial :
  Forall (fun r => 0 < snd r /\ fst r - snd r <= 2e-6 * snd r /\ snd r - fst r <= 2e-6 * snd r)%Q relations.
Proof.
  apply Forall_forall. intros r I.
  assert (G : forallb (fun r => negb (Qle_bool (snd r) 0) && close 2e-6 (fst r) (snd r)) relations = true)
    by (vm_compute; reflexivity).
  rewrite forallb_forall in G. specialize (G _ I). cbn in G.
  apply andb_true_iff in G as [G1 G2]. apply close_spec in G2.
  apply negb_true_iff in G1. rewrite <- not_true_iff_false, Qle_bool_iff in G1.
  apply Qnot_le_lt in G1. tauto.
Qed.
Print Assumptions units_coherent_partial.

(* False of the code: a pressure in pascal (and bar, atmosphere) differs
   from the same energy per volume by three parts in a hundred thousand. *)
Theorem pascal_coherent_refuted :
  exists a b, a = val "pressure" "pascal" /\
    b = (joule / (val "length" "meter" * val "length" "meter" * val "length" "meter"))%Q /\
    (b - a > 3e-5 * b)%Q.
Proof.
  do 2 eexists. split; [reflexivity|]. split; [reflexivity|]. vm_compute. reflexivity.
Qed.
Print Assumptions pascal_coherent_refuted.

(* False of the code: the calorie is not the 4.184 J of chemistry, it is
   the 4.1868 J of the steam tables, larger by six parts in ten thousand. *)
Theorem calorie_refuted :
  exists a b, a = val "energy" "cal/mol" /\ b = (4.184 * val "energy" "j/mol")%Q /\
    (a - b > 6e-4 * b)%Q /\ close 2e-8 a (4.1868 * val "energy" "j/mol") = true.
Proof.
  do 2 eexists. split; [reflexivity|]. split; [reflexivity|]. vm_compute. auto.
Qed.
Print Assumptions calorie_refuted.

(* The prefixes are those of the SI. *)
Definition si : list (string * Z) :=
  [("yotta", 24); ("zetta", 21); ("exa", 18); ("peta", 15); ("tera", 12); ("giga", 9); ("mega", 6); ("kilo", 3);
   ("milli", -3); ("micro", -6); ("nano", -9); ("pico", -12); ("femto", -15); ("atto", -18); ("zepto", -21); ("yocto", -24)]%Z.
Theorem prefixes_are_si p e : In (p, e) si ->
  exists q, lookup (tx p) unit_prefix = Some q /\ (q == Qpower 10 e)%Q.
Proof.
  intros I.
  assert (F : forallb (fun pe => match lookup (tx (fst pe)) unit_prefix with
                                 | Some q => Qeq_bool q (Qpower 10 (snd pe)) | None => false end) si = true)
    by (vm_compute; reflexivity).
  rewrite forallb_forall in F. specialize (F _ I). cbn [fst snd] in F.
  destruct (lookup (tx p) unit_prefix) as [q|]; [|easy]. exists q. split; [easy|]. now apply Qeq_bool_iff.
Qed.
Print Assumptions prefixes_are_si.
