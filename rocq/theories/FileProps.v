(** * Theorems of record: backups, checkpoints and names of files *)
Require Import String Ascii List Arith Bool Lia Permutation Decimal DecimalNat DecimalString.
From Verif Require Import FileModel.
Import ListNotations.
Open Scope string_scope.

(** ** Specification *)
(** every name appears once *)
Definition wf (d : fs) : Prop := NoDup (map fst d).
(** contents of all the files, with multiplicity *)
Definition contents (d : fs) : list string := flat_map (fun e => match snd e with File c => [c] | Dir => [] end) d.
(** some file has this content *)
Definition holds (d : fs) (c : string) : Prop := exists n, lookup d n = Some (File c).

(** ** Names *)
Lemma dec_inj i j : dec i = dec j -> i = j.
Proof.
  intros H. apply (f_equal NilEmpty.uint_of_string) in H. unfold dec in H. rewrite !NilEmpty.usu in H. injection H as H.
  apply (f_equal Nat.of_uint) in H. now rewrite !Unsigned.of_to in H.
Qed.
Lemma of_uint_zeros k u : Nat.of_uint (zeros k u) = Nat.of_uint u.
Proof. induction k as [|k IH]; [easy|]. exact IH. Qed.
Lemma pad_inj w i j : pad w i = pad w j -> i = j.
Proof.
  intros H. apply (f_equal NilEmpty.uint_of_string) in H. unfold pad in H. rewrite !NilEmpty.usu in H. injection H as H.
  apply (f_equal Nat.of_uint) in H. now rewrite !of_uint_zeros, !Unsigned.of_to in H.
Qed.
Lemma append_inj_l a b c : a ++ b = a ++ c -> b = c.
Proof. induction a as [|x a IH]; cbn; [easy|]. intros [= H]. auto. Qed.
Lemma append_length a b : String.length (a ++ b) = String.length a + String.length b.
Proof. induction a as [|x a IH]; cbn; [easy|]. now rewrite IH. Qed.
Lemma append_assoc a b c : a ++ (b ++ c) = (a ++ b) ++ c.
Proof. induction a as [|x a IH]; cbn; [easy|]. now rewrite IH. Qed.
Lemma append_nil_r a : a ++ "" = a.
Proof. induction a as [|x a IH]; cbn; [easy|]. now rewrite IH. Qed.
Lemma append_inj_r a b c : a ++ c = b ++ c -> a = b.
Proof.
  intros H. assert (L : String.length a = String.length b) by (apply (f_equal String.length) in H; rewrite !append_length in H; lia).
  revert b H L. induction a as [|x a IH]; intros [|y b] H L; try easy. cbn in H. injection H as -> H. cbn in L. injection L as L. now rewrite (IH b H L).
Qed.
Lemma bk_inj f i j : bk f i = bk f j -> i = j.
Proof. unfold bk. intros H. apply append_inj_l in H. apply append_inj_l in H. apply append_inj_l in H. apply append_inj_r in H. now apply dec_inj. Qed.
Lemma bk_neq f i : bk f i <> f.
Proof. intros H. apply (f_equal String.length) in H. unfold bk in H. rewrite !append_length in H. cbn in H. lia. Qed.

(** ** Lookup *)
Lemma lookup_del d n m : lookup (del d n) m = if String.eqb n m then None else lookup d m.
Proof.
  induction d as [|[k x] d IH]; [cbn; now destruct (String.eqb n m)|]. cbn [del filter fst]. destruct (String.eqb_spec k n) as [-> |K]; cbn [negb].
  - unfold del in IH. rewrite IH. cbn [lookup]. now destruct (String.eqb n m).
  - cbn [lookup]. unfold del in IH. rewrite IH. destruct (String.eqb_spec k m) as [-> |]; [|easy]. destruct (String.eqb_spec n m) as [-> |]; easy.
Qed.
Lemma lookup_set d n x m : lookup (set d n x) m = if String.eqb n m then Some x else lookup d m.
Proof. unfold set. cbn [lookup]. destruct (String.eqb_spec n m) as [-> |H]; [easy|]. rewrite lookup_del. destruct (String.eqb_spec n m); easy. Qed.
Lemma lookup_in d n x : lookup d n = Some x -> In n (map fst d).
Proof. induction d as [|[k y] d IH]; [easy|]. cbn. destruct (String.eqb_spec k n); auto. Qed.
Lemma isfile_in d n : isfile d n = true -> In n (map fst d).
Proof. unfold isfile. destruct (lookup d n) as [x|] eqn:E; [|easy]. intros _. now apply (lookup_in d n x). Qed.
Lemma del_in d n m : In m (map fst (del d n)) <-> In m (map fst d) /\ m <> n.
Proof.
  unfold del. rewrite !in_map_iff. split.
  - intros ([k x] & <- & H). apply filter_In in H. destruct H as [H K]. cbn in *. destruct (String.eqb_spec k n); [easy|]. split; [|easy]. now exists (k, x).
  - intros [([k x] & <- & H) K]. exists (k, x). split; [easy|]. apply filter_In. split; [easy|]. cbn in *. destruct (String.eqb_spec k n); easy.
Qed.
Lemma wf_del d n : wf d -> wf (del d n).
Proof.
  unfold wf. induction d as [|[k x] d IH]; [easy|]. cbn [map fst del filter]. intros H. inversion H as [|? ? K Nd]; subst. destruct (String.eqb k n); cbn [negb]; [now apply IH|].
  cbn [map fst]. constructor; [|now apply IH]. change (~ In k (map fst (del d n))). rewrite del_in. tauto.
Qed.
Lemma wf_set d n x : wf d -> wf (set d n x).
Proof. intros H. unfold wf, set. cbn [map fst]. constructor; [|now apply wf_del]. rewrite del_in. tauto. Qed.

Lemma del_absent d n : ~ In n (map fst d) -> del d n = d.
Proof.
  induction d as [|[k x] d IH]; [easy|]. cbn [map fst del filter]. intros H. destruct (String.eqb_spec k n) as [-> |]; [exfalso; apply H; now left|]. cbn [negb]. f_equal.
  apply IH. intros K. apply H. now right.
Qed.
Lemma contents_del_file d n c : wf d -> lookup d n = Some (File c) -> Permutation (contents d) (c :: contents (del d n)).
Proof.
  unfold wf. induction d as [|[k x] d IH]; [easy|]. cbn [map fst lookup]. intros H L. inversion H as [|? ? K Nd]; subst. cbn [del filter fst]. destruct (String.eqb_spec k n) as [-> |E]; cbn [negb].
  - injection L as ->. change (filter (fun e => negb (String.eqb (fst e) n)) d) with (del d n). rewrite del_absent by easy. reflexivity.
  - specialize (IH Nd L). cbn [contents flat_map snd]. change (filter (fun e => negb (String.eqb (fst e) n)) d) with (del d n). unfold contents in IH |- *. destruct x as [c'|]; cbn [app flat_map snd]; [|easy].
    rewrite IH. apply perm_swap.
Qed.
Lemma contents_del_none d n : lookup d n = None -> contents (del d n) = contents d.
Proof.
  intros H. rewrite del_absent; [easy|]. intros K. induction d as [|[k x] d IH]; [easy|]. cbn in H, K. destruct (String.eqb_spec k n); [easy|]. destruct K; [easy|auto].
Qed.
Lemma contents_set_new d n c : lookup d n = None -> contents (set d n (File c)) = c :: contents d.
Proof. intros H. change (contents (set d n (File c))) with (c :: contents (del d n)). f_equal. now apply contents_del_none. Qed.
Lemma contents_holds d c : wf d -> (In c (contents d) <-> holds d c).
Proof.
  intros W. split.
  - intros H. unfold contents in H. apply in_flat_map in H. destruct H as ([n x] & H & K). cbn in K. destruct x as [c'|]; [|easy]. destruct K as [-> |[]]. exists n.
    unfold wf in W. induction d as [|[k y] d IH]; [easy|]. cbn [map fst] in W. inversion W as [|? ? A B]; subst. cbn. destruct H as [H|H].
    + injection H as -> ->. now rewrite String.eqb_refl.
    + destruct (String.eqb_spec k n) as [-> |]; [|auto]. exfalso. apply A. change n with (fst (n, File c)). now apply in_map.
  - intros [n H]. apply (Permutation_in c (Permutation_sym (contents_del_file d n c W H))). now left.
Qed.

(** ** The search for a free name *)
Lemma search_some fuel d f : forall cand i r, search fuel d f cand i = Some r -> isfile d r = false /\
  ((r = cand) \/ (isfile d cand = true /\ exists j, i <= j /\ r = bk f j /\ forall k, i <= k < j -> isfile d (bk f k) = true)).
Proof.
  induction fuel as [|fuel IH]; intros cand i r H; cbn in H; destruct (isfile d cand) eqn:E; try easy; try (injection H as <-; auto).
  destruct (IH _ _ _ H) as [A [B|(B & j & J1 & J2 & J3)]]; (split; [easy|]); right; (split; [easy|]).
  - exists i. split; [lia|]. split; [easy|]. lia.
  - exists j. split; [lia|]. split; [easy|]. intros k Hk. destruct (Nat.eq_dec k i) as [-> |]; [easy|]. apply J3. lia.
Qed.
Lemma search_none fuel d f : forall cand i, search fuel d f cand i = None -> isfile d cand = true /\ forall k, i <= k < i + fuel -> isfile d (bk f k) = true.
Proof.
  induction fuel as [|fuel IH]; intros cand i H; cbn in H; destruct (isfile d cand) eqn:E; try easy; (split; [easy|]); [lia|].
  destruct (IH _ _ H) as [A B]. intros k Hk. destruct (Nat.eq_dec k i) as [-> |]; [easy|]. apply B. lia.
Qed.
(** The loop of open_backup always finds a name. *)
Theorem backup_name_found d f : exists r, find_backup d f = Some r.
Proof.
  destruct (find_backup d f) as [r|] eqn:E; [now exists r|exfalso]. unfold find_backup in E. destruct (search_none _ d f f 0 E) as [_ H].
  assert (N : NoDup (map (bk f) (seq 0 (S (List.length d))))).
  { apply FinFun.Injective_map_NoDup; [intros i j; apply bk_inj|apply seq_NoDup]. }
  assert (I : incl (map (bk f) (seq 0 (S (List.length d)))) (map fst d)).
  { intros x Hx. apply in_map_iff in Hx. destruct Hx as (k & <- & Hk). apply in_seq in Hk. apply isfile_in, H. lia. }
  apply NoDup_incl_length in I; [|easy]. rewrite !map_length, seq_length in I. lia.
Qed.
Lemma find_spec d f r : find_backup d f = Some r -> isfile d r = false /\ ((r = f) \/ (isfile d f = true /\ exists j, r = bk f j /\ forall k, k < j -> isfile d (bk f k) = true)).
Proof.
  intros H. destruct (search_some _ _ _ _ _ _ H) as [A [B|(B & j & _ & J2 & J3)]]; (split; [easy|]); [now left|right]. split; [easy|]. exists j. split; [easy|]. intros k Hk. apply J3. lia.
Qed.
Lemma isfile_ok d n : isfile d n = false -> place_ok d n = true -> lookup d n = None.
Proof. unfold isfile, place_ok. destruct (lookup d n) as [[c|]|]; rewrite ?andb_false_r; easy. Qed.
Lemma isfile_true d n : isfile d n = true -> exists c, lookup d n = Some (File c).
Proof. unfold isfile. destruct (lookup d n) as [[c|]|]; try easy. intros _. now exists c. Qed.

(** ** Opening a file destroys nothing *)
(** Everything else stays where it is; the old file is found under the first free backup name. *)
Theorem open_backup_moves d f d' : open_backup d f = Some d' -> lookup d' f = Some (File "") /\
  ((isfile d f = false /\ forall n, n <> f -> lookup d' n = lookup d n) \/
   (exists c j, lookup d f = Some (File c) /\ lookup d (bk f j) = None /\ (forall k, k < j -> isfile d (bk f k) = true) /\ lookup d' (bk f j) = Some (File c) /\
      forall n, n <> f -> n <> bk f j -> lookup d' n = lookup d n)).
Proof.
  unfold open_backup. destruct (find_backup d f) as [r|] eqn:E; [|easy]. destruct (find_spec d f r E) as [A B]. destruct (String.eqb_spec r f) as [-> |Hr].
  - unfold open_w. destruct (place_ok d f); [|easy]. intros H. injection H as <-. split; [rewrite lookup_set; now rewrite String.eqb_refl|].
    left. split; [easy|]. intros n Hn. rewrite lookup_set. destruct (String.eqb_spec f n); congruence.
  - destruct B as [|(Bf & j & -> & Hj)]; [easy|]. destruct (isfile_true d f Bf) as [c Hc]. unfold rename. rewrite Hc. destruct (place_ok d (bk f j)) eqn:Pk; [|easy].
    pose proof (isfile_ok _ _ A Pk) as Nk. unfold open_w. destruct (place_ok _ f); [|easy]. intros H. injection H as <-.
    split; [rewrite lookup_set; now rewrite String.eqb_refl|]. right. exists c, j. split; [easy|]. split; [easy|]. split; [easy|]. split.
    + rewrite lookup_set. destruct (String.eqb_spec f (bk f j)); [congruence|]. rewrite lookup_set. now rewrite String.eqb_refl.
    + intros n N1 N2. rewrite lookup_set. destruct (String.eqb_spec f n); [congruence|]. rewrite lookup_set. destruct (String.eqb_spec (bk f j) n); [congruence|].
      rewrite lookup_del. destruct (String.eqb_spec f n); congruence.
Qed.
Lemma open_backup_contents d f d' : wf d -> open_backup d f = Some d' -> wf d' /\ Permutation (contents d') ("" :: contents d).
Proof.
  intros W. unfold open_backup. destruct (find_backup d f) as [r|] eqn:E; [|easy]. destruct (find_spec d f r E) as [A B]. destruct (String.eqb_spec r f) as [-> |Hr].
  - unfold open_w. destruct (place_ok d f) eqn:P; [|easy]. intros H. injection H as <-. split; [now apply wf_set|]. rewrite contents_set_new; [easy|]. now apply isfile_ok.
  - destruct B as [|(Bf & j & -> & Hj)]; [easy|]. destruct (isfile_true d f Bf) as [c Hc]. unfold rename. rewrite Hc. destruct (place_ok d (bk f j)) eqn:Pk; [|easy].
    pose proof (isfile_ok _ _ A Pk) as Nk. unfold open_w. destruct (place_ok _ f); [|easy]. intros H. injection H as <-. split; [now apply wf_set, wf_set, wf_del|].
    rewrite contents_set_new.
    + constructor. rewrite contents_set_new; [symmetry; now apply contents_del_file|]. rewrite lookup_del, Nk. now destruct (String.eqb f (bk f j)).
    + rewrite lookup_set, lookup_del. destruct (String.eqb_spec (bk f j) f); [congruence|]. now rewrite String.eqb_refl.
Qed.
Lemma save_contents d fc d' : wf d -> save d fc = Some d' -> wf d' /\ Permutation (contents d') (snd fc :: contents d).
Proof.
  intros W. unfold save. destruct (open_backup d (fst fc)) as [d1|] eqn:E; [|easy]. intros H. injection H as <-. destruct (open_backup_contents d (fst fc) d1 W E) as [W1 P].
  destruct (open_backup_moves d (fst fc) d1 E) as [L _]. unfold put. split; [now apply wf_set|]. change (contents (set d1 (fst fc) (File (snd fc)))) with (snd fc :: contents (del d1 (fst fc))). constructor.
  pose proof (contents_del_file d1 (fst fc) "" W1 L) as Q. rewrite P in Q. now apply Permutation_cons_inv in Q.
Qed.
(** Over any sequence of openings and writings, the contents of all files are
    exactly the ones there were and the ones written, with multiplicity. *)
Theorem nothing_lost l : forall d d', wf d -> saves d l = Some d' -> wf d' /\ Permutation (contents d') (List.rev (map snd l) ++ contents d)%list.
Proof.
  induction l as [|x l IH]; intros d d' W H; cbn in H; [injection H as <-; easy|]. destruct (save d x) as [d1|] eqn:E; [|easy].
  destruct (save_contents d x d1 W E) as [W1 P1]. destruct (IH d1 d' W1 H) as [W2 P2]. split; [easy|]. rewrite P2. cbn [map List.rev]. rewrite <- app_assoc. apply Permutation_app_head. cbn. easy.
Qed.
Theorem old_content_still_there l d d' c : wf d -> saves d l = Some d' -> holds d c -> holds d' c.
Proof.
  intros W H K. destruct (nothing_lost l d d' W H) as [W' P]. apply contents_holds; [easy|]. apply (Permutation_in c (Permutation_sym P)). apply in_or_app. right. now apply contents_holds.
Qed.

(** *** When it works *)
Lemma parent_app_digits u f : parent f = None -> parent (f ++ NilEmpty.string_of_uint u ++ "#") = None.
Proof.
  intros H. induction f as [|x f IH]; cbn.
  - clear H. induction u; cbn in *; rewrite ?IHu; easy.
  - cbn in H. destruct (parent f); [easy|]. rewrite IH by easy. easy.
Qed.
Lemma parent_bk f j : parent f = None -> parent (bk f j) = None.
Proof.
  intros H. unfold bk, dec. rewrite append_assoc, append_assoc. apply parent_app_digits. cbn [append parent].
  assert (G : parent (f ++ "#") = None).
  { induction f as [|x f IH]; [easy|]. cbn in H |- *. destruct (parent f); [easy|]. rewrite IH by easy. easy. }
  cbn in G. rewrite G. easy.
Qed.
(** In the working directory, and when no directory has the name of the file or of a backup, opening succeeds. *)
Theorem open_backup_succeeds_partial d f : parent f = None -> lookup d f <> Some Dir -> (forall j, lookup d (bk f j) <> Some Dir) -> exists d', open_backup d f = Some d'.
Proof.
  intros P Df Db. destruct (backup_name_found d f) as [r E]. unfold open_backup. rewrite E. destruct (find_spec d f r E) as [A B].
  assert (OK : forall e, lookup e f <> Some Dir -> exists d', open_w e f = Some d').
  { intros e He. unfold open_w, place_ok. rewrite P. destruct (lookup e f) as [[c|]|]; try (eexists; reflexivity). easy. }
  destruct (String.eqb_spec r f) as [-> |Hr]; [now apply OK|]. destruct B as [|(Bf & j & -> & Hj)]; [easy|]. destruct (isfile_true d f Bf) as [c Hc]. unfold rename. rewrite Hc.
  assert (Q : place_ok d (bk f j) = true).
  { unfold place_ok. rewrite (parent_bk f j P). specialize (Db j). destruct (lookup d (bk f j)) as [[|]|]; easy. }
  rewrite Q. apply OK. rewrite lookup_set, lookup_del. destruct (String.eqb_spec (bk f j) f); [congruence|]. now rewrite String.eqb_refl.
Qed.
(** A file in a subdirectory that exists already cannot be opened: the backup name
    puts the # before the path. *)
Theorem subdirectory_refuted : exists d f c, wf d /\ lookup d f = Some (File c) /\ parent f = Some "out" /\ lookup d "out" = Some Dir /\ open_backup d f = None.
Proof.
  exists [("out", Dir); ("out/sim.md", File "data")], "out/sim.md", "data". split; [repeat constructor; cbn; intuition discriminate|]. repeat split; vm_compute; reflexivity.
Qed.
(** Two processes opening the same file at the same time can destroy its content. *)
Theorem race_loses_content_refuted : exists d f c l d' p q, wf d /\ lookup d f = Some (File c) /\ race f d PSearch PSearch l = Some (d', p, q) /\ ~ holds d' c.
Proof.
  exists [("sim.out", File "old")], "sim.out", "old", [true; false; true; true; false]. eexists. exists PDone, POpen.
  split; [repeat constructor; cbn; intuition discriminate|]. split; [reflexivity|]. split; [vm_compute; reflexivity|].
  intros [n H]. cbn [lookup] in H. destruct (String.eqb _ n); easy.
Qed.
(** one searching only after the other has made its last action they do not *)
Theorem processes_in_turn d f l d' p q c : wf d -> holds d c -> race f d PSearch PSearch l = Some (d', p, q) -> (exists n m, l = (repeat true n ++ repeat false m)%list) -> holds d' c.
Proof.
  intros W H R (n & m & ->).
  assert (St : forall d p d' p' c, wf d -> holds d c -> (match p with PMove cand => find_backup d f = Some cand /\ cand <> f | POpen => isfile d f = false | _ => True end) ->
     pstep f d p = Some (d', p') -> wf d' /\ holds d' c /\ (match p' with PMove cand => find_backup d' f = Some cand /\ cand <> f | POpen => isfile d' f = false | _ => True end)).
  { clear. intros d p d' p' c W [k H] I S. destruct p as [|cand| |]; cbn [pstep] in S; try easy.
    - destruct (find_backup d f) as [r|] eqn:E; [|easy]. injection S as <- <-. split; [easy|]. split; [now exists k|]. destruct (String.eqb_spec r f) as [-> |]; [|easy]. destruct (find_spec d f f E) as [A _]. exact A.
    - destruct I as [I1 I2]. destruct (rename d f cand) as [d1|] eqn:E; [|easy]. injection S as <- <-. unfold rename in E. destruct (find_spec d f cand I1) as [A _].
      destruct (lookup d f) as [x|] eqn:L; [|easy]. destruct (place_ok d cand) eqn:P; [|easy]. injection E as <-. pose proof (isfile_ok _ _ A P) as N.
      split; [now apply wf_set, wf_del|]. split.
      + destruct (String.eqb_spec k f) as [-> |Hk]; [exists cand; rewrite lookup_set, String.eqb_refl; congruence|]. exists k. rewrite lookup_set, lookup_del.
        destruct (String.eqb_spec cand k) as [-> |]; [congruence|]. destruct (String.eqb_spec f k); congruence.
      + unfold isfile. rewrite lookup_set, lookup_del. destruct (String.eqb_spec cand f); [easy|]. now rewrite String.eqb_refl.
    - unfold open_w in S. destruct (place_ok d f); [|easy]. injection S as <- <-. split; [now apply wf_set|]. split; [|easy].
      exists k. rewrite lookup_set. destruct (String.eqb_spec f k) as [-> |]; [|easy]. unfold isfile in I. now rewrite H in I. }
  assert (G : forall n d p q d' p' q', race f d p q (repeat true n ++ repeat false m) = Some (d', p', q') -> wf d -> holds d c -> q = PSearch ->
     (match p with PMove cand => find_backup d f = Some cand /\ cand <> f | POpen => isfile d f = false | _ => True end) -> holds d' c).
  { clear -St. induction n as [|n IH]; intros d p q d' p' q' R W H Q I.
    - cbn [repeat app] in R. clear I. subst q.
      assert (K : forall m d q d' p' q', race f d p q (repeat false m) = Some (d', p', q') -> wf d -> holds d c ->
        (match q with PMove cand => find_backup d f = Some cand /\ cand <> f | POpen => isfile d f = false | _ => True end) -> holds d' c).
      { clear -St. induction m as [|m IH]; intros d q d' p' q' R W H I; cbn in R; [injection R as <- _ _; easy|]. destruct (pstep f d q) as [[d1 q1]|] eqn:E; [|easy].
        destruct (St d q d1 q1 c W H I E) as (A & B & C). apply (IH d1 q1 d' p' q' R A B C). }
      apply (K m d PSearch d' p' q' R W H). easy.
    - cbn in R. destruct (pstep f d p) as [[d1 p1]|] eqn:E; [|easy]. destruct (St d p d1 p1 c W H I E) as (A & B & C). apply (IH d1 p1 q d' p' q' R A B Q C). }
  apply (G n d PSearch PSearch d' p q R W H eq_refl). easy.
Qed.

(** ** Checkpoints *)
(** Killed at any moment of a write that goes through open_backup (always without
    overwriting, else the first write of a process), nothing that was on disk is lost. *)
Theorem killed_checkpoint_loses_nothing_partial k d c d' c0 : wf d -> overwrite k && continued k = false -> ck_killed k d c d' -> holds d c0 -> holds d' c0.
Proof.
  intros W M K H. destruct K as [|cand d' _ E Hc R|d' n E]; [easy| |].
  - unfold rename in R. destruct (find_spec d _ cand E) as [A _]. destruct (lookup d (ck_file k)) as [x|] eqn:L; [|easy]. destruct (place_ok d cand) eqn:P; [|easy]. injection R as <-.
    pose proof (isfile_ok _ _ A P) as N. destruct H as [m H]. destruct (String.eqb_spec m (ck_file k)) as [-> |Hm].
    + exists cand. rewrite lookup_set, String.eqb_refl. congruence.
    + exists m. rewrite lookup_set, lookup_del. destruct (String.eqb_spec cand m) as [-> |]; [congruence|]. destruct (String.eqb_spec (ck_file k) m); congruence.
  - unfold ck_open in E. rewrite M in E.
    assert (Sv : save d (ck_file k, substring 0 n c) = Some (put d' (ck_file k) (substring 0 n c))) by (unfold save; cbn [fst snd]; rewrite E; easy).
    destruct (save_contents _ _ _ W Sv) as [W' P]. apply contents_holds; [easy|]. apply (Permutation_in c0 (Permutation_sym P)). right. now apply contents_holds.
Qed.
Lemma ck_write_save k d c d' k' : overwrite k && continued k = false -> ck_write k d c = Some (d', k') -> save d (ck_file k, c) = Some d' /\ k' = ck_next k.
Proof. intros M. unfold ck_write, ck_open. rewrite M. unfold save. cbn [fst snd]. destruct (open_backup d (ck_file k)); [|easy]. intros H. injection H as <- <-. easy. Qed.
(** Without overwriting, all checkpoints of a run survive its being killed at any point of a later one. *)
Theorem killed_run_keeps_checkpoints l : forall k d d1 k1 c d' c0, wf d -> overwrite k = false -> ck_writes k d l = Some (d1, k1) -> ck_killed k1 d1 c d' ->
  In c0 l \/ holds d c0 -> holds d' c0.
Proof.
  induction l as [|x l IH]; intros k d d1 k1 c d' c0 W M E K H.
  - cbn in E. injection E as <- <-. destruct H as [[]|H]. apply (killed_checkpoint_loses_nothing_partial k d c); try easy. now rewrite M.
  - cbn in E. destruct (ck_write k d x) as [[d2 k2]|] eqn:E2; [|easy]. destruct (ck_write_save k d x d2 k2) as [Sv ->]; [now rewrite M|easy|].
    destruct (save_contents _ _ _ W Sv) as [W2 P]. apply (IH (ck_next k) d2 d1 k1 c d' c0 W2); try easy. destruct H as [[<-|H]|H]; [|now left|].
    + right. apply contents_holds; [easy|]. apply (Permutation_in x (Permutation_sym P)). now left.
    + right. apply contents_holds; [easy|]. apply (Permutation_in c0 (Permutation_sym P)). right. now apply contents_holds.
Qed.
(** With overwriting, the last checkpoint is on disk as long as no write is under way, and
    whatever was there when the run began is still there. *)
Theorem completed_checkpoint_is_on_disk k d c d' k' : ck_write k d c = Some (d', k') -> lookup d' (ck_file k) = Some (File c).
Proof. unfold ck_write. destruct (ck_open k d); [|easy]. intros H. injection H as <- _. unfold put. rewrite lookup_set. now rewrite String.eqb_refl. Qed.
Lemma open_w_other d f d' n : open_w d f = Some d' -> n <> f -> lookup d' n = lookup d n.
Proof. unfold open_w. destruct (place_ok d f); [|easy]. intros H N. injection H as <-. rewrite lookup_set. destruct (String.eqb_spec f n); congruence. Qed.
Theorem overwriting_run_keeps_older_files l : forall k d d1 k1 c0, wf d -> continued k = false -> overwrite k = true -> ck_writes k d l = Some (d1, k1) -> l <> [] -> holds d c0 ->
  exists n, n <> cname k /\ lookup d1 n = Some (File c0).
Proof.
  intros k d d1 k1 c0 W C O E L [m H]. destruct l as [|x l]; [easy|]. cbn in E. destruct (ck_write k d x) as [[d2 k2]|] eqn:E2; [|easy].
  assert (F : ck_file k = cname k) by (unfold ck_file; now rewrite O).
  destruct (ck_write_save k d x d2 k2) as [Sv ->]; [now rewrite C, andb_false_r|easy|]. unfold save in Sv. cbn [fst snd] in Sv. rewrite F in Sv. destruct (open_backup d (cname k)) as [d0|] eqn:Ob; [|easy]. injection Sv as <-.
  assert (A : exists n, n <> cname k /\ lookup d0 n = Some (File c0)).
  { destruct (open_backup_moves d (cname k) d0 Ob) as [_ [[A1 A2]|(c & j & A1 & A2 & A3 & A4 & A5)]].
    - exists m. destruct (String.eqb_spec m (cname k)) as [-> |Hm]; [unfold isfile in A1; now rewrite H in A1|]. split; [easy|]. now rewrite A2.
    - destruct (String.eqb_spec m (cname k)) as [-> |Hm]; [exists (bk (cname k) j); split; [apply bk_neq|congruence]|]. exists m. split; [easy|]. rewrite A5; try easy. intros ->. congruence. }
  destruct A as (n & N & A). exists n. split; [easy|].
  assert (B : lookup (put d0 (cname k) x) n = Some (File c0)) by (unfold put; rewrite lookup_set; destruct (String.eqb_spec (cname k) n); congruence).
  assert (K : cname (ck_next k) = cname k /\ overwrite (ck_next k) = true /\ continued (ck_next k) = true) by easy.
  clear -E B K N. remember (ck_next k) as k2 eqn:Ek. clear Ek. remember (put d0 (cname k) x) as d2 eqn:Ed. clear Ed. revert k2 d2 E B K. induction l as [|y l IH]; intros k2 d2 E B K; cbn in E; [injection E as <- _; easy|].
  destruct (ck_write k2 d2 y) as [[d3 k3]|] eqn:E3; [|easy]. destruct K as (K1 & K2 & K3). unfold ck_write, ck_open in E3. rewrite K2, K3 in E3. cbn [andb] in E3.
  assert (F : ck_file k2 = cname k) by (unfold ck_file; now rewrite K2). rewrite F in E3. destruct (open_w d2 (cname k)) as [d4|] eqn:E4; [|easy]. injection E3 as <- <-.
  apply (IH (ck_next k2) (put d4 (cname k) y)); [easy| |easy]. unfold put. rewrite lookup_set. destruct (String.eqb_spec (cname k) n); [congruence|]. now rewrite (open_w_other d2 (cname k) d4 n E4 N).
Qed.
(** A process killed while it overwrites its checkpoint leaves neither the old nor the new one. *)
Theorem overwritten_checkpoint_lost_refuted : exists k d d1 k1 d', wf d /\ overwrite k = true /\ ck_writes k d ["step 10"] = Some (d1, k1) /\ ck_killed k1 d1 "step 20" d' /\
  ~ holds d' "step 10" /\ ~ holds d' "step 20".
Proof.
  exists (mkck "chk" true 0 false), [], [("chk", File "step 10")], (mkck "chk" true 1 true), [("chk", File "ste")]. split; [constructor|]. split; [reflexivity|]. split; [vm_compute; reflexivity|].
  split; [exact (kill_writing (mkck "chk" true 1 true) [("chk", File "step 10")] "step 20" [("chk", File "")] 3 eq_refl)|].
  split; intros [n H]; revert H; cbn [lookup]; destruct (String.eqb "chk" n); easy.
Qed.

(** ** Names of files *)
(** no character [a] in a name *)
Fixpoint free (p : ascii -> bool) (s : string) : bool := match s with EmptyString => true | String c s => negb (p c) && free p s end.
Definition without (a : ascii) (s : string) : bool := free (fun c => Ascii.eqb c a) s.
Lemma without_app a s t : without a (s ++ t) = without a s && without a t.
Proof. unfold without. induction s as [|c s IH]; [easy|]. cbn. now rewrite IH, andb_assoc. Qed.
(** two names cut at the first character from a set that the first parts do not have *)
Lemma cut_first (p : ascii -> bool) : forall s s' t t', free p s = true ->
  free p s' = true ->
  match t with EmptyString => True | String c _ => p c = true end -> match t' with EmptyString => True | String c _ => p c = true end -> s ++ t = s' ++ t' -> s = s' /\ t = t'.
Proof.
  induction s as [|c s IH]; intros [|c' s'] t t' H H' T T' E; cbn in E.
  - easy.
  - subst t. apply andb_prop in H'. destruct H' as [H' _]. now rewrite T in H'.
  - subst t'. apply andb_prop in H. destruct H as [H _]. now rewrite T' in H.
  - injection E as -> E. apply andb_prop in H, H'. destruct (IH s' t t' (proj2 H) (proj2 H') T T' E) as [-> ->]. easy.
Qed.
Lemma cut_at a s s' t t' : without a s = true -> without a s' = true -> s ++ String a t = s' ++ String a t' -> s = s' /\ t = t'.
Proof.
  intros H H' E. destruct (cut_first (fun c => Ascii.eqb c a) s s' (String a t) (String a t') H H') as [-> E2]; try apply Ascii.eqb_refl; [easy|]. now injection E2 as ->.
Qed.
(** a file name given by the user has neither a dot nor an underscore *)
Definition simple (f : string) : bool := without "_" f && without "." f.
Lemma simple_cut f f' t t' : simple f = true -> simple f' = true ->
  match t with EmptyString => True | String c _ => Ascii.eqb c "_" || Ascii.eqb c "." = true end -> match t' with EmptyString => True | String c _ => Ascii.eqb c "_" || Ascii.eqb c "." = true end ->
  f ++ t = f' ++ t' -> f = f' /\ t = t'.
Proof.
  intros H H' T T' E. apply (cut_first (fun c => Ascii.eqb c "_" || Ascii.eqb c ".") f f' t t'); try easy.
  - clear -H. unfold simple, without in H. induction f as [|c f IH]; [easy|]. cbn in H. apply andb_prop in H. destruct H as [A B]. apply andb_prop in A, B. destruct A, B.
    cbn. rewrite IH by (now apply andb_true_intro). rewrite negb_orb. apply andb_true_intro. split; [now apply andb_true_intro|easy].
  - clear -H'. unfold simple, without in H'. induction f' as [|c f IH]; [easy|]. cbn in H'. apply andb_prop in H'. destruct H' as [A B]. apply andb_prop in A, B. destruct A, B.
    cbn. rewrite IH by (now apply andb_true_intro). rewrite negb_orb. apply andb_true_intro. split; [now apply andb_true_intro|easy].
Qed.
Lemma prefix_cut pre f f' t t' : with_prefix pre f ++ t = with_prefix pre f' ++ t' -> f ++ t = f' ++ t'.
Proof. unfold with_prefix. destruct (String.eqb pre ""); [easy|]. rewrite <- !append_assoc. intros H. apply append_inj_l in H. cbn in H. now injection H. Qed.
(** what follows the name of the file *)
Definition tail_ok (t : string) : Prop := match t with EmptyString => True | String c _ => Ascii.eqb c "_" || Ascii.eqb c "." = true end.
Lemma opened_tail w nb f o n : In n (opened w nb f o) -> exists t, n = f ++ t /\ tail_ok t.
Proof.
  unfold opened. destruct o as [g|g fmt pb ex ib|g].
  - intros [<-|[]]. exists "". now rewrite append_nil_r.
  - destruct pb.
    + intros H. unfold bead_files in H. apply in_map_iff in H. destruct H as (b & <- & _). eexists. split; [reflexivity|]. easy.
    + intros [<-|[]]. eexists. split; [reflexivity|]. unfold suffix. destruct ex; easy.
  - intros [<-|[]]. exists "". now rewrite append_nil_r.
Qed.
Lemma opened_NoDup w nb f o : NoDup (opened w nb f o).
Proof.
  unfold opened. destruct o as [g|g fmt pb ex ib|g]; [repeat constructor; easy| |repeat constructor; easy]. destruct pb; [|repeat constructor; easy].
  unfold bead_files. apply FinFun.Injective_map_NoDup; [|apply NoDup_filter, seq_NoDup].
  intros i j H. apply append_inj_l in H. cbn in H. injection H as H. apply append_inj_r in H. now apply pad_inj in H.
Qed.
Lemma NoDup_flat {A B} (key : A -> string) (g : A -> list B) l : NoDup (map key l) -> (forall x, In x l -> NoDup (g x)) ->
  (forall x y n, In x l -> In y l -> In n (g x) -> In n (g y) -> key x = key y) -> NoDup (flat_map g l).
Proof.
  induction l as [|x l IH]; intros N G K; cbn; [constructor|]. cbn in N. inversion N as [|? ? N1 N2]; subst.
  assert (App : forall (a b : list B), NoDup a -> NoDup b -> (forall n, In n a -> ~ In n b) -> NoDup (a ++ b)%list).
  { clear. induction a as [|y a IH]; intros b Ha Hb D; [easy|]. cbn. inversion Ha as [|? ? Y1 Y2]; subst. constructor.
    - intros H. apply in_app_or in H. destruct H; [easy|]. apply (D y); [now left|easy].
    - apply IH; try easy. intros n Hn. apply D. now right. }
  apply App.
  - apply G. now left.
  - apply IH; [easy|intros; apply G; now right|]. intros a b n Ha Hb. apply K; now right.
  - intros n H1 H2. apply in_flat_map in H2. destruct H2 as (y & Hy & H2). apply N1. rewrite (K x y n); [now apply in_map|now left|now right|easy|easy].
Qed.
Lemma distinct_NoDup l : distinct l = true -> NoDup l.
Proof.
  induction l as [|x l IH]; [constructor|]. cbn. intros H. apply andb_prop in H. destruct H as [A B]. constructor; [|auto]. intros K.
  rewrite (proj2 (existsb_exists (String.eqb x) l)) in A; [easy|]. exists x. split; [easy|apply String.eqb_refl].
Qed.
Lemma with_sys_eq s f : s <> "" -> with_sys s f = s ++ String "_" f.
Proof. intros H. unfold with_sys. destruct (String.eqb_spec s ""); easy. Qed.
Lemma with_prefix_without a pre f : without a pre = true -> without a f = true -> Ascii.eqb "." a = false -> without a (with_prefix pre f) = true.
Proof. intros P F D. unfold with_prefix. destruct (String.eqb pre ""); [easy|]. rewrite without_app, P. change (negb (Ascii.eqb "." a) && without a f = true). now rewrite D, F. Qed.

(** When every system has its own prefix without underscore, and the names given
    by the user have neither dots nor underscores, no two streams write to the same file. *)
Theorem output_files_distinct_partial w pre systems outs l : without "_" pre = true -> NoDup (map fst systems) ->
  (forall s, In s systems -> fst s <> "" /\ without "_" (fst s) = true) -> (forall o, In o outs -> simple (oname o) = true) ->
  all_files w pre systems outs = Some l -> NoDup l.
Proof.
  intros P Ns Hs Ho H. unfold all_files in H. destruct (distinct (map oname outs)) eqn:Dn; [|easy]. injection H as <-. apply distinct_NoDup in Dn.
  assert (Key : forall o o' s s' n, In o outs -> In o' outs -> In s systems -> In s' systems -> In n (sys_files w pre o s) -> In n (sys_files w pre o' s') -> fst s = fst s' /\ oname o = oname o').
  { intros o o' s s' n Io Io' Is Is' H1 H2. unfold sys_files in H1, H2. destruct (opened_tail _ _ _ _ _ H1) as (t & E1 & T1). destruct (opened_tail _ _ _ _ _ H2) as (t' & E2 & T2).
    destruct (Hs s Is) as [S1 S2]. destruct (Hs s' Is') as [S1' S2']. rewrite with_sys_eq in E1, E2 by easy. rewrite E1 in E2. rewrite <- !append_assoc in E2. cbn [append] in E2.
    destruct (cut_at "_" (fst s) (fst s') _ _ S2 S2' E2) as [Q1 Q2]. split; [easy|]. apply prefix_cut in Q2.
    destruct (simple_cut (oname o) (oname o') t t' (Ho o Io) (Ho o' Io') T1 T2 Q2). easy. }
  assert (Und : forall o s n, In s systems -> In n (sys_files w pre o s) -> without "_" n = false).
  { intros o s n Is H. destruct (opened_tail _ _ _ _ _ H) as (t & -> & _). destruct (Hs s Is) as [S1 S2]. rewrite with_sys_eq by easy. rewrite !without_app. change (without "_" (String "_" (with_prefix pre (oname o)))) with false. now rewrite andb_false_r. }
  assert (Ck : forall f, simple f = true -> without "_" (with_prefix pre f) = true).
  { intros f F. unfold simple in F. apply andb_prop in F. apply with_prefix_without; easy. }
  apply (NoDup_flat oname); [easy| |].
  - intros o Io. assert (F : NoDup (flat_map (sys_files w pre o) systems)).
    { apply (NoDup_flat fst); [easy|intros; apply opened_NoDup|]. intros s s' n Is Is' H1 H2. now apply (Key o o s s' n). }
    destruct o; [exact F|exact F|repeat constructor; easy].
  - intros o o' n Io Io' H1 H2.
    assert (Sf : forall o, match o with Chk _ => False | _ => True end -> In n (out_files w pre systems o) -> exists s, In s systems /\ In n (sys_files w pre o s)).
    { intros x Hx Hn. destruct x; try easy; cbn [out_files] in Hn; apply in_flat_map in Hn; exact Hn. }
    assert (Cf : forall f, In n (out_files w pre systems (Chk f)) -> n = with_prefix pre f) by (intros f [Hn|[]]; easy).
    assert (X : (match o with Chk _ => False | _ => True end \/ exists f, o = Chk f) /\ (match o' with Chk _ => False | _ => True end \/ exists f, o' = Chk f)).
    { split; [destruct o|destruct o']; eauto. }
    destruct X as [[X|[f ->]] [X'|[f' ->]]].
    + destruct (Sf o X H1) as (s & Is & K1). destruct (Sf o' X' H2) as (s' & Is' & K2). now apply (Key o o' s s' n).
    + destruct (Sf o X H1) as (s & Is & K1). pose proof (Cf f' H2) as ->. pose proof (Und o s _ Is K1) as U. rewrite Ck in U; [easy|]. exact (Ho _ Io').
    + destruct (Sf o' X' H2) as (s & Is & K1). pose proof (Cf f H1) as ->. pose proof (Und o' s _ Is K1) as U. rewrite Ck in U; [easy|]. exact (Ho _ Io).
    + pose proof (Cf f H1) as E1. pose proof (Cf f' H2) as E2. rewrite E1 in E2. cbn. rewrite <- (append_nil_r (with_prefix pre f)), <- (append_nil_r (with_prefix pre f')) in E2. apply prefix_cut in E2.
      now rewrite !append_nil_r in E2.
Qed.
(** Two systems without prefix write to the same files although the names of the outputs are unique. *)
Theorem same_file_two_systems_refuted : exists w pre systems outs l, all_files w pre systems outs = Some l /\ ~ NoDup l.
Proof.
  exists (fun _ => 1), "sim", [("", 1); ("", 1)], [Props "md"]. eexists. split; [vm_compute; reflexivity|]. intros H. inversion H as [|? ? K _]. apply K. now left.
Qed.
(** Prefixes with an underscore can collide as well, *)
Theorem same_file_underscore_refuted : exists w systems outs l, all_files w "" systems outs = Some l /\ NoDup (map fst systems) /\ (forall s, In s systems -> fst s <> "") /\ ~ NoDup l.
Proof.
  exists (fun _ => 1), [("a", 1); ("a_b", 1)], [Props "b_md"; Props "md"]. eexists. split; [vm_compute; reflexivity|]. split; [repeat constructor; cbn; intuition discriminate|].
  split; [intros s [<-|[<-|[]]]; easy|]. intros H. inversion H as [|? ? K _]. apply K. right. now right; left.
Qed.
(** and a name can be that of one bead of a trajectory. *)
Theorem same_file_bead_refuted : exists w outs l, all_files w "sim" [("", 2)] outs = Some l /\ ~ NoDup l.
Proof.
  exists (fun _ => 1), [Props "pos_0.xyz"; Traj "pos" "xyz" true false None]. eexists. split; [vm_compute; reflexivity|]. intros H. inversion H as [|? ? K _]. apply K. now left.
Qed.

(** ** Concrete cases *)
Example ex_backup : saves [("sim.md", File "a"); ("#sim.md#0#", File "b"); ("#sim.md#2#", File "c")] [("sim.md", "d"); ("sim.md", "e"); ("x", "f")] =
  Some [("x", File "f"); ("sim.md", File "e"); ("#sim.md#3#", File "d"); ("#sim.md#1#", File "a"); ("#sim.md#0#", File "b"); ("#sim.md#2#", File "c")].
Proof. vm_compute. reflexivity. Qed.
Example ex_checkpoints : match ck_writes (mkck "chk" false 0 false) [("chk_1", File "old")] ["s1"; "s2"; "s3"] with
  | Some (d, k) => lookup d "chk_0" = Some (File "s1") /\ lookup d "#chk_1#0#" = Some (File "old") /\ lookup d "chk_2" = Some (File "s3") /\ cstep k = 3 | None => False end.
Proof. vm_compute. auto. Qed.
Example ex_names : all_files (fun n => if n <? 10 then 1 else 2)%nat "sim" [("A", 2); ("B", 11)] [Props "md"; Traj "pos" "xyz" true false (Some 1); Chk "chk"; Traj "cen" "ase" false false None] =
  Some ["A_sim.md"; "B_sim.md"; "A_sim.pos_1.xyz"; "B_sim.pos_01.xyz"; "sim.chk"; "A_sim.cen.extxyz"; "B_sim.cen.extxyz"].
Proof. vm_compute. reflexivity. Qed.

Print Assumptions backup_name_found.
Print Assumptions open_backup_moves.
Print Assumptions nothing_lost.
Print Assumptions old_content_still_there.
Print Assumptions open_backup_succeeds_partial.
Print Assumptions subdirectory_refuted.
Print Assumptions race_loses_content_refuted.
Print Assumptions processes_in_turn.
Print Assumptions killed_checkpoint_loses_nothing_partial.
Print Assumptions killed_run_keeps_checkpoints.
Print Assumptions completed_checkpoint_is_on_disk.
Print Assumptions overwriting_run_keeps_older_files.
Print Assumptions overwritten_checkpoint_lost_refuted.
Print Assumptions output_files_distinct_partial.
Print Assumptions same_file_two_systems_refuted.
Print Assumptions same_file_underscore_refuted.
Print Assumptions same_file_bead_refuted.
