(** * Messages and the identification of a run: theorems of record *)
From Coq Require Import String Ascii List Arith Bool Lia.
From Verif Require Import TextLib MsgModel.
Import ListNotations.
Open Scope list_scope.

(** ** Levels *)
(** The names, from the least to the most talkative. *)
Definition names : list text := map tx ["quiet"; "low"; "medium"; "high"; "debug"; "trace"]%string.
Lemma level_names i a : nth_error names i = Some a -> level_of a = Some i.
Proof. unfold names. destruct i as [|[|[|[|[|[|i]]]]]]; cbn [map nth_error]; try (intros [= <-]; reflexivity). destruct i; discriminate. Qed.
Lemma level_none a : level_of a = None <-> ~ In a names.
Proof.
  split.
  - intros E I. apply In_nth_error in I. destruct I as [i H]. rewrite (level_names i a H) in E. discriminate.
  - intros N. unfold level_of, names in *. cbn [map In] in N.
    repeat (rewrite eqt_neq by (intros X; apply N; subst a; tauto)). reflexivity.
Qed.
(** A message is shown exactly if its level is not beyond the one that was set; other names are refused. *)
Theorem level_set v i a : lock v = false -> nth_error names i = Some a ->
  exists v', set_level v a = Some v' /\ lock v' = false /\ forall j b, nth_error names j = Some b -> shows v' b = Some (j <=? i).
Proof.
  intros L H. unfold set_level. rewrite L, (level_names i a H). eexists. split; [reflexivity|]. split; [reflexivity|]. intros j b Hj. unfold shows. now rewrite (level_names j b Hj).
Qed.
Theorem level_refused v a : ~ In a names -> shows v a = None /\ (set_level v a = None <-> lock v = false).
Proof. intros N. apply level_none in N. unfold shows, set_level. rewrite N. split; [reflexivity|]. now destruct (lock v). Qed.
(** Once locked the level stays whatever is asked for. *)
Theorem level_locked v l : fold_left (fun o a => match o with Some u => set_level u a | None => None end) l (Some (set_lock v true)) = Some (set_lock v true).
Proof. induction l as [|a l IH]; [reflexivity|]. cbn [fold_left]. exact IH. Qed.
(** A restart sets the level that was there up to debug. *)
Theorem level_restart v u : level v <= 4 -> lock u = false -> set_level u (stored_level v) = Some (Verb false (level v)).
Proof.
  intros H L. unfold set_level. rewrite L. destruct v as [k n]. cbn [level] in *.
  destruct n as [|[|[|[|[|n]]]]]; try lia; reflexivity.
Qed.
Theorem level_restart_refuted : exists v u, set_level verb0 (tx "trace") = Some v /\ set_level verb0 (stored_level v) = Some u /\ shows v (tx "trace") = Some true /\ shows u (tx "trace") = Some false.
Proof. do 2 eexists. repeat split; reflexivity. Qed.
Print Assumptions level_set.
Print Assumptions level_refused.
Print Assumptions level_locked.
Print Assumptions level_restart.
Print Assumptions level_restart_refuted.

(** ** Branch, commit and address *)
Lemma strip_nl t : trim blank t = true -> strip blank (t ++ [nl]) = t.
Proof.
  intros T. change (t ++ [nl]) with ([] ++ t ++ [nl]). apply strip_pad; [constructor|repeat constructor|exact T].
Qed.
(** A checked out branch whose reference is a file of its own. *)
Theorem branch_commit vers ref r c : ref (tx "HEAD") = File (tx "ref: " ++ r ++ [nl]) -> trim blank (tx "ref: " ++ r) = true -> has " " r = false ->
  ref r = File (c ++ [nl]) -> trim blank c = true ->
  git_info vers true ref = Some (Some (Git vers (basename r) (Some c) (remote_url (ref (tx "config"))))).
Proof.
  intros H T S F C. unfold git_info. cbn [negb]. rewrite H. unfold read_git_file at 1. rewrite app_assoc, strip_nl by exact T.
  change (tx "ref: " ++ r) with ("r"%char :: ("e" :: "f" :: ":" :: " " :: r)%char). cbv iota.
  unfold head_info. change ("r"%char :: ("e" :: "f" :: ":" :: " " :: r)%char) with (tx "ref:" ++ " "%char :: r). rewrite pre_app.
  rewrite split_on_app by reflexivity. rewrite split_on_none by exact S. cbn [nth_error]. rewrite F. unfold read_git_file. rewrite strip_nl by exact C. reflexivity.
Qed.
Theorem detached vers ref c : ref (tx "HEAD") = File (c ++ [nl]) -> trim blank c = true -> c <> [] -> pre (tx "ref:") c = None ->
  git_info vers true ref = Some (Some (Git vers (tx "DETACHED") (Some c) (remote_url (ref (tx "config"))))).
Proof.
  intros H T N P. unfold git_info. cbn [negb]. rewrite H. unfold read_git_file at 1. rewrite strip_nl by exact T. destruct c as [|a c]; [easy|]. unfold head_info. now rewrite P.
Qed.
(** A branch is called by the last part of its name. *)
Theorem branch_name p b : has "/" b = false -> basename (p ++ "/"%char :: b) = b.
Proof.
  intros H. unfold basename. induction p as [|a p IH].
  - cbn [app split_on]. rewrite Ascii.eqb_refl, split_on_none by exact H. reflexivity.
  - cbn [app split_on]. destruct (Ascii.eqb "/" a); [|].
    + cbn [last]. destruct (split_on "/" (p ++ "/"%char :: b)) eqn:E; [now apply split_on_nil_not in E|]. exact IH.
    + destruct (split_on "/" (p ++ "/"%char :: b)) as [|w ws] eqn:E; [now apply split_on_nil_not in E|]. destruct ws as [|w2 ws]; [|exact IH].
      exfalso. clear IH. revert w E. induction p as [|x p IH]; intros w E.
      * cbn [app split_on] in E. rewrite Ascii.eqb_refl in E. injection E as _ E. now apply split_on_nil_not in E.
      * cbn [app split_on] in E. destruct (Ascii.eqb "/" x).
        -- injection E as _ E. now apply split_on_nil_not in E.
        -- destruct (split_on "/" (p ++ "/"%char :: b)) as [|w' ws'] eqn:E'; [now apply split_on_nil_not in E'|]. injection E as _ ->. now apply (IH w').
Qed.
(** The identification can be printed exactly if a reference is not missing. *)
Theorem identification_fails vers ref g machine dir date : git_info vers true ref = Some (Some g) ->
  (identification (Some g) machine dir date = None <->
   exists head r, read_git_file (ref (tx "HEAD")) = Some (Some head) /\ pre (tx "ref:") head <> None /\ nth_error (split_on " " head) 1 = Some r /\ ref r = Missing).
Proof.
  unfold git_info. cbn [negb]. destruct (read_git_file (ref (tx "HEAD"))) as [[[|a h]|]|] eqn:R; try discriminate.
  set (head := a :: h) in *. clearbody head. clear a h. destruct (head_info ref head) as [b c] eqn:E. intros [= <-].
  unfold identification, git_lines. cbn [commit]. unfold head_info in E. destruct (pre (tx "ref:") head) eqn:P.
  - destruct (nth_error (split_on " " head) 1) as [r|] eqn:N.
    + destruct (ref r) as [t'| |] eqn:F; cbn [read_git_file] in E; injection E as <- <-; split; try discriminate.
      * intros [h' [r' [H1 [_ [H2 H3]]]]]. injection H1 as <-. rewrite N in H2. injection H2 as <-. congruence.
      * intros _. exists head, r. rewrite P. repeat split; try assumption; discriminate.
      * reflexivity.
      * intros [h' [r' [H1 [_ [H2 H3]]]]]. injection H1 as <-. rewrite N in H2. injection H2 as <-. congruence.
    + injection E as <- <-. split; [discriminate|]. intros [h' [r' [H1 [_ [H2 H3]]]]]. injection H1 as <-. congruence.
  - injection E as <- <-. split; [discriminate|]. intros [h' [r' [H1 [H0 _]]]]. injection H1 as <-. congruence.
Qed.
(** As git keeps them after it packed its references. *)
Theorem identification_refuted : exists ref, ref (tx "HEAD") = File (tx "ref: refs/heads/main" ++ [nl]) /\
  exists g, git_info (tx "3.1") true ref = Some (Some g) /\ forall machine dir date, identification (Some g) machine dir date = None.
Proof.
  exists (fun p => if eqt p (tx "HEAD") then File (tx "ref: refs/heads/main" ++ [nl]) else Missing). split; [reflexivity|]. eexists. split; [reflexivity|]. reflexivity.
Qed.
Theorem url_value pre_lines ind u rest : Forall (fun l => pre (tx "url =") (strip blank l) = None) pre_lines -> Forall (fun a => blank a = true) ind ->
  trim blank u = true -> u <> [] -> has "=" u = false ->
  remote (pre_lines ++ (ind ++ tx "url = " ++ u) :: rest) = u.
Proof.
  intros P B T N Q. induction P as [|l ls Hl _ IH]; cbn [app remote]; [|now rewrite Hl].
  assert (Z : trim blank (tx "url = " ++ u) = true).
  { destruct u as [|z u _] using rev_ind; [easy|]. apply trim_last in T. unfold trim. rewrite app_assoc, rev_app_distr. cbn [rev app]. rewrite T. reflexivity. }
  replace (ind ++ tx "url = " ++ u) with (ind ++ (tx "url = " ++ u) ++ []) at 1 by now rewrite app_nil_r.
  rewrite strip_pad by (auto; constructor). change (tx "url = " ++ u) with (tx "url =" ++ " "%char :: u) at 1. rewrite pre_app.
  replace (ind ++ tx "url = " ++ u) with ((ind ++ tx "url ") ++ "="%char :: (" "%char :: u)) by (rewrite <- app_assoc; reflexivity).
  rewrite split_on_app.
  - rewrite split_on_none by (cbn [has]; exact Q). cbn [nth]. change (" "%char :: u) with ([" "%char] ++ u). rewrite <- (app_nil_r u) at 1. apply strip_pad; repeat constructor. exact T.
  - rewrite has_app. apply orb_false_iff. split; [|reflexivity]. apply has_not. intros I. rewrite Forall_forall in B. specialize (B _ I). discriminate.
Qed.
Theorem url_refuted : exists u, trim blank u = true /\ remote [tx "url = " ++ u] <> u.
Proof. exists (tx "https://host/?p=ipi"). split; [reflexivity|]. vm_compute. discriminate. Qed.
Print Assumptions branch_commit.
Print Assumptions detached.
Print Assumptions branch_name.
Print Assumptions identification_fails.
Print Assumptions identification_refuted.
Print Assumptions url_value.
Print Assumptions url_refuted.

(** ** The comment of a checkpoint *)
(** XML: a comment holds no two hyphens in a row and does not end in one. *)
Definition double (t : text) : Prop := exists a b, t = a ++ "-"%char :: "-"%char :: b.
Definition comment_ok (body : text) : Prop := ~ double body /\ last body nl <> "-"%char.
Lemma double_cons c t : c <> "-"%char -> double (c :: t) <-> double t.
Proof.
  intros C. split.
  - intros [[|x a] [b E]]; [injection E as -> _; easy|]. injection E as _ E. now exists a, b.
  - intros [a [b ->]]. now exists (c :: a), b.
Qed.
Lemma double_dash c t : c <> "-"%char -> double ("-"%char :: c :: t) <-> double (c :: t).
Proof.
  intros C. split.
  - intros [[|x a] [b E]]; [injection E as -> _; easy|]. injection E as _ E. now exists a, b.
  - intros [a [b E]]. exists ("-"%char :: a), b. now rewrite E.
Qed.
Lemma double_sep a c b : c <> "-"%char -> double (a ++ c :: b) <-> double a \/ double b.
Proof.
  intros C. split.
  - intros [x [y E]]. revert a E. induction x as [|z x IH]; intros a E.
    + destruct a as [|a0 [|a1 a]]; cbn [app] in E; [injection E as -> _; easy|injection E as _ -> _; easy|]. injection E as -> -> _. left. now exists [], a.
    + destruct a as [|a0 a]; cbn [app] in E.
      * injection E as _ ->. right. now exists x, y.
      * injection E as -> E. destruct (IH a E) as [[p [q ->]]|D]; [left; now exists (z :: p), q|now right].
  - intros [[p [q ->]]|[p [q ->]]]; [exists p, (q ++ c :: b); now rewrite <- app_assoc|exists (a ++ c :: p), q; now rewrite <- app_assoc].
Qed.
Lemma double_nil : ~ double [].
Proof. intros [[|] [b E]]; discriminate. Qed.
Lemma double_blanks a k : double (a ++ repeat " "%char k) <-> double a.
Proof.
  destruct k as [|k]; cbn [repeat]; [now rewrite app_nil_r|]. rewrite double_sep by discriminate. split; [|tauto]. intros [D|D]; [exact D|]. exfalso.
  induction k as [|k IH]; cbn [repeat] in D; [now apply double_nil in D|]. apply double_cons in D; [auto|discriminate].
Qed.
Definition no_hash (a : ascii) : bool := negb (Ascii.eqb a "#").
Lemma body_join t : join [nl] (map (filter no_hash) (split_on nl t)) = filter no_hash t.
Proof.
  induction t as [|a t IH]; [reflexivity|]. cbn [split_on]. destruct (Ascii.eqb nl a) eqn:E.
  - apply Ascii.eqb_eq in E. subst a. cbn [map filter]. change (no_hash nl) with true. cbv iota. destruct (split_on nl t) as [|w ws] eqn:S; [now apply split_on_nil_not in S|].
    cbn [map]. cbn [map] in IH. cbn [join]. rewrite <- IH. reflexivity.
  - destruct (split_on nl t) as [|w ws] eqn:S; [now apply split_on_nil_not in S|]. cbn [map filter] in *. destruct (no_hash a); [|exact IH].
    destruct (map (filter no_hash) ws); cbn [join] in *; now rewrite <- IH.
Qed.
Lemma split_end t : split_on nl (t ++ [nl]) = split_on nl t ++ [[]].
Proof.
  induction t as [|a t IH]; [reflexivity|]. cbn [app split_on]. rewrite IH. destruct (Ascii.eqb nl a); [reflexivity|].
  destruct (split_on nl t) as [|w ws] eqn:S; [now apply split_on_nil_not in S|]. reflexivity.
Qed.
Lemma body_value t : comment_body (t ++ [nl]) = nl :: filter no_hash (t ++ [nl]).
Proof.
  unfold comment_body, splitlines. rewrite split_end. cbv zeta. rewrite last_last, removelast_last. change (fun a : ascii => negb (Ascii.eqb a "#")) with no_hash.
  rewrite body_join, filter_app. reflexivity.
Qed.
Lemma filter_plain t : has "#" t = false -> filter no_hash t = t.
Proof.
  induction t as [|a t IH]; [reflexivity|]. cbn [has filter]. intros H. apply orb_false_iff in H as [H1 H2]. unfold no_hash at 1. rewrite Ascii.eqb_sym, H1. cbn [negb]. now rewrite IH.
Qed.
Lemma filter_pad t : has "#" t = false -> filter no_hash (pad t) = pad t.
Proof.
  intros H. unfold pad. rewrite filter_app, filter_plain by exact H. f_equal. generalize (24 - List.length t). intros k. induction k as [|k IH]; [reflexivity|]. cbn [repeat filter]. change (no_hash " ") with true. cbv iota. now rewrite IH.
Qed.
Lemma info_end g machine dir date info : identification g machine dir date = Some info -> info = removelast info ++ [nl].
Proof.
  unfold identification. destruct (git_lines g) as [t|]; [|discriminate]. intros E.
  assert (X : exists u, info = u ++ [nl]).
  { injection E as <-. unfold system_lines. exists (t ++ tx "#" ++ [nl] ++ tx "# Simulation information:" ++ [nl] ++ tx "#           Machine Name: " ++ machine ++ [nl] ++ tx "#      Working Directory: " ++ dir ++ [nl] ++ tx "#          Date and Time: " ++ date).
    repeat rewrite <- app_assoc. reflexivity. }
  destruct X as [u ->]. now rewrite removelast_last.
Qed.
Lemma filter_cons_no t : filter no_hash ("#"%char :: t) = filter no_hash t.
Proof. reflexivity. Qed.
Lemma filter_cons_yes a t : no_hash a = true -> filter no_hash (a :: t) = a :: filter no_hash t.
Proof. intros H. cbn [filter]. now rewrite H. Qed.
(** Without # in what is filled in, the comment is well formed exactly if no part of it has two hyphens in a row. *)
Theorem comment_wellformed g c machine dir date info : commit g = Some c -> identification (Some g) machine dir date = Some info ->
  Forall (fun t => has "#" t = false) [version g; url g; branch g; c; machine; dir; date] ->
  (comment_ok (comment_body info) <-> Forall (fun t => ~ double t) [version g; url g; branch g; c; machine; dir; date]).
Proof.
  intros C E H. unfold identification, git_lines in E. rewrite C in E. injection E as <-.
  repeat match goal with X : Forall _ (_ :: _) |- _ => apply Forall_cons_iff in X; destruct X end.
  match goal with |- context [comment_body ?i] => set (info := i) end.
  assert (X : exists t, info = t ++ [nl]).
  { exists (removelast info). apply (info_end (Some g) machine dir date). unfold identification, git_lines. now rewrite C. }
  destruct X as [t X]. rewrite X, body_value, <- X.
  assert (L : last (nl :: filter no_hash info) nl <> "-"%char).
  { rewrite X, filter_app. change (filter no_hash [nl]) with [nl]. rewrite app_comm_cons, last_last. discriminate. }
  assert (D : double (nl :: filter no_hash info) <-> double (version g) \/ double (url g) \/ double (branch g) \/ double c \/ double machine \/ double dir \/ double date).
  { unfold info, system_lines. clear X L. repeat rewrite <- app_assoc. cbn [tx list_ascii_of_string app].
    repeat first [rewrite filter_cons_no | rewrite filter_cons_yes by reflexivity | rewrite filter_app | rewrite filter_plain by assumption | rewrite filter_pad by assumption].
    repeat first [rewrite double_cons by (unfold nl; discriminate) | rewrite double_dash by (unfold nl; discriminate) | rewrite double_sep by (unfold nl; discriminate)].
    unfold pad. rewrite !double_blanks. rewrite ?(filter_plain machine), ?(filter_plain dir), ?(filter_plain date) by assumption. change (filter no_hash []) with (@nil ascii). pose proof double_nil. tauto. }
  unfold comment_ok. rewrite D. rewrite !Forall_cons_iff. split; [|split; [|exact L]]; intros Y; repeat split; try constructor; tauto.
Qed.
Fixpoint doubleb (t : text) : bool := match t with a :: (b :: _) as r => (Ascii.eqb a "-" && Ascii.eqb b "-") || doubleb r | _ => false end.
Lemma doubleb_spec t : doubleb t = true <-> double t.
Proof.
  induction t as [|a t IH]; [split; [discriminate|intros D; now apply double_nil in D]|]. destruct t as [|b t].
  - split; [discriminate|]. intros [[|x [|y p]] [q E]]; discriminate.
  - change (doubleb (a :: b :: t)) with (((Ascii.eqb a "-" && Ascii.eqb b "-") || doubleb (b :: t))%bool). rewrite orb_true_iff, andb_true_iff, !Ascii.eqb_eq, IH. split.
    + intros [[-> ->]|[p [q ->]]]; [now exists [], t|now exists (a :: p), q].
    + intros [[|x p] [q E]]; [injection E as -> -> _; now left|]. injection E as -> E. right. now exists p, q.
Qed.
(** A directory with two hyphens spoils the checkpoint, as does one whose hyphens come together when # is
    taken out. *)
Theorem comment_refuted : exists info1 info2, identification None (tx "host") (tx "/data/run--2") (tx "2026-01-01 10:00:00") = Some info1 /\ ~ comment_ok (comment_body info1) /\
  identification None (tx "host") (tx "/data/run-#-2") (tx "2026-01-01 10:00:00") = Some info2 /\ ~ double info2 /\ ~ comment_ok (comment_body info2).
Proof.
  do 2 eexists. split; [reflexivity|]. split; [|split; [reflexivity|split]].
  - intros [N _]. apply N. apply doubleb_spec. vm_compute. reflexivity.
  - rewrite <- doubleb_spec. vm_compute. discriminate.
  - intros [N _]. apply N. apply doubleb_spec. vm_compute. reflexivity.
Qed.
Print Assumptions comment_wellformed.
Print Assumptions comment_refuted.
Example branch_case : exists g, git_info (tx "3.1") true (fun p => if eqt p (tx "HEAD") then File (tx "ref: refs/heads/feature/x" ++ [nl]) else if eqt p (tx "refs/heads/feature/x") then File (tx "0a1b" ++ [nl])
  else if eqt p (tx "config") then File (tx "[core]" ++ [nl] ++ [tab] ++ tx "url = https://host/ipi" ++ [nl]) else Missing) = Some (Some g) /\
  branch g = tx "x" /\ commit g = Some (tx "0a1b") /\ url g = tx "https://host/ipi".
Proof. eexists. repeat split; vm_compute; reflexivity. Qed.
Example comment_case : exists info, identification (Some (Git (tx "3.1") (tx "main") (Some (tx "0a1b")) (tx "https://host/i-pi"))) (tx "host") (tx "/data/run-2") (tx "2026-01-01 10:00:00") = Some info /\ comment_ok (comment_body info).
Proof.
  eexists. split; [reflexivity|]. split; [rewrite <- doubleb_spec|]; vm_compute; discriminate.
Qed.
Example level_case : exists v, set_level verb0 (tx "high") = Some v /\ shows v (tx "medium") = Some true /\ shows v (tx "debug") = Some false.
Proof. eexists. repeat split; reflexivity. Qed.
