(** * Every event gets the energy of its own state, in every interleaving *)
From Coq Require Import List Arith Bool Lia Wf_nat Permutation.
From Verif Require Import KmcThreads.
Import ListNotations.

Section Cache.
Context {Key Conf Val : Type}.
Variable key_eq : forall a b : Key, {a = b} + {a <> b}.
Variable start : Key -> Conf.
Variable geop : Conf -> Val * Conf.
Variable neval maxlen : nat.
Notation op := (op key_eq start geop neval maxlen).
Notation ops := (ops key_eq start geop neval maxlen).
Notation lookup := (lookup key_eq).
Notation store := (store key_eq).
Notation commit := (commit key_eq maxlen).
Notation value := (value start geop).
Notation sound := (sound key_eq start geop).
Notation initial := (@initial Key Conf Val).
Notation state := (state Key Conf Val).

(** ** The cache *)
Lemma store_new k (v : Val) (c : list (Key * Val)) : lookup k c = None -> store k v c = c ++ [(k, v)].
Proof.
  induction c as [|[k' v'] c IH]; cbn; [reflexivity|]. destruct (key_eq k k'); [discriminate|]. intros H. now rewrite IH.
Qed.
Lemma lookup_app k (a b : list (Key * Val)) : lookup k (a ++ b) = match lookup k a with Some v => Some v | None => lookup k b end.
Proof. induction a as [|[k' v'] a IH]; cbn; [reflexivity|]. destruct (key_eq k k'); [reflexivity|exact IH]. Qed.
Definition keys (c : list (Key * Val)) := map fst c.
Lemma lookup_none k (c : list (Key * Val)) : lookup k c = None <-> ~ In k (keys c).
Proof.
  induction c as [|[k' v'] c IH]; cbn; [split; [intros _ H; exact H|reflexivity]|]. destruct (key_eq k k') as [->|N].
  - split; [discriminate|]. intros H. exfalso. apply H. now left.
  - rewrite IH. split; [intros H [E|I]; [now apply N|now apply H]|intros H I; apply H; now right].
Qed.
Lemma lookup_tl k (c : list (Key * Val)) : NoDup (keys c) -> lookup k (tl c) = match c with [] => None | (k', _) :: _ => if key_eq k k' then None else lookup k c end.
Proof.
  destruct c as [|[k' v'] c]; [reflexivity|]. cbn. intros N. inversion N; subst. destruct (key_eq k k') as [->|D]; [now apply lookup_none|reflexivity].
Qed.
Lemma keys_app a b : keys (a ++ b) = keys a ++ keys b.
Proof. apply map_app. Qed.
(** What a thread does to a cache that does not have its state yet. *)
Record good (c : list (Key * Val)) (n : nat) : Prop := Good { g_sound : sound c; g_nd : NoDup (keys c); g_count : n = length c; g_max : length c <= maxlen }.
Lemma commit_good k c n : 1 <= maxlen -> good c n -> lookup k c = None ->
  exists c' n', commit k (value k) c n = (c', n', Some (value k)) /\ good c' n' /\
    (forall k', k' <> k -> lookup k' c = None -> lookup k' c' = None) /\ n <= n'.
Proof.
  intros M [Sd N C L] H. unfold KmcThreads.commit. rewrite store_new by exact H.
  assert (N2 : NoDup (keys (c ++ [(k, value k)]))).
  { rewrite keys_app. cbn [keys map fst]. apply (Permutation_NoDup (Permutation_cons_append _ _)). constructor; [now apply lookup_none|exact N]. }
  assert (S2 : sound (c ++ [(k, value k)])).
  { intros k' v. rewrite lookup_app. destruct (lookup k' c) eqn:E; [intros Q; injection Q as <-; now apply Sd|]. cbn. destruct (key_eq k' k) as [->|]; [|discriminate]. now intros Q; injection Q as <-. }
  destruct (Nat.eqb_spec n maxlen) as [E|E].
  - destruct c as [|[k0 v0] c]; [cbn in C; lia|]. cbn [app tl].
    assert (D : k <> k0) by (intros ->; cbn in H; destruct (key_eq k0 k0); [discriminate|contradiction]).
    exists (c ++ [(k, value k)]), n. cbn [app] in N2, S2. cbn [keys map fst] in N2. inversion N2; subst.
    cbn in H. destruct (key_eq k k0); [contradiction|].
    repeat split.
    + rewrite lookup_app, H. cbn. destruct (key_eq k k); [reflexivity|contradiction].
    + intros k' v Q. apply S2. cbn. destruct (key_eq k' k0) as [->|]; [|exact Q]. exfalso. apply H2. apply in_map_iff.
      assert (X : lookup k0 (c ++ [(k, value k)]) <> None) by (rewrite Q; discriminate). destruct (in_dec key_eq k0 (keys (c ++ [(k, value k)]))) as [I|I]; [now apply in_map_iff in I|].
      apply lookup_none in I. contradiction.
    + exact H3.
    + rewrite app_length. cbn in *. lia.
    + rewrite app_length. cbn in *. lia.
    + intros k' D' Q. cbn in Q. destruct (key_eq k' k0); [discriminate|]. rewrite lookup_app, Q. cbn. destruct (key_eq k' k); [contradiction|reflexivity].
    + lia.
  - exists (c ++ [(k, value k)]), (S n). repeat split; try assumption.
    + rewrite lookup_app, H. cbn. destruct (key_eq k k); [reflexivity|contradiction].
    + rewrite app_length. cbn. lia.
    + rewrite app_length. cbn. lia.
    + intros k' D Q. rewrite lookup_app, Q. cbn. destruct (key_eq k' k); [contradiction|reflexivity].
    + lia.
Qed.

(** ** Lists of threads *)
Lemma nth_set {A} (l : list A) n x m : n < length l -> nth_error (set_nth l n x) m = if Nat.eqb m n then Some x else nth_error l m.
Proof.
  revert n m. induction l as [|a l IH]; intros n m H; [cbn in H; lia|]. destruct n, m; cbn; try reflexivity. apply IH. cbn in H. lia.
Qed.
Lemma nth_snoc {A} (l : list A) x m w : nth_error (l ++ [x]) m = Some w -> nth_error l m = Some w \/ m = length l /\ w = x.
Proof.
  intros H. destruct (Nat.lt_ge_cases m (length l)) as [L|L]; [left; now rewrite nth_error_app1 in H|].
  rewrite nth_error_app2 in H by exact L. right. destruct (m - length l) as [|d] eqn:E; [|destruct d; discriminate]. cbn in H. injection H as <-. split; [lia|reflexivity].
Qed.
Definition active (p : phase) : bool := match p with Running | Committed => true | _ => false end.
Definition pend (m : mode) : option (nat * Key) := match m with Hit i k | Seek i k | Load i k _ | Launch i k _ => Some (i, k) | _ => None end.
Definition holds (m : @mode Key) : option nat := match m with Load _ _ e | Launch _ _ e => Some e | _ => None end.
Definition missing (m : @mode Key) : option Key := match m with Seek _ k | Load _ k _ | Launch _ k _ => Some k | _ => None end.

Section Run.
Variable jobs : list Key.
Hypothesis ND : NoDup jobs.
Hypothesis M1 : 1 <= maxlen.
Definition valid (i : nat) (k : Key) : Prop := nth_error jobs i = Some k.
Lemma valid_inj i j k : valid i k -> valid j k -> i = j.
Proof. unfold valid. intros A B. apply (NoDup_nth_error jobs); [exact ND|apply nth_error_Some; congruence|congruence]. Qed.
Record Inv (s : state) : Prop := MkInv {
  i_good : good (ca s) (nc s);
  i_todo : forall i k, In (i, k) (todo s) -> valid i k;
  i_pend : forall i k, pend (md s) = Some (i, k) -> valid i k;
  i_wval : forall n w, nth_error (ws s) n = Some w -> valid (job w) (wkey w);
  i_nd : NoDup (map fst (todo s));
  i_pt : forall i k, pend (md s) = Some (i, k) -> ~ In i (map fst (todo s));
  i_wt : forall n w, nth_error (ws s) n = Some w -> ph w = Running -> ~ In (job w) (map fst (todo s)) /\ forall i k, pend (md s) = Some (i, k) -> i <> job w;
  i_ww : forall n m w w', nth_error (ws s) n = Some w -> nth_error (ws s) m = Some w' -> ph w = Running -> ph w' = Running -> job w = job w' -> n = m;
  i_act : forall n w, nth_error (ws s) n = Some w -> active (ph w) = true -> ev w < neval /\ feval s (ev w) = false /\ eth s (ev w) = Some n /\ holds (md s) <> Some (ev w);
  i_buf : forall n w, nth_error (ws s) n = Some w -> ph w = Running -> buf s (ev w) = start (wkey w) /\ lookup (wkey w) (ca s) = None;
  i_hold : forall e, holds (md s) = Some e -> e < neval /\ feval s e = false;
  i_launch : forall i k e, md s = Launch i k e -> buf s e = start k;
  i_miss : forall k, missing (md s) = Some k -> lookup k (ca s) = None;
  i_busy : forall e, e < neval -> feval s e = false -> holds (md s) = Some e \/ exists n w, nth_error (ws s) n = Some w /\ active (ph w) = true /\ ev w = e;
  i_nocrash : forall n w, nth_error (ws s) n = Some w -> ph w <> Crashed;
  i_eth : forall e n, eth s e = Some n -> n < length (ws s);
  i_res : forall i k, valid i k -> In (i, k) (todo s) \/ pend (md s) = Some (i, k) \/ (exists n w, nth_error (ws s) n = Some w /\ ph w = Running /\ job w = i) \/ (md s = Error) \/ res s i = Some (value k);
  i_resok : forall i v, res s i = Some v -> exists k, valid i k /\ v = value k;
  i_tail : (md s = Wait \/ md s = Done) -> todo s = [];
  i_done : md s = Done -> forall n w, nth_error (ws s) n = Some w -> active (ph w) = false
}.
Lemma combine_In (l : list Key) a i k : In (i, k) (combine (seq a (length l)) l) <-> a <= i /\ nth_error l (i - a) = Some k.
Proof.
  revert a. induction l as [|x l IH]; intros a; cbn [length seq combine].
  - cbn. split; [tauto|]. intros [_ H]. now destruct (i - a).
  - cbn [In]. rewrite IH. split.
    + intros [E|[L H]]; [injection E as <- <-; split; [lia|]; now rewrite Nat.sub_diag|]. split; [lia|]. now replace (i - a) with (S (i - S a)) by lia.
    + intros [L H]. destruct (Nat.eq_dec a i) as [->|D]; [rewrite Nat.sub_diag in H; cbn in H; injection H as ->; now left|].
      right. split; [lia|]. replace (i - a) with (S (i - S a)) in H by lia. exact H.
Qed.
Lemma initial_inv c b : good c (length c) -> Inv (initial jobs c b).
Proof.
  intros G. split; cbn; try discriminate; try (intros n ?; now destruct n); try (intros [H|H]; discriminate).
  - exact G.
  - intros i k H. apply combine_In in H. unfold valid. now rewrite Nat.sub_0_r in H.
  - assert (E : map fst (combine (seq 0 (length jobs)) jobs) = seq 0 (length jobs)).
    { clear. generalize 0. induction jobs as [|x l IH]; intros a; cbn; [reflexivity|]. now rewrite IH. }
    rewrite E. apply seq_NoDup.
  - intros i k V. left. apply combine_In. split; [lia|]. now rewrite Nat.sub_0_r.
Qed.
Ltac wk := match goal with H : nth_error (set_nth _ _ _) ?m = Some _ |- _ => rewrite nth_set in H by (apply nth_error_Some; congruence);
  match type of H with context [Nat.eqb ?a ?b] => destruct (Nat.eqb_spec a b) as [?EQ|?NE]; [subst m; injection H as <-|] end end.
Lemma op_inv s t : Inv s -> op s t -> Inv t.
Proof.
  intros I O. pose proof I as [G T P WV N PT WT WW A B H L MS BU NCR ET R RO TL DN]. destruct O.
  - (* hit *) rewrite H1 in *. rewrite H0 in *. split; cbn [todo md ca nc feval buf ws eth res pend holds missing] in *; try assumption; try discriminate.
    + intros i0 k0 J. apply T. now right.
    + intros i0 k0 J. injection J as <- <-. apply T. now left.
    + cbn in N. now inversion N.
    + intros i0 k0 J. injection J as <- <-. cbn in N. now inversion N.
    + intros n w W Ph. destruct (WT n w W Ph) as [X Y]. cbn in X. split; [tauto|]. intros i0 k0 J. injection J as <- <-. intros ->. tauto.
    + intros i0 k0 V. destruct (R i0 k0 V) as [[X|X]|[X|[X|[X|X]]]]; try discriminate; auto. injection X as <- <-. auto.
    + intros [X|X]; discriminate.
  - (* miss *) rewrite H1 in *. rewrite H0 in *. split; cbn [todo md ca nc feval buf ws eth res pend holds missing] in *; try assumption; try discriminate.
    + intros i0 k0 J. apply T. now right.
    + intros i0 k0 J. injection J as <- <-. apply T. now left.
    + cbn in N. now inversion N.
    + intros i0 k0 J. injection J as <- <-. cbn in N. now inversion N.
    + intros n w W Ph. destruct (WT n w W Ph) as [X Y]. cbn in X. split; [tauto|]. intros i0 k0 J. injection J as <- <-. intros ->. tauto.
    + intros k0 J. injection J as <-. exact H2.
    + intros i0 k0 V. destruct (R i0 k0 V) as [[X|X]|[X|[X|[X|X]]]]; try discriminate; auto. injection X as <- <-. auto.
    + intros [X|X]; discriminate.
  - (* get *) rewrite H0 in *. split; cbn [todo md ca nc feval buf ws eth res pend holds missing] in *; try assumption; try discriminate.
    + intros n w W Ph. destruct (WT n w W Ph) as [X Y]. split; [exact X|discriminate].
    + intros i0 k0 V. unfold upd. destruct (Nat.eqb_spec i0 i) as [->|D].
      * do 4 right. assert (V' := P i k eq_refl). unfold valid in *. assert (k0 = k) by congruence. subst. f_equal. destruct G as [S _ _ _]. now apply S.
      * destruct (R i0 k0 V) as [X|[X|[X|[X|X]]]]; try discriminate; auto. injection X as <- <-. contradiction.
    + intros i0 v0 X. unfold upd in X. destruct (Nat.eqb_spec i0 i) as [->|D]; [|now apply RO]. injection X as <-. exists k. split; [now apply P|]. destruct G as [S _ _ _]. now apply S.
    + intros [X|X]; discriminate.
  - (* keyerror *) rewrite H0 in *. split; cbn [todo md ca nc feval buf ws eth res pend holds missing] in *; try assumption; try discriminate.
    + intros n w W Ph. destruct (WT n w W Ph) as [X Y]. split; [exact X|discriminate].
    + auto 6.
    + intros [X|X]; discriminate.
  - (* claim *) rewrite H0 in *. split; cbn [todo md ca nc feval buf ws eth res pend holds missing] in *; try assumption; try discriminate.
    + intros n w W Ph. destruct (A n w W Ph) as (X & F & Y & Z). split; [exact X|]. unfold upd. destruct (Nat.eqb_spec (ev w) e) as [E|D]; [congruence|]. repeat split; try assumption. congruence.
    + intros e0 J. injection J as <-. split; [exact H1|]. unfold upd. now rewrite Nat.eqb_refl.
    + intros e0 E F. unfold upd in F. destruct (Nat.eqb_spec e0 e) as [->|D]; [now left|]. destruct (BU e0 E F) as [X|X]; [discriminate|now right].
    + intros i0 k0 V. destruct (R i0 k0 V) as [X|[X|[X|[X|X]]]]; try discriminate; auto.
    + intros [X|X]; discriminate.
  - (* load *) rewrite H0 in *. split; cbn [todo md ca nc feval buf ws eth res pend holds missing] in *; try assumption; try discriminate.
    + intros n w W Ph. destruct (B n w W Ph) as [X Y]. split; [|exact Y]. unfold upd. destruct (Nat.eqb_spec (ev w) e) as [E|D]; [|exact X].
      destruct (A n w W) as (_ & _ & _ & Z); [now rewrite Ph|congruence].
    + intros i0 k0 e0 J. injection J as <- <- <-. unfold upd. now rewrite Nat.eqb_refl.
    + intros i0 k0 V. destruct (R i0 k0 V) as [X|[X|[X|[X|X]]]]; try discriminate; auto.
    + intros [X|X]; discriminate.
  - (* launch *) rewrite H0 in *. destruct (H e eq_refl) as [He Fe]. assert (Pk := P i k eq_refl). assert (Lk := L i k e eq_refl). assert (Mk := MS k eq_refl).
    split; cbn [todo md ca nc feval buf ws eth res pend holds missing] in *; try assumption; try discriminate.
    + intros n w W. apply nth_snoc in W. destruct W as [W|[_ ->]]; [now apply (WV n)|exact Pk].
    + intros n w W Ph. split; [|discriminate]. apply nth_snoc in W. destruct W as [W|[_ ->]]; [now apply (WT n)|]. cbn. now apply (PT i k).
    + intros n m w w' W W' Ph Ph' J. apply nth_snoc in W. apply nth_snoc in W'. destruct W as [W|[-> ->]], W' as [W'|[-> ->]].
      * now apply (WW n m w w').
      * exfalso. apply (proj2 (WT n w W Ph) i k eq_refl). cbn in J. congruence.
      * exfalso. apply (proj2 (WT m w' W' Ph') i k eq_refl). cbn in J. congruence.
      * reflexivity.
    + intros n w W Ph. apply nth_snoc in W. unfold upd. destruct W as [W|[-> ->]].
      * destruct (A n w W Ph) as (X & F & Y & Z). destruct (Nat.eqb_spec (ev w) e) as [E|D]; [congruence|]. repeat split; try assumption. discriminate.
      * cbn. rewrite Nat.eqb_refl. repeat split; try assumption. discriminate.
    + intros n w W Ph. apply nth_snoc in W. destruct W as [W|[-> ->]]; [now apply (B n)|]. cbn. auto.
    + intros e0 E F. destruct (BU e0 E F) as [X|(n & w & W & X & Y)].
      * injection X as <-. right. exists (length (ws s)), (Worker e i k Running). rewrite nth_error_app2, Nat.sub_diag by lia. cbn. auto.
      * right. exists n, w. rewrite nth_error_app1 by (apply nth_error_Some; congruence). auto.
    + intros n w W. apply nth_snoc in W. destruct W as [W|[_ ->]]; [now apply (NCR n)|discriminate].
    + intros e0 n X. rewrite app_length. cbn. unfold upd in X. destruct (Nat.eqb_spec e0 e); [injection X as <-; lia|]. apply ET in X. lia.
    + intros i0 k0 V. destruct (R i0 k0 V) as [X|[X|[(n & w & W & X & Y)|[X|X]]]]; try discriminate; auto.
      * injection X as <- <-. do 2 right. left. exists (length (ws s)), (Worker e i k Running). rewrite nth_error_app2, Nat.sub_diag by lia. cbn. auto.
      * do 2 right. left. exists n, w. rewrite nth_error_app1 by (apply nth_error_Some; congruence). auto.
    + intros [X|X]; discriminate.
  - (* commit *) destruct (B n w H0 H1) as [Bw Lw]. rewrite Bw in *. fold (value (wkey w)) in *.
    destruct (commit_good (wkey w) (ca s) (nc s) M1 G Lw) as (c2 & n2 & E & G2 & K2 & _). fold (value (wkey w)) in H2. rewrite E in H2. injection H2 as <- <- <-.
    destruct (A n w H0) as (Aw1 & Aw2 & Aw3 & Aw4); [now rewrite H1|].
    split; cbn [todo md ca nc feval buf ws eth res] in *; try assumption.
    + intros n0 w0 W. wk; [cbn; now apply (WV n)|now apply (WV n0)].
    + intros n0 w0 W Ph. wk; [discriminate|now apply (WT n0)].
    + intros n0 m0 w0 w1 W W' Ph Ph' J. wk; [discriminate|]. wk; [discriminate|]. now apply (WW n0 m0 w0 w1).
    + intros n0 w0 W Ph. wk; [cbn; auto|now apply (A n0)].
    + intros n0 w0 W Ph. wk; [discriminate|]. destruct (B n0 w0 W Ph) as [X Y]. unfold upd. destruct (Nat.eqb_spec (ev w0) (ev w)) as [D|D].
      * exfalso. destruct (A n0 w0 W) as (_ & _ & Z & _); [now rewrite Ph|]. rewrite D in Z. congruence.
      * split; [exact X|]. apply K2; [|exact Y]. intros J. apply NE. apply (WW n0 n w0 w W H0 Ph H1). assert (V0 := WV n0 w0 W). rewrite J in V0. apply (valid_inj _ _ (wkey w)); [exact V0|now apply (WV n)].
    + intros i k e X. unfold upd. destruct (Nat.eqb_spec e (ev w)) as [->|D]; [rewrite X in Aw4; now elim Aw4|now apply (L i k)].
    + intros k X. apply K2; [|now apply MS]. intros ->. assert (Q : exists i, pend (md s) = Some (i, wkey w)) by (destruct (md s); try discriminate; injection X as ->; eexists; reflexivity).
      destruct Q as [i Q]. apply (proj2 (WT n w H0 H1) i (wkey w) Q). apply (valid_inj _ _ (wkey w)); [now apply P|now apply (WV n)].
    + intros e E0 F. destruct (BU e E0 F) as [X|(m & w0 & W & X & Y)]; [now left|]. right. destruct (Nat.eq_dec m n) as [->|D].
      * exists n, (set_ph w Committed). rewrite nth_set by (apply nth_error_Some; congruence). rewrite Nat.eqb_refl. assert (w0 = w) by congruence. subst. cbn. auto.
      * exists m, w0. rewrite nth_set by (apply nth_error_Some; congruence). destruct (Nat.eqb_spec m n); [contradiction|]. auto.
    + intros n0 w0 W. wk; [discriminate|now apply (NCR n0)].
    + intros e m X. apply ET in X. assert (LL : forall (l : list (@worker Key)) a x, length (set_nth l a x) = length l) by (clear; induction l; intros [|a'] x; cbn; auto). now rewrite LL.
    + intros i k V. unfold upd. destruct (Nat.eqb_spec i (job w)) as [->|D].
      * do 4 right. assert (V' := WV n w H0). unfold valid in *. congruence.
      * destruct (R i k V) as [X|[X|[(m & w0 & W & X & Y)|[X|X]]]]; auto 6. do 2 right. left. exists m, w0. rewrite nth_set by (apply nth_error_Some; congruence).
        destruct (Nat.eqb_spec m n) as [->|]; [congruence|]. auto.
    + intros i v X. unfold upd in X. destruct (Nat.eqb_spec i (job w)) as [->|D]; [|now apply RO]. injection X as <-. exists (wkey w). split; [now apply (WV n)|reflexivity].
    + intros X n0 w0 W. wk; [|now apply (DN X n0)]. exfalso. specialize (DN X n w H0). rewrite H1 in DN. discriminate.
  - (* crash *) exfalso. destruct (B n w H0 H1) as [Bw Lw]. rewrite Bw in *. fold (value (wkey w)) in *.
    destruct (commit_good (wkey w) (ca s) (nc s) M1 G Lw) as (c2 & n2 & E & G2 & K2 & _). fold (value (wkey w)) in H2. rewrite E in H2. discriminate.
  - (* free *) destruct (A n w H0) as (Aw1 & Aw2 & Aw3 & Aw4); [now rewrite H1|].
    split; cbn [todo md ca nc feval buf ws eth res] in *; try assumption.
    + intros n0 w0 W. wk; [cbn; now apply (WV n)|now apply (WV n0)].
    + intros n0 w0 W Ph. wk; [discriminate|now apply (WT n0)].
    + intros n0 m0 w0 w1 W W' Ph Ph' J. wk; [discriminate|]. wk; [discriminate|]. now apply (WW n0 m0 w0 w1).
    + intros n0 w0 W Ph. wk; [discriminate|]. destruct (A n0 w0 W Ph) as (X & F & Y & Z). unfold upd. destruct (Nat.eqb_spec (ev w0) (ev w)) as [D|D]; [rewrite D in Y; congruence|]. auto.
    + intros n0 w0 W Ph. wk; [discriminate|]. now apply (B n0).
    + intros e X. destruct (H e X) as [Y Z]. split; [exact Y|]. unfold upd. destruct (Nat.eqb_spec e (ev w)) as [->|D]; [congruence|exact Z].
    + intros e E0 F. unfold upd in F. destruct (Nat.eqb_spec e (ev w)) as [->|D]; [discriminate|]. destruct (BU e E0 F) as [X|(m & w0 & W & X & Y)]; [now left|]. right.
      exists m, w0. rewrite nth_set by (apply nth_error_Some; congruence). destruct (Nat.eqb_spec m n) as [->|]; [|auto]. exfalso. apply D. congruence.
    + intros n0 w0 W. wk; [discriminate|now apply (NCR n0)].
    + intros e m X. apply ET in X. assert (LL : forall (l : list (@worker Key)) a x, length (set_nth l a x) = length l) by (clear; induction l; intros [|a'] x; cbn; auto). now rewrite LL.
    + intros i k V. destruct (R i k V) as [X|[X|[(m & w0 & W & X & Y)|[X|X]]]]; auto 6. do 2 right. left. exists m, w0. rewrite nth_set by (apply nth_error_Some; congruence).
      destruct (Nat.eqb_spec m n) as [->|]; [congruence|]. auto.
    + intros X n0 w0 W. wk; [reflexivity|now apply (DN X n0)].
  - (* exit *) split; cbn [todo md ca nc feval buf ws eth res] in *; try assumption.
    + intros n0 w0 W. wk; [cbn; now apply (WV n)|now apply (WV n0)].
    + intros n0 w0 W Ph. wk; [discriminate|now apply (WT n0)].
    + intros n0 m0 w0 w1 W W' Ph Ph' J. wk; [discriminate|]. wk; [discriminate|]. now apply (WW n0 m0 w0 w1).
    + intros n0 w0 W Ph. wk; [discriminate|now apply (A n0)].
    + intros n0 w0 W Ph. wk; [discriminate|]. now apply (B n0).
    + intros e E0 F. destruct (BU e E0 F) as [X|(m & w0 & W & X & Y)]; [now left|]. right.
      exists m, w0. rewrite nth_set by (apply nth_error_Some; congruence). destruct (Nat.eqb_spec m n) as [->|]; [|auto]. assert (w0 = w) by congruence. subst. rewrite H1 in X. discriminate.
    + intros n0 w0 W. wk; [discriminate|now apply (NCR n0)].
    + intros e m X. apply ET in X. assert (LL : forall (l : list (@worker Key)) a x, length (set_nth l a x) = length l) by (clear; induction l; intros [|a'] x; cbn; auto). now rewrite LL.
    + intros i k V. destruct (R i k V) as [X|[X|[(m & w0 & W & X & Y)|[X|X]]]]; auto 6. do 2 right. left. exists m, w0. rewrite nth_set by (apply nth_error_Some; congruence).
      destruct (Nat.eqb_spec m n) as [->|]; [congruence|]. auto.
    + intros X n0 w0 W. wk; [reflexivity|now apply (DN X n0)].
  - (* wait *) rewrite H0, H1 in *. split; cbn [todo md ca nc feval buf ws eth res pend holds missing] in *; try assumption; try discriminate; auto.
    intros i k V. destruct (R i k V) as [X|[X|[X|[X|X]]]]; try discriminate; auto 6.
  - (* done *) rewrite H0 in *. split; cbn [todo md ca nc feval buf ws eth res pend holds missing] in *; try assumption; try discriminate; auto.
    + intros i k V. destruct (R i k V) as [X|[X|[X|[X|X]]]]; try discriminate; auto 6.
    + intros _ n w W. destruct (active (ph w)) eqn:E; [|reflexivity]. destruct (A n w W E) as (X & F & Y & Z). specialize (H1 (ev w) n w X Y W). destruct (ph w); discriminate.
Qed.
Lemma ops_inv s t : Inv s -> ops s t -> Inv t.
Proof. intros I O. induction O as [|? ? ? O IH S]; [exact I|]. exact (op_inv _ _ (IH I) S). Qed.

(** ** No evaluator is used by two threads, and the main thread loads positions into none in use *)
Theorem evaluators_exclusive c b t n m w w' : good c (length c) -> ops (initial jobs c b) t ->
  nth_error (ws t) n = Some w -> nth_error (ws t) m = Some w' -> active (ph w) = true -> active (ph w') = true -> ev w = ev w' ->
  n = m /\ holds (md t) <> Some (ev w).
Proof.
  intros G O W W' A A' E. pose proof (ops_inv _ _ (initial_inv c b G) O) as I. destruct (i_act _ I n w W A) as (_ & _ & X & Y). destruct (i_act _ I m w' W' A') as (_ & _ & X' & _). split; [congruence|exact Y].
Qed.
(** ** All energies are there and right when the main thread goes on *)
Theorem events_evaluated c b t : good c (length c) -> ops (initial jobs c b) t -> md t = Done ->
  forall i k, nth_error jobs i = Some k -> res t i = Some (value k).
Proof.
  intros G O D i k V. pose proof (ops_inv _ _ (initial_inv c b G) O) as I. destruct (i_res _ I i k V) as [X|[X|[(n & w & W & X & Y)|[X|X]]]].
  - rewrite (i_tail _ I (or_intror D)) in X. destruct X.
  - rewrite D in X. discriminate.
  - pose proof (i_done _ I D n w W) as Z. rewrite X in Z. discriminate.
  - rewrite D in X. discriminate.
  - exact X.
Qed.
(** The cache stays right and within its limit, and no thread fails. *)
Theorem cache_kept c b t : good c (length c) -> ops (initial jobs c b) t -> good (ca t) (nc t) /\ forall n w, nth_error (ws t) n = Some w -> ph w <> Crashed.
Proof. intros G O. pose proof (ops_inv _ _ (initial_inv c b G) O) as I. split; [apply (i_good _ I)|apply (i_nocrash _ I)]. Qed.

(** ** The step comes to an end *)
Definition w_ph (p : phase) : nat := match p with Running => 4 | Committed => 3 | Freed => 2 | _ => 0 end.
Definition w_md (m : @mode Key) : nat := match m with Next => 3 | Hit _ _ => 9 | Seek _ _ => 12 | Load _ _ _ => 11 | Launch _ _ _ => 10 | Wait => 2 | Done => 1 | Error => 0 end.
Definition measure (s : state) : nat := 10 * length (todo s) + w_md (md s) + list_sum (map (fun w => w_ph (ph w)) (ws s)).
Lemma sum_set (l : list worker) n (w w' : @worker Key) : nth_error l n = Some w ->
  list_sum (map (fun w => w_ph (ph w)) (set_nth l n w')) + w_ph (ph w) = list_sum (map (fun w => w_ph (ph w)) l) + w_ph (ph w').
Proof.
  revert n. induction l as [|a l IH]; intros [|n] H; try discriminate; cbn [set_nth map] in *.
  - injection H as ->. cbn. lia.
  - cbn [nth_error] in H. specialize (IH n H). unfold list_sum in *. cbn [fold_right] in *. lia.
Qed.
Theorem op_decreases s t : op s t -> measure t < measure s.
Proof.
  intros O. unfold measure. destruct O; cbn [todo md ws] in *;
    try (rewrite H, ?H0; cbn [w_md length]; lia);
    try (pose proof (sum_set (ws s) n w) as S; match goal with |- context [set_nth _ _ ?x] => specialize (S x H) end; rewrite H0 in S; cbn [w_ph ph set_ph] in S; lia).
  rewrite H. rewrite map_app. cbn [map ph w_ph]. rewrite list_sum_app. cbn. lia.
Qed.
(** A thread that is not over can go on. *)
Lemma worker_moves s n w : nth_error (ws s) n = Some w -> alive (ph w) = true -> exists t, op s t.
Proof.
  intros W A. destruct (ph w) eqn:P; try discriminate.
  - destruct (commit (wkey w) (fst (geop (buf s (ev w)))) (ca s) (nc s)) as [[c' n'] [v|]] eqn:E; eexists; [eapply op_commit; eassumption|eapply op_crash; eassumption].
  - eexists. eapply op_free; eassumption.
  - eexists. eapply op_exit; eassumption.
Qed.
Lemma first_free (f : nat -> bool) m : (exists e, e < m /\ f e = true /\ forall e', e' < e -> f e' = false) \/ forall e, e < m -> f e = false.
Proof.
  induction m as [|m [IH|IH]]; [right; lia|left; destruct IH as (e & E & F); exists e; split; [lia|exact F]|].
  destruct (f m) eqn:E; [left; exists m; auto|]. right. intros e L. destruct (Nat.eq_dec e m) as [->|]; [exact E|apply IH; lia].
Qed.
Theorem never_stuck c b t : 1 <= neval -> good c (length c) -> ops (initial jobs c b) t -> md t <> Done -> md t <> Error -> exists u, op t u.
Proof.
  intros N G O ND1 ND2. pose proof (ops_inv _ _ (initial_inv c b G) O) as I. destruct (md t) as [|i k|i k|i k e|i k e| | |] eqn:M; try contradiction.
  - destruct (todo t) as [|[i k] r] eqn:T; [eexists; now apply op_wait|]. destruct (lookup k (ca t)) eqn:L; eexists; [eapply op_hit|eapply op_miss]; eassumption.
  - destruct (lookup k (ca t)) eqn:L; eexists; [eapply op_get|eapply op_keyerror]; eassumption.
  - destruct (first_free (feval t) neval) as [(e & E & F & Z)|F]; [eexists; eapply op_claim; eassumption|].
    destruct (i_busy _ I 0 N (F 0 N)) as [X|(n & w & W & A & _)]; [rewrite M in X; discriminate|].
    apply (worker_moves t n w W). now destruct (ph w).
  - eexists. eapply op_load. eassumption.
  - eexists. eapply op_launch. eassumption.
  - destruct (existsb (fun w => alive (ph w)) (ws t)) eqn:E.
    + apply existsb_exists in E. destruct E as (w & J & A). apply In_nth_error in J. destruct J as [n W]. apply (worker_moves t n w W A).
    + eexists. apply op_done; [exact M|]. intros e n w _ _ W. apply nth_error_In in W. destruct (alive (ph w)) eqn:A; [|reflexivity].
      rewrite <- E. symmetry. apply existsb_exists. eauto.
Qed.
(** With room for all new states nothing is dropped, and there is no KeyError. *)
Definition running (w : @worker Key) : bool := match ph w with Running => true | _ => false end.
Definition one_if (o : option Key) : nat := match o with Some _ => 1 | None => 0 end.
Definition Room (s : state) : Prop := nc s + length (todo s) + one_if (missing (md s)) + length (filter running (ws s)) <= maxlen /\
  (forall i k, md s = Hit i k -> lookup k (ca s) <> None) /\ md s <> Error.
Lemma filter_set (l : list worker) n (w w' : @worker Key) : nth_error l n = Some w ->
  length (filter running (set_nth l n w')) + (if running w then 1 else 0) = length (filter running l) + (if running w' then 1 else 0).
Proof.
  revert n. induction l as [|a l IH]; intros [|n] H; try discriminate; cbn [set_nth filter] in *.
  - injection H as ->. destruct (running w), (running w'); cbn; lia.
  - cbn in H. specialize (IH n H). destruct (running a); cbn; lia.
Qed.
Lemma op_room s t : Inv s -> Room s -> op s t -> Room t.
Proof.
  intros I (L & Hk & NE) O. unfold Room. destruct O; cbn [todo md nc ca ws missing one_if] in *.
  - rewrite H, H0 in *. cbn in L. repeat split; try discriminate; [lia|]. intros i0 k0 E. injection E as <- <-. congruence.
  - rewrite H, H0 in *. cbn in L. repeat split; try discriminate. lia.
  - rewrite H in *. cbn in L. repeat split; try discriminate. lia.
  - exfalso. now apply (Hk i k).
  - rewrite H in *. cbn in L. repeat split; try discriminate. lia.
  - rewrite H in *. cbn in L. repeat split; try discriminate. lia.
  - rewrite H in *. cbn in L. repeat split; try discriminate. rewrite filter_app, app_length. cbn. lia.
  - assert (R : running w = true) by (unfold running; now rewrite H0). assert (S := filter_set (ws s) n w (set_ph w Committed) H). rewrite R in S. cbn [running set_ph ph] in S.
    destruct (i_buf _ I n w H H0) as [Bw Lw]. rewrite Bw in H1. fold (value (wkey w)) in H1. unfold KmcThreads.commit in H1. fold (value (wkey w)) in H1. rewrite store_new in H1 by exact Lw.
    destruct (Nat.eqb_spec (nc s) maxlen); [lia|]. injection H1 as <- <- _. repeat split; [lia| |exact NE].
    intros i k M. rewrite lookup_app. specialize (Hk i k M). now destruct (lookup k (ca s)).
  - exfalso. destruct (i_buf _ I n w H H0) as [Bw Lw]. rewrite Bw in H1. fold (value (wkey w)) in H1.
    destruct (commit_good (wkey w) (ca s) (nc s) M1 (i_good _ I) Lw) as (c2 & n2 & E & _). fold (value (wkey w)) in H1. rewrite E in H1. discriminate.
  - assert (S := filter_set (ws s) n w (set_ph w Freed) H). assert (R : running w = false) by (unfold running; now rewrite H0). rewrite R in S. cbn [running set_ph ph] in S. repeat split; [lia|exact Hk|exact NE].
  - assert (S := filter_set (ws s) n w (set_ph w Dead) H). assert (R : running w = false) by (unfold running; now rewrite H0). rewrite R in S. cbn [running set_ph ph] in S. repeat split; [lia|exact Hk|exact NE].
  - rewrite H, H0 in *. cbn in L |- *. repeat split; try discriminate. lia.
  - rewrite H in *. cbn in L. repeat split; try discriminate. lia.
Qed.
Theorem no_keyerror_partial c b t : length c + length jobs <= maxlen -> good c (length c) -> ops (initial jobs c b) t -> md t <> Error.
Proof.
  intros L G O. assert (R : Inv t /\ Room t); [|apply R]. remember (initial jobs c b) as s0 eqn:E0. induction O as [s|s t u O IH S].
  - subst. split; [now apply initial_inv|]. unfold Room. cbn. repeat split; try discriminate. rewrite combine_length, seq_length. lia.
  - destruct (IH E0) as [I R]. split; [exact (op_inv _ _ I S)|exact (op_room _ _ I R S)].
Qed.
End Run.
End Cache.

(** ** Cases: states are numbers, and the optimisation of [k] gives [k] *)
Notation nops := (@ops nat nat nat Nat.eq_dec (fun k => k) (fun c => (c, c))).
Notation ninit := (@initial nat nat nat).
Notation nop := (@op nat nat nat Nat.eq_dec (fun k => k) (fun c => (c, c))).
Notation ngood := (@good nat nat nat Nat.eq_dec (fun k => k) (fun c => (c, c))).
(** A state that was in the cache when the main thread looked may be gone when it reads: a
    KeyError, whatever the size of the cache. *)
Definition filled (m : nat) : list (nat * nat) := map (fun k => (k, k)) (seq 0 m).
Lemma filled_good m : ngood m (filled m) (length (filled m)).
Proof.
  unfold filled. split.
  - intros k v H. unfold value. cbn. revert H. generalize 0. induction m as [|m IH]; intros a; cbn; [discriminate|].
    destruct (Nat.eq_dec k a) as [->|]; [now intros E; injection E|apply IH].
  - unfold keys. rewrite map_map. cbn. rewrite map_id. apply seq_NoDup.
  - reflexivity.
  - now rewrite map_length, seq_length.
Qed.
Theorem keyerror_refuted m : 1 <= m -> exists jobs c b t, NoDup jobs /\ ngood m c (length c) /\ nops 1 m (ninit jobs c b) t /\ md t = Error.
Proof.
  intros M. destruct m as [|m]; [lia|]. exists [S m; 0], (filled (S m)), (fun _ => 0).
  assert (G := filled_good (S m)).
  assert (LS : lookup Nat.eq_dec (S m) (filled (S m)) = None).
  { apply lookup_none. unfold keys, filled. rewrite map_map. cbn [fst]. rewrite map_id. intros I. apply in_seq in I. lia. }
  assert (L1 : lookup Nat.eq_dec 0 (filled (S m)) = Some 0) by reflexivity.
  set (c := filled (S m)) in *. assert (Lc : length c = S m) by (unfold c, filled; now rewrite map_length, seq_length).
  pose (s0 := ninit [S m; 0] c (fun _ => 0)).
  pose (w := Worker 0 0 (S m) Running).
  pose (s4 := State [(1, 0)] Next c (length c) (upd (fun _ => true) 0 false) (upd (fun _ : nat => 0) 0 (S m)) [w] (upd (fun _ => None) 0 (Some 0)) (fun _ => None : option nat)).
  assert (O4 : nops 1 (S m) s0 s4).
  { eapply ops_step; [eapply ops_step; [eapply ops_step; [eapply ops_step; [apply ops_refl|]|]|]|].
    - apply (op_miss _ _ _ _ _ s0 0 (S m) [(1, 0)]); [reflexivity..|exact LS].
    - apply op_claim with (e := 0); [reflexivity|cbn; lia|reflexivity|lia].
    - now apply op_load.
    - unfold s4, w. match goal with |- KmcThreads.op _ _ _ _ _ ?s _ => exact (op_launch _ _ _ _ _ s 0 (S m) 0 eq_refl) end. }
  exists (State [] Error (tl (c ++ [(S m, S m)])) (length c) (upd (fun _ => true) 0 false) (upd (upd (fun _ : nat => 0) 0 (S m)) 0 (S m)) [set_ph w Committed] (upd (fun _ => None) 0 (Some 0)) (upd (fun _ => None) 0 (Some (S m)))).
  split; [repeat constructor; cbn; intuition lia|]. split; [exact G|]. split; [|reflexivity].
  eapply ops_step; [eapply ops_step; [eapply ops_step; [exact O4|]|]|].
  - now apply (op_hit _ _ _ _ _ s4 1 0 [] 0).
  - eapply (op_commit _ _ _ _ _ _ 0 w); [reflexivity|reflexivity|]. unfold commit. cbn [ca nc s4 wkey w buf ev upd Nat.eqb fst]. rewrite store_new by exact LS. replace (Nat.eqb (length c) (S m)) with true by (symmetry; now apply Nat.eqb_eq).
    replace (lookup Nat.eq_dec (S m) (tl (c ++ [(S m, S m)]))) with (Some (S m)); [reflexivity|].
    symmetry. unfold c in LS |- *. unfold filled in LS |- *. cbn [seq map app tl] in LS |- *. cbn [lookup] in LS. destruct (Nat.eq_dec (S m) 0); [discriminate|].
    rewrite lookup_app, LS. cbn [lookup]. destruct (Nat.eq_dec (S m) (S m)); [reflexivity|contradiction].
  - match goal with |- KmcThreads.op _ _ _ _ _ ?s _ => apply (op_keyerror _ _ _ _ _ s 1 0) end; [reflexivity|].
    cbn [ca]. unfold c, filled. cbn [seq map app tl]. rewrite lookup_app.
    assert (E : lookup Nat.eq_dec 0 (map (fun k => (k, k)) (seq 1 m)) = None).
    { apply lookup_none. unfold keys. rewrite map_map. cbn [fst]. rewrite map_id. intros I. apply in_seq in I. lia. }
    rewrite E. reflexivity.
Qed.
(** Forward steps of a run. *)
Ltac go O tac := match type of O with KmcThreads.ops ?a ?b ?c ?d ?e ?s ?t =>
  let X := fresh "X" in eassert (X : KmcThreads.op a b c d e t _); [tac|]; apply (ops_step a b c d e s t _ O) in X; clear O; rename X into O;
  cbn [todo md ca nc feval buf ws eth res set_nth app length set_ph ev job wkey ph initial combine seq] in O end.
Ltac dead := apply op_done; [reflexivity|intros e n w0 _ _ W; cbn [ws] in W; repeat (destruct n as [|n]; cbn [nth_error] in W; [injection W as <-; reflexivity|]); destruct n; discriminate].
(** A cache that is longer than the limit to begin with (it is read from a file, 184-208) only gets longer. *)
Theorem oversized_cache_refuted m : exists jobs c b t, NoDup jobs /\ m < length c /\ nops 1 m (ninit jobs c b) t /\ md t = Done /\ length c < length (ca t).
Proof.
  set (c := filled (S m)). assert (Lc : length c = S m) by (unfold c, filled; now rewrite map_length, seq_length).
  assert (LS : lookup Nat.eq_dec (S m) c = None).
  { apply lookup_none. unfold c, keys, filled. rewrite map_map. cbn [fst]. rewrite map_id. intros I. apply in_seq in I. lia. }
  exists [S m], c, (fun _ => 0). clearbody c.
  assert (O := ops_refl Nat.eq_dec (fun k => k) (fun c : nat => (c, c)) 1 m (ninit [S m] c (fun _ => 0))).
  go O ltac:(apply (op_miss _ _ _ _ _ _ 0 (S m) []); [reflexivity..|exact LS]).
  go O ltac:(apply op_claim with (e := 0); [reflexivity|lia|reflexivity|lia]).
  go O ltac:(apply op_load; reflexivity).
  go O ltac:(apply op_launch; reflexivity).
  assert (C : commit Nat.eq_dec m (S m) (S m) c (length c) = (c ++ [(S m, S m)], S (length c), Some (S m))).
  { unfold commit. rewrite store_new by exact LS. rewrite Lc. destruct (Nat.eqb_spec (S m) m); [lia|]. rewrite lookup_app, LS. cbn [lookup]. destruct (Nat.eq_dec (S m) (S m)); [reflexivity|contradiction]. }
  go O ltac:(eapply (op_commit _ _ _ _ _ _ 0); [reflexivity|reflexivity|exact C]).
  go O ltac:(apply (op_free _ _ _ _ _ _ 0 (Worker 0 0 (S m) Committed)); reflexivity).
  go O ltac:(apply (op_exit _ _ _ _ _ _ 0 (Worker 0 0 (S m) Freed)); reflexivity).
  go O ltac:(apply op_wait; reflexivity).
  go O ltac:(dead).
  eexists. split; [repeat constructor; cbn; tauto|]. split; [lia|]. split; [exact O|]. split; [reflexivity|]. cbn [ca]. rewrite app_length. cbn. lia.
Qed.
(** A state that comes twice (the rows of two_cells_refuted) with a cache of one entry: the second
    thread fails, nobody notices, and the event keeps the energy 0.0 it started with. *)
Theorem duplicate_crash_refuted : exists jobs c b t i k, nth_error jobs i = Some k /\ ngood 1 c (length c) /\ nops 2 1 (ninit jobs c b) t /\ md t = Done /\ res t i = None.
Proof.
  assert (O := ops_refl Nat.eq_dec (fun k => k) (fun c : nat => (c, c)) 2 1 (ninit [5; 5] [] (fun _ => 0))).
  go O ltac:(apply (op_miss _ _ _ _ _ _ 0 5 [(1, 5)]); reflexivity).
  go O ltac:(apply op_claim with (e := 0); [reflexivity|lia|reflexivity|lia]).
  go O ltac:(apply op_load; reflexivity).
  go O ltac:(apply op_launch; reflexivity).
  go O ltac:(apply (op_miss _ _ _ _ _ _ 1 5 []); reflexivity).
  go O ltac:(apply op_claim with (e := 1); [reflexivity|lia|reflexivity|intros [|?] ?; [reflexivity|lia]]).
  go O ltac:(apply op_load; reflexivity).
  go O ltac:(apply op_launch; reflexivity).
  go O ltac:(apply (op_commit _ _ _ _ _ _ 0 (Worker 0 0 5 Running) [(5, 5)] 1 5); reflexivity).
  go O ltac:(apply (op_crash _ _ _ _ _ _ 1 (Worker 1 1 5 Running) [] 1); reflexivity).
  go O ltac:(apply (op_free _ _ _ _ _ _ 0 (Worker 0 0 5 Committed)); reflexivity).
  go O ltac:(apply (op_exit _ _ _ _ _ _ 0 (Worker 0 0 5 Freed)); reflexivity).
  go O ltac:(apply op_wait; reflexivity).
  go O ltac:(dead).
  exists [5; 5], [], (fun _ => 0). eexists. exists 1, 5. split; [reflexivity|]. split; [split; [intros k v; discriminate|constructor|reflexivity|cbn; lia]|].
  split; [exact O|]. split; reflexivity.
Qed.
(** With a limit of zero no optimisation can be used (the entry is dropped before it is read). *)
Theorem no_cache_refuted k v : snd (@commit nat nat Nat.eq_dec 0 k v [] 0) = None.
Proof. reflexivity. Qed.
(** A run of the theorems above: one event from the cache, one from a thread. *)
Example events_evaluated_case : exists t, NoDup [5; 7] /\ ngood 3 [(7, 7)] 1 /\ nops 1 3 (ninit [5; 7] [(7, 7)] (fun _ => 0)) t /\ md t = Done /\ res t 0 = Some 5 /\ res t 1 = Some 7.
Proof.
  assert (O := ops_refl Nat.eq_dec (fun k => k) (fun c : nat => (c, c)) 1 3 (ninit [5; 7] [(7, 7)] (fun _ => 0))).
  go O ltac:(apply (op_miss _ _ _ _ _ _ 0 5 [(1, 7)]); reflexivity).
  go O ltac:(apply op_claim with (e := 0); [reflexivity|lia|reflexivity|lia]).
  go O ltac:(apply op_load; reflexivity).
  go O ltac:(apply op_launch; reflexivity).
  go O ltac:(apply (op_hit _ _ _ _ _ _ 1 7 [] 7); reflexivity).
  go O ltac:(apply (op_commit _ _ _ _ _ _ 0 (Worker 0 0 5 Running) [(7, 7); (5, 5)] 2 5); reflexivity).
  go O ltac:(apply (op_get _ _ _ _ _ _ 1 7 7); reflexivity).
  go O ltac:(apply (op_free _ _ _ _ _ _ 0 (Worker 0 0 5 Committed)); reflexivity).
  go O ltac:(apply op_wait; reflexivity).
  go O ltac:(apply (op_exit _ _ _ _ _ _ 0 (Worker 0 0 5 Freed)); reflexivity).
  go O ltac:(dead).
  eexists. split; [repeat constructor; cbn; intuition lia|]. split.
  { split; [|repeat constructor; cbn; tauto|reflexivity|cbn; lia]. intros k v. cbn [lookup]. destruct (Nat.eq_dec k 7) as [->|]; [now intros E; injection E as <-|discriminate]. }
  split; [exact O|]. repeat split.
Qed.
Print Assumptions evaluators_exclusive.
Print Assumptions events_evaluated.
Print Assumptions cache_kept.
Print Assumptions op_decreases.
Print Assumptions never_stuck.
Print Assumptions no_keyerror_partial.
Print Assumptions keyerror_refuted.
Print Assumptions oversized_cache_refuted.
Print Assumptions duplicate_crash_refuted.
