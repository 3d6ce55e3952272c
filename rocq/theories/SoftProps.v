(** * Theorems of record: soft exit *)
Require Import List Arith Bool Lia.
From Verif Require Import SoftModel.
Import ListNotations.

(** ** Specification *)
(** Executions in which no thread tests [triggered] in cleanup while another one
    is between that test and setting the flag (lines 94-96). *)
Definition in_window (p : pc) : bool := match p with Window _ => true | _ => false end.
Definition undisturbed (s : st) (x : ev) : Prop :=
  match x with
  | Act t => match pcs s t with Enters _ => forall t', in_window (pcs s t') = false | _ => True end
  | _ => True
  end.
Inductive reaches (e : env) (s : st) : list ev -> st -> Prop :=
| r_nil : reaches e s [] s
| r_step l s1 x s2 : reaches e s l s1 -> undisturbed s1 x -> next e s1 x = Some s2 -> reaches e s (l ++ [x]) s2.
(** Everything has been done. *)
Definition done (e : env) (s : st) (t : nat) : Prop :=
  calls s = map (pair t) (seq 0 (length (flist e))) /\ (forall j, j < length (tids e) -> loops s j = false) /\ exiting s = false.

Lemma reaches_cons e s x s1 l s2 : undisturbed s x -> next e s x = Some s1 -> reaches e s1 l s2 -> reaches e s (x :: l) s2.
Proof.
  intros U N R. induction R as [|l sa y sb R IH V M].
  - apply (r_step e s [] s x s1); [constructor|easy|easy].
  - apply (r_step e s (x :: l) sa y sb IH V M).
Qed.

(** ** Invariants *)
Lemma upd_same {A} (f : nat -> A) k a : upd f k a k = a.
Proof. unfold upd. now rewrite Nat.eqb_refl. Qed.
Lemma upd_other {A} (f : nat -> A) k a x : x <> k -> upd f k a x = f x.
Proof. intros H. unfold upd. apply Nat.eqb_neq in H. now rewrite H. Qed.

Definition quiet (p : pc) : Prop := match p with Idle | Calls _ | Enters _ | Window _ => True | _ => False end.
Definition passive (p : pc) : Prop := match p with Idle | Calls _ | Enters _ | Joins _ | Back | Dead | Failed => True | _ => False end.
Definition ran (e : env) (s : st) (o m : nat) : Prop := m <= length (flist e) /\ calls s = map (pair o) (seq 0 m).
Definition owner (e : env) (s : st) (o : nat) : Prop :=
  match pcs s o with
  | Window _ => False
  | Flagged _ => ran e s o 0
  | Runs i => ran e s o i
  | _ => exists m, ran e s o m
  end.
Definition inv (e : env) (s : st) : Prop :=
  (triggered s = false /\ calls s = [] /\ (forall t, quiet (pcs s t)) /\
     (forall t t', in_window (pcs s t) = true -> in_window (pcs s t') = true -> t = t')) \/
  (triggered s = true /\ exists o, (forall t, t <> o -> passive (pcs s t)) /\ owner e s o).

Lemma owner_ran e s o : owner e s o -> exists m, ran e s o m.
Proof. unfold owner. destruct (pcs s o); intros H; try easy; eauto. Qed.

Lemma inv_start e : inv e start.
Proof. left. cbn. repeat split; easy. Qed.

(** A move that leaves flags and log alone. *)
Lemma inv_goto_triggered e s t p : inv e s -> triggered s = true -> passive p -> inv e (goto s t p).
Proof.
  intros [(A & _)|(A & o & P & O)] T Hp; [now rewrite A in T|]. right. split; [easy|]. exists o. cbn [goto pcs]. split.
  - intros t' N. destruct (Nat.eq_dec t' t) as [->|N']; [now rewrite upd_same | rewrite upd_other by easy; now apply P].
  - destruct (owner_ran e s o O) as (m & Hm). unfold owner. cbn [goto pcs]. destruct (Nat.eq_dec o t) as [->|N].
    + rewrite upd_same. destruct p; try easy; exists m; exact Hm.
    + rewrite upd_other by easy. exact O.
Qed.
Lemma inv_goto_quiet e s t p : inv e s -> triggered s = false -> quiet p -> in_window p = false -> inv e (goto s t p).
Proof.
  intros [(A & B & Q & W)|(A & _)] T Hp Hw; [|now rewrite A in T]. left. cbn [goto triggered calls pcs]. repeat split; try easy.
  - intros t'. destruct (Nat.eq_dec t' t) as [->|N]; [now rewrite upd_same | now rewrite upd_other].
  - intros t1 t2. destruct (Nat.eq_dec t1 t) as [->|N1]; [rewrite upd_same; congruence|].
    destruct (Nat.eq_dec t2 t) as [->|N2]; [rewrite upd_same; congruence|]. rewrite !upd_other by easy. apply W.
Qed.

Lemma seq_snoc (o m : nat) : map (pair o) (seq 0 m) ++ [(o, m)] = map (pair o) (seq 0 (S m)).
Proof. rewrite seq_S, map_app. easy. Qed.

(** An owner's own move: nothing but its own position changes for the others. *)
Lemma inv_owner_move e s t s' : triggered s' = true -> (forall t', t' <> t -> pcs s' t' = pcs s t') ->
  (forall t', t' <> t -> passive (pcs s t')) -> owner e s' t -> inv e s'.
Proof. intros T P Q O. right. split; [easy|]. exists t. split; [|easy]. intros t' N. rewrite P by easy. now apply Q. Qed.

Lemma inv_next e s x s' : inv e s -> undisturbed s x -> next e s x = Some s' -> inv e s'.
Proof.
  intros I U H. destruct x as [t c|t|j|t]; cbn [next] in H.
  - destruct (may_request (pcs s t)) eqn:M; [|easy]. injection H as <-. destruct (triggered s) eqn:T.
    + now apply inv_goto_triggered.
    + now apply inv_goto_quiet.
  - unfold act in H. unfold undisturbed in U. destruct (pcs s t) as [|c|c|c|c|i| |j|j| | |] eqn:E; try easy.
    + injection H as <-. destruct (triggered s) eqn:T; [now apply inv_goto_triggered | now apply inv_goto_quiet].
    + injection H as <-. destruct (triggered s) eqn:T; [now apply inv_goto_triggered|].
      destruct I as [(A & B & Q & W)|(A & _)]; [|now rewrite A in T]. left. cbn [goto triggered calls pcs]. repeat split; try easy.
      * intros t'. destruct (Nat.eq_dec t' t) as [->|N]; [now rewrite upd_same | now rewrite upd_other].
      * intros t1 t2. destruct (Nat.eq_dec t1 t) as [->|N1]; destruct (Nat.eq_dec t2 t) as [->|N2]; try easy.
        -- rewrite (upd_other _ _ _ t2) by easy. rewrite U. easy.
        -- rewrite (upd_other _ _ _ t1) by easy. rewrite U. easy.
        -- rewrite (upd_other _ _ _ t1) by easy. rewrite U. easy.
    + injection H as <-. destruct I as [(A & B & Q & W)|(A & o & P & O)].
      * apply (inv_owner_move e s t); cbn [triggered pcs]; try easy.
        -- intros t' N. now rewrite upd_other.
        -- intros t' N. specialize (Q t'). destruct (pcs s t') eqn:E'; try easy. exfalso. apply N. apply W; [now rewrite E' | now rewrite E].
        -- unfold owner. cbn [pcs]. rewrite upd_same. split; [lia|easy].
      * exfalso. destruct (Nat.eq_dec t o) as [->|N]; [unfold owner in O; now rewrite E in O|]. specialize (P t N). now rewrite E in P.
    + injection H as <-. destruct I as [(_ & _ & Q & _)|(A & o & P & O)]; [specialize (Q t); now rewrite E in Q|].
      destruct (Nat.eq_dec t o) as [->|N]; [|specialize (P t N); now rewrite E in P].
      apply (inv_owner_move e s o); try easy; cbn [goto pcs].
      * intros t' N. now rewrite upd_other.
      * unfold owner in *. cbn [goto pcs]. rewrite upd_same. rewrite E in O. destruct c; try exact O; exists 0; exact O.
    + destruct I as [(_ & _ & Q & _)|(A & o & P & O)]; [specialize (Q t); now rewrite E in Q|].
      destruct (Nat.eq_dec t o) as [->|N]; [|specialize (P t N); now rewrite E in P].
      unfold owner in O. rewrite E in O. destruct O as [O1 O2].
      destruct (nth_error (flist e) i) as [oc|] eqn:F; injection H as <-; apply (inv_owner_move e s o); try easy; cbn [goto pcs]; try (intros t' N; now rewrite upd_other).
      * assert (Hi : i < length (flist e)) by (apply nth_error_Some; congruence).
        unfold owner. cbn [pcs]. rewrite upd_same. assert (R : ran e (mkst (triggered s) (exiting s) (loops s) (alive s) (upd (pcs s) o (match oc with OtherErr => Failed | _ => Runs (S i) end)) (calls s ++ [(o, i)])) o (S i)).
        { split; [lia|]. cbn [calls]. now rewrite O2, seq_snoc. }
        destruct oc; [exact R | exact R | exists (S i); exact R].
      * unfold owner. cbn [goto pcs]. rewrite upd_same. exists i. split; easy.
    + injection H as <-. destruct I as [(_ & _ & Q & _)|(A & o & P & O)]; [specialize (Q t); now rewrite E in Q|].
      destruct (Nat.eq_dec t o) as [->|N]; [|specialize (P t N); now rewrite E in P].
      apply (inv_owner_move e s o); try easy; cbn [pcs]; [intros t' N; now rewrite upd_other|].
      unfold owner in *. cbn [pcs]. rewrite upd_same. rewrite E in O. destruct O as (m & O). exists m. exact O.
    + destruct I as [(_ & _ & Q & _)|(A & o & P & O)]; [specialize (Q t); now rewrite E in Q|].
      destruct (Nat.eq_dec t o) as [->|N]; [|specialize (P t N); now rewrite E in P].
      unfold owner in O. rewrite E in O. destruct O as (m & O).
      assert (G : forall s1, triggered s1 = true -> calls s1 = calls s -> (forall t', t' <> o -> pcs s1 t' = pcs s t') ->
        match pcs s1 o with Stops _ | Failed | Joins _ => True | _ => False end -> inv e s1).
      { intros s1 T1 C1 P1 K. apply (inv_owner_move e s o); try easy. unfold owner.
        destruct (pcs s1 o); try easy; exists m; (split; [apply O | rewrite C1; apply O]). }
      destruct (j <? length (tids e)); [destruct (control e j)|]; injection H as <-; apply G; try easy; cbn [goto pcs]; try (intros t' N; now rewrite upd_other); now rewrite upd_same.
    + destruct I as [(_ & _ & Q & _)|I]; [specialize (Q t); now rewrite E in Q|]. 
      assert (I' : inv e s) by (right; exact I). destruct I as (T & _).
      destruct (j <? length (tids e)); [destruct (may_pass e s t j); [|easy]|]; injection H as <-; now apply inv_goto_triggered.
  - destruct (_ && _ && _); [|easy]. injection H as <-. destruct I as [I|(A & o & P & O)]; [left; exact I | right; split; [easy|]; exists o; split; [exact P|exact O]].
  - destruct (triggered s && cleaning (pcs s t)) eqn:B; [|easy]. injection H as <-. apply andb_true_iff in B. now apply inv_goto_triggered.
Qed.
Lemma inv_reaches e l s : reaches e start l s -> inv e s.
Proof. induction 1 as [|l s1 x s2 R IH U N]; [apply inv_start | eapply inv_next; eauto]. Qed.

(** ** C45 *)
(** Every function is called at most once, by one thread, in the order of registration. *)
Theorem cleanup_at_most_once_partial e l s : reaches e start l s -> exists t m, m <= length (flist e) /\ calls s = map (pair t) (seq 0 m).
Proof.
  intros R. apply inv_reaches in R. destruct R as [(_ & C & _)|(_ & o & _ & O)].
  - exists 0, 0. rewrite C. split; [lia|easy].
  - destruct (owner_ran e s o O) as (m & M). now exists o, m.
Qed.

(** *** Completeness *)
Definition known (p : pc) : Prop := match p with Calls Unknown | Enters Unknown | Window Unknown | Flagged Unknown => False | _ => True end.
Definition orderly (x : ev) : Prop := match x with Req _ Unknown => False | Sig _ => False | _ => True end.
Definition well_behaved (e : env) : Prop := (forall o, In o (flist e) -> o <> OtherErr) /\ (forall j, j < length (tids e) -> control e j = true).
Definition works (e : env) (s : st) (o : nat) : Prop :=
  match pcs s o with
  | Flagged _ => ran e s o 0
  | Runs i => ran e s o i
  | Relaxes => ran e s o (length (flist e))
  | Stops j => ran e s o (length (flist e)) /\ exiting s = false /\ j <= length (tids e) /\ forall i, i < j -> loops s i = false
  | Joins _ | Dead => done e s o
  | _ => False
  end.
Definition inv2 (e : env) (s : st) : Prop := (forall t, known (pcs s t)) /\
  ((triggered s = false /\ calls s = [] /\ (forall t, quiet (pcs s t)) /\
     (forall t t', in_window (pcs s t) = true -> in_window (pcs s t') = true -> t = t')) \/
   (triggered s = true /\ exists o, (forall t, t <> o -> passive (pcs s t)) /\ works e s o)).

Lemma known_upd s t p : (forall t, known (pcs s t)) -> known p -> forall t', known (upd (pcs s) t p t').
Proof. intros K Kp t'. destruct (Nat.eq_dec t' t) as [->|N]; [now rewrite upd_same | now rewrite upd_other]. Qed.
Lemma works_goto e s t p o : o <> t -> works e s o -> works e (goto s t p) o.
Proof. intros N H. unfold works in *. cbn [goto pcs]. rewrite upd_other by easy. exact H. Qed.

Lemma inv2_goto_quiet e s t p : inv2 e s -> triggered s = false -> quiet p -> known p -> in_window p = false -> inv2 e (goto s t p).
Proof.
  intros [K [(A & B & Q & W)|(A & _)]] T Hp Hk Hw; [|now rewrite A in T]. split; [now apply known_upd|]. left. cbn [goto triggered calls pcs]. repeat split; try easy.
  - intros t'. destruct (Nat.eq_dec t' t) as [->|N]; [now rewrite upd_same | now rewrite upd_other].
  - intros t1 t2. destruct (Nat.eq_dec t1 t) as [->|N1]; [rewrite upd_same; congruence|].
    destruct (Nat.eq_dec t2 t) as [->|N2]; [rewrite upd_same; congruence|]. rewrite !upd_other by easy. apply W.
Qed.
(** a thread other than the owner moves *)
Lemma inv2_other e s t p : inv2 e s -> triggered s = true -> passive (pcs s t) ->
  match pcs s t with Joins _ | Dead => match p with Joins _ | Dead => True | _ => False end | _ => passive p end -> known p -> inv2 e (goto s t p).
Proof.
  intros [K [(A & _)|(A & o & P & O)]] T Hs Hp Hk; [now rewrite A in T|]. split; [now apply known_upd|]. right. split; [easy|]. exists o. cbn [goto pcs]. split.
  - intros t' N. destruct (Nat.eq_dec t' t) as [->|N']; [rewrite upd_same | rewrite upd_other by easy; now apply P].
    destruct (pcs s t); try easy; destruct p; easy.
  - destruct (Nat.eq_dec o t) as [->|N]; [|now apply works_goto].
    unfold works in *. cbn [goto pcs]. rewrite upd_same. destruct (pcs s t); try easy; destruct p; easy.
Qed.
Lemma inv2_owner e s t s' : triggered s' = true -> (forall t', t' <> t -> pcs s' t' = pcs s t') -> (forall t', known (pcs s t')) -> known (pcs s' t) ->
  (forall t', t' <> t -> passive (pcs s t')) -> works e s' t -> inv2 e s'.
Proof.
  intros T P K Kt Q O. split.
  - intros t'. destruct (Nat.eq_dec t' t) as [->|N]; [easy|]. rewrite P by easy. apply K.
  - right. split; [easy|]. exists t. split; [|easy]. intros t' N. rewrite P by easy. now apply Q.
Qed.

Lemma inv2_next e s x s' : well_behaved e -> inv2 e s -> undisturbed s x -> orderly x -> next e s x = Some s' -> inv2 e s'.
Proof.
  intros [WF WC] I U Hx H. assert (I' := I). destruct I' as [K I'].
  destruct x as [t c|t|j|t]; cbn [next] in H; [| | |easy].
  - destruct (may_request (pcs s t)) eqn:M; [|easy]. injection H as <-. destruct (triggered s) eqn:T.
    + apply inv2_other; try easy; destruct (pcs s t); try easy; now destruct c.
    + apply inv2_goto_quiet; easy.
  - unfold act in H. unfold undisturbed in U. pose proof (K t) as Kt. destruct (pcs s t) as [|c|c|c|c|i| |j|j| | |] eqn:E; try easy.
    + injection H as <-. destruct (triggered s) eqn:T; [apply inv2_other | apply inv2_goto_quiet]; try easy; now rewrite E.
    + injection H as <-. destruct (triggered s) eqn:T; [apply inv2_other; try easy; now rewrite E|].
      destruct I' as [(A & B & Q & W)|(A & _)]; [|now rewrite A in T]. split; [now apply known_upd|]. left. cbn [goto triggered calls pcs]. repeat split; try easy.
      * intros t'. destruct (Nat.eq_dec t' t) as [->|N]; [now rewrite upd_same | now rewrite upd_other].
      * intros t1 t2. destruct (Nat.eq_dec t1 t) as [->|N1]; destruct (Nat.eq_dec t2 t) as [->|N2]; try easy.
        -- rewrite (upd_other _ _ _ t2) by easy. rewrite U. easy.
        -- rewrite (upd_other _ _ _ t1) by easy. rewrite U. easy.
        -- rewrite (upd_other _ _ _ t1) by easy. rewrite U. easy.
    + injection H as <-. destruct I' as [(A & B & Q & W)|(A & o & P & O)].
      * apply (inv2_owner e s t); cbn [triggered pcs]; try easy.
        -- intros t' N. now rewrite upd_other.
        -- rewrite upd_same. exact Kt.
        -- intros t' N. specialize (Q t'). destruct (pcs s t') eqn:E'; try easy. exfalso. apply N. apply W; [now rewrite E' | now rewrite E].
        -- unfold works. cbn [pcs]. rewrite upd_same. split; [lia|easy].
      * exfalso. destruct (Nat.eq_dec t o) as [->|N]; [unfold works in O; now rewrite E in O|]. specialize (P t N). now rewrite E in P.
    + injection H as <-. destruct I' as [(_ & _ & Q & _)|(A & o & P & O)]; [specialize (Q t); now rewrite E in Q|].
      destruct (Nat.eq_dec t o) as [->|N]; [|specialize (P t N); now rewrite E in P].
      apply (inv2_owner e s o); try easy; cbn [goto pcs].
      * intros t' N. now rewrite upd_other.
      * rewrite upd_same. now destruct c.
      * unfold works in *. cbn [goto pcs]. rewrite upd_same. rewrite E in O. destruct c; try exact O; easy.
    + destruct I' as [(_ & _ & Q & _)|(A & o & P & O)]; [specialize (Q t); now rewrite E in Q|].
      destruct (Nat.eq_dec t o) as [->|N]; [|specialize (P t N); now rewrite E in P].
      unfold works in O. rewrite E in O. destruct O as [O1 O2].
      destruct (nth_error (flist e) i) as [oc|] eqn:F; injection H as <-; apply (inv2_owner e s o); try easy; cbn [goto pcs]; try (intros t' N; now rewrite upd_other).
      * rewrite upd_same. now destruct oc.
      * assert (Hi : i < length (flist e)) by (apply nth_error_Some; congruence). apply nth_error_In in F. apply WF in F.
        unfold works. cbn [pcs]. rewrite upd_same.
        destruct oc; try easy; (split; [lia|]; cbn [calls]; now rewrite O2, seq_snoc).
      * rewrite upd_same. easy.
      * unfold works. cbn [goto pcs]. rewrite upd_same. apply nth_error_None in F. assert (i = length (flist e)) by lia. subst i. split; easy.
    + injection H as <-. destruct I' as [(_ & _ & Q & _)|(A & o & P & O)]; [specialize (Q t); now rewrite E in Q|].
      destruct (Nat.eq_dec t o) as [->|N]; [|specialize (P t N); now rewrite E in P].
      apply (inv2_owner e s o); try easy; cbn [pcs]; [intros t' N; now rewrite upd_other|now rewrite upd_same|].
      unfold works in *. cbn [pcs]. rewrite upd_same. rewrite E in O. split; [exact O|]. split; [easy|]. split; [lia|]. intros; lia.
    + destruct I' as [(_ & _ & Q & _)|(A & o & P & O)]; [specialize (Q t); now rewrite E in Q|].
      destruct (Nat.eq_dec t o) as [->|N]; [|specialize (P t N); now rewrite E in P].
      unfold works in O. rewrite E in O. destruct O as (O1 & O2 & O3 & O4).
      destruct (Nat.ltb_spec j (length (tids e))) as [L|L]; [rewrite (WC j L) in H|]; injection H as <-;
      (apply (inv2_owner e s o); try easy; cbn [goto pcs]; [intros t' N; now rewrite upd_other | now rewrite upd_same|]; unfold works; cbn [goto pcs]; rewrite upd_same).
      * split; [exact O1|]. split; [easy|]. split; [lia|]. intros i Hi. cbn [loops]. destruct (Nat.eq_dec i j) as [->|N]; [now rewrite upd_same|]. rewrite upd_other by easy. apply O4. lia.
      * split; [apply O1|]. split; [|easy]. intros i Hi. apply O4. lia.
    + assert (T : triggered s = true) by (destruct I' as [(_ & _ & Q & _)|(T & _)]; [specialize (Q t); now rewrite E in Q|easy]).
      destruct (j <? length (tids e)); [destruct (may_pass e s t j); [|easy]|]; injection H as <-; apply inv2_other; try easy; now rewrite E.
  - destruct (_ && _ && _); [|easy]. injection H as <-. split; [exact K|]. destruct I' as [I'|(A & o & P & O)]; [left; exact I' | right; split; [easy|]; exists o; split; [exact P|exact O]].
Qed.
Lemma inv2_start e : inv2 e start.
Proof. split; [easy|]. left. cbn. repeat split; easy. Qed.
Lemma inv2_reaches e l s : well_behaved e -> (forall x, In x l -> orderly x) -> reaches e start l s -> inv2 e s.
Proof.
  intros W Hl R. induction R as [|l s1 x s2 R IH U N]; [apply inv2_start|].
  eapply inv2_next; eauto; [apply IH; intros y Hy; apply Hl; apply in_or_app; now left | apply Hl; apply in_or_app; right; now left].
Qed.

(** the thread that cleans up, left alone, finishes its work *)
Lemma exec_app e s l1 l2 : exec e s (l1 ++ l2) = match exec e s l1 with Some s1 => exec e s1 l2 | None => None end.
Proof. revert s. induction l1 as [|x l1 IH]; intros s; cbn [app exec]; [easy|]. now destruct (next e s x). Qed.
Lemma finish_stops e : (forall j, j < length (tids e) -> control e j = true) -> forall d s o j, length (tids e) - j = d -> pcs s o = Stops j ->
  works e s o -> exists n s', exec e s (repeat (Act o) n) = Some s' /\ done e s' o.
Proof.
  intros WC. induction d as [|d IH]; intros s o j Hd E W; assert (W0 := W); unfold works in W; rewrite E in W; destruct W as (W1 & W2 & W3 & W4).
  - exists 0, s. split; [easy|]. split; [apply W1|]. split; [|easy]. intros i Hi. apply W4. lia.
  - set (s1 := mkst (triggered s) (exiting s) (upd (loops s) j false) (alive s) (upd (pcs s) o (Stops (S j))) (calls s)).
    assert (N : next e s (Act o) = Some s1). { cbn [next]. unfold act. rewrite E. replace (j <? length (tids e)) with true by (symmetry; apply Nat.ltb_lt; lia). rewrite WC by lia. easy. }
    destruct (IH s1 o (S j)) as (n & s' & X & D).
    + lia.
    + cbn [s1 pcs]. apply upd_same.
    + unfold works. cbn [s1 pcs]. rewrite upd_same. split; [exact W1|]. split; [easy|]. split; [lia|]. intros i Hi. cbn [s1 loops].
      destruct (Nat.eq_dec i j) as [->|Nj]; [now rewrite upd_same|]. rewrite upd_other by easy. apply W4. lia.
    + exists (S n), s'. split; [|easy]. cbn [repeat exec]. now rewrite N.
Qed.
Lemma finish_runs e : well_behaved e -> forall d s o i, length (flist e) - i = d -> pcs s o = Runs i ->
  works e s o -> exists n s', exec e s (repeat (Act o) n) = Some s' /\ done e s' o.
Proof.
  intros [WF WC]. induction d as [|d IH]; intros s o i Hd E W; assert (W0 := W); unfold works in W; rewrite E in W; destruct W as (W1 & W2).
  - assert (i = length (flist e)) by lia. subst i.
    set (s1 := goto s o Relaxes). set (s2 := mkst (triggered s1) false (loops s1) (alive s1) (upd (pcs s1) o (Stops 0)) (calls s1)).
    assert (N1 : next e s (Act o) = Some s1). { cbn [next]. unfold act. rewrite E. rewrite (proj2 (nth_error_None _ _)) by lia. easy. }
    assert (N2 : next e s1 (Act o) = Some s2). { cbn [next]. unfold act. cbn [s1 goto pcs]. now rewrite upd_same. }
    destruct (finish_stops e WC (length (tids e)) s2 o 0) as (n & s' & X & D).
    + lia.
    + cbn [s2 pcs]. apply upd_same.
    + unfold works. cbn [s2 pcs]. rewrite upd_same. split; [split; easy|]. split; [easy|]. split; [lia|]. intros; lia.
    + exists (S (S n)), s'. split; [|easy]. cbn [repeat exec]. now rewrite N1, N2.
  - destruct (nth_error (flist e) i) as [oc|] eqn:F; [|apply nth_error_None in F; lia].
    assert (oc <> OtherErr) by (apply WF; now apply nth_error_In in F).
    set (s1 := mkst (triggered s) (exiting s) (loops s) (alive s) (upd (pcs s) o (Runs (S i))) (calls s ++ [(o, i)])).
    assert (N : next e s (Act o) = Some s1). { cbn [next]. unfold act. rewrite E, F. now destruct oc. }
    destruct (IH s1 o (S i)) as (n & s' & X & D).
    + lia.
    + cbn [s1 pcs]. apply upd_same.
    + unfold works. cbn [s1 pcs]. rewrite upd_same. split; [lia|]. cbn [s1 calls]. now rewrite W2, seq_snoc.
    + exists (S n), s'. split; [|easy]. cbn [repeat exec]. now rewrite N.
Qed.
(** Without further signals, and if no function fails with anything but a
    RuntimeError: once the exit has been triggered, the cleaning thread has done
    everything or can go on until it has. *)
Theorem cleanup_completes_partial e l s : well_behaved e -> (forall x, In x l -> orderly x) -> reaches e start l s -> triggered s = true ->
  exists t n s', exec e s (repeat (Act t) n) = Some s' /\ done e s' t.
Proof.
  intros W Hl R T. destruct (inv2_reaches e l s W Hl R) as [K [(A & _)|(A & o & P & O)]]; [congruence|]. exists o.
  destruct (pcs s o) as [|c|c|c|c|i| |j|j| | |] eqn:E; try (unfold works in O; rewrite E in O; easy).
  - set (s1 := goto s o (Runs 0)).
    assert (N : next e s (Act o) = Some s1). { cbn [next]. unfold act. rewrite E. specialize (K o). rewrite E in K. destruct c; easy. }
    destruct (finish_runs e W (length (flist e)) s1 o 0) as (n & s' & X & D).
    + lia.
    + cbn [s1 goto pcs]. apply upd_same.
    + unfold works in *. cbn [s1 goto pcs]. rewrite upd_same. rewrite E in O. exact O.
    + exists (S n), s'. split; [|easy]. cbn [repeat exec]. now rewrite N.
  - now apply (finish_runs e W (length (flist e) - i) s o i).
  - set (s2 := mkst (triggered s) false (loops s) (alive s) (upd (pcs s) o (Stops 0)) (calls s)).
    assert (N2 : next e s (Act o) = Some s2). { cbn [next]. unfold act. now rewrite E. }
    unfold works in O. rewrite E in O.
    destruct (finish_stops e (proj2 W) (length (tids e)) s2 o 0) as (n & s' & X & D).
    + lia.
    + cbn [s2 pcs]. apply upd_same.
    + unfold works. cbn [s2 pcs]. rewrite upd_same. split; [exact O|]. split; [easy|]. split; [lia|]. intros; lia.
    + exists (S n), s'. split; [|easy]. cbn [repeat exec]. now rewrite N2.
  - now apply (finish_stops e (proj2 W) (length (tids e) - j) s o j).
  - exists 0, s. unfold works in O. rewrite E in O. easy.
  - exists 0, s. unfold works in O. rewrite E in O. easy.
Qed.

(** *** What the code does not guarantee *)
Lemma run_check e l (P : st -> bool) : match exec e start l with Some s => P s | None => false end = true -> exists s, exec e start l = Some s /\ P s = true.
Proof. destruct (exec e start l) as [s|]; [|easy]. intros H. now exists s. Qed.
Lemma act_local e s t s' t' : act e s t = Some s' -> t' <> t -> pcs s' t' = pcs s t'.
Proof.
  intros N Ht. unfold act in N. destruct (pcs s t); try easy;
  repeat (match type of N with context [if ?b then _ else _] => destruct b | context [match ?b with _ => _ end] => destruct b end; try easy);
  injection N as <-; cbn [goto pcs]; now rewrite upd_other.
Qed.
(** threads that made no request are not in the soft exit *)
Lemma others_idle e l t : (forall c, ~ In (Req t c) l) -> forall s s', exec e s l = Some s' -> pcs s t = Idle -> pcs s' t = Idle.
Proof.
  induction l as [|x l IH]; intros Hl s s' H I; cbn [exec] in H; [now injection H as <-|]. destruct (next e s x) as [s1|] eqn:N; [|easy].
  apply (IH (fun c K => Hl c (or_intror K)) s1 s' H). destruct x as [t1 c|t1|j|t1]; cbn [next] in N.
  - destruct (may_request _); [|easy]. injection N as <-. cbn [goto pcs]. rewrite upd_other; [easy|]. intros ->. apply (Hl c). now left.
  - destruct (Nat.eq_dec t t1) as [->|Nt]; [|now rewrite (act_local _ _ _ _ _ N Nt)]. unfold act in N. now rewrite I in N.
  - destruct (_ && _ && _); [|easy]. now injection N as <-.
  - destruct (triggered s && cleaning (pcs s t1)) eqn:B; [|easy]. injection N as <-. cbn [goto pcs]. destruct (Nat.eq_dec t t1) as [->|Nt]; [|now rewrite upd_other].
    rewrite I in B. cbn in B. now rewrite andb_false_r in B.
Qed.
Definition pair_eqb (a b : nat * nat) : bool := Nat.eqb (fst a) (fst b) && Nat.eqb (snd a) (snd b).
Fixpoint log_eqb (a b : list (nat * nat)) : bool :=
  match a, b with [], [] => true | x :: a, y :: b => pair_eqb x y && log_eqb a b | _, _ => false end.
Lemma log_eqb_eq a b : log_eqb a b = true -> a = b.
Proof.
  revert b. induction a as [|[x y] a IH]; intros [|[z w] b]; cbn; try easy. intros H. apply andb_true_iff in H. destruct H as [H1 H2].
  apply andb_true_iff in H1. cbn in H1. destruct H1 as [A B]. apply Nat.eqb_eq in A, B. rewrite (IH b H2). now subst.
Qed.
(** Two threads in the window: the functions run twice. *)
Theorem cleanup_twice_refuted : exists e l s, exec e start l = Some s /\ flist e <> [] /\ calls s = [(1, 0); (2, 0)].
Proof.
  set (e := mkenv [Fine] [] (fun _ => true) 0).
  set (l := [Req 1 Restartable; Req 2 Restartable; Act 1; Act 2; Act 1; Act 2; Act 1; Act 2; Act 1; Act 2; Act 1; Act 2]).
  destruct (run_check e l (fun s => log_eqb (calls s) [(1, 0); (2, 0)])) as (s & X & C); [vm_compute; reflexivity|].
  exists e, l, s. split; [exact X|]. split; [easy|]. now apply log_eqb_eq.
Qed.

(** Once the flag is set and nobody is cleaning up, nothing is called any more. *)
Definition idle_cleaner (p : pc) : Prop := match p with Window _ | Flagged _ | Runs _ | Relaxes | Stops _ => False | _ => True end.
Lemma silent_next e s x s' : triggered s = true -> (forall t, idle_cleaner (pcs s t)) -> next e s x = Some s' ->
  triggered s' = true /\ (forall t, idle_cleaner (pcs s' t)) /\ calls s' = calls s /\ loops s' = loops s /\ exiting s' = exiting s.
Proof.
  intros T Q H.
  assert (G : forall t p, idle_cleaner p -> Some (goto s t p) = Some s' -> triggered s' = true /\ (forall t, idle_cleaner (pcs s' t)) /\ calls s' = calls s /\ loops s' = loops s /\ exiting s' = exiting s).
  { intros t p Hp E. injection E as <-. cbn [goto triggered pcs calls loops exiting]. repeat split; try easy. intros t'. destruct (Nat.eq_dec t' t) as [->|N]; [now rewrite upd_same | now rewrite upd_other]. }
  destruct x as [t c|t|j|t]; cbn [next] in H.
  - destruct (may_request _); [|easy]. now apply (G t (Calls c)).
  - unfold act in H. pose proof (Q t) as Qt. rewrite T in H. destruct (pcs s t) as [|c|c|c|c|i| |j|j| | |] eqn:E; try easy.
    + now apply (G t Back).
    + now apply (G t (Joins 0)).
    + destruct (j <? length (tids e)); [destruct (may_pass e s t j); [|easy]; now apply (G t (Joins (S j)))|now apply (G t Dead)].
  - destruct (_ && _ && _); [|easy]. injection H as <-. easy.
  - destruct (_ && _); [|easy]. now apply (G t Failed).
Qed.
Theorem nothing_after_failure e s l s' : triggered s = true -> (forall t, idle_cleaner (pcs s t)) -> exec e s l = Some s' ->
  calls s' = calls s /\ loops s' = loops s /\ exiting s' = exiting s.
Proof.
  revert s. induction l as [|x l IH]; intros s T Q H; cbn [exec] in H; [now injection H as <-|].
  destruct (next e s x) as [s1|] eqn:N; [|easy]. destruct (silent_next e s x s1 T Q N) as (T1 & Q1 & C & L & X).
  destruct (IH s1 T1 Q1 H) as (C' & L' & X'). rewrite C', L', X'. easy.
Qed.
(** A request with a text in place of the status (forcefields.py:2352, mintools.py:1081):
    nothing is cleaned up, by this or any later request, and threads waiting for
    [exiting] wait for ever. *)
Definition idleb (p : pc) : bool := match p with Window _ | Flagged _ | Runs _ | Relaxes | Stops _ => false | _ => true end.
Lemma quiet_forever e l (log : list (nat * nat)) (f : (nat -> bool) -> bool -> bool) : (forall t c, In (Req t c) l -> t = 1) ->
  match exec e start l with Some s => triggered s && idleb (pcs s 1) && log_eqb (calls s) log && f (loops s) (exiting s) | None => false end = true ->
  exists s, exec e start l = Some s /\ forall l' s', exec e s l' = Some s' -> calls s' = log /\ f (loops s') (exiting s') = true.
Proof.
  intros Hl H. apply (run_check e l (fun s => triggered s && idleb (pcs s 1) && log_eqb (calls s) log && f (loops s) (exiting s))) in H.
  destruct H as (s & X & P). exists s. split; [easy|]. intros l' s' X'.
  apply andb_true_iff in P. destruct P as [P P4]. apply andb_true_iff in P. destruct P as [P P3]. apply andb_true_iff in P. destruct P as [P1 P2].
  apply nothing_after_failure in X'; [|easy|].
  - destruct X' as (-> & -> & ->). split; [now apply log_eqb_eq|easy].
  - intros t. destruct (Nat.eq_dec t 1) as [->|Nt]; [now destruct (pcs s 1)|].
    rewrite (others_idle e l t) with (s := start) (s' := s); try easy. intros c K. apply Hl in K. easy.
Qed.
Theorem unknown_status_refuted : exists e l s, exec e start l = Some s /\ flist e <> [] /\
  forall l' s', exec e s l' = Some s' -> calls s' = [] /\ loops s' 0 = true /\ exiting s' = true.
Proof.
  exists (mkenv [Fine] [5] (fun _ => true) 0), [Req 1 Unknown; Act 1; Act 1; Act 1; Act 1].
  destruct (quiet_forever (mkenv [Fine] [5] (fun _ => true) 0) [Req 1 Unknown; Act 1; Act 1; Act 1; Act 1] [] (fun f b => f 0 && b)) as (s & X & H); [|vm_compute; reflexivity|].
  - cbn. intros t c [K|K]; [now injection K|]. repeat destruct K as [K|K]; easy.
  - exists s. split; [exact X|]. split; [easy|]. intros l' s' X'. apply H in X'. destruct X' as [A B]. apply andb_true_iff in B. easy.
Qed.
(** An exception other than RuntimeError in a function: the later ones never run
    and the threads are never told to stop. *)
Theorem other_exception_refuted : exists e l s, exec e start l = Some s /\ length (flist e) = 2 /\
  forall l' s', exec e s l' = Some s' -> calls s' = [(1, 0)] /\ loops s' 0 = true.
Proof.
  exists (mkenv [OtherErr; Fine] [5] (fun _ => true) 0), [Req 1 Restartable; Act 1; Act 1; Act 1; Act 1; Act 1].
  destruct (quiet_forever (mkenv [OtherErr; Fine] [5] (fun _ => true) 0) [Req 1 Restartable; Act 1; Act 1; Act 1; Act 1; Act 1] [(1, 0)] (fun f b => f 0)) as (s & X & H); [|vm_compute; reflexivity|].
  - cbn. intros t c [K|K]; [now injection K|]. repeat destruct K as [K|K]; easy.
  - exists s. split; [exact X|]. split; [easy|]. exact H.
Qed.
(** A second signal while the main thread is cleaning up stops the cleaning for good. *)
Theorem second_signal_refuted : exists e l s, exec e start l = Some s /\ length (flist e) = 2 /\ well_behaved e /\
  forall l' s', exec e s l' = Some s' -> calls s' = [(1, 0)] /\ loops s' 0 = true.
Proof.
  exists (mkenv [Fine; Fine] [5] (fun _ => true) 0), [Req 1 Restartable; Act 1; Act 1; Act 1; Act 1; Act 1; Sig 1].
  destruct (quiet_forever (mkenv [Fine; Fine] [5] (fun _ => true) 0) [Req 1 Restartable; Act 1; Act 1; Act 1; Act 1; Act 1; Sig 1] [(1, 0)] (fun f b => f 0)) as (s & X & H); [|vm_compute; reflexivity|].
  - cbn. intros t c [K|K]; [now injection K|]. repeat destruct K as [K|K]; easy.
  - exists s. split; [exact X|]. split; [easy|]. split; [|exact H]. split; [cbn; intros o [<-|[<-|[]]]; discriminate|easy].
Qed.
(** A registered thread without a loop variable (register_thread with its default). *)
Theorem missing_control_refuted : exists e l s, exec e start l = Some s /\ length (tids e) = 2 /\ (forall o, In o (flist e) -> o = Fine) /\
  forall l' s', exec e s l' = Some s' -> loops s' 1 = true.
Proof.
  exists (mkenv [Fine] [5; 6] (fun j => Nat.eqb j 1) 0), [Req 1 Restartable; Act 1; Act 1; Act 1; Act 1; Act 1; Act 1; Act 1; Act 1].
  destruct (quiet_forever (mkenv [Fine] [5; 6] (fun j => Nat.eqb j 1) 0) [Req 1 Restartable; Act 1; Act 1; Act 1; Act 1; Act 1; Act 1; Act 1; Act 1] [(1, 0)] (fun f b => f 1)) as (s & X & H); [|vm_compute; reflexivity|].
  - cbn. intros t c [K|K]; [now injection K|]. repeat destruct K as [K|K]; easy.
  - exists s. split; [exact X|]. split; [easy|]. split; [cbn; intros o [<-|[]]; easy|]. intros l' s' X'. now apply H in X'.
Qed.

(** a test that an execution is undisturbed, when only the threads [ts] make requests *)
Definition calm (s : st) (ts : list nat) (x : ev) : bool :=
  match x with
  | Act t => match pcs s t with Enters _ => forallb (fun t' => negb (in_window (pcs s t'))) ts | _ => true end
  | Req t _ => existsb (Nat.eqb t) ts
  | _ => true
  end.
Fixpoint all_calm (e : env) (ts : list nat) (s : st) (l : list ev) : bool :=
  match l with
  | [] => true
  | x :: l => calm s ts x && match next e s x with Some s' => all_calm e ts s' l | None => false end
  end.
Lemma reaches_of e l ts : forall s s', (forall t, ~ In t ts -> pcs s t = Idle) -> exec e s l = Some s' -> all_calm e ts s l = true -> reaches e s l s'.
Proof.
  induction l as [|x l IH]; intros s s' I X C; cbn [exec all_calm] in *; [injection X as <-; constructor|].
  destruct (next e s x) as [s1|] eqn:N; [|easy]. apply andb_true_iff in C. destruct C as [C1 C2].
  apply (reaches_cons e s x s1); [|easy|].
  - unfold undisturbed. destruct x as [t c|t|j|t]; try easy. cbn [calm] in C1. destruct (pcs s t); try easy. intros t'.
    destruct (in_dec Nat.eq_dec t' ts) as [H|H]; [|now rewrite I]. rewrite forallb_forall in C1. apply C1 in H. now destruct (in_window (pcs s t')).
  - apply IH; try easy. intros t Ht. apply (others_idle e [x] t) with (s := s); [|cbn [exec]; now rewrite N|now apply I].
    intros c [K|[]]. subst x. cbn [calm] in C1. apply existsb_exists in C1. destruct C1 as (y & Hy & E). apply Nat.eqb_eq in E. now subst.
Qed.

(** *** Waiting for the threads *)
(** Two registered threads that both passed the test in trigger wait for each other. *)
Definition stuck (s : st) : Prop := pcs s 5 = Joins 1 /\ pcs s 6 = Joins 0 /\ alive s 0 = true /\ alive s 1 = true.
Theorem join_deadlock_refuted : exists e l s, reaches e start l s /\ well_behaved e /\ (forall x, In x l -> orderly x) /\
  forall l' s', (forall x, In x l' -> orderly x) -> exec e s l' = Some s' -> pcs s' 5 = Joins 1 /\ pcs s' 6 = Joins 0.
Proof.
  set (e := mkenv [Fine] [5; 6] (fun _ => true) 0).
  assert (G : forall l s, stuck s -> (forall x, In x l -> orderly x) -> forall s', exec e s l = Some s' -> stuck s').
  { induction l as [|x l IH]; intros s K O s' H; cbn [exec] in H; [now injection H as <-|].
    destruct (next e s x) as [s1|] eqn:N; [|easy]. apply (IH s1); [|intros y Hy; apply O; now right|exact H].
    destruct K as (K1 & K2 & K3 & K4). destruct x as [t c|t|j|t]; cbn [next] in N; [| | |destruct (O (Sig t)); now left].
    - destruct (may_request (pcs s t)) eqn:M; [|easy]. injection N as <-. unfold stuck. cbn [goto pcs alive].
      assert (t <> 5) by (intros ->; now rewrite K1 in M). assert (t <> 6) by (intros ->; now rewrite K2 in M). rewrite !upd_other by auto. easy.
    - destruct (Nat.eq_dec t 5) as [->|N5].
      { exfalso. unfold act in N. rewrite K1 in N. cbn in N. unfold may_pass in N. cbn in N. rewrite K4 in N. easy. }
      destruct (Nat.eq_dec t 6) as [->|N6].
      { exfalso. unfold act in N. rewrite K2 in N. cbn in N. unfold may_pass in N. cbn in N. rewrite K3 in N. easy. }
      assert (P : alive s1 = alive s /\ forall t', t' <> t -> pcs s1 t' = pcs s t').
      { unfold act in N. destruct (pcs s t); try easy; repeat (match type of N with context [if ?b then _ else _] => destruct b | context [match ?b with _ => _ end] => destruct b end; try easy); injection N as <-; cbn [goto pcs alive]; (split; [easy|]); intros; now rewrite upd_other. }
      destruct P as [P1 P2]. unfold stuck. rewrite P1, !P2 by auto. easy.
    - destruct (Nat.ltb j (length (tids e)) && alive s j && may_end s (pcs s (nth j (tids e) 0)) j) eqn:B; [|easy]. injection N as <-.
      apply andb_true_iff in B. destruct B as [B1 B2]. apply andb_true_iff in B1. destruct B1 as [B0 B1]. apply Nat.ltb_lt in B0. cbn in B0.
      destruct j as [|[|j]]; [| |lia]; cbn [nth tids e] in B2; [rewrite K1 in B2 | rewrite K2 in B2]; easy. }
  set (l := [Req 5 Restartable; Req 6 Restartable; Act 5; Act 6; Act 5; Act 5; Act 5; Act 5; Act 5; Act 5; Act 5; Act 5; Act 5; Act 5; Act 6]).
  destruct (exec e start l) as [s|] eqn:X; [|vm_compute in X; easy]. exists e, l, s.
  assert (K : stuck s).
  { assert (Y : match exec e start l with Some s => (pcs s 5, pcs s 6, alive s 0, alive s 1) | None => (Idle, Idle, false, false) end = (Joins 1, Joins 0, true, true)) by (vm_compute; reflexivity).
    rewrite X in Y. unfold stuck. injection Y as -> -> -> ->. repeat split. }
  assert (O : forall x, In x l -> orderly x) by (intros x Hx; cbn in Hx; repeat destruct Hx as [<-|Hx]; easy).
  split; [|split; [|split]].
  - clear G O K. apply (reaches_of e l [5; 6] start s); [|exact X|vm_compute; reflexivity].
    intros t Ht. reflexivity.
  - clear -e. split; [cbn; intros o [<-|[]]; easy|easy].
  - exact O.
  - intros l' s' O' X'. destruct (G l' s K O' s' X') as (A & B & _). split; assumption.
Qed.

(** If the registered threads make no requests themselves, whoever waits for one
    of them after the clean-up waits for a thread that is free to end. *)
Theorem joins_end_partial e l s o : (forall j c, j < length (tids e) -> ~ In (Req (nth j (tids e) 0) c) l) ->
  exec e start l = Some s -> done e s o -> forall t j, pcs s t = Joins j -> act e s t = None -> next e s (Fin j) <> None.
Proof.
  intros Hl X (_ & L & _) t j E A. unfold act in A. rewrite E in A. destruct (Nat.ltb_spec j (length (tids e))) as [Hj|]; [|easy].
  destruct (may_pass e s t j) eqn:M; [easy|]. unfold may_pass in M. apply orb_false_iff in M. destruct M as [_ M]. apply negb_false_iff in M.
  cbn [next]. rewrite (proj2 (Nat.ltb_lt _ _) Hj), M.
  rewrite (others_idle e l (nth j (tids e) 0)) with (s := start) (s' := s); try easy; [|intros c; now apply Hl].
  cbn [may_end andb]. rewrite (L j Hj). easy.
Qed.

(** The monitor waits for nobody: from wherever it is in the last loop it gets
    to its end alone. *)
Theorem monitor_never_waits e s j : pcs s (monitor e) = Joins j -> j <= length (tids e) ->
  exists s', exec e s (repeat (Act (monitor e)) (S (length (tids e) - j))) = Some s' /\ pcs s' (monitor e) = Dead.
Proof.
  intros E L. remember (length (tids e) - j) as n eqn:N. revert s j E L N.
  assert (U : forall s p, pcs (goto s (monitor e) p) (monitor e) = p) by (intros s p; cbn; unfold upd; now rewrite Nat.eqb_refl).
  induction n as [|n IH]; intros s j E L N.
  - exists (goto s (monitor e) Dead). split; [|apply U]. cbn [repeat exec next]. unfold act. rewrite E.
    destruct (Nat.ltb_spec j (length (tids e))); [lia|easy].
  - assert (A : next e s (Act (monitor e)) = Some (goto s (monitor e) (Joins (S j)))).
    { cbn [next]. unfold act. rewrite E. destruct (Nat.ltb_spec j (length (tids e))); [|lia]. unfold may_pass. now rewrite Nat.eqb_refl. }
    destruct (IH (goto s (monitor e) (Joins (S j))) (S j)) as (s' & X & D); [apply U|lia|lia|].
    exists s'. split; [|exact D]. change (repeat (Act (monitor e)) (S (S n))) with (Act (monitor e) :: repeat (Act (monitor e)) (S n)).
    cbn [exec]. now rewrite A.
Qed.

(** Nobody waits for its own end. *)
Theorem no_self_wait e s t j : pcs s t = Joins j -> nth j (tids e) 0 = t -> act e s t <> None.
Proof.
  intros E T. unfold act. rewrite E. destruct (j <? length (tids e)); [|easy]. unfold may_pass.
  now rewrite T, Nat.eqb_refl, orb_true_r.
Qed.

(** thread 5 is alive, the monitor gets past it *)
Example ex_monitor : exists s', exec (mkenv [] [5] (fun _ => true) 7) (mkst true false (fun _ => false) (fun _ => true) (upd (fun _ => Idle) 7 (Joins 0)) []) [Act 7; Act 7] = Some s' /\ pcs s' 7 = Dead.
Proof. eexists. split; [vm_compute; reflexivity|reflexivity]. Qed.

(** ** A concrete case: two requests, one after the other has started cleaning *)
Definition e_two : env := mkenv [Fine; RuntimeErr; Fine] [5; 6] (fun _ => true) 0.
Definition l_two : list ev := [Req 1 Restartable; Req 2 Bad; Act 1; Act 2; Act 1; Act 1; Act 2; Act 1; Act 1; Act 1; Act 1; Act 1; Act 1; Act 1; Act 1].
Example ex_two : exists s, reaches e_two start l_two s /\ well_behaved e_two /\ (forall x, In x l_two -> orderly x) /\ triggered s = true /\
  calls s = [(1, 0); (1, 1); (1, 2)] /\ done e_two s 1.
Proof.
  destruct (run_check e_two l_two (fun s => triggered s && log_eqb (calls s) [(1, 0); (1, 1); (1, 2)] && negb (loops s 0) && negb (loops s 1) && negb (exiting s))) as (s & X & C); [vm_compute; reflexivity|].
  exists s. split; [apply (reaches_of e_two l_two [1; 2] start s); [easy|exact X|vm_compute; reflexivity]|]. clear X.
  split; [split; [cbn; intros o H; repeat destruct H as [<-|H]; easy|easy]|]. split; [intros x H; cbn in H; repeat destruct H as [<-|H]; easy|].
  apply andb_true_iff in C. destruct C as [C C5]. apply andb_true_iff in C. destruct C as [C C4]. apply andb_true_iff in C. destruct C as [C C3]. apply andb_true_iff in C. destruct C as [C1 C2].
  apply log_eqb_eq in C2. split; [easy|]. split; [easy|]. split; [easy|]. split; [|now apply negb_true_iff].
  intros j Hj. cbn in Hj. destruct j as [|[|j]]; [now apply negb_true_iff|now apply negb_true_iff|lia].
Qed.

Print Assumptions cleanup_at_most_once_partial.
Print Assumptions cleanup_completes_partial.
Print Assumptions cleanup_twice_refuted.
Print Assumptions nothing_after_failure.
Print Assumptions unknown_status_refuted.
Print Assumptions other_exception_refuted.
Print Assumptions second_signal_refuted.
Print Assumptions missing_control_refuted.
Print Assumptions join_deadlock_refuted.
Print Assumptions joins_end_partial.
Print Assumptions monitor_never_waits.
Print Assumptions no_self_wait.
