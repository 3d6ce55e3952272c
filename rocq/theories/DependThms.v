(** The statements of DependProps.v, proved from DependProofs.v. *)
From Coq Require Import List Arith Lia Bool.
From Verif Require Import DependModel DependSpec DependProofs DependViewModel DependViewProofs NetBuild.
Import ListNotations.

Section Thms.
Context {V : Type} (N : net V) (deps : nat -> list nat).
Hypothesis W : wf N deps.
Variables (v0 : nat -> V) (man0 : nat -> nat) (F : nat).
Hypothesis HM : man_ok N man0.
Hypothesis HF : size N + 2 <= F.

Lemma read_fresh ops i : Forall (accepted N) ops -> i < size N ->
  exists st v st', steps N F ops (init_state N v0 man0) = Some st /\
    get N F F i st = Some (v, st') /\
    den N (assigned N ops v0) (last_set N ops man0) i v /\
    (forall w, den N (assigned N ops v0) (last_set N ops man0) i w -> w = v).
Proof.
  intros Ha Hi.
  destruct (steps_spec N deps W F ops HF Ha v0 man0 _ (init_inv N deps W v0 man0 HM)) as (st & E & I).
  destruct (get_spec N deps W _ _ F F i st I Hi) as (v & st' & Eg & I' & G); [lia|lia|].
  exists st, v, st'. split; [exact E|]. split; [exact Eg|].
  assert (D : den N (assigned N ops v0) (last_set N ops man0) i v).
  { rewrite <- (got_val _ _ _ _ _ _ G). apply (inv_den N deps W _ _ _ _ I' Hi).
    apply (got_clean _ _ _ _ _ _ G). }
  split; [exact D|]. intros w Hw. exact (den_fun N _ _ i w v Hw D).
Qed.

Lemma read_twice ops i st v st' : Forall (accepted N) ops -> i < size N ->
  steps N F ops (init_state N v0 man0) = Some st -> get N F F i st = Some (v, st') ->
  get N F F i st' = Some (v, st').
Proof.
  intros Ha Hi Es Eg.
  destruct (steps_spec N deps W F ops HF Ha v0 man0 _ (init_inv N deps W v0 man0 HM)) as (st1 & E & I).
  assert (st1 = st) by congruence. subst st1.
  destruct (get_spec N deps W _ _ F F i st I Hi) as (w & st2 & Eg2 & I' & G); [lia|lia|].
  assert (w = v /\ st2 = st') as [-> ->] by (split; congruence).
  destruct F as [|f]; [lia|]. simpl. rewrite (got_clean _ _ _ _ _ _ G), (got_val _ _ _ _ _ _ G).
  reflexivity.
Qed.

Lemma read_log ops i st v st' : Forall (accepted N) ops -> i < size N ->
  steps N F ops (init_state N v0 man0) = Some st -> get N F F i st = Some (v, st') ->
  exists new, log st' = new ++ log st /\ NoDup new /\ forall j, In j new -> ancestor N deps i j.
Proof.
  intros Ha Hi Es Eg.
  destruct (steps_spec N deps W F ops HF Ha v0 man0 _ (init_inv N deps W v0 man0 HM)) as (st1 & E & I).
  assert (st1 = st) by congruence. subst st1.
  destruct (get_spec N deps W _ _ F F i st I Hi) as (w & st2 & Eg2 & I' & G); [lia|lia|].
  assert (w = v /\ st2 = st') as [-> ->] by (split; congruence).
  destruct (got_log _ _ _ _ _ _ G) as (new & El & ND & Hn). exists new.
  split; [exact El|]. split; [exact ND|]. intros j Hj. now destruct (Hn j Hj) as (_ & _ & _ & ?).
Qed.

Lemma steps_log ops j : Forall (accepted N) ops -> j < size N ->
  forall base last st st', Inv N deps base last st -> tnt st j = false ->
  steps N F ops st = Some st' ->
  (forall i v, In (OSet i v) ops -> ~ ancestor N deps j i) ->
  count_occ Nat.eq_dec (log st') j = count_occ Nat.eq_dec (log st) j.
Proof.
  induction ops as [|o ops IH]; intros Ha Hj base last st st' I Ht Es Hno.
  - injection Es as <-. reflexivity.
  - inversion Ha as [|? ? Ho Hops]; subst. unfold steps in Es. simpl foldo in Es.
    assert (Hno' : forall i v, In (OSet i v) ops -> ~ ancestor N deps j i)
      by (intros i v Hin; apply (Hno i v); now right).
    destruct o as [i|i v]; simpl in Ho; simpl step in Es.
    + destruct (get_spec N deps W base last F F i st I Ho) as (w & st1 & E & I1 & G); [lia|lia|].
      rewrite E in Es. erewrite IH; [|exact Hops|exact Hj|exact I1| |exact Es|exact Hno'].
      * destruct (got_log _ _ _ _ _ _ G) as (new & El & _ & Hn). rewrite El, count_occ_app.
        enough (count_occ Nat.eq_dec new j = 0) by lia. apply count_occ_not_In.
        intro Hin. destruct (Hn j Hin) as (_ & Hc & _). congruence.
      * now apply (got_keep _ _ _ _ _ _ G).
    + destruct Ho as [Hi HnC].
      destruct (set_spec N deps W base last F i v st I Hi) as (st1 & E & I1 & El & Hanc); [lia|exact HnC|].
      rewrite E in Es. erewrite IH; [|exact Hops|exact Hj|exact I1| |exact Es|exact Hno'].
      * now rewrite El.
      * destruct (tnt st1 j) eqn:E1; [|reflexivity].
        exfalso. apply (Hno i v); [now left|]. now apply Hanc.
Qed.

Lemma foldo_app {A B} (f : A -> B -> option A) l1 l2 a :
  foldo f (l1 ++ l2) a = match foldo f l1 a with Some a' => foldo f l2 a' | None => None end.
Proof.
  revert a. induction l1 as [|b l1 IH]; intro a; simpl; [reflexivity|].
  destruct (f a b); [apply IH|reflexivity].
Qed.

Lemma no_needless_eval ops1 j ops2 st1 st2 :
  Forall (accepted N) (ops1 ++ OGet j :: ops2) -> 
  steps N F (ops1 ++ [OGet j]) (init_state N v0 man0) = Some st1 ->
  steps N F (ops1 ++ OGet j :: ops2) (init_state N v0 man0) = Some st2 ->
  (forall i v, In (OSet i v) ops2 -> ~ ancestor N deps j i) ->
  count_occ Nat.eq_dec (log st2) j = count_occ Nat.eq_dec (log st1) j.
Proof.
  intros Ha E1 E2 Hno.
  apply Forall_app in Ha as [Ha1 Ha2]. inversion Ha2 as [|? ? Hj Ha3]; subst. simpl in Hj.
  destruct (steps_spec N deps W F ops1 HF Ha1 v0 man0 _ (init_inv N deps W v0 man0 HM)) as (st & E & I).
  unfold steps in E1, E2. rewrite foldo_app in E1, E2. unfold steps in E. rewrite E in E1, E2.
  simpl foldo in E1, E2. simpl step in E1, E2.
  destruct (get_spec N deps W _ _ F F j st I Hj) as (w & s1 & Eg & I1 & G); [lia|lia|].
  rewrite Eg in E1, E2. injection E1 as <-.
  eapply steps_log; [exact Ha3|exact Hj|exact I1| |exact E2|exact Hno].
  apply (got_clean _ _ _ _ _ _ G).
Qed.

Lemma assigned_app l1 l2 (b : nat -> V) :
  assigned N (l1 ++ l2) b = assigned N l2 (assigned N l1 b).
Proof. revert b. induction l1 as [|[i|i v] l1 IH]; intro b; simpl; auto. Qed.

Lemma last_set_app l1 l2 b : last_set N (l1 ++ l2) b = last_set N l2 (last_set N l1 b).
Proof. revert b. induction l1 as [|[i|i v] l1 IH]; intro b; simpl; auto. Qed.

(** No write to group [g] leaves its last-set member and that member's value alone. *)
Lemma quiet_group g l : (forall i v, In (OSet i v) l -> forall c, kind_of N i <> Sync g c) ->
  forall b m c, kind_of N m = Sync g c ->
  assigned N l b m = b m /\ forall la : nat -> nat, last_set N l la g = la g.
Proof.
  intros Hq. induction l as [|o l IH]; intros b m c Hm; [now split|].
  assert (Hq' : forall i v, In (OSet i v) l -> forall c, kind_of N i <> Sync g c)
    by (intros i v Hi; apply (Hq i v); now right).
  destruct o as [i|i v]; simpl.
  - now apply (IH Hq' b m c).
  - assert (Hi : forall c, kind_of N i <> Sync g c) by (apply (Hq i v); now left).
    destruct (IH Hq' (match kind_of N i with Comp _ => b | _ => upd b i v end) m c Hm) as [A B].
    split.
    + rewrite A. assert (m <> i) by (intros ->; now apply (Hi c)).
      destruct (kind_of N i); [|reflexivity|]; now apply upd_other.
    + intro la. rewrite B. destruct (kind_of N i) as [|p|g' c'] eqn:Ei; try reflexivity.
      apply upd_other. intros ->. now apply (Hi c').
Qed.

(** Writing one representation, then reading any of them. *)
Lemma sync_agree ops1 i v ops2 g conv_i :
  Forall (accepted N) (ops1 ++ OSet i v :: ops2) ->
  kind_of N i = Sync g conv_i ->
  (forall k w, In (OSet k w) ops2 -> forall c, kind_of N k <> Sync g c) ->
  exists st, steps N F (ops1 ++ OSet i v :: ops2) (init_state N v0 man0) = Some st /\
    (exists st', get N F F i st = Some (v, st')) /\
    forall j conv_j f, j < size N -> j <> i -> kind_of N j = Sync g conv_j ->
      conv_j i = Read i (fun w => Ret (f w)) ->
      exists st', get N F F j st = Some (f v, st').
Proof.
  intros Ha Hk Hq.
  assert (Hi : i < size N).
  { apply Forall_app in Ha as [_ Ha]. inversion Ha as [|? ? X _]; subst. now simpl in X. }
  set (ops := ops1 ++ OSet i v :: ops2) in *.
  assert (B : assigned N ops v0 i = v /\ last_set N ops man0 g = i).
  { unfold ops. rewrite assigned_app, last_set_app. simpl. rewrite Hk.
    destruct (quiet_group g ops2 Hq (upd (assigned N ops1 v0) i v) i conv_i Hk) as [A L].
    rewrite A, L. split; apply upd_same. }
  destruct B as [B L].
  assert (Di : den N (assigned N ops v0) (last_set N ops man0) i v).
  { pose proof (den_sync_self N (assigned N ops v0) (last_set N ops man0) i g conv_i Hk L) as D.
    rewrite B in D. exact D. }
  destruct (read_fresh ops i Ha Hi) as (st & w & st' & Es & Eg & _ & U).
  exists st. split; [exact Es|]. split.
  { exists st'. rewrite Eg. f_equal. f_equal. symmetry. now apply U. }
  intros j conv_j f Hj Hne Hkj Hconv.
  destruct (read_fresh ops j Ha Hj) as (s2 & w2 & s2' & Es2 & Eg2 & _ & U2).
  assert (s2 = st) by congruence. subst s2.
  exists s2'. rewrite Eg2. f_equal. f_equal. symmetry. apply U2.
  apply den_sync_other with g conv_j; [exact Hkj|congruence|].
  rewrite L, Hconv. econstructor; [exact Di|constructor].
Qed.

(** A rejected assignment to a computed node that is tainted is harmless. *)
Lemma rejected_set_tainted ops i w st : Forall (accepted N) ops -> i < size N ->
  (exists p, kind_of N i = Comp p) ->
  steps N F ops (init_state N v0 man0) = Some st -> tnt st i = true ->
  exists st1, set_man N F i w st = NameError st1 /\
    Inv N deps (assigned N ops v0) (last_set N ops man0) st1.
Proof.
  intros Ha Hi [p Hp] Es Ht.
  destruct (steps_spec N deps W F ops HF Ha v0 man0 _ (init_inv N deps W v0 man0 HM)) as (s & E & I).
  assert (s = st) by congruence. subst s.
  exists (put i w st). split; [unfold set_man; now rewrite Hp|].
  assert (K : forall j, tnt st j = false -> tnt (put i w st) j = false /\ cache (put i w st) j = cache st j).
  { intros j Hj. split; [exact Hj|]. unfold put. cbn [cache]. apply upd_other. congruence. }
  destruct I as [a b c d e]. constructor; cbn [put tnt man cache].
  - exact a.
  - intros j Hj Hkj. destruct (b j Hj Hkj). split; [assumption|]. rewrite upd_other; [assumption|congruence].
  - intros j g conv Hj Hkj. destruct (c j g conv Hj Hkj) as (A & B & C). split; [exact A|].
    split; [exact B|]. rewrite upd_other; [exact C|congruence].
  - intros j q Hj Hkj Htj. destruct (d j q Hj Hkj Htj) as [A B]. split; [exact A|].
    change (upd (cache st) i w j) with (cache (put i w st) j).
    destruct (K j Htj) as [_ ->]. now apply clean_transfer with st.
  - intros j g conv Hj Hkj Hne Htj.
    change (upd (cache st) i w j) with (cache (put i w st) j).
    destruct (K j Htj) as [_ ->]. apply clean_transfer with st; [now apply (e j g)|exact K].
Qed.

Lemma rejected_set_tainted_reads ops i w st j : Forall (accepted N) ops -> i < size N -> j < size N ->
  (exists p, kind_of N i = Comp p) ->
  steps N F ops (init_state N v0 man0) = Some st -> tnt st i = true ->
  exists st1 v s2 s3, set_man N F i w st = NameError st1 /\
    get N F F j st1 = Some (v, s2) /\ get N F F j st = Some (v, s3).
Proof.
  intros Ha Hi Hj Hp Es Ht.
  destruct (rejected_set_tainted ops i w st Ha Hi Hp Es Ht) as (st1 & E1 & I1).
  destruct (get_spec N deps W _ _ F F j st1 I1 Hj) as (v & s2 & Eg & I2 & G); [lia|lia|].
  destruct (read_fresh ops j Ha Hj) as (s & v' & s3 & Es' & Eg3 & D & U).
  assert (s = st) by congruence. subst s.
  exists st1, v, s2, s3. split; [exact E1|]. split; [exact Eg|]. rewrite Eg3. f_equal. f_equal.
  symmetry. apply U. rewrite <- (got_val _ _ _ _ _ _ G). apply (inv_den N deps W _ _ _ _ I2 Hj).
  apply (got_clean _ _ _ _ _ _ G).
Qed.
End Thms.

(** A manual assignment never calls a function, accepted or not. *)
Lemma set_no_eval {V} (N : net V) F i v st st' :
  set_man N F i v st = Ok st' \/ set_man N F i v st = NameError st' -> log st' = log st.
Proof.
  assert (T : forall i b s s', taint_st N F i b s = Some s' -> log s' = log s).
  { intros k b s s' E. unfold taint_st in E. destruct (taint N F k b (tnt s)); [|discriminate].
    now injection E as <-. }
  unfold set_man. destruct (kind_of N i) as [|p|g conv].
  - destruct (taint_st N F i false (put i v st)) as [s|] eqn:E; intros [H|H]; try discriminate.
    injection H as <-. now rewrite (T _ _ _ _ E).
  - intros [H|H]; [discriminate|]. now injection H as <-.
  - unfold taint_synchro. destruct (foldo _ _ _) as [t|]; [|intros [H|H]; discriminate].
    match goal with |- context [taint_st N F i false ?s] => destruct (taint_st N F i false s) as [s2|] eqn:E end;
      intros [H|H]; try discriminate.
    injection H as <-. now rewrite (T _ _ _ _ E).
Qed.
