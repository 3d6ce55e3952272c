(** Proofs about the dependency network (DependModel.v) against DependSpec.v. *)
From Coq Require Import List Arith Lia Bool.
From Verif Require Import DependModel DependSpec.
Import ListNotations.

Section Proofs.
Context {V : Type} (N : net V) (deps : nat -> list nat).
Hypothesis W : wf N deps.

Lemma upd_same {A} (f : nat -> A) i a : upd f i a i = a.
Proof. unfold upd. now rewrite Nat.eqb_refl. Qed.

Lemma upd_other {A} (f : nat -> A) i a j : j <> i -> upd f i a j = f j.
Proof. intro H. unfold upd. apply Nat.eqb_neq in H. now rewrite H. Qed.

(** What a taint walk started below [s] may do to the flags. *)
Definition Rel (X : nat -> Prop) (t t' : nat -> bool) : Prop :=
  (forall j, t j = true -> t' j = true) /\
  (forall j, t j = false -> t' j = true ->
     X j /\ forall k, In k (dependants N j) -> t' k = true).

Lemma Rel_refl X t : Rel X t t.
Proof. split; [easy|]. intros j H H'. congruence. Qed.

Lemma Rel_trans X t t' t'' : Rel X t t' -> Rel X t' t'' -> Rel X t t''.
Proof.
  intros [M1 C1] [M2 C2]. split; [now auto|].
  intros j H H''. destruct (t' j) eqn:E.
  - destruct (C1 j H E) as [HX HD]. split; [exact HX|]. intros k Hk. apply M2, HD, Hk.
  - now apply C2.
Qed.

Lemma Rel_weaken (X Y : nat -> Prop) t t' : (forall j, X j -> Y j) -> Rel X t t' -> Rel Y t t'.
Proof.
  intros HXY [M C]. split; [easy|]. intros j H H'. destruct (C j H H'). now auto.
Qed.

Definition below (s : nat) (j : nat) : Prop :=
  s < j < size N /\ (exists p, kind_of N j = Comp p) /\ ancestor N deps j s.


(** [desc s j]: [j] is below [s] through a chain of declared dependencies. *)
Inductive desc : nat -> nat -> Prop :=
| desc_one s j : In j (dependants N s) -> s < size N -> desc s j
| desc_step s j k : In j (dependants N s) -> s < size N -> desc j k -> desc s k.

Lemma desc_facts s j : desc s j ->
  s < j < size N /\ (exists p, kind_of N j = Comp p).
Proof.
  induction 1 as [s j H Hs|s j k H Hs Hd IH];
    destruct (wf_dependants N deps W s j Hs H) as (? & ? & ?).
  - auto.
  - destruct IH as [? ?]. split; [lia|auto].
Qed.

Lemma desc_ancestor s j : desc s j -> ancestor N deps j s.
Proof.
  induction 1 as [s j H Hs|s j k H Hs Hd IH];
    destruct (wf_dependants N deps W s j Hs H) as (? & Hin & ?).
  - apply anc_dep with s; [exact Hin|constructor].
  - clear Hd. revert Hin. revert IH. clear -W. intros IH Hin.
    remember j as m eqn:Em. revert s j Em Hin.
    induction IH as [i|i d a Hd Ha IH2|i g conv a Hk Ha]; intros s j -> Hin.
    + apply anc_dep with s; [exact Hin|constructor].
    + apply anc_dep with d; [exact Hd|]. eapply IH2; [reflexivity|exact Hin].
    + exfalso. destruct (wf_peers N deps W g j Ha) as [Hj [cv Hk2]].
      destruct (wf_dependants N deps W s j) as (_ & _ & p & Hp); [|apply (wf_inv N deps W)|].
      * assert (s < j) by (apply (wf_deps N deps W); assumption). lia.
      * exact Hj.
      * exact Hin.
      * congruence.
Qed.

Lemma foldo_taint f s l t :
  (forall j t, In j l -> exists t', taint N f j true t = Some t' /\
      t' j = true /\
      (forall k, k <> j -> t k = true -> t' k = true) /\
      (forall k, In k (dependants N j) -> t' k = true) /\
      (forall k, k <> j -> t k = false -> t' k = true ->
         desc j k /\ forall m, In m (dependants N k) -> t' m = true)) ->
  (forall j, In j l -> In j (dependants N s)) -> s < size N ->
  exists t', foldo (fun (t : nat -> bool) (j : nat) => if t j then Some t else taint N f j true t) l t
             = Some t' /\ Rel (desc s) t t' /\ (forall j, In j l -> t' j = true).
Proof.
  intros IH Hl Hs. revert t IH. induction l as [|j l IHl]; intros t IH; simpl.
  - exists t. split; [reflexivity|]. split; [apply Rel_refl|easy].
  - destruct (t j) eqn:E.
    + destruct (IHl (fun j' H => Hl j' (or_intror H)) t) as (t' & E' & R & A).
      { intros j' t0 H. apply IH. now right. }
      exists t'. split; [exact E'|]. split; [exact R|].
      intros j' [<-|H]; [apply R; exact E|now apply A].
    + destruct (IH j t (or_introl eq_refl)) as (t1 & E1 & T1 & M1 & D1 & C1).
      rewrite E1.
      destruct (IHl (fun j' H => Hl j' (or_intror H)) t1) as (t' & E' & R & A).
      { intros j' t0 H. apply IH. now right. }
      exists t'. split; [exact E'|].
      assert (R1 : Rel (desc s) t t1).
      { split.
        - intros k Hk. destruct (Nat.eq_dec k j) as [->|Hne]; [exact T1|now apply M1].
        - intros k Hk Hk'. destruct (Nat.eq_dec k j) as [->|Hne].
          + split; [apply desc_one; [apply Hl; now left|exact Hs]|exact D1].
          + destruct (C1 k Hne Hk Hk') as [Hd Hm]. split; [|exact Hm].
            apply desc_step with j; [apply Hl; now left|exact Hs|exact Hd]. }
      split; [eapply Rel_trans; eassumption|].
      intros j' [<-|H]; [apply R; exact T1|now apply A].
Qed.

Lemma taint_spec f i me t : i < size N -> size N - i < f ->
  exists t', taint N f i me t = Some t' /\
      t' i = me /\
      (forall k, k <> i -> t k = true -> t' k = true) /\
      (forall k, In k (dependants N i) -> t' k = true) /\
      (forall k, k <> i -> t k = false -> t' k = true ->
         desc i k /\ forall m, In m (dependants N k) -> t' m = true).
Proof.
  revert i me t. induction f as [|f IH]; intros i me t Hi Hf; [lia|].
  simpl.
  destruct (foldo_taint f i (dependants N i) t) as (t' & E & R & A).
  - intros j t0 Hj.
    destruct (wf_dependants N deps W i j Hi Hj) as (? & _ & _).
    apply IH; lia.
  - easy.
  - exact Hi.
  - rewrite E. exists (upd t' i me). split; [reflexivity|].
    split; [apply upd_same|].
    assert (Hnd : forall k m, In m (dependants N k) -> k = i \/ desc i k -> m <> i).
    { intros k m Hm [->|Hd] ->.
      - destruct (wf_dependants N deps W i i Hi Hm). lia.
      - destruct (desc_facts i k Hd) as [Hlt _].
        destruct (wf_dependants N deps W k i) as [Hlt2 _]; [lia|exact Hm|lia]. }
    split; [|split].
    + intros k Hk Hk'. rewrite upd_other by exact Hk. now apply R.
    + intros k Hk. rewrite upd_other by (eapply Hnd; eauto). now apply A.
    + intros k Hk Hf' Ht'. rewrite upd_other in Ht' by exact Hk.
      destruct R as [M C]. destruct (C k Hf' Ht') as [Hd Hm].
      split; [exact Hd|]. intros m Hm'. rewrite upd_other; [now apply Hm|].
      eapply Hnd; eauto.
Qed.

Lemma foldo_noop {A B} (f : A -> B -> option A) l a :
  (forall b, In b l -> f a b = Some a) -> foldo f l a = Some a.
Proof.
  induction l as [|b l IH]; simpl; intro H; [reflexivity|].
  rewrite (H b) by now left. apply IH. intros b' Hb'. apply H. now right.
Qed.

(** If all dependants are already tainted the walk only sets the flag of [i]. *)
Lemma taint_noop f i me t : (forall k, In k (dependants N i) -> t k = true) ->
  taint N (S f) i me t = Some (upd t i me).
Proof.
  intro H. simpl. rewrite foldo_noop; [reflexivity|].
  intros b Hb. now rewrite (H b Hb).
Qed.

(** [clean st p v]: running [p] on [st] reads only untainted nodes and returns [v]. *)
Inductive clean (st : state V) : prog V -> V -> Prop :=
| clean_ret v : clean st (Ret v) v
| clean_read j k v : tnt st j = false -> clean st (k (cache st j)) v -> clean st (Read j k) v.

Lemma clean_transfer st st' p v : clean st p v ->
  (forall j, tnt st j = false -> tnt st' j = false /\ cache st' j = cache st j) ->
  clean st' p v.
Proof.
  intros H Hs. induction H as [v|j k v Hj Hc IH]; [constructor|].
  destruct (Hs j Hj) as [A B]. constructor; [exact A|]. now rewrite B.
Qed.

Lemma clean_transfer_ds st st' ds seen p v : clean st p v -> reads_cover N deps ds seen p ->
  (forall j, In j ds -> tnt st j = false -> tnt st' j = false /\ cache st' j = cache st j) ->
  clean st' p v.
Proof.
  intros H. revert seen. induction H as [v|j k v Hj Hc IH]; intros seen Hr Hs; [constructor|].
  inversion Hr as [|seen' j' k' Hin Hk]; subst.
  destruct (Hs j Hin Hj) as [A B]. constructor; [exact A|]. rewrite B.
  eapply IH; [apply Hk|exact Hs].
Qed.

(** The representation invariant; [base] and [last] are the specification state. *)
Record Inv (base : nat -> V) (last : nat -> nat) (st : state V) : Prop := {
  inv_man : forall g, man st g = last g;
  inv_leaf : forall i, i < size N -> kind_of N i = Leaf ->
      tnt st i = false /\ cache st i = base i;
  inv_last : forall i g conv, i < size N -> kind_of N i = Sync g conv ->
      In (last g) (peers N g) /\ tnt st (last g) = false /\ cache st (last g) = base (last g);
  inv_comp : forall i p, i < size N -> kind_of N i = Comp p -> tnt st i = false ->
      (forall d, In d (deps i) -> tnt st d = false) /\ clean st p (cache st i);
  inv_sync : forall i g conv, i < size N -> kind_of N i = Sync g conv -> i <> last g ->
      tnt st i = false -> clean st (conv (last g)) (cache st i)
}.

(** Under the invariant, untainted nodes hold the from-scratch value. *)
Lemma inv_den_at base last st : Inv base last st ->
  forall b i, i < b -> i < size N -> tnt st i = false -> den N base last i (cache st i).
Proof.
  intros I. induction b as [|b IH]; intros i Hb Hi Ht; [lia|].
  assert (SELF : forall m g conv, m < size N -> kind_of N m = Sync g conv -> m = last g ->
                 den N base last m (cache st m)).
  { intros m g conv Hm Hk ->. destruct (inv_last _ _ _ I _ _ _ Hm Hk) as (_ & _ & Ev).
    rewrite Ev. eapply den_sync_self; [exact Hk|reflexivity]. }
  destruct (kind_of N i) as [|p|g conv] eqn:Hk.
  - destruct (inv_leaf _ _ _ I i Hi Hk) as [_ ->]. now apply den_leaf.
  - destruct (inv_comp _ _ _ I i p Hi Hk Ht) as [Hd Hc].
    eapply den_comp; [exact Hk|].
    pose proof (wf_comp N deps W i p Hi Hk) as Hr.
    assert (Hds : forall d, In d (deps i) -> d < b /\ d < size N).
    { intros d Hdin. pose proof (wf_deps N deps W i d Hi Hdin). lia. }
    clear Hk. revert Hr. generalize (@nil nat).
    induction Hc as [v|j k v Hj Hc IHc]; intros seen Hr; [constructor|].
    inversion Hr as [|seen' j' k' Hin Hkk]; subst.
    econstructor; [apply IH; [apply Hds; exact Hin|apply Hds; exact Hin|exact Hj]|].
    eapply IHc, Hkk.
  - destruct (Nat.eq_dec i (last g)) as [Heq|Hne].
    + now eapply SELF; eauto.
    + pose proof (inv_sync _ _ _ I i g conv Hi Hk Hne Ht) as Hc.
      destruct (inv_last _ _ _ I i g conv Hi Hk) as (Hp & Hl & Hv).
      eapply den_sync_other; [exact Hk|intro; apply Hne; now symmetry|].
      destruct (wf_sync N deps W i g conv Hi Hk) as [_ Hr].
      specialize (Hr (last g) Hp (fun E => Hne (eq_sym E))).
      destruct (wf_peers N deps W g (last g) Hp) as [Hls [cl Hkl]].
      assert (Hds : forall d, In d [last g] -> d = last g) by (intros d [<-|[]]; reflexivity).
      revert Hr Hds. generalize [last g] as ds. generalize (@nil nat).
      induction Hc as [v|j k v Hj Hc IHc]; intros seen ds Hr Hds; [constructor|].
      inversion Hr as [|seen' j' k' Hin Hkk]; subst.
      rewrite (Hds j Hin) in *.
      econstructor; [eapply SELF; eauto|]. eapply IHc; [apply Hkk|exact Hds].
Qed.

Lemma inv_den base last st i : Inv base last st ->
  i < size N -> tnt st i = false -> den N base last i (cache st i).
Proof. intros I Hi Ht. eapply inv_den_at; eauto. Qed.

(** What one read may change. *)
Record got (i : nat) (st : state V) (v : V) (st' : state V) : Prop := {
  got_clean : tnt st' i = false;
  got_val : cache st' i = v;
  got_keep : forall j, tnt st j = false -> tnt st' j = false /\ cache st' j = cache st j;
  got_above : forall j, i < j -> tnt st' j = tnt st j /\ cache st' j = cache st j;
  got_log : exists new, log st' = new ++ log st /\ NoDup new /\
      forall j, In j new -> j <= i /\ tnt st j = true /\ tnt st' j = false /\ ancestor N deps i j
}.

Lemma reach_clean base last st : Inv base last st ->
  forall s d, reach N deps s d -> s < size N -> tnt st s = false -> tnt st d = false.
Proof.
  intros I s d H. induction H as [s|s p d' d Hk Hin H IH]; intros Hs Ht; [exact Ht|].
  pose proof (wf_deps N deps W s d' Hs Hin).
  apply IH; [lia|]. now apply (inv_comp _ _ _ I s p Hs Hk Ht).
Qed.

Lemma run_spec base last tf f i ds :
  (forall j st, In j ds -> Inv base last st ->
     exists v st', get N tf f j st = Some (v, st') /\ Inv base last st' /\ got j st v st') ->
  (forall d, In d ds -> d < i /\ d < size N) ->
  forall p seen st, reads_cover N deps ds seen p -> Inv base last st ->
  (forall d, In d seen -> d < size N /\ tnt st d = false) ->
  exists v st', run (get N tf f) p st = Some (v, st') /\ Inv base last st' /\
    clean st' p v /\
    (forall d, In d ds -> tnt st' d = false) /\
    (forall j, tnt st j = false -> tnt st' j = false /\ cache st' j = cache st j) /\
    (forall j, i <= j -> tnt st' j = tnt st j /\ cache st' j = cache st j) /\
    exists new, log st' = new ++ log st /\ NoDup new /\
      forall j, In j new -> j < i /\ tnt st j = true /\ tnt st' j = false /\
        exists d, In d ds /\ ancestor N deps d j.
Proof.
  intros G Hlt p. induction p as [v|j k IH]; intros seen st Hr I Hseen; simpl.
  - inversion Hr as [seen' v' Hall|]; subst.
    exists v, st. split; [reflexivity|]. split; [exact I|].
    split; [constructor|]. split.
    { intros d Hd. destruct (Hall d Hd) as [HL|(s & Hs & HR)].
      - now apply (inv_leaf _ _ _ I d (proj2 (Hlt d Hd))).
      - destruct (Hseen s Hs) as [Hsz Hst]. now apply (reach_clean _ _ _ I s d HR). }
    split; [easy|]. split; [easy|]. exists []. split; [reflexivity|].
    split; [constructor|easy].
  - inversion Hr as [|seen' j' k' Hin Hk]; subst.
    destruct (G j st Hin I) as (w & st1 & Eg & I1 & Hg). rewrite Eg.
    destruct (IH w (j :: seen) st1 (Hk w) I1) as (v & st2 & E2 & I2 & C2 & D2 & K2 & A2 & L2).
    { intros d [<-|Hd]; [split; [apply (Hlt _ Hin)|apply (got_clean _ _ _ _ Hg)]|].
      split; [now apply Hseen|]. apply (got_keep _ _ _ _ Hg). now apply Hseen. }
    exists v, st2. split; [exact E2|]. split; [exact I2|].
    destruct (K2 j (got_clean _ _ _ _ Hg)) as [T2 V2].
    split. { constructor; [exact T2|]. rewrite V2, (got_val _ _ _ _ Hg). exact C2. }
    split; [exact D2|].
    split. { intros m Hm. destruct (got_keep _ _ _ _ Hg m Hm) as [T1 V1].
             destruct (K2 m T1) as [T3 V3]. split; [exact T3|congruence]. }
    split. { intros m Hm. pose proof (Hlt j Hin).
             destruct (got_above _ _ _ _ Hg m) as [T1 V1]; [lia|].
             destruct (A2 m Hm) as [T3 V3]. split; congruence. }
    destruct (got_log _ _ _ _ Hg) as (n1 & E1 & ND1 & P1).
    destruct L2 as (n2 & E3 & ND2 & P2).
    exists (n2 ++ n1). split; [rewrite E3, E1; now rewrite app_assoc|].
    split.
    + clear -ND1 ND2 P1 P2. induction n2 as [|a n2 IHn]; [exact ND1|].
      simpl. inversion ND2; subst. constructor.
      * rewrite in_app_iff. intros [H|H]; [contradiction|].
        destruct (P1 a H) as (_ & _ & F & _). destruct (P2 a (or_introl eq_refl)) as (_ & T & _).
        congruence.
      * apply IHn; [assumption|]. intros m Hm. apply P2. now right.
    + intros m Hm. apply in_app_iff in Hm as [Hm|Hm].
      * destruct (P2 m Hm) as (Q1 & Q2 & Q3 & Q4). split; [exact Q1|].
        split; [|split; [exact Q3|exact Q4]].
        destruct (tnt st m) eqn:E; [reflexivity|].
        destruct (got_keep _ _ _ _ Hg m E). congruence.
      * destruct (P1 m Hm) as (Q1 & Q2 & Q3 & Q4). pose proof (Hlt j Hin).
        split; [lia|]. split; [exact Q2|]. split; [now apply K2|]. now exists j.
Qed.

Lemma Inv_tick base last i st : Inv base last st -> Inv base last (tick i st).
Proof.
  intros I. destruct I as [a b c d e]. constructor; try assumption.
  - intros j p Hj Hk Ht. destruct (d j p Hj Hk Ht) as [X Y].
    split; [exact X|]. eapply clean_transfer; [exact Y|]. now simpl.
  - intros j g conv Hj Hk Hn Ht. eapply clean_transfer; [now eapply e; eauto|]. now simpl.
Qed.

(** A tainted node has only tainted dependants. *)
Lemma inv_dependants base last st i : Inv base last st -> i < size N -> tnt st i = true ->
  forall k, In k (dependants N i) -> tnt st k = true.
Proof.
  intros I Hi Ht k Hk. destruct (tnt st k) eqn:E; [reflexivity|].
  destruct (wf_dependants N deps W i k Hi Hk) as (Hlt & Hin & p & Hkk).
  destruct (inv_comp _ _ _ I k p) as [Hd _]; [lia|exact Hkk|exact E|].
  rewrite (Hd i Hin) in Ht. discriminate.
Qed.

(** Storing a freshly computed value. *)
Lemma refresh_spec base last tf i v st :
  Inv base last st -> i < size N -> 0 < tf -> tnt st i = true ->
  match kind_of N i with
  | Leaf => False
  | Comp p => clean st p v /\ (forall d, In d (deps i) -> tnt st d = false)
  | Sync g conv => i <> last g /\ clean st (conv (last g)) v
  end ->
  exists st2 st3, set_auto N tf i v st = Some st2 /\ taint_st N tf i false st2 = Some st3 /\
    Inv base last st3 /\ tnt st3 i = false /\ cache st3 i = v /\
    (forall j, j <> i -> tnt st3 j = tnt st j /\ cache st3 j = cache st j) /\
    log st3 = log st.
Proof.
  intros I Hi Htf Ht Hk. destruct tf as [|tf]; [lia|].
  pose proof (inv_dependants _ _ _ _ I Hi Ht) as HD.
  assert (HD' : forall k, In k (dependants N i) -> upd (tnt st) i false k = true).
  { intros k Hin. rewrite upd_other; [now apply HD|].
    intros ->. destruct (wf_dependants N deps W i i Hi Hin). lia. }
  unfold set_auto, taint_st, put. cbn [tnt cache man log].
  rewrite (taint_noop tf i false (tnt st) HD).
  cbn [tnt cache man log].
  eexists. eexists. split; [reflexivity|]. cbn [tnt cache man log].
  rewrite (taint_noop tf i false _ HD'). split; [reflexivity|].
  set (st3 := mkState _ _ _ _).
  assert (T3 : forall j, j <> i -> tnt st3 j = tnt st j /\ cache st3 j = cache st j).
  { intros j Hj. unfold st3. cbn [tnt cache]. now rewrite !upd_other by exact Hj. }
  assert (T3i : tnt st3 i = false /\ cache st3 i = v).
  { unfold st3. cbn [tnt cache]. now rewrite !upd_same. }
  assert (TR : forall j, tnt st j = false -> tnt st3 j = false /\ cache st3 j = cache st j).
  { intros j Hj. assert (j <> i) by congruence. destruct (T3 j H). split; congruence. }
  split; [|split; [apply T3i|split; [apply T3i|split; [exact T3|reflexivity]]]].
  constructor.
  - intro g. apply (inv_man _ _ _ I).
  - intros j Hj Hkj. destruct (inv_leaf _ _ _ I j Hj Hkj) as [A B].
    destruct (TR j A). split; [assumption|congruence].
  - intros j g conv Hj Hkj. destruct (inv_last _ _ _ I j g conv Hj Hkj) as (A & B & C).
    destruct (TR _ B). repeat split; [assumption|assumption|congruence].
  - intros j p Hj Hkj Htj. destruct (Nat.eq_dec j i) as [->|Hne].
    + rewrite Hkj in Hk. destruct Hk as [Hc Hd].
      split; [intros d Hdin; apply TR, Hd, Hdin|].
      rewrite (proj2 T3i). eapply clean_transfer; [exact Hc|exact TR].
    + destruct (T3 j Hne) as [A B]. rewrite A in Htj.
      destruct (inv_comp _ _ _ I j p Hj Hkj Htj) as [Hd Hc].
      split; [intros d Hdin; apply TR, Hd, Hdin|].
      rewrite B. eapply clean_transfer; [exact Hc|exact TR].
  - intros j g conv Hj Hkj Hne Htj. destruct (Nat.eq_dec j i) as [->|Hji].
    + rewrite Hkj in Hk. destruct Hk as [_ Hc].
      rewrite (proj2 T3i). eapply clean_transfer; [exact Hc|exact TR].
    + destruct (T3 j Hji) as [A B]. rewrite A in Htj. rewrite B.
      eapply clean_transfer; [now eapply (inv_sync _ _ _ I); eauto|exact TR].
Qed.

Lemma got_refl i st : tnt st i = false -> got i st (cache st i) st.
Proof.
  intro H. constructor; try easy. exists []. split; [reflexivity|]. split; [constructor|easy].
Qed.

(** Reading: succeeds, keeps the invariant, leaves the node clean. *)
Lemma get_spec base last tf f i st :
  Inv base last st -> i < size N -> i + 2 <= f -> 0 < tf ->
  exists v st', get N tf f i st = Some (v, st') /\ Inv base last st' /\ got i st v st'.
Proof.
  revert i st. induction f as [|f IH]; intros i st I Hi Hf Htf; [lia|].
  simpl. destruct (tnt st i) eqn:Ht.
  2:{ exists (cache st i), st. split; [reflexivity|]. split; [exact I|]. now apply got_refl. }
  destruct (kind_of N i) as [|p|g conv] eqn:Hk.
  - destruct (inv_leaf _ _ _ I i Hi Hk). congruence.
  - destruct (run_spec base last tf f i (deps i)) with (p := p) (seen := @nil nat) (st := tick i st)
      as (v & st1 & Er & I1 & Hc & Hd & Hkeep & Habove & new & El & ND & Hnew).
    + intros j s Hj Is. pose proof (wf_deps N deps W i j Hi Hj).
      apply IH; try assumption; lia.
    + intros d Hd. pose proof (wf_deps N deps W i d Hi Hd). lia.
    + now apply (wf_comp N deps W).
    + now apply Inv_tick.
    + easy.
    + rewrite Er.
      assert (Ht1 : tnt st1 i = true).
      { destruct (Habove i (le_n i)) as [A _]. rewrite A. exact Ht. }
      destruct (refresh_spec base last tf i v st1 I1 Hi Htf Ht1) as
        (st2 & st3 & Es & Et & I3 & T3 & V3 & O3 & L3).
      { rewrite Hk. now split. }
      rewrite Es, Et. exists (cache st3 i), st3. split; [reflexivity|].
      split; [exact I3|]. constructor.
      * exact T3.
      * reflexivity.
      * intros j Hj. assert (j <> i) by congruence. destruct (O3 j H) as [A B].
        destruct (Hkeep j Hj) as [C D]. split; [congruence|]. rewrite B, D. reflexivity.
      * intros j Hj. assert (j <> i) by lia. destruct (O3 j H) as [A B].
        destruct (Habove j) as [C D]; [lia|]. cbn [tick tnt cache] in C, D. split; [rewrite A; exact C|rewrite B; exact D].
      * exists (new ++ [i]). split; [rewrite L3, El; unfold tick; simpl; now rewrite <- app_assoc|].
        split.
        -- clear -ND Hnew. induction new as [|a new IHn]; simpl; [constructor; [easy|constructor]|].
           inversion ND; subst. constructor.
           ++ rewrite in_app_iff. intros [H|[H|[]]]; [contradiction|subst].
              destruct (Hnew a (or_introl eq_refl)). lia.
           ++ apply IHn; [assumption|]. intros j Hj. apply Hnew. now right.
        -- intros j Hj. apply in_app_iff in Hj as [Hj|[<-|[]]].
           ++ destruct (Hnew j Hj) as (A & B & C & d & D1 & D2). split; [lia|]. split; [exact B|].
              assert (j <> i) by lia. destruct (O3 j H).
              split; [congruence|]. now apply anc_dep with d.
           ++ split; [lia|]. split; [exact Ht|]. split; [exact T3|constructor].
  - destruct (inv_last _ _ _ I i g conv Hi Hk) as (Hp & Htl & Hvl).
    rewrite (inv_man _ _ _ I g).
    destruct (Nat.eqb_spec i (last g)) as [Heq|Hne]; [congruence|].
    destruct (wf_sync N deps W i g conv Hi Hk) as [_ Hr].
    specialize (Hr (last g) Hp (fun E => Hne (eq_sym E))).
    (* the conversion reads only the untainted manual peer *)
    assert (HR : forall p seen s, reads_cover N deps [last g] seen p -> tnt s (last g) = false ->
               exists v, run (get N tf f) p s = Some (v, s) /\ clean s p v).
    { clear -Hf. intros p. induction p as [v|j k IHp]; intros seen s Hre Hs; simpl.
      - exists v. split; [reflexivity|constructor].
      - inversion Hre as [|seen' j' k' Hin Hkk]; subst. destruct Hin as [<-|[]].
        destruct f as [|f]; [lia|]. simpl. rewrite Hs.
        destruct (IHp (cache s (last g)) (last g :: seen) s) as (v & Er & Hc);
          [apply Hkk|exact Hs|].
        exists v. split; [exact Er|]. now constructor. }
    destruct (HR _ [] (tick i st) Hr Htl) as (v & Er & Hc). rewrite Er.
    destruct (refresh_spec base last tf i v (tick i st) (Inv_tick _ _ _ _ I) Hi Htf Ht) as
        (st2 & st3 & Es & Et & I3 & T3 & V3 & O3 & L3).
    { rewrite Hk. now split. }
    rewrite Es, Et. exists (cache st3 i), st3. split; [reflexivity|].
    split; [exact I3|]. constructor.
    + exact T3.
    + reflexivity.
    + intros j Hj. assert (j <> i) by congruence. destruct (O3 j H) as [A B].
      split; [rewrite A; exact Hj|exact B].
    + intros j Hj. apply O3. lia.
    + exists [i]. split; [rewrite L3; reflexivity|]. split; [constructor; [easy|constructor]|].
      intros j [<-|[]]. split; [lia|]. split; [exact Ht|]. split; [exact T3|constructor].
Qed.

(** Facts about the flags after the synchroniser walk. *)
Lemma taint_peers_spec tf i g t : i < size N -> size N < tf ->
  kind_of N i <> Leaf ->
  (exists conv, kind_of N i = Sync g conv) ->
  exists t', foldo (taint_peer N tf i) (peers N g) t = Some t' /\
   Rel (fun j => (In j (peers N g) /\ j <> i) \/ exists m, In m (peers N g) /\ m <> i /\ desc m j) t t' /\
   forall m, In m (peers N g) -> m <> i -> t' m = true.
Proof.
  intros Hi Htf _ _.
  assert (H : forall l, (forall m, In m l -> In m (peers N g)) -> forall t,
     exists t', foldo (taint_peer N tf i) l t = Some t' /\
     Rel (fun j => (In j (peers N g) /\ j <> i) \/ exists m, In m (peers N g) /\ m <> i /\ desc m j) t t' /\
     forall m, In m l -> m <> i -> t' m = true).
  2:{ apply (H (peers N g)). easy. }
  induction l as [|v l IH]; intros Hl t0; simpl.
  - exists t0. split; [reflexivity|]. split; [apply Rel_refl|easy].
  - assert (Hv : In v (peers N g)) by (apply Hl; now left).
    destruct (wf_peers N deps W g v Hv) as [Hvs _].
    assert (exists t1, taint_peer N tf i t0 v = Some t1 /\
      Rel (fun j => (In j (peers N g) /\ j <> i) \/ exists m, In m (peers N g) /\ m <> i /\ desc m j) t0 t1 /\
      (v <> i -> t1 v = true)) as (t1 & E1 & R1 & P1).
    { unfold taint_peer. destruct (Nat.eqb_spec v i) as [->|Hvi]; simpl.
      - exists t0. split; [reflexivity|]. split; [apply Rel_refl|easy].
      - destruct (t0 v) eqn:Etv.
        + exists t0. split; [reflexivity|]. split; [apply Rel_refl|easy].
        + destruct (foldo_taint tf v (dependants N v) (upd t0 v true)) as (t1 & E & R & A).
          * intros j s Hj. destruct (wf_dependants N deps W v j Hvs Hj) as (? & _ & _).
            apply taint_spec; lia.
          * easy.
          * exact Hvs.
          * exists t1. split; [exact E|].
            assert (T1v : t1 v = true) by (apply R; apply upd_same).
            split; [|easy]. split.
            -- intros j Hj. apply R. unfold upd. destruct (Nat.eqb j v); [reflexivity|exact Hj].
            -- intros j Hj Hj1. destruct (Nat.eq_dec j v) as [->|Hjv].
               ++ split; [left; split; assumption|exact A].
               ++ destruct R as [_ C]. destruct (C j) as [Hd Hm];
                    [rewrite upd_other by exact Hjv; exact Hj|exact Hj1|].
                  split; [right; exists v; auto|exact Hm]. }
    rewrite E1. destruct (IH (fun m H => Hl m (or_intror H)) t1) as (t' & E' & R' & P').
    exists t'. split; [exact E'|]. split; [eapply Rel_trans; eassumption|].
    intros m [<-|Hm] Hmi; [apply R', P1, Hmi|now apply P'].
Qed.

(** Assigning a primitive or synchronised node. *)
Lemma set_spec base last tf i v st :
  Inv base last st -> i < size N -> size N < tf ->
  (forall p, kind_of N i <> Comp p) ->
  exists st', set_man N tf i v st = Ok st' /\
    Inv (upd base i v)
        (match kind_of N i with Sync g _ => upd last g i | _ => last end) st' /\
    log st' = log st /\
    (forall j, tnt st j = false -> tnt st' j = true -> j < size N -> ancestor N deps j i).
Proof.
  intros I Hi Htf HnC. unfold set_man.
  destruct (kind_of N i) as [|p|g conv] eqn:Hk; [|now specialize (HnC p)|].
  - (* primitive *)
    unfold taint_st. cbn [tnt put].
    destruct (taint_spec tf i false (tnt st) Hi) as (t' & E & Tii & M & D & C); [lia|].
    unfold put. cbn [tnt cache man log]. rewrite E.
    eexists. split; [reflexivity|].
    assert (NOC : forall j, (forall q, kind_of N j <> Comp q) -> t' j = tnt st j \/ j = i).
    { intros j Hj. destruct (Nat.eq_dec j i); [now right|left].
      destruct (tnt st j) eqn:Ej; [now apply M|].
      destruct (t' j) eqn:Ej'; [|reflexivity].
      destruct (C j n Ej Ej') as [Hd _]. destruct (desc_facts i j Hd) as [_ [q Hq]].
      now specialize (Hj q). }
    split; [|split; [reflexivity|]].
    2:{ cbn [tnt]. intros j Hj Hj' Hjs. destruct (Nat.eq_dec j i) as [->|Hne]; [constructor|].
        apply desc_ancestor. now apply (C j Hne Hj). }
    constructor; cbn [tnt cache man log].
    + intro g. apply (inv_man _ _ _ I).
    + intros j Hj Hkj. destruct (Nat.eq_dec j i) as [->|Hne].
      * rewrite !upd_same. now split.
      * rewrite !upd_other by exact Hne. destruct (NOC j) as [->|]; [congruence| |contradiction].
        now apply (inv_leaf _ _ _ I).
    + intros j g conv Hj Hkj. destruct (inv_last _ _ _ I j g conv Hj Hkj) as (A & B & Cc).
      destruct (wf_peers N deps W g (last g) A) as [_ [cl Hkl]].
      assert (last g <> i) by congruence.
      rewrite !upd_other by assumption.
      destruct (NOC (last g)) as [->|]; [congruence| |contradiction]. now split.
    + intros j p Hj Hkj Htj.
      assert (Hji : j <> i) by congruence.
      assert (Hbefore : tnt st j = false).
      { destruct (tnt st j) eqn:Ej; [|reflexivity]. rewrite (M j Hji Ej) in Htj. discriminate. }
      destruct (inv_comp _ _ _ I j p Hj Hkj Hbefore) as [Hd Hc].
      assert (HdA : forall d, In d (deps j) -> t' d = false /\ d <> i).
      { intros d Hdin. assert (In j (dependants N d)) by now apply (wf_inv N deps W).
        assert (d <> i).
        { intros ->. rewrite (D j H) in Htj. discriminate. }
        split; [|assumption]. destruct (t' d) eqn:Ed; [|reflexivity].
        destruct (C d H0 (Hd d Hdin) Ed) as [_ Hm]. rewrite (Hm j H) in Htj. discriminate. }
      split; [now intros d Hdin; apply HdA|].
      rewrite upd_other by exact Hji.
      eapply clean_transfer_ds; [exact Hc|exact (wf_comp N deps W j p Hj Hkj)|].
      cbn [tnt cache]. intros d Hdin _. destruct (HdA d Hdin). split; [assumption|].
      now rewrite upd_other by assumption.
    + intros j g conv Hj Hkj Hne Htj.
      assert (Hji : j <> i) by congruence.
      destruct (NOC j) as [Hj'|]; [congruence| |contradiction]. rewrite Hj' in Htj.
      rewrite upd_other by exact Hji.
      destruct (inv_last _ _ _ I j g conv Hj Hkj) as (A & B & Cc).
      destruct (wf_peers N deps W g (last g) A) as [_ [cl Hkl]].
      assert (last g <> i) by congruence.
      eapply clean_transfer_ds; [now eapply (inv_sync _ _ _ I); eauto| |].
      * apply (wf_sync N deps W j g conv Hj Hkj); [exact A|congruence].
      * cbn [tnt cache]. intros d [<-|[]] _.
        destruct (NOC (last g)) as [->|]; [congruence| |contradiction].
        rewrite upd_other by assumption. now split.
  - (* synchronised *)
    unfold taint_synchro, put. cbn [tnt cache man log].
    destruct (taint_peers_spec tf i g (tnt st) Hi Htf) as (t1 & E1 & R1 & P1);
      [congruence|eauto|].
    rewrite E1. unfold taint_st. cbn [tnt cache man log].
    destruct (taint_spec tf i false t1 Hi) as (t' & E & Tii & M & D & C); [lia|].
    rewrite E. eexists. split; [reflexivity|].
    destruct (wf_sync N deps W i g conv Hi Hk) as [Hig _].
    (* overall effect on the flags *)
    assert (NEW : forall j, j <> i -> tnt st j = false -> t' j = true ->
       (((In j (peers N g)) \/ exists m, In m (peers N g) /\ desc m j) /\
        forall k, In k (dependants N j) -> t' k = true)).
    { intros j Hji Hj Hj'. destruct (t1 j) eqn:Ej1.
      - destruct R1 as [_ C1]. destruct (C1 j Hj Ej1) as [HX HD]. split.
        + destruct HX as [[A _]|(m & A & _ & B)]; [now left|right; eauto].
        + intros k Hkin. destruct (Nat.eq_dec k i) as [->|Hki].
          * assert (j < size N).
            { destruct HX as [[A _]|(m & A & _ & B)].
              - now apply (wf_peers N deps W g).
              - now apply (desc_facts m j). }
            destruct (wf_dependants N deps W j i H Hkin) as (_ & _ & q & Hq). congruence.
          * apply M; [exact Hki|now apply HD].
      - destruct (C j Hji Ej1 Hj') as [Hd Hm]. split; [right; exists i; now split|exact Hm]. }
    assert (MON : forall j, j <> i -> tnt st j = true -> t' j = true).
    { intros j Hji Hj. apply M; [exact Hji|]. now apply R1. }
    assert (PEER : forall m, In m (peers N g) -> m <> i -> t' m = true).
    { intros m Hm Hmi. apply M; [exact Hmi|now apply P1]. }
    assert (NOC : forall j, (forall q, kind_of N j <> Comp q) -> ~ In j (peers N g) ->
                  j <> i -> t' j = tnt st j).
    { intros j Hj Hnp Hji. destruct (tnt st j) eqn:Ej; [now apply MON|].
      destruct (t' j) eqn:Ej'; [|reflexivity].
      destruct (NEW j Hji Ej Ej') as [[A|(m & A & B)] _]; [contradiction|].
      destruct (desc_facts m j B) as [_ [q Hq]]. now specialize (Hj q). }
    split; [|split; [reflexivity|]].
    2:{ cbn [tnt]. intros j Hj Hj' Hjs. destruct (Nat.eq_dec j i) as [->|Hne]; [constructor|].
        destruct (NEW j Hne Hj Hj') as [[A|(m & A & B)] _].
        - destruct (wf_peers N deps W g j A) as [_ [cj Hcj]].
          eapply anc_peer; [exact Hcj|exact Hig].
        - clear -W A B Hig. induction B as [s j H Hs|s j k H Hs Hd IH].
          + destruct (wf_dependants N deps W s j Hs H) as (_ & Hin & _).
            apply anc_dep with s; [exact Hin|].
            destruct (wf_peers N deps W g s A) as [_ [cj Hcj]].
            eapply anc_peer; [exact Hcj|exact Hig].
          + (* go down to the last link of the chain *)
            assert (forall a b, desc a b -> In a (dependants N s) \/ desc s a -> ancestor N deps b i) as G.
            { assert (forall a b, desc a b -> ancestor N deps a i -> ancestor N deps b i) as G1.
              { clear -W. intros a b Hab. induction Hab as [a b H Hs|a b c H Hs Hd IH]; intro Ha;
                  destruct (wf_dependants N deps W a b Hs H) as (_ & Hin & _).
                - now apply anc_dep with a.
                - apply IH. now apply anc_dep with a. }
              intros a b Hab Hor. apply (G1 a b Hab).
              assert (ancestor N deps s i).
              { destruct (wf_peers N deps W g s A) as [_ [cj Hcj]].
                eapply anc_peer; [exact Hcj|exact Hig]. }
              destruct Hor as [Hor|Hor].
              - destruct (wf_dependants N deps W s a Hs Hor) as (_ & Hin & _).
                now apply anc_dep with s.
              - now apply (G1 s a Hor). }
            apply (G j k Hd). now left. }
    constructor; cbn [tnt cache man log].
    + intro g'. unfold upd. destruct (Nat.eqb g' g); [reflexivity|apply (inv_man _ _ _ I)].
    + intros j Hj Hkj. assert (j <> i) by congruence.
      rewrite !upd_other by assumption. rewrite NOC; [now apply (inv_leaf _ _ _ I)|congruence| |assumption].
      intro Hp. destruct (wf_peers N deps W g j Hp) as [_ [? ?]]. congruence.
    + intros j g' conv' Hj Hkj. destruct (Nat.eq_dec g' g) as [->|Hg].
      * rewrite upd_same. split; [exact Hig|]. split; [exact Tii|]. now rewrite !upd_same.
      * rewrite (upd_other last) by exact Hg.
        destruct (inv_last _ _ _ I j g' conv' Hj Hkj) as (A & B & Cc).
        destruct (wf_peers N deps W g' (last g') A) as [_ [cl Hkl]].
        assert (last g' <> i) by congruence.
        rewrite !upd_other by assumption.
        rewrite NOC; [now split|congruence| |assumption].
        intro Hp. destruct (wf_peers N deps W g (last g') Hp) as [_ [? ?]]. congruence.
    + intros j p Hj Hkj Htj.
      assert (Hji : j <> i) by congruence.
      assert (Hbefore : tnt st j = false).
      { destruct (tnt st j) eqn:Ej; [|reflexivity]. rewrite (MON j Hji Ej) in Htj. discriminate. }
      destruct (inv_comp _ _ _ I j p Hj Hkj Hbefore) as [Hd Hc].
      assert (HdA : forall d, In d (deps j) -> t' d = false /\ d <> i).
      { intros d Hdin. assert (In j (dependants N d)) by now apply (wf_inv N deps W).
        assert (d <> i).
        { intros ->. rewrite (D j H) in Htj. discriminate. }
        split; [|assumption]. destruct (t' d) eqn:Ed; [|reflexivity].
        destruct (NEW d H0 (Hd d Hdin) Ed) as [_ Hm]. rewrite (Hm j H) in Htj. discriminate. }
      split; [now intros d Hdin; apply HdA|].
      rewrite upd_other by exact Hji.
      eapply clean_transfer_ds; [exact Hc|exact (wf_comp N deps W j p Hj Hkj)|].
      cbn [tnt cache]. intros d Hdin _. destruct (HdA d Hdin). split; [assumption|].
      now rewrite upd_other by assumption.
    + intros j g' conv' Hj Hkj Hne Htj.
      destruct (Nat.eq_dec g' g) as [->|Hg].
      * rewrite upd_same in Hne.
        destruct (wf_sync N deps W j g conv' Hj Hkj) as [Hjp _].
        rewrite (PEER j Hjp Hne) in Htj. discriminate.
      * rewrite (upd_other last) by exact Hg. rewrite (upd_other last) in Hne by exact Hg.
        assert (Hji : j <> i) by congruence.
        assert (Hjn : ~ In j (peers N g)).
        { intro Hp. destruct (wf_peers N deps W g j Hp) as [_ [? ?]]. congruence. }
        rewrite NOC in Htj by (congruence || assumption).
        rewrite upd_other by exact Hji.
        destruct (inv_last _ _ _ I j g' conv' Hj Hkj) as (A & B & Cc).
        destruct (wf_peers N deps W g' (last g') A) as [_ [cl Hkl]].
        assert (last g' <> i) by congruence.
        eapply clean_transfer_ds; [now eapply (inv_sync _ _ _ I); eauto| |].
        -- apply (wf_sync N deps W j g' conv' Hj Hkj); [exact A|congruence].
        -- cbn [tnt cache]. intros d [<-|[]] _.
           rewrite NOC; [|congruence| |assumption].
           ++ rewrite upd_other by assumption. now split.
           ++ intro Hp. destruct (wf_peers N deps W g (last g') Hp) as [_ [? ?]]. congruence.
Qed.

(** The invariant holds initially. *)
Lemma init_inv v0 man0 :
  (forall i g conv, i < size N -> kind_of N i = Sync g conv -> In (man0 g) (peers N g)) ->
  Inv v0 man0 (init_state N v0 man0).
Proof.
  intro Hm. constructor; unfold init_state; cbn [tnt cache man log].
  - reflexivity.
  - intros i Hi Hk. rewrite Hk. now split.
  - intros i g conv Hi Hk. specialize (Hm i g conv Hi Hk). split; [exact Hm|].
    destruct (wf_peers N deps W g (man0 g) Hm) as [_ [c Hc]]. rewrite Hc, Nat.eqb_refl. now split.
  - intros i p Hi Hk. rewrite Hk. discriminate.
  - intros i g conv Hi Hk Hne. rewrite Hk. apply Nat.eqb_neq in Hne. rewrite Hne. discriminate.
Qed.

Lemma steps_spec tf ops : size N + 2 <= tf -> Forall (accepted N) ops ->
  forall base last st, Inv base last st ->
  exists st', steps N tf ops st = Some st' /\
              Inv (assigned N ops base) (last_set N ops last) st'.
Proof.
  intros Htf. induction ops as [|o ops IH]; intros Ha base last st I.
  - exists st. now split.
  - inversion Ha as [|? ? Ho Hops]; subst. unfold steps. simpl foldo.
    destruct o as [i|i v]; simpl in Ho; simpl step.
    + destruct (get_spec base last tf tf i st I Ho) as (w & st1 & E & I1 & _); [lia|lia|].
      rewrite E. apply (IH Hops base last st1 I1).
    + destruct Ho as [Hi HnC].
      destruct (set_spec base last tf i v st I Hi) as (st1 & E & I1 & _); [lia|exact HnC|].
      rewrite E. simpl.
      destruct (kind_of N i) as [|p|g conv] eqn:Hk.
      * apply (IH Hops _ _ _ I1).
      * now specialize (HnC p).
      * apply (IH Hops _ _ _ I1).
Qed.

(** The from-scratch value is unique. *)
Lemma den_fun base last i v w : den N base last i v -> den N base last i w -> v = w.
Proof.
  intro H. revert w.
  revert i v H.
  refine (den_ind2 N base last
    (fun i v _ => forall w, den N base last i w -> v = w)
    (fun p v _ => forall w, denp N base last p w -> v = w) _ _ _ _ _ _).
  - intros i Hk w Hw. inversion Hw; congruence.
  - intros i p v Hk Hp IH w Hw. inversion Hw as [|i' p' v' Hk' Hp'| |]; subst; try congruence.
    apply IH. replace p with p' by congruence. assumption.
  - intros i g conv Hk Hl w Hw. inversion Hw as [| | |i' g' c' v' Hk' Hl' Hp']; subst; try congruence.
  - intros i g conv v Hk Hl Hp IH w Hw. inversion Hw as [| |i' g' c' Hk' Hl'|i' g' c' v' Hk' Hl' Hp']; subst;
      try congruence.
    apply IH. assert (g' = g /\ c' = conv) as [-> ->] by (split; congruence). assumption.
  - intros v w Hw. inversion Hw. congruence.
  - intros j k w v Hd IHd Hp IHp w' Hw. inversion Hw; subst.
    apply IHp. rewrite (IHd w0); assumption.
Qed.

(** Evaluation log of a single read / write. *)
Lemma steps_untainted tf ops j : size N + 2 <= tf -> Forall (accepted N) ops -> j < size N ->
  forall base last st st', Inv base last st -> tnt st j = false ->
  steps N tf ops st = Some st' ->
  (forall i v, In (OSet i v) ops -> ~ ancestor N deps j i) ->
  tnt st' j = false.
Proof.
  intros Htf. induction ops as [|o ops IH]; intros Ha Hj base last st st' I Ht Es Hno.
  - injection Es as <-. exact Ht.
  - inversion Ha as [|? ? Ho Hops]; subst. unfold steps in Es. simpl foldo in Es.
    destruct o as [i|i v]; simpl in Ho; simpl step in Es.
    + destruct (get_spec base last tf tf i st I Ho) as (w & st1 & E & I1 & G); [lia|lia|].
      rewrite E in Es. eapply IH; [exact Hops|exact Hj|exact I1| |exact Es|].
      * now apply (got_keep _ _ _ _ G).
      * intros i' v' Hin. apply (Hno i' v'). now right.
    + destruct Ho as [Hi HnC].
      destruct (set_spec base last tf i v st I Hi) as (st1 & E & I1 & _ & Hanc); [lia|exact HnC|].
      rewrite E in Es. eapply IH; [exact Hops|exact Hj|exact I1| |exact Es|].
      * destruct (tnt st1 j) eqn:E1; [|reflexivity].
        exfalso. apply (Hno i v); [now left|]. now apply Hanc.
      * intros i' v' Hin. apply (Hno i' v'). now right.
Qed.

End Proofs.
