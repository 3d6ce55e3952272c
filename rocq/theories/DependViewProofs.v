(** Proofs about element access (DependViewModel.v). *)
From Coq Require Import List Arith Lia Bool.
From Verif Require Import DependModel DependSpec DependProofs DependViewModel.
Import ListNotations.

Section Char.
Context {V : Type} (N : net V) (deps : nat -> list nat).
Hypothesis W : wf N deps.

(** [upath t s j]: [j] is reached from [s] along dependants, all untainted in [t]. *)
Inductive upath (t : nat -> bool) : nat -> nat -> Prop :=
| up_self s : t s = false -> upath t s s
| up_step s k j : t s = false -> In k (dependants N s) -> upath t k j -> upath t s j.

(** [t'] is [t] plus everything reached from the nodes in [l]. *)
Definition closes (l : list nat) (t t' : nat -> bool) : Prop :=
  forall j, t' j = true <-> t j = true \/ exists s, In s l /\ upath t s j.

Lemma upath_start t s j : upath t s j -> t s = false.
Proof. now destruct 1. Qed.

Lemma upath_end t s j : upath t s j -> t j = false.
Proof. induction 1; assumption. Qed.

Lemma upath_trans t a b c : upath t a b -> upath t b c -> upath t a c.
Proof. induction 1 as [s Hs|s k j Hs Hk Hp IH]; intro H; [exact H|]. eapply up_step; eauto. Qed.

Lemma closes_nil t : closes [] t t.
Proof. intro j. split; [now left|]. intros [H|(s & [] & _)]. exact H. Qed.

Lemma closes_app l1 l2 t t1 t2 : closes l1 t t1 -> closes l2 t1 t2 -> closes (l1 ++ l2) t t2.
Proof.
  intros C1 C2 j. rewrite (C2 j). split.
  - intros [H|(s & Hs & Hp)].
    + apply C1 in H as [H|(s & Hs & Hp)]; [now left|]. right. exists s.
      split; [apply in_app_iff; now left|exact Hp].
    + right. exists s. split; [apply in_app_iff; now right|].
      assert (forall x, t1 x = false -> t x = false) as Hm.
      { intros x Hx. destruct (t x) eqn:E; [|reflexivity].
        assert (t1 x = true) by (apply C1; now left). congruence. }
      clear Hs. induction Hp as [s H|s k j H Hk Hp IH].
      * apply up_self. now apply Hm.
      * eapply up_step; eauto.
  - intros [H|(s & Hs & Hp)]; [left; apply C1; now left|].
    apply in_app_iff in Hs as [Hs|Hs].
    + left. apply C1. right. now exists s.
    + assert (D : t1 j = true \/ upath t1 s j).
      { clear Hs. induction Hp as [s H|s k j H Hk Hp IH].
        - destruct (t1 s) eqn:E; [now left|right; now constructor].
        - destruct IH as [IH|IH]; [now left|].
          destruct (t1 s) eqn:E.
          + left. apply C1 in E as [E|(r & Hr & Hpr)]; [congruence|].
            apply C1. right. exists r. split; [exact Hr|].
            eapply upath_trans; [exact Hpr|]. eapply up_step; eauto.
          + right. eapply up_step; eauto. }
      destruct D as [D|D]; [now left|right; now exists s].
Qed.

Lemma walk_closes f :
  (forall j t t', taint N f j true t = Some t' -> t j = false -> closes [j] t t') ->
  forall l t t', foldo (fun (t : nat -> bool) (j : nat) => if t j then Some t else taint N f j true t) l t
       = Some t' -> closes l t t'.
Proof.
  intro H. induction l as [|a l IH]; intros t t' E; simpl in E.
  - injection E as <-. apply closes_nil.
  - destruct (t a) eqn:Ha.
    + specialize (IH _ _ E). intro j. rewrite (IH j). split.
      * intros [X|(s & Hs & Hp)]; [now left|right]. exists s. split; [now right|exact Hp].
      * intros [X|(s & [<-|Hs] & Hp)]; [now left| |right; now exists s].
        apply upath_start in Hp. congruence.
    + destruct (taint N f a true t) as [t1|] eqn:E1; [|discriminate].
      change (a :: l) with ([a] ++ l). apply (closes_app [a] l t t1 t'); [now apply H|now apply IH].
Qed.

Lemma upd_iff (t : nat -> bool) i j : upd t i true j = true <-> j = i \/ t j = true.
Proof.
  destruct (Nat.eq_dec j i) as [->|Hn]; [rewrite upd_same|rewrite upd_other by exact Hn]; intuition.
Qed.

Lemma taint_closes f : forall j t t', taint N f j true t = Some t' -> t j = false ->
  closes [j] t t'.
Proof.
  induction f as [|f IH]; intros j t t' E Hj; [discriminate|]. simpl in E.
  match type of E with match ?X with _ => _ end = _ => destruct X as [t1|] eqn:E1; [|discriminate] end.
  injection E as <-. pose proof (walk_closes f IH _ _ _ E1) as C.
  intro k. rewrite upd_iff, (C k). split.
  - intros [->|[H|(s & Hs & Hp)]].
    + right. exists j. split; [now left|now constructor].
    + now left.
    + right. exists j. split; [now left|]. eapply up_step; eauto.
  - intros [H|(s & [<-|[]] & Hp)]; [now right; left|].
    inversion Hp as [s Hs|s k' j' Hs Hk Hp']; subst; [now left|].
    right. right. now exists k'.
Qed.

Lemma walk_char f l t t' :
  foldo (fun (t : nat -> bool) (j : nat) => if t j then Some t else taint N f j true t) l t = Some t' ->
  closes l t t'.
Proof. apply walk_closes. intros. eapply taint_closes; eauto. Qed.

Lemma taint_false_char f i t t' : taint N f i false t = Some t' ->
  t' i = false /\ forall j, j <> i ->
    (t' j = true <-> t j = true \/ exists s, In s (dependants N i) /\ upath t s j).
Proof.
  destruct f as [|f]; [discriminate|]. simpl. intro E.
  match type of E with match ?X with _ => _ end = _ => destruct X as [t1|] eqn:E1; [|discriminate] end.
  injection E as <-. split; [apply upd_same|]. intros j Hj. rewrite upd_other by exact Hj.
  apply (walk_char f _ _ _ E1).
Qed.

(** Dependants are computed nodes, hence never members of a synchronizer. *)
Lemma upath_comp t s j d : d < size N -> In s (dependants N d) -> upath t s j ->
  exists p, kind_of N j = Comp p.
Proof.
  intros Hd Hs Hp. revert d Hd Hs. induction Hp as [s H|s k j H Hk Hp IH]; intros d Hd Hs.
  - now destruct (wf_dependants N deps W d s Hd Hs) as (_ & _ & ?).
  - destruct (wf_dependants N deps W d s Hd Hs) as ([_ Hlt] & _ & _). now apply (IH s).
Qed.

(** Effect of the peers loop: every peer (other than [skip]) becomes tainted, and so does
    everything below the peers that were untainted. *)
Definition below_peers (skip : nat -> bool) (l : list nat) (t : nat -> bool) (j : nat) : Prop :=
  exists v s, In v l /\ skip v = false /\ t v = false /\ In s (dependants N v) /\ upath t s j.

Lemma upath_upd t v s j d : d < size N -> In s (dependants N d) ->
  (forall p, kind_of N v <> Comp p) ->
  upath t s j <-> upath (upd t v true) s j.
Proof.
  intros Hd Hs Hv.
  assert (NE : forall a, (exists p, kind_of N a = Comp p) -> a <> v).
  { intros a [p Ha] ->. now apply (Hv p). }
  split; intro H; revert d Hd Hs; induction H as [s H|s k j H Hk Hp IH]; intros d Hd Hs;
    destruct (wf_dependants N deps W d s Hd Hs) as ([_ Hlt] & _ & Hc); specialize (NE s Hc).
  - constructor. now rewrite upd_other.
  - eapply up_step; [now rewrite upd_other|exact Hk|]. now apply (IH s).
  - constructor. now rewrite upd_other in H.
  - eapply up_step; [now rewrite upd_other in H|exact Hk|]. now apply (IH s).
Qed.

End Char.

(** The two versions of the peers loop, with a common name. *)
Definition peer_loop {V : Type} (N : net V) (fuel : nat) (skip : nat -> bool) (t : nat -> bool) (v : nat) :=
  if skip v || t v then Some t
  else foldo (fun (t : nat -> bool) (j : nat) => if t j then Some t else taint N fuel j true t)
             (dependants N v) (upd t v true).

Section Peers.
Context {V : Type} (N : net V) (deps : nat -> list nat).
Hypothesis W : wf N deps.

Lemma walk_ok f l t : (forall j, In j l -> j < size N) -> size N < f ->
  exists t', foldo (fun (t : nat -> bool) (j : nat) => if t j then Some t else taint N f j true t) l t = Some t'.
Proof.
  intros Hl Hf. revert t. induction l as [|a l IH]; intros t; simpl; [now exists t|].
  destruct (t a) eqn:Ha; [apply IH; intros j Hj; apply Hl; now right|].
  destruct (taint_spec N deps W f a true t) as (t1 & E & _); [apply Hl; now left|lia|].
  rewrite E. apply IH. intros j Hj. apply Hl. now right.
Qed.

Lemma peer_loop_char fuel skip g l : size N < fuel ->
  (forall v, In v l -> In v (peers N g)) ->
  forall t, exists t', foldo (peer_loop N fuel skip) l t = Some t' /\
   forall j, t' j = true <->
     t j = true \/ (In j l /\ skip j = false) \/ below_peers N skip l t j.
Proof.
  intros Hf. induction l as [|v l IH]; intros Hl t; simpl.
  { exists t. split; [reflexivity|]. intro j. split; [now left|].
    intros [H|[[[] _]|(v & s & [] & _)]]. exact H. }
  assert (Hl' : forall x, In x l -> In x (peers N g)) by (intros x Hx; apply Hl; now right).
  destruct (wf_peers N deps W g v (Hl v (or_introl eq_refl))) as [Hvs [cv Hkv]].
  assert (HvC : forall p, kind_of N v <> Comp p) by (intro p; congruence).
  unfold peer_loop at 1. destruct (skip v || t v) eqn:Hsk.
  - destruct (IH Hl' t) as (t' & E & C). exists t'. split; [exact E|].
    intro j. rewrite (C j). split.
    + intros [H|[[H1 H2]|(x & s & Hx & Hr)]]; [now left|right; left; split; [now right|exact H2]|].
      right. right. exists x, s. split; [now right|exact Hr].
    + apply orb_true_iff in Hsk.
      intros [H|[[[<-|H1] H2]|(x & s & [<-|Hx] & Hr)]].
      * now left.
      * left. destruct Hsk; congruence.
      * right. left. now split.
      * exfalso. destruct Hr as (A & B & _). destruct Hsk; congruence.
      * right. right. exists x, s. now split.
  - apply orb_false_iff in Hsk as [Hsv Htv].
    destruct (walk_ok fuel (dependants N v) (upd t v true)) as [t1 E1]; [|exact Hf|].
    { intros j Hj. now destruct (wf_dependants N deps W v j Hvs Hj) as ([_ ?] & _). }
    rewrite E1. pose proof (walk_char N fuel _ _ _ E1) as C1.
    destruct (IH Hl' t1) as (t' & E & C). exists t'. split; [exact E|].
    assert (C1' : forall j, t1 j = true <-> t j = true \/ j = v \/
               exists s, In s (dependants N v) /\ upath N t s j).
    { intro j. rewrite (C1 j), upd_iff. split.
      - intros [[->|H]|(s & Hs & Hp)]; [right; now left|now left|right; right].
        exists s. split; [exact Hs|]. now apply (upath_upd N deps W t v s j v).
      - intros [H|[->|(s & Hs & Hp)]]; [left; now right|left; now left|right].
        exists s. split; [exact Hs|]. now apply (upath_upd N deps W t v s j v). }
    assert (Tm : forall x, t1 x = false -> t x = false).
    { intros x Hx. destruct (t x) eqn:Ex; [|reflexivity].
      assert (t1 x = true) by (apply C1'; now left). congruence. }
    intro j. rewrite (C j), (C1' j). split.
    + intros [[H|[->|(s & Hs & Hp)]]|[[H1 H2]|(x & s & Hx & Hskx & Htx & Hs & Hp)]].
      * now left.
      * right. left. split; [now left|exact Hsv].
      * right. right. exists v, s. split; [now left|]. now split; [|split; [|split]].
      * right. left. split; [now right|exact H2].
      * right. right. exists x, s. split; [now right|]. split; [exact Hskx|].
        split; [now apply Tm|]. split; [exact Hs|].
        clear Hs. induction Hp as [s H|s k j H Hk Hp IHp]; [constructor; now apply Tm|].
        eapply up_step; [now apply Tm|exact Hk|]. apply IHp.
    + intros [H|[[[<-|H1] H2]|(x & s & [<-|Hx] & Hskx & Htx & Hs & Hp)]].
      * left; now left.
      * left; right; now left.
      * right; left; now split.
      * left; right; right. now exists s.
      * (* below another peer *)
        assert (Hxp : In x (peers N g)) by now apply Hl'.
        destruct (wf_peers N deps W g x Hxp) as [Hxs [cx Hkx]].
        destruct (Nat.eq_dec x v) as [->|Hxv]; [left; right; right; now exists s|].
        assert (Ht1x : t1 x = false).
        { destruct (t1 x) eqn:E2; [|reflexivity]. apply C1' in E2 as [E2|[E2|(r & Hr & Hpr)]]; [congruence..|].
          destruct (upath_comp N deps W t r x v Hvs Hr Hpr) as [p Hp']. congruence. }
        assert (D : t1 j = true \/ upath N t1 s j).
        { assert (Hc := Hp). revert Hc. clear Hs. intros _.
          induction Hp as [s H|s k j H Hk Hp IHp].
          - destruct (t1 s) eqn:E2; [now left|right; now constructor].
          - destruct IHp as [IHp|IHp]; [now left|].
            destruct (t1 s) eqn:E2.
            + left. apply C1' in E2 as [E2|[E2|(r & Hr & Hpr)]]; [congruence| |].
              * subst s. apply C1'. right. right. exists k. now split.
              * apply C1'. right. right. exists r. split; [exact Hr|].
                eapply upath_trans; [exact Hpr|]. eapply up_step; eauto.
            + right. eapply up_step; eauto. }
        destruct D as [D|D]; [left; now apply C1'|].
        right. right. exists x, s. now split; [|split; [|split; [|split]]].
Qed.

End Peers.

(** [T] extends [t] and contains everything below its new members. *)
Definition closed_over {V : Type} (N : net V) (t T : nat -> bool) : Prop :=
  (forall x, t x = true -> T x = true) /\
  (forall s k x, T s = true -> t s = false -> In k (dependants N s) -> upath N t k x -> T x = true).

Lemma closed_lift {V : Type} (N : net V) t T : closed_over N t T -> forall l j,
  (T j = true \/ exists s, In s l /\ upath N T s j) <->
  (T j = true \/ exists s, In s l /\ upath N t s j).
Proof.
  intros [Hm Hc] l j. split; (intros [H|(s & Hs & Hp)]; [now left|]).
  - right. exists s. split; [exact Hs|]. clear Hs.
    assert (F : forall x, T x = false -> t x = false).
    { intros x Hx. destruct (t x) eqn:E; [|reflexivity]. apply Hm in E. congruence. }
    induction Hp as [s H|s k j H Hk Hp IH]; [constructor; now apply F|].
    eapply up_step; [now apply F|exact Hk|exact IH].
  - assert (T j = true \/ upath N T s j) as [Hd|Hd]; [|now left|right; now exists s].
    clear Hs. induction Hp as [s H|s k j H Hk Hp IH].
    + destruct (T s) eqn:E; [now left|right; now constructor].
    + destruct IH as [IH|IH]; [now left|].
      destruct (T s) eqn:E; [left; eapply Hc; eauto|right; eapply up_step; eauto].
Qed.

Section ViewProofs.
Context {A : Type} (N : net (list A)) (deps : nat -> list nat).
Hypothesis W : wf N deps.

(** Same observable state. *)
Definition same (s1 s2 : state (list A)) : Prop :=
  (forall j, cache s1 j = cache s2 j) /\ (forall j, tnt s1 j = tnt s2 j) /\
  (forall g, man s1 g = man s2 g) /\ log s1 = log s2.

Lemma bool_iff (a b : bool) : (a = true <-> b = true) -> a = b.
Proof. destruct a, b; intros [H1 H2]; try reflexivity; [symmetry|]; auto. Qed.

Lemma foldo_ext {S B} (f g : S -> B -> option S) l : (forall s b, f s b = g s b) ->
  forall s, foldo f l s = foldo g l s.
Proof. intro H. induction l as [|b l IH]; intro s; simpl; [reflexivity|]. rewrite H. destruct (g s b); auto. Qed.

Lemma view_write_same fuel i pos a st :
  i < size N -> size N < fuel -> (forall p, kind_of N i <> Comp p) ->
  exists s1 s2, setitem N fuel i pos a st = Ok s1 /\ setitem_view N fuel i pos a st = Ok s2 /\
    same s1 s2.
Proof.
  intros Hi Hf HnC. unfold setitem, setitem_view.
  destruct (kind_of N i) as [|p|g conv] eqn:Hk; [|now specialize (HnC p)|].
  - unfold taint_st. destruct (taint_spec N deps W fuel i false
        (tnt (put i (setel pos a (cache st i)) st)) Hi) as (t' & E & _); [lia|].
    rewrite E. eexists _, _. split; [reflexivity|]. split; [reflexivity|].
    repeat split.
  - destruct (wf_sync N deps W i g conv Hi Hk) as [Hip _].
    destruct (peer_loop_char N deps W fuel (fun v => Nat.eqb v i) g (peers N g) Hf (fun _ H => H) (tnt st))
      as (t1 & E1 & C1).
    destruct (peer_loop_char N deps W fuel (fun _ => false) g (peers N g) Hf (fun _ H => H) (tnt st))
      as (t2 & E2 & C2).
    unfold taint_synchro. cbn [put tnt cache man log].
    change (taint_peer N fuel i) with (peer_loop N fuel (fun v => Nat.eqb v i)).
    change (taint_peer_v N fuel) with (peer_loop N fuel (fun _ => false)).
    rewrite E1, E2. unfold taint_st. cbn [tnt cache man log].
    destruct (taint_spec N deps W fuel i false t1 Hi) as (u1 & F1 & _); [lia|].
    destruct (taint_spec N deps W fuel i false t2 Hi) as (u2 & F2 & _); [lia|].
    rewrite F1, F2. eexists _, _. split; [reflexivity|]. split; [reflexivity|].
    split; [reflexivity|]. split; [|split; reflexivity]. cbn [tnt].
    destruct (taint_false_char N fuel i t1 u1 F1) as [X1 Y1].
    destruct (taint_false_char N fuel i t2 u2 F2) as [X2 Y2].
    assert (HM : forall x, t1 x = true -> t2 x = true).
    { intros x Hx. apply C2. apply C1 in Hx as [Hx|[[Hx _]|(v & s & Hv & _ & Hr)]];
        [now left|right; left; now split|].
      right. right. exists v, s. now split; [|split]. }
    (* what t2 has in addition: i and what is below it *)
    assert (HD : forall x, t2 x = true -> x <> i -> t1 x = true \/
                 exists s, In s (dependants N i) /\ upath N (tnt st) s x).
    { intros x Hx Hne. apply C2 in Hx as [Hx|[[Hx _]|(v & s & Hv & _ & Ht & Hs & Hp)]].
      - left. apply C1. now left.
      - left. apply C1. right. left. split; [exact Hx|]. now apply Nat.eqb_neq.
      - destruct (Nat.eqb_spec v i) as [->|Hvi]; [right; now exists s|].
        left. apply C1. right. right. exists v, s. split; [exact Hv|].
        split; [now apply Nat.eqb_neq|]. now split. }
    assert (K1 : closed_over N (tnt st) t1).
    { split; [intros x Hx; apply C1; now left|].
      intros s k x Es Ts Hk' Hp.
      apply C1 in Es as [Es|[[Es Hx]|(v & r & Hv & Hsk & Ht & Hr & Hpr)]]; [congruence| |].
      - apply C1. right. right. exists s, k. now split; [|split; [|split; [|split]]].
      - apply C1. right. right. exists v, r. split; [exact Hv|]. split; [exact Hsk|].
        split; [exact Ht|]. split; [exact Hr|]. eapply upath_trans; [exact Hpr|].
        eapply up_step; eauto. }
    assert (K2 : closed_over N (tnt st) t2).
    { split; [intros x Hx; apply C2; now left|].
      intros s k x Es Ts Hk' Hp.
      apply C2 in Es as [Es|[[Es Hx]|(v & r & Hv & Hsk & Ht & Hr & Hpr)]]; [congruence| |].
      - apply C2. right. right. exists s, k. now split; [|split; [|split; [|split]]].
      - apply C2. right. right. exists v, r. split; [exact Hv|]. split; [exact Hsk|].
        split; [exact Ht|]. split; [exact Hr|]. eapply upath_trans; [exact Hpr|].
        eapply up_step; eauto. }
    intro j. destruct (Nat.eq_dec j i) as [->|Hji]; [congruence|].
    apply bool_iff. rewrite (Y1 j Hji), (Y2 j Hji).
    rewrite (closed_lift N _ _ K1), (closed_lift N _ _ K2). split.
    + intros [H|H]; [left; now apply HM|now right].
    + intros [H|H]; [|now right]. destruct (HD j H Hji) as [Hd|Hd]; [now left|now right].
Qed.
End ViewProofs.
