(** * Hessian tools: interrupted calculations, removal of external modes *)
From Coq Require Import List Arith Lia Reals Lra String Sorting.Sorted FunctionalExtensionality.
From Verif Require Import RSum Ortho MinModel MinLin PhonModel PhonAsr PhonProps HessModel.
Import ListNotations.
Open Scope R_scope.

(** ** Rows of the Hessian *)
(** A potential that is a sum over beads, each quadratic with its own Hessian. *)
Definition bead_quadratic (ii : nat) (gm : pos -> pos) (x0 : pos) (H : nat -> mat) : Prop :=
  exists g, forall x b k, (k < ii)%nat -> gm x b k = g b k + Rsum ii (fun l => H b k l * (x b l - x0 b l)).
Theorem h_row_exact ii gm x0 d H j b k : bead_quadratic ii gm x0 H -> d <> 0 -> (j < ii)%nat -> (k < ii)%nat ->
  h_row ii gm x0 d j (b * ii + k)%nat = H b k j.
Proof.
  intros (g & Q) D J K. unfold h_row.
  assert (E1 : ((b * ii + k) / ii = b)%nat) by (rewrite Nat.div_add_l by lia; rewrite Nat.div_small by easy; lia).
  assert (E2 : ((b * ii + k) mod ii = k)%nat) by (rewrite Nat.add_comm, Nat.mod_add by lia; now apply Nat.mod_small).
  rewrite E1, E2, !Q by easy.
  assert (S : forall c, Rsum ii (fun l => H b k l * (displace x0 j c b l - x0 b l)) = H b k j * c).
  { intros c. rewrite (Rsum_delta ii j); [unfold displace; rewrite Nat.eqb_refl; ring|easy|].
    intros l L NE. unfold displace. destruct (Nat.eqb_spec l j); [easy|ring]. }
  rewrite !S. field. easy.
Qed.
(** The dynamical matrix of a ring polymer. *)
Theorem get_dynmat_entry ii h m3 i b k : (k < ii)%nat ->
  get_dynmat ii h m3 i (b * ii + k)%nat = h i (b * ii + k)%nat / (sqrt (m3 O i) * sqrt (m3 b k)).
Proof.
  intros K. unfold get_dynmat.
  assert (E1 : ((b * ii + k) / ii = b)%nat) by (rewrite Nat.div_add_l by lia; rewrite Nat.div_small by easy; lia).
  assert (E2 : ((b * ii + k) mod ii = k)%nat) by (rewrite Nat.add_comm, Nat.mod_add by lia; now apply Nat.mod_small).
  rewrite E1, E2. unfold Rdiv. rewrite Rinv_mult. ring.
Qed.

(** ** Interrupted calculations *)
Section Resume.
Variables (friction : bool) (ii : nat) (fixed : list nat) (row : nat -> vec) (slice : nat -> nat -> nat -> nat -> R).
Notation run := (session friction ii fixed row slice).
(** Files as left by any number of calls, each interrupted between two operations on files, where [P] holds. *)
Inductive reach (P : disk -> Prop) : disk -> Prop :=
| reach_none : reach P no_files
| reach_more D acts h e k : reach P D -> run D = Some (acts, h, e) -> P (fold_left act (firstn k acts) D) ->
    reach P (fold_left act (firstn k acts) D).
(** The Hessian wanted, and the derivative of the friction wanted. *)
Definition right_h (h : mat) : Prop := forall j c, (j < ii)%nat -> h j c = if memb j fixed then 0 else row j c.
Definition right_e (e : tensor) : Prop := forall b k l j, (j < ii)%nat -> e b k l j = if memb j fixed then 0 else slice j b k l.

Definition known_h (n : nat) (h : mat) : Prop := forall j c, (j < ii)%nat ->
  (memb j fixed = true -> h j c = 0) /\ (memb j fixed = false -> (j < n)%nat -> h j c = row j c).
Definition known_e (n : nat) (e : tensor) : Prop := forall b k l j, (j < ii)%nat ->
  (memb j fixed = true -> e b k l j = 0) /\ (memb j fixed = false -> (j < n)%nat -> e b k l j = slice j b k l).
(** Whether the friction arrays are followed as well. *)
Variable ke : bool.
Definition known_f (n : nat) (e : tensor) : Prop := ke = true -> known_e n e.
Definition good (D : disk) : Prop :=
  (forall i f, hfile D i = Some f -> (i < ii)%nat /\ exists h, f = Whole h /\ known_h (S i) h) /\
  (forall i f, efile D i = Some f -> (i < ii)%nat /\ exists e, f = Whole e /\ known_f (S i) e) /\
  (forall i, hfile D i = None -> efile D i = None).
Fixpoint safe (D : disk) (acts : list action) : Prop :=
  good D /\ match acts with [] => True | a :: l => safe (act D a) l end.
Lemma safe_good D acts : safe D acts -> good D.
Proof. destruct acts; intros (G & _); exact G. Qed.
Lemma safe_firstn acts : forall D k, safe D acts -> good (fold_left act (firstn k acts) D).
Proof.
  induction acts as [|a l IH]; intros D k S; [rewrite firstn_nil; now destruct S|].
  destruct k; [now destruct S|]. cbn [firstn fold_left]. apply IH. now destruct S.
Qed.
Lemma safe_app l1 : forall D l2, safe D l1 -> safe (fold_left act l1 D) l2 -> safe D (l1 ++ l2).
Proof.
  induction l1 as [|a l IH]; intros D l2 S1 S2; [exact S2|]. destruct S1 as (G & S1). split; [exact G|]. now apply IH.
Qed.
Lemma upd_same {A} (f : nat -> A) i a : upd f i a i = a.
Proof. unfold upd. now rewrite Nat.eqb_refl. Qed.
Lemma upd_other {A} (f : nat -> A) i a k : k <> i -> upd f i a k = f k.
Proof. intros N. unfold upd. destruct (Nat.eqb_spec k i); easy. Qed.

Lemma good_writeH D j h : good D -> (j < ii)%nat -> known_h (S j) h -> good (act D (WriteH j h)).
Proof.
  intros (GH & GE & GS) J K. split; [|split]; cbn [act hfile efile].
  - intros i f E. destruct (Nat.eq_dec i j) as [-> | NE].
    + rewrite upd_same in E. injection E as <-. split; [easy|]. now exists h.
    + rewrite upd_other in E by easy. now apply GH.
  - easy.
  - intros i E. apply GS. destruct (Nat.eq_dec i j) as [-> | NE]; [now rewrite upd_same in E|now rewrite upd_other in E].
Qed.
Lemma good_writeE D j e : good D -> (j < ii)%nat -> hfile D j <> None -> known_f (S j) e -> good (act D (WriteE j e)).
Proof.
  intros (GH & GE & GS) J N K. split; [|split]; cbn [act hfile efile].
  - easy.
  - intros i f E. destruct (Nat.eq_dec i j) as [-> | NE].
    + rewrite upd_same in E. injection E as <-. split; [easy|]. now exists e.
    + rewrite upd_other in E by easy. now apply GE.
  - intros i E. destruct (Nat.eq_dec i j) as [-> | NE]; [easy|]. rewrite upd_other by easy. now apply GS.
Qed.
Lemma good_removeE D j : good D -> good (act D (RemoveE j)).
Proof.
  intros (GH & GE & GS). split; [|split]; cbn [act hfile efile].
  - easy.
  - intros i f E. destruct (Nat.eq_dec i j) as [-> | NE]; [now rewrite upd_same in E|]. rewrite upd_other in E by easy. now apply GE.
  - intros i E. destruct (Nat.eq_dec i j) as [-> | NE]; [apply upd_same|]. rewrite upd_other by easy. now apply GS.
Qed.
Lemma good_removeH D j : good D -> efile D j = None -> good (act D (RemoveH j)).
Proof.
  intros (GH & GE & GS) N. split; [|split]; cbn [act hfile efile].
  - intros i f E. destruct (Nat.eq_dec i j) as [-> | NE]; [now rewrite upd_same in E|]. rewrite upd_other in E by easy. now apply GH.
  - easy.
  - intros i E. destruct (Nat.eq_dec i j) as [-> | NE]; [easy|]. rewrite upd_other in E by easy. now apply GS.
Qed.
Lemma clear_safe l : forall D, good D -> safe D (flat_map (fun i => [RemoveE i; RemoveH i]) l).
Proof.
  induction l as [|i l IH]; intros D G; [now split|]. cbn [flat_map app]. split; [easy|].
  assert (G1 := good_removeE D i G). split; [easy|]. apply IH. apply good_removeH; [easy|]. cbn [act efile]. apply upd_same.
Qed.
Lemma known_h_set n h : known_h n h -> memb n fixed = false -> known_h (S n) (set_row h n (row n)).
Proof.
  intros K M j c J. destruct (K j c J) as (A & B). unfold set_row. destruct (Nat.eqb_spec j n) as [-> | NE].
  - split; [congruence|easy].
  - split; [easy|]. intros F L. apply B; [easy|lia].
Qed.
Lemma known_h_fixed n h : known_h n h -> memb n fixed = true -> known_h (S n) h.
Proof.
  intros K M j c J. destruct (K j c J) as (A & B). split; [easy|]. intros F L. apply B; [easy|].
  destruct (Nat.eq_dec j n) as [-> | NE]; [congruence|lia].
Qed.
Lemma known_e_set n e : known_e n e -> memb n fixed = false -> known_e (S n) (set_slice e n (slice n)).
Proof.
  intros K M b k l j J. destruct (K b k l j J) as (A & B). unfold set_slice. destruct (Nat.eqb_spec j n) as [-> | NE].
  - split; [congruence|easy].
  - split; [easy|]. intros F L. apply B; [easy|lia].
Qed.
Lemma known_e_fixed n e : known_e n e -> memb n fixed = true -> known_e (S n) e.
Proof.
  intros K M b k l j J. destruct (K b k l j J) as (A & B). split; [easy|]. intros F L. apply B; [easy|].
  destruct (Nat.eq_dec j n) as [-> | NE]; [congruence|lia].
Qed.
Lemma calc_spec len : forall n h e D acts h' e', (n + len = ii)%nat -> known_h n h -> known_f n e -> (ke = true -> friction = true) -> good D ->
  calc friction fixed row slice (seq n len) h e = (acts, h', e') ->
  safe D acts /\ known_h ii h' /\ known_f ii e'.
Proof.
  induction len as [|len IH]; intros n h e D acts h' e' L KH KE FR G E.
  - cbn in E. injection E as <- <- <-. assert (n = ii) by lia. subst n. split; [now split|now split].
  - cbn [seq calc] in E. destruct (memb n fixed) eqn:M.
    + apply (IH (S n) h e D); [lia|now apply known_h_fixed| |easy|easy|easy]. intros Q. apply known_e_fixed; auto.
    + set (h1 := set_row h n (row n)) in *. set (e1 := if friction then set_slice e n (slice n) else e) in *.
      destruct (calc friction fixed row slice (seq (S n) len) h1 e1) as [[acts2 h2] e2] eqn:C. injection E as <- <- <-.
      assert (KH1 : known_h (S n) h1) by now apply known_h_set.
      assert (G1 : good (act D (WriteH n h1))) by (apply good_writeH; [easy|lia|easy]).
      assert (KE1 : known_f (S n) e1).
      { intros Q. unfold e1. rewrite (FR Q). apply known_e_set; auto. }
      destruct friction eqn:Fr.
      * assert (G2 : good (act (act D (WriteH n h1)) (WriteE n e1))).
        { apply good_writeE; [easy|lia| |easy]. cbn [act hfile]. now rewrite upd_same. }
        destruct (IH (S n) h1 e1 (act (act D (WriteH n h1)) (WriteE n e1)) acts2 h2 e2) as (S & K & KK); [lia|easy|easy|easy|easy|easy|].
        cbn [app]. split; [|now split]. split; [easy|]. split; easy.
      * destruct (IH (S n) h1 e1 (act D (WriteH n h1)) acts2 h2 e2) as (S & K & KK); [lia|easy|easy|easy|easy|easy|].
        cbn [app]. split; [|now split]. split; easy.
Qed.

Lemma load_h_spec D : good D -> forall i, exists h start, load_h (hfile D) i = Some (h, start) /\
  known_h start h /\ (start <= ii)%nat /\ (forall k, (k <= i)%nat -> hfile D k <> None -> (S k <= start)%nat) /\
  (start = O \/ (exists k, start = S k /\ (k <= i)%nat /\ hfile D k <> None)).
Proof.
  intros (GH & GE & GS). assert (Z : known_h O (fun _ _ => 0)) by (intros j c J; split; [easy|lia]).
  induction i as [|i IH]; cbn [load_h].
  - destruct (hfile D O) as [f|] eqn:F.
    + destruct (GH _ _ F) as (L & h & -> & K). exists h, 1%nat. split; [easy|]. split; [easy|]. split; [lia|]. split.
      * intros k Lk _. lia.
      * right. exists O. split; [easy|]. split; [lia|congruence].
    + exists (fun _ _ => 0), O. split; [easy|]. split; [easy|]. split; [lia|]. split; [|now left].
      intros k Lk N. assert (k = O) by lia. subst k. congruence.
  - destruct (hfile D (S i)) as [f|] eqn:F.
    + destruct (GH _ _ F) as (L & h & -> & K). exists h, (S (S i)). split; [easy|]. split; [easy|]. split; [lia|]. split.
      * intros k Lk _. lia.
      * right. exists (S i). split; [easy|]. split; [lia|congruence].
    + destruct IH as (h & st & E & K & L & M & O'). exists h, st. split; [easy|]. split; [easy|]. split; [easy|]. split.
      * intros k Lk N. destruct (Nat.eq_dec k (S i)) as [-> | NE]; [congruence|]. apply M; [lia|easy].
      * destruct O' as [O' | (k & -> & Lk & N)]; [now left|right]. exists k. split; [easy|]. split; [lia|easy].
Qed.
(** The lowest file of the friction is used. *)
Lemma load_e_spec D : good D -> forall i acc, exists e start, load_e (efile D) i acc = Some (e, start) /\
  (((e, start) = acc /\ forall k, (k <= i)%nat -> efile D k = None) \/
   (exists k, start = S k /\ (k <= i)%nat /\ efile D k = Some (Whole e) /\ (forall l, (l < k)%nat -> efile D l = None))).
Proof.
  intros (GH & GE & GS). induction i as [|i IH]; intros acc; cbn [load_e].
  - destruct (efile D O) as [f|] eqn:F.
    + destruct (GE _ _ F) as (L & e & -> & K). exists e, 1%nat. split; [easy|]. right. exists O. split; [easy|]. split; [lia|]. split; [easy|]. lia.
    + destruct acc as [e st]. exists e, st. split; [easy|]. left. split; [easy|]. intros k Lk. now assert (k = O) as -> by lia.
  - assert (T : forall acc', exists e start, load_e (efile D) i acc' = Some (e, start) /\
        (((e, start) = acc' /\ forall k, (k <= i)%nat -> efile D k = None) \/
         (exists k, start = S k /\ (k <= i)%nat /\ efile D k = Some (Whole e) /\ (forall l, (l < k)%nat -> efile D l = None)))) by exact IH.
    destruct (efile D (S i)) as [f|] eqn:F.
    + destruct (GE _ _ F) as (L & e & -> & K). destruct (T (e, S (S i))) as (e' & st & E & X). exists e', st. split; [easy|]. right.
      destruct X as [(X & N) | (k & -> & Lk & Fk & Nk)].
      * injection X as -> ->. exists (S i). split; [easy|]. split; [lia|]. split; [easy|]. intros l Ll. apply N. lia.
      * exists k. split; [easy|]. split; [lia|]. now split.
    + destruct (T acc) as (e' & st & E & X). exists e', st. split; [easy|].
      destruct X as [(X & N) | (k & -> & Lk & Fk & Nk)].
      * left. split; [easy|]. intros k Lk. destruct (Nat.eq_dec k (S i)) as [-> | NE]; [easy|]. apply N. lia.
      * right. exists k. split; [easy|]. split; [lia|]. now split.
Qed.
(** Some file of the friction is there whenever there is one of the Hessian. *)
Definition paired (D : disk) : Prop := (exists i, hfile D i <> None) -> exists i, efile D i <> None.
Lemma session_spec D : good D -> (ke = true -> friction = true /\ paired D) ->
  exists acts h e, run D = Some (acts ++ clear ii, h, e) /\ safe D (acts ++ clear ii) /\ right_h h /\ (ke = true -> right_e e).
Proof.
  intros G KF. assert (G' := G). destruct G' as (GH & GE & GS).
  destruct (load_h_spec D G ii) as (h & st & EH & KH & LH & MH & OH).
  set (LE := if friction then load_e (efile D) ii ((fun _ _ _ _ => 0), st) else Some ((fun _ _ _ _ => 0), st)).
  assert (T : exists e st', LE = Some (e, st') /\ (st' <= st)%nat /\ known_f st' e).
  { unfold LE. destruct friction eqn:Fr.
    - destruct (load_e_spec D G ii ((fun _ _ _ _ => 0), st)) as (e & st' & EE & X). exists e, st'. split; [easy|].
      destruct X as [(X & N) | (k & -> & Lk & Fk & Nk)].
      + injection X as -> ->. split; [lia|]. intros Q. destruct (KF Q) as (_ & P).
        assert (st = O).
        { destruct OH as [OH | (k & -> & Lk & Nh)]; [easy|]. exfalso. destruct P as (i & Pi); [now exists k|].
          destruct (efile D i) as [f|] eqn:Fi; [|easy]. destruct (GE _ _ Fi) as (Li & _). rewrite N in Fi by lia. easy. }
        subst st. intros b k l j J. split; [easy|lia].
      + destruct (GE _ _ Fk) as (Li & e' & E' & K). injection E' as <-. split; [|easy].
        apply MH; [lia|]. intros Nh. apply GS in Nh. congruence.
    - exists (fun _ _ _ _ => 0), st. split; [easy|]. split; [lia|]. intros Q. destruct (KF Q). easy. }
  destruct T as (e & st' & EE & Ls & KE).
  assert (KH' : known_h st' h).
  { intros j c J. destruct (KH j c J) as (A & B). split; [easy|]. intros M L. apply B; [easy|lia]. }
  destruct (calc friction fixed row slice (seq st' (ii - st')) h e) as [[acts h'] e'] eqn:C.
  destruct (calc_spec (ii - st') st' h e D acts h' e') as (SA & K & KK); [lia|easy|easy| |easy|easy|].
  { intros Q. now destruct (KF Q). }
  exists acts, h', e'. split.
  { unfold session. rewrite EH. fold LE. rewrite EE, C. easy. }
  split.
  { apply safe_app; [easy|]. unfold clear. apply clear_safe. rewrite <- (firstn_all acts). now apply safe_firstn. }
  split.
  - intros j c J. destruct (K j c J) as (A & B). destruct (memb j fixed); auto.
  - intros Q b k l j J. destruct (KK Q b k l j J) as (A & B). destruct (memb j fixed); auto.
Qed.
Lemma good_none : good no_files.
Proof. split; [|split]; cbn; intros; easy. Qed.
Lemma reach_good (P : disk -> Prop) D : (ke = true -> friction = true /\ forall D, P D -> paired D) -> reach P D -> good D.
Proof.
  intros KF R. assert (RR : good D /\ (ke = true -> paired D)); [|easy].
  induction R as [|D acts h e k R IH E PD].
  - split; [exact good_none|]. intros _ (i & X). now exfalso; apply X.
  - destruct IH as (G & PP). destruct (session_spec D G) as (acts' & h' & e' & E' & SA & _).
    { intros Q. split; [now destruct (KF Q)|auto]. }
    rewrite E in E'. injection E' as -> -> ->. split; [now apply safe_firstn|]. intros Q. now apply (proj2 (KF Q)).
Qed.
End Resume.

(** ** Theorems *)
Definition anywhere (D : disk) : Prop := True.
(** However often the calculation was stopped, between any two operations on files, the next call
    goes through and gives the Hessian. *)
Theorem hessian_resumes friction ii fixed row slice D : reach friction ii fixed row slice anywhere D ->
  exists acts h e, session friction ii fixed row slice D = Some (acts, h, e) /\ right_h ii fixed row h.
Proof.
  intros R. assert (G : good ii fixed row slice false D) by (apply (reach_good friction ii fixed row slice false anywhere D); easy).
  destruct (session_spec friction ii fixed row slice false D G) as (acts & h & e & E & _ & RH & _); [easy|].
  now exists (acts ++ clear ii), h, e.
Qed.
(** With friction: provided that it was never stopped with files of the Hessian only. *)
Theorem friction_resumes_partial ii fixed row slice D : reach true ii fixed row slice paired D ->
  exists acts h e, session true ii fixed row slice D = Some (acts, h, e) /\ right_h ii fixed row h /\ right_e ii fixed slice e.
Proof.
  intros R. assert (G : good ii fixed row slice true D) by (apply (reach_good true ii fixed row slice true paired D); easy).
  assert (PD : paired D) by (destruct R; [intros (i & X); now exfalso; apply X|easy]).
  destruct (session_spec true ii fixed row slice true D G) as (acts & h & e & E & _ & RH & RE); [easy|].
  exists (acts ++ clear ii), h, e. auto.
Qed.
(** No file is left behind by a call that comes to its end. *)
Lemma clear_removes l : forall D i, In i l ->
  hfile (fold_left act (flat_map (fun i => [RemoveE i; RemoveH i]) l) D) i = None /\
  efile (fold_left act (flat_map (fun i => [RemoveE i; RemoveH i]) l) D) i = None.
Proof.
  assert (K : forall l D i, hfile D i = None -> efile D i = None ->
     hfile (fold_left act (flat_map (fun i => [RemoveE i; RemoveH i]) l) D) i = None /\
     efile (fold_left act (flat_map (fun i => [RemoveE i; RemoveH i]) l) D) i = None).
  { clear. induction l as [|a l IH]; intros D i A B; [easy|]. cbn [flat_map app fold_left]. apply IH; cbn [act hfile efile]; unfold upd; destruct (Nat.eqb i a); easy. }
  induction l as [|a l IH]; intros D i L; [easy|]. cbn [flat_map app fold_left]. destruct L as [-> | L]; [|now apply IH].
  apply K; cbn [act hfile efile]; apply upd_same.
Qed.
Theorem hessian_clears friction ii fixed row slice D acts h e : reach friction ii fixed row slice anywhere D ->
  session friction ii fixed row slice D = Some (acts, h, e) ->
  forall i, hfile (fold_left act acts D) i = None /\ efile (fold_left act acts D) i = None.
Proof.
  intros R E i. assert (G : good ii fixed row slice false D) by (apply (reach_good friction ii fixed row slice false anywhere D); easy).
  destruct (session_spec friction ii fixed row slice false D G) as (acts' & h' & e' & E' & SA & _); [easy|].
  rewrite E in E'. injection E' as -> -> ->.
  destruct (lt_dec i ii) as [L | L].
  - rewrite fold_left_app. unfold clear. apply clear_removes. apply in_seq. lia.
  - assert (GF : good ii fixed row slice false (fold_left act (acts' ++ clear ii) D)).
    { rewrite <- (firstn_all (acts' ++ clear ii)) at 1. now apply safe_firstn. }
    destruct GF as (GH & GE & GS). set (D' := fold_left act (acts' ++ clear ii) D) in *.
    assert (X : hfile D' i = None).
    { destruct (hfile D' i) eqn:F; [|easy]. destruct (GH _ _ F). lia. }
    split; [easy|]. now apply GS.
Qed.
(** Without friction no row is computed again. *)
Theorem hessian_keeps_work ii fixed row slice D acts h e i j h1 : reach false ii fixed row slice anywhere D ->
  session false ii fixed row slice D = Some (acts, h, e) -> hfile D i <> None -> In (WriteH j h1) acts -> (i < j)%nat.
Proof.
  intros R E F I. assert (G : good ii fixed row slice false D) by (apply (reach_good false ii fixed row slice false anywhere D); easy).
  destruct (load_h_spec ii fixed row slice false D G ii) as (h0 & st & EH & KH & LH & MH & OH).
  unfold session in E. rewrite EH in E.
  destruct (calc false fixed row slice (seq st (ii - st)) h0 (fun _ _ _ _ => 0)) as [[a h'] e'] eqn:C. injection E as <- <- <-.
  assert (Li : (i < st)%nat).
  { destruct G as (GH & _). destruct (hfile D i) as [f|] eqn:Fi; [|easy]. destruct (GH _ _ Fi). apply MH; [lia|congruence]. }
  assert (X : forall len n h e a h' e', calc false fixed row slice (seq n len) h e = (a, h', e') -> In (WriteH j h1) a -> (n <= j)%nat).
  { clear. induction len as [|len IH]; intros n h e a h' e' C I; cbn in C; [injection C as <- <- <-; easy|].
    destruct (memb n fixed); [apply IH in C; [lia|easy]|].
    destruct (calc false fixed row slice (seq (S n) len) (set_row h n (row n)) e) as [[a0 h0] e0] eqn:C0. injection C as <- <- <-.
    destruct I as [I | I]; [injection I as -> _; lia|]. apply IH in C0; [lia|easy]. }
  apply in_app_or in I. destruct I as [I | I]; [apply (X _ _ _ _ _ _ _ C) in I; lia|].
  exfalso. unfold clear in I. apply in_flat_map in I. destruct I as (x & _ & [I | [I | []]]); discriminate.
Qed.
(** What the caller of get_hessian sees. *)
Theorem get_hessian_exact ii gm x0 d fixed D H : bead_quadratic ii gm x0 H -> d <> 0 ->
  reach false ii fixed (h_row ii gm x0 d) (fun _ _ _ _ => 0) anywhere D ->
  exists h, get_hessian ii gm x0 d fixed D = Some h /\
  forall j b k, (j < ii)%nat -> (k < ii)%nat -> h j (b * ii + k)%nat = if memb j fixed then 0 else H b k j.
Proof.
  intros Q N R. destruct (hessian_resumes _ _ _ _ _ _ R) as (acts & h & e & E & RH). exists h. unfold get_hessian. rewrite E. split; [easy|].
  intros j b k J K. rewrite RH by easy. destruct (memb j fixed); [easy|]. now apply h_row_exact.
Qed.
(** Stopped between the first file of the Hessian and the first of the friction: the friction's
    derivative along that coordinate is lost. *)
Definition eta_lin (x : pos) (b k l : nat) : R := x b O.
Definition gm_lin (x : pos) : pos := x.
Definition at0 : pos := fun _ _ => 0.
Theorem friction_resumes_refuted : exists ii gm eta x0 d D h e,
  reach true ii [] (h_row ii gm x0 d) (e_slice eta x0 d) anywhere D /\ d <> 0 /\
  get_hessian_eta ii gm eta x0 d [] D = Some (h, e) /\
  (forall x b k l, eta x b k l = x b O) /\ e O O O O = 0.
Proof.
  exists 3%nat, gm_lin, eta_lin, at0, 1.
  set (row := h_row 3 gm_lin at0 1). set (sl := e_slice eta_lin at0 1).
  destruct (session true 3 [] row sl no_files) as [[[acts h0] e0]|] eqn:E; [|cbn in E; discriminate].
  set (D := fold_left act (firstn 1 acts) no_files).
  assert (ED : D = act no_files (WriteH O (set_row (fun _ _ => 0) O (row O)))) by (cbn in E; injection E as <- <- <-; reflexivity).
  destruct (session true 3 [] row sl D) as [[[acts1 h1] e1]|] eqn:E1; [|rewrite ED in E1; cbn in E1; discriminate].
  exists D, h1, e1. split; [|split; [lra|split; [|split]]].
  - apply (reach_more true 3 [] row sl anywhere no_files acts h0 e0 1); [constructor|easy|easy].
  - unfold get_hessian_eta. fold row sl. now rewrite E1.
  - easy.
  - rewrite ED in E1. cbn in E1. injection E1 as _ _ <-. unfold set_slice. reflexivity.
Qed.
(** With friction the calculation starts again after the first coordinate. *)
Theorem friction_work_refuted : exists ii row slice D acts h e h1,
  reach true ii [] row slice paired D /\ session true ii [] row slice D = Some (acts, h, e) /\
  efile D 1 <> None /\ In (WriteH 1 h1) acts.
Proof.
  exists 3%nat, (fun _ _ => 1), (fun _ _ _ _ => 1).
  destruct (session true 3 [] (fun _ _ => 1) (fun _ _ _ _ => 1) no_files) as [[[acts h0] e0]|] eqn:E; [|cbn in E; discriminate].
  set (D := fold_left act (firstn 4 acts) no_files).
  destruct (session true 3 [] (fun _ _ => 1) (fun _ _ _ _ => 1) D) as [[[acts1 h1] e1]|] eqn:E1;
    [|unfold D in E1; cbn in E; injection E as <- <- <-; cbn in E1; discriminate].
  unfold D in *. cbn in E. injection E as <- <- <-. cbn in E1. injection E1 as <- <- <-.
  eexists _, _, _, _, _. split; [|split; [|split]].
  - eapply (reach_more true 3 [] _ _ paired no_files _ _ _ 4); [constructor|cbn; reflexivity|].
    intros _. exists 1%nat. cbn. easy.
  - cbn. reflexivity.
  - cbn. easy.
  - left. reflexivity.
Qed.
(** A file cut short makes every later call fail, though the files are read in a loop that is
    meant to pass over those not properly written: whatever else there is, if no later file is found. *)
Theorem cut_file_fails friction ii fixed row slice D j h1 : (j <= ii)%nat -> (forall i, (j < i)%nat -> hfile D i = None) ->
  session friction ii fixed row slice (act_cut D (WriteH j h1)) = None.
Proof.
  intros J F. unfold session.
  assert (L : forall i, (j <= i)%nat -> load_h (hfile (act_cut D (WriteH j h1))) i = None).
  { cbn [act_cut hfile]. induction i as [|i IH]; intros Li; cbn [load_h].
    - assert (j = O) by lia. subst j. now rewrite upd_same.
    - destruct (Nat.eq_dec (S i) j) as [<- | NE]; [now rewrite upd_same|]. rewrite upd_other by easy. rewrite F by lia. apply IH. lia. }
  now rewrite L by lia.
Qed.
Theorem cut_resumes_refuted : exists ii row acts h e k a,
  session false ii [] row (fun _ _ _ _ => 0) no_files = Some (acts, h, e) /\ nth_error acts k = Some a /\
  (exists D acts' h' e', D = fold_left act (firstn k acts) no_files /\ session false ii [] row (fun _ _ _ _ => 0) D = Some (acts', h', e')) /\
  session false ii [] row (fun _ _ _ _ => 0) (act_cut (fold_left act (firstn k acts) no_files) a) = None.
Proof.
  exists 3%nat, (fun _ _ => 1). do 3 eexists. exists 1%nat. eexists. split; [cbn; reflexivity|]. split; [cbn; reflexivity|]. split.
  - do 4 eexists. split; [reflexivity|]. cbn. reflexivity.
  - apply cut_file_fails; [lia|]. intros i L. cbn. unfold upd. destruct (Nat.eqb_spec i 0); [lia|easy].
Qed.

(** ** Removal of the external modes *)
Definition ascending {A} (l : list (R * A)) : Prop := StronglySorted (fun a b => fst a <= fst b) l.
Definition no_gap (d : R) : Prop := freq d < - 4 \/ - (1 / 100) < freq d.
Lemma conv_pos : 0 < conv.
Proof. unfold conv. assert (P := PI_RGT_0). apply Rmult_lt_0_compat; [|lra]. apply Rmult_lt_0_compat; lra. Qed.
Lemma freq_mono a b : a <= b -> freq a <= freq b.
Proof.
  intros L. unfold freq, Rdiv. apply Rmult_le_compat_r; [left; apply Rinv_0_lt_compat, conv_pos|].
  assert (Pa := sqrt_pos (Rabs a)). assert (Pb := sqrt_pos (Rabs b)).
  destruct (Rlt_dec a 0), (Rlt_dec 0 a), (Rlt_dec b 0), (Rlt_dec 0 b); try lra.
  - assert (sqrt (Rabs b) <= sqrt (Rabs a)); [|lra]. apply sqrt_le_1_alt. rewrite !Rabs_left by lra. lra.
  - assert (sqrt (Rabs a) <= sqrt (Rabs b)); [|lra]. apply sqrt_le_1_alt. rewrite !Rabs_right by lra. lra.
Qed.
Lemma filter_none {A} (p : A -> bool) l : (forall x, In x l -> p x = false) -> filter p l = [].
Proof. induction l as [|a l IH]; intros F; cbn; [easy|]. rewrite F by now left. apply IH. intros. apply F. now right. Qed.
Lemma filter_all {A} (p : A -> bool) l : (forall x, In x l -> p x = true) -> filter p l = l.
Proof. induction l as [|a l IH]; intros F; cbn; [easy|]. rewrite F by now left. f_equal. apply IH. intros. apply F. now right. Qed.
Definition posf (d : R) : bool := negb (is_neg d) && negb (is_zero d).
Lemma split3 {A} (l : list (R * A)) : ascending l -> (forall e, In e l -> no_gap (fst e)) ->
  l = filter (fun e => is_neg (fst e)) l ++ filter (fun e => is_zero (fst e)) l ++ filter (fun e => posf (fst e)) l /\
  filter (fun e => negb (is_zero (fst e))) l = filter (fun e => is_neg (fst e)) l ++ filter (fun e => posf (fst e)) l.
Proof.
  induction l as [|x l IH]; intros SS NG; [easy|]. inversion SS as [|? ? S1 S2]; subst.
  destruct IH as (I1 & I2); [easy|intros e I; apply NG; now right|]. rewrite Forall_forall in S2.
  assert (NX := NG x (or_introl eq_refl)). unfold no_gap in NX.
  assert (Gt : forall e, In e l -> freq (fst x) <= freq (fst e)) by (intros e I; apply freq_mono; now apply S2).
  cbn [filter]. destruct (is_neg (fst x)) eqn:E1.
  - assert (Z : is_zero (fst x) = false).
    { unfold is_neg in E1. destruct (Rlt_dec (freq (fst x)) (-4)) as [L|]; [|easy]. unfold is_zero. destruct (Rlt_dec (Rabs (freq (fst x))) (1 / 100)) as [L'|]; [|easy].
      rewrite Rabs_left in L' by lra. lra. }
    rewrite Z. assert (P : posf (fst x) = false) by (unfold posf; now rewrite E1). rewrite P. cbn [negb app]. split; f_equal; easy.
  - assert (B : - (1 / 100) < freq (fst x)).
    { unfold is_neg in E1. destruct (Rlt_dec (freq (fst x)) (-4)) as [L|]; [easy|]. lra. }
    assert (N0 : filter (fun e => is_neg (fst e)) l = []).
    { apply filter_none. intros e I. unfold is_neg. destruct (Rlt_dec (freq (fst e)) (-4)) as [L|]; [|easy]. specialize (Gt e I). lra. }
    rewrite N0 in *. cbn [app] in *. destruct (is_zero (fst x)) eqn:E2.
    + assert (P : posf (fst x) = false) by (unfold posf; now rewrite E1, E2). rewrite P. cbn [negb app]. split; [f_equal|]; easy.
    + assert (P : posf (fst x) = true) by (unfold posf; now rewrite E1, E2). rewrite P.
      assert (B2 : 1 / 100 <= freq (fst x)).
      { unfold is_zero in E2. destruct (Rlt_dec (Rabs (freq (fst x))) (1 / 100)) as [L|L]; [easy|]. apply Rnot_lt_le in L.
        destruct (Rle_lt_dec (freq (fst x)) 0); [rewrite Rabs_left1 in L by lra; lra|rewrite Rabs_right in L by lra; lra]. }
      assert (Z0 : filter (fun e => is_zero (fst e)) l = []).
      { apply filter_none. intros e I. specialize (Gt e I). unfold is_zero. rewrite Rabs_right by lra. destruct (Rlt_dec (freq (fst e)) (1 / 100)); [lra|easy]. }
      rewrite Z0 in *. cbn [app negb] in *. split; f_equal; easy.
Qed.
(** Eigenvalues in increasing order, none between -4 and -0.01 inverse centimetres: exactly the
    modes of frequency below 0.01 are removed. *)
Theorem clean_exact {A} (l : list (R * A)) : ascending l -> (forall e, In e l -> no_gap (fst e)) ->
  clean l = filter (fun e => negb (is_zero (fst e))) l.
Proof.
  intros SS NG. destruct (split3 l SS NG) as (I1 & I2). rewrite I2. unfold clean, count, delete_range.
  set (Ng := filter (fun e => is_neg (fst e)) l) in *. set (Z := filter (fun e => is_zero (fst e)) l) in *.
  set (P := filter (fun e => posf (fst e)) l) in *.
  destruct (0 <? List.length Z)%nat eqn:L.
  - rewrite I1. f_equal.
    + rewrite firstn_app, Nat.sub_diag, firstn_all. cbn. now rewrite app_nil_r.
    + rewrite app_assoc, <- app_length, skipn_app, skipn_all, Nat.sub_diag. reflexivity.
  - apply Nat.ltb_ge in L. destruct Z; [easy|cbn in L; lia].
Qed.
(** As many modes go as there are frequencies below 0.01, in every case. *)
Theorem clean_number {A} (l : list (R * A)) : (count (fun e => is_neg (fst e)) l + count (fun e => is_zero (fst e)) l <= List.length l)%nat /\
  (List.length (clean l) + count (fun e => is_zero (fst e)) l = List.length l)%nat.
Proof.
  assert (B : (count (fun e : R * A => is_neg (fst e)) l + count (fun e => is_zero (fst e)) l <= List.length l)%nat).
  { unfold count. induction l as [|x l IH]; cbn; [lia|].
    destruct (is_neg (fst x)) eqn:E1; destruct (is_zero (fst x)) eqn:E2; cbn; try lia. exfalso.
    unfold is_neg in E1. destruct (Rlt_dec (freq (fst x)) (-4)); [|easy]. unfold is_zero in E2. destruct (Rlt_dec (Rabs (freq (fst x))) (1 / 100)) as [L|]; [|easy].
    rewrite Rabs_left in L by lra. lra. }
  split; [exact B|]. unfold clean. set (z := count (fun e : R * A => is_zero (fst e)) l) in *. set (n := count (fun e : R * A => is_neg (fst e)) l) in *.
  destruct (0 <? z)%nat eqn:L.
  - unfold delete_range. rewrite app_length, firstn_length, skipn_length. lia.
  - apply Nat.ltb_ge in L. lia.
Qed.
(** A soft imaginary mode (one inverse centimetre) goes, and a mode of zero frequency stays. *)
Lemma freq_neg x : 0 < x -> freq (- (x * conv) ^ 2) = - x.
Proof.
  intros P. assert (C := conv_pos). assert (Q : 0 < x * conv) by nra. unfold freq. destruct (Rlt_dec (- (x * conv) ^ 2) 0) as [_|N]; [|exfalso; apply N; nra].
  rewrite Rabs_Ropp, Rabs_right by nra. rewrite sqrt_pow2 by lra. field. lra.
Qed.
Lemma freq_0 : freq 0 = 0.
Proof. unfold freq. destruct (Rlt_dec 0 0); [lra|]. unfold Rdiv. ring. Qed.
Theorem clean_refuted : exists l : list (R * nat), ascending l /\
  clean l <> filter (fun e => negb (is_zero (fst e))) l /\
  exists e, In e (clean l) /\ fst e = 0.
Proof.
  exists [(- (1 * conv) ^ 2, O); (0, 1%nat)]. assert (C := conv_pos).
  assert (Z0 : is_zero 0 = true) by (unfold is_zero; rewrite freq_0, Rabs_R0; destruct (Rlt_dec 0 (1 / 100)); [easy|lra]).
  assert (Z1 : is_zero (- (1 * conv) ^ 2) = false).
  { unfold is_zero. rewrite freq_neg by lra. rewrite Rabs_left by lra. destruct (Rlt_dec (- - (1)) (1 / 100)); [lra|easy]. }
  assert (N0 : is_neg 0 = false) by (unfold is_neg; rewrite freq_0; destruct (Rlt_dec 0 (-4)); [lra|easy]).
  assert (N1 : is_neg (- (1 * conv) ^ 2) = false) by (unfold is_neg; rewrite freq_neg by lra; destruct (Rlt_dec (- (1)) (-4)); [lra|easy]).
  assert (E : clean [(- (1 * conv) ^ 2, O); (0, 1%nat)] = [(0, 1%nat)]).
  { unfold clean, count. cbn [filter fst]. rewrite Z0, Z1, N0, N1. reflexivity. }
  rewrite E. split; [|split].
  - repeat constructor. cbn [fst]. nra.
  - cbn [filter fst]. rewrite Z0, Z1. cbn [negb]. intros X. injection X as X. nra.
  - exists (0, 1%nat). split; [now left|easy].
Qed.

(** ** The matrix that is diagonalised *)
Section Cleaned.
Variables (natoms nbeads : nat) (h : mat) (q m m3 : vec) (eig : mat -> vec * mat).
Hypothesis some_atoms : (0 < natoms)%nat.
Hypothesis some_beads : (0 < nbeads)%nat.
Hypothesis mpos : forall a, (a < natoms)%nat -> 0 < m a.
Hypothesis m3_m : forall b a k, (b < nbeads)%nat -> (a < natoms)%nat -> (k < 3)%nat -> m3 (3 * (natoms * b + a) + k)%nat = m a.
Hypothesis hsym : symmetric (3 * (natoms * nbeads)) h.
Notation N := (natoms * nbeads)%nat.
Notation ism := (fun i => / sqrt (m3 i)).
Notation mall := (fun a => m (a mod natoms)%nat).
Lemma mall_pos a : (a < N)%nat -> 0 < mall a.
Proof. intros _. apply mpos. apply Nat.mod_upper_bound. lia. Qed.
Lemma N_pos : (0 < N)%nat.
Proof. nia. Qed.
Lemma ism_mall a k : (a < N)%nat -> (k < 3)%nat -> ism (3 * a + k)%nat = / sqrt (mall a).
Proof.
  intros A K. cbv beta. assert (X : m3 (3 * a + k)%nat = m (a mod natoms)%nat); [|now rewrite X].
  rewrite (Nat.div_mod a natoms) at 1 by lia. apply m3_m; [|apply Nat.mod_upper_bound; lia|easy].
  apply Nat.div_lt_upper_bound; lia.
Qed.
Lemma dynmat_sym : symmetric (3 * N) (fun i j => ism j * (h i j * ism i)).
Proof. intros i j I J. rewrite (hsym i j) by easy. ring. Qed.
(** With asr = none it is the Hessian divided by the square roots of the masses. *)
Theorem clean_matrix_none i j : (i < 3 * N)%nat -> (j < 3 * N)%nat ->
  exists M, clean_matrix natoms nbeads h q m m3 eig "none" = Some M /\ M i j = h i j / (sqrt (m3 i) * sqrt (m3 j)).
Proof.
  intros I J. eexists. split; [reflexivity|]. cbv beta. rewrite (hsym j i) by easy. unfold Rdiv. rewrite Rinv_mult.
  generalize (/ sqrt (m3 i)) (/ sqrt (m3 j)). intros a b. field.
Qed.
(** With crystal the ring polymer may move as a whole at no cost; with poly it may turn as well. *)
Theorem clean_matrix_crystal : exists M, clean_matrix natoms nbeads h q m m3 eig "crystal" = Some M /\
  symmetric (3 * N) M /\ translation_invariant N (to_hess M ism).
Proof.
  set (U := snd (eig (moi N mall q))).
  set (A := asr_apply (3 * N) 3 (unit_rows (3 * N) (asr_D N mall q ism U)) (fun i j => ism j * (h i j * ism i))).
  assert (SA : symmetric (3 * N) A) by apply asr_symmetric, dynmat_sym.
  eexists. split; [reflexivity|]. change (symmetric (3 * N) (fun i j => (A j i + A i j) / 2) /\ translation_invariant N (to_hess (fun i j => (A j i + A i j) / 2) ism)).
  assert (E : forall i j, (i < 3 * N)%nat -> (j < 3 * N)%nat -> (A j i + A i j) / 2 = A i j) by (intros i j I J; rewrite (SA j i) by easy; field).
  split.
  - intros i j I J. lra.
  - assert (T := crystal_sum_rule N mall q ism mall_pos N_pos ism_mall U (fun i j => ism j * (h i j * ism i))).
    intros i l I L. rewrite <- (T i l I L). apply Rsum_ext. intros b B. unfold to_hess. rewrite E by lia. reflexivity.
Qed.
Theorem clean_matrix_poly : eigen_unit (moi N mall q) (eig (moi N mall q)) -> distinct3 (fst (eig (moi N mall q))) -> nonlinear N mall q ->
  exists M, clean_matrix natoms nbeads h q m m3 eig "poly" = Some M /\
  symmetric (3 * N) M /\ translation_invariant N (to_hess M ism) /\ rotation_invariant N mall q (to_hess M ism).
Proof.
  intros EU D3 NL. assert (O : orthonormal_cols 3 (snd (eig (moi N mall q)))) by (apply (eig_orthonormal N mall q); first [exact N_pos | assumption]).
  set (A := asr_apply (3 * N) 6 (unit_rows (3 * N) (asr_D N mall q ism (snd (eig (moi N mall q))))) (fun i j => ism j * (h i j * ism i))).
  assert (SA : symmetric (3 * N) A) by apply asr_symmetric, dynmat_sym.
  eexists. split; [reflexivity|].
  change (symmetric (3 * N) (fun i j => (A j i + A i j) / 2) /\ translation_invariant N (to_hess (fun i j => (A j i + A i j) / 2) ism) /\
     rotation_invariant N mall q (to_hess (fun i j => (A j i + A i j) / 2) ism)).
  assert (E : forall i j, (i < 3 * N)%nat -> (j < 3 * N)%nat -> (A j i + A i j) / 2 = A i j) by (intros i j I J; rewrite (SA j i) by easy; field).
  destruct (poly_sum_rules N mall q ism mall_pos N_pos ism_mall _ (fun i j => ism j * (h i j * ism i)) EU O NL) as (T & Ro).
  split; [|split].
  - intros i j I J. lra.
  - intros i l I L. rewrite <- (T i l I L). apply Rsum_ext. intros b B. unfold to_hess. rewrite E by lia. reflexivity.
  - intros i w I. rewrite <- (Ro i w I). apply Rsum_ext. intros b B. apply Rsum_ext. intros l L. unfold to_hess. rewrite E by lia. reflexivity.
Qed.
End Cleaned.
(** The derivative of a friction that is linear in the positions. *)
Theorem e_slice_exact ii eta x0 d G j b k l : (exists g, forall x, eta x b k l = g + Rsum ii (fun c => G c * (x b c - x0 b c))) ->
  d <> 0 -> (j < ii)%nat -> e_slice eta x0 d j b k l = G j.
Proof.
  intros (g & Q) D J. unfold e_slice. rewrite !Q.
  assert (S : forall c, Rsum ii (fun l => G l * (displace x0 j c b l - x0 b l)) = G j * c).
  { intros c. rewrite (Rsum_delta ii j); [unfold displace; rewrite Nat.eqb_refl; ring|easy|].
    intros i L NE. unfold displace. destruct (Nat.eqb_spec i j); [easy|ring]. }
  rewrite !S. field. easy.
Qed.
(** Two beads of two atoms, each coordinate held by a spring. *)
Example clean_matrix_case : exists h m3 M, symmetric 12 h /\ (forall b a k, (b < 2)%nat -> (a < 2)%nat -> (k < 3)%nat -> m3 (3 * (2 * b + a) + k)%nat = INR (1 + a)) /\
  clean_matrix 2 2 h (fun i => INR i) (fun a => INR (1 + a)) m3 (fun _ => ((fun _ => 0), eye)) "crystal" = Some M /\ h 0%nat 0%nat = 1 /\
  translation_invariant 4 (to_hess M (fun i => / sqrt (m3 i))).
Proof.
  set (h := fun i j : nat => if Nat.eqb i j then 1 else 0). set (m3 := fun i => INR (1 + (i / 3) mod 2)).
  assert (X := clean_matrix_crystal 2 2 h (fun i => INR i) (fun a => INR (1 + a)) m3 (fun _ => ((fun _ => 0), eye)) ltac:(lia) ltac:(lia)).
  destruct X as (M & E & _ & T).
  - intros a _. apply lt_0_INR. lia.
  - intros b a k B A K. unfold m3. do 2 f_equal. replace (3 * (2 * b + a) + k)%nat with (k + (2 * b + a) * 3)%nat by lia.
    rewrite Nat.div_add, (Nat.div_small k), Nat.add_0_l by lia. rewrite Nat.add_comm, Nat.mul_comm, Nat.mod_add by lia. now apply Nat.mod_small.
  - intros i j _ _. unfold h. now rewrite Nat.eqb_sym.
  - exists h, m3, M. split; [intros i j _ _; unfold h; now rewrite Nat.eqb_sym|]. split; [|split; [exact E|split; [reflexivity|exact T]]].
    intros b a k B A K. unfold m3. do 2 f_equal. replace (3 * (2 * b + a) + k)%nat with (k + (2 * b + a) * 3)%nat by lia.
    rewrite Nat.div_add, (Nat.div_small k), Nat.add_0_l by lia. rewrite Nat.add_comm, Nat.mul_comm, Nat.mod_add by lia. now apply Nat.mod_small.
Qed.

(** ** Cases *)
(** Two atoms on two beads, stopped after three files; coordinate 1 is fixed. *)
Definition H_case (b k l : nat) : R := INR (1 + b + k * l).
Definition gm_case (x : pos) : pos := fun b k => Rsum 6 (fun l => H_case b k l * x b l).
Example resume_case : exists D h, reach false 6 [1%nat] (h_row 6 gm_case at0 (1 / 100)) (fun _ _ _ _ => 0) anywhere D /\
  hfile D 3 <> None /\ hfile D 4 = None /\ get_hessian 6 gm_case at0 (1 / 100) [1%nat] D = Some h /\ h 2%nat 9%nat = 8 /\ h 1%nat 9%nat = 0.
Proof.
  assert (Q : bead_quadratic 6 gm_case at0 H_case).
  { exists (fun _ _ => 0). intros x b k K. unfold gm_case, at0. rewrite Rplus_0_l. apply Rsum_ext. intros l L. ring. }
  set (row := h_row 6 gm_case at0 (1 / 100)).
  destruct (session false 6 [1%nat] row (fun _ _ _ _ => 0) no_files) as [[[acts h0] e0]|] eqn:E; [|cbn in E; discriminate].
  set (D := fold_left act (firstn 3 acts) no_files).
  assert (R : reach false 6 [1%nat] row (fun _ _ _ _ => 0) anywhere D)
    by (apply (reach_more false 6 [1%nat] row _ anywhere no_files acts h0 e0 3); [constructor|easy|easy]).
  destruct (get_hessian_exact 6 gm_case at0 (1 / 100) [1%nat] D H_case Q ltac:(lra) R) as (h & EH & HH).
  exists D, h. split; [easy|]. split; [|split; [|split; [easy|]]].
  - unfold D. cbn in E. injection E as <- <- <-. cbn. easy.
  - unfold D. cbn in E. injection E as <- <- <-. cbn. easy.
  - split.
    + assert (X := HH 2%nat 1%nat 3%nat ltac:(lia) ltac:(lia)). cbn [Nat.mul Nat.add memb existsb Nat.eqb orb] in X. rewrite X. unfold H_case. cbn. lra.
    + assert (X := HH 1%nat 1%nat 3%nat ltac:(lia) ltac:(lia)). exact X.
Qed.
Example clean_case : let l := [(- (5 * conv) ^ 2, O); (0, 1%nat); ((7 * conv) ^ 2, 2%nat)] in
  ascending l /\ (forall e, In e l -> no_gap (fst e)) /\ clean l = [(- (5 * conv) ^ 2, O); ((7 * conv) ^ 2, 2%nat)].
Proof.
  intros l. assert (C := conv_pos).
  assert (F7 : freq ((7 * conv) ^ 2) = 7).
  { unfold freq. assert (0 < 7 * conv) by lra. destruct (Rlt_dec ((7 * conv) ^ 2) 0); [nra|]. destruct (Rlt_dec 0 ((7 * conv) ^ 2)) as [|N]; [|exfalso; apply N; nra].
    rewrite Rabs_right by nra. rewrite sqrt_pow2 by lra. field. lra. }
  assert (SS : ascending l) by (repeat constructor; cbn [fst]; nra).
  assert (NG : forall e, In e l -> no_gap (fst e)).
  { intros e [<- | [<- | [<- | []]]]; unfold no_gap; cbn [fst]; rewrite ?freq_0, ?F7; [rewrite freq_neg by lra| |]; lra. }
  split; [easy|]. split; [easy|]. rewrite clean_exact by easy. unfold l. cbn [filter fst]. unfold is_zero. rewrite freq_0, F7, freq_neg by lra.
  rewrite Rabs_R0, (Rabs_right 7), (Rabs_left (- (5))) by lra.
  destruct (Rlt_dec (- - (5)) (1 / 100)); [lra|]. destruct (Rlt_dec 0 (1 / 100)); [|lra]. destruct (Rlt_dec 7 (1 / 100)); [lra|]. reflexivity.
Qed.
Print Assumptions get_hessian_exact.
Print Assumptions hessian_resumes.
Print Assumptions friction_resumes_partial.
Print Assumptions clean_exact.
