(* Theorems about composite motions: C60. *)
From Coq Require Import String List Bool Arith Lia Reals Lra.
From Verif Require Import MultiModel.
Import ListNotations.
Local Open Scope R_scope.

(* ---------------- specification ---------------- *)

(* the simple motions of a tree, from left to right *)
Fixpoint leaves (m : motion) : list simple :=
  match m with One s => [s] | Multi l => concat (map leaves l) end.
Fixpoint sum (l : list R) : R := match l with nil => 0 | x :: l => x + sum l end.

(* simple motions are executed in order until one of them finishes *)
Fixpoint walk {W} (act : nat -> option nat -> W -> W * option exit) (ss : list simple) (k : option nat) (w : W)
  : W * list nat * option exit :=
  match ss with
  | nil => (w, [], None)
  | s :: ss =>
      match act (number s) k w with
      | (w', Some e) => (w', [number s], Some e)
      | (w', None) => let '(w'', ran, e) := walk act ss k w' in (w'', number s :: ran, e)
      end
  end.

(* q lies in the subtree at p *)
Definition below (p q : place) : Prop := exists r, q = (p ++ r)%list.

(* ---------------- induction on trees ---------------- *)

Lemma motion_ind' (P : motion -> Prop) :
  (forall s, P (One s)) -> (forall l, Forall P l -> P (Multi l)) -> forall m, P m.
Proof.
  intros H1 H2. fix IH 1. intros [s|l]; [apply H1|apply H2].
  induction l; constructor; [apply IH|assumption].
Qed.

Lemma fold_plus l : forall a, fold_left Rplus l a = a + sum l.
Proof. induction l as [|x l IH]; intros a; cbn; [lra|]. rewrite IH. lra. Qed.
Lemma sum_app a b : sum (a ++ b) = sum a + sum b.
Proof. induction a as [|x a IH]; cbn; [lra|]. rewrite IH. lra. Qed.
Lemma fold_and l : forall a, fold_left andb l a = a && forallb (fun b => b) l.
Proof. induction l as [|x l IH]; intros a; cbn; [now rewrite andb_true_r|]. now rewrite IH, andb_assoc. Qed.

(* C60: the time step is the sum of those of the parts. *)
Theorem multi_dt m : totdt m = sum (map dt (leaves m)).
Proof.
  induction m as [s|l IH] using motion_ind'; cbn; [lra|].
  rewrite fold_plus, Rplus_0_l. induction IH as [|m l E _ IHl]; cbn; [reflexivity|].
  now rewrite map_app, sum_app, E, IHl.
Qed.

(* The centre of mass is fixed only if every part fixes it. *)
Theorem multi_com m : allcom m = true <-> forall s, In s (leaves m) -> com s = true.
Proof.
  induction m as [s|l IH] using motion_ind'; cbn.
  - split; [intros H s' [<-|[]]; exact H|intros H; apply H; now left].
  - rewrite fold_and. cbn. induction IH as [|m l E _ IHl]; cbn; [now split|].
    rewrite andb_true_iff, IHl, E. split.
    + intros [A B] s H. apply in_app_or in H. destruct H; auto.
    + intros H. split; intros s I; apply H, in_or_app; auto.
Qed.

Lemma in_inter x a b : In x (inter a b) <-> In x a /\ In x b.
Proof.
  unfold inter. rewrite filter_In, existsb_exists. split; intros [A B]; split; auto.
  - destruct B as [y [B E]]. apply Nat.eqb_eq in E. now subst.
  - exists x. split; [easy|apply Nat.eqb_refl].
Qed.
Lemma nodup_inter a b : NoDup a -> NoDup (inter a b).
Proof. apply NoDup_filter. Qed.

(* C60: a degree of freedom counts as fixed if and only if every part fixes
   it; the result exists unless a list is empty, and lists of motions name
   no degree of freedom twice. *)
Lemma allfixed_spec m : nonempty m = true ->
  exists f, allfixed m = Some f /\ leaves m <> [] /\
    (forall x, In x f <-> forall s, In s (leaves m) -> In x (fixed s)) /\
    match m with One _ => True | Multi _ => NoDup f end.
Proof.
  induction m as [s|l IH] using motion_ind'; intros N.
  - exists (fixed s). split; [reflexivity|]. split; [cbn; discriminate|]. split; [|exact I].
    intros x; cbn; split; [intros H s' [<-|[]]; exact H|intros H; apply H; now left].
  - destruct l as [|m l]; [discriminate N|].
    assert (N' : forallb nonempty (m :: l) = true) by exact N. rewrite forallb_forall in N'.
    rewrite Forall_forall in IH.
    destruct (IH m (or_introl eq_refl) (N' m (or_introl eq_refl))) as (f & E & NE & F & _).
    cbn [allfixed]. rewrite E.
    assert (G : forall xs acc, NoDup acc -> (forall x, In x xs -> nonempty x = true /\ In x (m :: l)) ->
       exists g, (fix go (acc : list nat) (xs : list motion) : option (list nat) :=
         match xs with
         | nil => Some acc
         | x :: xs => match allfixed x with Some f => go (inter acc f) xs | None => None end
         end) acc xs = Some g /\ NoDup g /\
         forall x, In x g <-> In x acc /\ forall s, In s (concat (map leaves xs)) -> In x (fixed s)).
    { induction xs as [|y xs IHx]; intros acc ND H.
      - exists acc. split; [reflexivity|]. split; [exact ND|]. intros x. cbn. tauto.
      - destruct (H y (or_introl eq_refl)) as [Ny Iy]. destruct (IH y Iy Ny) as (fy & Ey & _ & Fy & _).
        rewrite Ey. destruct (IHx (inter acc fy)) as (g & Eg & NDg & Fg).
        { now apply nodup_inter. } { intros; apply H; now right. }
        exists g. split; [exact Eg|]. split; [exact NDg|]. intros x. rewrite Fg, in_inter, Fy. cbn [map concat].
        split.
        + intros [[A B] C]. split; [exact A|]. intros s I. apply in_app_or in I. destruct I; auto.
        + intros [A B]. repeat split; [exact A| |]; intros s I; apply B, in_or_app; auto. }
    destruct (G (m :: l) (nodup Nat.eq_dec f)) as (g & Eg & NDg & Fg).
    { apply NoDup_nodup. } { intros x I. split; [now apply N'|exact I]. }
    rewrite E in Eg. exists g. split; [exact Eg|]. split.
    { cbn. destruct (leaves m); [easy|]. discriminate. }
    split; [|exact NDg]. intros x. rewrite Fg, nodup_In, F. split; [tauto|].
    intros H. split; [|exact H]. intros s I. apply H. cbn. apply in_or_app. now left.
Qed.
Theorem multi_fixed m f x : fixed_of m = Some f -> In x f <-> forall s, In s (leaves m) -> In x (fixed s).
Proof.
  unfold fixed_of. destruct (nonempty m) eqn:N; [|discriminate]. intros E.
  destruct (allfixed_spec m N) as (g & Eg & _ & G & _). rewrite E in Eg. injection Eg as <-. apply G.
Qed.
Theorem multi_fixed_defined m : (exists f, fixed_of m = Some f) <-> nonempty m = true.
Proof.
  unfold fixed_of. destruct (nonempty m) eqn:N; split; try easy.
  - intros _. destruct (allfixed_spec m N) as (g & Eg & _). eauto.
  - intros [f H]. discriminate.
Qed.
Theorem multi_fixed_once l f : fixed_of (Multi l) = Some f -> NoDup f.
Proof.
  unfold fixed_of. destruct (nonempty (Multi l)) eqn:N; [|discriminate]. intros E.
  destruct (allfixed_spec (Multi l) N) as (g & Eg & _ & _ & G). rewrite E in Eg. now injection Eg as <-.
Qed.

(* ---------------- step ---------------- *)

Section Step.
Variable W : Type.
Variable act : nat -> option nat -> W -> W * option exit.
Notation step := (step W act).

Definition valid (e : exit) : bool := match fst e with Some s => known s | None => false end.

Lemma finish_spec f p e : finish f p e = if valid e then Some (set f p e) else None.
Proof. unfold finish, valid. destruct (fst e); [|reflexivity]. now destruct (known s). Qed.
Lemma or_success_valid s msg : valid (s, msg) = true -> (Some (or_success s), msg) = (s, msg).
Proof.
  unfold valid, or_success. cbn. destruct s as [s|]; [|discriminate]. destruct (String.eqb_spec s "") as [->|]; [discriminate|reflexivity].
Qed.
Lemma set_at f p e : set f p e p = Some e.
Proof. unfold set. now destruct (list_eq_dec Nat.eq_dec p p). Qed.
Lemma set_other f p e q : p <> q -> set f p e q = f q.
Proof. unfold set. now destruct (list_eq_dec Nat.eq_dec p q). Qed.
Lemma below_refl p : below p p.
Proof. exists []. now rewrite app_nil_r. Qed.
Lemma below_app p r q : below (p ++ r) q -> below p q.
Proof. intros [s ->]. exists (r ++ s)%list. now rewrite app_assoc. Qed.
Lemma walk_app ss ss' k w : walk act (ss ++ ss') k w =
  let '(w', ran, e) := walk act ss k w in
  match e with
  | Some _ => (w', ran, e)
  | None => let '(w'', ran', e') := walk act ss' k w' in (w'', (ran ++ ran')%list, e')
  end.
Proof.
  revert w. induction ss as [|s ss IH]; intros w; cbn.
  - now destruct (walk act ss' k w) as [[? ?] ?].
  - destruct (act (number s) k w) as [w' [e|]]; [reflexivity|]. rewrite IH.
    destruct (walk act ss k w') as [[? ?] [e|]]; [reflexivity|]. now destruct (walk act ss' k w0) as [[? ?] ?].
Qed.

Definition agrees (p : place) (f : flags) (r : option (run W)) (t : list nat) (x : W * list nat * option exit) : Prop :=
  let '(w', ran, e) := x in
  match e with
  | None => r = Some (w', f, (rev ran ++ t)%list)
  | Some e => if valid e
              then exists f', r = Some (w', f', (rev ran ++ t)%list) /\ f' p = Some e /\ forall q, ~ below p q -> f' q = f q
              else r = None
  end.

Lemma step_spec m : forall p k w f t, (forall q, below p q -> f q = None) ->
  agrees p f (step m p k (w, f, t)) t (walk act (leaves m) k w).
Proof.
  induction m as [s|l IH] using motion_ind'; intros p k w f t H.
  - cbn. destruct (act (number s) k w) as [w' [e|]]; cbn; [|reflexivity].
    rewrite finish_spec. destruct (valid e); [|reflexivity].
    exists (set f p e). split; [reflexivity|]. split; [apply set_at|].
    intros q N. apply set_other. intros ->. apply N, below_refl.
  - cbn [MultiModel.step leaves].
    assert (G : forall xs, Forall (fun m => forall p k w f t, (forall q, below p q -> f q = None) ->
        agrees p f (step m p k (w, f, t)) t (walk act (leaves m) k w)) xs -> forall i w t,
      agrees p f ((fix go (i : nat) (xs : list motion) (r : run W) : option (run W) :=
         match xs with
         | nil => Some r
         | x :: xs =>
             match step x (p ++ [i]) k r with
             | None => None
             | Some (w, f, t) =>
                 match f (p ++ [i])%list with
                 | Some (s, msg) =>
                     match finish f p (Some (or_success s), msg) with
                     | Some f' => Some (w, f', t)
                     | None => None
                     end
                 | None => go (S i) xs (w, f, t)
                 end
             end
         end) i xs (w, f, t)) t (walk act (concat (map leaves xs)) k w)); [|now apply G].
    clear IH w t. induction xs as [|x xs IHx]; intros F i w t; [reflexivity|].
    inversion F as [|? ? Fx Fxs]; subst. cbn [map concat]. rewrite walk_app.
    assert (Hi : forall q, below (p ++ [i]) q -> f q = None) by (intros q B; apply H; now apply below_app in B).
    specialize (Fx (p ++ [i])%list k w f t Hi). unfold agrees in Fx.
    destruct (walk act (leaves x) k w) as [[w1 ran1] e1]. destruct e1 as [e1|].
    + unfold agrees. destruct (valid e1) eqn:V.
      * destruct Fx as (f' & -> & E & O). rewrite E. destruct e1 as [s msg]. rewrite or_success_valid by exact V.
        rewrite finish_spec, V. exists (set f' p (s, msg)). split; [reflexivity|]. split; [apply set_at|].
        intros q N. rewrite set_other by (intros ->; apply N, below_refl). apply O. intros B. apply N. now apply below_app in B.
      * now rewrite Fx.
    + rewrite Fx, (Hi _ (below_refl _)). specialize (IHx Fxs (S i) w1 (rev ran1 ++ t)%list).
      destruct (walk act (concat (map leaves xs)) k w1) as [[w2 ran2] e2]. unfold agrees in *.
      rewrite rev_app_distr, <- app_assoc. exact IHx.
Qed.

(* A part that was finished before without a status counts as a success. *)
Theorem multi_part_without_status s w k f msg : snd (act (number s) k w) = None -> f [0%nat] = Some (None, msg) ->
  exists f' w', step (Multi [One s]) [] k (w, f, []) = Some (w', f', [number s]) /\ f' [] = Some (Some "success"%string, msg).
Proof.
  intros A F. cbn. destruct (act (number s) k w) as [w' e]. cbn in A. subst e. rewrite F.
  eexists; eexists. split; [reflexivity|]. apply set_at.
Qed.
(* C60: a step executes the simple motions of the tree in order, up to and
   including the first that finishes; the whole then counts as finished,
   with the same status and message.  Otherwise all are executed. *)
Theorem multi_step m k w f : (forall q, f q = None) ->
  let '(w', ran, e) := walk act (leaves m) k w in
  match e with
  | None => step m [] k (w, f, []) = Some (w', f, rev ran)
  | Some e => if valid e then exists f', step m [] k (w, f, []) = Some (w', f', rev ran) /\ f' [] = Some e
              else step m [] k (w, f, []) = None
  end.
Proof.
  intros H. pose proof (step_spec m [] k w f [] ltac:(auto)) as S. unfold agrees in S.
  destruct (walk act (leaves m) k w) as [[w' ran] [e|]]; [destruct (valid e)|]; rewrite ?app_nil_r in S.
  - destruct S as (f' & A & B & _). eauto.
  - exact S.
  - exact S.
Qed.

(* Nothing runs after the part that finished. *)
Theorem multi_stops m k w f w' f' t : (forall q, f q = None) ->
  step m [] k (w, f, []) = Some (w', f', t) ->
  exists done rest, leaves m = (done ++ rest)%list /\ rev t = map number done /\
    (f' [] = None -> rest = []) /\
    (forall e, f' [] = Some e -> exists pre s w1, done = (pre ++ [s])%list /\ act (number s) k w1 = (w', Some e)).
Proof.
  intros H E. pose proof (multi_step m k w f H) as S.
  assert (K : forall ss w, let '(w', ran, e) := walk act ss k w in
     exists done rest, ss = (done ++ rest)%list /\ ran = map number done /\ (e = None -> rest = []) /\
       forall e0, e = Some e0 -> exists pre s w1, done = (pre ++ [s])%list /\ act (number s) k w1 = (w', Some e0)).
  { clear. induction ss as [|s ss IH]; intros w; cbn.
    - exists [], []. repeat split; auto. discriminate.
    - destruct (act (number s) k w) as [w' [e|]] eqn:A.
      + exists [s], ss. repeat split; [discriminate|]. intros e0 E. injection E as <-. exists [], s, w. auto.
      + specialize (IH w'). destruct (walk act ss k w') as [[w2 ran] e]. destruct IH as (done & rest & -> & -> & N & F).
        exists (s :: done), rest. repeat split; [exact N|]. intros e0 E. destruct (F e0 E) as (pre & s' & w1 & -> & B).
        exists (s :: pre), s', w1. auto. }
  specialize (K (leaves m) w). destruct (walk act (leaves m) k w) as [[w2 ran] e].
  destruct K as (done & rest & K1 & K2 & K3 & K4). exists done, rest. split; [exact K1|].
  destruct e as [e|].
  - destruct (valid e); [|congruence]. destruct S as (g & S1 & S2). rewrite E in S1. injection S1 as <- <- ->.
    rewrite rev_involutive. split; [exact K2|]. split; [congruence|]. intros e0 E0. rewrite S2 in E0. injection E0 as <-. now apply K4.
  - rewrite E in S. injection S as <- <- ->. rewrite rev_involutive. split; [exact K2|]. split; [auto|]. intros e0 E0. rewrite H in E0. discriminate.
Qed.
End Step.

(* ---------------- concrete cases ---------------- *)

Local Open Scope string_scope.
Definition leaf n d f := One (Simple n d f true).
Definition tree := Multi [leaf 1 1 [0;3;5]%nat; Multi [leaf 2 2 [3;5;5]%nat; leaf 3 4 [5;3;1]%nat]; leaf 4 8 [1;3;5]%nat].
Definition acts (n : nat) (k : option nat) (w : list nat) : list nat * option exit :=
  ((w ++ [n])%list, if Nat.eqb n 3 then Some (Some "bad", "stop") else None).

Example multi_case : nonempty tree = true /\ fixed_of tree = Some [3;5]%nat /\ totdt tree = 15.
Proof. split; [reflexivity|]. split; [reflexivity|]. rewrite multi_dt. cbn. lra. Qed.
Example multi_case_step : exists f', step (list nat) acts tree [] (Some 7%nat) ([], (fun _ => None), [])
    = Some ([1;2;3]%nat, f', [3;2;1]%nat) /\ f' [] = Some (Some "bad", "stop") /\ f' [1%nat] = Some (Some "bad", "stop") /\ f' [0%nat] = None.
Proof. eexists. split; [reflexivity|]. repeat split. Qed.
Example multi_case_unknown : step (list nat) (fun n k w => (w, Some (Some "done", ""))) tree [] None ([], (fun _ => None), []) = None.
Proof. reflexivity. Qed.

Print Assumptions multi_dt.
Print Assumptions multi_com.
Print Assumptions multi_fixed.
Print Assumptions multi_fixed_defined.
Print Assumptions multi_fixed_once.
Print Assumptions multi_step.
Print Assumptions multi_stops.
