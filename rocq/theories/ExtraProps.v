(** * Theorems of record: extras (C27) *)
From Coq Require Import String List Reals Lra Lia Arith Bool.
From Verif Require Import RSum NMModel FSumModel FSumProps ExtraModel.
Import ListNotations.
Open Scope R_scope.

(** ** Dictionaries *)
Lemma lookup_put_same {A} e (a : A) d : lookup e (put e a d) = Some a.
Proof. induction d as [|[k x] d IH]; cbn; [now rewrite String.eqb_refl|]. destruct (String.eqb k e) eqn:E; cbn; rewrite E; [easy|exact IH]. Qed.
Lemma lookup_put_other {A} e e' (a : A) d : e' <> e -> lookup e (put e' a d) = lookup e d.
Proof.
  intros H. induction d as [|[k x] d IH]; cbn.
  - destruct (String.eqb_spec e' e); [contradiction|easy].
  - destruct (String.eqb_spec k e') as [->|Hk]; cbn; [|now rewrite IH].
    destruct (String.eqb_spec e' e); [contradiction|easy].
Qed.
Lemma lookup_none {A} e (d : dict A) : lookup e d = None <-> ~ In e (map fst d).
Proof.
  induction d as [|[k x] d IH]; cbn; [now split|]. destruct (String.eqb_spec k e) as [->|H]; [split; [discriminate|intros G; exfalso; apply G; now left]|].
  rewrite IH. intuition congruence.
Qed.
Lemma lookup_in {A} e (a : A) d : lookup e d = Some a -> In (e, a) d.
Proof.
  induction d as [|[k x] d IH]; cbn; [discriminate|]. destruct (String.eqb_spec k e) as [->|H]; [intros [= ->]; now left|]. right. now apply IH.
Qed.
Lemma nth_set_nth {A} j k (a : A) l : nth_error (set_nth k a l) j = if (j =? k)%nat then (if (k <? length l)%nat then Some a else None) else nth_error l j.
Proof.
  revert j k. induction l as [|x l IH]; intros j k; cbn [set_nth length].
  - rewrite (proj2 (Nat.ltb_ge k 0) (Nat.le_0_l k)). destruct (j =? k)%nat; destruct k; now destruct j.
  - destruct k as [|k]; destruct j as [|j]; cbn; try easy. rewrite IH. destruct (j =? k)%nat; [|easy].
    reflexivity.
Qed.
Lemma length_set_nth {A} k (a : A) l : length (set_nth k a l) = length l.
Proof. revert k. induction l as [|x l IH]; intros [|k]; cbn; auto. Qed.

Section Extra.
Context {B : Type}.
Variable cat : B -> B -> B.
Variable num : B -> option (nat -> R).


(** ** Specification *)
(** The raw outputs that are merged: those of the components with nonzero weight that act on
    all beads. *)
Definition raws (n : nat) (cs : list (@ecomp B)) : list (list B) :=
  flat_map (fun c => if nz (ew c) && (n =? enb c)%nat && negb (memb "raw" (interp c)) then
                       match lookup "raw" (ext c) with Some (Lst l) => [l] | _ => [] end else []) cs.
(** Concatenation, bead by bead, in the order of the components. *)
Definition joined (ls : list (list B)) (b : nat) : option B :=
  match ls with
  | [] => None
  | l0 :: ls' => fold_left (fun acc l => match acc, nth_error l b with Some x, Some y => Some (cat x y) | _, _ => None end)
                   ls' (nth_error l0 b)
  end.
(** A system in which things are as announced: keys occur once per component; promoted keys
    are arrays, and the others lists with one entry per bead; components agree on what is promoted. *)
Record tidy (n : nat) (ip : string -> bool) (c : @ecomp B) : Prop := {
  t_nodup : NoDup (map fst (ext c));
  t_agree : forall e, memb e (interp c) = ip e;
  t_arr : forall e v, lookup e (ext c) = Some v -> ip e = true -> exists m, v = Arr m;
  t_lst : forall e v, lookup e (ext c) = Some v -> ip e = false -> exists l, v = Lst l /\ length l = enb c }.

(** ** One key at a time *)
(** What concerns key [e]: the entry in the combined dictionary, and what the components hold. *)
Definition proj (e : string) (s : @est B) : option entry * (nat -> option val) :=
  (lookup e (re s), fun k => match nth_error (store s) k with Some c => lookup e (ext c) | None => None end).
Definition peq (p p' : option entry * (nat -> option (@val B))) : Prop := fst p = fst p' /\ forall k, snd p k = snd p' k.
Lemma peq_refl p : peq p p. Proof. now split. Qed.
Lemma peq_trans p q r : peq p q -> peq q r -> peq p r.
Proof. intros [H1 H2] [H3 H4]. split; [congruence|]. intros k. now rewrite H2, H4. Qed.
(** Components change only in their dictionaries. *)
Definition shape (cs cs' : list (@ecomp B)) : Prop :=
  length cs = length cs' /\ forall k c c', nth_error cs k = Some c -> nth_error cs' k = Some c' ->
    c' = set_ext c (ext c').

Lemma shape_refl cs : shape cs cs.
Proof. split; [easy|]. intros k c c' H H'. assert (c = c') as <- by congruence. now destruct c. Qed.
Lemma nth_error_len {A} (l l' : list A) k x : length l = length l' -> nth_error l k = Some x -> exists y, nth_error l' k = Some y.
Proof.
  intros H Hk. destruct (nth_error l' k) as [y|] eqn:E; [now exists y|]. apply nth_error_None in E.
  assert (k < length l)%nat by (apply nth_error_Some; congruence). lia.
Qed.
Lemma shape_trans a b c : shape a b -> shape b c -> shape a c.
Proof.
  intros [L1 H1] [L2 H2]. split; [congruence|]. intros k x z Hx Hz.
  destruct (nth_error_len a b k x L1 Hx) as (y & Hy). rewrite (H2 k y z Hy Hz), (H1 k x y Hx Hy). now destruct x.
Qed.

(** An item with another key leaves the key alone. *)
Lemma item_other n open k c s s' e e' v : e <> e' -> item cat n open k c s (e', v) = EOk s' -> peq (proj e s') (proj e s).
Proof.
  intros He. unfold item. destruct (memb e' (interp c)).
  - destruct v as [l|m]; [discriminate|]. destruct (lookup e' (re s)) as [[j|y]|]; try discriminate; intros [= <-];
    (split; [cbn; now apply lookup_put_other; intros ->|easy]).
  - destruct (n =? enb c)%nat; cbn [negb]; [|intros [= <-]; apply peq_refl].
    destruct (String.eqb_spec e' "raw") as [->|Hr].
    + destruct (lookup "raw" (re s)) as [[j|y]|] eqn:El; try discriminate.
      * destruct (nth_error (store s) j) as [cj|] eqn:Ej; [|discriminate].
        destruct (lookup "raw" (ext cj)) as [[l|]|]; try discriminate. destruct v as [lv|]; [|discriminate].
        destruct (addl cat n l lv) as [l'|]; [|discriminate]. intros [= <-]. split; [easy|]. intros k'. cbn.
        rewrite nth_set_nth. destruct (Nat.eqb_spec k' j) as [->|Hk]; [|easy]. rewrite Ej.
        rewrite (proj2 (Nat.ltb_lt j _)) by (apply nth_error_Some; congruence). cbn. apply lookup_put_other. congruence.
      * intros [= <-]. split; [cbn; apply lookup_put_other; congruence|easy].
    + intros [= <-]. split; [cbn; now apply lookup_put_other; intros ->|easy].
Qed.
Lemma item_shape n open k c s s' ev : item cat n open k c s ev = EOk s' -> shape (store s) (store s').
Proof.
  destruct ev as [e v]. unfold item. destruct (memb e (interp c)).
  - destruct v as [l|m]; [discriminate|]. destruct (lookup e (re s)) as [[j|y]|]; try discriminate; intros [= <-]; apply shape_refl.
  - destruct (n =? enb c)%nat; cbn [negb]; [|intros [= <-]; apply shape_refl].
    destruct (String.eqb e "raw"); [|intros [= <-]; apply shape_refl].
    destruct (lookup e (re s)) as [[j|y]|]; try discriminate; [|intros [= <-]; apply shape_refl].
    destruct (nth_error (store s) j) as [cj|] eqn:Ej; [|discriminate].
    destruct (lookup e (ext cj)) as [[l|]|]; try discriminate. destruct v as [lv|]; [|discriminate].
    destruct (addl cat n l lv) as [l'|]; [|discriminate]. intros [= <-]. split; [cbn; now rewrite length_set_nth|].
    intros k' a b Ha Hb. cbn in Hb. rewrite nth_set_nth in Hb. destruct (Nat.eqb_spec k' j) as [->|Hk].
    + destruct (j <? length (store s))%nat; [|discriminate]. injection Hb as <-. assert (a = cj) as -> by congruence. now destruct cj.
    + assert (a = b) as <- by congruence. now destruct a.
Qed.

(** The key alone: what processing component [k] holding [v] under [e] does. *)
Definition kstep (n : nat) (open : list nat) (e : string) (k : nat) (c : @ecomp B) (v : val)
    (p : option entry * (nat -> option (@val B))) : eres (option entry * (nat -> option (@val B))) :=
  if memb e (interp c) then
    match v with
    | Lst _ => TypeError
    | Arr m =>
        let x : mat := fun b i => ew c * Rsuml (emts c) * rescale_b2tob1 n (enb c) open false m b i in
        match fst p with
        | None => EOk (Some (Own x), snd p)
        | Some (Own y) => EOk (Some (Own (fun b i => y b i + x b i)), snd p)
        | Some (Alias _) => TypeError
        end
    end
  else if negb (n =? enb c)%nat then EOk p
  else if String.eqb e "raw" then
    match fst p with
    | None => EOk (Some (Alias k), snd p)
    | Some (Own _) => TypeError
    | Some (Alias j) => match snd p j, v with
        | Some (Lst l), Lst lv => match addl cat n l lv with
            | Some l' => EOk (fst p, fun i => if (i =? j)%nat then Some (Lst l') else snd p i)
            | None => EIndexError end
        | _, _ => TypeError end
    end
  else EOk (Some (Alias k), snd p).

Lemma item_same n open k c s e v :
  match item cat n open k c s (e, v), kstep n open e k c v (proj e s) with
  | EOk s', EOk p => peq (proj e s') p
  | EOk _, _ => False | _, EOk _ => False | _, _ => True end.
Proof.
  unfold item, kstep. cbn [proj fst snd]. destruct (memb e (interp c)).
  - destruct v as [l|m]; [easy|]. destruct (lookup e (re s)) as [[j|y]|]; [easy| |]; (split; [cbn; apply lookup_put_same|easy]).
  - destruct (n =? enb c)%nat; cbn [negb]; [|apply peq_refl].
    destruct (String.eqb_spec e "raw") as [->|Hr]; [|split; [cbn; apply lookup_put_same|easy]].
    destruct (lookup "raw" (re s)) as [[j|y]|] eqn:El; [|easy|split; [cbn; apply lookup_put_same|easy]].
    destruct (nth_error (store s) j) as [cj|] eqn:Ej; [|easy].
    destruct (lookup "raw" (ext cj)) as [[l|]|]; [|easy|easy]. destruct v as [lv|]; [|easy].
    destruct (addl cat n l lv) as [l'|]; [|easy]. split; [exact El|]. intros k'. cbn.
    rewrite nth_set_nth. destruct (Nat.eqb_spec k' j) as [->|Hk]; [|easy].
    rewrite (proj2 (Nat.ltb_lt j _)) by (apply nth_error_Some; congruence). cbn. apply lookup_put_same.
Qed.
Lemma kstep_peq n open e k c v p p' : peq p p' ->
  match kstep n open e k c v p, kstep n open e k c v p' with
  | EOk q, EOk q' => peq q q'
  | EOk _, _ => False | _, EOk _ => False | _, _ => True end.
Proof.
  intros [H1 H2]. unfold kstep. rewrite H1. destruct (memb e (interp c)).
  - destruct v; [easy|]. destruct (fst p') as [[j|y]|]; [easy| |]; now split.
  - destruct (n =? enb c)%nat; cbn [negb]; [|now split]. destruct (String.eqb e "raw"); [|now split].
    destruct (fst p') as [[j|y]|]; [|easy|now split]. rewrite H2. destruct (snd p' j) as [[l|]|]; [|easy|easy].
    destruct v; [|easy]. destruct (addl cat n l l0); [|easy]. split; [easy|]. intros i. cbn. destruct (i =? j)%nat; [easy|apply H2].
Qed.

(** The items of one component. *)
Definition items n open k c (d : dict (@val B)) (s : eres (@est B)) : eres est :=
  fold_left (fun x ev => ebind x (fun t => item cat n open k c t ev)) d s.
Lemma items_fail n open k c d x : (forall s, x <> EOk s) -> items n open k c d x = x.
Proof. unfold items. revert x. induction d as [|ev d IH]; intros x H; [easy|]. cbn. rewrite IH; destruct x; try easy; now destruct (H a). Qed.
Lemma items_cons n open k c ev d s : items n open k c (ev :: d) (EOk s) = items n open k c d (item cat n open k c s ev).
Proof. reflexivity. Qed.
Lemma items_ok n open k c d : forall x s', items n open k c d x = EOk s' -> exists s, x = EOk s.
Proof. intros x s' H. destruct x as [s| | |]; [now exists s|..]; rewrite items_fail in H by easy; discriminate. Qed.

Lemma items_key n open k c e d : NoDup (map fst d) -> forall s s', items n open k c d (EOk s) = EOk s' ->
  shape (store s) (store s') /\
  match lookup e d with
  | None => peq (proj e s') (proj e s)
  | Some v => exists p, kstep n open e k c v (proj e s) = EOk p /\ peq (proj e s') p
  end.
Proof.
  induction d as [|[e' v] d IH]; intros Hnd s s' H.
  { injection H as <-. split; [apply shape_refl|apply peq_refl]. }
  inversion Hnd as [|x l Hnin Hnd']; subst. rewrite items_cons in H.
  destruct (items_ok _ _ _ _ _ _ _ H) as (s1 & E1). rewrite E1 in H.
  destruct (IH Hnd' s1 s' H) as [Hs Hk]. split; [exact (shape_trans _ _ _ (item_shape _ _ _ _ _ _ _ E1) Hs)|].
  cbn [lookup]. destruct (String.eqb_spec e' e) as [->|Hne].
  - assert (lookup e d = None) as En by (now apply lookup_none). rewrite En in Hk.
    pose proof (item_same n open k c s e v) as Hi. rewrite E1 in Hi.
    destruct (kstep n open e k c v (proj e s)) as [p| | |]; try contradiction. exists p. split; [easy|]. now apply (peq_trans _ _ _ Hk).
  - assert (Ho : peq (proj e s1) (proj e s)) by (apply (item_other n open k c s s1 e e' v); [congruence|exact E1]).
    destruct (lookup e d) as [w|]; [|now apply (peq_trans _ _ _ Hk)].
    destruct Hk as (p & Ep & Hp). pose proof (kstep_peq n open e k c w _ _ Ho) as Hq. rewrite Ep in Hq.
    destruct (kstep n open e k c w (proj e s)) as [p'| | |]; try contradiction. exists p'. split; [easy|]. now apply (peq_trans _ _ _ Hp).
Qed.

(** The components, one key at a time. *)
Definition kcomp n open e (x : eres (option entry * (nat -> option (@val B)))) (kc : nat * @ecomp B) :=
  ebind x (fun p => if nz (ew (snd kc)) then
    match lookup e (ext (snd kc)) with None => EOk p | Some v => kstep n open e (fst kc) (snd kc) v p end else EOk p).
Definition col (e : string) (cs : list (@ecomp B)) : nat -> option val :=
  fun k => match nth_error cs k with Some c => lookup e (ext c) | None => None end.

Lemma comps_fail n open l x : (forall s, x <> EOk s) -> fold_left (one_comp cat n open) l x = x.
Proof.
  revert x. induction l as [|[k c] l IH]; intros x H; [easy|]. cbn [fold_left]. unfold one_comp at 2. cbn [fst snd].
  destruct (nz (ew c)); [|now apply IH]. change (fold_left _ (ext c) x) with (items n open k c (ext c) x).
  rewrite items_fail by easy. now apply IH.
Qed.
Lemma comps_cons n open k c l s : fold_left (one_comp cat n open) ((k, c) :: l) (EOk s)
  = fold_left (one_comp cat n open) l (if nz (ew c) then items n open k c (ext c) (EOk s) else EOk s).
Proof. reflexivity. Qed.
Lemma kcomps_fail n open e l x : (forall s, x <> EOk s) -> fold_left (kcomp n open e) l x = x.
Proof. revert x. induction l as [|kc l IH]; intros x H; [easy|]. cbn [fold_left]. unfold kcomp at 2. rewrite IH; destruct x; cbn; try easy; now destruct (H a). Qed.

Lemma kcomps_peq n open e l : forall p p' q, peq p p' -> fold_left (kcomp n open e) l (EOk p) = EOk q ->
  exists q', fold_left (kcomp n open e) l (EOk p') = EOk q' /\ peq q q'.
Proof.
  induction l as [|[k c] l IH]; intros p p' q H E; cbn [fold_left] in *; [exists p'; injection E as <-; easy|].
  unfold kcomp at 2 in E. unfold kcomp at 2. cbn [fst snd ebind] in *. destruct (nz (ew c)); [|now apply (IH p p')].
  destruct (lookup e (ext c)) as [v|]; [|now apply (IH p p')].
  pose proof (kstep_peq n open e k c v p p' H) as Hs.
  destruct (kstep n open e k c v p) as [r| | |]; [|rewrite kcomps_fail in E; easy..].
  destruct (kstep n open e k c v p') as [r'| | |]; try contradiction. now apply (IH r r').
Qed.

Lemma comps_key n open e l : (forall kc, In kc l -> NoDup (map fst (ext (snd kc)))) -> forall s s',
  fold_left (one_comp cat n open) l (EOk s) = EOk s' ->
  shape (store s) (store s') /\
  exists p, fold_left (kcomp n open e) l (EOk (proj e s)) = EOk p /\ peq (proj e s') p.
Proof.
  induction l as [|[k c] l IH]; intros Hnd s s' H.
  { injection H as <-. split; [apply shape_refl|]. exists (proj e s). split; [easy|apply peq_refl]. }
  assert (IH' := IH ltac:(intros; apply Hnd; now right)). clear IH. rewrite comps_cons in H.
  cbn [fold_left]. unfold kcomp at 2. cbn [fst snd ebind]. destruct (nz (ew c)); [|now apply IH'].
  destruct (items n open k c (ext c) (EOk s)) as [s1| | |] eqn:E1; [|rewrite comps_fail in H; easy..].
  destruct (items_key n open k c e (ext c) (Hnd (k, c) ltac:(now left)) s s1 E1) as [Hs Hk].
  destruct (IH' s1 s' H) as [Hs' (p & Ep & Hp)]. split; [now apply (shape_trans _ _ _ Hs)|].
  destruct (lookup e (ext c)) as [v|].
  - destruct Hk as (r & Er & Hr). rewrite Er. destruct (kcomps_peq n open e l _ _ _ Hr Ep) as (q & Eq & Hq).
    exists q. split; [easy|]. now apply (peq_trans _ _ _ Hp).
  - destruct (kcomps_peq n open e l _ _ _ Hk Ep) as (q & Eq & Hq). exists q. split; [easy|]. now apply (peq_trans _ _ _ Hp).
Qed.

Lemma combine_key n open e cs s : (forall c, In c cs -> NoDup (map fst (ext c))) -> extra_combine cat n open cs = EOk s ->
  shape cs (store s) /\ exists p, fold_left (kcomp n open e) (number cs) (EOk (None, col e cs)) = EOk p /\ peq (proj e s) p.
Proof.
  intros Hnd H. apply (comps_key n open e (number cs)) in H; [exact H|]. intros [k c] Hin.
  apply in_combine_r in Hin. now apply Hnd.
Qed.

Lemma value_proj e s p : peq (proj e s) p -> value s e = match fst p with None => None | Some (Own m) => Some (Arr m) | Some (Alias k) => snd p k end.
Proof. intros [H1 H2]. unfold value. cbn [proj fst] in H1. rewrite <- H1. destruct (lookup e (re s)) as [[k|m]|]; [|easy|easy]. now rewrite <- H2. Qed.

(** ** Promoted keys *)
Definition part (n : nat) (open : list nat) (e : string) (b i : nat) (c : @ecomp B) : R :=
  match lookup e (ext c) with
  | Some (Arr m) => ew c * Rsuml (emts c) * rescale_b2tob1 n (enb c) open false m b i
  | _ => 0 end.
Lemma promoted_loop n open e l : (forall kc, In kc l -> memb e (interp (snd kc)) = true) -> forall p q,
  (forall k, fst p <> Some (Alias k)) ->
  fold_left (kcomp n open e) l (EOk p) = EOk q ->
  snd q = snd p /\
  (fst q = None -> fst p = None /\ forall kc, In kc l -> ew (snd kc) <> 0 -> lookup e (ext (snd kc)) = None) /\
  forall k, fst q <> Some (Alias k) /\ forall m, fst q = Some (Own m) -> forall b i,
    m b i = match fst p with Some (Own y) => y b i | _ => 0 end + Rsuml (map (fun kc => part n open e b i (snd kc)) l).
Proof.
  induction l as [|[k c] l IH]; intros Hm p q Hp H.
  { injection H as <-. split; [easy|]. split; [easy|]. intros k. split; [apply Hp|]. intros m E b i. rewrite E. cbn. ring. }
  assert (IH' := IH ltac:(intros; apply Hm; now right)). clear IH. cbn [fold_left] in H. unfold kcomp at 2 in H. cbn [fst snd ebind] in H.
  assert (Hc : memb e (interp c) = true) by exact (Hm (k, c) ltac:(now left)).
  destruct (nz (ew c)) eqn:Ez.
  2:{ destruct (IH' p q Hp H) as (A1 & A2 & A3). apply nz_false in Ez. split; [easy|]. split.
      - intros E. destruct (A2 E) as [E1 E2]. split; [easy|]. intros kc [<-|Hin] Hw; [contradiction|now apply E2].
      - intros j. split; [apply (A3 j)|]. intros m E b i. rewrite (proj2 (A3 j) m E b i). cbn [map Rsuml].
        unfold part at 2. cbn [snd]. rewrite Ez. destruct (lookup e (ext c)) as [[]|]; ring. }
  destruct (lookup e (ext c)) as [v|] eqn:Ev.
  2:{ destruct (IH' p q Hp H) as (A1 & A2 & A3). split; [easy|]. split.
      - intros E. destruct (A2 E) as [E1 E2]. split; [easy|]. intros kc [<-|Hin] Hw; [easy|now apply E2].
      - intros j. split; [apply (A3 j)|]. intros m E b i. rewrite (proj2 (A3 j) m E b i). cbn [map Rsuml].
        unfold part at 2. cbn [snd]. rewrite Ev. ring. }
  unfold kstep in H. rewrite Hc in H. destruct v as [lv|m]; [rewrite kcomps_fail in H; easy|]. cbv zeta in H.
  destruct (fst p) as [[j|y]|] eqn:Ep; [now destruct (Hp j)| |];
  (match type of H with fold_left _ _ (EOk ?r) = _ => destruct (IH' r q) as (A1 & A2 & A3); [cbn; discriminate|exact H|] end;
   cbn [fst snd] in *; split; [exact A1|]; split; [intros E; now destruct (A2 E)|];
   intros j; split; [apply (A3 j)|]; intros m' E b i; rewrite (proj2 (A3 j) m' E b i); cbn [map Rsuml]; unfold part at 2; cbn [snd]; rewrite Ev; ring).
Qed.

Lemma map_number {C} (f : @ecomp B -> C) cs : map (fun kc : nat * @ecomp B => f (snd kc)) (number cs) = map f cs.
Proof.
  unfold number. generalize 0%nat. induction cs as [|c cs IH]; intros k; cbn; [easy|]. f_equal. apply IH.
Qed.
Lemma in_number (cs : list (@ecomp B)) k c : In (k, c) (number cs) <-> nth_error cs k = Some c.
Proof.
  unfold number. assert (G : forall s, In (k, c) (List.combine (seq s (length cs)) cs) <-> (s <= k)%nat /\ nth_error cs (k - s) = Some c).
  { induction cs as [|x cs IH]; intros s; cbn [length seq List.combine In].
    - split; [contradiction|]. intros [_ H]. destruct (k - s)%nat; discriminate.
    - rewrite IH. split.
      + intros [[= <- <-]|[H1 H2]]; [split; [lia|]; now rewrite Nat.sub_diag|]. split; [lia|].
        replace (k - s)%nat with (Datatypes.S (k - Datatypes.S s)) by lia. exact H2.
      + intros [H1 H2]. destruct (Nat.eq_dec s k) as [->|Hne].
        * rewrite Nat.sub_diag in H2. injection H2 as ->. now left.
        * right. split; [lia|]. replace (k - s)%nat with (Datatypes.S (k - Datatypes.S s)) in H2 by lia. exact H2. }
  rewrite G, Nat.sub_0_r. intuition lia.
Qed.

(** A promoted key gives the weighted sum of the expanded arrays, as forces and energies. *)
Theorem promoted_extras_are_summed n open ip cs s e : (forall c, In c cs -> tidy n ip c) -> ip e = true ->
  extra_combine cat n open cs = EOk s ->
  match value s e with
  | Some (Arr m) => forall b i, m b i = Rsuml (map (part n open e b i) cs)
  | Some (Lst _) => False
  | None => forall c, In c cs -> ew c <> 0 -> lookup e (ext c) = None
  end.
Proof.
  intros Ht He H. destruct (combine_key n open e cs s) as (_ & p & Ep & Hp); [intros c Hc; apply (Ht c Hc)|exact H|].
  rewrite (value_proj e s p Hp).
  destruct (promoted_loop n open e (number cs)) with (p := (@None entry, col e cs)) (q := p) as (A1 & A2 & A3); [|cbn; discriminate|exact Ep|].
  { intros [k c] Hin. apply in_number, nth_error_In in Hin. cbn. now rewrite (t_agree _ _ _ (Ht c Hin)). }
  destruct (fst p) as [[j|m]|] eqn:E; [now destruct (proj1 (A3 j))| |].
  - intros b i. rewrite (proj2 (A3 0%nat) m eq_refl b i). cbn [fst]. rewrite (map_number (part n open e b i)). ring.
  - intros c Hc Hw. destruct (A2 eq_refl) as [_ A]. destruct (In_nth_error _ _ Hc) as (k & Hk). apply in_number in Hk. now apply (A (k, c) Hk).
Qed.

(** ** Other keys *)
Definition relevant (n : nat) (e : string) (c : @ecomp B) : bool :=
  nz (ew c) && (n =? enb c)%nat && match lookup e (ext c) with Some _ => true | None => false end.
Lemma other_loop n open e l : e <> "raw"%string -> (forall kc, In kc l -> memb e (interp (snd kc)) = false) -> forall p,
  exists q, fold_left (kcomp n open e) l (EOk p) = EOk q /\ snd q = snd p /\
    fst q = match find (fun kc => relevant n e (snd kc)) (rev l) with Some kc => Some (Alias (fst kc)) | None => fst p end.
Proof.
  intros Hr. induction l as [|[k c] l IH]; intros Hm p; [now exists p|].
  assert (IH' := IH ltac:(intros; apply Hm; now right)). clear IH. cbn [fold_left]. unfold kcomp at 2. cbn [fst snd ebind].
  assert (Hc : memb e (interp c) = false) by exact (Hm (k, c) ltac:(now left)).
  assert (F : forall (f : nat * @ecomp B -> bool) l x, find f (l ++ [x]) = match find f l with Some y => Some y | None => if f x then Some x else None end).
  { clear. intros f l x. induction l as [|y l IH]; cbn; [easy|]. destruct (f y); [easy|exact IH]. }
  cbn [rev]. rewrite F. unfold relevant at 2. cbn [snd].
  destruct (nz (ew c)); cbn [andb].
  2:{ destruct (IH' p) as (q & E1 & E2 & E3). exists q. split; [easy|]. split; [easy|]. rewrite E3. now destruct (find _ _). }
  destruct (lookup e (ext c)) as [v|]; rewrite ?andb_true_r, ?andb_false_r.
  2:{ destruct (IH' p) as (q & E1 & E2 & E3). exists q. split; [easy|]. split; [easy|]. rewrite E3. now destruct (find _ _). }
  unfold kstep. rewrite Hc. destruct (n =? enb c)%nat; cbn [negb].
  2:{ destruct (IH' p) as (q & E1 & E2 & E3). exists q. split; [easy|]. split; [easy|]. rewrite E3. now destruct (find _ _). }
  destruct (String.eqb_spec e "raw"); [contradiction|].
  destruct (IH' (Some (Alias k), snd p)) as (q & E1 & E2 & E3). exists q. split; [easy|]. split; [easy|]. rewrite E3. now destruct (find _ _).
Qed.
(** Keys that are neither promoted nor "raw": the last relevant component wins. *)
Theorem other_extras_last_wins n open ip cs s e : (forall c, In c cs -> tidy n ip c) -> ip e = false -> e <> "raw"%string ->
  extra_combine cat n open cs = EOk s ->
  value s e = match find (relevant n e) (rev cs) with Some c => lookup e (ext c) | None => None end.
Proof.
  intros Ht He Hr H. destruct (combine_key n open e cs s) as (_ & p & Ep & Hp); [intros c Hc; apply (Ht c Hc)|exact H|].
  rewrite (value_proj e s p Hp).
  destruct (other_loop n open e (number cs) Hr) with (p := (@None entry, col e cs)) as (q & E1 & E2 & E3).
  { intros [k c] Hin. apply in_number, nth_error_In in Hin. cbn. now rewrite (t_agree _ _ _ (Ht c Hin)). }
  assert (p = q) as -> by congruence. rewrite E3, E2. cbn [fst snd].
  assert (G : forall l, find (relevant n e) (map snd l) = option_map snd (find (fun kc : nat * @ecomp B => relevant n e (snd kc)) l)).
  { clear. induction l as [|kc l IH]; cbn; [easy|]. destruct (relevant n e (snd kc)); [easy|exact IH]. }
  assert (M : map snd (rev (number cs)) = rev cs) by (rewrite map_rev, (map_number (fun c => c)), map_id; reflexivity).
  rewrite <- M, G. destruct (find _ (rev (number cs))) as [[k c]|] eqn:Ef; [|easy]. cbn.
  apply find_some in Ef. destruct Ef as [Ef _]. apply in_rev, in_number in Ef. unfold col. now rewrite Ef.
Qed.

(** ** Raw output *)
Lemma addl_nth n : forall l v l', addl cat n l v = Some l' -> length l' = length l /\
  forall b, (b < n)%nat -> nth_error l' b = match nth_error l b, nth_error v b with Some x, Some y => Some (cat x y) | _, _ => None end.
Proof.
  induction n as [|n IH]; intros l v l' H; cbn in H; [injection H as <-; split; [easy|lia]|].
  destruct l as [|x l]; [discriminate|]. destruct v as [|y v]; [discriminate|].
  destruct (addl cat n l v) as [r|] eqn:E; [|discriminate]. cbn in H. injection H as <-. destruct (IH l v r E) as [L N].
  split; [cbn; congruence|]. intros [|b] Hb; [easy|]. cbn. apply N. lia.
Qed.
Lemma addl_ok n : forall l v, length l = n -> length v = n -> exists l', addl cat n l v = Some l'.
Proof.
  induction n as [|n IH]; intros l v Hl Hv; [now exists l|]. destruct l as [|x l]; [discriminate|]. destruct v as [|y v]; [discriminate|].
  destruct (IH l v) as (r & E); [cbn in Hl; lia|cbn in Hv; lia|]. exists (cat x y :: r). cbn. now rewrite E.
Qed.

(** The components' contribution to "raw". *)
Definition raw_of (n : nat) (c : @ecomp B) : option (list B) :=
  if nz (ew c) && (n =? enb c)%nat && negb (memb "raw" (interp c)) then
    match lookup "raw" (ext c) with Some (Lst l) => Some l | _ => None end else None.
Lemma raws_cons n c cs : raws n (c :: cs) = match raw_of n c with Some l => l :: raws n cs | None => raws n cs end.
Proof.
  unfold raws, raw_of. cbn [flat_map]. destruct (nz (ew c) && (n =? enb c)%nat && negb (memb "raw" (interp c))); [|easy].
  now destruct (lookup "raw" (ext c)) as [[l|m]|].
Qed.

Definition join2 (acc : option B) (y : option B) : option B := match acc, y with Some x, Some z => Some (cat x z) | _, _ => None end.
Definition has_raw (n : nat) (kc : nat * @ecomp B) : bool := match raw_of n (snd kc) with Some _ => true | None => false end.

(** One step at key "raw". *)
Lemma raw_step n open ip k c p : ip "raw"%string = false -> tidy n ip c ->
  kcomp n open "raw" (EOk p) (k, c) =
  match raw_of n c with
  | None => EOk p
  | Some lv => match fst p with
      | None => EOk (Some (Alias k), snd p)
      | Some (Own _) => TypeError
      | Some (Alias j) => match snd p j with
          | Some (Lst l) => match addl cat n l lv with
              | Some l' => EOk (fst p, fun i => if (i =? j)%nat then Some (Lst l') else snd p i)
              | None => EIndexError end
          | _ => TypeError end
      end
  end.
Proof.
  intros Hip Tc. assert (Hm : memb "raw" (interp c) = false) by now rewrite (t_agree _ _ _ Tc).
  unfold kcomp, raw_of. cbn [fst snd ebind]. rewrite Hm. cbn [negb]. rewrite andb_true_r.
  destruct (nz (ew c)); cbn [andb]; [|easy].
  destruct (lookup "raw" (ext c)) as [v|] eqn:Ev; [|now destruct (n =? enb c)%nat].
  destruct (t_lst _ _ _ Tc "raw"%string v Ev Hip) as (lv & -> & Hlv).
  unfold kstep. rewrite Hm. destruct (n =? enb c)%nat; cbn [negb]; [|easy].
  change (String.eqb "raw" "raw") with true. cbv iota. destruct (fst p) as [[j|y]|]; easy.
Qed.

(** Once there is an entry for "raw" (the list of component [j], already processed). *)
Lemma raw_tail n open ip l : ip "raw"%string = false -> (forall kc, In kc l -> tidy n ip (snd kc)) -> forall j lj p q,
  fst p = Some (Alias j) -> snd p j = Some (Lst lj) ->
  fold_left (kcomp n open "raw") l (EOk p) = EOk q ->
  fst q = Some (Alias j) /\ (forall k, k <> j -> snd q k = snd p k) /\
  exists lq, snd q j = Some (Lst lq) /\ length lq = length lj /\ (raws n (map snd l) = [] -> lq = lj) /\
  forall b, (b < n)%nat -> nth_error lq b = fold_left (fun acc r => join2 acc (nth_error r b)) (raws n (map snd l)) (nth_error lj b).
Proof.
  intros Hip. induction l as [|[k c] l IH]; intros Ht j lj p q Hp Hj H.
  { injection H as <-. split; [easy|]. split; [easy|]. now exists lj. }
  assert (IH' := IH ltac:(intros; apply Ht; now right)). clear IH. cbn [fold_left] in H.
  rewrite (raw_step n open ip k c p Hip (Ht (k, c) ltac:(now left))) in H. cbn [map snd]. rewrite raws_cons.
  destruct (raw_of n c) as [lv|] eqn:Er; [|now apply IH'].
  rewrite Hp, Hj in H. destruct (addl cat n lj lv) as [l'|] eqn:Ea; [|rewrite kcomps_fail in H; easy].
  destruct (addl_nth n lj lv l' Ea) as [L N].
  destruct (IH' j l' (Some (Alias j), fun i => if (i =? j)%nat then Some (Lst l') else snd p i) q eq_refl) as (A1 & A2 & lq & A3 & A4 & A5 & A6).
  { cbn. now rewrite Nat.eqb_refl. } { exact H. }
  split; [easy|]. split.
  { intros k' Hk'. rewrite (A2 k' Hk'). cbn. now rewrite (proj2 (Nat.eqb_neq k' j) Hk'). }
  exists lq. split; [easy|]. split; [congruence|]. split; [discriminate|]. intros b Hb. rewrite (A6 b Hb). cbn [fold_left].
  rewrite (N b Hb). reflexivity.
Qed.
Lemma raw_head n open ip l : ip "raw"%string = false -> (forall kc, In kc l -> tidy n ip (snd kc)) -> forall p q,
  fst p = None -> (forall kc, In kc l -> snd p (fst kc) = lookup "raw" (ext (snd kc))) ->
  fold_left (kcomp n open "raw") l (EOk p) = EOk q ->
  match find (has_raw n) l with
  | None => q = p /\ raws n (map snd l) = []
  | Some kc => fst q = Some (Alias (fst kc)) /\ (forall k, k <> fst kc -> snd q k = snd p k) /\
      raws n (map snd l) <> [] /\
      (length (raws n (map snd l)) = 1%nat -> snd q (fst kc) = snd p (fst kc)) /\
      exists lq, snd q (fst kc) = Some (Lst lq) /\ length lq = n /\
      forall b, (b < n)%nat -> nth_error lq b = joined (raws n (map snd l)) b
  end.
Proof.
  intros Hip. induction l as [|[k c] l IH]; intros Ht p q Hp Hcol H; [now injection H as <-|].
  assert (IH' := IH ltac:(intros; apply Ht; now right)). clear IH. cbn [fold_left] in H.
  assert (Tc := Ht (k, c) ltac:(now left)). cbn [snd] in Tc.
  rewrite (raw_step n open ip k c p Hip Tc) in H. cbn [map snd find]. rewrite raws_cons. unfold has_raw at 1. cbn [snd].
  destruct (raw_of n c) as [lv|] eqn:Er; [|apply IH'; [exact Hp|intros; apply Hcol; now right|exact H]].
  rewrite Hp in H. cbn [fst].
  assert (Hk : snd p k = Some (Lst lv) /\ length lv = n).
  { pose proof (Hcol (k, c) ltac:(now left)) as Hc0. cbn [fst snd] in Hc0. rewrite Hc0. unfold raw_of in Er. destruct (nz (ew c)); [|discriminate]. cbn [andb] in Er.
    destruct (Nat.eqb_spec n (enb c)) as [En|En]; [|discriminate]. destruct (memb "raw" (interp c)); [discriminate|]. cbn in Er.
    destruct (lookup "raw" (ext c)) as [[lr|]|] eqn:El; [|discriminate|discriminate]. injection Er as ->. split; [easy|].
    destruct (t_lst _ _ _ Tc "raw"%string _ El Hip) as (l0 & E0 & L0). injection E0 as ->. congruence. }
  destruct (raw_tail n open ip l Hip ltac:(intros; apply Ht; now right) k lv (Some (Alias k), snd p) q eq_refl (proj1 Hk) H) as (A1 & A2 & lq & A3 & A4 & A5 & A6).
  split; [easy|]. split; [exact A2|]. split; [discriminate|]. split.
  { intros L. cbn in L. rewrite A3, (proj1 Hk), A5; [easy|]. now destruct (raws n (map snd l)). }
  exists lq. split; [easy|]. split; [destruct Hk; congruence|]. intros b Hb. rewrite (A6 b Hb). reflexivity.
Qed.

(** "raw" holds, for every bead, the concatenation of the outputs of the components. *)
Theorem raw_extras_are_joined n open ip cs s : (forall c, In c cs -> tidy n ip c) -> ip "raw"%string = false ->
  extra_combine cat n open cs = EOk s ->
  match value s "raw" with
  | Some (Lst l) => length l = n /\ forall b, (b < n)%nat -> nth_error l b = joined (raws n cs) b
  | Some (Arr _) => False
  | None => raws n cs = []
  end.
Proof.
  intros Ht Hip H. destruct (combine_key n open "raw" cs s) as (_ & p & Ep & Hp); [intros c Hc; apply (Ht c Hc)|exact H|].
  rewrite (value_proj "raw" s p Hp).
  pose proof (raw_head n open ip (number cs) Hip) as A. rewrite (map_number (fun c => c)), map_id in A.
  specialize (A ltac:(intros [k c] Hin; apply in_number, nth_error_In in Hin; now apply Ht) (None, col "raw" cs) p eq_refl).
  specialize (A ltac:(intros [k c] Hin; apply in_number in Hin; cbn; unfold col; now rewrite Hin) Ep).
  destruct (find (has_raw n) (number cs)) as [kc|].
  - destruct A as (A1 & A2 & _ & _ & lq & A3 & A4 & A5). rewrite A1, A3. now split.
  - destruct A as [-> A]. exact A.
Qed.

(** What reading the combined extras does to the components: only the "raw" list of the first
    contributing component can change. *)
Theorem only_first_raw_changes n open ip cs s : (forall c, In c cs -> tidy n ip c) -> ip "raw"%string = false ->
  extra_combine cat n open cs = EOk s ->
  length (store s) = length cs /\
  (forall k e, e <> "raw"%string -> col e (store s) k = col e cs k) /\
  (forall k, find (has_raw n) (number cs) = None \/ (exists kc, find (has_raw n) (number cs) = Some kc /\ k <> fst kc) ->
     col "raw" (store s) k = col "raw" cs k).
Proof.
  intros Ht Hip H.
  assert (Hnd : forall c, In c cs -> NoDup (map fst (ext c))) by (intros c Hc; apply (Ht c Hc)).
  split; [|split].
  - destruct (combine_key n open "raw" cs s Hnd H) as ([L _] & _). congruence.
  - intros k e He. destruct (combine_key n open e cs s Hnd H) as (_ & p & Ep & [_ Hp]). change (col e (store s) k) with (snd (proj e s) k). rewrite Hp.
    destruct (ip e) eqn:Ei.
    + destruct (promoted_loop n open e (number cs)) with (p := (@None entry, col e cs)) (q := p) as (A1 & _); [|cbn; discriminate|exact Ep|now rewrite A1].
      intros [k' c] Hin. apply in_number, nth_error_In in Hin. cbn. now rewrite (t_agree _ _ _ (Ht c Hin)).
    + destruct (other_loop n open e (number cs) He) with (p := (@None entry, col e cs)) as (q & E1 & E2 & _).
      { intros [k' c] Hin. apply in_number, nth_error_In in Hin. cbn. now rewrite (t_agree _ _ _ (Ht c Hin)). }
      assert (p = q) as -> by congruence. now rewrite E2.
  - intros k Hk. destruct (combine_key n open "raw" cs s Hnd H) as (_ & p & Ep & [_ Hp]). change (col "raw" (store s) k) with (snd (proj "raw" s) k). rewrite Hp.
    pose proof (raw_head n open ip (number cs) Hip ltac:(intros [k' c] Hin; apply in_number, nth_error_In in Hin; now apply Ht) (None, col "raw" cs) p eq_refl
      ltac:(intros [k' c] Hin; apply in_number in Hin; cbn; unfold col; now rewrite Hin) Ep) as A.
    destruct Hk as [Hk|(kc & Hk & Hne)]; rewrite Hk in A.
    + now destruct A as [-> _].
    + destruct A as (_ & A & _). now apply A.
Qed.

(** With at most one contributor nothing changes. *)
Theorem component_extras_unchanged_partial n open ip cs s : (forall c, In c cs -> tidy n ip c) -> ip "raw"%string = false ->
  (length (raws n cs) <= 1)%nat -> extra_combine cat n open cs = EOk s ->
  length (store s) = length cs /\ forall k e, col e (store s) k = col e cs k.
Proof.
  intros Ht Hip Hl H. destruct (only_first_raw_changes n open ip cs s Ht Hip H) as (L & A & R). split; [exact L|].
  intros k e. destruct (string_dec e "raw") as [->|He]; [|now apply A].
  destruct (find (has_raw n) (number cs)) as [kc|] eqn:Ef; [|apply R; now left].
  destruct (Nat.eq_dec k (fst kc)) as [->|Hne]; [|apply R; right; now exists kc].
  destruct (combine_key n open "raw" cs s ltac:(intros c Hc; apply (Ht c Hc)) H) as (_ & p & Ep & [_ Hp]). change (col "raw" (store s) (fst kc)) with (snd (proj "raw" s) (fst kc)). rewrite Hp.
  pose proof (raw_head n open ip (number cs) Hip ltac:(intros [k' c] Hin; apply in_number, nth_error_In in Hin; now apply Ht) (None, col "raw" cs) p eq_refl
      ltac:(intros [k' c] Hin; apply in_number in Hin; cbn; unfold col; now rewrite Hin) Ep) as B'. rewrite Ef in B'.
  rewrite (map_number (fun c => c)), map_id in B'. destruct B' as (_ & _ & B1 & B2 & _). apply B2. destruct (raws n cs); [congruence|cbn in *; lia].
Qed.

(** Reading the combined extras of a tidy system succeeds. *)
Definition good (n : nat) (ip : string -> bool) (cs : list ecomp) (s : @est B) : Prop :=
  (forall e m, lookup e (re s) = Some (Own m) -> ip e = true) /\
  (forall e k, lookup e (re s) = Some (Alias k) -> ip e = false) /\
  (forall k, lookup "raw" (re s) = Some (Alias k) -> exists l, col "raw" (store s) k = Some (Lst l) /\ length l = n) /\
  (lookup "raw" (re s) = None -> forall k, col "raw" (store s) k = col "raw" cs k).
Lemma item_good n open ip cs k c s e v : ip "raw"%string = false -> tidy n ip c -> nth_error cs k = Some c ->
  lookup e (ext c) = Some v -> good n ip cs s ->
  exists s', item cat n open k c s (e, v) = EOk s' /\ good n ip cs s'.
Proof.
  intros Hip Tc Hk Hv (G1 & G2 & G3 & G4). unfold item. rewrite (t_agree _ _ _ Tc). destruct (ip e) eqn:Ei.
  - destruct (t_arr _ _ _ Tc e v Hv Ei) as (m & ->). cbv zeta.
    destruct (lookup e (re s)) as [[j|y]|] eqn:El; [rewrite (G2 e j El) in Ei; discriminate| |];
    (eexists; split; [reflexivity|]; split; [|split; [|split]]; cbn [re store];
     [intros e' m'; destruct (string_dec e e') as [<-|Hne]; [easy|rewrite lookup_put_other by easy; apply G1]
     |intros e' k'; destruct (string_dec e e') as [<-|Hne]; [rewrite lookup_put_same; discriminate|rewrite lookup_put_other by easy; apply G2]
     |intros k'; rewrite lookup_put_other by congruence; apply G3
     |rewrite lookup_put_other by congruence; exact G4]).
  - destruct (Nat.eqb_spec n (enb c)) as [En|En]; cbn [negb]; [|now exists s].
    destruct (t_lst _ _ _ Tc e v Hv Ei) as (lv & -> & Hlv).
    destruct (String.eqb_spec e "raw") as [->|Hr].
    + destruct (lookup "raw" (re s)) as [[j|y]|] eqn:El.
      * destruct (G3 j eq_refl) as (l & Ec & Ll). unfold col in Ec. destruct (nth_error (store s) j) as [cj|] eqn:Ej; [|discriminate]. rewrite Ec.
        destruct (addl_ok n l lv Ll ltac:(congruence)) as (l' & Ea). rewrite Ea. eexists. split; [reflexivity|].
        split; [|split; [|split]]; cbn [re store]; [exact G1|exact G2| |congruence]. intros k' E'. assert (k' = j) as -> by congruence.
        exists l'. unfold col. rewrite nth_set_nth, Nat.eqb_refl, (proj2 (Nat.ltb_lt j _)) by (apply nth_error_Some; congruence).
        cbn. rewrite lookup_put_same. split; [easy|]. destruct (addl_nth n l lv l' Ea). congruence.
      * rewrite (G1 _ _ El) in Hip. discriminate.
      * eexists. split; [reflexivity|]. split; [|split; [|split]]; cbn [re store].
        -- intros e' m'. destruct (string_dec "raw" e') as [<-|Hne]; [rewrite lookup_put_same; discriminate|rewrite lookup_put_other by easy; apply G1].
        -- intros e' k'. destruct (string_dec "raw" e') as [<-|Hne]; [easy|rewrite lookup_put_other by easy; apply G2].
        -- intros k'. rewrite lookup_put_same. intros [= <-]. exists lv. rewrite (G4 eq_refl). unfold col. rewrite Hk. split; [exact Hv|congruence].
        -- rewrite lookup_put_same. discriminate.
    + eexists. split; [reflexivity|]. split; [|split; [|split]]; cbn [re store].
      -- intros e' m'. destruct (string_dec e e') as [<-|Hne]; [rewrite lookup_put_same; discriminate|rewrite lookup_put_other by easy; apply G1].
      -- intros e' k'. destruct (string_dec e e') as [<-|Hne]; [easy|rewrite lookup_put_other by easy; apply G2].
      -- intros k'. rewrite lookup_put_other by easy. apply G3.
      -- rewrite lookup_put_other by easy. exact G4.
Qed.
Lemma in_lookup {A} e (v : A) d : NoDup (map fst d) -> In (e, v) d -> lookup e d = Some v.
Proof.
  induction d as [|[k x] d IH]; cbn; [easy|]. intros Hnd. inversion Hnd; subst. intros [[= -> ->]|H]; [now rewrite String.eqb_refl|].
  destruct (String.eqb_spec k e) as [->|Hne]; [|now apply IH]. exfalso. apply H1. apply (in_map fst) in H. exact H.
Qed.
Theorem combined_extras_exist n open ip cs : (forall c, In c cs -> tidy n ip c) -> ip "raw"%string = false ->
  exists s, extra_combine cat n open cs = EOk s.
Proof.
  intros Ht Hip. unfold extra_combine.
  assert (G : forall l, (forall k c, In (k, c) l -> nth_error cs k = Some c) -> forall s, good n ip cs s ->
     exists s', fold_left (one_comp cat n open) l (EOk s) = EOk s').
  { induction l as [|[k c] l IH]; intros Hl s Gs; [now exists s|]. rewrite comps_cons.
    assert (Hk := Hl k c ltac:(now left)). assert (Tc := Ht c (nth_error_In _ _ Hk)).
    assert (IH' := IH ltac:(intros; apply Hl; now right)). clear IH.
    destruct (nz (ew c)); [|now apply (IH' s)].
    assert (I : forall d, incl d (ext c) -> forall s, good n ip cs s -> exists s', items n open k c d (EOk s) = EOk s' /\ good n ip cs s').
    { induction d as [|[e v] d IH]; intros Hd s0 G0; [now exists s0|]. rewrite items_cons.
      destruct (item_good n open ip cs k c s0 e v Hip Tc Hk) as (s1 & E1 & G1'); [apply in_lookup; [apply Tc|apply Hd; now left]|exact G0|].
      rewrite E1. apply IH; [intros x Hx; apply Hd; now right|exact G1']. }
    destruct (I (ext c) (incl_refl _) s Gs) as (s1 & E1 & G1). rewrite E1. now apply IH'. }
  apply G; [intros k c; apply in_number|]. repeat split; cbn; try discriminate. 
Qed.

(** ** Collecting the beads of one component *)
(** When all beads report the same keys, entry [e] lists what the beads reported, in order. *)
Definition same_keys (b b' : dict B) : Prop := forall e, In e (map fst b) <-> In e (map fst b').
Lemma put_keys {A} e (a : A) d : In e (map fst d) -> map fst (put e a d) = map fst d.
Proof.
  induction d as [|[k x] d IH]; cbn; [easy|]. destruct (String.eqb_spec k e) as [->|H]; cbn; [easy|].
  intros [->|Hin]; [contradiction|]. now rewrite (IH Hin).
Qed.
Lemma gather_bead_spec (b : dict B) : NoDup (map fst b) -> forall d : dict (list B), (forall e, In e (map fst b) -> In e (map fst d)) ->
  exists d', gather_bead (EOk d) b = EOk d' /\ map fst d' = map fst d /\
  forall e, lookup e d' = match lookup e b with Some x => option_map (fun l => l ++ [x]) (lookup e d) | None => lookup e d end.
Proof.
  unfold gather_bead. induction b as [|[k x] b IH]; intros Hnd d H; [now exists d|]. inversion Hnd as [|? ? Hnin Hnd']; subst.
  cbn [fold_left fst snd ebind]. destruct (lookup k d) as [l|] eqn:El.
  2:{ apply lookup_none in El. destruct El. apply H. now left. }
  assert (Hkd : In k (map fst d)) by (apply H; now left).
  destruct (IH Hnd' (put k (l ++ [x]) d)) as (d' & E1 & E2 & E3).
  { intros e He. rewrite put_keys by easy. apply H. now right. }
  exists d'. split; [exact E1|]. rewrite put_keys in E2 by easy. split; [exact E2|]. intros e. rewrite E3. cbn [lookup].
  destruct (String.eqb_spec k e) as [<-|Hne].
  - rewrite (proj2 (lookup_none k b) Hnin), lookup_put_same, El. easy.
  - now rewrite lookup_put_other.
Qed.
Theorem gathered_extras_follow_beads (beads : list (dict B)) b0 : hd_error beads = Some b0 ->
  (forall b, In b beads -> NoDup (map fst b) /\ same_keys b b0) ->
  exists d, gather beads = EOk d /\
  forall e, match lookup e d with
            | Some l => map Some l = map (lookup e) beads
            | None => forall b, In b beads -> lookup e b = None
            end.
Proof.
  intros Hb0 H. destruct beads as [|b0' beads]; [discriminate|]. injection Hb0 as ->. unfold gather.
  assert (L : forall (bs : list (dict B)) (d : dict (list B)), (forall b, In b bs -> NoDup (map fst b) /\ forall e, In e (map fst b) <-> In e (map fst d)) ->
    exists d', fold_left gather_bead bs (EOk d) = EOk d' /\
      forall e, match lookup e d with
        | Some l => exists l', lookup e d' = Some l' /\ map Some l' = map Some l ++ map (lookup e) bs
        | None => lookup e d' = None end).
  { induction bs as [|b bs IH]; intros d Hd; cbn [fold_left].
    { exists d. split; [easy|]. intros e. destruct (lookup e d) as [l|]; [|easy]. exists l. now rewrite app_nil_r. }
    destruct (Hd b ltac:(now left)) as [N1 K1].
    destruct (gather_bead_spec b N1 d ltac:(intros e He; now apply K1)) as (d1 & E1 & E2 & E3). rewrite E1.
    destruct (IH d1) as (d' & F1 & F2). { intros b' Hb'. rewrite E2. apply Hd. now right. }
    exists d'. split; [exact F1|]. intros e. specialize (F2 e). rewrite E3 in F2.
    destruct (lookup e d) as [l|] eqn:El.
    - destruct (lookup e b) as [x|] eqn:Eb.
      + cbn in F2. destruct F2 as (l' & A1 & A2). exists l'. split; [easy|]. rewrite A2, map_app, <- app_assoc. cbn. now rewrite Eb.
      + exfalso. apply lookup_none in Eb. apply Eb, K1. apply (in_map fst) with (x := (e, l)). now apply lookup_in.
    - assert (lookup e b = None) as Eb. { apply lookup_none. intros He. apply K1 in He. apply lookup_none in El. contradiction. }
      rewrite Eb in F2. exact F2. }
  assert (Ek : map fst (map (fun ev : string * B => (fst ev, @nil B)) b0) = map fst b0) by now rewrite map_map.
  destruct (L (b0 :: beads) (map (fun ev => (fst ev, [])) b0)) as (d & E & D).
  { intros b Hb. split; [apply (H b Hb)|]. rewrite Ek. apply (H b Hb). }
  exists d. split; [exact E|]. intros e. specialize (D e).
  destruct (lookup e (map (fun ev : string * B => (fst ev, @nil B)) b0)) as [l|] eqn:El.
  - destruct D as (l' & D1 & D2). rewrite D1, D2. apply lookup_in in El. apply in_map_iff in El. destruct El as (ev & [= _ <-] & _). easy.
  - rewrite D. intros b Hb. apply lookup_none. intros He. apply (H b Hb) in He. apply lookup_none in El. rewrite Ek in El. contradiction.
Qed.
(** The keys named for interpolation become arrays whose row b is what bead b reported; every
    other key is left as it was, and no key appears or disappears. *)
Theorem promoted_extras_follow_beads interp (d : dict (list B)) :
  (forall e, In e interp -> exists l rows, lookup e d = Some l /\ map num l = map Some rows) ->
  exists d', promote num interp d = EOk d' /\ map fst d' = map fst d /\
  forall e l, lookup e d = Some l ->
    (In e interp -> exists m, lookup e d' = Some (Arr m) /\ forall b x r, nth_error l b = Some x -> num x = Some r -> m b = r) /\
    (~ In e interp -> lookup e d' = Some (Lst l)).
Proof.
  unfold promote.
  assert (N : forall l rows, map num l = map Some rows -> nums num l = Some rows).
  { induction l as [|x l IH]; intros [|r rows] H; try discriminate; [easy|]. cbn in *. injection H as H1 H2. now rewrite H1, (IH rows). }
  assert (L0 : forall e, lookup e (map (fun ev : string * list B => (fst ev, Lst (snd ev))) d) = option_map Lst (lookup e d)).
  { intros e. induction d as [|[k x] d0 IH]; cbn; [easy|]. now destruct (String.eqb k e). }
  assert (G : forall is (d1 : dict val), map fst d1 = map fst d ->
    (forall e, In e is -> exists l rows, lookup e d = Some l /\ map num l = map Some rows) ->
    (forall e l, lookup e d = Some l -> lookup e d1 = Some (Lst l) \/
        exists rows, map num l = map Some rows /\ lookup e d1 = Some (Arr (fun b => nth b rows (fun _ => 0)))) ->
    exists d', fold_left (fun acc e => ebind acc (fun d =>
      match lookup e d with
      | None => KeyError
      | Some (Arr m) => EOk d
      | Some (Lst l) => match nums num l with
                        | Some rows => EOk (put e (Arr (fun b => nth b rows (fun _ => 0))) d)
                        | None => TypeError
                        end
      end)) is (EOk d1) = EOk d' /\ map fst d' = map fst d /\
     (forall e l, lookup e d = Some l ->
        (In e is -> exists rows, map num l = map Some rows /\ lookup e d' = Some (Arr (fun b => nth b rows (fun _ => 0)))) /\
        (~ In e is -> lookup e d' = lookup e d1))).
  { induction is as [|e is IH]; intros d1 K H S; cbn [fold_left ebind].
    { exists d1. split; [easy|]. split; [easy|]. intros e l _. split; [intros []|easy]. }
    destruct (H e ltac:(now left)) as (l & rows & El & Er).
    assert (X : exists d2 : dict val, @eq (eres (dict val)) (match lookup e d1 with
       | None => KeyError
       | Some (Arr m) => EOk d1
       | Some (Lst l) => match nums num l with
                        | Some rows => EOk (put e (Arr (fun b => nth b rows (fun _ => 0))) d1)
                        | None => TypeError
                        end
       end) (EOk d2) /\ map fst d2 = map fst d /\
       (exists rows, map num l = map Some rows /\ lookup e d2 = Some (Arr (fun b => nth b rows (fun _ => 0)))) /\
       forall e', e' <> e -> lookup e' d2 = lookup e' d1).
    { destruct (S e l El) as [Q|(rows' & Q1 & Q)]; rewrite Q.
      - rewrite (N l rows Er). eexists. split; [reflexivity|].
        rewrite put_keys; [|rewrite K; apply (in_map fst) with (x := (e, l)); now apply lookup_in]. split; [easy|].
        split; [exists rows; split; [easy|apply lookup_put_same]|]. intros e' Hne. apply lookup_put_other. congruence.
      - exists d1. split; [easy|]. split; [easy|]. split; [now exists rows'|easy]. }
    destruct X as (d2 & -> & K2 & (rows2 & R1 & R2) & O2).
    destruct (IH d2 K2) as (d' & F1 & F2 & F3).
    { intros e' He'. apply H. now right. }
    { intros e' l' El'. destruct (string_dec e' e) as [-> |Hne].
      - right. rewrite El in El'. injection El' as <-. now exists rows2.
      - rewrite O2 by easy. now apply S. }
    exists d'. split; [exact F1|]. split; [exact F2|]. intros e' l' El'. destruct (F3 e' l' El') as [A1 A2].
    destruct (string_dec e' e) as [-> |Hne].
    - rewrite El in El'. injection El' as <-. split; [|intros Q; exfalso; apply Q; now left]. intros _.
      destruct (in_dec string_dec e is) as [I|I]; [now apply A1|]. rewrite A2 by easy. now exists rows2.
    - split.
      + intros [Q|I]; [congruence|now apply A1].
      + intros Q. rewrite A2 by (intros I; apply Q; now right). now apply O2. }
  intros H. destruct (G interp (map (fun ev : string * list B => (fst ev, Lst (snd ev))) d)) as (d' & E1 & E2 & E3).
  - now rewrite map_map.
  - exact H.
  - intros e l El. left. now rewrite L0, El.
  - exists d'. split; [exact E1|]. split; [exact E2|]. intros e l El. destruct (E3 e l El) as [A1 A2]. split.
    + intros I. destruct (A1 I) as (rows & R1 & R2). eexists. split; [exact R2|]. intros b x r Hx Hr. cbn beta.
      assert (Y : nth_error (map Some rows) b = Some (Some r)) by (rewrite <- R1, nth_error_map, Hx; cbn; now rewrite Hr).
      rewrite nth_error_map in Y. destruct (nth_error rows b) as [r'|] eqn:Eq; [|discriminate]. cbn in Y. injection Y as <-.
      now apply nth_error_nth.
    + intros I. rewrite A2 by easy. now rewrite L0, El.
Qed.
(** A bead that reports a key that the first bead does not is refused. *)
Theorem additional_extras_refused (b0 b1 : dict B) bs e : NoDup (map fst b0) -> NoDup (map fst b1) -> In e (map fst b1) -> ~ In e (map fst b0) ->
  gather (b0 :: b1 :: bs) = KeyError.
Proof.
  intros N0 N1 He Hn. unfold gather. cbn [fold_left].
  destruct (gather_bead_spec b0 N0 (map (fun ev => (fst ev, [])) b0)) as (d & E1 & E2 & _); [intros x; now rewrite map_map|].
  match goal with |- fold_left _ _ (gather_bead ?x b1) = _ => change x with (gather_bead (EOk (map (fun ev : string * B => (fst ev, [])) b0)) b0 : eres (dict (list B))) end.
  unfold dict in *. rewrite E1. rewrite map_map in E2. change (map (fun x : string * B => fst x) b0) with (map fst b0) in E2.
  assert (K : gather_bead (EOk d) b1 = KeyError).
  { assert (Hd : ~ In e (map fst d)) by now rewrite E2. clear -He Hd. unfold gather_bead. revert d Hd.
    induction b1 as [|[k x] b IH]; intros d Hd; [contradiction|]. cbn [fold_left fst snd ebind].
    destruct (lookup k d) as [l|] eqn:El.
    - destruct He as [<-|He]; [exfalso; apply Hd; apply lookup_in in El; now apply (in_map fst) in El|].
      apply IH; [exact He|]. rewrite put_keys; [exact Hd|]. apply lookup_in in El. now apply (in_map fst) in El.
    - clear. induction b; cbn; auto. }
  rewrite K. assert (F : forall b : dict B, gather_bead KeyError b = KeyError) by (clear; intros b; unfold gather_bead; induction b; cbn; auto).
  clear -F. induction bs; cbn; [easy|]. now rewrite F.
Qed.
End Extra.

(** ** False statements and cases, with strings *)
Local Open Scope string_scope.
Definition two : list (@ecomp string) :=
  [mkE 1 [1] 2 [] [("raw", Lst ["a0"; "a1"])]; mkE 1 [1] 2 [] [("raw", Lst ["b0"; "b1"]); ("dipole", Lst ["x"; "y"])]].
Lemma nz1 : nz 1 = true. Proof. apply nz_true. lra. Qed.
Ltac run_two := unfold extra_combine, number, two; cbn -[nz]; unfold one_comp; cbn -[nz]; rewrite !nz1; cbn.
(** Reading the combined extras changes the extras of the first component ... *)
Theorem component_extras_unchanged_refuted : exists cs s, extra_combine append 2 [] cs = EOk s /\ col "raw" cs 0 = Some (Lst ["a0"; "a1"]) /\ col "raw" (store s) 0 = Some (Lst ["a0b0"; "a1b1"]).
Proof. exists two. eexists. split; [run_two; reflexivity|]. split; reflexivity. Qed.
(** ... so that combining again, with the components' values still valid, gives something else. *)
Theorem combining_twice_refuted : exists cs s s', extra_combine append 2 [] cs = EOk s /\ extra_combine append 2 [] (store s) = EOk s' /\ value s "raw" = Some (Lst ["a0b0"; "a1b1"]) /\ value s' "raw" = Some (Lst ["a0b0b0"; "a1b1b1"]).
Proof. exists two. eexists. eexists. split; [run_two; reflexivity|]. split; [run_two; reflexivity|]. split; reflexivity. Qed.
(** A key missing in a later bead is not noticed: the remaining entries move to other beads. *)
Theorem missing_extras_refused_refuted : exists beads d, gather beads = EOk d /\ map (lookup "dipole") beads = [Some "d0"; None; Some "d2"] /\ lookup "dipole" d = Some ["d0"; "d2"].
Proof.
  exists [[("raw", "r0"); ("dipole", "d0")]; [("raw", "r1")]; [("raw", "r2"); ("dipole", "d2")]]. eexists.
  split; [reflexivity|]. split; reflexivity.
Qed.

Example promoted_case : exists d', promote (fun x => if String.eqb x "" then None else Some (fun _ => INR (String.length x))) ["dipole"]
    [("raw", [""; "a"]); ("dipole", ["xy"; "x"])] = EOk d' /\ map fst d' = ["raw"; "dipole"] /\ lookup "raw" d' = Some (Lst [""; "a"]).
Proof. eexists. split; [cbn; reflexivity|]. split; reflexivity. Qed.

Print Assumptions promoted_extras_are_summed.
Print Assumptions promoted_extras_follow_beads.
Print Assumptions raw_extras_are_joined.
Print Assumptions other_extras_last_wins.
Print Assumptions only_first_raw_changes.
Print Assumptions component_extras_unchanged_partial.
Print Assumptions combined_extras_exist.
Print Assumptions gathered_extras_follow_beads.
Print Assumptions additional_extras_refused.
Print Assumptions component_extras_unchanged_refuted.
Print Assumptions combining_twice_refuted.
Print Assumptions missing_extras_refused_refuted.

(** Cases. The system above is tidy, with two raw contributions; so is one with a promoted key
    on a contracted ring. *)
Example two_tidy : (forall c, In c two -> tidy 2 (fun _ => false) c) /\ raws 2 two = [["a0"; "a1"]; ["b0"; "b1"]] /\ joined append (raws 2 two) 1 = Some "a1b1".
Proof.
  assert (R : raws 2 two = [["a0"; "a1"]; ["b0"; "b1"]]) by (unfold raws, two; cbn -[nz]; rewrite nz1; reflexivity).
  split; [|split; [exact R|rewrite R; reflexivity]].
  intros c [<-|[<-|[]]]; split.
  - repeat constructor; cbn; intuition discriminate.
  - easy.
  - discriminate.
  - intros e v H _. cbn [lookup ext] in H. destruct (String.eqb "raw" e); [|discriminate]. injection H as <-. now exists ["a0"; "a1"].
  - repeat constructor; cbn; intuition discriminate.
  - easy.
  - discriminate.
  - intros e v H _. cbn [lookup ext] in H. destruct (String.eqb "raw" e); [injection H as <-; now exists ["b0"; "b1"]|].
    destruct (String.eqb "dipole" e); [injection H as <-; now exists ["x"; "y"]|discriminate].
Qed.
Definition prom : list (@ecomp string) :=
  [mkE 2 [1] 2 ["dipole"] [("dipole", Arr (fun b _ => INR b))]; mkE 3 [1; 1] 2 ["dipole"] [("raw", Lst ["r0"; "r1"]); ("dipole", Arr (fun _ _ => 10))]].
Example prom_tidy : (forall c, In c prom -> tidy 2 (fun e => String.eqb e "dipole") c) /\ (length (raws 2 prom) <= 1)%nat /\ Rsuml (map (part 2 [] "dipole" 1 0) prom) = 62.
Proof.
  split; [|split].
  - intros c [<-|[<-|[]]]; split.
    + repeat constructor; cbn; intuition discriminate.
    + intros e. cbn [interp memb existsb]. now rewrite orb_false_r.
    + intros e v H _. cbn [lookup ext] in H. destruct (String.eqb "dipole" e); [injection H as <-; now eexists|discriminate].
    + intros e v H He. cbn [lookup ext] in H. destruct (String.eqb_spec "dipole" e) as [<-|]; discriminate.
    + repeat constructor; cbn; intuition discriminate.
    + intros e. cbn [interp memb existsb]. now rewrite orb_false_r.
    + intros e v H He. apply String.eqb_eq in He. subst e. injection H as <-. now eexists.
    + intros e v H He. apply String.eqb_neq in He. cbn [lookup ext] in H. destruct (String.eqb "raw" e); [injection H as <-; now exists ["r0"; "r1"]|].
      destruct (String.eqb_spec "dipole" e) as [<-|]; [congruence|discriminate].
  - unfold raws, prom. cbn -[nz]. destruct (nz 2), (nz 3); cbn; lia.
  - unfold part, prom, rescale_b2tob1. cbn. ring.
Qed.
