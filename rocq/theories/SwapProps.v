(* Theorems about the Monte Carlo exchange of atoms: C56. *)
From Coq Require Import String List Bool Arith Lia Permutation Reals Lra FinFun.
From Verif Require Import SwapModel.
Import ListNotations.
Local Open Scope R_scope.

(* ---------------- specification ---------------- *)

Fixpoint sum (l : list R) : R := match l with nil => 0 | x :: l => x + sum l end.

Section Swap.
Variable Path : Type.
Variable none : Path.
Variable spr : Path -> R.
Variable beta : R.
Variable pot : list (string * Path) -> R.
Notation atom := (atom Path).
Notation system := (system Path).
Notation potential := (potential Path pot).
Notation springs := (springs spr none).
Notation alchemy_try := (alchemy_try Path beta).
Notation alchemy_tries := (alchemy_tries Path beta).

(* kinetic energy of an atom (twice), spring energy of the system *)
Definition ke (a : atom) : R := sum (map (fun p => p * p) (mom a)) / mass a.
Definition spring (l : system) : R := sum (map (fun a => mass a * spr (path a)) l).
(* masses are positive *)
Definition heavy (l : system) : Prop := Forall (fun a => 0 < mass a) l.
(* random indices lie within the exchange list *)
Definition drawn (axl : list nat) (t : try) : Prop :=
  (i_of t < List.length axl)%nat /\ Forall (fun j => (j < List.length axl)%nat) (js t).

(* ---------------- lists ---------------- *)

Lemma upd_nth (l : system) i f k :
  nth_error (upd l i f) k = if Nat.eqb i k then option_map f (nth_error l k) else nth_error l k.
Proof.
  revert i k. induction l as [|a l IH]; intros [|i] [|k]; try reflexivity; cbn; [now destruct (i =? k)%nat|].
  apply IH.
Qed.
Lemma upd_length (l : system) i f : List.length (upd l i f) = List.length l.
Proof. revert i. induction l as [|a l IH]; intros [|i]; cbn; auto. Qed.
Lemma list_ext {A} (l l' : list A) : (forall k, nth_error l k = nth_error l' k) -> l = l'.
Proof.
  revert l'. induction l as [|x l IH]; intros [|y l'] H; auto; try (specialize (H O); discriminate).
  assert (E := H O). injection E as ->. f_equal. apply IH. intros k. exact (H (S k)).
Qed.
Lemma sum_upd (g : atom -> R) l i f a : nth_error l i = Some a ->
  sum (map g (upd l i f)) = sum (map g l) - g a + g (f a).
Proof.
  revert i. induction l as [|x l IH]; intros [|i] E; try discriminate; cbn in *.
  - injection E as ->. lra.
  - rewrite (IH i E). lra.
Qed.
Lemma transposed {A} (l l' : list A) a b : (a < List.length l)%nat -> (b < List.length l)%nat -> List.length l' = List.length l ->
  nth_error l' a = nth_error l b -> nth_error l' b = nth_error l a ->
  (forall k, k <> a -> k <> b -> nth_error l' k = nth_error l k) -> Permutation l l'.
Proof.
  intros La Lb L Ea Eb O. apply Permutation_nth_error. split; [auto|].
  exists (fun k => if Nat.eqb k a then b else if Nat.eqb k b then a else k). split.
  - intros x y. destruct (Nat.eqb_spec x a), (Nat.eqb_spec y a), (Nat.eqb_spec x b), (Nat.eqb_spec y b); lia.
  - intros k. destruct (Nat.eqb_spec k a) as [->|Na]; [exact Ea|]. destruct (Nat.eqb_spec k b) as [->|Nb]; [exact Eb|].
    now apply O.
Qed.

Lemma in_ax sel (l : system) k : In k (ax sel l) <-> (k < List.length l)%nat /\ existsb (String.eqb (name_at l k)) sel = true.
Proof. unfold ax. rewrite filter_In, in_seq. split; intros [A B]; split; auto; lia. Qed.
Lemma ax_nodup sel (l : system) : NoDup (ax sel l).
Proof. apply NoDup_filter, seq_NoDup. Qed.

Lemma pick_some (l : system) axl i ds j : pick l axl i ds = Some j ->
  In j ds /\ name_at l (nth i axl O) <> name_at l (nth j axl O).
Proof.
  induction ds as [|d ds IH]; cbn; [discriminate|].
  destruct (String.eqb_spec (name_at l (nth i axl O)) (name_at l (nth d axl O))).
  - intros H. apply IH in H. tauto.
  - intros H. injection H as <-. auto.
Qed.

(* what is asked of an exchange list *)
Definition good (axl : list nat) (l : system) : Prop := Forall (fun k => (k < List.length l)%nat) axl.

(* ---------------- alchemy ---------------- *)

(* the atoms after an exchange, given the ones before *)
Definition light (A B : atom) := Atom (name B) (mass B) (map (fun p => p / sqrt (mass A / mass B)) (mom A)) (path A).
Definition dark (A B : atom) := Atom (name A) (mass A) (map (fun p => p * sqrt (mass A / mass B)) (mom B)) (path B).
Definition exchanged (l : system) (a b : nat) (A B : atom) : system :=
  upd (upd l a (fun _ => light A B)) b (fun _ => dark A B).

Lemma name_at_spec (l : system) k A : nth_error l k = Some A -> name_at l k = name A.
Proof. unfold name_at, get. now intros ->. Qed.
Lemma mass_at_spec (l : system) k A : nth_error l k = Some A -> mass_at l k = mass A.
Proof. unfold mass_at, get. now intros ->. Qed.

Lemma nth_springs axl l i d : (i < List.length axl)%nat ->
  nth i (springs axl l) d = spr (get none path l (nth i axl O)).
Proof.
  intros H. unfold springs, SwapModel.springs.
  rewrite (nth_indep _ d (spr (get none path l O))) by (now rewrite map_length).
  exact (map_nth (fun k => spr (get none path l k)) axl O i).
Qed.

Definition delta (A B : atom) : R := (spr (path A) - spr (path B)) * (mass B - mass A).

Lemma alchemy_try_spec axl t l e s : good axl l -> drawn axl t -> heavy l ->
  alchemy_try axl (springs axl l) t (l, e) = Some s ->
  exists j a b A B, pick l axl (i_of t) (js t) = Some j /\ a = nth (i_of t) axl O /\ b = nth j axl O /\
    In a axl /\ In b axl /\ a <> b /\
    nth_error l a = Some A /\ nth_error l b = Some B /\ name A <> name B /\
    ((u_of t < exp (- beta * delta A B) /\ s = (exchanged l a b A B, e - delta A B)) \/
     (exp (- beta * delta A B) <= u_of t /\ s = (l, e))).
Proof.
  intros G [Di Dj] H E. unfold alchemy_try, SwapModel.alchemy_try in E.
  destruct (pick l axl (i_of t) (js t)) as [j|] eqn:P; [|discriminate].
  destruct (pick_some _ _ _ _ _ P) as [Ij N].
  assert (Lj : (j < List.length axl)%nat) by (rewrite Forall_forall in Dj; auto).
  set (a := nth (i_of t) axl O) in *. set (b := nth j axl O) in *.
  assert (Ia : In a axl) by now apply nth_In. assert (Ib : In b axl) by now apply nth_In.
  unfold good in G. rewrite Forall_forall in G. pose proof (G a Ia) as La. pose proof (G b Ib) as Lb.
  destruct (nth_error l a) as [A|] eqn:EA; [|now apply nth_error_None in EA; lia].
  destruct (nth_error l b) as [B|] eqn:EB; [|now apply nth_error_None in EB; lia].
  rewrite (name_at_spec _ _ _ EA), (name_at_spec _ _ _ EB) in N.
  assert (D : a <> b) by (intros D; rewrite D, EB in EA; injection EA as <-; easy).
  exists j, a, b, A, B. do 8 (split; [auto|]). split; [exact N|].
  assert (HA : 0 < mass A) by (unfold heavy in H; rewrite Forall_forall in H; apply H; eapply nth_error_In; eauto).
  assert (HB : 0 < mass B) by (unfold heavy in H; rewrite Forall_forall in H; apply H; eapply nth_error_In; eauto).
  rewrite !nth_springs in E by assumption. fold a b in E.
  rewrite (mass_at_spec _ _ _ EA), (mass_at_spec _ _ _ EB) in E.
  assert (GA : get none path l a = path A) by (unfold get; now rewrite EA).
  assert (GB : get none path l b = path B) by (unfold get; now rewrite EB).
  rewrite GA, GB in E. fold (delta A B) in E.
  destruct (Rlt_dec (u_of t) (exp (- beta * delta A B))) as [C|C]; [|right; split; [lra|congruence]].
  left. split; [exact C|]. injection E as <-. f_equal.
  assert (Tab : (a =? b)%nat = false) by now apply Nat.eqb_neq.
  assert (Tba : (b =? a)%nat = false) by (apply Nat.eqb_neq; auto).
  rewrite (name_at_spec _ _ _ EA), (name_at_spec _ _ _ EB).
  assert (M1 : mass_at (upd (upd l a (rename Path (name B))) b (rename Path (name A))) a = mass A).
  { apply mass_at_spec with (A := rename Path (name B) A). rewrite !upd_nth, Tba, Nat.eqb_refl, EA. reflexivity. }
  assert (M2 : mass_at (upd (upd l a (rename Path (name B))) b (rename Path (name A))) b = mass B).
  { apply mass_at_spec with (A := rename Path (name A) B). rewrite !upd_nth, Tab, Nat.eqb_refl, EB. reflexivity. }
  rewrite M1, M2. unfold exchanged. apply list_ext. intros k. rewrite !upd_nth.
  destruct (Nat.eqb_spec a k) as [<-|Na].
  - rewrite Tba. rewrite EA. cbn. unfold light, rename, weigh, push. cbn. do 2 f_equal. field. lra.
  - destruct (Nat.eqb_spec b k) as [<-|Nb]; [|reflexivity]. rewrite EB. cbn. unfold dark, rename, weigh, push. cbn. do 2 f_equal. field. lra.
Qed.

Lemma exchanged_nth l a b A B k : a <> b -> nth_error l a = Some A -> nth_error l b = Some B ->
  nth_error (exchanged l a b A B) k =
    if Nat.eqb k a then Some (light A B) else if Nat.eqb k b then Some (dark A B) else nth_error l k.
Proof.
  intros D EA EB. unfold exchanged. rewrite !upd_nth.
  rewrite (Nat.eqb_sym k a), (Nat.eqb_sym k b).
  destruct (Nat.eqb_spec a k); destruct (Nat.eqb_spec b k); subst; try easy; rewrite ?EA, ?EB; reflexivity.
Qed.
Lemma exchanged_length l a b A B : List.length (exchanged l a b A B) = List.length l.
Proof. unfold exchanged. now rewrite !upd_length. Qed.

Lemma sum_sq_div l r : r <> 0 -> sum (map (fun p => p * p) (map (fun p => p / r) l)) = sum (map (fun p => p * p) l) / (r * r).
Proof. intros N. induction l as [|x l IH]; cbn; [field; auto|]. rewrite IH. field. auto. Qed.
Lemma sum_sq_mul l r : sum (map (fun p => p * p) (map (fun p => p * r) l)) = sum (map (fun p => p * p) l) * (r * r).
Proof. induction l as [|x l IH]; cbn; [ring|]. rewrite IH. ring. Qed.
Lemma ratio_sqrt (A B : atom) : 0 < mass A -> 0 < mass B -> sqrt (mass A / mass B) * sqrt (mass A / mass B) = mass A / mass B /\ 0 < sqrt (mass A / mass B).
Proof.
  intros HA HB. assert (0 < mass A / mass B) by (apply Rdiv_lt_0_compat; auto).
  split; [apply sqrt_def; lra|now apply sqrt_lt_R0].
Qed.
Lemma ke_light (A B : atom) : 0 < mass A -> 0 < mass B -> ke (light A B) = ke A.
Proof.
  intros HA HB. destruct (ratio_sqrt A B HA HB) as [Q P]. unfold ke, light. cbn. rewrite sum_sq_div by lra. rewrite Q. field. lra.
Qed.
Lemma ke_dark (A B : atom) : 0 < mass A -> 0 < mass B -> ke (dark A B) = ke B.
Proof.
  intros HA HB. destruct (ratio_sqrt A B HA HB) as [Q P]. unfold ke, dark. cbn. rewrite sum_sq_mul, Q. field. lra.
Qed.

(* what one try, and therefore any number of them, keeps *)
Record kept (axl : list nat) (s s' : system * R) : Prop := {
  k_length : List.length (fst s') = List.length (fst s);
  k_heavy : heavy (fst s');
  k_species : Permutation (map (fun a => (name a, mass a)) (fst s)) (map (fun a => (name a, mass a)) (fst s'));
  k_paths : map path (fst s') = map path (fst s);
  k_kinetic : map ke (fst s') = map ke (fst s);
  k_energy : spring (fst s') + snd s' = spring (fst s) + snd s;
  k_others : forall k, ~ In k axl -> nth_error (fst s') k = nth_error (fst s) k }.

Lemma kept_refl axl s : heavy (fst s) -> kept axl s s.
Proof. intros H. constructor; auto. Qed.
Lemma kept_trans axl s s' s'' : kept axl s s' -> kept axl s' s'' -> kept axl s s''.
Proof.
  intros [A1 A2 A3 A4 A5 A6 A7] [B1 B2 B3 B4 B5 B6 B7]. constructor; try congruence.
  - eapply Permutation_trans; eauto.
  - intros k N. rewrite B7, A7; auto.
Qed.

Lemma heavy_nth l k A : heavy l -> nth_error l k = Some A -> 0 < mass A.
Proof. unfold heavy. rewrite Forall_forall. intros H E. apply H. eapply nth_error_In; eauto. Qed.

Lemma try_kept axl t l e s : good axl l -> drawn axl t -> heavy l ->
  alchemy_try axl (springs axl l) t (l, e) = Some s -> kept axl (l, e) s.
Proof.
  intros G D H E. destruct (alchemy_try_spec axl t l e s G D H E)
    as (j & a & b & A & B & _ & _ & _ & Ia & Ib & N & EA & EB & _ & [[_ ->]|[_ ->]]); [|now apply kept_refl].
  pose proof (heavy_nth _ _ _ H EA) as HA. pose proof (heavy_nth _ _ _ H EB) as HB.
  assert (X := fun k => exchanged_nth l a b A B k N EA EB).
  assert (La : (a < List.length l)%nat) by (apply nth_error_Some; congruence).
  assert (Lb : (b < List.length l)%nat) by (apply nth_error_Some; congruence).
  constructor; cbn [fst snd].
  - apply exchanged_length.
  - unfold heavy. rewrite Forall_forall. intros x I. apply In_nth_error in I. destruct I as [k Ek]. rewrite X in Ek.
    destruct (Nat.eqb k a); [injection Ek as <-; exact HB|]. destruct (Nat.eqb k b); [injection Ek as <-; exact HA|].
    eapply heavy_nth; eauto.
  - apply transposed with (a := a) (b := b); rewrite ?map_length, ?exchanged_length; auto.
    + rewrite !nth_error_map, X, Nat.eqb_refl, EB. reflexivity.
    + rewrite !nth_error_map, X, Nat.eqb_refl, EA. rewrite (proj2 (Nat.eqb_neq b a)) by auto. reflexivity.
    + intros k Na Nb. rewrite !nth_error_map, X. rewrite (proj2 (Nat.eqb_neq k a)), (proj2 (Nat.eqb_neq k b)) by auto. reflexivity.
  - apply list_ext. intros k. rewrite !nth_error_map, X. destruct (Nat.eqb_spec k a) as [->|]; [now rewrite EA|].
    destruct (Nat.eqb_spec k b) as [->|]; [now rewrite EB|reflexivity].
  - apply list_ext. intros k. rewrite !nth_error_map, X. destruct (Nat.eqb_spec k a) as [->|].
    { rewrite EA. cbn. now rewrite ke_light. }
    destruct (Nat.eqb_spec k b) as [->|]; [|reflexivity]. rewrite EB. cbn. now rewrite ke_dark.
  - unfold spring, exchanged. rewrite sum_upd with (a := B), sum_upd with (a := A).
    + unfold delta, light, dark. cbn. ring.
    + exact EA.
    + rewrite upd_nth, (proj2 (Nat.eqb_neq a b)) by auto. exact EB.
  - intros k I. rewrite X. destruct (Nat.eqb_spec k a) as [->|]; [easy|]. destruct (Nat.eqb_spec k b) as [->|]; easy.
Qed.

Lemma get_path (l : system) k : get none path l k = match nth_error (map path l) k with Some q => q | None => none end.
Proof. unfold get. rewrite nth_error_map. now destruct (nth_error l k). Qed.

Lemma tries_kept axl ts : forall l e s, good axl l -> Forall (drawn axl) ts -> heavy l ->
  alchemy_tries axl (springs axl l) ts (l, e) = Some s -> kept axl (l, e) s.
Proof.
  induction ts as [|t ts IH]; intros l e s G D H E; cbn in E.
  - injection E as <-. now apply kept_refl.
  - inversion D as [|? ? Dt Dts]; subst.
    change (match alchemy_try axl (springs axl l) t (l, e) with Some s0 => alchemy_tries axl (springs axl l) ts s0 | None => None end = Some s) in E.
    destruct (alchemy_try axl (springs axl l) t (l, e)) as [[l1 e1]|] eqn:T; [|discriminate].
    pose proof (try_kept axl t l e (l1, e1) G Dt H T) as K.
    assert (Es : springs axl l = springs axl l1).
    { unfold springs, SwapModel.springs. apply map_ext. intros k. rewrite !get_path. pose proof (k_paths _ _ _ K) as KP. cbn [fst] in KP. now rewrite KP. }
    rewrite Es in E. eapply kept_trans; [exact K|]. apply IH; auto.
    + unfold good. replace (List.length l1) with (List.length l); [exact G|]. symmetry. exact (k_length _ _ _ K).
    + exact (k_heavy _ _ _ K).
Qed.

(* C56: any sequence of alchemical exchanges keeps the list of species (with
   their masses) up to order, the positions, the kinetic energy of every
   atom and the spring energy plus the accumulated energy. *)
Theorem alchemy_keeps sel ts l e l' e' : heavy l -> Forall (drawn (ax sel l)) ts ->
  alchemy_step Path spr beta none sel ts (l, e) = Some (l', e') ->
  Permutation (map (fun a => (name a, mass a)) l) (map (fun a => (name a, mass a)) l') /\
  map path l' = map path l /\ map ke l' = map ke l /\ heavy l' /\
  spring l' + e' = spring l + e /\
  (forall k, ~ In (name_at l k) sel -> nth_error l' k = nth_error l k).
Proof.
  intros H D E. unfold alchemy_step in E. destruct ts as [|t ts].
  { injection E as <- <-. auto 10. }
  cbn [fst] in E. assert (G : good (ax sel l) l) by (apply Forall_forall; intros k I; now apply in_ax in I).
  assert (K : kept (ax sel l) (l, e) (l', e')).
  { destruct (ax sel l) as [|x axl] eqn:A; [discriminate|]. eapply tries_kept; eauto. }
  destruct K as [K1 K2 K3 K4 K5 K6 K7]; cbn [fst snd] in *. do 5 (split; [assumption|]).
  intros k N. apply K7. intros I. apply in_ax in I. destruct I as [_ I]. apply existsb_exists in I.
  destruct I as (n & I & Q). apply String.eqb_eq in Q. now rewrite Q in N.
Qed.

(* ---------------- atom swap ---------------- *)

Notation swap_try := (swap_try Path beta none pot).
Definition swapped (l : system) (a b : nat) (A B : atom) : system :=
  upd (upd l a (move Path (path B))) b (move Path (path A)).
Lemma swapped_nth l a b A B k : a <> b -> nth_error l a = Some A -> nth_error l b = Some B ->
  nth_error (swapped l a b A B) k =
    if Nat.eqb k a then Some (move Path (path B) A) else if Nat.eqb k b then Some (move Path (path A) B) else nth_error l k.
Proof.
  intros D EA EB. unfold swapped. rewrite !upd_nth.
  rewrite (Nat.eqb_sym k a), (Nat.eqb_sym k b).
  destruct (Nat.eqb_spec a k); destruct (Nat.eqb_spec b k); subst; try easy; rewrite ?EA, ?EB; reflexivity.
Qed.

Lemma swap_try_spec axl t l e s : good axl l -> drawn axl t -> swap_try axl t (l, e) = Some s ->
  exists j a b A B, pick l axl (i_of t) (js t) = Some j /\ a = nth (i_of t) axl O /\ b = nth j axl O /\
    In a axl /\ In b axl /\ a <> b /\
    nth_error l a = Some A /\ nth_error l b = Some B /\ name A <> name B /\
    let d := potential (swapped l a b A B) - potential l in
    ((u_of t < exp (- beta * d) /\ s = (swapped l a b A B, e - d)) \/ (exp (- beta * d) <= u_of t /\ s = (l, e))).
Proof.
  intros G [Di Dj] E. unfold swap_try, SwapModel.swap_try in E.
  destruct (pick l axl (i_of t) (js t)) as [j|] eqn:P; [|discriminate].
  destruct (pick_some _ _ _ _ _ P) as [Ij N].
  assert (Lj : (j < List.length axl)%nat) by (rewrite Forall_forall in Dj; auto).
  set (a := nth (i_of t) axl O) in *. set (b := nth j axl O) in *.
  assert (Ia : In a axl) by now apply nth_In. assert (Ib : In b axl) by now apply nth_In.
  unfold good in G. rewrite Forall_forall in G. pose proof (G a Ia) as La. pose proof (G b Ib) as Lb.
  destruct (nth_error l a) as [A|] eqn:EA; [|now apply nth_error_None in EA; lia].
  destruct (nth_error l b) as [B|] eqn:EB; [|now apply nth_error_None in EB; lia].
  rewrite (name_at_spec _ _ _ EA), (name_at_spec _ _ _ EB) in N.
  assert (D : a <> b) by (intros D; rewrite D, EB in EA; injection EA as <-; easy).
  exists j, a, b, A, B. do 8 (split; [auto|]). split; [exact N|].
  assert (GA : get none path l a = path A) by (unfold get; now rewrite EA).
  assert (GB : get none path l b = path B) by (unfold get; now rewrite EB).
  rewrite GA, GB in E. fold (swapped l a b A B) in E. cbv zeta.
  match type of E with context [Rlt_dec ?u ?x] => destruct (Rlt_dec u x) as [C|C] end.
  - left. split; [exact C|]. now injection E as <-.
  - right. split; [lra|congruence].
Qed.

(* C56: any sequence of swaps leaves names, masses and momenta where they
   are, permutes the positions, and keeps the potential plus the
   accumulated energy. *)
Lemma swap_tries_keep axl ts : forall l e l' e', good axl l -> Forall (drawn axl) ts ->
  swap_tries Path beta none pot axl ts (l, e) = Some (l', e') ->
  map (fun a => (name a, mass a, mom a)) l' = map (fun a => (name a, mass a, mom a)) l /\
  Permutation (map path l) (map path l') /\ potential l' + e' = potential l + e /\
  (forall k, ~ In k axl -> nth_error l' k = nth_error l k).
Proof.
  induction ts as [|t ts IH]; intros l e l' e' G D E.
  { injection E as <- <-. auto. }
  inversion D as [|? ? Dt Dts]; subst. cbn [swap_tries] in E.
  destruct (swap_try axl t (l, e)) as [[l1 e1]|] eqn:T; [|discriminate].
  destruct (swap_try_spec axl t l e (l1, e1) G Dt T)
    as (j & a & b & A & B & _ & _ & _ & Ia & Ib & N & EA & EB & _ & [[_ Q]|[_ Q]]); injection Q as -> ->; [|now apply IH in E].
  assert (X := fun k => swapped_nth l a b A B k N EA EB).
  assert (Ln : List.length (swapped l a b A B) = List.length l) by (unfold swapped; now rewrite !upd_length).
  apply IH in E; [|unfold good; now rewrite Ln|assumption]. destruct E as (E1 & E2 & E3 & E4).
  assert (La : (a < List.length l)%nat) by (apply nth_error_Some; congruence).
  assert (Lb : (b < List.length l)%nat) by (apply nth_error_Some; congruence).
  split; [|split; [|split]].
  - rewrite E1. apply list_ext. intros k. rewrite !nth_error_map, X.
    destruct (Nat.eqb_spec k a) as [->|]; [now rewrite EA|]. destruct (Nat.eqb_spec k b) as [->|]; [now rewrite EB|reflexivity].
  - eapply Permutation_trans; [|exact E2]. apply transposed with (a := a) (b := b); rewrite ?map_length; auto.
    + rewrite !nth_error_map, X, Nat.eqb_refl, EB. reflexivity.
    + rewrite !nth_error_map, X, Nat.eqb_refl, EA. rewrite (proj2 (Nat.eqb_neq b a)) by auto. reflexivity.
    + intros k Na Nb. rewrite !nth_error_map, X. rewrite (proj2 (Nat.eqb_neq k a)), (proj2 (Nat.eqb_neq k b)) by auto. reflexivity.
  - lra.
  - intros k I. rewrite E4, X by exact I. destruct (Nat.eqb_spec k a) as [->|]; [easy|]. destruct (Nat.eqb_spec k b) as [->|]; easy.
Qed.
Theorem swap_keeps sel ts l e l' e' : Forall (drawn (ax sel l)) ts ->
  swap_step Path beta none pot sel ts (l, e) = Some (l', e') ->
  map (fun a => (name a, mass a, mom a)) l' = map (fun a => (name a, mass a, mom a)) l /\
  Permutation (map path l) (map path l') /\ potential l' + e' = potential l + e /\
  (forall k, ~ In (name_at l k) sel -> nth_error l' k = nth_error l k).
Proof.
  intros D E. unfold swap_step in E. destruct ts as [|t ts]; [injection E as <- <-; auto|].
  cbn [fst] in E. assert (G : good (ax sel l) l) by (apply Forall_forall; intros k I; now apply in_ax in I).
  assert (K : swap_tries Path beta none pot (ax sel l) (t :: ts) (l, e) = Some (l', e')) by (destruct (ax sel l); [discriminate|exact E]).
  apply swap_tries_keep in K; auto. destruct K as (K1 & K2 & K3 & K4). do 3 (split; [assumption|]).
  intros k N. apply K4. intros I. apply in_ax in I. destruct I as [_ I]. apply existsb_exists in I.
  destruct I as (n & I & Q). apply String.eqb_eq in Q. now rewrite Q in N.
Qed.

(* ---------------- balance ---------------- *)

(* the length of the interval of uniform numbers for which a try is accepted *)
Definition chance (d : R) : R := Rmin 1 (exp (- beta * d)).
Theorem accepted_interval u d : 0 <= u < 1 -> u < exp (- beta * d) <-> u < chance d.
Proof. intros U. unfold chance, Rmin. destruct (Rle_dec 1 (exp (- beta * d))); split; lra. Qed.
Lemma metropolis E E' : exp (- beta * E) * chance (E' - E) = exp (- beta * E') * chance (E - E').
Proof.
  unfold chance, Rmin.
  assert (X : exp (- beta * E) * exp (- beta * (E' - E)) = exp (- beta * E')) by (rewrite <- exp_plus; f_equal; ring).
  assert (Y : exp (- beta * E') * exp (- beta * (E - E')) = exp (- beta * E)) by (rewrite <- exp_plus; f_equal; ring).
  assert (Z : exp (- beta * (E' - E)) * exp (- beta * (E - E')) = 1) by (rewrite <- exp_plus, <- exp_0; f_equal; ring).
  pose proof (exp_pos (- beta * (E' - E))). pose proof (exp_pos (- beta * (E - E'))).
  destruct (Rle_dec 1 (exp (- beta * (E' - E)))) as [A|A]; destruct (Rle_dec 1 (exp (- beta * (E - E')))) as [B|B].
  - assert (O : exp (- beta * (E' - E)) = 1) by nra. rewrite O in X. lra.
  - lra.
  - lra.
  - exfalso. nra.
Qed.

(* the atoms of the exchange list with another name than that of atom k *)
Definition others (l : system) (axl : list nat) (k : nat) : nat :=
  List.length (filter (fun j => negb (String.eqb (name_at l k) (name_at l j))) axl).
(* the chance that the atoms a and b are proposed, in either order *)
Definition proposal (l : system) (axl : list nat) (a b : nat) : R :=
  / INR (List.length axl) * / INR (others l axl a) + / INR (List.length axl) * / INR (others l axl b).

Definition differ (n : string) (m : string) : bool := negb (String.eqb n m).
Lemma others_names l axl k : others l axl k = List.length (filter (differ (name_at l k)) (map (name_at l) axl)).
Proof. unfold others. induction axl as [|x axl IH]; cbn; [reflexivity|]. unfold differ at 1. destruct (negb (String.eqb (name_at l k) (name_at l x))); cbn; now rewrite IH. Qed.
Lemma filter_perm {A} (f : A -> bool) l l' : Permutation l l' -> List.length (filter f l) = List.length (filter f l').
Proof.
  induction 1; cbn; auto; [destruct (f x); cbn; auto|destruct (f x), (f y); cbn; auto|congruence].
Qed.

Lemma exchanged_names l axl a b A B : NoDup axl -> In a axl -> In b axl -> a <> b ->
  nth_error l a = Some A -> nth_error l b = Some B ->
  Permutation (map (name_at l) axl) (map (name_at (exchanged l a b A B)) axl).
Proof.
  intros ND Ia Ib N EA EB. destruct (In_nth axl a O Ia) as (i & Li & Ni). destruct (In_nth axl b O Ib) as (j & Lj & Nj).
  assert (X := fun k => exchanged_nth l a b A B k N EA EB).
  assert (U : forall k k' x, nth_error axl k = Some x -> nth_error axl k' = Some x -> k = k').
  { intros k k' x Ek Ek'. eapply NoDup_nth_error; eauto; [|congruence]. apply nth_error_Some. congruence. }
  assert (Ei : nth_error axl i = Some a) by (rewrite <- Ni; now apply nth_error_nth').
  assert (Ej : nth_error axl j = Some b) by (rewrite <- Nj; now apply nth_error_nth').
  assert (Xn : forall k, name_at (exchanged l a b A B) k = if Nat.eqb k a then name B else if Nat.eqb k b then name A else name_at l k).
  { intros k. unfold name_at, get. rewrite X. destruct (Nat.eqb k a); [reflexivity|]. now destruct (Nat.eqb k b). }
  apply transposed with (a := i) (b := j); rewrite ?map_length; auto; rewrite ?nth_error_map, ?Ei, ?Ej; cbn.
  - f_equal. rewrite Xn, Nat.eqb_refl. symmetry. now apply name_at_spec.
  - f_equal. rewrite Xn, Nat.eqb_refl, (proj2 (Nat.eqb_neq b a)) by auto. symmetry. now apply name_at_spec.
  - intros k Nk Nk'. rewrite !nth_error_map. destruct (nth_error axl k) as [x|] eqn:Ek; [|reflexivity]. cbn. f_equal. rewrite Xn.
    destruct (Nat.eqb_spec x a) as [->|]; [now rewrite (U k i a Ek Ei) in Nk|].
    destruct (Nat.eqb_spec x b) as [->|]; [now rewrite (U k j b Ek Ej) in Nk'|reflexivity].
Qed.

(* Alchemical exchanges satisfy detailed balance with respect to the spring
   energy: the probability of a configuration times that of proposing and
   accepting the exchange is the same in both directions. *)
Theorem alchemy_balance l axl a b A B : NoDup axl -> In a axl -> In b axl -> a <> b ->
  nth_error l a = Some A -> nth_error l b = Some B ->
  let l' := exchanged l a b A B in
  exp (- beta * spring l) * (proposal l axl a b * chance (delta A B)) =
  exp (- beta * spring l') * (proposal l' axl a b * chance (delta (light A B) (dark A B))).
Proof.
  intros ND Ia Ib N EA EB. cbv zeta. set (l' := exchanged l a b A B).
  assert (X := fun k => exchanged_nth l a b A B k N EA EB).
  assert (P : proposal l' axl a b = proposal l axl a b).
  { unfold proposal.
    assert (Qa : name_at l' a = name_at l b) by (unfold l', name_at, get; rewrite X, Nat.eqb_refl, EB; reflexivity).
    assert (Qb : name_at l' b = name_at l a) by (unfold l', name_at, get; rewrite X, Nat.eqb_refl, (proj2 (Nat.eqb_neq b a)), EA by auto; reflexivity).
    rewrite !others_names, Qa, Qb.
    assert (PN := exchanged_names l axl a b A B ND Ia Ib N EA EB). fold l' in PN.
    rewrite <- !(filter_perm _ _ _ PN). lra. }
  assert (E : spring l' = spring l + delta A B).
  { unfold l', spring, exchanged. rewrite sum_upd with (a := B), sum_upd with (a := A).
    - unfold delta, light, dark. cbn. ring.
    - exact EA.
    - rewrite upd_nth, (proj2 (Nat.eqb_neq a b)) by auto. exact EB. }
  rewrite P. assert (M := metropolis (spring l) (spring l')).
  replace (delta A B) with (spring l' - spring l) by lra.
  replace (delta (light A B) (dark A B)) with (spring l - spring l') by (rewrite E; unfold delta, light, dark; cbn; ring).
  rewrite <- !(Rmult_assoc _ (proposal l axl a b)), !(Rmult_comm _ (proposal l axl a b)), !Rmult_assoc. now rewrite M.
Qed.

(* Swaps do so with respect to the potential energy. *)
Theorem swap_balance l axl a b A B : In a axl -> In b axl -> a <> b ->
  nth_error l a = Some A -> nth_error l b = Some B ->
  let l' := swapped l a b A B in
  exp (- beta * potential l) * (proposal l axl a b * chance (potential l' - potential l)) =
  exp (- beta * potential l') * (proposal l' axl a b * chance (potential l - potential l')) /\
  swapped l' a b (move Path (path B) A) (move Path (path A) B) = l.
Proof.
  intros Ia Ib N EA EB. cbv zeta. set (l' := swapped l a b A B).
  assert (X := fun k => swapped_nth l a b A B k N EA EB).
  assert (Q : forall k, name_at l' k = name_at l k).
  { intros k. unfold l', name_at, get. rewrite X. destruct (Nat.eqb_spec k a) as [->|]; [now rewrite EA|].
    destruct (Nat.eqb_spec k b) as [->|]; [now rewrite EB|reflexivity]. }
  split.
  - assert (P : proposal l' axl a b = proposal l axl a b).
    { unfold proposal, others. rewrite !Q. f_equal; f_equal; f_equal; f_equal; f_equal; apply filter_ext; intros k; now rewrite Q. }
    rewrite P. assert (M := metropolis (potential l) (potential l')).
    rewrite <- !(Rmult_assoc _ (proposal l axl a b)), !(Rmult_comm _ (proposal l axl a b)), !Rmult_assoc. now rewrite M.
  - apply list_ext. intros k. rewrite swapped_nth; auto.
    + destruct (Nat.eqb_spec k a) as [->|Na]; [rewrite EA; now destruct A|].
      destruct (Nat.eqb_spec k b) as [->|Nb]; [rewrite EB; now destruct B|].
      unfold l'. rewrite X. now rewrite (proj2 (Nat.eqb_neq k a)), (proj2 (Nat.eqb_neq k b)) by auto.
    + unfold l'. now rewrite X, Nat.eqb_refl.
    + unfold l'. now rewrite X, Nat.eqb_refl, (proj2 (Nat.eqb_neq b a)) by auto.
Qed.

(* Potential, springs and accumulated energy together are kept by a swap if
   the two masses are the same, or if there are no springs. *)
Theorem swap_conserved_partial l a b A B e : a <> b -> nth_error l a = Some A -> nth_error l b = Some B ->
  mass A = mass B \/ spr (path A) = spr (path B) ->
  let l' := swapped l a b A B in
  potential l' + spring l' + (e - (potential l' - potential l)) = potential l + spring l + e.
Proof.
  intros N EA EB C. cbv zeta. unfold spring, swapped. rewrite sum_upd with (a := B), sum_upd with (a := A).
  - unfold move. cbn. destruct C as [-> | ->]; ring.
  - exact EA.
  - rewrite upd_nth, (proj2 (Nat.eqb_neq a b)) by auto. exact EB.
Qed.

(* ---------------- termination ---------------- *)

(* A try ends as soon as an atom with another name has been drawn. *)
Theorem pick_ends (l : system) axl i ds j : In j ds -> name_at l (nth i axl O) <> name_at l (nth j axl O) ->
  exists j', pick l axl i ds = Some j'.
Proof.
  intros I N. induction ds as [|d ds IH]; [destruct I|]. cbn.
  destruct (String.eqb_spec (name_at l (nth i axl O)) (name_at l (nth d axl O))); [|eauto].
  destruct I as [->|I]; [easy|auto].
Qed.
(* If all atoms of the exchange list have one name, it never does. *)
Theorem pick_loops (l : system) axl i ds : (i < List.length axl)%nat -> Forall (fun j => (j < List.length axl)%nat) ds ->
  (forall a b, In a axl -> In b axl -> name_at l a = name_at l b) -> pick l axl i ds = None.
Proof.
  intros Li D H. induction D as [|d ds Ld _ IH]; [reflexivity|]. cbn.
  rewrite (H (nth i axl O) (nth d axl O)) by (now apply nth_In). now rewrite String.eqb_refl.
Qed.
End Swap.

(* ---------------- counterexamples and cases ---------------- *)

(* C56 is false of the code in two ways.  With one species in the list, a
   step never ends, whatever is drawn. *)
Theorem swap_ends_refuted : exists (l : system R) sel, ax sel l = [0;1]%nat /\
  forall i ds u, (i < 2)%nat -> Forall (fun j => (j < 2)%nat) ds ->
    swap_step R 1 0 (fun _ => 0) sel [Try i ds u] (l, 0) = None /\
    alchemy_step R (fun _ => 0) 1 0 sel [Try i ds u] (l, 0) = None.
Proof.
  exists [Atom "Al" 1 [] 0; Atom "Al" 1 [] 1; Atom "Si" 1 [] 2], ["Al"]%string. split; [reflexivity|].
  intros i ds u Li D.
  assert (P : pick [Atom "Al" 1 [] 0; Atom "Al" 1 [] 1; Atom "Si" 1 [] 2] [0;1]%nat i ds = None).
  { apply pick_loops; auto. intros a b [<-|[<-|[]]] [<-|[<-|[]]]; reflexivity. }
  unfold swap_step, alchemy_step. cbn [ax fst].
  change (ax ["Al"%string] [Atom "Al" 1 [] 0; Atom "Al" 1 [] 1; Atom "Si" 1 [] 2]) with [0;1]%nat.
  cbn [swap_tries alchemy_tries]. unfold swap_try, alchemy_try. cbn [i_of js]. rewrite P. auto.
Qed.

(* With several beads a swap of atoms of different mass changes the spring
   energy, which the accumulated energy leaves out: a path is here the
   difference between two beads, and the atoms differ in mass and
   extension. *)
Theorem swap_conserved_refuted : exists (l l' : system R) ts e e',
  swap_step R 1 0 (fun _ => 0) ["Al";"Si"]%string ts (l, e) = Some (l', e') /\
  spring R (fun q => q * q) l' + potential R (fun _ => 0) l' + e' <> spring R (fun q => q * q) l + potential R (fun _ => 0) l + e.
Proof.
  set (l := [Atom "Al" 1 [] 0; Atom "Si" 2 [] 1] : system R).
  exists l, [Atom "Al" 1 [] 1; Atom "Si" 2 [] 0], [Try 0 [1%nat] 0], 0, 0. split.
  - unfold swap_step. change (ax ["Al"%string; "Si"%string] (fst (l, 0))) with [0;1]%nat.
    cbn [swap_tries]. unfold swap_try. cbn. unfold potential.
    match goal with |- context [Rlt_dec ?u ?x] => destruct (Rlt_dec u x) as [C|C] end.
    + f_equal. f_equal. lra.
    + exfalso. apply C. apply exp_pos.
  - unfold l, spring, potential. cbn. lra.
Qed.

(* Nor are swaps then balanced with respect to the potential and the springs,
   which is the energy of the path. *)
Theorem swap_balance_refuted : exists (l : system R) A B,
  nth_error l 0 = Some A /\ nth_error l 1 = Some B /\
  let pot := fun _ => 0 in let spr := fun q => q * q in let l' := swapped R l 0 1 A B in
  exp (- 1 * (potential R pot l + spring R spr l)) * (proposal R l [0;1]%nat 0 1 * chance 1 (potential R pot l' - potential R pot l)) <>
  exp (- 1 * (potential R pot l' + spring R spr l')) * (proposal R l' [0;1]%nat 0 1 * chance 1 (potential R pot l - potential R pot l')).
Proof.
  exists [Atom "Al" 1 [] 0; Atom "Si" 2 [] 1], (Atom "Al" 1 [] 0), (Atom "Si" 2 [] 1). split; [reflexivity|]. split; [reflexivity|].
  cbv zeta. unfold potential, chance, proposal, others, spring, swapped, name_at, get. cbn.
  replace (- (1) * (0 - 0)) with 0 by ring. rewrite exp_0. unfold Rmin. destruct (Rle_dec 1 1); [|lra].
  replace ((/ (1 + 1) * / 1 + / (1 + 1) * / 1) * 1) with 1 by field.
  match goal with |- exp ?x * 1 <> exp ?y * 1 => assert (L : exp x < exp y) by (apply exp_increasing; lra) end. lra.
Qed.

Example alchemy_case : exists l', let l := [Atom "H" 1 [2] 3; Atom "O" 5 [] 9; Atom "D" 4 [2] 1] : system R in
  heavy R l /\ alchemy_step R (fun q => q) 1 0 ["H";"D"]%string [Try 0 [0;1]%nat (/ 1000)] (l, 7) = Some (l', 1) /\
  map name l' = ["D";"O";"H"]%string /\ drawn (ax ["H";"D"]%string l) (Try 0 [0;1]%nat (/ 1000)).
Proof.
  eexists. cbv zeta. split; [repeat constructor; cbn; lra|]. split.
  - unfold alchemy_step.
    change (ax ["H"%string; "D"%string] (fst ([Atom "H" 1 [2] 3; Atom "O" 5 [] 9; Atom "D" 4 [2] 1] : system R, 7))) with [0;2]%nat.
    cbn [alchemy_tries]. unfold alchemy_try. cbn -[Rdiv sqrt].
    match goal with |- context [Rlt_dec ?u ?x] => destruct (Rlt_dec u x) as [C|C] end.
    + f_equal. f_equal. cbn. lra.
    + exfalso. apply C. match goal with |- _ < exp ?x => replace x with (- (1 + 1 + 1 + 1 + 1 + 1)) by (cbn; ring) end.
      rewrite exp_Ropp. apply Rinv_lt_contravar; [apply Rmult_lt_0_compat; [apply exp_pos|lra]|].
      rewrite !exp_plus. pose proof exp_le_3. pose proof (exp_pos 1).
      assert (exp 1 * exp 1 <= 9) by nra. assert (0 < exp 1 * exp 1) by nra.
      assert (exp 1 * exp 1 * (exp 1 * exp 1) <= 81) by nra. nra.
  - split; [reflexivity|]. change (ax ["H"%string; "D"%string] _) with [0;2]%nat. split; [cbn; lia|repeat constructor].
Qed.

Print Assumptions alchemy_keeps.
Print Assumptions swap_keeps.
Print Assumptions accepted_interval.
Print Assumptions alchemy_balance.
Print Assumptions swap_balance.
Print Assumptions swap_conserved_partial.
Print Assumptions pick_ends.
Print Assumptions pick_loops.
Print Assumptions swap_ends_refuted.
Print Assumptions swap_conserved_refuted.
Print Assumptions swap_balance_refuted.
