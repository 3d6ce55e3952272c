(* Texts as lists of characters, with the string methods of the
   language used by the input and output routines: strip, split, find.
   Only general lemmas live here; the models that use them cite the code. *)
From Coq Require Import String Ascii List Arith Bool Lia.
Import ListNotations.
Set Implicit Arguments.

Definition text := list ascii.

(* A literal. *)
Definition tx (s : string) : text := list_ascii_of_string s.

Definition nl : ascii := "010"%char.
Definition tab : ascii := "009"%char.

(* [ch in s] for a one-character [ch] *)
Fixpoint has (c : ascii) (l : text) : bool :=
  match l with
  | nil => false
  | a :: r => Ascii.eqb c a || has c r
  end.

(* characters of a set, given as a text *)
Definition among (set : text) (a : ascii) : bool := has a set.

(* the blank characters of str.strip() and str.split() *)
Definition blank (a : ascii) : bool :=
  among (" "%char :: nl :: tab :: "011"%char :: "012"%char :: "013"%char :: nil) a.

Arguments blank : simpl never.

Fixpoint dropw (f : ascii -> bool) (l : text) : text :=
  match l with
  | nil => nil
  | a :: r => if f a then dropw f r else l
  end.

Definition lstrip f (l : text) := dropw f l.
Definition rstrip f (l : text) := rev (dropw f (rev l)).
Definition strip f (l : text) := rstrip f (lstrip f l).

(* str.find for one character: the text before and the text after the
   first occurrence *)
Fixpoint cut (c : ascii) (l : text) : option (text * text) :=
  match l with
  | nil => None
  | a :: r => if Ascii.eqb c a then Some (nil, r)
              else match cut c r with
                   | Some (x, y) => Some (a :: x, y)
                   | None => None
                   end
  end.

(* str.split(c) *)
Fixpoint split_on (c : ascii) (l : text) : list text :=
  match l with
  | nil => [nil]
  | a :: r => if Ascii.eqb c a then nil :: split_on c r
              else match split_on c r with
                   | nil => [[a]]
                   | w :: ws => (a :: w) :: ws
                   end
  end.

(* sep.join(ws) *)
Fixpoint join (sep : text) (ws : list text) : text :=
  match ws with
  | nil => nil
  | w :: nil => w
  | w :: rest => w ++ sep ++ join sep rest
  end.

(* str.split() : maximal runs of characters that are not blank *)
Fixpoint words_from (w : text) (l : text) : list text :=
  match l with
  | nil => match w with nil => nil | _ => [rev w] end
  | a :: r => if blank a then
                match w with nil => words_from nil r
                           | _ => rev w :: words_from nil r end
              else words_from (a :: w) r
  end.
Definition words (l : text) := words_from nil l.

Definition eqt (x y : text) : bool :=
  if list_eq_dec ascii_dec x y then true else false.

(* str.lower on one character *)
Definition lower1 (a : ascii) : ascii :=
  let n := nat_of_ascii a in
  if (65 <=? n) && (n <=? 90) then ascii_of_nat (n + 32) else a.
Definition lower (l : text) : text := map lower1 l.

Definition upper1 (a : ascii) : ascii :=
  let n := nat_of_ascii a in
  if (97 <=? n) && (n <=? 122) then ascii_of_nat (n - 32) else a.
Definition upper (l : text) : text := map upper1 l.

(* prefix test returning the rest *)
Fixpoint pre (p l : text) : option text :=
  match p, l with
  | nil, _ => Some l
  | a :: p', b :: l' => if Ascii.eqb a b then pre p' l' else None
  | _ :: _, nil => None
  end.

(* ---------- lemmas ---------- *)

Lemma eqt_spec x y : eqt x y = true <-> x = y.
Proof. unfold eqt. destruct (list_eq_dec ascii_dec x y); split; congruence. Qed.

Lemma eqt_refl x : eqt x x = true.
Proof. now apply eqt_spec. Qed.

Lemma eqt_neq x y : x <> y -> eqt x y = false.
Proof. intros N. unfold eqt. destruct (list_eq_dec ascii_dec x y); congruence. Qed.

Lemma has_app c x y : has c (x ++ y) = has c x || has c y.
Proof. induction x; cbn; [easy|]. rewrite IHx. now rewrite orb_assoc. Qed.

Lemma has_in c l : has c l = true <-> In c l.
Proof.
  induction l; cbn; [easy|]. rewrite orb_true_iff, IHl, Ascii.eqb_eq.
  intuition.
Qed.

Lemma has_not c l : has c l = false <-> ~ In c l.
Proof. rewrite <- has_in. destruct (has c l); intuition congruence. Qed.

Lemma dropw_app_all f x y : Forall (fun a => f a = true) x -> dropw f (x ++ y) = dropw f y.
Proof. induction 1; cbn; [easy|]. now rewrite H. Qed.

Lemma dropw_all f x : Forall (fun a => f a = true) x -> dropw f x = nil.
Proof. intros H. rewrite <- (app_nil_r x), dropw_app_all; auto. Qed.

Lemma dropw_head f a l : f a = false -> dropw f (a :: l) = a :: l.
Proof. intros H. cbn. now rewrite H. Qed.

(* a text that does not begin or end with a character of the set *)
Definition trim (f : ascii -> bool) (l : text) : bool :=
  match l with nil => true | a :: _ => negb (f a) end &&
  match rev l with nil => true | a :: _ => negb (f a) end.

Lemma trim_head f a l : trim f (a :: l) = true -> f a = false.
Proof.
  unfold trim. intros H. apply andb_true_iff in H as [H _].
  now apply negb_true_iff.
Qed.

Lemma trim_last f l a : trim f (l ++ [a]) = true -> f a = false.
Proof.
  unfold trim. intros H. apply andb_true_iff in H as [_ H].
  rewrite rev_app_distr in H. cbn in H. now apply negb_true_iff.
Qed.

Lemma lstrip_trim f l : trim f l = true -> lstrip f l = l.
Proof.
  intros H. destruct l; [easy|]. apply dropw_head. now apply trim_head in H.
Qed.

Lemma rstrip_trim f l : trim f l = true -> rstrip f l = l.
Proof.
  intros H. destruct l as [|b l _] using rev_ind; [easy|].
  unfold rstrip. rewrite rev_app_distr. cbn. apply trim_last in H. rewrite H.
  cbn. now rewrite rev_involutive.
Qed.

Lemma strip_trim f l : trim f l = true -> strip f l = l.
Proof.
  intros H. unfold strip. rewrite lstrip_trim by easy. now apply rstrip_trim.
Qed.

Lemma Forall_rev' A (P : A -> Prop) l : Forall P l -> Forall P (rev l).
Proof. rewrite !Forall_forall. intros H x I. apply H. now apply in_rev. Qed.

Lemma rstrip_app f l y : Forall (fun a => f a = true) y -> rstrip f (l ++ y) = rstrip f l.
Proof.
  intros H. unfold rstrip. rewrite rev_app_distr, dropw_app_all; [easy|].
  now apply Forall_rev'.
Qed.

Lemma strip_pad f x l y :
  Forall (fun a => f a = true) x -> Forall (fun a => f a = true) y ->
  trim f l = true -> strip f (x ++ l ++ y) = l.
Proof.
  intros X Y H. unfold strip, lstrip. rewrite dropw_app_all by easy.
  destruct l as [|a l].
  - rewrite app_nil_l. rewrite dropw_all by easy. reflexivity.
  - cbn [app]. rewrite dropw_head by (eapply trim_head; exact H).
    change (a :: l ++ y) with ((a :: l) ++ y). rewrite rstrip_app by easy.
    now apply rstrip_trim.
Qed.

Lemma cut_app c x y : has c x = false -> cut c (x ++ c :: y) = Some (x, y).
Proof.
  induction x; cbn; intros H.
  - now rewrite Ascii.eqb_refl.
  - apply orb_false_iff in H as [E H]. rewrite E, IHx by easy. easy.
Qed.

Lemma cut_none c x : has c x = false <-> cut c x = None.
Proof.
  induction x; cbn; [easy|].
  destruct (Ascii.eqb c a) eqn:E; cbn; [easy|].
  rewrite IHx. destruct (cut c x) as [[? ?]|]; intuition congruence.
Qed.

Lemma cut_some c l x y : cut c l = Some (x, y) -> l = x ++ c :: y /\ has c x = false.
Proof.
  revert x y. induction l; cbn; intros x y H; [easy|].
  destruct (Ascii.eqb c a) eqn:E.
  - injection H as <- <-. apply Ascii.eqb_eq in E as <-. easy.
  - destruct (cut c l) as [[x' y']|] eqn:C; [|easy].
    injection H as <- <-. destruct (IHl _ _ eq_refl) as [-> F].
    cbn. rewrite E, F. easy.
Qed.

Lemma split_on_nil_not c l : split_on c l <> nil.
Proof.
  destruct l; cbn; [easy|]. destruct (Ascii.eqb c a); [easy|].
  now destruct (split_on c l).
Qed.

Lemma split_on_none c x : has c x = false -> split_on c x = [x].
Proof.
  induction x; cbn; intros H; [easy|].
  apply orb_false_iff in H as [E H]. rewrite E, IHx by easy. easy.
Qed.

Lemma split_on_app c x y :
  has c x = false -> split_on c (x ++ c :: y) = x :: split_on c y.
Proof.
  induction x; cbn; intros H.
  - now rewrite Ascii.eqb_refl.
  - apply orb_false_iff in H as [E H]. rewrite E, IHx by easy. easy.
Qed.

Lemma split_on_join c ws :
  ws <> nil -> Forall (fun w => has c w = false) ws ->
  split_on c (join [c] ws) = ws.
Proof.
  intros N F. induction F as [|w ws Hw F IH]; [easy|].
  destruct ws as [|v ws].
  - cbn. now apply split_on_none.
  - change (join [c] (w :: v :: ws)) with (w ++ c :: join [c] (v :: ws)).
    rewrite split_on_app by easy. rewrite IH; easy.
Qed.

Lemma words_from_app w x r :
  Forall (fun a => blank a = false) x -> words_from w (x ++ r) = words_from (rev x ++ w) r.
Proof.
  intros F. revert w. induction F; intros w; cbn; [easy|].
  rewrite H, IHF. now rewrite <- app_assoc.
Qed.

Lemma words_blank l r : Forall (fun a => blank a = true) l -> words (l ++ r) = words r.
Proof. unfold words. induction 1; cbn; [easy|]. now rewrite H. Qed.

Lemma words_cons x a r :
  x <> nil -> Forall (fun a => blank a = false) x -> blank a = true ->
  words (x ++ a :: r) = x :: words r.
Proof.
  intros N F B. unfold words. rewrite words_from_app by easy. cbn. rewrite B.
  rewrite app_nil_r. destruct (rev x) eqn:E.
  - apply (f_equal (@rev _)) in E. rewrite rev_involutive in E. easy.
  - rewrite <- E, rev_involutive. easy.
Qed.

Lemma words_last x :
  x <> nil -> Forall (fun a => blank a = false) x -> words x = [x].
Proof.
  intros N F. unfold words. rewrite <- (app_nil_r x) at 1.
  rewrite words_from_app by easy. cbn. rewrite app_nil_r. destruct (rev x) eqn:E.
  - apply (f_equal (@rev _)) in E. rewrite rev_involutive in E. easy.
  - rewrite <- E, rev_involutive. easy.
Qed.

Lemma pre_app p l : pre p (p ++ l) = Some l.
Proof. induction p; cbn; [easy|]. now rewrite Ascii.eqb_refl. Qed.

Lemma pre_some p l r : pre p l = Some r -> l = p ++ r.
Proof.
  revert l. induction p; cbn; intros l H; [congruence|].
  destruct l; [easy|]. destruct (Ascii.eqb a a0) eqn:E; [|easy].
  apply Ascii.eqb_eq in E as ->. f_equal. auto.
Qed.

Lemma eqb_neq' a b : a <> b -> Ascii.eqb a b = false.
Proof. intros N. now apply Ascii.eqb_neq. Qed.
