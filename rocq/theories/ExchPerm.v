(** Sums over permutations: arrangements of a list, permanents, and the
    decomposition of a permanent into cycles read off the arrangements. *)
Require Import Reals List Arith Lia Lra Permutation.
From Verif Require Import RSum.
Import ListNotations.
Local Open Scope R_scope.

Notation rm := (remove Nat.eq_dec).
(** ** All arrangements of a list without repetitions *)
Fixpoint perms (n : nat) (A : list nat) : list (list nat) :=
  match n with
  | O => [[]]
  | S n' => flat_map (fun c => map (cons c) (perms n' (rm c A))) A
  end.
Definition arrangements (A : list nat) : list (list nat) := perms (length A) A.

Lemma rm_notin c A : ~ In c A -> rm c A = A.
Proof. intros H. now apply notin_remove. Qed.
Lemma rm_NoDup c A : NoDup A -> NoDup (rm c A).
Proof.
  induction A as [|a A IH]; intros H; [easy|]. inversion_clear H. cbn. destruct (Nat.eq_dec c a); [now apply IH|].
  constructor; [| now apply IH]. intros Hin. apply in_remove in Hin. easy.
Qed.
Lemma rm_perm c A : NoDup A -> In c A -> Permutation A (c :: rm c A).
Proof.
  induction A as [|a A IH]; intros Hnd Hin; [easy|]. inversion_clear Hnd. cbn. destruct (Nat.eq_dec c a) as [->|n].
  - rewrite rm_notin by easy. reflexivity.
  - destruct Hin as [<-|Hin]; [easy|]. rewrite (IH H0 Hin) at 1. apply perm_swap.
Qed.
Lemma rm_length c A : NoDup A -> In c A -> length A = S (length (rm c A)).
Proof. intros H Hi. now rewrite (Permutation_length (rm_perm c A H Hi)). Qed.
Lemma rm_Permutation c A A' : Permutation A A' -> Permutation (rm c A) (rm c A').
Proof.
  induction 1 as [|x A A' H IH|x y A|A B C H1 IH1 H2 IH2]; cbn.
  - constructor.
  - destruct (Nat.eq_dec c x); [easy | now constructor].
  - destruct (Nat.eq_dec c y), (Nat.eq_dec c x); try reflexivity. apply perm_swap.
  - now transitivity (rm c B).
Qed.
Lemma perms_spec n : forall A w, NoDup A -> length A = n -> In w (perms n A) <-> Permutation A w.
Proof.
  induction n as [|n IH]; intros A w Hnd Hl.
  - destruct A; [|easy]. cbn. split; [intros [<-|[]]; constructor | intros H; left; symmetry; now apply Permutation_nil].
  - cbn [perms]. rewrite in_flat_map. split.
    + intros (c & Hc & Hw). rewrite in_map_iff in Hw. destruct Hw as (w' & <- & Hw').
      rewrite IH in Hw'; [| now apply rm_NoDup | rewrite (rm_length c A Hnd Hc) in Hl; lia].
      rewrite (rm_perm c A Hnd Hc) at 1. now constructor.
    + intros H. destruct w as [|c w]; [apply Permutation_sym, Permutation_nil in H; subst; easy|].
      assert (Hc : In c A) by (apply (Permutation_in c (Permutation_sym H)); now left).
      exists c. split; [easy|]. apply in_map. rewrite IH; [| now apply rm_NoDup | rewrite (rm_length c A Hnd Hc) in Hl; lia].
      apply (Permutation_cons_inv (a := c)). now rewrite <- (rm_perm c A Hnd Hc).
Qed.
Lemma NoDup_app_disj {T} (a b : list T) : NoDup a -> NoDup b -> (forall x, In x a -> ~ In x b) -> NoDup (a ++ b).
Proof.
  induction a as [|x a IH]; intros Ha Hb H; [easy|]. inversion_clear Ha. cbn. constructor.
  - rewrite in_app_iff. intros [H2|H2]; [easy | apply (H x); [now left | easy]].
  - apply IH; try easy. intros y Hy. apply H. now right.
Qed.
Lemma perms_NoDup n : forall A, NoDup A -> NoDup (perms n A).
Proof.
  induction n as [|n IH]; intros A Hnd; [repeat constructor; easy|]. cbn [perms].
  assert (G : forall B, NoDup B -> NoDup (flat_map (fun c => map (cons c) (perms n (rm c A))) B)).
  { induction B as [|b B IHB]; intros HB; [constructor|]. inversion_clear HB. cbn. apply NoDup_app_disj.
    - apply FinFun.Injective_map_NoDup; [intros a a' [= <-]; easy | apply IH; now apply rm_NoDup].
    - now apply IHB.
    - intros w Hw Hw'. rewrite in_map_iff in Hw. destruct Hw as (w' & <- & _). rewrite in_flat_map in Hw'. destruct Hw' as (c & Hc & Hw').
      rewrite in_map_iff in Hw'. destruct Hw' as (w'' & [= -> _] & _). easy. }
  now apply G.
Qed.
Lemma arrangements_spec A w : NoDup A -> In w (arrangements A) <-> Permutation A w.
Proof. intros H. now apply perms_spec. Qed.
Lemma arrangements_NoDup A : NoDup A -> NoDup (arrangements A).
Proof. apply perms_NoDup. Qed.
Lemma arrangements_rev A : NoDup A -> Permutation (map (@rev nat) (arrangements A)) (arrangements A).
Proof.
  intros H. apply NoDup_Permutation.
  - apply FinFun.Injective_map_NoDup; [intros a b e; rewrite <- (rev_involutive a), e; apply rev_involutive | now apply arrangements_NoDup].
  - now apply arrangements_NoDup.
  - intros w. rewrite in_map_iff, arrangements_spec by easy. split.
    + intros (w' & <- & Hw'). rewrite arrangements_spec in Hw' by easy. rewrite Hw'. apply Permutation_rev.
    + intros Hw. exists (rev w). split; [apply rev_involutive|]. rewrite arrangements_spec by easy. rewrite Hw. apply Permutation_rev.
Qed.

(** ** Sums over lists *)
Lemma Rsuml_Permutation l l' : Permutation l l' -> Rsuml l = Rsuml l'.
Proof. induction 1; cbn; lra. Qed.
Lemma Rsuml_flat_map {T} (f : T -> list R) l : Rsuml (flat_map f l) = Rsuml (map (fun x => Rsuml (f x)) l).
Proof. induction l as [|x l IH]; cbn; [easy|]. now rewrite Rsuml_app, IH. Qed.
Lemma Rsuml_swap {T U} (f : T -> U -> R) l l' :
  Rsuml (map (fun a => Rsuml (map (f a) l')) l) = Rsuml (map (fun b => Rsuml (map (fun a => f a b) l)) l').
Proof.
  induction l as [|a l IH]; cbn.
  - induction l' as [|b l' IH']; cbn; [easy | rewrite <- IH'; ring].
  - rewrite IH, <- Rsuml_map_plus. easy.
Qed.
Lemma Rsuml_rm f c C : Rsuml (map f (rm c C)) = Rsuml (map (fun b => if Nat.eq_dec c b then 0 else f b) C).
Proof. induction C as [|b C IH]; [easy|]. cbn. destruct (Nat.eq_dec c b); cbn; rewrite IH; ring. Qed.
Lemma map_flat_map {T U W} (g : U -> W) (f : T -> list U) l : map g (flat_map f l) = flat_map (fun x => map g (f x)) l.
Proof. induction l as [|x l IH]; [easy|]. cbn. now rewrite map_app, IH. Qed.

(** ** Permanents *)
Section Permanent.
Variable M : nat -> nat -> R.
Fixpoint per (rows cols : list nat) : R :=
  match rows with
  | [] => 1
  | r :: rs => Rsuml (map (fun c => M r c * per rs (rm c cols)) cols)
  end.
(** The product along one arrangement of the columns. *)
Fixpoint prod_along (rows w : list nat) : R :=
  match rows, w with
  | r :: rs, c :: w' => M r c * prod_along rs w'
  | _, _ => 1
  end.
Lemma per_arrangements rows : forall cols, NoDup cols -> length rows = length cols ->
  per rows cols = Rsuml (map (prod_along rows) (arrangements cols)).
Proof.
  unfold arrangements. induction rows as [|r rs IH]; intros cols Hnd Hl; cbn in Hl.
  - destruct cols; [cbn; ring | easy].
  - rewrite <- Hl. cbn [per perms]. rewrite map_flat_map, Rsuml_flat_map. apply Rsuml_map_ext. intros c Hc.
    assert (Hlen : length rs = length (rm c cols)) by (rewrite (rm_length c cols Hnd Hc) in Hl; lia).
    rewrite (IH (rm c cols) (rm_NoDup c cols Hnd) Hlen). rewrite map_map. cbn [prod_along]. rewrite Rsuml_map_scal. now rewrite Hlen.
Qed.
Lemma per_cols rows : forall cols cols', Permutation cols cols' -> per rows cols = per rows cols'.
Proof.
  induction rows as [|r rs IH]; intros cols cols' H; [easy|]. cbn.
  rewrite (Rsuml_Permutation _ (map (fun c => M r c * per rs (rm c cols)) cols')) by (now apply Permutation_map).
  apply Rsuml_map_ext. intros c Hc. f_equal. apply IH. now apply rm_Permutation.
Qed.
Lemma per_rows rows rows' : Permutation rows rows' -> forall cols, per rows cols = per rows' cols.
Proof.
  induction 1 as [|r A A' H IH|r1 r2 A|A B C H1 IH1 H2 IH2]; intros cols.
  - easy.
  - cbn. apply Rsuml_map_ext. intros c Hc. now rewrite IH.
  - cbn. transitivity (Rsuml (map (fun c => Rsuml (map (fun c' => if Nat.eq_dec c c' then 0 else M r2 c * (M r1 c' * per A (rm c' (rm c cols)))) cols)) cols)).
    + apply Rsuml_map_ext. intros c Hc. rewrite Rsuml_rm, <- Rsuml_map_scal. apply Rsuml_map_ext. intros c' Hc'. destruct (Nat.eq_dec c c'); ring.
    + rewrite Rsuml_swap. apply Rsuml_map_ext. intros c Hc. rewrite Rsuml_rm, <- Rsuml_map_scal. apply Rsuml_map_ext. intros c' Hc'.
      destruct (Nat.eq_dec c' c), (Nat.eq_dec c c'); try congruence; [ring|]. rewrite (remove_remove_comm Nat.eq_dec A) || rewrite (remove_remove_comm Nat.eq_dec cols). ring.
  - now rewrite IH1, IH2.
Qed.

(** ** Cycles *)
Fixpoint pathw (y : nat) (s : list nat) (x : nat) : R :=
  match s with
  | [] => M y x
  | z :: s' => M y z * pathw z s' x
  end.
(** A weight of words in which the last element, first in the reversed word,
    closes a cycle of any length. *)
Variable F : list nat -> R.
Hypothesis F_nil : F [] = 1.
Hypothesis F_cons : forall x w, NoDup (x :: w) -> F (x :: w) = Rsum (S (length w)) (fun k => pathw x (firstn k w) x * F (skipn k w)) / INR (S (length w)).
Definition total (A : list nat) : R := Rsuml (map F (arrangements A)).
Definition open_total (x y : nat) (A : list nat) : R :=
  Rsuml (map (fun w => Rsum (S (length A)) (fun k => pathw y (firstn k w) x * F (skipn k w))) (arrangements A)).
Lemma in_perms_props A w : NoDup A -> In w (arrangements A) -> NoDup w /\ length w = length A /\ (forall c, In c w <-> In c A).
Proof.
  intros H Hw. rewrite arrangements_spec in Hw by easy. split; [now apply (Permutation_NoDup Hw)|]. split; [symmetry; now apply Permutation_length|].
  intros c. split; [apply (Permutation_in c (Permutation_sym Hw)) | apply (Permutation_in c Hw)].
Qed.
Lemma arrangements_step A : NoDup A -> A <> [] -> arrangements A = flat_map (fun c => map (cons c) (arrangements (rm c A))) A.
Proof.
  intros H Hne. unfold arrangements at 1. destruct A as [|a A]; [easy|]. cbn [length perms]. 
  set (B := a :: A) in *. assert (Hl : length A = (length B - 1)%nat) by (cbn; lia).
  assert (G : forall C, (forall c, In c C -> In c B) -> flat_map (fun c => map (cons c) (perms (length A) (rm c B))) C = flat_map (fun c => map (cons c) (arrangements (rm c B))) C).
  { induction C as [|c C IH]; intros Hc; [easy|]. cbn [flat_map]. rewrite IH by (intros; apply Hc; now right). f_equal. f_equal. unfold arrangements. f_equal.
    pose proof (rm_length c B H (Hc c (or_introl eq_refl))). lia. }
  now apply G.
Qed.
Lemma open_step x y A : NoDup A -> open_total x y A = M y x * total A + Rsuml (map (fun z => M y z * open_total x z (rm z A)) A).
Proof.
  intros H. destruct (list_eq_dec Nat.eq_dec A []) as [->|Hne].
  - cbn. rewrite F_nil. ring.
  - assert (E : forall w, In w (arrangements A) -> Rsum (S (length A)) (fun k => pathw y (firstn k w) x * F (skipn k w))
       = M y x * F w + Rsum (length A) (fun k => pathw y (firstn (S k) w) x * F (skipn (S k) w))).
    { intros w Hw. rewrite Rsum_first. easy. }
    unfold open_total. rewrite (Rsuml_map_ext _ _ _ E), Rsuml_map_plus, Rsuml_map_scal. f_equal.
    rewrite arrangements_step, map_flat_map, Rsuml_flat_map by easy. apply Rsuml_map_ext. intros z Hz. rewrite map_map.
    rewrite <- Rsuml_map_scal. apply Rsuml_map_ext. intros w Hw. cbn [firstn skipn pathw].
    rewrite <- Rsum_scal. rewrite (rm_length z A H Hz). apply Rsum_ext. intros. ring.
Qed.
Lemma total_step A : NoDup A -> A <> [] -> total A = Rsuml (map (fun x => open_total x x (rm x A)) A) / INR (length A).
Proof.
  intros H Hne. unfold total. rewrite arrangements_step, map_flat_map, Rsuml_flat_map by easy.
  unfold Rdiv. rewrite (Rmult_comm (Rsuml _)), <- Rsuml_map_scal. apply Rsuml_map_ext. intros x Hx. rewrite map_map. unfold open_total.
  rewrite <- Rsuml_map_scal. apply Rsuml_map_ext. intros w Hw. pose proof (in_perms_props (rm x A) w (rm_NoDup x A H) Hw) as (Hnd & Hl & Hin).
  rewrite F_cons.
  - rewrite (rm_length x A H Hx), Hl. unfold Rdiv. ring.
  - constructor; [|easy]. rewrite Hin. intros Hc. apply in_remove in Hc. easy.
Qed.
Lemma per_open x y A : NoDup A -> ~ In x A ->
  per (y :: A) (x :: A) = M y x * per A A + Rsuml (map (fun z => M y z * per (z :: rm z A) (x :: rm z A)) A).
Proof.
  intros H Hx. cbn [per map Rsuml]. f_equal.
  - f_equal. f_equal. cbn. destruct (Nat.eq_dec x x); [|easy]. now apply rm_notin.
  - apply Rsuml_map_ext. intros z Hz. f_equal. rewrite (per_rows A (z :: rm z A)) by now apply rm_perm.
    cbn [remove]. destruct (Nat.eq_dec z x) as [->|]; [easy | easy].
Qed.
Lemma totals n : forall A, NoDup A -> length A = n -> total A = per A A /\ forall x y, ~ In x A -> open_total x y A = per (y :: A) (x :: A).
Proof.
  induction n as [|n IH]; intros A H Hl.
  - destruct A; [|easy]. split; [cbn; rewrite F_nil; ring | intros x y _; cbn; rewrite F_nil; destruct (Nat.eq_dec x x); cbn; ring].
  - assert (Hne : A <> []) by (intros ->; easy).
    assert (T : total A = per A A).
    { rewrite total_step by easy. rewrite (Rsuml_map_ext _ (fun _ => per A A)).
      - rewrite Rsuml_map_const. field. apply not_0_INR. lia.
      - intros x Hx. pose proof (rm_length x A H Hx). destruct (IH (rm x A) (rm_NoDup x A H) ltac:(lia)) as [_ Ho].
        rewrite Ho by apply remove_In. rewrite <- (per_rows A) by now apply rm_perm. apply per_cols. symmetry. now apply rm_perm. }
    split; [exact T|]. intros x y Hx. rewrite open_step, per_open, T by easy. f_equal. apply Rsuml_map_ext. intros z Hz.
    pose proof (rm_length z A H Hz). destruct (IH (rm z A) (rm_NoDup z A H) ltac:(lia)) as [_ Ho]. rewrite Ho; [easy|].
    intros Hc. apply in_remove in Hc. easy.
Qed.
End Permanent.
