(** * The tangents of the string: further theorems of record *)
From Coq Require Import List Arith Lia Reals Lra Bool.
From Coquelicot Require Import Coquelicot.
From Verif Require Import RSum StrModel StrProps.
Import ListNotations.
Open Scope list_scope.
Open Scope R_scope.

(** The derivative that the tangents use is that of the cubic of its piece; at an inner knot, of the
    cubics on both sides. *)
Theorem dspline_derivative N t y i : (0 < N)%nat -> increasing N t -> (i < N)%nat ->
  exists P, (forall s, t i <= s <= t (S i) -> spline N t y s = P s) /\ forall s, t i <= s <= t (S i) -> is_derive P s (dspline N t y s).
Proof.
  intros HN I Hi. destruct (spline_natural N t y HN I) as [_ [E [D [C _]]]]. exists (piece t y (moments N (steps t) y) i). split; [intros s Hs; now apply E|].
  intros s [A B]. destruct (D i s Hi) as [F _]. replace (dspline N t y s) with (dpiece t y (moments N (steps t) y) i s); [exact F|].
  unfold dspline. destruct (Req_dec s (t (S i))) as [->|X].
  - destruct (Nat.eq_dec (S i) N) as [L|L].
    + now rewrite (locate_at N t _ i I Hi A (or_intror L)).
    + assert (Hi' : (S i < N)%nat) by lia. rewrite (locate_at N t _ (S i) I Hi') by (try lra; left; now apply I). now apply C.
  - rewrite (locate_at N t s i I Hi A); [reflexivity|left; lra].
Qed.
(** The tangent of an image is the derivative of the path over its norm. *)
Theorem tangent_derivative dof n q tg b : spline_derv dof n q = Some tg -> (b < n)%nat ->
  exists (P : nat -> R -> R) (d : nat -> R), (forall c, P c (param dof n q b) = q b c /\ is_derive (P c) (param dof n q b) (d c)) /\
    (forall c, spline (n - 1) (param dof n q) (fun i => q i c) (param dof n q b) = q b c) /\
    forall c, tg b c = d c / npnorm dof d.
Proof.
  unfold spline_derv. destruct (n <=? 2)%nat eqn:L; [discriminate|]. apply Nat.leb_gt in L. destruct (apart dof n q) eqn:A; [|discriminate]. cbn [negb]. intros [= <-] Hb.
  pose proof (param_increasing dof n q ltac:(lia) A) as I.
  assert (K : forall c, spline (n - 1) (param dof n q) (fun i => q i c) (param dof n q b) = q b c).
  { intros c. destruct (spline_natural (n - 1) (param dof n q) (fun i => q i c) ltac:(lia) I) as [E _]. now rewrite E by lia. }
  set (i := Nat.min b (n - 2)). assert (Hi : (i < n - 1)%nat) by (unfold i; lia). set (t := param dof n q) in *.
  assert (B : t i <= t b <= t (S i)).
  { pose proof (I i Hi). destruct (Nat.le_gt_cases b (n - 2)) as [X|X].
    - replace i with b in * by (unfold i; lia). lra.
    - replace (S i) with b in * by (unfold i; lia). lra. }
  exists (fun c => piece t (fun j => q j c) (moments (n - 1) (steps t) (fun j => q j c)) i), (fun c => dspline (n - 1) t (fun j => q j c) (t b)). split; [|split; [exact K|reflexivity]].
  intros c. destruct (spline_natural (n - 1) t (fun j => q j c) ltac:(lia) I) as [_ [E [D [C _]]]]. split.
  - rewrite <- (E i (t b) Hi B). apply K.
  - destruct (D i (t b) Hi) as [F _].
    replace (dspline (n - 1) t (fun j => q j c) (t b)) with (dpiece t (fun j => q j c) (moments (n - 1) (steps t) (fun j => q j c)) i (t b)); [exact F|].
    unfold dspline. destruct B as [B1 B2]. destruct (Req_dec (t b) (t (S i))) as [X|X].
    + rewrite X in *. destruct (Nat.eq_dec (S i) (n - 1)) as [Y|Y].
      * now rewrite (locate_at (n - 1) t _ i I Hi B1 (or_intror Y)).
      * assert (Hi' : (S i < n - 1)%nat) by lia. rewrite (locate_at (n - 1) t _ (S i) I Hi') by (try lra; left; now apply I). now apply C.
    + rewrite (locate_at (n - 1) t (t b) i I Hi B1); [reflexivity|left; lra].
Qed.
Print Assumptions dspline_derivative.
Print Assumptions tangent_derivative.
Example derivative_case : exists P, is_derive P (INR 1) (dspline 2 INR INR (INR 1)).
Proof.
  destruct (dspline_derivative 2 INR INR 0 ltac:(lia) ltac:(intros i _; rewrite S_INR; lra) ltac:(lia)) as [P [_ H]]. exists P. apply H. cbn. lra.
Qed.
(** At the end points nothing is done unless they are optimised, whatever the mode and the path step would do; if
    they are to be, there is no optimiser for them. *)
Theorem endpoints_nothing mode zero edge path : step Endpoints false mode zero edge path = Nothing /\ step Endpoints true mode zero edge path = NotImplemented.
Proof. split; reflexivity. Qed.
Print Assumptions endpoints_nothing.
