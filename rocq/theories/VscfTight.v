(** * More about the samples of the anharmonic modes *)
From Coq Require Import List Reals Lra Lia Arith ZArith Bool FunctionalExtensionality.
From Verif Require Import RSum MinModel PhonModel VscfModel VscfProps.
Import ListNotations.
Open Scope R_scope.

(** ** C224 *)
(** Every sample, that at rest included, is the potential and the force of the simulated cell at its displacement, per primitive cell, less the
    harmonic part and the potential at rest. *)
Theorem samples_physical n pot frc np q v w2 fn rms thr fuel its l : densities n pot frc np q v w2 fn rms thr fuel its = Some l ->
  forall d p f, In (d, p, f) l ->
  let x := fun i => q i + v i * d * sqrt np in
  p = pot x / np - 1 / 2 * w2 * d ^ 2 - pot q / np /\ f = dot n (frc x) v / np + w2 * d.
Proof.
  intros H d p f I x.
  assert (S : forall a c, In (d, p, f) [sample n pot frc np q v w2 a c] -> p = pot x / np - 1 / 2 * w2 * d ^ 2 - pot q / np /\ f = dot n (frc x) v / np + w2 * d).
  { intros a c [E|[]]. unfold sample in E. injection E as <- <- <-.
    assert (X : at_ np q v a c = x) by (apply functional_extensionality; intros i; unfold at_, x; ring).
    unfold dv, df, v_0. rewrite X. split; reflexivity. }
  revert l H I. induction its as [|its IH]; intros l H I; cbn [densities] in H.
  - injection H as <-. destruct I as [E|[]]. injection E as <- <- <-.
    assert (X : x = q) by (apply functional_extensionality; intros i; unfold x; ring). rewrite X. unfold f_0. split; ring.
  - destruct (densities n pot frc np q v w2 fn rms thr fuel its) as [l1|]; [|discriminate].
    destruct (density n pot frc np q v w2 fn rms thr fuel its) as [l2|] eqn:D; [|discriminate]. injection H as <-.
    apply in_app_or in I. destruct I as [I|I]; [now apply (IH l1)|].
    unfold density in D. destruct (walk _ _ _ 1) as [p1|]; [|discriminate]. destruct (walk _ _ _ (-1)) as [m1|]; [|discriminate].
    injection D as <-. apply in_app_or in I. destruct I as [I|I]; apply in_map_iff in I; destruct I as (c & E & _); apply (S (nmd fn rms its) c); now left.
Qed.
(** A force 3 at rest is kept. *)
Example samples_case : exists l, densities 1 (fun _ => 0) (fun _ _ => 3) 1 (fun _ => 0) (fun _ => 1) 1 1 1 1 1 0 = Some l /\ In (0, 0, 3) l.
Proof. eexists. split; [reflexivity|]. left. unfold f_0, dot. cbn. f_equal. field. Qed.
Print Assumptions samples_physical.
