(** * Theorems of record about active atoms (C21) *)
From Coq Require Import List ZArith Lia Bool.
From Verif Require Import ActiveModel.
Import ListNotations.
Open Scope Z_scope.

Section Active.
Context {V : Type}.
Variable zero : V.

(** ** What is wanted, in terms of atoms *)

(** The three components of atom [n]. *)
Definition atom (a : list V) (n : nat) : list V :=
  [nth (3 * n) a zero; nth (3 * n + 1) a zero; nth (3 * n + 2) a zero].

(** A sensible choice of some, not all, of [natoms] atoms. *)
Definition good_choice (natoms : nat) (l : list nat) : Prop :=
  l <> [] /\ NoDup l /\ (forall n, In n l -> (n < natoms)%nat) /\ (length l < natoms)%nat.

(** ** Proofs *)
Lemma norm_nat len n : (n < len)%nat -> norm len (Z.of_nat n) = Some n.
Proof.
  intros H. unfold norm. replace ((0 <=? Z.of_nat n) && (Z.of_nat n <? Z.of_nat len)) with true; [|symmetry; lia].
  now rewrite Nat2Z.id.
Qed.
Lemma coord_nat n : coord (Z.of_nat n) = map Z.of_nat [3 * n; 3 * n + 1; 3 * n + 2]%nat.
Proof. unfold coord. cbn [map]. repeat f_equal; lia. Qed.

Definition idx_of (l : list nat) : list nat := flat_map (fun n => [3 * n; 3 * n + 1; 3 * n + 2]%nat) l.
Lemma idx_of_coord l : flat_map coord (map Z.of_nat l) = map Z.of_nat (idx_of l).
Proof. induction l as [|n l IH]; [easy|]. unfold idx_of in *. cbn [map flat_map]. rewrite map_app, <- IH, coord_nat. easy. Qed.
Lemma idx_of_length l : length (idx_of l) = (3 * length l)%nat.
Proof. unfold idx_of. induction l as [|n l IH]; [easy|]. cbn [flat_map length app]. rewrite IH. lia. Qed.
Lemma idx_of_in l i : In i (idx_of l) <-> In (i / 3)%nat l.
Proof.
  unfold idx_of. rewrite in_flat_map. split.
  - intros (n & Hn & Hi). replace (i / 3)%nat with n; [easy|]. cbn in Hi.
    assert (i = 3 * n + 0 \/ i = 3 * n + 1 \/ i = 3 * n + 2)%nat as Hc by lia.
    clear Hi. destruct Hc as [Hc|[Hc|Hc]]; rewrite Hc; rewrite (Nat.mul_comm 3), Nat.div_add_l by easy; cbn; lia.
  - intros H. exists (i / 3)%nat. split; [easy|].
    pose proof (Nat.div_mod i 3 ltac:(lia)). pose proof (Nat.mod_upper_bound i 3 ltac:(lia)). cbn [In]. lia.
Qed.
Lemma idx_of_nodup l : NoDup l -> NoDup (idx_of l).
Proof.
  induction l as [|n l IH]; intros H; [constructor|]. inversion H; subst.
  assert (Hx : forall k, (k < 3)%nat -> ~ In (3 * n + k)%nat (idx_of l)).
  { intros k Hk Hi. apply idx_of_in in Hi. rewrite (Nat.mul_comm 3), Nat.div_add_l, (Nat.div_small k) in Hi by lia.
    now rewrite Nat.add_0_r in Hi. }
  pose proof (Hx 0%nat ltac:(lia)) as X0. pose proof (Hx 1%nat ltac:(lia)) as X1. pose proof (Hx 2%nat ltac:(lia)) as X2.
  rewrite Nat.add_0_r in X0.
  change (idx_of (n :: l)) with ((3 * n) :: (3 * n + 1) :: (3 * n + 2) :: idx_of l)%nat.
  constructor; [|constructor; [|constructor; [easy|now apply IH]]].
  - intros [E|[E|E]]; [lia|lia|easy].
  - intros [E|E]; [lia|easy].
Qed.

Lemma take_nat a l : (forall i, In i l -> (i < length a)%nat) ->
  take zero a (map Z.of_nat l) = Ok (map (fun i => nth i a zero) l).
Proof.
  induction l as [|i l IH]; intros H; cbn [map take]; [easy|].
  rewrite norm_nat by (apply H; now left). rewrite IH by (intros j Hj; apply H; now right). easy.
Qed.

Lemma setnth_length n v (a : list V) : length (setnth n v a) = length a.
Proof. revert n; induction a as [|x a IH]; intros [|n]; cbn; auto. Qed.
Lemma nth_setnth n v (a : list V) i : (n < length a)%nat ->
  nth i (setnth n v a) zero = if (i =? n)%nat then v else nth i a zero.
Proof.
  revert n i; induction a as [|x a IH]; intros [|n] [|i] H; cbn in *; try lia; try easy. apply IH. lia.
Qed.

Lemma put_nat l : forall vals a, length vals = length l -> NoDup l -> (forall i, In i l -> (i < length a)%nat) ->
  exists b, put (map Z.of_nat l) vals a = Ok b /\ length b = length a /\
    (forall k, (k < length l)%nat -> nth (nth k l 0%nat) b zero = nth k vals zero) /\
    (forall i, ~ In i l -> nth i b zero = nth i a zero).
Proof.
  induction l as [|i l IH]; intros [|v vals] a Hl Hn Hr; try discriminate.
  - exists a. repeat split; cbn; intros; lia || easy.
  - cbn [map put]. rewrite norm_nat by (apply Hr; now left). inversion Hn as [|? ? Hi Hn']; subst.
    destruct (IH vals (setnth i v a)) as (b & Hb & Hlb & Hk & Hz).
    + cbn in Hl. lia.
    + easy.
    + intros j Hj. rewrite setnth_length. apply Hr. now right.
    + exists b. rewrite setnth_length in Hlb. split; [easy|]. split; [easy|]. split.
      * intros [|k] Hk'; cbn.
        -- rewrite Hz by easy. rewrite nth_setnth by (apply Hr; now left). now rewrite Nat.eqb_refl.
        -- apply Hk. cbn in Hk'. lia.
      * intros j Hj. cbn in Hj. rewrite Hz by tauto. rewrite nth_setnth by (apply Hr; now left).
        destruct (Nat.eqb_spec j i) as [->|]; [tauto|easy].
Qed.

Lemma last_map_of (l : list nat) d : l <> [] -> last (map Z.of_nat l) (Z.of_nat d) = Z.of_nat (last l d).
Proof. induction l as [|x l IH]; [easy|]. intros _. destruct l as [|y l]; [easy|]. cbn [map last] in *. apply IH. easy. Qed.
Lemma last_in (l : list nat) d : l <> [] -> In (last l d) l.
Proof. induction l as [|x l IH]; [easy|]. intros _. destruct l as [|y l]; [now left|]. right. apply IH. easy. Qed.

Lemma good_activehere N l p : good_choice N l -> length p = (3 * N)%nat ->
  activehere (map Z.of_nat l) (length (p : list V)) = Ok (map Z.of_nat (idx_of l)).
Proof.
  intros (Hne & Hnd & Hin & Hlt) Hp. unfold activehere.
  destruct l as [|n l]; [easy|]. cbn [map]. replace (Z.of_nat n =? -1) with false by (symmetry; apply Z.eqb_neq; lia).
  change (Z.of_nat n :: map Z.of_nat l) with (map Z.of_nat (n :: l)). rewrite idx_of_coord.
  rewrite map_length, idx_of_length, Hp.
  replace (3 * length (n :: l) =? 0)%nat with false by (symmetry; apply Nat.eqb_neq; cbn; lia).
  replace (3 * N <? 3 * length (n :: l))%nat with false by (symmetry; apply Nat.ltb_ge; lia).
  change 0 with (Z.of_nat 0). rewrite last_map_of by easy. cbn [orb].
  assert (Hla : In (last (idx_of (n :: l)) 0%nat) (idx_of (n :: l))) by now apply last_in.
  apply idx_of_in in Hla. apply Hin in Hla. set (z := last (idx_of (n :: l)) 0%nat) in *.
  replace (Z.of_nat (3 * N) - 1 <? Z.of_nat z) with false; [easy|].
  symmetry. apply Z.ltb_ge. pose proof (Nat.div_mod z 3 ltac:(lia)). pose proof (Nat.mod_upper_bound z 3 ltac:(lia)). lia.
Qed.

(** C21. For a proper choice of atoms, whatever the driver does: it receives the
    coordinates of those atoms in the order of the list, each listed atom gets the
    force the driver gave at its place, all others get zero. *)
Theorem active_atoms_restricted drv N l p :
  good_choice N l -> length p = (3 * N)%nat ->
  (forall x, length (drv x) = length x) ->
  exists fs,
    evaluate zero drv (mkF (map Z.of_nat l) None) p = Ok (flat_map (atom p) l, fs) /\
    length fs = length p /\
    (forall k, (k < length l)%nat -> atom fs (nth k l 0%nat) = atom (drv (flat_map (atom p) l)) k) /\
    (forall n, (n < N)%nat -> ~ In n l -> atom fs n = [zero; zero; zero]).
Proof.
  intros Hg Hp Hd. destruct (Hg) as (Hne & Hnd & Hin & Hlt).
  assert (Hrange : forall i, In i (idx_of l) -> (i < length p)%nat).
  { intros i Hi. apply idx_of_in, Hin in Hi. pose proof (Nat.div_mod i 3 ltac:(lia)).
    pose proof (Nat.mod_upper_bound i 3 ltac:(lia)). lia. }
  assert (Hs : map (fun i => nth i p zero) (idx_of l) = flat_map (atom p) l).
  { unfold idx_of. clear. induction l as [|n l IH]; [easy|]. cbn [flat_map]. rewrite map_app, IH. easy. }
  set (x := flat_map (atom p) l) in *.
  assert (Hx : length x = (3 * length l)%nat) by (rewrite <- Hs, map_length; apply idx_of_length).
  destruct (put_nat (idx_of l) (drv x) (repeat zero (length p))) as (b & Hb & Hlb & Hk & Hz).
  { rewrite Hd, Hx, idx_of_length. easy. }
  { now apply idx_of_nodup. }
  { intros i Hi. rewrite repeat_length. now apply Hrange. }
  exists b. rewrite repeat_length in Hlb. split; [|split; [easy|split]].
  - unfold evaluate, queue. cbn [iactive active]. rewrite (good_activehere N l p Hg Hp). cbn [bind fst].
    unfold send, recv. cbn [pos act]. rewrite take_nat by easy. rewrite Hs. cbn [bind].
    rewrite map_length, idx_of_length, Hp.
    replace (3 * length l =? 3 * N)%nat with false by (symmetry; apply Nat.eqb_neq; lia).
    rewrite Hp in Hb. rewrite Hb. easy.
  - intros k Hkl. unfold atom. set (n := nth k l 0%nat).
    assert (Hnth : forall d, (d < 3)%nat -> nth (3 * k + d) (idx_of l) 0%nat = (3 * n + d)%nat).
    { intros d Hd3. unfold n. clear -Hkl Hd3. revert k Hkl. induction l as [|m l IH]; intros [|k] Hkl; cbn in Hkl; try lia.
      - destruct d as [|[|[|d]]]; cbn; lia.
      - change (idx_of (m :: l)) with ((3 * m) :: (3 * m + 1) :: (3 * m + 2) :: idx_of l)%nat.
        replace (3 * S k + d)%nat with (S (S (S (3 * k + d)))) by lia. cbn [nth]. apply IH. lia. }
    assert (Hi : forall d, (d < 3)%nat -> nth (3 * n + d) b zero = nth (3 * k + d) (drv x) zero).
    { intros d Hd3. rewrite <- Hnth by easy. apply Hk. rewrite idx_of_length. lia. }
    pose proof (Hi 0%nat ltac:(lia)) as H0. rewrite !Nat.add_0_r in H0. rewrite H0, !Hi by lia. easy.
  - intros n HnN Hnl. assert (Hi : forall d, (d < 3)%nat -> nth (3 * n + d) b zero = zero).
    { intros d Hd3. rewrite Hz; [apply nth_repeat|]. rewrite idx_of_in, (Nat.mul_comm 3), Nat.div_add_l, (Nat.div_small d) by lia.
      now rewrite Nat.add_0_r. }
    unfold atom. pose proof (Hi 0%nat ltac:(lia)) as H0. rewrite Nat.add_0_r in H0. rewrite H0, !Hi by lia. easy.
Qed.

(** C21. By default everything is passed on unchanged, both ways. *)
Theorem all_atoms_by_default drv p :
  p <> [] ->
  evaluate zero drv (mkF [-1] None) p = Ok (p, drv p).
Proof.
  intros Hp. unfold evaluate, queue, activehere. cbn [iactive active Z.eqb].
  assert (Hl : length p <> 0%nat) by now destruct p.
  cbn [Pos.eqb]. rewrite map_length, seq_length. replace (length p =? 0)%nat with false by (symmetry; now apply Nat.eqb_neq).
  rewrite Nat.ltb_irrefl. change 0 with (Z.of_nat 0). rewrite last_map_of by (destruct (length p); [easy|]; discriminate).
  replace (Z.of_nat (length p) - 1 <? Z.of_nat (last (seq 0 (length p)) 0%nat)) with false.
  2:{ symmetry. apply Z.ltb_ge. assert (Hi : In (last (seq 0 (length p)) 0%nat) (seq 0 (length p))).
      { apply last_in. destruct (length p); [easy|discriminate]. }
      apply in_seq in Hi. lia. }
  cbn [orb bind fst]. unfold send, recv. cbn [pos act].
  rewrite take_nat by (intros i Hi; apply in_seq in Hi; lia). cbn [bind].
  rewrite map_length, seq_length, Nat.eqb_refl. cbn [bind].
  replace (map (fun i => nth i p zero) (seq 0 (length p))) with p; [easy|].
  apply nth_ext with (d := zero) (d' := zero); [now rewrite map_length, seq_length|].
  intros n Hn. set (g := fun i => nth i p zero).
  rewrite (nth_indep (map g _) zero (g 0%nat)) by now rewrite map_length, seq_length.
  rewrite (map_nth g). now rewrite seq_nth.
Qed.

(** C21. The checks that are made: more entries than atoms, or a last entry out
    of range. *)
Theorem too_many_or_last_out_of_range_rejected drv N l n p :
  length p = (3 * N)%nat -> l <> [] ->
  ((N < length l)%nat \/ (last l 0%nat = n /\ (N <= n)%nat)) ->
  evaluate zero drv (mkF (map Z.of_nat l) None) p = ValueError.
Proof.
  intros Hp Hl H. unfold evaluate, queue, activehere. cbn [iactive active].
  destruct l as [|m l]; [easy|]. cbn [map]. replace (Z.of_nat m =? -1) with false by (symmetry; apply Z.eqb_neq; lia).
  change (Z.of_nat m :: map Z.of_nat l) with (map Z.of_nat (m :: l)). rewrite idx_of_coord.
  rewrite map_length, idx_of_length, Hp.
  replace (3 * length (m :: l) =? 0)%nat with false by (symmetry; apply Nat.eqb_neq; cbn; lia).
  change 0 with (Z.of_nat 0). rewrite last_map_of by easy.
  assert (Hlast : last (idx_of (m :: l)) 0%nat = (3 * last (m :: l) 0 + 2)%nat).
  { clear. revert m. induction l as [|x l IH]; intros m; [easy|].
    change (idx_of (m :: x :: l)) with ([3 * m; 3 * m + 1; 3 * m + 2] ++ idx_of (x :: l))%nat.
    change (last (m :: x :: l) 0%nat) with (last (x :: l) 0%nat). rewrite <- IH. clear.
    destruct (idx_of (x :: l)) eqn:E; [discriminate|]. easy. }
  rewrite Hlast.
  replace ((3 * N <? 3 * length (m :: l))%nat || (Z.of_nat (3 * N) - 1 <? Z.of_nat (3 * last (m :: l) 0%nat + 2))) with true; [easy|].
  symmetry. apply orb_true_iff. destruct H as [H|[H1 H2]]; [left; apply Nat.ltb_lt; lia | right; apply Z.ltb_lt; lia].
Qed.
End Active.

(** C21 is false in these cases.

    An index that is out of range and is not the last one passes the check and
    fails when the positions are sent. *)
Theorem out_of_range_not_rejected_refuted :
  exists p : list Z,
    (exists r, queue (mkF [5; 0] None) p = Ok r) /\
    evaluate 0 (fun x => x) (mkF [5; 0] None) p = IndexError.
Proof. exists [1;2;3;4;5;6;7;8;9]. split; [eexists|]; vm_compute; reflexivity. Qed.

(** All atoms in another order: sent in that order, forces not put back. *)
Theorem permuted_list_misassigns_forces_refuted :
  exists (p fs : list Z) (l : list nat),
    evaluate 0 (fun x => map (fun y => 10 * y) x) (mkF (map Z.of_nat l) None) p
      = Ok (flat_map (atom 0 p) l, fs) /\
    NoDup l /\ (forall n, In n l -> (n < 2)%nat) /\ length p = 6%nat /\
    atom 0 p 0 = [1; 2; 3] /\ atom 0 fs 0 = [40; 50; 60].
Proof.
  exists [1;2;3;4;5;6], [40;50;60;10;20;30], [1;0]%nat. split; [vm_compute; reflexivity|].
  split; [repeat constructor; cbn; intuition discriminate|].
  split; [cbn; intuition lia|]. repeat split.
Qed.

(** The indices are computed for the first structure only: a larger one that
    uses the same force field is cut, although all atoms should be active. *)
Theorem second_system_truncated_refuted :
  exists (p1 p2 fs : list Z) f,
    queue (mkF [-1] None) p1 = Ok (mkR p1 [0; 1; 2], f) /\
    evaluate 0 (fun x => map (fun y => 10 * y) x) f p2 = Ok ([1; 2; 3], fs) /\
    length p2 = 6%nat /\ fs = [10; 20; 30; 0; 0; 0].
Proof.
  exists [7;8;9], [1;2;3;4;5;6], [10;20;30;0;0;0], (mkF [-1] (Some [0;1;2])).
  repeat split; vm_compute; reflexivity.
Qed.

(** ** The hypotheses are met *)
Example active_case :
  good_choice 3 [2; 0]%nat /\
  evaluate 0 (fun x => map (fun y => 10 * y) x) (mkF [2; 0] None) [1;2;3;4;5;6;7;8;9]
  = Ok ([7;8;9;1;2;3], [10;20;30;0;0;0;70;80;90]).
Proof.
  split; [|vm_compute; reflexivity]. unfold good_choice. repeat split; cbn; try lia; try discriminate.
  repeat constructor; cbn; intuition discriminate.
Qed.
Example reject_case : evaluate 0 (fun x => x) (mkF [0; 3] None) [1;2;3;4;5;6;7;8;9] = ValueError.
Proof. vm_compute. reflexivity. Qed.

(** Negative indices count from the end; indices beyond either end are refused. *)
Theorem negative_indices_from_the_end {V} (zero : V) a k : (k < length a)%nat ->
  take zero a [- Z.of_nat (S k)] = Ok [nth k (rev a) zero].
Proof.
  intros H. unfold take, norm. destruct (Z.leb_spec 0 (- Z.of_nat (S k))) as [G|_]; [lia|]. cbn [andb].
  destruct (Z.leb_spec (- Z.of_nat (length a)) (- Z.of_nat (S k))) as [_|G]; [|lia]. destruct (Z.ltb_spec (- Z.of_nat (S k)) 0) as [_|G]; [|lia].
  cbn [andb bind]. rewrite rev_nth by easy. do 3 f_equal. lia.
Qed.
Theorem indices_out_of_range_refused {V} (zero : V) a i : i >= Z.of_nat (length a) \/ i < - Z.of_nat (length a) -> take zero a [i] = IndexError.
Proof.
  intros H. unfold take, norm. destruct (Z.leb_spec 0 i), (Z.ltb_spec i (Z.of_nat (length a))), (Z.leb_spec (- Z.of_nat (length a)) i), (Z.ltb_spec i 0); cbn [andb]; try reflexivity; lia.
Qed.
Example negative_case : take 0 [10; 20; 30] [-1; 0; -3] = Ok [30; 10; 10].
Proof. reflexivity. Qed.
Print Assumptions negative_indices_from_the_end.
Print Assumptions indices_out_of_range_refused.
Print Assumptions active_atoms_restricted.
Print Assumptions all_atoms_by_default.
Print Assumptions too_many_or_last_out_of_range_rejected.
Print Assumptions out_of_range_not_rejected_refuted.
Print Assumptions permuted_list_misassigns_forces_refuted.
Print Assumptions second_system_truncated_refuted.
